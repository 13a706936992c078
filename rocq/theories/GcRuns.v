(** No call faults after a collection. *)
From stdpp Require Import base numbers list gmap relations.
From Verif Require Import GoInt Mem Hash Amt Families BitsFacts Steps Tree Rep Paths Descend Insert Split Delete Remove Core Scan Order Heap Spec SpecFacts Guards Client Types Refine RefineSet Instances Pack Shape ShapeRuns Observe ObserveFacts ForkSpec Knows KeepSpec GcSpec Gc.
Local Open Scope nat_scope.

(** ** Maps *)
Section seen.
Context `{Countable K} {V U : Type}.
Variables (dig : N -> K -> nat -> N) (zero : V).
Local Notation mstate := (mstate K V U).
Local Notation history := (list (mop K V U * mres V)).
Implicit Types (σ : mstate) (tr : history) (R : gset loc).

(** What σ must have of a program's maps and values: those in R. *)
Record seen tr R σ : Prop := Seen {
  sn_wf : mwf σ;
  sn_new : ∀ s h, h ∈ R -> (MNew s, RHandle h) ∈ tr -> ∃ m, ms_map σ !! h = Some (s, m);
  sn_stored : ∀ s h k, h ∈ R -> (MNew s, RHandle h) ∈ tr -> k ∈ stored tr h <-> holds σ h k;
  sn_ptr : ∀ h k p, p ∈ R -> (MPtr h k, RPtr (Some p)) ∈ tr -> is_Some (ms_val σ !! p) }.

Lemma seen_nil u0 : seen [] ∅ (minit u0).
Proof.
  split.
  - constructor; simpl; intros; by rewrite lookup_empty in *.
  - by intros s h ?%elem_of_empty.
  - by intros s h k ?%elem_of_empty.
  - by intros h k p ?%elem_of_empty.
Qed.
Lemma seen_forget tr R R' σ : seen tr R σ -> R' ⊆ R -> seen tr R' σ.
Proof.
  intros [H1 H2 H3 H4] Hsub. split; [done| | |].
  - intros s h HR. by apply H2, Hsub.
  - intros s h k HR. apply H3. by apply Hsub.
  - intros h k p HR. by apply H4, Hsub.
Qed.
Lemma seen_fits W tr R σ h k : seen tr R σ -> h ∈ R -> (∃ s, (MNew s, RHandle h) ∈ tr) ->
  k ∈ stored tr h \/ (∀ s, (MNew s, RHandle h) ∈ tr -> free dig W s (elements (stored tr h)) k) -> Refine.fits dig W σ h k.
Proof.
  intros Hs HR [s Hin] Hg. destruct (sn_new _ _ _ Hs _ _ HR Hin) as [m Hm].
  exists s, m. split; [done|]. destruct Hg as [Hg|Hg].
  - left. apply (sn_stored _ _ _ Hs _ _ _ HR Hin) in Hg as (s1 & m1 & Hm1 & Hk). congruence.
  - right. eapply free_perm; [|by apply Hg].
    apply NoDup_Permutation; [apply NoDup_elements|apply NoDup_fst_map_to_list|].
    intros k'. rewrite elem_of_elements, (sn_stored _ _ _ Hs _ _ k' HR Hin). unfold holds. rewrite Hm.
    rewrite elem_of_list_fmap. split.
    + intros (s' & m' & [= <- <-] & p & Hp). exists (k', p). split; [done|]. by apply elem_of_map_to_list.
    + intros ([k1 p] & -> & Hp%elem_of_map_to_list). simpl. eauto.
Qed.
Lemma seen_can {CK} (L : layout K V CK) Q WS WM tr R σ op : seen tr R σ -> (∀ a, takes op = Some a -> a ∈ R) ->
  mallowed (ly_ok L) Q tr op -> ins_guard dig WS WM tr op -> Refine.can L Q dig WS WM σ op.
Proof.
  intros Hs Ht Ha Hg.
  assert (Hl : ∀ s h, h ∈ R -> (MNew s, RHandle h) ∈ tr -> is_Some (ms_map σ !! h)).
  { intros s h HR Hin. destruct (sn_new _ _ _ Hs _ _ HR Hin) as [m Hm]. eauto. }
  destruct op as [s|h k v|h k f|h k|h k|h k|h k|h|h|h f|p|p v]; simpl in *; try done; specialize (Ht _ eq_refl).
  1-2: destruct Ha as [[s Hh] Hk]; split_and!; [by eapply Hl|done|]; eapply seen_fits; eauto.
  1-4: destruct Ha as [[s Hh] Hk]; split; [by eapply Hl|done].
  1-3: destruct Ha as [s Hh]; by eapply Hl.
  1-2: destruct Ha as (h & k & Hin); by eapply (sn_ptr _ _ _ Hs).
Qed.

(** Maps are not values. *)
Definition apart σ : Prop := ∀ h, is_Some (ms_map σ !! h) -> ms_val σ !! h = None.

Lemma seen_step u0 tr R σ0 σ0' σ op res σ' : mspec dig zero u0 tr σ0 -> mstep dig zero σ0 op res σ0' -> apart σ0' ->
  seen tr R σ -> mstep dig zero σ op res σ' -> seen ((op, res) :: tr) (R ∪ gives res) σ'.
Proof.
  intros Hs0 Hst0 Hap Hs Hst. pose proof Hs as [Hwf Hnew Hsto Hptr].
  destruct (mstep_wf dig zero σ op res σ' Hwf Hst) as [Hwf' [Hgm Hgv]].
  pose proof (mspec_wf dig zero u0 tr σ0 Hs0) as Hwf0.
  destruct (mstep_wf dig zero σ0 op res σ0' Hwf0 Hst0) as [Hwf0' [Hgm0 Hgv0]].
  pose proof (mspec_cons dig zero u0 tr σ0 op res σ0' Hs0 Hst0) as Hs0'.
  (* a map of the history that the program has *)
  assert (Hold : ∀ s h, h ∈ R ∪ gives res -> (MNew s, RHandle h) ∈ tr -> h ∈ R).
  { intros s h [HR|HR]%elem_of_union Hin; [done|]. exfalso.
    assert (Hl : is_Some (ms_map σ0 !! h)) by (by eapply mspec_live).
    destruct res as [|h1| | |[p|]| |]; simpl in HR; try (by apply elem_of_empty in HR); apply elem_of_singleton in HR; subst.
    - destruct op; simpl in Hst0; try (by destruct Hst0 as (? & _)); try (by destruct Hst0 as (? & ? & ?)).
      + destruct Hst0 as (h2 & [= <-] & Hn & _). rewrite Hn in Hl. by destruct Hl.
      + by destruct Hst0 as (_ & ? & ? & ? & ?).
      + by destruct Hst0 as (_ & ? & ? & ? & ?).
      + by destruct Hst0 as (_ & ? & ? & ? & ?).
      + by destruct Hst0 as (_ & ? & ? & ?).
    - assert (Hop : ∃ h k, op = MPtr h k).
      { destruct op; simpl in Hst0; eauto; exfalso; try (by destruct Hst0 as (? & _)); try (by destruct Hst0 as (? & ? & ?)).
        - by destruct Hst0 as (_ & ? & ? & ? & ?).
        - by destruct Hst0 as (_ & ? & ? & ? & ?).
        - by destruct Hst0 as (_ & ? & ? & ?). }
      destruct Hop as (h1 & k1 & ->).
      destruct (mspec_addr dig zero u0 _ _ Hs0' h1 k1 p ltac:(by left)) as [v Hv].
      destruct Hl as [[s1 m1] Hl]. destruct (Hgm0 _ _ _ Hl) as [m2 Hm2]. rewrite Hap in Hv by eauto. discriminate. }
  split; [exact Hwf'| | |].
  - intros s h HR [Heq|Hin]%elem_of_cons.
    + injection Heq as <- <-. destruct Hst as (h' & [= <-] & _ & ->). simpl. rewrite lookup_insert. eauto.
    + destruct (Hnew s h) as [m Hm]; [by eapply Hold|done|]. by eapply Hgm.
  - intros s h k HR [Heq|Hin]%elem_of_cons.
    + injection Heq as <- <-. cbn [stored].
      rewrite (stored_holds dig zero u0 tr σ0 h k Hs0).
      destruct Hst as (h' & [= <-] & _ & ->). destruct Hst0 as (h' & [= <-] & Hn & _). unfold holds. simpl. rewrite lookup_insert, Hn.
      split; [by intros (? & ? & ? & _)|]. intros (s1 & m1 & [= <- <-] & Hk). rewrite lookup_empty in Hk. by destruct Hk.
    + pose proof (Hsto s h k ltac:(by eapply Hold) Hin) as IH.
      pose proof (mstep_holds dig zero _ _ _ _ h k Hst) as Hh.
      destruct op as [s1|h1 k1 v|h1 k1 f|h1 k1|h1 k1|h1 k1|h1 k1|h1|h1|h1 f|p|p v]; cbn [stored];
        rewrite Hh, <- ?IH; try tauto; destruct (Pos.eqb_spec h1 h) as [->|Hne]; set_solver.
  - intros h k p HR [Heq|Hin]%elem_of_cons.
    + injection Heq as <- <-. destruct Hst as (-> & s & m & Hm & [= Hp]). by eapply (mw_val σ Hwf).
    + apply elem_of_union in HR as [HR|HR]; [by eapply Hgv, Hptr|].
      destruct res as [|h1| | |[p1|]| |]; simpl in HR; try (by apply elem_of_empty in HR); apply elem_of_singleton in HR; subst.
      * (* the address of a value is not that of a new map *)
        exfalso. assert (Hop : ∃ s, op = MNew s).
        { destruct op; simpl in Hst0; eauto; exfalso; try (by destruct Hst0 as (? & _)); try (by destruct Hst0 as (? & ? & ?)).
          - by destruct Hst0 as (_ & ? & ? & ? & ?).
          - by destruct Hst0 as (_ & ? & ? & ? & ?).
          - by destruct Hst0 as (_ & ? & ? & ? & ?).
          - by destruct Hst0 as (_ & ? & ? & ?). }
        destruct Hop as [s ->]. destruct (mspec_addr dig zero u0 _ _ Hs0' h k h1 ltac:(by right)) as [v Hv].
        rewrite Hap in Hv; [discriminate|]. eapply mspec_live; [exact Hs0'|]. by left.
      * assert (Hop : ∃ h k, op = MPtr h k).
        { destruct op; simpl in Hst0; eauto; exfalso; try (by destruct Hst0 as (? & _)); try (by destruct Hst0 as (? & ? & ?)).
          - by destruct Hst0 as (_ & ? & ? & ? & ?).
          - by destruct Hst0 as (_ & ? & ? & ? & ?).
          - by destruct Hst0 as (_ & ? & ? & ?). }
        destruct Hop as (h2 & k2 & ->). destruct Hst as (-> & s & m & Hm & [= Hp]). by eapply (mw_val σ Hwf).
Qed.
End seen.

Section rel.
Context `{Countable K} {HS V CK U : Type}.
Variables (F : fam K HS V CK U) (L : layout K V CK) (Q : N -> Prop).
Hypothesis HF : fam_ok F L.
Hypothesis Hcell : ly_cell L = true.
Implicit Types (w : world V CK U) (σ : mstate K V U).

Lemma Rel_apart w σ : Refine.Rel F L Q w σ -> apart σ.
Proof.
  intros HR h Hh. destruct (Refine.Rel_handle F L Q w σ h HR Hh) as (G & s & T & HI & HGh & HQ & HG & Hm & Hmh & Hv & Hu).
  destruct HG as [[(rt & Hrt & _) _ _ _] _]. by rewrite Hv, vals_lookup, Hrt.
Qed.

Lemma Rel_collect w σ tr R m' : Refine.Rel F L Q w σ -> seen tr R σ -> collected R (w_mem w) m' ->
  ∃ σ', Refine.Rel F L Q (set_mem w m') σ' /\ seen tr R σ'.
Proof.
  intros (G & HI & Hm & Hv & Hu) [Hwf Hnew Hsto Hptr] Hcol.
  pose proof (Inv_collect F L HF 240 Q w G R m' HI Hcol) as HI'.
  set (G' := filter (λ x, x.1 ∈ R) G) in *.
  set (σ' := MState ((λ x : N * tree K, (x.1, Refine.dict x.2)) <$> G') (vals (set_mem w m')) (w_usr w)).
  assert (Hsame : ∀ h, h ∈ R -> ms_map σ' !! h = ms_map σ !! h).
  { intros h HR. unfold σ'. cbn [ms_map]. rewrite Hm, !lookup_fmap. f_equal. unfold G'.
    destruct (G !! h) as [x|] eqn:E; [by apply map_filter_lookup_Some|].
    apply map_filter_lookup_None. by left. }
  assert (Hsub : ∀ h s m, ms_map σ' !! h = Some (s, m) -> ms_map σ !! h = Some (s, m)).
  { intros h s m Hh. destruct (decide (h ∈ R)) as [HR|HR]; [by rewrite <- Hsame|]. exfalso.
    unfold σ' in Hh. cbn [ms_map] in Hh. rewrite lookup_fmap in Hh. apply fmap_Some in Hh as (x & Hx & _).
    by apply map_filter_lookup_Some in Hx as [_ HR']. }
  exists σ'. split.
  - exists G'. split_and!; done.
  - split.
    + constructor.
      * intros h s m k p Hh Hk. unfold σ' in Hh. cbn [ms_map] in Hh. rewrite lookup_fmap in Hh.
        apply fmap_Some in Hh as ([s1 T] & Hx & E). cbn [fst snd] in E. injection E as -> ->.
        destruct (in_good F L 240 Q _ _ HI' _ _ _ Hx) as [_ HG].
        apply (Refine.dict_some F L Hcell _ _ _ _ _ _ HG) in Hk.
        destruct (Good_ok _ _ _ _ _ _ _ _ _ HG Hk) as [_ Hc]. unfold cell in Hc. rewrite Hcell in Hc.
        destruct Hc as (a & v & [= <-] & Hb). unfold σ'. cbn [ms_val]. rewrite vals_lookup, Hb. eauto.
      * intros h s m k h' s' m1 k' p Hh Hk Hh' Hk'. eapply (mw_inj σ Hwf); eauto.
    + intros s h HR Hin. rewrite Hsame by done. by apply Hnew.
    + intros s h k HR Hin. rewrite (Hsto s h k HR Hin). unfold holds. by rewrite Hsame.
    + intros h k p HR Hin. unfold σ'. cbn [ms_val]. destruct (Hptr h k p HR Hin) as [v Hp]. exists v.
      rewrite Hv, vals_lookup in Hp. rewrite vals_lookup. destruct Hcol as [_ Hk].
      cbn [w_mem set_mem]. by rewrite (Hk p p HR (rtc_refl _ _)).
Qed.
End rel.

Section run.
Context {V U : Type} (zero : V) (fuel : nat) (u0 : U).
Hypothesis Hfuel : 256 <= fuel.
Context `{Countable K} {CK : Type} (api : mapapi K V CK U) (dig : N -> K -> nat -> N).
Variable ok : list (mop K V U * mres V) -> mop K V U -> Prop.
Hypothesis Ht : map_type zero fuel api dig ok.
Implicit Types (tr : list (mop K V U * mres V)) (w : world V CK U) (h : loc) (k : K).

Lemma type_any_map : any_map zero fuel api.
Proof. clear Hfuel u0. destruct Ht; constructor. Qed.

Lemma gc_go tr R w op : gcrun api ok u0 tr R w -> ok tr op -> (∀ a, takes op = Some a -> a ∈ R) ->
  ∃ res w', mcall api op w = Ret res w'.
Proof.
  intros Hg. pose proof type_any_map as Hany. revert op. destruct (map_pack zero fuel api dig ok Ht) as [].
  assert (Hinv : ∃ w0 σ0 σ, mrun api ok u0 tr w0 /\ mspec dig zero u0 tr σ0 /\ Refine.Rel F L Q w0 σ0 /\ less w w0 /\
    Refine.Rel F L Q w σ /\ seen tr R σ).
  { induction Hg as [|tr R w op res w' Hg IH Ho Hta Hc|tr R R' w Hg IH Hsub|tr R w m' Hg IH Hcol].
    - exists (empty_world u0), (minit u0), (minit u0). split_and!; [constructor|constructor|apply Refine.Rel_init|done|apply Refine.Rel_init|apply seen_nil].
    - destruct IH as (w0 & σ0 & σ & Hr & Hsp & HR0 & Hl & HR & Hs). destruct (Hok _ _ Ho) as [Hal Hgu].
      destruct (mcall_less zero fuel api op w w0 res w' Hany Hc Hl) as (w0' & Hc0 & Hl').
      assert (Hcan0 : Refine.can L Q dig WS WM σ0 op) by (by eapply (Refine.allowed_can L Q zero dig WS WM u0)).
      assert (Hcan : Refine.can L Q dig WS WM σ op) by (by eapply seen_can).
      destruct (Refine.step_ok F L Q HF HL Hcell zero fuel Hfuel dig Hdig FS FM sop mdop vs WS WM HFS HFM HWS HWM Hvs Hsop Hmop
        api HSet HMod HDel HGet HVal HPtr HAll w0 σ0 op HR0 Hcan0) as (r0 & w0'' & σ0' & E0 & Hst0 & HR0').
      destruct (Refine.step_ok F L Q HF HL Hcell zero fuel Hfuel dig Hdig FS FM sop mdop vs WS WM HFS HFM HWS HWM Hvs Hsop Hmop
        api HSet HMod HDel HGet HVal HPtr HAll w σ op HR Hcan) as (r1 & w'' & σ' & E1 & Hst & HR').
      rewrite Hc0 in E0. injection E0 as <- <-. rewrite Hc in E1. injection E1 as <- <-.
      exists w0', σ0', σ'. split_and!; [by econstructor|by econstructor|exact HR0'|exact Hl'|exact HR'|].
      eapply seen_step; [exact Hsp|exact Hst0| |exact Hs|exact Hst]. by eapply Rel_apart.
    - destruct IH as (w0 & σ0 & σ & Hr & Hsp & HR0 & Hl & HR & Hs). exists w0, σ0, σ. split_and!; try done.
      by eapply seen_forget.
    - destruct IH as (w0 & σ0 & σ & Hr & Hsp & HR0 & Hl & HR & Hs).
      destruct (Rel_collect F L Q HF Hcell w σ tr R m' HR Hs Hcol) as (σ' & HR' & Hs').
      exists w0, σ0, σ'. split_and!; try done. destruct Hl as (Hm & Hn & Hu). split_and!; simpl; [|done|done]. etrans; [apply Hcol|done]. }
  destruct Hinv as (w0 & σ0 & σ & Hr & Hsp & HR0 & Hl & HR & Hs). intros op Ho Hta. destruct (Hok _ _ Ho) as [Hal Hgu].
  assert (Hcan : Refine.can L Q dig WS WM σ op) by (by eapply seen_can).
  destruct (Refine.step_ok F L Q HF HL Hcell zero fuel Hfuel dig Hdig FS FM sop mdop vs WS WM HFS HFM HWS HWM Hvs Hsop Hmop
    api HSet HMod HDel HGet HVal HPtr HAll w σ op HR Hcan) as (r1 & w'' & σ' & E1 & Hst & HR'). eauto.
Qed.

(** A call with what is left of the memory does what it does with all of it. *)
Lemma gc_invisible tr R w op : gcrun api ok u0 tr R w -> ok tr op -> (∀ a, takes op = Some a -> a ∈ R) ->
  ∃ w0 res w' w0', mrun api ok u0 tr w0 /\ w_usr w = w_usr w0 /\ mcall api op w0 = Ret res w0' /\
    mcall api op w = Ret res w' /\ w_usr w' = w_usr w0'.
Proof.
  intros Hg Ho Hta. destruct (gcrun_less zero fuel api ok u0 tr R w type_any_map Hg) as (w0 & Hr & Hl).
  destruct (gc_go tr R w op Hg Ho Hta) as (res & w' & Hc).
  destruct (mcall_less zero fuel api op w w0 res w' type_any_map Hc Hl) as (w0' & Hc0 & Hl').
  exists w0, res, w', w0'. split_and!; try done; [apply Hl|apply Hl'].
Qed.
End run.

(** ** Sets *)
Section sseen.
Context `{Countable K} {U : Type}.
Variables (dig : N -> K -> nat -> N).
Local Notation sstate := (sstate K U).
Local Notation history := (list (sop K U * sres)).
Implicit Types (σ : sstate) (tr : history) (R : gset loc).

Definition sseen tr R σ : Prop := ∀ s h, h ∈ R -> (SNew s, THandle h) ∈ tr -> ss_set σ !! h = Some (s, sstored tr h).

Lemma sseen_can {CK} (L : layout K unit CK) Q W dfull tr R σ op : sseen tr R σ -> (∀ a, stakes op = Some a -> a ∈ R) ->
  sallowed (ly_ok L) Q tr op -> RefineSet.guarded dig W dfull tr op -> RefineSet.can L Q dig W dfull σ op.
Proof.
  intros Hs Ht Ha Hg.
  assert (Hl : ∀ s h, h ∈ R -> (SNew s, THandle h) ∈ tr -> is_Some (ss_set σ !! h)).
  { intros s h HR Hin. rewrite (Hs _ _ HR Hin). eauto. }
  destruct op as [s|h k|h k|h k|h|h|h f]; simpl in *; try done; specialize (Ht _ eq_refl).
  1: destruct Ha as [[s Hh] Hk]; split_and!; [by eapply Hl|done|];
    eexists _, _; split; [by eapply Hs|]; destruct Hg as [?|Hg]; [by left|right; by apply Hg].
  1: destruct Ha as [[s Hh] Hk]; split_and!; [by eapply Hl|done|done].
  1: destruct Ha as [[s Hh] Hk]; split; [by eapply Hl|done].
  1-3: destruct Ha as [s Hh]; by eapply Hl.
Qed.

Lemma sseen_step u0 tr R σ0 σ0' σ op res σ' : sspec dig u0 tr σ0 -> sstep dig σ0 op res σ0' ->
  sseen tr R σ -> sstep dig σ op res σ' -> sseen ((op, res) :: tr) (R ∪ sgives res) σ'.
Proof.
  intros Hs0 Hst0 Hs Hst s h HR Hin. pose proof (sspec_knows dig u0 tr σ0 Hs0) as Hk0.
  destruct op as [s1|h1 k1|h1 k1|h1 k1|h1|h1|h1 f]; simpl in Hst, Hst0; cbn [sstored].
  - destruct Hst as (h1 & -> & Hn & ->). destruct Hst0 as (h2 & [= <-] & Hn0 & _). simpl in HR |- *.
    apply elem_of_cons in Hin as [Heq|Hin].
    + injection Heq as <- <-. rewrite lookup_insert. by rewrite (sk_none _ _ Hk0 _ Hn0).
    + assert (h ≠ h1) as Hne. { intros ->. destruct (sk_live _ _ Hk0 _ _ Hin) as [x Hx]. congruence. }
      rewrite lookup_insert_ne by done. apply Hs; [set_solver +HR Hne|done].
  - destruct Hst as (-> & s2 & X & HX & ->). apply elem_of_cons in Hin as [Heq|Hin]; [discriminate Heq|].
    assert (HR' : h ∈ R) by set_solver +HR. pose proof (Hs _ _ HR' Hin) as Hh. simpl.
    destruct (Pos.eqb_spec h1 h) as [->|Hne].
    + rewrite lookup_insert. rewrite Hh in HX. by injection HX as <- <-.
    + by rewrite lookup_insert_ne.
  - destruct Hst as (-> & s2 & X & HX & ->). apply elem_of_cons in Hin as [Heq|Hin]; [discriminate Heq|].
    assert (HR' : h ∈ R) by set_solver +HR. pose proof (Hs _ _ HR' Hin) as Hh. simpl.
    destruct (Pos.eqb_spec h1 h) as [->|Hne].
    + rewrite lookup_insert. rewrite Hh in HX. by injection HX as <- <-.
    + by rewrite lookup_insert_ne.
  - destruct Hst as (-> & s2 & X & HX & ->). apply elem_of_cons in Hin as [Heq|Hin]; [discriminate Heq|].
    apply Hs; [set_solver +HR|done].
  - destruct Hst as (-> & s2 & X & HX & ->). apply elem_of_cons in Hin as [Heq|Hin]; [discriminate Heq|].
    apply Hs; [set_solver +HR|done].
  - destruct Hst as (-> & s2 & X & HX & ->). apply elem_of_cons in Hin as [Heq|Hin]; [discriminate Heq|].
    apply Hs; [set_solver +HR|done].
  - destruct Hst as (-> & s2 & X & ks & HX & _ & _ & ->). apply elem_of_cons in Hin as [Heq|Hin]; [discriminate Heq|].
    apply Hs; [set_solver +HR|done].
Qed.
End sseen.

Section srel.
Context `{Countable K} {HS CK U : Type}.
Variables (F : fam K HS unit CK U) (L : layout K unit CK) (Q : N -> Prop).
Hypothesis HF : fam_ok F L.
Implicit Types (w : world unit CK U) (σ : sstate K U).

Lemma sRel_collect w σ tr R m' : RefineSet.Rel F L Q w σ -> sseen tr R σ -> collected R (w_mem w) m' ->
  ∃ σ', RefineSet.Rel F L Q (set_mem w m') σ' /\ sseen tr R σ'.
Proof.
  intros (G & HI & Hm & Hu) Hs Hcol.
  pose proof (Inv_collect F L HF 240 Q w G R m' HI Hcol) as HI'.
  set (G' := filter (λ x, x.1 ∈ R) G) in *.
  exists (SState ((λ x : N * tree K, (x.1, RefineSet.keys x.2)) <$> G') (w_usr w)). split.
  - exists G'. split_and!; done.
  - intros s h HR Hin. pose proof (Hs s h HR Hin) as Hh. cbn [ss_set]. rewrite Hm, lookup_fmap in Hh.
    apply fmap_Some in Hh as (x & Hx & ->). rewrite lookup_fmap. apply fmap_Some. exists x. split; [|done].
    by apply map_filter_lookup_Some.
Qed.
End srel.

Section srun.
Context {U : Type} (fuel : nat) (u0 : U).
Hypothesis Hfuel : 256 <= fuel.
Context `{Countable K} {CK : Type} (api : setapi K unit CK U) (dig : N -> K -> nat -> N).
Variable ok : list (sop K U * sres) -> sop K U -> Prop.
Hypothesis Ht : set_type fuel api dig ok.
Implicit Types (tr : list (sop K U * sres)) (w : world unit CK U) (h : loc) (k : K).

Lemma type_any_set : ∃ b, any_set fuel b api.
Proof. clear Hfuel u0. destruct Ht; eexists; constructor. Qed.

Lemma sgc_go tr R w op : sgcrun api ok u0 tr R w -> ok tr op -> (∀ a, stakes op = Some a -> a ∈ R) ->
  ∃ res w', scall api op w = Ret res w'.
Proof.
  intros Hg. destruct type_any_set as [b Hany]. revert op. destruct (set_pack fuel api dig ok Ht) as [].
  assert (Hinv : ∃ w0 σ0 σ, srun api ok u0 tr w0 /\ sspec dig u0 tr σ0 /\ RefineSet.Rel F L Q w0 σ0 /\ less w w0 /\
    RefineSet.Rel F L Q w σ /\ sseen tr R σ).
  { induction Hg as [|tr R w op res w' Hg IH Ho Hta Hc|tr R R' w Hg IH Hsub|tr R w m' Hg IH Hcol].
    - exists (empty_world u0), (sinit u0), (sinit u0). split_and!; [constructor|constructor|apply RefineSet.Rel_init|done|apply RefineSet.Rel_init|by intros s h ?%elem_of_empty].
    - destruct IH as (w0 & σ0 & σ & Hr & Hsp & HR0 & Hl & HR & Hs). destruct (Hok _ _ Ho) as [Hal Hgu].
      destruct (scall_less b fuel api op w w0 res w' Hany Hc Hl) as (w0' & Hc0 & Hl').
      assert (Hcan0 : RefineSet.can L Q dig W dfull σ0 op) by (by eapply (RefineSet.allowed_can L Q dig W dfull u0)).
      assert (Hcan : RefineSet.can L Q dig W dfull σ op) by (by eapply sseen_can).
      destruct (RefineSet.step_ok F L Q HF HL fuel Hfuel dig Hdig FA aop W dfull tt HFA HW Haop api HAdd HDel HHas HAll
        w0 σ0 op HR0 Hcan0) as (r0 & w0'' & σ0' & E0 & Hst0 & HR0').
      destruct (RefineSet.step_ok F L Q HF HL fuel Hfuel dig Hdig FA aop W dfull tt HFA HW Haop api HAdd HDel HHas HAll
        w σ op HR Hcan) as (r1 & w'' & σ' & E1 & Hst & HR').
      rewrite Hc0 in E0. injection E0 as <- <-. rewrite Hc in E1. injection E1 as <- <-.
      exists w0', σ0', σ'. split_and!; [by econstructor|by econstructor|exact HR0'|exact Hl'|exact HR'|].
      by eapply sseen_step.
    - destruct IH as (w0 & σ0 & σ & Hr & Hsp & HR0 & Hl & HR & Hs). exists w0, σ0, σ. split_and!; try done.
      intros s h Hh. apply Hs. by apply Hsub.
    - destruct IH as (w0 & σ0 & σ & Hr & Hsp & HR0 & Hl & HR & Hs).
      destruct (sRel_collect F L Q HF w σ tr R m' HR Hs Hcol) as (σ' & HR' & Hs').
      exists w0, σ0, σ'. split_and!; try done. destruct Hl as (Hm & Hn & Hu). split_and!; simpl; [|done|done]. etrans; [apply Hcol|done]. }
  destruct Hinv as (w0 & σ0 & σ & Hr & Hsp & HR0 & Hl & HR & Hs). intros op Ho Hta. destruct (Hok _ _ Ho) as [Hal Hgu].
  assert (Hcan : RefineSet.can L Q dig W dfull σ op) by (by eapply sseen_can).
  destruct (RefineSet.step_ok F L Q HF HL fuel Hfuel dig Hdig FA aop W dfull tt HFA HW Haop api HAdd HDel HHas HAll
    w σ op HR Hcan) as (r1 & w'' & σ' & E1 & Hst & HR'). eauto.
Qed.

Lemma sgc_invisible tr R w op : sgcrun api ok u0 tr R w -> ok tr op -> (∀ a, stakes op = Some a -> a ∈ R) ->
  ∃ w0 res w' w0', srun api ok u0 tr w0 /\ w_usr w = w_usr w0 /\ scall api op w0 = Ret res w0' /\
    scall api op w = Ret res w' /\ w_usr w' = w_usr w0'.
Proof.
  intros Hg Ho Hta. destruct type_any_set as [b Hany]. destruct (sgcrun_less b fuel api ok u0 tr R w Hany Hg) as (w0 & Hr & Hl).
  destruct (sgc_go tr R w op Hg Ho Hta) as (res & w' & Hc).
  destruct (scall_less b fuel api op w w0 res w' Hany Hc Hl) as (w0' & Hc0 & Hl').
  exists w0, res, w', w0'. split_and!; try done; [apply Hl|apply Hl'].
Qed.
End srun.
