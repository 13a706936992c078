(** What a history says about the state it led to. All that later calls need of a history
    is here, whether it is one of single calls or of goroutines that have been joined. *)
From stdpp Require Import base numbers list gmap.
From Verif Require Import GoInt Mem Hash Amt Families BitsFacts Steps Tree Rep Paths Descend Insert Split Delete Remove Core Scan Order Heap Spec SpecFacts Guards HashFacts Client Types Refine RefineSet ForkSpec.
Local Open Scope nat_scope.

Section maps.
Context `{Countable K} {V U : Type}.
Variables (dig : N -> K -> nat -> N) (zero : V).
Local Notation mstate := (mstate K V U).
Local Notation history := (list (mop K V U * mres V)).
Implicit Types (σ : mstate) (tr : history).

(** π says to which map a value belongs. *)
Definition prov (π : gmap positive positive) tr σ : Prop :=
  (∀ h s m k p, ms_map σ !! h = Some (s, m) -> m !! k = Some p -> π !! p = Some h) /\
  (∀ h k p, (MPtr h k, RPtr (Some p)) ∈ tr -> π !! p = Some h) /\
  (∀ p, is_Some (π !! p) -> is_Some (ms_val σ !! p)).
Record knows tr σ : Prop := Knows {
  kn_wf : mwf σ;
  kn_seed : ∀ h s m, ms_map σ !! h = Some (s, m) -> (MNew s, RHandle h) ∈ tr;
  kn_new : ∀ s h, (MNew s, RHandle h) ∈ tr -> ∃ m, ms_map σ !! h = Some (s, m);
  kn_stored : ∀ h k, k ∈ stored tr h <-> holds σ h k;
  kn_ptr : ∀ h k p, (MPtr h k, RPtr (Some p)) ∈ tr -> is_Some (ms_map σ !! h) /\ is_Some (ms_val σ !! p);
  kn_prov : ∃ π, prov π tr σ }.
Lemma kn_live tr σ : knows tr σ -> ∀ s h, (MNew s, RHandle h) ∈ tr -> is_Some (ms_map σ !! h).
Proof. intros Hk s h Hin. destruct (kn_new _ _ Hk _ _ Hin) as [m Hm]. eauto. Qed.

Lemma prov_step tr σ op res σ' : mwf σ -> (∃ π, prov π tr σ) -> mstep dig zero σ op res σ' -> ∃ π, prov π ((op, res) :: tr) σ'.
Proof.
  intros Hwf (π & H1 & H2 & H3) Hst. unfold prov.
  destruct (mstep_wf dig zero σ op res σ' Hwf Hst) as [_ [_ Hgrow]].
  assert (Hsame : ms_map σ' = ms_map σ -> (∀ h k, op = MPtr h k -> False) -> ∃ π : gmap positive positive,
    (∀ h s m k p, ms_map σ' !! h = Some (s, m) -> m !! k = Some p -> π !! p = Some h) /\
    (∀ h k p, (MPtr h k, RPtr (Some p)) ∈ (op, res) :: tr -> π !! p = Some h) /\
    (∀ p, is_Some (π !! p) -> is_Some (ms_val σ' !! p))).
  { intros Hm Hop. exists π. rewrite Hm. split_and!; [done| |by auto].
    intros h k p [Heq|Hin]%elem_of_cons; [|by eapply H2]. injection Heq as <- _. exfalso. by eapply Hop. }
  assert (Hput : ∀ h k v u, put σ h k v u σ' -> (∀ h k, op = MPtr h k -> False) -> ∃ π : gmap positive positive,
    (∀ h s m k p, ms_map σ' !! h = Some (s, m) -> m !! k = Some p -> π !! p = Some h) /\
    (∀ h k p, (MPtr h k, RPtr (Some p)) ∈ (op, res) :: tr -> π !! p = Some h) /\
    (∀ p, is_Some (π !! p) -> is_Some (ms_val σ' !! p))).
  { intros h k v u (s & m & Hm & Hp) Hop. destruct (m !! k) as [p|] eqn:E; [subst σ'; by apply Hsame|].
    destruct Hp as (p & Hp & ->). assert (Hπ : π !! p = None).
    { destruct (π !! p) eqn:E'; [|done]. destruct (H3 p) as [x Hx]; [by eexists|]. congruence. }
    exists (<[p := h]> π). simpl. split_and!.
    - intros h' s' m' k' p' Hm' Hk'. destruct (decide (h' = h)) as [->|Hne].
      + rewrite lookup_insert in Hm'. injection Hm' as <- <-. destruct (decide (k' = k)) as [->|Hk].
        * rewrite lookup_insert in Hk'. injection Hk' as <-. apply lookup_insert.
        * rewrite lookup_insert_ne in Hk' by done. rewrite lookup_insert_ne; [by eapply H1|].
          intros <-. assert (π !! p = Some h) by (by eapply H1). congruence.
      + rewrite lookup_insert_ne in Hm' by done. rewrite lookup_insert_ne; [by eapply H1|].
        intros <-. assert (π !! p = Some h') by (by eapply H1). congruence.
    - intros h' k' p' [Heq|Hin]%elem_of_cons; [injection Heq as <- _; exfalso; by eapply Hop|].
      rewrite lookup_insert_ne; [by eapply H2|]. intros <-. assert (π !! p = Some h') by (by eapply H2). congruence.
    - intros p' Hp'. destruct (decide (p' = p)) as [->|Hne]; [rewrite lookup_insert; eauto|].
      rewrite lookup_insert_ne in Hp' by done. rewrite lookup_insert_ne by done. auto. }
  destruct op as [s|h k v|h k f|h k|h k|h k|h k|h|h|h f|p|p v]; simpl in Hst.
  - destruct Hst as (h & -> & Hn & ->). exists π. simpl. split_and!; [| |done].
    + intros h' s' m' k' p' Hm' Hk'. destruct (decide (h' = h)) as [->|Hne].
      * rewrite lookup_insert in Hm'. injection Hm' as <- <-. by rewrite lookup_empty in Hk'.
      * rewrite lookup_insert_ne in Hm' by done. by eapply H1.
    + intros h' k' p' [Heq|Hin]%elem_of_cons; [done|by eapply H2].
  - destruct Hst as [_ Hp]. by eapply Hput.
  - destruct Hst as [_ Hp]. destruct (f _ _ _) as [u v]. by eapply Hput.
  - destruct Hst as (_ & s & m & Hm & ->). exists π. simpl. split_and!; [| |done].
    + intros h' s' m' k' p' Hm' Hk'. destruct (decide (h' = h)) as [->|Hne].
      * rewrite lookup_insert in Hm'. injection Hm' as <- <-. apply lookup_delete_Some in Hk' as [_ Hk']. by eapply H1.
      * rewrite lookup_insert_ne in Hm' by done. by eapply H1.
    + intros h' k' p' [Heq|Hin]%elem_of_cons; [done|by eapply H2].
  - destruct Hst as [-> _]. by apply Hsame.
  - destruct Hst as [-> _]. by apply Hsame.
  - destruct Hst as (-> & s & m & Hm & ->). exists π. split_and!; [done| |done].
    intros h' k' p' [Heq|Hin]%elem_of_cons; [|by eapply H2]. injection Heq as -> -> Hp. by eapply H1.
  - destruct Hst as [-> _]. by apply Hsame.
  - destruct Hst as [-> _]. by apply Hsame.
  - destruct Hst as (_ & s & m & es & Hm & _ & _ & ->). by apply Hsame.
  - destruct Hst as [-> _]. by apply Hsame.
  - destruct Hst as (_ & _ & ->). by apply Hsame.
Qed.
(** The maps after a call are those before it, but for the one that New has made. *)
Lemma mstep_seed σ op res σ' h s m : mstep dig zero σ op res σ' -> ms_map σ' !! h = Some (s, m) ->
  (op = MNew s /\ res = RHandle h) \/ ∃ m', ms_map σ !! h = Some (s, m').
Proof.
  intros Hst Hm.
  assert (Hput : ∀ h1 k1 v1 u1, put σ h1 k1 v1 u1 σ' -> ∃ m', ms_map σ !! h = Some (s, m')).
  { intros h1 k1 v1 u1 (s1 & m1 & Hm1 & Hp). destruct (m1 !! k1).
    - subst σ'. eauto.
    - destruct Hp as (p & _ & ->). simpl in Hm. destruct (decide (h = h1)) as [->|Hne].
      + rewrite lookup_insert in Hm. injection Hm as <- <-. eauto.
      + rewrite lookup_insert_ne in Hm by done. eauto. }
  destruct op as [s1|h1 k1 v|h1 k1 f|h1 k1|h1 k1|h1 k1|h1 k1|h1|h1|h1 f|p|p v]; simpl in Hst.
  - destruct Hst as (h1 & -> & Hn & ->). simpl in Hm. destruct (decide (h = h1)) as [->|Hne].
    + rewrite lookup_insert in Hm. injection Hm as <- <-. by left.
    + rewrite lookup_insert_ne in Hm by done. right. eauto.
  - destruct Hst as (_ & Hp). right. by eapply Hput.
  - destruct Hst as (_ & Hp). destruct (f _ _ _) as [u1 v1]. right. by eapply Hput.
  - destruct Hst as (_ & s1 & m1 & Hm1 & ->). simpl in Hm. right. destruct (decide (h = h1)) as [->|Hne].
    + rewrite lookup_insert in Hm. injection Hm as <- <-. eauto.
    + rewrite lookup_insert_ne in Hm by done. eauto.
  - destruct Hst as (-> & _). right. eauto.
  - destruct Hst as (-> & _). right. eauto.
  - destruct Hst as (-> & _). right. eauto.
  - destruct Hst as (-> & _). right. eauto.
  - destruct Hst as (-> & _). right. eauto.
  - destruct Hst as (_ & s1 & m1 & es & _ & _ & _ & ->). right. eauto.
  - destruct Hst as (-> & _). right. eauto.
  - destruct Hst as (_ & _ & ->). right. eauto.
Qed.
Lemma knows_step tr σ op res σ' : knows tr σ -> mstep dig zero σ op res σ' -> knows ((op, res) :: tr) σ'.
Proof.
  intros [Hwf Hse Hn Hst0 Hp Hπ] Hst. destruct (mstep_wf dig zero σ op res σ' Hwf Hst) as [Hwf' [Hgr Hgv]]. split.
  - done.
  - intros h s m Hm. destruct (mstep_seed _ _ _ _ _ _ _ Hst Hm) as [[-> ->]|[m' Hm']]; [by left|]. right. by eapply Hse.
  - intros s h [[= <- <-]|Hin]%elem_of_cons.
    + destruct Hst as (h' & [= <-] & _ & ->). simpl. rewrite lookup_insert. eauto.
    + destruct (Hn _ _ Hin) as [m Hm]. eauto.
  - intros h k. pose proof (mstep_holds dig zero _ _ _ _ h k Hst) as Hh.
    destruct op as [s|h1 k1 v|h1 k1 f|h1 k1|h1 k1|h1 k1|h1 k1|h1|h1|h1 f|p|p v]; cbn [stored];
      rewrite Hh, <- ?Hst0; try tauto; destruct (Pos.eqb_spec h1 h) as [->|Hne]; set_solver.
  - intros h k p [[= <- <-]|Hin]%elem_of_cons.
    + destruct Hst as (-> & s & m & Hm & [= Hp']). split; [eauto|]. by eapply (mw_val σ Hwf).
    + destruct (Hp _ _ _ Hin) as [[[s m] Hm] Hv]. split; [|by apply Hgv]. destruct (Hgr _ _ _ Hm) as [m' Hm']. eauto.
  - exact (prov_step _ _ _ _ _ Hwf Hπ Hst).
Qed.
Lemma knows_nil (u0 : U) : knows [] (minit u0).
Proof.
  split; simpl.
  - constructor; simpl; intros; by rewrite lookup_empty in *.
  - intros h s m Hm. by rewrite lookup_empty in Hm.
  - intros s h Hin. by apply elem_of_nil in Hin.
  - intros h k. split; [set_solver|]. intros (s & m & Hm & _). simpl in Hm. by rewrite lookup_empty in Hm.
  - intros h k p Hin. by apply elem_of_nil in Hin.
  - exists ∅. split_and!; intros *; simpl; rewrite ?lookup_empty; try done; [by intros ?%elem_of_nil|by intros [? ?]].
Qed.
Lemma mspec_knows u0 tr σ : mspec dig zero u0 tr σ -> knows tr σ.
Proof. induction 1; [apply knows_nil|by eapply knows_step]. Qed.

Lemma knows_keys tr σ h s m : knows tr σ -> ms_map σ !! h = Some (s, m) -> elements (stored tr h) ≡ₚ (map_to_list m).*1.
Proof.
  intros Hs Hm. apply NoDup_Permutation; [apply NoDup_elements|apply NoDup_fst_map_to_list|].
  intros k. rewrite elem_of_elements, (kn_stored _ _ Hs). unfold holds. rewrite Hm.
  rewrite elem_of_list_fmap. split.
  - intros (s' & m' & [= <- <-] & p & Hp). exists (k, p). split; [done|]. by apply elem_of_map_to_list.
  - intros ([k' p] & -> & Hp%elem_of_map_to_list). simpl. eauto.
Qed.
Lemma knows_fits W tr σ h k : knows tr σ -> (∃ s, (MNew s, RHandle h) ∈ tr) ->
  k ∈ stored tr h \/ (∀ s, (MNew s, RHandle h) ∈ tr -> free dig W s (elements (stored tr h)) k) -> Refine.fits dig W σ h k.
Proof.
  intros Hs [s Hin] Hg. destruct (kn_new _ _ Hs _ _ Hin) as [m Hm].
  exists s, m. split; [done|]. destruct Hg as [Hg|Hg].
  - left. apply (kn_stored _ _ Hs) in Hg as (s1 & m1 & Hm1 & Hk). congruence.
  - right. eapply free_perm; [by eapply knows_keys|]. by apply Hg.
Qed.
Lemma knows_can {CK} (L : layout K V CK) Q WS WM tr σ op : knows tr σ -> mallowed (ly_ok L) Q tr op -> ins_guard dig WS WM tr op ->
  Refine.can L Q dig WS WM σ op.
Proof.
  intros Hs Ha Hg. pose proof (kn_live _ _ Hs) as Hl. pose proof (kn_ptr _ _ Hs) as Hp.
  destruct op as [s|h k v|h k f|h k|h k|h k|h k|h|h|h f|p|p v]; simpl in *; try done.
  1-2: destruct Ha as [[s Hh] Hk]; split_and!; [by eapply Hl|done|]; eapply knows_fits; eauto.
  1-4: destruct Ha as [[s Hh] Hk]; split; [by eapply Hl|done].
  1-3: destruct Ha as [s Hh]; by eapply Hl.
  1-2: destruct Ha as (h & k & Hin); by eapply Hp.
Qed.

Lemma knows_steps tr σ new σ' : knows tr σ -> msteps dig zero σ new σ' -> knows (new ++ tr) σ'.
Proof. intros Hk. induction 1; simpl; [done|by eapply knows_step]. Qed.
Lemma mspec_steps u0 tr σ new σ' : mspec dig zero u0 tr σ -> msteps dig zero σ new σ' -> mspec dig zero u0 (new ++ tr) σ'.
Proof. intros Hk. induction 1; simpl; [done|by econstructor]. Qed.
Lemma msteps_grow σ new σ' : mwf σ -> msteps dig zero σ new σ' -> mwf σ' /\ mgrow σ σ'.
Proof.
  intros Hw. induction 1 as [|new σ1 op res σ2 Hs [IH1 IH2] Hst]; [split; [done|apply mgrow_refl]|].
  destruct (mstep_wf dig zero _ _ _ _ IH1 Hst) as [H1 H2]. split; [done|].
  destruct IH2 as [IH2 IH3], H2 as [H2 H3]. split; [|by auto]. intros h s m Hm. destruct (IH2 _ _ _ Hm) as [m' Hm']. eauto.
Qed.
End maps.

Section sets.
Context `{Countable K} {U : Type}.
Variable dig : N -> K -> nat -> N.
Local Notation sstate := (sstate K U).
Local Notation history := (list (sop K U * sres)).
Implicit Types (σ : sstate) (tr : history).
Record sknows tr σ : Prop := SKnows {
  sk_in : ∀ h s X, ss_set σ !! h = Some (s, X) -> X = sstored tr h /\ (SNew s, THandle h) ∈ tr;
  sk_new : ∀ s h, (SNew s, THandle h) ∈ tr -> ∃ X, ss_set σ !! h = Some (s, X);
  sk_none : ∀ h, ss_set σ !! h = None -> sstored tr h = ∅ }.
Lemma sknows_nil (u0 : U) : sknows [] (sinit u0).
Proof.
  split; simpl; [|by intros ? ? ?%elem_of_nil|done]. intros h s X HX. by rewrite lookup_empty in HX.
Qed.
Lemma sstep_seed σ op res σ' : sstep dig σ op res σ' -> ∀ h s X, ss_set σ !! h = Some (s, X) -> ∃ X', ss_set σ' !! h = Some (s, X').
Proof.
  assert (Hins : ∀ h1 s1 X1 X2, ss_set σ !! h1 = Some (s1, X1) -> ∀ h s X, ss_set σ !! h = Some (s, X) ->
    ∃ X', <[h1 := (s1, X2)]> (ss_set σ) !! h = Some (s, X')).
  { intros h1 s1 X1 X2 H1 h s X HX. destruct (decide (h = h1)) as [->|Hne]; [|rewrite lookup_insert_ne by done; eauto].
    rewrite H1 in HX. injection HX as <- <-. rewrite lookup_insert. eauto. }
  intros Hst h s X HX. destruct op as [s1|h1 k1|h1 k1|h1 k1|h1|h1|h1 f]; simpl in Hst.
  - destruct Hst as (h1 & -> & Hn & ->). simpl. rewrite lookup_insert_ne by congruence. eauto.
  - destruct Hst as (_ & s1 & X1 & HX1 & ->). eauto.
  - destruct Hst as (_ & s1 & X1 & HX1 & ->). eauto.
  - destruct Hst as (-> & _). eauto.
  - destruct Hst as (-> & _). eauto.
  - destruct Hst as (-> & _). eauto.
  - destruct Hst as (_ & s1 & X1 & ks & _ & _ & _ & ->). eauto.
Qed.
Lemma sknows_step tr σ op res σ' : sknows tr σ -> sstep dig σ op res σ' -> sknows ((op, res) :: tr) σ'.
Proof.
  intros [Hin Hnew Hnone] Hst. split.
  - intros h s X HX.
    assert (Hkeep : σ' = σ -> X = sstored tr h /\ (SNew s, THandle h) ∈ (op, res) :: tr).
    { intros ->. destruct (Hin _ _ _ HX) as [-> Hi]. split; [done|by right]. }
    destruct op as [s1|h1 k1|h1 k1|h1 k1|h1|h1|h1 f]; simpl in Hst; cbn [sstored].
    + destruct Hst as (h1 & -> & Hn & ->). simpl in HX. destruct (decide (h = h1)) as [->|Hne].
      * rewrite lookup_insert in HX. injection HX as <- <-. split; [|left]. symmetry. by apply Hnone.
      * rewrite lookup_insert_ne in HX by done. destruct (Hin _ _ _ HX) as [-> Hi]. split; [done|by right].
    + destruct Hst as (_ & s1 & X1 & HX1 & ->). simpl in HX. destruct (Pos.eqb_spec h1 h) as [->|Hne].
      * rewrite lookup_insert in HX. injection HX as <- <-. destruct (Hin _ _ _ HX1) as [-> Hi]. split; [done|by right].
      * rewrite lookup_insert_ne in HX by done. destruct (Hin _ _ _ HX) as [-> Hi]. split; [done|by right].
    + destruct Hst as (_ & s1 & X1 & HX1 & ->). simpl in HX. destruct (Pos.eqb_spec h1 h) as [->|Hne].
      * rewrite lookup_insert in HX. injection HX as <- <-. destruct (Hin _ _ _ HX1) as [-> Hi]. split; [done|by right].
      * rewrite lookup_insert_ne in HX by done. destruct (Hin _ _ _ HX) as [-> Hi]. split; [done|by right].
    + destruct Hst as (-> & _). auto.
    + destruct Hst as (-> & _). auto.
    + destruct Hst as (-> & _). auto.
    + destruct Hst as (_ & s1 & X1 & ks & _ & _ & _ & ->). simpl in HX.
      destruct (Hin _ _ _ HX) as [-> Hi]. split; [done|by right].
  - intros s h [[= <- <-]|Hi]%elem_of_cons.
    + destruct Hst as (h' & [= <-] & _ & ->). simpl. rewrite lookup_insert. eauto.
    + destruct (Hnew _ _ Hi) as [X HX]. by eapply sstep_seed.
  - intros h Hn.
    destruct op as [s|h1 k1|h1 k1|h1 k1|h1|h1|h1 f]; simpl in Hst; cbn [sstored].
    + destruct Hst as (h1 & -> & _ & ->). simpl in Hn. apply lookup_insert_None in Hn as [Hn _]. auto.
    + destruct Hst as (_ & s & X & HX & ->). simpl in Hn. apply lookup_insert_None in Hn as [Hn Hne].
      destruct (Pos.eqb_spec h1 h) as [->|_]; [congruence|]. auto.
    + destruct Hst as (_ & s & X & HX & ->). simpl in Hn. apply lookup_insert_None in Hn as [Hn Hne].
      destruct (Pos.eqb_spec h1 h) as [->|_]; [congruence|]. auto.
    + destruct Hst as (-> & _). auto.
    + destruct Hst as (-> & _). auto.
    + destruct Hst as (-> & _). auto.
    + destruct Hst as (_ & s & X & ks & _ & _ & _ & ->). auto.
Qed.
Lemma sspec_knows u0 tr σ : sspec dig u0 tr σ -> sknows tr σ.
Proof. induction 1; [apply sknows_nil|by eapply sknows_step]. Qed.
Lemma sk_live tr σ : sknows tr σ -> ∀ s h, (SNew s, THandle h) ∈ tr -> is_Some (ss_set σ !! h).
Proof. intros Hk s h Hin. destruct (sk_new _ _ Hk _ _ Hin) as [m Hm]. eauto. Qed.
Lemma sknows_can {CK} (L : layout K unit CK) Q W dfull tr σ op : sknows tr σ -> sallowed (ly_ok L) Q tr op ->
  RefineSet.guarded dig W dfull tr op -> RefineSet.can L Q dig W dfull σ op.
Proof.
  intros Hs Ha Hg. pose proof (sk_live _ _ Hs) as Hl.
  destruct op as [s|h k|h k|h k|h|h|h f]; simpl in *; try done.
  1: destruct Ha as [[s Hh] Hk]; split_and!; [by eapply Hl|done|];
    destruct (Hl _ _ Hh) as [[s' X] HX]; destruct (sk_in tr σ Hs _ _ _ HX) as [-> Hin];
    eexists _, _; split; [exact HX|]; destruct Hg as [?|Hg]; [by left|right; by apply Hg].
  1: destruct Ha as [[s Hh] Hk]; split_and!; [by eapply Hl|done|done].
  1: destruct Ha as [[s Hh] Hk]; split; [by eapply Hl|done].
  1-3: destruct Ha as [s Hh]; by eapply Hl.
Qed.
Lemma sknows_steps tr σ new σ' : sknows tr σ -> ssteps dig σ new σ' -> sknows (new ++ tr) σ'.
Proof. intros Hk. induction 1; simpl; [done|by eapply sknows_step]. Qed.
Lemma sspec_steps u0 tr σ new σ' : sspec dig u0 tr σ -> ssteps dig σ new σ' -> sspec dig u0 (new ++ tr) σ'.
Proof. intros Hk. induction 1; simpl; [done|by econstructor]. Qed.
End sets.
