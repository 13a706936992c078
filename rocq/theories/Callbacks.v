(** Callbacks of All that are programs of the user. *)
From Coq Require Import Sorted.
From stdpp Require Import base numbers list gmap.
From Verif Require Import GoInt Mem Hash Amt Families BitsFacts Steps Tree Rep Paths Descend Insert Split Delete Remove Core Scan Order Heap Spec SpecFacts HashFacts Guards Client Types Refine RefineSet Instances Pack Observe ObserveFacts ObserveMap ObserveSet Programs ProgramFacts Tells.
Local Open Scope nat_scope.

(** ** Maps *)
Section maps.
Context {V U : Type} (zero : V) (fuel : nat) (Hfuel : 256 <= fuel).

Lemma tells_can `{Countable K} {CK} (L : layout K V CK) Q dig WS WM tr (σ : mstate K V U) op : tells tr σ -> mallowed (ly_ok L) Q tr op ->
  ins_guard dig WS WM tr op -> Refine.can L Q dig WS WM σ op.
Proof.
  intros Ht Ha Hg.
  assert (Hl : ∀ s h, (MNew s, RHandle h) ∈ tr -> is_Some (ms_map σ !! h)).
  { intros s h Hin. destruct (tl_new _ _ Ht _ _ Hin) as [m Hm]. by rewrite Hm. }
  assert (Hfits : ∀ W h k, (∃ s, (MNew s, RHandle h) ∈ tr) ->
    k ∈ stored tr h \/ (∀ s, (MNew s, RHandle h) ∈ tr -> free dig W s (elements (stored tr h)) k) -> Refine.fits dig W σ h k).
  { intros W h k [s Hin] Hx. destruct (tl_new _ _ Ht _ _ Hin) as [m Hm]. exists s, m. split; [done|].
    destruct Hx as [Hx|Hx].
    - left. apply (tl_holds _ _ Ht) in Hx as (s1 & m1 & Hm1 & Hk). congruence.
    - right. eapply free_perm; [by eapply tells_keys|]. by apply Hx. }
  destruct op as [s|h k v|h k f|h k|h k|h k|h k|h|h|h f|p|p v]; simpl in *; try done.
  1-2: destruct Ha as [[s Hh] Hk]; split_and!; [by eapply Hl|done|]; apply Hfits; eauto.
  1-4: destruct Ha as [[s Hh] Hk]; split; [by eapply Hl|done].
  1-3: destruct Ha as [s Hh]; by eapply Hl.
  1-2: destruct Ha as (h & k & Hin); by eapply (tl_addr _ _ Ht).
Qed.

Lemma loop_sim `{Countable K} {CK} (api : mapapi K V CK U) dig ok : map_type zero fuel api dig ok ->
  ∃ R : gmap loc (N * tree K) -> world V CK U -> mstate K V U -> Prop,
    (∀ u, R ∅ (empty_world u) (minit u)) /\
    (∀ G w σ, R G w σ -> ms_map σ = (λ x : N * tree K, (x.1, Refine.dict x.2)) <$> G) /\
    (∀ G w σ u, R G w σ -> R G (own u w) (mown u σ)) /\
    (∀ tr G w σ op, tells tr σ -> R G w σ -> ok tr op ->
       ∃ res w' σ' G', mcall api op w = Ret res w' /\ mstep dig zero σ op res σ' /\ R G' w' σ' /\
         (∀ h x, ms_map σ !! h = Some x -> ms_map σ' !! h = Some x -> G' !! h = G !! h) /\
         (reads op -> w' = w /\ σ' = σ)) /\
    (∀ G w σ h s T, R G w σ -> G !! h = Some (s, T) ->
       ∃ ks, ks ≡ₚ (map_to_list (Refine.dict T)).*1 /\ in_order dig s ks /\
       ∀ (I : list K -> world V CK U -> Prop) do (act : K -> M V CK U bool), I ks w ->
         (∀ ks w, I ks w -> ∃ G σ, R G w σ /\ G !! h = Some (s, T)) ->
         (∀ k a ks w, Refine.dict T !! k = Some a -> I (k :: ks) w -> do k (At a) w = act k w) ->
         (∀ k ks w w', I (k :: ks) w -> act k w = Ret true w' -> I ks w') ->
         ma_All api (Some h) do w = (_ <- walk act ks ;; ret tt) w).
Proof.
  intros Ht. destruct (map_pack zero fuel api dig ok Ht) as [].
  exists (Refine.RelG F L Q). split_and!.
  - intros u. destruct (Refine.Rel_init F L Q u) as [G HG]. 
    assert (G = ∅) as <-; [|done]. destruct HG as (_ & Hm & _). simpl in Hm. symmetry in Hm. by apply fmap_empty_inv in Hm.
  - by intros G w σ (_ & Hm & _).
  - intros G w σ u (HI & Hm & Hv & Hu). split_and!; try done. by apply Inv_usr.
  - intros tr G w σ op Htl HR Ho. destruct (Hok _ _ Ho) as [Ha Hg].
    assert (Hcan : Refine.can L Q dig WS WM σ op) by (by eapply tells_can).
    destruct (Refine.step_okG F L Q HF HL Hcell zero fuel Hfuel dig Hdig FS FM sop mdop vs WS WM
      HFS HFM HWS HWM Hvs Hsop Hmop api HSet HMod HDel HGet HVal HPtr HAll G w σ op HR Hcan) as (res & w' & σ' & G' & Hc & Hst & HR' & Hon).
    exists res, w', σ', G'. split_and!; try done. intros Hrd. split.
    + eapply (Refine.read_pure F L Q HF HL Hcell zero fuel Hfuel dig WS WM api HGet HVal HPtr w σ op res w'); try done. by exists G.
    + destruct op; try done; by destruct Hst as [-> _].
  - intros G w σ h s T (HI & Hm & Hv & Hu) HGh.
    destruct (in_good _ _ _ _ _ _ HI _ _ _ HGh) as [HQ HG].
    exists (map fst (leaves T)). split_and!.
    + rewrite (Refine.dict_list F L Hcell _ _ _ _ HG). by rewrite (Refine.ent_keys F L Hcell _ _ _ _ HG).
    + pose proof (order_spec F L 240 s w h T HG) as Hs.
      eapply StronglySorted_impl; [|exact Hs]. intros x y (d & H1 & H2). exists d. split.
      * intros i Hi. rewrite <- !Hdig. by apply H1.
      * by rewrite <- !Hdig.
    + intros I do act HIw HIR Heq Hstep. rewrite HAll. unfold all_map.
      assert (HIgood : ∀ ks w, I ks w -> Good F L 240 s w h T).
      { intros ks w0 H0. destruct (HIR _ _ H0) as (G0 & σ0 & (HI0 & _) & Hh0). by apply (in_good _ _ _ _ _ _ HI0 _ _ _ Hh0). }
      assert (Hactm : ∀ k p ks w, (k, p) ∈ leaves T -> I (k :: ks) w -> act_map F do (ly_leaf L k p) w = act k w).
      { intros k p ks w0 Hin H0. pose proof (HIgood _ _ H0) as HG0.
        destruct (Good_ok _ _ _ _ _ _ _ _ _ HG0 Hin) as [Hk Hc]. pose proof Hc as Hc'.
        unfold cell in Hc'. rewrite Hcell in Hc'. destruct Hc' as (a & v & -> & Ha).
        unfold act_map. rewrite (bind_Ret _ _ _ _ _ (fo_key _ _ HF k (At a) w0 Hk Hc)).
        rewrite (fo_ptr _ _ HF). eapply Heq; [|exact H0]. by apply (Refine.dict_some F L Hcell _ _ _ _ _ _ HG0). }
      assert (Hvis : ∀ es w, (∀ e, e ∈ es -> e ∈ leaves T) -> I (map fst es) w ->
        visits L (act_map F do) es w = walk act (map fst es) w).
      { induction es as [|[k p] es IH]; intros w0 Hsub H0; [done|]. cbn [visits map walk fst snd].
        assert (E' : act_map F do (ly_leaf L k p) w0 = act k w0) by (eapply Hactm; [apply Hsub; left|exact H0]).
        destruct (act_map F do (ly_leaf L k p) w0) as [b w1| | |] eqn:E; [|by unfold bind; rewrite E, <- E'..].
        rewrite (bind_Ret _ _ _ _ _ E), (bind_Ret _ _ _ _ _ (eq_sym E')). destruct b; [|done]. apply IH.
        - intros e He. apply Hsub. by right.
        - by eapply Hstep. }
      unfold bind. erewrite (scan_steps L (act_map F do) h T (λ es w, (∀ e, e ∈ es -> e ∈ leaves T) /\ I (map fst es) w)) with (c := []) (rest := []).
      * rewrite Hvis by done. done.
      * intros es w0 [_ H0]. eapply Good_carries. by eapply HIgood.
      * intros k p es w0 w1 [Hsub H0] Ha. split; [intros e He; apply Hsub; by right|].
        eapply Hstep; [exact H0|]. rewrite <- Ha. symmetry. eapply Hactm; [apply Hsub; left|done].
      * done.
      * by eapply Good_node.
      * destruct HG as [HM _]. pose proof (mi_hgt _ _ _ _ _ _ HM). lia.
      * rewrite app_nil_r. by split.
Qed.

Section runs.
Context `{Countable K} {CK : Type} (api : mapapi K V CK U) (dig : N -> K -> nat -> N).
Variable ok : list (mop K V U * mres V) -> mop K V U -> Prop.
Hypothesis Ht : map_type zero fuel api dig ok.
Variable u0 : U.
Implicit Types (tr : list (mop K V U * mres V)) (w : world V CK U) (h p : positive) (k : K) (v : V).
Local Notation contents := (contents api zero ok).
Local Notation crun := (crun (mcall api) ok u0).
Local Notation cspec := (cspec (mstep dig zero) mown (minit u0)).

Lemma crun_sim : ∃ R : gmap loc (N * tree K) -> world V CK U -> mstate K V U -> Prop,
    (∀ tr w, crun tr w -> ∃ G σ, cspec tr σ /\ R G w σ) /\
    (∀ G w σ, R G w σ -> ms_map σ = (λ x : N * tree K, (x.1, Refine.dict x.2)) <$> G) /\
    (∀ G w σ u, R G w σ -> R G (own u w) (mown u σ)) /\
    (∀ tr G w σ op, tells tr σ -> R G w σ -> ok tr op ->
       ∃ res w' σ' G', mcall api op w = Ret res w' /\ mstep dig zero σ op res σ' /\ R G' w' σ' /\
         (∀ h x, ms_map σ !! h = Some x -> ms_map σ' !! h = Some x -> G' !! h = G !! h) /\
         (reads op -> w' = w /\ σ' = σ)) /\
    (∀ G w σ h s T, R G w σ -> G !! h = Some (s, T) ->
       ∃ ks, ks ≡ₚ (map_to_list (Refine.dict T)).*1 /\ in_order dig s ks /\
       ∀ (I : list K -> world V CK U -> Prop) do (act : K -> M V CK U bool), I ks w ->
         (∀ ks w, I ks w -> ∃ G σ, R G w σ /\ G !! h = Some (s, T)) ->
         (∀ k a ks w, Refine.dict T !! k = Some a -> I (k :: ks) w -> do k (At a) w = act k w) ->
         (∀ k ks w w', I (k :: ks) w -> act k w = Ret true w' -> I ks w') ->
         ma_All api (Some h) do w = (_ <- walk act ks ;; ret tt) w).
Proof.
  destruct (loop_sim api dig ok Ht) as (R & H1 & H2 & H3 & H4 & H5). exists R. split; [|done].
  induction 1 as [|tr w op res w' Hr (G & σ & Hs & HR) Ho Hc|tr w u Hr (G & σ & Hs & HR)].
  - exists ∅, (minit u0). split; [constructor|done].
  - destruct (H4 tr G w σ op) as (res' & w2 & σ' & G' & Hc2 & Hst & HR' & _); [by eapply cspec_tells|done..|].
    rewrite Hc in Hc2. injection Hc2 as <- <-. exists G', σ'. split; [by econstructor|done].
  - exists G, (mown u σ). split; [by constructor|by apply H3].
Qed.

Lemma crun_stored tr w h k : crun tr w -> k ∈ stored tr h -> ok tr (MGet h k).
Proof.
  intros Hr Hh. apply stored_some in Hh as (y & Hy & Hm).
  destruct (map_ok_allowed zero fuel u0 api dig ok Ht) as (P & Q & Hall & Hback).
  apply Hback; [|done].
  induction Hr as [|tr w op res w' Hr IH Hok Hc|tr w u Hr IH]; [by apply elem_of_nil in Hy| |by apply IH].
  apply elem_of_cons in Hy as [->|Hy]; [|by apply mallowed_mono, IH].
  apply mallowed_mono. apply Hall in Hok. destruct op; simpl in *; try done; by destruct Hm as [-> ->].
Qed.

Lemma value_holds tr σ h k : tells tr σ -> is_Some (value σ h k) <-> k ∈ stored tr h.
Proof.
  intros Htl. rewrite (tl_holds _ _ Htl). unfold holds, value. split.
  - destruct (ms_map σ !! h) as [[s m]|] eqn:E; [|by intros [? ?]]. simpl. intros Hk.
    destruct (m !! k) as [p|] eqn:E'; [|by destruct Hk]. exists s, m. rewrite E'. eauto.
  - intros (s & m & Hm & [p Hp]). rewrite Hm. simpl. rewrite Hp. simpl.
    apply (mw_val _ (tl_wf _ _ Htl) _ _ _ _ _ Hm Hp).
Qed.

(** Executions in which the user also changes own variables: the specification
    is kept, Get shows the keys stored last, and every call returns. *)
Theorem crun_spec tr w : crun tr w ->
  (∃ σ, cspec tr σ) /\ (∀ h, ∃ m, contents tr w h m /\ dom m = stored tr h) /\
  ∀ op, ok tr op -> ∃ res w', mcall api op w = Ret res w' /\ (reads op -> w' = w).
Proof.
  intros Hr. destruct crun_sim as (R & H1 & H2 & H3 & H4 & H5). destruct (H1 _ _ Hr) as (G & σ & Hs & HR).
  pose proof (cspec_tells _ _ _ _ _ Hs) as Htl.
  split; [|split].
  - by exists σ.
  - intros h. exists (cont σ h).
    assert (Hd : ∀ k, is_Some (cont σ h !! k) <-> k ∈ stored tr h).
    { intros k. rewrite cont_lookup. by apply value_holds. }
    split; [split|].
    + intros k Hk. apply Hd in Hk. by eapply crun_stored.
    + intros k Hk. destruct (H4 _ _ _ _ _ Htl HR Hk) as (res & w' & σ' & G' & Hc & Hst & _ & _ & Hrd).
      destruct (Hrd I) as [-> ->]. destruct Hst as (_ & _ & ->). by rewrite Hc, cont_lookup.
    + apply set_eq. intros k. by rewrite elem_of_dom, Hd.
  - intros op Ho. destruct (H4 _ _ _ _ _ Htl HR Ho) as (res & w' & σ' & G' & Hc & _ & _ & _ & Hrd).
    exists res, w'. split; [done|]. intros Hrd'. by apply Hrd.
Qed.

(** All with a callback that is a program is a loop over the stored keys, as long
    as the callback does not change the keys before it tells to go on. *)
Theorem loop_map tr w h s : crun tr w -> (MNew s, RHandle h) ∈ tr ->
  ∃ ks, ks ≡ₚ elements (stored tr h) /\ in_order dig s ks /\
  ∀ f, loop_fine (mcall api) ok (changes_keys h) (with_ptr f h) tr w ks ->
    ma_All api (Some h) (all_prog api f) w = exec (mcall api) (loop (with_ptr f h) ks) w /\
    ∃ log w', crun (log ++ tr) w' /\
      (exec (mcall api) (loop (with_ptr f h) ks) w = Ret tt w' \/ exec (mcall api) (loop (with_ptr f h) ks) w = Panic w').
Proof.
  intros Hr Hin. destruct crun_sim as (R & H1 & H2 & H3 & H4 & H5).
  assert (Hret : ∀ tr w op, crun tr w -> ok tr op -> ∃ r w', mcall api op w = Ret r w').
  { intros tr0 w0 op Hr0 Ho. destruct (crun_spec _ _ Hr0) as (_ & _ & Hx). destruct (Hx _ Ho) as (r & w' & Hc & _). eauto. }
  destruct (H1 _ _ Hr) as (G & σ & Hs & HR). pose proof (cspec_tells _ _ _ _ _ Hs) as Htl.
  destruct (tl_new _ _ Htl _ _ Hin) as [m Hm]. pose proof Hm as Hm'.
  rewrite (H2 _ _ _ HR), lookup_fmap in Hm'. destruct (G !! h) as [[s' T]|] eqn:HG; [|done].
  injection Hm' as -> <-.
  destruct (H5 _ _ _ _ _ _ HR HG) as (ks & Hks & Hord & Hscan). exists ks. split_and!; [|done|].
  { rewrite Hks. symmetry. eapply tells_keys; eauto. }
  intros f Hf. set (P := λ tr w, ∃ G σ, cspec tr σ /\ R G w σ /\ G !! h = Some (s, T)).
  assert (HPown : ∀ tr w u, P tr w -> P tr (own u w)).
  { intros tr0 w0 u (G0 & σ0 & Hs0 & HR0 & HG0). exists G0, (mown u σ0). split_and!; [by constructor|by apply H3|done]. }
  assert (HPcall : ∀ tr w op r w', crun tr w -> P tr w -> ok tr op -> ¬ changes_keys h tr op -> mcall api op w = Ret r w' -> P ((op, r) :: tr) w').
  { intros tr0 w0 op r w' _ (G0 & σ0 & Hs0 & HR0 & HG0) Ho Hch Hc.
    pose proof (cspec_tells _ _ _ _ _ Hs0) as Htl0.
    destruct (H4 _ _ _ _ _ Htl0 HR0 Ho) as (res & w2 & σ' & G' & Hc2 & Hst & HR' & Hon & _).
    rewrite Hc in Hc2. injection Hc2 as <- <-. exists G', σ'. split_and!; [by econstructor|done|].
    assert (Hx : ms_map σ0 !! h = Some (s, Refine.dict T)) by (by rewrite (H2 _ _ _ HR0), lookup_fmap, HG0).
    rewrite (Hon h _ Hx); [done|]. by apply (same_keys dig zero tr0 σ0 op r σ' h _ Htl0 Hst Hch). }
  assert (HP : P tr w) by (by exists G, σ). clear G σ Hs HR Htl Hm HG.
  split.
  - rewrite <- walk_loop. apply (Hscan (safe (mcall api) ok (changes_keys h) u0 P (with_ptr f h))).
    + by exists tr.
    + intros ks' w' (tr' & _ & (G & σ & _ & HR & HG) & _). eauto.
    + intros k a ks' w' Ha (tr' & Hr' & (G & σ & Hs & HR & HG) & Hl). cbn [all_prog with_ptr exec].
      cbn [loop_fine] in Hl. unfold with_ptr in Hl. cbn [fine] in Hl. destruct Hl as [Ho _].
      destruct (H4 _ _ _ _ _ (cspec_tells _ _ _ _ _ Hs) HR Ho) as (res & w2 & σ' & G' & Hc2 & Hst & _ & _ & Hrd).
      destruct (Hrd I) as [-> ->]. destruct Hst as (_ & s1 & m1 & Hm1 & ->).
      rewrite (H2 _ _ _ HR), lookup_fmap, HG in Hm1. injection Hm1 as <- <-. rewrite Ha in Hc2.
      by rewrite (bind_Ret _ _ _ _ _ Hc2).
    + intros k ks' w1 w2 Hsafe He. eapply (safe_step _ _ _ u0 Hret P HPown HPcall); [exact Hsafe|exact He].
  - destruct (exec_fine _ _ _ u0 Hret P HPown HPcall _ (loop (with_ptr f h) ks) False tr w Hr (λ _, HP)
      (loop_fine_any _ _ _ _ _ _ _ _ Hf)) as (log & w' & Hr' & [([] & t & He & _)|He]); exists log, w'; eauto.
Qed.
End runs.
End maps.

(** ** Sets *)
Section sets.
Context {U : Type} (fuel : nat) (Hfuel : 256 <= fuel).

Lemma stells_can `{Countable K} {CK} (L : layout K unit CK) Q dig W dfull tr (σ : sstate K U) op : stells tr σ -> sallowed (ly_ok L) Q tr op ->
  RefineSet.guarded dig W dfull tr op -> RefineSet.can L Q dig W dfull σ op.
Proof.
  intros Ht Ha Hg.
  assert (Hl : ∀ s h, (SNew s, THandle h) ∈ tr -> is_Some (ss_set σ !! h)).
  { intros s h Hin. destruct (st_new _ _ Ht _ _ Hin) as [m Hm]. by rewrite Hm. }
  destruct op as [s|h k|h k|h k|h|h|h f]; simpl in *; try done.
  1: destruct Ha as [[s Hh] Hk]; split_and!; [by eapply Hl|done|];
    destruct (Hl _ _ Hh) as [[s' X] HX]; destruct (st_stored _ _ Ht _ _ _ HX) as [-> Hin];
    eexists _, _; split; [exact HX|]; destruct Hg as [?|Hg]; [by left|right; by apply Hg].
  1: destruct Ha as [[s Hh] Hk]; split_and!; [by eapply Hl|done|done].
  1: destruct Ha as [[s Hh] Hk]; split; [by eapply Hl|done].
  1-3: destruct Ha as [s Hh]; by eapply Hl.
Qed.

Section runs.
Context `{Countable K} {CK : Type} (api : setapi K unit CK U) (dig : N -> K -> nat -> N).
Variable ok : list (sop K U * sres) -> sop K U -> Prop.
Hypothesis Ht : set_type fuel api dig ok.
Variable u0 : U.
Implicit Types (tr : list (sop K U * sres)) (w : world unit CK U) (h : positive) (k : K).
Local Notation members := (members api ok).
Local Notation crun := (crun (scall api) ok u0).
Local Notation cspec := (cspec (sstep dig) sown (sinit u0)).

Lemma sloop_sim :
  ∃ R : gmap loc (N * tree K) -> world unit CK U -> sstate K U -> Prop,
    (∀ u, R ∅ (empty_world u) (sinit u)) /\
    (∀ G w σ, R G w σ -> ss_set σ = (λ x : N * tree K, (x.1, RefineSet.keys x.2)) <$> G) /\
    (∀ G w σ u, R G w σ -> R G (own u w) (sown u σ)) /\
    (∀ tr G w σ op, stells tr σ -> R G w σ -> ok tr op ->
       ∃ res w' σ' G', scall api op w = Ret res w' /\ sstep dig σ op res σ' /\ R G' w' σ' /\
         (∀ h x, ss_set σ !! h = Some x -> ss_set σ' !! h = Some x -> G' !! h = G !! h) /\
         (sreads op -> w' = w /\ σ' = σ)) /\
    (∀ G w σ h s T, R G w σ -> G !! h = Some (s, T) ->
       ∃ ks, ks ≡ₚ elements (RefineSet.keys T) /\ in_order dig s ks /\
       ∀ (I : list K -> world unit CK U -> Prop) do, I ks w ->
         (∀ ks w, I ks w -> ∃ G σ, R G w σ /\ G !! h = Some (s, T)) ->
         (∀ k ks w w', I (k :: ks) w -> do k w = Ret true w' -> I ks w') ->
         sa_All api (Some h) do w = (_ <- walk do ks ;; ret tt) w).
Proof.
  destruct (set_pack fuel api dig ok Ht) as [].
  exists (RefineSet.RelG F L Q). split_and!.
  - intros u. destruct (RefineSet.Rel_init F L Q u) as [G HG].
    assert (G = ∅) as <-; [|done]. destruct HG as (_ & Hm & _). simpl in Hm. symmetry in Hm. by apply fmap_empty_inv in Hm.
  - by intros G w σ (_ & Hm & _).
  - intros G w σ u (HI & Hm & Hu). split_and!; try done. by apply Inv_usr.
  - intros tr G w σ op Htl HR Ho. destruct (Hok _ _ Ho) as [Ha Hg].
    assert (Hcan : RefineSet.can L Q dig W dfull σ op) by (by eapply stells_can).
    destruct (RefineSet.step_okG F L Q HF HL fuel Hfuel dig Hdig FA aop W dfull tt HFA HW Haop api HAdd HDel HHas HAll
      G w σ op HR Hcan) as (res & w' & σ' & G' & Hc & Hst & HR' & Hon).
    exists res, w', σ', G'. split_and!; try done. intros Hrd. split.
    + eapply (RefineSet.read_pure F L Q HF HL fuel Hfuel dig W dfull api HHas w σ op res w'); try done. by exists G.
    + destruct op; try done; by destruct Hst as [-> _].
  - intros G w σ h s T (HI & Hm & Hu) HGh.
    destruct (in_good _ _ _ _ _ _ HI _ _ _ HGh) as [HQ HG].
    exists (map fst (leaves T)). split_and!.
    + by rewrite (RefineSet.keys_list F L _ _ _ _ HG).
    + pose proof (order_spec F L 240 s w h T HG) as Hs.
      eapply StronglySorted_impl; [|exact Hs]. intros x y (d & H1 & H2). exists d. split.
      * intros i Hi. rewrite <- !Hdig. by apply H1.
      * by rewrite <- !Hdig.
    + intros I do HIw HIR Hstep. rewrite HAll. unfold all_set.
      assert (HIgood : ∀ ks w, I ks w -> Good F L 240 s w h T).
      { intros ks w0 H0. destruct (HIR _ _ H0) as (G0 & σ0 & (HI0 & _) & Hh0). by apply (in_good _ _ _ _ _ _ HI0 _ _ _ Hh0). }
      assert (Hactm : ∀ k p ks w, (k, p) ∈ leaves T -> I (k :: ks) w -> act_set F do (ly_leaf L k p) w = do k w).
      { intros k p ks w0 Hin H0. pose proof (HIgood _ _ H0) as HG0.
        destruct (Good_ok _ _ _ _ _ _ _ _ _ HG0 Hin) as [Hk Hc].
        unfold act_set. by rewrite (bind_Ret _ _ _ _ _ (fo_key _ _ HF k p w0 Hk Hc)). }
      assert (Hvis : ∀ es w, (∀ e, e ∈ es -> e ∈ leaves T) -> I (map fst es) w ->
        visits L (act_set F do) es w = walk do (map fst es) w).
      { induction es as [|[k p] es IH]; intros w0 Hsub H0; [done|]. cbn [visits map walk fst snd].
        assert (E' : act_set F do (ly_leaf L k p) w0 = do k w0) by (eapply Hactm; [apply Hsub; left|exact H0]).
        destruct (act_set F do (ly_leaf L k p) w0) as [b w1| | |] eqn:E; [|by unfold bind; rewrite E, <- E'..].
        rewrite (bind_Ret _ _ _ _ _ E), (bind_Ret _ _ _ _ _ (eq_sym E')). destruct b; [|done]. apply IH.
        - intros e He. apply Hsub. by right.
        - by eapply Hstep. }
      unfold bind. erewrite (scan_steps L (act_set F do) h T (λ es w, (∀ e, e ∈ es -> e ∈ leaves T) /\ I (map fst es) w)) with (c := []) (rest := []).
      * rewrite Hvis by done. done.
      * intros es w0 [_ H0]. eapply Good_carries. by eapply HIgood.
      * intros k p es w0 w1 [Hsub H0] Ha. split; [intros e He; apply Hsub; by right|].
        eapply Hstep; [exact H0|]. rewrite <- Ha. symmetry. eapply Hactm; [apply Hsub; left|done].
      * done.
      * by eapply Good_node.
      * destruct HG as [HM _]. pose proof (mi_hgt _ _ _ _ _ _ HM). lia.
      * rewrite app_nil_r. by split.
Qed.

Lemma scrun_sim : ∃ R : gmap loc (N * tree K) -> world unit CK U -> sstate K U -> Prop,
    (∀ tr w, crun tr w -> ∃ G σ, cspec tr σ /\ R G w σ) /\
    (∀ G w σ, R G w σ -> ss_set σ = (λ x : N * tree K, (x.1, RefineSet.keys x.2)) <$> G) /\
    (∀ G w σ u, R G w σ -> R G (own u w) (sown u σ)) /\
    (∀ tr G w σ op, stells tr σ -> R G w σ -> ok tr op ->
       ∃ res w' σ' G', scall api op w = Ret res w' /\ sstep dig σ op res σ' /\ R G' w' σ' /\
         (∀ h x, ss_set σ !! h = Some x -> ss_set σ' !! h = Some x -> G' !! h = G !! h) /\
         (sreads op -> w' = w /\ σ' = σ)) /\
    (∀ G w σ h s T, R G w σ -> G !! h = Some (s, T) ->
       ∃ ks, ks ≡ₚ elements (RefineSet.keys T) /\ in_order dig s ks /\
       ∀ (I : list K -> world unit CK U -> Prop) do, I ks w ->
         (∀ ks w, I ks w -> ∃ G σ, R G w σ /\ G !! h = Some (s, T)) ->
         (∀ k ks w w', I (k :: ks) w -> do k w = Ret true w' -> I ks w') ->
         sa_All api (Some h) do w = (_ <- walk do ks ;; ret tt) w).
Proof.
  destruct sloop_sim as (R & H1 & H2 & H3 & H4 & H5). exists R. split; [|done].
  induction 1 as [|tr w op res w' Hr (G & σ & Hs & HR) Ho Hc|tr w u Hr (G & σ & Hs & HR)].
  - exists ∅, (sinit u0). split; [constructor|done].
  - destruct (H4 tr G w σ op) as (res' & w2 & σ' & G' & Hc2 & Hst & HR' & _); [by eapply cspec_stells|done..|].
    rewrite Hc in Hc2. injection Hc2 as <- <-. exists G', σ'. split; [by econstructor|done].
  - exists G, (sown u σ). split; [by constructor|by apply H3].
Qed.

Lemma scrun_stored tr w h k : crun tr w -> k ∈ sstored tr h -> ok tr (SHas h k).
Proof.
  intros Hr Hh. apply sstored_some in Hh as (r & Hy).
  destruct (set_ok_allowed fuel u0 api dig ok Ht) as (P & Q & Hall & Hback).
  apply Hback; [|done].
  induction Hr as [|tr w op res w' Hr IH Hok Hc|tr w u Hr IH]; [by apply elem_of_nil in Hy| |by apply IH].
  apply elem_of_cons in Hy as [[= <- <-]|Hy]; [|by apply sallowed_mono, IH].
  apply sallowed_mono. by apply Hall in Hok.
Qed.

Theorem scrun_spec tr w : crun tr w ->
  (∃ σ, cspec tr σ) /\ (∀ h, (∃ s, (SNew s, THandle h) ∈ tr) -> members tr w h (sstored tr h)) /\
  ∀ op, ok tr op -> ∃ res w', scall api op w = Ret res w' /\ (sreads op -> w' = w).
Proof.
  intros Hr. destruct scrun_sim as (R & H1 & H2 & H3 & H4 & H5). destruct (H1 _ _ Hr) as (G & σ & Hs & HR).
  pose proof (cspec_stells _ _ _ _ Hs) as Htl.
  split; [|split].
  - by exists σ.
  - intros h [s Hin]. destruct (st_new _ _ Htl _ _ Hin) as [X HX].
    destruct (st_stored _ _ Htl _ _ _ HX) as [-> _]. split.
    + intros k Hk. by eapply scrun_stored.
    + intros k Hk. destruct (H4 _ _ _ _ _ Htl HR Hk) as (res & w' & σ' & G' & Hc & Hst & _ & _ & Hrd).
      destruct (Hrd I) as [-> ->]. destruct Hst as (_ & s1 & X1 & HX1 & ->). rewrite HX in HX1. injection HX1 as <- <-. done.
  - intros op Ho. destruct (H4 _ _ _ _ _ Htl HR Ho) as (res & w' & σ' & G' & Hc & _ & _ & _ & Hrd).
    exists res, w'. split; [done|]. intros Hrd'. by apply Hrd.
Qed.

Theorem loop_set tr w h s : crun tr w -> (SNew s, THandle h) ∈ tr ->
  ∃ ks, ks ≡ₚ elements (sstored tr h) /\ in_order dig s ks /\
  ∀ f, loop_fine (scall api) ok (changes_members h) f tr w ks ->
    sa_All api (Some h) (set_prog api f) w = exec (scall api) (loop f ks) w /\
    ∃ log w', crun (log ++ tr) w' /\
      (exec (scall api) (loop f ks) w = Ret tt w' \/ exec (scall api) (loop f ks) w = Panic w').
Proof.
  intros Hr Hin. destruct scrun_sim as (R & H1 & H2 & H3 & H4 & H5).
  assert (Hret : ∀ tr w op, crun tr w -> ok tr op -> ∃ r w', scall api op w = Ret r w').
  { intros tr0 w0 op Hr0 Ho. destruct (scrun_spec _ _ Hr0) as (_ & _ & Hx). destruct (Hx _ Ho) as (r & w' & Hc & _). eauto. }
  destruct (H1 _ _ Hr) as (G & σ & Hs & HR). pose proof (cspec_stells _ _ _ _ Hs) as Htl.
  destruct (st_new _ _ Htl _ _ Hin) as [m Hm]. pose proof Hm as Hm'.
  rewrite (H2 _ _ _ HR), lookup_fmap in Hm'. destruct (G !! h) as [[s' T]|] eqn:HG; [|done].
  injection Hm' as -> <-.
  destruct (H5 _ _ _ _ _ _ HR HG) as (ks & Hks & Hord & Hscan). exists ks. split_and!; [|done|].
  { rewrite Hks. by destruct (st_stored _ _ Htl _ _ _ Hm) as [-> _]. }
  intros f Hf. set (P := λ tr w, ∃ G σ, cspec tr σ /\ R G w σ /\ G !! h = Some (s, T)).
  assert (HPown : ∀ tr w u, P tr w -> P tr (own u w)).
  { intros tr0 w0 u (G0 & σ0 & Hs0 & HR0 & HG0). exists G0, (sown u σ0). split_and!; [by constructor|by apply H3|done]. }
  assert (HPcall : ∀ tr w op r w', crun tr w -> P tr w -> ok tr op -> ¬ changes_members h tr op -> scall api op w = Ret r w' -> P ((op, r) :: tr) w').
  { intros tr0 w0 op r w' _ (G0 & σ0 & Hs0 & HR0 & HG0) Ho Hch Hc.
    pose proof (cspec_stells _ _ _ _ Hs0) as Htl0.
    destruct (H4 _ _ _ _ _ Htl0 HR0 Ho) as (res & w2 & σ' & G' & Hc2 & Hst & HR' & Hon & _).
    rewrite Hc in Hc2. injection Hc2 as <- <-. exists G', σ'. split_and!; [by econstructor|done|].
    assert (Hx : ss_set σ0 !! h = Some (s, RefineSet.keys T)) by (by rewrite (H2 _ _ _ HR0), lookup_fmap, HG0).
    rewrite (Hon h _ Hx); [done|]. by apply (same_members dig tr0 σ0 op r σ' h _ Htl0 Hst Hch). }
  assert (HP : P tr w) by (by exists G, σ). clear G σ Hs HR Htl Hm HG.
  split.
  - rewrite <- walk_loop. apply (Hscan (safe (scall api) ok (changes_members h) u0 P f)).
    + by exists tr.
    + intros ks' w' (tr' & _ & (G & σ & _ & HR & HG) & _). eauto.
    + intros k ks' w1 w2 Hsafe He. eapply (safe_step _ _ _ u0 Hret P HPown HPcall); [exact Hsafe|exact He].
  - destruct (exec_fine _ _ _ u0 Hret P HPown HPcall _ (loop f ks) False tr w Hr (λ _, HP)
      (loop_fine_any _ _ _ _ _ _ _ _ Hf)) as (log & w' & Hr' & [([] & t & He & _)|He]); exists log, w'; eauto.
Qed.
End runs.
End sets.
