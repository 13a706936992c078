(** Callbacks that panic while Mod calls them, and executions that go on after
    such a panic is recovered. *)
From stdpp Require Import base numbers list gmap.
From Verif Require Import GoInt Mem Hash Amt Families BitsFacts Steps Tree Rep Paths Descend Insert Split Delete Remove Core Scan Order Heap Spec SpecFacts HashFacts Guards Client Types Refine RefineSet Instances Pack Observe ObserveFacts ObserveMap Levels Shape Weak ExactSpec Exact Broken.
Local Open Scope nat_scope.

(** A callback for Mod that changes the value it is given and the user's own
    state, as f tells, and then panics. *)
Definition panic_cb {V CK U} (f : U -> V -> bool -> U * V) (p : ptr) (b : bool) : M V CK U unit :=
  mod_cb f p b ;;; panic.

(** The history after a Mod whose callback panicked: with k stored this is the
    history after Mod, otherwise the one after Mod and Del of k. *)
Definition recovered `{Countable K} {V U} (h : positive) (k : K) (f : U -> V -> bool -> U * V)
    (tr : list (mop K V U * mres V)) : list (mop K V U * mres V) :=
  if decide (k ∈ stored tr h) then (MMod h k f, RUnit) :: tr else (MDel h k, RUnit) :: (MMod h k f, RUnit) :: tr.

(** No stored key has to be moved down for k. *)
Definition unhindered `{Countable K} {V U} (dig : N -> K -> nat -> N) (h : positive) (k : K)
    (tr : list (mop K V U * mres V)) : Prop :=
  k ∈ stored tr h \/ ∀ s k', (MNew s, RHandle h) ∈ tr -> ¬ in_way dig s (elements (stored tr h)) k k'.

(** Executions in which callbacks of Mod may panic. *)
Inductive prun `{Countable K} {V CK U} (dig : N -> K -> nat -> N) (api : mapapi K V CK U)
    (ok : list (mop K V U * mres V) -> mop K V U -> Prop) (u0 : U) : list (mop K V U * mres V) -> world V CK U -> Prop :=
  | prun_nil : prun dig api ok u0 [] (empty_world u0)
  | prun_call tr w op res w' : prun dig api ok u0 tr w -> ok tr op -> mcall api op w = Ret res w' ->
      prun dig api ok u0 ((op, res) :: tr) w'
  | prun_panic tr w h k f w' : prun dig api ok u0 tr w -> ok tr (MMod h k f) -> unhindered dig h k tr ->
      ma_Mod api (Some h) k (panic_cb f) w = Panic w' -> prun dig api ok u0 (recovered h k f tr) w'.

Lemma panic_cb_run {V CK U} f a b (w : world V CK U) v (ck : CK) : w_mem w !! a = Some (BKv v ck) ->
  panic_cb f (At a) b w = Panic (World (<[a := BKv (f (w_usr w) v b).2 ck]> (w_mem w)) (w_nxt w) (f (w_usr w) v b).1).
Proof. intros Ha. unfold panic_cb. by rewrite (bind_Ret _ _ _ _ _ (mod_cb_run f a b w v ck Ha)). Qed.

(** A lookup that reaches the zero link. *)
Lemma get_zero {K HS V CK U} (F : fam K HS V CK U) zero fuel (w : world V CK U) h x :
  (f_key F zero_link w = Panic w \/ ∃ ck, f_key F zero_link w = Ret ck w) ->
  find F fuel (Some h) x w = bind (f_key F zero_link) (λ k0, ret (if f_eq F x k0 then Some zero_link else None)) w ->
  get F fuel zero (Some h) x w = Panic w \/ get F fuel zero (Some h) x w = Ret (zero, false) w.
Proof.
  intros Hz Hf. unfold get, ptr_of, bind. rewrite Hf. unfold bind. destruct Hz as [->|[ck ->]]; [by left|].
  simpl. destruct (f_eq F x ck); simpl; [by left|by right].
Qed.

Section sim.
Context {V U : Type} (zero : V) (fuel : nat) (u0 : U) (Hfuel : 256 <= fuel).

Lemma panic_sim `{Countable K} {CK} (api : mapapi K V CK U) dig ok : map_type zero fuel api dig ok ->
  ∃ R : world V CK U -> mstate K V U -> Prop,
    R (empty_world u0) (minit u0) /\
    (∀ w σ, R w σ -> ms_usr σ = w_usr w) /\
    (∀ tr w σ op, mspec dig zero u0 tr σ -> R w σ -> ok tr op ->
       ∃ res w' σ', mcall api op w = Ret res w' /\ mstep dig zero σ op res σ' /\ R w' σ' /\
         (reads op -> w' = w /\ σ' = σ)) /\
    (∀ tr w σ h k f, mspec dig zero u0 tr σ -> R w σ -> ok tr (MMod h k f) -> unhindered dig h k tr ->
       ∃ w', ma_Mod api (Some h) k (panic_cb f) w = Panic w' /\
         ((k ∈ stored tr h /\ mcall api (MMod h k f) w = Ret RUnit w') \/
          (k ∉ stored tr h /\ ∃ p σ', ms_val σ !! p = None /\ R w' σ' /\
            σ' = MState (ms_map σ) (<[p := (f (ms_usr σ) zero false).2]> (ms_val σ)) (f (ms_usr σ) zero false).1))) /\
    (∀ tr w σ h s k k' f g, mspec dig zero u0 tr σ -> R w σ -> ok tr (MMod h k f) -> (MNew s, RHandle h) ∈ tr ->
       in_way dig s (elements (stored tr h)) k k' ->
       ∃ w1 a ck, w_mem w1 !! a = Some (BKv zero ck) /\ w_usr w1 = w_usr w /\
         (∀ w2, g (At a) false w1 = Panic w2 -> ma_Mod api (Some h) k g w = Panic w2) /\
         ∀ v u x, x = k \/ x = k' -> let w2 := World (<[a := BKv v ck]> (w_mem w1)) (w_nxt w1) u in
           ma_Get api (Some h) x w2 = Panic w2 \/ ma_Get api (Some h) x w2 = Ret (zero, false) w2).
Proof.
  intros Ht. destruct (map_pack zero fuel api dig ok Ht) as [].
  exists (Refine.Rel F L Q). split_and!.
  - apply (Refine.Rel_init F L Q).
  - by intros w σ (G & _ & _ & _ & Hu).
  - apply (Refine.rel_step F L Q HF HL Hcell zero fuel Hfuel dig Hdig FS FM sop mdop vs WS WM
      HFS HFM HWS HWM Hvs Hsop Hmop api HSet HMod HDel HGet HVal HPtr HAll ok u0 Hok).
  - intros tr w σ h k f Hs HR Ho Hun.
    destruct (Hok _ _ Ho) as [Ha Hg].
    assert (Hcan : Refine.can L Q dig WS WM σ (MMod h k f)) by (by eapply Refine.allowed_can).
    destruct Hcan as (Hh & Hk & Hfits).
    destruct (Refine.Rel_handle F L Q _ _ _ HR Hh) as (G & s & T & HI & HGh & HQ & HG & Hm & Hmh & Hv & Hu).
    assert (Hks : (map_to_list (Refine.dict T)).*1 ≡ₚ map fst (leaves T)).
    { rewrite (Refine.dict_list F L Hcell _ _ _ _ HG). by rewrite (Refine.ent_keys F L Hcell _ _ _ _ HG). }
    assert (Hst : k ∈ stored tr h <-> is_Some (Refine.dict T !! k)).
    { rewrite (stored_holds dig zero u0 tr σ h k Hs). split.
      - intros (s1 & m1 & Hm1 & Hk1). congruence.
      - intros Hk1. by exists s, (Refine.dict T). }
    assert (Hfree : (∀ p, (k, p) ∉ leaves T) -> free dig WM s (map_to_list (Refine.dict T)).*1 k).
    { intros Habs. destruct Hfits as (s' & m & Hm' & Hx). rewrite Hmh in Hm'. injection Hm' as <- <-.
      destruct Hx as [[a Hka]|Hx]; [|done]. apply (Refine.dict_some F L Hcell _ _ _ _ _ _ HG) in Hka. by apply Habs in Hka. }
    pose proof (Refine.way_clear F L dig Hdig FM WM s w h T k _ HFM HWM Hk HG Hks Hfree) as Hre.
    pose proof HFM as (HF' & Hnib & HL').
    destruct (Hmop k (panic_cb f)) as (Hfo & Hne & Hsp).
    destruct (Inv_insert F L 240 Q le240 FM (mdop k (panic_cb f)) w G h s T k fuel HF' (Hnib s) HL' HI HGh Hk Hfuel Hre)
      as [(p & Hin & Hrun)|(Habs & b & w1 & Hq & Hok1 & He & Hc & Hpan & _)].
    + destruct (Good_ok _ _ _ _ _ _ _ _ _ HG Hin) as [_ Hcl]. unfold cell in Hcl. rewrite Hcell in Hcl.
      destruct Hcl as (a & v & -> & Hca). rewrite HMod, Hrun, Hfo, (fo_ptr _ _ HF).
      rewrite (panic_cb_run _ _ _ _ _ _ Hca). eexists. split; [done|]. left. split.
      { apply Hst. exists a. by apply (Refine.dict_some F L Hcell _ _ _ _ _ _ HG). }
      unfold mcall. rewrite HMod. destruct (Hmop k (mod_cb f)) as (Hfo' & _).
      destruct (Inv_insert F L 240 Q le240 FM (mdop k (mod_cb f)) w G h s T k fuel HF' (Hnib s) HL' HI HGh Hk Hfuel Hre)
        as [(p & Hin' & Hrun')|(Habs & _)]; [|by apply Habs in Hin].
      assert (p = At a) as ->.
      { destruct (Good_ok _ _ _ _ _ _ _ _ _ HG Hin') as [_ Hcl]. unfold cell in Hcl. rewrite Hcell in Hcl.
        destruct Hcl as (a' & _ & -> & _). apply (Refine.dict_some F L Hcell _ _ _ _ _ _ HG) in Hin, Hin'. congruence. }
      unfold bind. rewrite Hrun', Hfo', (fo_ptr _ _ HF). by rewrite (mod_cb_run _ _ _ _ _ _ Hca).
    + assert (Hdn : Refine.dict T !! k = None) by (by apply (Refine.dict_none F L Hcell _ _ _ _ _ HG)).
      assert (Hns : k ∉ stored tr h). { rewrite Hst, Hdn. by intros [? ?]. }
      destruct b.
      2:{ exfalso. destruct (Hc eq_refl) as (q & ck & cp & Hin & Hck & Hqk).
        destruct (Refine.way_of F L dig Hdig s w h T k q ck cp (elements (stored tr h)) HG) as (Hway & _); try done.
        - rewrite <-Hks. eapply stored_keys; eauto.
        - destruct Hun as [Hun|Hun]; [done|]. apply (Hun s ck); [|done].
          eapply mspec_seed; eauto. }
      rewrite (He eq_refl (Hearly _ _)) in *. rewrite Hne in Hpan.
      eexists. split; [rewrite HMod; apply Hpan|].
      { unfold modnew. rewrite (bind_Ret _ _ _ _ _ (cellnew_run _ _ _ _)).
        unfold bind at 1. rewrite (panic_cb_run f (w_nxt w) false _ zero (ly_ck L k) (lookup_insert _ _ _)). done. }
      right. split; [done|]. exists (w_nxt w), (MState (ms_map σ) (<[w_nxt w := (f (ms_usr σ) zero false).2]> (ms_val σ)) (f (ms_usr σ) zero false).1).
      split_and!; [rewrite Hv; by apply vals_fresh| |done].
      exists G. simpl. rewrite insert_insert, Hu. split_and!; [|done| |done].
      * apply (Inv_keep F L 240 Q w); [done| |].
        -- by apply (newcell_ok L Hcell w).
        -- by apply (newcell_ok L Hcell w).
      * by rewrite vals_alloc, Hv.
  - intros tr w σ h s0 k k' f g Hs HR Ho Hnew Hway.
    destruct (Hok _ _ Ho) as [Ha Hg].
    assert (Hcan : Refine.can L Q dig WS WM σ (MMod h k f)) by (by eapply Refine.allowed_can).
    destruct Hcan as (Hh & Hk & Hfits).
    destruct (Refine.Rel_handle F L Q _ _ _ HR Hh) as (G & s & T & HI & HGh & HQ & HG & Hm & Hmh & Hv & Hu).
    assert (s0 = s) as ->.
    { destruct (mspec_new _ _ _ _ _ Hs _ _ Hnew) as [m Hm']. congruence. }
    assert (Hks : (map_to_list (Refine.dict T)).*1 ≡ₚ map fst (leaves T)).
    { rewrite (Refine.dict_list F L Hcell _ _ _ _ HG). by rewrite (Refine.ent_keys F L Hcell _ _ _ _ HG). }
    assert (Hel : elements (stored tr h) ≡ₚ map fst (leaves T)).
    { rewrite <- Hks. eapply stored_keys; eauto. }
    assert (Habs : ∀ p, (k, p) ∉ leaves T).
    { intros p Hp. apply (stored_free dig s (elements (stored tr h)) k); [|by exists k'].
      rewrite Hel. apply elem_of_list_In, in_map_iff. exists (k, p). split; [done|]. by apply elem_of_list_In. }
    assert (Hfree : (∀ p, (k, p) ∉ leaves T) -> free dig WM s (map_to_list (Refine.dict T)).*1 k).
    { intros _. destruct Hfits as (s' & m & Hm' & Hx). rewrite Hmh in Hm'. injection Hm' as <- <-.
      destruct Hx as [[a Hka]|Hx]; [|done]. apply (Refine.dict_some F L Hcell _ _ _ _ _ _ HG) in Hka. by apply Habs in Hka. }
    pose proof (Refine.way_clear F L dig Hdig FM WM s w h T k _ HFM HWM Hk HG Hks Hfree) as Hre.
    pose proof HFM as (HF' & Hnib & HL').
    destruct (of_way F L fuel Hfuel dig Hdig s w h T k k' (elements (stored tr h)) HG Hel Hway) as (q & cp & Hqin & Hq).
    assert (Hwok : w_ok w) by (by eapply in_ok).
    assert (HGM : Core.Good FM L 240 s w h T).
    { destruct HG as [HM Hp]. split; [done|]. unfold placed in *. eapply Forall_impl; [exact Hp|].
      intros [q0 [k0 p0]]. unfold well. cbn [fst snd]. intros E0. rewrite E0 at 1. by apply nibs_alike. }
    destruct (insert_hindered F FM L 240 s HF' HL' Hnib (le_n 240) (mdop k g) w h T k fuel q k' cp HGM Hwok Hk Hfuel Hre Habs Hqin)
      as (w1 & Hq1 & Hpan & Hfind).
    { rewrite Hq at 1. by apply nibs_alike. }
    destruct (Hmop k g) as (_ & _ & Hsp).
    assert (Hok1 : w_ok w1) by (by apply (qu_ok _ _ _ Hq1)).
    exists (World (<[w_nxt w1 := BKv zero (ly_ck L k)]> (w_mem w1)) (w_nxt w1)~0 (w_usr w1)), (w_nxt w1), (ly_ck L k).
    split_and!; [apply lookup_insert|apply Hq1| |].
    { intros w2 E. rewrite HMod. apply Hpan. rewrite Hsp. unfold modnew. rewrite (bind_Ret _ _ _ _ _ (cellnew_run _ _ _ _)).
      unfold bind. by rewrite E. }
    intros v u x Hx w2. rewrite HGet. apply get_zero; [apply Hzero|].
    apply (Hfind (At (w_nxt w1))); [|done]. unfold w2. simpl. rewrite insert_insert.
    eapply newcell_made; [by apply (newcell_ok L Hcell)|].
    pose proof (qu_nxt _ _ _ Hq1) as Hn1.
    intros l [Hl|Hl]; [|lia]. assert (l < w_nxt w)%positive by (eapply MapI_lt; [done|apply HG|done]). lia.
Qed.

Section runs.
Context `{Countable K} {CK : Type} (api : mapapi K V CK U) (dig : N -> K -> nat -> N).
Variable ok : list (mop K V U * mres V) -> mop K V U -> Prop.
Hypothesis Ht : map_type zero fuel api dig ok.
Implicit Types (tr : list (mop K V U * mres V)) (w : world V CK U) (m : gmap K V) (h p : positive) (k : K) (v : V).
Local Notation contents := (contents api zero ok).
Local Notation prun := (prun dig api ok u0).

Lemma mod_del_spec tr σ h k f p s (m : gmap K positive) : mspec dig zero u0 tr σ -> ms_map σ !! h = Some (s, m) -> m !! k = None -> ms_val σ !! p = None ->
  mspec dig zero u0 ((MDel h k, RUnit) :: (MMod h k f, RUnit) :: tr)
    (MState (ms_map σ) (<[p := (f (ms_usr σ) zero false).2]> (ms_val σ)) (f (ms_usr σ) zero false).1).
Proof.
  intros Hs Hm Hk Hp.
  apply (mspec_cons _ _ _ _ (MState (<[h := (s, <[k := p]> m)]> (ms_map σ)) (<[p := (f (ms_usr σ) zero false).2]> (ms_val σ)) (f (ms_usr σ) zero false).1)).
  - econstructor; [exact Hs|]. split; [done|].
    assert (value σ h k = None) as ->. { unfold value. rewrite Hm. simpl. by rewrite Hk. }
    simpl. destruct (f (ms_usr σ) zero false) as [u v]. exists s, m. split; [done|]. rewrite Hk. by exists p.
  - split; [done|]. exists s, (<[k := p]> m). simpl. rewrite lookup_insert. split; [done|].
    rewrite insert_insert. rewrite (delete_insert m k p Hk). rewrite (insert_id (ms_map σ) h (s, m) Hm). reflexivity.
Qed.

Lemma prun_sim : ∃ R : world V CK U -> mstate K V U -> Prop,
    (∀ tr w, prun tr w -> ∃ σ, mspec dig zero u0 tr σ /\ R w σ) /\
    (∀ w σ, R w σ -> ms_usr σ = w_usr w) /\
    (∀ tr w σ op, mspec dig zero u0 tr σ -> R w σ -> ok tr op ->
       ∃ res w' σ', mcall api op w = Ret res w' /\ mstep dig zero σ op res σ' /\ R w' σ' /\
         (reads op -> w' = w /\ σ' = σ)) /\
    (∀ tr w σ h k f, mspec dig zero u0 tr σ -> R w σ -> ok tr (MMod h k f) -> unhindered dig h k tr ->
       ∃ w' σ', ma_Mod api (Some h) k (panic_cb f) w = Panic w' /\ R w' σ' /\ mspec dig zero u0 (recovered h k f tr) σ' /\
         ((k ∈ stored tr h /\ mcall api (MMod h k f) w = Ret RUnit w' /\ mstep dig zero σ (MMod h k f) RUnit σ') \/
          (k ∉ stored tr h /\ ∃ p, ms_val σ !! p = None /\
            σ' = MState (ms_map σ) (<[p := (f (ms_usr σ) zero false).2]> (ms_val σ)) (f (ms_usr σ) zero false).1))) /\
    (∀ tr w σ h s k k' f g, mspec dig zero u0 tr σ -> R w σ -> ok tr (MMod h k f) -> (MNew s, RHandle h) ∈ tr ->
       in_way dig s (elements (stored tr h)) k k' ->
       ∃ w1 a ck, w_mem w1 !! a = Some (BKv zero ck) /\ w_usr w1 = w_usr w /\
         (∀ w2, g (At a) false w1 = Panic w2 -> ma_Mod api (Some h) k g w = Panic w2) /\
         ∀ v u x, x = k \/ x = k' -> let w2 := World (<[a := BKv v ck]> (w_mem w1)) (w_nxt w1) u in
           ma_Get api (Some h) x w2 = Panic w2 \/ ma_Get api (Some h) x w2 = Ret (zero, false) w2).
Proof.
  destruct (panic_sim api dig ok Ht) as (R & H0 & H1 & H2 & H3 & H5). exists R.
  assert (H4 : ∀ tr w σ h k f, mspec dig zero u0 tr σ -> R w σ -> ok tr (MMod h k f) -> unhindered dig h k tr ->
       ∃ w' σ', ma_Mod api (Some h) k (panic_cb f) w = Panic w' /\ R w' σ' /\ mspec dig zero u0 (recovered h k f tr) σ' /\
         ((k ∈ stored tr h /\ mcall api (MMod h k f) w = Ret RUnit w' /\ mstep dig zero σ (MMod h k f) RUnit σ') \/
          (k ∉ stored tr h /\ ∃ p, ms_val σ !! p = None /\
            σ' = MState (ms_map σ) (<[p := (f (ms_usr σ) zero false).2]> (ms_val σ)) (f (ms_usr σ) zero false).1))).
  { intros tr w σ h k f Hs HR Ho Hun. unfold recovered.
    destruct (H3 _ _ _ _ _ _ Hs HR Ho Hun) as (w' & Hw' & [[Hst Hc]|(Hst & p & σ' & Hp & HR' & Hσ)]).
    - rewrite decide_True by done. destruct (H2 _ _ _ _ Hs HR Ho) as (res & w2 & σ' & Hc2 & Hstep & HR' & _).
      rewrite Hc in Hc2. injection Hc2 as <- <-. exists w', σ'. split_and!; [done|done|by econstructor|by left].
    - rewrite decide_False by done. exists w', σ'. split_and!; [done|done| |right; eauto].
      assert (∃ s, (MNew s, RHandle h) ∈ tr) as [s Hin].
      { destruct (map_ok_allowed zero fuel u0 api dig ok Ht) as (P & Q & Hall & _). by destruct (Hall _ _ Ho). }
      destruct (mspec_new _ _ _ _ _ Hs _ _ Hin) as [m Hm]. rewrite Hσ. eapply mod_del_spec; eauto.
      destruct (m !! k) eqn:Hk; [|done]. exfalso. apply Hst. apply (stored_holds dig zero u0 tr σ h k Hs).
      exists s, m. rewrite Hk. eauto. }
  split; [|split; [exact H1|split; [exact H2|split; [exact H4|exact H5]]]].
  induction 1 as [|tr w op res w' Hr (σ & Hs & HR) Ho Hc|tr w h k f w' Hr (σ & Hs & HR) Ho Hun Hc].
  - exists (minit u0). split; [constructor|done].
  - destruct (H2 _ _ _ _ Hs HR Ho) as (res' & w2 & σ' & Hc2 & Hstep & HR' & _).
    rewrite Hc in Hc2. injection Hc2 as <- <-. exists σ'. split; [by econstructor|done].
  - destruct (H4 _ _ _ _ _ _ Hs HR Ho Hun) as (w2 & σ' & Hc2 & HR' & Hs' & _).
    rewrite Hc in Hc2. injection Hc2 as <-. eauto.
Qed.

Lemma prun_stored tr w σ h k : prun tr w -> mspec dig zero u0 tr σ -> holds σ h k -> ok tr (MGet h k).
Proof.
  intros Hr Hs Hh. apply (stored_holds dig zero u0 tr σ h k Hs) in Hh. apply stored_some in Hh as (y & Hy & Hm).
  destruct (map_ok_allowed zero fuel u0 api dig ok Ht) as (P & Q & Hall & Hback).
  apply Hback; [|done]. clear Hs σ.
  induction Hr as [|tr w op res w' Hr IH Hok Hc|tr w h1 k1 f w' Hr IH Hok Hun Hc]; [by apply elem_of_nil in Hy| |].
  - apply elem_of_cons in Hy as [->|Hy]; [|by apply mallowed_mono, IH].
    apply mallowed_mono. apply Hall in Hok. destruct op; simpl in *; try done; by destruct Hm as [-> ->].
  - apply Hall in Hok.
    assert (Hx : y ∈ (MMod h1 k1 f, RUnit) :: tr -> mallowed P Q ((MMod h1 k1 f, RUnit) :: tr) (MGet h k)).
    { intros [->|Hy']%elem_of_cons; [|by apply mallowed_mono, IH]. apply mallowed_mono. simpl in *. by destruct Hm as [-> ->]. }
    unfold recovered in *. destruct (decide _); [by apply Hx|].
    apply elem_of_cons in Hy as [->|Hy]; [done|]. apply mallowed_mono. by apply Hx.
Qed.

Lemma prun_contents (R : world V CK U -> mstate K V U -> Prop) tr w σ h :
  (∀ tr w σ op, mspec dig zero u0 tr σ -> R w σ -> ok tr op ->
       ∃ res w' σ', mcall api op w = Ret res w' /\ mstep dig zero σ op res σ' /\ R w' σ' /\
         (reads op -> w' = w /\ σ' = σ)) ->
  prun tr w -> mspec dig zero u0 tr σ -> R w σ -> contents tr w h (cont σ h).
Proof.
  intros Hstep Hr Hs HR. split.
  - intros k Hk. eapply prun_stored; [done..|]. rewrite cont_lookup in Hk. unfold value in Hk. unfold holds.
    destruct (ms_map σ !! h) as [[s m]|] eqn:E; [|by destruct Hk]. simpl in Hk.
    destruct (m !! k) as [p|] eqn:E'; [|by destruct Hk]. eauto.
  - intros k Hk. destruct (Hstep _ _ _ _ Hs HR Hk) as (res & w' & σ' & Hc & Hst & _ & Hrd).
    destruct (Hrd I) as [-> ->]. destruct Hst as (_ & _ & ->). by rewrite Hc, cont_lookup.
Qed.

(** In executions with recovered panics every call returns, and does to the
    contents what the calls so far ask for. *)
Theorem prun_spec tr w : prun tr w ->
  (∃ σ, mspec dig zero u0 tr σ) /\ (∀ h, ∃ m, contents tr w h m) /\ ∀ op, ok tr op -> ∃ res w', mcall api op w = Ret res w'.
Proof.
  intros Hr. destruct prun_sim as (R & H1 & H2 & H3 & H4 & _). destruct (H1 _ _ Hr) as (σ & Hs & HR).
  split_and!; [by exists σ|intros h; exists (cont σ h); by eapply prun_contents|].
  intros op Ho. destruct (H3 _ _ _ _ Hs HR Ho) as (res & w' & _ & Hc & _). eauto.
Qed.

Lemma recovered_ok tr h k f op : ok tr op -> reads op -> ok (recovered h k f tr) op.
Proof.
  intros Ho Hr. unfold recovered. destruct (decide _).
  - apply (map_ok_mono zero fuel u0 Hfuel api dig ok _ _ _ Ht Ho Hr).
  - apply (map_ok_mono zero fuel u0 Hfuel api dig ok _ _ _ Ht); [|done].
    apply (map_ok_mono zero fuel u0 Hfuel api dig ok _ _ _ Ht Ho Hr).
Qed.

Theorem panic_effect tr w h k f m : prun tr w -> ok tr (MMod h k f) -> unhindered dig h k tr -> contents tr w h m ->
  let '(u, v) := f (w_usr w) (default zero (m !! k)) (bool_decide (is_Some (m !! k))) in
  ∃ w', ma_Mod api (Some h) k (panic_cb f) w = Panic w' /\
  let tr' := recovered h k f tr in
  contents tr' w' h (if m !! k then <[k := v]> m else m) /\ w_usr w' = u /\
  (∀ h' m', h' ≠ h -> contents tr w h' m' -> contents tr' w' h' m') /\
  (m !! k = None -> ∀ op, reads op -> ok tr op -> ∃ res, mcall api op w = Ret res w /\ mcall api op w' = Ret res w').
Proof.
  intros Hr Ho Hun Hm. destruct prun_sim as (R & H1 & H2 & H3 & H4 & _). destruct (H1 _ _ Hr) as (σ & Hs & HR).
  assert (Hcu : ∀ h m, contents tr w h m -> m = cont σ h).
  { intros h' m' Hm'. eapply contents_unique; [done|]. by eapply prun_contents. }
  destruct (H4 _ _ _ _ _ _ Hs HR Ho Hun) as (w' & σ' & Hw' & HR' & Hs' & Hcase).
  assert (Hr' : prun (recovered h k f tr) w') by (by eapply prun_panic).
  assert (Hc' : ∀ h', contents (recovered h k f tr) w' h' (cont σ' h')).
  { intros h'. apply (prun_contents R _ _ σ' _ H3 Hr' Hs' HR'). }
  pose proof (mspec_wf _ _ _ _ _ Hs) as Hwf.
  assert (Hst : k ∈ stored tr h <-> is_Some (m !! k)).
  { rewrite (stored_holds dig zero u0 tr σ h k Hs), (Hcu _ _ Hm), cont_lookup. unfold holds, value. split.
    - intros (s & mp & Hmp & [p Hp]). rewrite Hmp. simpl. rewrite Hp. simpl. by eapply mw_val.
    - destruct (ms_map σ !! h) as [[s mp]|]; [|by intros [? ?]]. simpl. intros [v Hv].
      destruct (mp !! k) eqn:E; [|done]. exists s, mp. rewrite E. eauto. }
  destruct Hcase as [(Hk & Hc & _ & Hput)|(Hk & p & Hp & Hσ)].
  - apply Hst in Hk as [v0 Hk].
    rewrite <- cont_lookup, <- (Hcu _ _ Hm), (H2 _ _ HR) in Hput. rewrite Hk in *. simpl in *.
    destruct (f (w_usr w) v0 _) as [u v]. exists w'. split; [done|].
    destruct (put_cont _ _ _ _ _ _ Hwf Hput) as (He & Hoth & Hu). split; [|split; [|split]].
    + rewrite (Hcu _ _ Hm), <-He. done.
    + by rewrite <-(H2 _ _ HR').
    + intros h' m' Hh Hm'. rewrite (Hcu _ _ Hm'), <-(Hoth _ Hh). done.
    + done.
  - assert (Hkn : m !! k = None). { destruct (m !! k) eqn:E; [|done]. exfalso. apply Hk, Hst. eauto. }
    rewrite Hkn. simpl. rewrite (H2 _ _ HR) in Hσ. destruct (f (w_usr w) zero false) as [u v]. simpl in Hσ.
    exists w'. split; [done|].
    assert (Hcs : ∀ h, cont σ' h = cont σ h).
    { intros h'. apply map_eq. intros k'. rewrite !cont_lookup. unfold value. rewrite Hσ. simpl.
      destruct (ms_map σ !! h') as [[s' mp]|] eqn:E; [|done]. simpl. destruct (mp !! k') as [q|] eqn:E'; [|done]. simpl.
      rewrite lookup_insert_ne; [done|]. intros ->. destruct (mw_val _ Hwf _ _ _ _ _ E E'). congruence. }
    split; [|split; [|split]].
    + rewrite (Hcu _ _ Hm), <-Hcs. done.
    + rewrite <-(H2 _ _ HR'). by rewrite Hσ.
    + intros h' m' Hh Hm'. rewrite (Hcu _ _ Hm'), <-Hcs. done.
    + intros _ op Hrd Hop.
      destruct (H3 _ _ _ _ Hs HR Hop) as (r1 & w1 & σ1 & Hc1 & Hst1 & _ & Hp1). destruct (Hp1 Hrd) as [-> ->].
      destruct (H3 _ _ _ _ Hs' HR' (recovered_ok _ _ _ _ _ Hop Hrd)) as (r2 & w2 & σ2 & Hc2 & Hst2 & _ & Hp2).
      destruct (Hp2 Hrd) as [-> ->]. exists r1. split; [done|]. rewrite Hc2. f_equal.
      assert (Hv : ∀ h k, value σ' h k = value σ h k). { intros h' k'. by rewrite <-!cont_lookup, Hcs. }
      assert (Hmm : ms_map σ' = ms_map σ) by (by rewrite Hσ).
      destruct op as [| | | |h1 k1|h1 k1|h1 k1|h1|h1| |q|]; try done; simpl in *; rewrite ?Hv, ?Hmm in Hst2.
      * destruct Hst1 as (_ & _ & ->), Hst2 as (_ & _ & ->). done.
      * destruct Hst1 as (_ & _ & ->), Hst2 as (_ & _ & ->). done.
      * destruct Hst1 as (_ & s1 & m1 & Hm1 & ->), Hst2 as (_ & s2 & m2 & Hm2 & ->). congruence.
      * destruct Hst1 as (_ & s1 & m1 & Hm1 & ->), Hst2 as (_ & s2 & m2 & Hm2 & ->). congruence.
      * destruct Hst1 as (_ & s1 & m1 & Hm1 & ->), Hst2 as (_ & s2 & m2 & Hm2 & ->). congruence.
      * destruct Hst1 as (_ & v1 & Hv1 & ->), Hst2 as (_ & v2 & Hv2 & ->). rewrite Hσ in Hv2. simpl in Hv2.
        rewrite lookup_insert_ne in Hv2 by congruence. congruence.
Qed.
End runs.
End sim.
