(** What a history of calls tells about the state, also when the user changes own
    variables between the calls. *)
From stdpp Require Import base numbers list gmap.
From Verif Require Import GoInt Mem Spec SpecFacts Guards Client Programs.
Local Open Scope nat_scope.

(** Histories of the specification with changes to own variables. *)
Inductive cspec {Op Res S U : Type} (step : S -> Op -> Res -> S -> Prop) (put : U -> S -> S) (i : S) : list (Op * Res) -> S -> Prop :=
  | cspec_nil : cspec step put i [] i
  | cspec_call tr σ op res σ' : cspec step put i tr σ -> step σ op res σ' -> cspec step put i ((op, res) :: tr) σ'
  | cspec_own tr σ u : cspec step put i tr σ -> cspec step put i tr (put u σ).

Definition mown {K V U} `{Countable K} (u : U) (σ : mstate K V U) : mstate K V U := MState (ms_map σ) (ms_val σ) u.
Definition sown {K U} `{Countable K} (u : U) (σ : sstate K U) : sstate K U := SState (ss_set σ) u.

Section maps.
Context `{Countable K} {V U : Type}.
Variables (dig : N -> K -> nat -> N) (zero : V).
Implicit Types (σ : mstate K V U) (k : K) (h p : positive) (u : U) (tr : list (mop K V U * mres V)).

Record tells tr σ : Prop := {
  tl_wf : mwf σ;
  tl_holds : ∀ h k, k ∈ stored tr h <-> holds σ h k;
  tl_new : ∀ s h, (MNew s, RHandle h) ∈ tr -> ∃ m, ms_map σ !! h = Some (s, m);
  tl_seed : ∀ h s m, ms_map σ !! h = Some (s, m) -> (MNew s, RHandle h) ∈ tr;
  tl_addr : ∀ h k p, (MPtr h k, RPtr (Some p)) ∈ tr -> is_Some (ms_val σ !! p) }.

Lemma tells_init u : tells [] (minit u).
Proof.
  split; simpl.
  - constructor; simpl; intros; by rewrite lookup_empty in *.
  - intros h k. split; [set_solver|]. intros (s & m & Hm & _). simpl in Hm. by rewrite lookup_empty in Hm.
  - intros s h Hin. by apply elem_of_nil in Hin.
  - intros h s m Hm. by rewrite lookup_empty in Hm.
  - intros h k p Hin. by apply elem_of_nil in Hin.
Qed.

Lemma tells_own tr σ u : tells tr σ -> tells tr (mown u σ).
Proof. intros [[] ? ? ? ?]. split; try done. Qed.

Lemma mstep_seed σ op res σ' h s (m : gmap K positive) : mstep dig zero σ op res σ' -> ms_map σ' !! h = Some (s, m) ->
  (op = MNew s /\ res = RHandle h) \/ ∃ m', ms_map σ !! h = Some (s, m').
Proof.
  intros Hst Hm.
  assert (Hput : ∀ h1 k1 v1 u1, put σ h1 k1 v1 u1 σ' -> ∃ m', ms_map σ !! h = Some (s, m')).
  { intros h1 k1 v1 u1 (s1 & m1 & Hm1 & Hp). destruct (m1 !! k1).
    - subst σ'. eauto.
    - destruct Hp as (p & _ & ->). simpl in Hm. destruct (decide (h = h1)) as [->|Hne].
      + rewrite lookup_insert in Hm. injection Hm as <- <-. eauto.
      + rewrite lookup_insert_ne in Hm by done. eauto. }
  destruct op as [s1|h1 k1 v|h1 k1 f|h1 k1|h1 k1|h1 k1|h1 k1|h1|h1|h1 f|p|p v]; simpl in Hst.
  - destruct Hst as (h1 & -> & Hn & ->). simpl in Hm. destruct (decide (h = h1)) as [->|Hne].
    + rewrite lookup_insert in Hm. injection Hm as <- <-. by left.
    + rewrite lookup_insert_ne in Hm by done. right. eauto.
  - destruct Hst as (_ & Hp). apply Hput in Hp. by right.
  - destruct Hst as (_ & Hp). destruct (f _ _ _) as [u1 v1]. apply Hput in Hp. by right.
  - destruct Hst as (_ & s1 & m1 & Hm1 & ->). simpl in Hm. destruct (decide (h = h1)) as [->|Hne].
    + rewrite lookup_insert in Hm. injection Hm as <- <-. right. eauto.
    + rewrite lookup_insert_ne in Hm by done. right. eauto.
  - destruct Hst as (-> & _). right. eauto.
  - destruct Hst as (-> & _). right. eauto.
  - destruct Hst as (-> & _). right. eauto.
  - destruct Hst as (-> & _). right. eauto.
  - destruct Hst as (-> & _). right. eauto.
  - destruct Hst as (_ & s1 & m1 & es & _ & _ & _ & ->). right. eauto.
  - destruct Hst as (-> & _). right. eauto.
  - destruct Hst as (_ & _ & ->). right. eauto.
Qed.

Lemma tells_step tr σ op res σ' : tells tr σ -> mstep dig zero σ op res σ' -> tells ((op, res) :: tr) σ'.
Proof.
  intros [Hw Hh Hn Hs Ha] Hst. destruct (mstep_wf dig zero σ op res σ' Hw Hst) as [Hw' [Hg1 Hg2]]. split.
  - done.
  - intros h k. pose proof (mstep_holds dig zero _ _ _ _ h k Hst) as Hx. specialize (Hh h k).
    destruct op as [s|h1 k1 v|h1 k1 f|h1 k1|h1 k1|h1 k1|h1 k1|h1|h1|h1 f|p|p v]; cbn [stored];
      rewrite Hx, <- ?Hh; try tauto; destruct (Pos.eqb_spec h1 h) as [->|Hne]; set_solver.
  - intros s h Hin. apply elem_of_cons in Hin as [[= <- <-]|Hin].
    + destruct Hst as (h' & [= <-] & _ & ->). simpl. rewrite lookup_insert. eauto.
    + apply Hn in Hin as [m Hm]. by apply Hg1 in Hm.
  - intros h s m Hm. destruct (mstep_seed _ _ _ _ _ _ _ Hst Hm) as [[-> ->]|[m' Hm']]; [left|right]. eauto.
  - intros h k p Hin. apply elem_of_cons in Hin as [[= <- <-]|Hin].
    + destruct Hst as (-> & s & m & Hm & [= Hp]). by eapply (mw_val σ Hw).
    + apply Ha in Hin. by apply Hg2.
Qed.

Lemma tells_keys tr σ h s (m : gmap K positive) : tells tr σ -> ms_map σ !! h = Some (s, m) ->
  elements (stored tr h) ≡ₚ (map_to_list m).*1.
Proof.
  intros Ht Hm. apply NoDup_Permutation; [apply NoDup_elements|apply NoDup_fst_map_to_list|].
  intros k. rewrite elem_of_elements, (tl_holds _ _ Ht). unfold holds. rewrite Hm.
  rewrite elem_of_list_fmap. split.
  - intros (s' & m' & [= <- <-] & p & Hp). exists (k, p). split; [done|]. by apply elem_of_map_to_list.
  - intros ([k' p] & -> & Hp%elem_of_map_to_list). simpl. eauto.
Qed.

Lemma cspec_tells u0 tr σ : cspec (mstep dig zero) mown (minit u0) tr σ -> tells tr σ.
Proof.
  induction 1 as [|tr σ op res σ' Hs IH Hst|tr σ u Hs IH]; [apply tells_init|by eapply tells_step|by apply tells_own].
Qed.
Lemma mspec_cspec u0 tr σ : mspec dig zero u0 tr σ -> cspec (mstep dig zero) mown (minit u0) tr σ.
Proof. induction 1; econstructor; eauto. Qed.

(** The call op changes the keys of h. *)
Definition changes_keys h tr (op : mop K V U) : Prop :=
  match op with
  | MSet h' k _ | MMod h' k _ => h' = h /\ k ∉ stored tr h
  | MDel h' k => h' = h /\ k ∈ stored tr h
  | _ => False
  end.
Lemma same_keys tr σ op res σ' h x : tells tr σ -> mstep dig zero σ op res σ' -> ¬ changes_keys h tr op ->
  ms_map σ !! h = Some x -> ms_map σ' !! h = Some x.
Proof.
  intros Ht Hst Hc Hx.
  assert (Hput : ∀ h1 k1 v1 u1, ¬ (h1 = h /\ k1 ∉ stored tr h) -> put σ h1 k1 v1 u1 σ' -> ms_map σ' !! h = Some x).
  { intros h1 k1 v1 u1 Hn (s1 & m1 & Hm1 & Hp). destruct (m1 !! k1) eqn:E.
    - by subst σ'.
    - destruct Hp as (p & _ & ->). simpl. destruct (decide (h1 = h)) as [->|Hne]; [|by rewrite lookup_insert_ne].
      exfalso. apply Hn. split; [done|]. rewrite (tl_holds _ _ Ht). intros (s2 & m2 & Hm2 & Hk2).
      rewrite Hm1 in Hm2. injection Hm2 as <- <-. rewrite E in Hk2. by destruct Hk2. }
  destruct op as [s1|h1 k1 v|h1 k1 f|h1 k1|h1 k1|h1 k1|h1 k1|h1|h1|h1 f|p|p v]; simpl in Hst, Hc.
  - destruct Hst as (h1 & -> & Hn & ->). simpl. rewrite lookup_insert_ne by congruence. done.
  - destruct Hst as (_ & Hp). by eapply Hput.
  - destruct Hst as (_ & Hp). destruct (f _ _ _) as [u1 v1]. by eapply Hput.
  - destruct Hst as (_ & s1 & m1 & Hm1 & ->). simpl. destruct (decide (h1 = h)) as [->|Hne]; [|by rewrite lookup_insert_ne].
    rewrite lookup_insert, delete_notin; [congruence|]. destruct (m1 !! k1) eqn:E; [|done]. exfalso. apply Hc. split; [done|].
    apply (tl_holds _ _ Ht). exists s1, m1. rewrite E. eauto.
  - by destruct Hst as (-> & _).
  - by destruct Hst as (-> & _).
  - by destruct Hst as (-> & _).
  - by destruct Hst as (-> & _).
  - by destruct Hst as (-> & _).
  - by destruct Hst as (_ & s1 & m1 & es & _ & _ & _ & ->).
  - by destruct Hst as (-> & _).
  - by destruct Hst as (_ & _ & ->).
Qed.
End maps.

Section sets.
Context `{Countable K} {U : Type}.
Variable dig : N -> K -> nat -> N.
Implicit Types (σ : sstate K U) (k : K) (h : positive) (u : U) (tr : list (sop K U * sres)).

Record stells tr σ : Prop := {
  st_stored : ∀ h s X, ss_set σ !! h = Some (s, X) -> X = sstored tr h /\ (SNew s, THandle h) ∈ tr;
  st_empty : ∀ h, ss_set σ !! h = None -> sstored tr h = ∅;
  st_new : ∀ s h, (SNew s, THandle h) ∈ tr -> ∃ X, ss_set σ !! h = Some (s, X) }.

Lemma stells_init u : stells [] (sinit u).
Proof.
  split; simpl.
  - intros h s X HX. by rewrite lookup_empty in HX.
  - done.
  - intros s h Hin. by apply elem_of_nil in Hin.
Qed.
Lemma stells_own tr σ u : stells tr σ -> stells tr (sown u σ).
Proof. intros []. by split. Qed.

Lemma stells_step tr σ op res σ' : stells tr σ -> sstep dig σ op res σ' -> stells ((op, res) :: tr) σ'.
Proof.
  intros [IH He Hn] Hst. split.
  - intros h s X HX.
    assert (Hkeep : σ' = σ -> X = sstored tr h /\ (SNew s, THandle h) ∈ (op, res) :: tr).
    { intros ->. destruct (IH _ _ _ HX) as [-> Hin]. split; [done|by right]. }
    destruct op as [s1|h1 k1|h1 k1|h1 k1|h1|h1|h1 f]; simpl in Hst; cbn [sstored].
    + destruct Hst as (h1 & -> & Hn1 & ->). simpl in HX. destruct (decide (h = h1)) as [->|Hne].
      * rewrite lookup_insert in HX. injection HX as <- <-. split; [|left]. symmetry. by apply He.
      * rewrite lookup_insert_ne in HX by done. destruct (IH _ _ _ HX) as [-> Hin]. split; [done|by right].
    + destruct Hst as (_ & s1 & X1 & HX1 & ->). simpl in HX. destruct (Pos.eqb_spec h1 h) as [->|Hne].
      * rewrite lookup_insert in HX. injection HX as <- <-. destruct (IH _ _ _ HX1) as [-> Hin]. split; [done|by right].
      * rewrite lookup_insert_ne in HX by done. destruct (IH _ _ _ HX) as [-> Hin]. split; [done|by right].
    + destruct Hst as (_ & s1 & X1 & HX1 & ->). simpl in HX. destruct (Pos.eqb_spec h1 h) as [->|Hne].
      * rewrite lookup_insert in HX. injection HX as <- <-. destruct (IH _ _ _ HX1) as [-> Hin]. split; [done|by right].
      * rewrite lookup_insert_ne in HX by done. destruct (IH _ _ _ HX) as [-> Hin]. split; [done|by right].
    + destruct Hst as (-> & _). auto.
    + destruct Hst as (-> & _). auto.
    + destruct Hst as (-> & _). auto.
    + destruct Hst as (_ & s1 & X1 & ks & _ & _ & _ & ->). simpl in HX.
      destruct (IH _ _ _ HX) as [-> Hin]. split; [done|by right].
  - intros h HN. destruct op as [s|h1 k1|h1 k1|h1 k1|h1|h1|h1 f]; simpl in Hst; cbn [sstored].
    + destruct Hst as (h1 & -> & _ & ->). simpl in HN. apply lookup_insert_None in HN as [HN _]. auto.
    + destruct Hst as (_ & s & X & HX & ->). simpl in HN. apply lookup_insert_None in HN as [HN Hne].
      destruct (Pos.eqb_spec h1 h) as [->|_]; [congruence|]. auto.
    + destruct Hst as (_ & s & X & HX & ->). simpl in HN. apply lookup_insert_None in HN as [HN Hne].
      destruct (Pos.eqb_spec h1 h) as [->|_]; [congruence|]. auto.
    + destruct Hst as (-> & _). auto.
    + destruct Hst as (-> & _). auto.
    + destruct Hst as (-> & _). auto.
    + destruct Hst as (_ & s & X & ks & _ & _ & _ & ->). auto.
  - intros s h Hin. apply elem_of_cons in Hin as [[= <- <-]|Hin].
    + destruct Hst as (h' & [= <-] & _ & ->). simpl. rewrite lookup_insert. eauto.
    + apply Hn in Hin as [X HX].
      destruct op as [s1|h1 k1|h1 k1|h1 k1|h1|h1|h1 f]; simpl in Hst.
      * destruct Hst as (h1 & -> & Hn1 & ->). simpl. rewrite lookup_insert_ne by congruence. eauto.
      * destruct Hst as (_ & s1 & X1 & HX1 & ->). simpl. destruct (decide (h1 = h)) as [->|Hne].
        -- rewrite lookup_insert. rewrite HX1 in HX. injection HX as <- <-. eauto.
        -- rewrite lookup_insert_ne by done. eauto.
      * destruct Hst as (_ & s1 & X1 & HX1 & ->). simpl. destruct (decide (h1 = h)) as [->|Hne].
        -- rewrite lookup_insert. rewrite HX1 in HX. injection HX as <- <-. eauto.
        -- rewrite lookup_insert_ne by done. eauto.
      * destruct Hst as (-> & _). eauto.
      * destruct Hst as (-> & _). eauto.
      * destruct Hst as (-> & _). eauto.
      * destruct Hst as (_ & s1 & X1 & ks & _ & _ & _ & ->). simpl. eauto.
Qed.

Lemma cspec_stells u0 tr σ : cspec (sstep dig) sown (sinit u0) tr σ -> stells tr σ.
Proof.
  induction 1 as [|tr σ op res σ' Hs IH Hst|tr σ u Hs IH]; [apply stells_init|by eapply stells_step|by apply stells_own].
Qed.

Definition changes_members h tr (op : sop K U) : Prop :=
  match op with
  | SAdd h' k => h' = h /\ k ∉ sstored tr h
  | SDel h' k => h' = h /\ k ∈ sstored tr h
  | _ => False
  end.
Lemma same_members tr σ op res σ' h x : stells tr σ -> sstep dig σ op res σ' -> ¬ changes_members h tr op ->
  ss_set σ !! h = Some x -> ss_set σ' !! h = Some x.
Proof.
  intros Ht Hst Hc Hx.
  destruct op as [s1|h1 k1|h1 k1|h1 k1|h1|h1|h1 f]; simpl in Hst, Hc.
  - destruct Hst as (h1 & -> & Hn1 & ->). simpl. rewrite lookup_insert_ne by congruence. done.
  - destruct Hst as (_ & s1 & X1 & HX1 & ->). simpl. destruct (decide (h1 = h)) as [->|Hne]; [|by rewrite lookup_insert_ne].
    rewrite lookup_insert, <- Hx, HX1. destruct (st_stored _ _ Ht _ _ _ HX1) as [-> _].
    destruct (decide (k1 ∈ sstored tr h)) as [Hk|Hk]; [|tauto]. do 2 f_equal. set_solver +Hk.
  - destruct Hst as (_ & s1 & X1 & HX1 & ->). simpl. destruct (decide (h1 = h)) as [->|Hne]; [|by rewrite lookup_insert_ne].
    rewrite lookup_insert, <- Hx, HX1. destruct (st_stored _ _ Ht _ _ _ HX1) as [-> _].
    destruct (decide (k1 ∈ sstored tr h)) as [Hk|Hk]; [tauto|]. do 2 f_equal. set_solver +Hk.
  - by destruct Hst as (-> & _).
  - by destruct Hst as (-> & _).
  - by destruct Hst as (-> & _).
  - by destruct Hst as (_ & s1 & X1 & ks & _ & _ & _ & ->).
Qed.
End sets.
