(** Facts about the guards of Spec.v, and a test for them. *)
From stdpp Require Import base numbers list gmap.
From Verif Require Import Spec SpecFacts Order.
Local Open Scope nat_scope.

Section maps.
Context `{Countable K} {V U : Type}.
Variable dig : N -> K -> nat -> N.
Variable zero : V.
Implicit Types (σ : mstate K V U) (k : K) (h p : positive) (v : V) (u : U).
Notation hist := (list (mop K V U * mres V)).

Lemma put_stored σ h k (v : V) (u : U) σ' h' k' : put σ h k v u σ' ->
  (∃ s m, ms_map σ' !! h' = Some (s, m) /\ is_Some (m !! k')) <->
  (h' = h /\ k' = k) \/ ∃ s m, ms_map σ !! h' = Some (s, m) /\ is_Some (m !! k').
Proof.
  intros (s & m & Hm & Hp). destruct (m !! k) as [p|] eqn:E.
  - subst σ'. simpl. split; [intros Hx; by right|]. intros [[-> ->]|Hx]; [|done]. eauto.
  - destruct Hp as (p & Hf & ->). simpl. split.
    + intros (s' & m' & Hm' & Hk'). destruct (decide (h' = h)) as [->|Hne].
      * rewrite lookup_insert in Hm'. injection Hm' as <- <-. destruct (decide (k' = k)) as [->|Hk]; [by left|].
        rewrite lookup_insert_ne in Hk' by done. right. eauto.
      * rewrite lookup_insert_ne in Hm' by done. right. eauto.
    + intros [[-> ->]|(s' & m' & Hm' & Hk')].
      * eexists s, _. rewrite lookup_insert. split; [done|]. rewrite lookup_insert. eauto.
      * destruct (decide (h' = h)) as [->|Hne].
        -- rewrite Hm in Hm'. injection Hm' as <- <-. eexists s, _. rewrite lookup_insert. split; [done|].
           rewrite lookup_insert_is_Some'. by right.
        -- exists s', m'. by rewrite lookup_insert_ne.
Qed.

Definition holds (σ : mstate K V U) (h : positive) (k : K) : Prop :=
  ∃ s m, ms_map σ !! h = Some (s, m) /\ is_Some (m !! k).

Lemma mstep_holds σ op res σ' h k : mstep dig zero σ op res σ' ->
  match op with
  | MSet h' k' _ | MMod h' k' _ => holds σ' h k <-> (h = h' /\ k = k') \/ holds σ h k
  | MDel h' k' => holds σ' h k <-> ¬ (h = h' /\ k = k') /\ holds σ h k
  | _ => holds σ' h k <-> holds σ h k
  end.
Proof.
  intros Hst. unfold holds. destruct op as [s|h1 k1 v|h1 k1 f|h1 k1|h1 k1|h1 k1|h1 k1|h1|h1|h1 f|p|p v]; simpl in Hst.
  - destruct Hst as (h1 & _ & Hn & ->). simpl. split; intros (s1 & m1 & Hm1 & Hk1).
    + destruct (decide (h = h1)) as [->|Hne].
      * rewrite lookup_insert in Hm1. injection Hm1 as <- <-. rewrite lookup_empty in Hk1. by destruct Hk1.
      * rewrite lookup_insert_ne in Hm1 by done. eauto.
    + exists s1, m1. rewrite lookup_insert_ne by congruence. done.
  - destruct Hst as (_ & Hp). by eapply put_stored.
  - destruct Hst as (_ & Hp). destruct (f _ _ _) as [u1 v1]. by eapply put_stored.
  - destruct Hst as (_ & s & m & Hm & ->). simpl. destruct (decide (h = h1)) as [->|Hne].
    + rewrite lookup_insert. split.
      * intros (s1 & m1 & [= <- <-] & Hk1). destruct (decide (k = k1)) as [->|Hk].
        -- rewrite lookup_delete in Hk1. by destruct Hk1.
        -- rewrite lookup_delete_ne in Hk1 by done. split; [naive_solver|eauto].
      * intros (Hne & s1 & m1 & Hm1 & Hk1). rewrite Hm in Hm1. injection Hm1 as <- <-.
        eexists _, _. split; [done|]. rewrite lookup_delete_ne; [done|]. naive_solver.
    + rewrite lookup_insert_ne by done. naive_solver.
  - by destruct Hst as (-> & _).
  - by destruct Hst as (-> & _).
  - by destruct Hst as (-> & _).
  - by destruct Hst as (-> & _).
  - by destruct Hst as (-> & _).
  - by destruct Hst as (_ & s & m & es & _ & _ & _ & ->).
  - by destruct Hst as (-> & _).
  - by destruct Hst as (_ & _ & ->).
Qed.

Lemma stored_holds u0 tr σ h k : mspec dig zero u0 tr σ -> k ∈ stored tr h <-> holds σ h k.
Proof.
  induction 1 as [|tr σ op res σ' Hs IH Hst].
  - split; [set_solver|]. intros (s & m & Hm & _). simpl in Hm. by rewrite lookup_empty in Hm.
  - pose proof (mstep_holds _ _ _ _ h k Hst) as Hh.
    destruct op as [s|h1 k1 v|h1 k1 f|h1 k1|h1 k1|h1 k1|h1 k1|h1|h1|h1 f|p|p v]; cbn [stored];
      rewrite Hh, <- ?IH; try tauto; destruct (Pos.eqb_spec h1 h) as [->|Hne]; set_solver.
Qed.

(** A stored key is stored under the seed of its map by some Set or Mod. *)
Lemma mspec_seed u0 tr σ : mspec dig zero u0 tr σ -> ∀ h s m, ms_map σ !! h = Some (s, m) -> (MNew s, RHandle h) ∈ tr.
Proof.
  induction 1 as [|tr σ op res σ' Hs IH Hst]; intros h s m Hm; [simpl in Hm; by rewrite lookup_empty in Hm|].
  assert (Hput : ∀ h1 k1 v1 u1, put σ h1 k1 v1 u1 σ' -> ∃ m', ms_map σ !! h = Some (s, m')).
  { intros h1 k1 v1 u1 (s1 & m1 & Hm1 & Hp). destruct (m1 !! k1).
    - subst σ'. eauto.
    - destruct Hp as (p & _ & ->). simpl in Hm. destruct (decide (h = h1)) as [->|Hne].
      + rewrite lookup_insert in Hm. injection Hm as <- <-. eauto.
      + rewrite lookup_insert_ne in Hm by done. eauto. }
  destruct op as [s1|h1 k1 v|h1 k1 f|h1 k1|h1 k1|h1 k1|h1 k1|h1|h1|h1 f|p|p v]; simpl in Hst.
  - destruct Hst as (h1 & -> & Hn & ->). simpl in Hm. destruct (decide (h = h1)) as [->|Hne].
    + rewrite lookup_insert in Hm. injection Hm as <- <-. left.
    + rewrite lookup_insert_ne in Hm by done. right. eauto.
  - destruct Hst as (_ & Hp). apply Hput in Hp as [m' Hm']. right. eauto.
  - destruct Hst as (_ & Hp). destruct (f _ _ _) as [u1 v1]. apply Hput in Hp as [m' Hm']. right. eauto.
  - destruct Hst as (_ & s1 & m1 & Hm1 & ->). simpl in Hm. destruct (decide (h = h1)) as [->|Hne].
    + rewrite lookup_insert in Hm. injection Hm as <- <-. right. eauto.
    + rewrite lookup_insert_ne in Hm by done. right. eauto.
  - destruct Hst as (-> & _). right. eauto.
  - destruct Hst as (-> & _). right. eauto.
  - destruct Hst as (-> & _). right. eauto.
  - destruct Hst as (-> & _). right. eauto.
  - destruct Hst as (-> & _). right. eauto.
  - destruct Hst as (_ & s1 & m1 & es & _ & _ & _ & ->). right. eauto.
  - destruct Hst as (-> & _). right. eauto.
  - destruct Hst as (_ & _ & ->). right. eauto.
Qed.

Lemma stored_some (tr : hist) h k : k ∈ stored tr h ->
  ∃ y, y ∈ tr /\ match y.1 with MSet h' k' _ | MMod h' k' _ => h' = h /\ k' = k | _ => False end.
Proof.
  induction tr as [|[op res] tr IH]; [set_solver|]. intros Hs.
  assert (Hr : k ∈ stored tr h -> ∃ y, y ∈ (op, res) :: tr /\
    match y.1 with MSet h' k' _ | MMod h' k' _ => h' = h /\ k' = k | _ => False end).
  { intros (y & Hy & Hm)%IH. exists y. split; [by right|done]. }
  destruct op as [s1|h1 k1 v|h1 k1 f|h1 k1|h1 k1|h1 k1|h1 k1|h1|h1|h1 f|p|p v]; cbn [stored] in Hs; auto;
    destruct (Pos.eqb_spec h1 h) as [->|Hne]; auto.
  - apply elem_of_union in Hs as [Hs%elem_of_singleton|Hs]; [subst|auto]. eexists. split; [left|done].
  - apply elem_of_union in Hs as [Hs%elem_of_singleton|Hs]; [subst|auto]. eexists. split; [left|done].
  - apply elem_of_difference in Hs as [Hs _]. auto.
Qed.

Lemma stored_keys u0 tr σ h s m : mspec dig zero u0 tr σ -> ms_map σ !! h = Some (s, m) ->
  elements (stored tr h) ≡ₚ (map_to_list m).*1.
Proof.
  intros Hs Hm. apply NoDup_Permutation; [apply NoDup_elements|apply NoDup_fst_map_to_list|].
  intros k. rewrite elem_of_elements, (stored_holds _ _ _ _ _ Hs). unfold holds. rewrite Hm.
  rewrite elem_of_list_fmap. split.
  - intros (s' & m' & [= <- <-] & p & Hp). exists (k, p). split; [done|]. by apply elem_of_map_to_list.
  - intros ([k' p] & -> & Hp%elem_of_map_to_list). simpl. eauto.
Qed.
End maps.

Section sets.
Context `{Countable K} {U : Type}.
Variable dig : N -> K -> nat -> N.
Implicit Types (σ : sstate K U) (k : K) (h : positive) (u : U).
Notation hist := (list (sop K U * sres)).

Lemma sspec_stored u0 (tr : hist) σ : sspec dig u0 tr σ -> ∀ h s X, ss_set σ !! h = Some (s, X) ->
  X = sstored tr h /\ (SNew s, THandle h) ∈ tr.
Proof.
  assert (Hempty : ∀ tr σ, sspec dig u0 tr σ -> ∀ h, ss_set σ !! h = None -> sstored tr h = ∅).
  { clear. induction 1 as [|tr σ op res σ' Hs IH Hst]; intros h Hn; [done|].
    destruct op as [s|h1 k1|h1 k1|h1 k1|h1|h1|h1 f]; simpl in Hst; cbn [sstored].
    - destruct Hst as (h1 & -> & _ & ->). simpl in Hn. apply lookup_insert_None in Hn as [Hn _]. auto.
    - destruct Hst as (_ & s & X & HX & ->). simpl in Hn. apply lookup_insert_None in Hn as [Hn Hne].
      destruct (Pos.eqb_spec h1 h) as [->|_]; [congruence|]. auto.
    - destruct Hst as (_ & s & X & HX & ->). simpl in Hn. apply lookup_insert_None in Hn as [Hn Hne].
      destruct (Pos.eqb_spec h1 h) as [->|_]; [congruence|]. auto.
    - destruct Hst as (-> & _). auto.
    - destruct Hst as (-> & _). auto.
    - destruct Hst as (-> & _). auto.
    - destruct Hst as (_ & s & X & ks & _ & _ & _ & ->). auto. }
  induction 1 as [|tr σ op res σ' Hs IH Hst]; intros h s X HX; [simpl in HX; by rewrite lookup_empty in HX|].
  assert (Hkeep : σ' = σ -> X = sstored tr h /\ (SNew s, THandle h) ∈ (op, res) :: tr).
  { intros ->. destruct (IH _ _ _ HX) as [-> Hin]. split; [done|by right]. }
  destruct op as [s1|h1 k1|h1 k1|h1 k1|h1|h1|h1 f]; simpl in Hst; cbn [sstored].
  - destruct Hst as (h1 & -> & Hn & ->). simpl in HX. destruct (decide (h = h1)) as [->|Hne].
    + rewrite lookup_insert in HX. injection HX as <- <-. split; [|left]. symmetry. by eapply Hempty.
    + rewrite lookup_insert_ne in HX by done. destruct (IH _ _ _ HX) as [-> Hin]. split; [done|by right].
  - destruct Hst as (_ & s1 & X1 & HX1 & ->). simpl in HX. destruct (Pos.eqb_spec h1 h) as [->|Hne].
    + rewrite lookup_insert in HX. injection HX as <- <-. destruct (IH _ _ _ HX1) as [-> Hin]. split; [done|by right].
    + rewrite lookup_insert_ne in HX by done. destruct (IH _ _ _ HX) as [-> Hin]. split; [done|by right].
  - destruct Hst as (_ & s1 & X1 & HX1 & ->). simpl in HX. destruct (Pos.eqb_spec h1 h) as [->|Hne].
    + rewrite lookup_insert in HX. injection HX as <- <-. destruct (IH _ _ _ HX1) as [-> Hin]. split; [done|by right].
    + rewrite lookup_insert_ne in HX by done. destruct (IH _ _ _ HX) as [-> Hin]. split; [done|by right].
  - destruct Hst as (-> & _). auto.
  - destruct Hst as (-> & _). auto.
  - destruct Hst as (-> & _). auto.
  - destruct Hst as (_ & s1 & X1 & ks & _ & _ & _ & ->). simpl in HX.
    destruct (IH _ _ _ HX) as [-> Hin]. split; [done|by right].
Qed.

Lemma sstored_some (tr : hist) h k : k ∈ sstored tr h -> ∃ r, (SAdd h k, r) ∈ tr.
Proof.
  induction tr as [|[op res] tr IH]; [set_solver|]. intros Hs.
  assert (Hr : k ∈ sstored tr h -> ∃ r, (SAdd h k, r) ∈ (op, res) :: tr).
  { intros (y & Hy)%IH. exists y. by right. }
  destruct op as [s|h1 k1|h1 k1|h1 k1|h1|h1|h1 f]; cbn [sstored] in Hs; auto;
    destruct (Pos.eqb_spec h1 h) as [->|Hne]; auto.
  - apply elem_of_union in Hs as [Hs%elem_of_singleton|Hs]; [subst|auto]. eexists. left.
  - apply elem_of_difference in Hs as [Hs _]. auto.
Qed.
End sets.

(** Only the set of keys matters. *)
Section free.
Context `{Countable K}.
Variable dig : N -> K -> nat -> N.
Implicit Types (W : N -> K -> K -> nat -> Prop).

Lemma depth_perm s ks ks' k : ks ≡ₚ ks' -> depth dig s ks k = depth dig s ks' k.
Proof. intros E. unfold depth. apply foldr_max_perm. by rewrite E. Qed.
Lemma free_perm W s ks ks' k : ks ≡ₚ ks' -> free dig W s ks k -> free dig W s ks' k.
Proof.
  intros E Hf k' (Hin & Hne & Hlt). rewrite <- (depth_perm s ks ks' k' E) in *.
  apply Hf. split_and!; [by rewrite E|done|done].
Qed.

(** ** A test *)
Definition freeb (Wb : N -> K -> K -> nat -> bool) (s : N) (ks : list K) (k : K) : bool :=
  forallb (λ k', bool_decide (k' = k) ||
    (let d := depth dig s ks k' in let c := common 241 (dig s k) (dig s k') in
     (c <=? d) || ((c <? 241) && Wb s k k' d))) ks.

Lemma common_sep n : ∀ x y, common n x y < n -> ∃ d, d < n /\ x d ≠ y d.
Proof.
  induction n as [|n IH]; intros x y Hc; simpl in Hc; [lia|].
  destruct (N.eqb_spec (x 0) (y 0)) as [E|E]; [|exists 0; split; [lia|done]].
  destruct (IH (λ i, x (S i)) (λ i, y (S i))) as (d & Hd & Hne); [lia|]. exists (S d). split; [lia|done].
Qed.
Lemma sep_common (x y : nat -> N) n : separated n x y -> common 241 x y <= n.
Proof. intros (d & Hd & Hne). etransitivity; [apply (common_le _ _ _ d Hne)|done]. Qed.

Lemma freeb_free Wb W s ks k : (∀ s k k' d, Wb s k k' d = true -> W s k k' d) ->
  freeb Wb s ks k = true -> free dig W s ks k.
Proof.
  intros HW Hb k' (Hin & Hne & Hlt). unfold freeb in Hb. rewrite forallb_forall in Hb.
  apply elem_of_list_In in Hin. apply Hb in Hin. rewrite bool_decide_eq_false_2 in Hin by done. cbn [orb] in Hin.
  cbv zeta in Hin. apply orb_prop in Hin as [Hx%Nat.leb_le|[Hx%Nat.ltb_lt Hw]%andb_prop]; [lia|].
  split; [|by apply HW]. destruct (common_sep _ _ _ Hx) as (d & Hd & Hd'). exists d. split; [lia|done].
Qed.

Section maps.
Context {V U : Type}.
Definition insb (WSb WMb : N -> K -> K -> nat -> bool) (tr : list (mop K V U * mres V)) (op : mop K V U) : bool :=
  let fine Wb h k := bool_decide (k ∈ stored tr h) ||
    forallb (λ x, match x with (MNew s, RHandle h') => negb (Pos.eqb h' h) || freeb Wb s (elements (stored tr h)) k | _ => true end) tr in
  match op with MSet h k _ => fine WSb h k | MMod h k _ => fine WMb h k | _ => true end.
Lemma insb_ok WSb WMb (WS WM : N -> K -> K -> nat -> Prop) tr op : (∀ s k k' d, WSb s k k' d = true -> WS s k k' d) ->
  (∀ s k k' d, WMb s k k' d = true -> WM s k k' d) -> insb WSb WMb tr op = true -> ins_guard dig WS WM tr op.
Proof.
  intros HS HM Hb.
  assert (Hfine : ∀ Wb (W : N -> K -> K -> nat -> Prop) h k, (∀ s k k' d, Wb s k k' d = true -> W s k k' d) ->
    bool_decide (k ∈ stored tr h) || forallb (λ x, match x with (MNew s, RHandle h') => negb (Pos.eqb h' h) || freeb Wb s (elements (stored tr h)) k | _ => true end) tr = true ->
    k ∈ stored tr h \/ ∀ s, (MNew s, RHandle h) ∈ tr -> free dig W s (elements (stored tr h)) k).
  { intros Wb W h k HW [Hx%bool_decide_eq_true|Hx]%orb_prop; [by left|right]. intros s Hin%elem_of_list_In.
    rewrite forallb_forall in Hx. apply Hx in Hin. rewrite Pos.eqb_refl in Hin. by eapply freeb_free. }
  destruct op; simpl in *; try done; by eapply Hfine.
Qed.
End maps.

Section sets.
Context {U : Type}.
Definition addb (Wb : N -> K -> K -> nat -> bool) (tr : list (sop K U * sres)) (op : sop K U) : bool :=
  match op with
  | SAdd h k => bool_decide (k ∈ sstored tr h) ||
      forallb (λ x, match x with (SNew s, THandle h') => negb (Pos.eqb h' h) || freeb Wb s (elements (sstored tr h)) k | _ => true end) tr
  | _ => true
  end.
Lemma addb_ok Wb (W : N -> K -> K -> nat -> Prop) tr op : (∀ s k k' d, Wb s k k' d = true -> W s k k' d) -> addb Wb tr op = true -> add_guard dig W tr op.
Proof.
  intros HW Hb. destruct op as [s|h k|h k|h k|h|h|h f]; simpl in *; try done.
  apply orb_prop in Hb as [Hx%bool_decide_eq_true|Hx]; [by left|right]. intros s Hin%elem_of_list_In.
  rewrite forallb_forall in Hx. apply Hx in Hin. rewrite Pos.eqb_refl in Hin. by eapply freeb_free.
Qed.
End sets.
End free.
