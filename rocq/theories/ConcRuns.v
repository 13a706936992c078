(** Running goroutines by computation, for the examples in Props_Conc.v. *)
From stdpp Require Import base numbers list gmap relations.
From Verif Require Import GoInt Mem Hash Spec Client Types Runs Prog PClient ConcSpec ConcClient.
Local Open Scope nat_scope.

(** A schedule: goroutine i makes its next access, if it can. *)
Section sched.
Context {V CK U A : Type}.
Local Notation config := (config V CK U A).
Definition sched (C : config) (i : nat) : config :=
  match c_thr C !! i with
  | Some t => match next (c_mem C) t with Some (m, t') => Config m (<[i := t']> (c_thr C)) | None => C end
  | None => C
  end.
Lemma sched_step C i : rtc step C (sched C i).
Proof.
  unfold sched. destruct (c_thr C !! i) as [t|] eqn:E; [|done]. destruct (next (c_mem C) t) as [[m t']|] eqn:E'; [|done].
  apply rtc_once. by econstructor.
Qed.
Lemma scheds_steps is C : rtc step C (fold_left sched is C).
Proof. revert C. induction is as [|i is IH]; intros C; simpl; [done|]. etrans; [apply sched_step|apply IH]. Qed.

Definition racesb (x y : option (loc * bool)) : bool :=
  match x, y with Some (l, b), Some (l', b') => Pos.eqb l l' && (b || b') | _, _ => false end.
Definition raceb (C : config) (i j : nat) : bool :=
  negb (Nat.eqb i j) && match c_thr C !! i, c_thr C !! j with Some t, Some t' => racesb (access t) (access t') | _, _ => false end.
Lemma raceb_ok C i j : raceb C i j = true -> race C.
Proof.
  unfold raceb. intros [Hne Hr]%andb_prop. destruct (c_thr C !! i) as [t|] eqn:Ei; [|done]. destruct (c_thr C !! j) as [t'|] eqn:Ej; [|done].
  destruct (access t) as [[l b]|] eqn:Ea; [|done]. destruct (access t') as [[l' b']|] eqn:Ea'; [|done]. simpl in Hr.
  apply andb_prop in Hr as [Hl%Pos.eqb_eq Hb%orb_prop]. subst l'. exists i, j, t, t', l, b, b'. split_and!; try done.
  intros ->. by rewrite Nat.eqb_refl in Hne.
Qed.
Definition resultb (C : config) (i : nat) : option A :=
  match c_thr C !! i with Some t => match th_prog t with PRet a => Some a | _ => None end | None => None end.
Lemma resultb_ok C i a : resultb C i = Some a -> ∃ t, c_thr C !! i = Some t /\ returned t a.
Proof.
  unfold resultb, returned. destruct (c_thr C !! i) as [t|]; [|done]. destruct (th_prog t) eqn:E; try done. intros [= <-]. eauto.
Qed.
End sched.

Section maps.
Context {K V CK U : Type}.
Local Notation history := (list (mop K V U * mres V)).
Variables (api : mapapi K V CK U) (chk : history -> mop K V U -> bool) (ok : history -> mop K V U -> Prop).
Hypothesis Hchk : ∀ tr op, chk tr op = true -> ok tr op.
Variables (own : positive -> option nat) (tr0 : history) (i : nat).

Definition madeb (h : positive) : bool :=
  existsb (λ x : mop K V U * mres V, match x with (MNew _, RHandle h') => Pos.eqb h h' | _ => false end) tr0.
Lemma madeb_ok h s : (MNew s, RHandle h) ∈ tr0 -> madeb h = true.
Proof. intros Hin. apply existsb_exists. exists (MNew s, RHandle h). split; [by apply elem_of_list_In|apply Pos.eqb_refl]. Qed.
Definition mineb (h : positive) : bool := negb (madeb h) || bool_decide (own h = Some i).
Definition visibleb (h : positive) : bool := mineb h || bool_decide (own h = None).
Lemma mineb_ok h : mineb h = true -> mine own tr0 i h.
Proof.
  intros Hm [s Hin]. unfold mineb in Hm. rewrite (madeb_ok _ _ Hin) in Hm. by apply bool_decide_eq_true in Hm.
Qed.
Lemma visibleb_ok h : visibleb h = true -> visible own tr0 i h.
Proof.
  intros [Hm|Hm]%orb_prop; [intros Hin; left; by apply mineb_ok|]. intros _. right. by apply bool_decide_eq_true in Hm.
Qed.
Definition ptrb (f : positive -> bool) (tr : history) (p : positive) : bool :=
  existsb (λ x : mop K V U * mres V, match x with (MPtr h _, RPtr (Some p')) => Pos.eqb p p' && f h | _ => false end) tr.
Lemma ptrb_ok f tr p : ptrb f tr p = true -> ∃ h k, (MPtr h k, RPtr (Some p)) ∈ tr /\ f h = true.
Proof.
  intros ([op r] & Hin & Hf)%existsb_exists. destruct op as [s|h k v|h k g|h k|h k|h k|h k|h|h|h g|q|q v]; try done.
  destruct r as [| | | |[q|]| |]; try done. apply andb_prop in Hf as [->%Pos.eqb_eq Hf]. exists h, k. split; [by apply elem_of_list_In|done].
Qed.
Definition usesb (tr : history) (c : cop K V U) : bool :=
  match c with
  | Op (MNew _) => true
  | Op (MSet h _ _) | Op (MMod h _ _) | Op (MDel h _) | Op (MAll h _) => mineb h
  | Op (MGet h _) | Op (MVal h _) | Op (MPtr h _) | Op (MLen h) | Op (MDep h) | Look h _ => visibleb h
  | Op (MLoad p) => ptrb visibleb tr p
  | Op (MStore p _) => ptrb mineb tr p
  end.
Lemma usesb_ok tr c : usesb tr c = true -> uses own tr0 i tr c.
Proof.
  destruct c as [[s|h k v|h k f|h k|h k|h k|h k|h|h|h f|p|p v]|h f]; simpl; try done; try apply mineb_ok; try apply visibleb_ok.
  - intros (h & k & H1 & H2)%ptrb_ok. exists h, k. split; [done|by apply visibleb_ok].
  - intros (h & k & H1 & H2)%ptrb_ok. exists h, k. split; [done|by apply mineb_ok].
Qed.
Fixpoint fineb (c : client K V U) (tr : history) (w : world V CK U) : bool :=
  match c with
  | Stop => true
  | Do c k => chk tr (the_op c) && usesb tr c &&
      match mcall api (the_op c) w with Ret r w' => fineb (k r) ((the_op c, r) :: tr) w' | _ => false end
  end.
Lemma fineb_ok c : ∀ tr w, fineb c tr w = true -> fine api ok own tr0 i c tr w.
Proof.
  induction c as [|c k IH]; intros tr w Hf; simpl in *; [done|]. apply andb_prop in Hf as [[Hc Hu]%andb_prop Hf].
  split_and!; [by apply Hchk|by apply usesb_ok|]. intros r w' Hr. rewrite Hr in Hf. by apply IH.
Qed.
End maps.

Section sets.
Context {K CK U : Type}.
Local Notation history := (list (sop K U * sres)).
Variables (api : setapi K unit CK U) (chk : history -> sop K U -> bool) (ok : history -> sop K U -> Prop).
Hypothesis Hchk : ∀ tr op, chk tr op = true -> ok tr op.
Variables (own : positive -> option nat) (tr0 : history) (i : nat).

Definition smadeb (h : positive) : bool :=
  existsb (λ x : sop K U * sres, match x with (SNew _, THandle h') => Pos.eqb h h' | _ => false end) tr0.
Lemma smadeb_ok h s : (SNew s, THandle h) ∈ tr0 -> smadeb h = true.
Proof. intros Hin. apply existsb_exists. exists (SNew s, THandle h). split; [by apply elem_of_list_In|apply Pos.eqb_refl]. Qed.
Definition smineb (h : positive) : bool := negb (smadeb h) || bool_decide (own h = Some i).
Definition svisibleb (h : positive) : bool := smineb h || bool_decide (own h = None).
Lemma smineb_ok h : smineb h = true -> smine own tr0 i h.
Proof.
  intros Hm [s Hin]. unfold smineb in Hm. rewrite (smadeb_ok _ _ Hin) in Hm. by apply bool_decide_eq_true in Hm.
Qed.
Lemma svisibleb_ok h : svisibleb h = true -> svisible own tr0 i h.
Proof.
  intros [Hm|Hm]%orb_prop; [intros Hin; left; by apply smineb_ok|]. intros _. right. by apply bool_decide_eq_true in Hm.
Qed.
Definition susesb (op : sop K U) : bool :=
  match op with
  | SNew _ => true
  | SAdd h _ | SDel h _ => smineb h
  | SHas h _ | SLen h | SDep h | SAll h _ => svisibleb h
  end.
Lemma susesb_ok op : susesb op = true -> suses own tr0 i op.
Proof. destruct op; simpl; try done; try apply smineb_ok; try apply svisibleb_ok. Qed.
Fixpoint sfineb (c : sclient K U) (tr : history) (w : world unit CK U) : bool :=
  match c with
  | SStop => true
  | SDo op k => chk tr op && susesb op &&
      match scall api op w with Ret r w' => sfineb (k r) ((op, r) :: tr) w' | _ => false end
  end.
Lemma sfineb_ok c : ∀ tr w, sfineb c tr w = true -> sfine api ok own tr0 i c tr w.
Proof.
  induction c as [|op k IH]; intros tr w Hf; simpl in *; [done|]. apply andb_prop in Hf as [[Hc Hu]%andb_prop Hf].
  split_and!; [by apply Hchk|by apply susesb_ok|]. intros r w' Hr. rewrite Hr in Hf. by apply IH.
Qed.
End sets.
