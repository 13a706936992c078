(** Programs that only read shared memory, and their concurrent execution. *)
From stdpp Require Import base numbers list gmap relations.
From Verif Require Import GoInt Mem.
Local Open Scope nat_scope.

Section readers.
Context {V CK U : Type}.
Local Notation M := (M V CK U).
Local Notation block := (block V CK).
Local Notation mem := (gmap loc block).

(** The result of a thread: a value, a panic, an invalid access, or a loop that
    runs out of fuel. *)
Inductive result (A : Type) : Type := RRet (a : A) | RPanic | RFault | RHang.
Global Arguments RRet {A} a.
Global Arguments RPanic {A}.
Global Arguments RFault {A}.
Global Arguments RHang {A}.

(** A thread that loads blocks of the shared memory one after the other, and
    reads and writes its own state (of type U). It cannot write or allocate
    shared memory. *)
Inductive thread (A : Type) : Type :=
  | TDone (o : result A)
  | TLoad (l : loc) (c : option block -> thread A)
  | TGet (c : U -> thread A)
  | TPut (u : U) (c : thread A).
Global Arguments TDone {A} o.
Global Arguments TLoad {A} l c.
Global Arguments TGet {A} c.
Global Arguments TPut {A} u c.

(** Running a thread alone. *)
Definition finish {A} (o : result A) : M A := λ w,
  match o with RRet a => Ret a w | RPanic => Panic w | RFault => Fault | RHang => Hang end.
Fixpoint alone {A} (t : thread A) : M A := λ w,
  match t with
  | TDone o => finish o w
  | TLoad l c => alone (c (w_mem w !! l)) w
  | TGet c => alone (c (w_usr w)) w
  | TPut u c => alone c (World (w_mem w) (w_nxt w) u)
  end.

(** One step of a thread with own state u, in a shared memory m. *)
Inductive tstep {A} (m : mem) : U * thread A -> U * thread A -> Prop :=
  | step_load u l c : tstep m (u, TLoad l c) (u, c (m !! l))
  | step_get u c : tstep m (u, TGet c) (u, c u)
  | step_put u u' c : tstep m (u, TPut u' c) (u', c).

(** One step of a pool of threads: any thread that can makes a step. *)
Inductive pstep {A} (m : mem) : list (U * thread A) -> list (U * thread A) -> Prop :=
  | pool_step pre x y post : tstep m x y -> pstep m (pre ++ x :: post) (pre ++ y :: post).

Definition done {A} (x : U * thread A) : Prop := match x.2 with TDone _ => True | _ => False end.

(** The outcome of a thread that runs alone from memory m and own state u. *)
Definition solo {A} (m : mem) (nxt : loc) (x : U * thread A) : outcome V CK U A := alone x.2 (World m nxt x.1).

Lemma tstep_solo {A} m nxt (x y : U * thread A) : tstep m x y -> solo m nxt x = solo m nxt y.
Proof. by destruct 1. Qed.
Lemma tstep_progress {A} m (x : U * thread A) : done x \/ ∃ y, tstep m x y.
Proof. destruct x as [u [o|l c|c|u' c]]; [by left|right..]; eexists; constructor. Qed.

Lemma pstep_solo {A} m nxt (xs ys : list (U * thread A)) : pstep m xs ys -> solo m nxt <$> xs = solo m nxt <$> ys.
Proof. destruct 1 as [pre x y post Hs]. rewrite !fmap_app. simpl. by rewrite (tstep_solo _ _ _ _ Hs). Qed.
Lemma psteps_solo {A} m nxt (xs ys : list (U * thread A)) : rtc (pstep m) xs ys -> solo m nxt <$> xs = solo m nxt <$> ys.
Proof. induction 1 as [|xs ys zs Hs Hr IH]; [done|]. by rewrite (pstep_solo m nxt _ _ Hs), IH. Qed.

(** The number of steps of a thread alone. *)
Fixpoint cost {A} (m : mem) (u : U) (t : thread A) : nat :=
  match t with
  | TDone _ => 0
  | TLoad l c => S (cost m u (c (m !! l)))
  | TGet c => S (cost m u (c u))
  | TPut u' c => S (cost m u' c)
  end.
Lemma pstep_cost {A} m (xs ys : list (U * thread A)) : pstep m xs ys ->
  sum_list_with (λ x, cost m x.1 x.2) xs = S (sum_list_with (λ x, cost m x.1 x.2) ys).
Proof.
  destruct 1 as [pre x y post Hs]. rewrite !sum_list_with_app. simpl.
  assert (cost m x.1 x.2 = S (cost m y.1 y.2)) by (by destruct Hs). lia.
Qed.
Lemma pool_sn {A} m (xs : list (U * thread A)) : sn (pstep m) xs.
Proof.
  remember (sum_list_with (λ x, cost m x.1 x.2) xs) as n eqn:Hn.
  revert xs Hn. induction n as [|n IH]; intros xs Hn; constructor; intros ys Hs;
    pose proof (pstep_cost _ _ _ Hs); [lia|]. apply IH. lia.
Qed.
Lemma pool_nf {A} m (xs : list (U * thread A)) : (∀ ys, ¬ pstep m xs ys) -> Forall done xs.
Proof.
  intros Hn. apply Forall_forall. intros x Hx. destruct (tstep_progress m x) as [|[y Hy]]; [done|].
  apply elem_of_list_split in Hx as (l1 & l2 & ->). destruct (Hn (l1 ++ y :: l2)). by constructor.
Qed.

(** A computation of the model that is such a thread. *)
Definition reader {A} (c : M A) : Type := { t : thread A | ∀ w, c w = alone t w }.

Lemma reader_ext {A} (c c' : M A) : (∀ w, c w = c' w) -> reader c -> reader c'.
Proof. intros He [t Ht]. exists t. intros w. by rewrite <-He. Defined.
Lemma ret_reader {A} (a : A) : reader (ret a).
Proof. by exists (TDone (RRet a)). Defined.
Lemma panic_reader {A} : reader (A:=A) panic.
Proof. by exists (TDone RPanic). Defined.
Lemma fault_reader {A} : reader (A:=A) fault.
Proof. by exists (TDone RFault). Defined.
Lemma hang_reader {A} : reader (A:=A) hang.
Proof. by exists (TDone RHang). Defined.

Fixpoint tbind {A B} (t : thread A) (f : A -> thread B) : thread B :=
  match t with
  | TDone (RRet a) => f a
  | TDone RPanic => TDone RPanic
  | TDone RFault => TDone RFault
  | TDone RHang => TDone RHang
  | TLoad l c => TLoad l (λ b, tbind (c b) f)
  | TGet c => TGet (λ u, tbind (c u) f)
  | TPut u c => TPut u (tbind c f)
  end.
Lemma tbind_alone {A B} (t : thread A) (f : A -> thread B) w : alone (tbind t f) w = bind (alone t) (λ a, alone (f a)) w.
Proof.
  revert w. induction t as [[a| | |]|l c IH|c IH|u c IH]; intros w; simpl; try done.
  - rewrite IH. done.
  - rewrite IH. done.
  - rewrite IH. done.
Qed.
Lemma bind_reader {A B} (c : M A) (f : A -> M B) : reader c -> (∀ a, reader (f a)) -> reader (bind c f).
Proof.
  intros [t Ht] Hf. exists (tbind t (λ a, proj1_sig (Hf a))). intros w. rewrite tbind_alone. unfold bind.
  rewrite Ht. destruct (alone t w) as [a w'| | |]; try done. apply (proj2_sig (Hf a)).
Defined.

Lemma load_root_reader r : reader (load_root r).
Proof.
  exists (TLoad r (λ b, match b with Some (BRoot rt) => TDone (RRet rt) | _ => TDone RFault end)).
  intros w. unfold load_root. simpl. destruct (w_mem w !! r) as [[]|]; done.
Defined.
Lemma load_link_reader l : reader (load_link l).
Proof.
  destruct l as [r|a i|].
  - exists (TLoad r (λ b, match b with Some (BRoot rt) => TDone (RRet (rt_link rt)) | _ => TDone RFault end)).
    intros w. unfold load_link. simpl. destruct (w_mem w !! r) as [[]|]; done.
  - exists (TLoad a (λ b, match b with Some (BLinks ls) =>
        match ls !! i with Some x => TDone (RRet x) | None => TDone RFault end | _ => TDone RFault end)).
    intros w. unfold load_link. simpl. destruct (w_mem w !! a) as [[]|]; try done. by destruct (_ !! i).
  - by exists (TDone RFault).
Defined.
Lemma load_kv_reader p : reader (load_kv p).
Proof.
  destruct p as [|a].
  - by exists (TDone RPanic).
  - exists (TLoad a (λ b, match b with Some (BKv v k) => TDone (RRet (v, k)) | _ => TDone RFault end)).
    intros w. unfold load_kv. simpl. destruct (w_mem w !! a) as [[]|]; done.
Defined.
Lemma get_usr_reader : reader get_usr.
Proof. by exists (TGet (λ u, TDone (RRet u))). Defined.
Lemma put_usr_reader u : reader (put_usr u).
Proof. by exists (TPut u (TDone (RRet tt))). Defined.

(** A thread that does not touch its own state either. *)
Lemma alone_mem {A} (t : thread A) w a w' : alone t w = Ret a w' -> w_mem w' = w_mem w /\ w_nxt w' = w_nxt w.
Proof.
  revert w. induction t as [o|l c IH|c IH|u c IH]; intros w Hr; simpl in Hr.
  - destruct o; simpl in Hr; by simplify_eq.
  - by eapply IH.
  - by eapply IH.
  - by apply IH in Hr.
Qed.
Lemma alone_panic {A} (t : thread A) w w' : alone t w = Panic w' -> w_mem w' = w_mem w /\ w_nxt w' = w_nxt w.
Proof.
  revert w. induction t as [o|l c IH|c IH|u c IH]; intros w Hr; simpl in Hr.
  - destruct o; simpl in Hr; by simplify_eq.
  - by eapply IH.
  - by eapply IH.
  - by apply IH in Hr.
Qed.
Lemma reader_mem {A} (c : M A) w a w' : reader c -> c w = Ret a w' -> w_mem w' = w_mem w /\ w_nxt w' = w_nxt w.
Proof. intros [t Ht] Hc. rewrite Ht in Hc. by eapply alone_mem. Qed.
End readers.
Global Arguments thread : clear implicits.
