(** Computations as sequences of memory accesses. The type M of Mem.v says what a
    computation does when nothing else runs; a [prog] can be interleaved with others
    access by access (Conc.v). *)
From stdpp Require Import base numbers list gmap.
From Verif Require Import GoInt Mem.
Local Open Scope N_scope.

Section prog.
Context {V CK U : Type}.
Local Notation block := (block V CK).
Local Notation world := (world V CK U).

(** A program: it has returned, panicked, done something undefined or run out of fuel,
    or its next access to memory is given. Reads and writes are those of a whole block:
    two accesses to different fields of a block count as accesses to the same memory. *)
Inductive prog (A : Type) : Type :=
  | PRet (a : A)
  | PPanic
  | PFault
  | PHang
  | PRead (l : loc) (k : block -> prog A)
  | PWrite (l : loc) (b : block) (k : prog A)
  | PAlloc (b : block) (k : loc -> prog A)
  | PGet (k : U -> prog A)
  | PPut (u : U) (k : prog A).
Global Arguments PRet {A}.
Global Arguments PPanic {A}.
Global Arguments PFault {A}.
Global Arguments PHang {A}.
Global Arguments PRead {A}.
Global Arguments PWrite {A}.
Global Arguments PAlloc {A}.
Global Arguments PGet {A}.
Global Arguments PPut {A}.

(** What a program does when nothing else runs. *)
Fixpoint run {A} (p : prog A) : M V CK U A := λ w,
  match p with
  | PRet a => Ret a w
  | PPanic => Panic w
  | PFault => Fault
  | PHang => Hang
  | PRead l k => match w_mem w !! l with Some b => run (k b) w | None => Fault end
  | PWrite l b k => match w_mem w !! l with Some _ => run k (set_mem w (<[l := b]> (w_mem w))) | None => Fault end
  | PAlloc b k => run (k (w_nxt w)) (World (<[w_nxt w := b]> (w_mem w)) (xO (w_nxt w)) (w_usr w))
  | PGet k => run (k (w_usr w)) w
  | PPut u k => run k (World (w_mem w) (w_nxt w) u)
  end.

(** ** The operations of Mem.v *)
Definition ret {A} (a : A) : prog A := PRet a.
Fixpoint bind {A B} (p : prog A) (f : A -> prog B) : prog B :=
  match p with
  | PRet a => f a
  | PPanic => PPanic
  | PFault => PFault
  | PHang => PHang
  | PRead l k => PRead l (λ b, bind (k b) f)
  | PWrite l b k => PWrite l b (bind k f)
  | PAlloc b k => PAlloc b (λ l, bind (k l) f)
  | PGet k => PGet (λ u, bind (k u) f)
  | PPut u k => PPut u (bind k f)
  end.
Definition panic {A} : prog A := PPanic.
Definition hang {A} : prog A := PHang.

Definition alloc (b : block) : prog loc := PAlloc b (λ l, PRet l).

Definition load_root (r : loc) : prog root :=
  PRead r (λ b, match b with BRoot rt => PRet rt | _ => PFault end).
(** Two accesses: a read and a write. *)
Definition upd_root (r : loc) (f : root -> root) : prog unit :=
  PRead r (λ b, match b with BRoot rt => PWrite r (BRoot (f rt)) (PRet tt) | _ => PFault end).

Definition load_link (l : lref) : prog link :=
  match l with
  | RootRef r => PRead r (λ b, match b with BRoot rt => PRet (rt_link rt) | _ => PFault end)
  | SlotRef a i =>
      PRead a (λ b, match b with
        | BLinks ls => match ls !! i with Some x => PRet x | None => PFault end
        | _ => PFault
        end)
  | WildRef => PFault
  end.
(** The block is read to keep its other fields. *)
Definition store_link (l : lref) (x : link) : prog unit :=
  match l with
  | RootRef r =>
      PRead r (λ b, match b with
        | BRoot rt => PWrite r (BRoot (Root x (rt_seed rt) (rt_len rt) (rt_dep rt) (rt_path rt))) (PRet tt)
        | _ => PFault
        end)
  | SlotRef a i =>
      PRead a (λ b, match b with
        | BLinks ls =>
            match ls !! i with
            | Some _ => PWrite a (BLinks (<[i := x]> ls)) (PRet tt)
            | None => PFault
            end
        | _ => PFault
        end)
  | WildRef => PFault
  end.

Definition load_kv (p : ptr) : prog (V * CK) :=
  match p with
  | Nil => PPanic
  | At l => PRead l (λ b, match b with BKv v k => PRet (v, k) | _ => PFault end)
  end.
Definition store_val (p : ptr) (v : V) : prog unit :=
  match p with
  | Nil => PPanic
  | At l => PRead l (λ b, match b with BKv _ k => PWrite l (BKv v k) (PRet tt) | _ => PFault end)
  end.

Definition get_usr : prog U := PGet (λ u, PRet u).
Definition put_usr (u : U) : prog unit := PPut u (PRet tt).

(** ** They mean the same *)
Definition sim {A} (p : prog A) (m : M V CK U A) : Prop := ∀ w, run p w = m w.

Lemma sim_ret {A} (a : A) : sim (ret a) (Mem.ret a).
Proof. done. Qed.
Lemma sim_panic {A} : sim (A:=A) panic Mem.panic.
Proof. done. Qed.
Lemma sim_hang {A} : sim (A:=A) hang Mem.hang.
Proof. done. Qed.
Lemma run_bind {A B} (p : prog A) (f : A -> prog B) w : run (bind p f) w = Mem.bind (run p) (λ a, run (f a)) w.
Proof.
  revert w. induction p as [a| | | |l k IH|l b k IH|b k IH|k IH|u k IH]; intros w; simpl; try done; unfold Mem.bind in *; simpl.
  - destruct (w_mem w !! l); [apply IH|done].
  - destruct (w_mem w !! l); [apply IH|done].
  - apply IH.
  - apply IH.
  - apply IH.
Qed.
Lemma sim_bind {A B} (p : prog A) (f : A -> prog B) m g : sim p m -> (∀ a, sim (f a) (g a)) -> sim (bind p f) (Mem.bind m g).
Proof.
  intros Hp Hf w. rewrite run_bind. unfold Mem.bind. rewrite (Hp w). destruct (m w); try done. apply Hf.
Qed.
Lemma sim_alloc b : sim (alloc b) (Mem.alloc b).
Proof. done. Qed.
Lemma sim_load_root r : sim (load_root r) (Mem.load_root r).
Proof. intros w. unfold load_root, Mem.load_root. simpl. by destruct (w_mem w !! r) as [[]|]. Qed.
Lemma sim_upd_root r f : sim (upd_root r f) (Mem.upd_root r f).
Proof. intros w. unfold upd_root, Mem.upd_root. simpl. destruct (w_mem w !! r) as [[]|] eqn:E; try done. simpl. by rewrite E. Qed.
Lemma sim_load_link l : sim (load_link l) (Mem.load_link l).
Proof.
  intros w. destruct l as [r|a i|]; simpl; [| |done].
  - by destruct (w_mem w !! r) as [[]|].
  - destruct (w_mem w !! a) as [[]|]; try done. by destruct (_ !! i).
Qed.
Lemma sim_store_link l x : sim (store_link l x) (Mem.store_link l x).
Proof.
  intros w. destruct l as [r|a i|]; simpl; [| |done].
  - destruct (w_mem w !! r) as [[]|] eqn:E; try done. simpl. by rewrite E.
  - destruct (w_mem w !! a) as [[]|] eqn:E; try done. destruct (_ !! i); [|done]. simpl. by rewrite E.
Qed.
Lemma sim_load_kv p : sim (load_kv p) (Mem.load_kv p).
Proof. intros w. destruct p as [|l]; simpl; [done|]. by destruct (w_mem w !! l) as [[]|]. Qed.
Lemma sim_store_val p v : sim (store_val p v) (Mem.store_val p v).
Proof. intros w. destruct p as [|l]; simpl; [done|]. destruct (w_mem w !! l) as [[]|] eqn:E; try done. simpl. by rewrite E. Qed.
Lemma sim_get_usr : sim get_usr Mem.get_usr.
Proof. done. Qed.
Lemma sim_put_usr u : sim (put_usr u) (Mem.put_usr u).
Proof. done. Qed.
End prog.
Global Arguments prog : clear implicits.

Notation "x <- m ;; k" := (bind m (λ x, k))
  (at level 100, m at next level, right associativity).
Notation "m ;;; k" := (bind m (λ _, k))
  (at level 100, right associativity).
