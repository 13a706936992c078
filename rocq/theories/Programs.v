(** Programs of the user: calls, own variables and panics; and executions made
    of calls and of changes to the user's own variables. *)
From stdpp Require Import base numbers list gmap.
From Verif Require Import GoInt Mem Spec Client.
Local Open Scope nat_scope.

Section programs.
Context {Op Res V CK U : Type}.
Local Notation world := (world V CK U).
Local Notation M := (M V CK U).
Local Notation trace := (list (Op * Res)).
Implicit Types (w : world) (tr : trace).

(** A program makes calls and goes on with their results, reads and changes the
    user's own variables, panics, or is done. *)
Inductive prog (A : Type) : Type :=
  | Done (a : A)
  | Call (op : Op) (c : Res -> prog A)
  | Own (f : U -> U) (c : U -> prog A)
  | Throw.
Global Arguments Done {_} _.
Global Arguments Call {_} _ _.
Global Arguments Own {_} _ _.
Global Arguments Throw {_}.

Fixpoint bindp {A B} (p : prog A) (g : A -> prog B) : prog B :=
  match p with
  | Done a => g a
  | Call op c => Call op (λ r, bindp (c r) g)
  | Own f c => Own f (λ u, bindp (c u) g)
  | Throw => Throw
  end.

(** Running a program. *)
Variable call : Op -> M Res.
Fixpoint exec {A} (p : prog A) : M A :=
  match p with
  | Done a => ret a
  | Call op c => r <- call op ;; exec (c r)
  | Own f c => u <- get_usr ;; put_usr (f u) ;;; exec (c u)
  | Throw => panic
  end.

Definition own (u : U) w : world := World (w_mem w) (w_nxt w) u.

(** Executions: calls that are considered, and changes to own variables. *)
Variable ok : trace -> Op -> Prop.
Inductive crun (u0 : U) : trace -> world -> Prop :=
  | crun_nil : crun u0 [] (empty_world u0)
  | crun_call tr w op res w' : crun u0 tr w -> ok tr op -> call op w = Ret res w' -> crun u0 ((op, res) :: tr) w'
  | crun_own tr w u : crun u0 tr w -> crun u0 tr (own u w).

(** [fine changes post t tr w p]: started in w after the calls tr, the program p
    makes only calls that are considered. When it is done, post holds of the
    calls so far, the world, whether some call satisfied changes (or t held in
    the beginning), and the result. *)
Variable changes : trace -> Op -> Prop.
Fixpoint fine {A} (post : trace -> world -> Prop -> A -> Prop) (t : Prop) tr w (p : prog A) : Prop :=
  match p with
  | Done a => post tr w t a
  | Call op c => ok tr op /\ ∀ r w', call op w = Ret r w' -> fine post (t \/ changes tr op) ((op, r) :: tr) w' (c r)
  | Own f c => fine post t tr (own (f (w_usr w)) w) (c (w_usr w))
  | Throw => True
  end.

(** The loop over ks with body; the body tells whether to go on. *)
Fixpoint loop {K} (body : K -> prog bool) (ks : list K) : prog unit :=
  match ks with
  | [] => Done tt
  | k :: ks => bindp (body k) (λ go : bool, if go then loop body ks else Done tt)
  end.

(** All calls of such a loop are considered, and a body that tells to go on has
    made no call that satisfies changes. *)
Fixpoint loop_fine {K} (body : K -> prog bool) tr w (ks : list K) : Prop :=
  match ks with
  | [] => True
  | k :: ks => fine (λ tr' w' changed go, go = true -> ¬ changed /\ loop_fine body tr' w' ks) False tr w (body k)
  end.
End programs.
Arguments prog : clear implicits.

(** ** Callbacks of All *)

(** The callback of a map's All that runs f on the key and the pointer it is given. *)
Definition all_prog {K V CK U} (api : mapapi K V CK U) (f : K -> positive -> prog (mop K V U) (mres V) U bool) (k : K) (p : ptr) : M V CK U bool :=
  match p with At a => exec (mcall api) (f k a) | Nil => panic end.
(** The same as the body of a loop over keys: it gets the pointer with Ptr. *)
Definition with_ptr {K V U} (f : K -> positive -> prog (mop K V U) (mres V) U bool) (h : positive) (k : K) : prog (mop K V U) (mres V) U bool :=
  Call (MPtr h k) (λ r, match r with RPtr (Some a) => f k a | _ => Throw end).
(** The callback of a set's All. *)
Definition set_prog {K CK U} (api : setapi K unit CK U) (f : K -> prog (sop K U) sres U bool) (k : K) : M unit CK U bool :=
  exec (scall api) (f k).
