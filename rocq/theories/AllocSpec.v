(** How many blocks a call may allocate. Used to state C48.

    A block is an array of links, the struct of an entry, or a root. The memory of
    the model holds every block that was ever allocated: its size counts the
    allocations. *)
From stdpp Require Import base numbers list gmap.
From Verif Require Import Mem Spec DepthSpec MemorySpec.
Local Open Scope nat_scope.

Section budget.
Context `{Countable K} {V U : Type} (dig : N -> K -> nat -> N).

(** A key k that is added to ks: its struct, and, unless no other key has the same
    first digit, an array for each string of digits that k newly shares with a
    stored key, but at least one. *)
Definition new_key (s : N) (ks : list K) (k : K) : nat :=
  1 + (if depth dig s ks k =? 0 then 0 else max 1 (branches dig s (k :: ks) - branches dig s ks)).

(** [mbudget tr op n]: after the calls tr (the latest first) the call op of a map
    may allocate n blocks. *)
Definition mbudget (tr : list (mop K V U * mres V)) (op : mop K V U) (n : nat) : Prop :=
  match op with
  | MNew _ => n = 2
  | MSet h k _ | MMod h k _ =>
      (k ∈ stored tr h /\ n = 0) \/
      (k ∉ stored tr h /\ ∃ s, (MNew s, RHandle h) ∈ tr /\ n = new_key s (elements (stored tr h)) k)
  | MDel h k => (k ∈ stored tr h /\ n = 1) \/ (k ∉ stored tr h /\ n = 0)
  | _ => n = 0
  end.

(** The same for sets. *)
Definition sbudget (tr : list (sop K U * sres)) (op : sop K U) (n : nat) : Prop :=
  match op with
  | SNew _ => n = 2
  | SAdd h k =>
      (k ∈ sstored tr h /\ n = 0) \/
      (k ∉ sstored tr h /\ ∃ s, (SNew s, THandle h) ∈ tr /\ n = new_key s (elements (sstored tr h)) k)
  | SDel h k => (k ∈ sstored tr h /\ n = 1) \/ (k ∉ sstored tr h /\ n = 0)
  | _ => n = 0
  end.
(** Calls that neither create containers nor remove keys. *)
Definition fills (op : mop K V U) : Prop := match op with MNew _ | MDel _ _ => False | _ => True end.
Definition sfills (op : sop K U) : Prop := match op with SNew _ | SDel _ _ => False | _ => True end.
End budget.
