(** How often a call may access memory. Used to state C51.

    The programs of Prog.v access memory block by block: an access reads, writes or
    allocates an array of links, the struct of an entry or a root. Hashing and
    arithmetic are not counted. Prog.v writes the fields of a block with a read and a
    write of the block. *)
From stdpp Require Import base numbers list gmap.
From Verif Require Import Mem Prog Spec DepthSpec MemorySpec.
Local Open Scope nat_scope.

Section cost.
Context {V CK U A : Type}.
(** The number of accesses of a program that runs alone from the world w. *)
Fixpoint cost (p : prog V CK U A) (w : world V CK U) : nat :=
  match p with
  | PRet _ | PPanic | PFault | PHang => 0
  | PRead l k => match w_mem w !! l with Some b => S (cost (k b) w) | None => 0 end
  | PWrite l b k => match w_mem w !! l with Some _ => S (cost k (set_mem w (<[l := b]> (w_mem w)))) | None => 0 end
  | PAlloc b k => S (cost (k (w_nxt w)) (World (<[w_nxt w := b]> (w_mem w)) (xO (w_nxt w)) (w_usr w)))
  | PGet k => cost (k (w_usr w)) w
  | PPut u k => cost k (World (w_mem w) (w_nxt w) u)
  end.
End cost.

Section budget.
Context `{Countable K} {V U : Type} (dig : N -> K -> nat -> N).

(** [mtime tr op n]: after the calls tr (the latest first) the call op of a map may
    access memory n times. [depth] is the number of digits that the key shares with a
    stored key other than itself (Spec.v), [branches] the number of strings of
    digits that stored keys share (MemorySpec.v). *)
Definition mtime (tr : list (mop K V U * mres V)) (op : mop K V U) (n : nat) : Prop :=
  match op with
  | MNew _ => n = 2
  | MLen _ | MDep _ | MLoad _ => n = 1
  | MStore _ _ => n = 2
  | MGet h k | MVal h k | MPtr h k =>
      ∃ s, (MNew s, RHandle h) ∈ tr /\ n = depth dig s (elements (stored tr h)) k + 5
  | MSet h k _ | MMod h k _ =>
      ∃ s, (MNew s, RHandle h) ∈ tr /\ n = 7 * depth dig s (elements (stored tr h)) k + 200
  | MDel h k =>
      ∃ s, (MNew s, RHandle h) ∈ tr /\ n = 19 * depth dig s (elements (stored tr h)) k + 250
  | MAll h _ =>
      ∃ s, (MNew s, RHandle h) ∈ tr /\
        n = 6 * length (elements (stored tr h)) + 2 * branches dig s (elements (stored tr h)) + 1
  end.

(** The same for sets. *)
Definition stime (tr : list (sop K U * sres)) (op : sop K U) (n : nat) : Prop :=
  match op with
  | SNew _ => n = 2
  | SLen _ | SDep _ => n = 1
  | SHas h k => ∃ s, (SNew s, THandle h) ∈ tr /\ n = depth dig s (elements (sstored tr h)) k + 4
  | SAdd h k => ∃ s, (SNew s, THandle h) ∈ tr /\ n = 7 * depth dig s (elements (sstored tr h)) k + 200
  | SDel h k => ∃ s, (SNew s, THandle h) ∈ tr /\ n = 19 * depth dig s (elements (sstored tr h)) k + 250
  | SAll h _ =>
      ∃ s, (SNew s, THandle h) ∈ tr /\
        n = 3 * length (elements (sstored tr h)) + 2 * branches dig s (elements (sstored tr h)) + 1
  end.
End budget.
