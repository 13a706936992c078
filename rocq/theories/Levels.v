(** What the memory of a container looks like, read off the heap without the
    functions of the model. Used to state C29, C32 and C35. *)
From stdpp Require Import base numbers list gmap.
From Verif Require Import Mem Spec.
Local Open Scope nat_scope.

Section levels.
Context {V CK : Type}.
Implicit Types (m : gmap loc (block V CK)) (h a : loc) (lv x y : link).

(** The digits for which a level has an item, in increasing order: the bits of
    pmap. The i-th item belongs to the i-th digit. *)
Definition digits_of lv : list N :=
  List.filter (λ r, N.testbit (lk_pmap lv) r) (map N.of_nat (seq 0 32)).

(** [slot m lv i r x]: in memory m the i-th item of level lv belongs to digit r
    and is the link x. *)
Definition slot m lv (i : nat) (r : N) x : Prop :=
  ∃ a ls, lk_ptr lv = At a /\ m !! a = Some (BLinks ls) /\
    digits_of lv !! i = Some r /\ ls !! i = Some x.

(** The item of digit r is an entry (otherwise it is a further level): the bit
    of r in tmap. *)
Definition is_entry lv (r : N) : bool := N.testbit (lk_tmap lv) r.

(** [level m h d lv]: lv is a level at depth d of the container h. *)
Inductive level m h : nat -> link -> Prop :=
  | level_root rt : m !! h = Some (BRoot rt) -> level m h 0 (rt_link rt)
  | level_sub d lv i r x : level m h d lv -> slot m lv i r x -> is_entry lv r = false -> level m h (S d) x.

(** [below m lv q x]: following the digits q from level lv leads to the entry x. *)
Inductive below m : link -> list N -> link -> Prop :=
  | below_item lv i r x : slot m lv i r x -> is_entry lv r = true -> below m lv [r] x
  | below_level lv i r x q y : slot m lv i r x -> is_entry lv r = false -> below m x q y -> below m lv (r :: q) y.

(** The number of slots of the array of a level. *)
Definition slots m lv (n : nat) : Prop :=
  ∃ a ls, lk_ptr lv = At a /\ m !! a = Some (BLinks ls) /\ length ls = n.

(** The scratch path of container h holds no pointer. *)
Definition path_empty m h : Prop :=
  ∃ rt, m !! h = Some (BRoot rt) /\ Forall (λ y : plink, pl_link y = None) (rt_path rt).
End levels.

(** The calls for which C29 is claimed: Del of a key that is stored, at a depth
    below 12 (the length of the scratch path). *)
Section near.
Context `{Countable K} {V U : Type} (dig : N -> K -> nat -> N).
Definition near_del (tr : list (mop K V U * mres V)) (op : mop K V U) : Prop :=
  match op with
  | MDel h k => k ∈ stored tr h /\ ∀ s, (MNew s, RHandle h) ∈ tr -> depth dig s (elements (stored tr h)) k < 12
  | _ => True
  end.
Definition near_sdel (tr : list (sop K U * sres)) (op : sop K U) : Prop :=
  match op with
  | SDel h k => k ∈ sstored tr h /\ ∀ s, (SNew s, THandle h) ∈ tr -> depth dig s (elements (sstored tr h)) k < 12
  | _ => True
  end.
End near.
