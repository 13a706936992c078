(** How much memory a container takes: its arrays of links, read off the heap,
    and the digit strings they belong to. Used to state C45. *)
From stdpp Require Import base numbers list gmap.
From Verif Require Import Mem DepthSpec Levels.
Local Open Scope nat_scope.

(** [array m h a n]: in memory m the container h has a level whose array is at a
    and has n slots. *)
Definition array {V CK} (m : gmap loc (block V CK)) (h a : loc) (n : nat) : Prop :=
  ∃ d lv ls, level m h d lv /\ lk_ptr lv = At a /\ m !! a = Some (BLinks ls) /\ length ls = n.

Section branches.
Context {K : Type} `{EqDecision K} (dig : N -> K -> nat -> N).

(** The first j digits of k in a container with seed s. *)
Definition start (s : N) (j : nat) (k : K) : list N := map (dig s k) (seq 0 j).

(** The strings of j digits that more than one of the keys ks start with. *)
Definition shared (s : N) (ks : list K) (j : nat) : list (list N) :=
  remove_dups (map (start s j) (filter (λ k, Exists (λ k', k' ≠ k /\ start s j k' = start s j k) ks) ks)).

(** How many non-empty strings there are that more than one of the keys start with. *)
Definition branches (s : N) (ks : list K) : nat := sum_list (map (λ j, length (shared s ks j)) (seq 1 241)).
End branches.
