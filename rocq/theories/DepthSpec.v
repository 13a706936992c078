(** What is meant by a depth on the order of log16(N), stated without logarithms,
    fractions or probabilities. *)
From stdpp Require Import base numbers list.
Local Open Scope nat_scope.

Section depth.
Context {K : Type} (dig : N -> K -> nat -> N).

(** The keys k and k' have the same first j digits in a container with seed s. *)
Definition alike (s : N) (j : nat) (k k' : K) : bool :=
  forallb (λ i, N.eqb (dig s k i) (dig s k' i)) (seq 0 j).

(** At most one of the keys ks has the same first n digits as k. *)
Definition alone (s : N) (ks : list K) (n : nat) (k : K) : Prop :=
  ∀ k1 k2, k1 ∈ ks -> k2 ∈ ks -> alike s n k k1 = true -> alike s n k k2 = true -> k1 = k2.

(** How many of the seeds satisfy f. *)
Definition count (f : N -> bool) (seeds : list N) : nat := length (filter (λ s, f s = true) seeds).

(** The hash spreads the keys ks: two of them have the same first j digits for at
    most one in 16^j of the seeds. *)
Definition spreads (ks : list K) (seeds : list N) : Prop :=
  ∀ k k' j, k ∈ ks -> k' ∈ ks -> k ≠ k' -> j <= 241 ->
  16 ^ j * count (λ s, alike s j k k') seeds <= length seeds.
End depth.
