(** The digits that the generic Map and Set use for a stored key in the way of a
    new one. *)
From stdpp Require Import base numbers list.
From Verif Require Import GoInt Spec.
Local Open Scope nat_scope.

(** Digit i > d of the stored key k', as the code computes it to move k' down
    from depth d. The hash that the code uses up to the next multiple of 16 is
    the one of x with iter = d mod 16 (x = k' in Map.Set and Set.Add, the new
    key in Map.Mod), not the one of k' with iter = d / 16. After that it uses
    the right one. *)
Definition moved {K} (Hash : K -> N -> N -> N) (s : N) (x k' : K) (d i : nat) : N :=
  if i / 16 =? d / 16
  then (N.shiftr (Hash x s (N.of_nat (d mod 16))) (4 * N.of_nat (i mod 16)) mod 16)%N
  else gdigit Hash s k' i.
