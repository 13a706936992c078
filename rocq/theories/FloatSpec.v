(** What the float64 values that Dep returns stand for. *)
From Coq Require Import SpecFloat Reals.
Local Open Scope R_scope.

(** float64 has 53 bits of precision and exponents below 1024 (IEEE 754, binary64). *)
Definition float64 (x : spec_float) : Prop := valid_binary 53 1024 x = true.
(** Neither infinite nor NaN. *)
Definition finite (x : spec_float) : Prop :=
  match x with S754_zero _ | S754_finite _ _ _ => True | _ => False end.
(** The number that a finite x stands for. *)
Definition value (x : spec_float) : R :=
  match x with
  | S754_finite s m e => (if s then -1 else 1) * IZR (Zpos m) * powerRZ 2 e
  | _ => 0
  end.
(** No float64 is nearer to the number q than x is. *)
Definition nearest (x : spec_float) (q : R) : Prop :=
  float64 x /\ finite x /\ forall y, float64 y -> finite y -> Rabs (value x - q) <= Rabs (value y - q).
(** x is q up to a relative error of 2^-51. *)
Definition close (x : spec_float) (q : R) : Prop :=
  float64 x /\ finite x /\ Rabs (value x - q) <= powerRZ 2 (-51) * q.
(** The mean of n numbers with the sum total. *)
Definition true_mean (total n : nat) : R := INR total / INR n.
