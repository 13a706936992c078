(** Fixed-width Go integers as used by wdamron/amt.
    uint8, uint32 and uint64 are [N] with explicit wrap-around; int64 is [Z]
    in two's complement. *)
From stdpp Require Import base numbers list.
Local Open Scope N_scope.

(** Conversion to (and wrap-around of) uint8, uint32, uint64: Go spec,
    "Integer overflow" and "Conversions"; used throughout /repo. *)
Definition u8 (x : N) : N := x mod 256.
Definition u32 (x : N) : N := x mod 2 ^ 32.
Definition u64 (x : N) : N := x mod 2 ^ 64.

(** uint64 addition and subtraction with wrap-around: [m.len++], [m.dep += x],
    [m.dep -= x], [m.len--] (string_map.go:158,180-181,215-216,352-353,383). *)
Definition add64 (x y : N) : N := u64 (x + y).
Definition sub64 (x y : N) : N := u64 (x + (2 ^ 64 - u64 y)).

(** uint8 decrement [d--] (string_map.go:359,384,392). *)
Definition dec8 (x : N) : N := u8 (x + 255).

(** [uint32(1) << radix] and [^uint32(0) << radix] (string_map.go:96). *)
Definition shl32 (x n : N) : N := u32 (N.shiftl x n).
Definition ones32 : N := 2 ^ 32 - 1.

(** [x &^ y] (Go's AND NOT), used for the bitmaps (string_map.go:96,157). *)
Definition andnot (x y : N) : N := N.ldiff x y.

(** math/bits.OnesCount32: number of set bits among bits 0..31
    (string_map.go:96,189). The result is at most 32, so the conversion to
    uint8 that follows every call never wraps; it is a [nat] here. *)
Definition bit_indices : list N := N.of_nat <$> seq 0 32.
Definition ones_count32 (x : N) : nat :=
  length (List.filter (N.testbit x) bit_indices).

(** math/bits.TrailingZeros32: index of the lowest set bit, 32 if none
    (string_map.go:410). *)
Definition trailing_zeros32 (x : N) : N :=
  match List.filter (N.testbit x) bit_indices with
  | [] => 32
  | i :: _ => i
  end.

(** int64 (the type IntKey, int_map.go:45) as [Z] in [-2^63, 2^63). *)
Definition int64 (x : Z) : Z := ((x + 2 ^ 63) mod 2 ^ 64 - 2 ^ 63)%Z.
Definition is_int64 (x : Z) : Prop := (- 2 ^ 63 <= x < 2 ^ 63)%Z.

(** [uint32(key)] and [uint32(key >> 32)] for an int64 key
    (int_map.go:185): the arithmetic shift is [Z.shiftr]; the conversion to
    uint32 keeps the low 32 bits. *)
Definition int_lo (k : Z) : N := Z.to_N (k mod 2 ^ 32)%Z.
Definition int_hi (k : Z) : N := Z.to_N (Z.shiftr k 32 mod 2 ^ 32)%Z.

(** [IntKey(item.pmap) | (IntKey(item.tmap) << 32)] (int_map.go:119): both
    operands are int64, the shift wraps. *)
Definition int_join (pmap tmap : N) : Z :=
  Z.lor (Z.of_N pmap) (int64 (Z.shiftl (Z.of_N tmap) 32)).

(** intbytes (int_map.go:57-59): [byte(k >> (8*i))] for i = 0..7. *)
Definition intbytes (k : Z) : list N :=
  (λ i, Z.to_N (Z.shiftr k (8 * Z.of_nat i) mod 256)%Z) <$> seq 0 8.
