(** Hashing: maphash.Hash and the Hash methods of the package. *)
From stdpp Require Import base numbers list.
From Verif Require Import GoInt.
Local Open Scope N_scope.

(** A Go string or []byte is the list of its bytes. Bytes are numbers; nothing
    below depends on their being less than 256. *)
Notation bytes := (list N).

(** Fuel-bounded loops return [None] when the fuel runs out. *)
Section hash.
(** The hash function of maphash: the 64-bit sum of a byte sequence under a
    seed. Universally quantified in every theorem (a section variable). Only
    the low 64 bits of its result are ever looked at. *)
Variable sum64 : N -> bytes -> N.

(** maphash.Hash: the seed and the bytes written so far. *)
Record mhash : Type := MHash { mh_seed : N; mh_buf : bytes }.

(** [var hw maphash.Hash; hw.SetSeed(seed)] (string_map.go:91-92). *)
Definition mh_new (seed : N) : mhash := MHash seed [].
(** [hw.WriteString(key)] / [hw.Write(key)] (string_map.go:93). *)
Definition mh_write (h : mhash) (b : bytes) : mhash :=
  MHash (mh_seed h) (mh_buf h ++ b).
(** [hw.Sum64()]. *)
Definition mh_sum (h : mhash) : N := sum64 (mh_seed h) (mh_buf h).

(** HashBytes (generic_map.go:43-50): the loop counter is a uint8 and iter is
    truncated to uint8. *)
Fixpoint hashbytes_loop (fuel : nat) (key : bytes) (iter i : N) (h : mhash) : option mhash :=
  match fuel with
  | O => None
  | S fuel =>
      if i <=? u8 iter
      then hashbytes_loop fuel key iter (u8 (i + 1)) (mh_write h key)
      else Some h
  end.
Definition HashBytes (fuel : nat) (key : bytes) (seed iter : N) : option N :=
  mh_sum <$> hashbytes_loop fuel key iter 0 (mh_new seed).

(** The loop of String.Hash, Bytes.Hash and Int.Hash (string_map.go:39-41,
    bytes_map.go:40-42, int_map.go:38-40): the counter is a uint (64 bits). *)
Fixpoint hash_loop (fuel : nat) (key : bytes) (iter i : N) (h : mhash) : option mhash :=
  match fuel with
  | O => None
  | S fuel =>
      if i <=? iter
      then hash_loop fuel key iter (u64 (i + 1)) (mh_write h key)
      else Some h
  end.

(** String.Hash (string_map.go:36-43). *)
Definition String_Hash (fuel : nat) (k : bytes) (seed iter : N) : option N :=
  mh_sum <$> hash_loop fuel k iter 0 (mh_new seed).
(** Bytes.Hash (bytes_map.go:37-44). *)
Definition Bytes_Hash (fuel : nat) (k : bytes) (seed iter : N) : option N :=
  mh_sum <$> hash_loop fuel k iter 0 (mh_new seed).
(** Int.Hash (int_map.go:34-42). *)
Definition Int_Hash (fuel : nat) (k : Z) (seed iter : N) : option N :=
  mh_sum <$> hash_loop fuel (intbytes k) iter 0 (mh_new seed).

(** String.Equal (string_map.go:34) and Bytes.Equal (bytes_map.go:35):
    equality of byte sequences. *)
Definition String_Equal (k k2 : bytes) : bool := bool_decide (k = k2).
Definition Bytes_Equal (k k2 : bytes) : bool := bool_decide (k = k2).
End hash.
