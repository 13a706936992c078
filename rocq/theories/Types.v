(** The map and set types, with the conditions under which they are claimed to
    behave as finite maps and sets. *)
From stdpp Require Import base numbers list gmap.
From Verif Require Import GoInt Mem Hash Amt Families Spec Client.
Local Open Scope nat_scope.

(** The hash separates the keys P in containers with a seed in Q: any two differ
    in one of the first n + 1 digits. *)
Definition separates {K} (dig : N -> K -> nat -> N) (P : K -> Prop) (Q : N -> Prop) (n : nat) : Prop :=
  ∀ s k k', Q s -> P k -> P k' -> k ≠ k' -> separated n (dig s k) (dig s k').

(** eq decides equality of the keys P. *)
Definition decides_eq {K} (eq : K -> K -> bool) (P : K -> Prop) : Prop :=
  ∀ k k', P k -> P k' -> eq k k' = true <-> k = k'.

Definition int_digit (sum64 : N -> bytes -> N) (s : N) (k : Z) : nat -> N := digit sum64 s (intbytes k).
Definition arr_digit {K} (sum64 : N -> bytes -> N) (KeyBytes : K -> bytes) (s : N) (k : K) : nat -> N :=
  digit sum64 s (KeyBytes k).

(** ** Items in the way

    Inserting a new key k while the stored key k' of depth d is in the way moves
    k' to a deeper level. Most types do this right for any k'. *)
Definition any_way {K} (s : N) (k k' : K) (d : nat) : Prop := True.
(** ArrMap.Set then drops the value of k. *)
Definition no_way {K} (s : N) (k k' : K) (d : nat) : Prop := False.
(** IntMap and IntSet do it right if k' is in 0..2^32-1 or if it moves down by one level. *)
Definition int_way (sum64 : N -> bytes -> N) (s : N) (k k' : Z) (d : nat) : Prop :=
  (0 <= k' < 2 ^ 32)%Z \/ int_digit sum64 s k (S d) ≠ int_digit sum64 s k' (S d).
(** Map.Set and Set.Add hash k' with iter = d mod 16 where d / 16 is right; it does
    no harm if the digits from d mod 16 on are the same. *)
Definition upper (h : N) (d : nat) : N := N.shiftr h (4 * N.of_nat (d mod 16)).
Definition set_way {K} (Hash : K -> N -> N -> N) (s : N) (k k' : K) (d : nat) : Prop :=
  upper (Hash k' s (N.of_nat (d mod 16))) d = upper (Hash k' s (N.of_nat (d / 16))) d.
(** Map.Mod hashes k instead of k', again with iter = d mod 16. *)
Definition mod_way {K} (Hash : K -> N -> N -> N) (s : N) (k k' : K) (d : nat) : Prop :=
  upper (Hash k s (N.of_nat (d mod 16))) d = upper (Hash k' s (N.of_nat (d / 16))) d.

Section types.
Context {V U : Type} (zero : V) (fuel : nat).

(** [map_type api dig ok]: api is one of the map types, dig gives the digits of
    its keys, and ok the calls that are considered. *)
Inductive map_type : ∀ {K} `{Countable K} {CK : Type},
    mapapi K V CK U -> (N -> K -> nat -> N) -> (list (mop K V U * mres V) -> mop K V U -> Prop) -> Prop :=
  | type_StringMap sum64 P Q :
      map_type (StringMap_api sum64 zero fuel) (digit sum64)
        (λ tr op, mallowed P Q tr op /\ ins_guard (digit sum64) any_way any_way tr op)
  | type_BytesMap sum64 P Q :
      map_type (BytesMap_api sum64 zero fuel) (digit sum64)
        (λ tr op, mallowed P Q tr op /\ ins_guard (digit sum64) any_way any_way tr op)
  | type_IntMap sum64 (P : Z -> Prop) Q :
      (∀ k, P k -> is_int64 k) ->
      map_type (IntMap_api sum64 zero fuel) (int_digit sum64)
        (λ tr op, mallowed P Q tr op /\ ins_guard (int_digit sum64) (int_way sum64) (int_way sum64) tr op)
  | type_ArrMap K `{Countable K} sum64 keq KeyBytes (P : K -> Prop) Q :
      decides_eq keq P ->
      map_type (K:=K) (ArrMap_api sum64 zero fuel keq KeyBytes) (arr_digit sum64 KeyBytes)
        (λ tr op, mallowed P Q tr op /\ ins_guard (arr_digit sum64 KeyBytes) no_way any_way tr op)
  | type_Map K `{Countable K} Equal Hash (P : K -> Prop) Q :
      decides_eq Equal P ->
      map_type (K:=K) (Map_api zero fuel Equal Hash) (gdigit Hash)
        (λ tr op, mallowed P Q tr op /\ ins_guard (gdigit Hash) (set_way Hash) (mod_way Hash) tr op).

Inductive set_type : ∀ {K} `{Countable K} {CK : Type},
    setapi K unit CK U -> (N -> K -> nat -> N) -> (list (sop K U * sres) -> sop K U -> Prop) -> Prop :=
  | type_StringSet sum64 P Q :
      set_type (StringSet_api sum64 fuel) (digit sum64)
        (λ tr op, sallowed P Q tr op /\ add_guard (digit sum64) any_way tr op)
  | type_BytesSet sum64 P Q :
      set_type (BytesSet_api sum64 fuel) (digit sum64)
        (λ tr op, sallowed P Q tr op /\ add_guard (digit sum64) any_way tr op /\ no_del op)
  | type_IntSet sum64 (P : Z -> Prop) Q :
      (∀ k, P k -> is_int64 k) ->
      set_type (IntSet_api sum64 fuel) (int_digit sum64)
        (λ tr op, sallowed P Q tr op /\ add_guard (int_digit sum64) (int_way sum64) tr op)
  | type_ArrSet K `{Countable K} sum64 keq KeyBytes (P : K -> Prop) Q :
      decides_eq keq P ->
      set_type (K:=K) (ArrSet_api sum64 fuel keq KeyBytes) (arr_digit sum64 KeyBytes)
        (λ tr op, sallowed P Q tr op /\ add_guard (arr_digit sum64 KeyBytes) any_way tr op)
  | type_Set K `{Countable K} Equal Hash (P : K -> Prop) Q :
      decides_eq Equal P ->
      set_type (K:=K) (Set_api fuel Equal Hash) (gdigit Hash)
        (λ tr op, sallowed P Q tr op /\ add_guard (gdigit Hash) (set_way Hash) tr op).
End types.

(** ** All types, without conditions *)
Section any.
Context {V U : Type} (zero : V) (fuel : nat).
(** Any map type: any key type, any hash function, any comparison of keys. *)
Inductive any_map : ∀ {K CK : Type}, mapapi K V CK U -> Prop :=
  | any_StringMap sum64 : any_map (StringMap_api sum64 zero fuel)
  | any_BytesMap sum64 : any_map (BytesMap_api sum64 zero fuel)
  | any_IntMap sum64 : any_map (IntMap_api sum64 zero fuel)
  | any_ArrMap K sum64 keq KeyBytes : any_map (K:=K) (ArrMap_api sum64 zero fuel keq KeyBytes)
  | any_Map K Equal Hash : any_map (K:=K) (Map_api zero fuel Equal Hash).
(** Any set type; the first argument tells BytesSet, whose Del is wrong, from the others. *)
Inductive any_set : bool -> ∀ {K CK : Type}, setapi K unit CK U -> Prop :=
  | any_StringSet sum64 : any_set true (StringSet_api sum64 fuel)
  | any_BytesSet sum64 : any_set false (BytesSet_api sum64 fuel)
  | any_IntSet sum64 : any_set true (IntSet_api sum64 fuel)
  | any_ArrSet K sum64 keq KeyBytes : any_set true (K:=K) (ArrSet_api sum64 fuel keq KeyBytes)
  | any_Set K Equal Hash : any_set true (K:=K) (Set_api fuel Equal Hash).
End any.
