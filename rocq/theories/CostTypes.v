(** The map and set types as in Types.v, for every bound on the number of times a
    loop runs. [api n] is the type with the bound n: a call that needs more hangs. *)
From stdpp Require Import base numbers list gmap.
From Verif Require Import GoInt Mem Hash Amt Families Spec Client Types.
Local Open Scope nat_scope.

Section types.
Context {V U : Type} (zero : V).

Inductive map_types : ∀ {K} `{Countable K} {CK : Type},
    (nat -> mapapi K V CK U) -> (N -> K -> nat -> N) -> (list (mop K V U * mres V) -> mop K V U -> Prop) -> Prop :=
  | types_StringMap sum64 P Q :
      map_types (λ n, StringMap_api sum64 zero n) (digit sum64)
        (λ tr op, mallowed P Q tr op /\ ins_guard (digit sum64) any_way any_way tr op)
  | types_BytesMap sum64 P Q :
      map_types (λ n, BytesMap_api sum64 zero n) (digit sum64)
        (λ tr op, mallowed P Q tr op /\ ins_guard (digit sum64) any_way any_way tr op)
  | types_IntMap sum64 (P : Z -> Prop) Q :
      (∀ k, P k -> is_int64 k) ->
      map_types (λ n, IntMap_api sum64 zero n) (int_digit sum64)
        (λ tr op, mallowed P Q tr op /\ ins_guard (int_digit sum64) (int_way sum64) (int_way sum64) tr op)
  | types_ArrMap K `{Countable K} sum64 keq KeyBytes (P : K -> Prop) Q :
      decides_eq keq P ->
      map_types (K:=K) (λ n, ArrMap_api sum64 zero n keq KeyBytes) (arr_digit sum64 KeyBytes)
        (λ tr op, mallowed P Q tr op /\ ins_guard (arr_digit sum64 KeyBytes) no_way any_way tr op)
  | types_Map K `{Countable K} Equal Hash (P : K -> Prop) Q :
      decides_eq Equal P ->
      map_types (K:=K) (λ n, Map_api zero n Equal Hash) (gdigit Hash)
        (λ tr op, mallowed P Q tr op /\ ins_guard (gdigit Hash) (set_way Hash) (mod_way Hash) tr op).

Inductive set_types : ∀ {K} `{Countable K} {CK : Type},
    (nat -> setapi K unit CK U) -> (N -> K -> nat -> N) -> (list (sop K U * sres) -> sop K U -> Prop) -> Prop :=
  | types_StringSet sum64 P Q :
      set_types (λ n, StringSet_api sum64 n) (digit sum64)
        (λ tr op, sallowed P Q tr op /\ add_guard (digit sum64) any_way tr op)
  | types_BytesSet sum64 P Q :
      set_types (λ n, BytesSet_api sum64 n) (digit sum64)
        (λ tr op, sallowed P Q tr op /\ add_guard (digit sum64) any_way tr op /\ no_del op)
  | types_IntSet sum64 (P : Z -> Prop) Q :
      (∀ k, P k -> is_int64 k) ->
      set_types (λ n, IntSet_api sum64 n) (int_digit sum64)
        (λ tr op, sallowed P Q tr op /\ add_guard (int_digit sum64) (int_way sum64) tr op)
  | types_ArrSet K `{Countable K} sum64 keq KeyBytes (P : K -> Prop) Q :
      decides_eq keq P ->
      set_types (K:=K) (λ n, ArrSet_api sum64 n keq KeyBytes) (arr_digit sum64 KeyBytes)
        (λ tr op, sallowed P Q tr op /\ add_guard (arr_digit sum64 KeyBytes) any_way tr op)
  | types_Set K `{Countable K} Equal Hash (P : K -> Prop) Q :
      decides_eq Equal P ->
      set_types (K:=K) (λ n, Set_api n Equal Hash) (gdigit Hash)
        (λ tr op, sallowed P Q tr op /\ add_guard (gdigit Hash) (set_way Hash) tr op).
End types.
