(** The map and set types for arbitrary keys, hash functions and comparisons of
    keys, as instances of the bags of Bag.v. IntMap and IntSet are left out:
    their keys have a given hash and comparison (see Refuted.v for what goes
    wrong there). *)
From stdpp Require Import base numbers list gmap.
From Verif Require Import GoInt Mem Hash Amt Families Spec Client Bag WeakRuns.
Local Open Scope nat_scope.

(** Comparisons that take the given key first and the stored key second. *)
Definition same_bytes (k k' : bytes) : bool := bool_decide (k' = k).
Definition swapped {K} (keq : K -> K -> bool) (k k' : K) : bool := keq k' k.

Section types.
Context {V U : Type} (zero : V) (fuel : nat).

(** [weak_map api eq lost over stable clob]: the parameters of Bag.v for a map type.
    BytesMap keeps the slices that its callers pass as keys, so they may be
    overwritten in any way. *)
Inductive weak_map : ∀ {K : Type}, mapapi K V K U -> (K -> K -> bool) -> bool -> bool -> bool -> (K -> K -> Prop) -> Prop :=
  | weak_StringMap sum64 :
      weak_map (StringMap_api sum64 zero fuel) same_bytes false false true untouched
  | weak_BytesMap sum64 clob :
      weak_map (BytesMap_api sum64 zero fuel) same_bytes false true true clob
  | weak_ArrMap K sum64 keq KeyBytes (stable : bool) :
      (stable = true -> ∀ k k', keq k k' = true -> KeyBytes k = KeyBytes k') ->
      weak_map (K:=K) (ArrMap_api sum64 zero fuel keq KeyBytes) (swapped keq) true false stable untouched
  | weak_Map K Equal Hash :
      weak_map (K:=K) (Map_api zero fuel Equal Hash) Equal false false false untouched.

(** [weak_set api eq inverted stable clob]: the same for a set type. *)
Inductive weak_set : ∀ {K : Type}, setapi K unit K U -> (K -> K -> bool) -> bool -> bool -> (K -> K -> Prop) -> Prop :=
  | weak_StringSet sum64 :
      weak_set (StringSet_api sum64 fuel) same_bytes false true untouched
  | weak_BytesSet sum64 clob :
      weak_set (BytesSet_api sum64 fuel) same_bytes true true clob
  | weak_ArrSet K sum64 keq KeyBytes (stable : bool) :
      (stable = true -> ∀ k k', keq k k' = true -> KeyBytes k = KeyBytes k') ->
      weak_set (K:=K) (ArrSet_api sum64 fuel keq KeyBytes) (swapped keq) false stable untouched
  | weak_Set K Equal Hash :
      weak_set (K:=K) (Set_api fuel Equal Hash) Equal false false untouched.
End types.
