(** The map and set types as in Types.v together with the same types as programs of
    memory accesses (PClient.v). *)
From stdpp Require Import base numbers list gmap.
From Verif Require Import GoInt Mem Hash Amt Families Spec Client Types PClient ConcClient.
Local Open Scope nat_scope.

Section types.
Context {V U : Type} (zero : V) (fuel : nat).

Inductive map_both : ∀ {K} `{Countable K} {CK : Type},
    pmapapi K V CK U -> mapapi K V CK U -> (N -> K -> nat -> N) -> (list (mop K V U * mres V) -> mop K V U -> Prop) -> Prop :=
  | both_StringMap sum64 P Q :
      map_both (PStringMap_api sum64 zero fuel) (StringMap_api sum64 zero fuel) (digit sum64)
        (λ tr op, mallowed P Q tr op /\ ins_guard (digit sum64) any_way any_way tr op)
  | both_BytesMap sum64 P Q :
      map_both (PBytesMap_api sum64 zero fuel) (BytesMap_api sum64 zero fuel) (digit sum64)
        (λ tr op, mallowed P Q tr op /\ ins_guard (digit sum64) any_way any_way tr op)
  | both_IntMap sum64 (P : Z -> Prop) Q :
      (∀ k, P k -> is_int64 k) ->
      map_both (PIntMap_api sum64 zero fuel) (IntMap_api sum64 zero fuel) (int_digit sum64)
        (λ tr op, mallowed P Q tr op /\ ins_guard (int_digit sum64) (int_way sum64) (int_way sum64) tr op)
  | both_ArrMap K `{Countable K} sum64 keq KeyBytes (P : K -> Prop) Q :
      decides_eq keq P ->
      map_both (K:=K) (PArrMap_api sum64 zero fuel keq KeyBytes) (ArrMap_api sum64 zero fuel keq KeyBytes) (arr_digit sum64 KeyBytes)
        (λ tr op, mallowed P Q tr op /\ ins_guard (arr_digit sum64 KeyBytes) no_way any_way tr op)
  | both_Map K `{Countable K} Equal Hash (P : K -> Prop) Q :
      decides_eq Equal P ->
      map_both (K:=K) (PMap_api zero fuel Equal Hash) (Map_api zero fuel Equal Hash) (gdigit Hash)
        (λ tr op, mallowed P Q tr op /\ ins_guard (gdigit Hash) (set_way Hash) (mod_way Hash) tr op).

Inductive set_both : ∀ {K} `{Countable K} {CK : Type},
    psetapi K unit CK U -> setapi K unit CK U -> (N -> K -> nat -> N) -> (list (sop K U * sres) -> sop K U -> Prop) -> Prop :=
  | both_StringSet sum64 P Q :
      set_both (PStringSet_api sum64 fuel) (StringSet_api sum64 fuel) (digit sum64)
        (λ tr op, sallowed P Q tr op /\ add_guard (digit sum64) any_way tr op)
  | both_BytesSet sum64 P Q :
      set_both (PBytesSet_api sum64 fuel) (BytesSet_api sum64 fuel) (digit sum64)
        (λ tr op, sallowed P Q tr op /\ add_guard (digit sum64) any_way tr op /\ no_del op)
  | both_IntSet sum64 (P : Z -> Prop) Q :
      (∀ k, P k -> is_int64 k) ->
      set_both (PIntSet_api sum64 fuel) (IntSet_api sum64 fuel) (int_digit sum64)
        (λ tr op, sallowed P Q tr op /\ add_guard (int_digit sum64) (int_way sum64) tr op)
  | both_ArrSet K `{Countable K} sum64 keq KeyBytes (P : K -> Prop) Q :
      decides_eq keq P ->
      set_both (K:=K) (PArrSet_api sum64 fuel keq KeyBytes) (ArrSet_api sum64 fuel keq KeyBytes) (arr_digit sum64 KeyBytes)
        (λ tr op, sallowed P Q tr op /\ add_guard (arr_digit sum64 KeyBytes) any_way tr op)
  | both_Set K `{Countable K} Equal Hash (P : K -> Prop) Q :
      decides_eq Equal P ->
      set_both (K:=K) (PSet_api fuel Equal Hash) (Set_api fuel Equal Hash) (gdigit Hash)
        (λ tr op, sallowed P Q tr op /\ add_guard (gdigit Hash) (set_way Hash) tr op).

Lemma map_both_type `{Countable K} {CK} (papi : pmapapi K V CK U) api dig ok : map_both papi api dig ok -> map_type zero fuel api dig ok.
Proof. destruct 1; by constructor. Qed.
Lemma map_both_prog `{Countable K} {CK} (papi : pmapapi K V CK U) api dig ok : map_both papi api dig ok -> pmap_type zero fuel papi api.
Proof. destruct 1; constructor. Qed.
Lemma set_both_type `{Countable K} {CK} (papi : psetapi K unit CK U) api dig ok : set_both papi api dig ok -> set_type fuel api dig ok.
Proof. destruct 1; by constructor. Qed.
Lemma set_both_prog `{Countable K} {CK} (papi : psetapi K unit CK U) api dig ok : set_both papi api dig ok -> pset_type fuel papi api.
Proof. destruct 1; constructor. Qed.
End types.
