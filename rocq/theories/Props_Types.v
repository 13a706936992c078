(** Properties C01 to C05 and C07 to C12: the map and set types behave as plain
    finite maps and sets.

    [mrun api ok u0 tr w] (Client.v): making the calls of the history tr (latest
    first), all of them allowed by ok, on the model of the code gave the results
    recorded in tr and the heap w. [mspec dig zero u0 tr σ] (Spec.v): a program
    that uses plain finite maps can give the same results to the same calls.

    A new key k is inserted below an old key k' if k' is in the way of k
    ([in_way] in Spec.v: k shares more digits with k' than any other stored key
    shares with k'). [ins_guard dig WS WM] says of a Set (WS) or Mod (WM) of a new
    key k that every key k' in the way differs from k in one of the first 241
    digits, and satisfies the condition WS or WM. The first theorem for each type
    lays down this condition call by call, for arbitrary keys; the second takes
    keys P that differ in their first 241 digits ([separates]).

    The second part of each theorem says that every allowed call returns (it
    does not panic, access memory wrongly or run forever). *)
From stdpp Require Import base numbers list gmap.
From Verif Require Import GoInt Mem Hash Amt Families Spec Client Types Pack Runs Guards Sep.
Local Open Scope nat_scope.

Theorem C01_StringMap_is_finite_map : ∀ (V U : Type) (zero : V) (u0 : U) (fuel : nat) (sum64 : N -> bytes -> N)
    (P : bytes -> Prop) (Q : N -> Prop),
  256 <= fuel ->
  ∀ tr w,
  let ok := λ tr op, mallowed P Q tr op /\ ins_guard (digit sum64) any_way any_way tr op in
  mrun (StringMap_api sum64 zero fuel) ok u0 tr w ->
  (∃ σ, mspec (digit sum64) zero u0 tr σ) /\
  (∀ op, ok tr op -> ∃ res w', mcall (StringMap_api sum64 zero fuel) op w = Ret res w').
Proof. intros V U zero u0 fuel sum64 P Q Hf. exact (map_type_spec zero fuel u0 Hf _ _ _ (type_StringMap zero fuel sum64 P Q)). Qed.
Print Assumptions C01_StringMap_is_finite_map.

Theorem C01_StringMap_separated : ∀ (V U : Type) (zero : V) (u0 : U) (fuel : nat) (sum64 : N -> bytes -> N)
    (P : bytes -> Prop) (Q : N -> Prop),
  256 <= fuel -> separates (digit sum64) P Q 240 ->
  ∀ tr w,
  let ok := mallowed P Q in
  mrun (StringMap_api sum64 zero fuel) ok u0 tr w ->
  (∃ σ, mspec (digit sum64) zero u0 tr σ) /\
  (∀ op, ok tr op -> ∃ res w', mcall (StringMap_api sum64 zero fuel) op w = Ret res w').
Proof. intros V U zero u0 fuel sum64 P Q Hf Hs. exact (map_sep_spec zero fuel u0 Hf _ _ P Q _ _ (type_StringMap zero fuel sum64 P Q) Hs (any_ways _ _ _) (any_ways _ _ _)). Qed.
Print Assumptions C01_StringMap_separated.

Theorem C02_StringSet_is_finite_set : ∀ (U : Type) (u0 : U) (fuel : nat) (sum64 : N -> bytes -> N)
    (P : bytes -> Prop) (Q : N -> Prop),
  256 <= fuel ->
  ∀ tr w,
  let ok := λ tr op, sallowed P Q tr op /\ add_guard (digit sum64) any_way tr op in
  srun (StringSet_api sum64 fuel) ok u0 tr w ->
  (∃ σ, sspec (digit sum64) u0 tr σ) /\
  (∀ op, ok tr op -> ∃ res w', scall (StringSet_api sum64 fuel) op w = Ret res w').
Proof. intros U u0 fuel sum64 P Q Hf. exact (set_type_spec fuel u0 Hf _ _ _ (type_StringSet fuel sum64 P Q)). Qed.
Print Assumptions C02_StringSet_is_finite_set.

Theorem C02_StringSet_separated : ∀ (U : Type) (u0 : U) (fuel : nat) (sum64 : N -> bytes -> N)
    (P : bytes -> Prop) (Q : N -> Prop),
  256 <= fuel -> separates (digit sum64) P Q 240 ->
  ∀ tr w,
  let ok := sallowed P Q in
  srun (StringSet_api sum64 fuel) ok u0 tr w ->
  (∃ σ, sspec (digit sum64) u0 tr σ) /\
  (∀ op, ok tr op -> ∃ res w', scall (StringSet_api sum64 fuel) op w = Ret res w').
Proof. intros U u0 fuel sum64 P Q Hf Hs. exact (set_sep_spec fuel u0 Hf _ _ P Q _ (type_StringSet fuel sum64 P Q) Hs (any_ways _ _ _)). Qed.
Print Assumptions C02_StringSet_separated.

Theorem C03_BytesMap_is_finite_map : ∀ (V U : Type) (zero : V) (u0 : U) (fuel : nat) (sum64 : N -> bytes -> N)
    (P : bytes -> Prop) (Q : N -> Prop),
  256 <= fuel ->
  ∀ tr w,
  let ok := λ tr op, mallowed P Q tr op /\ ins_guard (digit sum64) any_way any_way tr op in
  mrun (BytesMap_api sum64 zero fuel) ok u0 tr w ->
  (∃ σ, mspec (digit sum64) zero u0 tr σ) /\
  (∀ op, ok tr op -> ∃ res w', mcall (BytesMap_api sum64 zero fuel) op w = Ret res w').
Proof. intros V U zero u0 fuel sum64 P Q Hf. exact (map_type_spec zero fuel u0 Hf _ _ _ (type_BytesMap zero fuel sum64 P Q)). Qed.
Print Assumptions C03_BytesMap_is_finite_map.

Theorem C03_BytesMap_separated : ∀ (V U : Type) (zero : V) (u0 : U) (fuel : nat) (sum64 : N -> bytes -> N)
    (P : bytes -> Prop) (Q : N -> Prop),
  256 <= fuel -> separates (digit sum64) P Q 240 ->
  ∀ tr w,
  let ok := mallowed P Q in
  mrun (BytesMap_api sum64 zero fuel) ok u0 tr w ->
  (∃ σ, mspec (digit sum64) zero u0 tr σ) /\
  (∀ op, ok tr op -> ∃ res w', mcall (BytesMap_api sum64 zero fuel) op w = Ret res w').
Proof. intros V U zero u0 fuel sum64 P Q Hf Hs. exact (map_sep_spec zero fuel u0 Hf _ _ P Q _ _ (type_BytesMap zero fuel sum64 P Q) Hs (any_ways _ _ _) (any_ways _ _ _)). Qed.
Print Assumptions C03_BytesMap_separated.

(** Missing from C04 and C05: inserting a key that shares two or more digits
    beyond its depth with a key in the way outside 0..2^32-1; then the claim is
    false (IntMap_int64_refuted, IntSet_int64_refuted in Refuted.v). *)
Theorem C04_IntMap_is_finite_map_partial : ∀ (V U : Type) (zero : V) (u0 : U) (fuel : nat) (sum64 : N -> bytes -> N)
    (P : Z -> Prop) (Q : N -> Prop),
  256 <= fuel -> (∀ k, P k -> is_int64 k) ->
  ∀ tr w,
  let ok := λ tr op, mallowed P Q tr op /\ ins_guard (int_digit sum64) (int_way sum64) (int_way sum64) tr op in
  mrun (IntMap_api sum64 zero fuel) ok u0 tr w ->
  (∃ σ, mspec (int_digit sum64) zero u0 tr σ) /\
  (∀ op, ok tr op -> ∃ res w', mcall (IntMap_api sum64 zero fuel) op w = Ret res w').
Proof. intros V U zero u0 fuel sum64 P Q Hf Hi. exact (map_type_spec zero fuel u0 Hf _ _ _ (type_IntMap zero fuel sum64 P Q Hi)). Qed.
Print Assumptions C04_IntMap_is_finite_map_partial.

Theorem C04_IntMap_separated_partial : ∀ (V U : Type) (zero : V) (u0 : U) (fuel : nat) (sum64 : N -> bytes -> N)
    (P : Z -> Prop) (Q : N -> Prop),
  256 <= fuel -> separates (int_digit sum64) P Q 240 -> int_keys sum64 P Q ->
  ∀ tr w,
  let ok := mallowed P Q in
  mrun (IntMap_api sum64 zero fuel) ok u0 tr w ->
  (∃ σ, mspec (int_digit sum64) zero u0 tr σ) /\
  (∀ op, ok tr op -> ∃ res w', mcall (IntMap_api sum64 zero fuel) op w = Ret res w').
Proof. intros V U zero u0 fuel sum64 P Q Hf Hs Hi. exact (map_sep_spec zero fuel u0 Hf _ _ P Q _ _ (type_IntMap zero fuel sum64 P Q (proj1 Hi)) Hs (int_keys_ways _ _ _ Hi) (int_keys_ways _ _ _ Hi)). Qed.
Print Assumptions C04_IntMap_separated_partial.

(** In particular: every history over keys in 0..2^32-1. *)
Theorem C04_IntMap_uint32_partial : ∀ (V U : Type) (zero : V) (u0 : U) (fuel : nat) (sum64 : N -> bytes -> N)
    (P : Z -> Prop) (Q : N -> Prop),
  256 <= fuel -> separates (int_digit sum64) P Q 240 -> (∀ k, P k -> (0 <= k < 2 ^ 32)%Z) ->
  ∀ tr w,
  let ok := mallowed P Q in
  mrun (IntMap_api sum64 zero fuel) ok u0 tr w ->
  (∃ σ, mspec (int_digit sum64) zero u0 tr σ) /\
  (∀ op, ok tr op -> ∃ res w', mcall (IntMap_api sum64 zero fuel) op w = Ret res w').
Proof. intros V U zero u0 fuel sum64 P Q Hf Hs Hr. 
  apply C04_IntMap_separated_partial; [done..|].
  split; [intros k Hk; specialize (Hr k Hk); unfold is_int64; lia|]. intros s k k' _ Hk _ _. left. by apply Hr.
 Qed.
Print Assumptions C04_IntMap_uint32_partial.

Theorem C05_IntSet_is_finite_set_partial : ∀ (U : Type) (u0 : U) (fuel : nat) (sum64 : N -> bytes -> N)
    (P : Z -> Prop) (Q : N -> Prop),
  256 <= fuel -> (∀ k, P k -> is_int64 k) ->
  ∀ tr w,
  let ok := λ tr op, sallowed P Q tr op /\ add_guard (int_digit sum64) (int_way sum64) tr op in
  srun (IntSet_api sum64 fuel) ok u0 tr w ->
  (∃ σ, sspec (int_digit sum64) u0 tr σ) /\
  (∀ op, ok tr op -> ∃ res w', scall (IntSet_api sum64 fuel) op w = Ret res w').
Proof. intros U u0 fuel sum64 P Q Hf Hi. exact (set_type_spec fuel u0 Hf _ _ _ (type_IntSet fuel sum64 P Q Hi)). Qed.
Print Assumptions C05_IntSet_is_finite_set_partial.

Theorem C05_IntSet_separated_partial : ∀ (U : Type) (u0 : U) (fuel : nat) (sum64 : N -> bytes -> N)
    (P : Z -> Prop) (Q : N -> Prop),
  256 <= fuel -> separates (int_digit sum64) P Q 240 -> int_keys sum64 P Q ->
  ∀ tr w,
  let ok := sallowed P Q in
  srun (IntSet_api sum64 fuel) ok u0 tr w ->
  (∃ σ, sspec (int_digit sum64) u0 tr σ) /\
  (∀ op, ok tr op -> ∃ res w', scall (IntSet_api sum64 fuel) op w = Ret res w').
Proof. intros U u0 fuel sum64 P Q Hf Hs Hi. exact (set_sep_spec fuel u0 Hf _ _ P Q _ (type_IntSet fuel sum64 P Q (proj1 Hi)) Hs (int_keys_ways _ _ _ Hi)). Qed.
Print Assumptions C05_IntSet_separated_partial.

Theorem C05_IntSet_uint32_partial : ∀ (U : Type) (u0 : U) (fuel : nat) (sum64 : N -> bytes -> N)
    (P : Z -> Prop) (Q : N -> Prop),
  256 <= fuel -> separates (int_digit sum64) P Q 240 -> (∀ k, P k -> (0 <= k < 2 ^ 32)%Z) ->
  ∀ tr w,
  let ok := sallowed P Q in
  srun (IntSet_api sum64 fuel) ok u0 tr w ->
  (∃ σ, sspec (int_digit sum64) u0 tr σ) /\
  (∀ op, ok tr op -> ∃ res w', scall (IntSet_api sum64 fuel) op w = Ret res w').
Proof. intros U u0 fuel sum64 P Q Hf Hs Hr. 
  apply C05_IntSet_separated_partial; [done..|].
  split; [intros k Hk; specialize (Hr k Hk); unfold is_int64; lia|]. intros s k k' _ Hk _ _. left. by apply Hr.
 Qed.
Print Assumptions C05_IntSet_uint32_partial.

(** Missing from C07: a Set of a new key while another key is in its way; it stores
    the zero value (ArrMap_Set_refuted). Mod, Del and all reads are unrestricted. *)
Theorem C07_ArrMap_is_finite_map_partial : ∀ (K : Type) `{Countable K} (V U : Type) (zero : V) (u0 : U) (fuel : nat)
    (sum64 : N -> bytes -> N) (keq : K -> K -> bool) (KeyBytes : K -> bytes) (P : K -> Prop) (Q : N -> Prop),
  256 <= fuel -> decides_eq keq P ->
  ∀ tr w,
  let ok := λ tr op, mallowed P Q tr op /\ ins_guard (arr_digit sum64 KeyBytes) no_way any_way tr op in
  mrun (ArrMap_api sum64 zero fuel keq KeyBytes) ok u0 tr w ->
  (∃ σ, mspec (arr_digit sum64 KeyBytes) zero u0 tr σ) /\
  (∀ op, ok tr op -> ∃ res w', mcall (ArrMap_api sum64 zero fuel keq KeyBytes) op w = Ret res w').
Proof. intros K ?? V U zero u0 fuel sum64 keq KeyBytes P Q Hf He. exact (map_type_spec zero fuel u0 Hf _ _ _ (type_ArrMap zero fuel K sum64 keq KeyBytes P Q He)). Qed.
Print Assumptions C07_ArrMap_is_finite_map_partial.

Theorem C08_ArrSet_is_finite_set : ∀ (K : Type) `{Countable K} (U : Type) (u0 : U) (fuel : nat)
    (sum64 : N -> bytes -> N) (keq : K -> K -> bool) (KeyBytes : K -> bytes) (P : K -> Prop) (Q : N -> Prop),
  256 <= fuel -> decides_eq keq P ->
  ∀ tr w,
  let ok := λ tr op, sallowed P Q tr op /\ add_guard (arr_digit sum64 KeyBytes) any_way tr op in
  srun (ArrSet_api sum64 fuel keq KeyBytes) ok u0 tr w ->
  (∃ σ, sspec (arr_digit sum64 KeyBytes) u0 tr σ) /\
  (∀ op, ok tr op -> ∃ res w', scall (ArrSet_api sum64 fuel keq KeyBytes) op w = Ret res w').
Proof. intros K ?? U u0 fuel sum64 keq KeyBytes P Q Hf He. exact (set_type_spec fuel u0 Hf _ _ _ (type_ArrSet fuel K sum64 keq KeyBytes P Q He)). Qed.
Print Assumptions C08_ArrSet_is_finite_set.

Theorem C08_ArrSet_separated : ∀ (K : Type) `{Countable K} (U : Type) (u0 : U) (fuel : nat)
    (sum64 : N -> bytes -> N) (keq : K -> K -> bool) (KeyBytes : K -> bytes) (P : K -> Prop) (Q : N -> Prop),
  256 <= fuel -> separates (arr_digit sum64 KeyBytes) P Q 240 -> decides_eq keq P ->
  ∀ tr w,
  let ok := sallowed P Q in
  srun (ArrSet_api sum64 fuel keq KeyBytes) ok u0 tr w ->
  (∃ σ, sspec (arr_digit sum64 KeyBytes) u0 tr σ) /\
  (∀ op, ok tr op -> ∃ res w', scall (ArrSet_api sum64 fuel keq KeyBytes) op w = Ret res w').
Proof. intros K ?? U u0 fuel sum64 keq KeyBytes P Q Hf Hs He. exact (set_sep_spec fuel u0 Hf _ _ P Q _ (type_ArrSet fuel K sum64 keq KeyBytes P Q He) Hs (any_ways _ _ _)). Qed.
Print Assumptions C08_ArrSet_separated.

(** Missing from C09: Del, for which the claim is false (BytesSet_Del_refuted). *)
Theorem C09_BytesSet_is_finite_set_partial : ∀ (U : Type) (u0 : U) (fuel : nat) (sum64 : N -> bytes -> N)
    (P : bytes -> Prop) (Q : N -> Prop),
  256 <= fuel ->
  ∀ tr w,
  let ok := λ tr op, sallowed P Q tr op /\ add_guard (digit sum64) any_way tr op /\ no_del op in
  srun (BytesSet_api sum64 fuel) ok u0 tr w ->
  (∃ σ, sspec (digit sum64) u0 tr σ) /\
  (∀ op, ok tr op -> ∃ res w', scall (BytesSet_api sum64 fuel) op w = Ret res w').
Proof. intros U u0 fuel sum64 P Q Hf. exact (set_type_spec fuel u0 Hf _ _ _ (type_BytesSet fuel sum64 P Q)). Qed.
Print Assumptions C09_BytesSet_is_finite_set_partial.

Theorem C09_BytesSet_separated_partial : ∀ (U : Type) (u0 : U) (fuel : nat) (sum64 : N -> bytes -> N)
    (P : bytes -> Prop) (Q : N -> Prop),
  256 <= fuel -> separates (digit sum64) P Q 240 ->
  ∀ tr w,
  let ok := λ tr op, sallowed P Q tr op /\ no_del op in
  srun (BytesSet_api sum64 fuel) ok u0 tr w ->
  (∃ σ, sspec (digit sum64) u0 tr σ) /\
  (∀ op, ok tr op -> ∃ res w', scall (BytesSet_api sum64 fuel) op w = Ret res w').
Proof. intros U u0 fuel sum64 P Q Hf Hs. 
  apply (set_impl_spec fuel u0 Hf _ _ _ _ (type_BytesSet fuel sum64 P Q)).
  intros tr w op Hr [Ho Hn]. split; [done|]. split; [|done].
  eapply (sep_sguard u0 (BytesSet_api sum64 fuel) _ P Q); [|exact Hs|apply any_ways|exact Hr|exact Ho]. by intros ?? [].
 Qed.
Print Assumptions C09_BytesSet_separated_partial.

(** Missing from C10 to C12: insertions with a key in the way whose hash with the
    wrong iter differs from the right one, and for Mod a key in the way whose
    hash differs from the one of the new key; the claim is then false
    (Map_Set_refuted, Map_Mod_refuted, Set_Add_refuted). *)
Theorem C10_C11_Map_is_finite_map_partial : ∀ (K : Type) `{Countable K} (V U : Type) (zero : V) (u0 : U) (fuel : nat)
    (Equal : K -> K -> bool) (Hash : K -> N -> N -> N) (P : K -> Prop) (Q : N -> Prop),
  256 <= fuel -> decides_eq Equal P ->
  ∀ tr w,
  let ok := λ tr op, mallowed P Q tr op /\ ins_guard (gdigit Hash) (set_way Hash) (mod_way Hash) tr op in
  mrun (Map_api zero fuel Equal Hash) ok u0 tr w ->
  (∃ σ, mspec (gdigit Hash) zero u0 tr σ) /\
  (∀ op, ok tr op -> ∃ res w', mcall (Map_api zero fuel Equal Hash) op w = Ret res w').
Proof. intros K ?? V U zero u0 fuel Equal Hash P Q Hf He. exact (map_type_spec zero fuel u0 Hf _ _ _ (type_Map zero fuel K Equal Hash P Q He)). Qed.
Print Assumptions C10_C11_Map_is_finite_map_partial.

(** Set is right for a Hash that tells iter = d mod 16 from iter = d / 16 for no
    d < n, where the first n + 1 digits separate the keys. *)
Theorem C10_Map_separated_partial : ∀ (K : Type) `{Countable K} (V U : Type) (zero : V) (u0 : U) (fuel : nat)
    (Equal : K -> K -> bool) (Hash : K -> N -> N -> N) (P : K -> Prop) (Q : N -> Prop) (n : nat),
  256 <= fuel -> n <= 240 -> separates (gdigit Hash) P Q n -> decides_eq Equal P -> rehash_ok Hash P Q n ->
  ∀ tr w,
  let ok := λ tr op, mallowed P Q tr op /\ ins_guard (gdigit Hash) any_way (mod_way Hash) tr op in
  mrun (Map_api zero fuel Equal Hash) ok u0 tr w ->
  (∃ σ, mspec (gdigit Hash) zero u0 tr σ) /\
  (∀ op, ok tr op -> ∃ res w', mcall (Map_api zero fuel Equal Hash) op w = Ret res w').
Proof. intros K ?? V U zero u0 fuel Equal Hash P Q n Hf Hn Hs He Hh. 
  apply (map_impl_spec zero fuel u0 Hf _ _ _ _ (type_Map zero fuel K Equal Hash P Q He)).
  intros tr w op Hr [Ho Hn']. split; [done|]. destruct op as [|h k v| | | | | | | | | |]; try done.
  eapply (sep_guard u0 (Map_api zero fuel Equal Hash) (gdigit Hash) P Q _ (set_way Hash) any_way tr w (MSet h k v)); [|by eapply separates_mono|by eapply rehash_ways|apply any_ways|exact Hr|exact Ho]. by intros ?? [].
 Qed.
Print Assumptions C10_Map_separated_partial.

Theorem C12_Set_is_finite_set_partial : ∀ (K : Type) `{Countable K} (U : Type) (u0 : U) (fuel : nat)
    (Equal : K -> K -> bool) (Hash : K -> N -> N -> N) (P : K -> Prop) (Q : N -> Prop),
  256 <= fuel -> decides_eq Equal P ->
  ∀ tr w,
  let ok := λ tr op, sallowed P Q tr op /\ add_guard (gdigit Hash) (set_way Hash) tr op in
  srun (Set_api fuel Equal Hash) ok u0 tr w ->
  (∃ σ, sspec (gdigit Hash) u0 tr σ) /\
  (∀ op, ok tr op -> ∃ res w', scall (Set_api fuel Equal Hash) op w = Ret res w').
Proof. intros K ?? U u0 fuel Equal Hash P Q Hf He. exact (set_type_spec fuel u0 Hf _ _ _ (type_Set fuel K Equal Hash P Q He)). Qed.
Print Assumptions C12_Set_is_finite_set_partial.

Theorem C12_Set_separated_partial : ∀ (K : Type) `{Countable K} (U : Type) (u0 : U) (fuel : nat)
    (Equal : K -> K -> bool) (Hash : K -> N -> N -> N) (P : K -> Prop) (Q : N -> Prop) (n : nat),
  256 <= fuel -> n <= 240 -> separates (gdigit Hash) P Q n -> decides_eq Equal P -> rehash_ok Hash P Q n ->
  ∀ tr w,
  let ok := sallowed P Q in
  srun (Set_api fuel Equal Hash) ok u0 tr w ->
  (∃ σ, sspec (gdigit Hash) u0 tr σ) /\
  (∀ op, ok tr op -> ∃ res w', scall (Set_api fuel Equal Hash) op w = Ret res w').
Proof. intros K ?? U u0 fuel Equal Hash P Q n Hf Hn Hs He Hh. exact (set_sep_spec fuel u0 Hf _ _ P Q _ (type_Set fuel K Equal Hash P Q He) (separates_mono _ _ _ _ _ Hn Hs) (rehash_ways _ _ _ _ Hs Hh)). Qed.
Print Assumptions C12_Set_separated_partial.

(** ** The hypotheses can be met *)

(** A hash for which the 1-byte keys share their first 32 digits and differ
    within the next two, and the same for 8-byte keys. *)
Definition toy (s : N) (b : bytes) : N := if length b <=? 2 then 5%N else hd 0%N b.
Definition toy8 (s : N) (b : bytes) : N := if length b <=? 16 then 5%N else hd 0%N b.
Definition toykeys : list bytes := [[1]; [2]; [17]; [33]]%N.
Definition toyP (k : bytes) : Prop := memb toykeys k = true.
Definition toyQ (s : N) : Prop := memN [0; 7]%N s = true.

Lemma toy_separates : separates (digit toy) toyP toyQ 240.
Proof. intros s k k'. apply sepb_sep. vm_compute. reflexivity. Qed.

(** A program with two maps, conflicts at depth 32 and 33, a deletion with
    collapse, pointers, Mod and All. *)
Definition toyops {K} (a b c d : K) : list (mop K N N) :=
  [MNew 7; MSet 2 a 10%N; MSet 2 b 20%N; MSet 2 c 30%N; MNew 0; MGet 2 c; MMod 2 d (λ u v x, (u + 1, v + 4))%N;
   MDel 2 b; MGet 2 b; MLen 2; MAll 2 (λ u k v, (u + v, v + 1, true))%N; MGet 2 a; MPtr 2 d;
   MMod 2 d (λ u v x, (u, v * 2))%N; MDep 2; MDel 2 c; MVal 2 d].


Definition toyres : list (mres N) :=
  [RHandle 2; RUnit; RUnit; RUnit; RHandle 549755813888; RGet 30%N true; RUnit; RUnit; RGet 0%N false; RLen 3%N; RUnit;
   RGet 11%N true; RPtr (Some 1099511627776%positive); RUnit; RDep (SpecFloat.S754_finite false 4644337115725824 (-47)); RUnit; RVal 10%N].

Example C01_C03_nonvacuous : separates (digit toy) toyP toyQ 240 /\
  (∃ tr w, mrun (StringMap_api toy 0%N 256) (mallowed toyP toyQ) 0%N tr w /\
     reverse tr = zip (toyops [1]%N [2]%N [17]%N [33]%N) toyres) /\
  (∃ tr w, mrun (BytesMap_api toy 0%N 256) (mallowed toyP toyQ) 0%N tr w /\
     reverse tr = zip (toyops [1]%N [2]%N [17]%N [33]%N) toyres).
Proof.
  split; [apply toy_separates|]. split; (eapply mexec_res; [apply mchk_ok|vm_compute; reflexivity]).
Qed.

Definition toysops {K} (a b c d : K) : list (sop K (list K)) :=
  [SNew 7; SAdd 2 a; SAdd 2 b; SAdd 2 c; SNew 0; SHas 2 c; SHas 2 d; SAdd 2 d; SLen 2;
   SAll 2 (λ u k, (k :: u, true)); SDep 2].
Definition toysres : list sres :=
  [THandle 2; TUnit; TUnit; TUnit; THandle 549755813888; THas true; THas false; TUnit; TLen 4%N; TUnit;
   TDep (SpecFloat.S754_finite false 4609152743636992 (-47))].
Definition toysops2 {K} (b : K) : list (sop K (list K)) := [SDel 2 b; SHas 2 b].

Example C02_nonvacuous : ∃ tr w, srun (StringSet_api toy 256) (sallowed toyP toyQ) [] tr w /\
   reverse tr = zip (toysops [1]%N [2]%N [17]%N [33]%N ++ toysops2 [2]%N) (toysres ++ [TUnit; THas false]).
Proof. eapply sexec_res; [apply schk_ok|vm_compute; reflexivity]. Qed.

Example C09_nonvacuous : ∃ tr w,
   srun (BytesSet_api toy 256) (λ tr op, sallowed toyP toyQ tr op /\ no_del op) [] tr w /\
   reverse tr = zip (toysops [1]%N [2]%N [17]%N [33]%N) toysres.
Proof.
  eapply (sexec_res _ (λ tr op, schk (memb toykeys) (memN [0; 7]%N) tr op && match op with SDel _ _ => false | _ => true end)).
  - intros tr op [H1 H2]%andb_prop. split; [by apply schk_ok|]. by destruct op.
  - vm_compute. reflexivity.
Qed.

(** int64 keys that share 32 digits, all below 2^32. *)
Definition toyZ : list Z := [1; 2; 17; 33]%Z.
Lemma toy8_separates : separates (int_digit toy8) (λ k, memb toyZ k = true) toyQ 240.
Proof. intros s k k'. apply sepb_sep. vm_compute. reflexivity. Qed.
Lemma toy8_int_keys : int_keys toy8 (λ k, memb toyZ k = true) toyQ.
Proof.
  assert (Hr : ∀ k, memb toyZ k = true -> (0 <= k < 2 ^ 32)%Z).
  { intros k Hk%memb_in. simpl in Hk. lia. }
  split; [intros k Hk%Hr; unfold is_int64; lia|]. intros s k k' _ Hk%Hr _ _. by left.
Qed.
Example C04_C05_nonvacuous :
  separates (int_digit toy8) (λ k, memb toyZ k = true) toyQ 240 /\ int_keys toy8 (λ k, memb toyZ k = true) toyQ /\
  (∃ tr w, mrun (IntMap_api toy8 0%N 256) (mallowed (λ k, memb toyZ k = true) toyQ) 0%N tr w /\
     reverse tr = zip (toyops 1%Z 2%Z 17%Z 33%Z) toyres) /\
  (∃ tr w, srun (IntSet_api toy8 256) (sallowed (λ k, memb toyZ k = true) toyQ) [] tr w /\
   reverse tr = zip (toysops 1%Z 2%Z 17%Z 33%Z ++ toysops2 2%Z) 
     [THandle 2; TUnit; TUnit; TUnit; THandle 68719476736; THas true; THas false; TUnit; TLen 4%N; TUnit;
      TDep (SpecFloat.S754_finite false 4609152743636992 (-47)); TUnit; THas false]).
Proof.
  split; [apply toy8_separates|]. split; [apply toy8_int_keys|].
  split; [eapply mexec_res; [apply mchk_ok|vm_compute; reflexivity]|eapply sexec_res; [apply schk_ok|vm_compute; reflexivity]].
Qed.

(** Keys of any size below 2^63 that share at most one digit: 0, -1 and 2^40. *)
Definition toyI (s : N) (b : bytes) : N := match b with x :: _ :: _ :: _ :: _ :: y :: _ => x + y * 16 | _ => 0 end%N.
Example C04_large_keys :
  separates (int_digit toyI) (λ k, memb [0; -1; 2 ^ 40]%Z k = true) toyQ 240 /\
  int_keys toyI (λ k, memb [0; -1; 2 ^ 40]%Z k = true) toyQ.
Proof.
  split; [intros s k k'; apply sepb_sep; vm_compute; reflexivity|].
  split; [intros k Hk%memb_in; simpl in Hk; unfold is_int64; lia|].
  intros s k k' Hs Hk Hk' Hne. right. revert s k k' Hs Hk Hk' Hne. apply sepb_sep. vm_compute. reflexivity.
Qed.

(** ** The conditions on single calls *)

(** Calls with any keys and seeds that meet a condition on the items in the way. *)
Definition gchk `{Countable K} {V U} (dig : N -> K -> nat -> N) (P : K -> bool) (WS WM : N -> K -> K -> nat -> bool)
    (tr : list (mop K V U * mres V)) (op : mop K V U) : bool :=
  mchk P (λ _, true) tr op && insb dig WS WM tr op.
Lemma gchk_ok `{Countable K} {V U} (dig : N -> K -> nat -> N) P WSb WMb (WS WM : N -> K -> K -> nat -> Prop) (tr : list (mop K V U * mres V)) op :
  (∀ s k k' d, WSb s k k' d = true -> WS s k k' d) -> (∀ s k k' d, WMb s k k' d = true -> WM s k k' d) ->
  gchk dig P WSb WMb tr op = true -> mallowed (λ k, P k = true) (λ s, true = true) tr op /\ ins_guard dig WS WM tr op.
Proof.
  intros HS HM [H1 H2]%andb_prop. split; [by apply mchk_ok|]. by eapply insb_ok.
Qed.
Definition gschk `{Countable K} {U} (dig : N -> K -> nat -> N) (P : K -> bool) (W : N -> K -> K -> nat -> bool)
    (tr : list (sop K U * sres)) (op : sop K U) : bool :=
  schk P (λ _, true) tr op && addb dig W tr op.
Lemma gschk_ok `{Countable K} {U} (dig : N -> K -> nat -> N) P Wb (W : N -> K -> K -> nat -> Prop) (tr : list (sop K U * sres)) op :
  (∀ s k k' d, Wb s k k' d = true -> W s k k' d) ->
  gschk dig P Wb tr op = true -> sallowed (λ k, P k = true) (λ s, true = true) tr op /\ add_guard dig W tr op.
Proof. intros HS [H1 H2]%andb_prop. split; [by apply schk_ok|]. by eapply addb_ok. Qed.
Definition anyb {K} (s : N) (k k' : K) (d : nat) := true.
Definition nob {K} (s : N) (k k' : K) (d : nat) := false.
Lemma anyb_ok {K} s (k k' : K) d : anyb s k k' d = true -> any_way s k k' d.
Proof. done. Qed.
Lemma nob_ok {K} s (k k' : K) d : nob s k k' d = true -> no_way s k k' d.
Proof. done. Qed.

(** Strings: [1] and [1; 9] have the same digits for this hash, but are never
    stored together. *)
Definition toyh (s : N) (b : bytes) : N := hd 0%N b.
Example C01_C03_calls :
  let ok := λ tr op, mallowed (λ _, true = true) (λ _, true = true) tr op /\ ins_guard (digit toyh) any_way any_way tr op in
  let tr' := zip [MNew 7; MSet 2 [1]%N 10%N; MSet 2 [2]%N 20%N; MSet 2 [17]%N 30%N; MGet 2 [1]%N; MDel 2 [1]%N;
       MMod 2 [1; 9]%N (λ u v b, (u + 1, v + 5)%N); MGet 2 [1; 9]%N; MGet 2 [1]%N; MLen 2]
     [RHandle 2; RUnit; RUnit; RUnit; RGet 10%N true; RUnit; RUnit; RGet 5%N true; RGet 0%N false; RLen 3%N] in
  (∃ tr w, mrun (StringMap_api toyh 0%N 256) ok 0%N tr w /\ reverse tr = tr') /\
  (∃ tr w, mrun (BytesMap_api toyh 0%N 256) ok 0%N tr w /\ reverse tr = tr').
Proof.
  split; (eapply (mexec_res _ (gchk (digit toyh) (λ _, true) anyb anyb));
    [intros tr op; apply gchk_ok; apply anyb_ok|vm_compute; reflexivity]).
Qed.
Example C02_calls : ∃ tr w, srun (StringSet_api toyh 256)
    (λ tr op, sallowed (λ _, true = true) (λ _, true = true) tr op /\ add_guard (digit toyh) any_way tr op) ([] : list bytes) tr w /\
  reverse tr = zip [SNew 7; SAdd 2 [1]%N; SAdd 2 [2]%N; SAdd 2 [17]%N; SDel 2 [1]%N; SAdd 2 [1; 9]%N; SHas 2 [1; 9]%N; SHas 2 [1]%N]
   [THandle 2; TUnit; TUnit; TUnit; TUnit; TUnit; THas true; THas false].
Proof.
  eapply (sexec_res _ (gschk (digit toyh) (λ _, true) anyb));
    [intros tr op; apply gschk_ok; apply anyb_ok|vm_compute; reflexivity].
Qed.
Example C09_calls : ∃ tr w, srun (BytesSet_api toyh 256)
    (λ tr op, sallowed (λ _, true = true) (λ _, true = true) tr op /\ add_guard (digit toyh) any_way tr op /\ no_del op) ([] : list bytes) tr w /\
  reverse tr = zip [SNew 7; SAdd 2 [1]%N; SAdd 2 [2]%N; SAdd 2 [17]%N; SHas 2 [1; 9]%N; SHas 2 [1]%N]
   [THandle 2; TUnit; TUnit; TUnit; THas false; THas true].
Proof.
  eapply (sexec_res _ (λ tr op, gschk (digit toyh) (λ _, true) anyb tr op && match op with SDel _ _ => false | _ => true end)).
  - intros tr op [H1 H2]%andb_prop. destruct (gschk_ok _ _ _ _ _ _ anyb_ok H1). split_and!; [done|done|by destruct op].
  - vm_compute. reflexivity.
Qed.

(** int64 keys: -1 moves down by one level when 15 arrives; 2^32 and 1 share
    many digits, and 2^32 arrives second. *)
Definition toyi (s : N) (b : bytes) : N := match b with x :: _ => x | _ => 0 end%N.
Definition int_wayb (sum64 : N -> bytes -> N) (s : N) (k k' : Z) (d : nat) : bool :=
  ((0 <=? k') && (k' <? 2 ^ 32))%Z || negb (int_digit sum64 s k (S d) =? int_digit sum64 s k' (S d))%N.
Lemma int_wayb_ok sum64 s k k' d : int_wayb sum64 s k k' d = true -> int_way sum64 s k k' d.
Proof.
  unfold int_wayb, int_way. intros [[H1 H2]%andb_prop|Hn]%orb_prop; [left; lia|right].
  intros He. by rewrite He, N.eqb_refl in Hn.
Qed.
Definition intb (k : Z) : bool := (- 2 ^ 63 <=? k)%Z && (k <? 2 ^ 63)%Z.
Lemma intb_ok k : intb k = true -> is_int64 k.
Proof. unfold intb, is_int64. intros [H1 H2]%andb_prop. lia. Qed.
Definition toyi2 (s : N) (b : bytes) : N := if length b <=? 16 then hd 0%N b else nth 5 b 0%N.
Example C04_calls : (∀ k, intb k = true -> is_int64 k) /\ ∃ tr w, mrun (IntMap_api toyi2 0%N 256)
    (λ tr op, mallowed (λ k, intb k = true) (λ _, true = true) tr op /\ ins_guard (int_digit toyi2) (int_way toyi2) (int_way toyi2) tr op) 0%N tr w /\
  reverse tr = zip [MNew 7; MSet 2 (-1)%Z 10%N; MSet 2 15%Z 20%N; MSet 2 1%Z 30%N; MSet 2 (2 ^ 40 + 1)%Z 40%N; MDel 2 15%Z;
      MGet 2 (-1)%Z; MGet 2 1%Z; MGet 2 (2 ^ 40 + 1)%Z; MLen 2]
   [RHandle 2; RUnit; RUnit; RUnit; RUnit; RUnit; RGet 10%N true; RGet 30%N true; RGet 40%N true; RLen 3%N].
Proof.
  split; [exact intb_ok|].
  eapply (mexec_res _ (gchk (int_digit toyi2) intb (int_wayb toyi2) (int_wayb toyi2)));
    [intros tr op; apply gchk_ok; apply int_wayb_ok|vm_compute; reflexivity].
Qed.
Example C05_calls : ∃ tr w, srun (IntSet_api toyi2 256)
    (λ tr op, sallowed (λ k, intb k = true) (λ _, true = true) tr op /\ add_guard (int_digit toyi2) (int_way toyi2) tr op) ([] : list Z) tr w /\
  reverse tr = zip [SNew 7; SAdd 2 (-1)%Z; SAdd 2 15%Z; SAdd 2 1%Z; SAdd 2 (2 ^ 40 + 1)%Z; SDel 2 15%Z; SHas 2 (-1)%Z; SHas 2 15%Z; SLen 2]
   [THandle 2; TUnit; TUnit; TUnit; TUnit; TUnit; THas true; THas false; TLen 3%N].
Proof.
  eapply (sexec_res _ (gschk (int_digit toyi2) intb (int_wayb toyi2)));
    [intros tr op; apply gschk_ok; apply int_wayb_ok|vm_compute; reflexivity].
Qed.

(** Arrays as keys: byte arrays with themselves as bytes. *)
Lemma toy_decides : decides_eq (λ k k' : bytes, bool_decide (k = k')) toyP.
Proof. intros k k' _ _. apply bool_decide_eq_true. Qed.
Example C08_nonvacuous :
  separates (arr_digit toy id) toyP toyQ 240 /\ decides_eq (λ k k' : bytes, bool_decide (k = k')) toyP /\
  ∃ tr w, srun (ArrSet_api toy 256 (λ k k' : bytes, bool_decide (k = k')) id) (sallowed toyP toyQ) [] tr w /\
   reverse tr = zip (toysops [1]%N [2]%N [17]%N [33]%N ++ toysops2 [2]%N) (toysres ++ [TUnit; THas false]).
Proof.
  split; [apply toy_separates|]. split; [apply toy_decides|].
  eapply sexec_res; [apply schk_ok|vm_compute; reflexivity].
Qed.
Lemma bytes_decides P : decides_eq (λ k k' : bytes, bool_decide (k = k')) P.
Proof. intros k k' _ _. apply bool_decide_eq_true. Qed.
Example C08_calls : decides_eq (λ k k' : bytes, bool_decide (k = k')) (λ _, true = true) /\
  ∃ tr w, srun (ArrSet_api toyh 256 (λ k k' : bytes, bool_decide (k = k')) id)
    (λ tr op, sallowed (λ _, true = true) (λ _, true = true) tr op /\ add_guard (arr_digit toyh id) any_way tr op) ([] : list bytes) tr w /\
  reverse tr = zip [SNew 7; SAdd 2 [1]%N; SAdd 2 [2]%N; SAdd 2 [17]%N; SDel 2 [1]%N; SAdd 2 [1; 9]%N; SHas 2 [1; 9]%N; SHas 2 [1]%N]
   [THandle 2; TUnit; TUnit; TUnit; TUnit; TUnit; THas true; THas false].
Proof.
  split; [apply bytes_decides|].
  eapply (sexec_res _ (gschk (arr_digit toyh id) (λ _, true) anyb));
    [intros tr op; apply gschk_ok; apply anyb_ok|vm_compute; reflexivity].
Qed.

(** [1] and [17] share a digit. The Set of [17] is possible once nothing is in the
    way: after Mod of [17], and for [33] after both have moved down. *)
Example C07_nonvacuous :
  decides_eq (λ k k' : bytes, bool_decide (k = k')) (λ _, true = true) /\
  ∃ tr w, mrun (ArrMap_api toyh 0%N 256 (λ k k' : bytes, bool_decide (k = k')) id)
      (λ tr op, mallowed (λ _, true = true) (λ _, true = true) tr op /\ ins_guard (arr_digit toyh id) no_way any_way tr op) 0%N tr w /\
   reverse tr = zip [MNew 7; MSet 2 [1]%N 10%N; MSet 2 [2]%N 20%N; MMod 2 [17]%N (λ u v b, (u + 1, v + 5)%N);
       MSet 2 [17]%N 30%N; MSet 2 [33]%N 40%N; MGet 2 [17]%N; MGet 2 [1]%N; MDel 2 [1]%N; MGet 2 [17]%N; MGet 2 [33]%N; MLen 2]
     [RHandle 2; RUnit; RUnit; RUnit; RUnit; RUnit; RGet 30%N true; RGet 10%N true; RUnit; RGet 30%N true; RGet 40%N true; RLen 3%N].
Proof.
  split; [apply bytes_decides|].
  eapply (mexec_res _ (gchk (arr_digit toyh id) (λ _, true) nob anyb));
    [intros tr op; apply gchk_ok; [apply nob_ok|apply anyb_ok]|vm_compute; reflexivity].
Qed.

(** Generic maps and sets over N. *)
Lemma N_decides P : decides_eq N.eqb P.
Proof. intros k k' _ _. apply N.eqb_eq. Qed.
Definition set_wayb {K} (Hash : K -> N -> N -> N) (s : N) (k k' : K) (d : nat) : bool :=
  (upper (Hash k' s (N.of_nat (d mod 16))) d =? upper (Hash k' s (N.of_nat (d / 16))) d)%N.
Lemma set_wayb_ok {K} (Hash : K -> N -> N -> N) s k k' d : set_wayb Hash s k k' d = true -> set_way Hash s k k' d.
Proof. apply N.eqb_eq. Qed.
Definition mod_wayb {K} (Hash : K -> N -> N -> N) (s : N) (k k' : K) (d : nat) : bool :=
  (upper (Hash k s (N.of_nat (d mod 16))) d =? upper (Hash k' s (N.of_nat (d / 16))) d)%N.
Lemma mod_wayb_ok {K} (Hash : K -> N -> N -> N) s k k' d : mod_wayb Hash s k k' d = true -> mod_way Hash s k k' d.
Proof. apply N.eqb_eq. Qed.

(** A Hash that gives 1 and 2 the same first 16 digits: Mod moves 1 down 17 levels.
    Then Set of 16 and 32 with a key in the way at depth 0. *)
Definition Jhash (k s i : N) : N := if (k <? 16)%N then (if (i =? 0)%N then 5 else k + s)%N else (k * (i + 1))%N.
Example C10_C11_nonvacuous : decides_eq N.eqb (λ _, true = true) /\
  ∃ tr w, mrun (Map_api 0%N 256 N.eqb Jhash)
      (λ tr op, mallowed (λ _, true = true) (λ _, true = true) tr op /\
         ins_guard (gdigit Jhash) (set_way Jhash) (mod_way Jhash) tr op) 0%N tr w /\
   reverse tr = zip [MNew 7; MSet 2 1%N 10%N; MMod 2 2%N (λ u v b, (u + 1, v + 5)%N); MSet 2 16%N 30%N; MSet 2 32%N 40%N;
       MMod 2 16%N (λ u v b, (u + 1, v + 5)%N);
       MGet 2 16%N; MGet 2 2%N; MDel 2 1%N; MGet 2 32%N; MGet 2 2%N; MLen 2]
     [RHandle 2; RUnit; RUnit; RUnit; RUnit; RUnit; RGet 35%N true; RGet 5%N true; RUnit; RGet 40%N true; RGet 5%N true; RLen 3%N].
Proof.
  split; [apply N_decides|].
  eapply (mexec_res _ (gchk (gdigit Jhash) (λ _, true) (set_wayb Jhash) (mod_wayb Jhash)));
    [intros tr op; apply gchk_ok; [apply set_wayb_ok|apply mod_wayb_ok]|vm_compute; reflexivity].
Qed.
Example C12_calls : decides_eq N.eqb (λ _, true = true) /\
  ∃ tr w, srun (Set_api 256 N.eqb Jhash)
      (λ tr op, sallowed (λ _, true = true) (λ _, true = true) tr op /\ add_guard (gdigit Jhash) (set_way Jhash) tr op) ([] : list N) tr w /\
   reverse tr = zip [SNew 7; SAdd 2 1%N; SAdd 2 2%N; SAdd 2 16%N; SAdd 2 32%N; SHas 2 2%N; SHas 2 3%N; SDel 2 1%N; SHas 2 1%N; SHas 2 32%N; SLen 2]
     [THandle 2; TUnit; TUnit; TUnit; TUnit; THas true; THas false; TUnit; THas false; THas true; TLen 3%N].
Proof.
  split; [apply N_decides|].
  eapply (sexec_res _ (gschk (gdigit Jhash) (λ _, true) (set_wayb Jhash)));
    [intros tr op; apply gschk_ok; apply set_wayb_ok|vm_compute; reflexivity].
Qed.

(** A Hash that ignores iter: Set meets conflicts at any depth. *)
Definition Nhash (k s i : N) : N := k.
Definition toyN : list N := [1; 2; 17; 33]%N.
Lemma Nhash_rehash_ok P Q : rehash_ok Nhash P Q 240.
Proof. by intros s k d. Qed.
Example C10_C12_separated_nonvacuous :
  separates (gdigit Nhash) (λ k, memb toyN k = true) toyQ 240 /\ decides_eq N.eqb (λ k, memb toyN k = true) /\
  rehash_ok Nhash (λ k, memb toyN k = true) toyQ 240 /\
  (∃ tr w, mrun (Map_api 0%N 256 N.eqb Nhash)
      (λ tr op, mallowed (λ k, memb toyN k = true) toyQ tr op /\ ins_guard (gdigit Nhash) any_way (mod_way Nhash) tr op) 0%N tr w /\
   reverse tr = zip [MNew 7; MSet 2 1%N 10%N; MSet 2 2%N 20%N; MSet 2 17%N 30%N; MMod 2 17%N (λ u v b, (u + 1, v + 5)%N);
       MGet 2 17%N; MGet 2 1%N; MDel 2 1%N; MGet 2 17%N; MLen 2]
     [RHandle 2; RUnit; RUnit; RUnit; RUnit; RGet 35%N true; RGet 10%N true; RUnit; RGet 35%N true; RLen 2%N]) /\
  ∃ tr w, srun (Set_api 256 N.eqb Nhash) (sallowed (λ k, memb toyN k = true) toyQ) ([] : list N) tr w /\
   reverse tr = zip [SNew 7; SAdd 2 1%N; SAdd 2 2%N; SAdd 2 17%N; SHas 2 17%N; SHas 2 33%N; SDel 2 1%N; SHas 2 17%N; SLen 2]
     [THandle 2; TUnit; TUnit; TUnit; THas true; THas false; TUnit; THas true; TLen 2%N].
Proof.
  split; [intros s k k'; apply sepb_sep; vm_compute; reflexivity|].
  split; [apply N_decides|]. split; [apply Nhash_rehash_ok|]. split.
  - eapply (mexec_res _ (λ tr op, mchk (memb toyN) (memN [0; 7]%N) tr op && insb (gdigit Nhash) anyb (mod_wayb Nhash) tr op)); [|vm_compute; reflexivity].
    intros tr op [H1 H2]%andb_prop. split; [by apply mchk_ok|].
    eapply insb_ok; [apply anyb_ok|apply mod_wayb_ok|exact H2].
  - eapply sexec_res; [apply schk_ok|vm_compute; reflexivity].
Qed.
