(** What ArrMap and BytesSet do instead of what C07 and C09 claim: the exact
    behaviour, for all histories (the specifications are in ExactSpec.v). *)
From stdpp Require Import base numbers list gmap.
From Verif Require Import GoInt Mem Hash Amt Families Spec SpecFacts Guards Client Types Pack Sep Runs Props_Types ExactSpec Exact.
Local Open Scope nat_scope.

(** ArrMap is a finite map, except that a Set of a key with a stored key in its way
    stores the zero value. Missing from C07: that Set stores the value it is given. *)
Theorem C07_ArrMap_exact_partial : ∀ (K : Type) `{Countable K} (V U : Type) (zero : V) (u0 : U) (fuel : nat)
    (sum64 : N -> bytes -> N) (keq : K -> K -> bool) (KeyBytes : K -> bytes) (P : K -> Prop) (Q : N -> Prop),
  256 <= fuel -> decides_eq keq P ->
  ∀ tr w,
  let ok := λ tr op, mallowed P Q tr op /\ ins_guard (arr_digit sum64 KeyBytes) any_way any_way tr op in
  mrun (ArrMap_api sum64 zero fuel keq KeyBytes) ok u0 tr w ->
  (∃ σ, zspec (arr_digit sum64 KeyBytes) zero u0 tr σ) /\
  (∀ op, ok tr op -> ∃ res w', mcall (ArrMap_api sum64 zero fuel keq KeyBytes) op w = Ret res w').
Proof. intros K ?? V U zero u0 fuel sum64 keq KeyBytes P Q Hf He. exact (arr_exact zero u0 fuel Hf sum64 keq KeyBytes P Q He). Qed.
Print Assumptions C07_ArrMap_exact_partial.

(** The same over keys that the hash separates. *)
Theorem C07_ArrMap_exact_separated_partial : ∀ (K : Type) `{Countable K} (V U : Type) (zero : V) (u0 : U) (fuel : nat)
    (sum64 : N -> bytes -> N) (keq : K -> K -> bool) (KeyBytes : K -> bytes) (P : K -> Prop) (Q : N -> Prop),
  256 <= fuel -> separates (arr_digit sum64 KeyBytes) P Q 240 -> decides_eq keq P ->
  ∀ tr w,
  mrun (ArrMap_api sum64 zero fuel keq KeyBytes) (mallowed P Q) u0 tr w ->
  (∃ σ, zspec (arr_digit sum64 KeyBytes) zero u0 tr σ) /\
  (∀ op, mallowed P Q tr op -> ∃ res w', mcall (ArrMap_api sum64 zero fuel keq KeyBytes) op w = Ret res w').
Proof.
  intros K ?? V U zero u0 fuel sum64 keq KeyBytes P Q Hf Hs He tr w Hr.
  assert (Hg : ∀ tr w op, mrun (ArrMap_api sum64 zero fuel keq KeyBytes) (mallowed P Q) u0 tr w -> mallowed P Q tr op ->
    mallowed P Q tr op /\ ins_guard (arr_digit sum64 KeyBytes) any_way any_way tr op).
  { intros tr' w' op Hr' Ho. split; [done|]. eapply sep_guard; [|exact Hs|apply any_ways|apply any_ways|exact Hr'|exact Ho]. done. }
  destruct (arr_exact zero u0 fuel Hf sum64 keq KeyBytes P Q He tr w) as [Hx Hy].
  { eapply mrun_impl; [|exact Hr]. exact Hg. }
  split; [done|]. intros op Ho. apply Hy. by eapply Hg.
Qed.
Print Assumptions C07_ArrMap_exact_separated_partial.

(** BytesSet is a finite set, except that Del of k removes the key in the way of
    k. Missing from C09: that Del removes k and nothing else. *)
Theorem C09_BytesSet_exact_partial : ∀ (U : Type) (u0 : U) (fuel : nat) (sum64 : N -> bytes -> N)
    (P : bytes -> Prop) (Q : N -> Prop),
  256 <= fuel ->
  ∀ tr w,
  let ok := λ tr op, sallowed P Q tr op /\ dguard (digit sum64) u0 tr op in
  srun (BytesSet_api sum64 fuel) ok u0 tr w ->
  (∃ σ, dspec (digit sum64) u0 tr σ) /\
  (∀ op, ok tr op -> ∃ res w', scall (BytesSet_api sum64 fuel) op w = Ret res w').
Proof. intros U u0 fuel sum64 P Q Hf. exact (bytes_exact u0 fuel Hf sum64 P Q). Qed.
Print Assumptions C09_BytesSet_exact_partial.

Theorem C09_BytesSet_exact_separated_partial : ∀ (U : Type) (u0 : U) (fuel : nat) (sum64 : N -> bytes -> N)
    (P : bytes -> Prop) (Q : N -> Prop),
  256 <= fuel -> separates (digit sum64) P Q 240 ->
  ∀ tr w,
  srun (BytesSet_api sum64 fuel) (sallowed P Q) u0 tr w ->
  (∃ σ, dspec (digit sum64) u0 tr σ) /\
  (∀ op, sallowed P Q tr op -> ∃ res w', scall (BytesSet_api sum64 fuel) op w = Ret res w').
Proof. intros U u0 fuel sum64 P Q Hf Hs. exact (bytes_exact_separated u0 fuel Hf sum64 P Q Hs). Qed.
Print Assumptions C09_BytesSet_exact_separated_partial.

(** ** What this says about a single call *)

(** A stored key is never removed by a Del of that key. *)
Theorem C09_Del_keeps_partial : ∀ (U : Type) (dig : N -> bytes -> nat -> N) (σ σ' : sstate bytes U) h k s X,
  ss_set σ !! h = Some (s, X) -> k ∈ X -> dstep dig σ (SDel h k) TUnit σ' -> σ' = σ.
Proof.
  intros U dig σ σ' h k s X HX Hk (_ & s' & X' & HX' & [(k' & Hw & _)|[_ ->]]); [|done].
  rewrite HX in HX'. injection HX' as <- <-. exfalso.
  eapply (stored_free dig s (elements X) k); [by apply elem_of_elements|]. by exists k'.
Qed.
Print Assumptions C09_Del_keeps_partial.

(** At most one key is in the way of a key. *)
Theorem C09_way_unique : ∀ (K : Type) `{Countable K} (dig : N -> K -> nat -> N) s ks k k1 k2,
  in_way dig s ks k k1 -> in_way dig s ks k k2 -> k1 = k2.
Proof. intros K ?? dig s ks k k1 k2. apply way_unique. Qed.
Print Assumptions C09_way_unique.

(** ** The hypotheses can be met *)

(** Keys that share 32 digits: the Set of the second and third key store 0; a later
    Set of a stored key stores its value. *)
Example C07_exact_nonvacuous :
  separates (arr_digit toy id) toyP toyQ 240 /\ decides_eq (λ k k' : bytes, bool_decide (k = k')) toyP /\
  ∃ tr w, mrun (ArrMap_api toy 0%N 256 (λ k k' : bytes, bool_decide (k = k')) id) (mallowed toyP toyQ) 0%N tr w /\
   reverse tr = zip [MNew 7; MSet 2 [1]%N 10%N; MSet 2 [2]%N 20%N; MSet 2 [17]%N 30%N; MGet 2 [1]%N; MGet 2 [2]%N; MGet 2 [17]%N;
       MSet 2 [2]%N 21%N; MGet 2 [2]%N; MDel 2 [17]%N; MGet 2 [17]%N; MLen 2]
     [RHandle 2; RUnit; RUnit; RUnit; RGet 10%N true; RGet 0%N true; RGet 0%N true;
      RUnit; RGet 21%N true; RUnit; RGet 0%N false; RLen 2%N].
Proof.
  split; [apply toy_separates|]. split; [apply toy_decides|].
  eapply mexec_res; [apply mchk_ok|vm_compute; reflexivity].
Qed.

(** Del of a stored key removes nothing; Del of a key that is not stored removes the
    one that shares its digits. *)
Example C09_exact_nonvacuous : separates (digit toy) toyP toyQ 240 /\
  ∃ tr w, srun (BytesSet_api toy 256) (sallowed toyP toyQ) ([] : list bytes) tr w /\
   reverse tr = zip [SNew 7; SAdd 2 [1]%N; SDel 2 [1]%N; SHas 2 [1]%N; SDel 2 [2]%N; SHas 2 [1]%N; SLen 2;
       SAdd 2 [1]%N; SAdd 2 [17]%N; SDel 2 [33]%N; SDel 2 [2]%N; SLen 2]
     [THandle 2; TUnit; TUnit; THas true; TUnit; THas false; TLen 0%N; TUnit; TUnit; TUnit; TUnit; TLen 2%N].
Proof.
  split; [apply toy_separates|]. eapply sexec_res; [apply schk_ok|vm_compute; reflexivity].
Qed.
