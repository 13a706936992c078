(** Property C48: what the calls allocate.

    The memory of the model keeps all blocks (arrays of links, structs of entries,
    roots), so its size counts the allocations. Lookups, iteration, Len, Dep,
    loads and stores through pointers, updates of stored keys and the removal of a
    key that is not stored allocate nothing; Del allocates at most once; a new key
    costs its struct, and an array for each string of digits that it newly shares
    with a stored key, or one if it makes an array grow ([mbudget], AllocSpec.v).
    Not counted are slices for paths of more than 12 levels (Del) and what hash
    functions and callbacks allocate. *)
From stdpp Require Import base numbers list gmap.
From Verif Require Import GoInt Mem Hash Amt Families Spec Guards Client Types Levels Observe Pack Runs Sep DepthSpec Depth MemorySpec Memory MemoryRuns
  AllocSpec AllocRuns Props_Types Props_Depth.
Local Open Scope nat_scope.

Lemma linear_fill {K} `{EqDecision K} (dig : N -> K -> nat -> N) ks seeds :
  (∀ s k d, (dig s k d < 16)%N) -> NoDup ks -> spreads dig ks seeds ->
  10 * sum_list (map (λ s, 2 + 2 * length ks + branches dig s ks) seeds) <= (20 + 31 * length ks) * length seeds.
Proof.
  intros Hd Hnd Hs. pose proof (mean_linear dig ks seeds Hd Hnd Hs) as H.
  fold (sum (λ s, 2 + 2 * length ks + branches dig s ks) seeds). rewrite sum_add, sum_const.
  generalize dependent (sum (λ s, branches dig s ks) seeds). intros x H. lia.
Qed.

Section maps.
Context (V U K CK : Type) (EqK : EqDecision K) (CoK : Countable K) (zero : V) (u0 : U) (fuel : nat).
Context (api : mapapi K V CK U) (dig : N -> K -> nat -> N) (ok : list (mop K V U * mres V) -> mop K V U -> Prop).
Hypothesis Hfuel : 256 <= fuel.
Hypothesis Htype : map_type zero fuel api dig ok.

(** Every call. *)
Theorem C48_calls_map : ∀ tr w op res w', mrun api ok u0 tr w -> ok tr op -> mcall api op w = Ret res w' ->
  ∃ n, mbudget dig tr op n /\ size (w_mem w') <= n + size (w_mem w).
Proof. exact (map_allocs zero fuel u0 Hfuel api dig ok Htype). Qed.

(** Filling a container with n keys takes at most 2 + 2 n + b allocations. *)
Theorem C48_fill_map : ∀ tr w s h, mrun api ok u0 (tr ++ [(MNew s, RHandle h)]) w -> Forall (λ x, fills x.1) tr ->
  let ks := elements (stored tr h) in size (w_mem w) <= 2 + 2 * length ks + branches dig s ks.
Proof. exact (map_fill zero fuel u0 Hfuel api dig ok Htype). Qed.

(** On average over the seeds at most 2 + 3.1 n. *)
Theorem C48_linear_map : ∀ ks seeds, NoDup ks -> spreads dig ks seeds ->
  ∃ bound : N -> nat,
    (∀ tr w s h, mrun api ok u0 (tr ++ [(MNew s, RHandle h)]) w -> Forall (λ x, fills x.1) tr ->
      elements (stored tr h) ≡ₚ ks -> size (w_mem w) <= bound s) /\
    10 * sum_list (map bound seeds) <= (20 + 31 * length ks) * length seeds.
Proof.
  intros ks seeds Hnd Hs. exists (λ s, 2 + 2 * length ks + branches dig s ks). split.
  - intros tr w s h Hr Hf E. pose proof (C48_fill_map tr w s h Hr Hf) as Hb. cbv zeta in Hb.
    rewrite (branches_perm dig s _ _ E), E in Hb. exact Hb.
  - apply linear_fill; [exact (map_dig _ _ _ _ _ Htype)|exact Hnd|exact Hs].
Qed.
End maps.

Section sets.
Context (U K CK : Type) (EqK : EqDecision K) (CoK : Countable K) (u0 : U) (fuel : nat).
Context (api : setapi K unit CK U) (dig : N -> K -> nat -> N) (ok : list (sop K U * sres) -> sop K U -> Prop).
Hypothesis Hfuel : 256 <= fuel.
Hypothesis Htype : set_type fuel api dig ok.

Theorem C48_calls_set : ∀ tr w op res w', srun api ok u0 tr w -> ok tr op -> scall api op w = Ret res w' ->
  ∃ n, sbudget dig tr op n /\ size (w_mem w') <= n + size (w_mem w).
Proof. exact (set_allocs fuel u0 Hfuel api dig ok Htype). Qed.

Theorem C48_fill_set : ∀ tr w s h, srun api ok u0 (tr ++ [(SNew s, THandle h)]) w -> Forall (λ x, sfills x.1) tr ->
  let ks := elements (sstored tr h) in size (w_mem w) <= 2 + 2 * length ks + branches dig s ks.
Proof. exact (set_fill fuel u0 Hfuel api dig ok Htype). Qed.

Theorem C48_linear_set : ∀ ks seeds, NoDup ks -> spreads dig ks seeds ->
  ∃ bound : N -> nat,
    (∀ tr w s h, srun api ok u0 (tr ++ [(SNew s, THandle h)]) w -> Forall (λ x, sfills x.1) tr ->
      elements (sstored tr h) ≡ₚ ks -> size (w_mem w) <= bound s) /\
    10 * sum_list (map bound seeds) <= (20 + 31 * length ks) * length seeds.
Proof.
  intros ks seeds Hnd Hs. exists (λ s, 2 + 2 * length ks + branches dig s ks). split.
  - intros tr w s h Hr Hf E. pose proof (C48_fill_set tr w s h Hr Hf) as Hb. cbv zeta in Hb.
    rewrite (branches_perm dig s _ _ E), E in Hb. exact Hb.
  - apply linear_fill; [exact (set_dig _ _ _ _ Htype)|exact Hnd|exact Hs].
Qed.
End sets.

(** A new key costs at most one block more than the number of digits that it has
    in common with a stored key. *)
Theorem C48_new_key_depth : ∀ K (EqK : EqDecision K) (CoK : Countable K) (dig : N -> K -> nat -> N) (s : N) (ks : list K) (k : K),
  k ∉ ks -> new_key dig s ks k <= 1 + depth dig s ks k.
Proof. intros K EqK CoK. exact new_key_depth. Qed.

Print Assumptions C48_calls_map.
Print Assumptions C48_fill_map.
Print Assumptions C48_linear_map.
Print Assumptions C48_calls_set.
Print Assumptions C48_fill_set.
Print Assumptions C48_linear_set.
Print Assumptions C48_new_key_depth.

(** ** The hypotheses can be met *)

(** With seed 0 the second of the keys in the way of another makes an array. *)
Example C48_nonvacuous :
  let ok := λ tr op, mallowed (λ _, true = true) (λ _, true = true) tr op /\ ins_guard (digit spread3) any_way any_way tr op in
  map_type 0%N 256 (StringMap_api spread3 0%N 256) (digit spread3) ok /\
  ∃ tr w, mrun (StringMap_api spread3 0%N 256) ok 0%N (tr ++ [(MNew 0, RHandle 2)]) w /\ Forall (λ x, fills x.1) tr /\
    elements (stored tr 2) ≡ₚ keys3.
Proof.
  intros ok. assert (Hk : NoDup keys3) by (apply (bool_decide_unpack (NoDup keys3)); vm_compute; exact I).
  split; [apply type_StringMap|].
  destruct (mexec_res (StringMap_api spread3 0%N 256) (gchk (digit spread3) (λ _, true) anyb anyb) ok 0%N
    [MNew 0; MSet 2 [1]%N 10%N; MSet 2 [2]%N 20%N; MSet 2 [1]%N 11%N; MGet 2 [2]%N; MSet 2 [3]%N 30%N]
    [RHandle 2; RUnit; RUnit; RUnit; RGet 20%N true; RUnit]) as (tr & w & Hr & Htr).
  { intros tr op. apply gchk_ok; apply anyb_ok. }
  { vm_compute. reflexivity. }
  apply (f_equal reverse) in Htr. rewrite reverse_involutive in Htr. vm_compute in Htr.
  exists [(MSet 2 [3]%N 30%N, RUnit); (MGet 2 [2]%N, RGet 20%N true); (MSet 2 [1]%N 11%N, RUnit); (MSet 2 [2]%N 20%N, RUnit); (MSet 2 [1]%N 10%N, RUnit)], w.
  rewrite Htr in Hr. split; [exact Hr|]. split; [repeat constructor|].
  apply NoDup_Permutation; [apply NoDup_elements|exact Hk|]. intros k. rewrite elem_of_elements. simpl.
  rewrite !elem_of_union, !elem_of_singleton, elem_of_empty. unfold keys3. rewrite !elem_of_cons, elem_of_nil. tauto.
Qed.

(** The bounds are reached: a key that is alone costs its struct, one that shares
    j digits with another 1 + j blocks, an update nothing. *)
Example C48_reached :
  let sum64 := λ (s : N) (b : bytes), match b with [n] => n | _ => 0%N end in
  let api := StringMap_api (U:=N) sum64 0%N 256 in
  let sizes := λ ops, match mexec api (λ _ _, true) [] (empty_world 0%N) ops with Some (_, w) => Some (size (w_mem w)) | None => None end in
  new_key (digit sum64) 0 [] [1]%N = 1 /\ new_key (digit sum64) 0 [[1]%N] [17]%N = 2 /\
  new_key (digit sum64) 0 [[1]%N; [17]%N] [34]%N = 1 /\
  sizes [MNew 0] = Some 2 /\
  sizes [MNew 0; MSet 2 [1]%N 10%N] = Some 3 /\
  sizes [MNew 0; MSet 2 [1]%N 10%N; MSet 2 [17]%N 20%N] = Some 5 /\
  sizes [MNew 0; MSet 2 [1]%N 10%N; MSet 2 [17]%N 20%N; MSet 2 [17]%N 20%N; MGet 2 [1]%N; MDel 2 [3]%N] = Some 5 /\
  sizes [MNew 0; MSet 2 [1]%N 10%N; MSet 2 [17]%N 20%N; MSet 2 [34]%N 20%N] = Some 6.
Proof. vm_compute. split_and!; reflexivity. Qed.
