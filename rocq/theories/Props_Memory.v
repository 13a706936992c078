(** Property C45: the memory of a container is linear in the number of its keys.

    The arrays of links of a container ([array], MemorySpec.v, read off the heap)
    are that of the root and one for each non-empty string of digits that more
    than one of the stored keys start with ([branches], MemorySpec.v). Their slots
    are at most 16 + n + 4 b, for n keys and b such strings. b is at most half
    the total depth of the keys (which Dep reports divided by n, C14), and at most
    1.1 n on average over the seeds if the hash spreads the keys ([spreads],
    DepthSpec.v). Not counted are the root and the structs of the entries. *)
From stdpp Require Import base numbers list gmap.
From Verif Require Import GoInt Mem Hash Amt Families Spec Guards Client Types Levels Observe Pack Runs Sep DepthSpec Depth MemorySpec Memory MemoryRuns
  Props_Types Props_Depth.
Local Open Scope nat_scope.

Lemma linear_slots {K} `{EqDecision K} (dig : N -> K -> nat -> N) ks seeds :
  (∀ s k d, (dig s k d < 16)%N) -> NoDup ks -> spreads dig ks seeds ->
  10 * sum_list (map (λ s, 16 + length ks + 4 * branches dig s ks) seeds) <= (160 + 54 * length ks) * length seeds.
Proof.
  intros Hd Hnd Hs. pose proof (mean_linear dig ks seeds Hd Hnd Hs) as H.
  fold (sum (λ s, 16 + length ks + 4 * branches dig s ks) seeds). rewrite sum_add, sum_const, sum_mul.
  generalize dependent (sum (λ s, branches dig s ks) seeds). intros x H. lia.
Qed.

Section maps.
Context (V U K CK : Type) (EqK : EqDecision K) (CoK : Countable K) (zero : V) (u0 : U) (fuel : nat).
Context (api : mapapi K V CK U) (dig : N -> K -> nat -> N) (ok : list (mop K V U * mres V) -> mop K V U -> Prop).
Hypothesis Hfuel : 256 <= fuel.
Hypothesis Htype : map_type zero fuel api dig ok.

(** arrs has the addresses of the arrays, with the number of their slots. *)
Theorem C45_arrays_map : ∀ tr w s h, mrun api ok u0 tr w -> (MNew s, RHandle h) ∈ tr ->
  let ks := elements (stored tr h) in
  ∃ arrs : gmap loc nat, (∀ a n, arrs !! a = Some n <-> array (w_mem w) h a n) /\
    size arrs = 1 + branches dig s ks /\ sum_list (map_to_list arrs).*2 <= 16 + length ks + 4 * branches dig s ks.
Proof. exact (map_arrays zero fuel u0 Hfuel api dig ok Htype). Qed.

(** On average over the seeds at most 16 + 5.4 n slots. *)
Theorem C45_linear_map : ∀ ks seeds, NoDup ks -> spreads dig ks seeds ->
  ∃ bound : N -> nat,
    (∀ tr w s h, mrun api ok u0 tr w -> (MNew s, RHandle h) ∈ tr -> elements (stored tr h) ≡ₚ ks ->
      ∃ arrs : gmap loc nat, (∀ a n, arrs !! a = Some n <-> array (w_mem w) h a n) /\
        sum_list (map_to_list arrs).*2 <= bound s) /\
    10 * sum_list (map bound seeds) <= (160 + 54 * length ks) * length seeds.
Proof.
  intros ks seeds Hnd Hs. exists (λ s, 16 + length ks + 4 * branches dig s ks). split.
  - intros tr w s h Hr Hin E. destruct (C45_arrays_map tr w s h Hr Hin) as (arrs & H1 & _ & H2). exists arrs. split; [done|].
    rewrite (branches_perm dig s _ _ E), E in H2. done.
  - apply linear_slots; [exact (map_dig _ _ _ _ _ Htype)|done|done].
Qed.
End maps.

Section sets.
Context (U K CK : Type) (EqK : EqDecision K) (CoK : Countable K) (u0 : U) (fuel : nat).
Context (api : setapi K unit CK U) (dig : N -> K -> nat -> N) (ok : list (sop K U * sres) -> sop K U -> Prop).
Hypothesis Hfuel : 256 <= fuel.
Hypothesis Htype : set_type fuel api dig ok.

Theorem C45_arrays_set : ∀ tr w s h, srun api ok u0 tr w -> (SNew s, THandle h) ∈ tr ->
  let ks := elements (sstored tr h) in
  ∃ arrs : gmap loc nat, (∀ a n, arrs !! a = Some n <-> array (w_mem w) h a n) /\
    size arrs = 1 + branches dig s ks /\ sum_list (map_to_list arrs).*2 <= 16 + length ks + 4 * branches dig s ks.
Proof. exact (set_arrays fuel u0 Hfuel api dig ok Htype). Qed.

Theorem C45_linear_set : ∀ ks seeds, NoDup ks -> spreads dig ks seeds ->
  ∃ bound : N -> nat,
    (∀ tr w s h, srun api ok u0 tr w -> (SNew s, THandle h) ∈ tr -> elements (sstored tr h) ≡ₚ ks ->
      ∃ arrs : gmap loc nat, (∀ a n, arrs !! a = Some n <-> array (w_mem w) h a n) /\
        sum_list (map_to_list arrs).*2 <= bound s) /\
    10 * sum_list (map bound seeds) <= (160 + 54 * length ks) * length seeds.
Proof.
  intros ks seeds Hnd Hs. exists (λ s, 16 + length ks + 4 * branches dig s ks). split.
  - intros tr w s h Hr Hin E. destruct (C45_arrays_set tr w s h Hr Hin) as (arrs & H1 & _ & H2). exists arrs. split; [done|].
    rewrite (branches_perm dig s _ _ E), E in H2. done.
  - apply linear_slots; [exact (set_dig _ _ _ _ Htype)|done|done].
Qed.
End sets.

(** Without assumptions on the hash: two keys at least belong to each string. *)
Theorem C45_branches_depth : ∀ K (EqK : EqDecision K) (dig : N -> K -> nat -> N) (s : N) (ks : list K),
  NoDup ks -> 2 * branches dig s ks <= total_depth dig s ks.
Proof. intros K EqK. exact branches_depth. Qed.

Theorem C45_mean_branches : ∀ K (EqK : EqDecision K) (dig : N -> K -> nat -> N) (ks : list K) (seeds : list N),
  (∀ s k d, (dig s k d < 16)%N) -> NoDup ks -> spreads dig ks seeds ->
  10 * sum_list (map (λ s, branches dig s ks) seeds) <= 11 * length ks * length seeds.
Proof. intros K EqK. exact mean_linear. Qed.

Print Assumptions C45_arrays_map.
Print Assumptions C45_linear_map.
Print Assumptions C45_arrays_set.
Print Assumptions C45_linear_set.
Print Assumptions C45_branches_depth.
Print Assumptions C45_mean_branches.

(** ** The hypotheses can be met *)

(** With seed 0 two of the three keys start with the same digit, with seed 1 all
    digits are different. *)
Example C45_nonvacuous :
  NoDup keys3 /\ spreads (digit spread3) keys3 seeds16 /\
  (λ s, shared (digit spread3) s keys3 1) <$> [0; 1; 15]%N = [[[0]]; []; [[0]]]%N /\
  let ok := λ tr op, mallowed (λ _, true = true) (λ _, true = true) tr op /\ ins_guard (digit spread3) any_way any_way tr op in
  map_type 0%N 256 (StringMap_api spread3 0%N 256) (digit spread3) ok /\
  ∃ tr w, mrun (StringMap_api spread3 0%N 256) ok 0%N tr w /\ (MNew 0, RHandle 2) ∈ tr /\ elements (stored tr 2) ≡ₚ keys3.
Proof.
  assert (Hk : NoDup keys3) by (apply (bool_decide_unpack (NoDup keys3)); vm_compute; exact I).
  split; [exact Hk|]. split; [exact spread3_spreads|]. split; [vm_compute; reflexivity|]. intros ok.
  split; [apply type_StringMap|].
  destruct (mexec_res (StringMap_api spread3 0%N 256) (gchk (digit spread3) (λ _, true) anyb anyb) ok 0%N
    [MNew 0; MSet 2 [1]%N 10%N; MSet 2 [2]%N 20%N; MSet 2 [3]%N 30%N]
    [RHandle 2; RUnit; RUnit; RUnit]) as (tr & w & Hr & Htr).
  { intros tr op. apply gchk_ok; apply anyb_ok. }
  { vm_compute. reflexivity. }
  apply (f_equal reverse) in Htr. rewrite reverse_involutive in Htr. vm_compute in Htr.
  exists tr, w. split; [exact Hr|]. split; [rewrite Htr; apply elem_of_list_In; simpl; tauto|].
  apply NoDup_Permutation; [apply NoDup_elements|exact Hk|]. intros k. rewrite elem_of_elements, Htr. simpl.
  rewrite !elem_of_union, !elem_of_singleton, elem_of_empty. unfold keys3. rewrite !elem_of_cons, elem_of_nil. tauto.
Qed.
