(** Property C42: the depth of a map or set is on the order of log16(N).

    With n keys, 16^t <= n gives a mean depth of at least t - 1 - 1/15, in every
    container and for every hash. n <= 16^t gives a mean depth of at most t + 1/15 on
    average over the seeds, if the hash spreads the keys ([spreads], DepthSpec.v).
    Dep returns float64(total) / float64(n) (C14); the bounds are on the total. *)
From stdpp Require Import base numbers list gmap.
From Verif Require Import GoInt Mem Hash Amt Families Spec Guards Client Types Observe ObserveFacts ObserveMap ObserveSet Pack Runs Sep
  DepthSpec Depth Props_Types.
Local Open Scope nat_scope.

Lemma map_dig {V U K CK} `{Countable K} (zero : V) fuel (api : mapapi K V CK U) dig ok :
  map_type zero fuel api dig ok -> ∀ s k d, (dig s k d < 16)%N.
Proof. intros [] s k d; apply N.mod_lt; done. Qed.
Lemma set_dig {U K CK} `{Countable K} fuel (api : setapi K unit CK U) dig ok :
  set_type fuel api dig ok -> ∀ s k d, (dig s k d < 16)%N.
Proof. intros [] s k d; apply N.mod_lt; done. Qed.

Lemma least_log {K} `{EqDecision K} (dig : N -> K -> nat -> N) s ks t :
  (∀ k d, (dig s k d < 16)%N) -> NoDup ks -> t <= 241 -> 16 ^ t <= length ks ->
  15 * t * length ks <= 15 * total_depth dig s ks + 16 * length ks.
Proof. intros Hd Hk Ht Hn. pose proof (least_depth dig s ks t Hd Hk Ht). lia. Qed.
Lemma mean_log {K} `{EqDecision K} (dig : N -> K -> nat -> N) ks seeds t :
  spreads dig ks seeds -> length ks <= 16 ^ t ->
  15 * sum_list (map (λ s, total_depth dig s ks) seeds) <= (15 * t + 1) * length ks * length seeds.
Proof.
  intros Hs Hn. pose proof (mean_depth dig ks seeds t Hs) as H. unfold sum in H.
  assert (0 < 16 ^ t) by (apply Nat.neq_0_lt_0, Nat.pow_nonzero; done).
  generalize dependent (sum_list (map (λ s, total_depth dig s ks) seeds)). intros S H.
  generalize dependent (16 ^ t). intros p Hn Hp H.
  apply (Nat.mul_le_mono_pos_l _ _ p Hp).
  pose proof (Nat.mul_le_mono_r _ _ (length ks * length seeds) Hn). lia.
Qed.

Section maps.
Context (V U K CK : Type) (EqK : EqDecision K) (CoK : Countable K) (zero : V) (u0 : U) (fuel : nat).
Context (api : mapapi K V CK U) (dig : N -> K -> nat -> N) (ok : list (mop K V U * mres V) -> mop K V U -> Prop).
Hypothesis Hfuel : 256 <= fuel.
Hypothesis Htype : map_type zero fuel api dig ok.
Implicit Types (tr : list (mop K V U * mres V)) (w : world V CK U) (h : positive) (m : gmap K V).
Local Notation contents := (contents api zero ok).
Local Notation mrun := (mrun api ok u0).

Theorem C42_least_depth_map : ∀ tr w h s m, mrun tr w -> (MNew s, RHandle h) ∈ tr -> ok tr (MDep h) ->
  contents tr w h m ->
  let n := size m in
  ∃ total, mcall api (MDep h) w = Ret (RDep (mean (N.of_nat total) (N.of_nat n))) w /\
    total = total_depth dig s (map_to_list m).*1 /\
    (∀ t, t <= 241 -> 15 * t * n <= 15 * (total + n) + 16 ^ t) /\
    (∀ t, t <= 241 -> 16 ^ t <= n -> 15 * t * n <= 15 * total + 16 * n).
Proof.
  intros tr w h s m Hr Hn Ho Hm n. eexists. split; [exact (obs_dep zero fuel u0 Hfuel api dig ok Htype tr w h s m Hr Hn Ho Hm)|].
  split; [done|]. pose proof (map_dig _ _ _ _ _ Htype s) as Hd.
  assert (HN : NoDup (map_to_list m).*1) by apply NoDup_fst_map_to_list.
  assert (En : n = length (map_to_list m).*1) by (by rewrite fmap_length). rewrite En.
  split; intros t Ht; [by apply least_depth|]. intros. by apply least_log.
Qed.

Theorem C42_mean_depth_map : ∀ ks seeds, spreads dig ks seeds ->
  let total := λ s, total_depth dig s ks in
  let n := length ks in
  (∀ tr w h s m, mrun tr w -> (MNew s, RHandle h) ∈ tr -> ok tr (MDep h) -> contents tr w h m ->
     ks ≡ₚ (map_to_list m).*1 ->
     mcall api (MDep h) w = Ret (RDep (mean (N.of_nat (total s)) (N.of_nat n))) w) /\
  (∀ t, 15 * 16 ^ t * sum_list (map total seeds) <= (15 * 16 ^ t * t + n) * n * length seeds) /\
  (∀ t, n <= 16 ^ t -> 15 * sum_list (map total seeds) <= (15 * t + 1) * n * length seeds).
Proof.
  intros ks seeds Hs total n. split; [|split].
  - intros tr w h s m Hr Hn Ho Hm Hk. exact (obs_dep_keys zero fuel u0 Hfuel api dig ok Htype tr w h s m ks Hr Hn Ho Hm Hk).
  - intros t. exact (mean_depth dig ks seeds t Hs).
  - intros t. exact (mean_log dig ks seeds t Hs).
Qed.
End maps.

Section sets.
Context (U K CK : Type) (EqK : EqDecision K) (CoK : Countable K) (u0 : U) (fuel : nat).
Context (api : setapi K unit CK U) (dig : N -> K -> nat -> N) (ok : list (sop K U * sres) -> sop K U -> Prop).
Hypothesis Hfuel : 256 <= fuel.
Hypothesis Htype : set_type fuel api dig ok.
Implicit Types (tr : list (sop K U * sres)) (w : world unit CK U) (h : positive) (X : gset K).
Local Notation members := (members api ok).
Local Notation srun := (srun api ok u0).

Theorem C42_least_depth_set : ∀ tr w h s X, srun tr w -> (SNew s, THandle h) ∈ tr -> ok tr (SDep h) ->
  members tr w h X ->
  let n := size X in
  ∃ total, scall api (SDep h) w = Ret (TDep (mean (N.of_nat total) (N.of_nat n))) w /\
    total = total_depth dig s (elements X) /\
    (∀ t, t <= 241 -> 15 * t * n <= 15 * (total + n) + 16 ^ t) /\
    (∀ t, t <= 241 -> 16 ^ t <= n -> 15 * t * n <= 15 * total + 16 * n).
Proof.
  intros tr w h s X Hr Hn Ho Hm n. eexists. split; [exact (sobs_dep fuel u0 Hfuel api dig ok Htype tr w h s X Hr Hn Ho Hm)|].
  split; [done|]. pose proof (set_dig _ _ _ _ Htype s) as Hd.
  assert (HN : NoDup (elements X)) by apply NoDup_elements.
  change n with (length (elements X)).
  split; intros t Ht; [by apply least_depth|]. intros. by apply least_log.
Qed.

Theorem C42_mean_depth_set : ∀ X seeds, spreads dig (elements X) seeds ->
  let total := λ s, total_depth dig s (elements X) in
  let n := size X in
  (∀ tr w h s, srun tr w -> (SNew s, THandle h) ∈ tr -> ok tr (SDep h) -> members tr w h X ->
     scall api (SDep h) w = Ret (TDep (mean (N.of_nat (total s)) (N.of_nat n))) w) /\
  (∀ t, 15 * 16 ^ t * sum_list (map total seeds) <= (15 * 16 ^ t * t + n) * n * length seeds) /\
  (∀ t, n <= 16 ^ t -> 15 * sum_list (map total seeds) <= (15 * t + 1) * n * length seeds).
Proof.
  intros X seeds Hs total n. split; [|split].
  - intros tr w h s Hr Hn Ho Hm. exact (sobs_dep fuel u0 Hfuel api dig ok Htype tr w h s X Hr Hn Ho Hm).
  - intros t. exact (mean_depth dig (elements X) seeds t Hs).
  - intros t. exact (mean_log dig (elements X) seeds t Hs).
Qed.
End sets.

(** Great depths are rare: some key has a depth of j or more for at most n^2 in 16^j
    of the seeds. For j = 241 these are the seeds for which two keys agree in all
    the digits 0..240, which C19 excludes. *)
Theorem C42_great_depth : ∀ K (EqK : EqDecision K) (dig : N -> K -> nat -> N) (ks : list K) (seeds : list N) j,
  spreads dig ks seeds -> j <= 241 ->
  16 ^ j * count (λ s, existsb (λ k, j <=? depth dig s ks k) ks) seeds <= length ks * length ks * length seeds.
Proof. intros K EqK. exact great_depth. Qed.

Theorem C42_unseparated : ∀ K (EqK : EqDecision K) (dig : N -> K -> nat -> N) (ks : list K) (s : N),
  existsb (λ k, 241 <=? depth dig s ks k) ks = false <->
  ∀ k k', k ∈ ks -> k' ∈ ks -> k ≠ k' -> separated 240 (dig s k) (dig s k').
Proof. intros K EqK. exact unseparated. Qed.

Print Assumptions C42_least_depth_map.
Print Assumptions C42_mean_depth_map.
Print Assumptions C42_least_depth_set.
Print Assumptions C42_mean_depth_set.
Print Assumptions C42_great_depth.
Print Assumptions C42_unseparated.

(** ** The hypotheses can be met *)

(** Three keys and sixteen seeds. *)
Definition spread3 (s : N) (b : bytes) : N :=
  match b with
  | [1%N] => 16
  | [2%N] => 32 + s
  | [3%N] => 48 + (s + 1) mod 16
  | _ => 0
  end%N.
Definition seeds16 : list N := N.of_nat <$> seq 0 16.
Definition keys3 : list bytes := [[1]; [2]; [3]]%N.

Lemma spread3_spreads : spreads (digit spread3) keys3 seeds16.
Proof.
  intros k k' j Hk Hk' Hne Hj.
  destruct j as [|[|j]].
  - pose proof (count_le (λ s, alike (digit spread3) s 0 k k') seeds16). simpl Nat.pow. lia.
  - assert (Hall : forallb (λ k, forallb (λ k', bool_decide (k = k') ||
      (count (λ s, alike (digit spread3) s 1 k k') seeds16 <=? 1)) keys3) keys3 = true) by (vm_compute; reflexivity).
    rewrite forallb_forall in Hall. specialize (Hall k ltac:(by apply elem_of_list_In)).
    rewrite forallb_forall in Hall. specialize (Hall k' ltac:(by apply elem_of_list_In)).
    rewrite bool_decide_eq_false_2 in Hall by done. apply Nat.leb_le in Hall.
    change (length seeds16) with 16. change (16 ^ 1) with 16. lia.
  - assert (Hall : forallb (λ s, forallb (λ k, forallb (λ k', bool_decide (k = k') ||
      negb (alike (digit spread3) s 2 k k')) keys3) keys3) seeds16 = true) by (vm_compute; reflexivity).
    rewrite forallb_forall in Hall.
    rewrite count_sum, (sum_ext _ (λ _, 0)), sum_const; [generalize (16 ^ S (S j)); intros; lia|].
    intros s Hs. specialize (Hall s ltac:(by apply elem_of_list_In)).
    rewrite forallb_forall in Hall. specialize (Hall k ltac:(by apply elem_of_list_In)).
    rewrite forallb_forall in Hall. specialize (Hall k' ltac:(by apply elem_of_list_In)).
    rewrite bool_decide_eq_false_2 in Hall by done. apply negb_true_iff in Hall.
    destruct (alike (digit spread3) s (S (S j)) k k') eqn:E; [|done]. exfalso.
    rewrite alike_iff in E. enough (alike (digit spread3) s 2 k k' = true) by congruence.
    apply alike_iff. intros i Hi. apply E. lia.
Qed.

(** In a map with seed 0 the keys 1 and 2 have depth 1, and the key 3 has depth 0. *)
Example C42_nonvacuous :
  spreads (digit spread3) keys3 seeds16 /\
  (λ s, total_depth (digit spread3) s keys3) <$> [0; 1; 15]%N = [2; 0; 2] /\
  let ok := λ tr op, mallowed (λ _, true = true) (λ _, true = true) tr op /\ ins_guard (digit spread3) any_way any_way tr op in
  ∃ tr w m, mrun (StringMap_api spread3 0%N 256) ok 0%N tr w /\ (MNew 0, RHandle 2) ∈ tr /\ ok tr (MDep 2) /\
    contents (StringMap_api spread3 0%N 256) 0%N ok tr w 2 m /\ keys3 ≡ₚ (map_to_list m).*1.
Proof.
  split; [exact spread3_spreads|]. split; [vm_compute; reflexivity|]. intros ok.
  assert (Ht : map_type 0%N 256 (StringMap_api spread3 0%N 256) (digit spread3) ok) by apply type_StringMap.
  destruct (mexec_res (StringMap_api spread3 0%N 256) (gchk (digit spread3) (λ _, true) anyb anyb) ok 0%N
    [MNew 0; MSet 2 [1]%N 10%N; MSet 2 [2]%N 20%N; MSet 2 [3]%N 30%N]
    [RHandle 2; RUnit; RUnit; RUnit]) as (tr & w & Hr & Htr).
  { intros tr op. apply gchk_ok; apply anyb_ok. }
  { vm_compute. reflexivity. }
  apply (f_equal reverse) in Htr. rewrite reverse_involutive in Htr. vm_compute in Htr.
  destruct (obs_contents 0%N 256 0%N (le_n _) _ _ _ Ht tr w 2 Hr) as [m Hm].
  assert (Hn : (MNew 0, RHandle 2) ∈ tr) by (rewrite Htr; apply elem_of_list_In; simpl; tauto).
  exists tr, w, m. split; [exact Hr|]. split; [exact Hn|]. split; [split; [by exists 0%N|done]|]. split; [exact Hm|].
  apply NoDup_Permutation; [apply (bool_decide_unpack (NoDup keys3)); vm_compute; exact I|apply NoDup_fst_map_to_list|].
  intros k. pose proof (obs_stored 0%N 256 0%N (le_n _) _ _ _ Ht tr w 2 k m Hr Hm) as Hs.
  assert (Hk : k ∈ (map_to_list m).*1 <-> is_Some (m !! k)).
  { split.
    - intros ([k' v] & -> & Hin)%elem_of_list_fmap. apply elem_of_map_to_list in Hin. by exists v.
    - intros [v Hv]. apply elem_of_list_fmap. exists (k, v). split; [done|]. by apply elem_of_map_to_list. }
  rewrite Hk, Hs, Htr. simpl. rewrite !elem_of_union, !elem_of_singleton, elem_of_empty.
  unfold keys3. rewrite !elem_of_cons, elem_of_nil. tauto.
Qed.
