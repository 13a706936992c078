(** Property C51: what a call costs does not depend on how many entries are stored.

    The methods are written as programs that access memory block by block (PAmt.v); run
    alone, such a program does what the method of Amt.v does. A lookup accesses
    memory once per level that it goes down, and at most five times more; an update
    or removal a bounded number of times per level; an iteration a bounded number of
    times per entry and per level that entries share ([mtime], [stime], TimeSpec.v).
    So all calls but All end after a number of accesses that has a bound which is the
    same for all contents, and looking up a stored key takes on average over the keys
    and the seeds at most log16 n + 5 1/15 accesses, rounded up, when the hash
    spreads the keys. Hashing, comparing keys and the accesses that
    callbacks make beyond their value are not counted. *)
From stdpp Require Import base numbers list gmap.
From Verif Require Prog.
From Verif Require Import GoInt Mem Hash Amt Families Spec Guards Client Types Levels Observe ObserveFacts ObserveSet Pack Runs Sep DepthSpec Depth MemorySpec
  PClient ConcClient ConcMapAll TimeSpec TimeTypes TimeRuns Props_Types Props_Depth.
Local Open Scope nat_scope.

Section facts.
Context {K : Type} `{Countable K} (dig : N -> K -> nat -> N).
Lemma depth_bound s ks k : depth dig s ks k <= 241.
Proof. apply depth_max. Qed.
Lemma mean_lookup c ks seeds t : spreads dig ks seeds -> length ks <= 16 ^ t ->
  15 * sum_list (map (λ s, sum_list (map (λ k, depth dig s ks k + c) ks)) seeds) <= (15 * (t + c) + 1) * length ks * length seeds.
Proof.
  intros Hs Ht. pose proof (mean_log dig ks seeds t Hs Ht) as Hm.
  assert (E : ∀ s l, sum_list (map (λ k, depth dig s ks k + c) l) = sum_list (map (depth dig s ks) l) + c * length l).
  { intros s l. induction l as [|x l IH]; simpl; lia. }
  assert (E2 : sum_list (map (λ s, sum_list (map (λ k, depth dig s ks k + c) ks)) seeds) =
    sum (λ s, total_depth dig s ks) seeds + c * length ks * length seeds).
  { unfold sum, total_depth. clear Hm Hs. induction seeds as [|s seeds IH]; simpl; [lia|]. rewrite IH, E. nia. }
  rewrite E2. fold (sum (λ s, total_depth dig s ks) seeds) in Hm. clear E E2. generalize dependent (sum (λ s, total_depth dig s ks) seeds). intros x Hm. nia.
Qed.
End facts.

Section maps.
Context (V U K CK : Type) (EqK : EqDecision K) (CoK : Countable K) (zero : V) (u0 : U) (fuel : nat).
Context (papi : pmapapi K V CK U) (api : mapapi K V CK U) (dig : N -> K -> nat -> N).
Context (ok : list (mop K V U * mres V) -> mop K V U -> Prop).
Hypothesis Hfuel : 256 <= fuel.
Hypothesis Htype : map_both zero fuel papi api dig ok.

(** Every call. *)
Theorem C51_calls_map : ∀ tr w op, mrun api ok u0 tr w -> ok tr op ->
  ∃ n res w', mtime dig tr op n /\ mcall api op w = Ret res w' /\
    Prog.run (pmcall papi (Op op)) w = Ret res w' /\ cost (pmcall papi (Op op)) w <= n.
Proof.
  intros tr w op Hr Ho. destruct (map_time zero fuel u0 Hfuel papi api dig ok Htype tr w op Hr Ho) as (n & Hn & Hc).
  destruct (map_type_spec zero fuel u0 Hfuel api dig ok (map_both_type _ _ _ _ _ _ Htype) tr w Hr) as [_ Hcall].
  destruct (Hcall op Ho) as (res & w' & E). exists n, res, w'. split; [exact Hn|]. split; [exact E|]. split; [|exact Hc].
  rewrite (sim_mcall papi api (Op op) (pmap_type_sim _ _ _ _ (map_both_prog _ _ _ _ _ _ Htype)) w). exact E.
Qed.

(** A bound for all calls but All, whatever is stored. *)
Theorem C51_bounded_map : ∀ tr w op, mrun api ok u0 tr w -> ok tr op ->
  match op with
  | MAll _ _ => True
  | MSet _ _ _ | MMod _ _ _ => cost (pmcall papi (Op op)) w <= 1887
  | MDel _ _ => cost (pmcall papi (Op op)) w <= 4829
  | _ => cost (pmcall papi (Op op)) w <= 246
  end.
Proof.
  intros tr w op Hr Ho. destruct (map_time zero fuel u0 Hfuel papi api dig ok Htype tr w op Hr Ho) as (n & Hn & Hc).
  destruct op; simpl in Hn; try exact I; try (subst n; lia);
    destruct Hn as (s & _ & ->); pose proof (depth_bound dig s (elements (stored tr h)) k); lia.
Qed.

(** Looking up stored keys. *)
Theorem C51_mean_map : ∀ ks seeds, spreads dig ks seeds ->
  ∃ bound : N -> K -> nat,
    (∀ tr w s h k, mrun api ok u0 tr w -> (MNew s, RHandle h) ∈ tr -> elements (stored tr h) ≡ₚ ks -> ok tr (MGet h k) ->
       cost (pmcall papi (Op (MGet h k))) w <= bound s k) /\
    ∀ t, length ks <= 16 ^ t ->
      15 * sum_list (map (λ s, sum_list (map (bound s) ks)) seeds) <= (15 * (t + 5) + 1) * length ks * length seeds.
Proof.
  intros ks seeds Hs. exists (λ s k, depth dig s ks k + 5). split.
  - intros tr w s h k Hr Hn E Ho.
    destruct (map_time zero fuel u0 Hfuel papi api dig ok Htype tr w _ Hr Ho) as (n & (s' & Hn' & ->) & Hc).
    destruct (map_type_spec zero fuel u0 Hfuel api dig ok (map_both_type _ _ _ _ _ _ Htype) tr w Hr) as [[σ Hσ] _].
    destruct (mspec_new dig zero u0 tr σ Hσ _ _ Hn) as [m Hm]. destruct (mspec_new dig zero u0 tr σ Hσ _ _ Hn') as [m' Hm'].
    rewrite Hm in Hm'. injection Hm' as <- _. rewrite (depth_perm dig s _ _ k E) in Hc. exact Hc.
  - intros t. exact (mean_lookup dig 5 ks seeds t Hs).
Qed.
End maps.

Section sets.
Context (U K CK : Type) (EqK : EqDecision K) (CoK : Countable K) (u0 : U) (fuel : nat).
Context (papi : psetapi K unit CK U) (api : setapi K unit CK U) (dig : N -> K -> nat -> N).
Context (ok : list (sop K U * sres) -> sop K U -> Prop).
Hypothesis Hfuel : 256 <= fuel.
Hypothesis Htype : set_both fuel papi api dig ok.

Theorem C51_calls_set : ∀ tr w op, srun api ok u0 tr w -> ok tr op ->
  ∃ n res w', stime dig tr op n /\ scall api op w = Ret res w' /\
    Prog.run (pscall papi op) w = Ret res w' /\ cost (pscall papi op) w <= n.
Proof.
  intros tr w op Hr Ho. destruct (set_time fuel u0 Hfuel papi api dig ok Htype tr w op Hr Ho) as (n & Hn & Hc).
  destruct (set_type_spec fuel u0 Hfuel api dig ok (set_both_type _ _ _ _ _ Htype) tr w Hr) as [_ Hcall].
  destruct (Hcall op Ho) as (res & w' & E). exists n, res, w'. split; [exact Hn|]. split; [exact E|]. split; [|exact Hc].
  rewrite (sim_scall papi api op (pset_type_sim _ _ _ (set_both_prog _ _ _ _ _ Htype)) w). exact E.
Qed.

Theorem C51_bounded_set : ∀ tr w op, srun api ok u0 tr w -> ok tr op ->
  match op with
  | SAll _ _ => True
  | SAdd _ _ => cost (pscall papi op) w <= 1887
  | SDel _ _ => cost (pscall papi op) w <= 4829
  | _ => cost (pscall papi op) w <= 245
  end.
Proof.
  intros tr w op Hr Ho. destruct (set_time fuel u0 Hfuel papi api dig ok Htype tr w op Hr Ho) as (n & Hn & Hc).
  destruct op; simpl in Hn; try exact I; try (subst n; lia);
    destruct Hn as (s & _ & ->); pose proof (depth_bound dig s (elements (sstored tr h)) k); lia.
Qed.

Theorem C51_mean_set : ∀ ks seeds, spreads dig ks seeds ->
  ∃ bound : N -> K -> nat,
    (∀ tr w s h k, srun api ok u0 tr w -> (SNew s, THandle h) ∈ tr -> elements (sstored tr h) ≡ₚ ks -> ok tr (SHas h k) ->
       cost (pscall papi (SHas h k)) w <= bound s k) /\
    ∀ t, length ks <= 16 ^ t ->
      15 * sum_list (map (λ s, sum_list (map (bound s) ks)) seeds) <= (15 * (t + 4) + 1) * length ks * length seeds.
Proof.
  intros ks seeds Hs. exists (λ s k, depth dig s ks k + 4). split.
  - intros tr w s h k Hr Hn E Ho.
    destruct (set_time fuel u0 Hfuel papi api dig ok Htype tr w _ Hr Ho) as (n & (s' & Hn' & ->) & Hc).
    destruct (set_type_spec fuel u0 Hfuel api dig ok (set_both_type _ _ _ _ _ Htype) tr w Hr) as [[σ Hσ] _].
    destruct (sspec_new dig u0 tr σ Hσ _ _ Hn) as [m Hm]. destruct (sspec_new dig u0 tr σ Hσ _ _ Hn') as [m' Hm'].
    rewrite Hm in Hm'. injection Hm' as <- _. rewrite (depth_perm dig s _ _ k E) in Hc. exact Hc.
  - intros t. exact (mean_lookup dig 4 ks seeds t Hs).
Qed.
End sets.

Print Assumptions C51_calls_map.
Print Assumptions C51_bounded_map.
Print Assumptions C51_mean_map.
Print Assumptions C51_calls_set.
Print Assumptions C51_bounded_set.
Print Assumptions C51_mean_set.

(** ** The hypotheses can be met *)
Example C51_nonvacuous :
  let ok := λ tr op, mallowed (λ _, true = true) (λ _, true = true) tr op /\ ins_guard (digit spread3) any_way any_way tr op in
  map_both 0%N 256 (PStringMap_api spread3 0%N 256) (StringMap_api spread3 0%N 256) (digit spread3) ok /\
  spreads (digit spread3) keys3 seeds16 /\
  ∃ tr w, mrun (StringMap_api spread3 0%N 256) ok 0%N tr w /\ (MNew 0, RHandle 2) ∈ tr /\ elements (stored tr 2) ≡ₚ keys3 /\
    ok tr (MGet 2 [1]%N) /\ ok tr (MDel 2 [1]%N).
Proof.
  intros ok. assert (Hk : NoDup keys3) by (apply (bool_decide_unpack (NoDup keys3)); vm_compute; exact I).
  split; [apply both_StringMap|]. split; [exact spread3_spreads|].
  destruct (mexec_res (StringMap_api spread3 0%N 256) (gchk (digit spread3) (λ _, true) anyb anyb) ok 0%N
    [MNew 0; MSet 2 [1]%N 10%N; MSet 2 [2]%N 20%N; MSet 2 [4]%N 11%N; MDel 2 [4]%N; MSet 2 [3]%N 30%N]
    [RHandle 2; RUnit; RUnit; RUnit; RUnit; RUnit]) as (tr & w & Hr & Htr).
  { intros tr op. apply gchk_ok; apply anyb_ok. }
  { vm_compute. reflexivity. }
  apply (f_equal reverse) in Htr. rewrite reverse_involutive in Htr. vm_compute in Htr.
  exists tr, w. split; [exact Hr|]. rewrite Htr. split; [|split; [|split]].
  - rewrite !elem_of_cons. do 5 right. left. reflexivity.
  - apply NoDup_Permutation; [apply NoDup_elements|exact Hk|]. intros k. rewrite elem_of_elements. simpl.
    rewrite !elem_of_union, !elem_of_difference, !elem_of_union, !elem_of_singleton, elem_of_empty.
    unfold keys3. rewrite !elem_of_cons, elem_of_nil. intuition congruence.
  - split; [|exact I]. split; [|reflexivity]. exists 0%N. rewrite !elem_of_cons. do 5 right. left. reflexivity.
  - split; [|exact I]. split; [|reflexivity]. exists 0%N. rewrite !elem_of_cons. do 5 right. left. reflexivity.
Qed.

(** The bound of a lookup is reached: one access per shared digit and five more. The
    digits of a key are those of its only byte, of 1 and of 17 the first is 1. *)
Example C51_reached :
  let sum64 := λ (s : N) (b : bytes), match b with [n] => n | _ => 0%N end in
  let costs := λ ops op, match mexec (StringMap_api (U:=N) sum64 0%N 256) (λ _ _, true) [] (empty_world 0%N) ops with
    | Some (_, w) => Some (cost (pmcall (PStringMap_api sum64 0%N 256) (Op op)) w) | None => None end in
  costs [MNew 0; MSet 2 [1]%N 10%N] (MGet 2 [1]%N) = Some (0 + 5) /\
  costs [MNew 0; MSet 2 [1]%N 10%N; MSet 2 [17]%N 20%N] (MGet 2 [1]%N) = Some (1 + 5) /\
  costs [MNew 0; MSet 2 [1]%N 10%N; MSet 2 [17]%N 20%N; MSet 2 [34]%N 20%N] (MGet 2 [34]%N) = Some (0 + 5) /\
  costs [MNew 0; MSet 2 [1]%N 10%N; MSet 2 [257]%N 20%N] (MGet 2 [257]%N) = Some (2 + 5).
Proof. vm_compute. split_and!; reflexivity. Qed.
