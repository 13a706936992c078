(** The arrays of the containers of a run. *)
From stdpp Require Import base numbers list gmap.
From Verif Require Import GoInt Mem Hash Amt Families BitsFacts Steps Tree Rep Paths Descend Insert Split Delete Remove Core Spec Order Heap SpecFacts Guards Client Types Pack ObserveFacts ObserveSet Levels Shape ShapeRuns DepthSpec Depth MemorySpec Memory.
Local Open Scope nat_scope.

Lemma start_take {K} (dig : N -> K -> nat -> N) s n m k : n <= m -> take n (start dig s m k) = start dig s n k.
Proof.
  intros Hn. unfold start. replace m with (n + (m - n)) by lia. rewrite seq_app, map_app.
  rewrite take_app_alt; [done|]. by rewrite map_length, seq_length.
Qed.
Lemma branches_perm `{Countable K} (dig : N -> K -> nat -> N) s ks ks' : ks ≡ₚ ks' -> branches dig s ks = branches dig s ks'.
Proof.
  intros E. rewrite <- !strings_length. apply Permutation_length, NoDup_Permutation; [apply strings_nodup..|].
  intros q. rewrite !elem_of_strings. split; intros (Hq & k & Hk & Hd & Hs); (split; [done|]); exists k.
  - rewrite <- (depth_perm dig s ks ks' k E), <- E. done.
  - rewrite (depth_perm dig s ks ks' k E), E. done.
Qed.

Section good.
Context {K HS V CK U : Type} `{Countable K} (F : fam K HS V CK U) (L : layout K V CK) (s : N).

Lemma good_nodes (w : world V CK U) h a cs (dig : N -> K -> nat -> N) : (∀ s k d, nib F s k d = dig s k d) ->
  Good F L 240 s w h (Node a cs) -> length (csn [] cs) = branches dig s (map fst (leaves (Node a cs))).
Proof.
  intros Hdig HG. rewrite <- strings_length, <- (map_length fst).
  pose proof (Good_wf _ _ _ _ _ _ _ HG) as Hwf.
  assert (Hcan : canon_cs cs) by (by destruct HG as [[_ _ Hc _] _]).
  pose proof (nodes_nodup _ [] Hwf) as Hnd. cbn [nodes] in Hnd. fold (csn [] cs) in Hnd. rewrite map_cons in Hnd.
  apply NoDup_cons in Hnd as [_ Hnd].
  assert (Hpl : placed F s (Node a cs)) by apply HG. unfold placed in Hpl. rewrite Forall_forall in Hpl.
  assert (Hnibs : ∀ k n, nibs F s k n = start dig s n k).
  { intros k n. unfold nibs, start. apply map_ext. intros i. apply Hdig. }
  assert (Hdep : ∀ e, e ∈ pleaves [] (Node a cs) -> pdepth e = depth dig s (map fst (leaves (Node a cs))) e.2.1).
  { intros e He. rewrite (depth_spec F L 240 s w h _ e (le_n _) HG He). unfold depth. f_equal. apply map_ext. intros k'.
    destruct (decide (k' = e.2.1)); [done|].
    destruct (common_spec 241 (λ d, nib F s e.2.1 d) (λ d, nib F s k' d)) as (H1 & H2 & H3).
    change (common 241 (nib F s e.2.1) (nib F s k') = common 241 (dig s e.2.1) (dig s k')).
    apply Nat.le_antisymm.
    - apply common_ge; [done|]. intros i Hi. rewrite <- !Hdig. by apply H2.
    - destruct (common_spec 241 (dig s e.2.1) (dig s k')) as (H4 & H5 & _). apply common_ge; [done|].
      intros i Hi. rewrite !Hdig. by apply H5. }
  apply Permutation_length, NoDup_Permutation; [done|apply strings_nodup|].
  intros q. rewrite elem_of_strings, csn_leaves by done. split.
  - intros (e & v & He & Hq & Ev & Hv). split; [done|]. change (e ∈ pleaves [] (Node a cs)) in He.
    exists e.2.1. split.
    { apply elem_of_list_fmap. exists e.2. split; [done|]. by apply (leaf_of (Node a cs)). }
    rewrite <- (Hdep _ He). unfold pdepth. rewrite Ev, app_length. split; [destruct v; [done|simpl; lia]|].
    specialize (Hpl _ He). unfold well in Hpl. rewrite Ev, Hnibs, app_length in Hpl.
    apply (f_equal (take (length q))) in Hpl. rewrite take_app in Hpl. rewrite Hpl at 1.
    apply start_take. lia.
  - intros (Hq & k & Hk & Hd & Es). apply elem_of_list_fmap in Hk as ([k0 p] & -> & Hk). cbn [fst] in *.
    destruct (entry_of (Node a cs) k0 p Hk) as [q0 He].
    pose proof (Hdep _ He) as Hd0. cbn [fst snd] in Hd0. unfold pdepth in Hd0. cbn [fst] in Hd0. rewrite <- Hd0 in Hd.
    specialize (Hpl _ He). unfold well in Hpl. cbn [fst snd] in Hpl. rewrite Hnibs in Hpl.
    exists (q0, (k0, p)), (drop (length q) q0). cbn [fst]. split_and!; [done|done| |].
    + rewrite <- (take_drop (length q) q0) at 1. f_equal. rewrite Hpl, start_take by lia. by rewrite <- Es.
    + intros E. apply (f_equal length) in E. rewrite drop_length in E. simpl in E. 
      assert (length q ≠ 0) by (by destruct q). lia.
Qed.

Lemma good_arrays (w : world V CK U) h T (dig : N -> K -> nat -> N) : (∀ s k d, nib F s k d = dig s k d) -> Good F L 240 s w h T ->
  ∃ arrs : gmap loc nat, (∀ a n, arrs !! a = Some n <-> array (w_mem w) h a n) /\
    size arrs = 1 + branches dig s (map fst (leaves T)) /\
    sum_list (map_to_list arrs).*2 <= 16 + length (leaves T) + 4 * branches dig s (map fst (leaves T)).
Proof.
  intros Hdig HG. pose proof (Good_wf _ _ _ _ _ _ _ HG) as Hwf. pose proof (Good_node _ _ _ _ _ _ _ HG) as Hl.
  destruct T as [|a cs]; [done|]. pose proof (good_nodes w h a cs dig Hdig HG) as Hn.
  destruct HG as [[(rt & Hr & _ & Hrep & _) Hnd Hc _] _]. apply NoDup_cons in Hnd as [_ Hnd].
  exists (arrays (Node a cs)). split_and!.
  - intros a' n. by apply (arrays_spec L (w_mem w) h rt (Node a cs) a' n).
  - rewrite arrays_size by done. cbn [nodes length]. fold (csn [] cs). by rewrite Hn.
  - rewrite <- Hn. by apply (arrays_slots (Node a cs) a cs).
Qed.
End good.

Section maps.
Context {V U : Type} (zero : V) (fuel : nat) (u0 : U).
Hypothesis Hfuel : 256 <= fuel.
Context `{Countable K} {CK : Type} (api : mapapi K V CK U) (dig : N -> K -> nat -> N).
Variable ok : list (mop K V U * mres V) -> mop K V U -> Prop.
Hypothesis Ht : map_type zero fuel api dig ok.

Theorem map_arrays tr (w : world V CK U) s h : mrun api ok u0 tr w -> (MNew s, RHandle h) ∈ tr ->
  let ks := elements (stored tr h) in
  ∃ arrs : gmap loc nat, (∀ a n, arrs !! a = Some n <-> array (w_mem w) h a n) /\
    size arrs = 1 + branches dig s ks /\ sum_list (map_to_list arrs).*2 <= 16 + length ks + 4 * branches dig s ks.
Proof.
  intros Hr Hin ks. destruct (map_good zero fuel u0 Hfuel api dig ok Ht tr w s h Hr Hin) as (HS & F & L & s' & T & _ & _ & _ & Hdig & HG & _ & Hp & Hin').
  destruct (map_type_spec zero fuel u0 Hfuel api dig ok Ht tr w Hr) as [[σ Hs] _].
  assert (s' = s) as ->.
  { destruct (ObserveFacts.mspec_new _ _ _ _ _ Hs _ _ Hin) as [m1 H1], (ObserveFacts.mspec_new _ _ _ _ _ Hs _ _ Hin') as [m2 H2]. congruence. }
  destruct (good_arrays F L s w h T dig Hdig HG) as (arrs & H1 & H2 & H3). exists arrs.
  rewrite (branches_perm dig s _ _ Hp) in H2, H3. unfold ks. split_and!; [done|done|].
  rewrite <- Hp at 1. by rewrite map_length.
Qed.
End maps.

Section sets.
Context {U : Type} (fuel : nat) (u0 : U).
Hypothesis Hfuel : 256 <= fuel.
Context `{Countable K} {CK : Type} (api : setapi K unit CK U) (dig : N -> K -> nat -> N).
Variable ok : list (sop K U * sres) -> sop K U -> Prop.
Hypothesis Ht : set_type fuel api dig ok.

Theorem set_arrays tr (w : world unit CK U) s h : srun api ok u0 tr w -> (SNew s, THandle h) ∈ tr ->
  let ks := elements (sstored tr h) in
  ∃ arrs : gmap loc nat, (∀ a n, arrs !! a = Some n <-> array (w_mem w) h a n) /\
    size arrs = 1 + branches dig s ks /\ sum_list (map_to_list arrs).*2 <= 16 + length ks + 4 * branches dig s ks.
Proof.
  intros Hr Hin ks. destruct (set_good fuel u0 Hfuel api dig ok Ht tr w s h Hr Hin) as (HS & F & L & s' & T & _ & _ & _ & Hdig & HG & _ & Hp & Hin').
  destruct (set_type_spec fuel u0 Hfuel api dig ok Ht tr w Hr) as [[σ Hs] _].
  assert (s' = s) as ->.
  { destruct (sspec_new dig u0 tr σ Hs _ _ Hin) as [m1 H1], (sspec_new dig u0 tr σ Hs _ _ Hin') as [m2 H2]. congruence. }
  destruct (good_arrays F L s w h T dig Hdig HG) as (arrs & H1 & H2 & H3). exists arrs.
  rewrite (branches_perm dig s _ _ Hp) in H2, H3. unfold ks. split_and!; [done|done|].
  rewrite <- Hp at 1. by rewrite map_length.
Qed.
End sets.
