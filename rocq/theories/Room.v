(** The arrays of a container have at least a slot for each key, and take room in memory. *)
From stdpp Require Import base numbers list gmap.
From Verif Require Import GoInt Mem Hash Prog Amt Families BitsFacts Steps Tree Rep Paths Descend Insert Split Delete Remove Core Spec Order Heap SpecFacts Guards Client Types Pack ObserveFacts ObserveSet Levels Shape ShapeRuns DepthSpec Depth MemorySpec Memory MemoryRuns.
From Verif Require Import PClient ConcClient KeepSpec GcSpec ReuseSpec ReuseRuns LayoutSpec Layout LayoutMem.
Local Open Scope nat_scope.

(** ** Slots *)
Section arrays.
Context {K : Type}.
Lemma nodes_few (t : tree K) : ∀ q x, wf t -> x ∈ nodes q t -> x.2.2 <= 16.
Proof.
  induction t as [k p|a cs IH] using tree_ind'; intros q x Hw Hx; [by apply elem_of_nil in Hx|].
  apply wf_node in Hw as [Hr Hw]. rewrite Forall_forall in IH, Hw. cbn [nodes] in Hx. apply elem_of_cons in Hx as [->|Hx].
  - cbn [fst snd]. rewrite <- (map_length fst). by apply radixes_length.
  - apply elem_of_list_In, in_flat_map in Hx as (c & Hin & Hx). apply elem_of_list_In in Hin. apply elem_of_list_In in Hx.
    by apply (IH c Hin _ _ (Hw _ Hin) Hx).
Qed.
Lemma cap_ge d n : n <= 16 -> n <= cap d n.
Proof.
  intros H. destruct d; cbn [cap]; [done|]. destruct (decide (n = 0)) as [->|Hn]; [lia|]. rewrite arr_cap_spec by done.
  pose proof (Nat.div_mod (n + 3) 4 ltac:(lia)). pose proof (Nat.mod_upper_bound (n + 3) 4 ltac:(lia)). lia.
Qed.
Lemma arrays_room (T : tree K) a cs : T = Node a cs -> NoDup (locs T) -> wf T ->
  length (leaves T) + length (csn [] cs) <= sum_list (map_to_list (arrays T)).*2.
Proof.
  intros -> Hnd Hwf.
  assert (E : (map_to_list (arrays (Node a cs))).*2 ≡ₚ map (λ x, cap (length x.1) x.2.2) (nodes [] (Node a cs))).
  { unfold arrays. rewrite map_to_list_to_map by (by apply arrays_nodup).
    change (map snd (map (λ x : list N * (loc * nat), (x.2.1, cap (length x.1) x.2.2)) (nodes [] (Node a cs))) ≡ₚ
      map (λ x, cap (length x.1) x.2.2) (nodes [] (Node a cs))). by rewrite map_map. }
  rewrite (sum_list_perm _ _ E). fold (sum (λ x : list N * (loc * nat), cap (length x.1) x.2.2) (nodes [] (Node a cs))).
  pose proof (nodes_items (Node a cs) []) as Hit.
  assert (Hs : sum (λ x, x.2.2) (nodes [] (Node a cs)) <= sum (λ x : list N * (loc * nat), cap (length x.1) x.2.2) (nodes [] (Node a cs))).
  { apply sum_le. intros x Hx. apply cap_ge. by eapply nodes_few. }
  assert (Hn : length (nodes [] (Node a cs)) = S (length (csn [] cs))) by done. lia.
Qed.
End arrays.

Section good.
Context {K HS V CK U : Type} `{Countable K} (F : fam K HS V CK U) (L : layout K V CK) (s : N).
Lemma good_room (w : world V CK U) h T (dig : N -> K -> nat -> N) : (∀ s k d, nib F s k d = dig s k d) -> Good F L 240 s w h T ->
  ∃ arrs : gmap loc nat, (∀ a n, arrs !! a = Some n <-> array (w_mem w) h a n) /\
    length (leaves T) + branches dig s (map fst (leaves T)) <= sum_list (map_to_list arrs).*2.
Proof.
  intros Hdig HG. pose proof (Good_wf _ _ _ _ _ _ _ HG) as Hwf. pose proof (Good_node _ _ _ _ _ _ _ HG) as Hl.
  destruct T as [|a cs]; [done|]. pose proof (good_nodes F L s w h a cs dig Hdig HG) as Hn.
  destruct HG as [[(rt & Hr & _ & Hrep & _) Hnd Hc _] _]. apply NoDup_cons in Hnd as [_ Hnd].
  exists (arrays (Node a cs)). split.
  - intros a' n. by apply (arrays_spec L (w_mem w) h rt (Node a cs) a' n).
  - rewrite <- Hn. by apply (arrays_room (Node a cs) a cs).
Qed.
End good.

Section maps.
Context {V U : Type} (zero : V) (fuel : nat) (u0 : U).
Hypothesis Hfuel : 256 <= fuel.
Context `{Countable K} {CK : Type} (api : mapapi K V CK U) (dig : N -> K -> nat -> N).
Variable ok : list (mop K V U * mres V) -> mop K V U -> Prop.
Hypothesis Ht : map_type zero fuel api dig ok.
Lemma map_room tr (w : world V CK U) s h : mrun api ok u0 tr w -> (MNew s, RHandle h) ∈ tr ->
  ∃ arrs : gmap loc nat, (∀ a n, arrs !! a = Some n <-> array (w_mem w) h a n) /\
    base.size (stored tr h) + branches dig s (elements (stored tr h)) <= sum_list (map_to_list arrs).*2.
Proof.
  intros Hr Hin. destruct (map_good zero fuel u0 Hfuel api dig ok Ht tr w s h Hr Hin) as (HS & F & L & s' & T & _ & _ & _ & Hdig & HG & _ & Hp & Hin').
  destruct (map_type_spec zero fuel u0 Hfuel api dig ok Ht tr w Hr) as [[σ Hs] _].
  assert (s' = s) as ->.
  { destruct (ObserveFacts.mspec_new _ _ _ _ _ Hs _ _ Hin) as [m1 H1], (ObserveFacts.mspec_new _ _ _ _ _ Hs _ _ Hin') as [m2 H2]. congruence. }
  destruct (good_room F L s w h T dig Hdig HG) as (arrs & H1 & H2). exists arrs. split; [done|].
  rewrite (branches_perm dig s _ _ Hp) in H2. rewrite <- (map_length fst), Hp in H2. done.
Qed.
End maps.
Section sets.
Context {U : Type} (fuel : nat) (u0 : U).
Hypothesis Hfuel : 256 <= fuel.
Context `{Countable K} {CK : Type} (api : setapi K unit CK U) (dig : N -> K -> nat -> N).
Variable ok : list (sop K U * sres) -> sop K U -> Prop.
Hypothesis Ht : set_type fuel api dig ok.
Lemma set_room tr (w : world unit CK U) s h : srun api ok u0 tr w -> (SNew s, THandle h) ∈ tr ->
  ∃ arrs : gmap loc nat, (∀ a n, arrs !! a = Some n <-> array (w_mem w) h a n) /\
    base.size (sstored tr h) + branches dig s (elements (sstored tr h)) <= sum_list (map_to_list arrs).*2.
Proof.
  intros Hr Hin. destruct (set_good fuel u0 Hfuel api dig ok Ht tr w s h Hr Hin) as (HS & F & L & s' & T & _ & _ & _ & Hdig & HG & _ & Hp & Hin').
  destruct (set_type_spec fuel u0 Hfuel api dig ok Ht tr w Hr) as [[σ Hs] _].
  assert (s' = s) as ->.
  { destruct (sspec_new dig u0 tr σ Hs _ _ Hin) as [m1 H1], (sspec_new dig u0 tr σ Hs _ _ Hin') as [m2 H2]. congruence. }
  destruct (good_room F L s w h T dig Hdig HG) as (arrs & H1 & H2). exists arrs. split; [done|].
  rewrite (branches_perm dig s _ _ Hp) in H2. rewrite <- (map_length fst), Hp in H2. done.
Qed.
End sets.

(** ** The same arrays under other names *)
Section names.
Context {V CK U : Type} (β : names) (m : gmap loc (block V CK)) (w : world V CK U).
Hypothesis Hs : stands β m w.
Lemma level_as h h' : β h h' -> ∀ d lv', level (w_mem w) h' d lv' -> ∃ lv, level m h d lv /\ link_as β lv lv'.
Proof using Hs.
  intros Hh. induction 1 as [rt Hrt|d lv' i r x Hl (lv & Hlv & (Hp & E1 & E2)) (a & ls & Ea & Hm & Hd & Hx) He].
  - destruct (st_mem _ _ _ Hs _ _ Hh) as (b & b' & Hb & Hb' & Has). rewrite Hrt in Hb'. injection Hb' as <-.
    destruct b as [| |rt']; try (exfalso; exact Has). exists (rt_link rt'). split; [by constructor|]. apply Has.
  - rewrite Ea in Hp. destruct (lk_ptr lv) as [|a1] eqn:Ea1; [done|]. simpl in Hp.
    destruct (st_mem _ _ _ Hs _ _ Hp) as (b & b' & Hb & Hb' & Has). rewrite Hm in Hb'. injection Hb' as <-.
    destruct b as [ls1| |]; try (exfalso; exact Has). simpl in Has. destruct (Forall2_lookup_r _ _ _ _ _ Has Hx) as (y & Hy & Hyx).
    exists y. split; [|done]. apply (level_sub m h d lv i r y); [exact Hlv| |].
    + exists a1, ls1. split_and!; [done|done| |exact Hy]. assert (Ed : digits_of lv = digits_of lv') by (unfold digits_of; by rewrite E1). by rewrite Ed.
    + unfold is_entry. by rewrite E2.
Qed.
Lemma array_as h h' a' n : β h h' -> array (w_mem w) h' a' n -> ∃ a, β a a' /\ array m h a n.
Proof using Hs.
  intros Hh (d & lv' & ls & Hl & Ea & Hm & Hn). destruct (level_as _ _ Hh _ _ Hl) as (lv & Hlv & (Hp & E1 & E2)).
  rewrite Ea in Hp. destruct (lk_ptr lv) as [|a] eqn:Ea1; [done|]. simpl in Hp. exists a. split; [done|].
  destruct (st_mem _ _ _ Hs _ _ Hp) as (b & b' & Hb & Hb' & Has). rewrite Hm in Hb'. injection Hb' as <-.
  destruct b as [ls1| |]; try (exfalso; exact Has). exists d, lv, ls1. split_and!; [done|done|done|]. rewrite <- Hn. by eapply Forall2_length.
Qed.
(** A list of the arrays, each once. *)
Lemma arrays_as h h' (l : list (loc * nat)) : β h h' -> NoDup l.*1 -> (∀ a n, (a, n) ∈ l -> array (w_mem w) h' a n) ->
  ∃ l' : list (loc * nat), NoDup l'.*1 /\ l'.*2 = l.*2 /\ Forall2 (λ x y, β x.1 y.1) l' l /\ ∀ a n, (a, n) ∈ l' -> ∃ ls, m !! a = Some (BLinks ls) /\ length ls = n.
Proof using Hs.
  intros Hh. induction l as [|[a' n] l IH]; intros Hnd Hl.
  - exists []. split_and!; [constructor|done|constructor|]. intros a n Hin. by apply elem_of_nil in Hin.
  - rewrite fmap_cons in Hnd. apply NoDup_cons in Hnd as [Hni Hnd]. destruct IH as (l' & H1 & H2 & H3 & H4); [done|intros; apply Hl; by right|].
    destruct (array_as h h' a' n Hh (Hl a' n (elem_of_list_here _ _))) as (a & Ha & (d & lv & ls & _ & _ & Hm & Hn)).
    exists ((a, n) :: l'). split_and!.
    + rewrite fmap_cons. apply NoDup_cons. split; [|done]. cbn [fst]. intros Hin. apply elem_of_list_fmap in Hin as ([a1 n1] & E & Hin). cbn [fst] in E. subst a1.
      apply elem_of_list_lookup in Hin as (i & Hi). destruct (Forall2_lookup_l _ _ _ _ _ H3 Hi) as ([a2 n2] & Hi2 & Hb). cbn [fst] in Hb.
      assert (a2 = a') as -> by (by eapply (st_fun _ _ _ Hs)). apply Hni. apply elem_of_list_fmap. exists (a', n2). split; [done|]. by eapply elem_of_list_lookup_2.
    + rewrite !fmap_cons. by rewrite H2.
    + by constructor.
    + intros a1 n1 Hin. apply elem_of_cons in Hin as [[= -> ->]|Hin]; [by exists ls|by apply H4].
Qed.
End names.

(** ** Arrays that have no byte in common *)
Definition addresses (z : N) (l : list (loc * nat)) : list nat := flat_map (λ x, seq (Pos.to_nat x.1) (x.2 * N.to_nat z)) l.
Lemma addresses_length z l : length (addresses z l) = sum_list l.*2 * N.to_nat z.
Proof. induction l as [|x l IH]; [done|]. cbn [addresses flat_map]. rewrite app_length, seq_length, fmap_cons. fold (addresses z l). rewrite IH.
  change (sum_list (x.2 :: l.*2)) with (x.2 + sum_list l.*2). by rewrite Nat.mul_add_distr_r. Qed.
Lemma mul_to n z : N.of_nat (n * N.to_nat z) = (N.of_nat n * z)%N.
Proof. by rewrite Nat2N.inj_mul, N2Nat.id. Qed.
Lemma nodup_seq_length (l : list nat) n : NoDup l -> (∀ x, x ∈ l -> x < n) -> length l <= n.
Proof.
  intros Hnd Hl. rewrite <- (seq_length n 0). apply submseteq_length. apply NoDup_submseteq; [done|]. intros x Hx. apply elem_of_seq. specialize (Hl x Hx). lia.
Qed.
Section packing.
Context {V CK : Type} (p : platform) (kvsize : N) (T : gmap loc (tblock V CK)).
Hypothesis HT : placed p kvsize T.
Lemma packed_below (m : N) (l : list (loc * nat)) : (∀ a t x, T !! a = Some t -> owns p kvsize a t x -> x < m)%N ->
  NoDup l.*1 -> (∀ a n, (a, n) ∈ l -> T !! a = Some (TLinks n)) ->
  (N.of_nat (sum_list l.*2) * linkSize p <= m)%N.
Proof using HT.
  intros Hm Hnd Hl. assert (H : length (addresses (linkSize p) l) <= N.to_nat m).
  { apply nodup_seq_length.
    - clear -Hnd Hl HT. induction l as [|[a n] l IH]; [constructor|]. cbn [addresses flat_map]. rewrite fmap_cons in Hnd. apply NoDup_cons in Hnd as [Hni Hnd].
      apply NoDup_app. split_and!; [apply NoDup_ListNoDup, seq_NoDup| |apply IH; [done|intros; apply Hl; by right]].
      intros x Hx Hx'. cbn [fst snd] in Hx. apply elem_of_seq in Hx. apply elem_of_list_In, in_flat_map in Hx' as ([a' n'] & Hin & Hx').
      apply elem_of_list_In in Hin. apply elem_of_list_In in Hx'. cbn [fst snd] in Hx'. apply elem_of_seq in Hx'.
      assert (a = a') as <-.
      { destruct HT as [_ H]. eapply (H a a' _ _ (N.of_nat x)); [apply Hl; by left|apply Hl; by right| |]; apply owns_links; rewrite <- mul_to; lia. }
      apply Hni. cbn [fst]. apply elem_of_list_fmap. by exists (a, n').
    - intros x Hx. apply elem_of_list_In, in_flat_map in Hx as ([a n] & Hin & Hx). apply elem_of_list_In in Hin. apply elem_of_list_In in Hx.
      cbn [fst snd] in Hx. apply elem_of_seq in Hx. pose proof (Hm a _ (N.of_nat x) (Hl _ _ Hin)) as H'.
      assert (owns p kvsize a (TLinks (V:=V) (CK:=CK) n) (N.of_nat x)) as Ho by (apply owns_links; rewrite <- mul_to; lia). specialize (H' Ho). lia. }
  rewrite addresses_length in H. rewrite <- mul_to. lia.
Qed.
Lemma packed (l : list (loc * nat)) : NoDup l.*1 -> (∀ a n, (a, n) ∈ l -> T !! a = Some (TLinks n)) ->
  (N.of_nat (sum_list l.*2) * linkSize p <= top p)%N.
Proof using HT. apply packed_below. intros a t x Ha Hx. destruct HT as [H _]. by apply (proj2 (H a t Ha)). Qed.
End packing.
