(** The arrays of a container and how many there are. *)
From Coq Require Import Sorted.
From stdpp Require Import base numbers list gmap.
From Verif Require Import GoInt Mem Amt BitsFacts Steps Tree Rep Paths Descend Insert Split Delete Remove Core Spec Order DepthSpec Depth Levels Shape MemorySpec.
Local Open Scope nat_scope.

(** ** The nodes of a tree, with the digits that lead to them *)
Section nodes.
Context {K : Type}.
Local Notation tree := (tree K).
Implicit Types (t : tree) (cs : list (N * tree)).

Fixpoint nodes (pre : list N) t : list (list N * (loc * nat)) :=
  match t with
  | Leaf _ _ => []
  | Node a cs => (pre, (a, length cs)) :: flat_map (λ c, nodes (pre ++ [c.1]) c.2) cs
  end.
Definition csn (pre : list N) cs := flat_map (λ c : N * tree, nodes (pre ++ [c.1]) c.2) cs.

Lemma nodes_pre t : ∀ pre x, x ∈ nodes pre t -> ∃ s, x.1 = pre ++ s.
Proof.
  induction t as [k p|a cs IH] using tree_ind'; intros pre x Hx; [by apply elem_of_nil in Hx|].
  cbn [nodes] in Hx. apply elem_of_cons in Hx as [->|Hx]; [exists []; by rewrite app_nil_r|].
  apply elem_of_list_In, in_flat_map in Hx as (c & Hc & Hx). apply elem_of_list_In in Hc. apply elem_of_list_In in Hx.
  rewrite Forall_forall in IH. destruct (IH c Hc _ _ Hx) as (s & ->). exists (c.1 :: s). by rewrite <- app_assoc.
Qed.

Lemma csn_pre pre cs x : x ∈ csn pre cs -> ∃ c s, c ∈ cs /\ x ∈ nodes (pre ++ [c.1]) c.2 /\ x.1 = pre ++ c.1 :: s.
Proof.
  intros Hx. apply elem_of_list_In, in_flat_map in Hx as (c & Hc & Hx). apply elem_of_list_In in Hc. apply elem_of_list_In in Hx.
  destruct (nodes_pre _ _ _ Hx) as (s & Hs). exists c, s. rewrite Hs, <- app_assoc. done.
Qed.

Lemma nodes_nodup t : ∀ pre, wf t -> NoDup (map fst (nodes pre t)).
Proof.
  induction t as [k p|a cs IH] using tree_ind'; intros pre Hwf; [constructor|].
  apply wf_node in Hwf as [Hr Hcs]. cbn [nodes]. fold (csn pre cs). rewrite map_cons. constructor.
  - intros (x & Ex & Hx)%elem_of_list_fmap. apply csn_pre in Hx as (c & s & _ & _ & E).
    cbn [fst] in Ex. rewrite <- Ex in E. apply (f_equal length) in E. rewrite app_length in E. simpl in E. lia.
  - induction cs as [|c cs IHcs]; [constructor|].
    apply Forall_cons in IH as [IH1 IH2]. apply Forall_cons in Hcs as [Hc1 Hc2].
    apply (radixes_app_cons []) in Hr as (_ & Hr2 & _ & _ & Hlt).
    change (csn pre (c :: cs)) with (nodes (pre ++ [c.1]) c.2 ++ csn pre cs). rewrite map_app.
    apply NoDup_app. split; [by apply IH1|]. split; [|by apply IHcs].
    intros q (x & -> & Hx)%elem_of_list_fmap (y & E & Hy)%elem_of_list_fmap.
    apply nodes_pre in Hx as (s & Hs). apply csn_pre in Hy as (c' & s' & Hc' & _ & Hs').
    rewrite Hs, Hs', <- app_assoc in E. apply app_inv_head in E. injection E as E _.
    rewrite Forall_forall in Hlt. assert (c'.1 ∈ map fst cs) as Hin by (apply elem_of_list_In, in_map; by apply elem_of_list_In).
    apply Hlt in Hin. lia.
Qed.

Lemma nodes_locs t : ∀ pre, map (λ x, x.2.1) (nodes pre t) ⊆+ locs t.
Proof.
  induction t as [k p|a cs IH] using tree_ind'; intros pre; [apply submseteq_nil_l|].
  cbn [nodes locs]. rewrite map_cons. cbn [fst snd]. apply submseteq_skip.
  induction cs as [|c cs IHcs]; [done|]. apply Forall_cons in IH as [IH1 IH2]. simpl. rewrite map_app.
  apply submseteq_app; [apply IH1|by apply IHcs].
Qed.

(** Items of all levels: the entries, and all levels but the outermost one. *)
Lemma nodes_items t : ∀ pre, sum (λ x, x.2.2) (nodes pre t) + 1 = length (leaves t) + length (nodes pre t).
Proof.
  induction t as [k p|a cs IH] using tree_ind'; intros pre; [done|].
  cbn [nodes leaves length]. rewrite sum_cons. cbn [fst snd].
  enough (length cs + sum (λ x, x.2.2) (csn pre cs) = length (flat_map (λ c, leaves c.2) cs) + length (csn pre cs)) by (unfold csn in *; lia).
  induction cs as [|c cs IHcs]; [done|]. apply Forall_cons in IH as [IH1 IH2]. specialize (IHcs IH2). specialize (IH1 (pre ++ [c.1])).
  change (csn pre (c :: cs)) with (nodes (pre ++ [c.1]) c.2 ++ csn pre cs). cbn [flat_map length].
  rewrite sum_app, !app_length. lia.
Qed.

(** The digits that lead to nodes are the beginnings of those that lead to leaves. *)
Lemma nodes_leaves t : ∀ pre q, canon t ->
  q ∈ map fst (nodes pre t) <-> ∃ e u v, e ∈ pleaves pre t /\ q = pre ++ u /\ e.1 = q ++ v /\ v ≠ [].
Proof.
  induction t as [k p|a cs IH] using tree_ind'; intros pre q Hc.
  - split; [intros Hx; by apply elem_of_nil in Hx|]. intros (e & u & v & He & -> & E & Hv). simpl in He.
    apply elem_of_list_singleton in He as ->. cbn [fst] in E. apply (f_equal length) in E. rewrite !app_length in E.
    destruct v; [done|simpl in E; lia].
  - pose proof (canon_inhabited _ Hc pre) as [e0 He0].
    apply canon_node in Hc as [_ Hcs]. unfold canon_cs in Hcs. rewrite Forall_forall in IH, Hcs.
    cbn [nodes]. fold (csn pre cs). rewrite map_cons, elem_of_cons. split.
    + intros [->|(x & -> & Hx)%elem_of_list_fmap].
      * destruct (pleaves_pre _ _ _ He0) as (s & Es & Hs). exists e0, [], s. split_and!; [done|by rewrite app_nil_r|done|by apply Hs].
      * apply csn_pre in Hx as (c & s & Hin & Hx & Es).
        destruct (proj1 (IH c Hin (pre ++ [c.1]) x.1 (Hcs _ Hin))) as (e & u & v & He & Hu & Ev & Hv).
        { apply elem_of_list_fmap. by exists x. }
        exists e, (c.1 :: u), v. split_and!; [|by rewrite Hu, <- app_assoc|done|done].
        cbn [pleaves]. apply elem_of_list_In, in_flat_map. exists c. by rewrite <- !elem_of_list_In.
    + intros (e & u & v & He & -> & Ev & Hv). destruct u as [|r u]; [left; by rewrite app_nil_r|]. right.
      cbn [pleaves] in He. fold (cspl pre cs) in He. apply cspl_pre in He as (c & s & Hin & He & Es).
      assert (r = c.1) as ->. { rewrite Es, <- app_assoc in Ev. apply app_inv_head in Ev. by injection Ev as <- _. }
      assert (Hx : pre ++ c.1 :: u ∈ map fst (nodes (pre ++ [c.1]) c.2)).
      { apply (IH c Hin); [by apply Hcs|]. exists e, u, v. split_and!; [done|by rewrite <- app_assoc|done|done]. }
      apply elem_of_list_fmap in Hx as (x & Ex & Hx). apply elem_of_list_fmap. exists x. split; [done|].
      unfold csn. apply elem_of_list_In, in_flat_map. exists c. by rewrite <- !elem_of_list_In.
Qed.

Lemma csn_leaves cs q : Forall (λ c, canon c.2) cs ->
  q ∈ map fst (csn [] cs) <-> ∃ e v, e ∈ cspl [] cs /\ q ≠ [] /\ e.1 = q ++ v /\ v ≠ [].
Proof.
  intros Hcs. rewrite Forall_forall in Hcs. split.
  - intros (x & -> & Hx)%elem_of_list_fmap. apply csn_pre in Hx as (c & s & Hin & Hx & Es).
    destruct (proj1 (nodes_leaves c.2 ([] ++ [c.1]) x.1 (Hcs _ Hin))) as (e & u & v & He & Hu & Ev & Hv).
    { apply elem_of_list_fmap. by exists x. }
    exists e, v. split_and!; [|by rewrite Es|done|done].
    unfold cspl. apply elem_of_list_In, in_flat_map. exists c. by rewrite <- !elem_of_list_In.
  - intros (e & v & He & Hq & Ev & Hv). apply cspl_pre in He as (c & s & Hin & He & Es).
    destruct q as [|r q]; [done|]. assert (r = c.1) as ->. { rewrite Es in Ev. by injection Ev as <- _. }
    assert (Hx : c.1 :: q ∈ map fst (nodes ([] ++ [c.1]) c.2)).
    { apply nodes_leaves; [by apply Hcs|]. exists e, q, v. done. }
    apply elem_of_list_fmap in Hx as (x & Ex & Hx). apply elem_of_list_fmap. exists x. split; [done|].
    unfold csn. apply elem_of_list_In, in_flat_map. exists c. by rewrite <- !elem_of_list_In.
Qed.
End nodes.

(** ** Nodes and arrays *)
Section arrays.
Context {K V CK : Type} (L : layout K V CK).
Local Notation tree := (tree K).
Implicit Types (m : gmap loc (block V CK)) (t T : tree).

Lemma level_node m h rt T : m !! h = Some (BRoot rt) -> rep L m 0 (rt_link rt) T -> is_leaf T = false ->
  ∀ d lv, level m h d lv -> ∃ q a cs, length q = d /\ rep L m d lv (Node a cs) /\
    ∀ x, x ∈ nodes q (Node a cs) -> x ∈ nodes [] T.
Proof.
  intros Hr Hrep Hl. induction 1 as [rt' Hr'|d lv i r x Hlv IH Hs He].
  - rewrite Hr in Hr'. injection Hr' as <-. destruct T as [|a cs]; [done|]. by exists [], a, cs.
  - destruct IH as (q & a & cs & Hq & Hn & Hx).
    destruct (rep_slot _ _ _ _ _ _ _ _ _ Hn Hs) as (t & Hi & Hxr & Ht). rewrite He in Ht.
    destruct t as [|a' cs']; [done|]. exists (q ++ [r]), a', cs'. split; [rewrite app_length; simpl; lia|].
    split; [done|]. intros y Hy. apply Hx. cbn [nodes]. right. apply elem_of_list_In, in_flat_map.
    exists (r, Node a' cs'). rewrite <- !elem_of_list_In. split; [by eapply elem_of_list_lookup_2|done].
Qed.

Lemma node_level m h t : ∀ d lv q x, level m h d lv -> rep L m d lv t -> length q = d -> x ∈ nodes q t ->
  ∃ lv' cs, level m h (length x.1) lv' /\ rep L m (length x.1) lv' (Node x.2.1 cs) /\ x.2.2 = length cs.
Proof.
  induction t as [k p|a cs IH] using tree_ind'; intros d lv q x Hl Hr Hq Hx; [by apply elem_of_nil in Hx|].
  cbn [nodes] in Hx. apply elem_of_cons in Hx as [->|Hx].
  - exists lv, cs. cbn [fst snd]. by rewrite Hq.
  - apply elem_of_list_In, in_flat_map in Hx as ([r t] & Hc & Hx).
    apply elem_of_list_In in Hc. apply elem_of_list_In in Hx. cbn [fst snd] in Hx.
    rewrite Forall_forall in IH. specialize (IH _ Hc). cbn [fst snd] in IH.
    apply elem_of_list_lookup in Hc as [i Hi].
    destruct (slot_rep _ _ _ _ _ _ _ _ _ Hr Hi) as (y & Hs & Hy & He).
    destruct (is_leaf t) eqn:El; [destruct t; [by apply elem_of_nil in Hx|done]|].
    apply (IH (S d) y (q ++ [r]) x); [by eapply level_sub|done|rewrite app_length; simpl; lia|done].
Qed.

(** The slots of all arrays by their addresses. *)
Definition arrays (T : tree) : gmap loc nat :=
  list_to_map (map (λ x, (x.2.1, cap (length x.1) x.2.2)) (nodes [] T)).

Lemma arrays_nodup T : NoDup (locs T) -> NoDup (map (λ x, (x.2.1, cap (length x.1) x.2.2)) (nodes [] T)).*1.
Proof.
  intros H. change (NoDup (map fst (map (λ x : list N * (loc * nat), (x.2.1, cap (length x.1) x.2.2)) (nodes [] T)))).
  rewrite map_map. cbn [fst]. pose proof (nodes_locs T []) as Hs.
  apply submseteq_Permutation in Hs as [l Hl]. rewrite Hl in H. by apply NoDup_app in H as [H _].
Qed.

Lemma arrays_spec m h rt T a n : m !! h = Some (BRoot rt) -> rep L m 0 (rt_link rt) T -> is_leaf T = false -> NoDup (locs T) ->
  arrays T !! a = Some n <-> array m h a n.
Proof.
  intros Hr Hrep Hl Hnd. unfold arrays. rewrite <- elem_of_list_to_map by (by apply arrays_nodup).
  rewrite elem_of_list_fmap. split.
  - intros (x & [= -> ->] & Hx).
    destruct (node_level m h T 0 (rt_link rt) [] x) as (lv & cs & Hlv & Hrl & Hn); [by constructor|done..|].
    pose proof Hrl as (-> & _ & lks & rest & Ha & Hlen & _)%rep_node_inv.
    eexists _, _, (lks ++ rest). split; [exact Hlv|]. split_and!; [done|done|]. by rewrite Hlen, Hn.
  - intros (d & lv & ls & Hlv & Hp & Ha & Hn).
    destruct (level_node m h rt T Hr Hrep Hl d lv Hlv) as (q & a' & cs & Hq & Hrl & Hx).
    pose proof Hrl as (-> & _ & lks & rest & Ha' & Hlen & _)%rep_node_inv. cbn [lk_ptr] in Hp. injection Hp as ->.
    rewrite Ha in Ha'. injection Ha' as ->.
    exists (q, (a, length cs)). cbn [fst snd]. split; [|apply Hx; left]. by rewrite <- Hn, Hlen, Hq.
Qed.

Lemma arrays_size T : NoDup (locs T) -> size (arrays T) = length (nodes [] T).
Proof.
  intros H. unfold arrays. rewrite <- (map_length (λ x, (x.2.1, cap (length x.1) x.2.2)) (nodes [] T)).
  unfold size, map_size. apply Permutation_length. apply map_to_list_to_map. by apply arrays_nodup.
Qed.

Lemma cap_le d n : n ≠ 0 -> n <= 16 -> cap (S d) n <= n + 3.
Proof.
  intros H1 H2. cbn [cap]. rewrite arr_cap_spec by done.
  pose proof (Nat.div_mod (n + 3) 4 ltac:(lia)). lia.
Qed.

Lemma arrays_slots T a cs : T = Node a cs -> NoDup (locs T) -> wf T -> canon_root T ->
  sum_list (map_to_list (arrays T)).*2 <= 16 + length (leaves T) + 4 * length (csn [] cs).
Proof.
  intros -> Hnd Hwf Hcan.
  assert (E : (map_to_list (arrays (Node a cs))).*2 ≡ₚ map (λ x, cap (length x.1) x.2.2) (nodes [] (Node a cs))).
  { unfold arrays. rewrite map_to_list_to_map by (by apply arrays_nodup).
    change (map snd (map (λ x : list N * (loc * nat), (x.2.1, cap (length x.1) x.2.2)) (nodes [] (Node a cs))) ≡ₚ
      map (λ x, cap (length x.1) x.2.2) (nodes [] (Node a cs))). by rewrite map_map. }
  rewrite (sum_list_perm _ _ E). fold (sum (λ x : list N * (loc * nat), cap (length x.1) x.2.2) (nodes [] (Node a cs))).
  pose proof (nodes_items (Node a cs) []) as Hit. cbn [nodes] in Hit |- *. fold (csn [] cs) in Hit |- *.
  rewrite !sum_cons in *. cbn [fst snd length] in *. 
  assert (Hs : sum (λ x : list N * (loc * nat), cap (length x.1) x.2.2) (csn [] cs) <= sum (λ x, x.2.2 + 3) (csn [] cs)).
  { apply sum_le. intros x Hx. pose proof Hx as (c & s & Hin & Hx' & Es)%csn_pre. rewrite Es. cbn [app length].
    assert (Hc : canon c.2 /\ wf c.2).
    { apply wf_node in Hwf as [_ Hwf]. simpl in Hcan. unfold canon_cs in Hcan. rewrite Forall_forall in Hwf, Hcan. auto. }
    assert (Hn : x.2.2 ≠ 0 /\ x.2.2 <= 16); [|apply cap_le; tauto].
    clear -Hx' Hc. destruct Hc as [Hc Hw]. revert Hx'. generalize ([] ++ [c.1]). generalize dependent c.2. intros t. 
    induction t as [k p|a cs IH] using tree_ind'; intros Hc Hw q Hx; [by apply elem_of_nil in Hx|].
    apply canon_node in Hc as [Hok Hc]. apply wf_node in Hw as [Hr Hw]. unfold canon_cs in Hc. rewrite Forall_forall in IH, Hc, Hw.
    cbn [nodes] in Hx. apply elem_of_cons in Hx as [->|Hx].
    - cbn [fst snd]. split; [by destruct cs|]. rewrite <- (map_length fst). by apply radixes_length.
    - apply elem_of_list_In, in_flat_map in Hx as (c' & Hin & Hx). apply elem_of_list_In in Hin. apply elem_of_list_In in Hx.
      by apply (IH c' Hin (Hc _ Hin) (Hw _ Hin) _ Hx). }
  rewrite sum_add, sum_const in Hs. cbn [cap]. lia.
Qed.
End arrays.

(** ** How many digit strings are shared *)
Section branches.
Context {K : Type} `{EqDecision K} (dig : N -> K -> nat -> N).
Implicit Types (ks : list K) (s : N).

Lemma start_length s j k : length (start dig s j k) = j.
Proof. unfold start. by rewrite map_length, seq_length. Qed.
Lemma start_alike s j k k' : start dig s j k' = start dig s j k <-> ∀ i, i < j -> dig s k' i = dig s k i.
Proof.
  unfold start. split.
  - intros E i Hi. apply (f_equal (λ l, l !! i)) in E. change (map (dig s k') (seq 0 j)) with (dig s k' <$> seq 0 j) in E.
    change (map (dig s k) (seq 0 j)) with (dig s k <$> seq 0 j) in E.
    rewrite !list_lookup_fmap, lookup_seq_lt in E by done. by injection E as ->.
  - intros E. apply map_ext_in. intros i Hi%in_seq. apply E. lia.
Qed.

(** Keys that share their first j digits with another one. *)
Lemma shared_depth s ks k j : 0 < j <= 241 ->
  Exists (λ k', k' ≠ k /\ start dig s j k' = start dig s j k) ks <-> j <= depth dig s ks k.
Proof.
  intros Hj. rewrite Exists_exists. split.
  - intros (k' & Hk' & Hne & E). rewrite start_alike in E.
    destruct (Nat.le_gt_cases j (depth dig s ks k)) as [|Hlt]; [done|]. exfalso.
    assert (Hd : depth dig s ks k <= pred j) by lia. rewrite depth_le in Hd. specialize (Hd k' Hk' Hne).
    assert (j <= common 241 (dig s k) (dig s k')); [|lia]. apply common_ge; [lia|]. intros i Hi. symmetry. by apply E.
  - intros Hd. destruct (depth_gt dig s ks k (pred j) ltac:(lia)) as (k' & Hk' & Hne & E).
    exists k'. split_and!; [done..|]. rewrite Nat.succ_pred in E by lia. rewrite alike_iff in E.
    apply start_alike. intros i Hi. symmetry. by apply E.
Qed.

Lemma elem_of_shared s ks j q : 0 < j <= 241 ->
  q ∈ shared dig s ks j <-> ∃ k, k ∈ ks /\ j <= depth dig s ks k /\ q = start dig s j k.
Proof.
  intros Hj. unfold shared. rewrite elem_of_remove_dups.
  change (map (start dig s j) ?l) with (start dig s j <$> l). rewrite elem_of_list_fmap. split.
  - intros (k & -> & [Hk Hin]%elem_of_list_filter). rewrite shared_depth in Hk by done. eauto.
  - intros (k & Hin & Hk & ->). exists k. split; [done|]. apply elem_of_list_filter. by rewrite shared_depth.
Qed.
Lemma shared_nodup s ks j : NoDup (shared dig s ks j).
Proof. apply NoDup_remove_dups. Qed.

Definition strings s ks : list (list N) := flat_map (shared dig s ks) (seq 1 241).
Lemma strings_length s ks : length (strings s ks) = branches dig s ks.
Proof.
  unfold strings, branches. generalize (seq 1 241). intros l. induction l as [|j l IH]; [done|].
  simpl. by rewrite app_length, IH.
Qed.
Lemma elem_of_strings s ks q : q ∈ strings s ks <->
  q ≠ [] /\ ∃ k, k ∈ ks /\ length q <= depth dig s ks k /\ q = start dig s (length q) k.
Proof.
  unfold strings. rewrite elem_of_list_In, in_flat_map. split.
  - intros (j & Hj%in_seq & Hq%elem_of_list_In). apply elem_of_shared in Hq as (k & Hk & Hd & ->); [|lia].
    rewrite start_length. split; [|eauto]. intros E. apply (f_equal length) in E. rewrite start_length in E. simpl in E. lia.
  - intros (Hne & k & Hk & Hd & E). pose proof (depth_max dig s ks k).
    assert (length q ≠ 0) by (by destruct q). exists (length q). rewrite in_seq, <- elem_of_list_In.
    split; [lia|]. apply elem_of_shared; [lia|eauto].
Qed.
Lemma strings_nodup s ks : NoDup (strings s ks).
Proof.
  unfold strings. assert (Hl : ∀ n a, NoDup (flat_map (shared dig s ks) (seq (S a) n)) /\
    ∀ q, q ∈ flat_map (shared dig s ks) (seq (S a) n) -> a < length q).
  { induction n as [|n IH]; intros a; [split; [constructor|intros q Hq; by apply elem_of_nil in Hq]|].
    cbn [seq flat_map]. destruct (IH (S a)) as [H1 H2].
    assert (Hs : ∀ q, q ∈ shared dig s ks (S a) -> length q = S a).
    { intros q Hq. unfold shared in Hq. rewrite elem_of_remove_dups in Hq.
      apply elem_of_list_In, in_map_iff in Hq as (k & <- & _). apply start_length. }
    split.
    - apply NoDup_app. split; [apply shared_nodup|]. split; [|done]. intros q Hq Hq'. apply Hs in Hq. apply H2 in Hq'. lia.
    - intros q [Hq|Hq]%elem_of_app; [apply Hs in Hq; lia|]. apply H2 in Hq. lia. }
  apply (Hl 241 0).
Qed.

(** Each of them belongs to two keys. *)
Lemma twice {A B} `{EqDecision B} (f : A -> B) (l : list A) : NoDup l ->
  (∀ x, x ∈ l -> ∃ y, y ∈ l /\ y ≠ x /\ f y = f x) ->
  2 * length (remove_dups (map f l)) <= length l.
Proof.
  intros Hnd H. set (ws := remove_dups (map f l)).
  assert (H1 : sum (λ w, sum (λ x, ind (bool_decide (f x = w))) l) ws <= length l).
  { rewrite sum_swap. rewrite <- (Nat.mul_1_l (length l)), <- (sum_const 1 l). apply sum_le. intros x _.
    assert (Hw : NoDup ws) by apply NoDup_remove_dups. clear -Hw. induction ws as [|w ws IH]; [unfold sum; simpl; lia|].
    apply NoDup_cons in Hw as [Hn Hw]. rewrite sum_cons. specialize (IH Hw).
    destruct (bool_decide (f x = w)) eqn:E; simpl; [|lia]. apply bool_decide_eq_true in E. subst w.
    rewrite (sum_ext _ (λ _, 0)), sum_const; [lia|]. intros w Hin. rewrite bool_decide_eq_false_2; [done|]. intros E. apply Hn. by rewrite E. }
  assert (H2 : sum (λ _, 2) ws <= sum (λ w, sum (λ x, ind (bool_decide (f x = w))) l) ws).
  { apply sum_le. intros w Hw. unfold ws in Hw. rewrite elem_of_remove_dups in Hw.
    apply elem_of_list_In, in_map_iff in Hw as (x & <- & Hx%elem_of_list_In).
    destruct (H x Hx) as (y & Hy & Hne & E).
    apply elem_of_Permutation in Hx as [l' Hp]. rewrite (sum_perm _ _ _ Hp), sum_cons.
    rewrite bool_decide_eq_true_2 by done. rewrite Hp in Hy. apply elem_of_cons in Hy as [|Hy]; [done|].
    apply elem_of_Permutation in Hy as [l2 Hp2]. rewrite (sum_perm _ _ _ Hp2), sum_cons.
    rewrite bool_decide_eq_true_2 by done. simpl. lia. }
  rewrite sum_const in H2. lia.
Qed.

Lemma filter_count {A} (P : A -> Prop) `{∀ x, Decision (P x)} (f : A -> bool) l :
  (∀ x, P x -> f x = true) -> length (filter P l) <= sum (λ x, ind (f x)) l.
Proof.
  intros HP. induction l as [|x l IH]; [done|]. rewrite sum_cons, filter_cons.
  destruct (decide (P x)) as [Hx|Hx]; [rewrite (HP _ Hx); simpl; lia|lia].
Qed.

Lemma shared_twice s ks j : NoDup ks -> 0 < j <= 241 ->
  2 * length (shared dig s ks j) <= sum (λ k, ind (pred j <? depth dig s ks k)) ks.
Proof.
  intros Hnd Hj. unfold shared.
  set (P := λ k, Exists (λ k', k' ≠ k /\ start dig s j k' = start dig s j k) ks).
  change (filter _ ks) with (filter P ks).
  transitivity (length (filter P ks)).
  - apply twice; [by apply NoDup_filter|]. intros k [HP Hk]%elem_of_list_filter. unfold P in HP.
    pose proof HP as (k' & Hk' & Hne & E)%Exists_exists. exists k'. split_and!; [|done|done].
    apply elem_of_list_filter. split; [|done]. apply Exists_exists. exists k. split_and!; [done|congruence|done].
  - assert (HP : ∀ k, P k -> (pred j <? depth dig s ks k) = true).
    { intros k Hk. apply Nat.ltb_lt. unfold P in Hk. rewrite shared_depth in Hk by done. lia. }
    by apply filter_count.
Qed.

Lemma branches_depth s ks : NoDup ks -> 2 * branches dig s ks <= total_depth dig s ks.
Proof.
  intros Hnd. unfold branches, total_depth. fold (sum (λ j, length (shared dig s ks j)) (seq 1 241)).
  fold (sum (depth dig s ks) ks). rewrite <- sum_mul.
  rewrite (sum_ext (depth dig s ks) (λ k, sum (λ j, ind (j <? depth dig s ks k)) (seq 0 241))) by (intros; apply steps, depth_max).
  rewrite sum_swap, <- seq_shift, sum_map. apply sum_le. intros j Hj%elem_of_seq.
  etransitivity; [apply shared_twice; [done|lia]|]. done.
Qed.

(** There are 16^j strings of j digits. *)
Fixpoint all_strings (j : nat) : list (list N) :=
  match j with O => [[]] | S j => flat_map (λ q, map (λ r, N.of_nat r :: q) (seq 0 16)) (all_strings j) end.
Lemma all_strings_length j : length (all_strings j) = 16 ^ j.
Proof.
  induction j as [|j IH]; [done|]. cbn [all_strings]. rewrite Nat.pow_succ_r', <- IH. clear IH.
  induction (all_strings j) as [|q l IH]; [done|]. cbn [flat_map]. rewrite app_length, IH, map_length, seq_length. simpl length. lia.
Qed.
Lemma all_strings_spec q : Forall (λ r, (r < 16)%N) q -> q ∈ all_strings (length q).
Proof.
  induction 1 as [|r q Hr Hq IH]; [set_solver +|]. cbn [length all_strings]. apply elem_of_list_In, in_flat_map.
  exists q. split; [by apply elem_of_list_In|]. apply in_map_iff. exists (N.to_nat r). rewrite N2Nat.id. split; [done|].
  apply in_seq. lia.
Qed.
Lemma shared_few s ks j : (∀ k d, (dig s k d < 16)%N) -> length (shared dig s ks j) <= 16 ^ j.
Proof.
  intros Hd. rewrite <- all_strings_length. apply submseteq_length, NoDup_submseteq; [apply shared_nodup|].
  intros q Hq. unfold shared in Hq. rewrite elem_of_remove_dups in Hq.
  apply elem_of_list_In, in_map_iff in Hq as (k & <- & _). rewrite <- (start_length s j k) at 2. apply all_strings_spec.
  unfold start. apply Forall_forall. intros r (i & -> & _)%elem_of_list_fmap. apply Hd.
Qed.

Lemma geometric1 a : 15 * sum (λ j, 16 ^ j) (seq 1 a) <= 16 * 16 ^ a.
Proof.
  rewrite <- seq_shift, sum_map. rewrite (sum_ext _ (λ j, 16 * 16 ^ j)) by (intros; apply Nat.pow_succ_r').
  rewrite sum_mul. pose proof (geometric a) as Hg. change (sum (Nat.pow 16) (seq 0 a)) with (sum (λ j, 16 ^ j) (seq 0 a)). lia.
Qed.

Lemma mean_branches ks seeds a : (∀ s k d, (dig s k d < 16)%N) -> NoDup ks -> spreads dig ks seeds ->
  30 * 16 ^ a * sum (λ s, branches dig s ks) seeds <= (32 * (16 ^ a * 16 ^ a) + length ks * length ks) * length seeds.
Proof.
  intros Hd Hnd Hs. set (c := λ j, sum (λ s, length (shared dig s ks j)) seeds).
  assert (Hsum : sum (λ s, branches dig s ks) seeds = sum c (seq 1 241)).
  { unfold branches. change (λ s, sum_list _) with (λ s, sum (λ j, length (shared dig s ks j)) (seq 1 241)). by rewrite sum_swap. }
  assert (Hc1 : ∀ j, c j <= length seeds * 16 ^ j).
  { intros j. unfold c. rewrite Nat.mul_comm, <- sum_const. apply sum_le. intros s _. by apply shared_few. }
  assert (Hc2 : ∀ j, 0 < j <= 241 -> 16 ^ j * (2 * c j) <= length ks * length ks * length seeds).
  { intros j Hj. assert (H1 : 2 * c j <= sum (λ k, count (λ s, pred j <? depth dig s ks k) seeds) ks).
    { unfold c. rewrite <- sum_mul. rewrite (sum_ext (λ k, count _ seeds) (λ k, sum (λ s, ind (pred j <? depth dig s ks k)) seeds)) by (intros; apply count_sum).
      rewrite sum_swap. apply sum_le. intros s _. by apply shared_twice. }
    assert (H2 : 16 ^ j * sum (λ k, count (λ s, pred j <? depth dig s ks k) seeds) ks <= sum (λ _, length ks * length seeds) ks).
    { rewrite <- sum_mul. apply sum_le. intros k Hk. destruct j as [|j]; [lia|]. simpl pred. apply deep_count; [done..|lia]. }
    rewrite sum_const in H2. generalize dependent (sum (λ k, count (λ s, pred j <? depth dig s ks k) seeds) ks). intros x H1 H2.
    generalize dependent (16 ^ j). intros p H2. nia. }
  assert (Hg : ∀ b, 15 * sum c (seq 1 b) <= 16 * 16 ^ b * length seeds).
  { intros b. pose proof (geometric1 b) as Hg.
    assert (sum c (seq 1 b) <= length seeds * sum (λ j, 16 ^ j) (seq 1 b)).
    { rewrite <- sum_mul. apply sum_le. intros j _. apply Hc1. }
    generalize dependent (sum (λ j, 16 ^ j) (seq 1 b)). intros x Hg H1. generalize dependent (16 ^ b). intros p Hg. nia. }
  rewrite Hsum. destruct (decide (a <= 241)) as [Ha|Ha].
  - replace 241 with (a + (241 - a)) by lia. rewrite seq_app, sum_app. change (1 + a) with (S a).
    pose proof (tail (λ j, 2 * c j) (length ks * length ks * length seeds) (241 - a) a ltac:(intros; apply Hc2; lia)) as Hb.
    rewrite sum_mul in Hb. specialize (Hg a).
    generalize dependent (sum c (seq (S a) (241 - a))). intros y Hb.
    generalize dependent (sum c (seq 1 a)). intros x Hg. generalize dependent (16 ^ a). intros p Hb Hg. nia.
  - specialize (Hg 241). assert (Hp : 16 ^ 241 <= 16 ^ a) by (apply Nat.pow_le_mono_r; lia).
    apply (Nat.mul_le_mono_r _ _ (length seeds)) in Hp.
    assert (Hx : 15 * sum c (seq 1 241) <= 16 * (16 ^ a * length seeds)) by (rewrite <- Nat.mul_assoc in Hg; lia).
    clear Hg Hp Hsum. apply (Nat.mul_le_mono_l _ _ (2 * 16 ^ a)) in Hx.
    generalize dependent (sum c (seq 1 241)). intros x Hx. generalize dependent (16 ^ a). intros p Hx. nia.
Qed.

(** Between n and the powers of 16 around it. *)
Lemma power_of n : 0 < n -> ∃ a, 16 ^ a <= n < 16 * 16 ^ a.
Proof.
  intros Hn. induction n as [|n IH]; [lia|]. destruct (decide (n = 0)) as [->|Hz]; [exists 0; simpl; lia|].
  destruct IH as (a & H1 & H2); [lia|]. destruct (decide (S n < 16 * 16 ^ a)) as [|H3]; [exists a; lia|].
  exists (S a). rewrite Nat.pow_succ_r'. lia.
Qed.

Lemma mean_linear ks seeds : (∀ s k d, (dig s k d < 16)%N) -> NoDup ks -> spreads dig ks seeds ->
  10 * sum (λ s, branches dig s ks) seeds <= 11 * length ks * length seeds.
Proof.
  intros Hd Hnd Hs. destruct (decide (length ks = 0)) as [E|E].
  { destruct ks; [|done]. rewrite (sum_ext _ (λ _, 0)), sum_const; [lia|]. intros s _.
    pose proof (branches_depth s [] ltac:(constructor)) as H. assert (total_depth dig s [] = 0) by done. lia. }
  destruct (power_of (length ks) ltac:(lia)) as (a & H1 & H2).
  pose proof (mean_branches ks seeds a Hd Hnd Hs) as H.
  generalize dependent (sum (λ s, branches dig s ks) seeds). intros x H.
  assert (0 < 16 ^ a) by lia. generalize dependent (16 ^ a). intros p H1 H2 H Hp.
  generalize dependent (length ks). intros n _ H1 H2 H.
  (* (p - n) (32 p - n) <= 0 *)
  assert (32 * (p * p) + n * n <= 33 * p * n) by nia.
  apply (Nat.mul_le_mono_pos_l _ _ (3 * p)); [lia|]. nia.
Qed.
End branches.
