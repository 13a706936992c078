(** The order and the depths of the entries of a container, in terms of the
    digits of the keys. *)
From Coq Require Import Sorted.
From stdpp Require Import base numbers list gmap.
From Verif Require Import GoInt Mem Amt BitsFacts Steps Tree Rep Paths Descend Insert Split Delete Remove Core Spec.
Local Open Scope nat_scope.

(** ** Shared digits *)
Lemma common_spec n : ∀ x y, common n x y <= n /\ (∀ i, i < common n x y -> x i = y i) /\
  (common n x y < n -> x (common n x y) ≠ y (common n x y)).
Proof.
  induction n as [|n IH]; intros x y; simpl.
  - split_and!; [lia|intros; lia|lia].
  - destruct (N.eqb_spec (x 0) (y 0)) as [E|E].
    + destruct (IH (λ i, x (S i)) (λ i, y (S i))) as (H1 & H2 & H3).
      split_and!; [lia| |].
      * intros [|i] Hi; [done|]. apply (H2 i). lia.
      * intros H. apply H3. lia.
    + split_and!; [lia|intros; lia|done].
Qed.
Lemma common_le n x y i : x i ≠ y i -> common n x y <= i.
Proof.
  intros H. destruct (common_spec n x y) as (_ & H2 & _).
  destruct (Nat.le_gt_cases (common n x y) i) as [|Hlt]; [done|]. by apply H2 in Hlt.
Qed.
Lemma common_ge n x y m : m <= n -> (∀ i, i < m -> x i = y i) -> m <= common n x y.
Proof.
  intros Hm H. destruct (common_spec n x y) as (H1 & _ & H3).
  destruct (Nat.le_gt_cases m (common n x y)) as [|Hlt]; [done|].
  exfalso. apply H3; [lia|]. by apply H.
Qed.

Lemma foldr_max_ge l n : n ∈ l -> n <= foldr max 0 l.
Proof. induction l as [|x l IH]; intros H; [by apply elem_of_nil in H|]. simpl. apply elem_of_cons in H as [->|H]; [lia|]. apply IH in H. lia. Qed.
Lemma foldr_max_le l n : (∀ x, x ∈ l -> x <= n) -> foldr max 0 l <= n.
Proof.
  induction l as [|x l IH]; intros H; simpl; [lia|]. apply Nat.max_lub.
  - apply H. left.
  - apply IH. intros y Hy. apply H. by right.
Qed.

(** ** Other entries below a level *)
Section tree.
Context {K : Type}.
Local Notation tree := (tree K).

Lemma canon_inhabited (t : tree) : canon t -> ∀ pre, ∃ e, e ∈ pleaves pre t.
Proof.
  induction t as [k p|a cs IH] using tree_ind'; intros Hc pre.
  - exists (pre, (k, p)). simpl. set_solver +.
  - destruct cs as [|c cs]; [by destruct Hc|]. destruct Hc as [_ [Hc _]].
    apply Forall_cons in IH as [IH _]. destruct (IH Hc (pre ++ [c.1])) as [e He].
    exists e. simpl. set_solver +He.
Qed.

Lemma canon_other (t : tree) : canon t -> is_leaf t = false -> wf t -> ∀ pre e, e ∈ pleaves pre t ->
  ∃ e', e' ∈ pleaves pre t /\ e' ≠ e /\ length e.1 <= length e'.1 /\
    take (length e.1 - 1) e'.1 = take (length e.1 - 1) e.1.
Proof.
  induction t as [k p|a cs IH] using tree_ind'; intros Hc Hl Hwf pre e He; [done|]. clear Hl.
  apply wf_node in Hwf as [Hrs Hwf].
  cbn [pleaves] in He |- *. fold (cspl pre cs) in He |- *.
  apply elem_of_list_In, in_flat_map in He as (c & Hin & He).
  apply elem_of_list_In in Hin. apply elem_of_list_In in He.
  assert (Hcs : Forall (λ c, canon c.2) cs).
  { destruct Hc as [_ Hc]. clear -Hc. induction cs as [|c cs IH]; constructor; [apply Hc|apply IH; apply Hc]. }
  destruct (is_leaf c.2) eqn:El.
  - (* the entry itself is in this level *)
    destruct c as [n [k p|]]; [|done]. cbn [fst snd pleaves] in He. apply elem_of_list_singleton in He as ->.
    apply elem_of_list_split in Hin as (cs1 & cs2 & ->).
    assert (∃ c', c' ∈ cs1 ++ cs2) as [c' Hc'].
    { destruct cs1 as [|c' cs1]; [|exists c'; set_solver +]. destruct cs2 as [|c' cs2]; [|exists c'; set_solver +].
      by destruct Hc. }
    assert (Hcc : canon c'.2).
    { rewrite Forall_forall in Hcs. apply Hcs. set_solver +Hc'. }
    destruct (canon_inhabited c'.2 Hcc (pre ++ [c'.1])) as [e' He'].
    exists e'. destruct (pleaves_pre _ _ _ He') as (s & Hs & _).
    split_and!.
    + apply elem_of_list_In, in_flat_map. exists c'. rewrite <- !elem_of_list_In. split; [set_solver +Hc'|done].
    + intros ->. cbn [fst] in Hs. rewrite <- app_assoc in Hs. apply app_inv_head in Hs. injection Hs as -> <-.
      rewrite map_app in Hrs. cbn [map fst] in Hrs. apply radixes_notin in Hrs. apply Hrs.
      rewrite <- map_app. apply elem_of_list_In, in_map. by apply elem_of_list_In.
    + rewrite Hs. cbn [fst]. rewrite !app_length. simpl. lia.
    + rewrite Hs. cbn [fst]. rewrite app_length. simpl. replace (length pre + 1 - 1) with (length pre) by lia.
      rewrite <- app_assoc. by rewrite !take_app.
  - rewrite Forall_forall in IH, Hcs, Hwf.
    destruct (IH c Hin (Hcs _ Hin) El (Hwf _ Hin) _ _ He) as (e' & He' & Hne & Hlen & Ht).
    exists e'. split_and!; try done.
    apply elem_of_list_In, in_flat_map. exists c. rewrite <- !elem_of_list_In. done.
Qed.
End tree.

Section order.
Context {K HS V CK U : Type} (F : fam K HS V CK U) (L : layout K V CK) (D : nat) (seed : N).
Local Notation world := (world V CK U).
Local Notation tree := (tree K).
Implicit Types (w : world) (T : tree) (k : K).
Local Notation nib := (nib F seed).
Local Notation nibs := (nibs F seed).
Local Notation Good := (Good F L D seed).

Lemma well_lookup q k p i : well F seed (q, (k, p)) -> i < length q -> q !! i = Some (nib k i).
Proof. unfold well. cbn [fst snd]. intros H Hi. rewrite H. by apply nibs_lookup. Qed.

(** Keys are visited in the order of their digits. *)
Lemma order_spec w r T : Good w r T ->
  StronglySorted (λ k k', digits_lt (nib k) (nib k')) (map fst (leaves T)).
Proof.
  intros HG. pose proof (Good_wf _ _ _ _ _ _ _ HG) as Hwf. assert (Hpl : placed F seed T) by apply HG.
  pose proof (pleaves_sorted T [] Hwf) as Hs. unfold placed in Hpl.
  rewrite <- (pleaves_leaves T []). revert Hpl Hs.
  generalize (pleaves [] T). intros l Hpl Hs. induction l as [|[q [k p]] l IH]; simpl; [constructor|].
  apply Forall_cons in Hpl as [Hw Hpl]. simpl in Hs. apply StronglySorted_inv in Hs as [Hs1 Hs2].
  constructor; [by apply IH|]. apply Forall_forall. intros k' Hk'.
  apply elem_of_list_In in Hk'. rewrite map_map in Hk'. apply in_map_iff in Hk' as ([q' [k2 p']] & E & Hin).
  simpl in E. subst k2. apply elem_of_list_In in Hin.
  rewrite Forall_forall in Hpl. rewrite Forall_forall in Hs2.
  assert (Hw' := Hpl _ Hin). destruct (Hs2 q') as (pre & a & b & s & s' & Hq & Hq' & Hlt).
  { apply elem_of_list_In, in_map_iff. exists (q', (k', p')). split; [done|]. by apply elem_of_list_In. }
  exists (length pre). split.
  - intros i Hi.
    assert (H1 : q !! i = Some (nib k i)).
    { eapply well_lookup; [exact Hw|]. simpl in Hq. rewrite Hq, app_length. lia. }
    assert (H2 : q' !! i = Some (nib k' i)).
    { eapply well_lookup; [exact Hw'|]. rewrite Hq', app_length. lia. }
    simpl in Hq. rewrite Hq, lookup_app_l in H1 by done. rewrite Hq', lookup_app_l in H2 by done. congruence.
  - assert (H1 : q !! length pre = Some (nib k (length pre))).
    { eapply well_lookup; [exact Hw|]. simpl in Hq. rewrite Hq, app_length. simpl. lia. }
    assert (H2 : q' !! length pre = Some (nib k' (length pre))).
    { eapply well_lookup; [exact Hw'|]. rewrite Hq', app_length. simpl. lia. }
    simpl in Hq. rewrite Hq, list_lookup_middle in H1 by done. rewrite Hq', list_lookup_middle in H2 by done.
    injection H1 as <-. injection H2 as <-. done.
Qed.

Lemma entries_diverge w r T e e' : Good w r T -> e ∈ pleaves [] T -> e' ∈ pleaves [] T -> e ≠ e' -> diverge e.1 e'.1.
Proof.
  intros HG He He' Hne. pose proof (pleaves_sorted T [] (Good_wf _ _ _ _ _ _ _ HG)) as Hs.
  apply elem_of_list_lookup in He as [i Hi]. apply elem_of_list_lookup in He' as [j Hj].
  eapply (sorted_diverge _ i j); [exact Hs| | |].
  - change (map fst) with (fmap (M:=list) (@fst (list N) (K * ptr))). by rewrite list_lookup_fmap, Hi.
  - change (map fst) with (fmap (M:=list) (@fst (list N) (K * ptr))). by rewrite list_lookup_fmap, Hj.
  - intros ->. congruence.
Qed.

Lemma entries_keys w r T e e' : Good w r T -> e ∈ pleaves [] T -> e' ∈ pleaves [] T -> e ≠ e' -> e.2.1 ≠ e'.2.1.
Proof.
  intros HG He He' Hne E. pose proof (entries_diverge _ _ _ _ _ HG He He' Hne) as Hd.
  assert (Hpl : placed F seed T) by apply HG. unfold placed in Hpl. rewrite Forall_forall in Hpl.
  assert (Hw := Hpl _ He). assert (Hw' := Hpl _ He'). unfold well in Hw, Hw'. rewrite Hw, Hw', E in Hd.
  by apply nibs_no_diverge in Hd.
Qed.

Lemma pleaves_hgt (t : tree) : ∀ pre e, e ∈ pleaves pre t -> length e.1 <= length pre + hgt t.
Proof.
  induction t as [k p|a cs IH] using tree_ind'; intros pre e He.
  - simpl in He. apply elem_of_list_singleton in He as ->. simpl. lia.
  - simpl in He. apply elem_of_list_In, in_flat_map in He as (c & Hin & He).
    apply elem_of_list_In in Hin. apply elem_of_list_In in He.
    rewrite Forall_forall in IH. apply (IH c Hin) in He. rewrite app_length in He. simpl in He.
    cbn [hgt]. assert (hgt c.2 <= list_max' (map (λ c0 : N * tree, hgt c0.2) cs)); [|lia].
    clear -Hin. induction cs as [|c0 cs IH]; [by apply elem_of_nil in Hin|].
    simpl. apply elem_of_cons in Hin as [->|Hin]; [lia|]. apply IH in Hin. lia.
Qed.
Lemma path_le w r T q x : Good w r T -> (q, x) ∈ pleaves [] T -> length q <= S D.
Proof. intros HG He. apply pleaves_hgt in He. simpl in He. assert (hgt T <= S D) by apply HG. lia. Qed.

(** The depth of an entry is that of its key among the stored ones. *)
Context `{EqDecision K, Countable K}.
Lemma depth_spec w r T e : D <= 240 -> Good w r T -> e ∈ pleaves [] T ->
  pdepth e = depth (λ s k, Descend.nib F s k) seed (map fst (leaves T)) e.2.1.
Proof.
  intros HD HG He. assert (Hwf := Good_wf _ _ _ _ _ _ _ HG).
  assert (Hpl : placed F seed T) by apply HG. unfold placed in Hpl. rewrite Forall_forall in Hpl.
  assert (Hw := Hpl _ He). destruct e as [q [k p]]. cbn [fst snd].
  assert (Hpos : 1 <= length q).
  { pose proof (Good_node _ _ _ _ _ _ _ HG) as Hn. destruct (pleaves_pre _ _ _ He) as (s & Hs & Hne).
    specialize (Hne Hn). simpl in Hs. subst s. destruct q; [done|simpl; lia]. }
  unfold pdepth. cbn [fst]. unfold depth. apply Nat.le_antisymm.
  - destruct (decide (length q = 1)) as [->|Hq]; [lia|].
    assert (∃ e', e' ∈ pleaves [] T /\ e' ≠ (q, (k, p)) /\ length q <= length e'.1 /\
      take (length q - 1) e'.1 = take (length q - 1) q) as (e' & He' & Hne & Hlen & Ht).
    { destruct HG as [[_ _ Hcan _] _]. destruct T as [|a cs]; [done|]. simpl in Hcan. unfold canon_cs in Hcan.
      apply wf_node in Hwf as [Hrs Hwf]. rewrite Forall_forall in Hcan, Hwf.
      apply elem_of_list_In, in_flat_map in He as (c & Hin & He). cbn [app] in He.
      apply elem_of_list_In in Hin. apply elem_of_list_In in He.
      destruct (is_leaf c.2) eqn:El.
      - exfalso. apply Hq. destruct c as [n [k' p'|]]; [|done]. simpl in He. apply elem_of_list_singleton in He. by injection He as -> _ _.
      - destruct (canon_other c.2 (Hcan _ Hin) El (Hwf _ Hin) _ _ He) as (e' & He' & Hne & Hlen & Ht).
        exists e'. split_and!; try done. apply elem_of_list_In, in_flat_map. exists c.
        cbn [app]. rewrite <- !elem_of_list_In. done. }
    assert (Hk := entries_keys _ _ _ _ _ HG He' He Hne). cbn [fst snd] in Hk.
    assert (Hw' := Hpl _ He'). destruct e' as [q' [k' p']]. cbn [fst snd] in *.
    assert (Hh : length q <= S D).
    { by eapply path_le. }
    etransitivity; [|apply foldr_max_ge].
    2:{ apply elem_of_list_In, in_map_iff. exists k'. split; [reflexivity|].
        rewrite <- (pleaves_leaves T []). rewrite map_map. apply in_map_iff. exists (q', (k', p')). split; [done|].
        by apply elem_of_list_In. }
    destruct (decide (k' = k)) as [|_]; [done|]. apply common_ge; [lia|].
    intros i Hi.
    assert (H1 : q !! i = Some (nib k i)) by (eapply well_lookup; [exact Hw|lia]).
    assert (H2 : q' !! i = Some (nib k' i)) by (eapply well_lookup; [exact Hw'|lia]).
    rewrite <- (lookup_take q (length q - 1) i) in H1 by lia.
    rewrite <- (lookup_take q' (length q - 1) i) in H2 by lia. rewrite Ht in H2. congruence.
  - apply foldr_max_le. intros x Hx. apply elem_of_list_In, in_map_iff in Hx as (k' & <- & Hk').
    destruct (decide (k' = k)) as [|Hne]; [lia|].
    rewrite <- (pleaves_leaves T []) in Hk'. rewrite map_map in Hk'. apply in_map_iff in Hk' as ([q' [k2 p']] & E & Hin).
    simpl in E. subst k2. apply elem_of_list_In in Hin.
    assert (Hd : diverge q q').
    { apply (entries_diverge _ _ _ _ _ HG He Hin). intros [= -> -> ->]. done. }
    apply diverge_lookup in Hd as (i & a & b & Ha & Hb & Hab).
    assert (Hi := lookup_lt_Some _ _ _ Ha). assert (Hi' := lookup_lt_Some _ _ _ Hb).
    rewrite (well_lookup q k p) in Ha by done. rewrite (well_lookup q' k' p') in Hb by (done || by apply Hpl).
    etransitivity; [apply (common_le _ _ _ i)|]; [|lia]. congruence.
Qed.

Lemma sum_depths w r T : D <= 240 -> Good w r T ->
  sumdep 0 T = total_depth (λ s k, Descend.nib F s k) seed (map fst (leaves T)).
Proof.
  intros HD HG. change 0 with (length (@nil N)) at 1. rewrite (sumdep_paths T []) by (by eapply Good_node). unfold total_depth.
  rewrite <- (pleaves_leaves T []) at 2. rewrite !map_map. f_equal.
  apply map_ext_in. intros e He. apply elem_of_list_In in He. by eapply depth_spec.
Qed.

End order.

(** The total depth depends only on the set of keys. *)
Lemma foldr_max_perm l1 l2 : l1 ≡ₚ l2 -> foldr max 0 l1 = foldr max 0 l2.
Proof. induction 1; simpl; lia. Qed.
Lemma sum_list_perm l1 l2 : l1 ≡ₚ l2 -> sum_list l1 = sum_list l2.
Proof. induction 1; simpl; lia. Qed.
Lemma total_depth_perm `{Countable K} (dig : N -> K -> nat -> N) s (ks1 ks2 : list K) : ks1 ≡ₚ ks2 ->
  total_depth dig s ks1 = total_depth dig s ks2.
Proof.
  intros E. unfold total_depth. rewrite (map_ext _ (depth dig s ks2)).
  - apply sum_list_perm. by rewrite E.
  - intros k. unfold depth. apply foldr_max_perm. by rewrite E.
Qed.
