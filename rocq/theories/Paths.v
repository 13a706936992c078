(** Entries with their paths: where the entries of a tree sit. *)
From Coq Require Import Sorted.
From stdpp Require Import base numbers list gmap.
From Verif Require Import GoInt Mem Amt BitsFacts Steps Tree Rep.
Local Open Scope nat_scope.

(** Two digit sequences that differ at some position; the first one is smaller
    there. *)
Definition lexlt (x y : list N) : Prop :=
  ∃ q a b s s', x = q ++ a :: s /\ y = q ++ b :: s' /\ (a < b)%N.
Definition diverge (x y : list N) : Prop :=
  ∃ q a b s s', x = q ++ a :: s /\ y = q ++ b :: s' /\ a ≠ b.

Lemma lexlt_diverge x y : lexlt x y -> diverge x y.
Proof. intros (q & a & b & s & s' & -> & -> & H). exists q, a, b, s, s'. split_and!; try done. lia. Qed.
Lemma diverge_sym x y : diverge x y -> diverge y x.
Proof. intros (q & a & b & s & s' & -> & -> & H). exists q, b, a, s', s. done. Qed.
Lemma diverge_lookup x y : diverge x y -> ∃ i a b, x !! i = Some a /\ y !! i = Some b /\ a ≠ b.
Proof.
  intros (q & a & b & s & s' & -> & -> & H). exists (length q), a, b.
  split_and!; [by apply list_lookup_middle|by apply list_lookup_middle|done].
Qed.
Lemma diverge_app_r x y z : diverge x y -> diverge x (y ++ z).
Proof.
  intros (q & a & b & s & s' & -> & -> & H). exists q, a, b, s, (s' ++ z).
  split_and!; try done. by rewrite <- app_assoc.
Qed.

Section paths.
Context {K : Type}.
Local Notation tree := (tree K).
Local Notation frame := (frame K).
Local Notation entry := (list N * (K * ptr))%type.

(** All levels have increasing radixes below 16. *)
Fixpoint wf (t : tree) : Prop :=
  match t with
  | Leaf _ _ => True
  | Node _ cs => radixes (map fst cs) /\ foldr (λ c P, wf c.2 /\ P) True cs
  end.
Lemma wf_node a cs : wf (Node a cs) <-> radixes (map fst cs) /\ Forall (λ c, wf c.2) cs.
Proof.
  simpl. assert (foldr (λ c P, wf c.2 /\ P) True cs <-> Forall (λ c, wf c.2) cs) as ->; [|done].
  induction cs as [|c cs IH]; simpl.
  - split; [constructor|done].
  - rewrite Forall_cons, IH. done.
Qed.

(** The entries of a tree, with the radixes that lead to them. *)
Fixpoint pleaves (pre : list N) (t : tree) : list entry :=
  match t with
  | Leaf k p => [(pre, (k, p))]
  | Node _ cs => flat_map (λ c, pleaves (pre ++ [c.1]) c.2) cs
  end.
Definition cspl (pre : list N) (cs : list (N * tree)) : list entry :=
  flat_map (λ c, pleaves (pre ++ [c.1]) c.2) cs.
Fixpoint ctxpl (c : list frame) : list entry :=
  match c with
  | [] => []
  | f :: c => cspl (rads c) (fr_bef f) ++ cspl (rads c) (fr_aft f) ++ ctxpl c
  end.

Lemma rads_cons (f : frame) c : rads (f :: c) = rads c ++ [fr_r f].
Proof. unfold rads. simpl. by rewrite reverse_cons. Qed.
Lemma rads_length (c : list frame) : length (rads c) = length c.
Proof. unfold rads. by rewrite reverse_length, map_length. Qed.
Lemma rads_app (c1 c2 : list frame) : rads (c1 ++ c2) = rads c2 ++ rads c1.
Proof. unfold rads. by rewrite map_app, reverse_app. Qed.

Lemma pleaves_leaves t : ∀ pre, map snd (pleaves pre t) = leaves t.
Proof.
  induction t as [k p|a cs IH] using tree_ind'; intros pre; [done|]. simpl.
  induction IH as [|c cs Hc Hcs IHcs]; simpl; [done|]. rewrite map_app, Hc. by f_equal.
Qed.

Lemma cspl_app pre cs1 cs2 : cspl pre (cs1 ++ cs2) = cspl pre cs1 ++ cspl pre cs2.
Proof. apply flat_map_app. Qed.
Lemma cspl_cons pre c cs : cspl pre (c :: cs) = pleaves (pre ++ [c.1]) c.2 ++ cspl pre cs.
Proof. done. Qed.

Lemma pleaves_plug c : ∀ t, pleaves [] (plug c t) ≡ₚ ctxpl c ++ pleaves (rads c) t.
Proof.
  induction c as [|f c IH]; intros t; [done|]. cbn [plug ctxpl]. rewrite IH.
  unfold fill. cbn [pleaves]. fold (cspl (rads c) (fr_bef f ++ (fr_r f, t) :: fr_aft f)).
  rewrite cspl_app, cspl_cons. cbn [fst snd]. rewrite rads_cons. solve_Permutation.
Qed.

Lemma wf_plug c : ∀ t, wf (plug c t) -> wf t.
Proof.
  induction c as [|f c IH]; intros t H; [done|]. cbn [plug] in H. apply IH in H.
  unfold fill in H. apply wf_node in H as [_ H]. apply Forall_app in H as [_ H].
  by apply Forall_cons in H as [H _].
Qed.

(** Paths extend the path of the tree. *)
Lemma pleaves_pre t : ∀ pre x, x ∈ pleaves pre t -> ∃ s, x.1 = pre ++ s /\ (is_leaf t = false -> s ≠ []).
Proof.
  induction t as [k p|a cs IH] using tree_ind'; intros pre x Hx.
  - simpl in Hx. apply elem_of_list_singleton in Hx as ->. exists []. rewrite app_nil_r. done.
  - simpl in Hx. apply elem_of_list_In, in_flat_map in Hx as (c & Hc & Hx).
    apply elem_of_list_In in Hc; apply elem_of_list_In in Hx.
    rewrite Forall_forall in IH. destruct (IH c Hc _ _ Hx) as (s & -> & _).
    exists (c.1 :: s). by rewrite <- app_assoc.
Qed.

Lemma cspl_pre pre cs x : x ∈ cspl pre cs -> ∃ c s, c ∈ cs /\ x ∈ pleaves (pre ++ [c.1]) c.2 /\ x.1 = pre ++ c.1 :: s.
Proof.
  intros Hx. apply elem_of_list_In, in_flat_map in Hx as (c & Hc & Hx).
  apply elem_of_list_In in Hc; apply elem_of_list_In in Hx. destruct (pleaves_pre _ _ _ Hx) as (s & Hs & _).
  exists c, s. rewrite Hs, <- app_assoc. done.
Qed.

(** Entries outside the hole diverge from the path to the hole. *)
Lemma ctxpl_diverge c : ∀ t x, wf (plug c t) -> x ∈ ctxpl c -> diverge x.1 (rads c).
Proof.
  induction c as [|f c IH]; intros t x Hwf Hx; cbn [plug ctxpl] in *; [set_solver|].
  assert (Hr : radixes (map fst (fr_bef f) ++ fr_r f :: map fst (fr_aft f))).
  { apply wf_plug in Hwf. apply wf_node in Hwf as [H _]. by rewrite map_app in H. }
  assert (Hside : ∀ cs, (∀ y, y ∈ map fst cs -> y ≠ fr_r f) -> x ∈ cspl (rads c) cs -> diverge x.1 (rads (f :: c))).
  { intros cs Hcs Hin. apply cspl_pre in Hin as (c0 & s & Hc & _ & ->).
    rewrite rads_cons. exists (rads c), c0.1, (fr_r f), s, []. split_and!; try done.
    apply Hcs. apply elem_of_list_In, in_map. by apply elem_of_list_In. }
  apply radixes_app_cons in Hr as (_ & _ & _ & Hb & Ha). rewrite Forall_forall in Hb, Ha.
  rewrite !elem_of_app in Hx. destruct Hx as [Hx|[Hx|Hx]].
  - eapply Hside; [|exact Hx]. intros y Hy. specialize (Hb _ Hy). lia.
  - eapply Hside; [|exact Hx]. intros y Hy. specialize (Ha _ Hy). lia.
  - rewrite rads_cons. apply diverge_app_r. by eapply IH.
Qed.

(** The paths of a tree are in strictly increasing order. *)
Lemma pleaves_sorted t : ∀ pre, wf t -> StronglySorted lexlt (map fst (pleaves pre t)).
Proof.
  induction t as [k p|a cs IH] using tree_ind'; intros pre Hwf.
  - simpl. repeat constructor.
  - apply wf_node in Hwf as [Hr Hcs]. cbn [pleaves]. fold (cspl pre cs).
    induction cs as [|c cs IHcs]; [constructor|].
    rewrite cspl_cons, map_app. apply Forall_cons in IH as [IH1 IH2]. apply Forall_cons in Hcs as [Hc1 Hc2].
    apply (radixes_app_cons []) in Hr as (_ & Hr2 & Hr16 & _ & Hlt).
    specialize (IHcs IH2 Hr2 Hc2). specialize (IH1 (pre ++ [c.1]) Hc1).
    assert (Hx : ∀ x y, x ∈ map fst (pleaves (pre ++ [c.1]) c.2) -> y ∈ map fst (cspl pre cs) -> lexlt x y).
    { intros x y Hx Hy.
      apply elem_of_list_In, in_map_iff in Hx as (x' & <- & Hx). apply elem_of_list_In, in_map_iff in Hy as (y' & <- & Hy).
      apply elem_of_list_In in Hx; apply elem_of_list_In in Hy.
      apply pleaves_pre in Hx as (s & -> & _). apply cspl_pre in Hy as (c' & s' & Hc' & _ & ->).
      exists pre, c.1, c'.1, s, s'. split_and!; [by rewrite <- app_assoc|done|].
      rewrite Forall_forall in Hlt. apply Hlt. apply elem_of_list_In, in_map. by apply elem_of_list_In. }
    revert Hx IH1. induction (map fst (pleaves (pre ++ [c.1]) c.2)) as [|x l IHl]; intros Hx Hs; simpl; [done|].
    inversion Hs as [|? ? Hs1 Hs2]; subst. constructor.
    + apply IHl; [|done]. intros. apply Hx; [|done]. by right.
    + apply Forall_app. split; [done|]. apply Forall_forall. intros y Hy. apply Hx; [by left|done].
Qed.

Lemma sorted_diverge (l : list (list N)) i j x y : StronglySorted lexlt l ->
  l !! i = Some x -> l !! j = Some y -> i ≠ j -> diverge x y.
Proof.
  assert (∀ i j x y, StronglySorted lexlt l -> l !! i = Some x -> l !! j = Some y -> i < j -> diverge x y) as Hlt.
  { clear. induction l as [|z l IH]; intros i j x y Hs Hi Hj Hij; [done|].
    inversion Hs as [|? ? Hs1 Hs2]; subst. destruct i as [|i], j as [|j]; simpl in *; try lia.
    - injection Hi as ->. rewrite Forall_forall in Hs2. apply lexlt_diverge, Hs2.
      by eapply elem_of_list_lookup_2.
    - eapply IH; [done|done|done|lia]. }
  intros Hs Hi Hj Hne. destruct (Nat.lt_total i j) as [H|[H|H]]; [by eapply Hlt|done|].
  apply diverge_sym. by eapply Hlt.
Qed.

(** ** Represented trees *)
Context {V CK : Type} (L : layout K V CK).
Lemma rep_wf m t : ∀ d lk, rep L m d lk t -> wf t.
Proof.
  induction t as [k p|a cs IH] using tree_ind'; intros d lk Hr; [done|].
  apply rep_node_inv in Hr as (-> & Hrs & lks & rest & Ha & Hlen & Hf).
  apply wf_node. split; [done|]. clear Ha Hlen Hrs.
  induction Hf as [|lk c lks cs Hr Hf IHf]; [constructor|].
  apply Forall_cons in IH as [IH1 IH2]. constructor; [by eapply IH1|by apply IHf].
Qed.
Lemma MapI_wf {U} B (w : world V CK U) r seed T : MapI L B w r seed T -> wf T.
Proof. intros [(rt & _ & _ & Hrep & _) _ _ _]. by eapply rep_wf. Qed.

(** ** Depths *)
(** The number of radixes before the last one. *)
Definition pdepth (x : entry) : nat := length x.1 - 1.

Lemma sum_list_map_app {A} (g : A -> nat) l1 l2 : sum_list (map g (l1 ++ l2)) = sum_list (map g l1) + sum_list (map g l2).
Proof. induction l1 as [|x l1 IH]; simpl; lia. Qed.

Lemma sumdep_paths t : ∀ pre, is_leaf t = false ->
  sumdep (length pre) t = sum_list (map pdepth (pleaves pre t)).
Proof.
  induction t as [k p|a cs IH] using tree_ind'; intros pre Hl; [done|]. clear Hl.
  rewrite sumdep_node. cbn [pleaves]. fold (cspl pre cs).
  induction cs as [|c cs IHcs]; [done|]. apply Forall_cons in IH as [IH1 IH2].
  rewrite csdep_cons, cspl_cons, sum_list_map_app, IHcs by done. f_equal.
  destruct (is_leaf c.2) eqn:E.
  - destruct (c.2); [|done]. simpl. unfold pdepth. simpl. rewrite app_length. simpl. lia.
  - rewrite <- IH1 by done. rewrite app_length. simpl. f_equal. lia.
Qed.
End paths.
