(** Ghost trees: the abstract shape of a trie in memory, and contexts. *)
From stdpp Require Import base numbers list gmap.
From Verif Require Import GoInt Mem.
Local Open Scope nat_scope.

Section tree.
Context {K : Type}.

(** A leaf carries the stored key and the pointer of its item; a node the
    address of its link array and its children by radix. *)
Inductive tree : Type :=
  | Leaf (k : K) (p : ptr)
  | Node (a : loc) (cs : list (N * tree)).

Lemma tree_ind' (P : tree -> Prop) :
  (∀ k p, P (Leaf k p)) ->
  (∀ a cs, Forall (λ c, P c.2) cs -> P (Node a cs)) ->
  ∀ t, P t.
Proof.
  intros HL HN. fix IH 1. intros [k p|a cs]; [apply HL|].
  apply HN. induction cs as [|c cs IHcs]; constructor; [apply IH|exact IHcs].
Qed.

Definition is_leaf (t : tree) : bool := match t with Leaf _ _ => true | Node _ _ => false end.

Definition ptr_locs (p : ptr) : list loc := match p with At c => [c] | Nil => [] end.

(** All blocks of a tree. *)
Fixpoint locs (t : tree) : list loc :=
  match t with
  | Leaf _ p => ptr_locs p
  | Node a cs => a :: flat_map (λ c, locs c.2) cs
  end.

(** The entries, from left to right. *)
Fixpoint leaves (t : tree) : list (K * ptr) :=
  match t with
  | Leaf k p => [(k, p)]
  | Node _ cs => flat_map (λ c, leaves c.2) cs
  end.

Fixpoint list_max' (l : list nat) : nat :=
  match l with [] => 0 | x :: l => max x (list_max' l) end.

(** Number of node levels. *)
Fixpoint hgt (t : tree) : nat :=
  match t with
  | Leaf _ _ => 0
  | Node _ cs => S (list_max' (map (λ c, hgt c.2) cs))
  end.

(** Sum of the depths of the leaves of a tree whose root is at depth d; the
    depth of a leaf is that of the level that contains it. *)
Fixpoint sumdep (d : nat) (t : tree) : nat :=
  match t with
  | Leaf _ _ => 0
  | Node _ cs =>
      sum_list (map (λ c, if is_leaf c.2 then d else sumdep (S d) c.2) cs)
  end.

(** Non-root levels are neither empty nor a single leaf. *)
Fixpoint canon (t : tree) : Prop :=
  match t with
  | Leaf _ _ => True
  | Node _ cs =>
      match cs with
      | [] => False
      | [(_, Leaf _ _)] => False
      | _ => True
      end /\ foldr (λ c P, canon c.2 /\ P) True cs
  end.

Definition canon_cs (cs : list (N * tree)) : Prop := Forall (λ c, canon c.2) cs.
(** The root level may be empty or a single leaf. *)
Definition canon_root (t : tree) : Prop :=
  match t with Leaf _ _ => False | Node _ cs => canon_cs cs end.

Definition ok_level (cs : list (N * tree)) : Prop :=
  match cs with [] => False | [(_, Leaf _ _)] => False | _ => True end.

Lemma canon_node a cs : canon (Node a cs) <-> ok_level cs /\ canon_cs cs.
Proof.
  simpl. unfold ok_level, canon_cs.
  assert (foldr (λ c P, canon c.2 /\ P) True cs <-> Forall (λ c, canon c.2) cs) as ->; [|done].
  induction cs as [|c cs IH]; simpl.
  - split; [constructor|done].
  - rewrite Forall_cons, IH. done.
Qed.

(** ** Contexts *)

(** A node with a hole for one child. *)
Record frame : Type := Frame {
  fr_a : loc; fr_bef : list (N * tree); fr_r : N; fr_aft : list (N * tree) }.

(** The frames from the hole outwards. *)
Definition fill (f : frame) (t : tree) : tree :=
  Node (fr_a f) (fr_bef f ++ (fr_r f, t) :: fr_aft f).
Fixpoint plug (c : list frame) (t : tree) : tree :=
  match c with [] => t | f :: c => plug c (fill f t) end.

Lemma plug_app c1 c2 t : plug (c1 ++ c2) t = plug c2 (plug c1 t).
Proof. revert t. induction c1 as [|f c1 IH]; intros t; simpl; [done|]. apply IH. Qed.

(** The reference of the hole. *)
Definition hole (r : loc) (c : list frame) : lref :=
  match c with [] => RootRef r | f :: _ => SlotRef (fr_a f) (length (fr_bef f)) end.

(** The radixes on the path to the hole, from the root. *)
Definition rads (c : list frame) : list N := reverse (map fr_r c).

(** Blocks of a context. *)
Definition flocs (f : frame) : list loc :=
  fr_a f :: flat_map (λ c, locs c.2) (fr_bef f) ++ flat_map (λ c, locs c.2) (fr_aft f).
Definition clocs (c : list frame) : list loc := flat_map flocs c.

Lemma locs_fill f t : locs (fill f t) ≡ₚ flocs f ++ locs t.
Proof.
  unfold fill, flocs. simpl. rewrite flat_map_app. simpl.
  apply Permutation_cons; [done|]. rewrite <- app_assoc.
  apply Permutation_app_head. apply Permutation_app_comm.
Qed.

Lemma locs_plug c t : locs (plug c t) ≡ₚ clocs c ++ locs t.
Proof.
  revert t. induction c as [|f c IH]; intros t; [done|]. cbn [plug].
  change (clocs (f :: c)) with (flocs f ++ clocs c).
  rewrite IH, locs_fill. rewrite app_assoc. apply Permutation_app_tail.
  apply Permutation_app_comm.
Qed.

(** Entries of a context. *)
Definition fleaves (f : frame) : list (K * ptr) :=
  flat_map (λ c, leaves c.2) (fr_bef f) ++ flat_map (λ c, leaves c.2) (fr_aft f).
Definition cleaves (c : list frame) : list (K * ptr) := flat_map fleaves c.

Lemma leaves_fill f t : leaves (fill f t) ≡ₚ fleaves f ++ leaves t.
Proof.
  unfold fill, fleaves. simpl. rewrite flat_map_app. simpl.
  rewrite <- app_assoc. apply Permutation_app_head. apply Permutation_app_comm.
Qed.

Lemma leaves_plug c t : leaves (plug c t) ≡ₚ cleaves c ++ leaves t.
Proof.
  revert t. induction c as [|f c IH]; intros t; [done|]. cbn [plug].
  change (cleaves (f :: c)) with (fleaves f ++ cleaves c).
  rewrite IH, leaves_fill. rewrite app_assoc. apply Permutation_app_tail.
  apply Permutation_app_comm.
Qed.

(** Depth sums of contexts. *)
Definition csdep (d : nat) (cs : list (N * tree)) : nat :=
  sum_list (map (λ c, if is_leaf c.2 then d else sumdep (S d) c.2) cs).

Lemma csdep_app d cs1 cs2 : csdep d (cs1 ++ cs2) = csdep d cs1 + csdep d cs2.
Proof. unfold csdep. induction cs1 as [|c cs1 IH]; simpl; lia. Qed.
Lemma csdep_cons d c cs :
  csdep d (c :: cs) = (if is_leaf c.2 then d else sumdep (S d) c.2) + csdep d cs.
Proof. done. Qed.
Lemma sumdep_node d a cs : sumdep d (Node a cs) = csdep d cs.
Proof. done. Qed.

Fixpoint cdep (c : list frame) : nat :=
  match c with
  | [] => 0
  | f :: c => csdep (length c) (fr_bef f) + csdep (length c) (fr_aft f) + cdep c
  end.

Lemma sumdep_plug c t : is_leaf t = false ->
  sumdep 0 (plug c t) = cdep c + sumdep (length c) t.
Proof.
  revert t. induction c as [|f c IH]; intros t Ht; cbn [plug cdep length]; [done|].
  rewrite IH by done. unfold fill. rewrite sumdep_node, csdep_app, csdep_cons. simpl.
  rewrite Ht. lia.
Qed.

(** ** Heights *)
Lemma list_max'_le l n : list_max' l <= n <-> Forall (λ x, x <= n) l.
Proof.
  induction l as [|x l IH]; simpl.
  - split; [constructor|lia].
  - rewrite Forall_cons, <- IH. lia.
Qed.

Lemma hgt_node_le a cs n : hgt (Node a cs) <= S n <-> Forall (λ c, hgt c.2 <= n) cs.
Proof.
  simpl. rewrite <- Nat.succ_le_mono, list_max'_le.
  rewrite Forall_map. done.
Qed.

Lemma hgt_fill_lt f t : S (hgt t) <= hgt (fill f t).
Proof.
  unfold fill. simpl. apply le_n_S. induction (fr_bef f) as [|c cs IH]; simpl; lia.
Qed.

Lemma hgt_plug c t : length c + hgt t <= hgt (plug c t).
Proof.
  revert t. induction c as [|f c IH]; intros t; simpl; [done|].
  pose proof (IH (fill f t)). pose proof (hgt_fill_lt f t). lia.
Qed.

Lemma hgt_plug_mono c t t' n : hgt (plug c t) <= n -> length c + hgt t' <= n ->
  hgt (plug c t') <= n.
Proof.
  revert t t'. induction c as [|f c IH]; intros t t' H1 H2; simpl in *; [done|].
  eapply IH; [exact H1|].
  pose proof (hgt_plug c (fill f t)) as H3.
  destruct n as [|n]; [lia|].
  assert (length c + hgt (fill f t) <= S n) as H4 by lia.
  assert (hgt (fill f t') <= S n - length c) as H5; [|lia].
  destruct (S n - length c) as [|n'] eqn:E; [unfold fill in H4; simpl in H4; lia|].
  unfold fill in *. apply hgt_node_le.
  assert (hgt (Node (fr_a f) (fr_bef f ++ (fr_r f, t) :: fr_aft f)) <= S n') as H6 by lia.
  apply hgt_node_le in H6. rewrite Forall_app, Forall_cons in *. simpl in *.
  destruct H6 as (?&?&?). split_and!; try done. lia.
Qed.

(** ** Canonical contexts *)
Fixpoint canon_ctx (c : list frame) : Prop :=
  match c with
  | [] => True
  | f :: c =>
      canon_cs (fr_bef f) /\ canon_cs (fr_aft f) /\
      (* either the outermost frame, or a level that is fine with a node in the hole *)
      canon_ctx c
  end.

Lemma ok_level_app_node bef r a cs aft : ok_level (bef ++ (r, Node a cs) :: aft).
Proof.
  destruct bef as [|[r1 t1] [|c bef]]; simpl; try done; by destruct t1.
Qed.

Lemma ok_level_ge2 cs : 2 <= length cs -> ok_level cs.
Proof. destruct cs as [|[r1 [|]] [|c cs]]; simpl; try done; lia. Qed.

Lemma canon_root_plug c a cs :
  canon_root (plug c (Node a cs)) <->
  canon_ctx c /\ canon_cs cs /\ (c ≠ [] -> ok_level cs).
Proof.
  revert a cs. induction c as [|f c IH]; intros a cs; cbn [plug].
  - simpl. naive_solver.
  - unfold fill. rewrite IH. unfold canon_cs at 1. rewrite Forall_app, Forall_cons.
    cbn [canon_ctx snd]. rewrite canon_node. fold (canon_cs (fr_bef f)). fold (canon_cs (fr_aft f)).
    split.
    + intros (H1 & (H2 & (H3 & H4) & H5) & H6). naive_solver.
    + intros ((H1 & H2 & H3) & H4 & H5). split_and!; try done.
      * by apply H5.
      * intros _. apply ok_level_app_node.
Qed.

(** Inner levels hold at least two entries. *)
Lemma canon_size t : canon t -> is_leaf t = false -> 2 <= length (leaves t).
Proof.
  assert (∀ t, canon t -> 1 <= length (leaves t) /\ (is_leaf t = false -> 2 <= length (leaves t)))
    as Hall; [|intros; by apply Hall].
  clear t. induction t as [k p|a cs IH] using tree_ind'; intros Hc.
  - simpl. split; [lia|done].
  - apply canon_node in Hc as [Hok Hcs].
    assert (2 <= length (leaves (Node a cs))); [|by split; [lia|]].
    destruct cs as [|[r1 t1] cs]; [done|].
    apply Forall_cons in IH as [IH1 IH2]. apply Forall_cons in Hcs as [Hc1 Hc2]. simpl in *.
    destruct (IH1 Hc1) as [H1 H1']. rewrite app_length.
    destruct cs as [|[r2 t2] cs].
    + destruct t1 as [k p|a' cs']; [done|]. specialize (H1' eq_refl). lia.
    + apply Forall_cons in IH2 as [IH2 _]. apply Forall_cons in Hc2 as [Hc2 _]. simpl in *.
      destruct (IH2 Hc2) as [H2 _]. rewrite app_length. lia.
Qed.
End tree.
Global Arguments tree : clear implicits.
Global Arguments frame : clear implicits.
