(** Overwriting the key of a stored entry, and a bound on the depth counter. *)
From stdpp Require Import base numbers list gmap.
From Verif Require Import GoInt Mem Amt BitsFacts Steps Tree Rep Paths Insert Core Heap Weak WeakHeap.
Local Open Scope nat_scope.

Section rekey.
Context {K : Type}.
Local Notation tree := (tree K).
Implicit Types (T t : tree).
Variables (p : loc) (k' : K).

(** The key of an entry after the caller wrote k' into the struct at p. *)
Definition newkey (q : ptr) (k : K) : K :=
  match q with At a => if decide (a = p) then k' else k | Nil => k end.

Fixpoint rekey (t : tree) : tree :=
  match t with
  | Leaf k q => Leaf (newkey q k) q
  | Node a cs => Node a (map (λ c, (c.1, rekey c.2)) cs)
  end.
Definition rekeycs (cs : list (N * tree)) := map (λ c, (c.1, rekey c.2)) cs.

Lemma rekey_leaf t : is_leaf (rekey t) = is_leaf t.
Proof. by destruct t. Qed.
Lemma rekey_fst cs : map fst (rekeycs cs) = map fst cs.
Proof. unfold rekeycs. by rewrite map_map. Qed.
Lemma rekey_lrads cs : lrads (rekeycs cs) = lrads cs.
Proof.
  induction cs as [|c cs IH]; [done|]. change (rekeycs (c :: cs)) with ((c.1, rekey c.2) :: rekeycs cs).
  rewrite !lrads_cons, IH. cbn [fst snd]. by rewrite rekey_leaf.
Qed.
Lemma rekey_locs t : locs (rekey t) = locs t.
Proof.
  induction t as [k q|a cs IH] using tree_ind'; [done|]. cbn [rekey locs]. f_equal.
  induction IH as [|c cs Hc IH IH2]; [done|]. simpl. by rewrite Hc, IH2.
Qed.
Lemma rekey_leaves t : leaves (rekey t) = map (λ e, (newkey e.2 e.1, e.2)) (leaves t).
Proof.
  induction t as [k q|a cs IH] using tree_ind'; [done|]. cbn [rekey leaves].
  induction IH as [|c cs Hc IH IH2]; [done|]. simpl. by rewrite Hc, IH2, map_app.
Qed.
Lemma rekey_pleaves t : ∀ pre, pleaves pre (rekey t) = map (λ e, (e.1, (newkey e.2.2 e.2.1, e.2.2))) (pleaves pre t).
Proof.
  induction t as [k q|a cs IH] using tree_ind'; intros pre; [done|]. cbn [rekey pleaves].
  induction IH as [|c cs Hc IH IH2]; [done|]. simpl. by rewrite Hc, IH2, map_app.
Qed.
Lemma rekey_hgt t : hgt (rekey t) = hgt t.
Proof.
  induction t as [k q|a cs IH] using tree_ind'; [done|]. cbn [rekey hgt]. f_equal.
  induction IH as [|c cs Hc IH IH2]; [done|]. simpl. by rewrite Hc, IH2.
Qed.
Lemma rekey_sumdep t : ∀ d, sumdep d (rekey t) = sumdep d t.
Proof.
  induction t as [k q|a cs IH] using tree_ind'; intros d; [done|]. cbn [rekey sumdep].
  induction IH as [|c cs Hc IH IH2]; [done|]. simpl. rewrite Hc, rekey_leaf. simpl in IH2. by rewrite IH2.
Qed.
Lemma rekey_canon t : canon t -> canon (rekey t).
Proof.
  induction t as [k q|a cs IH] using tree_ind'; [done|]. change (rekey (Node a cs)) with (Node a (rekeycs cs)).
  rewrite !canon_node. intros [Ho Hc]. split.
  - clear -Ho. destruct cs as [|[? []] [|]]; done.
  - unfold canon_cs in *. unfold rekeycs. clear Ho. induction IH as [|c cs Hc0 IH IH2]; [constructor|].
    apply Forall_cons in Hc as [H1 H2]. constructor; [by apply Hc0|by apply IH2].
Qed.
Lemma rekey_canon_root t : canon_root t -> canon_root (rekey t).
Proof.
  destruct t as [k q|a cs]; [done|]. simpl. unfold canon_cs. intros H. apply Forall_map.
  eapply Forall_impl; [exact H|]. intros c. apply rekey_canon.
Qed.

Context {V CK U : Type} (L : layout K V CK).
Hypothesis Hcell : ly_cell L = true.
Hypothesis Hall : ∀ k, ly_ok L k.
Hypothesis Hlink : ∀ k1 k2 q, ly_leaf L k1 q = ly_leaf L k2 q.
Local Notation block := (block V CK).
Local Notation world := (world V CK U).
Implicit Types (w : world) (m : gmap loc block).

Lemma rekey_rep m v ck t : m !! p = Some (BKv v ck) -> ∀ d lk, rep L m d lk t ->
  rep L (<[p := BKv v (ly_ck L k')]> m) d lk (rekey t).
Proof.
  intros Hp. induction t as [k q|a cs IH] using tree_ind'; intros d lk Hr.
  - apply rep_leaf_inv in Hr as (-> & _ & Hc). cbn [rekey].
    rewrite (Hlink k (newkey q k)). constructor; [apply Hall|].
    unfold cell in *. rewrite Hcell in *. destruct Hc as (a & v0 & -> & Ha).
    destruct (decide (a = p)) as [->|Hne].
    + exists p, v. cbn [newkey]. rewrite decide_True by done. by rewrite lookup_insert.
    + exists a, v0. cbn [newkey]. rewrite decide_False by done. by rewrite lookup_insert_ne.
  - apply rep_node_inv in Hr as (-> & Hrs & lks & rest & Ha & Hlen & Hf).
    change (rekey (Node a cs)) with (Node a (rekeycs cs)).
    rewrite <- (rekey_fst cs), <- (rekey_lrads cs).
    apply (rep_node _ _ _ _ _ lks rest).
    + rewrite lookup_insert_ne; [done|]. intros ->. congruence.
    + rewrite Hlen. f_equal. unfold rekeycs. by rewrite map_length.
    + by rewrite rekey_fst.
    + clear Ha Hlen Hrs. unfold rekeycs. induction Hf as [|lk c lks cs Hr Hf IHf]; constructor.
      * apply Forall_cons in IH as [IH _]. by apply IH.
      * apply Forall_cons in IH as [_ IH]. by apply IHf.
Qed.

Lemma rekey_MapI B w r seed T v ck : w_mem w !! p = Some (BKv v ck) -> MapI L B w r seed T ->
  MapI L B (set_mem w (<[p := BKv v (ly_ck L k')]> (w_mem w))) r seed (rekey T).
Proof.
  intros Hp [(rt & Hr & Hs & Hrep & Hl & Hd & Hpth) Hnd Hc Hh]. constructor.
  - exists rt. split_and!; try done.
    + simpl. rewrite lookup_insert_ne; [done|]. intros ->. congruence.
    + by eapply rekey_rep.
    + by rewrite rekey_leaves, map_length.
    + by rewrite rekey_sumdep.
  - by rewrite rekey_locs.
  - by apply rekey_canon_root.
  - by rewrite rekey_hgt.
Qed.

Lemma WInv_rekey (PL : N -> tree -> Prop) D w G v ck : (∀ s T, PL s T -> PL s (rekey T)) ->
  w_mem w !! p = Some (BKv v ck) -> WInv L PL D w G ->
  WInv L PL D (set_mem w (<[p := BKv v (ly_ck L k')]> (w_mem w))) ((λ x, (x.1, rekey x.2)) <$> G).
Proof.
  intros HPL Hp [Hok Hg Hsep]. constructor.
  - intros l b Hb. simpl in *. destruct (decide (l = p)) as [->|Hne]; [by eapply Hok|].
    rewrite lookup_insert_ne in Hb by done. by eapply Hok.
  - intros h s T Hh. rewrite lookup_fmap in Hh. destruct (G !! h) as [[s0 T0]|] eqn:E; [|done].
    simpl in Hh. injection Hh as <- <-. destruct (Hg _ _ _ E) as [HM HPT]. split; [|by apply HPL].
    by eapply rekey_MapI.
  - intros h1 s1 T1 h2 s2 T2 Hne H1 H2 l Hl Hl2.
    rewrite lookup_fmap in H1, H2.
    destruct (G !! h1) as [[a1 t1]|] eqn:E1; [|done]. destruct (G !! h2) as [[a2 t2]|] eqn:E2; [|done].
    simpl in H1, H2. injection H1 as <- <-. injection H2 as <- <-.
    unfold foot in *. rewrite rekey_locs in *. by eapply (Hsep h1 _ _ h2).
Qed.
End rekey.

(** The depth counter is at most D for each entry. *)
Lemma sumdep_le {K} (T : tree K) : ∀ d B, is_leaf T = false -> d + hgt T <= S B -> sumdep d T <= B * length (leaves T).
Proof.
  induction T as [k q|a cs IH] using tree_ind'; intros d B Hl Hh; [done|]. cbn [sumdep leaves hgt] in *.
  assert (Hm : Forall (λ c, S d + hgt c.2 <= S B) cs).
  { assert (list_max' (map (λ c, hgt c.2) cs) <= B - d) as Hx by lia.
    apply list_max'_le in Hx. rewrite Forall_map in Hx. eapply Forall_impl; [exact Hx|]. simpl. intros. lia. }
  clear Hh Hl. induction IH as [|c cs Hc IH IH2]; [simpl; lia|].
  apply Forall_cons in Hm as [H1 H2]. specialize (IH2 H2). cbn [map sum_list flat_map]. simpl. rewrite app_length.
  change (sum_list (map ?f cs)) with (sum_list_with id (map f cs)) || idtac.
  destruct c as [n t]. cbn [snd] in *. destruct t as [k q|a' cs'].
  - simpl in *. lia.
  - cbn [is_leaf]. specialize (Hc (S d) B eq_refl H1). simpl in *. lia.
Qed.
