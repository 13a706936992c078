(** The memory of reachable containers. *)
From Coq Require Import Sorted.
From stdpp Require Import base numbers list gmap.
From Verif Require Import GoInt Mem Amt BitsFacts Steps Tree Rep Paths Descend Insert Split Delete Remove Core Levels.
Local Open Scope nat_scope.

Section shape.
Context {K HS V CK U : Type} (L : layout K V CK).
Local Notation world := (world V CK U).
Local Notation mem := (gmap loc (block V CK)).
Local Notation tree := (tree K).
Implicit Types (m : mem) (t T : tree).

Lemma digits_of_bits p rs (tm : N) : radixes rs -> digits_of (Link p (bits_of rs) tm) = rs.
Proof. intros H. unfold digits_of. cbn [lk_pmap]. by apply filter_testbit_all. Qed.

Lemma rep_slot m d lv a cs i r x : rep L m d lv (Node a cs) -> slot m lv i r x ->
  ∃ t, cs !! i = Some (r, t) /\ rep L m (S d) x t /\ is_entry lv r = is_leaf t.
Proof.
  intros (-> & Hrs & lks & rest & Ha & Hlen & Hf)%rep_node_inv (a' & ls & E & Ha' & Hi & Hx).
  cbn [lk_ptr] in E. injection E as <-. rewrite Ha in Ha'. injection Ha' as <-.
  rewrite digits_of_bits in Hi by done.
  change (map fst cs) with (fst <$> cs) in Hi. rewrite list_lookup_fmap in Hi.
  destruct (cs !! i) as [[r' t]|] eqn:Hc; [|done]. simpl in Hi. injection Hi as ->.
  exists t. split; [done|].
  destruct (Forall2_lookup_r _ _ _ _ _ Hf Hc) as (x' & Hx' & Hr).
  rewrite lookup_app_l in Hx by (by eapply lookup_lt_Some). rewrite Hx in Hx'. injection Hx' as <-.
  split; [done|]. unfold is_entry. cbn [lk_tmap]. rewrite testbit_bits_of.
  apply eq_true_iff_eq. rewrite bool_decide_eq_true. rewrite elem_of_lrads. split.
  - intros (t' & Hin & Ht'). apply elem_of_list_lookup in Hin as [j Hj].
    assert (j = i) as ->; [|congruence].
    eapply (NoDup_lookup (map fst cs)).
    + apply radixes_32 in Hrs as [Hs _]. clear -Hs. induction Hs as [|a l Hs IH Hl]; constructor; [|done].
      intros Hin. rewrite Forall_forall in Hl. apply Hl in Hin. lia.
    + change (map fst cs) with (fst <$> cs). by rewrite list_lookup_fmap, Hj.
    + change (map fst cs) with (fst <$> cs). by rewrite list_lookup_fmap, Hc.
  - intros Ht. exists t. split; [|done]. by eapply elem_of_list_lookup_2.
Qed.

Lemma slot_rep m d lv a cs i r t : rep L m d lv (Node a cs) -> cs !! i = Some (r, t) ->
  ∃ x, slot m lv i r x /\ rep L m (S d) x t /\ is_entry lv r = is_leaf t.
Proof.
  intros Hr Hi. pose proof Hr as (-> & Hrs & lks & rest & Ha & Hlen & Hf)%rep_node_inv.
  destruct (Forall2_lookup_r _ _ _ _ _ Hf Hi) as (x & Hx & Hrx).
  assert (Hs : slot m (Link (At a) (bits_of (map fst cs)) (bits_of (lrads cs))) i r x).
  { exists a, (lks ++ rest). split_and!; try done.
    - rewrite digits_of_bits by done. change (map fst cs) with (fst <$> cs). by rewrite list_lookup_fmap, Hi.
    - by apply lookup_app_l_Some. }
  exists x. split; [done|]. destruct (rep_slot _ _ _ _ _ _ _ _ Hr Hs) as (t' & Hi' & H1 & H2).
  rewrite Hi in Hi'. injection Hi' as <-. done.
Qed.

(** Levels of a represented tree. *)
Lemma level_rep m h rt T : m !! h = Some (BRoot rt) -> rep L m 0 (rt_link rt) T -> canon_root T ->
  ∀ d lv, level m h d lv -> ∃ a cs, rep L m d lv (Node a cs) /\ (d ≠ 0 -> canon (Node a cs)) /\ canon_cs cs.
Proof.
  intros Hr Hrep Hc. induction 1 as [rt' Hr'|d lv i r x Hlv IH Hs He].
  - rewrite Hr in Hr'. injection Hr' as <-. destruct T as [|a cs]; [done|]. exists a, cs. done.
  - destruct IH as (a & cs & Hn & _ & Hcs).
    destruct (rep_slot _ _ _ _ _ _ _ _ Hn Hs) as (t & Hi & Hx & Ht). rewrite He in Ht.
    destruct t as [|a' cs']; [done|]. exists a', cs'. split; [done|].
    unfold canon_cs in Hcs. rewrite Forall_lookup in Hcs. specialize (Hcs _ _ Hi). simpl snd in Hcs.
    split; [done|]. by apply canon_node in Hcs as [_ ?].
Qed.

Lemma below_rep m t : ∀ d lv q k p, is_leaf t = false -> rep L m d lv t -> (q, (k, p)) ∈ pleaves [] t ->
  below m lv q (ly_leaf L k p).
Proof.
  assert (Hgen : ∀ d lv pre q k p, is_leaf t = false -> rep L m d lv t -> (q, (k, p)) ∈ pleaves pre t ->
    ∃ q', q = pre ++ q' /\ below m lv q' (ly_leaf L k p)).
  { induction t as [|a cs IH] using tree_ind'; [done|]. intros d lv pre q k p _ Hr Hin.
    simpl in Hin. apply elem_of_list_In, in_flat_map in Hin as ([r t] & Hc & Hin).
    rewrite <- elem_of_list_In in Hc. rewrite <- elem_of_list_In in Hin.
    apply elem_of_list_lookup in Hc as [i Hi].
    destruct (slot_rep _ _ _ _ _ _ _ _ Hr Hi) as (x & Hs & Hx & He).
    rewrite Forall_lookup in IH. specialize (IH _ _ Hi). cbn [fst snd] in *.
    destruct (is_leaf t) eqn:Hl.
    - destruct t as [k' p'|]; [|done]. simpl in Hin. apply elem_of_list_singleton in Hin. injection Hin as -> -> ->.
      apply rep_leaf_inv in Hx as (-> & _). exists [r]. split; [done|]. by eapply below_item.
    - destruct (IH _ _ _ _ _ _ eq_refl Hx Hin) as (q' & -> & Hb). exists (r :: q').
      rewrite <- app_assoc. split; [done|]. by eapply below_level. }
  intros d lv q k p Hl Hr Hin. destruct (Hgen _ _ _ _ _ _ Hl Hr Hin) as (q' & -> & Hb). done.
Qed.

Lemma two_below m d lv a cs : rep L m d lv (Node a cs) -> canon (Node a cs) ->
  ∃ q1 x1 q2 x2, q1 ≠ q2 /\ below m lv q1 x1 /\ below m lv q2 x2.
Proof.
  intros Hr Hc. pose proof (canon_size _ Hc eq_refl) as Hs.
  rewrite <- (pleaves_leaves _ []) in Hs. rewrite map_length in Hs.
  destruct (pleaves [] (Node a cs)) as [|[q1 [k1 p1]] [|[q2 [k2 p2]] es]] eqn:E; [simpl in Hs; lia..|].
  exists q1, (ly_leaf L k1 p1), q2, (ly_leaf L k2 p2). split_and!.
  - assert (Hw : wf (Node a cs)) by (by eapply rep_wf).
    pose proof (pleaves_sorted _ [] Hw) as Hst. rewrite E in Hst. simpl in Hst.
    apply StronglySorted_inv in Hst as [_ Hst]. apply Forall_cons in Hst as [Hst _].
    intros ->. apply lexlt_diverge, diverge_lookup in Hst as (i & x & y & Hx & Hy & Hne). congruence.
  - eapply below_rep; [|exact Hr|]; [done|]. rewrite E. set_solver +.
  - eapply below_rep; [|exact Hr|]; [done|]. rewrite E. set_solver +.
Qed.
End shape.
