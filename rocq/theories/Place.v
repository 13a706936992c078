(** Where the entries of a tree are: instances of place_ok (Weak.v). *)
From stdpp Require Import base numbers list gmap.
From Verif Require Import GoInt Mem Hash Amt Families BitsFacts Steps Tree Rep Paths Descend Insert Split Delete Remove Core Weak HashFacts.
Local Open Scope nat_scope.

Lemma place_ok_and {K HS V CK U} (F : fam K HS V CK U) (P Q : N -> tree K -> Prop) :
  place_ok F P -> place_ok F Q -> place_ok F (λ s T, P s T /\ Q s T).
Proof.
  intros HP HQ. constructor.
  - intros s c a a' bef aft k p [H1 H2] Hr. split; [by eapply (pl_add _ _ HP)|by eapply (pl_add _ _ HQ)].
  - intros s c a a' bef aft n k p [H1 H2]. split; [by eapply (pl_drop _ _ HP)|by eapply (pl_drop _ _ HQ)].
  - intros s c a a2 bef aft k p ck cp fuel ch chain j [H1 H2] Hr Hc Hj Hl Ha Hlc Hrc Hb.
    split; [by eapply (pl_split _ _ HP)|by eapply (pl_split _ _ HQ)].
  - intros s c a bef aft k p ck cp [H1 H2] Hr. split; [by eapply (pl_swap _ _ HP)|by eapply (pl_swap _ _ HQ)].
Qed.
Lemma place_ok_true {K HS V CK U} (F : fam K HS V CK U) : place_ok F (λ _ _, True).
Proof. done. Qed.

Lemma place_ok_if {K HS V CK U} (F : fam K HS V CK U) (b : bool) (Q : N -> tree K -> Prop) :
  (b = true -> place_ok F Q) -> place_ok F (λ s T, b = true -> Q s T).
Proof.
  intros HQ. constructor.
  - intros s c a a' bef aft k p H Hr Hb. eapply (pl_add _ _ (HQ Hb)); [by apply H|done].
  - intros s c a a' bef aft n k p H Hb. eapply (pl_drop _ _ (HQ Hb)). by apply H.
  - intros s c a a2 bef aft k p ck cp fuel ch chain j H Hr Hc Hj Hl Ha Hlc Hrc Hbc Hb.
    eapply (pl_split _ _ (HQ Hb)); try done. by apply H.
  - intros s c a bef aft k p ck cp H Hr Hb. eapply (pl_swap _ _ (HQ Hb)); [by apply H|done].
Qed.

Section some.
Context {K HS V CK U : Type} (F : fam K HS V CK U).
Implicit Types (T : tree K) (k : K) (s : N).

(** Whenever the conflicting key is rehashed at all, it is rehashed right. *)
Definition right_conf : Prop := ∀ n s k ck d ch, d <= 255 ->
  f_conf F n s k ck (N.of_nat d) = Some ch -> ch = hproc F s ck d.
Hypothesis Hconf : right_conf.

(** The entries among A are in the place that their digits give. *)
Variable A : N -> K -> ptr -> Prop.
Definition welln s (e : list N * (K * ptr)) : Prop := A s e.2.1 e.2.2 -> well F s e.
Definition placen s T : Prop := Forall (welln s) (pleaves [] T).

Lemma placen_plug s c t : placen s (plug c t) <-> Forall (welln s) (ctxpl c) /\ Forall (welln s) (pleaves (rads c) t).
Proof. unfold placen. rewrite pleaves_plug. apply Forall_app. Qed.

Lemma placen_squash s c : ∀ a cs, placen s (plug c (Node a cs)) -> placen s (squash c a cs).
Proof.
  induction c as [|f c IH]; intros a cs H; [done|]. cbn [squash].
  destruct cs as [|[n [k p|]] [|]]; try done.
  apply IH. change (plug (f :: c) (Node a [(n, Leaf k p)])) with (plug c (fill f (Node a [(n, Leaf k p)]))) in H.
  unfold fill in H. rewrite placen_plug, pleaves_node, cspl_app, cspl_cons, !Forall_app in H.
  cbn [fst snd] in H. destruct H as (H1 & H2 & H3 & H4).
  rewrite placen_plug, pleaves_node, cspl_app, cspl_cons, !Forall_app. cbn [fst snd]. split_and!; try done.
  rewrite pleaves_node, cspl_cons in H3. cbn [fst snd pleaves] in *. apply Forall_app in H3 as [H3 _].
  apply Forall_cons in H3 as [H3 _]. constructor; [|done]. intros HA. specialize (H3 HA).
  unfold well in *. cbn [fst snd] in *. exact (well_prefix F 0 s (Nat.le_0_l _) (_, (k, p)) (rads c ++ [fr_r f]) [n] H3 eq_refl).
Qed.

Lemma placen_ok : place_ok F placen.
Proof.
  assert (Hnew : ∀ s k p (c : list (frame K)), rads c = nibs F s k (length c) -> welln s (rads c ++ [nib F s k (length c)], (k, p))).
  { intros s k p c Hr _. unfold well. cbn [fst snd]. rewrite app_length, rads_length, Nat.add_1_r, nibs_S. by rewrite Hr. }
  constructor.
  - intros s c a a' bef aft k p. rewrite !placen_plug, !pleaves_node, !cspl_app, cspl_cons, !Forall_app. cbn [fst snd pleaves].
    intros (H1 & H2 & H3) Hr. split_and!; try done. constructor; [|done]. by apply Hnew.
  - intros s c a a' bef aft n k p H. apply placen_squash. revert H.
    rewrite !placen_plug, !pleaves_node, !cspl_app, cspl_cons, !Forall_app. tauto.
  - intros s c a a2 bef aft k p ck cp fuel ch chain j H Hr Hc Hj Hlen Hag Hlc Hrc Hb.
    apply Hconf in Hc as ->; [|done].
    assert (Hadv : ∀ i, radix_of (adv F s ck (length c) (hproc F s ck (length c)) i) = nib F s ck (length c + i)).
    { intros i. by rewrite adv_hproc. }
    rewrite placen_plug, pleaves_node, cspl_app, cspl_cons, !Forall_app in H. destruct H as (H1 & H2 & H3 & H4).
    rewrite placen_plug, ctxpl_bare by done. cbn [ctxpl fr_bef fr_aft fr_r]. rewrite !Forall_app. split; [done|].
    assert (Hrr : rads (chain ++ Frame a bef (nib F s k (length c)) aft :: c) = nibs F s k (length c + j)).
    { rewrite rads_app, rads_cons. cbn [fr_r]. rewrite Hrc, Hr. rewrite nibs_app. rewrite <- app_assoc. f_equal.
      destruct j as [|j]; [lia|]. simpl. f_equal. replace (j - 0) with j by lia.
      rewrite (map_shift (nib F s k)). by rewrite Nat.add_1_r. }
    rewrite Hrr. rewrite pleaves_node. rewrite Hadv.
    assert (Hk : welln s (nibs F s k (length c + j) ++ [nib F s k (length c + j)], (k, p))).
    { intros _. unfold well. cbn [fst snd]. rewrite app_length, nibs_length. simpl. rewrite Nat.add_1_r. by rewrite nibs_S. }
    assert (Hck : welln s (nibs F s k (length c + j) ++ [nib F s ck (length c + j)], (ck, cp))).
    { intros HA. cbn [fst snd pleaves] in H3. apply Forall_cons in H3 as [H3 _]. specialize (H3 HA).
      unfold well in *. cbn [fst snd] in *.
      rewrite app_length, rads_length in H3. simpl in H3. rewrite Nat.add_1_r, nibs_S in H3.
      apply app_inj_tail in H3 as [H3 H5]. rewrite Hr in H3.
      rewrite app_length, nibs_length. simpl. rewrite Nat.add_1_r. rewrite nibs_S.
      f_equal. rewrite !nibs_app. f_equal; [done|]. apply map_ext_in. intros i Hi. apply in_seq in Hi.
      destruct (decide (i = length c)) as [->|Hne]; [done|].
      pose proof (Hag (i - length c) ltac:(lia)) as Hx. rewrite Hadv in Hx.
      by replace (length c + (i - length c)) with i in Hx by lia. }
    unfold pair_cs. destruct (_ <? _)%N; rewrite !cspl_cons; cbn [fst snd pleaves app cspl flat_map]; by repeat constructor.
  - intros s c a bef aft k p ck cp. rewrite !placen_plug, !pleaves_node, !cspl_app, !cspl_cons, !Forall_app. cbn [fst snd pleaves].
    intros (H1 & H2 & H3 & H4) Hr. split_and!; try done. constructor; [|done]. by apply Hnew.
Qed.
End some.

Lemma stream_right {K V CK U} (sum64 : N -> bytes -> N) (kbytes : K -> bytes) (F : fam K mhash V CK U) :
  f_start F = stream_start sum64 kbytes -> f_next F = stream_next sum64 kbytes -> f_conf F = stream_conf sum64 kbytes ->
  right_conf F.
Proof. intros H1 H2 H3 n s k ck d ch Hd. rewrite H3. by eapply stream_conf_right. Qed.
