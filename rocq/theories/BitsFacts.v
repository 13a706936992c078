(** Facts about the bitmaps and the wrap-around arithmetic. *)
From stdpp Require Import base numbers list sorting fin_sets gmap.
From Verif Require Import GoInt Mem Amt.
Local Open Scope N_scope.

(** Radixes of a level: strictly increasing, below 16. *)
Definition radixes (rs : list N) : Prop :=
  StronglySorted N.lt rs /\ Forall (λ r, r < 16) rs.

(** The bitmap with exactly the given bits set. *)
Fixpoint bits_of (rs : list N) : N :=
  match rs with [] => 0 | r :: rs => N.setbit (bits_of rs) r end.

Lemma testbit_bits_of rs i : N.testbit (bits_of rs) i = bool_decide (i ∈ rs).
Proof.
  induction rs as [|r rs IH]; cbn [bits_of].
  - rewrite N.bits_0. symmetry. apply bool_decide_eq_false. set_solver.
  - rewrite N.setbit_eqb, IH. destruct (N.eqb_spec r i) as [->|Hne]; cbn [orb].
    + symmetry. apply bool_decide_eq_true. set_solver.
    + apply bool_decide_ext. set_solver.
Qed.

Lemma bits_of_ext rs rs' : (∀ i, i ∈ rs <-> i ∈ rs') -> bits_of rs = bits_of rs'.
Proof.
  intros H. apply N.bits_inj. intros i. rewrite !testbit_bits_of.
  apply bool_decide_ext, H.
Qed.

Lemma shl32_1 r : r < 32 -> shl32 1 r = 2 ^ r.
Proof.
  intros H. unfold shl32, u32. rewrite N.shiftl_1_l. apply N.mod_small.
  apply N.pow_lt_mono_r; lia.
Qed.

Lemma bit_of_pow r : r < 32 -> bit_of r = 2 ^ r.
Proof. apply shl32_1. Qed.

Lemma testbit_bit_of r i : r < 32 -> N.testbit (bit_of r) i = bool_decide (i = r).
Proof.
  intros H. rewrite bit_of_pow by done. rewrite N.pow2_bits_eqb.
  destruct (N.eqb_spec r i); symmetry; [apply bool_decide_eq_true|apply bool_decide_eq_false]; done.
Qed.

Lemma bit_of_inj r r' : r < 32 -> r' < 32 -> bit_of r = bit_of r' -> r = r'.
Proof. intros ??. rewrite !bit_of_pow by done. apply N.pow_inj_r. lia. Qed.

Lemma bit_of_eqb r r' : r < 32 -> r' < 32 -> (bit_of r =? bit_of r') = (r =? r').
Proof.
  intros ??. destruct (N.eqb_spec r r') as [->|Hne].
  - apply N.eqb_refl.
  - apply N.eqb_neq. intros ?. apply Hne. by apply bit_of_inj.
Qed.

Lemma bit_of_ltb r r' : r < 32 -> r' < 32 -> (bit_of r <? bit_of r') = (r <? r').
Proof.
  intros ??. rewrite !bit_of_pow by done.
  destruct (N.ltb_spec r r').
  - apply N.ltb_lt. apply N.pow_lt_mono_r; lia.
  - apply N.ltb_ge. apply N.pow_le_mono_r; lia.
Qed.

Lemma land_bit_of rs r : r < 32 ->
  (N.land (bits_of rs) (bit_of r) =? 0) = negb (bool_decide (r ∈ rs)).
Proof.
  intros H. destruct (bool_decide_reflect (r ∈ rs)) as [Hin|Hin]; simpl.
  - apply N.eqb_neq. intros H0.
    assert (N.testbit (N.land (bits_of rs) (bit_of r)) r = true) as Ht.
    { rewrite N.land_spec, testbit_bits_of, testbit_bit_of by done.
      by rewrite !bool_decide_eq_true_2. }
    rewrite H0, N.bits_0 in Ht. done.
  - apply N.eqb_eq. apply N.bits_inj. intros i.
    rewrite N.land_spec, testbit_bits_of, testbit_bit_of, N.bits_0 by done.
    destruct (bool_decide_reflect (i = r)) as [->|]; [|apply andb_false_r].
    by rewrite bool_decide_eq_false_2.
Qed.

Lemma lor_bit_of rs rs' r : r < 32 ->
  (∀ i, i ∈ rs' <-> i = r \/ i ∈ rs) -> N.lor (bits_of rs) (bit_of r) = bits_of rs'.
Proof.
  intros H Hrs. apply N.bits_inj. intros i.
  rewrite N.lor_spec, !testbit_bits_of, testbit_bit_of by done.
  apply eq_iff_eq_true. rewrite orb_true_iff, !bool_decide_eq_true, Hrs. naive_solver.
Qed.

Lemma lor_bits_pair r r' : r < 32 -> r' < 32 -> N.lor (bit_of r) (bit_of r') = bits_of [r; r'].
Proof.
  intros ??. apply N.bits_inj. intros i.
  rewrite N.lor_spec, testbit_bits_of, !testbit_bit_of by done.
  apply eq_iff_eq_true. rewrite orb_true_iff, !bool_decide_eq_true. set_solver.
Qed.

Lemma bit_of_bits_of r : r < 32 -> bit_of r = bits_of [r].
Proof. intros ?. rewrite bit_of_pow by done. by rewrite <- N.shiftl_1_l. Qed.

Lemma andnot_bit_of rs rs' r : r < 32 ->
  (∀ i, i ∈ rs' <-> i ≠ r /\ i ∈ rs) -> andnot (bits_of rs) (bit_of r) = bits_of rs'.
Proof.
  intros H Hrs. apply N.bits_inj. intros i. unfold andnot.
  rewrite N.ldiff_spec, !testbit_bits_of, testbit_bit_of by done.
  apply eq_iff_eq_true. rewrite andb_true_iff, negb_true_iff, bool_decide_eq_false, !bool_decide_eq_true, Hrs. naive_solver.
Qed.

(** ** Sorted lists of radixes *)
Lemma StronglySorted_ext (l1 l2 : list N) :
  StronglySorted N.lt l1 -> StronglySorted N.lt l2 -> (∀ x, x ∈ l1 <-> x ∈ l2) -> l1 = l2.
Proof.
  revert l2. induction l1 as [|x l1 IH]; intros [|y l2] H1 H2 Hx.
  - done.
  - exfalso. specialize (Hx y). set_solver.
  - exfalso. specialize (Hx x). set_solver.
  - apply StronglySorted_inv in H1 as [H1 F1]. apply StronglySorted_inv in H2 as [H2 F2].
    rewrite Forall_forall in F1, F2.
    assert (x = y) as ->.
    { assert (x ∈ y :: l2) as Ha by (apply Hx; set_solver).
      assert (y ∈ x :: l1) as Hb by (apply Hx; set_solver).
      apply elem_of_cons in Ha as [->|Ha]; [done|].
      apply elem_of_cons in Hb as [->|Hb]; [done|].
      specialize (F1 _ Hb). specialize (F2 _ Ha). lia. }
    f_equal. apply IH; try done. intros z. specialize (Hx z). split; intros Hz.
    + assert (z ∈ y :: l2) as Hc by (apply Hx; set_solver).
      apply elem_of_cons in Hc as [->|Hc]; [|done]. specialize (F1 _ Hz). lia.
    + assert (z ∈ y :: l1) as Hc by (apply Hx; set_solver).
      apply elem_of_cons in Hc as [->|Hc]; [|done]. specialize (F2 _ Hz). lia.
Qed.

Lemma bit_indices_sorted : StronglySorted N.lt bit_indices.
Proof.
  assert (∀ n m, StronglySorted N.lt (N.of_nat <$> seq n m)) as H; [|apply H].
  intros n m. revert n. induction m as [|m IH]; intros n; simpl; constructor; [apply IH|].
  apply Forall_fmap, Forall_forall. intros x Hx%elem_of_seq. simpl. lia.
Qed.

Lemma elem_of_bit_indices i : i ∈ bit_indices <-> i < 32.
Proof.
  unfold bit_indices. rewrite elem_of_list_fmap. split.
  - intros (j & -> & Hj%elem_of_seq). lia.
  - intros H. exists (N.to_nat i). rewrite elem_of_seq. lia.
Qed.

Lemma elem_of_List_filter {A} (f : A -> bool) l x : x ∈ List.filter f l <-> f x = true /\ x ∈ l.
Proof. rewrite !elem_of_list_In, filter_In. tauto. Qed.

Lemma StronglySorted_List_filter (f : N -> bool) l :
  StronglySorted N.lt l -> StronglySorted N.lt (List.filter f l).
Proof.
  induction 1 as [|x l Hs IH Hx]; simpl; [constructor|].
  destruct (f x); [|done]. constructor; [done|].
  rewrite Forall_forall in *. intros y Hy%elem_of_List_filter. apply Hx. tauto.
Qed.

Lemma filter_testbit rs f : StronglySorted N.lt rs -> Forall (λ r, r < 32) rs ->
  List.filter (λ i, N.testbit (bits_of rs) i && f i) bit_indices = List.filter f rs.
Proof.
  intros Hs Hb. apply StronglySorted_ext.
  - apply StronglySorted_List_filter, bit_indices_sorted.
  - by apply StronglySorted_List_filter.
  - intros x. rewrite !elem_of_List_filter, testbit_bits_of, elem_of_bit_indices.
    rewrite andb_true_iff, bool_decide_eq_true. rewrite Forall_forall in Hb.
    specialize (Hb x). naive_solver.
Qed.

Lemma radixes_32 rs : radixes rs -> StronglySorted N.lt rs /\ Forall (λ r, r < 32) rs.
Proof. intros [? H]. split; [done|]. eapply Forall_impl; [exact H|]. simpl. lia. Qed.

Lemma List_filter_ext {A} (f g : A -> bool) l : (∀ x, f x = g x) -> List.filter f l = List.filter g l.
Proof. intros H. induction l as [|x l IH]; simpl; [done|]. by rewrite H, IH. Qed.

Lemma List_filter_all {A} (f : A -> bool) l : (∀ x, x ∈ l -> f x = true) -> List.filter f l = l.
Proof.
  induction l as [|x l IH]; simpl; intros H; [done|].
  rewrite H by set_solver. f_equal. apply IH. set_solver.
Qed.
Lemma List_filter_none {A} (f : A -> bool) l : (∀ x, x ∈ l -> f x = false) -> List.filter f l = [].
Proof.
  induction l as [|x l IH]; simpl; intros H; [done|].
  rewrite H by set_solver. apply IH. set_solver.
Qed.

Lemma filter_testbit_all rs : radixes rs -> List.filter (N.testbit (bits_of rs)) bit_indices = rs.
Proof.
  intros [Hs Hb]%radixes_32.
  transitivity (List.filter (λ _ : N, true) rs).
  - rewrite <- (filter_testbit rs) by done. apply List_filter_ext. intros x. by rewrite andb_true_r.
  - by apply List_filter_all.
Qed.

Lemma ones_count_bits_of rs : radixes rs -> ones_count32 (bits_of rs) = length rs.
Proof. intros H. unfold ones_count32. by rewrite filter_testbit_all. Qed.

Lemma testbit_mask r i : r < 32 -> i < 32 -> N.testbit (shl32 ones32 r) i = (r <=? i).
Proof.
  intros Hr Hi. unfold shl32, u32, ones32. rewrite N.mod_pow2_bits_low by lia.
  destruct (N.leb_spec r i) as [H|H].
  - rewrite N.shiftl_spec_high' by lia.
    change (2 ^ 32 - 1) with (N.ones 32). apply N.ones_spec_low. lia.
  - apply N.shiftl_spec_low. lia.
Qed.

Lemma idx_of_filter rs r : radixes rs -> r < 32 ->
  idx_of (bits_of rs) r = length (List.filter (λ i, i <? r) rs).
Proof.
  intros Hrs Hr. destruct (radixes_32 _ Hrs) as [Hs Hb].
  rewrite <- (filter_testbit rs) by done. unfold idx_of, ones_count32. f_equal.
  apply StronglySorted_ext.
  - apply StronglySorted_List_filter, bit_indices_sorted.
  - apply StronglySorted_List_filter, bit_indices_sorted.
  - intros x. rewrite !elem_of_List_filter. unfold andnot. rewrite elem_of_bit_indices.
    rewrite N.ldiff_spec. split; intros [H1 H2]; (split; [|done]);
      rewrite testbit_mask in * by done; rewrite andb_true_iff, ?negb_true_iff in *;
      destruct H1 as [H1 H3]; split; try done.
    + apply N.ltb_lt. apply N.leb_gt in H3. done.
    + apply N.leb_gt. apply N.ltb_lt in H3. done.
Qed.

Lemma idx_of_split bef aft r : radixes (bef ++ aft) -> r < 32 ->
  Forall (λ i, i < r) bef -> Forall (λ i, r <= i) aft ->
  idx_of (bits_of (bef ++ aft)) r = length bef.
Proof.
  intros Hrs Hr Hb Ha. rewrite idx_of_filter by done. rewrite List.filter_app, app_length.
  rewrite Forall_forall in Hb, Ha.
  rewrite List_filter_all by (intros x Hx; apply N.ltb_lt; auto).
  rewrite List_filter_none by (intros x Hx; apply N.ltb_ge; auto). simpl. lia.
Qed.

Lemma StronglySorted_app_lt (l1 l2 : list N) :
  StronglySorted N.lt (l1 ++ l2) <->
  StronglySorted N.lt l1 /\ StronglySorted N.lt l2 /\ (∀ x y, x ∈ l1 -> y ∈ l2 -> x < y).
Proof.
  induction l1 as [|x l1 IH]; simpl.
  - split; [intros H; split_and!; [constructor|done|set_solver]|tauto].
  - split.
    + intros [H F]%StronglySorted_inv. apply IH in H as (H1 & H2 & H3).
      rewrite Forall_forall in F. split_and!.
      * constructor; [done|]. rewrite Forall_forall. set_solver.
      * done.
      * intros a b [->|Ha]%elem_of_cons Hb; [apply F; set_solver|auto].
    + intros ([H F]%StronglySorted_inv & H2 & H3). constructor.
      * apply IH. split_and!; try done. set_solver.
      * rewrite Forall_app. split; [done|]. rewrite Forall_forall. set_solver.
Qed.

Lemma radixes_app_cons bef r aft : radixes (bef ++ r :: aft) <->
  radixes bef /\ radixes aft /\ r < 16 /\ Forall (λ i, i < r) bef /\ Forall (λ i, r < i) aft.
Proof.
  unfold radixes. rewrite StronglySorted_app_lt, Forall_app, Forall_cons.
  split.
  - intros ((H1 & [H2 F]%StronglySorted_inv & H3) & H4 & H5 & H6).
    split_and!; try done. rewrite Forall_forall. set_solver.
  - intros ((H1 & H2) & (H3 & H4) & H5 & H6 & H7). split_and!; try done.
    + by constructor.
    + rewrite Forall_forall in H6, H7. intros x y Hx [->|Hy]%elem_of_cons; [auto|].
      specialize (H6 _ Hx). specialize (H7 _ Hy). lia.
Qed.

Lemma radixes_app bef aft : radixes (bef ++ aft) -> radixes bef /\ radixes aft.
Proof.
  unfold radixes. rewrite StronglySorted_app_lt, Forall_app. naive_solver.
Qed.

Lemma radixes_insert bef r aft : radixes (bef ++ aft) -> r < 16 ->
  Forall (λ i, i < r) bef -> Forall (λ i, r < i) aft -> radixes (bef ++ r :: aft).
Proof. intros [??]%radixes_app ???. by apply radixes_app_cons. Qed.

Lemma radixes_remove bef r aft : radixes (bef ++ r :: aft) -> radixes (bef ++ aft).
Proof.
  intros H. apply radixes_app_cons in H as ((H1 & H2) & (H3 & H4) & H5 & H6 & H7). split.
  - apply StronglySorted_app_lt. split_and!; try done.
    rewrite Forall_forall in H6, H7. intros x y Hx Hy.
    specialize (H6 _ Hx). specialize (H7 _ Hy). lia.
  - by apply Forall_app.
Qed.

(** Splitting a sorted list at a radix. *)
Lemma radixes_split_lt rs r : radixes rs -> r ∉ rs ->
  ∃ bef aft, rs = bef ++ aft /\ Forall (λ i, i < r) bef /\ Forall (λ i, r < i) aft.
Proof.
  intros [Hs _]. induction Hs as [|x rs Hs IH Hx]; intros Hr.
  - by exists [], [].
  - destruct (N.lt_trichotomy x r) as [Hlt|[->|Hgt]].
    + destruct IH as (bef & aft & -> & Hb & Ha); [set_solver|].
      exists (x :: bef), aft. split_and!; [done| |done]. by constructor.
    + exfalso. set_solver.
    + exists [], (x :: rs). split_and!; [done|constructor|]. constructor; [done|].
      eapply Forall_impl; [exact Hx|]. simpl. lia.
Qed.

Lemma radixes_length rs : radixes rs -> (length rs <= 16)%nat.
Proof.
  intros [Hs Hb].
  assert (NoDup rs) as Hnd.
  { clear Hb. induction Hs as [|x rs Hs IH Hx]; constructor; [|done].
    intros Hin. rewrite Forall_forall in Hx. specialize (Hx _ Hin). lia. }
  assert (rs ⊆ N.of_nat <$> seq 0 16) as Hsub.
  { intros x Hx. rewrite Forall_forall in Hb. specialize (Hb _ Hx).
    apply elem_of_list_fmap. exists (N.to_nat x). rewrite elem_of_seq. lia. }
  pose proof (submseteq_length rs (N.of_nat <$> seq 0 16)
    (NoDup_submseteq _ _ Hnd Hsub)) as H. by rewrite fmap_length, seq_length in H.
Qed.

Lemma trailing_zeros_bits_of r rs : radixes (r :: rs) -> trailing_zeros32 (bits_of (r :: rs)) = r.
Proof. intros H. unfold trailing_zeros32. by rewrite filter_testbit_all. Qed.

Lemma radixes_cons_inv r rs : radixes (r :: rs) -> radixes rs /\ r < 16 /\ Forall (λ i, r < i) rs.
Proof. intros H. apply (radixes_app_cons [] r rs) in H. tauto. Qed.

Lemma andnot_cons r rs : radixes (r :: rs) -> andnot (bits_of (r :: rs)) (bit_of r) = bits_of rs.
Proof.
  intros (H & Hr & F)%radixes_cons_inv. apply andnot_bit_of; [lia|].
  rewrite Forall_forall in F. intros i. rewrite elem_of_cons. split.
  - intros Hi. specialize (F _ Hi). split; [lia|]. by right.
  - naive_solver.
Qed.

(** ** Wrap-around arithmetic *)
Lemma u64_small x : x < 2 ^ 64 -> u64 x = x.
Proof. apply N.mod_small. Qed.
Lemma add64_u64 x y : add64 (u64 x) y = u64 (x + y).
Proof. unfold add64, u64. by rewrite N.add_mod_idemp_l. Qed.
Lemma sub64_u64 x y z : x = z + y -> sub64 (u64 x) y = u64 z.
Proof.
  intros ->. unfold sub64, u64.
  rewrite N.add_mod_idemp_l by done.
  pose proof (N.mod_lt y (2^64)) as Hlt.
  pose proof (N.div_mod y (2^64)) as Hdm.
  assert (2^64 ≠ 0) as H0 by done. specialize (Hlt H0). specialize (Hdm H0).
  replace (z + y + (2 ^ 64 - y `mod` 2 ^ 64)) with (z + (y / 2^64 + 1) * 2^64) by lia.
  by rewrite N.mod_add.
Qed.
Lemma sub64_u64_N x y : y <= x -> sub64 (u64 x) y = u64 (x - y).
Proof. intros. apply sub64_u64. lia. Qed.

Lemma u8_small x : x < 256 -> u8 x = x.
Proof. apply N.mod_small. Qed.
Lemma u8_succ (d : nat) : (S d < 256)%nat -> u8 (N.of_nat d + 1) = N.of_nat (S d).
Proof. intros. rewrite u8_small; lia. Qed.
Lemma dec8_succ (d : nat) : (S d < 256)%nat -> dec8 (N.of_nat (S d)) = N.of_nat d.
Proof.
  intros. unfold dec8, u8. replace (N.of_nat (S d) + 255) with (N.of_nat d + 1 * 256) by lia.
  rewrite N.mod_add by done. apply N.mod_small. lia.
Qed.

Lemma land_15_lt x : N.land x 15 < 16.
Proof.
  replace 15 with (N.ones 4) by done. rewrite N.land_ones. by apply N.mod_lt.
Qed.
Lemma radix_of_lt {HS} (h : HS * N) : radix_of h < 16.
Proof. apply land_15_lt. Qed.
