(** Removal of an entry from a represented tree. *)
From stdpp Require Import base numbers list gmap.
From Verif Require Import GoInt Mem Amt BitsFacts Steps Tree Rep Descend Insert Split Delete.
Local Open Scope nat_scope.

Section remove.
Context {K HS V CK U : Type} (L : layout K V CK).
Local Notation block := (block V CK).
Local Notation world := (world V CK U).
Local Notation M := (M V CK U).
Local Notation mem := (gmap loc block).
Local Notation tree := (tree K).
Local Notation frame := (frame K).
Implicit Types (w : world) (m : mem).

Definition shrink (d : N) (rt : root) : root :=
  rt_with_dep (sub64 (rt_dep rt) d) (rt_with_len (sub64 (rt_len rt) 1) rt).

Section level.
Variables (B : nat) (r : loc) (seed : N) (c : list frame) (a : loc) (bef aft : list (N * tree))
  (n : N) (k : K) (q : ptr).
Local Notation T := (plug c (Node a (bef ++ (n, Leaf k q) :: aft))).

Lemma hgt_drop a' : hgt T <= B -> hgt (plug c (Node a' (bef ++ aft))) <= B.
Proof.
  intros H. eapply hgt_plug_mono; [exact H|].
  pose proof (hgt_plug c (Node a (bef ++ (n, Leaf k q) :: aft))) as H2.
  assert (hgt (Node a' (bef ++ aft)) <= hgt (Node a (bef ++ (n, Leaf k q) :: aft))); [|lia].
  simpl. apply le_n_S. rewrite !map_app. simpl.
  clear. induction bef as [|x xs IH]; simpl; lia.
Qed.

Lemma drop_leaves a' : leaves T ≡ₚ (k, q) :: leaves (plug c (Node a' (bef ++ aft))).
Proof.
  rewrite !leaves_plug. simpl. rewrite !flat_map_app. simpl.
  rewrite <- !Permutation_middle. done.
Qed.

Lemma drop_final w w' rt pp a' lb la R lk' :
  MapI L B w r seed T -> w_mem w !! r = Some (BRoot rt) ->
  lk' = Link (At a') (bits_of (map fst (bef ++ aft))) (bits_of (lrads (bef ++ aft))) ->
  length pp = 12 ->
  w_mem w' !! r = Some (BRoot (match c with
    | [] => rt_with_link lk' (rt_with_path pp (shrink (N.of_nat (length c)) rt))
    | _ => rt_with_path pp (shrink (N.of_nat (length c)) rt) end)) ->
  (∀ b, base (hole r c) = Some b -> b ≠ r -> w_mem w' !! b = put_link (w_mem w) (hole r c) lk' !! b) ->
  w_mem w' !! a' = Some (BLinks (lb ++ la ++ R)) ->
  (∀ l, l ∈ clocs c ++ cslocs (bef ++ aft) -> base (hole r c) ≠ Some l -> keep (w_mem w) (w_mem w') l) ->
  (a' = a \/ a' ∉ foot r T) ->
  Forall2 (λ lk c', rep L (w_mem w) (S (length c)) lk c'.2) lb bef ->
  Forall2 (λ lk c', rep L (w_mem w) (S (length c)) lk c'.2) la aft ->
  length (lb ++ la ++ R) = cap (length c) (length (bef ++ aft)) ->
  MapQ L B w' r seed (plug c (Node a' (bef ++ aft))).
Proof.
  intros HM Hrt Hlk' Hpp Hr' Hb Ha' Hk Haa Hlb Hla Hlen.
  destruct (MapI_hole _ _ _ _ _ _ _ _ HM) as (rt0 & lks & rest & Hr0 & Hlk & Hrs & Ha & Hlena & _).
  rewrite Hrt in Hr0. injection Hr0 as <-.
  apply MapI_MapQ in HM as [HQ Hcan].
  pose proof (hole_ne _ _ _ _ _ _ _ HQ) as Hne.
  pose proof (mq_nodup _ _ _ _ _ _ HQ) as Hnd. rewrite locs_plug in Hnd. cbn [locs] in Hnd.
  rewrite flat_map_app in Hnd. cbn [flat_map snd locs] in Hnd.
  change (flat_map (λ c0 : N * tree, locs c0.2) bef) with (cslocs bef) in Hnd.
  change (flat_map (λ c0 : N * tree, locs c0.2) aft) with (cslocs aft) in Hnd.
  assert (Hnd2 : NoDup ((a :: r :: clocs c ++ cslocs (bef ++ aft)) ++ ptr_locs q)).
  { eapply NoDup_perm; [|exact Hnd]. rewrite cslocs_app. solve_Permutation. }
  apply NoDup_app in Hnd2 as (Hnd2 & _ & _).
  assert (Hnd3 : NoDup (a' :: r :: clocs c ++ cslocs (bef ++ aft))).
  { destruct Haa as [->|Hni]; [done|]. apply NoDup_cons in Hnd2 as [_ Hnd2]. apply NoDup_cons. split; [|done].
    intros Hin. apply Hni. rewrite foot_plug. cbn [locs]. rewrite flat_map_app. cbn [flat_map snd].
    rewrite cslocs_app in Hin. unfold cslocs in Hin. set_solver +Hin. }
  destruct HQ as [(rt0 & Hr0 & Hs & Hrep & Hl0 & Hd0 & Hp12) HndQ Hh] eqn:HQe. clear HQe.
  rewrite Hrt in Hr0. injection Hr0 as <-.
  assert (Hdisj : ∀ l, l ∈ cslocs (bef ++ aft) -> base (hole r c) ≠ Some l).
  { intros l Hl E. apply hole_in in E. apply NoDup_cons in Hnd2 as [_ N2].
    change (r :: clocs c ++ cslocs (bef ++ aft)) with ((r :: clocs c) ++ cslocs (bef ++ aft)) in N2.
    apply NoDup_app in N2 as (_ & N2 & _). by apply (N2 l). }
  rewrite map_app in Hrs. cbn [map fst] in Hrs.
  eapply (MapQ_replace L B w w' r seed c (Node a (bef ++ (n, Leaf k q) :: aft)) (Node a' (bef ++ aft)) lk' rt);
    [exact HQ|done|exact Hrt|exact Hr'| | | | | | | | |].
  - eapply linked_intro; [done|exact Hrt|exact Hr'|exact Hlk| |].
    + by destruct c.
    + intros b E Hbr. by apply Hb.
  - intros l Hl E. apply Hk; [set_solver +Hl|done].
  - rewrite Hlk'. rewrite cslocs_app in Hk, Hdisj.
    apply (rep_node L _ _ _ _ (lb ++ la) R).
    + by rewrite <- app_assoc.
    + by rewrite <- app_assoc.
    + rewrite map_app. by eapply radixes_remove.
    + apply Forall2_app.
      * eapply reps_keep; [exact Hlb|]. intros l Hl. apply Hk; [set_solver +Hl|]. apply Hdisj. set_solver +Hl.
      * eapply reps_keep; [exact Hla|]. intros l Hl. apply Hk; [set_solver +Hl|]. apply Hdisj. set_solver +Hl.
  - by destruct c.
  - rewrite Hp12. by destruct c.
  - assert (rt_len (match c with
      | [] => rt_with_link lk' (rt_with_path pp (shrink (N.of_nat (length c)) rt))
      | _ => rt_with_path pp (shrink (N.of_nat (length c)) rt) end) = sub64 (rt_len rt) 1) as ->
      by (by destruct c).
    rewrite Hl0. apply sub64_u64. rewrite (drop_leaves a'). simpl. lia.
  - assert (rt_dep (match c with
      | [] => rt_with_link lk' (rt_with_path pp (shrink (N.of_nat (length c)) rt))
      | _ => rt_with_path pp (shrink (N.of_nat (length c)) rt) end) = sub64 (rt_dep rt) (N.of_nat (length c))) as ->
      by (by destruct c).
    rewrite Hd0. apply sub64_u64. rewrite !sumdep_plug by done.
    rewrite !sumdep_node, !csdep_app, csdep_cons. cbn [snd is_leaf]. lia.
  - cbn [locs]. fold (cslocs (bef ++ aft)). eapply NoDup_perm; [|exact Hnd3]. solve_Permutation.
  - by apply hgt_drop.
Qed.

Lemma cap_drop cnt d : cnt < 16 -> (cnt mod 4 =? 0)%nat && negb (N.of_nat d =? 0)%N = false ->
  cap d (S cnt) = cap d cnt.
Proof.
  intros Hc H. destruct d as [|d]; [done|].
  assert ((N.of_nat (S d) =? 0)%N = false) as E by (apply N.eqb_neq; lia).
  rewrite E, andb_true_r in H. simpl cap.
  do 16 (destruct cnt as [|cnt]; [vm_compute in H; done|]). lia.
Qed.

(** Everything up to the collapse. *)
Lemma drop_spec w pth l tl x : MapI L B w r seed T -> w_ok w ->
  pview (w_mem w) r pth l tl -> l !! length c = Some x ->
  ∀ (h : HS * N) fuel, radix_of h = n -> 0 < fuel -> length c <= 255 ->
  ∃ w1 a' p1, quiet (λ y, y ∈ foot r T) w w1 /\
    MapQ L B w1 r seed (plug c (Node a' (bef ++ aft))) /\
    (a' = a \/ (w_nxt w <= a' < w_nxt w1)%positive) /\
    pview (w_mem w1) r p1 (<[length c := pl_clear x]> l) tl /\ samek pth p1 /\
    remove fuel r pth h (N.of_nat (length c)) (hole r c) (length bef) w =
    (y <- collapse fuel r p1 (hole r c) (N.of_nat (length c)) (length (bef ++ aft)) ;;
     clear_path fuel r y.1 y.2) w1.
Proof.
  intros HM Hwok Hv Hx h fuel Hrad Hfuel H255.
  destruct (MapI_hole _ _ _ _ _ _ _ _ HM) as (rt & lks & rest & Hrt & Hlk & Hrs & Ha & Hlena & Hf).
  pose proof (mi_canon _ _ _ _ _ _ HM) as Hcan.
  assert (HQ := HM). apply MapI_MapQ in HQ as [HQ _].
  pose proof (hole_ne _ _ _ _ _ _ _ HQ) as Hne.
  assert (Hlt : ∀ l, l ∈ foot r T -> (l < w_nxt w)%positive).
  { intros l' Hl. destruct (MapI_alloc _ _ _ _ _ _ _ HM Hl) as [b Hb]. by eapply Hwok. }
  assert (Hfoot : ∀ l, l ∈ foot r T <-> l = r \/ l ∈ clocs c \/ l = a \/ l ∈ cslocs (bef ++ aft) \/ l ∈ ptr_locs q).
  { intros l'. rewrite foot_plug. cbn [locs]. rewrite flat_map_app. cbn [flat_map snd locs]. rewrite cslocs_app.
    unfold cslocs. clear. set_solver. }
  pose proof (mq_nodup _ _ _ _ _ _ HQ) as Hnd. rewrite locs_plug in Hnd. cbn [locs] in Hnd.
  rewrite flat_map_app in Hnd. cbn [flat_map snd locs] in Hnd.
  change (flat_map (λ c0 : N * tree, locs c0.2) bef) with (cslocs bef) in Hnd.
  change (flat_map (λ c0 : N * tree, locs c0.2) aft) with (cslocs aft) in Hnd.
  assert (Hnd2 : NoDup (a :: r :: clocs c ++ cslocs (bef ++ aft) ++ ptr_locs q)).
  { eapply NoDup_perm; [|exact Hnd]. rewrite cslocs_app. solve_Permutation. }
  clear Hnd.
  assert (Har : a ≠ r).
  { intros ->. apply NoDup_cons in Hnd2 as [Hnd2 _]. set_solver +Hnd2. }
  assert (Hhole : ∀ b, base (hole r c) = Some b -> b ∈ foot r T /\ b ≠ a).
  { intros b E. apply hole_in in E. split.
    - apply Hfoot. apply elem_of_cons in E. tauto.
    - intros ->. apply NoDup_cons in Hnd2 as [Hnd2 _]. set_solver +Hnd2 E. }
  apply Forall2_app_inv_r in Hf as (lb & l2 & Hlb & Hf2 & ->).
  apply Forall2_cons_inv_r in Hf2 as (lx & la & Hlx & Hla & ->).
  rewrite <- app_assoc in Ha, Hlena. cbn [app] in Ha, Hlena.
  pose proof (Forall2_length _ _ _ Hlb) as Hlenb. pose proof (Forall2_length _ _ _ Hla) as Hlenaf.
  rewrite map_app in Hrs, Hlk. cbn [map fst] in Hrs, Hlk.
  set (cnt := length (bef ++ aft)) in *.
  assert (Hcntl : cnt = length lb + length la) by (unfold cnt; rewrite app_length; lia).
  assert (Hcnt : cnt < 16).
  { pose proof (radixes_length _ Hrs) as H. rewrite app_length in H. simpl in H. rewrite !map_length in H. lia. }
  assert (HrsD : radixes (map fst (bef ++ aft))) by (rewrite map_app; by eapply radixes_remove).
  assert (Hn16 : (n < 16)%N) by (by apply radixes_app_cons in Hrs as (_ & _ & ? & _)).
  pose proof (radixes_notin _ _ _ Hrs) as Hnin. rewrite <- map_app in Hnin.
  set (lkA := Link (At a) (bits_of (map fst (bef ++ aft))) (bits_of (lrads (bef ++ aft)))).
  assert (HpmA : andnot (bits_of (map fst bef ++ n :: map fst aft)) (bit_of n) = bits_of (map fst (bef ++ aft))).
  { apply andnot_bit_of; [lia|]. intros i. rewrite map_app in *. clear -Hnin. set_solver. }
  assert (HtmA : andnot (bits_of (lrads (bef ++ (n, Leaf k q) :: aft))) (bit_of n) = bits_of (lrads (bef ++ aft))).
  { apply andnot_bit_of; [lia|]. intros i.
    assert (n ∉ lrads (bef ++ aft)) as Hnl by (intros E; apply Hnin; by apply lrads_sub).
    rewrite !lrads_app, lrads_cons in *. cbn [fst snd is_leaf]. clear -Hnl. set_solver. }
  (* the first four updates *)
  assert (Hd : (λ x0 : option link, x0 = Some (Link (At a) (bits_of (map fst bef ++ n :: map fst aft))
     (bits_of (lrads (bef ++ (n, Leaf k q) :: aft))))) (link_at (w_mem w) (hole r c))) by done.
  cbv beta in Hd. clear Hlk. rename Hd into Hlk.
  set (lk := Link (At a) (bits_of (map fst bef ++ n :: map fst aft)) (bits_of (lrads (bef ++ (n, Leaf k q) :: aft)))) in *.
  set (m1 := put_link (w_mem w) (hole r c) lkA).
  set (rt1 := match c with [] => rt_with_link lkA rt | _ => rt end).
  assert (Hm1r : m1 !! r = Some (BRoot rt1)).
  { unfold m1, rt1. destruct c as [|f c']; simpl hole.
    - by apply mroot_lookup.
    - rewrite put_lookup_ne; [done|]. simpl. congruence. }
  set (w1 := set_mem w (mroot m1 r (shrink (N.of_nat (length c))))).
  assert (Hw1r : w_mem w1 !! r = Some (BRoot (shrink (N.of_nat (length c)) rt1))) by (by apply mroot_lookup).
  assert (Hv1 : pview (w_mem w1) r pth l tl).
  { eapply pview_ext; [exact Hrt|exact Hw1r| |exact Hv]. unfold rt1. by destruct c. }
  destruct (path_clear_spec _ _ _ _ _ _ _ Hv1 Hx) as (p1 & w2 & Hpc & Hs2 & Hv2).
  pose proof (path_clear_samek _ _ _ _ _ _ Hpc) as Hsk.
  destruct Hs2 as (rtx & pp & Hrx & Hpl & Hw2). rewrite Hw1r in Hrx. injection Hrx as <-.
  assert (Hp12 : length pp = 12).
  { rewrite Hpl. destruct HQ as [(rt0 & Hr0 & _ & _ & _ & _ & Hp) _ _]. rewrite Hrt in Hr0. injection Hr0 as <-.
    unfold rt1. by destruct c. }
  assert (Hm2 : w_mem w2 = mroot m1 r (λ rt, rt_with_path pp (shrink (N.of_nat (length c)) rt))).
  { rewrite Hw2. unfold w1. simpl. unfold mroot. rewrite Hm1r. by rewrite insert_insert. }
  assert (Hw2n : w_nxt w2 = w_nxt w) by (rewrite Hw2; done).
  assert (Hw2ne : ∀ y, y ≠ r -> base (hole r c) ≠ Some y -> w_mem w2 !! y = w_mem w !! y).
  { intros y ? ?. rewrite Hm2. rewrite mroot_lookup_ne by done. by apply put_lookup_ne. }
  assert (Hw2r : w_mem w2 !! r = Some (BRoot (rt_with_path pp (shrink (N.of_nat (length c)) rt1)))).
  { rewrite Hm2. exact (mroot_lookup m1 r (λ rt, rt_with_path pp (shrink (N.of_nat (length c)) rt)) rt1 Hm1r). }
  assert (Hw2b : ∀ b, base (hole r c) = Some b -> b ≠ r -> w_mem w2 !! b = put_link (w_mem w) (hole r c) lkA !! b).
  { intros b ? ?. rewrite Hm2. by apply mroot_lookup_ne. }
  assert (Hlk2 : link_at (w_mem w2) (hole r c) = Some lkA).
  { rewrite Hm2. rewrite link_at_mroot by done. unfold m1. by eapply link_at_put. }
  assert (Ha2 : w_mem w2 !! a = Some (BLinks (lb ++ lx :: la ++ rest))).
  { rewrite Hw2ne; [done|done|]. intros E. by apply Hhole in E as [_ ?]. }
  assert (Hq2 : quiet (λ y, y ∈ foot r T) w w2).
  { set (P := λ y, y ∈ foot r T).
    assert (HPr : P r) by (apply Hfoot; auto).
    apply (quiet_trans P P _ (set_mem w m1)).
    - apply quiet_put. intros b E. by apply Hhole.
    - apply (quiet_trans P P _ w1).
      + apply (quiet_mroot P (set_mem w m1) r (shrink (N.of_nat (length c))) HPr).
      + apply (sbp_quiet P r); [|done]. exists (shrink (N.of_nat (length c)) rt1), pp. done.
      + done.
    - done. }
  assert (Hcount : ones_count32 (bits_of (map fst (bef ++ aft))) = cnt).
  { rewrite ones_count_bits_of by done. by rewrite map_length. }
  assert (Hnz : (cnt =? 0) && negb (N.of_nat (length c) =? 0)%N = false).
  { apply canon_root_plug in Hcan as (_ & _ & Hok). destruct c as [|f c']; [by rewrite andb_false_r|].
    specialize (Hok ltac:(done)). destruct (Nat.eqb_spec cnt 0) as [E|]; [|done].
    unfold cnt in E. destruct bef, aft; simpl in *; try done; lia. }
  assert (Hkeep2 : ∀ w', (∀ y, y ∈ foot r T -> y ≠ a -> y ≠ r -> base (hole r c) ≠ Some y -> w_mem w' !! y = w_mem w2 !! y) ->
     ∀ y, y ∈ clocs c ++ cslocs (bef ++ aft) -> base (hole r c) ≠ Some y -> keep (w_mem w) (w_mem w') y).
  { intros w' Hw' y Hy E. apply keep_same.
    assert (Hyf : y ∈ foot r T) by (apply Hfoot; rewrite elem_of_app in Hy; tauto).
    assert (y ≠ a /\ y ≠ r) as [? ?].
    { apply NoDup_cons in Hnd2 as [N1 N2]. apply NoDup_cons in N2 as [N2 _].
      split; intros ->; [apply N1|apply N2]; set_solver +Hy. }
    rewrite Hw' by done. by apply Hw2ne. }
  assert (Hrun : remove fuel r pth h (N.of_nat (length c)) (hole r c) (length bef) w =
    ((if (cnt mod 4 =? 0)%nat && negb (N.of_nat (length c) =? 0)%N
     then a' <- new_link_array cnt ;;
          upd_link (hole r c) (lk_with_ptr a') ;;;
          copy_range (At a) a' 0 0 0 (length bef)
     else ret tt) ;;;
    lv <- load_link (hole r c) ;;
    copy_range (At a) (lk_ptr lv) 1 0 (length bef) (cnt - length bef) ;;;
    y <- collapse fuel r p1 (hole r c) (N.of_nat (length c)) cnt ;;
    clear_path fuel r y.1 y.2) w2).
  { unfold remove.
    rewrite (bind_Ret _ _ _ _ _ (upd_link_step _ _ _ _ Hlk)).
    erewrite bind_Ret.
    2:{ eapply upd_link_step. simpl. by eapply link_at_put. }
    rewrite set_mem_set_mem. cbn [w_mem set_mem]. rewrite put_put.
    rewrite Hrad.
    match goal with |- context [put_link _ _ ?z] =>
      match z with lk_with_tmap _ _ => assert (z = lkA) as -> end end.
    { unfold lkA, lk, lk_with_tmap, lk_with_pmap. cbn [lk_ptr lk_pmap lk_tmap]. f_equal; [exact HpmA|exact HtmA]. }
    fold m1.
    erewrite bind_Ret.
    2:{ eapply upd_root_step. simpl. exact Hm1r. }
    erewrite bind_Ret.
    2:{ eapply upd_root_step. simpl. apply mroot_lookup. exact Hm1r. }
    rewrite !set_mem_set_mem. cbn [w_mem set_mem]. rewrite mroot_mroot.
    change (World (mroot m1 r (λ rt0 : root, rt_with_dep (sub64 (rt_dep (rt_with_len (sub64 (rt_len rt0) 1) rt0)) (N.of_nat (length c)))
       (rt_with_len (sub64 (rt_len rt0) 1) rt0))) (w_nxt w) (w_usr w)) with w1.
    rewrite Nat2N.id. rewrite (bind_Ret _ _ _ _ _ Hpc).
    rewrite (bind_Ret _ _ _ _ _ (load_link_step _ _ _ Hlk2)).
    cbn [lk_pmap lkA]. rewrite Hcount.
    destruct fuel as [|fuel]; [lia|]. cbn [unlink]. rewrite Hnz. rewrite bind_ret.
    rewrite (bind_Ret _ _ _ _ _ (load_link_step _ _ _ Hlk2)). done. }
  destruct ((cnt mod 4 =? 0)%nat && negb (N.of_nat (length c) =? 0)%N) eqn:Hcond.
  - (* a new array *)
    assert (Hc0 : length c ≠ 0) by (apply andb_true_iff in Hcond as [_ Hcond]; apply negb_true_iff, N.eqb_neq in Hcond; lia).
    set (a' := w_nxt w).
    assert (Ha' : ∀ y, y ∈ foot r T -> y ≠ a').
    { intros y Hy ->. apply Hlt in Hy. unfold a' in Hy. lia. }
    assert (Hbase : base (hole r c) ≠ Some a').
    { intros E. apply Hhole in E as [E _]. by apply Ha' in E. }
    assert (Haa' : a ≠ a') by (apply Ha'; apply Hfoot; auto).
    assert (Hra' : r ≠ a') by (apply Ha'; apply Hfoot; auto).
    set (lk' := lk_with_ptr (At a') lkA).
    assert (Hcap : cnt <= arr_cap cnt) by (apply arr_cap_ge; lia).
    set (Y := replicate (arr_cap cnt - length lb) zero_link).
    set (Y2 := replicate (arr_cap cnt - length lb - length la) zero_link).
    assert (HY : Y = replicate (length la) zero_link ++ Y2).
    { unfold Y, Y2. rewrite <- replicate_add. f_equal. lia. }
    set (m3 := <[a' := BLinks (lb ++ la ++ Y2)]> (put_link (w_mem w2) (hole r c) lk')).
    set (w3 := World m3 (xO a') (w_usr w2)).
    exists w3, a', p1.
    assert (Hw3r : w_mem w3 !! r = Some (BRoot (match c with [] => rt_with_link lk' (rt_with_path pp (shrink (N.of_nat (length c)) rt))
        | _ => rt_with_path pp (shrink (N.of_nat (length c)) rt) end))).
    { simpl. unfold m3. rewrite lookup_insert_ne by done. clear -Hw2r Hne Hc0. unfold rt1 in Hw2r. destruct c as [|f c']; [done|].
      simpl hole. rewrite put_lookup_ne by (simpl; congruence). done. }
    assert (HQ3 : MapQ L B w3 r seed (plug c (Node a' (bef ++ aft)))).
    { eapply (drop_final w w3 rt pp a' lb la Y2 lk'); try done.
      - intros b E Hbr. simpl. unfold m3. rewrite lookup_insert_ne by (intros <-; done).
        transitivity (put_link (put_link (w_mem w) (hole r c) lkA) (hole r c) lk' !! b); [|by rewrite put_put].
        apply put_link_same_block; [done|]. by apply Hw2b.
      - simpl. unfold m3. apply lookup_insert.
      - apply Hkeep2. intros y Hy H1 H2 H3. simpl. unfold m3.
        rewrite lookup_insert_ne by (intros <-; by apply Ha' in Hy). by apply put_lookup_ne.
      - right. intros Hin. by apply Ha' in Hin.
      - rewrite !app_length. unfold Y2. rewrite replicate_length. destruct c as [|f c']; [done|].
        change (length lb + (length la + (arr_cap cnt - length lb - length la)) = arr_cap (length bef + length aft)).
        replace (length bef + length aft) with cnt by (unfold cnt; by rewrite app_length). lia. }
    split; [|split; [done|split; [right; unfold a', w3; simpl; lia|split; [|split; [done|]]]]].
    + apply (quiet_trans (λ y, y ∈ foot r T) (λ y, y ∈ foot r T) _ w2); [done| |done].
      apply (quiet_trans (λ y, y ∈ foot r T) (λ y, y ∈ foot r T) _ (set_mem w2 (put_link (w_mem w2) (hole r c) lk'))); [| |done].
      * apply quiet_put. intros b E. by apply Hhole.
      * pose proof (quiet_alloc (λ y, y ∈ foot r T) (set_mem w2 (put_link (w_mem w2) (hole r c) lk')) (lb ++ la ++ Y2)) as Hq.
        simpl in Hq. rewrite Hw2n in Hq. exact Hq.
    + eapply pview_ext; [exact Hw2r|exact Hw3r| |exact Hv2]. by destruct c.
    + rewrite Hrun.
      rewrite bind_assoc. rewrite (bind_Ret _ _ _ _ _ (new_link_array_step _ _)). rewrite Hw2n. fold a'.
      rewrite bind_assoc. erewrite bind_Ret.
      2:{ eapply upd_link_step. simpl. rewrite link_at_insert_ne by done. exact Hlk2. }
      fold lk'. cbn [w_mem set_mem w_nxt w_usr].
      erewrite bind_Ret.
      2:{ eapply (copy_range_spec a a' [] lb (lx :: la ++ rest) [] (replicate (length lb) zero_link) Y 0 0 0); try done.
          - simpl. rewrite put_lookup_ne by (intros E; by apply Hhole in E as [_ ?]).
            by rewrite lookup_insert_ne by done.
          - simpl. rewrite put_lookup_ne by done. rewrite lookup_insert. do 2 f_equal.
            unfold Y. rewrite <- replicate_add. f_equal. lia.
          - by rewrite replicate_length. }
      rewrite set_mem_set_mem || idtac. cbn [w_mem set_mem w_nxt w_usr].
      erewrite bind_Ret.
      2:{ apply load_link_step. simpl. rewrite link_at_insert_ne by done.
          eapply link_at_put. rewrite link_at_insert_ne by done. exact Hlk2. }
      cbn [lk_ptr lk' lk_with_ptr].
      erewrite bind_Ret.
      2:{ eapply (copy_range_spec a a' (lb ++ [lx]) la rest lb (replicate (length la) zero_link) Y2); try done.
          - simpl. rewrite lookup_insert_ne by done.
            rewrite put_lookup_ne by (intros E; by apply Hhole in E as [_ ?]).
            rewrite lookup_insert_ne by done. rewrite Ha2. by rewrite <- app_assoc.
          - simpl. rewrite lookup_insert. simpl. by rewrite HY.
          - rewrite app_length. simpl. lia.
          - lia.
          - lia.
          - rewrite replicate_length. lia. }
      match goal with |- _ ?wx = _ => assert (wx = w3) as -> end; [|done].
      unfold w3, m3, set_mem. cbn [w_mem w_nxt w_usr]. f_equal.
      rewrite insert_insert.
      apply map_eq. intros i. destruct (decide (i = a')) as [->|Hi].
      * by rewrite !lookup_insert.
      * rewrite !lookup_insert_ne by done.
        destruct (decide (base (hole r c) = Some i)) as [E|E].
        -- apply put_link_same_block; [done|]. by rewrite lookup_insert_ne.
        -- rewrite !put_lookup_ne by done. by rewrite lookup_insert_ne.
  - (* in place *)
    pose proof (cap_drop _ _ Hcnt Hcond) as Hcap.
    destruct (shift_down_spec a lb lx la rest (length la) w2 Ha2 eq_refl) as [z Hz].
    set (w3 := set_mem w2 (<[a:=BLinks (lb ++ la ++ z :: rest)]> (w_mem w2))) in *.
    exists w3, a, p1.
    assert (Hw3r : w_mem w3 !! r = Some (BRoot (match c with [] => rt_with_link lkA (rt_with_path pp (shrink (N.of_nat (length c)) rt))
        | _ => rt_with_path pp (shrink (N.of_nat (length c)) rt) end))).
    { simpl. rewrite lookup_insert_ne by done. rewrite Hw2r. unfold rt1. by destruct c. }
    assert (HQ3 : MapQ L B w3 r seed (plug c (Node a (bef ++ aft)))).
    { eapply (drop_final w w3 rt pp a lb la (z :: rest) lkA); try done.
      - intros b E Hbr. simpl. rewrite lookup_insert_ne by (intros <-; by apply Hhole in E as [_ ?]). by apply Hw2b.
      - simpl. apply lookup_insert.
      - apply Hkeep2. intros y Hy H1 H2 H3. simpl. by rewrite lookup_insert_ne.
      - by left.
      - fold cnt. rewrite <- Hcap.
        replace (S cnt) with (length (bef ++ (n, Leaf k q) :: aft)) by (unfold cnt; rewrite !app_length; simpl; lia).
        rewrite <- Hlena. rewrite !app_length. simpl. rewrite !app_length. lia. }
    split; [|split; [done|split; [by left|split; [|split; [done|]]]]].
    + apply (quiet_trans (λ y, y ∈ foot r T) (λ y, y ∈ foot r T) _ w2); [done| |done].
      eapply quiet_links; [|exact Ha2]. apply Hfoot. auto.
    + eapply pview_ext; [exact Hw2r|exact Hw3r| |exact Hv2]. unfold rt1. by destruct c.
    + rewrite Hrun. rewrite bind_ret.
      rewrite (bind_Ret _ _ _ _ _ (load_link_step _ _ _ Hlk2)). cbn [lk_ptr lkA].
      replace (cnt - length bef) with (length la) by lia. rewrite <- Hlenb.
      by rewrite (bind_Ret _ _ _ _ _ Hz).
Qed.

Lemma remove_spec w pth l tl : MapI L B w r seed T -> w_ok w ->
  pview (w_mem w) r pth l tl -> covers r c l -> length l = S (length c) ->
  ∀ (h : HS * N) fuel, radix_of h = n -> length c < fuel -> length c <= 255 ->
  ∃ w' a', remove fuel r pth h (N.of_nat (length c)) (hole r c) (length bef) w = Ret tt w' /\
    quiet (λ y, y ∈ foot r T) w w' /\
    MapI L B w' r seed (squash c a' (bef ++ aft)) /\
    (a' = a \/ (w_nxt w <= a' < w_nxt w')%positive) /\
    ∃ p' l', pview (w_mem w') r p' l' tl /\ samek pth p' /\ length l' = length l /\
      Forall (λ x, pl_link x = None) l'.
Proof.
  intros HM Hwok Hv Hcov Hll h fuel Hrad Hf H255.
  destruct (lookup_lt_is_Some_2 l (length c)) as [x Hx]; [lia|].
  destruct (drop_spec w pth l tl x HM Hwok Hv Hx h fuel Hrad ltac:(lia) H255)
    as (w1 & a' & p1 & Hq1 & HQ1 & Ha' & Hv1 & Hsk1 & Hrun).
  assert (Hcov1 : covers r c (<[length c := pl_clear x]> l)).
  { intros i y Hi. rewrite list_lookup_insert_ne; [by apply Hcov|].
    apply lookup_lt_Some in Hi. rewrite trail_length in Hi. lia. }
  destruct (collapse_spec L B r seed c fuel a' (bef ++ aft) w1 p1 _ tl HQ1 Hv1 Hcov1 Hf H255)
    as (p2 & w2 & c' & l2 & Hcol & Hq2 & Hn2 & HQ2 & Hv2 & Hsk2 & Hl2 & Hlc & C1 & C2).
  rewrite insert_length in Hl2.
  destruct (clear_path_spec r (length c') fuel p2 w2 l2 tl Hv2) as (w3 & l3 & Hcl & Hs3 & (p3 & Hv3 & Hsk3) & D1 & D2).
  { lia. } { lia. } { lia. }
  { destruct HQ2 as [(rt2 & ? & _) _ _]. eauto. }
  exists w3, a'. split; [|split; [|split; [|split]]].
  - rewrite Hrun. rewrite (bind_Ret _ _ _ _ _ Hcol). exact Hcl.
  - assert (Hsub : ∀ y, (y < w_nxt w)%positive -> y ∈ foot r (plug c (Node a' (bef ++ aft))) -> y ∈ foot r T).
    { intros y Hy. rewrite !foot_plug. cbn [locs]. rewrite !flat_map_app. cbn [flat_map snd]. 
      destruct Ha' as [->|Ha']; [clear; set_solver|]. intros [->|[?|Hy2]]; auto.
      apply elem_of_cons in Hy2 as [->|Hy2]; [lia|]. right. right. set_solver +Hy2. }
    apply (quiet_trans _ (λ y, y ∈ foot r (plug c (Node a' (bef ++ aft)))) _ w1); [done| |done].
    apply (quiet_trans _ (λ y, y ∈ foot r (plug c (Node a' (bef ++ aft)))) _ w2); [done| |done].
    eapply sbp_quiet; [done|]. rewrite foot_plug. auto.
  - apply MapI_MapQ. split; [by eapply MapQ_sbp|].
    pose proof (mi_canon _ _ _ _ _ _ HM) as Hcan. apply canon_root_plug in Hcan as (H1 & H2 & H3).
    unfold canon_cs in *. rewrite Forall_app, Forall_cons in H2. destruct H2 as (H2 & _ & H4).
    apply squash_canon; [done|by apply Forall_app|].
    intros Hc E. specialize (H3 Hc). destruct bef, aft; done.
  - destruct Ha' as [->|Ha']; [by left|right].
    rewrite (sbp_nxt _ _ _ Hs3). rewrite Hn2. done.
  - assert (Hl3 : length l3 = length l2).
    { apply Nat.le_antisymm.
      - destruct (decide (length l2 < length l3)) as [Hlt|]; [|lia].
        destruct (lookup_lt_is_Some_2 l3 (length l2) Hlt) as [y Hy].
        rewrite D2 in Hy by lia. apply lookup_lt_Some in Hy. lia.
      - destruct (decide (length l3 < length l2)) as [Hlt|]; [|lia].
        destruct (lookup_lt_is_Some_2 l2 (length l3) Hlt) as [y Hy].
        destruct (decide (length l3 < length c')) as [Hc|Hc].
        + specialize (D1 _ Hc). rewrite Hy in D1. simpl in D1. apply lookup_lt_Some in D1. lia.
        + rewrite <- D2 in Hy by lia. apply lookup_lt_Some in Hy. lia. }
    exists p3, l3. split; [done|]. split; [|split; [lia|]].
    + eapply samek_trans; [exact Hsk1|]. eapply samek_trans; [exact Hsk2|]. exact Hsk3.
    + apply Forall_lookup. intros i y Hy.
      pose proof (lookup_lt_Some _ _ _ Hy) as Hi.
      destruct (decide (i < length c')) as [Hc|Hc].
      * rewrite D1 in Hy by done. destruct (l2 !! i); [|done]. simpl in Hy. injection Hy as <-. done.
      * rewrite D2 in Hy by lia.
        destruct (decide (i < length c)) as [Hc2|Hc2].
        -- rewrite C1 in Hy by lia. destruct (<[length c := pl_clear x]> l !! i); [|done]. simpl in Hy.
           injection Hy as <-. done.
        -- assert (i = length c) as -> by lia. rewrite C2 in Hy by lia.
           rewrite list_lookup_insert in Hy by lia. injection Hy as <-. done.
Qed.
End level.
End remove.
