(** Lookups in maps that a call left broken: after a panic in the callback of a
    Mod that has to move a stored key down, and after IntMap and IntSet kept a
    stale tmap in a new level. *)
From stdpp Require Import base numbers list gmap.
From Verif Require Import GoInt Mem Hash Amt Families BitsFacts Steps Tree Rep Paths Descend Insert Split Delete Remove Core Scan Order Heap Spec SpecFacts Guards HashFacts Client Types Refine RefineSet Instances Pack Levels Shape Weak ExactSpec Exact.
Local Open Scope nat_scope.

Section broken.
Context {K HS V CK U : Type} (F : fam K HS V CK U) (L : layout K V CK).
Local Notation world := (world V CK U).
Local Notation tree := (tree K).
Local Notation frame := (frame K).
Hypothesis HF : fam_ok F L.
Implicit Types (w : world).

Lemma rads_cons (f : frame) c : rads (f :: c) = rads c ++ [fr_r f].
Proof. unfold rads. simpl. by rewrite reverse_cons. Qed.

Lemma is_leaf_fill (f : frame) t : is_leaf (fill f t) = false.
Proof. done. Qed.

(** The traversal follows a context whose links are as in a world that carries the tree. *)
Lemma descend_ctx w w' r seed k (c : list frame) : ∀ t fuel,
  carries L w r (plug c t) -> is_leaf t = false -> rads c = nibs F seed k (length c) ->
  length c <= 255 -> length c <= fuel ->
  (∀ c1 f c2, c = c1 ++ f :: c2 -> link_at (w_mem w') (hole r c2) = link_at (w_mem w) (hole r c2)) ->
  descend F no_visit fuel seed k (f_start F seed k) (RootRef r) 0 tt w' =
  descend F no_visit (fuel - length c) seed k (hproc F seed k (length c)) (hole r c) (N.of_nat (length c)) tt w'.
Proof.
  induction c as [|f c IH]; intros t fuel Hcar Hlf Hr Hd Hf Hsame.
  { simpl. by rewrite Nat.sub_0_r. }
  rewrite rads_cons in Hr. cbn [length] in Hr. rewrite nibs_S in Hr. apply app_inj_2 in Hr as [Hr Hn]; [|done].
  injection Hn as Hn. cbn [length] in *.
  rewrite (IH (fill f t) fuel); try done; try lia.
  2:{ intros c1 g c2 ->. apply (Hsame (f :: c1) g c2). done. }
  replace (fuel - length c) with (S (fuel - S (length c))) by lia.
  cbn [descend]. destruct Hcar as [(rt & Hrt & Hrep) Hni]. cbn [plug] in Hrep.
  destruct (rep_hole L _ _ _ _ _ Hrt Hrep) as (lk & Hlk & Hnode).
  unfold fill in Hnode. pose proof Hnode as Hnode'. apply rep_node_inv in Hnode' as (-> & Hrs & _).
  rewrite <- (Hsame [] f c eq_refl) in Hlk.
  rewrite (bind_Ret _ _ _ _ _ (load_link_step _ _ _ Hlk)). cbn [lk_pmap lk_tmap lk_ptr].
  change (radix_of (hproc F seed k (length c))) with (nib F seed k (length c)). rewrite <- Hn.
  pose proof (nib_lt F seed k (length c)) as Hn16. rewrite <- Hn in Hn16.
  rewrite !land_bit_of by lia.
  rewrite map_app in *. cbn [map fst] in *. rewrite bool_decide_true by set_solver +. cbn [negb].
  unfold no_visit at 1. rewrite bind_ret.
  rewrite bool_decide_false.
  2:{ rewrite leaf_child_bit by done. congruence. }
  cbn [negb]. rewrite idx_of_child by done. cbn [elem hole].
  rewrite u8_succ by lia. done.
Qed.

(** A lookup that reaches an item: what it reads there. *)
Lemma find_item w w' r seed k (c : list frame) a (bef aft : list (N * tree)) k' q fuel x rt :
  carries L w r (plug c (Node a (bef ++ (nib F seed k (length c), Leaf k' q) :: aft))) -> rads c = nibs F seed k (length c) ->
  length c <= 255 -> 256 <= fuel ->
  w_mem w' !! r = Some (BRoot rt) -> rt_seed rt = seed ->
  (∀ c1 c2, c = c1 ++ c2 -> link_at (w_mem w') (hole r c2) = link_at (w_mem w) (hole r c2)) ->
  link_at (w_mem w') (SlotRef a (length bef)) = Some x ->
  find F fuel (Some r) k w' = bind (f_key F x) (λ ck, ret (if f_eq F k ck then Some x else None)) w'.
Proof.
  intros Hcar Hr Hd Hf Hrt Hs Hsame Hx. unfold find. rewrite (bind_Ret _ _ _ _ _ (load_root_step _ _ _ Hrt)). rewrite Hs.
  assert (He : ∃ fu, descend F no_visit fuel seed k (f_start F seed k) (RootRef r) 0 tt w' =
    Ret (Present fu (hproc F seed k (length c)) (N.of_nat (length c)) (hole r c) (SlotRef a (length bef)) tt) w').
  { rewrite (descend_ctx w w' r seed k c _ fuel Hcar); try done; try lia.
    2:{ intros c1 f c2 ->. apply (Hsame (c1 ++ [f]) c2). by rewrite <- app_assoc. }
    destruct (fuel - length c) as [|fu] eqn:E; [lia|]. exists fu.
    destruct Hcar as [(rt0 & Hrt0 & Hrep) Hni].
    destruct (rep_hole L _ _ _ _ _ Hrt0 Hrep) as (lk & Hlk & Hnode).
    pose proof Hnode as Hnode'. apply rep_node_inv in Hnode' as (-> & Hrs & _).
    rewrite <- (Hsame [] c eq_refl) in Hlk. cbn [descend].
    rewrite (bind_Ret _ _ _ _ _ (load_link_step _ _ _ Hlk)). cbn [lk_pmap lk_tmap lk_ptr].
    change (radix_of (hproc F seed k (length c))) with (nib F seed k (length c)).
    pose proof (nib_lt F seed k (length c)) as Hn16.
    rewrite !land_bit_of by lia.
    rewrite map_app in *. cbn [map fst] in *. rewrite bool_decide_true by set_solver +. cbn [negb].
    unfold no_visit at 1. rewrite bind_ret.
    rewrite bool_decide_true by (by rewrite leaf_child_bit).
    cbn [negb]. rewrite idx_of_child by done. done. }
  destruct He as [fu He]. rewrite (bind_Ret _ _ _ _ _ He).
  by rewrite (bind_Ret _ _ _ _ _ (load_link_step _ _ _ Hx)).
Qed.
End broken.

(** ** A panic in the callback while a stored key is being moved down *)
Section hindered.
Context {K HS V CK U : Type} (F F' : fam K HS V CK U) (L : layout K V CK) (D : nat) (seed : N).
Local Notation world := (world V CK U).
Local Notation tree := (tree K).
Local Notation frame := (frame K).
Hypothesis HF : fam_ok F L.
Hypothesis HF' : fam_ok F' L.
Hypothesis HL' : laws F' L.
Hypothesis Hnib : ∀ s k d, nib F' s k d = nib F s k d.
Hypothesis HD : D <= 240.
Implicit Types (w : world).

Lemma nibs_alike k n : nibs F seed k n = nibs F' seed k n.
Proof using Hnib. apply map_ext. intros i. by rewrite Hnib. Qed.

Lemma insert_hindered op w r T k fuel q ck cp : Good F' L D seed w r T -> w_ok w -> ly_ok L k -> 256 <= fuel ->
  clear F' L D seed T k -> (∀ p, (k, p) ∉ leaves T) ->
  (q, (ck, cp)) ∈ pleaves [] T -> q = nibs F' seed k (length q) ->
  ∃ w1, quiet (λ l, l ∈ foot r T) w w1 /\
    (∀ w2, io_split op w1 = Panic w2 -> insert F' op fuel (Some r) k w = Panic w2) /\
    ∀ p w2, made L (region r T w w1) w1 w2 k p -> ∀ x, x = k \/ x = ck ->
      find F fuel (Some r) x w2 = bind (f_key F zero_link) (λ k0, ret (if f_eq F x k0 then Some zero_link else None)) w2.
Proof.
  intros HG Hwok Hok Hf Hre Habs Hqin Hqk. pose proof (Good_wf _ _ _ _ _ _ _ HG) as Hwf. assert (Hpl : placed F' seed T) by apply HG.
  destruct (load_seed _ _ _ _ _ _ _ HG) as (rt & Hrt & Hs).
  unfold insert. rewrite (bind_Ret _ _ _ _ _ (load_root_step _ _ _ Hrt)). rewrite Hs.
  assert (Hh : hgt T <= S D) by apply HG.
  destruct (descend_plain F' L D seed HD w r T k fuel HG Hf) as (c & a & [(cs & Hst & Hd)|(bef & k' & p & aft & Hst & Hd)]).
  { exfalso. revert Hqk. by eapply (missing_path F'). }
  destruct (Weak.spot_unique F' seed T k c a bef k' p aft ck cp Hwf Hst) as [-> ->].
  { by exists q. }
  rewrite (bind_Ret _ _ _ _ _ Hd). clear q Hqin Hqk.
  assert (Hin : (k', p) ∈ leaves T) by (by eapply present_leaf).
  destruct (Good_ok _ _ _ _ _ _ _ _ _ HG Hin) as [Hok' Hcell].
  assert (E : f_eq F' k k' = false).
  { apply not_true_is_false. intros E. apply (la_eq _ _ HL') in E; [|done..]. subst k'. by apply Habs in Hin. }
  assert (Hne : k ≠ k').
  { intros <-. assert (f_eq F' k k = true) by (by apply (la_eq _ _ HL')). congruence. }
  destruct Hst as (HT & Hr).
  assert (Hagree : ∀ i, i <= length c -> nib F' seed k i = nib F' seed k' i).
  { rewrite <- HT in Hpl. rewrite placed_plug, pleaves_node, cspl_app, cspl_cons, !Forall_app in Hpl.
    destruct Hpl as (_ & _ & Hp & _). cbn [fst snd pleaves] in Hp. apply Forall_cons in Hp as [Hp _].
    unfold well in Hp. cbn [fst snd] in Hp. rewrite app_length, rads_length, Nat.add_1_r, Hr, <- nibs_S in Hp.
    intros i Hi. apply (f_equal (λ l, l !! i)) in Hp. rewrite !nibs_lookup in Hp by lia. congruence. }
  assert (Hpin : (nibs F' seed k (S (length c)), (k', p)) ∈ pleaves [] T).
  { rewrite <- HT, pleaves_plug, pleaves_node, cspl_app, cspl_cons. cbn [fst snd pleaves].
    rewrite nibs_S, <- Hr. set_solver +. }
  assert (Hpeq : nibs F' seed k (S (length c)) = nibs F' seed k (length (nibs F' seed k (S (length c))))) by (by rewrite nibs_length).
  destruct (Hre Habs _ _ _ Hpin Hpeq (not_eq_sym Hne) Hok') as (Hconf & (d0 & Hd0 & Hd0ne) & Hflat).
  rewrite nibs_length in Hconf, Hflat. replace (S (length c) - 1) with (length c) in Hconf by lia.
  destruct (least (λ d, nib F' seed k d ≠ nib F' seed k' d) d0 Hd0ne) as (e & He0 & Hene & Hemin).
  assert (Hce : length c < e).
  { destruct (Nat.lt_ge_cases (length c) e) as [|Hge]; [done|]. by apply Hagree in Hge. }
  assert (Hag : ∀ i, i < e -> nib F' seed k i = nib F' seed k' i).
  { intros i Hi. destruct (decide (nib F' seed k i = nib F' seed k' i)) as [|Hx]; [done|]. by apply Hemin in Hx. }
  set (j := e - length c).
  assert (HM : MapI L (S D) w r seed (plug c (Node a (bef ++ (nib F' seed k (length c), Leaf k' p) :: aft)))).
  { rewrite HT. apply HG. }
  destruct (add_present_gen F' L HF' op r seed k k' p (S D) c a bef aft (nib F' seed k (length c)) Hok
    (fuel - 1 - length c) (hproc F' seed k (length c)) (hproc F' seed k' (length c)) j w HM Hwok eq_refl E)
    as (w1 & Hq1 & Hpan & Hadd).
  * apply Hconf. lia.
  * change (radix_of (hproc F' seed k' (length c))) with (nib F' seed k' (length c)).
    change (radix_of (hproc F' seed k (length c))) with (nib F' seed k (length c)).
    rewrite <- Hagree by lia. rewrite N.eqb_refl. by rewrite andb_false_r.
  * intros i Hi. rewrite !adv_hproc. apply Hag. unfold j in Hi. lia.
  * rewrite !adv_hproc. replace (length c + j) with e by (unfold j; lia). done.
  * unfold j. lia.
  * unfold j. lia.
  * unfold j. lia.
  * intros Hj1. destruct Hflat as [|Hx]; [done|]. destruct Hx. apply Hag. unfold j in Hj1. lia.
  * rewrite !adv_hproc in Hadd. rewrite HT in *.
    change (radix_of (hproc F' seed k (length c + j))) with (nib F' seed k (length c + j)) in Hadd.
    change (radix_of (hproc F' seed k' (length c + j))) with (nib F' seed k' (length c + j)) in Hadd.
    exists w1. split; [done|]. split; [done|]. intros p2 w2 Hmade x Hx.
    destruct (Hadd p2 w2 Hmade) as (w' & a2 & chain & _ & (rt2 & rt' & Hr2 & Hr' & Elk & Esd) & Hsame & Hz & _ & HM' & Hlc & Hrc & Hb & Hfr).
    set (C := chain ++ Frame a bef (nib F' seed k (length c)) aft :: c) in *.
    set (cs := pair_cs (nib F' seed k (length c + j)) (Leaf k p2) (nib F' seed k' (length c + j)) (Leaf k' p)) in *.
    assert (HC : length C = length c + j).
    { unfold C. rewrite app_length. cbn [length]. lia. }
    assert (HrC : rads C = nibs F seed x (length C)).
    { assert (Hx' : nibs F seed x (length c + j) = nibs F' seed k (length c + j)).
      { rewrite nibs_alike. destruct Hx as [->| ->]; [done|]. apply map_ext_in. intros i Hi. apply in_seq in Hi.
        symmetry. apply Hag. unfold j in Hi. lia. }
      rewrite HC, Hx'. unfold C. rewrite rads_app, rads_cons. cbn [fr_r]. rewrite Hrc, Hr, nibs_app, <- app_assoc. f_equal.
      destruct j as [|j0] eqn:Ej; [unfold j in Ej; lia|]. simpl. f_equal. rewrite Nat.sub_0_r.
      rewrite <- (Nat.add_1_r (length c)). rewrite <- (map_shift (nib F' seed k) (length c) j0 1). apply map_ext. intros i. by rewrite adv_hproc. }
    assert (Hcar : carries L w' r (plug C (Node a2 cs))).
    { split; [|].
      - destruct HM' as [(rt3 & H3 & _ & Hrep & _) _ _ _]. eauto.
      - destruct HM' as [_ Hnd _ _]. by apply NoDup_cons in Hnd as [Hnd _]. }
    assert (Hns : ∃ b1 b2 k0 q0, cs = b1 ++ (nib F seed x (length C), Leaf k0 q0) :: b2 /\ length b1 < 4).
    { rewrite HC, <- Hnib. unfold cs, pair_cs. destruct Hx as [->| ->]; destruct (_ <? _)%N.
      - exists [], [(nib F' seed k' (length c + j), Leaf k' p)], k, p2. split; [done|simpl; lia].
      - exists [(nib F' seed k' (length c + j), Leaf k' p)], [], k, p2. split; [done|simpl; lia].
      - exists [(nib F' seed k (length c + j), Leaf k p2)], [], k', p. split; [done|simpl; lia].
      - exists [], [(nib F' seed k (length c + j), Leaf k p2)], k', p. split; [done|simpl; lia]. }
    destruct Hns as (b1 & b2 & k0 & q0 & Ecs & Hb1). rewrite Ecs in Hcar.
    eapply (find_item F L w' w2 r seed x C a2 b1 b2 k0 q0 fuel zero_link rt2); try done.
    { rewrite HC. unfold j. lia. }
    { rewrite <- Esd. destruct HM' as [(rt3 & H3 & H4 & _) _ _ _]. congruence. }
    { intros c1 c2 E12. destruct c2 as [|f c2].
      { simpl. by rewrite Hr2, Hr', Elk. }
      simpl. rewrite Hsame; [done| |].
      - intros Efr. destruct HM' as [_ Hnd _ _]. apply NoDup_cons in Hnd as [Hnd _]. apply Hnd. rewrite locs_plug, E12.
        unfold clocs. rewrite flat_map_app. simpl. set_solver +Efr.
      - intros Efr. destruct HM' as [_ Hnd _ _]. apply NoDup_cons in Hnd as [_ Hnd]. rewrite locs_plug, E12 in Hnd.
        apply NoDup_app in Hnd as (_ & Hnd & _). apply (Hnd a2); [|simpl; set_solver +].
        unfold clocs. rewrite flat_map_app. simpl. set_solver +Efr. }
    { simpl. rewrite Hz. by rewrite lookup_replicate_2. }
Qed.
End hindered.

(** ** A stale tmap in a new level *)
Section stale.
Context {K HS V CK U : Type} (F : fam K HS V CK U) (L : layout K V CK) (D : nat) (seed : N).
Local Notation world := (world V CK U).
Local Notation tree := (tree K).
Local Notation frame := (frame K).
Hypothesis HF : fam_ok F L.
Hypothesis HL : laws F L.
Hypothesis HD : D <= 240.
Implicit Types (w : world).

Lemma path_unique (T : tree) k q q' e e' n n' : wf T -> (q, e) ∈ pleaves [] T -> (q', e') ∈ pleaves [] T ->
  q = nibs F seed k n -> q' = nibs F seed k n' -> length q = length q'.
Proof.
  intros Hwf H1 H2 E1 E2.
  apply elem_of_list_lookup in H1 as [i Ei]. apply elem_of_list_lookup in H2 as [j Ej].
  destruct (decide (i = j)) as [->|Hne]; [congruence|]. exfalso.
  pose proof (pleaves_sorted T [] Hwf) as Hs.
  eapply (sorted_diverge _ i j q q') in Hs; [| | |done].
  - rewrite E1, E2 in Hs. by apply nibs_no_diverge in Hs.
  - change (map fst) with (fmap (M:=list) (@fst (list N) (K * ptr))). by rewrite list_lookup_fmap, Ei.
  - change (map fst) with (fmap (M:=list) (@fst (list N) (K * ptr))). by rewrite list_lookup_fmap, Ej.
Qed.

Lemma insert_stale op w r T k fuel q ck cp : Good F L D seed w r T -> w_ok w -> ly_ok L k -> 256 <= fuel ->
  (∀ p, (k, p) ∉ leaves T) ->
  (q, (ck, cp)) ∈ pleaves [] T -> q = nibs F seed k (length q) ->
  (∀ fuel, 16 <= fuel -> f_conf F fuel seed k ck (N.of_nat (length q - 1)) = Some (hproc F seed ck (length q - 1))) ->
  (∃ d, d <= D /\ nib F seed k d ≠ nib F seed ck d) ->
  nib F seed k (length q) = nib F seed ck (length q) ->
  (N.land (lk_tmap (ly_leaf L ck cp)) (bit_of (nib F seed k (length q))) ≠ 0)%N ->
  ∃ w1, quiet (λ l, l ∈ foot r T) w w1 /\
    ∀ p w2, io_split op w1 = Ret p w2 -> made L (region r T w w1) w1 w2 k p ->
      ∃ w' x2 a1 ls, insert F op fuel (Some r) k w = Ret tt w' /\
        lk_ptr x2 = At a1 /\ (lk_tmap x2 < 65536)%N /\ w_mem w' !! a1 = Some (BLinks ls) /\
        ∀ x, x = k \/ x = ck ->
          find F fuel (Some r) x w' = bind (f_key F x2) (λ k0, ret (if f_eq F x k0 then Some x2 else None)) w'.
Proof.
  intros HG Hwok Hok Hf Habs Hqin Hqk Hconf (d0 & Hd0 & Hd0ne) Hnext Hstale. pose proof (Good_wf _ _ _ _ _ _ _ HG) as Hwf. assert (Hpl : placed F seed T) by apply HG.
  destruct (load_seed _ _ _ _ _ _ _ HG) as (rt & Hrt & Hs).
  unfold insert. rewrite (bind_Ret _ _ _ _ _ (load_root_step _ _ _ Hrt)). rewrite Hs.
  assert (Hh : hgt T <= S D) by apply HG.
  destruct (descend_plain F L D seed HD w r T k fuel HG Hf) as (c & a & [(cs & Hst & Hd)|(bef & k' & p & aft & Hst & Hd)]).
  { exfalso. revert Hqk. by eapply (missing_path F). }
  destruct (Weak.spot_unique F seed T k c a bef k' p aft ck cp Hwf Hst) as [-> ->].
  { by exists q. }
  rewrite (bind_Ret _ _ _ _ _ Hd).
  assert (Hin : (k', p) ∈ leaves T) by (by eapply present_leaf).
  destruct (Good_ok _ _ _ _ _ _ _ _ _ HG Hin) as [Hok' Hcell].
  assert (E : f_eq F k k' = false).
  { apply not_true_is_false. intros E. apply (la_eq _ _ HL) in E; [|done..]. subst k'. by apply Habs in Hin. }
  assert (Hne : k ≠ k').
  { intros <-. assert (f_eq F k k = true) by (by apply (la_eq _ _ HL)). congruence. }
  destruct Hst as (HT & Hr).
  assert (Hagree : ∀ i, i <= length c -> nib F seed k i = nib F seed k' i).
  { rewrite <- HT in Hpl. rewrite placed_plug, pleaves_node, cspl_app, cspl_cons, !Forall_app in Hpl.
    destruct Hpl as (_ & _ & Hp & _). cbn [fst snd pleaves] in Hp. apply Forall_cons in Hp as [Hp _].
    unfold well in Hp. cbn [fst snd] in Hp. rewrite app_length, rads_length, Nat.add_1_r, Hr, <- nibs_S in Hp.
    intros i Hi. apply (f_equal (λ l, l !! i)) in Hp. rewrite !nibs_lookup in Hp by lia. congruence. }
  assert (Hlq : length q = S (length c)).
  { rewrite <- (nibs_length F seed k (S (length c))).
    eapply (path_unique T k q _ _ (k', p)); [exact Hwf|exact Hqin| |exact Hqk|done].
    rewrite <- HT, pleaves_plug, pleaves_node, cspl_app, cspl_cons. cbn [fst snd pleaves].
    rewrite nibs_S, <- Hr. set_solver +. }
  rewrite Hlq in *. replace (S (length c) - 1) with (length c) in Hconf by lia.
  assert (Hpin : (nibs F seed k (S (length c)), (k', p)) ∈ pleaves [] T).
  { rewrite <- HT, pleaves_plug, pleaves_node, cspl_app, cspl_cons. cbn [fst snd pleaves].
    rewrite nibs_S, <- Hr. set_solver +. }
  assert (Hpeq : nibs F seed k (S (length c)) = nibs F seed k (length (nibs F seed k (S (length c))))) by (by rewrite nibs_length).
  destruct (least (λ d, nib F seed k d ≠ nib F seed k' d) d0 Hd0ne) as (e & He0 & Hene & Hemin).
  assert (Hce : length c < e).
  { destruct (Nat.lt_ge_cases (length c) e) as [|Hge]; [done|]. by apply Hagree in Hge. }
  assert (Hag : ∀ i, i < e -> nib F seed k i = nib F seed k' i).
  { intros i Hi. destruct (decide (nib F seed k i = nib F seed k' i)) as [|Hx]; [done|]. by apply Hemin in Hx. }
  set (j := e - length c).
  assert (HM : MapI L (S D) w r seed (plug c (Node a (bef ++ (nib F seed k (length c), Leaf k' p) :: aft)))).
  { rewrite HT. apply HG. }
  destruct (add_present_stale F L HF op r seed k k' p (S D) c a bef aft (nib F seed k (length c))
    (fuel - 1 - length c) (hproc F seed k (length c)) (hproc F seed k' (length c)) j w HM Hwok eq_refl E)
    as (w1 & rt0 & lk & Hq1 & Hrt0 & Hlk & Hadd).
  * apply Hconf. lia.
  * change (radix_of (hproc F seed k' (length c))) with (nib F seed k' (length c)).
    change (radix_of (hproc F seed k (length c))) with (nib F seed k (length c)).
    rewrite <- Hagree by lia. rewrite N.eqb_refl. by rewrite andb_false_r.
  * intros i Hi. rewrite !adv_hproc. apply Hag. unfold j in Hi. lia.
  * rewrite !adv_hproc. replace (length c + j) with e by (unfold j; lia). done.
  * assert (e ≠ S (length c)) by (intros ->; done). unfold j. lia.
  * unfold j. lia.
  * rewrite !adv_hproc in Hadd. rewrite HT in *.

    exists w1. split; [done|]. intros p2 w2 Hio Hmade.
    destruct (Hadd p2 w2 Hio Hmade) as (w' & a0 & x1 & x2 & a1 & ls & Hrun & (rt' & Hrt' & Hsd & Hrl) & Hkeep & Hlk0 & Hx1 & Ex1 & Hx2 & Hp2 & Ht2 & Hls).
    exists w', x2, a1, ls. split_and!; try done. intros x Hx.
    rewrite Hrt in Hrt0. injection Hrt0 as <-.
    assert (Hnx : ∀ i, i < e -> nib F seed x i = nib F seed k i).
    { intros i Hi. destruct Hx as [->| ->]; [done|]. symmetry. by apply Hag. }
    assert (Hce2 : S (length c) < e).
    { assert (e ≠ S (length c)) by (intros ->; done). lia. }
    assert (Hcar : carries L w r (plug c (Node a (bef ++ (nib F seed k (length c), Leaf k' p) :: aft)))).
    { rewrite HT. destruct HG as [[(rt3 & H3 & _ & Hrep & _) Hnd _ _] _]. split; [eauto|]. by apply NoDup_cons in Hnd as [Hnd _]. }
    unfold find. rewrite (bind_Ret _ _ _ _ _ (load_root_step _ _ _ Hrt')). rewrite Hsd, Hs.
    assert (He : ∃ fu h d, descend F no_visit fuel seed x (f_start F seed x) (RootRef r) 0 tt w' =
      Ret (Present fu h d (SlotRef a (length bef)) (SlotRef a0 0) tt) w').
    { rewrite (descend_ctx F L w w' r seed x c _ fuel Hcar); try done; try lia.
      2:{ rewrite Hr. apply map_ext_in. intros i Hi. apply in_seq in Hi. symmetry. apply Hnx. lia. }
      2:{ intros c1 f c2 Ec. destruct c2 as [|g c2].
        { simpl. rewrite Hrt, Hrt'. f_equal. apply Hrl. rewrite Ec. by destruct c1. }
        destruct Hcar as [(rt3 & Hrt3 & Hrep) _]. rewrite Ec, plug_app in Hrep.
        change (plug (f :: g :: c2) ?t) with (plug (g :: c2) (fill f t)) in Hrep.
        destruct (rep_hole L _ _ _ _ _ Hrt3 Hrep) as (lkg & Hlkg & _). rewrite Hlkg.
        simpl in Hlkg. destruct (w_mem w !! fr_a g) as [[ | |]|] eqn:Eg; try done. simpl.
        assert (Hk : keep (w_mem w) (w_mem w') (fr_a g)).
        { apply Hkeep.
          - rewrite Ec. unfold clocs. rewrite flat_map_app. simpl. set_solver +.
          - destruct HG as [[_ Hnd _ _] _]. apply NoDup_cons in Hnd as [_ Hnd]. rewrite <- HT, locs_plug in Hnd.
            apply NoDup_app in Hnd as (Hnd & _ & _). rewrite Ec in Hnd |- *. destruct c1 as [|f1 c1]; simpl in *.
            + intros [= Efg]. apply NoDup_cons in Hnd as [Hnd _]. apply Hnd. rewrite Efg. set_solver +.
            + intros [= Efg]. apply NoDup_cons in Hnd as [Hnd _]. apply Hnd. rewrite Efg.
              rewrite !elem_of_app. right. unfold clocs. rewrite flat_map_app. simpl. set_solver +. }
        rewrite (keep_links _ _ _ _ Hk Eg). done. }
      destruct (fuel - length c) as [|[|fu]] eqn:Ef; [lia|lia|]. exists fu, (hproc F seed x (S (length c))), (N.of_nat (S (length c))).
      destruct Hcar as [(rt3 & Hrt3 & Hrep) _].
      destruct (rep_hole L _ _ _ _ _ Hrt3 Hrep) as (lk3 & Hlk3 & Hnode). rewrite Hlk in Hlk3. injection Hlk3 as <-.
      apply rep_node_inv in Hnode as (-> & Hrs & _). cbn [lk_pmap lk_tmap] in Hlk0.
      cbn [descend]. rewrite (bind_Ret _ _ _ _ _ (load_link_step _ _ _ Hlk0)). cbn [lk_pmap lk_tmap lk_ptr].
      change (radix_of (hproc F seed x (length c))) with (nib F seed x (length c)).
      rewrite (Hnx (length c)) by lia.
      pose proof (nib_lt F seed k (length c)) as Hn16.
      rewrite (lrads_clear _ _ _ _ (Node 1%positive [])) by done.
      rewrite !land_bit_of by lia.
      rewrite map_app in *. cbn [map fst] in *. rewrite bool_decide_true by set_solver +. cbn [negb].
      unfold no_visit at 1. rewrite bind_ret.
      rewrite bool_decide_false.
      2:{ rewrite leaf_child_bit by done. done. }
      cbn [negb]. rewrite idx_of_child by done. cbn [elem].
      rewrite u8_succ by lia.
      rewrite (bind_Ret _ _ _ _ _ (load_link_step _ _ _ Hx1)). rewrite Ex1. cbn [lk_pmap lk_tmap lk_ptr].
      change (advance F seed x (N.of_nat (S (length c))) (hproc F seed x (length c))) with (hproc F seed x (S (length c))).
      change (radix_of (hproc F seed x (S (length c)))) with (nib F seed x (S (length c))).
      rewrite (Hnx (S (length c))) by lia.
      rewrite Nat.add_1_r. change (radix_of (hproc F seed k (S (length c)))) with (nib F seed k (S (length c))).
      pose proof (nib_lt F seed k (S (length c))) as Hm16.
      assert ((N.land (bit_of (nib F seed k (S (length c)))) (bit_of (nib F seed k (S (length c)))) =? 0)%N = false) as ->.
      { transitivity (N.land (bits_of [nib F seed k (S (length c))]) (bit_of (nib F seed k (S (length c)))) =? 0)%N.
        - by rewrite <- bit_of_bits_of by lia.
        - rewrite land_bit_of by lia. by rewrite bool_decide_true by set_solver +. }
      unfold no_visit at 1. rewrite bind_ret.
      assert (idx_of (bit_of (nib F seed k (S (length c)))) (nib F seed k (S (length c))) = 0) as ->.
      { rewrite bit_of_bits_of by lia. apply (idx_of_child (K:=K) [] []). simpl. split; [repeat constructor|]. repeat constructor. done. }
      destruct (N.eqb_spec (N.land (lk_tmap (ly_leaf L k' p)) (bit_of (nib F seed k (S (length c))))) 0) as [Ez|_]; [by destruct Hstale|].
      done. }
    destruct He as (fu & hh & dd & He). rewrite (bind_Ret _ _ _ _ _ He).
    by rewrite (bind_Ret _ _ _ _ _ (load_link_step _ _ _ Hx2)).
Qed.
End stale.
