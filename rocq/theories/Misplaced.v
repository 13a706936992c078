(** What an insertion leaves behind if it moves the stored key in its way to the
    place of other digits: C10, C11, C12. *)
From stdpp Require Import base numbers list gmap.
From Verif Require Import GoInt Mem Hash Amt Families BitsFacts Steps Tree Rep Paths Descend Insert Split Delete Remove Core Scan Order Heap Spec SpecFacts HashFacts Guards Client Types Refine RefineSet Instances Pack Observe ObserveFacts ObserveMap ObserveSet Levels Shape Weak ExactSpec Exact Broken Panics MovedSpec.
Local Open Scope nat_scope.

(** ** Lookups in any tree *)
Section lookup.
Context {K HS V CK U : Type} (F : fam K HS V CK U) (L : layout K V CK) (D : nat) (seed : N).
Local Notation world := (world V CK U).
Local Notation tree := (tree K).
Hypothesis HF : fam_ok F L.
Hypothesis HL : laws F L.
Hypothesis HD : D <= 240.
Implicit Types (w : world).

Lemma mfind w r T x fuel : MapI L (S D) w r seed T -> ly_ok L x -> 256 <= fuel ->
  (∃ p, spot F seed T x x p /\ find F fuel (Some r) x w = Ret (Some (ly_leaf L x p)) w) \/
  ((∀ p, ¬ spot F seed T x x p) /\ find F fuel (Some r) x w = Ret None w).
Proof.
  intros HM Hok Hf. assert (Hwf : wf T).
  { destruct HM as [(rt & _ & _ & Hrep & _) _ _ _]. by eapply rep_wf. }
  destruct (MapI_seed _ _ _ _ _ _ HM) as (rt & Hrt & Hs).
  unfold find. rewrite (bind_Ret _ _ _ _ _ (load_root_step _ _ _ Hrt)). rewrite Hs.
  destruct (wdescend F L D seed ltac:(lia) w r T x fuel HM Hf) as (c & a & [(cs & Hst & Hd)|(bef & k' & p & aft & Hst & Hd)]);
    rewrite (bind_Ret _ _ _ _ _ Hd).
  - right. split; [|done]. intros p. by eapply missing_spot.
  - pose proof (present_spot F seed _ _ _ _ _ _ _ _ Hst) as Hsp.
    rewrite (bind_Ret _ _ _ _ _ (load_link_step _ _ _ (witem_at F L D seed _ _ _ _ _ _ _ _ _ _ HM Hst))).
    assert (Hc : ly_ok L k' /\ cell L (w_mem w) k' p).
    { destruct HM as [(rt' & _ & _ & Hrep & _) _ _ _]. eapply rep_ok; [done|]. by eapply spot_leaf. }
    destruct Hc as [Hok' Hcell].
    rewrite (bind_Ret _ _ _ _ _ (fo_key _ _ HF _ _ _ Hok' Hcell)).
    destruct (f_eq F x k') eqn:E.
    + apply (la_eq _ _ HL) in E; [|done..]. subst k'. left. exists p. done.
    + right. split; [|done]. intros p2 Hp2.
      destruct (Weak.spot_unique F seed T x c a bef k' p aft x p2 Hwf Hst Hp2) as [<- _].
      assert (f_eq F x x = true) by (by apply (la_eq _ _ HL)). congruence.
Qed.
End lookup.

(** ** The insertion *)
Section misplaced.
Context {K HS V CK U : Type} (F : fam K HS V CK U) (L : layout K V CK) (D : nat) (seed : N).
Local Notation world := (world V CK U).
Local Notation tree := (tree K).
Local Notation frame := (frame K).
Hypothesis HF : fam_ok F L.
Hypothesis HL : laws F L.
Hypothesis HD : D <= 240.
Implicit Types (w : world).

Lemma insert_misplaced op w r T k fuel q ck cp ch j : Good F L D seed w r T -> w_ok w -> ly_ok L k -> 256 <= fuel ->
  (∀ p, (k, p) ∉ leaves T) ->
  (q, (ck, cp)) ∈ pleaves [] T -> q = nibs F seed k (length q) ->
  let d := length q - 1 in
  (∀ fuel, 16 <= fuel -> f_conf F fuel seed k ck (N.of_nat d) = Some ch) ->
  io_check op = false ->
  (∀ i, 1 <= i < j -> nib F seed k (d + i) = radix_of (adv F seed ck d ch i)) ->
  nib F seed k (d + j) ≠ radix_of (adv F seed ck d ch j) -> 1 <= j -> d + j <= D ->
  lk_tmap (ly_leaf L ck cp) = 0%N ->
  ∃ w1, quiet (λ l, l ∈ foot r T) w w1 /\
    ∀ p w2, io_split op w1 = Ret p w2 -> made L (region r T w w1) w1 w2 k p ->
      ∃ w' T' rest, insert F op fuel (Some r) k w = Ret tt w' /\
        quiet (region r T w w1) w2 w' /\ MapI L (S D) w' r seed T' /\
        pleaves [] T ≡ₚ (q, (ck, cp)) :: rest /\
        pleaves [] T' ≡ₚ (nibs F seed k (d + j) ++ [nib F seed k (d + j)], (k, p)) ::
          (nibs F seed k (d + j) ++ [radix_of (adv F seed ck d ch j)], (ck, cp)) :: rest.
Proof.
  intros HG Hwok Hok Hf Habs Hqin Hqk d Hconf Hchk Hag Hdiff Hj HdD Hflat.
  pose proof (Good_wf _ _ _ _ _ _ _ HG) as Hwf.
  destruct (load_seed _ _ _ _ _ _ _ HG) as (rt & Hrt & Hs).
  unfold insert. rewrite (bind_Ret _ _ _ _ _ (load_root_step _ _ _ Hrt)). rewrite Hs.
  assert (Hh : hgt T <= S D) by apply HG. assert (Hpl : placed F seed T) by apply HG.
  destruct (descend_plain F L D seed HD w r T k fuel HG Hf) as (c & a & [(cs & Hst & Hd)|(bef & k' & p & aft & Hst & Hd)]).
  { exfalso. revert Hqk. by eapply (missing_path F). }
  destruct (Weak.spot_unique F seed T k c a bef k' p aft ck cp Hwf Hst) as [-> ->].
  { by exists q. }
  rewrite (bind_Ret _ _ _ _ _ Hd).
  assert (Hin : (k', p) ∈ leaves T) by (by eapply present_leaf).
  destruct (Good_ok _ _ _ _ _ _ _ _ _ HG Hin) as [Hok' Hcell].
  assert (E : f_eq F k k' = false).
  { apply not_true_is_false. intros E. apply (la_eq _ _ HL) in E; [|done..]. subst k'. by apply Habs in Hin. }
  destruct Hst as (HT & Hr).
  assert (Hpin : (nibs F seed k (S (length c)), (k', p)) ∈ pleaves [] T).
  { rewrite <- HT, pleaves_plug, pleaves_node, cspl_app, cspl_cons. cbn [fst snd pleaves].
    rewrite nibs_S, <- Hr. set_solver +. }
  assert (Hlq : length q = S (length c)).
  { erewrite <- (nibs_length F seed k (S (length c))). eapply (path_unique F seed T k); done. }
  assert (Ed : d = length c) by (unfold d; lia). rewrite Ed in *. clear d Ed.
  assert (HM : MapI L (S D) w r seed (plug c (Node a (bef ++ (nib F seed k (length c), Leaf k' p) :: aft)))).
  { rewrite HT. apply HG. }
  destruct (add_present_gen F L HF op r seed k k' p (S D) c a bef aft (nib F seed k (length c)) Hok
    (fuel - 1 - length c) (hproc F seed k (length c)) ch j w HM Hwok eq_refl E)
    as (w1 & Hq1 & Hpan & Hadd).
  * apply Hconf. lia.
  * by rewrite Hchk.
  * intros i Hi. rewrite !adv_hproc. by apply Hag.
  * by rewrite !adv_hproc.
  * lia.
  * lia.
  * lia.
  * done.
  * rewrite !adv_hproc in Hadd. rewrite HT in *.
    change (radix_of (hproc F seed k (length c + j))) with (nib F seed k (length c + j)) in Hadd.
    exists w1. split; [done|]. intros p2 w2 Hio Hmade.
    destruct (Hadd p2 w2 Hmade) as (w' & a2 & chain & Hrun & _ & _ & _ & Hq2 & HM' & Hlc & Hrc & Hb & Hfr).
    set (C := chain ++ Frame a bef (nib F seed k (length c)) aft :: c) in *.
    set (n2 := radix_of (adv F seed k' (length c) ch j)) in *.
    exists w', (plug C (Node a2 (pair_cs (nib F seed k (length c + j)) (Leaf k p2) n2 (Leaf k' p)))).
    exists (ctxpl c ++ cspl (rads c) bef ++ cspl (rads c) aft).
    split_and!; [by apply Hrun|done|done| |].
    + rewrite <- HT, pleaves_plug, pleaves_node, cspl_app, cspl_cons. cbn [fst snd pleaves].
      rewrite Hqk, Hlq, nibs_S, <- Hr. solve_Permutation.
    + assert (HrC : rads C = nibs F seed k (length c + j)).
      { unfold C. rewrite rads_app, rads_cons. cbn [fr_r]. rewrite Hrc, Hr. rewrite nibs_app. rewrite <- app_assoc. f_equal.
        destruct j as [|j0]; [lia|]. simpl. f_equal. rewrite Nat.sub_0_r. rewrite <- (Nat.add_1_r (length c)).
        rewrite <- (map_shift (nib F seed k) (length c) j0 1). apply map_ext. intros i. by rewrite adv_hproc. }
      rewrite pleaves_plug, HrC. unfold C. rewrite ctxpl_bare by done. cbn [ctxpl fr_bef fr_aft fr_r].
      rewrite pleaves_node. unfold pair_cs. destruct (_ <? _)%N; rewrite !cspl_cons; cbn [fst snd pleaves app cspl flat_map]; rewrite ?app_nil_r; solve_Permutation.
Qed.
End misplaced.

(** ** What lookups find afterwards *)
Section after.
Context {K HS V CK U : Type} (F F' : fam K HS V CK U) (L : layout K V CK) (D : nat) (seed : N).
Local Notation world := (world V CK U).
Local Notation tree := (tree K).
Hypothesis HF : fam_ok F L.
Hypothesis HL : laws F L.
Hypothesis HF' : fam_ok F' L.
Hypothesis HL' : laws F' L.
Hypothesis Hnib : ∀ s k d, nib F' s k d = nib F s k d.
Hypothesis HD : D <= 240.
Implicit Types (w : world).

Lemma Good_alike w r T : Good F L D seed w r T -> Good F' L D seed w r T.
Proof using Hnib.
  intros [HM Hp]. split; [done|]. unfold placed in *. eapply Forall_impl; [exact Hp|].
  intros [q [x p]]. unfold well. cbn [fst snd]. intros ->. rewrite nibs_length.
  by rewrite (nibs_alike F F' seed Hnib).
Qed.

Lemma insert_moved op w r T k fuel q ck cp ch j : Good F L D seed w r T -> w_ok w -> ly_ok L k -> 256 <= fuel ->
  (∀ p, (k, p) ∉ leaves T) ->
  (q, (ck, cp)) ∈ pleaves [] T -> q = nibs F seed k (length q) ->
  let d := length q - 1 in
  (∀ fuel, 16 <= fuel -> f_conf F' fuel seed k ck (N.of_nat d) = Some ch) ->
  io_check op = false ->
  (∀ i, 1 <= i < j -> nib F seed k (d + i) = radix_of (adv F' seed ck d ch i)) ->
  nib F seed k (d + j) ≠ radix_of (adv F' seed ck d ch j) -> 1 <= j -> d + j <= D ->
  lk_tmap (ly_leaf L ck cp) = 0%N ->
  ∃ w1, quiet (λ l, l ∈ foot r T) w w1 /\
    ∀ p w2, io_split op w1 = Ret p w2 -> newcell L w1 w2 k p ->
      ∃ w', insert F' op fuel (Some r) k w = Ret tt w' /\
        quiet (region r T w w1) w2 w' /\
        (∃ rt rt', w_mem w !! r = Some (BRoot rt) /\ w_mem w' !! r = Some (BRoot rt') /\ rt_len rt' = u64 (rt_len rt + 1)) /\
        find F fuel (Some r) k w' = Ret (Some (ly_leaf L k p)) w' /\
        ((∃ i, 1 <= i <= j /\ radix_of (adv F' seed ck d ch i) ≠ nib F seed ck (d + i)) ->
          find F fuel (Some r) ck w' = Ret None w') /\
        ∀ x, ly_ok L x -> x ≠ k -> (x = ck -> ∀ i, 1 <= i <= j -> radix_of (adv F' seed ck d ch i) = nib F seed ck (d + i)) ->
          (∃ px, (x, px) ∈ leaves T /\ find F fuel (Some r) x w = Ret (Some (ly_leaf L x px)) w /\ find F fuel (Some r) x w' = Ret (Some (ly_leaf L x px)) w') \/
          (find F fuel (Some r) x w = Ret None w /\ find F fuel (Some r) x w' = Ret None w').
Proof.
  intros HG Hwok Hok Hf Habs Hqin Hqk d Hconf Hchk Hag Hdiff Hj HdD Hflat.
  pose proof (Good_alike _ _ _ HG) as HG'.
  assert (Hqk' : q = nibs F' seed k (length q)) by (by rewrite <- (nibs_alike F F' seed Hnib)).
  assert (Hag' : ∀ i, 1 <= i < j -> nib F' seed k (d + i) = radix_of (adv F' seed ck d ch i)).
  { intros i Hi. rewrite Hnib. by apply Hag. }
  assert (Hdiff' : nib F' seed k (d + j) ≠ radix_of (adv F' seed ck d ch j)) by (by rewrite Hnib).
  destruct (insert_misplaced F' L D seed HF' HL' HD op w r T k fuel q ck cp ch j HG' Hwok Hok Hf Habs Hqin Hqk' Hconf Hchk Hag' Hdiff' Hj HdD Hflat)
    as (w1 & Hq1 & Hnext).
  exists w1. split; [done|]. intros p w2 Hio Hnew.
  destruct (Hnext p w2 Hio) as (w' & T' & rest & Hrun & Hq2 & HM' & Hp1 & Hp2).
  { apply newcell_made; [done|]. pose proof (qu_nxt _ _ _ Hq1) as Hn1.
    intros l [Hl|Hl]; [|lia]. assert (l < w_nxt w)%positive by (eapply MapI_lt; [done|apply HG|done]). lia. }
  clear Hnext. fold d in Hp2.
  rewrite <- (nibs_alike F F' seed Hnib), Hnib in Hp2.
  set (om := radix_of (adv F' seed ck d ch j)) in *.
  assert (HM : MapI L (S D) w r seed T) by apply HG.
  assert (Hnd : NoDup (map fst (leaves T))) by (eapply keys_nodup; [by eapply Good_wf|apply HG]).
  assert (Hlv : leaves T ≡ₚ (ck, cp) :: map snd rest).
  { rewrite <- (pleaves_leaves T []). by rewrite Hp1. }
  assert (Hlv' : leaves T' ≡ₚ (k, p) :: (ck, cp) :: map snd rest).
  { rewrite <- (pleaves_leaves T' []). by rewrite Hp2. }
  assert (Hin : (ck, cp) ∈ leaves T) by (rewrite Hlv; set_solver +).
  assert (Hok' : ly_ok L ck) by (by eapply Good_ok).
  assert (Hne : k ≠ ck) by (intros <-; by apply Habs in Hin).
  assert (Hrest : ∀ q1 x px, (q1, (x, px)) ∈ rest -> (x, px) ∈ leaves T).
  { intros q1 x px Hx. rewrite Hlv. right. apply elem_of_list_In, in_map_iff. exists (q1, (x, px)). split; [done|]. by apply elem_of_list_In. }
  assert (Hck : ∀ q1 px, (q1, (ck, px)) ∉ rest).
  { intros q1 px Hx. rewrite Hlv in Hnd. cbn [map fst] in Hnd. apply NoDup_cons in Hnd as [Hnd _]. apply Hnd.
    apply elem_of_list_In. rewrite map_map. apply in_map_iff. exists (q1, (ck, px)). split; [done|]. by apply elem_of_list_In. }
  (* digits up to d *)
  assert (Hlow : q = nibs F seed ck (length q)).
  { assert (Hpl : placed F seed T) by apply HG. unfold placed in Hpl. rewrite Forall_forall in Hpl.
    specialize (Hpl _ Hqin). exact Hpl. }
  assert (Hq0 : 1 <= length q).
  { destruct q as [|x q']; [|simpl; lia]. exfalso. destruct T as [k0 p0|a cs].
    - destruct HM as [_ _ Hc _]. done.
    - apply elem_of_list_In in Hqin. cbn [pleaves] in Hqin. apply in_flat_map in Hqin as ([n t] & _ & Hx).
      apply elem_of_list_In in Hx. apply pleaves_pre in Hx as (s0 & Hs0 & _). simpl in Hs0. done. }
  assert (Hd : ∀ i, i <= d -> nib F seed k i = nib F seed ck i).
  { intros i Hi. assert (Hlt : i < length q) by (unfold d in Hi; lia).
    assert (nibs F seed k (length q) = nibs F seed ck (length q)) as E by congruence.
    apply (f_equal (λ l, l !! i)) in E. rewrite !nibs_lookup in E by lia. by injection E. }
  assert (Hright : nibs F seed k (d + j) ++ [om] = nibs F seed ck (S (d + j)) <->
    ∀ i, 1 <= i <= j -> radix_of (adv F' seed ck d ch i) = nib F seed ck (d + i)).
  { rewrite nibs_S. split.
    - intros E. apply app_inj_2 in E as [E1 E2]; [|done]. injection E2 as E2.
      intros i Hi. destruct (decide (i = j)) as [->|Hij]; [done|].
      rewrite <- Hag by lia. apply (f_equal (λ l, l !! (d + i))) in E1. rewrite !nibs_lookup in E1 by lia. congruence.
    - intros Hr. f_equal; [|f_equal; apply Hr; lia]. apply map_ext_in. intros i Hi. apply in_seq in Hi.
      destruct (decide (i <= d)) as [Hid|Hid]; [by apply Hd|].
      replace i with (d + (i - d)) by lia. rewrite Hag by lia. apply Hr. lia. }
  (* entries by key *)
  assert (Hk : ∀ px, spot F seed T' k k px -> px = p).
  { intros px Hsp. apply spot_leaf in Hsp. rewrite Hlv' in Hsp. apply elem_of_cons in Hsp as [E|Hsp]; [congruence|].
    rewrite <- Hlv in Hsp. by apply Habs in Hsp. }
  assert (Hkk : spot F seed T' k k p).
  { exists (nibs F seed k (d + j) ++ [nib F seed k (d + j)]). rewrite Hp2. split; [|set_solver +].
    rewrite <- nibs_S. by rewrite nibs_length. }
  assert (Hx : ∀ x px, x ≠ k -> x ≠ ck -> spot F seed T' x x px <-> spot F seed T x x px).
  { intros x px H1 H2. unfold spot. setoid_rewrite Hp2. setoid_rewrite Hp1. setoid_rewrite elem_of_cons.
    setoid_rewrite elem_of_cons. naive_solver. }
  assert (Hc : ∀ px, spot F seed T' ck ck px <-> px = cp /\ nibs F seed k (d + j) ++ [om] = nibs F seed ck (S (d + j))).
  { intros px. split.
    - intros (q1 & E1 & E2). rewrite Hp2 in E2. apply elem_of_cons in E2 as [E2|E2]; [congruence|].
      apply elem_of_cons in E2 as [E2|E2]; [|by apply Hck in E2]. injection E2 as -> ->. split; [done|].
      rewrite E1. rewrite app_length, nibs_length. simpl. by rewrite Nat.add_1_r.
    - intros [-> E]. exists (nibs F seed k (d + j) ++ [om]). rewrite Hp2. split; [|set_solver +].
      rewrite app_length, nibs_length. simpl. by rewrite Nat.add_1_r. }
  exists w'. split_and!; [done|done| | | |].
  - destruct HM as [(rt & Hr1 & _ & _ & Hl1 & _) _ _ _]. destruct HM' as [(rt' & Hr2 & _ & _ & Hl2 & _) _ _ _].
    exists rt, rt'. split_and!; [done|done|]. rewrite Hl1, Hl2, Hlv', Hlv. cbn [length].
    unfold u64. rewrite N.add_mod_idemp_l by done. f_equal. lia.
  - destruct (mfind F L D seed HF HL HD w' r T' k fuel HM' Hok Hf) as [(px & Hsp & Hfd)|[Hn _]]; [|by apply Hn in Hkk].
    by apply Hk in Hsp as ->.
  - intros (i & Hi & Hbad). destruct (mfind F L D seed HF HL HD w' r T' ck fuel HM' Hok' Hf) as [(px & Hsp & Hfd)|[_ Hfd]]; [|done].
    apply Hc in Hsp as [_ E]. rewrite Hright in E. by apply E in Hi.
  - intros x Hxok Hxk Hxc.
    destruct (find_spec F L HF D seed HD HL w r T x fuel HG Hxok Hf) as [(px & Hin1 & Hf1)|[Hn1 Hf1]];
    destruct (mfind F L D seed HF HL HD w' r T' x fuel HM' Hxok Hf) as [(px' & Hsp2 & Hf2)|[Hn2 Hf2]].
    + left. exists px. split_and!; [done|done|]. assert (px' = px) as ->; [|done].
      apply spot_leaf in Hsp2. rewrite Hlv' in Hsp2.
      apply elem_of_cons in Hsp2 as [E|Hsp2]; [congruence|]. rewrite <- Hlv in Hsp2.
      apply elem_of_list_lookup in Hin1 as [i1 E1]. apply elem_of_list_lookup in Hsp2 as [i2 E2].
      assert (i1 = i2) as ->; [|congruence]. eapply (NoDup_lookup _ i1 i2 x Hnd);
      change (map fst) with (fmap (M:=list) (@fst K ptr)); by rewrite list_lookup_fmap, ?E1, ?E2.
    + exfalso. apply (Hn2 px).
      rewrite <- (pleaves_leaves T []) in Hin1. apply elem_of_list_In, in_map_iff in Hin1 as ([q1 e1] & He & Hin1).
      simpl in He. subst e1. apply elem_of_list_In in Hin1.
      assert (Hsp : spot F seed T x x px).
      { exists q1. split; [|done]. assert (Hpl : placed F seed T) by apply HG. unfold placed in Hpl. rewrite Forall_forall in Hpl.
        exact (Hpl _ Hin1). }
      rewrite Hp1 in Hin1. apply elem_of_cons in Hin1 as [E|Hin1].
      * injection E as -> -> ->. apply Hc. split; [done|]. apply Hright. by apply Hxc.
      * assert (x ≠ ck) by (intros ->; by apply Hck in Hin1). by apply Hx.
    + exfalso. apply spot_leaf in Hsp2. rewrite Hlv' in Hsp2. apply elem_of_cons in Hsp2 as [E|Hsp2]; [congruence|].
      rewrite <- Hlv in Hsp2. by apply Hn1 in Hsp2.
    + by right.
Qed.
End after.

(** ** The generic Map and Set *)
Section digits.
Context {K V U : Type} (Equal : K -> K -> bool) (Hash : K -> N -> N -> N).
Local Notation GF := (gen_fam (V:=V) (U:=U) Equal Hash).
Local Notation GM := (gen_mod_fam (V:=V) (U:=U) Equal Hash).

Lemma gen_adv s ck d (h0 : N) i : adv GF s ck d (tt, upper h0 d) i =
  if (d + i) / 16 =? d / 16 then (tt, N.shiftr h0 (4 * N.of_nat ((d + i) mod 16))) else hproc GF s ck (d + i).
Proof.
  induction i as [|i IH]; cbn [adv].
  { rewrite Nat.add_0_r, Nat.eqb_refl. done. }
  rewrite IH. rewrite Nat.add_succ_r. unfold advance.
  assert (E : (N.of_nat (S (d + i)) mod 16 = N.of_nat (S (d + i) mod 16))%N) by (by rewrite Nat2N.inj_mod).
  rewrite E. destruct (N.eqb_spec (N.of_nat (S (d + i) mod 16)) 0) as [H0|H0]; cbn [negb].
  - assert (H0' : S (d + i) mod 16 = 0) by lia.
    assert (Hnext : S (d + i) / 16 ≠ d / 16).
    { intros E16. pose proof (Nat.div_mod (S (d + i)) 16). pose proof (Nat.div_mod d 16). pose proof (Nat.mod_upper_bound d 16). lia. }
    destruct (Nat.eqb_spec (S (d + i) / 16) (d / 16)) as [|_]; [done|].
    rewrite (gen_hproc _ _ s ck (S (d + i))). cbn [f_next gen_fam]. rewrite H0'. change (4 * N.of_nat 0)%N with 0%N. rewrite N.shiftr_0_r.
    rewrite N.shiftr_div_pow2. change (2 ^ 4)%N with (N.of_nat 16). by rewrite <- Nat2N.inj_div.
  - destruct (div16_S (d + i)) as [E1 E2]; [lia|]. rewrite E1, E2.
    destruct (Nat.eqb_spec ((d + i) / 16) (d / 16)) as [E3|E3].
    + cbn [fst snd]. f_equal. rewrite N.shiftr_shiftr. f_equal. lia.
    + rewrite !gen_hproc, E1, E2. cbn [fst snd]. f_equal. rewrite N.shiftr_shiftr. f_equal. lia.
Qed.

Lemma gen_moved s x ck d i : radix_of (adv GF s ck d (tt, upper (Hash x s (N.of_nat (d mod 16))) d) i) = moved Hash s x ck d (d + i).
Proof.
  rewrite gen_adv. unfold moved. destruct (_ =? _).
  - unfold radix_of. cbn [snd]. change 15%N with (N.ones 4). by rewrite N.land_ones.
  - apply gen_nib.
Qed.
End digits.

Section generic.
Context {K : Type} `{Countable K} (Equal : K -> K -> bool) (Hash : K -> N -> N -> N) (P : K -> Prop) (Q : N -> Prop).
Hypothesis Heq : decides_eq Equal P.
Variable fuel : nat.
Hypothesis Hfuel : 256 <= fuel.

Section maps.
Context {V U : Type} (zero : V) (u0 : U).
Local Notation world := (world V K U).
Local Notation GF := (gen_fam (V:=V) (U:=U) Equal Hash).
Local Notation GM := (gen_mod_fam (V:=V) (U:=U) Equal Hash).
Local Notation L := (kv_layout (V:=V) P).

Lemma get_found (w : world) h x a v : find GF fuel (Some h) x w = Ret (Some (ly_leaf L x (At a))) w -> vals w !! a = Some v ->
  Map_Get zero fuel Equal Hash (Some h) x w = Ret (v, true) w.
Proof.
  intros Hf Hv. unfold Map_Get, get. rewrite vals_lookup in Hv.
  destruct (w_mem w !! a) as [[ls|v' ck|rt]|] eqn:E; try done. injection Hv as ->.
  assert (Hp : ptr_of GF fuel (Some h) x w = Ret (At a) w).
  { unfold ptr_of. rewrite (bind_Ret _ _ _ _ _ Hf). done. }
  rewrite (bind_Ret _ _ _ _ _ Hp). by rewrite (bind_Ret _ _ _ _ _ (load_kv_step _ _ _ _ E)).
Qed.
Lemma get_none (w : world) h x : find GF fuel (Some h) x w = Ret None w ->
  Map_Get zero fuel Equal Hash (Some h) x w = Ret (zero, false) w.
Proof. intros Hf. unfold Map_Get, get, ptr_of, bind. by rewrite Hf. Qed.

(** y is the key that is hashed instead of k'. *)
Lemma map_misplaced tr (w : world) s h k k' j F' y (op : insop V K U) v un :
  mrun (Map_api zero fuel Equal Hash) (λ tr op, mallowed P Q tr op /\ ins_guard (gdigit Hash) (set_way Hash) (mod_way Hash) tr op) u0 tr w ->
  (MNew s, RHandle h) ∈ tr -> P k -> in_way (gdigit Hash) s (elements (stored tr h)) k k' ->
  let d := depth (gdigit Hash) s (elements (stored tr h)) k' in
  d < j <= 240 -> (∀ i, d < i < j -> gdigit Hash s k i = moved Hash s y k' d i) -> gdigit Hash s k j ≠ moved Hash s y k' d j ->
  (F' = GF /\ y = k' \/ F' = GM /\ y = k) -> io_check op = false ->
  (∀ w1, w_ok w1 -> w_usr w1 = w_usr w -> io_split op w1 =
     Ret (At (w_nxt w1)) (World (<[w_nxt w1 := BKv v k]> (w_mem w1)) (xO (w_nxt w1)) un)) ->
  P k' /\ (∃ v', Map_Get zero fuel Equal Hash (Some h) k' w = Ret (v', true) w) /\
  ∃ w', insert F' op fuel (Some h) k w = Ret tt w' /\ w_usr w' = un /\
    (∃ n, Len (Some h) w = Ret n w /\ Len (Some h) w' = Ret (u64 (n + 1)) w') /\
    Map_Get zero fuel Equal Hash (Some h) k w' = Ret (v, true) w' /\
    ((∃ i, d < i <= j /\ moved Hash s y k' d i ≠ gdigit Hash s k' i) ->
      Map_Get zero fuel Equal Hash (Some h) k' w' = Ret (zero, false) w') /\
    ∀ x, P x -> x ≠ k -> (x = k' -> ∀ i, d < i <= j -> moved Hash s y k' d i = gdigit Hash s k' i) ->
      ∃ r, Map_Get zero fuel Equal Hash (Some h) x w = Ret r w /\ Map_Get zero fuel Equal Hash (Some h) x w' = Ret r w'.
Proof using Heq Hfuel.
  intros Hr Hin Hpk Hway d Hj Hag Hdiff HF'y Hchk Hio.
  set (F := GF) in *. set (LL := L) in *.
  assert (HL : laws F LL) by (by apply gen_laws).
  assert (HF : fam_ok F LL) by apply kv_fam_ok.
  assert (Hdig : ∀ s k d, nib F s k d = gdigit Hash s k d) by (intros; by apply gen_nib).
  assert (HA1 : alike F LL F) by (by apply gen_alike). assert (HB1 : alike F LL GM) by (by apply gen_mod_alike).
  assert (∃ σ, mspec (gdigit Hash) zero u0 tr σ /\ Refine.Rel F LL Q w σ) as (σ & Hs & HR).
  { eapply (Refine.run_rel F LL Q HF HL eq_refl zero fuel Hfuel (gdigit Hash) Hdig F GM
      (set_op F) (mod_op F zero) (λ v, v) (set_way Hash) (mod_way Hash)); try done; try (intros; reflexivity).
    - apply (gen_goodway Equal).
    - apply (gen_mod_goodway Equal).
    - intros tr' op' Ho. exact Ho. }
  assert (HA : fam_ok F' LL /\ laws F' LL /\ (∀ s k d, nib F' s k d = nib F s k d)).
  { destruct HF'y as [[-> _]|[-> _]].
    - done.
    - destruct (gen_mod_alike (V:=V) (U:=U) Equal Hash P Heq) as (H1 & H2 & H3). done. }
  destruct HA as (HF' & HL' & Hnib).
  destruct (mspec_new _ _ _ _ _ Hs _ _ Hin) as [m Hm].
  destruct (Refine.Rel_handle F LL Q _ _ _ HR (ex_intro _ _ Hm)) as (G & s1 & T & HI & HGh & HQ & HG & Hmap & Hmh & Hv & Hu).
  rewrite Hm in Hmh. injection Hmh as <- ->.
  assert (Hel : elements (stored tr h) ≡ₚ map fst (leaves T)).
  { rewrite (stored_keys (gdigit Hash) zero u0 tr σ h s _ Hs Hm).
    rewrite (Refine.dict_list F LL eq_refl _ _ _ _ HG). by rewrite (Refine.ent_keys F LL eq_refl _ _ _ _ HG). }
  assert (Hne : k' ≠ k) by (by destruct Hway as (_ & ? & _)).
  destruct (of_way F LL fuel Hfuel (gdigit Hash) Hdig s w h T k k' _ HG Hel Hway) as (q & cp & Hqin & Hq).
  destruct (way_of F LL (gdigit Hash) Hdig s w h T k q k' cp _ HG Hel Hqin Hq Hne) as (_ & Hd & Hlen).
  assert (Hlq : length q - 1 = d) by (unfold d; lia).
  assert (Habs : ∀ p, (k, p) ∉ leaves T).
  { intros p Hp. apply (stored_free (gdigit Hash) s (elements (stored tr h)) k); [|by exists k'].
    rewrite Hel. apply elem_of_list_In, in_map_iff. exists (k, p). split; [done|]. by apply elem_of_list_In. }
  assert (Hwok : w_ok w) by (by eapply in_ok).
  assert (Hin' : (k', cp) ∈ leaves T).
  { rewrite <- (pleaves_leaves T []). apply elem_of_list_In, in_map_iff. exists (q, (k', cp)). split; [done|]. by apply elem_of_list_In. }
  assert (Hok' : ly_ok LL k') by (by eapply Good_ok).
  assert (Hkv : ∀ x p, (x, p) ∈ leaves T -> ∃ a vx, p = At a /\ vals w !! a = Some vx /\ (a < w_nxt w)%positive).
  { intros x p Hx. destruct (Good_ok _ _ _ _ _ _ _ _ _ HG Hx) as [_ Hc]. unfold cell in Hc. simpl in Hc.
    destruct Hc as (a & vx & -> & Ha). exists a, vx. split_and!; [done| |by eapply Hwok]. rewrite vals_lookup. simpl in Ha. by rewrite Ha. }
  split; [exact Hok'|]. split.
  { destruct (find_spec F LL HF 240 s (le_n 240) HL w h T k' fuel HG Hok' Hfuel) as [(p & Hp & Hf)|[Hn _]]; [|by apply Hn in Hin'].
    destruct (Hkv _ _ Hp) as (a & vx & -> & Hvx & _). exists vx. by eapply get_found. }
  set (ch := (tt, upper (Hash y s (N.of_nat (d mod 16))) d)).
  assert (Hch : ∀ i, radix_of (adv F' s k' d ch i) = moved Hash s y k' d (d + i)).
  { intros i. rewrite <- (gen_moved (V:=V) (U:=U) Equal). destruct HF'y as [[-> _]|[-> _]]; done. }
  destruct (insert_moved F F' LL 240 s HF HL HF' HL' Hnib (le_n 240) op w h T k fuel q k' cp ch (j - d) HG Hwok Hpk Hfuel Habs Hqin Hq)
    as (w1 & Hq1 & Hnext); rewrite ?Hlq; try done; try lia.
  { intros fu _. unfold ch. rewrite <- gen_conf. change 16%N with (N.of_nat 16). rewrite <- Nat2N.inj_mod.
    destruct HF'y as [[-> ->]|[-> ->]]; unfold F; cbn [f_conf gen_fam gen_mod_fam]; change 16%N with (N.of_nat 16); by rewrite <- Nat2N.inj_mod. }
  { intros i Hi. rewrite Hch, Hdig. apply Hag. lia. }
  { rewrite Hch, Hdig. by replace (d + (j - d)) with j by lia. }
  assert (Hok1 : w_ok w1) by (by apply (qu_ok _ _ _ Hq1)).
  destruct (Hnext _ _ (Hio w1 Hok1 (qu_usr _ _ _ Hq1)) (newcell_ok LL eq_refl w1 v k un Hok1))
    as (w' & Hrun & Hq2 & (rt & rt' & Hr1 & Hr2 & Hln) & Hfk & Hfc & Hfx). clear Hnext.
  rewrite Hlq in Hfc, Hfx.
  assert (Hvw : vals w' = <[w_nxt w1 := v]> (vals w)).
  { destruct (newcell_ok LL eq_refl w1 v k un Hok1) as (Hok2 & _).
    rewrite (vals_quiet _ _ _ Hok2 Hq2). rewrite (vals_alloc w1). by rewrite (vals_quiet _ _ _ Hwok Hq1). }
  exists w'. split_and!.
  - exact Hrun.
  - by rewrite (qu_usr _ _ _ Hq2).
  - exists (rt_len rt). unfold Len, root_len. rewrite (bind_Ret _ _ _ _ _ (load_root_step _ _ _ Hr1)), (bind_Ret _ _ _ _ _ (load_root_step _ _ _ Hr2)).
    rewrite Hln. done.
  - eapply get_found; [exact Hfk|]. rewrite Hvw. apply lookup_insert.
  - intros (i & Hi & Hbad). apply get_none, Hfc. exists (i - d). rewrite Hch, Hdig. replace (d + (i - d)) with i by lia. split; [lia|done].
  - intros x Hpx Hxk Hxc. destruct (Hfx x Hpx Hxk) as [(px & Hx1 & Hx2 & Hx3)|[Hx1 Hx2]].
    + intros -> i Hi. rewrite Hch, Hdig. apply Hxc; [done|lia].
    + destruct (Hkv _ _ Hx1) as (a & vx & -> & Hvx & Ha). exists (vx, true). split; [by eapply get_found|].
      eapply get_found; [exact Hx3|]. rewrite Hvw. rewrite lookup_insert_ne; [done|]. pose proof (qu_nxt _ _ _ Hq1). lia.
    + exists (zero, false). split; by apply get_none.
Qed.
End maps.

Section sets.
Context {U : Type} (u0 : U).
Local Notation world := (world unit K U).

Lemma set_misplaced tr (w : world) s h k k' j :
  srun (Set_api fuel Equal Hash) (λ tr op, sallowed P Q tr op /\ add_guard (gdigit Hash) (set_way Hash) tr op) u0 tr w ->
  (SNew s, THandle h) ∈ tr -> P k -> in_way (gdigit Hash) s (elements (sstored tr h)) k k' ->
  let d := depth (gdigit Hash) s (elements (sstored tr h)) k' in
  d < j <= 240 -> (∀ i, d < i < j -> gdigit Hash s k i = moved Hash s k' k' d i) -> gdigit Hash s k j ≠ moved Hash s k' k' d j ->
  P k' /\ Set_Has fuel Equal Hash (Some h) k' w = Ret true w /\
  ∃ w', Set_Add fuel Equal Hash (Some h) k w = Ret tt w' /\ w_usr w' = w_usr w /\
    (∃ n, Len (Some h) w = Ret n w /\ Len (Some h) w' = Ret (u64 (n + 1)) w') /\
    Set_Has fuel Equal Hash (Some h) k w' = Ret true w' /\
    ((∃ i, d < i <= j /\ moved Hash s k' k' d i ≠ gdigit Hash s k' i) ->
      Set_Has fuel Equal Hash (Some h) k' w' = Ret false w') /\
    ∀ x, P x -> x ≠ k -> (x = k' -> ∀ i, d < i <= j -> moved Hash s k' k' d i = gdigit Hash s k' i) ->
      ∃ b, Set_Has fuel Equal Hash (Some h) x w = Ret b w /\ Set_Has fuel Equal Hash (Some h) x w' = Ret b w'.
Proof using Heq Hfuel.
  intros Hr Hin Hpk Hway d Hj Hag Hdiff.
  set (F := gen_fam (V:=unit) (U:=U) Equal Hash) in *. set (LL := kv_layout (V:=unit) P) in *.
  assert (HL : laws F LL) by (by apply gen_laws).
  assert (HF : fam_ok F LL) by apply kv_fam_ok.
  assert (Hdig : ∀ s k d, nib F s k d = gdigit Hash s k d) by (intros; by apply gen_nib).
  assert (HA1 : alike F LL F) by (by apply gen_alike).
  assert (∃ σ, sspec (gdigit Hash) u0 tr σ /\ RefineSet.Rel F LL Q w σ) as (σ & Hs & HR).
  { eapply (RefineSet.run_rel F LL Q HF HL fuel Hfuel (gdigit Hash) Hdig F
      (add_op F tt) (set_way Hash) true tt); try done; try (intros; reflexivity).
    - apply (gen_goodway Equal).
    - intros tr' op [Ho Hg]. split; [exact Ho|]. destruct op; simpl in *; auto. }
  destruct (sspec_new (gdigit Hash) u0 tr σ Hs s h Hin) as [X HX].
  destruct (RefineSet.Rel_handle F LL Q _ _ _ HR (ex_intro _ _ HX)) as (G & s1 & T & HI & HGh & HQ & HG & Hmap & Hmh & Hu).
  rewrite HX in Hmh. injection Hmh as <- ->.
  destruct (sspec_stored (gdigit Hash) u0 tr σ Hs _ _ _ HX) as [HXs _].
  assert (Hel : elements (sstored tr h) ≡ₚ map fst (leaves T)).
  { rewrite <- HXs. by eapply RefineSet.keys_list. }
  assert (Hne : k' ≠ k) by (by destruct Hway as (_ & ? & _)).
  destruct (of_way F LL fuel Hfuel (gdigit Hash) Hdig s w h T k k' _ HG Hel Hway) as (q & cp & Hqin & Hq).
  destruct (way_of F LL (gdigit Hash) Hdig s w h T k q k' cp _ HG Hel Hqin Hq Hne) as (_ & Hd & Hlen).
  assert (Hlq : length q - 1 = d) by (unfold d; lia).
  assert (Habs : ∀ p, (k, p) ∉ leaves T).
  { intros p Hp. apply (stored_free (gdigit Hash) s (elements (sstored tr h)) k); [|by exists k'].
    rewrite Hel. apply elem_of_list_In, in_map_iff. exists (k, p). split; [done|]. by apply elem_of_list_In. }
  assert (Hwok : w_ok w) by (by eapply in_ok).
  assert (Hin' : (k', cp) ∈ leaves T).
  { rewrite <- (pleaves_leaves T []). apply elem_of_list_In, in_map_iff. exists (q, (k', cp)). split; [done|]. by apply elem_of_list_In. }
  assert (Hok' : ly_ok LL k') by (by eapply Good_ok).
  unfold Set_Has, has. split; [exact Hok'|]. split.
  { destruct (find_spec F LL HF 240 s (le_n 240) HL w h T k' fuel HG Hok' Hfuel) as [(p & Hp & Hf)|[Hn _]]; [|by apply Hn in Hin'].
    by rewrite (bind_Ret _ _ _ _ _ Hf). }
  set (ch := (tt, upper (Hash k' s (N.of_nat (d mod 16))) d)).
  assert (Hch : ∀ i, radix_of (adv F s k' d ch i) = moved Hash s k' k' d (d + i)) by (intros i; apply gen_moved).
  destruct (insert_moved F F LL 240 s HF HL HF HL ltac:(done) (le_n 240) (add_op F tt k) w h T k fuel q k' cp ch (j - d) HG Hwok Hpk Hfuel Habs Hqin Hq)
    as (w1 & Hq1 & Hnext); rewrite ?Hlq; try done; try lia.
  { intros fu _. unfold ch. rewrite <- gen_conf. unfold F. cbn [f_conf gen_fam]. change 16%N with (N.of_nat 16). by rewrite <- !Nat2N.inj_mod. }
  { intros i Hi. rewrite Hch, Hdig. apply Hag. lia. }
  { rewrite Hch, Hdig. by replace (d + (j - d)) with j by lia. }
  assert (Hok1 : w_ok w1) by (by apply (qu_ok _ _ _ Hq1)).
  destruct (Hnext _ _ (Refine.cellnew_run LL tt k w1) (newcell_ok LL eq_refl w1 tt k _ Hok1))
    as (w' & Hrun & Hq2 & (rt & rt' & Hr1 & Hr2 & Hln) & Hfk & Hfc & Hfx). clear Hnext.
  rewrite Hlq in Hfc, Hfx.
  exists w'. split_and!.
  - exact Hrun.
  - rewrite (qu_usr _ _ _ Hq2). cbn [w_usr]. by rewrite (qu_usr _ _ _ Hq1).
  - exists (rt_len rt). unfold Len, root_len. rewrite (bind_Ret _ _ _ _ _ (load_root_step _ _ _ Hr1)), (bind_Ret _ _ _ _ _ (load_root_step _ _ _ Hr2)).
    rewrite Hln. done.
  - by rewrite (bind_Ret _ _ _ _ _ Hfk).
  - intros (i & Hi & Hbad). assert (Hf0 : find F fuel (Some h) k' w' = Ret None w'); [|by rewrite (bind_Ret _ _ _ _ _ Hf0)].
    apply Hfc. exists (i - d). rewrite Hch, Hdig. replace (d + (i - d)) with i by lia. split; [lia|done].
  - intros x Hpx Hxk Hxc. destruct (Hfx x Hpx Hxk) as [(px & Hx1 & Hx2 & Hx3)|[Hx1 Hx2]].
    + intros -> i Hi. rewrite Hch, Hdig. apply Hxc; [done|lia].
    + exists true. by rewrite (bind_Ret _ _ _ _ _ Hx2), (bind_Ret _ _ _ _ _ Hx3).
    + exists false. by rewrite (bind_Ret _ _ _ _ _ Hx1), (bind_Ret _ _ _ _ _ Hx2).
Qed.
End sets.
End generic.
