(** Del leaves the link of the last item of an array in its slot. *)
From stdpp Require Import base numbers list gmap relations.
From Verif Require Import GoInt Mem Hash Amt Families BitsFacts Steps Tree Rep Paths Descend Insert Split Delete Remove Core Order Heap Spec DepthSpec Depth Client Types KeepSpec.
Local Open Scope nat_scope.

Section root.
Context {V CK U : Type} {HS : Type}.
Implicit Types (w : world V CK U).
Local Notation M := (M V CK U).
Variables (h a : loc) (ls : list link).

(** The root h points to the array a, which holds ls. *)
Definition holds (pm : N) w : Prop := ∃ rt, w_mem w !! h = Some (BRoot rt) /\
  lk_ptr (rt_link rt) = At a /\ lk_pmap (rt_link rt) = pm /\ w_mem w !! a = Some (BLinks ls).

Lemma holds_upd pm rt rt' w : w_mem w !! h = Some (BRoot rt) -> holds (lk_pmap (rt_link rt)) w ->
  lk_ptr (rt_link rt') = lk_ptr (rt_link rt) -> lk_pmap (rt_link rt') = pm ->
  holds pm (set_mem w (<[h := BRoot rt']> (w_mem w))).
Proof.
  intros Hr (rt0 & Hr0 & Hp & _ & Ha) E1 E2. rewrite Hr in Hr0. injection Hr0 as <-.
  exists rt'. cbn [w_mem set_mem]. rewrite lookup_insert. split_and!; try done; [congruence|].
  rewrite lookup_insert_ne; [done|]. intros <-. rewrite Ha in Hr. discriminate Hr.
Qed.

Lemma holds_root pm f w x w' : (∀ rt, rt_link (f rt) = rt_link rt) -> holds pm w -> upd_root h f w = Ret x w' -> holds pm w'.
Proof.
  intros Hf Hh E. pose proof Hh as (rt & Hr & _ & Hpm & _). unfold upd_root in E. rewrite Hr in E. injection E as _ <-.
  eapply holds_upd; [exact Hr|by rewrite Hpm|by rewrite Hf|by rewrite Hf].
Qed.
Lemma holds_link pm f w x w' : (∀ lk, lk_ptr (f lk) = lk_ptr lk) -> (∀ lk lk', lk_pmap lk = lk_pmap lk' -> lk_pmap (f lk) = lk_pmap (f lk')) ->
  holds pm w -> upd_link (RootRef h) f w = Ret x w' -> holds (lk_pmap (f (Link (At a) pm 0))) w'.
Proof.
  intros Hf Hf2 Hh E. pose proof Hh as (rt & Hr & _ & Hpm & _). unfold upd_link, bind, load_link, store_link in E. rewrite Hr in E.
  rewrite Hr in E. injection E as _ <-.
  eapply holds_upd; [exact Hr|by rewrite Hpm|apply Hf|apply Hf2; exact Hpm].
Qed.
Lemma load_link_same l w x w' : load_link (V:=V) (CK:=CK) (U:=U) l w = Ret x w' -> w' = w.
Proof.
  intros E. unfold load_link in E. destruct l as [r|a0 i|]; [| |discriminate E].
  - destruct (w_mem w !! r) as [[]|]; try discriminate E. by injection E as _ <-.
  - destruct (w_mem w !! a0) as [[ls0| |]|]; try discriminate E. destruct (ls0 !! i); try discriminate E. by injection E as _ <-.
Qed.
Lemma path_clear_holds pm p i w x w' : holds pm w -> path_clear h p i w = Ret x w' -> holds pm w'.
Proof.
  intros Hh E. unfold path_clear in E. apply bind_inv_Ret in E as (y & w1 & E1 & E).
  assert (w1 = w) as ->.
  { unfold path_get in E1. destruct p as [n|q].
    - apply bind_inv_Ret in E1 as (rt & w2 & E2 & E1). unfold load_root in E2.
      destruct (w_mem w !! h) as [[]|]; try discriminate E2. injection E2 as <- <-.
      destruct (i <? n); [|discriminate E1]. destruct (rt_path r !! i); [|discriminate E1]. by injection E1 as _ <-.
    - destruct (q !! i); [|discriminate E1]. by injection E1 as _ <-. }
  destruct p as [n|q].
  - apply bind_inv_Ret in E as ([] & w2 & E2 & E). injection E as _ <-. by eapply holds_root in E2.
  - by injection E as _ <-.
Qed.

Lemma remove_holds pm pm' fuel p (hs : HS * N) idx w x w' : holds pm w ->
  andnot pm (bit_of (radix_of hs)) = pm' -> idx = ones_count32 pm' ->
  remove fuel h p hs 0 (RootRef h) idx w = Ret x w' -> holds pm' w'.
Proof.
  intros Hh Hpm Hidx E. unfold remove in E.
  apply bind_inv_Ret in E as ([] & w1 & E1 & E).
  apply (holds_link pm) in E1; [|done|intros ?? ->; done|done].
  change (lk_pmap _) with (andnot pm (bit_of (radix_of hs))) in E1. rewrite Hpm in E1. clear Hh. rename E1 into Hh.
  apply bind_inv_Ret in E as ([] & w2 & E1 & E).
  apply (holds_link pm') in E1; [|done|done|done]. change (lk_pmap _) with pm' in E1. clear w Hh. rename E1 into Hh.
  apply bind_inv_Ret in E as ([] & w3 & E1 & E).
  apply (holds_root pm') in E1; [|done|done]. clear Hh. rename E1 into Hh.
  apply bind_inv_Ret in E as ([] & w4 & E1 & E).
  apply (holds_root pm') in E1; [|done|done]. clear Hh. rename E1 into Hh.
  apply bind_inv_Ret in E as (p1 & w5 & E1 & E).
  apply (path_clear_holds pm') in E1; [|done]. clear Hh. rename E1 into Hh.
  pose proof Hh as (rt & Hr & _ & Hpm5 & _).
  apply bind_inv_Ret in E as (lv & w6 & E1 & E). unfold load_link in E1. rewrite Hr in E1. injection E1 as <- <-.
  rewrite Hpm5 in E. rewrite <- Hidx in E.
  apply bind_inv_Ret in E as (y & w6 & E1 & E).
  destruct fuel as [|fuel]; [discriminate E1|]. cbn [unlink] in E1. rewrite andb_false_r in E1. injection E1 as <- <-.
  cbn [fst snd] in E. rewrite Nat.sub_diag, andb_false_r in E.
  apply bind_inv_Ret in E as (lv & w6 & E1 & E). apply load_link_same in E1 as ->.
  apply bind_inv_Ret in E as ([] & w6 & E1 & E). injection E1 as <-.
  apply bind_inv_Ret in E as (lv2 & w6 & E1 & E). apply load_link_same in E1 as ->.
  apply bind_inv_Ret in E as ([] & w6 & E1 & E). injection E1 as <-.
  apply bind_inv_Ret in E as (z & w6 & E1 & E). cbn [collapse] in E1.
  apply bind_inv_Ret in E1 as (lv3 & w7 & E0 & E1). apply load_link_same in E0 as ->.
  rewrite andb_false_r in E1. injection E1 as <- <-. cbn [fst snd clear_path] in E. by injection E as _ <-.
Qed.
End root.

Section last.
Context {K HS V CK U : Type} (F : fam K HS V CK U) (L : layout K V CK) (D : nat) (s : N).
Hypothesis HF : fam_ok F L.
Hypothesis HL : laws F L.
Hypothesis HD : D <= 240.

(** The item of k is the last one of the root. *)
Lemma delete_last w h a bef k p fuel x w' : let T := Node a (bef ++ [(nib F s k 0, Leaf k p)]) in
  Good F L D s w h T -> delete F fuel (Some h) k w = Ret x w' ->
  ∃ rt ls, w_mem w' !! h = Some (BRoot rt) /\ lk_ptr (rt_link rt) = At a /\
    w_mem w' !! a = Some (BLinks ls) /\ ls !! length bef = Some (ly_leaf L k p).
Proof.
  intros T HG E. assert (Hin : (k, p) ∈ leaves T).
  { unfold T. cbn [leaves]. rewrite flat_map_app. set_solver +. }
  destruct (Good_ok _ _ _ _ _ _ _ _ _ HG Hin) as [Hok Hcell].
  assert (HM : MapI L (S D) w h s (plug [] T)) by apply HG. unfold T in HM.
  destruct (MapI_hole _ _ _ _ _ _ _ _ HM) as (rt & lks & rest & Hrt & Hlk & Hrs & Ha & Hlena & Hfa).
  cbn [hole link_at] in Hlk. rewrite Hrt in Hlk. injection Hlk as Hlk.
  assert (Hseed : rt_seed rt = s).
  { destruct HM as [(rt' & Hr' & Hs & _) _ _ _]. rewrite Hrt in Hr'. injection Hr' as <-. exact Hs. }
  apply Forall2_app_inv_r in Hfa as (lb & l2 & Hlb & Hf2 & ->).
  apply Forall2_cons_inv_r in Hf2 as (lx & la & Hlx & Hla & ->).
  apply rep_leaf_inv in Hlx as (-> & _). apply Forall2_length in Hlb. cbn [snd] in *.
  rewrite map_app in Hlk, Hrs. cbn [map fst] in Hlk, Hrs.
  set (ls := (lb ++ ly_leaf L k p :: la) ++ rest) in *.
  assert (Hls : ls !! length bef = Some (ly_leaf L k p)).
  { unfold ls. rewrite <- app_assoc. cbn [app]. rewrite <- Hlb. by rewrite list_lookup_middle. }
  pose proof (nib_lt F s k 0) as Hn16.
  assert (HrsD : radixes (map fst bef)).
  { apply radixes_remove in Hrs. by rewrite app_nil_r in Hrs. }
  assert (Hpm : andnot (bits_of (map fst bef ++ [nib F s k 0])) (bit_of (nib F s k 0)) = bits_of (map fst bef)).
  { apply andnot_bit_of; [lia|]. apply radixes_notin in Hrs. intros i. rewrite elem_of_app, elem_of_list_singleton.
    rewrite app_nil_r in Hrs. split; [|tauto]. intros Hi. split; [by intros ->|by left]. }
  assert (Hh : holds h a ls (bits_of (map fst bef ++ [nib F s k 0])) w).
  { exists rt. rewrite Hlk. done. }
  unfold delete, delete_gen in E. rewrite (bind_Ret _ _ _ _ _ (load_root_step _ _ _ Hrt)) in E. rewrite Hseed in E.
  apply bind_inv_Ret in E as (res & w1 & E1 & E).
  assert (Hres : ∃ f acc, res = Present f (hproc F s k 0) 0 (RootRef h) (SlotRef a (length bef)) acc /\
    holds h a ls (bits_of (map fst bef ++ [nib F s k 0])) w1 /\ sbp h w w1).
  { destruct fuel as [|fuel]; [discriminate E1|]. change (f_start F s k) with (hproc F s k 0) in E1. cbn [descend] in E1.
    apply bind_inv_Ret in E1 as (lv & w2 & E2 & E1). unfold load_link in E2. rewrite Hrt in E2. injection E2 as <- <-.
    rewrite Hlk in E1. cbn [lk_pmap lk_tmap lk_ptr] in E1.
    change (radix_of (hproc F s k 0)) with (nib F s k 0) in E1.
    rewrite land_bit_of in E1 by lia. rewrite bool_decide_eq_true_2 in E1 by set_solver +.
    cbn [negb] in E1.
    apply bind_inv_Ret in E1 as (acc & w2 & E2 & E1).
    rewrite land_bit_of in E1 by lia. rewrite bool_decide_eq_true_2 in E1.
    2:{ apply elem_of_lrads. exists (Leaf k p). split; [set_solver +|done]. }
    cbn [negb] in E1. injection E1 as <- <-.
    change [nib F s k 0] with (nib F s k 0 :: map fst (@nil (N * tree K))).
    rewrite idx_of_child by done. cbn [elem]. eexists _, acc. split; [reflexivity|].
    unfold path_push in E2. apply bind_inv_Ret in E2 as (rt1 & w3 & E3 & E2). unfold load_root in E3. rewrite Hrt in E3. injection E3 as <- <-.
    simpl Nat.ltb in E2. apply bind_inv_Ret in E2 as ([] & w3 & E3 & E2). injection E2 as _ <-.
    split; [by eapply holds_root in E3|]. unfold upd_root in E3. rewrite Hrt in E3. injection E3 as <-.
    exists rt, (<[0 := PLink (nib F s k 0) (Some (RootRef h))]> (rt_path rt)). split_and!; [exact Hrt|apply insert_length|reflexivity]. }
  destruct Hres as (f & acc & -> & Hh1 & Hsb). cbn beta iota in E.
  destruct Hh1 as (rt1 & Hrt1 & Hp1 & Hpm1 & Ha1).
  assert (Hit : link_at (w_mem w1) (SlotRef a (length bef)) = Some (ly_leaf L k p)).
  { cbn [link_at]. rewrite Ha1. exact Hls. }
  rewrite (bind_Ret _ _ _ _ _ (load_link_step _ _ _ Hit)) in E.
  assert (Hc1 : cell L (w_mem w1) k p) by (eapply Good_ok; [eapply Good_sbp; [exact HG|exact Hsb]|exact Hin]).
  rewrite (bind_Ret _ _ _ _ _ (fo_key _ _ HF _ _ _ Hok Hc1)) in E.
  assert (Hkk : f_eq F k k = true) by (by apply (la_eq _ _ HL)). rewrite Hkk in E. cbn [negb] in E.
  apply bind_inv_Ret in E as (lv & w2 & E2 & E). unfold load_link in E2. rewrite Hrt1 in E2. injection E2 as <- <-.
  rewrite Hpm1 in E. change (radix_of (hproc F s k 0)) with (nib F s k 0) in E.
  change [nib F s k 0] with (nib F s k 0 :: map fst (@nil (N * tree K))) in E.
  rewrite idx_of_child in E by done.
  apply (remove_holds h a ls (bits_of (map fst bef ++ [nib F s k 0])) (bits_of (map fst bef))) in E.
  - destruct E as (rt2 & Hr2 & Hp2 & _ & Ha2). exists rt2, ls. done.
  - exists rt1. done.
  - exact Hpm.
  - rewrite ones_count_bits_of by done. by rewrite map_length.
Qed.

(** The key with the greatest first digit is the last item of the root. *)
Lemma last_item w h T k p : Good F L D s w h T -> (k, p) ∈ leaves T ->
  (∀ k', k' ∈ map fst (leaves T) -> k' ≠ k -> (nib F s k' 0 < nib F s k 0)%N) ->
  ∃ a bef, T = Node a (bef ++ [(nib F s k 0, Leaf k p)]).
Proof.
  intros HG Hin Hlast. pose proof (Good_node _ _ _ _ _ _ _ HG) as Hlf. destruct T as [|a cs]; [done|]. clear Hlf.
  assert (Hpl : placed F s (Node a cs)) by apply HG.
  pose proof (Good_wf _ _ _ _ _ _ _ HG) as Hwf. apply wf_node in Hwf as [Hrs _].
  assert (Hcan : canon_root (Node a cs)) by apply HG.
  pose proof (keys_nodup F s _ (Good_wf _ _ _ _ _ _ _ HG) Hpl) as Hnd.
  (* the child of an entry tells its first digit *)
  assert (Hdig : ∀ n t k0 p0, (n, t) ∈ cs -> (k0, p0) ∈ leaves t -> nib F s k0 0 = n).
  { intros n t k0 p0 Hc Hl. apply elem_of_list_split in Hc as (b & f & ->).
    rewrite <- (pleaves_leaves t [n]) in Hl. apply elem_of_list_fmap in Hl as ([q e] & Ee & Hl). cbn [snd] in Ee. subst e.
    assert (Hx : (q, (k0, p0)) ∈ pleaves [] (Node a (b ++ (n, t) :: f))).
    { rewrite pleaves_node, cspl_app, cspl_cons. cbn [fst snd app]. set_solver +Hl. }
    assert (Hw : well F s (q, (k0, p0))) by (by eapply Forall_forall in Hpl).
    unfold well in Hw. cbn [fst snd] in Hw. apply pleaves_pre in Hl as (q' & Hq & _). cbn [fst] in Hq. subst q.
    apply (f_equal (λ l, l !! 0)) in Hw. rewrite nibs_lookup in Hw by (cbn [app length]; lia). by injection Hw as ->. }
  assert (Hmem : ∀ n t k0 p0, (n, t) ∈ cs -> (k0, p0) ∈ leaves t -> k0 ∈ map fst (leaves (Node a cs))).
  { intros n t k0 p0 Hc Hl. apply elem_of_list_fmap. exists (k0, p0). split; [done|]. cbn [leaves].
    apply elem_of_list_In, in_flat_map. exists (n, t). split; by apply elem_of_list_In. }
  cbn [leaves] in Hin. apply elem_of_list_In, in_flat_map in Hin as ([n t] & Hc & Hk). apply elem_of_list_In in Hc, Hk. cbn [snd] in Hk.
  pose proof (Hdig _ _ _ _ Hc Hk) as <-.
  apply elem_of_list_split in Hc as (bef & aft & ->). exists a, bef.
  assert (Hcs : Forall (λ c, canon c.2) (bef ++ (nib F s k 0, t) :: aft)) by apply Hcan.
  rewrite Forall_app, Forall_cons in Hcs. destruct Hcs as (_ & Ht & Haft). cbn [snd] in Ht.
  assert (Ec : (nib F s k 0, t) ∈ bef ++ (nib F s k 0, t) :: aft) by set_solver +.
  assert (t = Leaf k p) as ->.
  { destruct t as [k1 p1|a1 cs1].
    - cbn [leaves] in Hk. apply elem_of_list_singleton in Hk. by injection Hk as -> ->.
    - exfalso. rewrite <- (pleaves_leaves _ [nib F s k 0]) in Hk. apply elem_of_list_fmap in Hk as (e & Ee & Hk).
      assert (Hwf : wf (Node a (bef ++ (nib F s k 0, Node a1 cs1) :: aft))) by (by eapply Good_wf).
      apply wf_node in Hwf as [_ Hwf]. rewrite Forall_app, Forall_cons in Hwf. destruct Hwf as (_ & Hwf & _).
      destruct (canon_other _ Ht ltac:(done) Hwf _ _ Hk) as ([q' [k' p']] & Hk' & Hne & _).
      assert (Hsub : ∀ e, e ∈ pleaves [nib F s k 0] (Node a1 cs1) -> e ∈ pleaves [] (Node a (bef ++ (nib F s k 0, Node a1 cs1) :: aft))).
      { intros e0 He. rewrite pleaves_node, cspl_app, cspl_cons. cbn [fst snd app]. set_solver +He. }
      pose proof (entries_keys F L D s w h _ _ _ HG (Hsub _ Hk') (Hsub _ Hk) Hne) as Hkk. rewrite <- Ee in Hkk. cbn [fst snd] in Hkk.
      assert (Hl' : (k', p') ∈ leaves (Node a1 cs1)).
      { rewrite <- (pleaves_leaves _ [nib F s k 0]). apply elem_of_list_fmap. by exists (q', (k', p')). }
      specialize (Hlast k' (Hmem _ _ _ _ Ec Hl') Hkk). rewrite (Hdig _ _ _ _ Ec Hl') in Hlast. lia. }
  destruct aft as [|[n' t'] aft]; [done|]. exfalso.
  apply Forall_cons in Haft as [Ht' _]. cbn [snd] in Ht'.
  destruct (canon_inhabited _ Ht' []) as [[q' [k' p']] He].
  assert (Hl' : (k', p') ∈ leaves t').
  { rewrite <- (pleaves_leaves _ []). apply elem_of_list_fmap. by exists (q', (k', p')). }
  assert (Ec' : (n', t') ∈ bef ++ (nib F s k 0, Leaf k p) :: (n', t') :: aft) by set_solver +.
  pose proof (Hdig _ _ _ _ Ec' Hl') as <-.
  rewrite map_app in Hrs. cbn [map fst] in Hrs. apply radixes_app_cons in Hrs as (_ & _ & _ & _ & Hgt).
  apply Forall_cons in Hgt as [Hgt _].
  assert (k' ≠ k) as Hne by (intros ->; lia). specialize (Hlast k' (Hmem _ _ _ _ Ec' Hl') Hne). lia.
Qed.

End last.

(** The items of a level are reachable from it. *)
Section reach.
Context {K V CK : Type} (L : layout K V CK).
Lemma rep_keeps (m : gmap loc (block V CK)) (t : tree K) k p b : lk_ptr (ly_leaf L k p) = At b -> ∀ d lk, rep L m d lk t -> (k, p) ∈ leaves t ->
  ∃ c, lk_ptr lk = At c /\ keeps m c b.
Proof.
  intros Hb. induction t as [k0 p0|a cs IH] using tree_ind'; intros d lk Hrep Hin.
  - cbn [leaves] in Hin. apply elem_of_list_singleton in Hin. injection Hin as <- <-.
    apply rep_leaf_inv in Hrep as (-> & _). exists b. split; [done|]. apply rtc_refl.
  - apply rep_node_inv in Hrep as (-> & _ & lks & rest & Ha & _ & Hf). exists a. split; [done|].
    cbn [leaves] in Hin. apply elem_of_list_In, in_flat_map in Hin as (c & Hc & Hk). apply elem_of_list_In in Hc, Hk.
    rewrite Forall_forall in IH. pose proof (elem_of_list_lookup_1 _ _ Hc) as [i Hi].
    destruct (Forall2_lookup_r _ _ _ _ _ Hf Hi) as (x & Hx & Hrx).
    destruct (IH c Hc (S d) x Hrx Hk) as (c' & Hp & Hkp).
    apply rtc_l with c'; [|exact Hkp]. unfold points. rewrite Ha. exists i, x. split; [|done]. by apply lookup_app_l_Some.
Qed.
End reach.
