(** The operations of a container whose entries sit where their hash digits
    say, when the hash separates the keys. *)
From Coq Require Import Sorted.
From stdpp Require Import base numbers list gmap.
From Verif Require Import GoInt Mem Amt BitsFacts Steps Tree Rep Paths Descend Insert Split Delete Remove.
Local Open Scope nat_scope.

(** The least natural number with a decidable property. *)
Lemma least (P : nat -> Prop) `{!∀ n, Decision (P n)} n : P n ->
  ∃ m, m <= n /\ P m /\ ∀ i, i < m -> ¬ P i.
Proof.
  induction (lt_wf n) as [n _ IH]. intros Hn.
  destruct (decide (Exists P (seq 0 n))) as [He|He].
  - apply Exists_exists in He as (i & Hi & HP). apply elem_of_seq in Hi.
    destruct (IH i) as (m & Hm & HPm & Hlt); [lia|done|]. exists m. split_and!; try done. lia.
  - exists n. split_and!; try done. intros i Hi HP. apply He. apply Exists_exists.
    exists i. rewrite elem_of_seq. split; [lia|done].
Qed.

Lemma map_shift {A} (g : nat -> A) n m : ∀ s, map (λ i, g (n + i)) (seq s m) = map g (seq (n + s) m).
Proof.
  induction m as [|m IH]; intros s; simpl; [done|]. f_equal. rewrite IH. f_equal. f_equal. lia.
Qed.

Section core.
Context {K HS V CK U : Type} (F : fam K HS V CK U) (L : layout K V CK).
Local Notation block := (block V CK).
Local Notation world := (world V CK U).
Local Notation M := (M V CK U).
Local Notation mem := (gmap loc block).
Local Notation tree := (tree K).
Local Notation frame := (frame K).
Implicit Types (w : world) (m : mem) (T t : tree) (k ck : K) (p cp : ptr) (c : list frame) (r a : loc).
Hypothesis HF : fam_ok F L.
Variables (D : nat) (seed : N).
Hypothesis HD : D <= 240.
Local Notation nib := (nib F seed).
Local Notation nibs := (nibs F seed).

Record laws : Prop := Laws {
  la_eq : ∀ k k', ly_ok L k -> ly_ok L k' -> f_eq F k k' = true <-> k = k' }.
Hypothesis HL : laws.

(** The path of an entry is a prefix of the digits of its key. *)
Definition well (e : list N * (K * ptr)) : Prop := e.1 = nibs e.2.1 (length e.1).
Definition placed (T : tree) : Prop := Forall well (pleaves [] T).

Definition Good w (r : loc) (T : tree) : Prop := MapI L (S D) w r seed T /\ placed T.

Lemma nibs_no_diverge k i j : ¬ diverge (nibs k i) (nibs k j).
Proof.
  intros (x & a & b & Ha & Hb & Hne)%diverge_lookup.
  assert (Hi := lookup_lt_Some _ _ _ Ha). assert (Hj := lookup_lt_Some _ _ _ Hb).
  rewrite nibs_length in Hi, Hj.
  rewrite nibs_lookup in Ha by done. rewrite nibs_lookup in Hb by done. congruence.
Qed.

Lemma nibs_prefix k i j s : nibs k i = nibs k j ++ s -> j <= i.
Proof. intros H. apply (f_equal length) in H. rewrite app_length, !nibs_length in H. lia. Qed.

Lemma well_prefix e pre s : well e -> e.1 = pre ++ s -> pre = nibs e.2.1 (length pre).
Proof.
  unfold well. intros H E. apply list_eq. intros i. destruct (decide (i < length pre)) as [Hi|Hi].
  - rewrite nibs_lookup by done. rewrite E in H.
    apply (f_equal (λ l, l !! i)) in H. rewrite lookup_app_l in H by done. rewrite H.
    apply nibs_lookup. rewrite app_length. lia.
  - rewrite !lookup_ge_None_2; [done| |lia]. rewrite nibs_length. lia.
Qed.

Lemma nibs_app k n j : nibs k (n + j) = nibs k n ++ map (nib k) (seq n j).
Proof. unfold Descend.nibs. by rewrite seq_app, map_app. Qed.

(** ** Where a traversal stops *)
Lemma entry_of T k p : (k, p) ∈ leaves T -> ∃ q, (q, (k, p)) ∈ pleaves [] T.
Proof.
  intros H. rewrite <- (pleaves_leaves T []) in H.
  apply elem_of_list_In, in_map_iff in H as ([q x] & Hx & H). simpl in Hx. subst x.
  exists q. by apply elem_of_list_In.
Qed.
Lemma leaf_of T e : e ∈ pleaves [] T -> e.2 ∈ leaves T.
Proof.
  intros H. rewrite <- (pleaves_leaves T []). apply elem_of_list_In, in_map. by apply elem_of_list_In.
Qed.

(** The entry of a key whose digits lead to the hole is in the hole. *)
Lemma entry_in_hole c t e : wf (plug c t) -> placed (plug c t) ->
  rads c = nibs e.2.1 (length c) -> e ∈ pleaves [] (plug c t) -> e ∈ pleaves (rads c) t.
Proof.
  intros Hwf Hpl Hr He. assert (Hw : well e) by (by eapply Forall_forall in Hpl).
  rewrite pleaves_plug, elem_of_app in He. destruct He as [He|He]; [|done].
  exfalso. pose proof (ctxpl_diverge _ _ _ Hwf He) as Hd. rewrite Hw, Hr in Hd.
  by apply nibs_no_diverge in Hd.
Qed.

Lemma missing_absent T k c a cs : wf T -> placed T -> stops_missing F seed k T c a cs ->
  ∀ p, (k, p) ∉ leaves T.
Proof.
  intros Hwf Hpl (HT & Hr & Hn) p Hin. apply entry_of in Hin as [q Hin].
  assert (Hw : well (q, (k, p))) by (by eapply Forall_forall in Hpl).
  rewrite <- HT in *. apply entry_in_hole in Hin; [|done|done|done].
  cbn [pleaves] in Hin. fold (cspl (rads c) cs) in Hin.
  apply cspl_pre in Hin as (c0 & s & Hc & _ & Hq). apply Hn.
  unfold well in Hw. simpl in Hw, Hq. rewrite Hw in Hq.
  assert (c0.1 = nib k (length c)) as <-.
  { apply (f_equal (λ l, l !! length c)) in Hq.
    rewrite <- (rads_length c) in Hq at 2. rewrite list_lookup_middle in Hq by done.
    pose proof (lookup_lt_Some _ _ _ Hq) as Hlt. rewrite nibs_length in Hlt.
    rewrite nibs_lookup in Hq by done. congruence. }
  apply elem_of_list_In, in_map. by apply elem_of_list_In.
Qed.

Lemma present_unique T k c a bef k' p aft : wf T -> placed T ->
  stops_present F seed k T c a bef k' p aft -> ∀ p', (k, p') ∈ leaves T -> k' = k /\ p' = p.
Proof.
  intros Hwf Hpl (HT & Hr) p' Hin. apply entry_of in Hin as [q Hin].
  assert (Hw : well (q, (k, p'))) by (by eapply Forall_forall in Hpl).
  rewrite <- HT in *. apply entry_in_hole in Hin; [|done|done|done].
  apply wf_plug in Hwf. apply wf_node in Hwf as [Hrs _]. rewrite map_app in Hrs. cbn [map fst] in Hrs.
  apply radixes_notin in Hrs.
  cbn [pleaves] in Hin. fold (cspl (rads c) (bef ++ (nib k (length c), Leaf k' p) :: aft)) in Hin.
  rewrite cspl_app, cspl_cons in Hin. cbn [fst snd pleaves] in Hin.
  assert (Hside : ∀ cs, nib k (length c) ∉ map fst cs -> (q, (k, p')) ∉ cspl (rads c) cs).
  { intros cs Hn Hx. apply cspl_pre in Hx as (c0 & s & Hc & _ & Hq). apply Hn.
    unfold well in Hw. simpl in Hw, Hq. rewrite Hw in Hq.
    assert (c0.1 = nib k (length c)) as <-.
    { apply (f_equal (λ l, l !! length c)) in Hq.
      rewrite <- (rads_length c) in Hq at 2. rewrite list_lookup_middle in Hq by done.
      pose proof (lookup_lt_Some _ _ _ Hq) as Hlt. rewrite nibs_length in Hlt.
      rewrite nibs_lookup in Hq by done. congruence. }
    apply elem_of_list_In, in_map. by apply elem_of_list_In. }
  rewrite !elem_of_app in Hin. rewrite elem_of_app in Hrs. destruct Hin as [Hin|[Hin|Hin]].
  - exfalso. eapply Hside; [|exact Hin]. tauto.
  - apply elem_of_list_singleton in Hin. naive_solver.
  - exfalso. eapply Hside; [|exact Hin]. tauto.
Qed.

Lemma present_leaf T k c a bef k' p aft : stops_present F seed k T c a bef k' p aft -> (k', p) ∈ leaves T.
Proof.
  intros (<- & _). rewrite leaves_plug, elem_of_app. right. cbn [leaves].
  rewrite flat_map_app. cbn [flat_map snd leaves]. set_solver.
Qed.

(** Keys are stored once. *)
Lemma entries_unique T k p p' : wf T -> placed T -> (k, p) ∈ leaves T -> (k, p') ∈ leaves T -> p' = p.
Proof.
  intros Hwf Hpl H1 H2. rewrite <- (pleaves_leaves T []) in H1, H2.
  apply elem_of_list_lookup in H1 as [i Hi]. apply elem_of_list_lookup in H2 as [j Hj].
  destruct (decide (i = j)) as [->|Hne]; [congruence|].
  change (map snd) with (fmap (M:=list) (@snd (list N) (K * ptr))) in Hi, Hj.
  rewrite list_lookup_fmap in Hi, Hj.
  destruct (pleaves [] T !! i) as [[q x]|] eqn:Ei; [|done]. destruct (pleaves [] T !! j) as [[q' x']|] eqn:Ej; [|done].
  simpl in Hi, Hj. injection Hi as ->. injection Hj as ->. exfalso.
  assert (Hw : well (q, (k, p))) by (eapply Forall_lookup_1 in Hpl; done).
  assert (Hw' : well (q', (k, p'))) by (eapply Forall_lookup_1 in Hpl; done).
  pose proof (pleaves_sorted T [] Hwf) as Hs.
  eapply (sorted_diverge _ i j q q') in Hs; [| | |done].
  - unfold well in Hw, Hw'. simpl in Hw, Hw'. rewrite Hw, Hw' in Hs. by apply nibs_no_diverge in Hs.
  - change (map fst) with (fmap (M:=list) (@fst (list N) (K * ptr))). by rewrite list_lookup_fmap, Ei.
  - change (map fst) with (fmap (M:=list) (@fst (list N) (K * ptr))). by rewrite list_lookup_fmap, Ej.
Qed.

Lemma keys_nodup T : wf T -> placed T -> NoDup (map fst (leaves T)).
Proof.
  intros Hwf Hpl. apply NoDup_alt. intros i j k Hi Hj.
  destruct (decide (i = j)) as [|Hne]; [done|exfalso].
  change (map fst) with (fmap (M:=list) (@fst K ptr)) in Hi, Hj.
  rewrite list_lookup_fmap in Hi, Hj. rewrite <- (pleaves_leaves T []) in Hi, Hj.
  change (map snd) with (fmap (M:=list) (@snd (list N) (K * ptr))) in Hi, Hj.
  rewrite list_lookup_fmap in Hi, Hj.
  destruct (pleaves [] T !! i) as [[q [kx px]]|] eqn:Ei; [|done].
  destruct (pleaves [] T !! j) as [[q' [ky py]]|] eqn:Ej; [|done].
  simpl in Hi, Hj. injection Hi as ->. injection Hj as ->.
  assert (Hw : well (q, (k, px))) by (eapply Forall_lookup_1 in Hpl; done).
  assert (Hw' : well (q', (k, py))) by (eapply Forall_lookup_1 in Hpl; done).
  pose proof (pleaves_sorted T [] Hwf) as Hs.
  eapply (sorted_diverge _ i j q q') in Hs; [| | |done].
  - unfold well in Hw, Hw'. simpl in Hw, Hw'. rewrite Hw, Hw' in Hs. by apply nibs_no_diverge in Hs.
  - change (map fst) with (fmap (M:=list) (@fst (list N) (K * ptr))). by rewrite list_lookup_fmap, Ei.
  - change (map fst) with (fmap (M:=list) (@fst (list N) (K * ptr))). by rewrite list_lookup_fmap, Ej.
Qed.

Lemma Good_carries w r T : Good w r T -> carries L w r T.
Proof.
  intros [[(rt & Hr & _ & Hrep & _) Hnd _ _] _]. split; [eauto|]. by apply NoDup_cons in Hnd as [? _].
Qed.
Lemma Good_node w r T : Good w r T -> is_leaf T = false.
Proof. intros [[_ _ Hc _] _]. by destruct T. Qed.
Lemma Good_wf w r T : Good w r T -> wf T.
Proof. intros [H _]. by eapply MapI_wf. Qed.
Lemma Good_ok w r T k p : Good w r T -> (k, p) ∈ leaves T -> ly_ok L k /\ cell L (w_mem w) k p.
Proof. intros [[(rt & Hr & _ & Hrep & _) _ _ _] _] H. by eapply rep_ok. Qed.

(** The traversal of all operations but Del. *)
Lemma descend_plain w r T k fuel : Good w r T -> 256 <= fuel ->
  ∃ c a, 
    ((∃ cs, stops_missing F seed k T c a cs /\
      descend F no_visit fuel seed k (f_start F seed k) (RootRef r) 0 tt w
      = Ret (Missing (fuel - 1 - length c) (hproc F seed k (length c))
               (N.of_nat (length c)) (hole r c) tt) w) \/
     (∃ bef k' p aft, stops_present F seed k T c a bef k' p aft /\
      descend F no_visit fuel seed k (f_start F seed k) (RootRef r) 0 tt w
      = Ret (Present (fuel - 1 - length c) (hproc F seed k (length c))
               (N.of_nat (length c)) (hole r c) (SlotRef a (length bef)) tt) w)).
Proof.
  intros HG Hf. pose proof (Good_carries _ _ _ HG) as Hc. pose proof (Good_node _ _ _ HG) as Hn.
  assert (Hh : hgt T <= S D) by apply HG.
  destruct (descend_spec F L no_visit (λ _ _ w', w' = w) r seed k T) with (fuel := fuel)
    (c := @nil frame) (t := T) (acc := tt) (w := w)
    as (c & a & [] & w' & Hs & Hl & Hres); try done.
  - intros [] q radix l w0 ->. exists tt, w. split_and!; try done.
    destruct Hc as [(rt & Hr & _) _]. by eapply sbp_refl.
  - lia.
  - simpl. lia.
  - exists c, a. rewrite Nat.sub_0_r in Hres. cbn [length hproc hole] in Hres.
    destruct Hres as [(cs & H1 & -> & H2)|(bef & k' & p & aft & H1 & -> & H2)].
    + left. exists cs. done.
    + right. exists bef, k', p, aft. done.
Qed.

Lemma load_seed w r T : Good w r T -> ∃ rt, w_mem w !! r = Some (BRoot rt) /\ rt_seed rt = seed.
Proof. intros [[(rt & Hr & Hs & _) _ _ _] _]. eauto. Qed.

(** The item where a traversal stops. *)
Lemma item_at w r T k c a bef k' p aft : Good w r T -> stops_present F seed k T c a bef k' p aft ->
  link_at (w_mem w) (SlotRef a (length bef)) = Some (ly_leaf L k' p).
Proof.
  intros HG (HT & Hr). destruct HG as [HM _]. rewrite <- HT in HM.
  change (plug c (Node a (bef ++ (nib k (length c), Leaf k' p) :: aft)))
    with (plug (Frame a bef (nib k (length c)) aft :: c) (Leaf k' p)) in HM.
  destruct HM as [(rt & Hrt & _ & Hrep & _) _ _ _].
  destruct (rep_hole L _ _ _ _ _ Hrt Hrep) as (lk & Hlk & Hl).
  apply rep_leaf_inv in Hl as (-> & _). exact Hlk.
Qed.

(** ** Lookup *)
Lemma find_spec w r T k fuel : Good w r T -> ly_ok L k -> 256 <= fuel ->
  (∃ p, (k, p) ∈ leaves T /\ find F fuel (Some r) k w = Ret (Some (ly_leaf L k p)) w) \/
  ((∀ p, (k, p) ∉ leaves T) /\ find F fuel (Some r) k w = Ret None w).
Proof.
  intros HG Hok Hf. pose proof (Good_wf _ _ _ HG) as Hwf. assert (Hpl : placed T) by apply HG.
  destruct (load_seed _ _ _ HG) as (rt & Hrt & Hs).
  unfold find. rewrite (bind_Ret _ _ _ _ _ (load_root_step _ _ _ Hrt)). rewrite Hs.
  destruct (descend_plain w r T k fuel HG Hf) as (c & a & [(cs & Hst & Hd)|(bef & k' & p & aft & Hst & Hd)]);
    rewrite (bind_Ret _ _ _ _ _ Hd).
  - right. split; [|done]. by eapply missing_absent.
  - pose proof (present_leaf _ _ _ _ _ _ _ _ Hst) as Hin.
    destruct (Good_ok _ _ _ _ _ HG Hin) as [Hok' Hcell].
    rewrite (bind_Ret _ _ _ _ _ (load_link_step _ _ _ (item_at _ _ _ _ _ _ _ _ _ _ HG Hst))).
    rewrite (bind_Ret _ _ _ _ _ (fo_key _ _ HF _ _ _ Hok' Hcell)).
    destruct (f_eq F k k') eqn:E.
    + left. apply (la_eq HL) in E; [|done|done]. subst k'. exists p. done.
    + right. split; [|done]. intros p' Hp'.
      destruct (present_unique _ _ _ _ _ _ _ _ Hwf Hpl Hst _ Hp') as [-> ->].
      assert (f_eq F k k = true) by (by apply (la_eq HL)). congruence.
Qed.

(** ** Placement of changed trees *)
Lemma placed_plug c t : placed (plug c t) <-> Forall well (ctxpl c) /\ Forall well (pleaves (rads c) t).
Proof. unfold placed. rewrite pleaves_plug. apply Forall_app. Qed.
Lemma pleaves_node pre a cs : pleaves (K:=K) pre (Node a cs) = cspl pre cs.
Proof. done. Qed.
Lemma ctxpl_bare chain c : Forall bare chain -> ctxpl (chain ++ c) = ctxpl (K:=K) c.
Proof. induction 1 as [|f chain [Hb Ha] Hc IH]; simpl; [done|]. rewrite Hb, Ha, IH. done. Qed.

Lemma placed_add c a a' bef aft k p : placed (plug c (Node a (bef ++ aft))) ->
  rads c = nibs k (length c) ->
  placed (plug c (Node a' (bef ++ (nib k (length c), Leaf k p) :: aft))).
Proof.
  rewrite !placed_plug, !pleaves_node, !cspl_app, cspl_cons, !Forall_app. cbn [fst snd pleaves].
  intros (H1 & H2 & H3) Hr. split_and!; try done. constructor; [|done].
  unfold well. cbn [fst snd]. rewrite app_length, rads_length, Nat.add_1_r, nibs_S. by rewrite Hr.
Qed.

Lemma placed_drop c a a' bef aft n k p : placed (plug c (Node a (bef ++ (n, Leaf k p) :: aft))) ->
  placed (plug c (Node a' (bef ++ aft))).
Proof.
  rewrite !placed_plug, !pleaves_node, !cspl_app, cspl_cons, !Forall_app. tauto.
Qed.

Lemma placed_squash c : ∀ a cs, placed (plug c (Node a cs)) -> placed (squash c a cs).
Proof.
  induction c as [|f c IH]; intros a cs H; [done|]. cbn [squash].
  destruct cs as [|[n [k p|]] [|]]; try done.
  apply IH. change (plug (f :: c) (Node a [(n, Leaf k p)])) with (plug c (fill f (Node a [(n, Leaf k p)]))) in H.
  unfold fill in H. rewrite placed_plug, pleaves_node, cspl_app, cspl_cons, !Forall_app in H.
  cbn [fst snd] in H. destruct H as (H1 & H2 & H3 & H4).
  rewrite placed_plug, pleaves_node, cspl_app, cspl_cons, !Forall_app. cbn [fst snd]. split_and!; try done.
  rewrite pleaves_node, cspl_cons in H3. cbn [fst snd pleaves] in *. apply Forall_app in H3 as [H3 _].
  apply Forall_cons in H3 as [H3 _]. constructor; [|done].
  unfold well. cbn [fst snd]. exact (well_prefix _ (rads c ++ [fr_r f]) [n] H3 eq_refl).
Qed.

Lemma placed_split c a bef aft k p ck cp a2 chain j :
  placed (plug c (Node a (bef ++ (nib k (length c), Leaf ck cp) :: aft))) ->
  rads c = nibs k (length c) -> 1 <= j ->
  (∀ i, i < length c + j -> nib k i = nib ck i) ->
  length chain = j - 1 -> rads chain = map (λ i, nib k (length c + i)) (seq 1 (j - 1)) -> Forall bare chain ->
  placed (plug (chain ++ Frame a bef (nib k (length c)) aft :: c)
     (Node a2 (pair_cs (nib k (length c + j)) (Leaf k p) (nib ck (length c + j)) (Leaf ck cp)))).
Proof.
  intros H Hr Hj Hag Hlc Hrc Hb.
  rewrite placed_plug, pleaves_node, cspl_app, cspl_cons, !Forall_app in H. destruct H as (H1 & H2 & H3 & H4).
  rewrite placed_plug, ctxpl_bare by done. cbn [ctxpl fr_bef fr_aft fr_r]. rewrite !Forall_app. split; [done|].
  assert (Hrr : rads (chain ++ Frame a bef (nib k (length c)) aft :: c) = nibs k (length c + j)).
  { rewrite rads_app, rads_cons. cbn [fr_r]. rewrite Hrc, Hr. rewrite nibs_app. rewrite <- app_assoc. f_equal.
    destruct j as [|j]; [lia|]. simpl. f_equal. replace (j - 0) with j by lia.
    rewrite (map_shift (nib k)). by rewrite Nat.add_1_r. }
  rewrite Hrr. rewrite pleaves_node.
  assert (Hk : well (nibs k (length c + j) ++ [nib k (length c + j)], (k, p))).
  { unfold well. cbn [fst snd]. rewrite app_length, nibs_length. simpl. rewrite Nat.add_1_r. by rewrite nibs_S. }
  assert (Hck : well (nibs k (length c + j) ++ [nib ck (length c + j)], (ck, cp))).
  { unfold well. cbn [fst snd]. rewrite app_length, nibs_length. simpl. rewrite Nat.add_1_r. rewrite nibs_S.
    f_equal. unfold Descend.nibs. apply map_ext_in. intros i Hi. apply in_seq in Hi. apply Hag. lia. }
  unfold pair_cs. destruct (_ <? _)%N; rewrite !cspl_cons; cbn [fst snd pleaves app cspl flat_map]; by repeat constructor.
Qed.

(** ** Insertion *)

(** Every item that an insertion of k may find in its way is rehashed right,
    differs from k within the first D + 1 digits, and is not taken for a node
    when it is moved down by more than one level. *)
Definition clear T k : Prop := (∀ p, (k, p) ∉ leaves T) -> ∀ q ck cp,
  (q, (ck, cp)) ∈ pleaves [] T -> q = nibs k (length q) -> ck ≠ k -> ly_ok L ck ->
  (∀ fuel, 16 <= fuel -> f_conf F fuel seed k ck (N.of_nat (length q - 1)) = Some (hproc F seed ck (length q - 1))) /\
  (∃ d, d <= D /\ nib k d ≠ nib ck d) /\
  (lk_tmap (ly_leaf L ck cp) = 0%N \/ nib k (length q) ≠ nib ck (length q)).

Lemma insert_spec op w r T k fuel : Good w r T -> w_ok w -> ly_ok L k -> 256 <= fuel -> clear T k ->
  (∃ p, (k, p) ∈ leaves T /\ insert F op fuel (Some r) k w = io_found op (ly_leaf L k p) w) \/
  ((∀ p, (k, p) ∉ leaves T) /\ ∃ (b : bool) w1,
    let mk := if b then io_new op else io_split op in
    quiet (λ l, l ∈ foot r T) w w1 /\
    (b = true -> io_early op = true -> w1 = w) /\
    (b = false -> ∃ q ck cp, (q, (ck, cp)) ∈ pleaves [] T /\ ck ≠ k /\ q = nibs k (length q)) /\
    (∀ w2, mk w1 = Panic w2 -> insert F op fuel (Some r) k w = Panic w2) /\
    ∀ p w2, mk w1 = Ret p w2 -> made L (region r T w w1) w1 w2 k p ->
      ∃ w' T', insert F op fuel (Some r) k w = Ret tt w' /\
        quiet (region r T w w1) w2 w' /\ Good w' r T' /\
        leaves T' ≡ₚ (k, p) :: leaves T /\
        ∀ l, l ∈ foot r T' -> l ∈ foot r T \/ l ∈ ptr_locs p \/
          (w_nxt w <= l < w_nxt w1)%positive \/ (w_nxt w2 <= l < w_nxt w')%positive).
Proof.
  intros HG Hwok Hok Hf Hre. pose proof (Good_wf _ _ _ HG) as Hwf. assert (Hpl : placed T) by apply HG.
  destruct (load_seed _ _ _ HG) as (rt & Hrt & Hs).
  unfold insert. rewrite (bind_Ret _ _ _ _ _ (load_root_step _ _ _ Hrt)). rewrite Hs.
  assert (Hh : hgt T <= S D) by apply HG.
  destruct (descend_plain w r T k fuel HG Hf) as (c & a & [(cs & Hst & Hd)|(bef & k' & p & aft & Hst & Hd)]);
    rewrite (bind_Ret _ _ _ _ _ Hd).
  - (* a free radix *)
    right. split; [by eapply missing_absent|].
    destruct Hst as (HT & Hr & Hn).
    assert (HM : MapI L (S D) w r seed (plug c (Node a cs))) by (rewrite HT; apply HG).
    destruct (MapI_hole _ _ _ _ _ _ _ _ HM) as (rt' & lks & rest & Hrt' & Hlk & Hrs & Ha & Hlena & Hfa).
    rewrite (bind_Ret _ _ _ _ _ (load_link_step _ _ _ Hlk)). cbn [lk_pmap].
    change (radix_of (hproc F seed k (length c))) with (nib k (length c)).
    pose proof (nib_lt F seed k (length c)) as Hn16.
    destruct (radixes_split_lt _ _ Hrs Hn) as (rb & ra & Hrb & Hlt & Hgt).
    apply map_eq_app in Hrb as (bef & aft & -> & <- & <-).
    rewrite map_app in Hrs |- *. rewrite idx_of_split; [|done|lia|done|].
    2:{ eapply Forall_impl; [exact Hgt|]. simpl. lia. }
    rewrite map_length.
    destruct (add_item_spec F L op r k HF (S D) seed c a bef aft (nib k (length c)) Hn16 Hlt Hgt Hok
      (hproc F seed k (length c)) w HM Hwok eq_refl) as (w1 & Hq1 & He & Hpan & Hadd).
    exists true, w1. cbn [negb]. rewrite HT in *. split_and!; try done.
    + intros p w2 Hmk Hmade. destruct (Hadd p w2 Hmk Hmade) as (w' & a' & Hrun & Hq & HM' & Ha').
      exists w', (plug c (Node a' (bef ++ (nib k (length c), Leaf k p) :: aft))). split_and!; try done.
      * split; [done|]. eapply placed_add; [|done]. by rewrite HT.
      * rewrite <- HT. by apply leaves_add_perm.
      * intros l Hl. rewrite <- HT. rewrite foot_plug in Hl |- *. cbn [locs] in *.
        rewrite flat_map_app in *. cbn [flat_map snd locs] in Hl.
        destruct Hl as [->|[Hl|Hl]]; [by auto|by auto|].
        apply elem_of_cons in Hl as [->|Hl]; [destruct Ha' as [->|[?|?]]; [|tauto|tauto]; left; set_solver +|].
        rewrite !elem_of_app in Hl. destruct Hl as [Hl|[Hl|Hl]]; [left; set_solver +Hl|tauto|left; set_solver +Hl].
  - (* an item in the way *)
    pose proof (present_leaf _ _ _ _ _ _ _ _ Hst) as Hin.
    destruct (Good_ok _ _ _ _ _ HG Hin) as [Hok' Hcell].
    pose proof (item_at _ _ _ _ _ _ _ _ _ _ HG Hst) as Hitem.
    destruct (f_eq F k k') eqn:E.
    + left. assert (k = k') as <- by (by apply (la_eq HL)). exists p. split; [done|].
      unfold add_present. rewrite (bind_Ret _ _ _ _ _ (load_link_step _ _ _ Hitem)).
      rewrite (bind_Ret _ _ _ _ _ (fo_key _ _ HF _ _ _ Hok' Hcell)). by rewrite E.
    + right.
      assert (Hne : k ≠ k').
      { intros <-. assert (f_eq F k k = true) by (by apply (la_eq HL)). congruence. }
      assert (Habs : ∀ p', (k, p') ∉ leaves T).
      { intros p' Hp'. by destruct (present_unique _ _ _ _ _ _ _ _ Hwf Hpl Hst _ Hp') as [-> _]. }
      split; [done|].
      destruct Hst as (HT & Hr).
      assert (Hagree : ∀ i, i <= length c -> nib k i = nib k' i).
      { rewrite <- HT in Hpl. rewrite placed_plug, pleaves_node, cspl_app, cspl_cons, !Forall_app in Hpl.
        destruct Hpl as (_ & _ & Hp & _). cbn [fst snd pleaves] in Hp. apply Forall_cons in Hp as [Hp _].
        unfold well in Hp. cbn [fst snd] in Hp. rewrite app_length, rads_length, Nat.add_1_r, Hr, <- nibs_S in Hp.
        intros i Hi. apply (f_equal (λ l, l !! i)) in Hp. rewrite !nibs_lookup in Hp by lia. congruence. }
      assert (Hpin : (nibs k (S (length c)), (k', p)) ∈ pleaves [] T).
      { rewrite <- HT, pleaves_plug, pleaves_node, cspl_app, cspl_cons. cbn [fst snd pleaves].
        rewrite nibs_S, <- Hr. set_solver +. }
      assert (Hpeq : nibs k (S (length c)) = nibs k (length (nibs k (S (length c))))) by (by rewrite nibs_length).
      destruct (Hre Habs _ _ _ Hpin Hpeq (not_eq_sym Hne) Hok') as (Hconf & (d0 & Hd0 & Hd0ne) & Hflat).
      rewrite nibs_length in Hconf, Hflat. replace (S (length c) - 1) with (length c) in Hconf by lia.
      destruct (least (λ d, nib k d ≠ nib k' d) d0 Hd0ne) as (e & He0 & Hene & Hemin).
      assert (Hce : length c < e).
      { destruct (Nat.lt_ge_cases (length c) e) as [|Hge]; [done|]. by apply Hagree in Hge. }
      assert (Hag : ∀ i, i < e -> nib k i = nib k' i).
      { intros i Hi. destruct (decide (nib k i = nib k' i)) as [|Hx]; [done|]. by apply Hemin in Hx. }
      set (j := e - length c).
      assert (HM : MapI L (S D) w r seed (plug c (Node a (bef ++ (nib k (length c), Leaf k' p) :: aft)))).
      { rewrite HT. apply HG. }
      destruct (add_present_split F L HF op r seed k k' p (S D) c a bef aft (nib k (length c)) Hok
        (fuel - 1 - length c) (hproc F seed k (length c)) (hproc F seed k' (length c)) j w HM Hwok eq_refl E)
        as (w1 & Hq1 & Hpan & Hadd).
      * apply Hconf. lia.
      * change (radix_of (hproc F seed k' (length c))) with (nib k' (length c)).
        change (radix_of (hproc F seed k (length c))) with (nib k (length c)).
        rewrite <- Hagree by lia. rewrite N.eqb_refl. by rewrite andb_false_r.
      * intros i Hi. rewrite !adv_hproc. apply Hag. unfold j in Hi. lia.
      * rewrite !adv_hproc. replace (length c + j) with e by (unfold j; lia). done.
      * unfold j. lia.
      * unfold j. lia.
      * unfold j. lia.
      * intros Hj1. destruct Hflat as [|Hx]; [done|]. destruct Hx. apply Hag. unfold j in Hj1. lia.
      * rewrite !adv_hproc in Hadd. rewrite HT in *.
        change (radix_of (hproc F seed k (length c + j))) with (nib k (length c + j)) in Hadd.
        change (radix_of (hproc F seed k' (length c + j))) with (nib k' (length c + j)) in Hadd.
        exists false, w1. split_and!; try done.
        { intros _. exists (nibs k (S (length c))), k', p. done. }
        intros q w2 Hmk Hmade. destruct (Hadd q w2 Hmk Hmade) as (w' & a2 & chain & Hrun & Hq & HM' & Hlc & Hrc & Hb & Hfr).
        eexists w', _. split_and!; [exact Hrun|exact Hq|split; [exact HM'|]| |].
        -- eapply placed_split; try done.
           ++ by rewrite HT.
           ++ unfold j. lia.
           ++ intros i Hi. apply Hag. unfold j in Hi. lia.
           ++ rewrite Hrc. apply map_ext. intros i. by rewrite adv_hproc.
        -- rewrite <- HT. rewrite plug_app. cbn [plug].
           rewrite !(leaves_plug c), leaves_fill, bare_leaves by done. unfold fleaves. cbn [fr_bef fr_aft leaves].
           rewrite flat_map_app. cbn [flat_map snd leaves].
           unfold pair_cs. destruct (_ <? _)%N; cbn [flat_map snd leaves]; solve_Permutation.
        -- intros l Hl. rewrite <- HT. rewrite foot_plug in Hl |- *.
           unfold clocs in Hl. rewrite flat_map_app in Hl. cbn [flat_map] in Hl.
           fold (clocs chain) in Hl. fold (clocs c) in Hl. unfold flocs in Hl. cbn [fr_a fr_bef fr_aft] in Hl.
           cbn [locs]. rewrite flat_map_app. cbn [flat_map snd locs].
           destruct Hl as [->|[Hl|Hl]]; [by auto| |].
           ++ rewrite !elem_of_app, elem_of_cons, elem_of_app in Hl.
              destruct Hl as [Hl|[[->|[Hl|Hl]]|Hl]].
              ** right; right; left. apply Hfr. set_solver +Hl.
              ** left. set_solver +.
              ** left. set_solver +Hl.
              ** left. set_solver +Hl.
              ** by auto.
           ++ cbn [locs] in Hl. apply elem_of_cons in Hl as [->|Hl].
              { right; right; left. apply Hfr. set_solver +. }
              assert (Hl2 : l ∈ ptr_locs q \/ l ∈ ptr_locs p).
              { unfold pair_cs in Hl. destruct (_ <? _)%N in Hl; cbn [flat_map snd locs] in Hl; set_solver +Hl. }
              destruct Hl2 as [Hl2|Hl2]; [by auto|]. left. set_solver +Hl2.
Qed.

(** ** Deletion *)

(** The scratch path of the root holds no references. *)
Definition clean w r : Prop :=
  ∃ rt, w_mem w !! r = Some (BRoot rt) /\ Forall (λ x, pl_link x = None) (rt_path rt).

Definition plinks (q : list (N * lref)) : list plink := map (λ x, PLink x.1 (Some x.2)) q.

Lemma Good_sbp w w' r T : Good w r T -> sbp r w w' -> Good w' r T.
Proof.
  intros [HM Hp] Hs. split; [|done]. apply MapI_MapQ in HM as [HM Hc]. apply MapI_MapQ.
  split; [|done]. by eapply MapQ_sbp.
Qed.

Lemma delete_gen_spec miss w r T k fuel : Good w r T -> w_ok w -> 256 <= fuel ->
  (∃ c a cs w', stops_missing F seed k T c a cs /\
     delete_gen F miss fuel (Some r) k w = Ret tt w' /\ sbp r w w') \/
  (∃ c a bef k' p aft, stops_present F seed k T c a bef k' p aft /\
     if miss (f_eq F k k')
     then ∃ w', delete_gen F miss fuel (Some r) k w = Ret tt w' /\ sbp r w w'
     else ∃ w' T', delete_gen F miss fuel (Some r) k w = Ret tt w' /\
       quiet (λ l, l ∈ foot r T) w w' /\ Good w' r T' /\
       leaves T ≡ₚ (k', p) :: leaves T' /\
       (∀ l, l ∈ foot r T' -> l ∈ foot r T \/ (w_nxt w <= l < w_nxt w')%positive) /\
       (clean w r -> length c < 12 -> clean w' r)).
Proof.
  intros HG Hwok Hf. assert (Hpl : placed T) by apply HG.
  assert (Hh : hgt T <= S D) by apply HG.
  destruct (load_seed _ _ _ HG) as (rt & Hrt & Hs).
  assert (H12 : length (rt_path rt) = 12).
  { destruct HG as [[(rt' & Hr' & _ & _ & _ & _ & H) _ _ _] _]. rewrite Hrt in Hr'. by injection Hr' as <-. }
  unfold delete_gen. rewrite (bind_Ret _ _ _ _ _ (load_root_step _ _ _ Hrt)). rewrite Hs.
  set (J := λ (acc : pathv) q w', ∃ tl, pview (w_mem w') r acc (plinks q) tl /\
    (clean w r -> length q <= 12 -> acc = PRoot (length q) /\ Forall (λ x, pl_link x = None) tl)).
  destruct (descend_spec F L (path_push r) J r seed k T) with (fuel := fuel)
    (c := @nil frame) (t := T) (acc := PRoot 0) (w := w)
    as (c & a & acc & w1 & Hs1 & Hl & Hres); try done.
  - intros acc q radix l w0 (tl & Hv & Hcl).
    destruct (path_push_spec _ _ radix l _ _ _ Hv) as (p' & w' & tl' & Hrun & Hsb & Hv' & Hk).
    exists p', w'. split_and!; try done. exists tl'. split.
    + unfold plinks. rewrite map_app. exact Hv'.
    + intros Hc Hle. rewrite app_length in Hle. simpl in Hle.
      destruct (Hcl Hc ltac:(lia)) as [-> Ht]. unfold plinks in Hk. rewrite map_length in Hk.
      destruct (Hk ltac:(lia) eq_refl) as [-> ->]. split.
      * f_equal. rewrite app_length. simpl. lia.
      * destruct Ht; simpl; [constructor|done].
  - by eapply Good_node.
  - by eapply Good_carries.
  - lia.
  - simpl. lia.
  - exists (rt_path rt). split.
    + exists rt. done.
    + intros (rt' & Hr' & Hcl) _. rewrite Hrt in Hr'. injection Hr' as <-. done.
  - cbn [length hproc hole] in Hres. rewrite Nat.sub_0_r in Hres.
    destruct Hres as [(cs & Hst & _ & Hd)|(bef & k' & p & aft & Hst & HJ & Hd)].
    + left. exists c, a, cs, w1. split; [done|]. rewrite (bind_Ret _ _ _ _ _ Hd). done.
    + right. exists c, a, bef, k', p, aft. split; [done|].
      rewrite (bind_Ret _ _ _ _ _ Hd).
      pose proof (Good_sbp _ _ _ _ HG Hs1) as HG1.
      pose proof (present_leaf _ _ _ _ _ _ _ _ Hst) as Hin.
      destruct (Good_ok _ _ _ _ _ HG1 Hin) as [Hok' Hcell].
      rewrite (bind_Ret _ _ _ _ _ (load_link_step _ _ _ (item_at _ _ _ _ _ _ _ _ _ _ HG1 Hst))).
      rewrite (bind_Ret _ _ _ _ _ (fo_key _ _ HF _ _ _ Hok' Hcell)).
      destruct (miss (f_eq F k k')).
      { exists w1. done. }
      destruct Hst as (HT & Hr).
      assert (HM : MapI L (S D) w1 r seed (plug c (Node a (bef ++ (nib k (length c), Leaf k' p) :: aft)))).
      { rewrite HT. apply HG1. }
      destruct (MapI_hole _ _ _ _ _ _ _ _ HM) as (rt' & lks & rest & Hrt' & Hlk & Hrs & Ha & Hlena & Hfa).
      rewrite (bind_Ret _ _ _ _ _ (load_link_step _ _ _ Hlk)). cbn [lk_pmap].
      change (radix_of (hproc F seed k (length c))) with (nib k (length c)).
      rewrite map_app in Hrs |- *. cbn [map fst] in *. rewrite idx_of_child by done.
      destruct HJ as (tl & Hv & Hcl).
      assert (Hc240 : length c <= D).
      { pose proof (hgt_plug c (Node a (bef ++ (nib k (length c), Leaf k' p) :: aft))) as Hx. rewrite HT in Hx. simpl in Hx. lia. }
      assert (Hwok1 : w_ok w1).
      { assert (quiet (λ l, l = r) w w1) as Hq by (by eapply sbp_quiet). by apply Hq. }
      destruct (remove_spec (HS:=HS) L (S D) r seed c a bef aft (nib k (length c)) k' p w1 acc _ tl HM Hwok1 Hv) with
        (h := hproc F seed k (length c)) (fuel := fuel) as (w' & a' & Hrun & Hq & HM' & Ha' & p' & l' & Hv' & Hsk & Hll & Hcl').
      * intros i x Hx. unfold plinks. rewrite map_app.
        change (map ?f) with (fmap (M:=list) f). rewrite lookup_app_l.
        2:{ rewrite fmap_length. by eapply lookup_lt_Some. }
        rewrite list_lookup_fmap, Hx. done.
      * unfold plinks. rewrite map_length, app_length, trail_length. simpl. lia.
      * done.
      * lia.
      * lia.
      * exists w', (squash c a' (bef ++ aft)). split_and!.
        -- exact Hrun.
        -- rewrite HT in Hq. pose proof (sbp_nxt _ _ _ Hs1) as Hn.
           apply (quiet_trans (λ l, l ∈ foot r T) (λ l, l ∈ foot r T) _ w1); [|done|done].
           eapply sbp_quiet; [done|]. unfold foot. set_solver +.
        -- split; [done|]. apply placed_squash. rewrite <- HT in Hpl. by eapply placed_drop.
        -- rewrite squash_leaves. rewrite <- HT. apply drop_leaves.
        -- intros l Hl2. apply squash_foot in Hl2. rewrite <- HT. rewrite foot_plug in Hl2 |- *. cbn [locs] in *.
           rewrite flat_map_app in *. cbn [flat_map snd locs].
           destruct Hl2 as [->|[Hl2|Hl2]]; [by auto|by auto|].
           apply elem_of_cons in Hl2 as [->|Hl2]; [|left; set_solver +Hl2].
           rewrite (sbp_nxt _ _ _ Hs1) in Ha'. destruct Ha' as [->|?]; [left; set_solver +|tauto].
        -- intros Hc Hlt. rewrite app_length, trail_length in Hcl. simpl in Hcl.
           destruct (Hcl Hc ltac:(lia)) as [-> Ht]. destruct p' as [n'|]; [|done].
           destruct Hv' as (rt2 & Hr2 & _ & Hp2 & _). exists rt2. split; [done|]. rewrite Hp2.
           apply Forall_app. done.
Qed.

Lemma delete_spec w r T k fuel : Good w r T -> w_ok w -> ly_ok L k -> 256 <= fuel ->
  (∃ p q, (k, p) ∈ leaves T /\ (q, (k, p)) ∈ pleaves [] T /\
     ∃ w' T', delete F fuel (Some r) k w = Ret tt w' /\
       quiet (λ l, l ∈ foot r T) w w' /\ Good w' r T' /\
       leaves T ≡ₚ (k, p) :: leaves T' /\
       (∀ l, l ∈ foot r T' -> l ∈ foot r T \/ (w_nxt w <= l < w_nxt w')%positive) /\
       (clean w r -> length q <= 12 -> clean w' r)) \/
  ((∀ p, (k, p) ∉ leaves T) /\ ∃ w', delete F fuel (Some r) k w = Ret tt w' /\ sbp r w w').
Proof.
  intros HG Hwok Hok Hf. pose proof (Good_wf _ _ _ HG) as Hwf. assert (Hpl : placed T) by apply HG.
  destruct (delete_gen_spec negb w r T k fuel HG Hwok Hf)
    as [(c & a & cs & w' & Hst & Hrun & Hs)|(c & a & bef & k' & p & aft & Hst & Hres)].
  - right. split; [by eapply missing_absent|]. eauto.
  - pose proof (present_leaf _ _ _ _ _ _ _ _ Hst) as Hin.
    destruct (Good_ok _ _ _ _ _ HG Hin) as [Hok' Hcell].
    destruct (f_eq F k k') eqn:E; cbn [negb] in Hres.
    + left. apply (la_eq HL) in E; [|done|done]. subst k'.
      exists p, (rads c ++ [nib k (length c)]). split; [done|]. split.
      * destruct Hst as (<- & _). rewrite pleaves_plug, elem_of_app. right.
        rewrite pleaves_node, cspl_app, cspl_cons. cbn [fst snd pleaves]. set_solver +.
      * destruct Hres as (w' & T' & H1 & H2 & H3 & H4 & H5 & H6). exists w', T'. split_and!; try done.
        rewrite app_length, rads_length. simpl. intros Hc Hle. apply H6; [done|lia].
    + right. split; [|done]. intros p' Hp'.
      destruct (present_unique _ _ _ _ _ _ _ _ Hwf Hpl Hst _ Hp') as [-> ->].
      assert (f_eq F k k = true) by (by apply (la_eq HL)). congruence.
Qed.
End core.
