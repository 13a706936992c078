(** The traversal loop on represented trees. *)
From stdpp Require Import base numbers list gmap.
From Verif Require Import GoInt Mem Amt BitsFacts Steps Tree Rep.
Local Open Scope nat_scope.

(** What the proofs need to know about a family's layout. *)
Record fam_ok {K HS V CK U} (F : fam K HS V CK U) (L : layout K V CK) : Prop := {
  fo_leaf : ∀ k p, f_leaf F k p = ly_leaf L k p;
  fo_ptr : ∀ k p, lk_ptr (ly_leaf L k p) = p;
  fo_pair : ∀ k p, f_pair F k p zero_link = ly_leaf L k p;
  fo_key : ∀ k p w, ly_ok L k -> cell L (w_mem w) k p ->
    f_key F (ly_leaf L k p) w = Ret k w }.

(** The state of a key's hash at depth d, and the radix it gives. *)
Section stream.
Context {K HS V CK U : Type} (F : fam K HS V CK U).
Fixpoint hproc (seed : N) (k : K) (d : nat) : HS * N :=
  match d with
  | O => f_start F seed k
  | S d' => advance F seed k (N.of_nat d) (hproc seed k d')
  end.
Definition nib (seed : N) (k : K) (d : nat) : N := radix_of (hproc seed k d).
(** The first n radixes. *)
Definition nibs (seed : N) (k : K) (n : nat) : list N := map (nib seed k) (seq 0 n).

Lemma nib_lt seed k d : (nib seed k d < 16)%N.
Proof. apply radix_of_lt. Qed.
Lemma nibs_S seed k n : nibs seed k (S n) = nibs seed k n ++ [nib seed k n].
Proof. unfold nibs. rewrite seq_S, map_app. done. Qed.
Lemma nibs_length seed k n : length (nibs seed k n) = n.
Proof. unfold nibs. by rewrite map_length, seq_length. Qed.
Lemma nibs_lookup seed k n i : i < n -> nibs seed k n !! i = Some (nib seed k i).
Proof.
  intros H. unfold nibs. change (map (nib seed k)) with (fmap (M:=list) (nib seed k)).
  rewrite list_lookup_fmap, lookup_seq_lt by done. done.
Qed.
End stream.

Section descend.
Context {K HS V CK U : Type} (F : fam K HS V CK U) (L : layout K V CK).
Local Notation block := (block V CK).
Local Notation world := (world V CK U).
Local Notation M := (M V CK U).
Local Notation mem := (gmap loc block).
Local Notation tree := (tree K).
Local Notation frame := (frame K).
Hypothesis HF : fam_ok F L.

(** The references visited on the way to the hole, with the radix taken. *)
Fixpoint trail (r : loc) (c : list frame) : list (N * lref) :=
  match c with
  | [] => []
  | f :: c => trail r c ++ [(fr_r f, hole r c)]
  end.

Lemma trail_length r c : length (trail r c) = length c.
Proof. induction c as [|f c IH]; simpl; [done|]. rewrite app_length, IH. simpl. lia. Qed.

(** Two worlds that differ at most in the scratch path of root r. *)
Definition sbp (r : loc) (w w' : world) : Prop :=
  ∃ rt pth, w_mem w !! r = Some (BRoot rt) /\ length pth = length (rt_path rt) /\
    w' = set_mem w (<[r := BRoot (rt_with_path pth rt)]> (w_mem w)).

Lemma sbp_refl r w rt : w_mem w !! r = Some (BRoot rt) -> sbp r w w.
Proof.
  intros H. exists rt, (rt_path rt). split_and!; try done.
  rewrite insert_id; [by destruct w|]. rewrite H. by destruct rt.
Qed.
Lemma sbp_trans r w1 w2 w3 : sbp r w1 w2 -> sbp r w2 w3 -> sbp r w1 w3.
Proof.
  intros (rt & p & H1 & Hl & ->) (rt2 & p2 & H2 & Hl2 & ->). simpl in *.
  rewrite lookup_insert in H2. injection H2 as <-.
  exists rt, p2. split_and!; try done.
  - by rewrite Hl2.
  - unfold set_mem. simpl. by rewrite insert_insert.
Qed.
Lemma sbp_root r w w' : sbp r w w' -> ∃ rt pth, w_mem w !! r = Some (BRoot rt) /\
  length pth = length (rt_path rt) /\ w_mem w' !! r = Some (BRoot (rt_with_path pth rt)).
Proof.
  intros (rt & p & H1 & Hl & ->). exists rt, p. split_and!; try done. simpl. apply lookup_insert.
Qed.
Lemma sbp_ne r w w' l : sbp r w w' -> l ≠ r -> w_mem w' !! l = w_mem w !! l.
Proof. intros (rt & p & H1 & Hl & ->) Hne. simpl. by apply lookup_insert_ne. Qed.
Lemma sbp_nxt r w w' : sbp r w w' -> w_nxt w' = w_nxt w.
Proof. intros (rt & p & H1 & Hl & ->). done. Qed.
Lemma sbp_usr r w w' : sbp r w w' -> w_usr w' = w_usr w.
Proof. intros (rt & p & H1 & Hl & ->). done. Qed.
Lemma sbp_link_at r w w' l : sbp r w w' -> link_at (w_mem w') l = link_at (w_mem w) l.
Proof.
  intros (rt & p & H1 & Hl & ->). simpl.
  assert (<[r := BRoot (rt_with_path p rt)]> (w_mem w) = mroot (w_mem w) r (rt_with_path p)) as ->.
  { unfold mroot. by rewrite H1. }
  by apply link_at_mroot.
Qed.

(** A world in which root r carries tree T (counters not considered). *)
Definition carries (w : world) (r : loc) (T : tree) : Prop :=
  (∃ rt, w_mem w !! r = Some (BRoot rt) /\ rep L (w_mem w) 0 (rt_link rt) T) /\ r ∉ locs T.

Lemma carries_sbp r w w' T : carries w r T -> sbp r w w' -> carries w' r T.
Proof.
  intros [(rt & Hr & Hrep) Hni] Hs. split; [|done].
  destruct (sbp_root _ _ _ Hs) as (rt' & pth & Hr' & _ & Hr2).
  rewrite Hr in Hr'. injection Hr' as <-.
  exists (rt_with_path pth rt). split; [done|]. simpl.
  eapply rep_keep; [done|]. intros l Hl. apply keep_same.
  apply (sbp_ne _ _ _ _ Hs). by intros ->.
Qed.

Lemma cs_lookup (cs : list (N * tree)) r : r ∈ map fst cs ->
  ∃ bef t aft, cs = bef ++ (r, t) :: aft.
Proof using Type.
  intros H. apply elem_of_list_In, in_map_iff in H as ([r' t] & <- & H).
  apply in_split in H as (bef & aft & ->). eauto.
Qed.

(** One step of the loop at a node. *)
Lemma idx_of_child (bef aft : list (N * tree)) r :
  radixes (map fst bef ++ r :: map fst aft) ->
  idx_of (bits_of (map fst bef ++ r :: map fst aft)) r = length bef.
Proof using Type.
  intros H. pose proof H as H'. apply radixes_app_cons in H' as (_ & _ & Hr & Hb & Ha).
  rewrite idx_of_split; [by rewrite map_length|done|lia|done|].
  constructor; [lia|]. eapply Forall_impl; [exact Ha|]. simpl. lia.
Qed.

Lemma radixes_notin bef r aft : radixes (bef ++ r :: aft) -> r ∉ bef ++ aft.
Proof using Type.
  intros (_ & _ & _ & Hb & Ha)%radixes_app_cons.
  rewrite Forall_forall in Hb, Ha. rewrite elem_of_app. intros [H|H].
  - specialize (Hb _ H). lia.
  - specialize (Ha _ H). lia.
Qed.

Lemma leaf_child_bit (bef aft : list (N * tree)) r t :
  radixes (map fst bef ++ r :: map fst aft) ->
  (r ∈ lrads (bef ++ (r, t) :: aft)) <-> is_leaf t = true.
Proof using Type.
  clear HF F L.
  intros H. apply radixes_notin in H. rewrite lrads_app, lrads_cons. simpl.
  split.
  - rewrite !elem_of_app. intros [Hin|[Hin|Hin]].
    + apply lrads_sub in Hin. set_solver.
    + destruct (is_leaf t); [done|set_solver].
    + apply lrads_sub in Hin. set_solver.
  - intros ->. set_solver.
Qed.

Section loop.
Context {A : Type} (visit : A -> N -> lref -> M A) (J : A -> list (N * lref) -> world -> Prop).
Variables (r : loc) (seed : N) (k : K) (T : tree).
Hypothesis Hvisit : ∀ acc q radix l w, J acc q w -> ∃ acc' w',
  visit acc radix l w = Ret acc' w' /\ J acc' (q ++ [(radix, l)]) w' /\ sbp r w w'.

(** Where the traversal for key k stops in T. *)
Definition stops_missing (c : list frame) (a : loc) (cs : list (N * tree)) : Prop :=
  plug c (Node a cs) = T /\ rads c = nibs F seed k (length c) /\
  nib F seed k (length c) ∉ map fst cs.
Definition stops_present (c : list frame) (a : loc) bef (k' : K) (p : ptr) aft : Prop :=
  plug c (Node a (bef ++ (nib F seed k (length c), Leaf k' p) :: aft)) = T /\
  rads c = nibs F seed k (length c).

Lemma descend_spec fuel : ∀ c t acc w,
  is_leaf t = false -> plug c t = T -> carries w r T ->
  hgt t <= fuel -> length c + hgt t <= 255 ->
  rads c = nibs F seed k (length c) ->
  J acc (trail r c) w ->
  ∃ c' a' acc' w', sbp r w w' /\ length c <= length c' /\
    ((∃ cs', stops_missing c' a' cs' /\ J acc' (trail r c') w' /\
      descend F visit fuel seed k (hproc F seed k (length c)) (hole r c) (N.of_nat (length c)) acc w
      = Ret (Missing (fuel - 1 - (length c' - length c)) (hproc F seed k (length c'))
               (N.of_nat (length c')) (hole r c') acc') w') \/
     (∃ bef k' p aft, stops_present c' a' bef k' p aft /\
      J acc' (trail r c' ++ [(nib F seed k (length c'), hole r c')]) w' /\
      descend F visit fuel seed k (hproc F seed k (length c)) (hole r c) (N.of_nat (length c)) acc w
      = Ret (Present (fuel - 1 - (length c' - length c)) (hproc F seed k (length c'))
               (N.of_nat (length c')) (hole r c') (SlotRef a' (length bef)) acc') w')).
Proof.
  induction fuel as [|fuel IH]; intros c t acc w Hlf HT Hcar Hf Hd Hrads HJ.
  { destruct t; [done|]. simpl in Hf. lia. }
  destruct t as [|a cs]; [done|].
  assert (Hcar' := Hcar). destruct Hcar' as [(rt & Hrt & Hrep) Hni]. rewrite <- HT in Hrep.
  destruct (rep_hole L _ _ _ _ _ Hrt Hrep) as (lk & Hlk & Hnode).
  assert (Hnode' := Hnode). apply rep_node_inv in Hnode' as (-> & Hrs & _).
  cbn [descend]. rewrite (bind_Ret _ _ _ _ _ (load_link_step _ _ _ Hlk)). cbn [lk_pmap lk_tmap lk_ptr].
  assert (Hrad : radix_of (hproc F seed k (length c)) = nib F seed k (length c)) by done.
  rewrite Hrad. pose proof (nib_lt F seed k (length c)) as Hn16.
  rewrite land_bit_of by lia.
  destruct (bool_decide_reflect (nib F seed k (length c) ∈ map fst cs)) as [Hin|Hnin]; cbn [negb].
  - apply cs_lookup in Hin as (bef & t & aft & ->).
    rewrite map_app in *. cbn [map fst] in *.
    destruct (Hvisit acc (trail r c) (nib F seed k (length c)) (hole r c) w HJ)
      as (acc1 & w1 & Hv & HJ1 & Hs1).
    rewrite (bind_Ret _ _ _ _ _ Hv).
    rewrite land_bit_of by lia. rewrite idx_of_child by done. cbn [elem].
    destruct (bool_decide_reflect
      (nib F seed k (length c) ∈ lrads (bef ++ (nib F seed k (length c), t) :: aft))) as [Hl|Hl];
      rewrite leaf_child_bit in Hl by done; cbn [negb].
    + destruct t as [k' p|]; [|done].
      exists c, a, acc1, w1. split; [done|]. split; [lia|]. right.
      exists bef, k', p, aft. split_and!; try done.
      unfold ret. do 2 f_equal. lia.
    + (* branch *)
      apply not_true_is_false in Hl.
      set (f := Frame a bef (nib F seed k (length c)) aft).
      assert (HT1 : plug (f :: c) t = T) by exact HT.
      assert (Hh : S (hgt t) <= hgt (fill f t)) by apply hgt_fill_lt.
      unfold fill in Hh. subst f. simpl fr_a in *. simpl fr_bef in *. simpl fr_r in *. simpl fr_aft in *.
      set (f := Frame a bef (nib F seed k (length c)) aft) in *.
      destruct (IH (f :: c) t acc1 w1) as (c' & a' & acc' & w' & Hs & Hlen & Hres); try done.
      * by eapply carries_sbp.
      * lia.
      * cbn [length]. lia.
      * cbn [length]. rewrite nibs_S, <- Hrads. unfold rads. simpl. by rewrite reverse_cons.
      * exists c', a', acc', w'. split; [by eapply sbp_trans|]. cbn [length] in Hlen. split; [lia|].
        cbn [length hole] in Hres. subst f. cbn [fr_a fr_bef] in Hres.
        cbn [hproc] in Hres. rewrite u8_succ by lia.
        replace (S fuel - 1 - (length c' - length c))
          with (fuel - 1 - (length c' - S (length c))) by lia.
        exact Hres.
  - exists c, a, acc, w. split; [by eapply sbp_refl|]. split; [lia|]. left.
    exists cs. split_and!; try done.
    unfold ret. do 2 f_equal. lia.
Qed.
End loop.
End descend.
