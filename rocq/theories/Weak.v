(** The trie operations without assumptions about keys: any comparison of keys,
    any hash function, any keys in the tree. *)
From Coq Require Import Sorted SpecFloat.
From stdpp Require Import base numbers list gmap.
From Verif Require Import GoInt Mem Amt Families BitsFacts Steps Tree Rep Paths Descend Insert Split Delete Remove Core Heap Levels Shape.
Local Open Scope nat_scope.

(** ** Splits that go deeper than the depth counter *)
Section deep.
Context {K HS V CK U : Type} (F : fam K HS V CK U) (L : layout K V CK).
Local Notation block := (block V CK).
Local Notation world := (world V CK U).
Local Notation M := (M V CK U).
Local Notation mem := (gmap loc block).
Local Notation tree := (tree K).
Local Notation frame := (frame K).
Implicit Types (w : world) (m : mem) (t T X : tree).
Hypothesis HF : fam_ok F L.
Hypothesis Hall : ∀ k, ly_ok L k.
Variables (op : insop V CK U) (r : loc) (seed : N) (k ck : K) (cp : ptr).
Hypothesis Hios : ∀ w1, w_ok w1 -> ∃ p w2, io_split op w1 = Ret p w2 /\ newcell L w1 w2 k p.

(** The next n digits of the two keys agree. *)
Fixpoint agree (n : nat) (d : N) (h ch : HS * N) : Prop :=
  match n with
  | O => True
  | S n =>
      radix_of (advance F seed k (u8 (d + 1)) h) = radix_of (advance F seed ck (u8 (d + 1)) ch) /\
      agree n (u8 (d + 1)) (advance F seed k (u8 (d + 1)) h) (advance F seed ck (u8 (d + 1)) ch)
  end.

Lemma agree_adv n : ∀ d h ch, d + n <= 255 ->
  (∀ i, 1 <= i <= n -> radix_of (adv F seed k d h i) = radix_of (adv F seed ck d ch i)) ->
  agree n (N.of_nat d) h ch.
Proof.
  induction n as [|n IH]; intros d h ch Hd H; [done|]. cbn [agree]. rewrite u8_succ by lia. split.
  - specialize (H 1 ltac:(lia)). cbn [adv] in H. by rewrite Nat.add_1_r in H.
  - apply IH; [lia|]. intros i Hi. rewrite !adv_S. apply H. lia.
Qed.

Lemma split_deep dd fuel : ∀ n d h ch w item x b rt,
  agree n d h ch -> w_ok w ->
  link_at (w_mem w) item = Some x -> lk_tmap x = 0%N -> base item = Some b -> b ≠ r ->
  w_mem w !! r = Some (BRoot rt) ->
  cell L (w_mem w) ck cp -> (∀ l, l ∈ ptr_locs cp -> l ≠ b /\ l ≠ r) ->
  split F op fuel r seed k ck cp h ch item d w = Hang \/
  ∃ w' x' X, split F op fuel r seed k ck cp h ch item d w = Ret tt w' /\
    w_mem w' !! b = put_link (w_mem w) item x' !! b /\
    (∀ l, (l < w_nxt w)%positive -> l ≠ b -> l ≠ r -> keep (w_mem w) (w_mem w') l) /\
    (∃ rt', w_mem w' !! r = Some (BRoot rt') /\ rt_link rt' = rt_link rt) /\
    rep L (w_mem w') (S dd) x' X /\ is_leaf X = false /\ n < hgt X.
Proof.
  revert dd. induction fuel as [|fuel IH]; intros dd n d h ch w item x b rt Hag Hwok Hx Hxt Hb Hbr Hrt Hck Hcp; [by left|].
  assert (Hb2 : (b < w_nxt w)%positive).
  { destruct (link_at_base _ _ _ Hx) as (b' & Hb' & [y Hy]). rewrite Hb in Hb'. injection Hb' as <-.
    by eapply Hwok. }
  assert (Hr2 : (r < w_nxt w)%positive) by (by eapply Hwok).
  cbn [Amt.split].
  set (h1 := advance F seed k (u8 (d + 1)) h).
  set (ch1 := advance F seed ck (u8 (d + 1)) ch).
  rewrite (bind_Ret _ _ _ _ _ (upd_link_step _ _ _ _ Hx)).
  pose proof (radix_of_lt h1) as Hn1. pose proof (radix_of_lt ch1) as Hn2.
  rewrite bit_of_eqb by lia.
  set (a := w_nxt w).
  assert (Hba : base item ≠ Some a) by (rewrite Hb; unfold a; intros [= ->]; lia).
  assert (Hbna : b ≠ a) by (unfold a; intros ->; lia).
  assert (Hrna : r ≠ a) by (unfold a; intros ->; lia).
  destruct (N.eqb_spec (radix_of h1) (radix_of ch1)) as [Hrad|Hrad]; cbn [negb].
  - (* one more level *)
    rewrite <- Hrad.
    rewrite (bind_Ret _ _ _ _ _ (new_link_array_step _ _)). simpl w_nxt. fold a.
    erewrite bind_Ret.
    2:{ eapply upd_link_step. simpl. rewrite link_at_insert_ne by done. by eapply link_at_put. }
    cbn [w_mem w_nxt w_usr lk_with_ptr lk_with_pmap lk_pmap lk_tmap].
    set (lk1 := Link (At a) (N.lor (bit_of (radix_of h1)) (bit_of (radix_of h1))) (lk_tmap x)).
    match goal with |- context [Amt.split _ _ _ _ _ _ _ _ _ _ _ _ ?w0] => set (w0' := w0) end.
    assert (Hw0 : w0' = World (<[a := BLinks (replicate 4 zero_link)]> (put_link (w_mem w) item lk1))
                         (xO a) (w_usr w)).
    { unfold w0', set_mem. simpl. f_equal. apply map_eq. intros i.
      destruct (decide (i = a)) as [->|Hi].
      - rewrite put_lookup_ne by done. by rewrite !lookup_insert.
      - rewrite !lookup_insert_ne by done.
        destruct (decide (base item = Some i)) as [E|E].
        + etransitivity; [apply (put_link_same_block (put_link (w_mem w) item
             (Link (lk_ptr x) (N.lor (bit_of (radix_of h1)) (bit_of (radix_of h1))) (lk_tmap x))));
             [done|by rewrite lookup_insert_ne]|]. by rewrite put_put.
        + rewrite !put_lookup_ne by done. rewrite lookup_insert_ne by done. by rewrite put_lookup_ne. }
    assert (Hq0 : quiet (λ l, l = b) w w0').
    { rewrite Hw0.
      apply (quiet_trans (λ l, l = b) (λ l, l = b) _ (set_mem w (put_link (w_mem w) item lk1))); [| |done].
      * apply quiet_put. intros b' E. congruence.
      * apply (quiet_alloc (λ l, l = b) (set_mem w (put_link (w_mem w) item lk1))). }
    assert (Hw0n : w_nxt w0' = xO a) by (by rewrite Hw0).
    assert (Hwk : ∀ l, (l < w_nxt w)%positive -> l ≠ b -> w_mem w0' !! l = w_mem w !! l).
    { intros l Hl Hlb. by apply (qu_frame _ _ _ Hq0). }
    assert (Hcpl : ∀ l, l ∈ ptr_locs cp -> (l < w_nxt w)%positive).
    { intros l Hl. destruct (cell_alloc _ _ _ _ _ Hck Hl) as [y Hy]. by eapply Hwok. }
    destruct (IH (S dd) (Nat.pred n) (u8 (d + 1)) h1 ch1 w0' (elem (At a) 0) zero_link a rt) as [->|Hres].
    { destruct n as [|n]; [done|]. by destruct Hag. }
    { by apply (qu_ok _ _ _ Hq0). }
    { rewrite Hw0. simpl. by rewrite lookup_insert. }
    { done. }
    { done. }
    { done. }
    { rewrite Hwk; [done|done|]. done. }
    { eapply cell_keep; [exact Hck|]. intros l Hl. apply keep_same. apply Hwk; [by apply Hcpl|]. by apply Hcp. }
    { intros l Hl. split; [|by apply Hcp]. intros ->. apply Hcpl in Hl. unfold a in Hl. lia. }
    { by left. }
    destruct Hres as (w' & x' & X & Hrun & Hblk & Hfr & (rt' & Hrt' & Hlk') & Hrep & Hlf & Hh).
    right. exists w', lk1, (Node a [(radix_of h1, X)]). split_and!.
    + exact Hrun.
    + assert (Hkb : keep (w_mem w0') (w_mem w') b).
      { apply Hfr; [rewrite Hw0n; unfold a; lia|done|done]. }
      assert (E0 : w_mem w0' !! b = put_link (w_mem w) item lk1 !! b).
      { rewrite Hw0. simpl. by rewrite lookup_insert_ne. }
      assert (Hlb : link_at (put_link (w_mem w) item lk1) item = Some lk1) by (by eapply link_at_put).
      destruct (link_at_block _ _ _ _ Hlb Hb) as [Hs1 Hs2].
      rewrite <- E0 in *. apply keep_eq; done.
    + intros l Hl Hlb Hlr.
      assert (keep (w_mem w0') (w_mem w') l) as Hk0.
      { apply Hfr; [rewrite Hw0n; unfold a; lia| |done]. unfold a. intros ->. lia. }
      intros y Hy. apply Hk0. by rewrite Hwk.
    + exists rt'. done.
    + assert (lk1 = Link (At a) (bits_of (map fst [(radix_of h1, X)])) (bits_of (lrads [(radix_of h1, X)]))) as ->.
      { unfold lk1. f_equal.
        - simpl. rewrite N.lor_diag. rewrite bit_of_bits_of by lia. done.
        - rewrite Hxt. rewrite lrads_cons. simpl. by rewrite Hlf. }
      apply (rep_node L _ (S dd) a _ [x'] (replicate 3 zero_link)).
      * rewrite Hblk, Hw0. simpl. rewrite lookup_insert. simpl. by rewrite lookup_insert.
      * done.
      * simpl. split; [repeat constructor|]. repeat constructor. lia.
      * constructor; [|constructor]. exact Hrep.
    + done.
    + simpl. destruct n; simpl in *; lia.
  - (* the keys separate here *)
    assert (n = 0) as ->.
    { destruct n; [done|]. exfalso. apply Hrad. by destruct Hag. }
    erewrite bind_Ret.
    2:{ eapply upd_link_step. simpl. by eapply link_at_put. }
    rewrite set_mem_set_mem. simpl w_mem. rewrite put_put. cbn [lk_with_pmap lk_with_tmap lk_pmap lk_tmap lk_ptr].
    rewrite (bind_Ret _ _ _ _ _ (new_link_array_step _ _)). simpl w_nxt. fold a.
    erewrite bind_Ret.
    2:{ eapply upd_link_step. simpl. rewrite link_at_insert_ne by done. by eapply link_at_put. }
    cbn [w_mem w_nxt w_usr lk_with_ptr lk_pmap lk_tmap].
    set (lk2 := Link (At a) (pair_bits (radix_of h1) (radix_of ch1)) (pair_bits (radix_of h1) (radix_of ch1))).
    match goal with |- context [bind (io_split op) _ ?w0] => set (w1 := w0) end.
    assert (Hw1 : w1 = World (<[a := BLinks (replicate 4 zero_link)]> (put_link (w_mem w) item lk2))
                         (xO a) (w_usr w)).
    { unfold w1, set_mem. simpl. f_equal. apply map_eq. intros i.
      destruct (decide (i = a)) as [->|Hi].
      - rewrite put_lookup_ne by done. by rewrite !lookup_insert.
      - rewrite !lookup_insert_ne by done.
        destruct (decide (base item = Some i)) as [E|E].
        + etransitivity; [eapply put_link_same_block; [done|]; by rewrite lookup_insert_ne|].
          by rewrite put_put.
        + rewrite !put_lookup_ne by done. rewrite lookup_insert_ne by done. by rewrite put_lookup_ne. }
    assert (Hq0 : quiet (λ l, l = b) w w1).
    { rewrite Hw1.
      apply (quiet_trans (λ l, l = b) (λ l, l = b) _ (set_mem w (put_link (w_mem w) item lk2))); [| |done].
      * apply quiet_put. intros b' E. congruence.
      * apply (quiet_alloc (λ l, l = b) (set_mem w (put_link (w_mem w) item lk2))). }
    assert (Hw1n : w_nxt w1 = xO a) by (by rewrite Hw1).
    assert (Hwk : ∀ l, (l < w_nxt w)%positive -> l ≠ b -> w_mem w1 !! l = w_mem w !! l).
    { intros l Hl Hlb. by apply (qu_frame _ _ _ Hq0). }
    destruct (Hios w1) as (p & w2 & Hio & Hok2 & Hn12 & Hk2 & Hcell & Hpf).
    { by apply (qu_ok _ _ _ Hq0). }
    right. rewrite (bind_Ret _ _ _ _ _ Hio).
    assert (Hl1 : link_at (w_mem w1) item = Some lk2).
    { rewrite Hw1. simpl. rewrite link_at_insert_ne by done. by eapply link_at_put. }
    destruct (link_at_block _ _ _ _ Hl1 Hb) as [Hs1 Hs2].
    assert (Hb1 : w_mem w2 !! b = w_mem w1 !! b).
    { apply keep_eq; [|done|done]. apply Hk2. rewrite Hw1n. unfold a. lia. }
    assert (Hl2 : link_at (w_mem w2) item = Some lk2).
    { rewrite <- Hl1. apply link_at_ext. intros b' E. rewrite Hb in E. by injection E as <-. }
    assert (Ha2 : w_mem w2 !! a = Some (BLinks (replicate 4 zero_link))).
    { eapply keep_links; [apply Hk2; rewrite Hw1n; lia|]. rewrite Hw1. simpl. apply lookup_insert. }
    assert (Hr1 : w_mem w2 !! r = Some (BRoot rt)).
    { eapply keep_root; [apply Hk2; rewrite Hw1n; unfold a; lia|]. by rewrite Hwk. }
    rewrite (bind_Ret _ _ _ _ _ (load_link_step _ _ _ Hl2)). cbn [lk_ptr lk2 elem].
    rewrite bit_of_ltb by lia.
    assert (Hpair : ∀ f1 f2, bind (upd_link (SlotRef a 0) f1) (λ _, upd_link (SlotRef a 1) f2) w2 =
      Ret tt (set_mem w2 (<[a := BLinks [f1 zero_link; f2 zero_link; zero_link; zero_link]]> (w_mem w2)))).
    { intros f1 f2. erewrite bind_Ret.
      2:{ eapply upd_link_step. simpl. rewrite Ha2. reflexivity. }
      erewrite upd_link_step.
      2:{ simpl. rewrite Ha2. rewrite lookup_insert. reflexivity. }
      simpl. rewrite Ha2. simpl. rewrite lookup_insert. rewrite insert_insert. done. }
    assert (Hcount : ∀ l1 l2 nn, count_in r nn
        (set_mem w2 (<[a := BLinks [l1; l2; zero_link; zero_link]]> (w_mem w2))) =
      Ret tt (set_mem w2 (mroot (<[a := BLinks [l1; l2; zero_link; zero_link]]> (w_mem w2)) r (grow nn)))).
    { intros l1 l2 nn. erewrite count_in_step; [done|]. simpl. rewrite lookup_insert_ne by done. exact Hr1. }
    set (n1 := radix_of h1) in *. set (n2 := radix_of ch1) in *.
    assert (Hfin : ∃ w' l1 l2, w_mem w' = mroot (<[a := BLinks [l1; l2; zero_link; zero_link]]> (w_mem w2)) r (grow (u8 (d + 1) * 2)) /\
      ((l1, l2) = if (n1 <? n2)%N then (ly_leaf L k p, ly_leaf L ck cp) else (ly_leaf L ck cp, ly_leaf L k p)) /\
      bind (if (n1 <? n2)%N
            then bind (upd_link (SlotRef a 0) (f_pair F k p)) (λ _, upd_link (SlotRef a 1) (f_pair F ck cp))
            else bind (upd_link (SlotRef a 0) (f_pair F ck cp)) (λ _, upd_link (SlotRef a 1) (f_pair F k p)))
        (λ _, count_in r (u8 (d + 1) * 2)) w2 = Ret tt w').
    { destruct (n1 <? n2)%N; rewrite (bind_Ret _ _ _ _ _ (Hpair _ _)); rewrite Hcount.
      - eexists _, (f_pair F k p zero_link), (f_pair F ck cp zero_link).
        split; [|split; [|reflexivity]]; [reflexivity|by rewrite !(fo_pair _ _ HF)].
      - eexists _, (f_pair F ck cp zero_link), (f_pair F k p zero_link).
        split; [|split; [|reflexivity]]; [reflexivity|by rewrite !(fo_pair _ _ HF)]. }
    destruct Hfin as (w' & l1 & l2 & Hm' & Hl12 & Hfin). rewrite Hfin.
    assert (M1 : ∀ l, l ≠ r -> l ≠ a -> w_mem w' !! l = w_mem w2 !! l).
    { intros l ? ?. rewrite Hm'. rewrite mroot_lookup_ne by done. by rewrite lookup_insert_ne. }
    exists w', lk2, (Node a (pair_cs n1 (Leaf k p) n2 (Leaf ck cp))). split_and!.
    + done.
    + rewrite M1 by done. rewrite Hb1, Hw1. simpl. by rewrite lookup_insert_ne.
    + intros l Hl Hlb Hlr. eapply keep_trans; [|eapply keep_trans; [apply (Hk2 l)|]].
      * apply keep_same. by apply Hwk.
      * rewrite Hw1n. unfold a. lia.
      * apply keep_same. apply M1; [done|]. unfold a. intros ->. lia.
    + eexists. split.
      * rewrite Hm'. apply mroot_lookup. rewrite lookup_insert_ne by done. exact Hr1.
      * done.
    + assert (Hcellp : rep L (w_mem w') (S (S dd)) (ly_leaf L k p) (Leaf k p)).
      { constructor; [apply Hall|]. eapply cell_keep; [exact Hcell|]. intros l Hl. apply keep_same.
        apply Hpf in Hl. rewrite Hw1n in Hl. apply M1; unfold a in *; intros ->; lia. }
      assert (Hcellc' : rep L (w_mem w') (S (S dd)) (ly_leaf L ck cp) (Leaf ck cp)).
      { constructor; [apply Hall|]. eapply cell_keep; [exact Hck|]. intros l Hl.
        destruct (cell_alloc _ _ _ _ _ Hck Hl) as [y Hy]. apply Hwok in Hy. destruct (Hcp l Hl) as [? ?].
        eapply keep_trans; [|eapply keep_trans; [apply (Hk2 l)|]].
        - apply keep_same. by apply Hwk.
        - rewrite Hw1n. unfold a. lia.
        - apply keep_same. apply M1; [done|]. unfold a. intros ->. lia. }
      assert (pair_bits n1 n2 = bits_of (lrads (pair_cs n1 (Leaf k p) n2 (Leaf ck cp)))) as E2.
      { rewrite (pair_bits_cs _ _ (Leaf k p) (Leaf ck cp)) by done. unfold pair_cs. by destruct (n1 <? n2)%N. }
      assert (lk2 = Link (At a) (bits_of (map fst (pair_cs n1 (Leaf k p) n2 (Leaf ck cp))))
                   (bits_of (lrads (pair_cs n1 (Leaf k p) n2 (Leaf ck cp))))) as ->.
      { unfold lk2. f_equal; [|done]. by apply pair_bits_cs. }
      apply (rep_node L _ _ a _ [l1; l2] [zero_link; zero_link]).
      * rewrite Hm'. rewrite mroot_lookup_ne by done. apply lookup_insert.
      * unfold pair_cs. by destruct (n1 <? n2)%N.
      * by apply pair_radixes.
      * unfold pair_cs. destruct (n1 <? n2)%N; injection Hl12 as -> ->;
          (constructor; [done|constructor; [done|constructor]]).
    + done.
    + simpl. lia.
Qed.
End deep.

(** A represented tree of height h has a level at every depth below h. *)
Lemma deep_level {K V CK} (L : layout K V CK) m h rt (T : tree K) n :
  m !! h = Some (BRoot rt) -> rep L m 0 (rt_link rt) T -> is_leaf T = false -> n < hgt T ->
  ∃ lv, level m h n lv.
Proof.
  intros Hr Hrep Hl Hn.
  assert (Hgen : ∀ (t : tree K) d lv n, is_leaf t = false -> rep L m d lv t -> level m h d lv -> n < hgt t ->
    ∃ lv', level m h (d + n) lv').
  { intros t. induction t as [|a cs IH] using tree_ind'; intros d lv n' Hlf Hrp Hlv Hlt; [done|].
    destruct n' as [|n']; [rewrite Nat.add_0_r; eauto|].
    assert (Hc : ∃ i c, cs !! i = Some c /\ n' < hgt c.2).
    { destruct (decide (Forall (λ c, hgt c.2 <= n') cs)) as [Hf|Hf].
      - pose proof (proj2 (hgt_node_le a cs n') Hf). lia.
      - apply not_Forall_Exists in Hf; [|apply _]. apply Exists_exists in Hf as (c & Hc & Hlt').
        apply elem_of_list_lookup in Hc as [i Hi]. exists i, c. split; [done|]. simpl in Hlt'. lia. }
    destruct Hc as (i & [q t] & Hi & Hlt').
    destruct (slot_rep L _ _ _ _ _ _ _ _ Hrp Hi) as (x & Hs & Hx & He). cbn [snd] in *.
    assert (is_leaf t = false) as Hlt2 by (destruct t; [simpl in Hlt'; lia|done]).
    rewrite Forall_lookup in IH. destruct (IH _ _ Hi (S d) x n' Hlt2 Hx) as [lv' Hlv'].
    - eapply level_sub; [done|exact Hs|]. by rewrite He.
    - done.
    - exists lv'. by rewrite Nat.add_succ_r. }
  apply (Hgen T 0 (rt_link rt) n); [done|done|by constructor|done].
Qed.

Section weak.
Context {K HS V CK U : Type} (F : fam K HS V CK U) (L : layout K V CK).
Local Notation block := (block V CK).
Local Notation world := (world V CK U).
Local Notation M := (M V CK U).
Local Notation mem := (gmap loc block).
Local Notation tree := (tree K).
Local Notation frame := (frame K).
Implicit Types (w : world) (m : mem) (t T : tree) (c : list frame).
Hypothesis HF : fam_ok F L.
Hypothesis Hall : ∀ k, ly_ok L k.
Hypothesis Hflat : ∀ k p, lk_tmap (ly_leaf L k p) = 0%N.
Hypothesis Hrepl : ∀ k p ck cp, lk_with_ptr p (ly_leaf L ck cp) = ly_leaf L k p.
(** What is known of the place of the entries in the tree. *)
Variable PL : N -> tree -> Prop.
Record place_ok : Prop := PlaceOk {
  pl_add : ∀ s c a a' bef aft k p, PL s (plug c (Node a (bef ++ aft))) ->
    rads c = nibs F s k (length c) ->
    PL s (plug c (Node a' (bef ++ (nib F s k (length c), Leaf k p) :: aft)));
  pl_drop : ∀ s c a a' bef aft n k p, PL s (plug c (Node a (bef ++ (n, Leaf k p) :: aft))) ->
    PL s (squash c a' (bef ++ aft));
  pl_split : ∀ s c a a2 bef aft k p ck cp fuel ch chain j,
    PL s (plug c (Node a (bef ++ (nib F s k (length c), Leaf ck cp) :: aft))) ->
    rads c = nibs F s k (length c) ->
    f_conf F fuel s k ck (N.of_nat (length c)) = Some ch -> 1 <= j -> length c <= 255 ->
    (∀ i, 1 <= i < j -> nib F s k (length c + i) = radix_of (adv F s ck (length c) ch i)) ->
    length chain = j - 1 -> rads chain = map (λ i, nib F s k (length c + i)) (seq 1 (j - 1)) -> Forall bare chain ->
    PL s (plug (chain ++ Frame a bef (nib F s k (length c)) aft :: c)
       (Node a2 (pair_cs (nib F s k (length c + j)) (Leaf k p) (radix_of (adv F s ck (length c) ch j)) (Leaf ck cp))));
  pl_swap : ∀ s c a bef aft k p ck cp,
    PL s (plug c (Node a (bef ++ (nib F s k (length c), Leaf ck cp) :: aft))) ->
    rads c = nibs F s k (length c) ->
    PL s (plug c (Node a (bef ++ (nib F s k (length c), Leaf k p) :: aft))) }.
Hypothesis HP : place_ok.

Variables (D : nat) (seed : N).
Hypothesis HD : D <= 254.
Local Notation nib := (nib F seed).
Local Notation nibs := (nibs F seed).
Definition WGood w (r : loc) T : Prop := MapI L (S D) w r seed T /\ PL seed T.

Lemma MapI_carries B w r T : MapI L B w r seed T -> carries L w r T.
Proof.
  intros [(rt & Hr & _ & Hrep & _) Hnd _ _]. split; [eauto|]. by apply NoDup_cons in Hnd as [? _].
Qed.
Lemma MapI_node B w r T : MapI L B w r seed T -> is_leaf T = false.
Proof. intros [_ _ Hc _]. by destruct T. Qed.
Lemma MapI_cell B w r T k p : MapI L B w r seed T -> (k, p) ∈ leaves T -> cell L (w_mem w) k p.
Proof. intros [(rt & Hr & _ & Hrep & _) _ _ _] H. by eapply rep_ok. Qed.

Lemma wdescend w r T k fuel : MapI L (S D) w r seed T -> 256 <= fuel ->
  ∃ c a,
    ((∃ cs, stops_missing F seed k T c a cs /\
      descend F no_visit fuel seed k (f_start F seed k) (RootRef r) 0 tt w
      = Ret (Missing (fuel - 1 - length c) (hproc F seed k (length c))
               (N.of_nat (length c)) (hole r c) tt) w) \/
     (∃ bef k' p aft, stops_present F seed k T c a bef k' p aft /\
      descend F no_visit fuel seed k (f_start F seed k) (RootRef r) 0 tt w
      = Ret (Present (fuel - 1 - length c) (hproc F seed k (length c))
               (N.of_nat (length c)) (hole r c) (SlotRef a (length bef)) tt) w)).
Proof.
  intros HM Hf. pose proof (MapI_carries _ _ _ _ HM) as Hc. pose proof (MapI_node _ _ _ _ HM) as Hn.
  assert (Hh : hgt T <= S D) by apply HM.
  destruct (descend_spec F L no_visit (λ _ _ w', w' = w) r seed k T) with (fuel := fuel)
    (c := @nil frame) (t := T) (acc := tt) (w := w)
    as (c & a & [] & w' & Hs & Hl & Hres); try done.
  - intros [] q radix l w0 ->. exists tt, w. split_and!; try done.
    destruct Hc as [(rt & Hr & _) _]. by eapply sbp_refl.
  - lia.
  - simpl. lia.
  - exists c, a. rewrite Nat.sub_0_r in Hres. cbn [length hproc hole] in Hres.
    destruct Hres as [(cs & H1 & -> & H2)|(bef & k' & p & aft & H1 & -> & H2)].
    + left. exists cs. done.
    + right. exists bef, k', p, aft. done.
Qed.

Lemma MapI_seed w r T : MapI L (S D) w r seed T -> ∃ rt, w_mem w !! r = Some (BRoot rt) /\ rt_seed rt = seed.
Proof. intros [(rt & Hr & Hs & _) _ _ _]. eauto. Qed.

Lemma witem_at w r T k c a bef k' p aft : MapI L (S D) w r seed T -> stops_present F seed k T c a bef k' p aft ->
  link_at (w_mem w) (SlotRef a (length bef)) = Some (ly_leaf L k' p).
Proof.
  intros HM (HT & Hr). rewrite <- HT in HM.
  change (plug c (Node a (bef ++ (nib k (length c), Leaf k' p) :: aft)))
    with (plug (Frame a bef (nib k (length c)) aft :: c) (Leaf k' p)) in HM.
  destruct HM as [(rt & Hrt & _ & Hrep & _) _ _ _].
  destruct (rep_hole L _ _ _ _ _ Hrt Hrep) as (lk & Hlk & Hl).
  apply rep_leaf_inv in Hl as (-> & _). exact Hlk.
Qed.

(** ** Lookup *)

(** The entry, if any, in the place of key k. *)
Definition spot T k k' (p : ptr) : Prop := ∃ q, q = nibs k (length q) /\ (q, (k', p)) ∈ pleaves [] T.

Lemma spot_leaf T k k' p : spot T k k' p -> (k', p) ∈ leaves T.
Proof. intros (q & _ & H). by apply (leaf_of T (q, (k', p))). Qed.

Lemma present_spot T k c a bef k' p aft : stops_present F seed k T c a bef k' p aft -> spot T k k' p.
Proof.
  intros (HT & Hr). exists (nibs k (S (length c))). split; [by rewrite nibs_length|].
  rewrite <- HT, pleaves_plug, pleaves_node, cspl_app, cspl_cons. cbn [fst snd pleaves].
  rewrite nibs_S, <- Hr. set_solver +.
Qed.

Lemma spot_in_hole c t q e k : wf (plug c t) -> rads c = nibs k (length c) -> q = nibs k (length q) ->
  (q, e) ∈ pleaves [] (plug c t) -> (q, e) ∈ pleaves (rads c) t.
Proof.
  intros Hwf Hr Hq He. rewrite pleaves_plug, elem_of_app in He. destruct He as [He|He]; [|done].
  exfalso. pose proof (ctxpl_diverge _ _ _ Hwf He) as Hd. cbn [fst] in Hd. rewrite Hq, Hr in Hd.
  by apply nibs_no_diverge in Hd.
Qed.

Lemma spot_head c k (r0 : N) s q : q = nibs k (length q) -> q = rads c ++ r0 :: s -> r0 = nib k (length c).
Proof.
  intros Hw Hq. apply (f_equal (λ l, l !! length c)) in Hq.
  rewrite <- (rads_length c) in Hq at 2. rewrite list_lookup_middle in Hq by done.
  pose proof (lookup_lt_Some _ _ _ Hq) as Hlt. rewrite Hw in Hq.
  rewrite nibs_lookup in Hq by done. congruence.
Qed.

Lemma missing_spot T k c a cs k' p : wf T -> stops_missing F seed k T c a cs -> ¬ spot T k k' p.
Proof.
  intros Hwf (HT & Hr & Hn) (q & Hq & Hin). rewrite <- HT in *.
  eapply spot_in_hole in Hin; [|done..]. cbn [pleaves] in Hin. fold (cspl (rads c) cs) in Hin.
  apply cspl_pre in Hin as (c0 & s & Hc & _ & Hq'). simpl in Hq'. apply Hn.
  rewrite <- (spot_head _ _ _ _ _ Hq Hq'). apply elem_of_list_In, in_map. by apply elem_of_list_In.
Qed.

Lemma spot_unique T k c a bef k' p aft k2 p2 : wf T ->
  stops_present F seed k T c a bef k' p aft -> spot T k k2 p2 -> k2 = k' /\ p2 = p.
Proof.
  intros Hwf (HT & Hr) (q & Hq & Hin). rewrite <- HT in *.
  eapply spot_in_hole in Hin; [|done..].
  apply wf_plug in Hwf. apply wf_node in Hwf as [Hrs _]. rewrite map_app in Hrs. cbn [map fst] in Hrs.
  apply radixes_notin in Hrs.
  cbn [pleaves] in Hin. fold (cspl (rads c) (bef ++ (nib k (length c), Leaf k' p) :: aft)) in Hin.
  rewrite cspl_app, cspl_cons in Hin. cbn [fst snd pleaves] in Hin.
  assert (Hside : ∀ cs, nib k (length c) ∉ map fst cs -> (q, (k2, p2)) ∉ cspl (rads c) cs).
  { intros cs Hn Hx. apply cspl_pre in Hx as (c0 & s & Hc & _ & Hq'). simpl in Hq'. apply Hn.
    rewrite <- (spot_head _ _ _ _ _ Hq Hq'). apply elem_of_list_In, in_map. by apply elem_of_list_In. }
  rewrite !elem_of_app in Hin. rewrite elem_of_app in Hrs. destruct Hin as [Hin|[Hin|Hin]].
  - exfalso. eapply Hside; [|exact Hin]. tauto.
  - apply elem_of_list_singleton in Hin. naive_solver.
  - exfalso. eapply Hside; [|exact Hin]. tauto.
Qed.

Lemma wfind w r T k fuel : MapI L (S D) w r seed T -> 256 <= fuel ->
  ((∀ k' p, ¬ spot T k k' p) /\ find F fuel (Some r) k w = Ret None w) \/
  (∃ k' p, spot T k k' p /\
     find F fuel (Some r) k w = Ret (if f_eq F k k' then Some (ly_leaf L k' p) else None) w).
Proof.
  intros HM Hf. pose proof (MapI_wf _ _ _ _ _ _ HM) as Hwf.
  destruct (MapI_seed _ _ _ HM) as (rt & Hrt & Hs).
  unfold find. rewrite (bind_Ret _ _ _ _ _ (load_root_step _ _ _ Hrt)). rewrite Hs.
  destruct (wdescend w r T k fuel HM Hf) as (c & a & [(cs & Hst & Hd)|(bef & k' & p & aft & Hst & Hd)]);
    rewrite (bind_Ret _ _ _ _ _ Hd).
  - left. split; [|done]. intros k' p. by eapply missing_spot.
  - pose proof (present_spot _ _ _ _ _ _ _ _ Hst) as Hsp.
    pose proof (MapI_cell _ _ _ _ _ _ HM (spot_leaf _ _ _ _ Hsp)) as Hcell.
    rewrite (bind_Ret _ _ _ _ _ (load_link_step _ _ _ (witem_at _ _ _ _ _ _ _ _ _ _ HM Hst))).
    rewrite (bind_Ret _ _ _ _ _ (fo_key _ _ HF _ _ _ (Hall _) Hcell)).
    right. exists k', p. split; [done|]. by destruct (f_eq F k k').
Qed.

(** An entry in the place of k is found. *)
Lemma wfind_spot w r T k k' p fuel : MapI L (S D) w r seed T -> 256 <= fuel -> spot T k k' p ->
  find F fuel (Some r) k w = Ret (if f_eq F k k' then Some (ly_leaf L k' p) else None) w.
Proof.
  intros HM Hf Hsp. pose proof (MapI_wf _ _ _ _ _ _ HM) as Hwf.
  destruct (wdescend w r T k fuel HM Hf) as (c & a & [(cs & Hst & Hd)|(bef & k2 & p2 & aft & Hst & Hd)]).
  { by eapply missing_spot in Hst. }
  destruct (spot_unique _ _ _ _ _ _ _ _ _ _ Hwf Hst Hsp) as [-> ->].
  destruct (MapI_seed _ _ _ HM) as (rt & Hrt & Hs).
  unfold find. rewrite (bind_Ret _ _ _ _ _ (load_root_step _ _ _ Hrt)). rewrite Hs.
  rewrite (bind_Ret _ _ _ _ _ Hd).
  pose proof (MapI_cell _ _ _ _ _ _ HM (spot_leaf _ _ _ _ Hsp)) as Hcell.
  rewrite (bind_Ret _ _ _ _ _ (load_link_step _ _ _ (witem_at _ _ _ _ _ _ _ _ _ _ HM Hst))).
  rewrite (bind_Ret _ _ _ _ _ (fo_key _ _ HF _ _ _ (Hall _) Hcell)).
  by destruct (f_eq F k k2).
Qed.

(** ** Insertion *)
Lemma newcell_made (P : loc -> Prop) w1 w2 k p : newcell L w1 w2 k p ->
  (∀ l, P l -> (l < w_nxt w1)%positive) -> made L P w1 w2 k p.
Proof. intros (H1 & H2 & H3 & H4 & H5) HP'. split_and!; auto. Qed.

Lemma MapI_lt B w r T l : w_ok w -> MapI L B w r seed T -> l ∈ foot r T -> (l < w_nxt w)%positive.
Proof. intros Hok HM Hl. destruct (MapI_alloc _ _ _ _ _ _ _ HM Hl) as [b Hb]. by eapply Hok. Qed.

(** The conflicting key does not belong where it is: it is replaced. *)
Lemma wswap w w2 r k p c a bef ck cp aft : w_ok w ->
  let T := plug c (Node a (bef ++ (nib k (length c), Leaf ck cp) :: aft)) in
  let T' := plug c (Node a (bef ++ (nib k (length c), Leaf k p) :: aft)) in
  MapI L (S D) w r seed T -> newcell L w w2 k p ->
  ∃ w', upd_link (SlotRef a (length bef)) (lk_with_ptr p) w2 = Ret tt w' /\
    quiet (λ l, l = a) w2 w' /\ MapI L (S D) w' r seed T'.
Proof.
  intros Hwok T T' HM (Hok2 & Hn2 & Hk & Hcell & Hpf).
  pose proof (mi_root _ _ _ _ _ _ HM) as (rt & Hrt & Hs & Hrep & Hlen & Hdep & Hpath).
  set (f := Frame a bef (nib k (length c)) aft).
  change T with (plug (f :: c) (Leaf ck cp)) in *.
  pose proof (mi_nodup _ _ _ _ _ _ HM) as Hnd.
  destruct (rep_hole L _ _ _ _ _ Hrt Hrep) as (lk & Hlk & Hl). cbn [hole fr_a fr_bef f] in Hlk.
  apply rep_leaf_inv in Hl as (-> & _).
  assert (Hfa : a ∈ foot r (plug (f :: c) (Leaf ck cp))).
  { unfold foot. rewrite elem_of_cons, locs_plug. right. simpl. set_solver +. }
  assert (Hlt : ∀ l, l ∈ foot r (plug (f :: c) (Leaf ck cp)) -> (l < w_nxt w)%positive) by (intros l; by eapply MapI_lt).
  destruct (link_at_block _ _ _ a Hlk eq_refl) as [Hs1 Hs2].
  assert (Ha2 : w_mem w2 !! a = w_mem w !! a) by (apply keep_eq; [apply Hk; by apply Hlt|done|done]).
  assert (Hlk2 : link_at (w_mem w2) (SlotRef a (length bef)) = Some (ly_leaf L ck cp)).
  { rewrite <- Hlk. apply link_at_ext. intros b E. simpl in E. injection E as <-. done. }
  exists (set_mem w2 (put_link (w_mem w2) (SlotRef a (length bef)) (ly_leaf L k p))).
  split. { rewrite (upd_link_step _ _ _ _ Hlk2). by rewrite (Hrepl k p). }
  split. { apply quiet_put. simpl. congruence. }
  assert (Hra : r ≠ a).
  { intros ->. apply NoDup_cons in Hnd as [Hnd _]. apply Hnd. rewrite locs_plug. simpl. set_solver +. }
  assert (Hr' : put_link (w_mem w2) (SlotRef a (length bef)) (ly_leaf L k p) !! r = Some (BRoot rt)).
  { rewrite put_lookup_ne by (simpl; congruence). eapply keep_root; [|exact Hrt]. apply Hk, Hlt. unfold foot. set_solver +. }
  assert (Hkeep : ∀ l, (l < w_nxt w)%positive -> l ≠ a ->
    keep (w_mem w) (put_link (w_mem w2) (SlotRef a (length bef)) (ly_leaf L k p)) l).
  { intros l Hl Hla. eapply keep_trans; [by apply Hk|]. apply keep_same. apply put_lookup_ne. simpl. congruence. }
  change T' with (plug (f :: c) (Leaf k p)).
  assert (Hpne : ∀ l, l ∈ ptr_locs p -> (w_nxt w <= l)%positive) by done.
  eapply (MapI_replace L (S D) w _ r seed (f :: c) (Leaf ck cp) (Leaf k p) (ly_leaf L k p) rt rt HM).
  - done.
  - done.
  - exact Hr'.
  - eapply (linked_intro _ _ r (f :: c) _ rt rt); [exact (not_eq_sym Hra)|done|exact Hr'|exact Hlk|done|].
    intros b Eb _. simpl in Eb. injection Eb as <-. simpl. rewrite Ha2. simpl in Hlk.
    destruct (w_mem w !! a) as [[ls| |]|]; try done. by rewrite !lookup_insert.
  - intros l Hl Hne. apply Hkeep.
    + apply Hlt. unfold foot. rewrite elem_of_cons, locs_plug. set_solver +Hl.
    + intros ->. by apply Hne.
  - constructor; [apply Hall|]. eapply cell_keep; [exact Hcell|]. intros l Hl. apply keep_same.
    apply put_lookup_ne. simpl. intros [= ->]. apply Hpne in Hl. pose proof (Hlt _ Hfa). lia.
  - done.
  - done.
  - rewrite Hlen. do 2 f_equal. rewrite !(Permutation_length (leaves_plug _ _)), !app_length. done.
  - rewrite Hdep. do 2 f_equal. cbn [plug]. rewrite !sumdep_plug by done. unfold fill. cbn [fr_a fr_bef fr_r fr_aft f].
    rewrite !sumdep_node, !csdep_app, !csdep_cons. done.
  - rewrite locs_plug in Hnd. change (r :: clocs (f :: c) ++ locs (Leaf ck cp)) with
      ((r :: clocs (f :: c)) ++ ptr_locs cp) in Hnd.
    change (r :: clocs (f :: c) ++ locs (Leaf k p)) with ((r :: clocs (f :: c)) ++ ptr_locs p).
    apply NoDup_app in Hnd as (Hnd & _ & _). apply NoDup_app. split_and!; [done| |].
    + intros l Hl Hl2. apply Hpne in Hl2.
      assert (l < w_nxt w)%positive; [|lia]. apply Hlt. unfold foot. rewrite elem_of_cons, locs_plug.
      rewrite elem_of_cons in Hl. set_solver +Hl.
    + destruct p; simpl; [apply NoDup_nil_2|apply NoDup_singleton].
  - pose proof (mi_canon _ _ _ _ _ _ HM) as Hc. cbn [plug] in *. unfold fill in *. cbn [fr_a fr_bef fr_r fr_aft f] in *.
    rewrite canon_root_plug in *. destruct Hc as (H1 & H2 & H3). split_and!.
    + done.
    + unfold canon_cs in *. rewrite Forall_app, Forall_cons in *. destruct H2 as (? & ? & ?). done.
    + intros Hx. specialize (H3 Hx). clear -H3. destruct bef as [|[? []] [|]], aft; simpl in *; done.
  - pose proof (mi_hgt _ _ _ _ _ _ HM) as Hh. eapply hgt_plug_mono; [exact Hh|].
    pose proof (hgt_plug (f :: c) (Leaf ck cp)). simpl in *. lia.
Qed.

Lemma winsert op w r T k fuel : WGood w r T -> w_ok w -> 256 <= fuel ->
  (∀ w1, w_ok w1 -> ∃ p w2, io_split op w1 = Ret p w2 /\ newcell L w1 w2 k p) ->
  insert F op fuel (Some r) k w = Hang \/
  (∃ k' p, spot T k k' p /\ f_eq F k k' = true /\ insert F op fuel (Some r) k w = io_found op (ly_leaf L k' p) w) \/
  (∃ w' lv, insert F op fuel (Some r) k w = Ret tt w' /\ level (w_mem w') r (S D) lv) \/
  (∃ (b : bool) w1,
    let mk := if b then io_new op else io_split op in
    quiet (λ l, l ∈ foot r T) w w1 /\
    (b = true -> io_early op = true -> w1 = w) /\
    ∀ p w2, mk w1 = Ret p w2 -> newcell L w1 w2 k p ->
      ∃ w' T', insert F op fuel (Some r) k w = Ret tt w' /\
        quiet (region r T w w1) w2 w' /\ WGood w' r T' /\ spot T' k k p /\
        (leaves T' ≡ₚ (k, p) :: leaves T \/
         io_check op = true /\ ∃ ck cp E d n ch, leaves T ≡ₚ (ck, cp) :: E /\ leaves T' ≡ₚ (k, p) :: E /\
           d <= D /\ (nibs k (S d), (ck, cp)) ∈ pleaves [] T /\
           f_conf F n seed k ck (N.of_nat d) = Some ch /\ radix_of ch ≠ nib k d) /\
        ∀ l, l ∈ foot r T' -> l ∈ foot r T \/ l ∈ ptr_locs p \/
          (w_nxt w <= l < w_nxt w1)%positive \/ (w_nxt w2 <= l < w_nxt w')%positive).
Proof.
  intros [HM0 HPL] Hwok Hf Hios. pose proof (MapI_wf _ _ _ _ _ _ HM0) as Hwf.
  destruct (MapI_seed _ _ _ HM0) as (rt & Hrt & Hs).
  unfold insert. rewrite (bind_Ret _ _ _ _ _ (load_root_step _ _ _ Hrt)). rewrite Hs.
  assert (Hh : hgt T <= S D) by apply HM0.
  assert (Hreg : ∀ w1, quiet (λ l, l ∈ foot r T) w w1 -> ∀ l, region r T w w1 l -> (l < w_nxt w1)%positive).
  { intros w1 Hq l [Hl|Hl]; [|lia]. eapply MapI_lt in Hl; [|done..]. pose proof (qu_nxt _ _ _ Hq). lia. }
  destruct (wdescend w r T k fuel HM0 Hf) as (c & a & [(cs & Hst & Hd)|(bef & ck & cp & aft & Hst & Hd)]);
    rewrite (bind_Ret _ _ _ _ _ Hd).
  - (* a free radix *)
    right; right; right. destruct Hst as (HT & Hr & Hn).
    assert (HM : MapI L (S D) w r seed (plug c (Node a cs))) by (by rewrite HT).
    destruct (MapI_hole _ _ _ _ _ _ _ _ HM) as (rt' & lks & rest & Hrt' & Hlk & Hrs & Ha & Hlena & Hfa).
    rewrite (bind_Ret _ _ _ _ _ (load_link_step _ _ _ Hlk)). cbn [lk_pmap].
    change (radix_of (hproc F seed k (length c))) with (nib k (length c)).
    pose proof (nib_lt F seed k (length c)) as Hn16.
    destruct (radixes_split_lt _ _ Hrs Hn) as (rb & ra & Hrb & Hlt & Hgt).
    apply map_eq_app in Hrb as (bef & aft & -> & <- & <-).
    rewrite map_app in Hrs |- *. rewrite idx_of_split; [|done|lia|done|].
    2:{ eapply Forall_impl; [exact Hgt|]. simpl. lia. }
    rewrite map_length.
    destruct (add_item_spec F L op r k HF (S D) seed c a bef aft (nib k (length c)) Hn16 Hlt Hgt (Hall k)
      (hproc F seed k (length c)) w HM Hwok eq_refl) as (w1 & Hq1 & He & Hpan & Hadd).
    exists true, w1. cbv zeta. rewrite HT in *. split_and!; try done.
    intros p w2 Hmk Hmade. destruct (Hadd p w2 Hmk) as (w' & a' & Hrun & Hq & HM' & Ha').
    { apply newcell_made; [done|]. by apply Hreg. }
    exists w', (plug c (Node a' (bef ++ (nib k (length c), Leaf k p) :: aft))). split_and!; try done.
    + split; [done|]. eapply (pl_add HP); [|done]. by rewrite HT.
    + eapply present_spot. split; [reflexivity|done].
    + left. rewrite <- HT. by apply leaves_add_perm.
    + intros l Hl. rewrite <- HT. rewrite foot_plug in Hl |- *. cbn [locs] in *.
      rewrite flat_map_app in *. cbn [flat_map snd locs] in Hl.
      destruct Hl as [->|[Hl|Hl]]; [by auto|by auto|].
      apply elem_of_cons in Hl as [->|Hl]; [destruct Ha' as [->|[?|?]]; [|tauto|tauto]; left; set_solver +|].
      rewrite !elem_of_app in Hl. destruct Hl as [Hl|[Hl|Hl]]; [left; set_solver +Hl|tauto|left; set_solver +Hl].
  - (* an item in the way *)
    pose proof (present_spot _ _ _ _ _ _ _ _ Hst) as Hsp.
    pose proof (MapI_cell _ _ _ _ _ _ HM0 (spot_leaf _ _ _ _ Hsp)) as Hcell.
    pose proof (witem_at _ _ _ _ _ _ _ _ _ _ HM0 Hst) as Hitem.
    destruct (f_eq F k ck) eqn:E.
    { right; left. exists ck, cp. split_and!; [done..|].
      unfold add_present. rewrite (bind_Ret _ _ _ _ _ (load_link_step _ _ _ Hitem)).
      rewrite (bind_Ret _ _ _ _ _ (fo_key _ _ HF _ _ _ (Hall _) Hcell)). by rewrite E. }
    destruct Hst as (HT & Hr).
    assert (HM : MapI L (S D) w r seed (plug c (Node a (bef ++ (nib k (length c), Leaf ck cp) :: aft)))) by (by rewrite HT).
    assert (Hlc : length c <= D).
    { pose proof (hgt_plug c (Node a (bef ++ (nib k (length c), Leaf ck cp) :: aft))) as Hx. rewrite HT in Hx. simpl in Hx. lia. }
    destruct (f_conf F (fuel - 1 - length c) seed k ck (N.of_nat (length c))) as [ch|] eqn:Hconf.
    2:{ left. unfold add_present. rewrite (bind_Ret _ _ _ _ _ (load_link_step _ _ _ Hitem)).
        rewrite (bind_Ret _ _ _ _ _ (fo_key _ _ HF _ _ _ (Hall _) Hcell)). rewrite E. by rewrite Hconf. }
    destruct (io_check op && negb (radix_of ch =? radix_of (hproc F seed k (length c)))%N) eqn:Hchk.
    { (* the conflicting key is replaced *)
      right; right; right. exists false, w. cbv zeta. split_and!; [apply quiet_refl|done|].
      intros p w2 Hmk Hnew.
      destruct (wswap w w2 r k p c a bef ck cp aft Hwok HM Hnew) as (w' & Hrun & Hq & HM').
      exists w', (plug c (Node a (bef ++ (nib k (length c), Leaf k p) :: aft))). split_and!.
      - unfold add_present. rewrite (bind_Ret _ _ _ _ _ (load_link_step _ _ _ Hitem)).
        rewrite (bind_Ret _ _ _ _ _ (fo_key _ _ HF _ _ _ (Hall _) Hcell)). rewrite E, Hconf, Hchk.
        by rewrite (bind_Ret _ _ _ _ _ Hmk).
      - eapply quiet_mono; [|exact Hq]. intros l ->. left. rewrite <- HT, foot_plug. simpl. set_solver +.
      - split; [done|]. eapply (pl_swap HP); [|done]. by rewrite HT.
      - eapply present_spot. split; [reflexivity|done].
      - right. apply andb_true_iff in Hchk as [Hchk Hrad]. split; [done|].
        exists ck, cp, (cleaves c ++ flat_map (λ e, leaves e.2) bef ++ flat_map (λ e, leaves e.2) aft),
          (length c), (fuel - 1 - length c), ch.
        rewrite <- HT. rewrite !leaves_plug. cbn [leaves]. rewrite !flat_map_app. cbn [flat_map snd leaves].
        split_and!; [solve_Permutation|solve_Permutation|done| |done|].
        + rewrite pleaves_plug, elem_of_app. right. rewrite pleaves_node, cspl_app, cspl_cons. cbn [fst snd pleaves].
          rewrite nibs_S, <- Hr. set_solver +.
        + by apply negb_true_iff, N.eqb_neq in Hrad.
      - intros l Hl. rewrite <- HT. rewrite foot_plug in Hl |- *. cbn [locs] in *.
        rewrite flat_map_app in *. cbn [flat_map snd locs] in *. set_solver +Hl. }
    set (n := D - length c).
    assert (Hdec : (∃ j, 1 <= j <= n /\ (∀ i, 1 <= i < j -> nib k (length c + i) = radix_of (adv F seed ck (length c) ch i)) /\
        nib k (length c + j) ≠ radix_of (adv F seed ck (length c) ch j)) \/
      (∀ i, 1 <= i <= n -> nib k (length c + i) = radix_of (adv F seed ck (length c) ch i))).
    { clear. induction n as [|n IH]; [right; lia|].
      destruct IH as [(j & H1 & H2 & H3)|IH]; [left; exists j; split_and!; [lia..|done|done]|].
      destruct (decide (nib k (length c + S n) = radix_of (adv F seed ck (length c) ch (S n)))) as [He|He].
      - right. intros i Hi. destruct (decide (i = S n)) as [->|]; [done|]. apply IH. lia.
      - left. exists (S n). split_and!; [lia..| |done]. intros i Hi. apply IH. lia. }
    destruct Hdec as [(j & Hj & Hag & Hdiff)|Hag].
    + right; right; right.
      destruct (add_present_split F L HF op r seed k ck cp (S D) c a bef aft (nib k (length c)) (Hall k)
        (fuel - 1 - length c) (hproc F seed k (length c)) ch j w HM Hwok eq_refl E Hconf Hchk)
        as (w1 & Hq1 & Hpan & Hadd).
      * intros i Hi. rewrite adv_hproc. by apply Hag.
      * by rewrite adv_hproc.
      * lia.
      * lia.
      * lia.
      * intros _. apply Hflat.
      * rewrite !adv_hproc in Hadd. rewrite HT in *.
        change (radix_of (hproc F seed k (length c + j))) with (nib k (length c + j)) in Hadd.
        exists false, w1. cbv zeta. split_and!; try done.
        intros q w2 Hmk Hmade. destruct (Hadd q w2 Hmk) as (w' & a2 & chain & Hrun & Hq & HM' & Hcl & Hrc & Hb & Hfr).
        { apply newcell_made; [done|]. by apply Hreg. }
        assert (Hrc' : rads chain = map (λ i, nib k (length c + i)) (seq 1 (j - 1))).
        { rewrite Hrc. apply map_ext. intros i. by rewrite adv_hproc. }
        eexists w', _. split_and!; [exact Hrun|exact Hq|split; [exact HM'|]| | |].
        -- eapply (pl_split HP); try done; [by rewrite HT|lia|lia].
        -- exists (nibs k (S (length c + j))). split; [by rewrite nibs_length|].
           rewrite pleaves_plug, elem_of_app. right. rewrite pleaves_node.
           assert (Hrr : rads (chain ++ Frame a bef (nib k (length c)) aft :: c) = nibs k (length c + j)).
           { rewrite rads_app, rads_cons. cbn [fr_r]. rewrite Hrc', Hr. rewrite nibs_app. rewrite <- app_assoc. f_equal.
             destruct j as [|j]; [lia|]. simpl. f_equal. replace (j - 0) with j by lia.
             rewrite (map_shift (nib k)). by rewrite Nat.add_1_r. }
           rewrite Hrr, nibs_S. unfold pair_cs. destruct (_ <? _)%N; rewrite !cspl_cons; cbn [fst snd pleaves app]; set_solver +.
        -- left. rewrite <- HT. rewrite plug_app. cbn [plug].
           rewrite !(leaves_plug c), leaves_fill, bare_leaves by done. unfold fleaves. cbn [fr_bef fr_aft leaves].
           rewrite flat_map_app. cbn [flat_map snd leaves].
           unfold pair_cs. destruct (_ <? _)%N; cbn [flat_map snd leaves]; solve_Permutation.
        -- intros l Hl. rewrite <- HT. rewrite foot_plug in Hl |- *.
           unfold clocs in Hl. rewrite flat_map_app in Hl. cbn [flat_map] in Hl.
           fold (clocs chain) in Hl. fold (clocs c) in Hl. unfold flocs in Hl. cbn [fr_a fr_bef fr_aft] in Hl.
           cbn [locs]. rewrite flat_map_app. cbn [flat_map snd locs].
           destruct Hl as [->|[Hl|Hl]]; [by auto| |].
           ++ rewrite !elem_of_app, elem_of_cons, elem_of_app in Hl.
              destruct Hl as [Hl|[[->|[Hl|Hl]]|Hl]].
              ** right; right; left. apply Hfr. set_solver +Hl.
              ** left. set_solver +.
              ** left. set_solver +Hl.
              ** left. set_solver +Hl.
              ** by auto.
           ++ cbn [locs] in Hl. apply elem_of_cons in Hl as [->|Hl].
              { right; right; left. apply Hfr. set_solver +. }
              assert (Hl2 : l ∈ ptr_locs q \/ l ∈ ptr_locs cp).
              { unfold pair_cs in Hl. destruct (_ <? _)%N in Hl; cbn [flat_map snd locs] in Hl; set_solver +Hl. }
              destruct Hl2 as [Hl2|Hl2]; [by auto|]. left. set_solver +Hl2.
    + (* the keys agree to the greatest depth *)
      assert (Hne : match c with [] => True | f :: _ => fr_a f ≠ r end).
      { destruct HM as [_ Hnd _ _]. destruct c as [|f c']; [done|]. intros Ex.
        apply NoDup_cons in Hnd as [Hnd _]. apply Hnd. rewrite locs_plug. simpl. set_solver +Ex. }
      pose proof (mi_root _ _ _ _ _ _ HM) as (rt0 & Hrt0 & Hseed & Hrep & _).
      rewrite Hrt in Hrt0. injection Hrt0 as <-.
      destruct (rep_hole L _ _ _ _ _ Hrt Hrep) as (lk & Hlk & Hnode).
      destruct (rep_node_link L _ _ _ _ _ _ _ _ Hnode) as [Elk Hrs].
      destruct (rep_node_split L _ _ _ _ _ _ _ _ Hnode)
        as (lb & lx & la & rest & Ha & Hlena & Hlenb & Hlenaf & Hlb & Hlx & Hla).
      apply rep_leaf_inv in Hlx as (-> & _ & Hcellc).
      pose proof (mi_nodup _ _ _ _ _ _ HM) as Hnd.
      set (lk0 := Link (At a) (lk_pmap lk) (andnot (lk_tmap lk) (bit_of (nib k (length c))))).
      set (g0 := λ rt, rt_with_dep (sub64 (rt_dep rt) (N.of_nat (length c))) rt).
      set (m0 := mroot (put_link (w_mem w) (hole r c) lk0) r g0).
      set (wa := set_mem w m0).
      destruct (final_lookups (w_mem w) r c lk lk0 g0 rt Hrt Hlk Hne) as (F1 & F2 & F3). fold m0 in F1, F2, F3.
      set (n0 := nib k (length c)) in *.
      assert (Elocs : locs (Node a (bef ++ (n0, Leaf ck cp) :: aft)) = a :: cslocs bef ++ ptr_locs cp ++ cslocs aft).
      { cbn [locs]. rewrite flat_map_app. done. }
      assert (Hnd' := Hnd). rewrite locs_plug, Elocs in Hnd'.
      assert (Hfoot : ∀ l, l ∈ foot r T <-> l = r \/ l ∈ clocs c \/ l = a \/ l ∈ cslocs bef \/ l ∈ ptr_locs cp \/ l ∈ cslocs aft).
      { intros l. rewrite <- HT, foot_plug, Elocs. rewrite elem_of_cons, !elem_of_app. done. }
      assert (Hltf : ∀ l, l ∈ foot r T -> (l < w_nxt w)%positive) by (intros l; by eapply MapI_lt).
      assert (Hhole : ∀ b, base (hole r c) = Some b -> b ∈ foot r T /\ b ≠ a /\ (b = r \/ b ∈ clocs c)).
      { intros b Eb. apply hole_in in Eb. split; [|split].
        - apply Hfoot. apply elem_of_cons in Eb. tauto.
        - intros ->. clear -Hnd' Eb.
          change (r :: clocs c ++ a :: ?x) with ((r :: clocs c) ++ a :: x) in Hnd'.
          apply NoDup_app in Hnd' as (_ & Hnd & _). apply (Hnd a Eb). set_solver +.
        - by apply elem_of_cons in Eb. }
      assert (Hdisj : ∀ l, l ∈ cslocs bef ++ ptr_locs cp ++ cslocs aft ->
          l ≠ r /\ l ≠ a /\ l ∉ clocs c /\ base (hole r c) ≠ Some l).
      { intros l Hl. clear -Hnd' Hl Hhole.
        change (r :: clocs c ++ a :: ?x) with ((r :: clocs c) ++ a :: x) in Hnd'.
        apply NoDup_app in Hnd' as (_ & Hnd & Hnd2). apply NoDup_cons in Hnd2 as [Hnd2 _].
        assert (l ∉ r :: clocs c) as Hn. { intros Hx. apply (Hnd l Hx). set_solver +Hl. }
        split_and!.
        - intros ->. set_solver +Hn.
        - by intros ->.
        - set_solver +Hn.
        - intros Ex. apply Hhole in Ex as (_ & _ & Ex). set_solver +Ex Hn. }
      assert (Har : a ≠ r).
      { intros ->. apply NoDup_cons in Hnd' as [Hx _]. set_solver +Hx. }
      assert (Hma : m0 !! a = Some (BLinks (lb ++ ly_leaf L ck cp :: la ++ rest))).
      { rewrite F2; [done|done|]. intros Ex. by apply Hhole in Ex as (_ & ? & _). }
      assert (Hwoka : w_ok wa).
      { assert (quiet (λ l, l ∈ foot r T) w wa) as Hqa; [|by apply (qu_ok _ _ _ Hqa)].
        apply (quiet_trans (λ l, l ∈ foot r T) (λ l, l ∈ foot r T) _ (set_mem w (put_link (w_mem w) (hole r c) lk0))); [| |done].
        - apply quiet_put. intros b Ex. by apply Hhole.
        - apply (quiet_mroot (λ l, l ∈ foot r T) (set_mem w (put_link (w_mem w) (hole r c) lk0))).
          apply Hfoot. auto. }
      assert (Hrun' : add_present F op (fuel - 1 - length c) r seed k (hproc F seed k (length c)) (N.of_nat (length c))
          (hole r c) (SlotRef a (length bef)) w
        = split F op (fuel - 1 - length c) r seed k ck cp (hproc F seed k (length c)) ch (SlotRef a (length bef)) (N.of_nat (length c)) wa).
      { unfold add_present. rewrite (bind_Ret _ _ _ _ _ (load_link_step _ _ _ Hitem)).
        rewrite (bind_Ret _ _ _ _ _ (fo_key _ _ HF _ _ _ (Hall _) Hcell)). rewrite E, Hconf, Hchk.
        rewrite (bind_Ret _ _ _ _ _ (upd_link_step _ _ _ _ Hlk)).
        erewrite bind_Ret.
        2:{ eapply upd_root_step. simpl.
            instantiate (1 := match c with [] => rt_with_link lk0 rt | _ => rt end).
            destruct c as [|f c']; simpl hole.
            - subst lk0. simpl. erewrite mroot_lookup by exact Hrt. unfold lk_with_tmap. by rewrite Elk.
            - rewrite put_lookup_ne by (simpl; congruence). done. }
        rewrite (fo_ptr _ _ HF). rewrite set_mem_set_mem. simpl w_mem.
        f_equal. unfold wa, m0, lk0. unfold lk_with_tmap. by rewrite Elk. }
      rewrite Hrun'.
      destruct (split_deep F L HF Hall op r seed k ck cp Hios (length c) (fuel - 1 - length c) n (N.of_nat (length c))
        (hproc F seed k (length c)) ch wa (SlotRef a (length bef)) (ly_leaf L ck cp) a
        (g0 (match c with [] => rt_with_link lk0 rt | _ => rt end))) as [->|Hres].
      * apply agree_adv; [lia|]. intros i Hi. rewrite adv_hproc. by apply Hag.
      * done.
      * simpl. rewrite Hma. rewrite <- Hlenb. rewrite lookup_app_r by lia. by rewrite Nat.sub_diag.
      * apply Hflat.
      * done.
      * done.
      * exact F1.
      * eapply cell_keep; [exact Hcellc|]. intros l Hl. apply keep_same. 
        assert (Hl' : l ∈ cslocs bef ++ ptr_locs cp ++ cslocs aft) by (set_solver +Hl).
        apply Hdisj in Hl' as (? & ? & ? & ?). by apply F2.
      * intros l Hl. assert (Hl' : l ∈ cslocs bef ++ ptr_locs cp ++ cslocs aft) by (set_solver +Hl).
        by apply Hdisj in Hl' as (? & ? & ? & ?).
      * by left.
      * destruct Hres as (w' & x' & X & Hrun & Hblk & Hfr & (rt' & Hrt' & Hlk') & HrepX & HlX & HhX).
        right; right; left. exists w'.
        set (t' := Node a (bef ++ (n0, X) :: aft)).
        assert (Hkeep : ∀ l, l ∈ foot r T -> l ≠ a -> l ≠ r -> base (hole r c) ≠ Some l -> keep (w_mem w) (w_mem w') l).
        { intros l Hl Hla' Hlr Hlh. eapply keep_trans; [|apply (Hfr l)]; [|by apply Hltf|done|done].
          apply keep_same. by apply F2. }
        assert (Ha' : w_mem w' !! a = Some (BLinks (lb ++ x' :: la ++ rest))).
        { rewrite Hblk. simpl. rewrite Hma. rewrite lookup_insert. do 2 f_equal.
          rewrite <- Hlenb. replace (length lb) with (length lb + 0) by lia. by rewrite insert_app_r. }
        assert (Hrep' : rep L (w_mem w') 0 (rt_link rt') (plug c t')).
        { eapply (rep_replace L (w_mem w) (w_mem w') r c (Node a (bef ++ (n0, Leaf ck cp) :: aft)) t' lk0 rt rt'); try done.
          - unfold t', lk0. rewrite Elk. cbn [lk_pmap lk_tmap].
            eapply (rep_node_build L (w_mem w') (length c) a bef n0 X aft lb x' la rest).
            + exact Ha'.
            + rewrite !app_length in *. simpl in *. rewrite !app_length in *. simpl in *. lia.
            + exact Hrs.
            + eapply reps_keep; [exact Hlb|]. intros l Hl.
              assert (Hl' : l ∈ cslocs bef ++ ptr_locs cp ++ cslocs aft) by (set_solver +Hl).
              apply Hdisj in Hl' as (? & ? & ? & ?). apply Hkeep; try done. apply Hfoot. tauto.
            + exact HrepX.
            + eapply reps_keep; [exact Hla|]. intros l Hl.
              assert (Hl' : l ∈ cslocs bef ++ ptr_locs cp ++ cslocs aft) by (set_solver +Hl).
              apply Hdisj in Hl' as (? & ? & ? & ?). apply Hkeep; try done. apply Hfoot. tauto.
            + f_equal. apply lrads_clear; [|done]. by rewrite map_app.
          - eapply linked_intro; try done.
            + destruct c as [|f c']; simpl in *; by rewrite Hlk'.
            + intros b Eb Hbr. destruct (Hhole _ Eb) as (Hb1 & Hb2 & _).
              rewrite <- (F3 b Eb Hbr). apply keep_eq.
              * apply Hfr; [by apply Hltf|done|done].
              * destruct (link_at_block _ _ _ _ (link_at_put _ _ lk0 _ Hlk) Eb) as [Hs1 Hs2]. by rewrite (F3 b Eb Hbr).
              * destruct (link_at_block _ _ _ _ (link_at_put _ _ lk0 _ Hlk) Eb) as [Hs1 Hs2]. by rewrite (F3 b Eb Hbr).
          - intros l Hl Hlh. apply Hkeep; [apply Hfoot; tauto| | |done].
            + intros ->. clear -Hnd' Hl. apply NoDup_cons in Hnd' as [_ Hnd']. apply NoDup_app in Hnd' as (_ & Hnd' & _).
              apply (Hnd' _ Hl). set_solver +.
            + intros ->. clear -Hnd' Hl. apply NoDup_cons in Hnd' as [Hnd' _]. set_solver +Hnd' Hl. }
        destruct (deep_level L (w_mem w') r rt' (plug c t') (S D) Hrt' Hrep') as [lv Hlv].
        { apply plug_node. done. }
        { pose proof (hgt_plug (Frame a bef n0 aft :: c) X) as Hx. simpl in Hx. unfold fill in Hx. cbn [fr_a fr_bef fr_r fr_aft] in Hx.
          fold t' in Hx. unfold n in HhX. lia. }
        exists lv. split; [exact Hrun|done].
Qed.

(** ** Deletion *)
Lemma MapI_sbp w w' r T : MapI L (S D) w r seed T -> sbp r w w' -> MapI L (S D) w' r seed T.
Proof.
  intros HM Hs. apply MapI_MapQ in HM as [HQ Hc]. apply MapI_MapQ. split; [|done]. by eapply MapQ_sbp.
Qed.

Lemma wdelete miss w r T k fuel : WGood w r T -> w_ok w -> 256 <= fuel ->
  ((∀ k' p, spot T k k' p -> miss (f_eq F k k') = true) /\
   ∃ w', delete_gen F miss fuel (Some r) k w = Ret tt w' /\ sbp r w w') \/
  (∃ k' p w' T', spot T k k' p /\ miss (f_eq F k k') = false /\
     delete_gen F miss fuel (Some r) k w = Ret tt w' /\
     quiet (λ l, l ∈ foot r T) w w' /\ WGood w' r T' /\
     leaves T ≡ₚ (k', p) :: leaves T' /\
     (∀ l, l ∈ foot r T' -> l ∈ foot r T \/ (w_nxt w <= l < w_nxt w')%positive)).
Proof.
  intros [HM0 HPL] Hwok Hf. pose proof (MapI_wf _ _ _ _ _ _ HM0) as Hwf.
  assert (Hh : hgt T <= S D) by apply HM0.
  destruct (MapI_seed _ _ _ HM0) as (rt & Hrt & Hs).
  assert (H12 : length (rt_path rt) = 12).
  { destruct HM0 as [(rt' & Hr' & _ & _ & _ & _ & H) _ _ _]. rewrite Hrt in Hr'. by injection Hr' as <-. }
  unfold delete_gen. rewrite (bind_Ret _ _ _ _ _ (load_root_step _ _ _ Hrt)). rewrite Hs.
  set (J := λ (acc : pathv) q w', ∃ tl, pview (w_mem w') r acc (plinks q) tl).
  destruct (descend_spec F L (path_push r) J r seed k T) with (fuel := fuel)
    (c := @nil frame) (t := T) (acc := PRoot 0) (w := w)
    as (c & a & acc & w1 & Hs1 & Hl & Hres); try done.
  - intros acc q radix l w0 (tl & Hv).
    destruct (path_push_spec _ _ radix l _ _ _ Hv) as (p' & w' & tl' & Hrun & Hsb & Hv' & Hk).
    exists p', w'. split_and!; try done. exists tl'. unfold plinks. rewrite map_app. exact Hv'.
  - by eapply MapI_node.
  - by eapply MapI_carries.
  - lia.
  - simpl. lia.
  - exists (rt_path rt). exists rt. done.
  - cbn [length hproc hole] in Hres. rewrite Nat.sub_0_r in Hres.
    destruct Hres as [(cs & Hst & _ & Hd)|(bef & k' & p & aft & Hst & HJ & Hd)].
    + left. split; [|exists w1; rewrite (bind_Ret _ _ _ _ _ Hd); done].
      intros k' p Hsp. exfalso. by eapply missing_spot.
    + rewrite (bind_Ret _ _ _ _ _ Hd).
      pose proof (MapI_sbp _ _ _ _ HM0 Hs1) as HM1.
      pose proof (present_spot _ _ _ _ _ _ _ _ Hst) as Hsp.
      pose proof (MapI_cell _ _ _ _ _ _ HM1 (spot_leaf _ _ _ _ Hsp)) as Hcell.
      rewrite (bind_Ret _ _ _ _ _ (load_link_step _ _ _ (witem_at _ _ _ _ _ _ _ _ _ _ HM1 Hst))).
      rewrite (bind_Ret _ _ _ _ _ (fo_key _ _ HF _ _ _ (Hall _) Hcell)).
      destruct (miss (f_eq F k k')) eqn:Em.
      { left. split; [|exists w1; done]. intros k2 p2 Hs2.
        by destruct (spot_unique _ _ _ _ _ _ _ _ _ _ Hwf Hst Hs2) as [-> ->]. }
      right. exists k', p.
      destruct Hst as (HT & Hr).
      assert (HM : MapI L (S D) w1 r seed (plug c (Node a (bef ++ (nib k (length c), Leaf k' p) :: aft)))) by (by rewrite HT).
      destruct (MapI_hole _ _ _ _ _ _ _ _ HM) as (rt' & lks & rest & Hrt' & Hlk & Hrs & Ha & Hlena & Hfa).
      rewrite (bind_Ret _ _ _ _ _ (load_link_step _ _ _ Hlk)). cbn [lk_pmap].
      change (radix_of (hproc F seed k (length c))) with (nib k (length c)).
      rewrite map_app in Hrs |- *. cbn [map fst] in *. rewrite idx_of_child by done.
      destruct HJ as (tl & Hv).
      assert (Hc254 : length c <= D).
      { pose proof (hgt_plug c (Node a (bef ++ (nib k (length c), Leaf k' p) :: aft))) as Hx. rewrite HT in Hx. simpl in Hx. lia. }
      assert (Hwok1 : w_ok w1).
      { assert (quiet (λ l, l = r) w w1) as Hq by (by eapply sbp_quiet). by apply Hq. }
      destruct (remove_spec (HS:=HS) L (S D) r seed c a bef aft (nib k (length c)) k' p w1 acc _ tl HM Hwok1 Hv) with
        (h := hproc F seed k (length c)) (fuel := fuel) as (w' & a' & Hrun & Hq & HM' & Ha' & _).
      * intros i x Hx. unfold plinks. rewrite map_app.
        change (map ?f) with (fmap (M:=list) f). rewrite lookup_app_l.
        2:{ rewrite fmap_length. by eapply lookup_lt_Some. }
        rewrite list_lookup_fmap, Hx. done.
      * unfold plinks. rewrite map_length, app_length, trail_length. simpl. lia.
      * done.
      * lia.
      * lia.
      * exists w', (squash c a' (bef ++ aft)). split_and!; try done.
        -- rewrite HT in Hq. pose proof (sbp_nxt _ _ _ Hs1) as Hn.
           apply (quiet_trans (λ l, l ∈ foot r T) (λ l, l ∈ foot r T) _ w1); [|done|done].
           eapply sbp_quiet; [done|]. unfold foot. set_solver +.
        -- split; [done|]. rewrite <- HT in HPL. by eapply (pl_drop HP).
        -- rewrite squash_leaves. rewrite <- HT. apply drop_leaves.
        -- intros l Hl2. apply squash_foot in Hl2. rewrite <- HT. rewrite foot_plug in Hl2 |- *. cbn [locs] in *.
           rewrite flat_map_app in *. cbn [flat_map snd locs].
           destruct Hl2 as [->|[Hl2|Hl2]]; [by auto|by auto|].
           apply elem_of_cons in Hl2 as [->|Hl2]; [|left; set_solver +Hl2].
           rewrite (sbp_nxt _ _ _ Hs1) in Ha'. destruct Ha' as [->|?]; [left; set_solver +|tauto].
Qed.
End weak.
