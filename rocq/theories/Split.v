(** Insertion in the place of a conflicting item. *)
From stdpp Require Import base numbers list gmap.
From Verif Require Import GoInt Mem Amt BitsFacts Steps Tree Rep Descend Insert.
Local Open Scope nat_scope.

Section split.
Context {K HS V CK U : Type} (F : fam K HS V CK U) (L : layout K V CK).
Local Notation block := (block V CK).
Local Notation world := (world V CK U).
Local Notation M := (M V CK U).
Local Notation mem := (gmap loc block).
Local Notation tree := (tree K).
Local Notation frame := (frame K).
Hypothesis HF : fam_ok F L.
Implicit Types (w : world) (m : mem).

(** The hash state i levels below depth d, from state h at depth d. *)
Fixpoint adv (seed : N) (k : K) (d : nat) (h : HS * N) (i : nat) : HS * N :=
  match i with
  | O => h
  | S i' => advance F seed k (N.of_nat (d + i)) (adv seed k d h i')
  end.
Lemma adv_S seed k d h i :
  adv seed k (S d) (advance F seed k (N.of_nat (S d)) h) i = adv seed k d h (S i).
Proof.
  induction i as [|i IH]; cbn [adv].
  - by rewrite Nat.add_1_r.
  - rewrite IH. cbn [adv]. do 2 f_equal. lia.
Qed.
Lemma adv_hproc seed k d i : adv seed k d (hproc F seed k d) i = hproc F seed k (d + i).
Proof.
  induction i as [|i IH]; cbn [adv].
  - by rewrite Nat.add_0_r.
  - rewrite IH. rewrite Nat.add_succ_r. done.
Qed.

Variables (op : insop V CK U) (r : loc) (seed : N) (k ck : K) (cp : ptr).

Definition pair_bits (n1 n2 : N) : N := N.lor (bit_of n1) (bit_of n2).

Lemma bit_of_lt n : (n < 16)%N -> (bit_of n < 65536)%N.
Proof. intros Hn. unfold bit_of, shl32. destruct n as [|p]; [done|]. do 5 (destruct p as [p|p|]; try lia; try done). Qed.
Lemma pair_bits_lt n1 n2 : (n1 < 16)%N -> (n2 < 16)%N -> (pair_bits n1 n2 < 65536)%N.
Proof.
  intros H1%bit_of_lt H2%bit_of_lt. unfold pair_bits. 
  destruct (N.eq_dec (N.lor (bit_of n1) (bit_of n2)) 0) as [->|Hne]; [lia|].
  apply N.log2_lt_pow2 with (b := 16%N); [lia|]. rewrite N.log2_lor.
  assert (Hx : ∀ y, (y < 65536 -> N.log2 y < 16)%N).
  { intros y Hy. destruct (N.eq_dec y 0) as [->|]; [simpl; lia|]. apply N.log2_lt_pow2; [lia|exact Hy]. }
  specialize (Hx (bit_of n1) H1) as Ha. specialize (Hx (bit_of n2) H2). lia.
Qed.

Definition split_fin (n1 n2 : N) (d : nat) (item : lref) (p : ptr) : M unit :=
  iv <- load_link item ;;
  (if (bit_of n1 <? bit_of n2)%N
   then upd_link (elem (lk_ptr iv) 0) (f_pair F k p) ;;;
        upd_link (elem (lk_ptr iv) 1) (f_pair F ck cp)
   else upd_link (elem (lk_ptr iv) 0) (f_pair F ck cp) ;;;
        upd_link (elem (lk_ptr iv) 1) (f_pair F k p)) ;;;
  count_in r (N.of_nat d * 2).

(** A chain of levels with one branch each. *)
Definition bare (f : frame) : Prop := fr_bef f = [] /\ fr_aft f = [].

Lemma split_run j : ∀ fuel d h ch w item x b,
  (∀ i, 1 <= i < j -> radix_of (adv seed k d h i) = radix_of (adv seed ck d ch i)) ->
  radix_of (adv seed k d h j) ≠ radix_of (adv seed ck d ch j) ->
  1 <= j <= fuel -> d + j <= 255 -> w_ok w ->
  link_at (w_mem w) item = Some x -> base item = Some b ->
  ∃ w1 a chain item' x1,
    let n1 := radix_of (adv seed k d h j) in
    let n2 := radix_of (adv seed ck d ch j) in
    let lk2 := Link (At a) (pair_bits n1 n2) (pair_bits n1 n2) in
    split F op fuel r seed k ck cp h ch item (N.of_nat d) w
      = bind (io_split op) (split_fin n1 n2 (d + j) item') w1 /\
    quiet (λ l, l = b) w w1 /\
    w_mem w1 !! b = put_link (w_mem w) item x1 !! b /\
    length chain = j - 1 /\
    rads chain = map (λ i, radix_of (adv seed k d h i)) (seq 1 (j - 1)) /\
    Forall bare chain /\
    NoDup (a :: clocs chain) /\
    (∀ l, l ∈ a :: clocs chain -> (w_nxt w <= l < w_nxt w1)%positive) /\
    w_mem w1 !! a = Some (BLinks (replicate 4 zero_link)) /\
    link_at (w_mem w1) item' = Some lk2 /\
    (∀ b', base item' = Some b' -> b' ∈ b :: clocs chain) /\
    lk_ptr x1 = At (w_nxt w) /\
    (lk_tmap x < 65536 -> lk_tmap x1 < 65536)%N /\
    (∃ ls, w_mem w1 !! w_nxt w = Some (BLinks ls) /\ (1 < j ->
      lk_pmap x1 = bit_of (radix_of (adv seed k d h 1)) /\ lk_tmap x1 = lk_tmap x /\
      ∃ x2 ls1 ls2, ls = x2 :: ls1 /\ lk_ptr x2 = At (xO (w_nxt w)) /\ (lk_tmap x2 < 65536)%N /\ w_mem w1 !! xO (w_nxt w) = Some (BLinks ls2))) /\
    ((1 < j -> lk_tmap x = 0%N) -> ∀ m' t, rep L m' (d + j) lk2 t -> is_leaf t = false ->
       (∀ l, l ∈ clocs chain -> keep (w_mem w1) m' l) ->
       rep L m' (S d) x1 (plug chain t)).
Proof.
  induction j as [|j IH]; intros fuel d h ch w item x b Heq Hne Hj Hd Hwok Hx Hb; [lia|].
  destruct fuel as [|fuel]; [lia|].
  assert (Hb2 : (b < w_nxt w)%positive).
  { destruct (link_at_base _ _ _ Hx) as (b' & Hb' & [y Hy]). rewrite Hb in Hb'. injection Hb' as <-.
    by eapply Hwok. }
  cbn [Amt.split]. rewrite u8_succ by lia.
  set (h1 := advance F seed k (N.of_nat (S d)) h).
  set (ch1 := advance F seed ck (N.of_nat (S d)) ch).
  assert (E1 : adv seed k d h 1 = h1) by (cbn [adv]; by rewrite Nat.add_1_r).
  assert (E2 : adv seed ck d ch 1 = ch1) by (cbn [adv]; by rewrite Nat.add_1_r).
  assert (S1 : ∀ i, adv seed k (S d) h1 i = adv seed k d h (S i)) by (intros; apply adv_S).
  assert (S2 : ∀ i, adv seed ck (S d) ch1 i = adv seed ck d ch (S i)) by (intros; apply adv_S).
  rewrite (bind_Ret _ _ _ _ _ (upd_link_step _ _ _ _ Hx)).
  pose proof (radix_of_lt h1) as Hn1. pose proof (radix_of_lt ch1) as Hn2.
  rewrite bit_of_eqb by lia.
  destruct j as [|j].
  - (* the keys separate here *)
    rewrite E1, E2 in *. destruct (N.eqb_spec (radix_of h1) (radix_of ch1)) as [|_]; [done|]. cbn [negb].
    erewrite bind_Ret.
    2:{ eapply upd_link_step. simpl. by eapply link_at_put. }
    rewrite set_mem_set_mem. simpl w_mem. rewrite put_put. cbn [lk_with_pmap lk_with_tmap lk_pmap lk_tmap lk_ptr].
    rewrite (bind_Ret _ _ _ _ _ (new_link_array_step _ _)). simpl w_nxt.
    set (a := w_nxt w).
    assert (Hba : base item ≠ Some a) by (rewrite Hb; unfold a; intros [= ->]; lia).
    erewrite bind_Ret.
    2:{ eapply upd_link_step. simpl. rewrite link_at_insert_ne by done. by eapply link_at_put. }
    cbn [w_mem w_nxt w_usr lk_with_ptr lk_pmap lk_tmap].
    set (lk2 := Link (At a) (pair_bits (radix_of h1) (radix_of ch1)) (pair_bits (radix_of h1) (radix_of ch1))).
    match goal with |- context [bind (io_split op) _ ?w0] => set (w1 := w0) end.
    assert (Hw1 : w1 = World (<[a := BLinks (replicate 4 zero_link)]> (put_link (w_mem w) item lk2))
                         (xO a) (w_usr w)).
    { unfold w1, set_mem. simpl. f_equal. apply map_eq. intros i.
      destruct (decide (i = a)) as [->|Hi].
      - rewrite put_lookup_ne by done. by rewrite !lookup_insert.
      - rewrite !lookup_insert_ne by done.
        destruct (decide (base item = Some i)) as [E|E].
        + etransitivity; [apply (put_link_same_block (put_link (w_mem w) item
             (Link (lk_ptr x) (pair_bits (radix_of h1) (radix_of ch1)) (pair_bits (radix_of h1) (radix_of ch1)))));
             [done|by rewrite lookup_insert_ne]|]. by rewrite put_put.
        + rewrite !put_lookup_ne by done. rewrite lookup_insert_ne by done. by rewrite put_lookup_ne. }
    exists w1, a, [], item, lk2. cbv zeta. rewrite Nat.add_1_r.
    split_and!.
    + done.
    + rewrite Hw1.
      apply (quiet_trans (λ l, l = b) (λ l, l = b) _ (set_mem w (put_link (w_mem w) item lk2))); [| |done].
      * apply quiet_put. intros b' E. congruence.
      * apply (quiet_alloc (λ l, l = b) (set_mem w (put_link (w_mem w) item lk2))).
    + rewrite Hw1. simpl. apply lookup_insert_ne. unfold a. lia.
    + done.
    + done.
    + constructor.
    + apply NoDup_singleton.
    + intros l Hl. simpl in Hl. apply elem_of_list_singleton in Hl as ->. rewrite Hw1. simpl. unfold a. lia.
    + rewrite Hw1. simpl. apply lookup_insert.
    + rewrite Hw1. simpl. rewrite link_at_insert_ne by done. by eapply link_at_put.
    + intros b' E. rewrite Hb in E. injection E as ->. simpl. set_solver +.
    + done.
    + intros _. apply pair_bits_lt; lia.
    + eexists. split; [rewrite Hw1; simpl; apply lookup_insert|lia].
    + intros _ m' t Hr Hl _. simpl. exact Hr.
  - (* one more level *)
    assert (Hrad : radix_of h1 = radix_of ch1).
    { rewrite <- E1, <- E2. apply Heq. lia. }
    rewrite Hrad. rewrite N.eqb_refl. cbn [negb]. rewrite <- Hrad.
    rewrite (bind_Ret _ _ _ _ _ (new_link_array_step _ _)). simpl w_nxt.
    set (a0 := w_nxt w).
    assert (Hba : base item ≠ Some a0) by (rewrite Hb; unfold a0; intros [= ->]; lia).
    erewrite bind_Ret.
    2:{ eapply upd_link_step. simpl. rewrite link_at_insert_ne by done. by eapply link_at_put. }
    cbn [w_mem w_nxt w_usr lk_with_ptr lk_with_pmap lk_pmap lk_tmap].
    set (lk1 := Link (At a0) (N.lor (bit_of (radix_of h1)) (bit_of (radix_of h1))) (lk_tmap x)).
    match goal with |- context [Amt.split _ _ _ _ _ _ _ _ _ _ _ _ ?w0] => set (w0' := w0) end.
    assert (Hw0 : w0' = World (<[a0 := BLinks (replicate 4 zero_link)]> (put_link (w_mem w) item lk1))
                         (xO a0) (w_usr w)).
    { unfold w0', set_mem. simpl. f_equal. apply map_eq. intros i.
      destruct (decide (i = a0)) as [->|Hi].
      - rewrite put_lookup_ne by done. by rewrite !lookup_insert.
      - rewrite !lookup_insert_ne by done.
        destruct (decide (base item = Some i)) as [E|E].
        + etransitivity; [apply (put_link_same_block (put_link (w_mem w) item
             (Link (lk_ptr x) (N.lor (bit_of (radix_of h1)) (bit_of (radix_of h1))) (lk_tmap x))));
             [done|by rewrite lookup_insert_ne]|]. by rewrite put_put.
        + rewrite !put_lookup_ne by done. rewrite lookup_insert_ne by done. by rewrite put_lookup_ne. }
    assert (Hq0 : quiet (λ l, l = b) w w0').
    { rewrite Hw0.
      apply (quiet_trans (λ l, l = b) (λ l, l = b) _ (set_mem w (put_link (w_mem w) item lk1))); [| |done].
      * apply quiet_put. intros b' E. congruence.
      * apply (quiet_alloc (λ l, l = b) (set_mem w (put_link (w_mem w) item lk1))). }
    destruct (IH fuel (S d) h1 ch1 w0' (elem (At a0) 0) zero_link a0)
      as (w1 & a & chain & item' & x1 & Hrun & Hq & Hblk & Hlen & Hrads & Hbare & Hnd & Hrange & Ha & Hlk & Hbase & Hptr & Htm & (ls2 & Hls2 & _) & Hrep).
    { intros i Hi. rewrite ?S1, ?S2. apply Heq. lia. }
    { rewrite ?S1, ?S2. done. }
    { lia. }
    { lia. }
    { by apply (qu_ok _ _ _ Hq0). }
    { rewrite Hw0. simpl. by rewrite lookup_insert. }
    { done. }
    rewrite ?S1, ?S2 in *. replace (S d + S j) with (d + S (S j)) in * by lia.
    assert (Hw0n : w_nxt w0' = xO a0) by (by rewrite Hw0).
    assert (Hblk' : w_mem w1 !! a0 = Some (BLinks (x1 :: replicate 3 zero_link))).
    { rewrite Hblk, Hw0. simpl. rewrite lookup_insert. simpl. by rewrite lookup_insert. }
    exists w1, a, (chain ++ [Frame a0 [] (radix_of h1) []]), item', lk1. cbv zeta.
    assert (Hcl : clocs (chain ++ [Frame a0 [] (radix_of h1) []]) = clocs chain ++ [a0]).
    { unfold clocs. rewrite flat_map_app. done. }
    split_and!.
    + exact Hrun.
    + apply (quiet_trans (λ l, l = b) (λ l, l = a0) _ w0'); [done|done|].
      intros l Hl ->. unfold a0 in Hl. lia.
    + rewrite (qu_frame _ _ _ Hq).
      * rewrite Hw0. simpl. apply lookup_insert_ne. unfold a0. lia.
      * rewrite Hw0n. unfold a0. lia.
      * unfold a0. lia.
    + rewrite app_length, Hlen. simpl. lia.
    + unfold rads in *. rewrite map_app, reverse_app. simpl. rewrite Hrads.
      replace (S (S j) - 1) with (S j) by lia. replace (S j - 1) with j by lia.
      cbn [seq map]. rewrite Nat.add_1_r. f_equal. rewrite <- (seq_shift j 1), map_map.
      apply map_ext. intros i. by rewrite S1.
    + apply Forall_app. split; [done|]. by repeat constructor.
    + rewrite Hcl. change (a :: clocs chain ++ [a0]) with ((a :: clocs chain) ++ [a0]).
      apply NoDup_app. split_and!; [done| |apply NoDup_singleton].
      intros l Hl Hl2. apply elem_of_list_singleton in Hl2 as ->. apply Hrange in Hl. rewrite Hw0n in Hl. lia.
    + rewrite Hcl. intros l Hl. change (a :: clocs chain ++ [a0]) with ((a :: clocs chain) ++ [a0]) in Hl.
      apply elem_of_app in Hl as [Hl|Hl].
      * apply Hrange in Hl. rewrite Hw0n in Hl. unfold a0 in Hl. lia.
      * apply elem_of_list_singleton in Hl as ->. pose proof (qu_nxt _ _ _ Hq) as H1. rewrite Hw0n in H1.
        unfold a0 in *. lia.
    + done.
    + done.
    + intros b' E. rewrite Hcl. apply Hbase in E. set_solver +E.
    + done.
    + unfold lk1. done.
    + eexists. split; [exact Hblk'|]. intros _. unfold lk1. cbn [lk_pmap lk_tmap]. rewrite N.lor_diag, E1.
      split; [done|]. split; [done|]. rewrite Hw0n in Hptr, Hls2. eexists x1, _, ls2. split_and!; try done. apply Htm. simpl. lia.
    + intros Hxt m' t Hr Hl Hk. rewrite Hcl in Hk. rewrite plug_app. simpl.
      unfold fill. simpl.
      assert (lk1 = Link (At a0) (bits_of (map fst [(radix_of h1, plug chain t)]))
                 (bits_of (lrads [(radix_of h1, plug chain t)]))) as ->.
      { unfold lk1. f_equal.
        - simpl. rewrite N.lor_diag. rewrite bit_of_bits_of by lia. done.
        - rewrite Hxt by lia. rewrite lrads_cons. simpl.
          assert (is_leaf (plug chain t) = false) as ->; [|done].
          destruct chain as [|f chain _] using rev_ind; [done|]. by rewrite plug_app. }
      apply (rep_node L m' (S d) a0 _ [x1] (replicate 3 zero_link)).
      * eapply keep_links; [apply Hk; set_solver +|]. exact Hblk'.
      * done.
      * simpl. split; [repeat constructor|]. repeat constructor. done.
      * constructor; [|constructor]. simpl. apply Hrep; [done|done|done|].
        intros l Hl'. apply Hk. set_solver +Hl'.
Qed.

(** If the keys never separate within the fuel the loop does not end. *)
Lemma split_hang fuel : ∀ d h ch w item x b,
  (∀ i, 1 <= i <= fuel -> radix_of (adv seed k d h i) = radix_of (adv seed ck d ch i)) ->
  d + fuel <= 255 -> w_ok w ->
  link_at (w_mem w) item = Some x -> base item = Some b ->
  split F op fuel r seed k ck cp h ch item (N.of_nat d) w = Hang.
Proof.
  induction fuel as [|fuel IH]; intros d h ch w item x b Heq Hd Hwok Hx Hb; [done|].
  assert (Hb2 : (b < w_nxt w)%positive).
  { destruct (link_at_base _ _ _ Hx) as (b' & Hb' & [y Hy]). rewrite Hb in Hb'. injection Hb' as <-.
    by eapply Hwok. }
  cbn [Amt.split]. rewrite u8_succ by lia.
  set (h1 := advance F seed k (N.of_nat (S d)) h).
  set (ch1 := advance F seed ck (N.of_nat (S d)) ch).
  assert (E1 : adv seed k d h 1 = h1) by (cbn [adv]; by rewrite Nat.add_1_r).
  assert (E2 : adv seed ck d ch 1 = ch1) by (cbn [adv]; by rewrite Nat.add_1_r).
  assert (S1 : ∀ i, adv seed k (S d) h1 i = adv seed k d h (S i)) by (intros; apply adv_S).
  assert (S2 : ∀ i, adv seed ck (S d) ch1 i = adv seed ck d ch (S i)) by (intros; apply adv_S).
  rewrite (bind_Ret _ _ _ _ _ (upd_link_step _ _ _ _ Hx)).
  pose proof (radix_of_lt h1) as Hn1. pose proof (radix_of_lt ch1) as Hn2.
  rewrite bit_of_eqb by lia.
  assert (Hrad : radix_of h1 = radix_of ch1).
  { rewrite <- E1, <- E2. apply Heq. lia. }
  rewrite Hrad. rewrite N.eqb_refl. cbn [negb].
  rewrite (bind_Ret _ _ _ _ _ (new_link_array_step _ _)). simpl w_nxt.
  set (a0 := w_nxt w).
  assert (Hba : base item ≠ Some a0) by (rewrite Hb; unfold a0; intros [= ->]; lia).
  erewrite bind_Ret.
  2:{ eapply upd_link_step. simpl. rewrite link_at_insert_ne by done. by eapply link_at_put. }
  eapply IH.
  - intros i Hi. rewrite ?S1, ?S2. apply Heq. lia.
  - lia.
  - cbn [w_mem w_nxt w_usr].
    assert (Hok' : w_ok (set_mem w (put_link (w_mem w) item
        (lk_with_pmap (N.lor (bit_of (radix_of ch1)) (bit_of (radix_of ch1))) x)))).
    { apply (qu_ok (λ l, base item = Some l) w); [|done]. by apply quiet_put. }
    intros l y Hy. simpl in *. 
    destruct (decide (l = a0)) as [->|Hl]; [lia|].
    destruct (decide (base item = Some l)) as [E|E].
    + rewrite Hb in E. injection E as <-. unfold a0. lia.
    + rewrite put_lookup_ne in Hy by done. rewrite lookup_insert_ne in Hy by done.
      rewrite put_lookup_ne in Hy by done. apply Hwok in Hy. unfold a0. lia.
  - simpl. rewrite put_lookup_ne by done. by rewrite lookup_insert.
  - done.
Qed.

(** ** Facts about chains and pairs *)
Lemma bare_sumdep c : ∀ d t, Forall bare c -> is_leaf t = false ->
  sumdep d (plug c t) = sumdep (d + length c) t.
Proof.
  induction c as [|f c IH]; intros d t Hb Ht; cbn [plug length]; [by rewrite Nat.add_0_r|].
  apply Forall_cons in Hb as [[H1 H2] Hb]. rewrite IH by done.
  unfold fill. rewrite H1, H2. simpl. rewrite Ht. rewrite Nat.add_0_r. f_equal. lia.
Qed.
Lemma bare_leaves c : ∀ t, Forall bare c -> leaves (plug c t) = leaves t.
Proof.
  induction c as [|f c IH]; intros t Hb; cbn [plug]; [done|].
  apply Forall_cons in Hb as [[H1 H2] Hb]. rewrite IH by done.
  unfold fill. rewrite H1, H2. simpl. by rewrite app_nil_r.
Qed.
Lemma bare_canon c : ∀ t, Forall bare c -> is_leaf t = false -> canon t -> canon (plug c t).
Proof.
  induction c as [|f c IH]; intros t Hb Ht Hc; cbn [plug]; [done|].
  apply Forall_cons in Hb as [[H1 H2] Hb]. apply IH; [done|done|].
  unfold fill. rewrite H1, H2. apply canon_node. split; [by destruct t|]. by repeat constructor.
Qed.
Lemma bare_hgt c : ∀ t, Forall bare c -> hgt (plug c t) = length c + hgt t.
Proof.
  induction c as [|f c IH]; intros t Hb; cbn [plug length]; [done|].
  apply Forall_cons in Hb as [[H1 H2] Hb]. rewrite IH by done.
  unfold fill. rewrite H1, H2. simpl. lia.
Qed.
Lemma plug_node (c : list frame) t : is_leaf t = false -> is_leaf (plug c t) = false.
Proof.
  revert t. induction c as [|f c IH]; intros t Ht; cbn [plug]; [done|]. by apply IH.
Qed.

Definition pair_cs (n1 : N) (t1 : tree) (n2 : N) (t2 : tree) : list (N * tree) :=
  if (n1 <? n2)%N then [(n1, t1); (n2, t2)] else [(n2, t2); (n1, t1)].

Lemma pair_bits_cs n1 n2 t1 t2 : (n1 < 16)%N -> (n2 < 16)%N ->
  pair_bits n1 n2 = bits_of (map fst (pair_cs n1 t1 n2 t2)).
Proof.
  intros H1 H2. unfold pair_bits. rewrite lor_bits_pair by lia. unfold pair_cs.
  destruct (n1 <? n2)%N; [done|]. apply bits_of_ext. simpl. set_solver +.
Qed.
Lemma pair_radixes n1 n2 t1 t2 : n1 ≠ n2 -> (n1 < 16)%N -> (n2 < 16)%N ->
  radixes (map fst (pair_cs n1 t1 n2 t2)).
Proof.
  intros Hne H1 H2. unfold pair_cs. destruct (N.ltb_spec n1 n2); simpl; split;
    repeat constructor; lia.
Qed.

(** ** The end of the split, after the new struct has been made *)
Lemma split_fin_step n1 n2 d item p w a x rt :
  link_at (w_mem w) item = Some x -> lk_ptr x = At a ->
  w_mem w !! a = Some (BLinks (replicate 4 zero_link)) -> a ≠ r ->
  w_mem w !! r = Some (BRoot rt) ->
  (n1 < 16)%N -> (n2 < 16)%N ->
  ∃ l1 l2, split_fin n1 n2 d item p w =
    Ret tt (set_mem w (mroot (<[a := BLinks [l1; l2; zero_link; zero_link]]> (w_mem w)) r
                         (grow (N.of_nat d * 2)))) /\
    ((l1, l2) = if (n1 <? n2)%N then (ly_leaf L k p, ly_leaf L ck cp)
                else (ly_leaf L ck cp, ly_leaf L k p)).
Proof.
  intros Hx Hxa Ha Har Hr H1 H2. unfold split_fin.
  rewrite (bind_Ret _ _ _ _ _ (load_link_step _ _ _ Hx)). rewrite Hxa. cbn [elem].
  rewrite bit_of_ltb by lia.
  assert (Hpair : ∀ f1 f2, bind (upd_link (SlotRef a 0) f1) (λ _, upd_link (SlotRef a 1) f2) w =
    Ret tt (set_mem w (<[a := BLinks [f1 zero_link; f2 zero_link; zero_link; zero_link]]> (w_mem w)))).
  { intros f1 f2. erewrite bind_Ret.
    2:{ eapply upd_link_step. simpl. rewrite Ha. reflexivity. }
    erewrite upd_link_step.
    2:{ simpl. rewrite Ha. rewrite lookup_insert. reflexivity. }
    simpl. rewrite Ha. simpl. rewrite lookup_insert. rewrite insert_insert. done. }
  assert (Hcount : ∀ l1 l2, count_in r (N.of_nat d * 2)
      (set_mem w (<[a := BLinks [l1; l2; zero_link; zero_link]]> (w_mem w))) =
    Ret tt (set_mem w (mroot (<[a := BLinks [l1; l2; zero_link; zero_link]]> (w_mem w)) r
                         (grow (N.of_nat d * 2))))).
  { intros l1 l2. erewrite count_in_step; [done|]. simpl. rewrite lookup_insert_ne by done. exact Hr. }
  destruct (n1 <? n2)%N.
  - rewrite (bind_Ret _ _ _ _ _ (Hpair _ _)). rewrite Hcount.
    eexists _, _. split; [done|]. by rewrite !(fo_pair _ _ HF).
  - rewrite (bind_Ret _ _ _ _ _ (Hpair _ _)). rewrite Hcount.
    eexists _, _. split; [done|]. by rewrite !(fo_pair _ _ HF).
Qed.

(** ** The whole conflict case *)
Section present.
Variables (B : nat) (c : list frame) (a : loc) (bef aft : list (N * tree)) (n : N).
Local Notation T := (plug c (Node a (bef ++ (n, Leaf ck cp) :: aft))).
Hypothesis Hok : ly_ok L k.

Lemma lrads_clear (cs1 cs2 : list (N * tree)) t t' : radixes (map fst (cs1 ++ (n, t) :: cs2)) -> is_leaf t' = false ->
  andnot (bits_of (lrads (cs1 ++ (n, t) :: cs2))) (bit_of n) = bits_of (lrads (cs1 ++ (n, t') :: cs2)).
Proof.
  intros Hrs Ht. rewrite map_app in Hrs. cbn [map fst] in Hrs.
  pose proof (radixes_notin _ _ _ Hrs) as Hni.
  apply radixes_app_cons in Hrs as (_ & _ & Hn & _).
  apply andnot_bit_of; [lia|]. intros i. rewrite !lrads_app, !lrads_cons. simpl. rewrite Ht.
  rewrite !elem_of_app. split.
  - intros [Hi|[Hi|Hi]]; [|set_solver +Hi|].
    + split; [|tauto]. intros ->. apply Hni. apply lrads_sub in Hi. set_solver +Hi.
    + split; [|tauto]. intros ->. apply Hni. apply lrads_sub in Hi. set_solver +Hi.
  - intros [Hi1 [Hi|[Hi|Hi]]]; [tauto| |tauto]. destruct (is_leaf t); set_solver +Hi Hi1.
Qed.

Lemma add_present_gen fuel h ch j w :
  MapI L B w r seed T -> w_ok w -> radix_of h = n ->
  f_eq F k ck = false ->
  f_conf F fuel seed k ck (N.of_nat (length c)) = Some ch ->
  io_check op && negb (radix_of ch =? radix_of h)%N = false ->
  (∀ i, 1 <= i < j -> radix_of (adv seed k (length c) h i) = radix_of (adv seed ck (length c) ch i)) ->
  radix_of (adv seed k (length c) h j) ≠ radix_of (adv seed ck (length c) ch j) ->
  1 <= j <= fuel -> length c + j <= 255 -> length c + j + 1 <= B ->
  (1 < j -> lk_tmap (ly_leaf L ck cp) = 0%N) ->
  ∃ w1, quiet (λ l, l ∈ foot r T) w w1 /\
    let add := add_present F op fuel r seed k h (N.of_nat (length c)) (hole r c) (SlotRef a (length bef)) in
    (∀ w2, io_split op w1 = Panic w2 -> add w = Panic w2) /\
    ∀ p w2, made L (region r T w w1) w1 w2 k p ->
      ∃ w' a2 chain, (io_split op w1 = Ret p w2 -> add w = Ret tt w') /\
        (∃ rt2 rt', w_mem w2 !! r = Some (BRoot rt2) /\ w_mem w' !! r = Some (BRoot rt') /\
          rt_link rt' = rt_link rt2 /\ rt_seed rt' = rt_seed rt2) /\
        (∀ l, l ≠ r -> l ≠ a2 -> w_mem w' !! l = w_mem w2 !! l) /\
        w_mem w2 !! a2 = Some (BLinks (replicate 4 zero_link)) /\
        quiet (region r T w w1) w2 w' /\
        let n1 := radix_of (adv seed k (length c) h j) in
        let n2 := radix_of (adv seed ck (length c) ch j) in
        MapI L B w' r seed (plug (chain ++ Frame a bef n aft :: c)
                               (Node a2 (pair_cs n1 (Leaf k p) n2 (Leaf ck cp)))) /\
        length chain = j - 1 /\
        rads chain = map (λ i, radix_of (adv seed k (length c) h i)) (seq 1 (j - 1)) /\
        Forall bare chain /\
        (∀ l, l ∈ a2 :: clocs chain -> (w_nxt w <= l < w_nxt w1)%positive).
Proof.
  intros HM Hwok Hrad Hneq Hconf Hcheck Heqs Hdiff Hj Hd HB Hflat.
  assert (Hne : match c with [] => True | f :: _ => fr_a f ≠ r end).
  { destruct HM as [_ Hnd _ _]. destruct c as [|f c']; [done|]. intros E.
    apply NoDup_cons in Hnd as [Hnd _]. apply Hnd. rewrite locs_plug. simpl. set_solver +E. }
  pose proof (mi_root _ _ _ _ _ _ HM) as (rt & Hrt & Hseed & Hrep & Hlen & Hdep & Hpath).
  destruct (rep_hole L _ _ _ _ _ Hrt Hrep) as (lk & Hlk & Hnode).
  destruct (rep_node_link L _ _ _ _ _ _ _ _ Hnode) as [Elk Hrs].
  destruct (rep_node_split L _ _ _ _ _ _ _ _ Hnode)
    as (lb & lx & la & rest & Ha & Hlena & Hlenb & Hlenaf & Hlb & Hlx & Hla).
  apply rep_leaf_inv in Hlx as (-> & Hokc & Hcellc).
  pose proof (mi_nodup _ _ _ _ _ _ HM) as Hnd.
  rewrite locs_plug in Hnd.
  assert (Elocs : locs (Node a (bef ++ (n, Leaf ck cp) :: aft)) = a :: cslocs bef ++ ptr_locs cp ++ cslocs aft).
  { cbn [locs]. rewrite flat_map_app. done. }
  rewrite Elocs in Hnd.
  assert (Hfoot : ∀ l, l ∈ foot r T <-> l = r \/ l ∈ clocs c \/ l = a \/ l ∈ cslocs bef \/ l ∈ ptr_locs cp \/ l ∈ cslocs aft).
  { intros l. unfold foot. rewrite elem_of_cons, locs_plug, elem_of_app, Elocs.
    rewrite elem_of_cons, !elem_of_app. done. }
  assert (Hlt : ∀ l, l ∈ foot r T -> (l < w_nxt w)%positive).
  { intros l Hl. destruct (MapI_alloc _ _ _ _ _ _ _ HM Hl) as [b Hb]. by eapply Hwok. }
  assert (Hhole : ∀ b, base (hole r c) = Some b -> b ∈ foot r T /\ b ≠ a /\ (b = r \/ b ∈ clocs c)).
  { intros b E. apply hole_in in E. split; [|split].
    - apply Hfoot. apply elem_of_cons in E. tauto.
    - intros ->. clear -Hnd E.
      change (r :: clocs c ++ a :: ?x) with ((r :: clocs c) ++ a :: x) in Hnd.
      apply NoDup_app in Hnd as (_ & Hnd & _). apply (Hnd a E). set_solver +.
    - by apply elem_of_cons in E. }
  assert (Har : a ≠ r).
  { intros ->. apply NoDup_cons in Hnd as [Hnd _]. set_solver +Hnd. }
  assert (Hdisj : ∀ l, l ∈ cslocs bef ++ ptr_locs cp ++ cslocs aft ->
      l ≠ r /\ l ≠ a /\ l ∉ clocs c /\ base (hole r c) ≠ Some l).
  { intros l Hl. clear -Hnd Hl Hhole.
    change (r :: clocs c ++ a :: ?x) with ((r :: clocs c) ++ a :: x) in Hnd.
    apply NoDup_app in Hnd as (_ & Hnd & Hnd2). apply NoDup_cons in Hnd2 as [Hnd2 _].
    assert (l ∉ r :: clocs c) as Hn. { intros Hx. apply (Hnd l Hx). set_solver +Hl. }
    split_and!.
    - intros ->. set_solver +Hn.
    - by intros ->.
    - set_solver +Hn.
    - intros E. apply Hhole in E as (_ & _ & E). set_solver +E Hn. }
  set (lk0 := Link (At a) (lk_pmap lk) (andnot (lk_tmap lk) (bit_of n))).
  set (g0 := λ rt, rt_with_dep (sub64 (rt_dep rt) (N.of_nat (length c))) rt).
  set (m0 := mroot (put_link (w_mem w) (hole r c) lk0) r g0).
  set (wa := set_mem w m0).
  destruct (final_lookups (w_mem w) r c lk lk0 g0 rt Hrt Hlk Hne) as (F1 & F2 & F3). fold m0 in F1, F2, F3.
  assert (Hqa : quiet (λ l, l ∈ foot r T) w wa).
  { apply (quiet_trans (λ l, l ∈ foot r T) (λ l, l ∈ foot r T) _ (set_mem w (put_link (w_mem w) (hole r c) lk0))); [| |done].
    - apply quiet_put. intros b E. by apply Hhole.
    - apply (quiet_mroot (λ l, l ∈ foot r T) (set_mem w (put_link (w_mem w) (hole r c) lk0))).
      apply Hfoot. auto. }
  assert (Hma : m0 !! a = Some (BLinks (lb ++ ly_leaf L ck cp :: la ++ rest))).
  { rewrite F2; [done|done|]. intros E. by apply Hhole in E as (_ & ? & _). }
  destruct (split_run j fuel (length c) h ch wa (SlotRef a (length bef)) (ly_leaf L ck cp) a)
    as (w1 & a2 & chain & item' & x1 & Hrun & Hq1 & Hblk & Hclen & Hrads & Hbare & Hndc & Hrange & Ha2 & Hlk' & Hbase & _ & _ & _ & Hrepc);
    try done.
  { by apply (qu_ok _ _ _ Hqa). }
  { simpl. rewrite Hma. rewrite <- Hlenb. rewrite lookup_app_r by lia. by rewrite Nat.sub_diag. }
  assert (Hblk' : w_mem w1 !! a = Some (BLinks (lb ++ x1 :: la ++ rest))).
  { rewrite Hblk. simpl. rewrite Hma. rewrite lookup_insert. do 2 f_equal.
    rewrite <- Hlenb. replace (length lb) with (length lb + 0) by lia. by rewrite insert_app_r. }
  assert (Hqw1 : quiet (λ l, l ∈ foot r T) w w1).
  { apply (quiet_trans _ (λ l, l = a) _ wa); [done|done|]. intros l _ ->. apply Hfoot. auto. }
  assert (Hrun' : add_present F op fuel r seed k h (N.of_nat (length c)) (hole r c) (SlotRef a (length bef)) w
     = bind (io_split op) (split_fin (radix_of (adv seed k (length c) h j)) (radix_of (adv seed ck (length c) ch j))
          (length c + j) item') w1).
  { unfold add_present.
    erewrite bind_Ret.
    2:{ apply load_link_step. simpl. rewrite Ha. rewrite <- Hlenb. rewrite lookup_app_r by lia.
        rewrite Nat.sub_diag. reflexivity. }
    rewrite (bind_Ret _ _ _ _ _ (fo_key _ _ HF _ _ _ Hokc Hcellc)).
    rewrite Hneq, Hconf, Hcheck.
    rewrite (bind_Ret _ _ _ _ _ (upd_link_step _ _ _ _ Hlk)).
    erewrite bind_Ret.
    2:{ eapply upd_root_step. simpl.
        instantiate (1 := match c with [] => rt_with_link lk0 rt | _ => rt end).
        destruct c as [|f c']; simpl hole.
        - subst lk0. rewrite Hrad. simpl. erewrite mroot_lookup by exact Hrt. unfold lk_with_tmap. by rewrite Elk.
        - rewrite put_lookup_ne by (simpl; congruence). done. }
    rewrite (fo_ptr _ _ HF). rewrite set_mem_set_mem. simpl w_mem.
    rewrite <- Hrun. f_equal. unfold wa, m0, lk0. rewrite Hrad. unfold lk_with_tmap. by rewrite Elk. }
  exists w1. split; [done|]. cbv zeta. split.
  { intros w2 Hp. rewrite Hrun'. by apply bind_Panic. }
  intros p w2 (Hok2 & Hnxt & Hk & Hcell & Hfr).
  set (n1 := radix_of (adv seed k (length c) h j)) in *.
  set (n2 := radix_of (adv seed ck (length c) ch j)) in *.
  assert (Hn1 : (n1 < 16)%N) by apply radix_of_lt.
  assert (Hn2 : (n2 < 16)%N) by apply radix_of_lt.
  assert (Hwa_n : w_nxt wa = w_nxt w) by done.
  rewrite Hwa_n in Hrange.
  assert (Hnewr : ∀ l, l ∈ a2 :: clocs chain -> region r T w w1 l /\ l ∉ foot r T).
  { intros l Hl. specialize (Hrange l Hl). split; [by right|]. intros Hx%Hlt. lia. }
  assert (Hw1w : ∀ l, l ∈ foot r T -> l ≠ a -> w_mem w1 !! l = m0 !! l).
  { intros l Hl Hla'. apply (qu_frame _ _ _ Hq1); [rewrite Hwa_n; by apply Hlt|done]. }
  (* state after the callback *)
  assert (G1 : w_mem w2 !! r = m0 !! r).
  { rewrite <- Hw1w; [|apply Hfoot; auto|done]. apply keep_eq; [apply Hk; left; apply Hfoot; auto| |];
      (rewrite Hw1w; [|apply Hfoot; auto|done]); by rewrite F1. }
  assert (G2 : ∀ b, base (hole r c) = Some b -> b ≠ r -> w_mem w2 !! b = put_link (w_mem w) (hole r c) lk0 !! b).
  { intros b E Hbr. destruct (Hhole _ E) as (Hb1 & Hb2 & _).
    assert (Hx1 : w_mem w1 !! b = put_link (w_mem w) (hole r c) lk0 !! b).
    { rewrite Hw1w by done. by apply F3. }
    destruct (link_at_block _ _ _ _ (link_at_put _ _ lk0 _ Hlk) E) as [Hs1 Hs2].
    rewrite <- Hx1 in Hs1, Hs2 |- *. apply keep_eq; [apply Hk; by left|done|done]. }
  assert (G3 : w_mem w2 !! a = Some (BLinks (lb ++ x1 :: la ++ rest))).
  { eapply keep_links; [apply Hk; left; apply Hfoot; auto|done]. }
  assert (G4 : w_mem w2 !! a2 = Some (BLinks (replicate 4 zero_link))).
  { eapply keep_links; [apply Hk|done]. apply Hnewr. set_solver +. }
  assert (G5 : link_at (w_mem w2) item' = Some (Link (At a2) (pair_bits n1 n2) (pair_bits n1 n2))).
  { rewrite <- Hlk'. apply link_at_ext. intros b' E.
    destruct (link_at_block _ _ _ _ Hlk' E) as [Hs1 Hs2]. apply keep_eq; [|done|done].
    apply Hk. apply Hbase in E. apply elem_of_cons in E as [->|E].
    - left. apply Hfoot. auto.
    - apply Hnewr. set_solver +E. }
  assert (Ha2r : a2 ≠ r).
  { intros ->. destruct (Hnewr r) as [_ Hx]; [set_solver +|]. apply Hx, Hfoot. auto. }
  destruct (split_fin_step n1 n2 (length c + j) item' p w2 a2 _ _ G5 eq_refl G4 Ha2r (eq_trans G1 F1) Hn1 Hn2)
    as (l1 & l2 & Hfin & Hl12).
  set (m' := mroot (<[a2:=BLinks [l1; l2; zero_link; zero_link]]> (w_mem w2)) r (grow (N.of_nat (length c + j) * 2))).
  assert (M1 : ∀ l, l ≠ r -> l ≠ a2 -> m' !! l = w_mem w2 !! l).
  { intros l ? ?. unfold m'. rewrite mroot_lookup_ne by done. by rewrite lookup_insert_ne. }
  assert (M2 : m' !! a2 = Some (BLinks [l1; l2; zero_link; zero_link])).
  { unfold m'. rewrite mroot_lookup_ne by done. apply lookup_insert. }
  set (rt0 := g0 (match c with [] => rt_with_link lk0 rt | _ => rt end)) in *.
  assert (M3 : m' !! r = Some (BRoot (grow (N.of_nat (length c + j) * 2) rt0))).
  { unfold m'. apply mroot_lookup. rewrite lookup_insert_ne by done. by rewrite G1. }
  assert (Hpfresh : ∀ l, l ∈ ptr_locs p -> (w_nxt w1 <= l)%positive) by done.
  assert (Hfootm : ∀ l, l ∈ clocs c ++ cslocs bef ++ ptr_locs cp ++ cslocs aft ->
       base (hole r c) ≠ Some l -> keep (w_mem w) m' l).
  { intros l Hl Hbl.
    assert (Hlf : l ∈ foot r T) by (apply Hfoot; rewrite !elem_of_app in Hl; tauto).
    assert (Hla0 : l ≠ a /\ l ≠ r).
    { apply elem_of_app in Hl as [Hl|Hl].
      - clear -Hnd Hl. split; intros ->.
        + apply NoDup_cons in Hnd as [_ Hnd]. apply NoDup_app in Hnd as (_ & Hnd & _).
          apply (Hnd _ Hl). set_solver +.
        + apply NoDup_cons in Hnd as [Hnd _]. set_solver +Hnd Hl.
      - apply Hdisj in Hl. tauto. }
    destruct Hla0 as [Hla0 Hlr].
    eapply keep_trans; [|eapply keep_trans; [apply Hk; by left|]].
    - apply keep_same. rewrite Hw1w by done. by apply F2.
    - apply keep_same. apply M1; [done|]. intros ->.
      destruct (Hnewr a2) as [_ Hx]; [set_solver +|]. done. }
  set (t2 := Node a2 (pair_cs n1 (Leaf k p) n2 (Leaf ck cp))).
  assert (Hcs2 : Forall (λ l, l ∉ foot r T /\ l ≠ r) (a2 :: clocs chain)).
  { apply Forall_forall. intros l Hl. destruct (Hnewr l Hl) as [_ Hx]. split; [done|].
    intros ->. apply Hx, Hfoot. auto. }
  assert (Hpne : ∀ l, l ∈ ptr_locs p -> l ≠ r /\ l ∉ a2 :: clocs chain /\ l ∉ foot r T).
  { intros l Hl. specialize (Hpfresh l Hl). pose proof (qu_nxt _ _ _ Hqw1) as Hqn. split_and!.
    - intros ->. assert (r < w_nxt w)%positive by (apply Hlt, Hfoot; auto). lia.
    - intros Hx. apply Hrange in Hx. lia.
    - intros Hx%Hlt. lia. }
  assert (R2 : rep L m' (length c + j) (Link (At a2) (pair_bits n1 n2) (pair_bits n1 n2)) t2).
  { assert (Hcellp : rep L m' (S (length c + j)) (ly_leaf L k p) (Leaf k p)).
    { constructor; [done|]. eapply cell_keep; [exact Hcell|]. intros l Hl. apply keep_same.
      destruct (Hpne l Hl) as (X1 & X2 & X3). apply M1; [done|]. intros ->. set_solver +X2. }
    assert (Hcellc' : rep L m' (S (length c + j)) (ly_leaf L ck cp) (Leaf ck cp)).
    { constructor; [done|]. eapply cell_keep; [exact Hcellc|]. intros l Hl.
      assert (Hl' : l ∈ cslocs bef ++ ptr_locs cp ++ cslocs aft) by (set_solver +Hl).
      apply Hfootm; [set_solver +Hl'|]. by apply Hdisj. }
    assert (pair_bits n1 n2 = bits_of (lrads (pair_cs n1 (Leaf k p) n2 (Leaf ck cp)))) as E2.
    { rewrite (pair_bits_cs _ _ (Leaf k p) (Leaf ck cp)) by done. unfold pair_cs. by destruct (n1 <? n2)%N. }
    assert (Link (At a2) (pair_bits n1 n2) (pair_bits n1 n2) =
            Link (At a2) (bits_of (map fst (pair_cs n1 (Leaf k p) n2 (Leaf ck cp))))
                 (bits_of (lrads (pair_cs n1 (Leaf k p) n2 (Leaf ck cp))))) as ->.
    { f_equal; [|done]. by apply pair_bits_cs. }
    apply (rep_node L m' _ a2 _ [l1; l2] [zero_link; zero_link]).
    - exact M2.
    - destruct (length c + j) eqn:E; [lia|]. unfold pair_cs. by destruct (n1 <? n2)%N.
    - by apply pair_radixes.
    - unfold pair_cs. destruct (n1 <? n2)%N; injection Hl12 as -> ->; (constructor; [done|constructor; [done|constructor]]). }
  assert (R1 : rep L m' (S (length c)) x1 (plug chain t2)).
  { apply Hrepc; [done|done|done|]. intros l Hl.
    assert (Hl' : l ∈ a2 :: clocs chain) by (set_solver +Hl).
    destruct (Hnewr l Hl') as [X1 X2].
    eapply keep_trans; [by apply Hk|]. apply keep_same. apply M1.
    - intros ->. apply X2, Hfoot. auto.
    - intros ->. apply NoDup_cons in Hndc as [Hndc _]. done. }
  exists (set_mem w2 m'), a2, chain. split.
  { intros Hio. rewrite Hrun', (bind_Ret _ _ _ _ _ Hio). exact Hfin. }
  split.
  { exists rt0, (grow (N.of_nat (length c + j) * 2) rt0). split_and!; [by rewrite G1|exact M3|done|done]. }
  split; [exact M1|]. split; [exact G4|]. split.
  { pose proof (quiet_links (region r T w w1) w2 a2 _ [l1; l2; zero_link; zero_link]
      (proj1 (Hnewr a2 ltac:(set_solver +))) G4) as Q1.
    eapply (quiet_trans _ (region r T w w1)); [exact Q1| |done].
    refine (quiet_mroot (region r T w w1) (set_mem w2 (<[a2:=BLinks [l1; l2; zero_link; zero_link]]> (w_mem w2)))
      r (grow (N.of_nat (length c + j) * 2)) _).
    left. apply Hfoot. auto. }
  split; [|done].
  rewrite plug_app. cbn [plug]. unfold fill. cbn [fr_a fr_bef fr_r fr_aft].
  change (Node a2 (pair_cs n1 (Leaf k p) n2 (Leaf ck cp))) with t2.
  assert (Hleaf2 : is_leaf (plug chain t2) = false) by (by apply plug_node).
  eapply (MapI_replace L B w (set_mem w2 m') r seed c (Node a (bef ++ (n, Leaf ck cp) :: aft)) _ lk0);
    [done|done|exact Hrt|exact M3| | | | | | | | | |].
  - eapply linked_intro; [done|exact Hrt|exact M3|exact Hlk| |].
    + unfold rt0. destruct c; done.
    + intros b E Hbr. simpl. rewrite M1; [by apply G2|done|].
      intros ->. destruct (Hnewr a2) as [_ Hx]; [set_solver +|]. apply Hx. by apply Hhole.
  - intros l Hl E. simpl. apply Hfootm; [set_solver +Hl|done].
  - simpl. eapply rep_node_build.
    + rewrite M1; [exact G3|done|]. intros E. destruct (Hnewr a2) as [_ Hx]; [set_solver +|]. apply Hx, Hfoot. auto.
    + rewrite !app_length in *. simpl in *. done.
    + done.
    + eapply reps_keep; [exact Hlb|]. intros l Hl.
      assert (Hl' : l ∈ cslocs bef ++ ptr_locs cp ++ cslocs aft) by (set_solver +Hl).
      apply Hfootm; [set_solver +Hl'|]. by apply Hdisj.
    + exact R1.
    + eapply reps_keep; [exact Hla|]. intros l Hl.
      assert (Hl' : l ∈ cslocs bef ++ ptr_locs cp ++ cslocs aft) by (set_solver +Hl).
      apply Hfootm; [set_solver +Hl'|]. by apply Hdisj.
    + unfold lk0. rewrite Elk. simpl. f_equal. apply lrads_clear; [|done]. by rewrite map_app.
  - unfold rt0. by destruct c.
  - unfold rt0. by destruct c.
  - assert (rt_len (grow (N.of_nat (length c + j) * 2) rt0) = add64 (rt_len rt) 1) as ->
      by (unfold rt0; by destruct c).
    rewrite Hlen, add64_u64. f_equal.
    rewrite !leaves_plug. cbn [leaves]. rewrite !flat_map_app. cbn [flat_map snd].
    rewrite (bare_leaves chain) by done. simpl leaves.
    rewrite !app_length. unfold pair_cs. destruct (n1 <? n2)%N; simpl; lia.
  - assert (rt_dep (grow (N.of_nat (length c + j) * 2) rt0) =
      add64 (sub64 (rt_dep rt) (N.of_nat (length c))) (N.of_nat (length c + j) * 2)) as ->
      by (unfold rt0; by destruct c).
    rewrite Hdep. rewrite sumdep_plug by done. rewrite sumdep_node, csdep_app, csdep_cons. cbn [snd is_leaf].
    rewrite (sub64_u64 _ _ (N.of_nat (cdep c + csdep (length c) bef + csdep (length c) aft))) by lia.
    rewrite add64_u64. f_equal.
    rewrite sumdep_plug by done. rewrite sumdep_node, csdep_app, csdep_cons. cbn [snd]. rewrite Hleaf2.
    rewrite bare_sumdep by done. rewrite Hclen. unfold t2. rewrite sumdep_node.
    assert (csdep (S (length c) + (j - 1)) (pair_cs n1 (Leaf k p) n2 (Leaf ck cp)) = 2 * (length c + j)) as ->.
    { unfold pair_cs. destruct (n1 <? n2)%N; unfold csdep; simpl; lia. }
    lia.
  - (* NoDup *)
    cbn [locs]. rewrite flat_map_app. cbn [flat_map snd].
    rewrite (locs_plug chain t2).
    assert (locs t2 ≡ₚ a2 :: ptr_locs p ++ ptr_locs cp) as ->.
    { unfold t2, pair_cs. destruct (n1 <? n2)%N; simpl; rewrite app_nil_r; [done|].
      apply Permutation_cons; [done|]. apply Permutation_app_comm. }
    change (flat_map (λ c0 : N * tree, locs c0.2) bef) with (cslocs bef).
    change (flat_map (λ c0 : N * tree, locs c0.2) aft) with (cslocs aft).
    assert (Hperm : r :: clocs c ++ a :: cslocs bef ++ (clocs chain ++ a2 :: ptr_locs p ++ ptr_locs cp) ++ cslocs aft
       ≡ₚ (r :: clocs c ++ a :: cslocs bef ++ ptr_locs cp ++ cslocs aft) ++ ((a2 :: clocs chain) ++ ptr_locs p)).
    { solve_Permutation. }
    rewrite Hperm. apply NoDup_app. split_and!; [done| |].
    + intros l Hl Hl2.
      assert (Hlf : l ∈ foot r T) by (apply Hfoot; rewrite !elem_of_cons, !elem_of_app, !elem_of_cons, !elem_of_app in Hl; tauto).
      apply elem_of_app in Hl2 as [Hl2|Hl2].
      * by destruct (Hnewr l Hl2).
      * by destruct (Hpne l Hl2) as (_ & _ & ?).
    + apply NoDup_app. split_and!; [done| |].
      * intros l Hl Hl2. by destruct (Hpne l Hl2) as (_ & ? & _).
      * destruct p; simpl; [apply NoDup_nil_2|apply NoDup_singleton].
  - pose proof (mi_canon _ _ _ _ _ _ HM) as Hc. rewrite !canon_root_plug in *.
    unfold canon_cs in *. rewrite !Forall_app, !Forall_cons in *. cbn [snd] in *.
    destruct Hc as (X1 & (X2 & X3 & X4) & X5). split_and!; try done.
    + apply bare_canon; [done|done|]. apply canon_node. split.
      * apply ok_level_ge2. unfold pair_cs. by destruct (n1 <? n2)%N.
      * unfold pair_cs, canon_cs. by destruct (n1 <? n2)%N; repeat constructor.
    + intros _. destruct (plug chain t2) eqn:E; [done|]. apply ok_level_app_node.
  - eapply hgt_plug_mono; [apply (mi_hgt _ _ _ _ _ _ HM)|].
    pose proof (hgt_plug c (Node a (bef ++ (n, Leaf ck cp) :: aft))) as Hh.
    pose proof (mi_hgt _ _ _ _ _ _ HM) as HhB.
    assert (Hx : hgt (Node a (bef ++ (n, plug chain t2) :: aft)) <= B - length c); [|lia].
    destruct (B - length c) as [|B'] eqn:EB; [lia|].
    assert (Hx : hgt (Node a (bef ++ (n, Leaf ck cp) :: aft)) <= S B') by lia.
    apply hgt_node_le in Hx. apply hgt_node_le. rewrite Forall_app, Forall_cons in *. cbn [snd] in *.
    destruct Hx as (X1 & _ & X2). split_and!; try done.
    rewrite bare_hgt by done. rewrite Hclen. unfold t2, pair_cs. destruct (n1 <? n2)%N; simpl; lia.
Qed.

Lemma add_present_split fuel h ch j w :
  MapI L B w r seed T -> w_ok w -> radix_of h = n ->
  f_eq F k ck = false ->
  f_conf F fuel seed k ck (N.of_nat (length c)) = Some ch ->
  io_check op && negb (radix_of ch =? radix_of h)%N = false ->
  (∀ i, 1 <= i < j -> radix_of (adv seed k (length c) h i) = radix_of (adv seed ck (length c) ch i)) ->
  radix_of (adv seed k (length c) h j) ≠ radix_of (adv seed ck (length c) ch j) ->
  1 <= j <= fuel -> length c + j <= 255 -> length c + j + 1 <= B ->
  (1 < j -> lk_tmap (ly_leaf L ck cp) = 0%N) ->
  ∃ w1, quiet (λ l, l ∈ foot r T) w w1 /\
    let add := add_present F op fuel r seed k h (N.of_nat (length c)) (hole r c) (SlotRef a (length bef)) in
    (∀ w2, io_split op w1 = Panic w2 -> add w = Panic w2) /\
    ∀ p w2, io_split op w1 = Ret p w2 -> made L (region r T w w1) w1 w2 k p ->
      ∃ w' a2 chain, add w = Ret tt w' /\
        quiet (region r T w w1) w2 w' /\
        let n1 := radix_of (adv seed k (length c) h j) in
        let n2 := radix_of (adv seed ck (length c) ch j) in
        MapI L B w' r seed (plug (chain ++ Frame a bef n aft :: c)
                               (Node a2 (pair_cs n1 (Leaf k p) n2 (Leaf ck cp)))) /\
        length chain = j - 1 /\
        rads chain = map (λ i, radix_of (adv seed k (length c) h i)) (seq 1 (j - 1)) /\
        Forall bare chain /\
        (∀ l, l ∈ a2 :: clocs chain -> (w_nxt w <= l < w_nxt w1)%positive).
Proof.
  intros H1 H2 H3 H4 H5 H6 H7 H8 H9 H10 H11 H12.
  destruct (add_present_gen fuel h ch j w H1 H2 H3 H4 H5 H6 H7 H8 H9 H10 H11 H12) as (w1 & Hq & Hp & Hr).
  exists w1. split; [exact Hq|]. split; [exact Hp|]. intros p w2 Hio Hm.
  destruct (Hr p w2 Hm) as (w' & a2 & chain & Hret & _ & _ & _ & Hrest). exists w', a2, chain. split; [by apply Hret|exact Hrest].
Qed.

(** If the link of the conflicting entry has a tmap, the first new level keeps it. The
    level below is taken for an entry if the digit is among its bits. *)
Lemma add_present_stale fuel h ch j w :
  MapI L B w r seed T -> w_ok w -> radix_of h = n ->
  f_eq F k ck = false ->
  f_conf F fuel seed k ck (N.of_nat (length c)) = Some ch ->
  io_check op && negb (radix_of ch =? radix_of h)%N = false ->
  (∀ i, 1 <= i < j -> radix_of (adv seed k (length c) h i) = radix_of (adv seed ck (length c) ch i)) ->
  radix_of (adv seed k (length c) h j) ≠ radix_of (adv seed ck (length c) ch j) ->
  1 < j <= fuel -> length c + j <= 255 ->
  ∃ w1 rt lk, quiet (λ l, l ∈ foot r T) w w1 /\ w_mem w !! r = Some (BRoot rt) /\ link_at (w_mem w) (hole r c) = Some lk /\
    let add := add_present F op fuel r seed k h (N.of_nat (length c)) (hole r c) (SlotRef a (length bef)) in
    ∀ p w2, io_split op w1 = Ret p w2 -> made L (region r T w w1) w1 w2 k p ->
      ∃ w' a0 x1 x2 a1 ls, add w = Ret tt w' /\
        (∃ rt', w_mem w' !! r = Some (BRoot rt') /\ rt_seed rt' = rt_seed rt /\ (c ≠ [] -> rt_link rt' = rt_link rt)) /\
        (∀ l, l ∈ clocs c -> base (hole r c) ≠ Some l -> keep (w_mem w) (w_mem w') l) /\
        link_at (w_mem w') (hole r c) = Some (Link (At a) (lk_pmap lk) (andnot (lk_tmap lk) (bit_of n))) /\
        link_at (w_mem w') (SlotRef a (length bef)) = Some x1 /\
        x1 = Link (At a0) (bit_of (radix_of (adv seed k (length c) h 1))) (lk_tmap (ly_leaf L ck cp)) /\
        link_at (w_mem w') (SlotRef a0 0) = Some x2 /\ lk_ptr x2 = At a1 /\ (lk_tmap x2 < 65536)%N /\ w_mem w' !! a1 = Some (BLinks ls).
Proof.
  intros HM Hwok Hrad Hneq Hconf Hcheck Heqs Hdiff Hj Hd.
  assert (Hne : match c with [] => True | f :: _ => fr_a f ≠ r end).
  { destruct HM as [_ Hnd _ _]. destruct c as [|f c']; [done|]. intros E.
    apply NoDup_cons in Hnd as [Hnd _]. apply Hnd. rewrite locs_plug. simpl. set_solver +E. }
  pose proof (mi_root _ _ _ _ _ _ HM) as (rt & Hrt & Hseed & Hrep & Hlen & Hdep & Hpath).
  destruct (rep_hole L _ _ _ _ _ Hrt Hrep) as (lk & Hlk & Hnode).
  destruct (rep_node_link L _ _ _ _ _ _ _ _ Hnode) as [Elk Hrs].
  destruct (rep_node_split L _ _ _ _ _ _ _ _ Hnode)
    as (lb & lx & la & rest & Ha & Hlena & Hlenb & Hlenaf & Hlb & Hlx & Hla).
  apply rep_leaf_inv in Hlx as (-> & Hokc & Hcellc).
  pose proof (mi_nodup _ _ _ _ _ _ HM) as Hnd.
  rewrite locs_plug in Hnd.
  assert (Elocs : locs (Node a (bef ++ (n, Leaf ck cp) :: aft)) = a :: cslocs bef ++ ptr_locs cp ++ cslocs aft).
  { cbn [locs]. rewrite flat_map_app. done. }
  rewrite Elocs in Hnd.
  assert (Hfoot : ∀ l, l ∈ foot r T <-> l = r \/ l ∈ clocs c \/ l = a \/ l ∈ cslocs bef \/ l ∈ ptr_locs cp \/ l ∈ cslocs aft).
  { intros l. unfold foot. rewrite elem_of_cons, locs_plug, elem_of_app, Elocs.
    rewrite elem_of_cons, !elem_of_app. done. }
  assert (Hlt : ∀ l, l ∈ foot r T -> (l < w_nxt w)%positive).
  { intros l Hl. destruct (MapI_alloc _ _ _ _ _ _ _ HM Hl) as [b Hb]. by eapply Hwok. }
  assert (Hhole : ∀ b, base (hole r c) = Some b -> b ∈ foot r T /\ b ≠ a /\ (b = r \/ b ∈ clocs c)).
  { intros b E. apply hole_in in E. split; [|split].
    - apply Hfoot. apply elem_of_cons in E. tauto.
    - intros ->. clear -Hnd E.
      change (r :: clocs c ++ a :: ?x) with ((r :: clocs c) ++ a :: x) in Hnd.
      apply NoDup_app in Hnd as (_ & Hnd & _). apply (Hnd a E). set_solver +.
    - by apply elem_of_cons in E. }
  assert (Har : a ≠ r).
  { intros ->. apply NoDup_cons in Hnd as [Hnd _]. set_solver +Hnd. }
  assert (Hdisj : ∀ l, l ∈ cslocs bef ++ ptr_locs cp ++ cslocs aft ->
      l ≠ r /\ l ≠ a /\ l ∉ clocs c /\ base (hole r c) ≠ Some l).
  { intros l Hl. clear -Hnd Hl Hhole.
    change (r :: clocs c ++ a :: ?x) with ((r :: clocs c) ++ a :: x) in Hnd.
    apply NoDup_app in Hnd as (_ & Hnd & Hnd2). apply NoDup_cons in Hnd2 as [Hnd2 _].
    assert (l ∉ r :: clocs c) as Hn. { intros Hx. apply (Hnd l Hx). set_solver +Hl. }
    split_and!.
    - intros ->. set_solver +Hn.
    - by intros ->.
    - set_solver +Hn.
    - intros E. apply Hhole in E as (_ & _ & E). set_solver +E Hn. }
  set (lk0 := Link (At a) (lk_pmap lk) (andnot (lk_tmap lk) (bit_of n))).
  set (g0 := λ rt, rt_with_dep (sub64 (rt_dep rt) (N.of_nat (length c))) rt).
  set (m0 := mroot (put_link (w_mem w) (hole r c) lk0) r g0).
  set (wa := set_mem w m0).
  destruct (final_lookups (w_mem w) r c lk lk0 g0 rt Hrt Hlk Hne) as (F1 & F2 & F3). fold m0 in F1, F2, F3.
  assert (Hqa : quiet (λ l, l ∈ foot r T) w wa).
  { apply (quiet_trans (λ l, l ∈ foot r T) (λ l, l ∈ foot r T) _ (set_mem w (put_link (w_mem w) (hole r c) lk0))); [| |done].
    - apply quiet_put. intros b E. by apply Hhole.
    - apply (quiet_mroot (λ l, l ∈ foot r T) (set_mem w (put_link (w_mem w) (hole r c) lk0))).
      apply Hfoot. auto. }
  assert (Hma : m0 !! a = Some (BLinks (lb ++ ly_leaf L ck cp :: la ++ rest))).
  { rewrite F2; [done|done|]. intros E. by apply Hhole in E as (_ & ? & _). }
  destruct (split_run j fuel (length c) h ch wa (SlotRef a (length bef)) (ly_leaf L ck cp) a)
    as (w1 & a2 & chain & item' & x1 & Hrun & Hq1 & Hblk & Hclen & Hrads & Hbare & Hndc & Hrange & Ha2 & Hlk' & Hbase & Hptr & _ & (ls0 & Hls0 & Hst) & _);
    try done; try lia.
  { by apply (qu_ok _ _ _ Hqa). }
  { simpl. rewrite Hma. rewrite <- Hlenb. rewrite lookup_app_r by lia. by rewrite Nat.sub_diag. }
  assert (Hblk' : w_mem w1 !! a = Some (BLinks (lb ++ x1 :: la ++ rest))).
  { rewrite Hblk. simpl. rewrite Hma. rewrite lookup_insert. do 2 f_equal.
    rewrite <- Hlenb. replace (length lb) with (length lb + 0) by lia. by rewrite insert_app_r. }
  assert (Hqw1 : quiet (λ l, l ∈ foot r T) w w1).
  { apply (quiet_trans _ (λ l, l = a) _ wa); [done|done|]. intros l _ ->. apply Hfoot. auto. }
  assert (Hrun' : add_present F op fuel r seed k h (N.of_nat (length c)) (hole r c) (SlotRef a (length bef)) w
     = bind (io_split op) (split_fin (radix_of (adv seed k (length c) h j)) (radix_of (adv seed ck (length c) ch j))
          (length c + j) item') w1).
  { unfold add_present.
    erewrite bind_Ret.
    2:{ apply load_link_step. simpl. rewrite Ha. rewrite <- Hlenb. rewrite lookup_app_r by lia.
        rewrite Nat.sub_diag. reflexivity. }
    rewrite (bind_Ret _ _ _ _ _ (fo_key _ _ HF _ _ _ Hokc Hcellc)).
    rewrite Hneq, Hconf, Hcheck.
    rewrite (bind_Ret _ _ _ _ _ (upd_link_step _ _ _ _ Hlk)).
    erewrite bind_Ret.
    2:{ eapply upd_root_step. simpl.
        instantiate (1 := match c with [] => rt_with_link lk0 rt | _ => rt end).
        destruct c as [|f c']; simpl hole.
        - subst lk0. rewrite Hrad. simpl. erewrite mroot_lookup by exact Hrt. unfold lk_with_tmap. by rewrite Elk.
        - rewrite put_lookup_ne by (simpl; congruence). done. }
    rewrite (fo_ptr _ _ HF). rewrite set_mem_set_mem. simpl w_mem.
    rewrite <- Hrun. f_equal. unfold wa, m0, lk0. rewrite Hrad. unfold lk_with_tmap. by rewrite Elk. }
  exists w1, rt, lk. split; [done|]. split; [done|]. split; [done|]. cbv zeta.
  intros p w2 Hio (Hok2 & Hnxt & Hk & Hcell & Hfr).
  rewrite Hrun', (bind_Ret _ _ _ _ _ Hio).
  set (n1 := radix_of (adv seed k (length c) h j)) in *.
  set (n2 := radix_of (adv seed ck (length c) ch j)) in *.
  assert (Hn1 : (n1 < 16)%N) by apply radix_of_lt.
  assert (Hn2 : (n2 < 16)%N) by apply radix_of_lt.
  assert (Hwa_n : w_nxt wa = w_nxt w) by done.
  rewrite Hwa_n in Hrange.
  assert (Hnewr : ∀ l, l ∈ a2 :: clocs chain -> region r T w w1 l /\ l ∉ foot r T).
  { intros l Hl. specialize (Hrange l Hl). split; [by right|]. intros Hx%Hlt. lia. }
  assert (Hw1w : ∀ l, l ∈ foot r T -> l ≠ a -> w_mem w1 !! l = m0 !! l).
  { intros l Hl Hla'. apply (qu_frame _ _ _ Hq1); [rewrite Hwa_n; by apply Hlt|done]. }
  (* state after the callback *)
  assert (G1 : w_mem w2 !! r = m0 !! r).
  { rewrite <- Hw1w; [|apply Hfoot; auto|done]. apply keep_eq; [apply Hk; left; apply Hfoot; auto| |];
      (rewrite Hw1w; [|apply Hfoot; auto|done]); by rewrite F1. }
  assert (G2 : ∀ b, base (hole r c) = Some b -> b ≠ r -> w_mem w2 !! b = put_link (w_mem w) (hole r c) lk0 !! b).
  { intros b E Hbr. destruct (Hhole _ E) as (Hb1 & Hb2 & _).
    assert (Hx1 : w_mem w1 !! b = put_link (w_mem w) (hole r c) lk0 !! b).
    { rewrite Hw1w by done. by apply F3. }
    destruct (link_at_block _ _ _ _ (link_at_put _ _ lk0 _ Hlk) E) as [Hs1 Hs2].
    rewrite <- Hx1 in Hs1, Hs2 |- *. apply keep_eq; [apply Hk; by left|done|done]. }
  assert (G3 : w_mem w2 !! a = Some (BLinks (lb ++ x1 :: la ++ rest))).
  { eapply keep_links; [apply Hk; left; apply Hfoot; auto|done]. }
  assert (G4 : w_mem w2 !! a2 = Some (BLinks (replicate 4 zero_link))).
  { eapply keep_links; [apply Hk|done]. apply Hnewr. set_solver +. }
  assert (G5 : link_at (w_mem w2) item' = Some (Link (At a2) (pair_bits n1 n2) (pair_bits n1 n2))).
  { rewrite <- Hlk'. apply link_at_ext. intros b' E.
    destruct (link_at_block _ _ _ _ Hlk' E) as [Hs1 Hs2]. apply keep_eq; [|done|done].
    apply Hk. apply Hbase in E. apply elem_of_cons in E as [->|E].
    - left. apply Hfoot. auto.
    - apply Hnewr. set_solver +E. }
  assert (Ha2r : a2 ≠ r).
  { intros ->. destruct (Hnewr r) as [_ Hx]; [set_solver +|]. apply Hx, Hfoot. auto. }
  destruct (split_fin_step n1 n2 (length c + j) item' p w2 a2 _ _ G5 eq_refl G4 Ha2r (eq_trans G1 F1) Hn1 Hn2)
    as (l1 & l2 & Hfin & Hl12).
  set (m' := mroot (<[a2:=BLinks [l1; l2; zero_link; zero_link]]> (w_mem w2)) r (grow (N.of_nat (length c + j) * 2))).
  assert (M1 : ∀ l, l ≠ r -> l ≠ a2 -> m' !! l = w_mem w2 !! l).
  { intros l ? ?. unfold m'. rewrite mroot_lookup_ne by done. by rewrite lookup_insert_ne. }
  assert (M2 : m' !! a2 = Some (BLinks [l1; l2; zero_link; zero_link])).
  { unfold m'. rewrite mroot_lookup_ne by done. apply lookup_insert. }
  set (rt0 := g0 (match c with [] => rt_with_link lk0 rt | _ => rt end)) in *.
  assert (M3 : m' !! r = Some (BRoot (grow (N.of_nat (length c + j) * 2) rt0))).
  { unfold m'. apply mroot_lookup. rewrite lookup_insert_ne by done. by rewrite G1. }
  assert (Hpfresh : ∀ l, l ∈ ptr_locs p -> (w_nxt w1 <= l)%positive) by done.
  assert (Hfootm : ∀ l, l ∈ clocs c ++ cslocs bef ++ ptr_locs cp ++ cslocs aft ->
       base (hole r c) ≠ Some l -> keep (w_mem w) m' l).
  { intros l Hl Hbl.
    assert (Hlf : l ∈ foot r T) by (apply Hfoot; rewrite !elem_of_app in Hl; tauto).
    assert (Hla0 : l ≠ a /\ l ≠ r).
    { apply elem_of_app in Hl as [Hl|Hl].
      - clear -Hnd Hl. split; intros ->.
        + apply NoDup_cons in Hnd as [_ Hnd]. apply NoDup_app in Hnd as (_ & Hnd & _).
          apply (Hnd _ Hl). set_solver +.
        + apply NoDup_cons in Hnd as [Hnd _]. set_solver +Hnd Hl.
      - apply Hdisj in Hl. tauto. }
    destruct Hla0 as [Hla0 Hlr].
    eapply keep_trans; [|eapply keep_trans; [apply Hk; by left|]].
    - apply keep_same. rewrite Hw1w by done. by apply F2.
    - apply keep_same. apply M1; [done|]. intros ->.
      destruct (Hnewr a2) as [_ Hx]; [set_solver +|]. done. }
  destruct (Hst ltac:(lia)) as (Hx1p & Hx1t & x2 & ls1 & ls2 & -> & Hx2 & Hx2t & Hls2).
  rewrite Hwa_n in *. set (a0 := w_nxt w) in *. set (a1 := xO a0) in *.
  assert (Hw1ok : w_ok w1) by (by apply (qu_ok _ _ _ Hqw1)).
  assert (Ha0 : (a0 < w_nxt w1)%positive) by (by eapply Hw1ok).
  assert (Ha1 : (a1 < w_nxt w1)%positive) by (by eapply Hw1ok).
  assert (H0r : a0 ≠ r /\ a1 ≠ r).
  { assert (r < a0)%positive by (apply Hlt, Hfoot; auto). split; unfold a1; lia. }
  destruct H0r as [H0r H1r].
  assert (H02 : a0 ≠ a2).
  { intros E. rewrite <- E in Ha2. rewrite Ha2 in Hls0. injection Hls0 as <- <-. done. }
  assert (K0 : w_mem w2 !! a0 = Some (BLinks (x2 :: ls1))).
  { eapply keep_links; [apply Hk|exact Hls0]. right. fold a0. lia. }
  assert (K1 : w_mem w2 !! a1 = Some (BLinks ls2)).
  { eapply keep_links; [apply Hk|exact Hls2]. right. fold a0. unfold a1 in *. lia. }
  assert (Haa : a ≠ a2).
  { intros E. destruct (Hnewr a2) as [_ Hx]; [set_solver +|]. apply Hx, Hfoot. auto. }
  assert (Kx : ∃ ls, m' !! a1 = Some (BLinks ls)).
  { destruct (decide (a1 = a2)) as [->|E]; [eauto|]. rewrite M1 by done. eauto. }
  destruct Kx as [ls Hls].
  exists (set_mem w2 m'), a0, x1, x2, a1, ls. split; [exact Hfin|]. split.
  { exists (grow (N.of_nat (length c + j) * 2) rt0). split; [exact M3|]. unfold rt0. destruct c; done. }
  split.
  { intros l Hl Hb. apply Hfootm; [|done]. apply elem_of_app. by left. }
  split.
  { simpl w_mem. destruct (decide (base (hole r c) = Some r)) as [E|E].
    - destruct c as [|f c']; simpl in E; [|congruence]. simpl. unfold m'.
      erewrite mroot_lookup; [|rewrite lookup_insert_ne by done; rewrite G1; exact F1]. simpl. done.
    - destruct (link_at_base _ _ _ Hlk) as (b & Hb & _).
      fold lk0. rewrite <- (link_at_put (w_mem w) (hole r c) lk0 lk Hlk). apply link_at_ext. intros b' E'.
      rewrite Hb in E'. injection E' as <-.
      assert (b ≠ r) by congruence. destruct (Hhole _ Hb) as (Hb1 & Hb2 & _).
      rewrite M1; [by apply G2|done|]. intros ->. destruct (Hnewr a2) as [_ Hx]; [set_solver +|]. done. }
  split.
  { simpl. rewrite M1 by done. rewrite G3. rewrite <- Hlenb. rewrite lookup_app_r by lia. by rewrite Nat.sub_diag. }
  split.
  { destruct x1 as [q1 q2 q3]. simpl in *. by subst. }
  split.
  { simpl. rewrite M1 by done. by rewrite K0. }
  done.
Qed.
End present.
End split.
