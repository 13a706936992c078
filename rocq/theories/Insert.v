(** Insertion on represented trees. *)
From stdpp Require Import base numbers list gmap.
From Verif Require Import GoInt Mem Amt BitsFacts Steps Tree Rep Descend.
Local Open Scope nat_scope.

Section insert.
Context {K HS V CK U : Type} (F : fam K HS V CK U) (L : layout K V CK).
Local Notation block := (block V CK).
Local Notation world := (world V CK U).
Local Notation M := (M V CK U).
Local Notation mem := (gmap loc block).
Local Notation tree := (tree K).
Local Notation frame := (frame K).
Implicit Types (w : world) (m : mem).

(** From w to w' only the blocks in S changed, no key-value struct did, and
    fresh blocks other than key-value structs may have been allocated. *)
Record quiet (S : loc -> Prop) w w' : Prop := MkQuiet {
  qu_usr : w_usr w' = w_usr w;
  qu_nxt : (w_nxt w <= w_nxt w')%positive;
  qu_ok : w_ok w -> w_ok w';
  qu_frame : ∀ l, (l < w_nxt w)%positive -> ¬ S l -> w_mem w' !! l = w_mem w !! l;
  qu_kv : ∀ l v k, (l < w_nxt w)%positive -> w_mem w !! l = Some (BKv v k) ->
    w_mem w' !! l = Some (BKv v k);
  qu_dom : ∀ l, (l < w_nxt w)%positive -> is_Some (w_mem w' !! l) -> is_Some (w_mem w !! l);
  qu_new : ∀ l v k, w_mem w' !! l = Some (BKv v k) -> w_mem w !! l = Some (BKv v k) }.

Lemma quiet_refl S w : quiet S w w.
Proof. constructor; try done. Qed.
Lemma quiet_mono (S S' : loc -> Prop) w w' : (∀ l, S l -> S' l) -> quiet S w w' -> quiet S' w w'.
Proof. intros H [? ? ? ? ? ? ?]. constructor; try done. naive_solver. Qed.
Lemma quiet_trans (S S' : loc -> Prop) w1 w2 w3 : quiet S w1 w2 -> quiet S' w2 w3 ->
  (∀ l, (l < w_nxt w1)%positive -> S' l -> S l) -> quiet S w1 w3.
Proof.
  intros [u1 n1 o1 f1 k1 d1 e1] [u2 n2 o2 f2 k2 d2 e2] Hsub.
  constructor.
  - congruence.
  - lia.
  - auto.
  - intros l Hl Hn. rewrite f2 by (try lia; naive_solver). by apply f1.
  - intros l v k Hl Hv. apply k2; [lia|]. by apply k1.
  - intros l Hl Hs. apply d1; [done|]. apply d2; [lia|done].
  - eauto.
Qed.

Lemma quiet_set_mem S w m :
  (∀ l, ¬ S l -> m !! l = w_mem w !! l) ->
  (∀ l v k, w_mem w !! l = Some (BKv v k) -> m !! l = Some (BKv v k)) ->
  (∀ l, is_Some (m !! l) -> is_Some (w_mem w !! l)) ->
  (∀ l v k, m !! l = Some (BKv v k) -> w_mem w !! l = Some (BKv v k)) ->
  quiet S w (set_mem w m).
Proof.
  intros H1 H2 H3 H4. constructor; simpl; try done; eauto.
  intros Hok l b Hb. destruct (H3 l) as [b' Hb']; [eauto|]. by eapply Hok.
Qed.

Lemma quiet_put (S : loc -> Prop) w l x : (∀ b, base l = Some b -> S b) -> quiet S w (set_mem w (put_link (w_mem w) l x)).
Proof.
  intros Hb. apply quiet_set_mem.
  - intros l' Hl'. apply put_lookup_ne. intros E. by apply Hl', Hb.
  - intros l' v k Hl'. destruct l as [r|a i|]; simpl; try done.
    + unfold mroot. destruct (w_mem w !! r) as [[| |rt]|] eqn:E; try done.
      destruct (decide (r = l')) as [->|]; [congruence|]. by rewrite lookup_insert_ne.
    + destruct (w_mem w !! a) as [[ls| |]|] eqn:E; try done.
      destruct (decide (a = l')) as [->|]; [congruence|]. by rewrite lookup_insert_ne.
  - intros l'. destruct l as [r|a i|]; simpl; try done.
    + unfold mroot. destruct (w_mem w !! r) as [[| |rt]|] eqn:E; try done.
      destruct (decide (r = l')) as [->|]; [eauto|]. by rewrite lookup_insert_ne.
    + destruct (w_mem w !! a) as [[ls| |]|] eqn:E; try done.
      destruct (decide (a = l')) as [->|]; [eauto|]. by rewrite lookup_insert_ne.
  - intros l' v k. destruct l as [r|a i|]; simpl; try done.
    + unfold mroot. destruct (w_mem w !! r) as [[| |rt]|] eqn:E; try done.
      destruct (decide (r = l')) as [->|]; [by rewrite lookup_insert|by rewrite lookup_insert_ne].
    + destruct (w_mem w !! a) as [[ls| |]|] eqn:E; try done.
      destruct (decide (a = l')) as [->|]; [by rewrite lookup_insert|by rewrite lookup_insert_ne].
Qed.
Lemma quiet_mroot (S : loc -> Prop) w r f : S r -> quiet S w (set_mem w (mroot (w_mem w) r f)).
Proof.
  intros Hin. apply quiet_set_mem.
  - intros l' Hl'. apply mroot_lookup_ne. by intros ->.
  - intros l v k Hl. unfold mroot. destruct (w_mem w !! r) as [[| |rt]|] eqn:E; try done.
    destruct (decide (r = l)) as [->|]; [congruence|]. by rewrite lookup_insert_ne.
  - intros l. unfold mroot. destruct (w_mem w !! r) as [[| |rt]|] eqn:E; try done.
    destruct (decide (r = l)) as [->|]; [eauto|]. by rewrite lookup_insert_ne.
  - intros l v k. unfold mroot. destruct (w_mem w !! r) as [[| |rt]|] eqn:E; try done.
    destruct (decide (r = l)) as [->|]; [by rewrite lookup_insert|by rewrite lookup_insert_ne].
Qed.
Lemma quiet_links (S : loc -> Prop) w a ls ls' : S a -> w_mem w !! a = Some (BLinks ls) ->
  quiet S w (set_mem w (<[a := BLinks ls']> (w_mem w))).
Proof.
  intros Hin Ha. apply quiet_set_mem.
  - intros l' Hl'. apply lookup_insert_ne. by intros ->.
  - intros l v k Hl. destruct (decide (a = l)) as [->|]; [congruence|]. by rewrite lookup_insert_ne.
  - intros l. destruct (decide (a = l)) as [->|]; [eauto|]. by rewrite lookup_insert_ne.
  - intros l v k. destruct (decide (a = l)) as [->|]; [by rewrite lookup_insert|by rewrite lookup_insert_ne].
Qed.
Lemma quiet_alloc S w ls :
  quiet S w (World (<[w_nxt w := BLinks ls]> (w_mem w)) (xO (w_nxt w)) (w_usr w)).
Proof.
  constructor; simpl; try done.
  - lia.
  - intros Hok l b' Hl. simpl. destruct (decide (l = w_nxt w)) as [->|Hne]; [lia|].
    simpl in Hl. rewrite lookup_insert_ne in Hl by done. apply Hok in Hl. lia.
  - intros l Hl _. apply lookup_insert_ne. lia.
  - intros l v k Hl Hv. rewrite lookup_insert_ne by lia. done.
  - intros l Hl. rewrite lookup_insert_ne by lia. done.
  - intros l v k. destruct (decide (w_nxt w = l)) as [->|]; [by rewrite lookup_insert|by rewrite lookup_insert_ne].
Qed.

Lemma NoDup_perm {A} (l l' : list A) : l ≡ₚ l' -> NoDup l -> NoDup l'.
Proof. by intros ->. Qed.

(** ** Replacing the tree in a hole *)
Lemma MapI_replace B w w' r seed c t t' lk' rt rt' :
  MapI L B w r seed (plug c t) ->
  is_leaf t = is_leaf t' ->
  w_mem w !! r = Some (BRoot rt) -> w_mem w' !! r = Some (BRoot rt') ->
  linked (w_mem w) (w_mem w') r c lk' ->
  (∀ l, l ∈ clocs c -> base (hole r c) ≠ Some l -> keep (w_mem w) (w_mem w') l) ->
  rep L (w_mem w') (length c) lk' t' ->
  rt_seed rt' = rt_seed rt ->
  length (rt_path rt') = length (rt_path rt) ->
  rt_len rt' = u64 (N.of_nat (length (leaves (plug c t')))) ->
  rt_dep rt' = u64 (N.of_nat (sumdep 0 (plug c t'))) ->
  NoDup (r :: clocs c ++ locs t') ->
  canon_root (plug c t') -> hgt (plug c t') <= B ->
  MapI L B w' r seed (plug c t').
Proof.
  intros [(rt0 & Hr0 & Hs & Hrep & _ & _ & Hp) Hnd _ _] Hlf Hr Hr' Hl Hk Hrep' Hs' Hp' Hlen Hdep Hnd' Hc Hh.
  rewrite Hr in Hr0. injection Hr0 as <-.
  constructor; try done.
  - exists rt'. split_and!; try done; try congruence.
    by apply (rep_replace L (w_mem w) (w_mem w') r c t t' lk' rt rt').
  - rewrite locs_plug. done.
Qed.

(** Reading the hole of a represented tree. *)
Lemma MapI_hole B w r seed c a cs : MapI L B w r seed (plug c (Node a cs)) ->
  ∃ rt lks rest, w_mem w !! r = Some (BRoot rt) /\
    link_at (w_mem w) (hole r c) = Some (Link (At a) (bits_of (map fst cs)) (bits_of (lrads cs))) /\
    radixes (map fst cs) /\
    w_mem w !! a = Some (BLinks (lks ++ rest)) /\
    length (lks ++ rest) = cap (length c) (length cs) /\
    Forall2 (λ lk c', rep L (w_mem w) (S (length c)) lk c'.2) lks cs.
Proof.
  intros [(rt & Hr & _ & Hrep & _) _ _ _].
  destruct (rep_hole L _ _ _ _ _ Hr Hrep) as (lk & Hlk & Hn).
  apply rep_node_inv in Hn as (-> & Hrs & lks & rest & Ha & Hlen & Hf).
  exists rt, lks, rest. done.
Qed.

Lemma hole_base r (c : list frame) : base (hole r c) = Some (match c with [] => r | f :: _ => fr_a f end).
Proof. by destruct c. Qed.
Lemma hole_in r (c : list frame) b : base (hole r c) = Some b -> b ∈ r :: clocs c.
Proof. destruct c as [|f c]; simpl; intros [= <-]; set_solver. Qed.

Lemma linked_intro m m' r (c : list frame) lk rt rt' :
  (match c with [] => True | f :: _ => fr_a f ≠ r end) ->
  m !! r = Some (BRoot rt) -> m' !! r = Some (BRoot rt') ->
  link_at m (hole r c) = Some lk ->
  ∀ lk', (match c with [] => rt_link rt' = lk' | f :: _ => rt_link rt' = rt_link rt end) ->
  (∀ b, base (hole r c) = Some b -> b ≠ r -> m' !! b = put_link m (hole r c) lk' !! b) ->
  linked m m' r c lk'.
Proof.
  intros Hne Hr Hr' Hlk lk' Hl Hb. exists rt, rt'. split_and!; try done.
  destruct c as [|f c]; [done|]. split; [done|]. simpl in *.
  destruct (m !! fr_a f) as [[ls| |]|] eqn:E; try done.
  exists ls. split; [done|]. rewrite Hb by done. by rewrite lookup_insert.
Qed.

Lemma put_link_same_block m m' l x b : base l = Some b -> m' !! b = m !! b ->
  put_link m' l x !! b = put_link m l x !! b.
Proof.
  destruct l as [r|a i|]; simpl; intros [= ->] E; unfold mroot; rewrite E;
    destruct (m !! b) as [[| |]|] eqn:E2; rewrite ?lookup_insert; congruence.
Qed.

(** The memory after a write of the hole and an update of the root. *)
Lemma final_lookups m r (c : list frame) lk lk' g rt :
  m !! r = Some (BRoot rt) -> link_at m (hole r c) = Some lk ->
  (match c with [] => True | f :: _ => fr_a f ≠ r end) ->
  let m' := mroot (put_link m (hole r c) lk') r g in
  m' !! r = Some (BRoot (g (match c with [] => rt_with_link lk' rt | _ => rt end))) /\
  (∀ l, l ≠ r -> base (hole r c) ≠ Some l -> m' !! l = m !! l) /\
  (∀ b, base (hole r c) = Some b -> b ≠ r -> m' !! b = put_link m (hole r c) lk' !! b).
Proof.
  intros Hr Hlk Hne m'. split_and!.
  - apply mroot_lookup. destruct c as [|f c]; simpl hole.
    + by apply mroot_lookup.
    + rewrite put_lookup_ne; [done|]. simpl. congruence.
  - intros l H1 H2. unfold m'. rewrite mroot_lookup_ne by done. by apply put_lookup_ne.
  - intros b H1 H2. unfold m'. by apply mroot_lookup_ne.
Qed.

(** The blocks of the container and those made since w. *)
Definition region (r : loc) (T : tree) w w1 (l : loc) : Prop :=
  l ∈ foot r T \/ (w_nxt w <= l < w_nxt w1)%positive.

(** What is expected of the computation that makes the struct of a new entry
    (a plain allocation for Set and Add, with the callback for Mod): it leaves
    the blocks in P alone, up to values, and p is a fresh struct for k. *)
Definition made (P : loc -> Prop) w1 w2 (k : K) (p : ptr) : Prop :=
  w_ok w2 /\ (w_nxt w1 <= w_nxt w2)%positive /\
  (∀ l, P l -> keep (w_mem w1) (w_mem w2) l) /\
  cell L (w_mem w2) k p /\
  (∀ l, l ∈ ptr_locs p -> (w_nxt w1 <= l)%positive).

(** ** Adding an item to a level *)
Section add.
Variables (op : insop V CK U) (r : loc) (k : K).

Definition grow (n : N) (rt : root) : root :=
  rt_with_dep (add64 (rt_dep rt) n) (rt_with_len (add64 (rt_len rt) 1) rt).

Definition add_tail (h : HS * N) (d : N) (l : lref) : M unit :=
  upd_link l (λ x, lk_with_pmap (N.lor (lk_pmap x) (bit_of (radix_of h))) x) ;;;
  upd_link l (λ x, lk_with_tmap (N.lor (lk_tmap x) (bit_of (radix_of h))) x) ;;;
  count_in r d.
Definition add_body (h : HS * N) (d : N) (l : lref) (idx : nat) (mk : M ptr) : M unit :=
  lv <- load_link l ;;
  let count := ones_count32 (lk_pmap lv) in
  (if (negb (count =? 0)%nat && negb (count mod 4 =? 0)%nat) || (d =? 0)%N
   then
     shift_up (lk_ptr lv) idx (count - idx) ;;;
     p <- mk ;;
     store_at (lk_ptr lv) idx (f_leaf F k p)
   else
     let src := lk_ptr lv in
     a <- new_link_array (count + 1) ;;
     upd_link l (lk_with_ptr a) ;;;
     copy_range src a 0 0 0 idx ;;;
     p <- mk ;;
     store_at a idx (f_leaf F k p) ;;;
     copy_range src a 0 1 idx (count - idx)) ;;;
  add_tail h d l.

Lemma add_item_early h d l idx w : io_early op = true ->
  add_item F op r k h d l idx w = bind (io_new op) (λ p, add_body h d l idx (ret p)) w.
Proof.
  intros E. unfold add_item. rewrite E. rewrite bind_assoc. apply bind_ext.
  intros p w'. rewrite bind_ret. done.
Qed.
Lemma add_item_late h d l idx w : io_early op = false ->
  add_item F op r k h d l idx w = add_body h d l idx (io_new op) w.
Proof. intros E. unfold add_item. rewrite E. rewrite bind_ret. done. Qed.

Lemma count_in_step n w rt : w_mem w !! r = Some (BRoot rt) ->
  count_in r n w = Ret tt (set_mem w (mroot (w_mem w) r (grow n))).
Proof.
  intros Hr. unfold count_in.
  rewrite (bind_Ret _ _ _ _ _ (upd_root_step _ _ _ _ Hr)).
  erewrite upd_root_step by (simpl; by apply mroot_lookup).
  rewrite set_mem_set_mem. simpl. by rewrite mroot_mroot.
Qed.

Lemma add_tail_step h d (c : list frame) w x rt : w_mem w !! r = Some (BRoot rt) ->
  (match c with [] => True | f :: _ => fr_a f ≠ r end) ->
  link_at (w_mem w) (hole r c) = Some x ->
  add_tail h d (hole r c) w = Ret tt (set_mem w (mroot (put_link (w_mem w) (hole r c)
     (Link (lk_ptr x) (N.lor (lk_pmap x) (bit_of (radix_of h)))
           (N.lor (lk_tmap x) (bit_of (radix_of h))))) r (grow d))).
Proof.
  intros Hr Hne Hx. unfold add_tail.
  rewrite (bind_Ret _ _ _ _ _ (upd_link_step _ _ _ _ Hx)).
  erewrite bind_Ret.
  2:{ eapply upd_link_step. simpl. by eapply link_at_put. }
  rewrite set_mem_set_mem. simpl. rewrite put_put.
  erewrite count_in_step; [done|]. simpl.
  instantiate (1 := match c with [] => rt_with_link _ rt | _ => rt end).
  destruct c as [|f c]; simpl hole.
  - by apply mroot_lookup.
  - rewrite put_lookup_ne; [done|]. simpl. congruence.
Qed.

Section level.
Hypothesis HF : fam_ok F L.
Variables (B : nat) (seed : N) (c : list frame) (a : loc) (bef aft : list (N * tree)) (n : N).
Local Notation T := (plug c (Node a (bef ++ aft))).
Hypothesis Hn : (n < 16)%N.
Hypothesis Hbef : Forall (λ i, i < n)%N (map fst bef).
Hypothesis Haft : Forall (λ i, n < i)%N (map fst aft).
Hypothesis Hok : ly_ok L k.

Lemma foot_ne w : MapI L B w r seed T -> match c with [] => True | f :: _ => fr_a f ≠ r end.
Proof.
  intros [_ Hnd _ _]. destruct c as [|f c']; [done|]. intros E.
  apply NoDup_cons in Hnd as [Hnd _]. apply Hnd. rewrite locs_plug. simpl. set_solver.
Qed.

Lemma leaves_add a' p : length (leaves (plug c (Node a' (bef ++ (n, Leaf k p) :: aft)))) =
  S (length (leaves T)).
Proof.
  rewrite !leaves_plug, !app_length. simpl. rewrite !flat_map_app, !app_length. simpl. lia.
Qed.
Lemma leaves_add_perm a' p : leaves (plug c (Node a' (bef ++ (n, Leaf k p) :: aft))) ≡ₚ
  (k, p) :: leaves T.
Proof.
  rewrite !leaves_plug. simpl. rewrite !flat_map_app. simpl.
  rewrite <- !Permutation_middle. done.
Qed.
Lemma sumdep_add a' p : sumdep 0 (plug c (Node a' (bef ++ (n, Leaf k p) :: aft))) =
  length c + sumdep 0 T.
Proof.
  rewrite !sumdep_plug by done. rewrite !sumdep_node, !csdep_app, csdep_cons. simpl. lia.
Qed.

Lemma canon_add a' p : canon_root T -> canon_root (plug c (Node a' (bef ++ (n, Leaf k p) :: aft))).
Proof.
  rewrite !canon_root_plug. unfold canon_cs. rewrite !Forall_app, Forall_cons.
  intros (H1 & [H2 H3] & H4). split_and!; try done. intros Hc. specialize (H4 Hc).
  apply ok_level_ge2. rewrite app_length. simpl.
  destruct bef as [|b1 bef']; [|simpl; lia]. destruct aft; simpl in *; [done|lia].
Qed.

Lemma hgt_add a' p : hgt T <= B -> hgt (plug c (Node a' (bef ++ (n, Leaf k p) :: aft))) <= B.
Proof.
  intros H. eapply hgt_plug_mono; [exact H|].
  pose proof (hgt_plug c (Node a (bef ++ aft))) as H2.
  assert (length c + hgt (Node a' (bef ++ (n, Leaf k p) :: aft)) <= length c + hgt (Node a (bef ++ aft))); [|lia].
  simpl. apply Nat.add_le_mono_l, le_n_S. rewrite !map_app. simpl.
  clear. induction bef as [|x xs IH]; simpl; lia.
Qed.

Lemma add_final w w2 rt a' p lb la R x lk' :
  MapI L B w r seed T -> w_mem w !! r = Some (BRoot rt) ->
  (∀ b, b = r \/ base (hole r c) = Some b ->
    w_mem w2 !! b = put_link (w_mem w) (hole r c) x !! b) ->
  (∀ l, l ∈ clocs c ++ cslocs (bef ++ aft) -> base (hole r c) ≠ Some l -> keep (w_mem w) (w_mem w2) l) ->
  cell L (w_mem w2) k p ->
  NoDup (a' :: r :: clocs c ++ cslocs (bef ++ aft) ++ ptr_locs p) ->
  Forall2 (λ lk c', rep L (w_mem w) (S (length c)) lk c'.2) lb bef ->
  Forall2 (λ lk c', rep L (w_mem w) (S (length c)) lk c'.2) la aft ->
  length (lb ++ ly_leaf L k p :: la ++ R) = cap (length c) (S (length (bef ++ aft))) ->
  lk' = Link (At a') (N.lor (bits_of (map fst (bef ++ aft))) (bit_of n))
                     (N.lor (bits_of (lrads (bef ++ aft))) (bit_of n)) ->
  MapI L B (set_mem w2 (mroot (put_link
      (<[a' := BLinks (lb ++ ly_leaf L k p :: la ++ R)]> (w_mem w2)) (hole r c) lk')
      r (grow (N.of_nat (length c))))) r seed (plug c (Node a' (bef ++ (n, Leaf k p) :: aft))).
Proof.
  intros HM Hrt Hb Hk Hcell Hnd Hlb Hla Hlen Hlk'.
  pose proof (foot_ne _ HM) as Hne.
  destruct (MapI_hole _ _ _ _ _ _ _ HM) as (rt0 & lks & rest & Hr0 & Hlk & Hrs & Ha & Hlena & _).
  rewrite Hrt in Hr0. injection Hr0 as <-.
  assert (Ha'r : a' ≠ r). { apply NoDup_cons in Hnd as [Hnd _]. set_solver +Hnd. }
  assert (Ha'b : base (hole r c) ≠ Some a').
  { intros E. apply hole_in in E. apply NoDup_cons in Hnd as [Hnd _]. set_solver +Hnd E. }
  set (Mm := <[a' := BLinks (lb ++ ly_leaf L k p :: la ++ R)]> (w_mem w2)).
  assert (HMr : ∃ rt2, Mm !! r = Some (BRoot rt2) /\ rt2 = match c with [] => rt_with_link x rt | _ => rt end).
  { eexists. split; [|done]. unfold Mm. rewrite lookup_insert_ne by done. rewrite Hb by auto.
    destruct c as [|f c']; simpl hole.
    - by apply mroot_lookup.
    - rewrite put_lookup_ne; [done|]. simpl. congruence. }
  destruct HMr as (rt2 & HMr & Hrt2).
  assert (HMlk : link_at Mm (hole r c) = Some x).
  { rewrite (link_at_ext (put_link (w_mem w) (hole r c) x)).
    - by eapply link_at_put.
    - intros b E. unfold Mm. rewrite lookup_insert_ne by congruence. apply Hb. auto. }
  destruct (final_lookups _ _ _ _ lk' (grow (N.of_nat (length c))) _ HMr HMlk Hne) as (F1 & F2 & F3).
  fold Mm. set (m' := mroot (put_link Mm (hole r c) lk') r (grow (N.of_nat (length c)))) in *.
  assert (Hkeep : ∀ l, l ∈ clocs c ++ cslocs (bef ++ aft) -> base (hole r c) ≠ Some l ->
      keep (w_mem w) m' l).
  { intros l Hl E. eapply keep_trans; [by apply Hk|]. apply keep_same.
    assert (l ≠ r /\ l ≠ a') as [? ?].
    { apply NoDup_cons in Hnd as [Hnd1 Hnd]. apply NoDup_cons in Hnd as [Hnd2 Hnd].
      split; intros ->; [set_solver +Hnd2 Hl|set_solver +Hnd1 Hl]. }
    rewrite F2 by done. unfold Mm. by rewrite lookup_insert_ne. }
  assert (Hkeepc : ∀ l, l ∈ cslocs (bef ++ aft) -> base (hole r c) ≠ Some l).
  { intros l Hl E. apply hole_in in E. apply NoDup_cons in Hnd as [_ Hnd].
    assert (r :: clocs c ++ cslocs (bef ++ aft) ++ ptr_locs p =
            (r :: clocs c) ++ (cslocs (bef ++ aft) ++ ptr_locs p)) as Heq by done.
    rewrite Heq in Hnd. apply NoDup_app in Hnd as (_ & Hnd & _). apply (Hnd l E). set_solver +Hl. }
  assert (Hrs' : radixes (map fst bef ++ n :: map fst aft)).
  { apply radixes_insert; try done. by rewrite <- map_app. }
  eapply (MapI_replace B w _ r seed c (Node a (bef ++ aft)) (Node a' (bef ++ (n, Leaf k p) :: aft)) lk');
    [done|done|exact Hrt|exact F1| | | | | | | | | |].
  - eapply linked_intro; [done|exact Hrt|exact F1|exact Hlk| |].
    + subst rt2. destruct c; done.
    + intros b E Hbr. simpl. rewrite F3 by done.
      etransitivity; [apply (put_link_same_block (put_link (w_mem w) (hole r c) x)); [done|]|].
      * unfold Mm. rewrite lookup_insert_ne by congruence. apply Hb. auto.
      * by rewrite put_put.
  - intros l Hl E. apply Hkeep; [set_solver +Hl|done].
  - subst lk'. rewrite cslocs_app in Hkeep, Hkeepc. eapply rep_node_build.
    + simpl. rewrite F2 by done. apply lookup_insert.
    + rewrite Hlen. f_equal. rewrite !app_length. simpl. lia.
    + done.
    + eapply reps_keep; [exact Hlb|]. intros l Hl. apply Hkeep; [set_solver +Hl|]. apply Hkeepc. set_solver +Hl.
    + constructor; [done|]. eapply cell_keep; [exact Hcell|]. intros l Hl. apply keep_same. simpl.
      apply NoDup_cons in Hnd as [Hnd1 Hnd]. apply NoDup_cons in Hnd as [Hnd2 Hnd].
      apply NoDup_app in Hnd as (_ & Hnd & _).
      rewrite F2. 
      * apply lookup_insert_ne. intros ->. set_solver +Hnd1 Hl.
      * intros ->. set_solver +Hnd2 Hl.
      * intros E. apply hole_in in E. apply elem_of_cons in E as [->|E]; [set_solver +Hnd2 Hl|].
        apply (Hnd l E). set_solver +Hl.
    + eapply reps_keep; [exact Hla|]. intros l Hl. apply Hkeep; [set_solver +Hl|]. apply Hkeepc. set_solver +Hl.
    + f_equal.
      * apply lor_bit_of; [lia|]. intros i. rewrite map_app. clear. set_solver.
      * apply lor_bit_of; [lia|]. intros i. rewrite !lrads_app, lrads_cons. simpl. clear. set_solver.
  - subst rt2. by destruct c.
  - subst rt2. by destruct c.
  - rewrite leaves_add. destruct HM as [(rt0 & Hr0 & _ & _ & Hl0 & _) _ _ _].
    rewrite Hrt in Hr0. injection Hr0 as <-.
    assert (rt_len (grow (N.of_nat (length c)) (match c with [] => rt_with_link lk' rt2 | _ => rt2 end))
            = add64 (rt_len rt) 1) as -> by (subst rt2; by destruct c).
    rewrite Hl0, add64_u64. f_equal. lia.
  - rewrite sumdep_add. destruct HM as [(rt0 & Hr0 & _ & _ & _ & Hd0 & _) _ _ _].
    rewrite Hrt in Hr0. injection Hr0 as <-.
    assert (rt_dep (grow (N.of_nat (length c)) (match c with [] => rt_with_link lk' rt2 | _ => rt2 end))
            = add64 (rt_dep rt) (N.of_nat (length c))) as -> by (subst rt2; by destruct c).
    rewrite Hd0, add64_u64. f_equal. lia.
  - cbn [locs]. rewrite flat_map_app. simpl. rewrite cslocs_app in Hnd. unfold cslocs in Hnd.
    eapply NoDup_perm; [|exact Hnd].
    rewrite Permutation_swap. apply Permutation_cons; [done|].
    rewrite <- Permutation_middle. apply Permutation_cons; [done|].
    rewrite <- !app_assoc. apply Permutation_app_head, Permutation_app_head, Permutation_app_comm.
  - apply canon_add. by destruct HM.
  - apply hgt_add. by destruct HM.
Qed.

Lemma keep_eq m m' b : keep m m' b -> is_Some (m !! b) -> (∀ v x, m !! b ≠ Some (BKv v x)) ->
  m' !! b = m !! b.
Proof.
  intros Hk [y Hy] Hnk. destruct (Hk _ Hy) as (y' & Hy' & [->|(v & v' & x & -> & ->)]).
  - congruence.
  - by apply Hnk in Hy.
Qed.
Lemma put_same m l x : link_at m l = Some x -> put_link m l x = m.
Proof.
  destruct l as [r'|a0 i|]; simpl; unfold mroot; intros H; try done.
  - destruct (m !! r') as [[| |rt]|] eqn:E; try done. injection H as <-.
    rewrite insert_id; [done|]. rewrite E. f_equal. by destruct rt.
  - destruct (m !! a0) as [[ls| |]|] eqn:E; try done.
    rewrite list_insert_id by done. by rewrite insert_id.
Qed.
Lemma link_at_block m l x b : link_at m l = Some x -> base l = Some b ->
  is_Some (m !! b) /\ ∀ v y, m !! b ≠ Some (BKv v y).
Proof.
  destruct l as [r'|a0 i|]; simpl; intros H E; try done; injection E as ->.
  - by destruct (m !! b) as [[| |]|].
  - by destruct (m !! b) as [[| |]|].
Qed.

Lemma quiet_final (P : loc -> Prop) w a' ls ls' l lk' g :
  P a' -> P r -> (∀ b, base l = Some b -> P b) ->
  w_mem w !! a' = Some (BLinks ls) ->
  quiet P w (set_mem w (mroot (put_link (<[a' := BLinks ls']> (w_mem w)) l lk') r g)).
Proof.
  intros H1 H2 H3 Ha.
  pose proof (quiet_links P w a' ls ls' H1 Ha) as Q1.
  set (wa := set_mem w (<[a' := BLinks ls']> (w_mem w))) in *.
  pose proof (quiet_put P wa l lk' H3) as Q2.
  set (wb := set_mem wa (put_link (w_mem wa) l lk')) in *.
  pose proof (quiet_mroot P wb r g H2) as Q3.
  apply (quiet_trans P P _ _ _ Q1); [|done].
  apply (quiet_trans P P _ _ _ Q2); [exact Q3|done].
Qed.

Lemma slot_free cnt d : cnt < 16 ->
  (negb (cnt =? 0)%nat && negb (cnt mod 4 =? 0)%nat) || (N.of_nat d =? 0)%N = true ->
  cnt < cap d cnt /\ cap d (S cnt) = cap d cnt.
Proof.
  intros Hc H. destruct d as [|d]; [by simpl; lia|].
  assert ((N.of_nat (S d) =? 0)%N = false) as E by (apply N.eqb_neq; lia).
  rewrite E, orb_false_r in H. simpl cap.
  do 16 (destruct cnt as [|cnt]; [vm_compute in H; first [done|split; [vm_compute; lia|done]]|]). lia.
Qed.
Lemma slot_full cnt d :
  (negb (cnt =? 0)%nat && negb (cnt mod 4 =? 0)%nat) || (N.of_nat d =? 0)%N = false ->
  ∃ d', d = S d'.
Proof.
  intros H. destruct d; [|eauto]. rewrite orb_true_r in H. done.
Qed.

(** Everything up to the point where the new struct is made, and from there. *)
Lemma add_pre h w : MapI L B w r seed T -> w_ok w -> radix_of h = n ->
  ∃ w1 post,
    (∀ mk, add_body h (N.of_nat (length c)) (hole r c) (length bef) mk w = bind mk post w1) /\
    quiet (λ l, l ∈ foot r T) w w1 /\
    ∀ p w2,
      (∀ l, l ∈ foot r T \/ (w_nxt w <= l < w_nxt w1)%positive -> keep (w_mem w1) (w_mem w2) l) ->
      cell L (w_mem w2) k p ->
      (∀ l, l ∈ ptr_locs p -> l ∉ foot r T /\ ¬ (w_nxt w <= l < w_nxt w1)%positive) ->
      ∃ w' a', post p w2 = Ret tt w' /\
        quiet (λ l, l ∈ foot r T \/ (w_nxt w <= l < w_nxt w1)%positive) w2 w' /\
        w_nxt w' = w_nxt w2 /\
        MapI L B w' r seed (plug c (Node a' (bef ++ (n, Leaf k p) :: aft))) /\
        (a' = a \/ (w_nxt w <= a' < w_nxt w1)%positive).
Proof.
  intros HM Hwok Hrad.
  pose proof (foot_ne _ HM) as Hne.
  destruct (MapI_hole _ _ _ _ _ _ _ HM) as (rt & lks & rest & Hrt & Hlk & Hrs & Ha & Hlena & Hf).
  pose proof (mi_nodup _ _ _ _ _ _ HM) as Hnd.
  rewrite locs_plug in Hnd. cbn [locs] in Hnd.
  change (flat_map (λ c0 : N * tree, locs c0.2) (bef ++ aft)) with (cslocs (bef ++ aft)) in Hnd.
  assert (Hfoot : ∀ l, l ∈ foot r T <-> l = r \/ l ∈ clocs c \/ l = a \/ l ∈ cslocs (bef ++ aft)).
  { intros l. unfold foot. rewrite elem_of_cons, locs_plug, elem_of_app. simpl.
    rewrite elem_of_cons. done. }
  assert (Hlt : ∀ l, l ∈ foot r T -> (l < w_nxt w)%positive).
  { intros l Hl. destruct (MapI_alloc _ _ _ _ _ _ _ HM Hl) as [b Hb]. by eapply Hwok. }
  assert (Hhole : ∀ b, base (hole r c) = Some b -> b ∈ foot r T /\ b ≠ a).
  { intros b E. apply hole_in in E. split.
    - apply Hfoot. apply elem_of_cons in E. tauto.
    - intros ->. clear -Hnd E.
      change (r :: clocs c ++ a :: cslocs (bef ++ aft)) with ((r :: clocs c) ++ a :: cslocs (bef ++ aft)) in Hnd.
      apply NoDup_app in Hnd as (_ & Hnd & _). apply (Hnd a E). set_solver. }
  assert (Har : a ≠ r).
  { intros ->. apply NoDup_cons in Hnd as [Hnd _]. set_solver +Hnd. }
  apply Forall2_app_inv_r in Hf as (lb & la & Hlb & Hla & ->).
  rewrite <- app_assoc in Ha, Hlena.
  pose proof (Forall2_length _ _ _ Hlb) as Hlenb. pose proof (Forall2_length _ _ _ Hla) as Hlenaf.
  assert (Hcnt : length (bef ++ aft) < 16).
  { assert (radixes (map fst bef ++ n :: map fst aft)) as H.
    { apply radixes_insert; try done. by rewrite <- map_app. }
    apply radixes_length in H. rewrite app_length in *. simpl in H. rewrite !map_length in H. lia. }
  assert (Hcl : link_at (w_mem w) (hole r c) = Some
     (Link (At a) (bits_of (map fst (bef ++ aft))) (bits_of (lrads (bef ++ aft))))) by done.
  set (lk := Link (At a) (bits_of (map fst (bef ++ aft))) (bits_of (lrads (bef ++ aft)))) in *.
  assert (Hoc : ones_count32 (bits_of (map fst (bef ++ aft))) = length (bef ++ aft)).
  { rewrite ones_count_bits_of by done. by rewrite map_length. }
  unfold add_body.
  destruct ((negb (length (bef ++ aft) =? 0)%nat && negb (length (bef ++ aft) mod 4 =? 0)%nat)
             || (N.of_nat (length c) =? 0)%N) eqn:Hcond.
  - (* free slot *)
    destruct (slot_free _ _ Hcnt Hcond) as [Hfree Hcap].
    destruct rest as [|y rest].
    { rewrite app_nil_r, app_length in Hlena. rewrite app_length in Hfree, Hlena. lia. }
    destruct (shift_up_spec a lb la y rest (length la) w Ha eq_refl) as [z Hz].
    set (w1 := set_mem w (<[a:=BLinks (lb ++ z :: la ++ rest)]> (w_mem w))) in *.
    exists w1, (λ p, store_at (At a) (length bef) (f_leaf F k p) ;;;
                add_tail h (N.of_nat (length c)) (hole r c)).
    split; [|split].
    + intros mk. rewrite (bind_Ret _ _ _ _ _ (load_link_step _ _ _ Hcl)).
      cbn [lk_pmap lk_ptr lk]. rewrite Hoc, Hcond. rewrite bind_assoc.
      replace (length (bef ++ aft) - length bef) with (length la) by (rewrite app_length; lia).
      rewrite <- Hlenb. rewrite (bind_Ret _ _ _ _ _ Hz).
      rewrite bind_assoc. done.
    + eapply quiet_links; [|exact Ha]. apply Hfoot. auto.
    + intros p w2 Hk Hcell Hp.
      assert (Hb1 : ∀ b, b = r \/ base (hole r c) = Some b -> w_mem w2 !! b = w_mem w !! b).
      { intros b Hb. assert (b ≠ a /\ b ∈ foot r T /\ is_Some (w_mem w !! b) /\ ∀ v y, w_mem w !! b ≠ Some (BKv v y))
          as (Hba & Hbf & Hb1 & Hb2).
        { destruct Hb as [->|Hb].
          - split_and!; [done|apply Hfoot; auto|by rewrite Hrt|by rewrite Hrt].
          - destruct (Hhole _ Hb). destruct (link_at_block _ _ _ _ Hcl Hb). done. }
        assert (w_mem w1 !! b = w_mem w !! b) as E by (simpl; by rewrite lookup_insert_ne).
        rewrite <- E in Hb1, Hb2 |- *. apply keep_eq; auto. }
      assert (Ha2 : w_mem w2 !! a = Some (BLinks (lb ++ z :: la ++ rest))).
      { eapply keep_links; [apply Hk; left; apply Hfoot; auto|]. simpl. apply lookup_insert. }
      eexists _, a. split; [|split; [|split; [|split]]].
      * erewrite bind_Ret.
        2:{ eapply store_at_step; [exact Ha2|]. rewrite app_length. simpl. lia. }
        rewrite <- Hlenb. replace (length lb) with (length lb + 0) by lia. rewrite insert_app_r. simpl list_insert.
        erewrite add_tail_step.
        2:{ simpl. rewrite lookup_insert_ne by done. rewrite Hb1 by auto. exact Hrt. }
        2: done.
        2:{ simpl. rewrite link_at_insert_ne by (intros E; by apply Hhole in E as [_ ?]).
            rewrite (link_at_ext (w_mem w)) by auto. exact Hcl. }
        rewrite set_mem_set_mem. simpl. reflexivity.
      * eapply quiet_final; [| | |exact Ha2].
        -- left. apply Hfoot. auto.
        -- left. apply Hfoot. auto.
        -- intros b E. left. by apply Hhole.
      * done.
      * rewrite (fo_leaf _ _ HF). rewrite Hrad.
        eapply (add_final w w2 rt a p lb la rest lk); try done.
        -- intros b Hb. rewrite put_same by done. by apply Hb1.
        -- intros l Hl E. eapply keep_trans; [|apply Hk; left; apply Hfoot; rewrite elem_of_app in Hl; tauto].
           apply keep_same. simpl. rewrite lookup_insert_ne; [done|]. intros <-.
           clear -Hnd Hl. apply NoDup_cons in Hnd as [_ Hnd]. rewrite <- Permutation_middle in Hnd.
           by apply NoDup_cons in Hnd as [Hnd _].
        -- assert (NoDup ((a :: r :: clocs c ++ cslocs (bef ++ aft)) ++ ptr_locs p)) as Hx.
           { apply NoDup_app. split_and!.
             - eapply NoDup_perm; [|exact Hnd]. rewrite <- Permutation_middle. apply Permutation_swap.
             - intros l Hl Hl2. apply Hp in Hl2 as [Hl2 _]. apply Hl2, Hfoot.
               rewrite !elem_of_cons, elem_of_app in Hl. tauto.
             - destruct p; simpl; [apply NoDup_nil_2|apply NoDup_singleton]. }
           simpl in Hx. by rewrite <- app_assoc in Hx.
        -- rewrite <- Hcap in Hlena. rewrite <- Hlena. rewrite !app_length. simpl. rewrite !app_length. simpl. lia.
      * by left.
  - (* a new array *)
    destruct (slot_full _ _ Hcond) as [d' Hd'].
    set (a' := w_nxt w).
    assert (Ha' : ∀ l, l ∈ foot r T -> l ≠ a').
    { intros l Hl ->. apply Hlt in Hl. unfold a' in Hl. lia. }
    set (cnt := length (bef ++ aft)) in *.
    assert (Hac : S cnt <= arr_cap (cnt + 1)).
    { replace (cnt + 1) with (S cnt) by lia. apply arr_cap_ge. lia. }
    assert (Hcntl : cnt = length lb + length la) by (unfold cnt; rewrite app_length; lia).
    set (x := lk_with_ptr (At a') lk).
    set (Y := replicate (arr_cap (cnt + 1) - length lb) zero_link).
    set (w1 := World (<[a' := BLinks (lb ++ Y)]> (put_link (w_mem w) (hole r c) x)) (xO a') (w_usr w)).
    assert (Hbase : base (hole r c) ≠ Some a').
    { intros E. apply Hhole in E as [E _]. by apply Ha' in E. }
    exists w1, (λ p, (store_at (At a') (length bef) (f_leaf F k p) ;;;
                      copy_range (At a) (At a') 0 1 (length bef) (cnt - length bef)) ;;;
                add_tail h (N.of_nat (length c)) (hole r c)).
    split; [|split].
    + intros mk. rewrite (bind_Ret _ _ _ _ _ (load_link_step _ _ _ Hcl)).
      cbn [lk_pmap lk_ptr lk]. rewrite Hoc, Hcond. rewrite bind_assoc.
      rewrite (bind_Ret _ _ _ _ _ (new_link_array_step _ _)). fold a'.
      rewrite bind_assoc. erewrite bind_Ret.
      2:{ eapply upd_link_step. simpl. rewrite link_at_insert_ne by done. exact Hcl. }
      rewrite set_mem_set_mem || idtac.
      rewrite bind_assoc. erewrite bind_Ret.
      2:{ eapply (copy_range_spec a a' [] lb (la ++ rest) [] (replicate (length lb) zero_link) Y 0 0 0).
          - apply Ha'. apply Hfoot. auto.
          - simpl. rewrite put_lookup_ne.
            + rewrite lookup_insert_ne by (intros E; by apply (Ha' a); [apply Hfoot; auto|]). exact Ha.
            + intros E. by apply Hhole in E as [_ ?].
          - simpl. rewrite put_lookup_ne by done. rewrite lookup_insert. do 2 f_equal.
            unfold Y. rewrite <- replicate_add. f_equal. lia.
          - done.
          - done.
          - done.
          - rewrite replicate_length. done. }
      rewrite bind_assoc. f_equal.
      unfold w1, set_mem. simpl. f_equal.
      apply map_eq. intros i. destruct (decide (i = a')) as [->|Hi].
      * by rewrite !lookup_insert.
      * rewrite !lookup_insert_ne by done.
        destruct (decide (base (hole r c) = Some i)) as [E|E].
        -- apply put_link_same_block; [done|]. by rewrite lookup_insert_ne.
        -- rewrite !put_lookup_ne by done. by rewrite lookup_insert_ne.
    + apply (quiet_trans (λ l, l ∈ foot r T) (λ l, l ∈ foot r T) _
               (set_mem w (put_link (w_mem w) (hole r c) x))).
      * apply quiet_put. intros b E. by apply Hhole.
      * apply (quiet_alloc (λ l, l ∈ foot r T) (set_mem w (put_link (w_mem w) (hole r c) x))).
      * done.
    + intros p w2 Hk Hcell Hp.
      assert (Ha'1 : (w_nxt w <= a' < w_nxt w1)%positive) by (unfold a', w1; simpl; lia).
      assert (Hb1 : ∀ b, b = r \/ base (hole r c) = Some b ->
                w_mem w2 !! b = put_link (w_mem w) (hole r c) x !! b).
      { intros b Hb.
        assert (b ∈ foot r T /\ is_Some (put_link (w_mem w) (hole r c) x !! b) /\
                ∀ v y, put_link (w_mem w) (hole r c) x !! b ≠ Some (BKv v y)) as (Hbf & Hb1 & Hb2).
        { destruct Hb as [->|Hb].
          - split; [apply Hfoot; auto|].
            destruct c as [|f c0]; simpl hole in *.
            + simpl. erewrite mroot_lookup by exact Hrt. done.
            + rewrite put_lookup_ne by (simpl; congruence). by rewrite Hrt.
          - destruct (Hhole _ Hb). split; [done|].
            apply (link_at_block _ (hole r c) x); [|done]. by eapply link_at_put. }
        assert (w_mem w1 !! b = put_link (w_mem w) (hole r c) x !! b) as E.
        { simpl. rewrite lookup_insert_ne; [done|]. intros <-. by apply Ha' in Hbf. }
        rewrite <- E in Hb1, Hb2 |- *. apply keep_eq; auto. }
      assert (Ha2 : w_mem w2 !! a = Some (BLinks (lb ++ la ++ rest))).
      { eapply keep_links; [apply Hk; left; apply Hfoot; auto|]. simpl.
        rewrite lookup_insert_ne by (intros E; by apply (Ha' a); [apply Hfoot; auto|]).
        rewrite put_lookup_ne; [done|]. intros E. by apply Hhole in E as [_ ?]. }
      assert (Ha'2 : w_mem w2 !! a' = Some (BLinks (lb ++ Y))).
      { eapply keep_links; [apply Hk; by right|]. simpl. apply lookup_insert. }
      set (Y2 := replicate (arr_cap (cnt + 1) - length lb - 1 - length la) zero_link).
      assert (HY : Y = zero_link :: replicate (length la) zero_link ++ Y2).
      { unfold Y, Y2. rewrite <- replicate_add.
        change (zero_link :: replicate ?q zero_link) with (replicate (S q) zero_link).
        f_equal. lia. }
      eexists _, a'. split; [|split; [|split; [|split]]].
      * rewrite bind_assoc. erewrite bind_Ret.
        2:{ eapply store_at_step; [exact Ha'2|]. rewrite HY, app_length. simpl. lia. }
        rewrite <- Hlenb.
        assert (<[length lb := f_leaf F k p]> (lb ++ Y) =
                lb ++ f_leaf F k p :: replicate (length la) zero_link ++ Y2) as ->.
        { rewrite HY. replace (length lb) with (length lb + 0) by lia. by rewrite insert_app_r. }
        erewrite bind_Ret.
        2:{ eapply (copy_range_spec a a' lb la rest (lb ++ [f_leaf F k p]) (replicate (length la) zero_link) Y2).
            - apply Ha'. apply Hfoot. auto.
            - simpl. rewrite lookup_insert_ne by (intros E; by apply (Ha' a); [apply Hfoot; auto|]). exact Ha2.
            - simpl. rewrite lookup_insert. by rewrite <- app_assoc.
            - lia.
            - rewrite app_length. simpl. lia.
            - unfold cnt. rewrite app_length. lia.
            - rewrite replicate_length. unfold cnt. rewrite app_length. lia. }
        rewrite set_mem_set_mem. simpl. rewrite insert_insert.
        erewrite add_tail_step.
        2:{ simpl. rewrite lookup_insert_ne by (intros E; apply (Ha' r); [apply Hfoot; auto|done]).
            rewrite Hb1 by auto.
            instantiate (1 := match c with [] => rt_with_link x rt | _ => rt end).
            destruct c as [|f c0]; simpl hole.
            - by apply mroot_lookup.
            - rewrite put_lookup_ne by (simpl; congruence). done. }
        2: done.
        2:{ simpl. rewrite link_at_insert_ne by done.
            rewrite (link_at_ext (put_link (w_mem w) (hole r c) x)) by auto. by eapply link_at_put. }
        rewrite set_mem_set_mem. simpl. reflexivity.
      * eapply quiet_final; [| | |exact Ha'2].
        -- by right.
        -- left. apply Hfoot. auto.
        -- intros b E. left. by apply Hhole.
      * done.
      * rewrite (fo_leaf _ _ HF). rewrite Hrad. rewrite <- app_assoc. simpl.
        eapply (add_final w w2 rt a' p lb la Y2 x); try done.
        -- intros l Hl E. eapply keep_trans; [|apply Hk; left; apply Hfoot; rewrite elem_of_app in Hl; tauto].
           apply keep_same. simpl. rewrite lookup_insert_ne.
           ++ by rewrite put_lookup_ne.
           ++ intros <-. apply (Ha' a'); [|done]. apply Hfoot. rewrite elem_of_app in Hl. tauto.
        -- apply NoDup_cons. split.
           ++ rewrite elem_of_cons, !elem_of_app. intros Hl.
              assert (a' ∈ foot r T \/ a' ∈ ptr_locs p) as [Hl'|Hl'] by (rewrite Hfoot; tauto).
              ** by apply Ha' in Hl'.
              ** by apply Hp in Hl' as [_ ?].
           ++ assert (NoDup ((r :: clocs c ++ cslocs (bef ++ aft)) ++ ptr_locs p)) as Hx.
              { apply NoDup_app. split_and!.
                - change (r :: clocs c ++ cslocs (bef ++ aft)) with ((r :: clocs c) ++ cslocs (bef ++ aft)).
                  assert (NoDup (a :: (r :: clocs c) ++ cslocs (bef ++ aft))) as Hy.
                  { eapply NoDup_perm; [|exact Hnd]. simpl. rewrite <- Permutation_middle. apply Permutation_swap. }
                  by apply NoDup_cons in Hy as [_ Hy].
                - intros l Hl Hl2. apply Hp in Hl2 as [Hl2 _]. apply Hl2, Hfoot.
                  rewrite !elem_of_cons, elem_of_app in Hl. tauto.
                - destruct p; simpl; [apply NoDup_nil_2|apply NoDup_singleton]. }
              simpl in Hx. by rewrite <- app_assoc in Hx.
        -- rewrite Hd'. simpl cap. fold cnt. replace (S cnt) with (cnt + 1) by lia.
           rewrite !app_length. simpl. rewrite !app_length. unfold Y2. rewrite replicate_length. lia.
      * by right.
Qed.

Lemma add_item_spec h w : MapI L B w r seed T -> w_ok w -> radix_of h = n ->
  ∃ w1, quiet (λ l, l ∈ foot r T) w w1 /\ (io_early op = true -> w1 = w) /\
    let add := add_item F op r k h (N.of_nat (length c)) (hole r c) (length bef) in
    (∀ w2, io_new op w1 = Panic w2 -> add w = Panic w2) /\
    ∀ p w2, io_new op w1 = Ret p w2 -> made (region r T w w1) w1 w2 k p ->
      ∃ w' a', add w = Ret tt w' /\
        quiet (region r T w w1) w2 w' /\
        MapI L B w' r seed (plug c (Node a' (bef ++ (n, Leaf k p) :: aft))) /\
        (a' = a \/ (w_nxt w <= a' < w_nxt w1)%positive \/ (w_nxt w2 <= a' < w_nxt w')%positive).
Proof.
  intros HM Hwok Hrad. destruct (io_early op) eqn:Ee.
  - exists w. split; [apply quiet_refl|]. split; [done|]. cbv zeta.
    split.
    { intros w2 Hp. rewrite add_item_early by done. by apply bind_Panic. }
    intros p w2 Hio (Hok2 & Hnxt & Hk & Hcell & Hfr).
    rewrite add_item_early by done. rewrite (bind_Ret _ _ _ _ _ Hio).
    assert (HM2 : MapI L B w2 r seed T).
    { eapply MapI_keep; [exact HM|]. intros l Hl. apply Hk. by left. }
    destruct (add_pre h w2 HM2 Hok2 Hrad) as (w3 & post & Heq & Hq & Hpost).
    destruct (Hpost p w3) as (w' & a' & Hp1 & Hq' & Hn' & HM' & Ha').
    + intros l _. by apply keep_same.
    + eapply cell_keep; [exact Hcell|]. intros l Hl b Hb. 
      assert (Hlt : (l < w_nxt w2)%positive) by (by eapply Hok2).
      revert Hcell. unfold cell. destruct (ly_cell L).
      * intros (l' & v & -> & Hv). simpl in Hl. apply elem_of_list_singleton in Hl as ->.
        exists b. split; [|by left]. rewrite Hv in Hb. injection Hb as <-.
        by eapply qu_kv.
      * intros ->. simpl in Hl. set_solver +Hl.
    + intros l Hl. split.
      * intros Hin. destruct (MapI_alloc _ _ _ _ _ _ _ HM Hin) as [b Hb].
        apply Hwok in Hb. specialize (Hfr l Hl). lia.
      * destruct (cell_alloc _ _ _ _ _ Hcell Hl) as [b Hb]. apply Hok2 in Hb. lia.
    + exists w', a'. split; [|split; [|split]].
      * rewrite Heq. by rewrite bind_ret.
      * apply (quiet_trans (region r T w w) (λ l, l ∈ foot r T \/ (w_nxt w2 <= l < w_nxt w3)%positive) _ w3).
        -- eapply quiet_mono; [|exact Hq]. intros l Hl. by left.
        -- done.
        -- intros l Hl [Hl2|Hl2]; [by left|lia].
      * done.
      * destruct Ha' as [->|Ha']; [by left|]. right. right. rewrite Hn'. done.
  - destruct (add_pre h w HM Hwok Hrad) as (w1 & post & Heq & Hq & Hpost).
    exists w1. split; [done|]. split; [done|]. cbv zeta. split.
    { intros w2 Hp. rewrite add_item_late by done. rewrite Heq. by apply bind_Panic. }
    intros p w2 Hio (Hok2 & Hnxt & Hk & Hcell & Hfr).
    rewrite add_item_late by done. rewrite Heq. rewrite (bind_Ret _ _ _ _ _ Hio).
    destruct (Hpost p w2) as (w' & a' & Hp1 & Hq' & Hn' & HM' & Ha'); [done|done| |].
    + intros l Hl. specialize (Hfr l Hl). split; [|lia]. intros Hin.
      destruct (MapI_alloc _ _ _ _ _ _ _ HM Hin) as [b Hb]. apply Hwok in Hb.
      pose proof (qu_nxt _ _ _ Hq). lia.
    + exists w', a'. split_and!; try done. destruct Ha' as [->|Ha']; auto.
Qed.
End level.
End add.
End insert.
