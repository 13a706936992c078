(** Deletion on represented trees. *)
From stdpp Require Import base numbers list gmap.
From Verif Require Import GoInt Mem Amt BitsFacts Steps Tree Rep Descend Insert Split.
Local Open Scope nat_scope.

Section delete.
Context {K HS V CK U : Type}.
Local Notation block := (block V CK).
Local Notation world := (world V CK U).
Local Notation M := (M V CK U).
Local Notation mem := (gmap loc block).
Local Notation tree := (tree K).
Local Notation frame := (frame K).
Implicit Types (w : world) (m : mem).

(** ** The path slice *)

(** Path p has elements l; tl are the elements of the root's scratch array
    that are not part of it. *)
Definition pview m (r : loc) (p : pathv) (l tl : list plink) : Prop :=
  ∃ rt, m !! r = Some (BRoot rt) /\ length (rt_path rt) = 12 /\
    match p with
    | PRoot n => rt_path rt = l ++ tl /\ length l = n
    | POwn q => q = l /\ rt_path rt = tl
    end.

Lemma pview_ext m m' r p l tl rt rt' : m !! r = Some (BRoot rt) -> m' !! r = Some (BRoot rt') ->
  rt_path rt' = rt_path rt -> pview m r p l tl -> pview m' r p l tl.
Proof.
  intros H1 H2 E (rt0 & H3 & H4 & H5). rewrite H1 in H3. injection H3 as <-.
  exists rt'. rewrite E. done.
Qed.

Definition pl_clear (x : plink) : plink := PLink (pl_radix x) None.

Lemma sbp_intro r w rt pth : w_mem w !! r = Some (BRoot rt) -> length pth = length (rt_path rt) ->
  sbp r w (set_mem w (mroot (w_mem w) r (rt_with_path pth))).
Proof.
  intros Hr Hl. exists rt, pth. split_and!; try done. unfold mroot. by rewrite Hr.
Qed.

Lemma path_push_spec r p radix ref w l tl : pview (w_mem w) r p l tl ->
  ∃ p' w' tl', path_push r p radix ref w = Ret p' w' /\ sbp r w w' /\
    pview (w_mem w') r p' (l ++ [PLink radix (Some ref)]) tl' /\
    (length l < 12 -> p = PRoot (length l) -> p' = PRoot (S (length l)) /\ tl' = tail tl).
Proof.
  intros (rt & Hr & H12 & Hp). destruct p as [n|q]; unfold path_push.
  - destruct Hp as [Hp Hn]. rewrite (bind_Ret _ _ _ _ _ (load_root_step _ _ _ Hr)).
    destruct (Nat.ltb_spec n 12) as [Hlt|Hge].
    + set (pth := <[n := PLink radix (Some ref)]> (rt_path rt)).
      exists (PRoot (S n)), (set_mem w (<[r := BRoot (rt_with_path pth rt)]> (w_mem w))), (tail tl).
      split_and!.
      * rewrite (bind_Ret _ _ _ _ _ (upd_root_step _ _ _ _ Hr)). unfold ret. f_equal.
        unfold mroot. by rewrite Hr.
      * exists rt, pth. split_and!; try done. unfold pth. by rewrite insert_length.
      * exists (rt_with_path pth rt). simpl. rewrite lookup_insert.
        split; [done|]. unfold pth. rewrite insert_length. split; [done|].
        rewrite Hp in *. rewrite app_length in H12. destruct tl as [|y tl]; [simpl in H12; lia|].
        split; [|rewrite app_length; simpl; lia].
        rewrite <- Hn. replace (length l) with (length l + 0) by lia. rewrite insert_app_r. simpl.
        by rewrite <- app_assoc.
      * intros _ _. by rewrite Hn.
    + exists (POwn (l ++ [PLink radix (Some ref)])), w, (rt_path rt).
      assert (take n (rt_path rt) = l) as ->.
      { rewrite Hp, <- Hn. by rewrite take_app. }
      split_and!.
      * done.
      * by eapply sbp_refl.
      * exists rt. done.
      * intros ? [= ->]. lia.
  - destruct Hp as [-> Hp]. exists (POwn (l ++ [PLink radix (Some ref)])), w, tl.
    split_and!; [done|by eapply sbp_refl| |done]. exists rt. done.
Qed.

Lemma path_get_spec r p i w l tl x : pview (w_mem w) r p l tl -> l !! i = Some x ->
  path_get r p i w = Ret x w.
Proof.
  intros (rt & Hr & H12 & Hp) Hi. destruct p as [n|q]; unfold path_get.
  - destruct Hp as [Hp Hn]. rewrite (bind_Ret _ _ _ _ _ (load_root_step _ _ _ Hr)).
    pose proof (lookup_lt_Some _ _ _ Hi) as Hlt. rewrite Hn in Hlt.
    destruct (Nat.ltb_spec i n); [|lia]. rewrite Hp. by rewrite (lookup_app_l_Some _ _ _ _ Hi).
  - destruct Hp as [-> Hp]. by rewrite Hi.
Qed.

Lemma path_clear_spec r p i w l tl x : pview (w_mem w) r p l tl -> l !! i = Some x ->
  ∃ p' w', path_clear r p i w = Ret p' w' /\ sbp r w w' /\
    pview (w_mem w') r p' (<[i := pl_clear x]> l) tl.
Proof.
  intros Hv Hi. unfold path_clear.
  rewrite (bind_Ret _ _ _ _ _ (path_get_spec _ _ _ _ _ _ _ Hv Hi)).
  destruct Hv as (rt & Hr & H12 & Hp). pose proof (lookup_lt_Some _ _ _ Hi) as Hlt.
  destruct p as [n|q].
  - destruct Hp as [Hp Hn].
    set (pth := <[i := pl_clear x]> (rt_path rt)).
    exists (PRoot n), (set_mem w (<[r := BRoot (rt_with_path pth rt)]> (w_mem w))).
    split_and!.
    + rewrite (bind_Ret _ _ _ _ _ (upd_root_step _ _ _ _ Hr)). unfold ret. f_equal.
      unfold mroot. by rewrite Hr.
    + exists rt, pth. split_and!; try done. unfold pth. by rewrite insert_length.
    + exists (rt_with_path pth rt). simpl. rewrite lookup_insert. split; [done|].
      unfold pth. rewrite insert_length. split; [done|]. rewrite insert_length. split; [|done].
      rewrite Hp. by rewrite insert_app_l.
  - destruct Hp as [-> Hp]. eexists _, w. split; [done|]. split; [by eapply sbp_refl|].
    exists rt. done.
Qed.

Lemma path_pop_spec r p i w l tl n ref : pview (w_mem w) r p l tl ->
  l !! i = Some (PLink n (Some ref)) ->
  ∃ p' w', path_pop r p i w = Ret (p', n, ref) w' /\ sbp r w w' /\
    pview (w_mem w') r p' (<[i := PLink n None]> l) tl.
Proof.
  intros Hv Hi. unfold path_pop.
  rewrite (bind_Ret _ _ _ _ _ (path_get_spec _ _ _ _ _ _ _ Hv Hi)).
  destruct (path_clear_spec _ _ _ _ _ _ _ Hv Hi) as (p' & w' & Hc & Hs & Hv').
  exists p', w'. rewrite (bind_Ret _ _ _ _ _ Hc). done.
Qed.

(** The whole path is cleared. *)
Lemma clear_path_spec r d : ∀ fuel p w l tl, pview (w_mem w) r p l tl -> d <= length l ->
  d < fuel -> d <= 255 -> (∃ rt, w_mem w !! r = Some (BRoot rt)) ->
  ∃ w' l', clear_path fuel r p (N.of_nat d) w = Ret tt w' /\ sbp r w w' /\
    (∃ p', pview (w_mem w') r p' l' tl /\ match p, p' with PRoot _, PRoot _ => True | POwn _, POwn _ => True | _, _ => False end) /\
    (∀ i, i < d -> l' !! i = pl_clear <$> l !! i) /\
    (∀ i, d <= i -> l' !! i = l !! i).
Proof.
  induction d as [|d IH]; intros fuel p w l tl Hv Hd Hf H255 [rt Hr]; destruct fuel as [|fuel]; try lia; cbn [clear_path].
  - exists w, l. split_and!; try done.
    + by eapply sbp_refl.
    + exists p. split; [done|]. by destruct p.
    + intros. lia.
  - destruct (N.eqb_spec (N.of_nat (S d)) 0) as [|_]; [lia|].
    rewrite dec8_succ by lia. rewrite Nat2N.id.
    destruct (lookup_lt_is_Some_2 l d) as [x Hx]; [lia|].
    destruct (path_clear_spec _ _ _ _ _ _ _ Hv Hx) as (p1 & w1 & Hc & Hs & Hv1).
    rewrite (bind_Ret _ _ _ _ _ Hc).
    destruct (IH fuel p1 w1 (<[d := pl_clear x]> l) tl) as (w' & l' & Hc' & Hs' & (p' & Hv' & Hpp) & H1 & H2); try done.
    + rewrite insert_length. lia.
    + lia.
    + lia.
    + destruct (sbp_root _ _ _ Hs) as (rt1 & pth & _ & _ & Hr1). eauto.
    + exists w', l'. split_and!; try done.
      * by eapply sbp_trans.
      * exists p'. split; [done|].
        assert (match p, p1 with PRoot _, PRoot _ => True | POwn _, POwn _ => True | _, _ => False end) as Hp1.
        { clear -Hc. unfold path_clear in Hc. destruct p; apply bind_inv_Ret in Hc as (y & w2 & _ & Hc).
          - apply bind_inv_Ret in Hc as (z & w3 & _ & Hc). unfold ret in Hc. by injection Hc as <- <-.
          - unfold ret in Hc. by injection Hc as <- <-. }
        destruct p, p1, p'; done.
      * intros i Hi. destruct (decide (i = d)) as [->|Hne].
        -- rewrite H2 by lia. rewrite list_lookup_insert by lia. by rewrite Hx.
        -- rewrite H1 by lia. by rewrite list_lookup_insert_ne by done.
      * intros i Hi. rewrite H2 by lia. apply list_lookup_insert_ne. lia.
Qed.

(** ** Containers whose shape need not be canonical *)
Section shape.
Variable L : layout K V CK.

Record MapQ (B : nat) w (r : loc) (seed : N) (T : tree) : Prop := MkMapQ {
  mq_root : ∃ rt, w_mem w !! r = Some (BRoot rt) /\ rt_seed rt = seed /\
    rep L (w_mem w) 0 (rt_link rt) T /\
    rt_len rt = u64 (N.of_nat (length (leaves T))) /\
    rt_dep rt = u64 (N.of_nat (sumdep 0 T)) /\
    length (rt_path rt) = 12;
  mq_nodup : NoDup (r :: locs T);
  mq_hgt : hgt T <= B }.

Lemma MapI_MapQ B w r seed T : MapI L B w r seed T <-> MapQ B w r seed T /\ canon_root T.
Proof.
  split.
  - intros []. split; [by constructor|done].
  - intros [[] ?]. by constructor.
Qed.

Lemma MapQ_sbp B w w' r seed T : MapQ B w r seed T -> sbp r w w' -> MapQ B w' r seed T.
Proof.
  intros [(rt & Hr & Hs & Hrep & Hlen & Hdep & Hp) Hnd Hh] Hsb. constructor; try done.
  destruct (sbp_root _ _ _ Hsb) as (rt' & pth & Hr' & Hpl & Hr2).
  rewrite Hr in Hr'. injection Hr' as <-.
  exists (rt_with_path pth rt). split_and!; try done.
  - simpl. eapply rep_keep; [done|]. intros l Hl. apply keep_same.
    apply (sbp_ne _ _ _ _ Hsb). intros ->. by apply NoDup_cons in Hnd as [Hnd _].
  - simpl. by rewrite Hpl.
Qed.

Lemma sbp_quiet (P : loc -> Prop) r w w' : sbp r w w' -> P r -> quiet P w w'.
Proof.
  intros (rt & pth & Hr & _ & ->) HP. apply quiet_set_mem.
  - intros l Hl. apply lookup_insert_ne. by intros ->.
  - intros l v k Hl. rewrite lookup_insert_ne; [done|]. intros ->. congruence.
  - intros l. destruct (decide (l = r)) as [->|]; [eauto|]. by rewrite lookup_insert_ne.
  - intros l v k. destruct (decide (r = l)) as [->|]; [by rewrite lookup_insert|by rewrite lookup_insert_ne].
Qed.

Lemma MapQ_replace B w w' r seed (c : list frame) t t' lk' rt rt' :
  MapQ B w r seed (plug c t) ->
  is_leaf t = is_leaf t' ->
  w_mem w !! r = Some (BRoot rt) -> w_mem w' !! r = Some (BRoot rt') ->
  linked (w_mem w) (w_mem w') r c lk' ->
  (∀ l, l ∈ clocs c -> base (hole r c) ≠ Some l -> keep (w_mem w) (w_mem w') l) ->
  rep L (w_mem w') (length c) lk' t' ->
  rt_seed rt' = rt_seed rt ->
  length (rt_path rt') = length (rt_path rt) ->
  rt_len rt' = u64 (N.of_nat (length (leaves (plug c t')))) ->
  rt_dep rt' = u64 (N.of_nat (sumdep 0 (plug c t'))) ->
  NoDup (r :: clocs c ++ locs t') -> hgt (plug c t') <= B ->
  MapQ B w' r seed (plug c t').
Proof.
  intros [(rt0 & Hr0 & Hs & Hrep & _ & _ & Hp) Hnd _] Hlf Hr Hr' Hl Hk Hrep' Hs' Hp' Hlen Hdep Hnd' Hh.
  rewrite Hr in Hr0. injection Hr0 as <-.
  constructor; try done.
  - exists rt'. split_and!; try done; try congruence.
    by apply (rep_replace L (w_mem w) (w_mem w') r c t t' lk' rt rt').
  - rewrite locs_plug. done.
Qed.

Lemma MapQ_hole B w r seed c a cs : MapQ B w r seed (plug c (Node a cs)) ->
  ∃ rt lks rest, w_mem w !! r = Some (BRoot rt) /\
    link_at (w_mem w) (hole r c) = Some (Link (At a) (bits_of (map fst cs)) (bits_of (lrads cs))) /\
    radixes (map fst cs) /\
    w_mem w !! a = Some (BLinks (lks ++ rest)) /\
    length (lks ++ rest) = cap (length c) (length cs) /\
    Forall2 (λ lk c', rep L (w_mem w) (S (length c)) lk c'.2) lks cs.
Proof.
  intros [(rt & Hr & _ & Hrep & _) _ _].
  destruct (rep_hole L _ _ _ _ _ Hr Hrep) as (lk & Hlk & Hn).
  apply rep_node_inv in Hn as (-> & Hrs & lks & rest & Ha & Hlen & Hf).
  exists rt, lks, rest. done.
Qed.

(** ** Collapsing *)

(** Single leaves move up until they have company or reach the root. *)
Fixpoint squash (c : list frame) (a : loc) (cs : list (N * tree)) : tree :=
  match c with
  | [] => Node a cs
  | f :: c' =>
      match cs with
      | [(_, Leaf k p)] => squash c' (fr_a f) (fr_bef f ++ (fr_r f, Leaf k p) :: fr_aft f)
      | _ => plug c (Node a cs)
      end
  end.

Definition lone (cs : list (N * tree)) : bool :=
  match cs with [(_, Leaf _ _)] => true | _ => false end.

Lemma squash_stop c a cs : c = [] \/ lone cs = false -> squash c a cs = plug c (Node a cs).
Proof.
  intros [->|H]; [done|]. destruct c as [|f c]; [done|]. simpl.
  by destruct cs as [|[r [|]] [|]].
Qed.

Lemma squash_leaves c : ∀ a cs, leaves (squash c a cs) = leaves (plug c (Node a cs)).
Proof.
  assert (Hcong : ∀ (c : list frame) (t t' : tree), leaves t = leaves t' -> leaves (plug c t) = leaves (plug c t')).
  { clear c. induction c as [|f c IH]; intros t t' E; simpl; [done|]. apply IH.
    unfold fill. simpl. rewrite !flat_map_app. simpl. by rewrite E. }
  induction c as [|f c IH]; intros a cs; [done|].
  destruct (lone cs) eqn:E; [|by rewrite squash_stop by auto].
  destruct cs as [|[r [k p|]] [|]]; try done.
  cbn [squash]. rewrite IH. cbn [plug]. apply Hcong. unfold fill. simpl.
  rewrite !flat_map_app. done.
Qed.

Lemma squash_canon c : ∀ a cs, canon_ctx c -> canon_cs cs -> (c ≠ [] -> cs ≠ []) ->
  canon_root (squash c a cs).
Proof.
  induction c as [|f c IH]; intros a cs Hc Hcs Hne; [done|].
  destruct (lone cs) eqn:E.
  - destruct cs as [|[r [k p|]] [|]]; try done. cbn [squash].
    destruct Hc as (H1 & H2 & H3). apply IH; [done| |].
    + apply Forall_app. split; [done|]. by apply Forall_cons.
    + intros _. by destruct (fr_bef f).
  - rewrite squash_stop by auto. apply canon_root_plug. split_and!; try done.
    intros _. specialize (Hne ltac:(done)). destruct cs as [|[r [|]] [|]]; done.
Qed.

Lemma bits_lone (cs : list (N * tree)) : radixes (map fst cs) ->
  ((length cs =? 1)%nat && (bits_of (map fst cs) =? bits_of (lrads cs))%N) = lone cs.
Proof.
  intros Hr. destruct cs as [|[r t] [|c2 cs]]; [done| |by destruct t].
  rewrite lrads_cons. cbn [map fst snd length Nat.eqb andb lone]. destruct t as [k p|a cs]; cbn [is_leaf app].
  - apply N.eqb_refl.
  - apply N.eqb_neq. intros E. apply (f_equal (λ x, N.testbit x r)) in E.
    change (lrads []) with (@nil N) in E.
    rewrite !testbit_bits_of in E. rewrite (bool_decide_true (r ∈ [r])) in E by set_solver.
    by rewrite bool_decide_false in E by set_solver.
Qed.

Lemma hole_ne B w r seed (c : list frame) t : MapQ B w r seed (plug c t) ->
  match c with [] => True | f :: _ => fr_a f ≠ r end.
Proof.
  intros [_ Hnd _]. destruct c as [|f c']; [done|]. intros E.
  apply NoDup_cons in Hnd as [Hnd _]. apply Hnd. rewrite locs_plug. simpl. set_solver.
Qed.

(** One round: the level in the hole of f :: c is a single leaf. *)
Definition lift (f : frame) (k : K) (p : ptr) : tree :=
  Node (fr_a f) (fr_bef f ++ (fr_r f, Leaf k p) :: fr_aft f).

Lemma hgt_lift f k p t : hgt (lift f k p) <= hgt (fill f t).
Proof.
  unfold lift, fill. simpl. apply le_n_S. rewrite !map_app. simpl.
  induction (fr_bef f) as [|x xs IH]; simpl; lia.
Qed.

Lemma lift_step B w r seed f (c : list frame) a n k p :
  MapQ B w r seed (plug (f :: c) (Node a [(n, Leaf k p)])) ->
  ∃ lk rt, 
  link_at (w_mem w) (SlotRef a 0) = Some (ly_leaf L k p) /\
  link_at (w_mem w) (hole r c) = Some lk /\
  w_mem w !! r = Some (BRoot rt) /\
  ∀ w' pth, length pth = 12 ->
    let m1 := put_link (w_mem w) (hole r (f :: c)) (ly_leaf L k p) in
    let m2 := mroot m1 r (λ rt, rt_with_path pth (rt_with_dep (sub64 (rt_dep rt) 1) rt)) in
    w_mem w' = put_link m2 (hole r c) (lk_with_tmap (N.lor (lk_tmap lk) (bit_of (fr_r f))) lk) ->
    MapQ B w' r seed (plug c (lift f k p)).
Proof.
  intros HQ.
  destruct (MapQ_hole _ _ _ _ _ _ _ HQ) as (rt & lks & rest & Hr & Hlk1 & Hrs1 & Ha & Hlena & Hf1).
  apply Forall2_cons_inv_r in Hf1 as (lx & ? & Hx & ->%Forall2_nil_inv_r & ->). simpl in Hx.
  apply rep_leaf_inv in Hx as (-> & Hok & Hcell).
  assert (HQ' := HQ). cbn [plug] in HQ'. unfold fill in HQ'.
  destruct (MapQ_hole _ _ _ _ _ _ _ HQ') as (rt' & lks2 & rest2 & Hr' & Hlk & Hrs & Haf & Hlenf & Hf).
  rewrite Hr in Hr'. injection Hr' as <-.
  set (lk := Link (At (fr_a f)) (bits_of (map fst (fr_bef f ++ (fr_r f, Node a [(n, Leaf k p)]) :: fr_aft f)))
          (bits_of (lrads (fr_bef f ++ (fr_r f, Node a [(n, Leaf k p)]) :: fr_aft f)))) in *.
  exists lk, rt. split_and!; try done.
  { simpl. rewrite Ha. done. }
  intros w' pth Hpth m1 m2 Hw'.
  pose proof (hole_ne _ _ _ _ _ _ HQ) as Hfr. simpl in Hfr.
  pose proof (hole_ne _ _ _ _ _ _ HQ') as Hne.
  pose proof (mq_nodup _ _ _ _ _ HQ) as Hnd.
  rewrite locs_plug in Hnd. cbn [locs flat_map snd] in Hnd. rewrite app_nil_r in Hnd.
  change (clocs (f :: c)) with (flocs f ++ clocs c) in Hnd. unfold flocs in Hnd.
  change (flat_map (λ c0 : N * tree, locs c0.2) (fr_bef f)) with (cslocs (fr_bef f)) in Hnd.
  change (flat_map (λ c0 : N * tree, locs c0.2) (fr_aft f)) with (cslocs (fr_aft f)) in Hnd.
  assert (Hnd2 : NoDup (fr_a f :: a :: (r :: clocs c) ++ cslocs (fr_bef f) ++ ptr_locs p ++ cslocs (fr_aft f))).
  { eapply NoDup_perm; [|exact Hnd]. solve_Permutation. }
  assert (Hhole : ∀ b, base (hole r c) = Some b -> b ∈ r :: clocs c /\ b ≠ fr_a f /\ b ≠ a).
  { intros b E. apply hole_in in E. split; [done|].
    apply NoDup_cons in Hnd2 as [N1 N2]. apply NoDup_cons in N2 as [N2 _].
    split; intros ->; [apply N1|apply N2]; set_solver +E. }
  assert (Hdisj : ∀ l, l ∈ cslocs (fr_bef f) ++ ptr_locs p ++ cslocs (fr_aft f) ->
     l ≠ fr_a f /\ l ∉ r :: clocs c).
  { intros l Hl. apply NoDup_cons in Hnd2 as [N1 N2]. apply NoDup_cons in N2 as [N2 N3].
    apply NoDup_app in N3 as (_ & N3 & _). split.
    - intros ->. apply N1. set_solver +Hl.
    - intros Hx. by apply (N3 l). }
  set (g := λ rt, rt_with_path pth (rt_with_dep (sub64 (rt_dep rt) 1) rt)) in *.
  set (lk' := lk_with_tmap (N.lor (lk_tmap lk) (bit_of (fr_r f))) lk) in *.
  assert (Hm1r : m1 !! r = Some (BRoot rt)).
  { unfold m1. rewrite put_lookup_ne; [done|]. simpl. congruence. }
  assert (Hm2 : ∀ l, l ≠ r -> l ≠ fr_a f -> m2 !! l = w_mem w !! l).
  { intros l ? ?. unfold m2. rewrite mroot_lookup_ne by done. unfold m1. apply put_lookup_ne. simpl. congruence. }
  assert (Hm2r : m2 !! r = Some (BRoot (g rt))) by (by apply mroot_lookup).
  assert (Hm2f : ∃ ls, w_mem w !! fr_a f = Some (BLinks ls) /\ m2 !! fr_a f =
       Some (BLinks (<[length (fr_bef f) := ly_leaf L k p]> ls))).
  { exists (lks2 ++ rest2). split; [done|]. unfold m2. rewrite mroot_lookup_ne by done.
    unfold m1. simpl. rewrite Haf. apply lookup_insert. }
  assert (Hlk2 : link_at m2 (hole r c) = Some lk).
  { destruct c as [|f2 c2].
    - simpl. rewrite Hm2r. simpl. simpl in Hlk. rewrite Hr in Hlk. done.
    - rewrite <- Hlk. apply link_at_ext. intros b E. apply Hm2; [|by apply Hhole].
      simpl in E. injection E as <-. done. }
  assert (W1 : ∀ l, l ≠ r -> base (hole r c) ≠ Some l -> w_mem w' !! l = m2 !! l).
  { intros l ? ?. rewrite Hw'. by apply put_lookup_ne. }
  assert (Wr : w_mem w' !! r = Some (BRoot (match c with [] => rt_with_link lk' (g rt) | _ => g rt end))).
  { rewrite Hw'. destruct c as [|f2 c2]; simpl hole.
    - by apply mroot_lookup.
    - rewrite put_lookup_ne; [done|]. simpl. congruence. }
  assert (Wf : ∃ ls, w_mem w !! fr_a f = Some (BLinks ls) /\ w_mem w' !! fr_a f =
       Some (BLinks (<[length (fr_bef f) := ly_leaf L k p]> ls))).
  { destruct Hm2f as (ls & ? & ?). exists ls. split; [done|]. rewrite W1; [done|done|].
    intros E. by apply Hhole in E as (_ & ? & _). }
  assert (Hkeep : ∀ l, l ∈ cslocs (fr_bef f) ++ ptr_locs p ++ cslocs (fr_aft f) ->
     keep (w_mem w) (w_mem w') l).
  { intros l Hl. apply Hdisj in Hl as [X1 X2]. apply keep_same.
    assert (l ≠ r) by (intros ->; set_solver +X2).
    rewrite W1; [by apply Hm2|done|]. intros E. by apply Hhole in E as (? & _ & _). }
  assert (HQ0 := HQ'). destruct HQ' as [(rt0 & Hr0 & Hs & Hrep & Hlen & Hdep & Hp12) _ Hh].
  rewrite Hr in Hr0. injection Hr0 as <-.
  destruct (rep_hole L _ _ _ _ _ Hr Hrep) as (lkx & Hlkx & Hnode).
  rewrite Hlk in Hlkx. injection Hlkx as <-.
  destruct (rep_node_link _ _ _ _ _ _ _ _ _ Hnode) as [Elk Hrs'].
  destruct (rep_node_split _ _ _ _ _ _ _ _ _ Hnode) as (lb & lx & la & rest3 & Ha3 & Hlen3 & Hlb & Hla & Hb & Hx & Haf3).
  destruct Wf as (ls & Hls & Wf). rewrite Ha3 in Hls. injection Hls as <-.
  rewrite <- Hlb in Wf. replace (length lb) with (length lb + 0) in Wf by lia. rewrite insert_app_r in Wf. simpl in Wf.
  pose proof (radixes_app_cons (map fst (fr_bef f)) (fr_r f) (map fst (fr_aft f))) as Hrr.
  apply Hrr in Hrs' as Hrr'. destruct Hrr' as (_ & _ & H16 & _ & _).
  eapply (MapQ_replace B w w' r seed c (Node (fr_a f) (fr_bef f ++ (fr_r f, Node a [(n, Leaf k p)]) :: fr_aft f))
     (lift f k p) lk' rt); [done|done|exact Hr|exact Wr| | | | | | | | |].
  - eapply linked_intro; [done|exact Hr|exact Wr|exact Hlk| |].
    + by destruct c.
    + intros b E Hbr. rewrite Hw'. apply put_link_same_block; [done|]. apply Hm2; [done|]. by apply Hhole.
  - intros l Hl E. apply keep_same.
    assert (l ≠ r /\ l ≠ fr_a f) as [? ?].
    { clear -Hnd2 Hl. apply NoDup_cons in Hnd2 as [N1 N2]. apply NoDup_cons in N2 as [N2 N3].
      simpl in N3. apply NoDup_cons in N3 as [N3 _]. split; intros ->; [apply N3|apply N1]; set_solver +Hl. }
    rewrite W1 by done. by apply Hm2.
  - unfold lift. eapply rep_node_build.
    + exact Wf.
    + rewrite !app_length in *. simpl in *. rewrite ?app_length in *. done.
    + done.
    + eapply reps_keep; [exact Hb|]. intros l Hl. apply Hkeep. set_solver +Hl.
    + constructor; [done|]. eapply cell_keep; [exact Hcell|]. intros l Hl. apply Hkeep. set_solver +Hl.
    + eapply reps_keep; [exact Haf3|]. intros l Hl. apply Hkeep. set_solver +Hl.
    + unfold lk', lk, lk_with_tmap. simpl. f_equal; [by rewrite map_app|].
      apply lor_bit_of; [lia|]. intros i. rewrite !lrads_app, !lrads_cons. simpl. clear. set_solver.
  - by destruct c.
  - destruct c; simpl; by rewrite Hp12.
  - assert (rt_len (match c with [] => rt_with_link lk' (g rt) | _ => g rt end) = rt_len rt) as ->
      by (by destruct c).
    rewrite Hlen. do 2 f_equal. rewrite !leaves_plug, !app_length. f_equal. unfold lift. simpl.
    by rewrite !flat_map_app, !app_length.
  - assert (rt_dep (match c with [] => rt_with_link lk' (g rt) | _ => g rt end) = sub64 (rt_dep rt) 1) as ->
      by (by destruct c).
    rewrite Hdep. apply sub64_u64. rewrite !sumdep_plug by done. unfold lift.
    rewrite !sumdep_node, !csdep_app, !csdep_cons. cbn [snd is_leaf].
    rewrite sumdep_node, csdep_cons. cbn [snd is_leaf].
    change (csdep (S (length c)) []) with 0. lia.
  - unfold lift. cbn [locs]. rewrite flat_map_app. cbn [flat_map snd locs].
    change (flat_map (λ c0 : N * tree, locs c0.2) (fr_bef f)) with (cslocs (fr_bef f)).
    change (flat_map (λ c0 : N * tree, locs c0.2) (fr_aft f)) with (cslocs (fr_aft f)).
    rewrite Permutation_swap in Hnd2. apply NoDup_cons in Hnd2 as [_ Hnd2].
    eapply NoDup_perm; [|exact Hnd2]. solve_Permutation.
  - eapply hgt_plug_mono; [exact Hh|].
    pose proof (hgt_plug c (fill f (Node a [(n, Leaf k p)]))) as H1. unfold fill in H1 at 2.
    pose proof (hgt_lift f k p (Node a [(n, Leaf k p)])). lia.
Qed.

(** The slice holds the references on the way to the hole. *)
Definition covers (r : loc) (c : list frame) (l : list plink) : Prop :=
  ∀ i x, trail r c !! i = Some x -> l !! i = Some (PLink x.1 (Some x.2)).

Lemma covers_cons r f c l : covers r (f :: c) l ->
  covers r c l /\ l !! length c = Some (PLink (fr_r f) (Some (hole r c))).
Proof.
  intros H. split.
  - intros i x Hi. apply H. simpl. by apply lookup_app_l_Some.
  - apply (H (length c) (fr_r f, hole r c)). simpl. rewrite lookup_app_r by (by rewrite trail_length).
    by rewrite trail_length, Nat.sub_diag.
Qed.

Definition samek (p p' : pathv) : Prop :=
  match p, p' with PRoot _, PRoot _ => True | POwn _, POwn _ => True | _, _ => False end.
Lemma samek_trans p1 p2 p3 : samek p1 p2 -> samek p2 p3 -> samek p1 p3.
Proof. by destruct p1, p2, p3. Qed.
Lemma path_clear_samek r p i w p' w' : path_clear (V:=V) (CK:=CK) (U:=U) r p i w = Ret p' w' -> samek p p'.
Proof.
  intros Hc. unfold path_clear in Hc. destruct p; apply bind_inv_Ret in Hc as (y & w2 & _ & Hc).
  - apply bind_inv_Ret in Hc as (z & w3 & _ & Hc). unfold ret in Hc. by injection Hc as <- <-.
  - unfold ret in Hc. by injection Hc as <- <-.
Qed.
Lemma path_pop_samek r p i w p' n l w' :
  path_pop (V:=V) (CK:=CK) (U:=U) r p i w = Ret (p', n, l) w' -> samek p p'.
Proof.
  intros Hc. unfold path_pop in Hc. apply bind_inv_Ret in Hc as (x & w2 & _ & Hc).
  apply bind_inv_Ret in Hc as (p2 & w3 & Hp & Hc). apply path_clear_samek in Hp.
  destruct (pl_link x); [|done]. unfold ret in Hc. by injection Hc as <- _ _ _.
Qed.

Lemma foot_plug r (c : list frame) t l : l ∈ foot r (plug c t) <-> l = r \/ l ∈ clocs c \/ l ∈ locs t.
Proof. unfold foot. rewrite elem_of_cons, locs_plug, elem_of_app. done. Qed.

Lemma squash_foot c : ∀ a cs r l, l ∈ foot r (squash c a cs) -> l ∈ foot r (plug c (Node a cs)).
Proof.
  induction c as [|f c IH]; intros a cs r l; [done|].
  destruct (lone cs) eqn:E; [|by rewrite squash_stop by auto].
  destruct cs as [|[n [k p|]] [|]]; try done. cbn [squash]. intros H%IH.
  rewrite foot_plug in *. change (clocs (f :: c)) with (flocs f ++ clocs c). unfold flocs.
  simpl in *. rewrite flat_map_app in H. simpl in H. set_solver +H.
Qed.

Lemma collapse_spec B r seed (c : list frame) : ∀ fuel a cs w p l tl,
  MapQ B w r seed (plug c (Node a cs)) ->
  pview (w_mem w) r p l tl -> covers r c l ->
  length c < fuel -> length c <= 255 ->
  ∃ p' w' (c' : list frame) l',
    collapse fuel r p (hole r c) (N.of_nat (length c)) (length cs) w = Ret (p', N.of_nat (length c')) w' /\
    quiet (λ x, x ∈ foot r (plug c (Node a cs))) w w' /\ w_nxt w' = w_nxt w /\
    MapQ B w' r seed (squash c a cs) /\
    pview (w_mem w') r p' l' tl /\ samek p p' /\ length l' = length l /\ length c' <= length c /\
    (∀ i, length c' <= i < length c -> l' !! i = pl_clear <$> l !! i) /\
    (∀ i, i < length c' \/ length c <= i -> l' !! i = l !! i).
Proof.
  induction c as [|f c IH]; intros fuel a cs w p l tl HQ Hv Hcov Hf H255; destruct fuel as [|fuel]; try (simpl in Hf; lia).
  - destruct (MapQ_hole _ _ _ _ _ _ _ HQ) as (rt & lks & rest & Hr & Hlk & _).
    exists p, w, [], l. split_and!; try done.
    + cbn [collapse]. rewrite (bind_Ret _ _ _ _ _ (load_link_step _ _ _ Hlk)).
      cbn [length]. change (N.of_nat 0 =? 0)%N with true. rewrite andb_false_r. done.
    + by destruct p.
    + intros i Hi. simpl in Hi. lia.
  - destruct (MapQ_hole _ _ _ _ _ _ _ HQ) as (rt & lks & rest & Hr & Hlk & Hrs & Ha & Hlen & Hfa).
    cbn [collapse]. rewrite (bind_Ret _ _ _ _ _ (load_link_step _ _ _ Hlk)). cbn [lk_pmap lk_tmap lk_ptr].
    rewrite bits_lone by done.
    assert ((N.of_nat (length (f :: c)) =? 0)%N = false) as -> by (apply N.eqb_neq; simpl; lia).
    cbn [negb]. rewrite andb_true_r.
    destruct (lone cs) eqn:El.
    + destruct cs as [|[n [k q|]] [|]]; try done. cbn [squash].
      destruct (lift_step B w r seed f c a n k q HQ) as (lk & rt' & Hx & Hlk2 & Hr' & Hlift).
      rewrite Hr in Hr'. injection Hr' as <-.
      cbn [elem]. rewrite (bind_Ret _ _ _ _ _ (load_link_step _ _ _ Hx)).
      rewrite (bind_Ret _ _ _ _ _ (store_link_step _ _ _ _ Hlk)).
      set (m1 := put_link (w_mem w) (hole r (f :: c)) (ly_leaf L k q)) in *.
      pose proof (hole_ne _ _ _ _ _ _ HQ) as Hfr. cbn [hole] in Hfr.
      assert (HQ' := HQ). cbn [plug] in HQ'. pose proof (hole_ne _ _ _ _ _ _ HQ') as Hne.
      assert (Hm1r : m1 !! r = Some (BRoot rt)).
      { unfold m1. rewrite put_lookup_ne; [done|]. simpl. congruence. }
      erewrite bind_Ret.
      2:{ eapply upd_root_step. simpl. exact Hm1r. }
      rewrite set_mem_set_mem. cbn [w_mem set_mem].
      set (g0 := λ rt, rt_with_dep (sub64 (rt_dep rt) 1) rt).
      set (w2 := World (mroot m1 r g0) (w_nxt w) (w_usr w)).
      change (length (f :: c)) with (S (length c)) in *.
      rewrite dec8_succ by lia. rewrite Nat2N.id.
      destruct (covers_cons _ _ _ _ Hcov) as [Hcov' Hld].
      assert (Hw2r : w_mem w2 !! r = Some (BRoot (g0 rt))) by (by apply mroot_lookup).
      assert (Hv2 : pview (w_mem w2) r p l tl) by (eapply pview_ext; [exact Hr|exact Hw2r|done|exact Hv]).
      destruct (path_pop_spec _ _ _ _ _ _ _ _ Hv2 Hld) as (p3 & w3 & Hpop & Hs3 & Hv3).
      change (set_mem (set_mem w m1) (mroot m1 r g0)) with w2.
      rewrite (bind_Ret _ _ _ _ _ Hpop).
      destruct Hs3 as (rtx & pth & Hrx & Hpl & Hw3). rewrite Hw2r in Hrx. injection Hrx as <-.
      assert (Hp12 : length (rt_path rt) = 12) by (destruct HQ as [(rt1 & Hr1 & _ & _ & _ & _ & ?) _ _]; naive_solver).
      assert (Hmem3 : w_mem w3 = mroot m1 r (λ rt, rt_with_path pth (rt_with_dep (sub64 (rt_dep rt) 1) rt))).
      { rewrite Hw3. unfold w2. simpl. unfold mroot. rewrite Hm1r. by rewrite insert_insert. }
      assert (Hlk3 : link_at (w_mem w3) (hole r c) = Some lk).
      { rewrite Hmem3. rewrite link_at_mroot by done. unfold m1. rewrite link_at_put_ne; [done|].
        destruct c as [|f2 c2]; simpl; [done|]. intros [= E _].
        destruct HQ as [_ Hnd _]. apply NoDup_cons in Hnd as [_ Hnd]. rewrite locs_plug in Hnd.
        apply NoDup_app in Hnd as (Hnd & _ & _). simpl in Hnd. unfold flocs in Hnd. simpl in Hnd.
        apply NoDup_cons in Hnd as [Hnd _]. apply Hnd. rewrite E. set_solver +. }
      rewrite (bind_Ret _ _ _ _ _ (upd_link_step _ _ _ _ Hlk3)).
      set (w4 := set_mem w3 _) in *.
      assert (HQ4 : MapQ B w4 r seed (plug c (lift f k q))).
      { apply (Hlift w4 pth); [by rewrite Hpl|]. unfold w4. simpl. by rewrite Hmem3. }
      assert (Hn4 : w_nxt w4 = w_nxt w) by (unfold w4; rewrite Hw3; done).
      destruct (MapQ_hole _ _ _ _ _ _ _ HQ4) as (rt4 & lks4 & rest4 & Hr4 & Hlk4 & Hrs4 & _).
      rewrite (bind_Ret _ _ _ _ _ (load_link_step _ _ _ Hlk4)). cbn [lk_pmap].
      rewrite ones_count_bits_of by done. rewrite map_length.
      assert (Hv4 : pview (w_mem w4) r p3 (<[length c := PLink (fr_r f) None]> l) tl).
      { eapply pview_ext; [| | |exact Hv3].
        - rewrite Hmem3. by apply mroot_lookup.
        - unfold w4. simpl. rewrite Hmem3. instantiate (1 := match c with [] => rt_with_link _ _ | _ => _ end).
          destruct c as [|f2 c2]; simpl hole.
          + apply mroot_lookup. by apply mroot_lookup.
          + rewrite put_lookup_ne by (simpl; congruence). by apply mroot_lookup.
        - by destruct c. }
      assert (Hq4 : quiet (λ x, x ∈ foot r (plug (f :: c) (Node a [(n, Leaf k q)]))) w w4).
      { set (P := λ x, x ∈ foot r (plug (f :: c) (Node a [(n, Leaf k q)]))).
        assert (HP : ∀ c0 : list frame, (c0 = f :: c \/ c0 = c) -> ∀ b, base (hole r c0) = Some b -> P b).
        { intros c0 Hc0 b E. apply hole_in in E. unfold P. rewrite foot_plug.
          change (clocs (f :: c)) with (flocs f ++ clocs c). destruct Hc0 as [-> | ->].
          - change (clocs (f :: c)) with (flocs f ++ clocs c) in E. set_solver +E.
          - set_solver +E. }
        assert (HPr : P r) by (unfold P; rewrite foot_plug; auto).
        apply (quiet_trans P P _ (set_mem w m1)); [apply quiet_put; apply HP; auto| |done].
        apply (quiet_trans P P _ w2).
        - apply (quiet_mroot P (set_mem w m1) r g0 HPr).
        - apply (quiet_trans P P _ w3); [|apply quiet_put; apply HP; auto|done].
          apply (sbp_quiet P r); [|done]. exists (g0 rt), pth. done.
        - done. }
      cbn [length] in Hf, H255.
      destruct (IH fuel (fr_a f) (fr_bef f ++ (fr_r f, Leaf k q) :: fr_aft f) w4 p3
                  (<[length c := PLink (fr_r f) None]> l) tl)
        as (p' & w' & c' & l' & Hrun & Hq & Hn & HQf & Hv' & Hk & Hl' & Hlc & H1 & H2); try done.
      * intros i x Hi. rewrite list_lookup_insert_ne; [by apply Hcov'|].
        apply lookup_lt_Some in Hi. rewrite trail_length in Hi. lia.
      * lia.
      * lia.
      * exists p', w', c', l'. cbn [lift]. split_and!; try done.
        -- eapply (quiet_trans _ (λ x, x ∈ foot r (plug c (lift f k q)))); [exact Hq4|exact Hq|].
           intros b _. rewrite !foot_plug. change (clocs (f :: c)) with (flocs f ++ clocs c). unfold flocs, lift.
           simpl. rewrite flat_map_app. simpl. clear. set_solver.
        -- congruence.
        -- eapply samek_trans; [|exact Hk]. by eapply path_pop_samek.
        -- rewrite Hl'. by rewrite insert_length.
        -- cbn [length]. lia.
        -- intros i Hi. cbn [length] in Hi. destruct (decide (i = length c)) as [->|Hne'].
           ++ rewrite H2 by lia. rewrite list_lookup_insert by (by eapply lookup_lt_Some). by rewrite Hld.
           ++ rewrite H1 by lia. by rewrite list_lookup_insert_ne by done.
        -- intros i Hi. cbn [length] in Hi. rewrite H2 by lia.
           apply list_lookup_insert_ne. lia.
    + exists p, w, (f :: c), l. split_and!; try done.
      * rewrite squash_stop by auto. done.
      * by destruct p.
      * intros i Hi. lia.
Qed.
End shape.
End delete.
