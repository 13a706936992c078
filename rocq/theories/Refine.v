(** The map types against the finite maps of Spec.v. *)
From Coq Require Import Sorted SpecFloat.
From stdpp Require Import base numbers list gmap.
From Verif Require Import GoInt Mem Hash Amt Families BitsFacts Steps Tree Rep Paths Descend Insert Split Delete Remove Core Scan Order Heap Spec SpecFacts Guards Client.
Local Open Scope nat_scope.

Lemma StronglySorted_impl {A} (R R' : A -> A -> Prop) l :
  (∀ x y, R x y -> R' x y) -> StronglySorted R l -> StronglySorted R' l.
Proof.
  intros HR. induction 1 as [|x l Hl IH Hx]; constructor; [done|].
  eapply Forall_impl; [exact Hx|]. intros y. apply HR.
Qed.
Lemma common_ext n : ∀ x y x' y', (∀ i, x i = x' i) -> (∀ i, y i = y' i) -> common n x y = common n x' y'.
Proof.
  induction n as [|n IH]; intros x y x' y' Hx Hy; simpl; [done|]. rewrite Hx, Hy.
  destruct (_ =? _)%N; [|done]. f_equal. by apply IH.
Qed.
Lemma total_depth_ext `{EqDecision K} (dig dig' : N -> K -> nat -> N) s ks :
  (∀ k d, dig s k d = dig' s k d) -> total_depth dig s ks = total_depth dig' s ks.
Proof.
  intros Hd. unfold total_depth. f_equal. apply map_ext. intros k. unfold depth. f_equal.
  apply map_ext. intros k'. destruct (decide (k' = k)); [done|]. by apply common_ext.
Qed.

Lemma depth_ext `{EqDecision K} (dig dig' : N -> K -> nat -> N) s ks k :
  (∀ k d, dig s k d = dig' s k d) -> depth dig s ks k = depth dig' s ks k.
Proof.
  intros Hd. unfold depth. f_equal.
  apply map_ext. intros k'. destruct (decide (k' = k)); [done|]. by apply common_ext.
Qed.
Lemma le240 : 240 <= 240.
Proof. lia. Qed.

Section refine.
Context `{Countable K} {HS V CK U : Type}.
Variables (F : fam K HS V CK U) (L : layout K V CK) (Q : N -> Prop).
Local Notation D := 240.
Local Notation block := (block V CK).
Local Notation world := (world V CK U).
Local Notation M := (M V CK U).
Local Notation tree := (tree K).
Local Notation heap := (gmap loc (N * tree)).
Local Notation mstate := (mstate K V U).
Local Notation mop := (mop K V U).
Implicit Types (w : world) (T : tree) (k : K) (h : loc) (s : N) (v : V) (u : U) (G : heap) (σ : mstate).
Hypothesis HF : fam_ok F L.
Hypothesis HL : laws F L.
Hypothesis Hcell : ly_cell L = true.
Variables (zero : V) (fuel : nat).
Hypothesis Hfuel : 256 <= fuel.
Variable dig : N -> K -> nat -> N.
Hypothesis Hdig : ∀ s k d, nib F s k d = dig s k d.
Local Notation Good s := (Good F L D s).
Local Notation Inv := (Inv F L D Q).

(** ** Entries *)
Definition ent T : list (K * positive) :=
  omap (λ e, match e.2 with At a => Some (e.1, a) | Nil => None end) (leaves T).
Definition dict T : gmap K positive := list_to_map (ent T).

Lemma ent_leaves s w h T : Good s w h T -> leaves T = map (λ e, (e.1, At e.2)) (ent T).
Proof.
  intros HG.
  assert (Hall : Forall (λ e, ∃ a, e.2 = At a) (leaves T)).
  { apply Forall_forall. intros [k p] Hin. destruct (Good_ok _ _ _ _ _ _ _ _ _ HG Hin) as [_ Hc].
    unfold cell in Hc. rewrite Hcell in Hc. destruct Hc as (a & v & -> & _). eauto. }
  unfold ent. induction Hall as [|[k p] l [a E] Hall IH]; simpl; [done|]. simpl in E. subst p. simpl. by f_equal.
Qed.
Lemma ent_keys s w h T : Good s w h T -> (ent T).*1 = map fst (leaves T).
Proof.
  intros HG. rewrite (ent_leaves _ _ _ _ HG). rewrite map_map. cbn [fst].
  change (map ?f) with (fmap (M:=list) f). done.
Qed.
Lemma ent_nodup s w h T : Good s w h T -> NoDup (ent T).*1.
Proof.
  intros HG. rewrite (ent_keys _ _ _ _ HG). eapply keys_nodup; [by eapply Good_wf|apply HG].
Qed.
Lemma ent_in s w h T k a : Good s w h T -> (k, a) ∈ ent T <-> (k, At a) ∈ leaves T.
Proof.
  intros HG. rewrite (ent_leaves _ _ _ _ HG). rewrite !elem_of_list_In. rewrite in_map_iff. split.
  - intros Hi. exists (k, a). done.
  - intros ([k' a'] & E & Hi). simpl in E. by injection E as -> ->.
Qed.
Lemma dict_some s w h T k a : Good s w h T -> dict T !! k = Some a <-> (k, At a) ∈ leaves T.
Proof.
  intros HG. rewrite <- (ent_in _ _ _ _ _ _ HG). symmetry. apply elem_of_list_to_map. by eapply ent_nodup.
Qed.
Lemma dict_none s w h T k : Good s w h T -> dict T !! k = None <-> ∀ p, (k, p) ∉ leaves T.
Proof.
  intros HG. split.
  - intros Hn p Hin. destruct p as [|a].
    + destruct (Good_ok _ _ _ _ _ _ _ _ _ HG Hin) as [_ Hc]. unfold cell in Hc. rewrite Hcell in Hc.
      by destruct Hc as (a & v & ? & _).
    + apply (dict_some _ _ _ _ _ _ HG) in Hin. congruence.
  - intros Hn. destruct (dict T !! k) as [a|] eqn:E; [|done].
    apply (dict_some _ _ _ _ _ _ HG) in E. by apply Hn in E.
Qed.
Lemma dict_insert s w h T w' T' k a : Good s w h T -> Good s w' h T' -> (∀ p, (k, p) ∉ leaves T) ->
  leaves T' ≡ₚ (k, At a) :: leaves T -> dict T' = <[k := a]> (dict T).
Proof.
  intros HG HG' Hn Hp. apply map_eq. intros k'. apply option_eq. intros a'.
  rewrite (dict_some _ _ _ _ _ _ HG'), Hp, elem_of_cons.
  destruct (decide (k' = k)) as [->|Hne].
  - rewrite lookup_insert. split; [|naive_solver]. intros [[= ->]|Hx]; [done|]. by apply Hn in Hx.
  - rewrite lookup_insert_ne by done. rewrite (dict_some _ _ _ _ _ _ HG). naive_solver.
Qed.
Lemma dict_delete s w h T w' T' k p : Good s w h T -> Good s w' h T' ->
  leaves T ≡ₚ (k, p) :: leaves T' -> dict T' = base.delete k (dict T).
Proof.
  intros HG HG' Hp. apply map_eq. intros k'. apply option_eq. intros a'.
  rewrite (dict_some _ _ _ _ _ _ HG').
  assert (Hnd : NoDup (map fst (leaves T))) by (eapply keys_nodup; [by eapply Good_wf|apply HG]).
  rewrite Hp in Hnd. simpl in Hnd. apply NoDup_cons in Hnd as [Hnk _].
  destruct (decide (k' = k)) as [->|Hne].
  - rewrite lookup_delete. split; [|done]. intros Hin. exfalso. apply Hnk.
    apply elem_of_list_In, in_map_iff. exists (k, At a'). split; [done|]. by apply elem_of_list_In.
  - rewrite lookup_delete_ne by done. rewrite (dict_some _ _ _ _ _ _ HG), Hp, elem_of_cons. naive_solver.
Qed.
Lemma dict_list s w h T : Good s w h T -> map_to_list (dict T) ≡ₚ ent T.
Proof. intros HG. apply map_to_list_to_map. by eapply ent_nodup. Qed.
Lemma dict_size s w h T : Good s w h T -> size (dict T) = length (leaves T).
Proof.
  intros HG. unfold size, map_size. rewrite (dict_list _ _ _ _ HG).
  rewrite (ent_leaves _ _ _ _ HG). by rewrite map_length.
Qed.

(** ** The relation *)
Definition RelG G w (σ : mstate) : Prop := Inv w G /\
  ms_map σ = (λ x : N * tree, (x.1, dict x.2)) <$> G /\ ms_val σ = vals w /\ ms_usr σ = w_usr w.
Definition Rel w (σ : mstate) : Prop := ∃ G, RelG G w σ.
(** From G to G' only the trees with other keys change. *)
Definition only G (σ : mstate) G' (σ' : mstate) : Prop :=
  ∀ h x, ms_map σ !! h = Some x -> ms_map σ' !! h = Some x -> G' !! h = G !! h.

Lemma Rel_init u : Rel (empty_world u) (minit u).
Proof.
  exists ∅. split; [apply Inv_empty|]. split_and!; [by rewrite fmap_empty| |done].
  apply map_eq. intros l. rewrite vals_lookup. done.
Qed.

(** ** The operations *)
Variables (FS FM : fam K HS V CK U) (sop : K -> V -> insop V CK U)
  (mdop : K -> (ptr -> bool -> M unit) -> insop V CK U) (vs : V -> V) (WS WM : N -> K -> K -> nat -> Prop).
Definition cellnew v k : M ptr := a <- alloc (BKv v (ly_ck L k)) ;; ret (At a).
(** F' differs from F at most in the rehashing of conflicting keys. *)
Definition alike (F' : fam K HS V CK U) : Prop :=
  fam_ok F' L /\ (∀ s k d, nib F' s k d = nib F s k d) /\ laws F' L.
(** An insertion of k with F' handles an item ck of depth d in its way if W holds. *)
Definition goodway (F' : fam K HS V CK U) (W : N -> K -> K -> nat -> Prop) : Prop := ∀ s k ck p d,
  ly_ok L k -> ly_ok L ck -> W s k ck d -> d < 240 ->
  (∀ fuel, 16 <= fuel -> f_conf F' fuel s k ck (N.of_nat d) = Some (hproc F' s ck d)) /\
  (lk_tmap (ly_leaf L ck p) = 0%N \/ dig s k (S d) ≠ dig s ck (S d)).

Lemma way_of s w h T k q ck cp ks : Good s w h T -> ks ≡ₚ map fst (leaves T) ->
  (q, (ck, cp)) ∈ pleaves [] T -> q = nibs F s k (length q) -> ck ≠ k ->
  in_way dig s ks k ck /\ depth dig s ks ck = length q - 1 /\ 1 <= length q.
Proof.
  clear Hfuel. intros HG Hks Hin Hq Hne.
  assert (Hw : well F s (q, (ck, cp))).
  { destruct HG as [_ Hpl]. unfold placed in Hpl. rewrite Forall_forall in Hpl. by apply Hpl. }
  assert (Hpos : 1 <= length q).
  { pose proof (Good_node _ _ _ _ _ _ _ HG) as Hn. destruct (pleaves_pre _ _ _ Hin) as (s' & Hs' & Hx).
    specialize (Hx Hn). simpl in Hs'. subst s'. destruct q; [done|simpl; lia]. }
  assert (Hd : depth dig s ks ck = length q - 1).
  { rewrite (depth_perm dig s ks _ ck Hks).
    rewrite (depth_ext dig (λ s k, Descend.nib F s k)) by (intros; by rewrite Hdig).
    rewrite <- (depth_spec F L D s w h T (q, (ck, cp)) le240 HG Hin). done. }
  split_and!; [|done|done]. split_and!; [|done|].
  - rewrite Hks. apply leaf_of in Hin. apply elem_of_list_In, in_map_iff. exists (ck, cp).
    split; [done|]. by apply elem_of_list_In.
  - rewrite Hd. assert (Hlen : length q <= 241) by (by eapply path_le).
    assert (length q <= common 241 (dig s k) (dig s ck)); [|lia].
    apply common_ge; [done|]. intros i Hi. rewrite <- !Hdig.
    assert (H1 : q !! i = Some (nib F s k i)) by (rewrite Hq; by rewrite nibs_lookup).
    assert (H2 : q !! i = Some (nib F s ck i)).
    { unfold well in Hw. simpl in Hw. rewrite Hw. by rewrite nibs_lookup. }
    congruence.
Qed.

Lemma way_clear F' W s w h T k ks : alike F' -> goodway F' W -> ly_ok L k -> Good s w h T -> ks ≡ₚ map fst (leaves T) ->
  ((∀ p, (k, p) ∉ leaves T) -> free dig W s ks k) -> clear F' L D s T k.
Proof.
  clear Hfuel. intros (HF' & Hnib & HL') HW Hok HG Hks Hfree Habs q ck cp Hin Hq Hne Hok'.
  assert (Hq' : q = nibs F s k (length q)).
  { rewrite Hq at 1. unfold nibs. apply map_ext. intros. by rewrite Hnib. }
  destruct (way_of s w h T k q ck cp ks HG Hks Hin Hq' Hne) as (Hway & Hd & Hpos).
  destruct (Hfree Habs ck Hway) as [Hsep Hw]. rewrite Hd in Hw.
  assert (Hlt : length q - 1 < 240).
  { destruct Hway as (_ & _ & Hlt). rewrite Hd in Hlt. pose proof (sep_common _ _ _ Hsep). lia. }
  destruct (HW s k ck cp _ Hok Hok' Hw Hlt) as [H1 H2]. split; [done|]. split.
  - destruct Hsep as (d & Hd1 & Hd2). exists d. split; [done|]. by rewrite !Hnib, !Hdig.
  - rewrite !Hnib, !Hdig. destruct H2 as [H2|H2]; [by left|right].
    replace (S (length q - 1)) with (length q) in H2 by lia. done.
Qed.
Hypothesis HFS : alike FS.
Hypothesis HFM : alike FM.
Hypothesis HWS : goodway FS WS.
Hypothesis HWM : goodway FM WM.
Hypothesis Hvs : ∀ s k ck d, WS s k ck d -> ∀ v, vs v = v.
Hypothesis Hsop : ∀ k v, io_found (sop k v) = (λ iv, store_val (lk_ptr iv) v) /\
  io_new (sop k v) = cellnew v k /\ io_split (sop k v) = cellnew (vs v) k.
Definition modnew k (f : ptr -> bool -> M unit) : M ptr := p <- cellnew zero k ;; f p false ;;; ret p.
Hypothesis Hmop : ∀ k f,
  io_found (mdop k f) = (λ iv, match lk_ptr iv with Nil => panic | At p => f (At p) true end) /\
  io_new (mdop k f) = modnew k f /\ io_split (mdop k f) = modnew k f.
Variable api : mapapi K V CK U.
Hypothesis HSet : ∀ (oh : option loc) k v, ma_Set api oh k v = insert FS (sop k v) fuel oh k.
Hypothesis HMod : ∀ (oh : option loc) k f, ma_Mod api oh k f = insert FM (mdop k f) fuel oh k.
Hypothesis HDel : ∀ (oh : option loc) k, ma_Del api oh k = delete F fuel oh k.
Hypothesis HGet : ∀ (oh : option loc) k, ma_Get api oh k = get F fuel zero oh k.
Hypothesis HVal : ∀ (oh : option loc) k, ma_Val api oh k = val F fuel zero oh k.
Hypothesis HPtr : ∀ (oh : option loc) k, ma_Ptr api oh k = ptr_of F fuel oh k.
Hypothesis HAll : ∀ (oh : option loc) f, ma_All api oh f = all_map F fuel oh f.

(** k is stored in h, or the items in its way are fine. *)
Definition fits (W : N -> K -> K -> nat -> Prop) (σ : mstate) h k : Prop :=
  ∃ s m, ms_map σ !! h = Some (s, m) /\ (is_Some (m !! k) \/ free dig W s (map_to_list m).*1 k).

(** The calls that are possible in a state. *)
Definition can (σ : mstate) (op : mop) : Prop :=
  match op with
  | MNew s => Q s
  | MSet h k _ => is_Some (ms_map σ !! h) /\ ly_ok L k /\ fits WS σ h k
  | MMod h k _ => is_Some (ms_map σ !! h) /\ ly_ok L k /\ fits WM σ h k
  | MDel h k | MGet h k | MVal h k | MPtr h k => is_Some (ms_map σ !! h) /\ ly_ok L k
  | MLen h | MDep h | MAll h _ => is_Some (ms_map σ !! h)
  | MLoad p | MStore p _ => is_Some (ms_val σ !! p)
  end.

(** The containers whose blocks a call may change. *)
Definition absent (σ : mstate) h k : Prop := ∀ s m, ms_map σ !! h = Some (s, m) -> m !! k = None.
Definition touches (σ : mstate) (op : mop) (h : positive) : Prop :=
  match op with
  | MSet h' k _ | MMod h' k _ => h' = h /\ absent σ h k
  | MDel h' _ => h' = h
  | _ => False
  end.

Lemma RelG_handle G w σ h : RelG G w σ -> is_Some (ms_map σ !! h) ->
  ∃ s T, Inv w G /\ G !! h = Some (s, T) /\ Q s /\ Good s w h T /\
    ms_map σ = (λ x : N * tree, (x.1, dict x.2)) <$> G /\ ms_map σ !! h = Some (s, dict T) /\
    ms_val σ = vals w /\ ms_usr σ = w_usr w.
Proof.
  intros (HI & Hm & Hv & Hu) [x Hx]. rewrite Hm, lookup_fmap in Hx.
  destruct (G !! h) as [[s T]|] eqn:E; [|done]. simpl in Hx. injection Hx as <-.
  destruct (in_good _ _ _ _ _ _ HI _ _ _ E) as [HQ HG].
  exists s, T. split_and!; try done. rewrite Hm, lookup_fmap, E. done.
Qed.
Lemma Rel_handle w σ h : Rel w σ -> is_Some (ms_map σ !! h) ->
  ∃ G s T, Inv w G /\ G !! h = Some (s, T) /\ Q s /\ Good s w h T /\
    ms_map σ = (λ x : N * tree, (x.1, dict x.2)) <$> G /\ ms_map σ !! h = Some (s, dict T) /\
    ms_val σ = vals w /\ ms_usr σ = w_usr w.
Proof. intros [G HR] Hh. exists G. by apply RelG_handle. Qed.

Lemma entry_block s w h T k a : Good s w h T -> dict T !! k = Some a ->
  ∃ v, w_mem w !! a = Some (BKv v (ly_ck L k)) /\ vals w !! a = Some v.
Proof.
  intros HG Ha. apply (dict_some _ _ _ _ _ _ HG) in Ha.
  destruct (Good_ok _ _ _ _ _ _ _ _ _ HG Ha) as [_ Hc]. unfold cell in Hc. rewrite Hcell in Hc.
  destruct Hc as (a' & v & [= <-] & Hv). exists v. rewrite vals_lookup, Hv. done.
Qed.

(** ** Reading *)
Lemma ptr_spec w G h s T k : Inv w G -> G !! h = Some (s, T) -> ly_ok L k ->
  ptr_of F fuel (Some h) k w = Ret (match dict T !! k with Some a => At a | None => Nil end) w.
Proof.
  intros HI Hh Hok. destruct (in_good _ _ _ _ _ _ HI _ _ _ Hh) as [HQ HG]. unfold ptr_of.
  destruct (Inv_find F L D Q HF le240 HL w G h s T k fuel HI Hh Hok Hfuel) as [(p & Hin & Hc & Hr)|(Hn & Hr)];
    rewrite (bind_Ret _ _ _ _ _ Hr).
  - unfold cell in Hc. rewrite Hcell in Hc. destruct Hc as (a & v & -> & Ha).
    apply (dict_some _ _ _ _ _ _ HG) in Hin. rewrite Hin. by rewrite (fo_ptr _ _ HF).
  - apply (dict_none _ _ _ _ _ HG) in Hn. by rewrite Hn.
Qed.

Lemma value_dict w σ h s T k : ms_map σ !! h = Some (s, dict T) -> ms_val σ = vals w ->
  value σ h k = (a ← dict T !! k; vals w !! a).
Proof. intros Hm Hv. unfold value. rewrite Hm. simpl. by rewrite Hv. Qed.

Lemma get_spec w σ h s T k : Good s w h T -> ms_map σ !! h = Some (s, dict T) -> ms_val σ = vals w ->
  ptr_of F fuel (Some h) k w = Ret (match dict T !! k with Some a => At a | None => Nil end) w ->
  get F fuel zero (Some h) k w = Ret (default zero (value σ h k), bool_decide (is_Some (value σ h k))) w /\
  val F fuel zero (Some h) k w = Ret (default zero (value σ h k)) w.
Proof.
  intros HG Hm Hv Hp. rewrite (value_dict _ _ _ _ _ _ Hm Hv). unfold get, val.
  rewrite !(bind_Ret _ _ _ _ _ Hp). destruct (dict T !! k) as [a|] eqn:E.
  - destruct (entry_block _ _ _ _ _ _ HG E) as (v & Hb & Hval). simpl. rewrite Hval.
    rewrite !(bind_Ret _ _ _ _ _ (load_kv_step _ _ _ _ Hb)). done.
  - done.
Qed.

(** ** Writing *)
Lemma keep_store w a v v' (ck : CK) n u l : w_mem w !! a = Some (BKv v ck) ->
  keep (w_mem w) (w_mem (World (<[a := BKv v' ck]> (w_mem w)) n u : world)) l.
Proof.
  intros Ha. simpl. destruct (decide (l = a)) as [->|Hne].
  - intros b Hb. rewrite Ha in Hb. injection Hb as <-. eexists. split; [apply lookup_insert|]. right. eauto.
  - apply keep_same. by rewrite lookup_insert_ne.
Qed.

Lemma map_insert_dict G h s T : (λ x : N * tree, (x.1, dict x.2)) <$> <[h := (s, T)]> G
  = <[h := (s, dict T)]> ((λ x : N * tree, (x.1, dict x.2)) <$> G).
Proof. by rewrite fmap_insert. Qed.

Lemma mod_cb_run f a b w v (ck : CK) : w_mem w !! a = Some (BKv v ck) ->
  mod_cb f (At a) b w = Ret tt (World (<[a := BKv (f (w_usr w) v b).2 ck]> (w_mem w)) (w_nxt w) (f (w_usr w) v b).1).
Proof.
  intros Ha. unfold mod_cb. rewrite (bind_Ret _ _ _ _ _ (load_kv_step _ _ _ _ Ha)).
  rewrite (bind_Ret get_usr _ w (w_usr w) w eq_refl). cbn [fst].
  rewrite (bind_Ret _ _ _ _ _ (store_val_step _ _ _ _ _ Ha)). done.
Qed.

Lemma cellnew_run v k w : cellnew v k w =
  Ret (At (w_nxt w)) (World (<[w_nxt w := BKv v (ly_ck L k)]> (w_mem w)) (xO (w_nxt w)) (w_usr w)).
Proof. done. Qed.

Lemma newcell_ok w1 v k u : w_ok w1 ->
  newcell L w1 (World (<[w_nxt w1 := BKv v (ly_ck L k)]> (w_mem w1)) (xO (w_nxt w1)) u) k (At (w_nxt w1)).
Proof.
  clear Hfuel. intros Hok. split_and!; simpl.
  - intros l b Hb. simpl in *. destruct (decide (l = w_nxt w1)) as [->|Hne]; [lia|].
    rewrite lookup_insert_ne in Hb by done. apply Hok in Hb. lia.
  - lia.
  - intros l Hl. apply keep_same. rewrite lookup_insert_ne by lia. done.
  - unfold cell. rewrite Hcell. exists (w_nxt w1), v. split; [done|]. apply lookup_insert.
  - intros l Hl. apply elem_of_list_singleton in Hl as ->. lia.
Qed.

Lemma modnew_run f k w : w_ok w -> modnew k (mod_cb f) w =
  Ret (At (w_nxt w)) (World (<[w_nxt w := BKv (f (w_usr w) zero false).2 (ly_ck L k)]> (w_mem w))
    (xO (w_nxt w)) (f (w_usr w) zero false).1).
Proof.
  intros Hok. unfold modnew. rewrite (bind_Ret _ _ _ _ _ (cellnew_run _ _ _)).
  rewrite (bind_Ret _ _ _ _ _ (mod_cb_run f (w_nxt w) false _ zero (ly_ck L k) (lookup_insert _ _ _))).
  simpl. by rewrite insert_insert.
Qed.

(** An insertion: [v0] is what io_found leaves, [vn]/[vsp] what io_new/io_split make. *)
Lemma insert_step F' op G w σ h k W (vf : V -> V * U) vn un :
  alike F' -> goodway F' W ->
  RelG G w σ -> is_Some (ms_map σ !! h) -> ly_ok L k -> fits W σ h k ->
  (∀ a v ck, w_mem w !! a = Some (BKv v ck) -> ∀ iv, lk_ptr iv = At a ->
     io_found op iv w = Ret tt (World (<[a := BKv (vf v).1 ck]> (w_mem w)) (w_nxt w) (vf v).2)) ->
  (∀ b w1, w_ok w1 -> w_usr w1 = w_usr w -> (b = false -> ∃ s ck d, W s k ck d) -> (if b : bool then io_new op else io_split op) w1 =
     Ret (At (w_nxt w1)) (World (<[w_nxt w1 := BKv vn (ly_ck L k)]> (w_mem w1)) (xO (w_nxt w1)) un)) ->
  ∃ w' σ' G', insert F' op fuel (Some h) k w = Ret tt w' /\ RelG G' w' σ' /\ (only G σ G' σ' /\ confined (λ h', h = h' /\ absent σ h' k) G w G' w') /\
    match value σ h k with
    | Some v => put σ h k (vf v).1 (vf v).2 σ'
    | None => put σ h k vn un σ'
    end.
Proof.
  intros Hal HW HR Hh Hok Hfits Hfound Hnew. pose proof Hal as (HF' & Hnib & HL').
  destruct (RelG_handle _ _ _ _ HR Hh) as (s & T & HI & HGh & HQ & HG & Hm & Hmh & Hv & Hu).
  rewrite (value_dict _ _ _ _ _ _ Hmh Hv).
  assert (Hks : (map_to_list (dict T)).*1 ≡ₚ map fst (leaves T)).
  { rewrite (dict_list _ _ _ _ HG). by rewrite (ent_keys _ _ _ _ HG). }
  assert (Hfree : (∀ p, (k, p) ∉ leaves T) -> free dig W s (map_to_list (dict T)).*1 k).
  { intros Habs. destruct Hfits as (s' & m & Hm' & Hx). rewrite Hmh in Hm'. injection Hm' as <- <-.
    destruct Hx as [[a Ha]|Hx]; [|done]. apply (dict_some _ _ _ _ _ _ HG) in Ha. by apply Habs in Ha. }
  pose proof (way_clear F' W s w h T k _ Hal HW Hok HG Hks Hfree) as Hre.
  destruct (Inv_insert F L D Q le240 F' op w G h s T k fuel HF' (Hnib s) HL' HI HGh Hok Hfuel Hre)
    as [(p & Hin & Hrun)|(Habs & b & w1 & Hq & Hok1 & He & Hc & Hpan & Hm2)].
  - destruct (Good_ok _ _ _ _ _ _ _ _ _ HG Hin) as [_ Hcl]. unfold cell in Hcl. rewrite Hcell in Hcl.
    destruct Hcl as (a & v & -> & Ha).
    rewrite Hrun. rewrite (Hfound a v _ Ha) by (by rewrite (fo_ptr _ _ HF)).
    apply (dict_some _ _ _ _ _ _ HG) in Hin. rewrite Hin. simpl. rewrite vals_lookup, Ha. 
    eexists _, (MState (ms_map σ) (<[a := (vf v).1]> (ms_val σ)) (vf v).2), G. split; [done|]. split; [|split].
    + split_and!; try done.
      * by eapply Inv_store.
      * simpl. rewrite vals_store. by rewrite Hv.
    + split; [done|]. apply confined_keep; [simpl; lia|]. intros l _. by eapply keep_store.
    + exists s, (dict T). split; [done|]. rewrite Hin. done.
  - assert (Hb : b = false -> ∃ s ck d, W s k ck d).
    { intros ->. destruct (Hc eq_refl) as (q & ck & cp & Hin & Hne & Hqk).
      destruct (way_of s w h T k q ck cp _ HG Hks Hin Hqk Hne) as (Hway & Hd & _).
      destruct (Hfree Habs ck Hway) as [_ Hw]. eauto. }
    assert (Hdn : dict T !! k = None) by (by apply (dict_none _ _ _ _ _ HG)). rewrite Hdn. simpl.
    cbv zeta in Hm2.
    destruct (Hm2 _ _ (Hnew b w1 Hok1 (qu_usr _ _ _ Hq) Hb) (newcell_ok _ _ _ _ Hok1)) as (w' & T' & Hrun & HI' & Hlv & Hu' & Hv' & Hq2 & Hft).
    assert (HG' : Good s w' h T').
    { eapply (in_good _ _ _ _ _ _ HI' h). apply lookup_insert. }
    exists w', (MState (<[h := (s, <[k := w_nxt w1]> (dict T))]> (ms_map σ)) (<[w_nxt w1 := vn]> (ms_val σ)) un), (<[h := (s, T')]> G).
    assert (Hvw1 : vals w1 = vals w) by (eapply vals_quiet; [apply HI|exact Hq]).
    split; [done|]. split; [|split].
    + split_and!; [done| | |done]; simpl.
      * rewrite map_insert_dict, Hm. by rewrite (dict_insert _ _ _ _ _ _ _ _ HG HG' Habs Hlv).
      * rewrite Hv', vals_alloc, Hv. by rewrite Hvw1.
    + split.
      * intros h' x Hx Hx'. simpl in Hx'. destruct (decide (h' = h)) as [->|Hne]; [|by rewrite lookup_insert_ne].
        exfalso. rewrite lookup_insert in Hx'. rewrite Hmh in Hx. rewrite <- Hx in Hx'. injection Hx' as Hd.
        assert (dict T !! k = Some (w_nxt w1)) by (rewrite <- Hd; apply lookup_insert). congruence.
      * pose proof (qu_nxt _ _ _ Hq) as Hn1. pose proof (qu_nxt _ _ _ Hq2) as Hn2. simpl in Hn2.
        eapply (confined_update _ w w' G h s T T'); [|done|lia| |done].
        -- split; [done|]. intros s' m' Hm'. rewrite Hmh in Hm'. by injection Hm' as <- <-.
        -- intros l Hl Hnf. apply keep_same. rewrite (qu_frame _ _ _ Hq2); simpl.
           ++ rewrite lookup_insert_ne by lia. by apply (qu_frame _ _ _ Hq).
           ++ lia.
           ++ intros [?|?]; [done|lia].
    + exists s, (dict T). split; [done|]. rewrite Hdn. exists (w_nxt w1). split; [|done].
      rewrite Hv, <- Hvw1. by apply vals_fresh.
Qed.

(** ** Iterating *)
Lemma all_cb_run f k a w v ck : w_mem w !! a = Some (BKv v ck) ->
  all_cb f k (At a) w = Ret (f (w_usr w) k v).2
    (World (<[a := BKv (f (w_usr w) k v).1.2 ck]> (w_mem w)) (w_nxt w) (f (w_usr w) k v).1.1).
Proof.
  intros Ha. unfold all_cb. rewrite (bind_Ret _ _ _ _ _ (load_kv_step _ _ _ _ Ha)).
  rewrite (bind_Ret get_usr _ w (w_usr w) w eq_refl). cbn [fst].
  rewrite (bind_Ret _ _ _ _ _ (store_val_step _ _ _ _ _ Ha)). done.
Qed.

Lemma visits_each f G h s T es : G !! h = Some (s, T) -> ∀ w, Inv w G -> (∀ e, e ∈ es -> e ∈ ent T) ->
  ∃ b w', visits L (act_map F (all_cb f)) (map (λ e, (e.1, At e.2)) es) w = Ret b w' /\ Inv w' G /\
    vals w' = (each f es (w_usr w) (vals w)).2 /\ w_usr w' = (each f es (w_usr w) (vals w)).1 /\
    w_nxt w' = w_nxt w /\ ∀ l, keep (w_mem w) (w_mem w') l.
Proof.
  intros Hh. induction es as [|[k a] es IH]; intros w HI Hsub; cbn [map visits each fst snd].
  { exists true, w. split_and!; try done. intros l. by apply keep_same. }
  destruct (in_good _ _ _ _ _ _ HI _ _ _ Hh) as [HQ HG].
  assert (Hin : (k, At a) ∈ leaves T) by (apply (ent_in _ _ _ _ _ _ HG), Hsub; left).
  destruct (Good_ok _ _ _ _ _ _ _ _ _ HG Hin) as [Hok Hc]. pose proof Hc as Hc'.
  unfold cell in Hc'. rewrite Hcell in Hc'. destruct Hc' as (a' & v & [= <-] & Ha).
  assert (Hrun : act_map F (all_cb f) (ly_leaf L k (At a)) w = Ret (f (w_usr w) k v).2
    (World (<[a := BKv (f (w_usr w) k v).1.2 (ly_ck L k)]> (w_mem w)) (w_nxt w) (f (w_usr w) k v).1.1)).
  { unfold act_map. rewrite (bind_Ret _ _ _ _ _ (fo_key _ _ HF k (At a) w Hok Hc)).
    rewrite (fo_ptr _ _ HF). by apply all_cb_run. }
  rewrite (bind_Ret _ _ _ _ _ Hrun). rewrite vals_lookup, Ha.
  destruct (f (w_usr w) k v) as [[u v'] b] eqn:Ef. cbn [fst snd].
  assert (HI' : Inv (World (<[a := BKv v' (ly_ck L k)]> (w_mem w)) (w_nxt w) u) G) by (by eapply Inv_store).
  destruct b.
  - destruct (IH _ HI') as (b & w' & H1 & H2 & H3 & H4 & H5 & H6).
    { intros e He. apply Hsub. by right. }
    exists b, w'. rewrite vals_store in H3, H4. split_and!; try done. intros l. eapply keep_trans; [by eapply keep_store|apply H6].
  - eexists _, _. split; [done|]. rewrite vals_store. split_and!; try done. intros l. by eapply keep_store.
Qed.

Lemma all_spec f w G h s T : Inv w G -> G !! h = Some (s, T) ->
  ∃ w', all_map F fuel (Some h) (all_cb f) w = Ret tt w' /\ Inv w' G /\
    vals w' = (each f (ent T) (w_usr w) (vals w)).2 /\ w_usr w' = (each f (ent T) (w_usr w) (vals w)).1 /\
    w_nxt w' = w_nxt w /\ ∀ l, keep (w_mem w) (w_mem w') l.
Proof.
  intros HI Hh. destruct (in_good _ _ _ _ _ _ HI _ _ _ Hh) as [HQ HG].
  destruct (visits_each f G h s T (ent T) Hh w HI) as (b & w' & Hrun & HI' & Hv & Hu & Hn & Hkp); [done|].
  exists w'. split_and!; try done. unfold all_map.
  rewrite <- (ent_leaves _ _ _ _ HG) in Hrun.
  rewrite (bind_Ret _ _ _ b w'); [done|].
  rewrite <- Hrun.
  apply (scan_spec L (act_map F (all_cb f)) h T (λ w, Inv w G)) with (c := []); try done.
  - intros w0 H0. destruct (in_good _ _ _ _ _ _ H0 _ _ _ Hh) as [_ HG0]. by eapply Good_carries.
  - intros k p w0 b0 w0' Hin H0 Hr. destruct (in_good _ _ _ _ _ _ H0 _ _ _ Hh) as [_ HG0].
    destruct (Good_ok _ _ _ _ _ _ _ _ _ HG0 Hin) as [Hok Hc]. pose proof Hc as Hc'.
    unfold cell in Hc'. rewrite Hcell in Hc'. destruct Hc' as (a' & v & -> & Ha).
    unfold act_map in Hr. rewrite (bind_Ret _ _ _ _ _ (fo_key _ _ HF k (At a') w0 Hok Hc)) in Hr.
    rewrite (fo_ptr _ _ HF), (all_cb_run _ _ _ _ _ _ Ha) in Hr. injection Hr as <- <-.
    by eapply Inv_store.
  - by eapply Good_node.
  - destruct HG as [HM _]. pose proof (mi_hgt _ _ _ _ _ _ HM). lia.
Qed.

(** ** Every call *)
Lemma step_okF G w σ op : RelG G w σ -> can σ op ->
  ∃ res w' σ' G', mcall api op w = Ret res w' /\ mstep dig zero σ op res σ' /\ RelG G' w' σ' /\ only G σ G' σ' /\ confined (touches σ op) G w G' w'.
Proof.
  intros HR Hcan. destruct op as [s|h k v|h k f|h k|h k|h k|h k|h|h|h f|p|p v]; simpl in Hcan.
  - (* New *)
    destruct HR as (HI & Hm & Hv & Hu).
    destruct (new_spec F L D Q le240 w G s HI Hcan) as (h & a & w' & Hrun & HI' & Hfr & Hv' & Hu' & _ & Hn1 & Hn2 & Hn3 & Hsm).
    exists (RHandle h), w', (MState (<[h := (s, ∅)]> (ms_map σ)) (ms_val σ) (ms_usr σ)), (<[h := (s, Node a [])]> G).
    split; [|split; [|split]].
    + unfold mcall. rewrite (bind_Ret _ _ _ _ _ Hrun). done.
    + exists h. split_and!; try done. by rewrite Hm, lookup_fmap, Hfr.
    + split_and!; simpl; [done| |congruence|congruence].
      rewrite map_insert_dict, Hm. done.
    + split.
      { intros h' x Hx _. rewrite Hm, lookup_fmap in Hx. rewrite lookup_insert_ne; [done|]. intros <-. by rewrite Hfr in Hx. }
      split; [done|]. intros l Hl _. split; [by apply keep_same, Hsm|].
      intros h' s' T' H' Hin. destruct (decide (h' = h)) as [->|Hne]; [|by rewrite lookup_insert_ne in H'].
      exfalso. rewrite lookup_insert in H'. injection H' as <- <-. unfold foot in Hin. simpl in Hin.
      apply elem_of_cons in Hin as [->|Hin]; [lia|]. apply elem_of_list_singleton in Hin as ->. lia.
  - (* Set *)
    destruct Hcan as (Hh & Hok & Hfull).
    destruct (insert_step FS (sop k v) G w σ h k WS (λ _, (v, w_usr w)) v (w_usr w) HFS) as (w' & σ' & G' & Hrun & HR' & [Hon Hfra] & Hput); try done.
    + intros a v0 ck Ha iv Hiv. destruct (Hsop k v) as (-> & _). rewrite Hiv. by rewrite (store_val_step _ _ _ _ _ Ha).
    + intros b w1 Hok1 Hu Hb. destruct (Hsop k v) as (_ & H1 & H2). destruct b.
      * rewrite H1, cellnew_run. by rewrite Hu.
      * rewrite H2, cellnew_run. destruct (Hb eq_refl) as (s & ck & d & E). by rewrite (Hvs _ _ _ _ E), Hu.
    + exists RUnit, w', σ', G'. split; [|split; [split; [done|]|split; [done|split; [done|exact Hfra]]]].
      * unfold mcall. rewrite HSet, (bind_Ret _ _ _ _ _ Hrun). done.
      * destruct HR as (_ & _ & _ & ->). by destruct (value σ h k).
  - (* Mod *)
    destruct Hcan as (Hh & Hok & Hfull).
    destruct (insert_step FM (mdop k (mod_cb f)) G w σ h k WM (λ v, ((f (w_usr w) v true).2, (f (w_usr w) v true).1))
      (f (w_usr w) zero false).2 (f (w_usr w) zero false).1 HFM) as (w' & σ' & G' & Hrun & HR' & [Hon Hfra] & Hput); try done.
    + intros a v0 ck Ha iv Hiv. destruct (Hmop k (mod_cb f)) as (-> & _). rewrite Hiv. by rewrite (mod_cb_run _ _ _ _ _ _ Ha).
    + intros b w1 Hok1 Hu Hb. destruct (Hmop k (mod_cb f)) as (_ & H1 & H2). 
      destruct b; rewrite ?H1, ?H2, modnew_run by done; by rewrite Hu.
    + exists RUnit, w', σ', G'. split; [|split; [split; [done|]|split; [done|split; [done|exact Hfra]]]].
      * unfold mcall. rewrite HMod, (bind_Ret _ _ _ _ _ Hrun). done.
      * destruct HR as (_ & _ & _ & ->). destruct (value σ h k) as [v|]; simpl in *.
        -- by destruct (f (w_usr w) v true).
        -- by destruct (f (w_usr w) zero false).
  - (* Del *)
    destruct Hcan as (Hh & Hok).
    destruct (RelG_handle _ _ _ _ HR Hh) as (s & T & HI & HGh & HQ & HG & Hm & Hmh & Hv & Hu).
    exists RUnit.
    destruct (Inv_delete F L D Q HF le240 HL w G h s T k fuel HI HGh Hok Hfuel)
      as [(p & q & w' & T' & Hin & _ & Hrun & HI' & Hlv & Hu' & Hv' & Hqt & _ & Hft)|(Habs & w' & Hrun & HI' & Hsb & Hu' & Hv')];
      exists w', (MState (<[h := (s, base.delete k (dict T))]> (ms_map σ)) (ms_val σ) (ms_usr σ));
      [exists (<[h := (s, T')]> G)|exists G];
      (split; [unfold mcall; by rewrite HDel, (bind_Ret _ _ _ _ _ Hrun)|]);
      (split; [split; [done|]; by exists s, (dict T)|]); (split; [|split]).
    + split_and!; simpl; [done| |congruence|congruence].
      assert (HG' : Good s w' h T') by (eapply (in_good _ _ _ _ _ _ HI' h); apply lookup_insert).
      rewrite map_insert_dict, Hm. by rewrite (dict_delete _ _ _ _ _ _ _ _ HG HG' Hlv).
    + intros h' x Hx Hx'. simpl in Hx'. destruct (decide (h' = h)) as [->|Hne]; [|by rewrite lookup_insert_ne].
      exfalso. rewrite lookup_insert in Hx'. rewrite Hmh in Hx. rewrite <- Hx in Hx'. injection Hx' as Hd.
      destruct (Good_ok _ _ _ _ _ _ _ _ _ HG Hin) as [_ Hcl]. unfold cell in Hcl. rewrite Hcell in Hcl.
      destruct Hcl as (a & v & -> & _). apply (dict_some _ _ _ _ _ _ HG) in Hin.
      rewrite <- Hd, lookup_delete in Hin. done.
    + eapply (confined_update _ w w' G h s T T'); [done|done|apply (qu_nxt _ _ _ Hqt)| |done].
      intros l Hl Hnf. apply keep_same. by apply (qu_frame _ _ _ Hqt).
    + split_and!; simpl; [done| |congruence|congruence].
      apply (dict_none _ _ _ _ _ HG) in Habs. rewrite (delete_notin _ _ Habs).
      rewrite <- Hm. by rewrite insert_id.
    + done.
    + assert (Hqt : quiet (λ l, l = h) w w') by (by eapply sbp_quiet).
      rewrite <- (insert_id G h (s, T)) at 2 by done.
      eapply (confined_update _ w w' G h s T T); [done|done|apply (qu_nxt _ _ _ Hqt)| |auto].
      intros l Hl Hnf. apply keep_same. apply (qu_frame _ _ _ Hqt); [done|]. intros ->. apply Hnf. unfold foot. set_solver +.
  - (* Get *)
    destruct Hcan as (Hh & Hok).
    destruct (RelG_handle _ _ _ _ HR Hh) as (s & T & HI & HGh & HQ & HG & Hm & Hmh & Hv & Hu).
    destruct (get_spec w σ h s T k HG Hmh Hv (ptr_spec _ _ _ _ _ _ HI HGh Hok)) as [H1 H2].
    eexists _, w, σ, G. unfold mcall. rewrite HGet, (bind_Ret _ _ _ _ _ H1). split; [done|]. split; [|split; [done|split; [done|apply confined_refl]]]. done.
  - (* Val *)
    destruct Hcan as (Hh & Hok).
    destruct (RelG_handle _ _ _ _ HR Hh) as (s & T & HI & HGh & HQ & HG & Hm & Hmh & Hv & Hu).
    destruct (get_spec w σ h s T k HG Hmh Hv (ptr_spec _ _ _ _ _ _ HI HGh Hok)) as [H1 H2].
    eexists _, w, σ, G. unfold mcall. rewrite HVal, (bind_Ret _ _ _ _ _ H2). split; [done|]. split; [|split; [done|split; [done|apply confined_refl]]]. done.
  - (* Ptr *)
    destruct Hcan as (Hh & Hok).
    destruct (RelG_handle _ _ _ _ HR Hh) as (s & T & HI & HGh & HQ & HG & Hm & Hmh & Hv & Hu).
    eexists _, w, σ, G. unfold mcall. rewrite HPtr, (bind_Ret _ _ _ _ _ (ptr_spec _ _ _ _ _ _ HI HGh Hok)). split; [done|].
    split; [|split; [done|split; [done|apply confined_refl]]]. split; [done|]. exists s, (dict T). split; [done|]. by destruct (dict T !! k).
  - (* Len *)
    destruct (RelG_handle _ _ _ _ HR Hcan) as (s & T & HI & HGh & HQ & HG & Hm & Hmh & Hv & Hu).
    destruct (Inv_root F L D Q w G h s T HI HGh) as (rt & Hr & Hl & Hd).
    eexists _, w, σ, G. unfold mcall, Len, root_len. rewrite bind_assoc, (bind_Ret _ _ _ _ _ (load_root_step _ _ _ Hr)).
    split; [done|]. split; [|split; [done|split; [done|apply confined_refl]]]. split; [done|]. exists s, (dict T). split; [done|].
    rewrite (dict_size _ _ _ _ HG), Hl. done.
  - (* Dep *)
    destruct (RelG_handle _ _ _ _ HR Hcan) as (s & T & HI & HGh & HQ & HG & Hm & Hmh & Hv & Hu).
    destruct (Inv_root F L D Q w G h s T HI HGh) as (rt & Hr & Hl & Hd).
    exists (RDep (mean (N.of_nat (total_depth dig s (map_to_list (dict T)).*1)) (N.of_nat (size (dict T))))), w, σ, G.
    split; [|split; [split; [done|]; by exists s, (dict T)|split; [done|split; [done|apply confined_refl]]]].
    unfold mcall, Dep, root_dep. rewrite bind_assoc, (bind_Ret _ _ _ _ _ (load_root_step _ _ _ Hr)).
    rewrite (dict_size _ _ _ _ HG), Hl, Hd, (sum_depths F L D s w h T le240 HG). unfold mean.
    replace (total_depth (λ s k, Descend.nib F s k) s (map fst (leaves T)))
      with (total_depth dig s (map_to_list (dict T)).*1); [by destruct (_ =? 0)%N|].
    rewrite (total_depth_perm dig s _ (map fst (leaves T))).
    + apply total_depth_ext. intros. by rewrite Hdig.
    + rewrite (dict_list _ _ _ _ HG). by rewrite (ent_keys _ _ _ _ HG).
  - (* All *)
    destruct (RelG_handle _ _ _ _ HR Hcan) as (s & T & HI & HGh & HQ & HG & Hm & Hmh & Hv & Hu).
    destruct (all_spec f w G h s T HI HGh) as (w' & Hrun & HI' & Hv' & Hu' & Hn & Hkp).
    exists RUnit, w', (MState (ms_map σ) (each f (ent T) (ms_usr σ) (ms_val σ)).2 (each f (ent T) (ms_usr σ) (ms_val σ)).1), G.
    split; [unfold mcall; by rewrite HAll, (bind_Ret _ _ _ _ _ Hrun)|]. split; [|split; [|split; [done|apply confined_keep; [lia|done]]]].
    + split; [done|]. exists s, (dict T), (ent T). split_and!; try done.
      * by rewrite (dict_list _ _ _ _ HG).
      * unfold in_order. rewrite (ent_keys _ _ _ _ HG).
        pose proof (order_spec F L D s w h T HG) as Hs.
        eapply StronglySorted_impl; [|exact Hs]. intros x y (d & H1 & H2). exists d. split.
        -- intros i Hi. rewrite <- !Hdig. by apply H1.
        -- by rewrite <- !Hdig.
    + unfold RelG. simpl. rewrite Hv, Hu. done.
  - (* load *)
    destruct Hcan as [v Hp]. pose proof HR as (HI & Hm & Hv & Hu). rewrite Hv, vals_lookup in Hp.
    destruct (w_mem w !! p) as [[|v' ck|]|] eqn:E; try done. injection Hp as ->.
    exists (RVal v), w, σ, G. unfold mcall. rewrite (bind_Ret _ _ _ _ _ (load_kv_step _ _ _ _ E)). split; [done|].
    split; [|split; [done|split; [done|apply confined_refl]]]. split; [done|]. exists v. split; [|done]. by rewrite Hv, vals_lookup, E.
  - (* store *)
    pose proof Hcan as [v0 Hp]. pose proof HR as (HI & Hm & Hv & Hu). rewrite Hv, vals_lookup in Hp.
    destruct (w_mem w !! p) as [[|v' ck|]|] eqn:E; try done. injection Hp as ->.
    eexists RUnit, _, (MState (ms_map σ) (<[p := v]> (ms_val σ)) (ms_usr σ)), G. unfold mcall.
    rewrite (bind_Ret _ _ _ _ _ (store_val_step _ _ _ _ _ E)). split; [done|].
    split; [done|]. split; [|split; [done|apply confined_keep; [simpl; lia|intros l _; by eapply keep_store]]]. split_and!; simpl; try done.
    + by eapply Inv_store.
    + unfold set_mem. rewrite vals_store. by rewrite Hv.
Qed.

Lemma step_okG G w σ op : RelG G w σ -> can σ op ->
  ∃ res w' σ' G', mcall api op w = Ret res w' /\ mstep dig zero σ op res σ' /\ RelG G' w' σ' /\ only G σ G' σ'.
Proof.
  intros HR Hcan. destruct (step_okF G w σ op HR Hcan) as (res & w' & σ' & G' & H1 & H2 & H3 & H4 & _).
  by exists res, w', σ', G'.
Qed.

Lemma step_ok w σ op : Rel w σ -> can σ op ->
  ∃ res w' σ', mcall api op w = Ret res w' /\ mstep dig zero σ op res σ' /\ Rel w' σ'.
Proof.
  intros [G HR] Hcan. destruct (step_okG G w σ op HR Hcan) as (res & w' & σ' & G' & H1 & H2 & H3 & _).
  exists res, w', σ'. split_and!; try done. by exists G'.
Qed.

Lemma read_pure w σ op res w' : Rel w σ -> can σ op -> reads op -> mcall api op w = Ret res w' -> w' = w.
Proof.
  intros HR Hcan Hrd Hc. destruct op as [s|h k v|h k f|h k|h k|h k|h k|h|h|h f|p|p v]; simpl in Hcan; try done.
  - destruct Hcan as (Hh & Hok).
    destruct (Rel_handle _ _ _ HR Hh) as (G & s & T & HI & HGh & HQ & HG & Hm & Hmh & Hv & Hu).
    destruct (get_spec w σ h s T k HG Hmh Hv (ptr_spec _ _ _ _ _ _ HI HGh Hok)) as [H1 H2].
    unfold mcall in Hc. rewrite HGet, (bind_Ret _ _ _ _ _ H1) in Hc. by injection Hc.
  - destruct Hcan as (Hh & Hok).
    destruct (Rel_handle _ _ _ HR Hh) as (G & s & T & HI & HGh & HQ & HG & Hm & Hmh & Hv & Hu).
    destruct (get_spec w σ h s T k HG Hmh Hv (ptr_spec _ _ _ _ _ _ HI HGh Hok)) as [H1 H2].
    unfold mcall in Hc. rewrite HVal, (bind_Ret _ _ _ _ _ H2) in Hc. by injection Hc.
  - destruct Hcan as (Hh & Hok).
    destruct (Rel_handle _ _ _ HR Hh) as (G & s & T & HI & HGh & HQ & HG & Hm & Hmh & Hv & Hu).
    unfold mcall in Hc. rewrite HPtr, (bind_Ret _ _ _ _ _ (ptr_spec _ _ _ _ _ _ HI HGh Hok)) in Hc. by injection Hc.
  - destruct (Rel_handle _ _ _ HR Hcan) as (G & s & T & HI & HGh & HQ & HG & Hm & Hmh & Hv & Hu).
    destruct (Inv_root F L D Q w G h s T HI HGh) as (rt & Hr & Hl & Hd).
    unfold mcall, Len, root_len in Hc. rewrite bind_assoc, (bind_Ret _ _ _ _ _ (load_root_step _ _ _ Hr)) in Hc. by injection Hc.
  - destruct (Rel_handle _ _ _ HR Hcan) as (G & s & T & HI & HGh & HQ & HG & Hm & Hmh & Hv & Hu).
    destruct (Inv_root F L D Q w G h s T HI HGh) as (rt & Hr & Hl & Hd).
    unfold mcall, Dep, root_dep in Hc. rewrite bind_assoc, (bind_Ret _ _ _ _ _ (load_root_step _ _ _ Hr)) in Hc.
    destruct (_ =? _)%N in Hc; by injection Hc.
  - destruct Hcan as [v Hp]. pose proof HR as (G & HI & Hm & Hv & Hu). rewrite Hv, vals_lookup in Hp.
    destruct (w_mem w !! p) as [[|v' ck|]|] eqn:E; try done.
    unfold mcall in Hc. rewrite (bind_Ret _ _ _ _ _ (load_kv_step _ _ _ _ E)) in Hc. by injection Hc.
Qed.

(** ** Histories *)
Implicit Types (tr : list (mop * mres V)).
Lemma guard_fits W u0 tr σ h k : mspec dig zero u0 tr σ -> (∃ s, (MNew s, RHandle h) ∈ tr) ->
  k ∈ stored tr h \/ (∀ s, (MNew s, RHandle h) ∈ tr -> free dig W s (elements (stored tr h)) k) -> fits W σ h k.
Proof.
  intros Hs [s Hin] Hg. destruct (mspec_live dig zero u0 tr σ Hs _ _ Hin) as [[s' m] Hm].
  exists s', m. split; [done|]. destruct Hg as [Hg|Hg].
  - left. apply (stored_holds dig zero u0 tr σ h k Hs) in Hg as (s1 & m1 & Hm1 & Hk). congruence.
  - right. eapply free_perm; [by eapply stored_keys|]. apply Hg. by eapply mspec_seed.
Qed.

Lemma allowed_can u0 tr σ op : mspec dig zero u0 tr σ -> mallowed (ly_ok L) Q tr op -> ins_guard dig WS WM tr op -> can σ op.
Proof.
  intros Hs Ha Hg. pose proof (mspec_live dig zero u0 tr σ Hs) as Hl. pose proof (mspec_addr dig zero u0 tr σ Hs) as Hp.
  destruct op as [s|h k v|h k f|h k|h k|h k|h k|h|h|h f|p|p v]; simpl in *; try done.
  1-2: destruct Ha as [[s Hh] Hk]; split_and!; [by eapply Hl|done|]; eapply guard_fits; eauto.
  1-4: destruct Ha as [[s Hh] Hk]; split; [by eapply Hl|done].
  1-3: destruct Ha as [s Hh]; by eapply Hl.
  1-2: destruct Ha as (h & k & Hin); by eapply Hp.
Qed.

Variable ok : list (mop * mres V) -> mop -> Prop.
Variable u0 : U.
Hypothesis Hok : ∀ tr op, ok tr op -> mallowed (ly_ok L) Q tr op /\ ins_guard dig WS WM tr op.

Lemma run_rel tr w : mrun api ok u0 tr w -> ∃ σ, mspec dig zero u0 tr σ /\ Rel w σ.
Proof.
  induction 1 as [|tr w op res w' Hr IH Ho Hc].
  - exists (minit u0). split; [constructor|apply Rel_init].
  - destruct IH as (σ & Hs & HR). destruct (Hok _ _ Ho) as [Ha Hg].
    destruct (step_ok w σ op HR) as (res' & w'' & σ' & Hc' & Hst & HR').
    { by eapply allowed_can. }
    rewrite Hc in Hc'. injection Hc' as <- <-. exists σ'. split; [|done]. by econstructor.
Qed.

Lemma rel_step tr w σ op : mspec dig zero u0 tr σ -> Rel w σ -> ok tr op ->
  ∃ res w' σ', mcall api op w = Ret res w' /\ mstep dig zero σ op res σ' /\ Rel w' σ' /\
    (reads op -> w' = w /\ σ' = σ).
Proof.
  intros Hs HR Ho. destruct (Hok _ _ Ho) as [Ha Hg].
  assert (Hcan : can σ op) by (by eapply allowed_can).
  destruct (step_ok w σ op HR Hcan) as (res & w' & σ' & Hc & Hst & HR').
  exists res, w', σ'. split_and!; try done. intros Hrd. split.
  - by eapply read_pure.
  - destruct op; try done; by destruct Hst as [-> _].
Qed.

Theorem run_spec tr w : mrun api ok u0 tr w ->
  (∃ σ, mspec dig zero u0 tr σ) /\ ∀ op, ok tr op -> ∃ res w', mcall api op w = Ret res w'.
Proof.
  intros Hr. destruct (run_rel tr w Hr) as (σ & Hs & HR). split; [eauto|].
  intros op Ho. destruct (Hok _ _ Ho) as [Ha Hg].
  destruct (step_ok w σ op HR) as (res' & w'' & σ' & Hc' & _); [by eapply allowed_can|]. eauto.
Qed.
End refine.
