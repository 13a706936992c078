(** Representation of ghost trees in memory, and the container invariant. *)
From stdpp Require Import base numbers list gmap.
From Verif Require Import GoInt Mem Amt BitsFacts Steps Tree.
Local Open Scope nat_scope.

(** How a family lays out an entry. *)
Record layout (K V CK : Type) : Type := Layout {
  ly_leaf : K -> ptr -> link;   (* link of an item *)
  ly_ck : K -> CK;              (* key field of its struct *)
  ly_cell : bool;               (* is there a struct? *)
  ly_ok : K -> Prop }.          (* keys considered *)
Global Arguments Layout {K V CK}.
Global Arguments ly_leaf {K V CK}.
Global Arguments ly_ck {K V CK}.
Global Arguments ly_cell {K V CK}.
Global Arguments ly_ok {K V CK}.

Section rep.
Context {K V CK U : Type}.
Local Notation block := (block V CK).
Local Notation world := (world V CK U).
Local Notation mem := (gmap loc block).
Local Notation tree := (tree K).
Local Notation frame := (frame K).
Implicit Types (m : mem) (w : world) (t : tree).
Variable L : layout K V CK.

(** The struct of an entry. *)
Definition cell m (k : K) (p : ptr) : Prop :=
  if ly_cell L then ∃ a v, p = At a /\ m !! a = Some (BKv v (ly_ck L k)) else p = Nil.

(** Radixes of the children that are leaves. *)
Definition lrads (cs : list (N * tree)) : list N :=
  map fst (List.filter (λ c, is_leaf c.2) cs).

(** Number of slots of a level with n items. *)
Definition cap (d n : nat) : nat := match d with O => 16 | S _ => arr_cap n end.

Inductive rep m : nat -> link -> tree -> Prop :=
  | rep_leaf d k p :
      ly_ok L k -> cell m k p -> rep m d (ly_leaf L k p) (Leaf k p)
  | rep_node d a cs lks rest :
      m !! a = Some (BLinks (lks ++ rest)) ->
      length (lks ++ rest) = cap d (length cs) ->
      radixes (map fst cs) ->
      Forall2 (λ lk c, rep m (S d) lk c.2) lks cs ->
      rep m d (Link (At a) (bits_of (map fst cs)) (bits_of (lrads cs))) (Node a cs).

Lemma rep_leaf_inv m d lk k p : rep m d lk (Leaf k p) ->
  lk = ly_leaf L k p /\ ly_ok L k /\ cell m k p.
Proof. inversion 1; subst. done. Qed.
Lemma rep_node_inv m d lk a cs : rep m d lk (Node a cs) ->
  lk = Link (At a) (bits_of (map fst cs)) (bits_of (lrads cs)) /\
  radixes (map fst cs) /\
  ∃ lks rest, m !! a = Some (BLinks (lks ++ rest)) /\
    length (lks ++ rest) = cap d (length cs) /\
    Forall2 (λ lk c, rep m (S d) lk c.2) lks cs.
Proof. inversion 1; subst. naive_solver. Qed.

(** ** Agreement of memories *)

(** Two blocks that differ at most in a stored value. *)
Definition bsim (b b' : block) : Prop :=
  b' = b \/ ∃ v v' k, b = BKv v k /\ b' = BKv v' k.
Definition keep m m' (l : loc) : Prop :=
  ∀ b, m !! l = Some b -> ∃ b', m' !! l = Some b' /\ bsim b b'.

Lemma bsim_refl b : bsim b b.
Proof. by left. Qed.
Lemma bsim_trans a b b' : bsim a b -> bsim b b' -> bsim a b'.
Proof. intros [->|(v&v'&k&->&->)] [->|(v1&v2&k'&?&->)]; unfold bsim; naive_solver. Qed.
Lemma keep_same m m' l : m' !! l = m !! l -> keep m m' l.
Proof. intros H b Hb. exists b. rewrite H. by split; [|left]. Qed.
Lemma keep_trans m1 m2 m3 l : keep m1 m2 l -> keep m2 m3 l -> keep m1 m3 l.
Proof.
  intros H1 H2 b Hb. destruct (H1 _ Hb) as (b' & Hb' & S1).
  destruct (H2 _ Hb') as (b2 & Hb2 & S2). exists b2. split; [done|]. by eapply bsim_trans.
Qed.
Lemma keep_links m m' l ls : keep m m' l -> m !! l = Some (BLinks ls) -> m' !! l = Some (BLinks ls).
Proof. intros H Hm. destruct (H _ Hm) as (b & Hb & [->|(v&v'&k&?&?)]); [done|congruence]. Qed.
Lemma keep_root m m' l rt : keep m m' l -> m !! l = Some (BRoot rt) -> m' !! l = Some (BRoot rt).
Proof. intros H Hm. destruct (H _ Hm) as (b & Hb & [->|(v&v'&k&?&?)]); [done|congruence]. Qed.
Lemma keep_kv m m' l v k : keep m m' l -> m !! l = Some (BKv v k) -> ∃ v', m' !! l = Some (BKv v' k).
Proof. intros H Hm. destruct (H _ Hm) as (b & Hb & [->|(v1&v'&k'&?&?)]); naive_solver. Qed.

Lemma cell_keep m m' k p : cell m k p -> (∀ l, l ∈ ptr_locs p -> keep m m' l) -> cell m' k p.
Proof.
  unfold cell. destruct (ly_cell L); [|done]. intros (a & v & -> & Ha) H.
  destruct (keep_kv _ _ _ _ _ (H a ltac:(simpl; set_solver)) Ha) as [v' Hv']. eauto.
Qed.

Lemma rep_keep m m' t : ∀ d lk, rep m d lk t -> (∀ l, l ∈ locs t -> keep m m' l) -> rep m' d lk t.
Proof.
  induction t as [k p|a cs IH] using tree_ind'; intros d lk Hr Hk.
  - apply rep_leaf_inv in Hr as (-> & Hok & Hc). constructor; [done|].
    eapply cell_keep; [done|]. exact Hk.
  - apply rep_node_inv in Hr as (-> & Hrs & lks & rest & Ha & Hlen & Hf).
    apply (rep_node _ _ _ _ lks rest); try done.
    + eapply keep_links; [|done]. apply Hk. simpl. set_solver.
    + assert (∀ c, c ∈ cs -> ∀ l, l ∈ locs c.2 -> keep m m' l) as Hk'.
      { intros c Hc l Hl. apply Hk. simpl. apply elem_of_cons. right.
        apply elem_of_list_In, in_flat_map. exists c.
        rewrite <- !elem_of_list_In. done. }
      clear Ha Hlen Hrs Hk. induction Hf as [|lk c lks cs Hr Hf IHf]; constructor.
      * apply Forall_cons in IH as [IH _]. apply IH; [done|]. apply Hk'. set_solver.
      * apply Forall_cons in IH as [_ IH]. apply IHf; [done|]. intros. eapply Hk'; [|done]. set_solver.
Qed.

Lemma cell_alloc m k p l : cell m k p -> l ∈ ptr_locs p -> is_Some (m !! l).
Proof.
  unfold cell. destruct (ly_cell L).
  - intros (a & v & -> & Ha) Hl. simpl in Hl. apply elem_of_list_singleton in Hl as ->. eauto.
  - intros -> Hl. simpl in Hl. set_solver.
Qed.

Lemma rep_alloc m t : ∀ d lk l, rep m d lk t -> l ∈ locs t -> is_Some (m !! l).
Proof.
  induction t as [k p|a cs IH] using tree_ind'; intros d lk l Hr Hl.
  - apply rep_leaf_inv in Hr as (-> & Hok & Hc). by eapply cell_alloc.
  - apply rep_node_inv in Hr as (-> & Hrs & lks & rest & Ha & Hlen & Hf).
    simpl in Hl. apply elem_of_cons in Hl as [->|Hl]; [eauto|].
    clear Ha Hlen Hrs. induction Hf as [|lk c lks cs Hr Hf IHf]; simpl in Hl; [set_solver|].
    apply Forall_cons in IH as [IH1 IH2]. apply elem_of_app in Hl as [Hl|Hl]; eauto.
Qed.

Lemma rep_ok m t : ∀ d lk k p, rep m d lk t -> (k, p) ∈ leaves t -> ly_ok L k /\ cell m k p.
Proof.
  induction t as [k' p'|a cs IH] using tree_ind'; intros d lk k p Hr Hl.
  - apply rep_leaf_inv in Hr as (-> & Hok & Hc). simpl in Hl.
    apply elem_of_list_singleton in Hl as [= -> ->]. done.
  - apply rep_node_inv in Hr as (-> & Hrs & lks & rest & Ha & Hlen & Hf). simpl in Hl.
    clear Ha Hlen Hrs. induction Hf as [|lk c lks cs Hr Hf IHf]; simpl in Hl; [set_solver|].
    apply Forall_cons in IH as [IH1 IH2]. apply elem_of_app in Hl as [Hl|Hl]; eauto.
Qed.

(** ** Radixes of leaf children *)
Lemma lrads_app cs1 cs2 : lrads (cs1 ++ cs2) = lrads cs1 ++ lrads cs2.
Proof. unfold lrads. by rewrite List.filter_app, map_app. Qed.
Lemma lrads_cons c cs : lrads (c :: cs) = (if is_leaf c.2 then [c.1] else []) ++ lrads cs.
Proof. unfold lrads. simpl. by destruct (is_leaf c.2). Qed.
Lemma elem_of_lrads r cs : r ∈ lrads cs <-> ∃ t, (r, t) ∈ cs /\ is_leaf t = true.
Proof.
  unfold lrads. rewrite elem_of_list_In, in_map_iff. split.
  - intros ([r' t] & <- & H). apply filter_In in H as [H1 H2]. exists t.
    rewrite elem_of_list_In. done.
  - intros (t & H1 & H2). exists (r, t). split; [done|]. apply filter_In.
    rewrite <- elem_of_list_In. done.
Qed.
Lemma lrads_sub r cs : r ∈ lrads cs -> r ∈ map fst cs.
Proof.
  rewrite elem_of_lrads. intros (t & H & _). apply elem_of_list_In, in_map_iff.
  exists (r, t). rewrite <- elem_of_list_In. done.
Qed.
Lemma lrads_same bef r t t' aft : is_leaf t = is_leaf t' ->
  lrads (bef ++ (r, t) :: aft) = lrads (bef ++ (r, t') :: aft).
Proof. intros H. rewrite !lrads_app, !lrads_cons. simpl. by rewrite H. Qed.

(** ** Focusing on a hole *)
Lemma rep_node_split m d lk a bef r t aft : rep m d lk (Node a (bef ++ (r, t) :: aft)) ->
  ∃ lb lx la rest,
    m !! a = Some (BLinks (lb ++ lx :: la ++ rest)) /\
    length (lb ++ lx :: la ++ rest) = cap d (length (bef ++ (r, t) :: aft)) /\
    length lb = length bef /\ length la = length aft /\
    Forall2 (λ lk c, rep m (S d) lk c.2) lb bef /\
    rep m (S d) lx t /\
    Forall2 (λ lk c, rep m (S d) lk c.2) la aft.
Proof.
  intros (-> & Hrs & lks & rest & Ha & Hlen & Hf)%rep_node_inv.
  apply Forall2_app_inv_r in Hf as (lb & l2 & Hb & H2 & ->).
  apply Forall2_cons_inv_r in H2 as (lx & la & Hx & Hla & ->). simpl in Hx.
  exists lb, lx, la, rest. rewrite <- app_assoc in Ha, Hlen. simpl in *.
  split_and!; try done.
  - by apply Forall2_length in Hb.
  - by apply Forall2_length in Hla.
Qed.

Lemma rep_plug m lk0 c t : rep m 0 lk0 (plug c t) ->
  ∃ lk, rep m (length c) lk t /\
    match c with
    | [] => lk = lk0
    | f :: _ => ∃ ls, m !! fr_a f = Some (BLinks ls) /\ ls !! length (fr_bef f) = Some lk
    end.
Proof.
  revert t. induction c as [|f c IH]; intros t H; simpl in H.
  - exists lk0. done.
  - apply IH in H as (lk & H & _). unfold fill in H.
    destruct (rep_node_split _ _ _ _ _ _ _ _ H) as (lb & lx & la & rest & Ha & Hlen & Hlb & Hla & Hb & Hx & Haf).
    exists lx. split; [done|]. exists (lb ++ lx :: la ++ rest). split; [done|].
    rewrite <- Hlb. rewrite lookup_app_r by lia. by rewrite Nat.sub_diag.
Qed.

Lemma rep_hole m r rt c t : m !! r = Some (BRoot rt) -> rep m 0 (rt_link rt) (plug c t) ->
  ∃ lk, link_at m (hole r c) = Some lk /\ rep m (length c) lk t.
Proof.
  intros Hr H. destruct (rep_plug _ _ _ _ H) as (lk & Hlk & Hc).
  exists lk. split; [|done]. destruct c as [|f c]; simpl.
  - rewrite Hr. congruence.
  - destruct Hc as (ls & -> & ->). done.
Qed.

Definition cslocs (cs : list (N * tree)) : list loc := flat_map (λ c, locs c.2) cs.

Lemma cslocs_app cs1 cs2 : cslocs (cs1 ++ cs2) = cslocs cs1 ++ cslocs cs2.
Proof. apply flat_map_app. Qed.

Lemma reps_keep m m' d lks cs : Forall2 (λ lk c, rep m d lk c.2) lks cs ->
  (∀ l, l ∈ cslocs cs -> keep m m' l) ->
  Forall2 (λ lk c, rep m' d lk c.2) lks cs.
Proof.
  intros Hf Hk. induction Hf as [|lk c lks cs Hr Hf IHf]; constructor.
  - eapply rep_keep; [done|]. intros. apply Hk. simpl. set_solver.
  - apply IHf. intros. apply Hk. simpl. set_solver.
Qed.

(** Building a node from its parts. *)
Lemma rep_node_build m d a bef r t aft lb lx la rest lk :
  m !! a = Some (BLinks (lb ++ lx :: la ++ rest)) ->
  length (lb ++ lx :: la ++ rest) = cap d (length (bef ++ (r, t) :: aft)) ->
  radixes (map fst bef ++ r :: map fst aft) ->
  Forall2 (λ lk c, rep m (S d) lk c.2) lb bef ->
  rep m (S d) lx t ->
  Forall2 (λ lk c, rep m (S d) lk c.2) la aft ->
  lk = Link (At a) (bits_of (map fst bef ++ r :: map fst aft))
            (bits_of (lrads (bef ++ (r, t) :: aft))) ->
  rep m d lk (Node a (bef ++ (r, t) :: aft)).
Proof.
  intros Ha Hlen Hrs Hb Hx Haf ->.
  replace (map fst bef ++ r :: map fst aft) with (map fst (bef ++ (r, t) :: aft)) in *
    by (by rewrite map_app).
  apply (rep_node _ _ _ _ (lb ++ lx :: la) rest).
  - by rewrite <- app_assoc.
  - by rewrite <- app_assoc.
  - done.
  - apply Forall2_app; [done|]. by constructor.
Qed.

Lemma rep_node_link m d lk a bef r t aft : rep m d lk (Node a (bef ++ (r, t) :: aft)) ->
  lk = Link (At a) (bits_of (map fst bef ++ r :: map fst aft))
            (bits_of (lrads (bef ++ (r, t) :: aft))) /\ radixes (map fst bef ++ r :: map fst aft).
Proof.
  intros (-> & Hrs & _)%rep_node_inv. rewrite map_app in *. done.
Qed.

(** Replacing the subtree in the hole while the link that leads to it stays. *)
Lemma rep_swap m m' lk0 c t t' :
  is_leaf t = is_leaf t' ->
  rep m 0 lk0 (plug c t) ->
  (∀ lk, rep m (length c) lk t -> rep m' (length c) lk t') ->
  (∀ l, l ∈ clocs c -> keep m m' l) ->
  rep m' 0 lk0 (plug c t').
Proof.
  revert t t'. induction c as [|f c IH]; intros t t' Hk Hr Hs Hl; cbn [plug] in *; [by auto|].
  change (clocs (f :: c)) with (flocs f ++ clocs c) in Hl. unfold flocs in Hl.
  eapply (IH (fill f t) (fill f t')); [done|done| |].
  2:{ intros l ?. apply Hl. rewrite elem_of_app. auto. }
  intros lk Hlk. unfold fill in *.
  destruct (rep_node_link _ _ _ _ _ _ _ _ Hlk) as [-> Hrs].
  destruct (rep_node_split _ _ _ _ _ _ _ _ Hlk) as (lb & lx & la & rest & Ha & Hlen & Hlb & Hla & Hb & Hx & Haf).
  eapply rep_node_build.
  - eapply keep_links; [|exact Ha]. apply Hl. set_solver.
  - rewrite Hlen. f_equal. by rewrite !app_length.
  - done.
  - eapply reps_keep; [exact Hb|]. intros l ?. apply Hl. unfold cslocs in *. set_solver.
  - by apply Hs.
  - eapply reps_keep; [exact Haf|]. intros l ?. apply Hl. unfold cslocs in *. set_solver.
  - f_equal. f_equal. by apply lrads_same.
Qed.

(** The link in the hole is now lk'; the other links of its block are kept. *)
Definition linked m m' (r : loc) (c : list frame) (lk' : link) : Prop :=
  ∃ rt rt', m !! r = Some (BRoot rt) /\ m' !! r = Some (BRoot rt') /\
    match c with
    | [] => rt_link rt' = lk'
    | f :: _ =>
        rt_link rt' = rt_link rt /\
    ∃ ls, m !! fr_a f = Some (BLinks ls) /\
    m' !! fr_a f = Some (BLinks (<[length (fr_bef f) := lk']> ls))
    end.

(** Replacing the subtree in the hole together with the link that leads to it. *)
Lemma rep_replace m m' r c t t' lk' rt rt' :
  is_leaf t = is_leaf t' ->
  m !! r = Some (BRoot rt) -> m' !! r = Some (BRoot rt') ->
  rep m 0 (rt_link rt) (plug c t) ->
  NoDup (r :: locs (plug c t)) ->
  rep m' (length c) lk' t' ->
  linked m m' r c lk' ->
  (∀ l, l ∈ clocs c -> base (hole r c) ≠ Some l -> keep m m' l) ->
  rep m' 0 (rt_link rt') (plug c t').
Proof.
  intros Hk Hr Hr' Hrep Hnd Ht' Hl Hkeep.
  destruct Hl as (rt1 & rt1' & Hr1 & Hr1' & Hl).
  rewrite Hr in Hr1. rewrite Hr' in Hr1'. injection Hr1 as <-. injection Hr1' as <-.
  destruct c as [|f c]; cbn [plug] in *.
  - by subst lk'.
  - destruct Hl as (-> & ls & Hls & Hls').
    apply NoDup_cons in Hnd as [_ Hnd].
    rewrite locs_plug, locs_fill in Hnd. cbn [hole base] in Hkeep.
    change (clocs (f :: c)) with (flocs f ++ clocs c) in Hkeep.
    apply NoDup_app in Hnd as (Hnd1 & Hnd2 & Hnd3).
    apply NoDup_app in Hnd3 as (Hnd3 & Hnd4 & Hnd5).
    eapply (rep_swap m m' _ c (fill f t) (fill f t')); [done|done| |].
    + intros lk Hlk. unfold fill in *.
      destruct (rep_node_link _ _ _ _ _ _ _ _ Hlk) as [-> Hrs].
      destruct (rep_node_split _ _ _ _ _ _ _ _ Hlk) as (lb & lx & la & rest & Ha & Hlen & Hlb & Hla & Hb & Hx & Haf).
      rewrite Ha in Hls. injection Hls as <-.
      unfold flocs in Hnd3. apply NoDup_cons in Hnd3 as [Hni Hnd3].
      rewrite <- Hlb in Hls'.
      replace (length lb) with (length lb + 0) in Hls' by lia. rewrite insert_app_r in Hls'. simpl in Hls'.
      eapply rep_node_build.
      * exact Hls'.
      * rewrite !app_length in *. simpl in *. done.
      * done.
      * eapply reps_keep; [exact Hb|]. intros l Hl. apply Hkeep.
        -- unfold flocs, cslocs in *. set_solver.
        -- intros [= Heq]. apply Hni. rewrite Heq. unfold cslocs in *. set_solver.
      * done.
      * eapply reps_keep; [exact Haf|]. intros l Hl. apply Hkeep.
        -- unfold flocs, cslocs in *. set_solver.
        -- intros [= Heq]. apply Hni. rewrite Heq. unfold cslocs in *. set_solver.
      * f_equal. f_equal. by apply lrads_same.
    + intros l Hl. apply Hkeep; [set_solver|]. intros [= Heq].
      apply (Hnd2 l); [done|]. rewrite <- Heq. unfold flocs. set_solver.
Qed.

(** ** Worlds *)
Definition w_ok w : Prop := ∀ l b, w_mem w !! l = Some b -> (l < w_nxt w)%positive.

Lemma w_ok_fresh w : w_ok w -> w_mem w !! w_nxt w = None.
Proof.
  intros H. destruct (w_mem w !! w_nxt w) eqn:E; [|done]. apply H in E. lia.
Qed.

(** The invariant of a container with root r whose tree is T, at most B levels
    high. *)
Record MapI (B : nat) w (r : loc) (seed : N) (T : tree) : Prop := MkMapI {
  mi_root : ∃ rt, w_mem w !! r = Some (BRoot rt) /\ rt_seed rt = seed /\
    rep (w_mem w) 0 (rt_link rt) T /\
    rt_len rt = u64 (N.of_nat (length (leaves T))) /\
    rt_dep rt = u64 (N.of_nat (sumdep 0 T)) /\
    length (rt_path rt) = 12;
  mi_nodup : NoDup (r :: locs T);
  mi_canon : canon_root T;
  mi_hgt : hgt T <= B }.

(** Blocks of the container. *)
Definition foot (r : loc) (T : tree) : list loc := r :: locs T.

Lemma MapI_alloc B w r seed T l : MapI B w r seed T -> l ∈ foot r T -> is_Some (w_mem w !! l).
Proof.
  intros [(rt & Hr & _ & Hrep & _) _ _ _] [->|Hl]%elem_of_cons; [eauto|].
  by eapply rep_alloc.
Qed.

Lemma MapI_keep B w w' r seed T : MapI B w r seed T ->
  (∀ l, l ∈ foot r T -> keep (w_mem w) (w_mem w') l) -> MapI B w' r seed T.
Proof.
  intros [(rt & Hr & Hs & Hrep & Hlen & Hdep & Hpath) Hnd Hc Hh] Hk.
  constructor; try done. exists rt. split_and!; try done.
  - eapply keep_root; [|done]. apply Hk. unfold foot. set_solver.
  - eapply rep_keep; [done|]. intros. apply Hk. unfold foot. set_solver.
Qed.
End rep.
