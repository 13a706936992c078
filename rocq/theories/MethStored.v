(** The key methods are called only on the key of the call and on stored keys. *)
From stdpp Require Import base numbers list gmap.
From Verif Require Import GoInt Mem Hash Amt Families BitsFacts Steps Tree Rep Paths Descend Insert Split Delete Remove Core Scan Order Heap Spec SpecFacts HashFacts Client Types Refine RefineSet Instances Pack Guards CostTypes Cost CostPack EAmt MethSpec Meth MethCount MethRuns.
Local Open Scope nat_scope.

Section stored.
Context {K V U C : Type} (P0 : K -> Prop).
Local Notation L := (kv_layout (K:=K) (V:=V) P0).
Local Notation E := (M V K (U * C)).
Local Notation ew := (world V K (U * C)).

(** In every state that is nearly that of m. *)
Lemma nearly_link (m m' : gmap loc (block V K)) l : nearly m m' -> link_at m' l = link_at m l.
Proof.
  intros Hn. unfold link_at. destruct l as [r|a i|]; [| |done].
  - destruct (Hn r) as [->|(rt & p & -> & -> & _)]; done.
  - destruct (Hn a) as [->|(rt & p & -> & -> & _)]; done.
Qed.

Context (log : C -> list K).
(** From w, m calls the methods on keys that satisfy S. *)
Definition sayw {A} (S : K -> Prop) (m : E A) (w : ew) : Prop :=
  match m w with
  | Ret _ w' | Panic w' => ∃ l, Forall S l /\ log (w_usr w').2 = log (w_usr w).2 ++ l
  | _ => True
  end.
Lemma w_says {A} (S : K -> Prop) (m : E A) w : says log (Forall S) m -> sayw S m w.
Proof. intros H. exact (H w). Qed.
Lemma w_keeps {A} (S : K -> Prop) (m : E A) w : keeps m -> sayw S m w.
Proof. intros H. apply w_says, s_keeps; [constructor|done]. Qed.
Lemma w_bind {A B} (S : K -> Prop) (m : E A) (k : A -> E B) w : sayw S m w -> (∀ x w', m w = Ret x w' -> sayw S (k x) w') -> sayw S (bind m k) w.
Proof.
  unfold sayw, bind. intros Hm Hk. destruct (m w) as [x w'|w'| |]; try done.
  destruct Hm as (l & Hl & El). specialize (Hk x w' eq_refl). destruct (k x w'); try done; destruct Hk as (l' & Hl' & El');
    (exists (l ++ l'); split; [by apply Forall_app|]; by rewrite El', El, app_assoc).
Qed.
Lemma w_post {A B} (S : K -> Prop) (m : E A) (k : A -> E B) w : sayw S m w -> (∀ x, keeps (k x)) -> sayw S (bind m k) w.
Proof. intros Hm Hk. apply w_bind; [done|]. intros. by apply w_keeps. Qed.
Lemma s_both {A B} (S : K -> Prop) (m : E A) (k : A -> E B) :
  says log (Forall S) m -> (∀ x, says log (Forall S) (k x)) -> says log (Forall S) (bind m k).
Proof. intros Hm Hk. eapply (s_bind _ (Forall S) (Forall S)); [done|intros; by apply Forall_app|done|done]. Qed.
Lemma s_keep {A} (S : K -> Prop) (m : E A) : keeps m -> says log (Forall S) m.
Proof. intros. apply s_keeps; [constructor|done]. Qed.

Section fam.
Context {HS : Type} (F : efam K HS V K U C).
Local Notation one k := (λ x : K, x = k).
Local Notation two k ck := (λ x : K, x = k \/ x = ck).
Hypothesis Hstart : ∀ s k, says log (Forall (one k)) (e_start F s k).
Hypothesis Hnext : ∀ s k d h, says log (Forall (one k)) (e_next F s k d h).
Hypothesis Hconf : ∀ n s k ck d, says log (Forall (two k ck)) (e_conf F n s k ck d).
Hypothesis Heq : ∀ k ck, says log (Forall (two k ck)) (e_eq F k ck).
Hypothesis Hbase : e_base F = kv_base.
Hypothesis Mstart : ∀ s k w x w', e_start F s k w = Ret x w' -> w_mem w' = w_mem w.
Hypothesis Mnext : ∀ s k d h w x w', e_next F s k d h w = Ret x w' -> w_mem w' = w_mem w.

Lemma s_adv s k d h : says log (Forall (one k)) (eadvance F s k d h).
Proof. unfold eadvance. destruct (negb _); [by apply s_keep|apply Hnext]. Qed.
Lemma m_adv s k d h w x w' : eadvance F s k d h w = Ret x w' -> w_mem w' = w_mem w.
Proof. unfold eadvance. destruct (negb _); [by intros [= _ <-]|apply Mnext]. Qed.
Lemma s_desc {Y} (visit : Y -> N -> lref -> E Y) n s k h l d x : (∀ x r l, keeps (visit x r l)) ->
  says log (Forall (one k)) (edescend F visit n s k h l d x).
Proof.
  intros Hv. revert h l d x. induction n as [|n IH]; intros h l d x; simpl; [by apply s_keep, k_hang|].
  apply s_both; [apply s_keep, k_load_link|]. intros lv. destruct (_ =? _)%N; [by apply s_keep|].
  apply s_both; [apply s_keep, Hv|]. intros y. destruct (_ =? _)%N; [|by apply s_keep].
  apply s_both; [apply s_adv|]. intros h1. apply IH.
Qed.

(** Where a traversal stops at an item, the item is a leaf of the tree. *)
Lemma desc_leaf {Y} (visit : Y -> N -> lref -> E Y) n s k :
  (∀ y r l w x w', visit y r l w = Ret x w' -> nearly (w_mem w) (w_mem w')) ->
  ∀ h l d y w n' h' d' l' item y' w' t e lk,
  edescend F visit n s k h l d y w = Ret (Present n' h' d' l' item y') w' ->
  link_at (w_mem w) l = Some lk -> rep L (w_mem w) e lk t -> is_leaf t = false ->
  ∃ k' p, (k', p) ∈ leaves t /\ link_at (w_mem w') item = Some (ly_leaf L k' p) /\ cell L (w_mem w') k' p.
Proof.
  intros Hv. induction n as [|n IH]; intros h l d y w n' h' d' l' item y' w' t e lk Hd Hl Hr Ht; [done|].
  destruct t as [|a cs]; [done|]. simpl in Hd. rewrite (bind_Ret _ _ _ _ _ (load_link_step _ _ _ Hl)) in Hd.
  apply rep_node_inv in Hr as (-> & Hrs & lks & rest & Ha & Hlen & Hf). cbn [lk_pmap lk_tmap lk_ptr] in Hd.
  assert (H16 : (radix_of h < 16)%N). { unfold radix_of. change 15%N with (N.ones 4). rewrite N.land_ones. by apply N.mod_lt. }
  rewrite land_bit_of in Hd by lia.
  destruct (bool_decide_reflect (radix_of h ∈ map fst cs)) as [Hin|Hnin]; cbn [negb] in Hd; [|done].
  apply cs_lookup in Hin as (bef & t & aft & ->).
  destruct (visit y (radix_of h) l w) as [y1 w1| | |] eqn:Ev; unfold bind at 1 in Hd; rewrite Ev in Hd; try done.
  pose proof (Hv _ _ _ _ _ _ Ev) as Hn. rewrite map_app in *. cbn [map fst] in *.
  rewrite land_bit_of in Hd by lia. rewrite idx_of_child in Hd by done. cbn [elem] in Hd.
  apply Forall2_app_inv_r in Hf as (lk1 & lk2 & Hf1 & Hf2 & ->).
  apply Forall2_cons_inv_r in Hf2 as (lk0 & lk3 & Hr0 & Hf3 & ->). simpl in Hr0.
  assert (Hl0 : link_at (w_mem w1) (SlotRef a (length bef)) = Some lk0).
  { rewrite (nearly_link _ _ _ Hn). simpl. rewrite Ha. rewrite <- (Forall2_length _ _ _ Hf1).
    rewrite <- app_assoc. rewrite lookup_app_r by done. by rewrite Nat.sub_diag. }
  apply (nearly_rep L _ _ t Hn) in Hr0.
  assert (Hsub : ∀ x, x ∈ leaves t -> x ∈ leaves (Node a (bef ++ (radix_of h, t) :: aft))).
  { intros x Hx. cbn [leaves]. rewrite flat_map_app. apply elem_of_app. right. simpl. apply elem_of_app. by left. }
  destruct (bool_decide_reflect (radix_of h ∈ lrads (bef ++ (radix_of h, t) :: aft))) as [Hlf|Hlf];
    rewrite leaf_child_bit in Hlf by done; cbn [negb] in Hd.
  - destruct t as [k' p|]; [|done]. injection Hd as <- <- <- <- <- <- <-.
    apply rep_leaf_inv in Hr0 as (-> & _ & Hc). exists k', p. split; [apply Hsub; by left|done].
  - apply not_true_is_false in Hlf.
    destruct (eadvance F s k (u8 (d + 1)) h w1) as [h1 w2| | |] eqn:Ead; unfold bind at 1 in Hd; rewrite Ead in Hd; try done.
    pose proof (m_adv _ _ _ _ _ _ _ Ead) as Em. rewrite <- Em in Hl0, Hr0.
    destruct (IH _ _ _ _ _ _ _ _ _ _ _ _ _ _ _ Hd Hl0 Hr0 Hlf) as (k' & p & Hin & Hres). exists k', p. auto.
Qed.

(** Container r holds tree T. *)
Definition rooted (w : ew) (r : loc) (T : tree K) : Prop :=
  ∃ rt, w_mem w !! r = Some (BRoot rt) /\ rep L (w_mem w) 0 (rt_link rt) T /\ is_leaf T = false.
(** The key of the call, or a key in the tree. *)
Definition known (T : tree K) (k x : K) : Prop := x = k \/ ∃ p, (x, p) ∈ leaves T.

(** The common beginning of all calls: hash, traverse; at an item, read its key. *)
Lemma w_walk {A Y} (visit : Y -> N -> lref -> E Y) n k r T y0 (after : @found HS Y -> E A) w seed :
  (∀ y r l w x w', visit y r l w = Ret x w' -> nearly (w_mem w) (w_mem w')) -> (∀ x r l, keeps (visit x r l)) ->
  rooted w r T ->
  (∀ n h d l y w', sayw (known T k) (after (Missing n h d l y)) w') ->
  (∀ n h d l item y w' k' p, (k', p) ∈ leaves T -> load_link item w' = Ret (ly_leaf L k' p) w' ->
     kv_key (U:=U * C) (ly_leaf L k' p) w' = Ret k' w' -> sayw (known T k) (after (Present n h d l item y)) w') ->
  sayw (known T k) (hs <- e_start F seed k ;; res <- edescend F visit n seed k hs (RootRef r) 0 y0 ;; after res) w.
Proof.
  intros Hv Hk (rt & Hrt & Hrep & Hlf) Hmiss Hpres.
  assert (Hone : ∀ l, Forall (λ x, x = k) l -> Forall (known T k) l). { intros l Hl. eapply Forall_impl; [exact Hl|]. intros x ->. by left. }
  apply w_bind; [apply w_says; eapply s_mono; [|apply Hstart]; done|]. intros hs w1 E1. pose proof (Mstart _ _ _ _ _ E1) as Em.
  apply w_bind; [apply w_says; eapply s_mono; [|by apply s_desc]; done|]. intros [n' h' d' l' y'|n' h' d' l' item y'] w2 E2; [apply Hmiss|].
  destruct (desc_leaf visit n seed k Hv hs (RootRef r) 0 y0 w1 n' h' d' l' item y' w2 T 0 (rt_link rt) E2) as (k' & p & Hin & Hl & Hc).
  - rewrite Em. simpl. by rewrite Hrt.
  - by rewrite Em.
  - done.
  - apply (Hpres _ _ _ _ _ _ _ k' p Hin); [by apply load_link_step|].
    unfold cell in Hc. simpl in Hc. destruct Hc as (a & v & -> & Ha). unfold kv_key. simpl. by rewrite (bind_Ret _ _ _ _ _ (load_kv_step _ _ _ _ Ha)).
Qed.

Lemma two_known T k k' p l : (k', p) ∈ leaves T -> Forall (two k k') l -> Forall (known T k) l.
Proof. intros Hin Hl. eapply Forall_impl; [exact Hl|]. intros x [->| ->]; [by left|right; eauto]. Qed.
Lemma one_two k k' l : Forall (one k) l -> Forall (two k k') l.
Proof. intros Hl. eapply Forall_impl; [exact Hl|]. by left. Qed.
Lemma one_two' k k' l : Forall (one k') l -> Forall (two k k') l.
Proof. intros Hl. eapply Forall_impl; [exact Hl|]. by right. Qed.

Lemma w_efind n r k T w : rooted w r T -> sayw (known T k) (efind F n (Some r) k) w.
Proof.
  intros HT. unfold efind. destruct HT as (rt & Hrt & HT). unfold sayw. rewrite (bind_Ret _ _ _ _ _ (load_root_step _ _ _ Hrt)).
  apply w_walk; [by intros ? ? ? ? ? ? [= _ <-]; apply nearly_refl|done|by exists rt| |].
  - intros. by apply w_keeps.
  - intros ? ? ? ? item ? w' k' p Hin Hl Hkey. unfold sayw. rewrite (bind_Ret _ _ _ _ _ Hl), Hbase. simpl f_key. rewrite (bind_Ret _ _ _ _ _ Hkey).
    apply w_post; [|done]. apply w_says. eapply s_mono; [|apply Heq]. intros l0. by eapply two_known.
Qed.
Lemma w_eptr n r k T w : rooted w r T -> sayw (known T k) (eptr_of F n (Some r) k) w.
Proof. intros HT. unfold eptr_of. apply w_post; [by apply w_efind|]. intros [iv|]; [|done]. destruct (lk_ptr iv); done. Qed.
Lemma w_eget n z r k T w : rooted w r T -> sayw (known T k) (eget F n z (Some r) k) w.
Proof. intros HT. unfold eget. apply w_post; [by apply w_eptr|]. intros [|q]; [done|]. apply k_bind; [apply k_load_kv|done]. Qed.
Lemma w_eval n z r k T w : rooted w r T -> sayw (known T k) (eval F n z (Some r) k) w.
Proof. intros HT. unfold eval. apply w_post; [by apply w_eptr|]. intros [|q]; [done|]. apply k_bind; [apply k_load_kv|done]. Qed.
Lemma w_ehas n r k T w : rooted w r T -> sayw (known T k) (ehas F n (Some r) k) w.
Proof. intros HT. unfold ehas. apply w_post; [by apply w_efind|done]. Qed.

Lemma s_splits op n r s k ck cp h ch item d : quiet_op op -> says log (Forall (two k ck)) (esplit F op n r s k ck cp h ch item d).
Proof.
  intros Ho. revert h ch item d. induction n as [|n IH]; intros h ch item d; simpl; [by apply s_keep, k_hang|].
  apply s_both; [eapply s_mono; [apply one_two|apply s_adv]|]. intros h1.
  apply s_both; [eapply s_mono; [apply one_two'|apply s_adv]|]. intros ch1.
  apply s_both; [apply s_keep, k_upd_link|]. intros _. destruct (negb _).
  - apply s_keep. apply k_bind; [apply k_upd_link|]. intros _. apply k_bind; [apply k_new_link_array|]. intros a.
    apply k_bind; [apply k_upd_link|]. intros _. apply k_bind; [apply (qo_split _ Ho)|]. intros q.
    apply k_bind; [apply k_load_link|]. intros iv. apply k_bind; [|intros; apply k_count_in].
    destruct (_ <? _)%N; (apply k_bind; [apply k_upd_link|intros; apply k_upd_link]).
  - apply s_both; [apply s_keep, k_new_link_array|]. intros a. apply s_both; [apply s_keep, k_upd_link|]. intros _. apply IH.
Qed.
Lemma w_einsert op n r k T w : quiet_op op -> rooted w r T -> sayw (known T k) (einsert F op n (Some r) k) w.
Proof.
  intros Ho HT. unfold einsert. destruct HT as (rt & Hrt & HT). unfold sayw. rewrite (bind_Ret _ _ _ _ _ (load_root_step _ _ _ Hrt)).
  apply w_walk; [by intros ? ? ? ? ? ? [= _ <-]; apply nearly_refl|done|by exists rt| |].
  - intros. apply w_keeps. apply k_bind; [apply k_load_link|]. intros. by apply k_add_item.
  - intros ? ? ? ? item ? w' k' p Hin Hl Hkey. unfold eadd_present, sayw. rewrite (bind_Ret _ _ _ _ _ Hl), Hbase. simpl f_key. rewrite (bind_Ret _ _ _ _ _ Hkey).
    apply w_says. eapply s_mono; [intros l0; by apply (two_known T k k' p)|].
    apply s_both; [apply Heq|]. intros [|]; [apply s_keep, (qo_found _ Ho)|].
    apply s_both; [apply Hconf|]. intros [ch|]; [|by apply s_keep, k_hang].
    apply s_both; [apply s_keep, k_upd_link|]. intros _. apply s_both; [apply s_keep, k_upd_root|]. intros _. by apply s_splits.
Qed.
Lemma push_nearly r p x l (w : ew) y w' : path_push r p x l w = Ret y w' -> nearly (w_mem w) (w_mem w').
Proof.
  unfold path_push. destruct p as [n|q]; [|by intros [= _ <-]; apply nearly_refl].
  unfold bind, load_root. destruct (w_mem w !! r) as [[| |rt]|] eqn:Er; try done.
  destruct (_ <? _)%nat; [|by intros [= _ <-]; apply nearly_refl].
  unfold upd_root. rewrite Er. intros [= _ <-]. intros l'. simpl. destruct (decide (l' = r)) as [->|Hne].
  - right. eexists _, _. rewrite lookup_insert. split; [exact Er|]. split; [done|]. by rewrite insert_length.
  - left. by rewrite lookup_insert_ne.
Qed.
Lemma w_edelete n r k T w : rooted w r T -> sayw (known T k) (edelete F n (Some r) k) w.
Proof.
  intros HT. unfold edelete. destruct HT as (rt & Hrt & HT). unfold sayw. rewrite (bind_Ret _ _ _ _ _ (load_root_step _ _ _ Hrt)).
  apply w_walk; [intros y0 r0 l0 w0 x0 w1; apply push_nearly|intros; apply k_path_push|by exists rt| |].
  - intros. by apply w_keeps.
  - intros ? ? ? ? item ? w' k' p Hin Hl Hkey. unfold sayw. rewrite (bind_Ret _ _ _ _ _ Hl), Hbase. simpl f_key. rewrite (bind_Ret _ _ _ _ _ Hkey).
    apply w_post; [|intros b; destruct (negb _); [done|]; apply k_bind; [apply k_load_link|intros; apply k_remove]].
    apply w_says. eapply s_mono; [|apply Heq]. intros l0. by eapply two_known.
Qed.
End fam.
End stored.

(** ** The types *)
Section types.
Context {K V U C : Type} (log : C -> list K).
Lemma meth_mem {A} (f : C -> C * option A) (w : world V K (U * C)) x w' : meth f w = Ret x w' -> w_mem w' = w_mem w.
Proof. unfold meth, bind, get_usr, put_usr. simpl. destruct ((f (w_usr w).2).2); [|done]. by intros [= _ <-]. Qed.
Lemma bind_mem {A B} (m : M V K (U * C) A) (f : A -> B) w x w' : (∀ y w1, m w = Ret y w1 -> w_mem w1 = w_mem w) ->
  bind m (λ y, ret (f y)) w = Ret x w' -> w_mem w' = w_mem w.
Proof. unfold bind. intros Hm. destruct (m w) as [y w1| | |]; try done. intros [= _ <-]. by apply (Hm y). Qed.
Lemma s_on {A} (S : K -> Prop) l (f : C -> C * option A) : Forall S l -> (∀ c, log (f c).1 = log c ++ l) ->
  says (V:=V) (CK:=K) (U:=U) log (Forall S) (meth f).
Proof. intros Hl Hf. eapply s_mono; [|by apply s_meth]. by intros ? ->. Qed.

Lemma arr_known_map zero fuel sum64 (keq : K -> K -> C -> C * option bool) KeyBytes P0 :
  (∀ k k' c, log (keq k k' c).1 = log c ++ [k; k']) -> (∀ k c, log (KeyBytes k c).1 = log c ++ [k]) ->
  ∀ (op : mop K V U) w T, match op with
    | MGet h k | MVal h k | MPtr h k | MDel h k | MSet h k _ | MMod h k _ =>
        rooted P0 w h T -> sayw log (known T k) (mcall (EArrMap_api zero fuel sum64 keq KeyBytes) (emap_op op)) w
    | _ => True
    end.
Proof.
  intros He Hk op w T.
  assert (H1 : ∀ s k, says log (Forall (λ x, x = k)) (e_start (arr_efam (V:=V) (U:=U) sum64 keq KeyBytes) s k)).
  { intros. simpl. apply s_post; [|done]. apply (s_on _ [k]); [by repeat constructor|done]. }
  assert (H2 : ∀ s k d h, says log (Forall (λ x, x = k)) (e_next (arr_efam (V:=V) (U:=U) sum64 keq KeyBytes) s k d h)).
  { intros. by apply s_keep. }
  assert (H3 : ∀ n s k ck d, says log (Forall (λ x, x = k \/ x = ck)) (e_conf (arr_efam (V:=V) (U:=U) sum64 keq KeyBytes) n s k ck d)).
  { intros. simpl. apply s_post; [|done]. apply (s_on _ [ck]); [constructor; [by right|constructor]|done]. }
  assert (H4 : ∀ k ck, says log (Forall (λ x, x = k \/ x = ck)) (e_eq (arr_efam (V:=V) (U:=U) sum64 keq KeyBytes) k ck)).
  { intros. apply (s_on _ [ck; k]); [constructor; [by right|constructor; [by left|constructor]]|done]. }
  assert (H5 : ∀ s k w x w', e_start (arr_efam (V:=V) (U:=U) sum64 keq KeyBytes) s k w = Ret x w' -> w_mem w' = w_mem w).
  { intros s k w0 x w'. simpl. apply (bind_mem (meth (KeyBytes k))). intros. by eapply meth_mem. }
  assert (H6 : ∀ s k d h w x w', e_next (arr_efam (V:=V) (U:=U) sum64 keq KeyBytes) s k d h w = Ret x w' -> w_mem w' = w_mem w).
  { by intros s k d h w0 x w' [= _ <-]. }
  destruct op; try done; intros HT; unfold mcall, emap_op; (apply w_post; [|done]); cbn [EArrMap_api ma_Set ma_Mod ma_Del ma_Get ma_Val ma_Ptr].
  - eapply (w_einsert P0 log _ H1 H2 H3 H4 eq_refl H5 H6); [apply q_split|done].
  - eapply (w_einsert P0 log _ H1 H2 H3 H4 eq_refl H5 H6); [apply q_mod; intros; apply k_mod_cb|done].
  - by eapply (w_edelete P0 log _ H1 H2 H4 eq_refl H5 H6).
  - by eapply (w_eget P0 log _ H1 H2 H4 eq_refl H5 H6).
  - by eapply (w_eval P0 log _ H1 H2 H4 eq_refl H5 H6).
  - by eapply (w_eptr P0 log _ H1 H2 H4 eq_refl H5 H6).
Qed.

Lemma gen_known_map zero fuel (Equal : K -> K -> C -> C * option bool) Hash P0 :
  (∀ k k' c, log (Equal k k' c).1 = log c ++ [k; k']) -> (∀ k s i c, log (Hash k s i c).1 = log c ++ [k]) ->
  ∀ (op : mop K V U) w T, match op with
    | MGet h k | MVal h k | MPtr h k | MDel h k | MSet h k _ | MMod h k _ =>
        rooted P0 w h T -> sayw log (known T k) (mcall (EMap_api zero fuel Equal Hash) (emap_op op)) w
    | _ => True
    end.
Proof.
  intros He Hk op w T.
  assert (H1 : ∀ b s k, says log (Forall (λ x, x = k)) (e_start (gen_efam (V:=V) (U:=U) Equal Hash b) s k)).
  { intros. simpl. apply s_post; [|done]. apply (s_on _ [k]); [by repeat constructor|done]. }
  assert (H2 : ∀ b s k d h, says log (Forall (λ x, x = k)) (e_next (gen_efam (V:=V) (U:=U) Equal Hash b) s k d h)).
  { intros. simpl. apply s_post; [|done]. apply (s_on _ [k]); [by repeat constructor|done]. }
  assert (H3 : ∀ b n s k ck d, says log (Forall (λ x, x = k \/ x = ck)) (e_conf (gen_efam (V:=V) (U:=U) Equal Hash b) n s k ck d)).
  { intros. simpl. apply s_post; [|done]. apply (s_on _ [if b then k else ck]); [|done]. constructor; [|constructor]. destruct b; auto. }
  assert (H4 : ∀ b k ck, says log (Forall (λ x, x = k \/ x = ck)) (e_eq (gen_efam (V:=V) (U:=U) Equal Hash b) k ck)).
  { intros. apply (s_on _ [k; ck]); [constructor; [by left|constructor; [by right|constructor]]|done]. }
  assert (H5 : ∀ b s k w x w', e_start (gen_efam (V:=V) (U:=U) Equal Hash b) s k w = Ret x w' -> w_mem w' = w_mem w).
  { intros b s k w0 x w'. simpl. apply bind_mem. intros. by eapply meth_mem. }
  assert (H6 : ∀ b s k d h w x w', e_next (gen_efam (V:=V) (U:=U) Equal Hash b) s k d h w = Ret x w' -> w_mem w' = w_mem w).
  { intros b s k d h w0 x w'. simpl. apply bind_mem. intros. by eapply meth_mem. }
  destruct op; try done; intros HT; unfold mcall, emap_op; (apply w_post; [|done]); cbn [EMap_api ma_Set ma_Mod ma_Del ma_Get ma_Val ma_Ptr].
  - eapply (w_einsert P0 log _ (H1 _) (H2 _) (H3 _) (H4 _) eq_refl (H5 _) (H6 _)); [apply q_set|done].
  - eapply (w_einsert P0 log _ (H1 _) (H2 _) (H3 _) (H4 _) eq_refl (H5 _) (H6 _)); [apply q_mod; intros; apply k_mod_cb|done].
  - by eapply (w_edelete P0 log _ (H1 _) (H2 _) (H4 _) eq_refl (H5 _) (H6 _)).
  - by eapply (w_eget P0 log _ (H1 _) (H2 _) (H4 _) eq_refl (H5 _) (H6 _)).
  - by eapply (w_eval P0 log _ (H1 _) (H2 _) (H4 _) eq_refl (H5 _) (H6 _)).
  - by eapply (w_eptr P0 log _ (H1 _) (H2 _) (H4 _) eq_refl (H5 _) (H6 _)).
Qed.
End types.

Section set_types.
Context {K U C : Type} (log : C -> list K).
Lemma arr_known_set fuel sum64 (keq : K -> K -> C -> C * option bool) KeyBytes P0 :
  (∀ k k' c, log (keq k k' c).1 = log c ++ [k; k']) -> (∀ k c, log (KeyBytes k c).1 = log c ++ [k]) ->
  ∀ (op : sop K U) w T, match op with
    | SHas h k | SDel h k | SAdd h k =>
        rooted P0 w h T -> sayw log (known T k) (scall (EArrSet_api fuel sum64 keq KeyBytes) (eset_op op)) w
    | _ => True
    end.
Proof.
  intros He Hk op w T.
  assert (H1 : ∀ s k, says log (Forall (λ x, x = k)) (e_start (arr_efam (V:=unit) (U:=U) sum64 keq KeyBytes) s k)).
  { intros. simpl. apply s_post; [|done]. apply (s_on _ _ [k]); [by repeat constructor|done]. }
  assert (H2 : ∀ s k d h, says log (Forall (λ x, x = k)) (e_next (arr_efam (V:=unit) (U:=U) sum64 keq KeyBytes) s k d h)).
  { intros. by apply s_keep. }
  assert (H3 : ∀ n s k ck d, says log (Forall (λ x, x = k \/ x = ck)) (e_conf (arr_efam (V:=unit) (U:=U) sum64 keq KeyBytes) n s k ck d)).
  { intros. simpl. apply s_post; [|done]. apply (s_on _ _ [ck]); [constructor; [by right|constructor]|done]. }
  assert (H4 : ∀ k ck, says log (Forall (λ x, x = k \/ x = ck)) (e_eq (arr_efam (V:=unit) (U:=U) sum64 keq KeyBytes) k ck)).
  { intros. apply (s_on _ _ [ck; k]); [constructor; [by right|constructor; [by left|constructor]]|done]. }
  assert (H5 : ∀ s k w x w', e_start (arr_efam (V:=unit) (U:=U) sum64 keq KeyBytes) s k w = Ret x w' -> w_mem w' = w_mem w).
  { intros s k w0 x w'. simpl. apply (bind_mem (meth (KeyBytes k))). intros. by eapply meth_mem. }
  assert (H6 : ∀ s k d h w x w', e_next (arr_efam (V:=unit) (U:=U) sum64 keq KeyBytes) s k d h w = Ret x w' -> w_mem w' = w_mem w).
  { by intros s k d h w0 x w' [= _ <-]. }
  destruct op; try done; intros HT; unfold scall, eset_op; (apply w_post; [|done]); cbn [EArrSet_api sa_Add sa_Del sa_Has].
  - eapply (w_einsert P0 log _ H1 H2 H3 H4 eq_refl H5 H6); [apply q_add|done].
  - by eapply (w_edelete P0 log _ H1 H2 H4 eq_refl H5 H6).
  - by eapply (w_ehas P0 log _ H1 H2 H4 eq_refl H5 H6).
Qed.
Lemma gen_known_set fuel (Equal : K -> K -> C -> C * option bool) Hash P0 :
  (∀ k k' c, log (Equal k k' c).1 = log c ++ [k; k']) -> (∀ k s i c, log (Hash k s i c).1 = log c ++ [k]) ->
  ∀ (op : sop K U) w T, match op with
    | SHas h k | SDel h k | SAdd h k =>
        rooted P0 w h T -> sayw log (known T k) (scall (ESet_api fuel Equal Hash) (eset_op op)) w
    | _ => True
    end.
Proof.
  intros He Hk op w T.
  assert (H1 : ∀ b s k, says log (Forall (λ x, x = k)) (e_start (gen_efam (V:=unit) (U:=U) Equal Hash b) s k)).
  { intros. simpl. apply s_post; [|done]. apply (s_on _ _ [k]); [by repeat constructor|done]. }
  assert (H2 : ∀ b s k d h, says log (Forall (λ x, x = k)) (e_next (gen_efam (V:=unit) (U:=U) Equal Hash b) s k d h)).
  { intros. simpl. apply s_post; [|done]. apply (s_on _ _ [k]); [by repeat constructor|done]. }
  assert (H3 : ∀ b n s k ck d, says log (Forall (λ x, x = k \/ x = ck)) (e_conf (gen_efam (V:=unit) (U:=U) Equal Hash b) n s k ck d)).
  { intros. simpl. apply s_post; [|done]. apply (s_on _ _ [if b then k else ck]); [|done]. constructor; [|constructor]. destruct b; auto. }
  assert (H4 : ∀ b k ck, says log (Forall (λ x, x = k \/ x = ck)) (e_eq (gen_efam (V:=unit) (U:=U) Equal Hash b) k ck)).
  { intros. apply (s_on _ _ [k; ck]); [constructor; [by left|constructor; [by right|constructor]]|done]. }
  assert (H5 : ∀ b s k w x w', e_start (gen_efam (V:=unit) (U:=U) Equal Hash b) s k w = Ret x w' -> w_mem w' = w_mem w).
  { intros b s k w0 x w'. simpl. apply bind_mem. intros. by eapply meth_mem. }
  assert (H6 : ∀ b s k d h w x w', e_next (gen_efam (V:=unit) (U:=U) Equal Hash b) s k d h w = Ret x w' -> w_mem w' = w_mem w).
  { intros b s k d h w0 x w'. simpl. apply bind_mem. intros. by eapply meth_mem. }
  destruct op; try done; intros HT; unfold scall, eset_op; (apply w_post; [|done]); cbn [ESet_api sa_Add sa_Del sa_Has].
  - eapply (w_einsert P0 log _ (H1 _) (H2 _) (H3 _) (H4 _) eq_refl (H5 _) (H6 _)); [apply q_add|done].
  - by eapply (w_edelete P0 log _ (H1 _) (H2 _) (H4 _) eq_refl (H5 _) (H6 _)).
  - by eapply (w_ehas P0 log _ (H1 _) (H2 _) (H4 _) eq_refl (H5 _) (H6 _)).
Qed.
End set_types.

(** ** Executions *)
(** The tree of a container holds the stored keys. *)
Lemma memrun_tree {V U C} (zero : V) fuel (u0 : U) (c0 : C) `{HK : Countable K} (api : mapapi K V K (U * C)) bad dig ok : 256 <= fuel ->
  emap_type zero fuel api bad dig ok -> ∀ tr w, memrun api ok u0 c0 tr w -> ∀ s h, (MNew s, RHandle h) ∈ tr ->
  ∃ P0 T, rooted P0 w h T /\ ∀ k p, (k, p) ∈ leaves T -> k ∈ stored tr h.
Proof.
  intros Hfuel Ht tr w Hr. destruct (memrun_kv zero fuel u0 c0 api bad dig ok Hfuel Ht) as (api' & HS & F & P0 & Q & fit & _ & Hall).
  destruct (Hall tr w Hr) as (σ & Hs & HR & _).
  intros s h Hin. destruct (ObserveFacts.mspec_new _ _ _ _ _ Hs _ _ Hin) as [m Hm].
  destruct HR as (G & HI & EG & _). assert (Hm' := Hm). rewrite EG, lookup_fmap in Hm'. destruct (G !! h) as [[s' T]|] eqn:EhG; [|done].
  injection Hm' as -> <-. destruct HI as [_ HI _]. destruct (HI _ _ _ EhG) as [_ HG]. exists P0, T. split.
  - assert (Hn : is_leaf T = false) by (by eapply Good_node). destruct HG as [[(rt & Hrt & _ & Hrep & _) _ _ _] _]. by exists rt.
  - intros k p Hk. apply (Guards.stored_holds dig zero u0 tr σ h k Hs). eexists s, _. split; [exact Hm|].
    destruct (Refine.dict T !! k) eqn:Ek; [done|]. exfalso.
    exact (proj1 (Refine.dict_none F (kv_layout P0) eq_refl s (erase w) h T k HG) Ek p Hk).
Qed.

Lemma semrun_tree {U C} fuel (u0 : U) (c0 : C) `{HK : Countable K} (api : setapi K unit K (U * C)) bad dig ok : 256 <= fuel ->
  eset_type fuel api bad dig ok -> ∀ tr w, semrun api ok u0 c0 tr w -> ∀ s h, (SNew s, THandle h) ∈ tr ->
  ∃ P0 T, rooted P0 w h T /\ ∀ k p, (k, p) ∈ leaves T -> k ∈ sstored tr h.
Proof.
  intros Hfuel Ht tr w Hr. destruct (semrun_kv fuel u0 c0 api bad dig ok Hfuel Ht) as (api' & HS & F & P0 & Q & fit & _ & Hall).
  destruct (Hall tr w Hr) as (σ & Hs & HR & _).
  intros s h Hin. destruct (ObserveSet.sspec_new _ _ _ _ Hs _ _ Hin) as [X Hm].
  destruct HR as (G & HI & EG & _). assert (Hm' := Hm). rewrite EG, lookup_fmap in Hm'. destruct (G !! h) as [[s' T]|] eqn:EhG; [|done].
  injection Hm' as -> <-. destruct HI as [_ HI _]. destruct (HI _ _ _ EhG) as [_ HG]. exists P0, T. split.
  - assert (Hn : is_leaf T = false) by (by eapply Good_node). destruct HG as [[(rt & Hrt & _ & Hrep & _) _ _ _] _]. by exists rt.
  - intros k p Hk. destruct (Guards.sspec_stored dig u0 tr σ Hs h s _ Hm) as [<- _]. apply RefineSet.keys_in. eauto.
Qed.
