(** Joining goroutines that use maps: the maps and the memory that they leave fit together
    again. *)
From stdpp Require Import base numbers list gmap relations.
From Verif Require Import GoInt Mem Hash Prog PAmt PFam ProgSim Amt Families BitsFacts Steps Tree Rep Paths Descend Insert Split Delete Remove Core Scan Order Heap Spec SpecFacts HashFacts Client Types Refine RefineSet Instances Pack Runs Guards PClient ConcSpec Conc ReadOnly ConcClient ForkSpec Knows ConcMap ConcMapAll.
Local Open Scope nat_scope.

(** ** Who owns a block *)
Section who.
Variables (X : nat -> positive -> bool) (n : nat).
Hypothesis HX : ∀ i j l, X i l = true -> X j l = true -> i = j.
Hypothesis Hn : ∀ i l, X i l = true -> i < n.
Definition who (l : positive) : option nat := head (filter (λ i, X i l = true) (seq 0 n)).
Lemma who_some i l : X i l = true -> who l = Some i.
Proof.
  intros Hi. unfold who. assert (Hin : i ∈ filter (λ i, X i l = true) (seq 0 n)).
  { apply elem_of_list_filter. split; [done|]. apply elem_of_list_In, in_seq. pose proof (Hn _ _ Hi). lia. }
  destruct (filter _ _) as [|j js] eqn:E; [by apply elem_of_nil in Hin|]. simpl. f_equal.
  assert (Hj : j ∈ filter (λ i, X i l = true) (seq 0 n)) by (rewrite E; by left).
  apply elem_of_list_filter in Hj as [Hj _]. by eapply HX.
Qed.
Lemma who_X i l : who l = Some i -> X i l = true.
Proof.
  unfold who. intros Hw. destruct (filter _ _) as [|j js] eqn:E; [done|]. simpl in Hw. injection Hw as ->.
  assert (Hj : i ∈ filter (λ i, X i l = true) (seq 0 n)) by (rewrite E; by left). by apply elem_of_list_filter in Hj as [Hj _].
Qed.
Lemma who_none l : who l = None -> ∀ i, X i l = false.
Proof. intros Hw i. destruct (X i l) eqn:E; [|done]. by rewrite (who_some i l E) in Hw. Qed.

(** What everyone has at the blocks that are theirs. *)
Lemma compose {A} (m0 : gmap positive A) (ms : list (gmap positive A)) :
  ∃ m : gmap positive A, ∀ l, m !! l = match who l with Some i => default ∅ (ms !! i) !! l | None => m0 !! l end.
Proof.
  set (f l := match who l with Some i => default ∅ (ms !! i) !! l | None => m0 !! l end).
  set (D := dom m0 ∪ ⋃ (map (λ m : gmap positive A, dom m) ms)).
  exists (map_imap (λ l _, f l) (gset_to_gmap () D)). intros l. rewrite map_lookup_imap.
  change (match who l with Some i => default ∅ (ms !! i) !! l | None => m0 !! l end) with (f l).
  destruct (decide (l ∈ D)) as [Hl|Hl].
  - by rewrite lookup_gset_to_gmap, option_guard_True by done.
  - rewrite lookup_gset_to_gmap, option_guard_False by done. simpl. unfold f. symmetry.
    apply not_elem_of_union in Hl as [H1 H2]. destruct (who l) as [i|]; [|by apply not_elem_of_dom].
    destruct (ms !! i) as [mi|] eqn:E; simpl; [|apply lookup_empty].
    apply not_elem_of_dom. intros Hd. apply H2. apply elem_of_union_list. exists (dom mi). split; [|done].
    apply elem_of_list_In, in_map, elem_of_list_In. by eapply elem_of_list_lookup_2.
Qed.
Lemma compose_merged {A} (m0 : gmap positive A) (ms : list (gmap positive A)) (m : gmap positive A) : length ms = n ->
  (∀ l, m !! l = match who l with Some i => default ∅ (ms !! i) !! l | None => m0 !! l end) ->
  (∀ i mi, ms !! i = Some mi -> ∀ l, X i l = false -> mi !! l = m0 !! l) ->
  merged m0 ms m.
Proof.
  intros Hl Hm Ho l. rewrite (Hm l). split.
  - intros mi [i Hi]%elem_of_list_lookup Hne. destruct (X i l) eqn:E.
    + rewrite (who_some _ _ E), Hi. done.
    + exfalso. apply Hne. by eapply Ho.
  - intros Hall. destruct (who l) as [i|] eqn:E; [|done]. apply who_X, Hn in E. rewrite <- Hl in E.
    apply lookup_lt_is_Some_2 in E as [mi Hi]. rewrite Hi. simpl. apply Hall. by eapply elem_of_list_lookup_2.
Qed.
End who.

(** A name that is not in use. *)
Definition above {A} (m : gmap positive A) : positive := Pos.succ (foldr Pos.max 1%positive (elements (dom m))).
Lemma above_ok {A} (m : gmap positive A) l : is_Some (m !! l) -> (l < above m)%positive.
Proof.
  intros Hl. apply elem_of_dom in Hl. apply elem_of_elements in Hl. unfold above.
  induction (elements (dom m)) as [|x xs IH]; [by apply elem_of_nil in Hl|]. simpl.
  apply elem_of_cons in Hl as [->|Hl]; [lia|]. specialize (IH Hl). lia.
Qed.

(** One choice for each of finitely many. *)
Lemma choose {A B} (P : nat -> A -> B -> Prop) (l : list A) : (∀ i a, l !! i = Some a -> ∃ b, P i a b) ->
  ∃ bs, length bs = length l /\ ∀ i a b, l !! i = Some a -> bs !! i = Some b -> P i a b.
Proof.
  revert P. induction l as [|a l IH]; intros P HP.
  - exists []. split; [done|]. intros i a b Hi. by rewrite lookup_nil in Hi.
  - destruct (HP 0 a eq_refl) as [b Hb]. destruct (IH (λ i, P (S i))) as (bs & Hl & Hbs); [intros i a' Hi; by apply (HP (S i))|].
    exists (b :: bs). split; [simpl; by f_equal|]. intros [|i] a' b' Hi Hb'; simpl in *; [by simplify_eq|by eapply Hbs].
Qed.

(** ** Histories one after the other *)
Section stored.
Context `{Countable K} {V U : Type}.
Local Notation history := (list (mop K V U * mres V)).
Lemma stored_cong (new t1 t2 : history) h : stored t1 h = stored t2 h -> stored (new ++ t1) h = stored (new ++ t2) h.
Proof.
  intros Ht. induction new as [|[op r] new IH]; [done|].
  destruct op as [s|h' k v|h' k f|h' k|h' k|h' k|h' k|h'|h'|h' f|p|p v]; cbn [app stored]; rewrite ?IH; done.
Qed.
Lemma stored_other (new tr : history) h : (∀ op r, (op, r) ∈ new -> ¬ writes op h) -> stored (new ++ tr) h = stored tr h.
Proof.
  intros Hn. induction new as [|[op r] new IH]; [done|].
  assert (Hw : ¬ writes op h) by (apply (Hn op r); by left).
  rewrite <- IH by (intros op' r' Hin; apply (Hn op' r'); by right).
  destruct op as [s|h' k v|h' k f|h' k|h' k|h' k|h' k|h'|h'|h' f|p|p v]; cbn [app stored]; try done;
    (destruct (Pos.eqb_spec h' h) as [->|_]; [by destruct Hw|done]).
Qed.
Lemma in_concat (news : list history) tr x : x ∈ concat news ++ tr <-> (∃ i new, news !! i = Some new /\ x ∈ new) \/ x ∈ tr.
Proof.
  rewrite elem_of_app. apply or_iff_compat_r. rewrite elem_of_list_In, in_concat. split.
  - intros (new & Hnew & Hx). apply elem_of_list_In, elem_of_list_lookup in Hnew as [i Hi]. exists i, new. split; [done|by apply elem_of_list_In].
  - intros (i & new & Hi & Hx). exists new. split; [|by apply elem_of_list_In]. apply elem_of_list_In. by eapply elem_of_list_lookup_2.
Qed.
Lemma stored_concat_one (news : list history) tr h i new : news !! i = Some new ->
  (∀ j new', news !! j = Some new' -> j ≠ i -> ∀ op r, (op, r) ∈ new' -> ¬ writes op h) ->
  stored (concat news ++ tr) h = stored (new ++ tr) h.
Proof.
  revert i. induction news as [|new0 news IH]; intros i Hi Ho; [by rewrite lookup_nil in Hi|]. simpl. rewrite <- app_assoc.
  destruct i as [|i]; simpl in Hi.
  - injection Hi as ->. apply stored_cong. apply stored_other. intros op r Hin.
    apply elem_of_list_In, List.in_concat in Hin as (new' & Hnew & Hx). apply elem_of_list_In, elem_of_list_lookup in Hnew as [j Hj].
    apply elem_of_list_In in Hx. by apply (Ho (S j) new' Hj (Nat.neq_succ_0 j) op r).
  - rewrite stored_other; [|intros op r Hin; by apply (Ho 0 new0 eq_refl (Nat.neq_0_succ i) op r)]. apply (IH i Hi). intros j new' Hj Hne. apply (Ho (S j) new' Hj). congruence.
Qed.
Lemma stored_concat_none (news : list history) tr h :
  (∀ j new', news !! j = Some new' -> ∀ op r, (op, r) ∈ new' -> ¬ writes op h) -> stored (concat news ++ tr) h = stored tr h.
Proof.
  intros Ho. apply stored_other. intros op r Hin.
  apply elem_of_list_In, List.in_concat in Hin as (new' & Hnew & Hx). apply elem_of_list_In, elem_of_list_lookup in Hnew as [j Hj].
  apply elem_of_list_In in Hx. by apply (Ho j new' Hj op r).
Qed.
End stored.

Section join.
Context `{Countable K} {HS V CK U : Type}.
Variables (zero : V) (dig : N -> K -> nat -> N).
Variables (F : fam K HS V CK U) (L : layout K V CK) (Q : N -> Prop) (Hcell : ly_cell L = true).
Local Notation mop := (mop K V U).
Local Notation history := (list (mop * mres V)).
Local Notation world := (world V CK U).
Local Notation mstate := (mstate K V U).
Local Notation tree := (tree K).
Local Notation heap := (gmap loc (N * tree)).
Local Notation RelG := (Refine.RelG F L Q).
Variables (tr : history) (w : world) (σ : mstate) (G : heap).
Hypothesis (Hs : knows tr σ) (HR : RelG G w σ).
Variables (own : positive -> option nat) (starts : list loc).
Hypothesis Hsp : spread (w_nxt w) starts.
Local Notation X := (Xs tr G own starts).
Local Notation Sb := (Ss tr G own starts).
Local Notation mi := (mis G own).
Local Notation sh := (shs G own).
Local Notation belongs := (belongs tr G).
(** What goroutine i has done and left. *)
Record left : Type := Left { lf_new : history; lf_st : mstate; lf_heap : heap; lf_w : world }.
Variables (rs : list left) (m : gmap loc (block V CK)) (n : loc) (u : U).
Hypothesis Hlen : length rs = length starts.
Hypothesis Hrs : ∀ i r, rs !! i = Some r ->
  holding zero dig F L Q (X i) Sb (mi i) sh tr σ G (w_mem w) (lf_new r) (lf_st r) (lf_heap r) (lf_w r) /\
  ∀ l, X i l = true -> m !! l = w_mem (lf_w r) !! l.
Hypothesis Hm : ∀ l, (∀ i, X i l = false) -> m !! l = w_mem w !! l.
Hypothesis Hfree : ∀ l, is_Some (m !! l) -> (l < n)%positive.
Local Notation who := (who X (length starts)).

Lemma HX : ∀ i j l, X i l = true -> X j l = true -> i = j.
Proof. eapply Xs_fun; eassumption. Qed.
Lemma Hn : ∀ i l, X i l = true -> i < length starts.
Proof. intros i l. unfold Xs. destruct (starts !! i) eqn:E; [|done]. intros _. by eapply lookup_lt_Some. Qed.
Local Notation some := (who_some X (length starts) HX Hn).
Local Notation none := (who_none X (length starts) HX Hn).
Lemma who_res i l : who l = Some i -> ∃ r, rs !! i = Some r.
Proof. intros Hw. apply who_X, Hn in Hw. rewrite <- Hlen in Hw. apply lookup_lt_is_Some_2 in Hw as [r Hr]. eauto. Qed.
(** The blocks of a map from before are its owner's. *)
Lemma X_own i l h : X i l = true -> belongs l h -> own h = Some i.
Proof.
  intros Hx Hb. apply Xs_iff in Hx as (a & Ha & [Hna|(h' & Ho & Hb')]).
  - exfalso. destruct Hsp as [Hge _]. eapply belongs_lt in Hb; [|eassumption..]. apply names_le in Hna. apply elem_of_list_lookup_2, Hge in Ha. lia.
  - by rewrite (belongs_fun F L Q Hcell tr w σ G Hs HR _ _ _ Hb Hb').
Qed.
Lemma own_X i l h a : own h = Some i -> starts !! i = Some a -> belongs l h -> X i l = true.
Proof. intros Ho Ha Hb. apply Xs_iff. exists a. split; [done|]. right. eauto. Qed.
Lemma root_belongs h : is_Some (G !! h) -> belongs h h.
Proof. intros [[s T] HG]. left. exists s, T. split; [done|by left]. Qed.
Lemma X_mi i h : X i h = true -> mi i h = true.
Proof.
  intros Hx. unfold mis, old. destruct (bool_decide_reflect (is_Some (G !! h))) as [Ho|]; [|done].
  apply bool_decide_eq_true. eapply X_own; [done|]. by apply root_belongs.
Qed.
Lemma same_who l h : belongs l h -> is_Some (G !! h) -> who h = None -> who l = None.
Proof.
  intros Hb Hg Hw. destruct (who l) as [i|] eqn:E; [|done]. apply who_X in E.
  pose proof (X_own i l h E Hb) as Ho. pose proof (Hn _ _ E) as Hi. apply lookup_lt_is_Some_2 in Hi as [a Ha].
  pose proof (own_X i h h a Ho Ha (root_belongs h Hg)) as Hx. by rewrite (some i h Hx) in Hw.
Qed.

Theorem join_ok : ∃ σ', ms_usr σ' = u /\ merged (ms_map σ) (map (λ r, ms_map (lf_st r)) rs) (ms_map σ') /\
  merged (ms_val σ) (map (λ r, ms_val (lf_st r)) rs) (ms_val σ') /\
  knows (concat (map lf_new rs) ++ tr) σ' /\ Refine.Rel F L Q (World m n u) σ'.
Proof.
  pose proof HR as (HI & Hmap & Hval & Husr).
  destruct (compose X (length starts) G (map lf_heap rs)) as [G' HG'].
  assert (HGi : ∀ h i r, who h = Some i -> rs !! i = Some r -> G' !! h = lf_heap r !! h).
  { intros h i r Hw Hr. rewrite HG', Hw. change (map lf_heap rs) with (lf_heap <$> rs). by rewrite list_lookup_fmap, Hr. }
  assert (HGn : ∀ h, who h = None -> G' !! h = G !! h) by (intros h Hw; by rewrite HG', Hw).
  set (w' := World m n u).
  set (σ' := MState ((λ x : N * tree, (x.1, Refine.dict x.2)) <$> G') (vals w') u : mstate).
  assert (Hk : ∀ i r, rs !! i = Some r -> knows (lf_new r ++ tr) (lf_st r)).
  { intros i r Hr. destruct (Hrs i r Hr) as [Hh _]. eapply holding_knows; [exact Hs|exact Hh]. }
  assert (Hrel : ∀ i r, rs !! i = Some r -> RelG (lf_heap r) (lf_w r) (lf_st r)) by (intros i r Hr; apply (Hrs i r Hr)).
  assert (Hmi : ∀ h i r, who h = Some i -> rs !! i = Some r -> ms_map σ' !! h = ms_map (lf_st r) !! h).
  { intros h i r Hw Hr. destruct (Hrel i r Hr) as (_ & E & _). simpl. by rewrite E, !lookup_fmap, (HGi h i r Hw Hr). }
  assert (Hmn : ∀ h, who h = None -> ms_map σ' !! h = ms_map σ !! h).
  { intros h Hw. simpl. by rewrite Hmap, !lookup_fmap, (HGn h Hw). }
  assert (Hvi : ∀ p i r, who p = Some i -> rs !! i = Some r -> ms_val σ' !! p = ms_val (lf_st r) !! p).
  { intros p i r Hw Hr. destruct (Hrel i r Hr) as (_ & _ & E & _). simpl. rewrite E, !vals_lookup. simpl.
    by rewrite (proj2 (Hrs i r Hr) p (who_X _ _ _ _ Hw)). }
  assert (Hvn : ∀ p, who p = None -> ms_val σ' !! p = ms_val σ !! p).
  { intros p Hw. simpl. rewrite Hval, !vals_lookup. simpl. by rewrite (Hm p (none p Hw)). }
  assert (Hoi : ∀ i r, rs !! i = Some r -> ∀ h, X i h = false -> ms_map (lf_st r) !! h = ms_map σ !! h).
  { intros i r Hr h Hx. destruct (Hrs i r Hr) as [Hh _]. destruct (Hrel i r Hr) as (_ & E & _).
    by rewrite E, Hmap, !lookup_fmap, (hd_maps _ _ _ _ _ _ _ _ _ _ _ _ _ _ _ _ _ Hh h Hx). }
  assert (Hov : ∀ i r, rs !! i = Some r -> ∀ p, X i p = false -> ms_val (lf_st r) !! p = ms_val σ !! p).
  { intros i r Hr p Hx. destruct (Hrs i r Hr) as [Hh _]. destruct (Hrel i r Hr) as (_ & _ & E & _).
    by rewrite E, Hval, !vals_lookup, (hd_out _ _ _ _ _ _ _ _ _ _ _ _ _ _ _ _ _ Hh p Hx). }
  assert (Hgrow : ∀ i r, rs !! i = Some r -> mgrow σ (lf_st r)).
  { intros i r Hr. destruct (Hrs i r Hr) as [Hh _]. eapply msteps_grow; [apply Hs|apply Hh]. }
  (* The joined memory. *)
  assert (Hfoot : ∀ h i r s T, who h = Some i -> rs !! i = Some r -> lf_heap r !! h = Some (s, T) -> ∀ l, l ∈ foot h T -> X i l = true).
  { intros h i r s T Hw Hr HG l Hl. destruct (Hrs i r Hr) as [Hh _]. apply who_X in Hw.
    apply (hd_mine _ _ _ _ _ _ _ _ _ _ _ _ _ _ _ _ _ Hh h s T HG (X_mi i h Hw) l Hl). }
  assert (Hfootn : ∀ h s T, who h = None -> G !! h = Some (s, T) -> ∀ l, l ∈ foot h T -> ∀ i, X i l = false).
  { intros h s T Hw HG l Hl. apply none. apply (same_who l h); [|by eauto|done]. left. eauto. }
  assert (HI' : Inv F L 240 Q w' G').
  { constructor.
    - intros l b Hb. apply Hfree. by exists b.
    - intros h s T HG. destruct (who h) as [i|] eqn:Hw.
      + destruct (who_res i h Hw) as [r Hr]. rewrite (HGi h i r Hw Hr) in HG. destruct (Hrel i r Hr) as (HIi & _).
        destruct (in_good _ _ _ _ _ _ HIi _ _ _ HG) as [HQ Hg]. split; [done|]. eapply Good_keep; [done|].
        intros l Hl. apply keep_same. simpl. by rewrite (proj2 (Hrs i r Hr) l (Hfoot h i r s T Hw Hr HG l Hl)).
      + rewrite (HGn h Hw) in HG. destruct (in_good _ _ _ _ _ _ HI _ _ _ HG) as [HQ Hg]. split; [done|]. eapply Good_keep; [done|].
        intros l Hl. apply keep_same. simpl. by rewrite (Hm l (Hfootn h s T Hw HG l Hl)).
    - intros h1 s1 T1 h2 s2 T2 Hne H1 H2 l Hl1 Hl2. destruct (who h1) as [i|] eqn:Hw1; destruct (who h2) as [j|] eqn:Hw2.
      + destruct (who_res i h1 Hw1) as [r Hr]. rewrite (HGi h1 i r Hw1 Hr) in H1.
        destruct (who_res j h2 Hw2) as [r' Hr']. rewrite (HGi h2 j r' Hw2 Hr') in H2.
        pose proof (HX _ _ _ (Hfoot h1 i r s1 T1 Hw1 Hr H1 l Hl1) (Hfoot h2 j r' s2 T2 Hw2 Hr' H2 l Hl2)) as <-.
        rewrite Hr in Hr'. injection Hr' as <-. destruct (Hrel i r Hr) as (HIi & _). by apply (in_sep _ _ _ _ _ _ HIi _ _ _ _ _ _ Hne H1 H2 l).
      + destruct (who_res i h1 Hw1) as [r Hr]. rewrite (HGi h1 i r Hw1 Hr) in H1. rewrite (HGn h2 Hw2) in H2.
        pose proof (Hfoot h1 i r s1 T1 Hw1 Hr H1 l Hl1) as Hx. by rewrite (Hfootn h2 s2 T2 Hw2 H2 l Hl2 i) in Hx.
      + destruct (who_res j h2 Hw2) as [r Hr]. rewrite (HGi h2 j r Hw2 Hr) in H2. rewrite (HGn h1 Hw1) in H1.
        pose proof (Hfoot h2 j r s2 T2 Hw2 Hr H2 l Hl2) as Hx. by rewrite (Hfootn h1 s1 T1 Hw1 H1 l Hl1 j) in Hx.
      + rewrite (HGn h1 Hw1) in H1. rewrite (HGn h2 Hw2) in H2. by apply (in_sep _ _ _ _ _ _ HI _ _ _ _ _ _ Hne H1 H2 l). }
  assert (HR' : RelG G' w' σ') by (split_and!; done).
  (* What is live. *)
  assert (Hlive : ∀ i r h s mp, rs !! i = Some r -> ms_map (lf_st r) !! h = Some (s, mp) -> ∃ mp', ms_map σ' !! h = Some (s, mp')).
  { intros i r h s mp Hr Hh. destruct (X i h) eqn:E.
    - rewrite (Hmi h i r (some i h E) Hr). eauto.
    - rewrite (Hoi i r Hr h E) in Hh. destruct (who h) as [j|] eqn:Hw; [|rewrite (Hmn h Hw); eauto].
      destruct (who_res j h Hw) as [r' Hr']. rewrite (Hmi h j r' Hw Hr'). by apply (Hgrow j r' Hr') in Hh. }
  assert (Hlive0 : ∀ h s mp, ms_map σ !! h = Some (s, mp) -> ∃ mp', ms_map σ' !! h = Some (s, mp')).
  { intros h s mp Hh. destruct (who h) as [j|] eqn:Hw; [|rewrite (Hmn h Hw); eauto].
    destruct (who_res j h Hw) as [r' Hr']. rewrite (Hmi h j r' Hw Hr'). by apply (Hgrow j r' Hr') in Hh. }
  assert (Hvlive0 : ∀ p, is_Some (ms_val σ !! p) -> is_Some (ms_val σ' !! p)).
  { intros p Hp. destruct (who p) as [j|] eqn:Hw; [|by rewrite (Hvn p Hw)].
    destruct (who_res j p Hw) as [r' Hr']. rewrite (Hvi p j r' Hw Hr'). by apply (Hgrow j r' Hr'). }
  assert (Hvlive : ∀ i r p, rs !! i = Some r -> is_Some (ms_val (lf_st r) !! p) -> is_Some (ms_val σ' !! p)).
  { intros i r p Hr Hp. destruct (X i p) eqn:E.
    - by rewrite (Hvi p i r (some i p E) Hr).
    - rewrite (Hov i r Hr p E) in Hp. by apply Hvlive0. }
  assert (Hnews : ∀ x, x ∈ concat (map lf_new rs) ++ tr <-> (∃ i r, rs !! i = Some r /\ x ∈ lf_new r) \/ x ∈ tr).
  { intros x. rewrite in_concat. apply or_iff_compat_r. change (map lf_new rs) with (lf_new <$> rs). split.
    - intros (i & new & Hi & Hx). rewrite list_lookup_fmap in Hi. apply fmap_Some in Hi as (r & Hr & ->). eauto.
    - intros (i & r & Hr & Hx). exists i, (lf_new r). by rewrite list_lookup_fmap, Hr. }
  exists σ'. split; [done|]. split_and!.
  - apply (compose_merged X (length starts) HX Hn); [by rewrite map_length| |].
    + intros h. change (map (λ r, ms_map (lf_st r)) rs) with ((λ r, ms_map (lf_st r)) <$> rs). destruct (who h) as [i|] eqn:Hw; [|by apply Hmn].
      destruct (who_res i h Hw) as [r Hr]. rewrite list_lookup_fmap, Hr. simpl. by apply (Hmi h i r).
    + intros i mp Hi h Hx. change (map (λ r, ms_map (lf_st r)) rs) with ((λ r, ms_map (lf_st r)) <$> rs) in Hi.
      rewrite list_lookup_fmap in Hi. apply fmap_Some in Hi as (r & Hr & ->). by apply (Hoi i r).
  - apply (compose_merged X (length starts) HX Hn); [by rewrite map_length| |].
    + intros p. change (map (λ r, ms_val (lf_st r)) rs) with ((λ r, ms_val (lf_st r)) <$> rs). destruct (who p) as [i|] eqn:Hw; [|by apply Hvn].
      destruct (who_res i p Hw) as [r Hr]. rewrite list_lookup_fmap, Hr. simpl. by apply (Hvi p i r).
    + intros i mp Hi h Hx. change (map (λ r, ms_val (lf_st r)) rs) with ((λ r, ms_val (lf_st r)) <$> rs) in Hi.
      rewrite list_lookup_fmap in Hi. apply fmap_Some in Hi as (r & Hr & ->). by apply (Hov i r).
  - split.
    + (* well-formed *) constructor.
      * intros h s mp k p Hh Hp. simpl in Hh. rewrite lookup_fmap in Hh. destruct (G' !! h) as [[s' T]|] eqn:E; [|done].
        simpl in Hh. injection Hh as <- <-. destruct (in_good _ _ _ _ _ _ HI' _ _ _ E) as [_ Hg].
        destruct (Refine.entry_block F L Hcell _ _ _ _ _ _ Hg Hp) as (v & _ & Hv). simpl. eauto.
      * intros h s mp k h' s' mp' k' p Hh Hp Hh' Hp'.
        assert (Hf : ∀ h s mp k, ms_map σ' !! h = Some (s, mp) -> mp !! k = Some p -> ∃ T, G' !! h = Some (s, T) /\ p ∈ foot h T).
        { intros h1 s1 m1 k1 H1 H2. simpl in H1. rewrite lookup_fmap in H1. destruct (G' !! h1) as [[s2 T]|] eqn:E; [|done].
          simpl in H1. injection H1 as <- <-. destruct (in_good _ _ _ _ _ _ HI' _ _ _ E) as [_ Hg]. exists T. split; [done|]. by eapply dict_foot. }
        destruct (Hf _ _ _ _ Hh Hp) as (T & HT & Hin). destruct (Hf _ _ _ _ Hh' Hp') as (T' & HT' & Hin').
        destruct (decide (h = h')) as [<-|Hne]; [|destruct (in_sep _ _ _ _ _ _ HI' _ _ _ _ _ _ Hne HT HT' p Hin Hin')].
        destruct (who h) as [i|] eqn:Hw.
        -- destruct (who_res i h Hw) as [r Hr]. rewrite (Hmi h i r Hw Hr) in Hh, Hh'. exact (mw_inj _ (kn_wf _ _ (Hk i r Hr)) _ _ _ _ _ _ _ _ _ Hh Hp Hh' Hp').
        -- rewrite (Hmn h Hw) in Hh, Hh'. exact (mw_inj _ (kn_wf _ _ Hs) _ _ _ _ _ _ _ _ _ Hh Hp Hh' Hp').
    + intros h s mp Hh. apply Hnews. destruct (who h) as [i|] eqn:Hw.
      * destruct (who_res i h Hw) as [r Hr]. rewrite (Hmi h i r Hw Hr) in Hh.
        apply (kn_seed _ _ (Hk i r Hr)) in Hh. apply elem_of_app in Hh as [Hh|Hh]; [left; eauto|by right].
      * rewrite (Hmn h Hw) in Hh. right. by eapply (kn_seed _ _ Hs).
    + intros s h [(i & r & Hr & Hin)|Hin]%Hnews.
      * destruct (kn_new _ _ (Hk i r Hr) s h) as [mp Hmp]; [apply elem_of_app; by left|]. by eapply Hlive.
      * destruct (kn_new _ _ Hs s h Hin) as [mp Hmp]. by eapply Hlive0.
    + intros h k. destruct (who h) as [i|] eqn:Hw.
      * destruct (who_res i h Hw) as [r Hr]. rewrite (stored_concat_one _ tr h i (lf_new r)).
        -- rewrite (kn_stored _ _ (Hk i r Hr)). unfold holds. by rewrite (Hmi h i r Hw Hr).
        -- change (map lf_new rs) with (lf_new <$> rs). by rewrite list_lookup_fmap, Hr.
        -- intros j new' Hj Hne op r1 Hin Hwr. change (map lf_new rs) with (lf_new <$> rs) in Hj.
           rewrite list_lookup_fmap in Hj. apply fmap_Some in Hj as (r' & Hr' & ->). destruct (Hrs j r' Hr') as [Hh' _].
           pose proof (hd_writes _ _ _ _ _ _ _ _ _ _ _ _ _ _ _ _ _ Hh' op r1 h Hin Hwr) as Hx. apply who_X in Hw. apply Hne. by eapply HX.
      * rewrite stored_concat_none.
        -- rewrite (kn_stored _ _ Hs). unfold holds. by rewrite (Hmn h Hw).
        -- intros j new' Hj op r1 Hin Hwr. change (map lf_new rs) with (lf_new <$> rs) in Hj.
           rewrite list_lookup_fmap in Hj. apply fmap_Some in Hj as (r' & Hr' & ->). destruct (Hrs j r' Hr') as [Hh' _].
           pose proof (hd_writes _ _ _ _ _ _ _ _ _ _ _ _ _ _ _ _ _ Hh' op r1 h Hin Hwr) as Hx. by rewrite (none h Hw j) in Hx.
    + intros h k p [(i & r & Hr & Hin)|Hin]%Hnews.
      * destruct (kn_ptr _ _ (Hk i r Hr) h k p) as [[[s mp] Hmp] Hv]; [apply elem_of_app; by left|]. split; [|by eapply Hvlive].
        destruct (Hlive _ _ _ _ _ Hr Hmp) as [mp' ->]. eauto.
      * destruct (kn_ptr _ _ Hs h k p Hin) as [[[s mp] Hmp] Hv]. split; [|by apply Hvlive0]. destruct (Hlive0 _ _ _ Hmp) as [mp' ->]. eauto.
    + (* where values belong *)
      destruct (kn_prov _ _ Hs) as (π0 & P1 & P2 & P3).
      destruct (choose (λ i r π, prov π (lf_new r ++ tr) (lf_st r)) rs) as (πs & Hπl & Hπs); [intros i r Hr; apply (kn_prov _ _ (Hk i r Hr))|].
      destruct (compose X (length starts) π0 πs) as [π Hπ].
      assert (Hπi : ∀ p i r, who p = Some i -> rs !! i = Some r -> ∃ πi, prov πi (lf_new r ++ tr) (lf_st r) /\ π !! p = πi !! p).
      { intros p i r Hw Hr. assert (Hi : i < length πs) by (rewrite Hπl; by eapply lookup_lt_Some).
        apply lookup_lt_is_Some_2 in Hi as [πi Hπi]. exists πi. split; [by eapply Hπs|]. by rewrite Hπ, Hw, Hπi. }
      assert (Hπn : ∀ p, who p = None -> π !! p = π0 !! p) by (intros p Hw; by rewrite Hπ, Hw).
      exists π. split_and!.
      * intros h s mp k p Hh Hp.
        assert (HT : ∃ T, G' !! h = Some (s, T) /\ mp = Refine.dict T).
        { simpl in Hh. rewrite lookup_fmap in Hh. destruct (G' !! h) as [[s2 T]|] eqn:E; [|done]. simpl in Hh. injection Hh as <- <-. eauto. }
        destruct HT as (T & HT & ->). assert (Hin : p ∈ foot h T).
        { destruct (in_good _ _ _ _ _ _ HI' _ _ _ HT) as [_ Hg]. by eapply dict_foot. }
        destruct (who h) as [i|] eqn:Hw.
        -- destruct (who_res i h Hw) as [r Hr]. rewrite (HGi h i r Hw Hr) in HT. pose proof (Hfoot h i r s T Hw Hr HT p Hin) as Hx.
           destruct (Hπi p i r (some i p Hx) Hr) as (πi & (Q1 & _) & ->). rewrite (Hmi h i r Hw Hr) in Hh. by eapply Q1.
        -- rewrite (HGn h Hw) in HT. rewrite (Hmn h Hw) in Hh. rewrite Hπn; [by eapply P1|].
           apply (same_who p h); [left; eauto|eauto|done].
      * intros h k p [(i & r & Hr & Hin)|Hin]%Hnews.
        -- destruct (Hrs i r Hr) as [Hh _]. destruct (hd_sees _ _ _ _ _ _ _ _ _ _ _ _ _ _ _ _ _ Hh h k p Hin) as [Hx|Hx].
           ++ assert (HXp : X i p = true) by (eapply (hd_pmine _ _ _ _ _ _ _ _ _ _ _ _ _ _ _ _ _ Hh h k p); [apply elem_of_app; by left|done]).
              destruct (Hπi p i r (some i p HXp) Hr) as (πi & (_ & Q2 & _) & ->). eapply Q2. apply elem_of_app. by left.
           ++ apply andb_true_iff in Hx as [Ho%bool_decide_eq_true Hown%bool_decide_eq_true].
              assert (Hxh : X i h = false).
              { destruct (X i h) eqn:E; [|done]. pose proof (X_own i h h E (root_belongs h Ho)). congruence. }
              destruct (hd_ptrs _ _ _ _ _ _ _ _ _ _ _ _ _ _ _ _ _ Hh h k p Hin Hxh) as (s & mp & Hmp & Hkp).
              pose proof (P1 _ _ _ _ _ Hmp Hkp) as Hp0. rewrite Hπn; [done|].
              destruct (who p) as [j|] eqn:Hw; [|done]. apply who_X in Hw.
              rewrite Hmap, lookup_fmap in Hmp. destruct (G !! h) as [[s2 T]|] eqn:E; [|done]. simpl in Hmp. injection Hmp as <- <-.
              destruct (in_good _ _ _ _ _ _ HI _ _ _ E) as [_ Hg].
              assert (Hb : belongs p h) by (left; exists s2, T; split; [done|by eapply dict_foot]).
              pose proof (X_own j p h Hw Hb). congruence.
        -- destruct (who p) as [j|] eqn:Hw; [|rewrite (Hπn p Hw); by eapply P2].
           destruct (who_res j p Hw) as [r Hr]. destruct (Hπi p j r Hw Hr) as (πi & (_ & Q2 & _) & ->). eapply Q2. apply elem_of_app. by right.
      * intros p Hp. destruct (who p) as [j|] eqn:Hw.
        -- destruct (who_res j p Hw) as [r Hr]. destruct (Hπi p j r Hw Hr) as (πi & (_ & _ & Q3) & E). rewrite E in Hp.
           rewrite (Hvi p j r Hw Hr). by apply Q3.
        -- rewrite (Hπn p Hw) in Hp. rewrite (Hvn p Hw). by apply P3.
  - by exists G'.
Qed.
End join.

(** ** Goroutines end *)
Section ends.
Context {V CK U A : Type}.
Local Notation config := (config V CK U A).
Definition after (p q : prog V CK U A) : Prop :=
  match p with
  | PRead _ k => ∃ b, q = k b
  | PWrite _ _ k => q = k
  | PAlloc _ k => ∃ l, q = k l
  | PGet k => ∃ u, q = k u
  | PPut _ k => q = k
  | _ => False
  end.
Lemma after_acc p : Acc (λ q p, after p q) p.
Proof.
  induction p; constructor; simpl; intros q Hq; try (destruct Hq; fail).
  - destruct Hq as [x ->]. auto.
  - rewrite Hq. auto.
  - destruct Hq as [x ->]. auto.
  - destruct Hq as [x ->]. auto.
  - rewrite Hq. auto.
Qed.
Lemma next_after m (t : thread V CK U A) m' t' : next m t = Some (m', t') -> after (th_prog t) (th_prog t').
Proof.
  destruct t as [p n u]. simpl. destruct p as [a| | | |l k|l b k|b k|k|u2 k]; simpl; try discriminate.
  - destruct (m !! l); [|done]. intros [= <- <-]. simpl. eauto.
  - destruct (m !! l); [|done]. by intros [= <- <-].
  - intros [= <- <-]. simpl. eauto.
  - intros [= <- <-]. simpl. eauto.
  - by intros [= <- <-].
Qed.
(** Goroutines can make finitely many accesses only, in whatever order. *)
Lemma steps_end (C : config) : Acc (λ C' C, step C C') C.
Proof.
  destruct C as [m ts]. revert m.
  assert (Hall : ∀ ts : list (thread V CK U A), (∀ t, t ∈ ts -> Acc (λ t' t, after (th_prog t) (th_prog t')) t) ->
    Acc (λ ts' ts : list (thread V CK U A), ∃ i t t', ts !! i = Some t /\ ts' = <[i := t']> ts /\ after (th_prog t) (th_prog t')) ts).
  { clear ts. intros ts. induction ts as [|t ts IH]; intros Hts.
    - constructor. intros ts' (i & t & t' & Hi & _). by rewrite lookup_nil in Hi.
    - assert (Ht : Acc (λ t' t, after (th_prog t) (th_prog t')) t) by (apply Hts; by left).
      assert (IH' := IH (λ t' Hin, Hts t' (elem_of_list_further _ _ _ Hin))). clear IH Hts.
      revert ts IH'. induction Ht as [t _ IHt]. intros ts Hts. induction Hts as [ts Hts IHs].
      constructor. intros ts' (i & t1 & t2 & Hi & -> & Ha). destruct i as [|i]; simpl in *.
      + injection Hi as ->. apply (IHt t2 Ha). by constructor.
      + apply IHs. by exists i, t1, t2. }
  assert (Hone : ∀ t : thread V CK U A, Acc (λ t' t, after (th_prog t) (th_prog t')) t).
  { intros [p n u]. revert n u. induction (after_acc p) as [p _ IH]. intros n u. constructor. intros [q n' u'] Ha. by apply (IH q). }
  specialize (Hall ts (λ t _, Hone t)). induction Hall as [ts _ IH]. intros m. constructor.
  intros C' [i t m' t' Hi Hn]. simpl in *. apply IH. exists i, t, t'. split_and!; [done|done|]. by eapply next_after.
Qed.
(** If a goroutine that has not returned can always go on, all of them return. *)
Lemma all_return (C : config) : (∀ C', rtc step C C' -> ∀ i t, c_thr C' !! i = Some t -> (∃ a, returned t a) \/ runs C' t) ->
  ∃ C', rtc step C C' /\ ∀ i t, c_thr C' !! i = Some t -> ∃ a, returned t a.
Proof.
  induction (steps_end C) as [C _ IH]. intros Hgo.
  destruct (decide (Forall (λ t, is_Some (match th_prog t with PRet a => Some a | _ => None end)) (c_thr C))) as [Hall|Hnot].
  - exists C. split; [done|]. intros i t Hi. rewrite Forall_lookup in Hall. destruct (Hall _ _ Hi) as [a Ha].
    exists a. unfold returned. destruct (th_prog t); try done. by injection Ha as ->.
  - apply not_Forall_Exists in Hnot; [|apply _]. apply Exists_exists in Hnot as (t & [i Hi]%elem_of_list_lookup & Hn).
    destruct (Hgo C (rtc_refl _ _) i t Hi) as [[a Ha]|[[m' t'] Hr]].
    + unfold returned in Ha. destruct Hn. simpl. rewrite Ha. by exists a.
    + assert (Hst : step C (Config m' (<[i := t']> (c_thr C)))) by (by econstructor).
      destruct (IH _ Hst) as (C' & HC' & Hall); [intros C' HC'; apply Hgo; by econstructor|].
      exists C'. split; [by econstructor|done].
Qed.
End ends.

Lemma begin_length {K V CK U} (papi : pmapapi K V CK U) tr w cs starts C : length starts = length cs -> rtc step (begin papi tr w cs starts) C -> length (c_thr C) = length cs.
Proof.
  intros Hlen HC. assert (Hl : length (c_thr (begin papi tr w cs starts)) = length cs) by (simpl; rewrite zip_with_length; lia).
  revert Hl. generalize (begin papi tr w cs starts), HC. clear. intros C0 HC Hl.
  induction HC as [|x y z Hxy _ IH]; [done|]. apply IH. destruct Hxy as [j t m t2' Hj Hnx]. cbn [c_thr]. by rewrite insert_length.
Qed.

(** ** Programs that start goroutines *)
Section frun.
Context `{Countable K} {V CK U : Type} (zero : V) (fuel : nat) (api : mapapi K V CK U) (papi : pmapapi K V CK U)
  (dig : N -> K -> nat -> N) (ok : list (mop K V U * mres V) -> mop K V U -> Prop) (u0 : U) (Hfuel : 256 <= fuel)
  (Ht : map_type zero fuel api dig ok) (Hpt : pmap_type zero fuel papi api).

Theorem fork_ok tr w : frun u0 papi api ok tr w ->
  (∃ σ, fspec dig zero u0 tr σ /\ ms_usr σ = w_usr w /\
    ∀ op, ok tr op -> ∃ res w' σ', mcall api op w = Ret res w' /\ mstep dig zero σ op res σ') /\
  ∀ cs starts own, spread (w_nxt w) starts -> length starts = length cs ->
    (∀ i c a, cs !! i = Some c -> starts !! i = Some a -> fine api ok own tr i c tr (from w a)) ->
    (∀ C, rtc step (begin papi tr w cs starts) C ->
      ¬ race C /\
      (∀ i t, c_thr C !! i = Some t -> ((∃ hist, returned t hist) \/ runs C t) /\ fresh C t) /\
      (∀ i t c a hist, c_thr C !! i = Some t -> cs !! i = Some c -> starts !! i = Some a -> returned t hist ->
        ∃ w', solo api c tr (from w a) hist w' /\ th_usr t = w_usr w' /\
          ∃ new σ σ', hist = new ++ tr /\ fspec dig zero u0 tr σ /\ msteps dig zero σ new σ')).
Proof.
  intros Hr.
  destruct (map_pack zero fuel api dig ok Ht) as [HS F FS FM L Q sop mdop vs WS WM HF HL Hcell Hdig HFS HFM HWS HWM Hvs Hsop Hmop Hearly HSet HMod HDel HGet HVal HPtr HAll Hok _].
  assert (HRel : ∃ σ, fspec dig zero u0 tr σ /\ knows tr σ /\ Refine.Rel F L Q w σ).
  { induction Hr as [|tr w op res w' Hr (σ & Hs & Hk & HR) Ho Hc|tr w cs starts own C news n u Hr (σ & Hs & Hk & G & HR) Hsp Hlen Hfine HC Hln Hret Hn].
    - exists (minit u0). split_and!; [constructor|apply knows_nil|apply Refine.Rel_init].
    - destruct (Hok _ _ Ho) as [Ha Hg].
      destruct (Refine.step_ok F L Q HF HL Hcell zero fuel Hfuel dig Hdig FS FM sop mdop vs WS WM
        HFS HFM HWS HWM Hvs Hsop Hmop api HSet HMod HDel HGet HVal HPtr HAll w σ op HR) as (res' & w2 & σ' & Hc' & Hst & HR').
      { eapply knows_can; eassumption. }
      rewrite Hc in Hc'. injection Hc' as <- <-. exists σ'. split_and!; [by econstructor|by eapply knows_step|done].
    - pose proof (begin_length _ _ _ _ _ _ Hlen HC) as Hthr.
      assert (Hthr' : length (c_thr C) = length starts) by lia.
      assert (Hres : ∀ i new, news !! i = Some new -> ∃ r : left, lf_new r = new /\
        holding zero dig F L Q (Xs tr G own starts i) (Ss tr G own starts) (mis G own i) (shs G own) tr σ G (w_mem w) (lf_new r) (lf_st r) (lf_heap r) (lf_w r) /\
        ∀ l, Xs tr G own starts i l = true -> c_mem C !! l = w_mem (lf_w r) !! l).
      { intros i new Hi. pose proof (lookup_lt_Some _ _ _ Hi) as Hil.
        destruct (lookup_lt_is_Some_2 (c_thr C) i ltac:(lia)) as [t Hti]. destruct (lookup_lt_is_Some_2 cs i ltac:(lia)) as [c Hci].
        destruct (lookup_lt_is_Some_2 starts i ltac:(lia)) as [a Hai].
        destruct (gos_result zero fuel api papi dig ok u0 Hfuel F FS FM L Q sop mdop vs WS WM HF HL Hcell Hdig HFS HFM HWS HWM Hvs Hsop Hmop
          HSet HMod HDel HGet HVal HPtr HAll Hok Hpt tr w cs starts own σ G Hk HR Hsp Hfine C i t c a (new ++ tr) HC Hti Hci Hai (Hret i t new Hti Hi))
          as (w' & _ & (new' & σ' & G' & E & Hh) & _ & _ & Hm).
        apply app_inv_tail in E. subst new'. exists (Left new σ' G' w'). split_and!; [done|done|]. intros l Hl. apply Hm. by left. }
      destruct (choose _ news Hres) as (rs & Hrl & Hrs).
      assert (Hnews : map lf_new rs = news).
      { apply list_eq. intros i. change (map lf_new rs) with (lf_new <$> rs). rewrite list_lookup_fmap.
        destruct (news !! i) as [new|] eqn:E.
        - pose proof (lookup_lt_Some _ _ _ E) as Hil. rewrite <- Hrl in Hil. destruct (lookup_lt_is_Some_2 rs i Hil) as [r Er].
          rewrite Er. simpl. f_equal. by apply (Hrs i new r E Er).
        - apply lookup_ge_None in E. rewrite (proj2 (lookup_ge_None rs i)) by lia. done. }
      destruct (join_ok zero dig F L Q Hcell tr w σ G Hk HR own starts Hsp rs (c_mem C) n u) as (σ' & Hu & Hm1 & Hm2 & Hk' & HR').
      + lia.
      + intros i r Er. pose proof (lookup_lt_Some _ _ _ Er) as Hil. rewrite Hrl in Hil. destruct (lookup_lt_is_Some_2 news i Hil) as [new E].
        by apply (Hrs i new r E Er).
      + intros l Hl.
        destruct (gos_good zero fuel api papi dig ok u0 Hfuel F FS FM L Q sop mdop vs WS WM HF HL Hcell Hdig HFS HFM HWS HWM Hvs Hsop Hmop
          HSet HMod HDel HGet HVal HPtr HAll Hok Hpt tr w cs starts own σ G Hk HR Hsp Hfine C HC) as (_ & _ & Hm). apply Hm.
        intros i _. by rewrite Hl.
      + done.
      + rewrite Hnews in Hk'. exists σ'. split_and!; [|done|done].
        apply (fspec_join _ _ _ tr σ news (map lf_st rs)); [done|rewrite map_length; lia| | |].
        * intros i new σi Ei Es. change (map lf_st rs) with (lf_st <$> rs) in Es. rewrite list_lookup_fmap in Es.
          apply fmap_Some in Es as (r & Er & ->). destruct (Hrs i new r Ei Er) as (<- & Hh & _). apply Hh.
        * by rewrite map_map.
        * by rewrite map_map. }
  destruct HRel as (σ & Hs & Hk & G & HR). split.
  - exists σ. split_and!; [done|by destruct HR as (_ & _ & _ & ->)|]. intros op Ho. destruct (Hok _ _ Ho) as [Ha Hg].
    destruct (Refine.step_ok F L Q HF HL Hcell zero fuel Hfuel dig Hdig FS FM sop mdop vs WS WM
      HFS HFM HWS HWM Hvs Hsop Hmop api HSet HMod HDel HGet HVal HPtr HAll w σ op) as (res' & w2 & σ' & Hc' & Hst & HR'); [by exists G| |eauto].
    eapply knows_can; eassumption.
  - intros cs starts own Hsp Hlen Hfine C HC.
    destruct (gos_ok zero fuel api papi dig ok u0 Hfuel F FS FM L Q sop mdop vs WS WM HF HL Hcell Hdig HFS HFM HWS HWM Hvs Hsop Hmop
      HSet HMod HDel HGet HVal HPtr HAll Hok Hpt tr w cs starts own σ G Hk HR Hsp Hfine C HC) as (H1 & H2 & H3).
    split_and!; [done|done|]. intros i t c a hist Hi Hc Ha Hret.
    destruct (H3 i t c a hist Hi Hc Ha Hret) as (w' & Hso & (new & σ' & -> & Hst) & Hu & _). exists w'. split_and!; [done|done|].
    by exists new, σ, σ'.
Qed.

(** The goroutines return, and the program can go on. *)
Theorem fork_joins tr w cs starts own C : frun u0 papi api ok tr w -> spread (w_nxt w) starts -> length starts = length cs ->
  (∀ i c a, cs !! i = Some c -> starts !! i = Some a -> fine api ok own tr i c tr (from w a)) ->
  rtc step (begin papi tr w cs starts) C ->
  ∃ C' news n, rtc step C C' /\ (∀ u, frun u0 papi api ok (concat news ++ tr) (World (c_mem C') n u)) /\ length news = length cs /\
    ∀ i t, c_thr C' !! i = Some t -> ∃ new, news !! i = Some new /\ returned t (new ++ tr).
Proof.
  intros Hr Hsp Hlen Hfine HC. destruct (fork_ok tr w Hr) as [_ Hg]. specialize (Hg cs starts own Hsp Hlen Hfine).
  destruct (all_return C) as (C' & HC' & Hall).
  { intros C' HC' i t Hi. destruct (Hg C') as (_ & Hrun & _); [by etrans|]. by apply (Hrun i t Hi). }
  assert (HCC : rtc step (begin papi tr w cs starts) C') by (by etrans).
  pose proof (begin_length _ _ _ _ _ _ Hlen HCC) as Hthr. destruct (Hg C' HCC) as (_ & _ & Hres).
  destruct (choose (λ i t new, returned t (new ++ tr)) (c_thr C')) as (news & Hnl & Hnews).
  { intros i t Hi. destruct (Hall i t Hi) as [hist Hret]. pose proof (lookup_lt_Some _ _ _ Hi) as Hil.
    destruct (lookup_lt_is_Some_2 cs i ltac:(lia)) as [c Hci]. destruct (lookup_lt_is_Some_2 starts i ltac:(lia)) as [a Hai].
    destruct (Hres i t c a hist Hi Hci Hai Hret) as (_ & _ & _ & new & _ & _ & -> & _). by exists new. }
  set (n := above (c_mem C')). pose proof (above_ok (c_mem C')) as Hn.
  exists C', news, n. split_and!; [done| |by rewrite Hnl|].
  - intros u. apply (frun_join u0 papi api ok tr w cs starts own C' news n u Hr Hsp Hlen Hfine HCC); [by rewrite Hnl| |exact Hn].
    intros i t new Hi Hni. exact (Hnews i t new Hi Hni).
  - intros i t Hi. pose proof (lookup_lt_Some _ _ _ Hi) as Hil. destruct (lookup_lt_is_Some_2 news i ltac:(lia)) as [new Hni].
    exists new. split; [done|]. exact (Hnews i t new Hi Hni).
Qed.
End frun.
