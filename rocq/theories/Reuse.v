(** Programs that do the same up to the choice of addresses, and collections in the middle
    of them. *)
From stdpp Require Import base numbers list gmap relations.
From Verif Require Import GoInt Mem Prog Spec Client PClient KeepSpec GcSpec ReuseSpec.
Local Open Scope nat_scope.

(** ** More names *)
Section more.
Context (β β' : names) (Hm : more β β').
Lemma ptr_as_more p q : ptr_as β p q -> ptr_as β' p q.
Proof using Hm. destruct p, q; simpl; auto. Qed.
Lemma link_as_more x y : link_as β x y -> link_as β' x y.
Proof using Hm. intros (Hp & ? & ?). split; [by apply ptr_as_more|done]. Qed.
Lemma lref_as_more l l' : lref_as β l l' -> lref_as β' l l'.
Proof using Hm. destruct l, l'; simpl; auto. intros [? ->]. auto. Qed.
Lemma plink_as_more x y : plink_as β x y -> plink_as β' x y.
Proof using Hm. intros [Hr Hl]. split; [done|]. destruct (pl_link x), (pl_link y); auto. by apply lref_as_more. Qed.
Lemma root_as_more x y : root_as β x y -> root_as β' x y.
Proof using Hm.
  intros (Hl & Hs & Hn & Hd & Hp). split; [by apply link_as_more|]. split_and!; [done|done|done|].
  eapply Forall2_impl; [exact Hp|]. apply plink_as_more.
Qed.
Lemma block_as_more {V CK} (b b' : block V CK) : block_as β b b' -> block_as β' b b'.
Proof using Hm.
  destruct b, b'; simpl; auto; [|apply root_as_more]. intros Hf. eapply Forall2_impl; [exact Hf|]. apply link_as_more.
Qed.
End more.
Lemma more_refl β : more β β.
Proof. by intros a a'. Qed.
Lemma more_trans β1 β2 β3 : more β1 β2 -> more β2 β3 -> more β1 β3.
Proof. intros H1 H2 a a' H. by apply H2, H1. Qed.

Section progs.
Context {V CK U A : Type} (as_ : names -> A -> A -> Prop).
Local Notation prog := (prog V CK U A).
Definition grows : Prop := ∀ β β' a a', more β β' -> as_ β a a' -> as_ β' a a'.
Definition composes : Prop := ∀ (β1 β2 β : names) a b c, (∀ x y z, β1 x y -> β2 y z -> β x z) -> as_ β1 a b -> as_ β2 b c -> as_ β a c.

Lemma prog_as_more (Hg : grows) β (p q : prog) : prog_as as_ β p q -> ∀ β', more β β' -> prog_as as_ β' p q.
Proof.
  induction 1 as [β a a' Ha|β|β|β|β l l' k k' Hl Hk IH|β l l' b b' k k' Hl Hb Hk IH|β b b' k k' Hb Hk IH|β k k' Hk IH|β u k k' Hk IH];
    intros β' Hm; constructor; auto.
  - by eapply Hg.
  - intros β2 b b' Hm2 Hb2 Hbb. apply Hk; [by eapply more_trans|done|done].
  - by eapply block_as_more.
  - by eapply block_as_more.
  - intros β2 l l' Hm2 Hb2 Hll. apply Hk; [by eapply more_trans|done|done].
Qed.
End progs.

(** ** Composition *)
Section comp.
Context (β1 β2 β : names) (Hc : ∀ x y z, β1 x y -> β2 y z -> β x z).
Lemma ptr_as_comp p q r : ptr_as β1 p q -> ptr_as β2 q r -> ptr_as β p r.
Proof using Hc. destruct p, q, r; simpl; try done. apply Hc. Qed.
Lemma link_as_comp x y z : link_as β1 x y -> link_as β2 y z -> link_as β x z.
Proof using Hc. intros (H1 & H2 & H3) (H4 & H5 & H6). split; [by eapply ptr_as_comp|]. split; by etrans. Qed.
Lemma lref_as_comp x y z : lref_as β1 x y -> lref_as β2 y z -> lref_as β x z.
Proof using Hc. destruct x, y, z; simpl; try done; [apply Hc|]. intros [H1 ->] [H2 ->]. split; [by eapply Hc|done]. Qed.
Lemma plink_as_comp x y z : plink_as β1 x y -> plink_as β2 y z -> plink_as β x z.
Proof using Hc.
  intros [H1 H2] [H3 H4]. split; [by etrans|]. destruct (pl_link x), (pl_link y), (pl_link z); try done. by eapply lref_as_comp.
Qed.
Lemma root_as_comp x y z : root_as β1 x y -> root_as β2 y z -> root_as β x z.
Proof using Hc.
  intros (H1 & H2 & H3 & H4 & H5) (H6 & H7 & H8 & H9 & H10). split; [by eapply link_as_comp|]. split_and!; [by etrans..|].
  eapply Forall2_transitive; [|exact H5|exact H10]. apply plink_as_comp.
Qed.
Lemma block_as_comp {V CK} (x y z : block V CK) : block_as β1 x y -> block_as β2 y z -> block_as β x z.
Proof using Hc.
  destruct x, y, z; simpl; try done.
  - intros H1 H2. eapply Forall2_transitive; [|exact H1|exact H2]. apply link_as_comp.
  - intros [-> ->] [-> ->]. done.
  - apply root_as_comp.
Qed.
End comp.

(** A relation goes through names in the middle. *)
Section mid.
Context (β : names) (mid : loc -> loc -> loc).
Definition to_mid : names := λ a b, ∃ c, β a c /\ b = mid a c.
Definition of_mid : names := λ b c, ∃ a, β a c /\ b = mid a c.
Lemma ptr_as_mid p r : ptr_as β p r -> ∃ q, ptr_as to_mid p q /\ ptr_as of_mid q r.
Proof.
  destruct p as [|a], r as [|c]; simpl; try done; [by exists Nil|]. intros H. exists (At (mid a c)). split; eexists; eauto.
Qed.
Lemma link_as_mid x z : link_as β x z -> ∃ y, link_as to_mid x y /\ link_as of_mid y z.
Proof.
  intros (Hp & H1 & H2). destruct (ptr_as_mid _ _ Hp) as (q & Hq1 & Hq2). exists (Link q (lk_pmap x) (lk_tmap x)). by repeat split.
Qed.
Lemma lref_as_mid x z : lref_as β x z -> ∃ y, lref_as to_mid x y /\ lref_as of_mid y z.
Proof.
  destruct x as [a|a i|], z as [c|c j|]; simpl; try done.
  - intros H. exists (RootRef (mid a c)). split; eexists; eauto.
  - intros [H ->]. exists (SlotRef (mid a c) j). repeat split; eexists; eauto.
  - intros _. by exists WildRef.
Qed.
Lemma plink_as_mid x z : plink_as β x z -> ∃ y, plink_as to_mid x y /\ plink_as of_mid y z.
Proof.
  intros [Hr Hl]. destruct x as [rx [lx|]], z as [rz [lz|]]; simpl in *; subst; try done.
  - destruct (lref_as_mid _ _ Hl) as (y & Hy1 & Hy2). exists (PLink rz (Some y)). by repeat split.
  - exists (PLink rz None). by repeat split.
Qed.
Lemma Forall2_mid {X} (P Q R : X -> X -> Prop) : (∀ x z, P x z -> ∃ y, Q x y /\ R y z) ->
  ∀ xs zs, Forall2 P xs zs -> ∃ ys, Forall2 Q xs ys /\ Forall2 R ys zs.
Proof.
  intros H xs zs. induction 1 as [|x z xs zs Hxz _ (ys & H1 & H2)]; [by exists []|].
  destruct (H _ _ Hxz) as (y & Hy1 & Hy2). exists (y :: ys). split; by constructor.
Qed.
Lemma block_as_mid {V CK} (x z : block V CK) : block_as β x z -> ∃ y, block_as to_mid x y /\ block_as of_mid y z.
Proof.
  destruct x as [ls|v k|r], z as [ls'|v' k'|r']; simpl; try done.
  - intros H. destruct (Forall2_mid _ _ _ link_as_mid _ _ H) as (ys & H1 & H2). by exists (BLinks ys).
  - intros [-> ->]. by exists (BKv v' k').
  - intros (Hl & Hs & Hn & Hd & Hp). destruct (link_as_mid _ _ Hl) as (y & Hy1 & Hy2).
    destruct (Forall2_mid _ _ _ plink_as_mid _ _ Hp) as (ys & H1 & H2).
    exists (BRoot (Root y (rt_seed r) (rt_len r) (rt_dep r) ys)). unfold root_as; simpl. split_and!; done.
Qed.
End mid.

Lemma mid_exists (β1 β2 β : names) : bounded β1 -> bounded β2 -> bounded β ->
  ∃ mid : loc -> loc -> loc,
    (∀ a c b, β a c -> β1 b (mid a c) -> False) /\ (∀ a c d, β a c -> β2 (mid a c) d -> False) /\
    (∀ a c a' c', β a c -> β a' c' -> mid a c = mid a' c' -> a = a' /\ c = c') /\
    bounded (to_mid β mid) /\ bounded (of_mid β mid).
Proof.
  intros [n1 H1] [n2 H2] [n H].
  exists (λ a c, n1 + n2 + (a * n + c))%positive. split_and!.
  - intros a c b Hac Hb. apply H1 in Hb. lia.
  - intros a c d Hac Hb. apply H2 in Hb. lia.
  - intros a c a' c' Hac Hac' He. apply H in Hac, Hac'.
    assert (He2 : (a * n + c = a' * n + c')%positive) by lia. clear He.
    assert (a = a') as ->; [|split; [done|lia]].
    destruct (Pos.lt_total a a') as [Hlt|[->|Hlt]]; [|done|]; exfalso.
    + assert ((a + 1) * n <= a' * n)%positive by (apply Pos.mul_le_mono_r; lia). lia.
    + assert ((a' + 1) * n <= a * n)%positive by (apply Pos.mul_le_mono_r; lia). lia.
  - exists (n1 + n2 + (n * n + n) + 1)%positive. intros a b (c & Hac & ->). apply H in Hac as [Ha Hc].
    assert (a * n <= n * n)%positive by (apply Pos.mul_le_mono_r; lia). assert (n <= n * n)%positive by (rewrite <- (Pos.mul_1_r n) at 1; apply Pos.mul_le_mono_l; lia). lia.
  - exists (n1 + n2 + (n * n + n) + 1)%positive. intros b c (a & Hac & ->). apply H in Hac as [Ha Hc].
    assert (a * n <= n * n)%positive by (apply Pos.mul_le_mono_r; lia). lia.
Qed.
Definition both (β γ : names) : names := λ a b, β a b \/ γ a b.
Lemma bounded_both β γ : bounded β -> bounded γ -> bounded (both β γ).
Proof.
  intros [n Hn] [k Hk]. exists (n + k)%positive. intros a b [H|H]; [apply Hn in H|apply Hk in H]; lia.
Qed.

Section progs2.
Context {V CK U A : Type} (as_ : names -> A -> A -> Prop) (Hg : grows as_) (Hcomp : composes as_).
Local Notation prog := (prog V CK U A).
Lemma prog_as_comp β1 (p q : prog) : prog_as as_ β1 p q -> ∀ (β2 β : names) r, bounded β1 -> bounded β2 -> bounded β ->
  (∀ x y z, β1 x y -> β2 y z -> β x z) -> prog_as as_ β2 q r -> prog_as as_ β p r.
Proof using Hcomp.
  induction 1 as [β1 a a' Ha|β1|β1|β1|β1 l l' k k' Hl Hk IH|β1 l l' b b' k k' Hl Hb Hk IH|β1 b b' k k' Hb Hk IH|β1 k k' Hk IH|β1 u k k' Hk IH];
    intros β2 β r Hb1 Hb2 Hbb Hc Hr; inversion Hr as [? ? a'' Ha'|?|?|?|? ? l'' ? k'' Hl' Hk'|? ? l'' ? b'' ? k'' Hl' Hb' Hk'|? ? b'' ? k'' Hb' Hk'|? ? k'' Hk'|? ? ? k'' Hk']; subst;
    constructor; eauto using block_as_comp.
  - intros β' b b'' Hm Hbd Hbl. destruct (mid_exists β1 β2 β' Hb1 Hb2 Hbd) as (mid & M1 & M2 & M3 & M4 & M5).
    destruct (block_as_mid β' mid _ _ Hbl) as (b' & Hx & Hy).
    apply (IH (both β1 (to_mid β' mid)) b b') with (both β2 (of_mid β' mid)).
    + by left.
    + by apply bounded_both.
    + eapply block_as_more; [|exact Hx]. by right.
    + by apply bounded_both.
    + by apply bounded_both.
    + done.
    + intros x y z [Hxy|(c & Hxc & ->)] [Hyz|(a & Haz & He)].
      * apply Hm. by eapply Hc.
      * subst. by edestruct M1.
      * by edestruct M2.
      * destruct (M3 _ _ _ _ Hxc Haz He) as [-> ->]. done.
    + apply Hk'; [by left|by apply bounded_both|]. eapply block_as_more; [|exact Hy]. by right.
  - intros β' l l'' Hm Hbd Hll. destruct (mid_exists β1 β2 β' Hb1 Hb2 Hbd) as (mid & M1 & M2 & M3 & M4 & M5).
    apply (IH (both β1 (to_mid β' mid)) l (mid l l'')) with (both β2 (of_mid β' mid)).
    + by left.
    + by apply bounded_both.
    + right. by eexists.
    + by apply bounded_both.
    + by apply bounded_both.
    + done.
    + intros x y z [Hxy|(c & Hxc & ->)] [Hyz|(a & Haz & He)].
      * apply Hm. by eapply Hc.
      * subst. by edestruct M1.
      * by edestruct M2.
      * destruct (M3 _ _ _ _ Hxc Haz He) as [-> ->]. done.
    + apply Hk'; [by left|by apply bounded_both|]. right. by eexists.
Qed.
End progs2.
