(** Bounds on the depths of keys. *)
From stdpp Require Import base numbers list gmap.
From Verif Require Import Spec Order DepthSpec.
Local Open Scope nat_scope.

(** ** Sums and counts *)
Definition sum {A} (f : A -> nat) (l : list A) : nat := sum_list (map f l).

Lemma sum_cons {A} (f : A -> nat) x l : sum f (x :: l) = f x + sum f l.
Proof. done. Qed.
Lemma sum_app {A} (f : A -> nat) l l' : sum f (l ++ l') = sum f l + sum f l'.
Proof. induction l as [|x l IH]; simpl; [done|]. rewrite !sum_cons, IH. lia. Qed.
Lemma sum_le {A} (f g : A -> nat) l : (∀ x, x ∈ l -> f x <= g x) -> sum f l <= sum g l.
Proof.
  induction l as [|x l IH]; intros H; [done|]. rewrite !sum_cons.
  pose proof (H x ltac:(left)). pose proof (IH ltac:(intros; apply H; by right)). lia.
Qed.
Lemma sum_ext {A} (f g : A -> nat) l : (∀ x, x ∈ l -> f x = g x) -> sum f l = sum g l.
Proof. intros H. apply Nat.le_antisymm; apply sum_le; intros x Hx; rewrite (H x Hx); done. Qed.
Lemma sum_add {A} (f g : A -> nat) l : sum (λ x, f x + g x) l = sum f l + sum g l.
Proof. induction l as [|x l IH]; [done|]. rewrite !sum_cons, IH. lia. Qed.
Lemma sum_const {A} c (l : list A) : sum (λ _, c) l = c * length l.
Proof. induction l as [|x l IH]; [simpl; unfold sum; simpl; lia|]. rewrite sum_cons, IH. simpl. lia. Qed.
Lemma sum_mul {A} c (f : A -> nat) l : sum (λ x, c * f x) l = c * sum f l.
Proof. induction l as [|x l IH]; [unfold sum; simpl; lia|]. rewrite !sum_cons, IH. lia. Qed.
Lemma sum_map {A B} (f : B -> nat) (g : A -> B) l : sum f (map g l) = sum (λ x, f (g x)) l.
Proof. unfold sum. by rewrite map_map. Qed.
Lemma sum_swap {A B} (f : A -> B -> nat) l l' :
  sum (λ x, sum (f x) l') l = sum (λ y, sum (λ x, f x y) l) l'.
Proof.
  induction l as [|x l IH].
  - induction l' as [|y l' IH]; [done|]. rewrite sum_cons, <- IH. done.
  - rewrite sum_cons, IH, <- sum_add. apply sum_ext. intros y _. by rewrite sum_cons.
Qed.
Lemma sum_perm {A} (f : A -> nat) l l' : l ≡ₚ l' -> sum f l = sum f l'.
Proof. induction 1; rewrite ?sum_cons; lia. Qed.
Lemma sum_submseteq {A} (f : A -> nat) l l' : l ⊆+ l' -> sum f l <= sum f l'.
Proof. intros [r Hr]%submseteq_Permutation. rewrite (sum_perm f _ _ Hr), sum_app. lia. Qed.

Definition ind (b : bool) : nat := if b then 1 else 0.
Lemma count_sum f l : count f l = sum (λ s, ind (f s)) l.
Proof.
  unfold count. induction l as [|s l IH]; [done|]. rewrite sum_cons, <- IH, filter_cons.
  destruct (decide (f s = true)) as [E|E]; [by rewrite E|].
  destruct (f s); [done|]. done.
Qed.
Lemma count_le f l : count f l <= length l.
Proof. apply filter_length. Qed.

(** A number is the number of positive numbers up to it. *)
Lemma steps n x : x <= n -> x = sum (λ j, ind (j <? x)) (seq 0 n).
Proof.
  revert x. induction n as [|n IH]; intros x Hx; [unfold sum; simpl; lia|].
  rewrite seq_S, sum_app. change (0 + n) with n. rewrite sum_cons. unfold sum at 2. simpl sum_list.
  destruct (decide (x <= n)) as [H|H].
  - rewrite <- (IH x H). replace (n <? x) with false by (symmetry; apply Nat.ltb_ge; done). simpl. lia.
  - replace x with (S n) by lia. rewrite (sum_ext _ (λ _, 1)).
    + rewrite sum_const, seq_length. replace (n <? S n) with true by (symmetry; apply Nat.ltb_lt; lia). simpl. lia.
    + intros j Hj%elem_of_seq. replace (j <? S n) with true; [done|]. symmetry. apply Nat.ltb_lt. lia.
Qed.

(** The tail of a geometric series. *)
Lemma tail (c : nat -> nat) X m : ∀ a, (∀ j, a < j <= a + m -> 16 ^ j * c j <= X) ->
  15 * 16 ^ a * sum c (seq (S a) m) <= X.
Proof.
  induction m as [|m IH]; intros a H; [unfold sum; simpl; lia|].
  cbn [seq]. rewrite sum_cons. pose proof (IH (S a) ltac:(intros; apply H; lia)) as H1.
  pose proof (H (S a) ltac:(lia)) as H2. rewrite Nat.pow_succ_r' in H1, H2.
  generalize dependent (sum c (seq (S (S a)) m)). intros S0 H1. generalize dependent (16 ^ a). intros p H2 H1. nia.
Qed.
Lemma geometric t : 15 * sum (λ j, 16 ^ j) (seq 0 t) <= 16 ^ t.
Proof.
  induction t as [|t IH]; [unfold sum; simpl; lia|].
  rewrite seq_S, sum_app. change (0 + t) with t. rewrite sum_cons. unfold sum at 2. simpl sum_list.
  rewrite Nat.pow_succ_r'. lia.
Qed.

Section depths.
Context {K : Type} `{EqDecision K} (dig : N -> K -> nat -> N).

Lemma alike_iff s j k k' : alike dig s j k k' = true <-> ∀ i, i < j -> dig s k i = dig s k' i.
Proof.
  unfold alike. rewrite forallb_forall. split.
  - intros H1 i Hi. apply N.eqb_eq. apply H1. apply in_seq. lia.
  - intros H1 i Hi%in_seq. apply N.eqb_eq, H1. lia.
Qed.
Lemma foldr_max_le n (l : list nat) : foldr max 0 l <= n <-> ∀ x, x ∈ l -> x <= n.
Proof.
  induction l as [|y l IH]; simpl; [split; [intros _ x Hx; by apply elem_of_nil in Hx|lia]|].
  rewrite Nat.max_lub_iff, IH. split.
  - intros [H1 H2] x [->|Hx]%elem_of_cons; auto.
  - intros H1. split; [apply H1; left|intros; apply H1; by right].
Qed.
Lemma depth_le s ks k n : depth dig s ks k <= n <->
  ∀ k', k' ∈ ks -> k' ≠ k -> common 241 (dig s k) (dig s k') <= n.
Proof.
  unfold depth. rewrite foldr_max_le. split.
  - intros H1 k' Hk Hne. specialize (H1 (if decide (k' = k) then 0 else common 241 (dig s k) (dig s k'))).
    rewrite decide_False in H1 by done. apply H1. apply elem_of_list_fmap. exists k'. by rewrite decide_False.
  - intros H1 x (k' & -> & Hk)%elem_of_list_fmap. destruct (decide (k' = k)); [lia|]. by apply H1.
Qed.
Lemma depth_max s ks k : depth dig s ks k <= 241.
Proof. apply depth_le. intros. apply common_spec. Qed.

(** A key of depth more than j has j + 1 digits in common with another one. *)
Lemma depth_gt s ks k j : j < depth dig s ks k ->
  ∃ k', k' ∈ ks /\ k' ≠ k /\ alike dig s (S j) k k' = true.
Proof.
  intros Hj. induction ks as [|x ks IH]; [unfold depth in Hj; simpl in Hj; lia|].
  unfold depth in Hj. simpl in Hj. fold (depth dig s ks k) in Hj.
  destruct (decide (j < depth dig s ks k)) as [Hd|Hd].
  - destruct (IH Hd) as (k' & ? & ? & ?). exists k'. split; [by right|done].
  - destruct (decide (x = k)) as [->|Hne]; [change (j < max 0 (depth dig s ks k)) in Hj; lia|].
    exists x. split; [left|]. split; [done|]. apply alike_iff. intros i Hi.
    change (j < max (common 241 (dig s k) (dig s x)) (depth dig s ks k)) in Hj.
    apply (common_spec 241 (dig s k) (dig s x)). lia.
Qed.

(** Counted over the seeds. *)
Lemma deep_count ks seeds k j : spreads dig ks seeds -> k ∈ ks -> j < 241 ->
  16 ^ S j * count (λ s, j <? depth dig s ks k) seeds <= length ks * length seeds.
Proof.
  intros Hs Hk Hj.
  assert (H1 : count (λ s, j <? depth dig s ks k) seeds <=
      sum (λ k', if decide (k' = k) then 0 else count (λ s, alike dig s (S j) k k') seeds) ks).
  { rewrite count_sum. rewrite (sum_ext (λ k', if decide (k' = k) then 0 else _)
      (λ k', sum (λ s, if decide (k' = k) then 0 else ind (alike dig s (S j) k k')) seeds)).
    2:{ intros k' _. destruct (decide (k' = k)); [by rewrite sum_const|by rewrite count_sum]. }
    rewrite sum_swap. apply sum_le. intros s _.
    destruct (j <? depth dig s ks k) eqn:E; [|simpl; lia]. apply Nat.ltb_lt in E.
    destruct (depth_gt s ks k j E) as (k' & Hin & Hne & Ha).
    apply elem_of_Permutation in Hin as [ks' Hp]. rewrite (sum_perm _ _ _ Hp), sum_cons, decide_False, Ha by done. simpl. lia. }
  assert (H2 : 16 ^ S j * sum (λ k', if decide (k' = k) then 0 else count (λ s, alike dig s (S j) k k') seeds) ks <=
      sum (λ _, length seeds) ks).
  { rewrite <- sum_mul. apply sum_le. intros k' Hk'. destruct (decide (k' = k)); [lia|]. by apply Hs. }
  rewrite sum_const in H2. nia.
Qed.

Lemma mean_depth ks seeds t : spreads dig ks seeds ->
  15 * 16 ^ t * sum (λ s, total_depth dig s ks) seeds <=
  (15 * 16 ^ t * t + length ks) * length ks * length seeds.
Proof.
  intros Hs.
  assert (H1 : ∀ k, k ∈ ks -> 15 * 16 ^ t * sum (λ s, depth dig s ks k) seeds <=
      (15 * 16 ^ t * t + length ks) * length seeds).
  { intros k Hk. set (c := λ j, count (λ s, pred j <? depth dig s ks k) seeds).
    assert (Hsum : sum (λ s, depth dig s ks k) seeds = sum c (seq 1 241)).
    { rewrite (sum_ext _ (λ s, sum (λ j, ind (j <? depth dig s ks k)) (seq 0 241))) by (intros; apply steps, depth_max).
      rewrite sum_swap, <- seq_shift, sum_map. apply sum_ext.
      intros j _. unfold c. simpl pred. by rewrite count_sum. }
    assert (Hc : ∀ j, 0 < j <= 241 -> 16 ^ j * c j <= length ks * length seeds).
    { intros [|j] Hj; [lia|]. unfold c. simpl pred. apply deep_count; [done..|lia]. }
    rewrite Hsum. destruct (decide (t <= 241)) as [Ht|Ht].
    - replace 241 with (t + (241 - t)) at 1 by lia. rewrite seq_app, sum_app. change (1 + t) with (S t).
      assert (Ha : sum c (seq 1 t) <= length seeds * t).
      { etransitivity; [apply (sum_le c (λ _, length seeds)); intros; apply count_le|].
        rewrite sum_const, seq_length. done. }
      pose proof (tail c (length ks * length seeds) (241 - t) t ltac:(intros; apply Hc; lia)) as Hb.
      generalize dependent (sum c (seq (S t) (241 - t))). intros b Hb.
      generalize dependent (sum c (seq 1 t)). intros a Ha. generalize dependent (16 ^ t). intros p Hb. nia.
    - assert (Ha : sum c (seq 1 241) <= length seeds * 241).
      { etransitivity; [apply (sum_le c (λ _, length seeds)); intros; apply count_le|].
        rewrite sum_const, seq_length. done. }
      assert (length seeds * 241 <= length seeds * t) by nia.
      generalize dependent (sum c (seq 1 241)). intros a _ Ha. generalize (16 ^ t). intros p. nia. }
  unfold total_depth. change (λ s, sum_list (map (depth dig s ks) ks)) with (λ s, sum (depth dig s ks) ks).
  rewrite sum_swap, <- sum_mul.
  etransitivity; [apply (sum_le _ (λ _, (15 * 16 ^ t * t + length ks) * length seeds)); exact H1|].
  rewrite sum_const. nia.
Qed.

(** Few seeds give great depths. *)
Lemma great_depth ks seeds j : spreads dig ks seeds -> j <= 241 ->
  16 ^ j * count (λ s, existsb (λ k, j <=? depth dig s ks k) ks) seeds <= length ks * length ks * length seeds.
Proof.
  intros Hs Hj. destruct j as [|j].
  { destruct ks as [|k ks].
    - rewrite count_sum, (sum_ext _ (λ _, 0)), sum_const by done. simpl. lia.
    - pose proof (count_le (λ s, existsb (λ k0, 0 <=? depth dig s (k :: ks) k0) (k :: ks)) seeds). simpl Nat.pow. simpl length at 1 2. nia. }
  assert (H1 : count (λ s, existsb (λ k, S j <=? depth dig s ks k) ks) seeds <=
      sum (λ k, count (λ s, j <? depth dig s ks k) seeds) ks).
  { rewrite count_sum. rewrite (sum_ext (λ k, count _ _) (λ k, sum (λ s, ind (j <? depth dig s ks k)) seeds)) by (intros; by rewrite count_sum).
    rewrite sum_swap. apply sum_le. intros s _.
    destruct (existsb (λ k, S j <=? depth dig s ks k) ks) eqn:E; [|simpl; lia].
    apply existsb_exists in E as (k & Hk & E). apply elem_of_list_In, elem_of_Permutation in Hk as [ks' Hp].
    rewrite (sum_perm _ _ _ Hp), sum_cons. change (j <? depth dig s ks k) with (S j <=? depth dig s ks k). rewrite E. simpl. lia. }
  assert (H2 : 16 ^ S j * sum (λ k, count (λ s, j <? depth dig s ks k) seeds) ks <= sum (λ _, length ks * length seeds) ks).
  { rewrite <- sum_mul. apply sum_le. intros k Hk. apply deep_count; [done..|lia]. }
  rewrite sum_const in H2. nia.
Qed.

Lemma unseparated ks s : existsb (λ k, 241 <=? depth dig s ks k) ks = false <->
  ∀ k k', k ∈ ks -> k' ∈ ks -> k ≠ k' -> separated 240 (dig s k) (dig s k').
Proof.
  split.
  - intros H1 k k' Hk Hk' Hne.
    destruct (decide (common 241 (dig s k) (dig s k') <= 240)) as [Hc|Hc].
    + destruct (common_spec 241 (dig s k) (dig s k')) as (_ & _ & Hd). exists (common 241 (dig s k) (dig s k')).
      split; [done|]. apply Hd. lia.
    + exfalso. apply not_true_iff_false in H1. apply H1, existsb_exists. exists k. split; [by apply elem_of_list_In|].
      apply Nat.leb_le. destruct (decide (241 <= depth dig s ks k)); [done|].
      pose proof (proj1 (depth_le s ks k 240) ltac:(lia) k' Hk' ltac:(done)). lia.
  - intros H1. apply not_true_iff_false. intros (k & Hk & Hd)%existsb_exists. apply elem_of_list_In in Hk.
    apply Nat.leb_le in Hd. destruct (depth_gt s ks k 240 ltac:(lia)) as (k' & Hk' & Hne & Ha).
    destruct (H1 k k' Hk Hk' ltac:(done)) as (d & Hd1 & Hd2). rewrite alike_iff in Ha. apply Hd2, Ha. lia.
Qed.

(** ** The least depth *)
Fixpoint word (x : nat -> N) (j : nat) : N := match j with O => 0 | S j => word x j * 16 + x j end.
Lemma word_lt x j : (∀ d, (x d < 16)%N) -> (word x j < 16 ^ N.of_nat j)%N.
Proof.
  intros Hx. induction j as [|j IH]; [done|]. simpl word. rewrite Nat2N.inj_succ, N.pow_succ_r'.
  pose proof (Hx j). lia.
Qed.
Lemma word_inj x y j : (∀ d, (x d < 16)%N) -> (∀ d, (y d < 16)%N) -> word x j = word y j -> ∀ i, i < j -> x i = y i.
Proof.
  intros Hx Hy. induction j as [|j IH]; intros E i Hi; [lia|]. simpl in E. pose proof (Hx j). pose proof (Hy j).
  assert (word x j = word y j /\ x j = y j) as [E1 E2] by lia.
  destruct (decide (i = j)) as [->|]; [done|]. apply IH; [done|lia].
Qed.

Lemma few_shallow s ks j : (∀ k d, (dig s k d < 16)%N) -> NoDup ks -> j <= 241 ->
  sum (λ k, ind (depth dig s ks k <? j)) ks <= 16 ^ j.
Proof.
  intros Hd Hks Hj.
  set (l := filter (λ k, depth dig s ks k < j) ks).
  assert (E : sum (λ k, ind (depth dig s ks k <? j)) ks = length l).
  { unfold l. generalize (depth dig s ks). intros f. clear. induction ks as [|k ks IH]; [done|].
    rewrite sum_cons, IH, filter_cons. destruct (f k <? j) eqn:E.
    - apply Nat.ltb_lt in E. by rewrite decide_True.
    - apply Nat.ltb_ge in E. rewrite decide_False by lia. done. }
  rewrite E. assert (Hn : NoDup ((λ k, N.to_nat (word (dig s k) j)) <$> l)).
  { assert (Hl : NoDup l) by by apply NoDup_filter.
    assert (Hi : ∀ k k', k ∈ l -> k' ∈ l -> N.to_nat (word (dig s k) j) = N.to_nat (word (dig s k') j) -> k = k').
    { intros k k' [Hk Hkin]%elem_of_list_filter [_ Hkin']%elem_of_list_filter Ew.
      destruct (decide (k = k')) as [|Hne]; [done|]. exfalso.
      assert (Hc : j <= common 241 (dig s k) (dig s k')).
      { apply common_ge; [done|]. apply word_inj; [apply Hd..|lia]. }
      pose proof (proj1 (depth_le s ks k (pred j)) ltac:(lia) k' Hkin' ltac:(done)). lia. }
    clearbody l. clear -Hl Hi. induction Hl as [|k l Hk Hl IH]; [constructor|]. simpl. constructor.
    - intros (k' & E & Hk')%elem_of_list_fmap. apply Hk.
      rewrite (Hi k k' ltac:(left) ltac:(by right) E). done.
    - apply IH. intros ????. apply Hi; by right. }
  assert (Hsub : ((λ k, N.to_nat (word (dig s k) j)) <$> l) ⊆ seq 0 (16 ^ j)).
  { intros x (k & -> & _)%elem_of_list_fmap. apply elem_of_seq.
    pose proof (word_lt (dig s k) j (Hd k)). split; [lia|].
    assert (N.to_nat (16 ^ N.of_nat j) = 16 ^ j) by (rewrite N2Nat.inj_pow, Nat2N.id; done). lia. }
  pose proof (submseteq_length _ _ (NoDup_submseteq _ _ Hn Hsub)) as Hlen.
  by rewrite fmap_length, seq_length in Hlen.
Qed.

Lemma least_depth s ks t : (∀ k d, (dig s k d < 16)%N) -> NoDup ks -> t <= 241 ->
  15 * t * length ks <= 15 * (total_depth dig s ks + length ks) + 16 ^ t.
Proof.
  intros Hd Hks Ht.
  assert (H1 : sum (λ j, length ks) (seq 0 t) <=
      sum (λ j, sum (λ k, ind (j <? S (depth dig s ks k))) ks + 16 ^ j) (seq 0 t)).
  { apply sum_le. intros j Hj%elem_of_seq.
    pose proof (few_shallow s ks j Hd Hks ltac:(lia)) as Hf.
    assert (E : sum (λ k, ind (j <? S (depth dig s ks k))) ks + sum (λ k, ind (depth dig s ks k <? j)) ks = length ks).
    { rewrite <- sum_add. rewrite (sum_ext _ (λ _, 1)); [rewrite sum_const; lia|]. intros k _.
      destruct (Nat.ltb_spec j (S (depth dig s ks k))), (Nat.ltb_spec (depth dig s ks k) j); simpl; lia. }
    lia. }
  rewrite sum_const, seq_length, sum_add in H1.
  rewrite <- (sum_swap (λ k j, ind (j <? S (depth dig s ks k)))) in H1.
  assert (H2 : sum (λ k, sum (λ j, ind (j <? S (depth dig s ks k))) (seq 0 t)) ks <= total_depth dig s ks + length ks).
  { unfold total_depth. change (sum_list (map (depth dig s ks) ks)) with (sum (depth dig s ks) ks).
    replace (length ks) with (sum (λ _ : K, 1) ks) by (rewrite sum_const; lia). rewrite <- sum_add.
    apply sum_le. intros k _. rewrite Nat.add_1_r.
    assert (Hi : ∀ n x, sum (λ j, ind (j <? x)) (seq 0 n) <= x).
    { intros n x. destruct (decide (x <= n)) as [Hx|Hx]; [by rewrite <- steps|].
      etransitivity; [apply (sum_le _ (λ _, 1)); intros j _; by destruct (j <? x); simpl; lia|].
      rewrite sum_const, seq_length. lia. }
    apply Hi. }
  pose proof (geometric t) as H3. change (λ j, 16 ^ j) with (Nat.pow 16) in H3. lia.
Qed.
End depths.
