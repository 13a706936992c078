(** Goroutines that write only to memory of their own run as if they were alone. *)
From stdpp Require Import base numbers list gmap relations.
From Verif Require Import GoInt Mem Prog ConcSpec.
Local Open Scope nat_scope.

(** ** Names *)
Fixpoint namesb (a l : loc) : bool :=
  Pos.eqb l a || match l with xO l => namesb a l | _ => false end.
Lemma namesb_ok a l : namesb a l = true <-> names a l.
Proof.
  split.
  - induction l as [l IH|l IH|]; simpl; intros Hn.
    + rewrite orb_false_r in Hn. apply Pos.eqb_eq in Hn. by exists 0.
    + apply orb_true_iff in Hn as [Hn|Hn]; [apply Pos.eqb_eq in Hn; by exists 0|].
      destruct (IH Hn) as [n ->]. by exists (S n).
    + rewrite orb_false_r in Hn. apply Pos.eqb_eq in Hn. by exists 0.
  - intros [n ->]. induction n as [|n IH]; simpl.
    + destruct a; simpl; by rewrite ?Pos.eqb_refl.
    + rewrite IH. by rewrite orb_true_r.
Qed.
Lemma names_refl a : names a a.
Proof. by exists 0. Qed.
Lemma names_next a l : names (xO a) l -> names a l.
Proof. intros [n ->]. exists (S n). rewrite Nat.iter_succ_r. done. Qed.
Lemma names_trans a b l : names a b -> names b l -> names a l.
Proof. intros [n ->] [n' ->]. exists (n' + n). by rewrite Nat.iter_add. Qed.
Lemma names_le a l : names a l -> (a <= l)%positive.
Proof. intros [n ->]. induction n as [|n IH]; simpl; lia. Qed.

(** There are starts for any number of goroutines. *)
Definition starts (nxt : loc) (n : nat) : list loc := map (λ i, Nat.iter (S i) xI nxt) (seq 0 n).
Lemma iter_xI_le nxt i : (nxt <= Nat.iter i xI nxt)%positive.
Proof. induction i as [|i IH]; simpl; lia. Qed.
Lemma iter_xI_ne nxt i : Nat.iter (S i) xI nxt ≠ nxt.
Proof. simpl. pose proof (iter_xI_le nxt i). lia. Qed.
Lemma iter_xI_inj nxt : ∀ i j, Nat.iter i xI nxt = Nat.iter j xI nxt -> i = j.
Proof.
  induction i as [|i IH]; intros [|j] Hij; try done.
  - exfalso. by apply (iter_xI_ne nxt j).
  - exfalso. by apply (iter_xI_ne nxt i).
  - simpl in Hij. injection Hij as Hij. by rewrite (IH j Hij).
Qed.
Lemma iter_xO_xI x y n n' : Nat.iter n xO (xI x) = Nat.iter n' xO (xI y) -> x = y.
Proof.
  revert n'. induction n as [|n IH]; intros [|n'] Hn; simpl in Hn; try done.
  - by injection Hn.
  - injection Hn as Hn. by eapply IH.
Qed.
Lemma starts_spread nxt n : spread nxt (starts nxt n).
Proof.
  split.
  - intros a Ha. apply elem_of_list_In, in_map_iff in Ha as (i & <- & _). apply iter_xI_le.
  - intros i j a b l Hi Hj [x Hx] [y Hy]. unfold starts in *.
    rewrite list_lookup_fmap in Hi, Hj. apply fmap_Some in Hi as (i' & Hi & ->). apply fmap_Some in Hj as (j' & Hj & ->).
    apply lookup_seq in Hi as [-> Hi]. apply lookup_seq in Hj as [-> Hj]. simpl in Hx, Hy.
    rewrite Hx in Hy. apply iter_xO_xI in Hy. change (0 + i) with i in Hy. change (0 + j) with j in Hy.
    by apply (iter_xI_inj nxt).
Qed.

Section safe.
Context {V CK U : Type}.
Local Notation block := (block V CK).
Local Notation prog := (prog V CK U).
Local Notation world := (world V CK U).

(** The program returns from w, reads only from X and S and writes only to X. *)
Fixpoint safe (X S : loc -> Prop) {A} (p : prog A) (w : world) : Prop :=
  match p with
  | PRet _ => True
  | PPanic | PFault | PHang => False
  | PRead l k => (X l \/ S l) /\ match w_mem w !! l with Some b => safe X S (k b) w | None => False end
  | PWrite l b k => X l /\ is_Some (w_mem w !! l) /\ safe X S k (set_mem w (<[l := b]> (w_mem w)))
  | PAlloc b k => X (w_nxt w) /\ w_mem w !! w_nxt w = None /\
      safe X S (k (w_nxt w)) (World (<[w_nxt w := b]> (w_mem w)) (xO (w_nxt w)) (w_usr w))
  | PGet k => safe X S (k (w_usr w)) w
  | PPut u k => safe X S k (World (w_mem w) (w_nxt w) u)
  end.
(** The program does not write. *)
Fixpoint readonly {A} (p : prog A) : Prop :=
  match p with
  | PRet _ | PPanic | PFault | PHang => True
  | PRead l k => ∀ b, readonly (k b)
  | PWrite _ _ _ | PAlloc _ _ => False
  | PGet k => ∀ u, readonly (k u)
  | PPut _ k => readonly k
  end.

Lemma safe_bind X S {A B} (p : prog A) (f : A -> prog B) w : safe X S p w ->
  (∀ a w', run p w = Ret a w' -> safe X S (f a) w') -> safe X S (bind p f) w.
Proof.
  revert w. induction p as [a| | | |l k IH|l b k IH|b k IH|k IH|u k IH]; intros w Hp Hf; simpl in *; try done.
  - by apply Hf.
  - destruct Hp as [Hl Hp]. split; [done|]. destruct (w_mem w !! l) as [b|]; [|done]. by apply IH.
  - destruct Hp as (Hl & [b' Hb] & Hp). split_and!; [done|done|]. rewrite Hb in Hf. by apply IH.
  - destruct Hp as (Hl & Hb & Hp). split_and!; [done|done|]. by apply IH.
  - by apply IH.
  - by apply IH.
Qed.
Lemma readonly_bind {A B} (p : prog A) (f : A -> prog B) : readonly p -> (∀ a, readonly (f a)) -> readonly (bind p f).
Proof. intros Hp Hf. induction p; simpl in *; auto. Qed.

(** A program that runs on a part o of the memory runs in the same way on all of it. *)
Lemma run_part (X S : loc -> Prop) {A} (p : prog A) : ∀ o m n u a w', run p (World o n u) = Ret a w' ->
  o ⊆ m -> (∀ l, is_Some (o !! l) -> X l) -> (∀ l, names n l -> X l) -> (∀ l, is_Some (m !! l) -> (l < n)%positive) ->
  safe X S p (World m n u) /\ ∃ m', run p (World m n u) = Ret a (World m' (w_nxt w') (w_usr w')) /\ w_mem w' ⊆ m' /\
    names n (w_nxt w') /\ ∀ l, ¬ X l -> m' !! l = m !! l.
Proof.
  induction p as [a0| | | |l k IH|l b k IH|b k IH|k IH|u0 k IH]; intros o m n u a w' Hr Ho HX Hn Hm; simpl in *; try done.
  - injection Hr as <- <-. split; [done|]. exists m. split_and!; [done|done|apply names_refl|done].
  - destruct (o !! l) as [b|] eqn:E; [|done]. rewrite (lookup_weaken _ _ _ _ E Ho).
    destruct (IH b o m n u a w' Hr Ho HX Hn Hm) as [H1 H2]. split; [|done]. split; [|done]. left. apply HX. by exists b.
  - destruct (o !! l) as [b'|] eqn:E; [|done]. rewrite (lookup_weaken _ _ _ _ E Ho). unfold set_mem in *. simpl in *.
    assert (HXl : X l) by (apply HX; by exists b').
    destruct (IH (<[l := b]> o) (<[l := b]> m) n u a w' Hr) as [H1 (m' & H2 & H3 & H4 & H5)]; [by apply insert_mono| |done| |].
    { intros l'. destruct (decide (l' = l)) as [->|Hne]; [done|]. rewrite lookup_insert_ne by done. apply HX. }
    { intros l' Hl'. destruct (decide (l' = l)) as [->|Hne].
      - apply Hm. exists b'. by eapply lookup_weaken.
      - rewrite lookup_insert_ne in Hl' by done. by apply Hm. }
    split; [by split_and!; [|exists b'|]|]. exists m'. split_and!; try done.
    intros l' Hl'. rewrite (H5 l' Hl'). apply lookup_insert_ne. intros ->. done.
  - assert (Hf : m !! n = None).
    { destruct (m !! n) as [b'|] eqn:E; [|done]. exfalso. assert (n < n)%positive; [|lia]. apply Hm. by exists b'. }
    assert (HXn : X n) by apply Hn, names_refl.
    destruct (IH n (<[n := b]> o) (<[n := b]> m) (xO n) u a w' Hr) as [H1 (m' & H2 & H3 & H4 & H5)]; [by apply insert_mono| | | |].
    { intros l'. destruct (decide (l' = n)) as [->|Hne]; [done|]. rewrite lookup_insert_ne by done. apply HX. }
    { intros l' Hl'. by apply Hn, names_next. }
    { intros l' Hl'. destruct (decide (l' = n)) as [->|Hne]; [lia|]. rewrite lookup_insert_ne in Hl' by done.
      apply Hm in Hl'. lia. }
    split; [by split_and!|]. exists m'. split_and!; try done; [by apply names_next|].
    intros l' Hl'. rewrite (H5 l' Hl'). apply lookup_insert_ne. intros ->. done.
  - by apply (IH u o m n u a w').
  - by apply (IH o m n u0 a w').
Qed.
Lemma read_part (X S : loc -> Prop) {A} (p : prog A) : ∀ o m n u a w', run p (World o n u) = Ret a w' -> readonly p ->
  o ⊆ m -> (∀ l, is_Some (o !! l) -> X l \/ S l) ->
  safe X S p (World m n u) /\ run p (World m n u) = Ret a (World m n (w_usr w')).
Proof.
  induction p as [a0| | | |l k IH|l b k IH|b k IH|k IH|u0 k IH]; intros o m n u a w' Hr Hp Ho HX; simpl in *; try done.
  - by injection Hr as <- <-.
  - destruct (o !! l) as [b|] eqn:E; [|done]. rewrite (lookup_weaken _ _ _ _ E Ho).
    destruct (IH b o m n u a w' Hr (Hp b) Ho HX) as [H1 H2]. split; [|done]. split; [|done]. apply HX. by exists b.
  - by apply (IH u o m n u a w').
  - by apply (IH o m n u0 a w').
Qed.
End safe.

Section conc.
Context {V CK U A : Type}.
Local Notation block := (block V CK).
Local Notation prog := (prog V CK U).
Local Notation world := (world V CK U).
Local Notation thread := (thread V CK U A).
Local Notation config := (config V CK U A).

(** ** Every schedule ends *)
Definition sub (p' p : prog A) : Prop :=
  match p with
  | PRead _ k => ∃ b, p' = k b
  | PWrite _ _ k | PPut _ k => p' = k
  | PAlloc _ k => ∃ l, p' = k l
  | PGet k => ∃ u, p' = k u
  | _ => False
  end.
Lemma sub_acc p : Acc sub p.
Proof.
  induction p as [a| | | |l k IH|l b k IH|b k IH|k IH|u k IH]; constructor; intros p' Hp; simpl in Hp; try contradiction.
  - destruct Hp as [b ->]. apply IH.
  - subst. apply IH.
  - destruct Hp as [b' ->]. apply IH.
  - destruct Hp as [b ->]. apply IH.
  - subst. apply IH.
Qed.
Definition one (ps' ps : list (prog A)) : Prop := ∃ i p p', ps !! i = Some p /\ sub p' p /\ ps' = <[i := p']> ps.
Lemma one_acc ps : Acc one ps.
Proof.
  induction ps as [|p ps IH]; [constructor; by intros ? (i & p & p' & H & _)|].
  revert ps IH. induction (sub_acc p) as [p _ IHp]. intros ps Hps. induction Hps as [ps Hps IHps].
  constructor. intros ps' ([|i] & q & q' & Hq & Hs & ->); simpl in *.
  - injection Hq as ->. apply IHp; [done|]. by constructor.
  - apply IHps. by exists i, q, q'.
Qed.
Lemma next_sub m t m' t' : next m t = Some (m', t') -> sub (th_prog t') (th_prog t).
Proof.
  destruct t as [p n u]. destruct p as [a| | | |l k|l b k|b k|k|u0 k]; simpl; try done; intros Hn.
  - destruct (m !! l) as [b|]; [|done]. injection Hn as <- <-. by exists b.
  - destruct (m !! l) as [b'|]; [|done]. by injection Hn as <- <-.
  - injection Hn as <- <-. by exists n.
  - injection Hn as <- <-. by exists u.
  - by injection Hn as <- <-.
Qed.
Lemma step_acc (C : config) : Acc (flip step) C.
Proof.
  remember (map th_prog (c_thr C)) as ps eqn:E. revert C E.
  induction (one_acc ps) as [ps _ IH]. intros C ->. constructor. intros C' Hs. destruct Hs as [i t m' t' Hi Hn].
  eapply IH; [|done]. simpl. exists i, (th_prog t), (th_prog t'). split_and!.
  - change (map th_prog (c_thr C)) with (th_prog <$> c_thr C). by rewrite list_lookup_fmap, Hi.
  - by eapply next_sub.
  - apply (list_fmap_insert th_prog).
Qed.
Theorem schedules_end (f : nat -> config) : ¬ ∀ n, step (f n) (f (S n)).
Proof.
  intros Hf. assert (Hc : ∀ C, Acc (flip step) C -> ∀ n, f n = C -> False); [|by apply (Hc (f 0) (step_acc _) 0)].
  induction 1 as [C _ IH]. intros n <-. apply (IH (f (S n)) (Hf n) (S n)). done.
Qed.

(** ** Every reachable state *)
Variables (X : nat -> loc -> Prop) (Sh : loc -> Prop) (m0 : gmap loc block).
Hypothesis HX : ∀ i j l, X i l -> X j l -> i = j.
Hypothesis HS : ∀ i l, X i l -> ¬ Sh l.

(** Thread t, at work in memory m, is where its program p0 is that runs alone from w0 and
    has reached w. *)
Record at_work (m : gmap loc block) (i : nat) (t : thread) (p0 : prog A) (w0 w : world) : Prop := AtWork {
  aw_nxt : th_nxt t = w_nxt w;
  aw_usr : th_usr t = w_usr w;
  aw_safe : safe (X i) Sh (th_prog t) w;
  aw_own : ∀ l, X i l -> m !! l = w_mem w !! l;
  aw_shared : ∀ l, Sh l -> m !! l = w_mem w !! l;
  aw_run : run (th_prog t) w = run p0 w0 }.

Lemma next_own m i t p0 w0 w m' t' : at_work m i t p0 w0 w -> next m t = Some (m', t') ->
  (∃ w', at_work m' i t' p0 w0 w') /\ ∀ l, ¬ X i l -> m' !! l = m !! l.
Proof.
  intros [H1 H2 H3 H4 H5 H6] Hn. destruct t as [p n u]. destruct w as [mw nw uw]. simpl in H1, H2. subst nw uw.
  destruct p as [a| | | |l k|l b k|b k|k|u0 k]; simpl in *; try done.
  - destruct (m !! l) as [b|] eqn:E; [|done]. injection Hn as <- <-. split; [|done]. destruct H3 as [Hl H3].
    assert (Hb : mw !! l = Some b) by (destruct Hl as [Hl|Hl]; [rewrite <- (H4 l Hl)|rewrite <- (H5 l Hl)]; done).
    rewrite Hb in H3, H6. by exists (World mw n u).
  - destruct H3 as (Hl & [b' Hb] & H3). rewrite (H4 l Hl), Hb in Hn. injection Hn as <- <-. rewrite Hb in H6. split.
    + exists (set_mem (World mw n u) (<[l := b]> mw)). split; try done; unfold set_mem; simpl; intros l' Hl'.
      * destruct (decide (l' = l)) as [->|Hne]; [by rewrite !lookup_insert|]. rewrite !lookup_insert_ne by done. by apply H4.
      * rewrite !lookup_insert_ne by (intros ->; by eapply HS). by apply H5.
    + intros l' Hl'. apply lookup_insert_ne. by intros ->.
  - injection Hn as <- <-. destruct H3 as (Hl & Hb & H3). split.
    + exists (World (<[n := b]> mw) (xO n) u). split; try done; simpl; intros l' Hl'.
      * destruct (decide (l' = n)) as [->|Hne]; [by rewrite !lookup_insert|]. rewrite !lookup_insert_ne by done. by apply H4.
      * rewrite !lookup_insert_ne by (intros ->; by eapply HS). by apply H5.
    + intros l' Hl'. apply lookup_insert_ne. by intros ->.
  - injection Hn as <- <-. split; [|done]. by exists (World mw n u).
  - injection Hn as <- <-. split; [|done]. by exists (World mw n u0).
Qed.

Variables (ps : list (prog A * world)).
Definition good (C : config) : Prop := length (c_thr C) = length ps /\
  (∀ i t p0 w0, c_thr C !! i = Some t -> ps !! i = Some (p0, w0) -> ∃ w, at_work (c_mem C) i t p0 w0 w) /\
  ∀ l, (∀ i, i < length ps -> ¬ X i l) -> c_mem C !! l = m0 !! l.

Lemma step_good C C' : good C -> step C C' -> good C'.
Proof.
  intros (Hlen & Hw & Hm) [i t m' t' Hi Hn].
  assert (Hil : i < length ps) by (rewrite <- Hlen; by eapply lookup_lt_Some).
  destruct (lookup_lt_is_Some_2 ps i Hil) as [[p0 w0] Hp].
  destruct (Hw _ _ _ _ Hi Hp) as [w Haw]. destruct (next_own _ _ _ _ _ _ _ _ Haw Hn) as [(w' & Haw') Hkeep].
  split_and!; simpl; [by rewrite insert_length| |].
  - intros j tj pj wj Hj Hpj. destruct (decide (j = i)) as [->|Hne].
    + rewrite list_lookup_insert in Hj by (by rewrite Hlen). injection Hj as <-. rewrite Hp in Hpj. injection Hpj as <- <-. by exists w'.
    + rewrite list_lookup_insert_ne in Hj by done. destruct (Hw _ _ _ _ Hj Hpj) as [wj' [H1 H2 H3 H4 H5 H6]].
      exists wj'. split; try done; intros l Hl; rewrite Hkeep; auto; intros Hl'.
      * apply Hne. by apply (HX j i l).
      * by apply (HS i l).
  - intros l Hl. rewrite Hkeep by (by apply Hl). by apply Hm.
Qed.
Lemma steps_good C C' : good C -> rtc step C C' -> good C'.
Proof. intros Hg Hs. induction Hs as [|C1 C2 C3 Hs _ IH]; [done|]. apply IH. by eapply step_good. Qed.

Lemma safe_access i (t : thread) w l b : safe (X i) Sh (th_prog t) w -> th_nxt t = w_nxt w -> access t = Some (l, b) ->
  X i l \/ (Sh l /\ b = false).
Proof.
  intros Hs Hn Ha. destruct t as [p n u]. unfold access in Ha. simpl in *. destruct p; simpl in *; try done; injection Ha as <- <-.
  - destruct Hs as [[?|?] _]; auto.
  - by left; destruct Hs.
  - subst n. by left; destruct Hs.
Qed.
Lemma good_no_race C : good C -> ¬ race C.
Proof.
  intros (Hlen & Hw & _) (i & j & t & t' & l & b & b' & Hne & Hi & Hj & Ha & Ha' & Hb).
  assert (Hil : i < length ps) by (rewrite <- Hlen; by eapply lookup_lt_Some).
  assert (Hjl : j < length ps) by (rewrite <- Hlen; by eapply lookup_lt_Some).
  destruct (lookup_lt_is_Some_2 ps i Hil) as [[p0 w0] Hp]. destruct (lookup_lt_is_Some_2 ps j Hjl) as [[p1 w1] Hp1].
  destruct (Hw _ _ _ _ Hi Hp) as [w [H1 H2 H3 H4 H5 H6]]. destruct (Hw _ _ _ _ Hj Hp1) as [w' [H1' H2' H3' H4' H5' H6']].
  destruct (safe_access _ _ _ _ _ H3 H1 Ha) as [Hx|[Hx ->]]; destruct (safe_access _ _ _ _ _ H3' H1' Ha') as [Hx'|[Hx' ->]].
  - by apply Hne, (HX i j l).
  - by apply (HS i l).
  - by apply (HS j l).
  - by destruct Hb.
Qed.
Lemma good_runs C i (t : thread) : good C -> c_thr C !! i = Some t ->
  ((∃ a, returned t a) \/ runs C t) /\ fresh C t.
Proof.
  intros (Hlen & Hw & _) Hi. assert (Hil : i < length ps) by (rewrite <- Hlen; by eapply lookup_lt_Some).
  destruct (lookup_lt_is_Some_2 ps i Hil) as [[p0 w0] Hp]. destruct (Hw _ _ _ _ Hi Hp) as [w [H1 H2 H3 H4 H5 H6]].
  destruct t as [p n u]. unfold returned, runs, fresh. destruct p as [a| | | |l k|l b k|b k|k|u0 k]; simpl in *; try done.
  - split; [|done]. by left; exists a.
  - split; [|done]. right. destruct H3 as [Hl H3].
    assert (Hm : c_mem C !! l = w_mem w !! l) by (destruct Hl; auto). rewrite Hm. destruct (w_mem w !! l); [eauto|done].
  - split; [|done]. right. destruct H3 as (Hl & [b' Hb] & _). rewrite (H4 l Hl), Hb. eauto.
  - destruct H3 as (Hl & Hb & _). split; [eauto|]. rewrite H1. by rewrite (H4 _ Hl).
  - split; [|done]. eauto.
  - split; [|done]. eauto.
Qed.
Lemma good_result C i (t : thread) p0 w0 a : good C -> c_thr C !! i = Some t -> ps !! i = Some (p0, w0) -> returned t a ->
  ∃ w, run p0 w0 = Ret a w /\ th_nxt t = w_nxt w /\ th_usr t = w_usr w /\
    ∀ l, X i l \/ Sh l -> c_mem C !! l = w_mem w !! l.
Proof.
  intros (Hlen & Hw & _) Hi Hp Hr. destruct (Hw _ _ _ _ Hi Hp) as [w [H1 H2 H3 H4 H5 H6]].
  exists w. split_and!; try done; [|intros l [Hl|Hl]; auto]. rewrite <- H6, Hr. done.
Qed.
End conc.
