(** Goroutines behind a readers-writer lock run as if they took turns (LockSpec.v). *)
From stdpp Require Import base numbers list gmap relations.
From Verif Require Import GoInt Mem Prog ConcSpec Conc LockSpec.
Local Open Scope nat_scope.

Section lock.
Context {V CK U X A : Type} (body : X -> prog V CK U A).
Local Notation block := (block V CK).
Local Notation prog := (prog V CK U).
Local Notation world := (world V CK U).
Local Notation gor := (gor X A).
Local Notation lconfig := (lconfig V CK U X A).
Local Notation lstep := (lstep body).
Local Notation turns := (turns (λ x w a w', run (body x) w = Ret a w')).

(** The program does not write when it runs from w. *)
Fixpoint calm {B} (p : prog B) (w : world) : Prop :=
  match p with
  | PRet _ | PPanic | PFault | PHang => True
  | PRead l k => match w_mem w !! l with Some b => calm (k b) w | None => True end
  | PWrite _ _ _ | PAlloc _ _ => False
  | PGet k => calm (k (w_usr w)) w
  | PPut u k => calm k (World (w_mem w) (w_nxt w) u)
  end.
Lemma readonly_calm {B} (p : prog B) w : readonly p -> calm p w.
Proof.
  revert w. induction p as [a| | | |l k IH|l b k IH|b k IH|k IH|u k IH]; intros w Hp; simpl in *; try done; auto.
  destruct (w_mem w !! l); auto.
Qed.
Lemma calm_bind {B D} (p : prog B) (f : B -> prog D) w : calm p w ->
  (∀ a w', run p w = Ret a w' -> calm (f a) w') -> calm (bind p f) w.
Proof.
  revert w. induction p as [a| | | |l k IH|l b k IH|b k IH|k IH|u k IH]; intros w Hp Hf; simpl in *; try done.
  - by apply Hf.
  - destruct (w_mem w !! l); [by apply IH|done].
  - by apply IH.
  - by apply IH.
Qed.
Lemma calm_run {B} (p : prog B) w a w' : calm p w -> run p w = Ret a w' -> w' = World (w_mem w) (w_nxt w) (w_usr w').
Proof.
  revert w. induction p as [a0| | | |l k IH|l b k IH|b k IH|k IH|u k IH]; intros w Hp Hr; simpl in *; try done.
  - injection Hr as _ <-. by destruct w.
  - destruct (w_mem w !! l); [by eapply IH|done].
  - by eapply IH.
  - by apply IH in Hr.
Qed.

(** One access. *)
Lemma next_run m (p : prog A) n u m' p' n' u' : next m (Thread p n u) = Some (m', Thread p' n' u') ->
  run p (World m n u) = run p' (World m' n' u').
Proof.
  destruct p as [a| | | |l k|l b k|b k|k|u1 k]; simpl; try done.
  - destruct (m !! l); [|done]. by intros [= <- <- <- <-].
  - destruct (m !! l); [|done]. by intros [= <- <- <- <-].
  - by intros [= <- <- <- <-].
  - by intros [= <- <- <- <-].
  - by intros [= <- <- <- <-].
Qed.
Lemma next_calm m (p : prog A) n u m' p' n' u' : next m (Thread p n u) = Some (m', Thread p' n' u') ->
  calm p (World m n u) -> m' = m /\ n' = n /\ calm p' (World m' n' u').
Proof.
  destruct p as [a| | | |l k|l b k|b k|k|u1 k]; simpl; try done.
  - destruct (m !! l); [|done]. by intros [= <- <- <- <-].
  - by intros [= <- <- <- <-].
  - by intros [= <- <- <- <-].
Qed.
Lemma next_below m (p : prog A) n u m' p' n' u' : next m (Thread p n u) = Some (m', Thread p' n' u') ->
  (∀ l, is_Some (m !! l) -> (l < n)%positive) -> ∀ l, is_Some (m' !! l) -> (l < n')%positive.
Proof.
  intros Hn Hm. destruct p as [a| | | |l k|l b k|b k|k|u1 k]; simpl in Hn; try done.
  - destruct (m !! l); [|done]. by injection Hn as <- <- <- <-.
  - destruct (m !! l) as [b'|] eqn:E; [|done]. injection Hn as <- <- <- <-. intros l'.
    destruct (decide (l' = l)) as [->|]; [intros _; apply Hm; eauto|rewrite lookup_insert_ne by done; apply Hm].
  - injection Hn as <- <- <- <-. intros l'.
    destruct (decide (l' = n)) as [->|]; [intros _; lia|rewrite lookup_insert_ne by done]. intros Hl. apply Hm in Hl. lia.
  - by injection Hn as <- <- <- <-.
  - by injection Hn as <- <- <- <-.
Qed.
Lemma next_some m (p : prog A) n u a w' : run p (World m n u) = Ret a w' -> p = PRet a \/ is_Some (next m (Thread p n u)).
Proof.
  destruct p as [a0| | | |l k|l b k|b k|k|u1 k]; simpl; try done; eauto.
  - intros [= -> _]. by left.
  - destruct (m !! l); [eauto|done].
  - destruct (m !! l); [eauto|done].
Qed.
Lemma calm_access m n u (p : prog A) l b : calm p (World m n u) -> access (Thread p n u) = Some (l, b) -> b = false.
Proof. destruct p; simpl; try done. by intros _ [= _ <-]. Qed.

Variables (w0 : world) (gs0 : list (gor * U)).
Hypothesis Hsafe : ∀ log m n gs, turns w0 gs0 log m n gs -> ∀ i e x k u, gs !! i = Some (Sec e x k, u) ->
  (∃ a w', run (body x) (World m n u) = Ret a w') /\ (e = false -> calm (body x) (World m n u)).
Hypothesis Hbelow : ∀ l, is_Some (w_mem w0 !! l) -> (l < w_nxt w0)%positive.

(** The goroutine with respect to its state after the turns that are over. *)
Definition fits (C : lconfig) (m : gmap loc block) (n : loc) (t : gr V CK U X A) (g : gor * U) : Prop :=
  match gr_st t with
  | Out g' => g = (g', gr_usr t)
  | In e p k => ∃ x u, g = (Sec e x k, u) /\ run p (World (lc_mem C) (lc_nxt C) (gr_usr t)) = run (body x) (World m n u) /\
      (e = false -> calm p (World (lc_mem C) (lc_nxt C) (gr_usr t)))
  end.
Record linv (C : lconfig) m n (gs : list (gor * U)) : Prop := LInv {
  li_turns : turns w0 gs0 (lc_log C) m n gs;
  li_fits : ∀ i t, lc_gr C !! i = Some t -> ∃ g, gs !! i = Some g /\ fits C m n t g;
  li_len : length gs = length (lc_gr C);
  li_mem : (∀ i p k u, lc_gr C !! i ≠ Some (Gr (In true p k) u)) -> lc_mem C = m /\ lc_nxt C = n;
  li_one : ∀ i j e p k u e' p' k' u', lc_gr C !! i = Some (Gr (In e p k) u) -> lc_gr C !! j = Some (Gr (In e' p' k') u') ->
    i ≠ j -> e = false /\ e' = false;
  li_below : ∀ l, is_Some (lc_mem C !! l) -> (l < lc_nxt C)%positive }.

Lemma linv_begin : linv (lbegin w0 gs0) (w_mem w0) (w_nxt w0) gs0.
Proof.
  split; simpl.
  - constructor.
  - intros i t Hi. change (map ?f gs0) with (f <$> gs0) in Hi. rewrite list_lookup_fmap in Hi.
    apply fmap_Some in Hi as ([g u] & Hg & ->). exists (g, u). by split.
  - by rewrite map_length.
  - done.
  - intros i j e p k u e' p' k' u' Hi. change (map ?f gs0) with (f <$> gs0) in Hi. rewrite list_lookup_fmap in Hi.
    apply fmap_Some in Hi as ([g u1] & Hg & [=]).
  - done.
Qed.

Lemma linv_step C C' m n gs : linv C m n gs -> lstep C C' -> ∃ m' n' gs', linv C' m' n' gs'.
Proof.
  intros [H1 H2 H3 H4 H5 H6] Hst. destruct Hst as [i e x k u Hi Hin|i e p k u m' p' n' u' Hi Hn|i e a k u Hi].
  - assert (Hno : ∀ i p k u, lc_gr C !! i ≠ Some (Gr (In true p k) u)).
    { intros j p1 k1 u1 Hj. by destruct (Hin _ _ _ _ _ Hj). }
    destruct (H4 Hno) as [<- <-]. pose proof (lookup_lt_Some _ _ _ Hi) as Hlt.
    destruct (H2 _ _ Hi) as (g & Hg & Hf). cbn [fits gr_st gr_usr] in Hf. subst g.
    exists (lc_mem C), (lc_nxt C), gs. split; cbn [lc_gr lc_mem lc_nxt lc_log].
    + done.
    + intros j t Hj. destruct (decide (j = i)) as [->|Hne].
      * rewrite list_lookup_insert in Hj by done. injection Hj as <-. eexists. split; [exact Hg|]. cbn. exists x, u.
        split_and!; [done|done|]. intros ->. by apply (Hsafe _ _ _ _ H1 _ _ _ _ _ Hg).
      * rewrite list_lookup_insert_ne in Hj by done. destruct (H2 _ _ Hj) as (g & Hg' & Hf). by exists g.
    + by rewrite insert_length.
    + done.
    + assert (Hx : ∀ j e1 p1 k1 u1, j ≠ i -> <[i := Gr (In e (body x) k) u]> (lc_gr C) !! j = Some (Gr (In e1 p1 k1) u1) -> e = false /\ e1 = false).
      { intros j e1 p1 k1 u1 Hne Hj. rewrite list_lookup_insert_ne in Hj by done. by eapply Hin. }
      intros j1 j2 e1 p1 k1 u1 e2 p2 k2 u2 Hj1 Hj2 Hne.
      destruct (decide (j1 = i)) as [->|Hn1]; [|destruct (decide (j2 = i)) as [->|Hn2]].
      * rewrite list_lookup_insert in Hj1 by done. injection Hj1 as <- _ _ _. eapply (Hx j2); [done|exact Hj2].
      * rewrite list_lookup_insert in Hj2 by done. injection Hj2 as <- _ _ _. destruct (Hx j1 _ _ _ _ Hn1 Hj1). done.
      * rewrite list_lookup_insert_ne in Hj1 by done. rewrite list_lookup_insert_ne in Hj2 by done. eauto.
    + done.
  - pose proof (lookup_lt_Some _ _ _ Hi) as Hlt.
    destruct (H2 _ _ Hi) as (g & Hg & x & u1 & -> & Hrun & Hc). cbn [gr_usr] in Hrun, Hc.
    exists m, n, gs. split; cbn [lc_gr lc_mem lc_nxt lc_log].
    + done.
    + intros j t Hj. destruct (decide (j = i)) as [->|Hne].
      * rewrite list_lookup_insert in Hj by done. injection Hj as <-. eexists. split; [exact Hg|]. cbn. exists x, u1.
        split_and!; [done|by rewrite <- Hrun, (next_run _ _ _ _ _ _ _ _ Hn)|]. intros ->. by eapply next_calm; [exact Hn|apply Hc].
      * rewrite list_lookup_insert_ne in Hj by done. destruct (H2 _ _ Hj) as (g & Hg' & Hf). exists g. split; [done|].
        destruct t as [[g1|e1 p1 k1] u2]; [done|]. destruct (H5 _ _ _ _ _ _ _ _ _ _ Hi Hj) as [-> ->]; [done|].
        destruct (next_calm _ _ _ _ _ _ _ _ Hn (Hc eq_refl)) as (-> & -> & _). done.
    + by rewrite insert_length.
    + intros Hno. destruct e.
      { destruct (Hno i p' k u'). by rewrite list_lookup_insert. }
      destruct (next_calm _ _ _ _ _ _ _ _ Hn (Hc eq_refl)) as (-> & -> & _). apply H4.
      intros j p1 k1 u2 Hj. destruct (decide (j = i)) as [->|Hne]; [by rewrite Hi in Hj|].
      apply (Hno j p1 k1 u2). by rewrite list_lookup_insert_ne.
    + intros j1 j2 e1 p1 k1 u2 e2 p2 k2 u3 Hj1 Hj2 Hne.
      assert (Hx : ∀ j e1 p1 k1 u1, <[i := Gr (In e p' k) u']> (lc_gr C) !! j = Some (Gr (In e1 p1 k1) u1) -> ∃ p2 k2 u2, lc_gr C !! j = Some (Gr (In e1 p2 k2) u2)).
      { intros j e3 p3 k3 u4 Hj. destruct (decide (j = i)) as [->|Hn1].
        - rewrite list_lookup_insert in Hj by done. injection Hj as <- _ _ _. eauto.
        - rewrite list_lookup_insert_ne in Hj by done. eauto. }
      apply Hx in Hj1 as (? & ? & ? & Hj1). apply Hx in Hj2 as (? & ? & ? & Hj2). eauto.
    + by eapply next_below.
  - pose proof (lookup_lt_Some _ _ _ Hi) as Hlt.
    destruct (H2 _ _ Hi) as (g & Hg & x & u1 & -> & Hrun & Hc). cbn [gr_usr run] in Hrun, Hc.
    assert (Hm : ∀ j e1 p1 k1 u2, j ≠ i -> lc_gr C !! j = Some (Gr (In e1 p1 k1) u2) -> lc_mem C = m /\ lc_nxt C = n).
    { intros j e1 p1 k1 u2 Hne Hj. destruct (H5 _ _ _ _ _ _ _ _ _ _ Hi Hj) as [-> ->]; [done|]. apply H4.
      intros j' p2 k2 u3 Hj'. destruct (decide (j' = i)) as [->|Hne']; [by rewrite Hi in Hj'|].
      by destruct (H5 _ _ _ _ _ _ _ _ _ _ Hi Hj'). }
    exists (lc_mem C), (lc_nxt C), (<[i := (k a, u)]> gs). split; cbn [lc_gr lc_mem lc_nxt lc_log].
    + exact (turns_one _ _ _ _ _ _ _ _ _ _ _ _ _ _ H1 Hg (eq_sym Hrun)).
    + intros j t Hj. destruct (decide (j = i)) as [->|Hne].
      * rewrite list_lookup_insert in Hj by done. injection Hj as <-. exists (k a, u). split; [|done]. rewrite list_lookup_insert; [done|by rewrite H3].
      * rewrite list_lookup_insert_ne in Hj by done. destruct (H2 _ _ Hj) as (g & Hg' & Hf). exists g.
        rewrite list_lookup_insert_ne by done. split; [done|].
        destruct t as [[g1|e1 p1 k1] u2]; [done|]. destruct (Hm _ _ _ _ _ Hne Hj) as [Em En]. rewrite <- Em, <- En in Hf. exact Hf.
    + by rewrite !insert_length.
    + done.
    + assert (Hx : ∀ j e1 p1 k1 u1, <[i := Gr (Out (k a)) u]> (lc_gr C) !! j = Some (Gr (In e1 p1 k1) u1) -> lc_gr C !! j = Some (Gr (In e1 p1 k1) u1)).
      { intros j e1 p1 k1 u2 Hj. destruct (decide (j = i)) as [->|Hn1].
        - by rewrite list_lookup_insert in Hj.
        - by rewrite list_lookup_insert_ne in Hj. }
      intros j1 j2 e1 p1 k1 u2 e2 p2 k2 u3 Hj1%Hx Hj2%Hx Hne. eauto.
    + done.
Qed.
Lemma linv_steps C : rtc lstep (lbegin w0 gs0) C -> ∃ m n gs, linv C m n gs.
Proof.
  assert (Hb : ∃ m n gs, linv (lbegin w0 gs0) m n gs) by (do 3 eexists; apply linv_begin).
  revert Hb. generalize (lbegin w0 gs0). intros C0 Hb HC. induction HC as [|C0 C1 C2 Hst _ IH]; [done|].
  apply IH. destruct Hb as (m & n & gs & Hb). by eapply linv_step.
Qed.

Lemma linv_no_race C m n gs : linv C m n gs -> ¬ lrace C.
Proof.
  intros HI (i & j & e & e' & p & p' & k & k' & u & u' & l & b & b' & Hne & Hi & Hj & Ha & Ha' & Hb).
  destruct (li_one _ _ _ _ HI _ _ _ _ _ _ _ _ _ _ Hi Hj Hne) as [-> ->].
  destruct (li_fits _ _ _ _ HI _ _ Hi) as (g & _ & x & u1 & -> & _ & Hc).
  destruct (li_fits _ _ _ _ HI _ _ Hj) as (g' & _ & x' & u1' & -> & _ & Hc').
  apply (calm_access _ _ _ _ _ _ (Hc eq_refl)) in Ha. apply (calm_access _ _ _ _ _ _ (Hc' eq_refl)) in Ha'. by destruct Hb; subst.
Qed.
Lemma linv_returns C m n gs i e p k u : linv C m n gs -> lc_gr C !! i = Some (Gr (In e p k) u) ->
  ∃ a w', run p (World (lc_mem C) (lc_nxt C) u) = Ret a w'.
Proof.
  intros HI Hi. destruct (li_fits _ _ _ _ HI _ _ Hi) as (g & Hg & x & u1 & -> & Hr & _). cbn [gr_usr] in Hr.
  destruct (Hsafe _ _ _ _ (li_turns _ _ _ _ HI) _ _ _ _ _ Hg) as [(a & w' & Hx) _]. rewrite Hr. eauto.
Qed.
Lemma linv_goes_on C m n gs i e p k u : linv C m n gs -> lc_gr C !! i = Some (Gr (In e p k) u) -> goes_on C p u.
Proof.
  intros HI Hi. destruct (linv_returns _ _ _ _ _ _ _ _ _ HI Hi) as (a & w' & Hr). split.
  - apply next_some in Hr as [->|Hr]; eauto.
  - destruct p; try done. destruct (lc_mem C !! lc_nxt C) eqn:E; [|done]. exfalso.
    assert (lc_nxt C < lc_nxt C)%positive by (apply (li_below _ _ _ _ HI); eauto). lia.
Qed.

(** A goroutine alone comes to the end of its section. *)
Lemma finish (p : prog A) : ∀ C i e k u a w', lc_gr C !! i = Some (Gr (In e p k) u) -> run p (World (lc_mem C) (lc_nxt C) u) = Ret a w' ->
  rtc lstep C (LConfig (w_mem w') (w_nxt w') (<[i := Gr (Out (k a)) (w_usr w')]> (lc_gr C)) ((i, a) :: lc_log C)).
Proof.
  assert (Hgo : ∀ C i e p k u m' p' n' u' a w', lc_gr C !! i = Some (Gr (In e p k) u) ->
    next (lc_mem C) (Thread p (lc_nxt C) u) = Some (m', Thread p' n' u') -> run p (World (lc_mem C) (lc_nxt C) u) = Ret a w' ->
    (∀ C i e k u a w', lc_gr C !! i = Some (Gr (In e p' k) u) -> run p' (World (lc_mem C) (lc_nxt C) u) = Ret a w' ->
      rtc lstep C (LConfig (w_mem w') (w_nxt w') (<[i := Gr (Out (k a)) (w_usr w')]> (lc_gr C)) ((i, a) :: lc_log C))) ->
    rtc lstep C (LConfig (w_mem w') (w_nxt w') (<[i := Gr (Out (k a)) (w_usr w')]> (lc_gr C)) ((i, a) :: lc_log C))).
  { intros C i e p0 k u m' p' n' u' a w' Hi Hn Hr IH. pose proof (lookup_lt_Some _ _ _ Hi) as Hlt.
    eapply rtc_l; [by eapply l_access|]. rewrite (next_run _ _ _ _ _ _ _ _ Hn) in Hr.
    specialize (IH (LConfig m' n' (<[i := Gr (In e p' k) u']> (lc_gr C)) (lc_log C)) i e k u' a w').
    cbn [lc_gr lc_mem lc_nxt lc_log] in IH. rewrite list_insert_insert in IH. apply IH; [by rewrite list_lookup_insert|done]. }
  induction p as [a0| | | |l k0 IH|l b k0 IH|b k0 IH|k0 IH|u0 k0 IH]; intros C i e k u a w' Hi Hr.
  - simpl in Hr. injection Hr as -> <-. cbn. apply rtc_once. by eapply l_unlock.
  - done.
  - done.
  - done.
  - pose proof Hr as Hr'. simpl in Hr'. destruct (lc_mem C !! l) as [b|] eqn:E; [|done].
    eapply Hgo; [exact Hi| |exact Hr|apply (IH b)]. simpl. by rewrite E.
  - pose proof Hr as Hr'. simpl in Hr'. destruct (lc_mem C !! l) as [b'|] eqn:E; [|done].
    eapply Hgo; [exact Hi| |exact Hr|apply IH]. simpl. by rewrite E.
  - eapply Hgo; [exact Hi|simpl; reflexivity|exact Hr|apply IH].
  - eapply Hgo; [exact Hi|simpl; reflexivity|exact Hr|apply IH].
  - eapply Hgo; [exact Hi|simpl; reflexivity|exact Hr|apply IH].
Qed.
Lemma all_leave C : rtc lstep (lbegin w0 gs0) C -> ∃ C', rtc lstep C C' /\ ∀ i t, lc_gr C' !! i = Some t -> ∃ g, gr_st t = Out g.
Proof.
  intros HC. assert (Hn : ∀ n, ∃ C', rtc lstep C C' /\ ∀ i t, i < n -> lc_gr C' !! i = Some t -> ∃ g, gr_st t = Out g).
  { induction n as [|n (C' & HC' & IH)]; [exists C; split; [done|lia]|].
    destruct (lc_gr C' !! n) as [[[g|e p k] u]|] eqn:E.
    - exists C'. split; [done|]. intros i t Hi Ht. destruct (decide (i = n)) as [->|]; [|eapply IH; [|done]; lia].
      rewrite E in Ht. injection Ht as <-. by exists g.
    - destruct (linv_steps C') as (m & n1 & gs & HI); [by etrans|].
      destruct (linv_returns _ _ _ _ _ _ _ _ _ HI E) as (a & w' & Hr). pose proof (finish _ _ _ _ _ _ _ _ E Hr) as Hf.
      eexists. split; [etrans; [exact HC'|exact Hf]|]. cbn [lc_gr]. intros i t Hi Ht.
      destruct (decide (i = n)) as [->|Hne].
      + rewrite list_lookup_insert in Ht by (by eapply lookup_lt_Some). injection Ht as <-. by eexists.
      + rewrite list_lookup_insert_ne in Ht by done. eapply IH; [|done]. lia.
    - exists C'. split; [done|]. intros i t Hi Ht. destruct (decide (i = n)) as [->|]; [by rewrite E in Ht|eapply IH; [|done]; lia]. }
  destruct (Hn (length (lc_gr C))) as (C' & HC' & Hall). exists C'. split; [done|]. intros i t Ht. apply (Hall i t); [|done].
  assert (Hl : length (lc_gr C') = length (lc_gr C)).
  { clear -HC'. induction HC' as [|x y z Hxy _ IH]; [done|]. rewrite IH. destruct Hxy; cbn [lc_gr]; by rewrite insert_length. }
  rewrite <- Hl. by eapply lookup_lt_Some.
Qed.
End lock.
