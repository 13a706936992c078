(** Property C52: goroutines may share maps and sets behind a readers-writer lock.

    LockSpec.v: the goroutines take the lock (for writing or for reading), make calls, and
    give the lock back, again and again; [lstep] interleaves them access by access. With
    the lock for reading they only make calls that read ([guarded], [lfine]). [mturns] is
    the same with one goroutine after the other, and [lspec] says what that does to plain
    finite maps. *)
From stdpp Require Import base numbers list gmap relations.
From Verif Require Import GoInt Mem Hash Amt Families Spec Client Types Pack Runs Guards Prog PClient ConcSpec Conc ReadOnly ConcClient ConcMapAll ConcRuns ForkSpec LockSpec Lock LockRuns Props_Types Props_Ops Props_Mem Props_Conc.
Local Open Scope nat_scope.

(** At every moment: there is no data race, no goroutine has panicked, hangs or does
    something undefined, and what has been done behind the lock (lc_log: who, and the
    calls with their results) is what plain finite maps do when the goroutines take turns
    in the order in which they gave the lock back. When nobody writes, the memory is that
    of these maps: the results of all further calls are those of the maps, too. *)
Theorem C52_locked_map : ∀ `{Countable K} (V CK U : Type) (zero : V) (fuel : nat) (api : mapapi K V CK U)
    (papi : pmapapi K V CK U) (dig : N -> K -> nat -> N) (ok : list (mop K V U * mres V) -> mop K V U -> Prop) (u0 : U),
  256 <= fuel -> map_type zero fuel api dig ok -> pmap_type zero fuel papi api ->
  ∀ tr w gs, mrun api ok u0 tr w -> guarded api ok tr w gs ->
  ∃ σ0, mspec dig zero u0 tr σ0 /\
  ∀ C, rtc (lstep (msec papi)) (lbegin w gs) C ->
  ¬ lrace C /\
  (∀ i e p k u, lc_gr C !! i = Some (Gr (In e p k) u) -> goes_on C p u) /\
  ∃ m n gs' σ, mturns api w gs (lc_log C) m n gs' /\ lspec dig zero σ0 (map snd gs) (lc_log C) (map snd gs') σ /\
    (∀ i g u, lc_gr C !! i = Some (Gr (Out g) u) -> gs' !! i = Some (g, u)) /\
    ((∀ i p k u, lc_gr C !! i ≠ Some (Gr (In true p k) u)) -> lc_mem C = m /\ lc_nxt C = n /\
      ∀ op u, ok (calls (lc_log C) tr) op -> ∃ r w' σ', mcall api op (World m n u) = Ret r w' /\
        mstep dig zero (MState (ms_map σ) (ms_val σ) u) op r σ').
Proof.
  intros K E H V CK U zero fuel api papi dig ok u0 Hf Ht Hp tr w gs Hr Hg.
  exact (map_lock zero fuel api papi dig ok u0 Hf Ht Hp tr w gs Hr Hg).
Qed.
Theorem C52_locked_set : ∀ `{Countable K} (CK U : Type) (fuel : nat) (api : setapi K unit CK U)
    (papi : psetapi K unit CK U) (dig : N -> K -> nat -> N) (ok : list (sop K U * sres) -> sop K U -> Prop) (u0 : U),
  256 <= fuel -> set_type fuel api dig ok -> pset_type fuel papi api ->
  ∀ tr w gs, srun api ok u0 tr w -> sguarded api ok tr w gs ->
  ∃ σ0, sspec dig u0 tr σ0 /\
  ∀ C, rtc (lstep (ssec papi)) (lbegin w gs) C ->
  ¬ lrace C /\
  (∀ i e p k u, lc_gr C !! i = Some (Gr (In e p k) u) -> goes_on C p u) /\
  ∃ m n gs' σ, sturns api w gs (lc_log C) m n gs' /\ slspec dig σ0 (map snd gs) (lc_log C) (map snd gs') σ /\
    (∀ i g u, lc_gr C !! i = Some (Gr (Out g) u) -> gs' !! i = Some (g, u)) /\
    ((∀ i p k u, lc_gr C !! i ≠ Some (Gr (In true p k) u)) -> lc_mem C = m /\ lc_nxt C = n /\
      ∀ op u, ok (scalls (lc_log C) tr) op -> ∃ r w' σ', scall api op (World m n u) = Ret r w' /\
        sstep dig (SState (ss_set σ) u) op r σ').
Proof.
  intros K E H CK U fuel api papi dig ok u0 Hf Ht Hp tr w gs Hr Hg.
  exact (set_lock fuel api papi dig ok u0 Hf Ht Hp tr w gs Hr Hg).
Qed.

(** Nobody keeps the lock for ever: from every moment on all goroutines can leave, and
    then the lock lets in whoever wants it. *)
Theorem C52_no_deadlock_map : ∀ `{Countable K} (V CK U : Type) (zero : V) (fuel : nat) (api : mapapi K V CK U)
    (papi : pmapapi K V CK U) (dig : N -> K -> nat -> N) (ok : list (mop K V U * mres V) -> mop K V U -> Prop) (u0 : U),
  256 <= fuel -> map_type zero fuel api dig ok -> pmap_type zero fuel papi api ->
  ∀ tr w gs C, mrun api ok u0 tr w -> guarded api ok tr w gs -> rtc (lstep (msec papi)) (lbegin w gs) C ->
  ∃ C', rtc (lstep (msec papi)) C C' /\ (∀ i t, lc_gr C' !! i = Some t -> ∃ g, gr_st t = Out g) /\ ∀ e, lets_in C' e.
Proof.
  intros K E H V CK U zero fuel api papi dig ok u0 Hf Ht Hp tr w gs C Hr Hg HC.
  exact (map_unlock zero fuel api papi dig ok u0 Hf Ht Hp tr w gs Hr Hg C HC).
Qed.
Theorem C52_no_deadlock_set : ∀ `{Countable K} (CK U : Type) (fuel : nat) (api : setapi K unit CK U)
    (papi : psetapi K unit CK U) (dig : N -> K -> nat -> N) (ok : list (sop K U * sres) -> sop K U -> Prop) (u0 : U),
  256 <= fuel -> set_type fuel api dig ok -> pset_type fuel papi api ->
  ∀ tr w gs C, srun api ok u0 tr w -> sguarded api ok tr w gs -> rtc (lstep (ssec papi)) (lbegin w gs) C ->
  ∃ C', rtc (lstep (ssec papi)) C C' /\ (∀ i t, lc_gr C' !! i = Some t -> ∃ g, gr_st t = Out g) /\ ∀ e, lets_in C' e.
Proof.
  intros K E H CK U fuel api papi dig ok u0 Hf Ht Hp tr w gs C Hr Hg HC.
  exact (set_unlock fuel api papi dig ok u0 Hf Ht Hp tr w gs Hr Hg C HC).
Qed.

Print Assumptions C52_locked_map.
Print Assumptions C52_locked_set.
Print Assumptions C52_no_deadlock_map.
Print Assumptions C52_no_deadlock_set.

(** ** The hypotheses can be met *)

(** Running a section, and going through all orders of turns. *)
Section explore.
Context {K V CK U : Type} (api : mapapi K V CK U) (chk : list (mop K V U * mres V) -> mop K V U -> bool).
Local Notation history := (list (mop K V U * mres V)).
Fixpoint soloe (c : client K V U) (tr : history) (w : world V CK U) : option (history * world V CK U) :=
  match c with
  | Stop => Some (tr, w)
  | Do c k => match mcall api (the_op c) w with Ret r w1 => soloe (k r) ((the_op c, r) :: tr) w1 | _ => None end
  end.
Lemma soloe_ok c : ∀ tr w hist w', solo api c tr w hist w' -> soloe c tr w = Some (hist, w').
Proof.
  induction c as [|c k IH]; simpl; intros tr w hist w'; [by intros [-> ->]|]. intros (r & w1 & -> & Hs). by apply IH.
Qed.
Definition looksb (c : cop K V U) : bool :=
  match c with
  | Op (MGet _ _) | Op (MVal _ _) | Op (MPtr _ _) | Op (MLen _) | Op (MDep _) | Op (MLoad _) | Look _ _ => true
  | _ => false
  end.
Fixpoint lfineb (e : bool) (c : client K V U) (tr : history) (w : world V CK U) : bool :=
  match c with
  | Stop => true
  | Do c k => chk tr (the_op c) && (e || looksb c) &&
      match mcall api (the_op c) w with Ret r w' => lfineb e (k r) ((the_op c, r) :: tr) w' | _ => true end
  end.
Lemma lfineb_ok (ok : history -> mop K V U -> Prop) e c : (∀ tr op, chk tr op = true -> ok tr op) ->
  ∀ tr w, lfineb e c tr w = true -> lfine api ok e c tr w.
Proof.
  intros Hchk. induction c as [|c k IH]; intros tr w Hf; simpl in *; [done|].
  apply andb_prop in Hf as [[H1 H2]%andb_prop H3]. split_and!; [auto| |].
  - intros ->. simpl in H2. by destruct c as [[]|].
  - intros r w' Hc. rewrite Hc in H3. by apply IH.
Qed.
Fixpoint explore (d : nat) (tr : history) (log : list (nat * history)) (m : gmap loc (block V CK)) (n : loc)
    (gs : list (gor (client K V U) history * U)) : bool :=
  forallb (λ i, match gs !! i with
    | Some (Sec e c k, u) => lfineb e c (calls log tr) (World m n u) &&
        match soloe c [] (World m n u) with
        | Some (new, w') =>
            match d with
            | O => false
            | S d => explore d tr ((i, new) :: log) (w_mem w') (w_nxt w') (<[i := (k new, w_usr w')]> gs)
            end
        | None => true
        end
    | _ => true
    end) (seq 0 (length gs)).
Lemma explore_ok (ok : history -> mop K V U -> Prop) d tr w gs : (∀ tr op, chk tr op = true -> ok tr op) ->
  explore d tr [] (w_mem w) (w_nxt w) gs = true -> guarded api ok tr w gs.
Proof.
  intros Hchk He.
  assert (Hat : ∀ d log m n gs' i e c k u, explore d tr log m n gs' = true -> gs' !! i = Some (Sec e c k, u) ->
    lfineb e c (calls log tr) (World m n u) = true /\
    ∀ new w', solo api c [] (World m n u) new w' -> ∃ d', explore d' tr ((i, new) :: log) (w_mem w') (w_nxt w') (<[i := (k new, w_usr w')]> gs') = true).
  { intros d1 log m n gs' i e c k u Hd Hi. assert (Hin : List.In i (seq 0 (length gs'))).
    { apply in_seq. pose proof (lookup_lt_Some _ _ _ Hi). lia. }
    destruct d1 as [|d1]; cbn [explore] in Hd; rewrite forallb_forall in Hd; specialize (Hd i Hin); rewrite Hi in Hd;
      apply andb_prop in Hd as [H1 H2]; (split; [exact H1|]); intros new w' Hs%soloe_ok; rewrite Hs in H2; [discriminate H2|by exists d1]. }
  assert (Hall : ∀ log m n gs', mturns api w gs log m n gs' -> ∃ d, explore d tr log m n gs' = true).
  { intros log m n gs' Ht. induction Ht as [|log m n gs' i e c k u new w' Ht [d1 IH] Hi Hs]; [by exists d|].
    destruct (Hat _ _ _ _ _ _ _ _ _ _ IH Hi) as [_ Hn]. by apply Hn. }
  intros log m n gs' Ht i e c k u Hi. destruct (Hall _ _ _ _ Ht) as [d1 Hd1].
  destruct (Hat _ _ _ _ _ _ _ _ _ _ Hd1 Hi) as [Hf _]. by eapply lfineb_ok.
Qed.
End explore.
Section sexplore.
Context {K CK U : Type} (api : setapi K unit CK U) (chk : list (sop K U * sres) -> sop K U -> bool).
Local Notation history := (list (sop K U * sres)).
Fixpoint ssoloe (c : sclient K U) (tr : history) (w : world unit CK U) : option (history * world unit CK U) :=
  match c with
  | SStop => Some (tr, w)
  | SDo c k => match scall api c w with Ret r w1 => ssoloe (k r) ((c, r) :: tr) w1 | _ => None end
  end.
Lemma ssoloe_ok c : ∀ tr w hist w', ssolo api c tr w hist w' -> ssoloe c tr w = Some (hist, w').
Proof.
  induction c as [|c k IH]; simpl; intros tr w hist w'; [by intros [-> ->]|]. intros (r & w1 & -> & Hs). by apply IH.
Qed.
Definition slooksb (c : sop K U) : bool :=
  match c with
  | SHas _ _ | SLen _ | SDep _ | SAll _ _ => true
  | _ => false
  end.
Fixpoint slfineb (e : bool) (c : sclient K U) (tr : history) (w : world unit CK U) : bool :=
  match c with
  | SStop => true
  | SDo c k => chk tr c && (e || slooksb c) &&
      match scall api c w with Ret r w' => slfineb e (k r) ((c, r) :: tr) w' | _ => true end
  end.
Lemma slfineb_ok (ok : history -> sop K U -> Prop) e c : (∀ tr op, chk tr op = true -> ok tr op) ->
  ∀ tr w, slfineb e c tr w = true -> slfine api ok e c tr w.
Proof.
  intros Hchk. induction c as [|c k IH]; intros tr w Hf; simpl in *; [done|].
  apply andb_prop in Hf as [[H1 H2]%andb_prop H3]. split_and!; [auto| |].
  - intros ->. simpl in H2. by destruct c.
  - intros r w' Hc. rewrite Hc in H3. by apply IH.
Qed.
Fixpoint sexplore (d : nat) (tr : history) (log : list (nat * history)) (m : gmap loc (block unit CK)) (n : loc)
    (gs : list (gor (sclient K U) history * U)) : bool :=
  forallb (λ i, match gs !! i with
    | Some (Sec e c k, u) => slfineb e c (scalls log tr) (World m n u) &&
        match ssoloe c [] (World m n u) with
        | Some (new, w') =>
            match d with
            | O => false
            | S d => sexplore d tr ((i, new) :: log) (w_mem w') (w_nxt w') (<[i := (k new, w_usr w')]> gs)
            end
        | None => true
        end
    | _ => true
    end) (seq 0 (length gs)).
Lemma sexplore_ok (ok : history -> sop K U -> Prop) d tr w gs : (∀ tr op, chk tr op = true -> ok tr op) ->
  sexplore d tr [] (w_mem w) (w_nxt w) gs = true -> sguarded api ok tr w gs.
Proof.
  intros Hchk He.
  assert (Hat : ∀ d log m n gs' i e c k u, sexplore d tr log m n gs' = true -> gs' !! i = Some (Sec e c k, u) ->
    slfineb e c (scalls log tr) (World m n u) = true /\
    ∀ new w', ssolo api c [] (World m n u) new w' -> ∃ d', sexplore d' tr ((i, new) :: log) (w_mem w') (w_nxt w') (<[i := (k new, w_usr w')]> gs') = true).
  { intros d1 log m n gs' i e c k u Hd Hi. assert (Hin : List.In i (seq 0 (length gs'))).
    { apply in_seq. pose proof (lookup_lt_Some _ _ _ Hi). lia. }
    destruct d1 as [|d1]; cbn [sexplore] in Hd; rewrite forallb_forall in Hd; specialize (Hd i Hin); rewrite Hi in Hd;
      apply andb_prop in Hd as [H1 H2]; (split; [exact H1|]); intros new w' Hs%ssoloe_ok; rewrite Hs in H2; [discriminate H2|by exists d1]. }
  assert (Hall : ∀ log m n gs', sturns api w gs log m n gs' -> ∃ d, sexplore d tr log m n gs' = true).
  { intros log m n gs' Ht. induction Ht as [|log m n gs' i e c k u new w' Ht [d1 IH] Hi Hs]; [by exists d|].
    destruct (Hat _ _ _ _ _ _ _ _ _ _ IH Hi) as [_ Hn]. by apply Hn. }
  intros log m n gs' Ht i e c k u Hi. destruct (Hall _ _ _ _ Ht) as [d1 Hd1].
  destruct (Hat _ _ _ _ _ _ _ _ _ _ Hd1 Hi) as [Hf _]. by eapply slfineb_ok.
Qed.
End sexplore.

(** Following a schedule: which goroutine does something next. *)
Section sched.
Context {V CK U X A : Type} (body : X -> prog V CK U A).
Definition lets_inb (C : lconfig V CK U X A) (e : bool) : bool :=
  forallb (λ t, match gr_st t with In e' _ _ => negb e && negb e' | Out _ => true end) (lc_gr C).
Lemma lets_inb_ok C e : lets_inb C e = true -> lets_in C e.
Proof.
  unfold lets_inb. rewrite forallb_forall. intros Hf j e' p k u Hj.
  specialize (Hf _ (proj1 (elem_of_list_In _ _) (elem_of_list_lookup_2 _ _ _ Hj))). simpl in Hf. by destruct e, e'.
Qed.
Definition act (C : lconfig V CK U X A) (i : nat) : lconfig V CK U X A :=
  match lc_gr C !! i with
  | Some (Gr (Out (Sec e x k)) u) =>
      if lets_inb C e then LConfig (lc_mem C) (lc_nxt C) (<[i := Gr (In e (body x) k) u]> (lc_gr C)) (lc_log C) else C
  | Some (Gr (In e (PRet a) k) u) => LConfig (lc_mem C) (lc_nxt C) (<[i := Gr (Out (k a)) u]> (lc_gr C)) ((i, a) :: lc_log C)
  | Some (Gr (In e p k) u) =>
      match next (lc_mem C) (Thread p (lc_nxt C) u) with
      | Some (m', Thread p' n' u') => LConfig m' n' (<[i := Gr (In e p' k) u']> (lc_gr C)) (lc_log C)
      | None => C
      end
  | _ => C
  end.
Lemma act_ok C i : rtc (lstep body) C (act C i).
Proof.
  unfold act. destruct (lc_gr C !! i) as [[[[|e x k]|e p k] u]|] eqn:E; [done| | |done].
  - destruct (lets_inb C e) eqn:El; [|done]. apply rtc_once. by eapply l_lock; [|apply lets_inb_ok].
  - assert (Hn : ∀ m' p' n' u', next (lc_mem C) (Thread p (lc_nxt C) u) = Some (m', Thread p' n' u') ->
      rtc (lstep body) C (LConfig m' n' (<[i := Gr (In e p' k) u']> (lc_gr C)) (lc_log C))).
    { intros m' p' n' u' Hn. apply rtc_once. by eapply l_access. }
    destruct p as [a| | | |l k1|l b k1|b k1|k1|u1 k1]; [apply rtc_once; by eapply l_unlock|done..| | | | |];
      (destruct (next _ _) as [[m' [p' n' u']]|]; [by apply Hn|done]).
Qed.
Lemma acts_ok is : ∀ C, rtc (lstep body) C (fold_left act is C).
Proof. induction is as [|i is IH]; intros C; simpl; [done|]. etrans; [apply act_ok|apply IH]. Qed.
End sched.

(** Three goroutines share map 2. The first one writes twice. The second one looks whether
    a key is in the map, and if so changes its value. The third one only reads. *)
Definition sharer0 : gor (client bytes N N) (list (mop bytes N N * mres N)) :=
  Sec true (Do (Op (MSet 2 [33]%N 5%N)) (λ _, Do (Op (MGet 2 [33]%N)) (λ _, Stop))) (λ _,
  Sec true (Do (Op (MDel 2 [17]%N)) (λ _, Stop)) (λ _, Quit)).
Definition sharer1 : gor (client bytes N N) (list (mop bytes N N * mres N)) :=
  Sec false (Do (Look 2 (λ u k v, (u + v, true)%N)) (λ _, Do (Op (MGet 2 [17]%N)) (λ _, Stop))) (λ h,
  match h with
  | (_, RGet v true) :: _ => Sec true (Do (Op (MSet 2 [17]%N (v + 1)%N)) (λ _, Stop)) (λ _, Quit)
  | _ => Quit
  end).
Definition sharer2 : gor (client bytes N N) (list (mop bytes N N * mres N)) :=
  Sec false (Do (Op (MLen 2)) (λ _, Do (Op (MVal 2 [1]%N)) (λ _, Stop))) (λ _, Quit).
Definition sharers := [(sharer0, 0%N); (sharer1, 100%N); (sharer2, 0%N)].
(** Two goroutines are reading at the same time. *)
Definition readers {V CK U X A} (C : lconfig V CK U X A) : list nat :=
  List.filter (λ i, match lc_gr C !! i with Some (Gr (In false (PRead _ _) _) _) => true | _ => false end) (seq 0 (length (lc_gr C))).
Lemma sharers_guarded : guarded toyapi toyok crewtrw.1 crewtrw.2 sharers.
Proof. eapply (explore_ok _ _ _ 5); [exact toychk_ok|vm_compute; reflexivity]. Qed.

Example C52_nonvacuous :
  map_type 0%N 256 toyapi (digit toy) toyok /\ pmap_type 0%N 256 (PStringMap_api toy 0%N 256) toyapi /\
  mrun toyapi toyok 0%N crewtrw.1 crewtrw.2 /\ guarded toyapi toyok crewtrw.1 crewtrw.2 sharers /\
  ∃ C C', rtc (lstep (msec (PStringMap_api toy 0%N 256))) (lbegin crewtrw.2 sharers) C /\ readers C = [1; 2] /\
    rtc (lstep (msec (PStringMap_api toy 0%N 256))) C C' /\
    map (λ x : nat * list (mop bytes N N * mres N), (x.1, x.2.*2)) (lc_log C') =
      [(0, [RUnit]); (1, [RUnit]); (0, [RGet 5%N true; RUnit]); (1, [RGet 30%N true; RUnit]); (2, [RVal 10%N; RLen 2])].
Proof.
  split; [exact toy_type|]. split; [apply pt_StringMap|]. split; [exact crew_run|]. split; [exact sharers_guarded|].
  eexists _, _. split; [apply (acts_ok _ [1; 2; 1; 2])|]. split; [vm_compute; reflexivity|].
  split; [apply (acts_ok _ (concat (repeat [1; 2; 0; 0; 1] 800)))|]. vm_compute. reflexivity.
Qed.

(** Sets: set 2 is shared. *)
Definition ssharer0 : gor (sclient bytes (list bytes)) (list (sop bytes (list bytes) * sres)) :=
  Sec true (SDo (SAdd 2 [33]%N) (λ _, SDo (SHas 2 [33]%N) (λ _, SStop))) (λ _,
  Sec true (SDo (SDel 2 [17]%N) (λ _, SStop)) (λ _, Quit)).
Definition ssharer1 : gor (sclient bytes (list bytes)) (list (sop bytes (list bytes) * sres)) :=
  Sec false (SDo (SAll 2 (λ u k, (k :: u, true))) (λ _, SDo (SHas 2 [33]%N) (λ _, SStop))) (λ h,
  match h with
  | (_, THas false) :: _ => Sec true (SDo (SAdd 2 [2]%N) (λ _, SStop)) (λ _, Quit)
  | _ => Quit
  end).
Definition ssharer2 : gor (sclient bytes (list bytes)) (list (sop bytes (list bytes) * sres)) :=
  Sec false (SDo (SLen 2) (λ _, SDo (SHas 2 [1]%N) (λ _, SStop))) (λ _, Quit).
Definition ssharers := [(ssharer0, []); (ssharer1, [[5]%N]); (ssharer2, [])].
Lemma ssharers_guarded : sguarded toysapi toysok screwtrw.1 screwtrw.2 ssharers.
Proof. eapply (sexplore_ok _ _ _ 5); [exact toyschk_ok|vm_compute; reflexivity]. Qed.
Example C52_set_nonvacuous :
  set_type 256 toysapi (digit toy) toysok /\ pset_type 256 (PStringSet_api toy 256) toysapi /\
  srun toysapi toysok [] screwtrw.1 screwtrw.2 /\ sguarded toysapi toysok screwtrw.1 screwtrw.2 ssharers /\
  ∃ C C', rtc (lstep (ssec (PStringSet_api toy 256))) (lbegin screwtrw.2 ssharers) C /\ readers C = [1; 2] /\
    rtc (lstep (ssec (PStringSet_api toy 256))) C C' /\
    map (λ x : nat * list (sop bytes (list bytes) * sres), (x.1, x.2.*2)) (lc_log C') =
      [(0, [TUnit]); (0, [THas true; TUnit]); (1, [TUnit]); (1, [THas false; TUnit]); (2, [THas true; TLen 2])].
Proof.
  split; [exact toys_type|]. split; [apply pt_StringSet|]. split.
  { unfold screwtrw. destruct (sexec toysapi toyschk [] (empty_world []) screwops) as [[tr w]|] eqn:E.
    - simpl. eapply sexec_run; [exact toyschk_ok|constructor|exact E].
    - constructor. }
  split; [exact ssharers_guarded|].
  eexists _, _. split; [apply (acts_ok _ [1; 2; 1; 2])|]. split; [vm_compute; reflexivity|].
  split; [apply (acts_ok _ (concat (repeat [1; 2; 0; 0; 1] 800)))|]. vm_compute. reflexivity.
Qed.
Print Assumptions C52_nonvacuous.
Print Assumptions C52_set_nonvacuous.

(** ** A lock for reading is not enough for Del, also if the key is not in the map *)
Definition deleter (k : bytes) : gor (client bytes N N) (list (mop bytes N N * mres N)) := Sec false (once (MDel 2 k)) (λ _, Quit).
Definition lraceb {V CK U X A} (C : lconfig V CK U X A) : bool :=
  match lc_gr C !! 0, lc_gr C !! 1 with
  | Some (Gr (In _ p _) u), Some (Gr (In _ p' _) u') =>
      match access (Thread p (lc_nxt C) u), access (Thread p' (lc_nxt C) u') with
      | Some (l, true), Some (l', true) => Pos.eqb l l'
      | _, _ => false
      end
  | _, _ => false
  end.
Lemma lraceb_ok {V CK U X A} (C : lconfig V CK U X A) : lraceb C = true -> lrace C.
Proof.
  unfold lraceb. intros Hc. destruct (lc_gr C !! 0) as [[[g|e p k] u]|] eqn:E0; try discriminate Hc.
  destruct (lc_gr C !! 1) as [[[g|e' p' k'] u']|] eqn:E1; try discriminate Hc.
  destruct (access (Thread p _ _)) as [[l []]|] eqn:A0; try discriminate Hc.
  destruct (access (Thread p' _ _)) as [[l' []]|] eqn:A1; try discriminate Hc. apply Pos.eqb_eq in Hc as <-.
  exists 0, 1, e, e', p, p', k, k', u, u', l, true, true. split_and!; [done|exact E0|exact E1|exact A0|exact A1|by left].
Qed.
Theorem C52_Del_needs_Lock : ([33]%N : bytes) ∉ stored crewtrw.1 2 /\ ([2]%N : bytes) ∉ stored crewtrw.1 2 /\
  ∃ C, rtc (lstep (msec (PStringMap_api toy 0%N 256))) (lbegin crewtrw.2 [(deleter [33]%N, 0%N); (deleter [2]%N, 0%N)]) C /\ lrace C.
Proof.
  split; [apply not_stored; vm_compute; reflexivity|]. split; [apply not_stored; vm_compute; reflexivity|].
  eexists. split; [apply (acts_ok _ (repeat 0 5 ++ repeat 1 5))|]. apply lraceb_ok. vm_compute. reflexivity.
Qed.
Print Assumptions C52_Del_needs_Lock.
