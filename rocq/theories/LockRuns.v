(** Maps and sets behind a readers-writer lock (LockSpec.v). *)
From stdpp Require Import base numbers list gmap relations.
From Verif Require Import GoInt Mem Hash Prog PAmt PFam ProgSim Amt Families BitsFacts Steps Tree Rep Paths Descend Insert Split Delete Remove Core Scan Order Heap Spec SpecFacts HashFacts Client Types Refine RefineSet Instances Pack Runs Guards PClient ConcSpec Conc ReadOnly ConcClient ForkSpec Knows ConcMap ConcMapAll LockSpec Lock.
Local Open Scope nat_scope.

Lemma turns_iff {V CK U X A} (s1 s2 : X -> world V CK U -> A -> world V CK U -> Prop) w gs log m n gs' :
  (∀ x w a w', s1 x w a w' -> s2 x w a w') -> turns s1 w gs log m n gs' -> turns s2 w gs log m n gs'.
Proof. intros Hs. induction 1; [constructor|]. econstructor; eauto. Qed.

(** ** Maps *)
Section map.
Context `{Countable K} {V CK U : Type} (zero : V) (fuel : nat) (api : mapapi K V CK U) (papi : pmapapi K V CK U)
  (dig : N -> K -> nat -> N) (ok : list (mop K V U * mres V) -> mop K V U -> Prop) (u0 : U).
Local Notation mstate := (mstate K V U).
Local Notation history := (list (mop K V U * mres V)).
Local Notation world := (world V CK U).
Definition as_user (σ : mstate) (u : U) : mstate := MState (ms_map σ) (ms_val σ) u.

Lemma knows_user (tr : history) (σ : mstate) u : knows tr σ -> knows tr (as_user σ u).
Proof. intros [H1 H2 H3 H4 H5 H6]. split; [destruct H1; by split|exact H2|exact H3|exact H4|exact H5|exact H6]. Qed.

(** A relation between worlds and plain maps that survives the calls. *)
Record keeps (R : world -> mstate -> Prop) : Prop := Keeps {
  kp_init : R (empty_world u0) (minit u0);
  kp_step : ∀ tr w σ op, knows tr σ -> R w σ -> ok tr op ->
    ∃ r w' σ', mcall api op w = Ret r w' /\ mstep dig zero σ op r σ' /\ R w' σ';
  kp_user : ∀ m n u σ u', R (World m n u) σ -> R (World m n u') (as_user σ u');
  kp_below : ∀ w σ l, R w σ -> is_Some (w_mem w !! l) -> (l < w_nxt w)%positive;
  kp_usr : ∀ w σ, R w σ -> ms_usr σ = w_usr w }.
Lemma map_keeps : 256 <= fuel -> map_type zero fuel api dig ok -> ∃ R, keeps R.
Proof.
  intros Hfuel Ht.
  destruct (map_pack zero fuel api dig ok Ht) as [HS F FS FM L Q sop mdop vs WS WM HF HL Hcell Hdig HFS HFM HWS HWM Hvs Hsop Hmop Hearly HSet HMod HDel HGet HVal HPtr HAll Hok _].
  exists (Refine.Rel F L Q). split.
  - apply Refine.Rel_init.
  - intros tr w σ op Hk HR Ho. destruct (Hok _ _ Ho) as [Ha Hg].
    apply (Refine.step_ok F L Q HF HL Hcell zero fuel Hfuel dig Hdig FS FM sop mdop vs WS WM
        HFS HFM HWS HWM Hvs Hsop Hmop api HSet HMod HDel HGet HVal HPtr HAll w σ op HR). eapply knows_can; eassumption.
  - intros m n u σ u' (G & HI & Hm & Hv & Hu). exists G. split_and!; try done. by apply (Inv_usr _ _ _ _ (World m n u)).
  - intros w σ l (G & HI & _) [b Hb]. by eapply (in_ok _ _ _ _ _ _ HI).
  - intros w σ (G & _ & _ & _ & Hu). done.
Qed.

Variable R : world -> mstate -> Prop.
Hypothesis HK : keeps R.
Hypothesis Hsim : ∀ c, sim (pmcall papi c) (mcall api (the_op c)).
Hypothesis Hreads : ∀ c, looks c -> readonly (pmcall papi c).

Lemma mrun_knows tr w : mrun api ok u0 tr w -> ∃ σ, mspec dig zero u0 tr σ /\ knows tr σ /\ R w σ.
Proof.
  induction 1 as [|tr w op res w' Hr (σ & Hs & Hk & HR) Ho Hc].
  - exists (minit u0). split_and!; [constructor|apply knows_nil|apply HK].
  - destruct (kp_step _ HK _ _ _ _ Hk HR Ho) as (r & w1 & σ' & Hc' & Hst & HR'). rewrite Hc in Hc'. injection Hc' as <- <-.
    exists σ'. split_and!; [by econstructor|by eapply knows_step|done].
Qed.

Lemma solo_run c : ∀ acc w new w', solo api c acc w new w' <-> run (accesses papi c acc) w = Ret new w'.
Proof.
  induction c as [|c k IH]; intros acc w new w'; simpl.
  - split; [by intros [-> ->]|by intros [= -> ->]].
  - rewrite run_bind. unfold Mem.bind. rewrite (Hsim c w). split.
    + intros (r & w1 & -> & Hs). by apply IH.
    + destruct (mcall api (the_op c) w) as [r w1| | |] eqn:E; try done. intros Hr. exists r, w1. split; [done|]. by apply IH.
Qed.

Lemma section_ok tr e σ0 c : ∀ acc w σ, msteps dig zero σ0 acc σ -> knows (acc ++ tr) σ -> R w σ -> lfine api ok e c (acc ++ tr) w ->
  (∃ new w' σ', run (accesses papi c acc) w = Ret new w' /\ msteps dig zero σ0 new σ' /\ knows (new ++ tr) σ' /\ R w' σ') /\
  (e = false -> calm (accesses papi c acc) w).
Proof.
  induction c as [|c k IH]; intros acc w σ Hs Hk HR Hf; simpl in *.
  - split; [|done]. exists acc, w, σ. done.
  - destruct Hf as (Ho & Hl & Hf). destruct (kp_step _ HK _ _ _ _ Hk HR Ho) as (r & w1 & σ1 & Hc & Hst & HR1).
    destruct (IH r ((the_op c, r) :: acc) w1 σ1) as [(new & w' & σ' & H1 & H2 & H3 & H4) Hcalm].
    + by econstructor.
    + by eapply knows_step.
    + done.
    + by apply Hf.
    + split.
      * exists new, w', σ'. split_and!; try done. rewrite run_bind. unfold Mem.bind. by rewrite (Hsim c w), Hc.
      * intros He. apply calm_bind; [apply readonly_calm; auto|]. intros a w2 Hr. rewrite (Hsim c w), Hc in Hr.
        injection Hr as <- <-. auto.
Qed.

Variables (tr : history) (w : world) (gs : list (gor (client K V U) history * U)) (σ0 : mstate).
Hypothesis (Hk0 : knows tr σ0) (HR0 : R w σ0) (Hg : guarded api ok tr w gs).

Lemma turns_ok log m n gs' : mturns api w gs log m n gs' -> ∃ σ, lspec dig zero σ0 (map snd gs) log (map snd gs') σ /\
  knows (calls log tr) σ /\ R (World m n (ms_usr σ)) σ.
Proof.
  intros Ht. induction Ht as [|log m n gs' i e c k u new w' Ht (σ & Hs & Hk & HR) Hi Hso].
  - exists σ0. split_and!; [constructor|done|]. rewrite (kp_usr _ HK _ _ HR0). by destruct w.
  - pose proof (Hg _ _ _ _ Ht _ _ _ _ _ Hi) as Hf.
    destruct (section_ok (calls log tr) e (as_user σ u) c [] (World m n u) (as_user σ u)) as [(new' & w1 & σ' & H1 & H2 & H3 & H4) _].
    + constructor.
    + by apply knows_user.
    + by eapply kp_user.
    + done.
    + apply solo_run in Hso. rewrite Hso in H1. injection H1 as <- <-. exists σ'. split_and!.
      * pose proof (kp_usr _ HK _ _ H4) as Hu.
        change (map snd (<[i := (k new, w_usr w')]> gs')) with (snd <$> <[i := (k new, w_usr w')]> gs'). rewrite list_fmap_insert. simpl. rewrite <- Hu.
        eapply lspec_one; [exact Hs| |exact H2]. change (map snd gs') with (snd <$> gs'). by rewrite list_lookup_fmap, Hi.
      * unfold calls. simpl. by rewrite <- app_assoc.
      * rewrite (kp_usr _ HK _ _ H4). by destruct w'.
Qed.
Lemma lock_safe log m n gs' : turns (λ x w a w', run (msec papi x) w = Ret a w') w gs log m n gs' ->
  ∀ i e c k u, gs' !! i = Some (Sec e c k, u) ->
  (∃ a w', run (msec papi c) (World m n u) = Ret a w') /\ (e = false -> calm (msec papi c) (World m n u)).
Proof.
  intros Ht i e c k u Hi.
  assert (Ht' : mturns api w gs log m n gs') by (eapply turns_iff; [|exact Ht]; intros; by apply solo_run).
  destruct (turns_ok _ _ _ _ Ht') as (σ & Hs & Hk & HR).
  destruct (section_ok (calls log tr) e (as_user σ u) c [] (World m n u) (as_user σ u)) as [(new & w1 & σ' & H1 & _) Hc].
  - constructor.
  - by apply knows_user.
  - by eapply kp_user.
  - by eapply Hg.
  - split; [by exists new, w1|done].
Qed.

Lemma lock_ok C : rtc (lstep (msec papi)) (lbegin w gs) C ->
  ¬ lrace C /\
  (∀ i e p k u, lc_gr C !! i = Some (Gr (In e p k) u) -> goes_on C p u) /\
  ∃ m n gs' σ, mturns api w gs (lc_log C) m n gs' /\ lspec dig zero σ0 (map snd gs) (lc_log C) (map snd gs') σ /\
    (∀ i g u, lc_gr C !! i = Some (Gr (Out g) u) -> gs' !! i = Some (g, u)) /\
    ((∀ i p k u, lc_gr C !! i ≠ Some (Gr (In true p k) u)) -> lc_mem C = m /\ lc_nxt C = n /\
      ∀ op u, ok (calls (lc_log C) tr) op -> ∃ r w' σ', mcall api op (World m n u) = Ret r w' /\
        mstep dig zero (MState (ms_map σ) (ms_val σ) u) op r σ').
Proof.
  intros HC. assert (Hb : ∀ l, is_Some (w_mem w !! l) -> (l < w_nxt w)%positive) by (intros l; by eapply kp_below).
  destruct (linv_steps (msec papi) w gs lock_safe Hb C HC) as (m & n & gs' & HI). split_and!.
  - by eapply linv_no_race.
  - intros i e p k u Hi. eapply linv_goes_on; [exact lock_safe|exact HI|exact Hi].
  - destruct HI as [H1 H2 H3 H4 H5 H6].
    assert (Ht' : mturns api w gs (lc_log C) m n gs') by (eapply turns_iff; [|exact H1]; intros; by apply solo_run).
    destruct (turns_ok _ _ _ _ Ht') as (σ & Hs & Hk & HR). exists m, n, gs', σ. split_and!; [done|done| |].
    + intros i g u Hi. destruct (H2 _ _ Hi) as (g' & Hg' & Hf). cbn in Hf. by subst g'.
    + intros Hno. destruct (H4 Hno) as [-> ->]. split_and!; [done|done|]. intros op u Ho.
      destruct (kp_step _ HK _ _ _ _ (knows_user _ _ u Hk) (kp_user _ HK _ _ _ _ u HR) Ho) as (r & w' & σ' & Hc & Hst & _). eauto.
Qed.
Lemma lock_ends C : rtc (lstep (msec papi)) (lbegin w gs) C ->
  ∃ C', rtc (lstep (msec papi)) C C' /\ ∀ i t, lc_gr C' !! i = Some t -> ∃ g, gr_st t = Out g.
Proof.
  intros HC. eapply all_leave; [exact lock_safe| |exact HC]. intros l. by eapply kp_below.
Qed.
End map.

(** ** Sets *)
Section set.
Context `{Countable K} {CK U : Type} (fuel : nat) (api : setapi K unit CK U) (papi : psetapi K unit CK U)
  (dig : N -> K -> nat -> N) (ok : list (sop K U * sres) -> sop K U -> Prop) (u0 : U).
Local Notation sstate := (sstate K U).
Local Notation history := (list (sop K U * sres)).
Local Notation world := (world unit CK U).
Definition sas_user (σ : sstate) (u : U) : sstate := SState (ss_set σ) u.

Lemma sknows_user (tr : history) (σ : sstate) u : sknows tr σ -> sknows tr (sas_user σ u).
Proof. intros [H1 H2 H3]. split; [exact H1|exact H2|exact H3]. Qed.

(** A relation between worlds and plain sets that survives the calls. *)
Record skeeps (R : world -> sstate -> Prop) : Prop := SKeeps {
  skp_init : R (empty_world u0) (sinit u0);
  skp_step : ∀ tr w σ op, sknows tr σ -> R w σ -> ok tr op ->
    ∃ r w' σ', scall api op w = Ret r w' /\ sstep dig σ op r σ' /\ R w' σ';
  skp_user : ∀ m n u σ u', R (World m n u) σ -> R (World m n u') (sas_user σ u');
  skp_below : ∀ w σ l, R w σ -> is_Some (w_mem w !! l) -> (l < w_nxt w)%positive;
  skp_usr : ∀ w σ, R w σ -> ss_usr σ = w_usr w }.
Lemma set_keeps : 256 <= fuel -> set_type fuel api dig ok -> ∃ R, skeeps R.
Proof.
  intros Hfuel Ht.
  destruct (set_pack fuel api dig ok Ht) as [HS F FA L Q aop W dfull HF HL Hdig HFA HW Haop HAdd HDel HHas HAll Hok].
  exists (RefineSet.Rel F L Q). split.
  - apply RefineSet.Rel_init.
  - intros tr w σ op Hk HR Ho. destruct (Hok _ _ Ho) as [Ha Hg].
    apply (RefineSet.step_ok F L Q HF HL fuel Hfuel dig Hdig FA aop W dfull tt HFA HW Haop api HAdd HDel HHas HAll w σ op HR).
    eapply sknows_can; eassumption.
  - intros m n u σ u' (G & HI & Hm & Hu). exists G. split_and!; try done. by apply (Inv_usr _ _ _ _ (World m n u)).
  - intros w σ l (G & HI & _) [b Hb]. by eapply (in_ok _ _ _ _ _ _ HI).
  - intros w σ (G & _ & _ & Hu). done.
Qed.

Variable R : world -> sstate -> Prop.
Hypothesis HK : skeeps R.
Hypothesis Hsim : ∀ c, sim (pscall papi c) (scall api c).
Hypothesis Hreads : ∀ c, slooks c -> readonly (pscall papi c).

Lemma srun_sknows tr w : srun api ok u0 tr w -> ∃ σ, sspec dig u0 tr σ /\ sknows tr σ /\ R w σ.
Proof.
  induction 1 as [|tr w op res w' Hr (σ & Hs & Hk & HR) Ho Hc].
  - exists (sinit u0). split_and!; [constructor|apply sknows_nil|apply HK].
  - destruct (skp_step _ HK _ _ _ _ Hk HR Ho) as (r & w1 & σ' & Hc' & Hst & HR'). rewrite Hc in Hc'. injection Hc' as <- <-.
    exists σ'. split_and!; [by econstructor|by eapply sknows_step|done].
Qed.

Lemma ssolo_run c : ∀ acc w new w', ssolo api c acc w new w' <-> run (saccesses papi c acc) w = Ret new w'.
Proof.
  induction c as [|c k IH]; intros acc w new w'; simpl.
  - split; [by intros [-> ->]|by intros [= -> ->]].
  - rewrite run_bind. unfold Mem.bind. rewrite (Hsim c w). split.
    + intros (r & w1 & -> & Hs). by apply IH.
    + destruct (scall api c w) as [r w1| | |] eqn:E; try done. intros Hr. exists r, w1. split; [done|]. by apply IH.
Qed.

Lemma ssection_ok tr e σ0 c : ∀ acc w σ, ssteps dig σ0 acc σ -> sknows (acc ++ tr) σ -> R w σ -> slfine api ok e c (acc ++ tr) w ->
  (∃ new w' σ', run (saccesses papi c acc) w = Ret new w' /\ ssteps dig σ0 new σ' /\ sknows (new ++ tr) σ' /\ R w' σ') /\
  (e = false -> calm (saccesses papi c acc) w).
Proof.
  induction c as [|c k IH]; intros acc w σ Hs Hk HR Hf; simpl in *.
  - split; [|done]. exists acc, w, σ. done.
  - destruct Hf as (Ho & Hl & Hf). destruct (skp_step _ HK _ _ _ _ Hk HR Ho) as (r & w1 & σ1 & Hc & Hst & HR1).
    destruct (IH r ((c, r) :: acc) w1 σ1) as [(new & w' & σ' & H1 & H2 & H3 & H4) Hcalm].
    + by econstructor.
    + by eapply sknows_step.
    + done.
    + by apply Hf.
    + split.
      * exists new, w', σ'. split_and!; try done. rewrite run_bind. unfold Mem.bind. by rewrite (Hsim c w), Hc.
      * intros He. apply calm_bind; [apply readonly_calm; auto|]. intros a w2 Hr. rewrite (Hsim c w), Hc in Hr.
        injection Hr as <- <-. auto.
Qed.

Variables (tr : history) (w : world) (gs : list (gor (sclient K U) history * U)) (σ0 : sstate).
Hypothesis (Hk0 : sknows tr σ0) (HR0 : R w σ0) (Hg : sguarded api ok tr w gs).

Lemma sturns_ok log m n gs' : sturns api w gs log m n gs' -> ∃ σ, slspec dig σ0 (map snd gs) log (map snd gs') σ /\
  sknows (scalls log tr) σ /\ R (World m n (ss_usr σ)) σ.
Proof.
  intros Ht. induction Ht as [|log m n gs' i e c k u new w' Ht (σ & Hs & Hk & HR) Hi Hso].
  - exists σ0. split_and!; [constructor|done|]. rewrite (skp_usr _ HK _ _ HR0). by destruct w.
  - pose proof (Hg _ _ _ _ Ht _ _ _ _ _ Hi) as Hf.
    destruct (ssection_ok (scalls log tr) e (sas_user σ u) c [] (World m n u) (sas_user σ u)) as [(new' & w1 & σ' & H1 & H2 & H3 & H4) _].
    + constructor.
    + by apply sknows_user.
    + by eapply skp_user.
    + done.
    + apply ssolo_run in Hso. rewrite Hso in H1. injection H1 as <- <-. exists σ'. split_and!.
      * pose proof (skp_usr _ HK _ _ H4) as Hu.
        change (map snd (<[i := (k new, w_usr w')]> gs')) with (snd <$> <[i := (k new, w_usr w')]> gs'). rewrite list_fmap_insert. simpl. rewrite <- Hu.
        eapply slspec_one; [exact Hs| |exact H2]. change (map snd gs') with (snd <$> gs'). by rewrite list_lookup_fmap, Hi.
      * unfold scalls. simpl. by rewrite <- app_assoc.
      * rewrite (skp_usr _ HK _ _ H4). by destruct w'.
Qed.
Lemma slock_safe log m n gs' : turns (λ x w a w', run (ssec papi x) w = Ret a w') w gs log m n gs' ->
  ∀ i e c k u, gs' !! i = Some (Sec e c k, u) ->
  (∃ a w', run (ssec papi c) (World m n u) = Ret a w') /\ (e = false -> calm (ssec papi c) (World m n u)).
Proof.
  intros Ht i e c k u Hi.
  assert (Ht' : sturns api w gs log m n gs') by (eapply turns_iff; [|exact Ht]; intros; by apply ssolo_run).
  destruct (sturns_ok _ _ _ _ Ht') as (σ & Hs & Hk & HR).
  destruct (ssection_ok (scalls log tr) e (sas_user σ u) c [] (World m n u) (sas_user σ u)) as [(new & w1 & σ' & H1 & _) Hc].
  - constructor.
  - by apply sknows_user.
  - by eapply skp_user.
  - by eapply Hg.
  - split; [by exists new, w1|done].
Qed.

Lemma slock_ok C : rtc (lstep (ssec papi)) (lbegin w gs) C ->
  ¬ lrace C /\
  (∀ i e p k u, lc_gr C !! i = Some (Gr (In e p k) u) -> goes_on C p u) /\
  ∃ m n gs' σ, sturns api w gs (lc_log C) m n gs' /\ slspec dig σ0 (map snd gs) (lc_log C) (map snd gs') σ /\
    (∀ i g u, lc_gr C !! i = Some (Gr (Out g) u) -> gs' !! i = Some (g, u)) /\
    ((∀ i p k u, lc_gr C !! i ≠ Some (Gr (In true p k) u)) -> lc_mem C = m /\ lc_nxt C = n /\
      ∀ op u, ok (scalls (lc_log C) tr) op -> ∃ r w' σ', scall api op (World m n u) = Ret r w' /\
        sstep dig (SState (ss_set σ) u) op r σ').
Proof.
  intros HC. assert (Hb : ∀ l, is_Some (w_mem w !! l) -> (l < w_nxt w)%positive) by (intros l; by eapply skp_below).
  destruct (linv_steps (ssec papi) w gs slock_safe Hb C HC) as (m & n & gs' & HI). split_and!.
  - by eapply linv_no_race.
  - intros i e p k u Hi. eapply linv_goes_on; [exact slock_safe|exact HI|exact Hi].
  - destruct HI as [H1 H2 H3 H4 H5 H6].
    assert (Ht' : sturns api w gs (lc_log C) m n gs') by (eapply turns_iff; [|exact H1]; intros; by apply ssolo_run).
    destruct (sturns_ok _ _ _ _ Ht') as (σ & Hs & Hk & HR). exists m, n, gs', σ. split_and!; [done|done| |].
    + intros i g u Hi. destruct (H2 _ _ Hi) as (g' & Hg' & Hf). cbn in Hf. by subst g'.
    + intros Hno. destruct (H4 Hno) as [-> ->]. split_and!; [done|done|]. intros op u Ho.
      destruct (skp_step _ HK _ _ _ _ (sknows_user _ _ u Hk) (skp_user _ HK _ _ _ _ u HR) Ho) as (r & w' & σ' & Hc & Hst & _). eauto.
Qed.
Lemma slock_ends C : rtc (lstep (ssec papi)) (lbegin w gs) C ->
  ∃ C', rtc (lstep (ssec papi)) C C' /\ ∀ i t, lc_gr C' !! i = Some t -> ∃ g, gr_st t = Out g.
Proof.
  intros HC. eapply all_leave; [exact slock_safe| |exact HC]. intros l. by eapply skp_below.
Qed.
End set.

(** ** The types *)
Lemma out_lets_in {V CK U X A} (C : lconfig V CK U X A) : (∀ i t, lc_gr C !! i = Some t -> ∃ g, gr_st t = Out g) -> ∀ e, lets_in C e.
Proof. intros Ho e j e' p k u Hj. by destruct (Ho _ _ Hj). Qed.
Section types.
Context `{Countable K} {V CK U : Type} (zero : V) (fuel : nat) (api : mapapi K V CK U) (papi : pmapapi K V CK U)
  (dig : N -> K -> nat -> N) (ok : list (mop K V U * mres V) -> mop K V U -> Prop) (u0 : U) (Hfuel : 256 <= fuel)
  (Ht : map_type zero fuel api dig ok) (Hpt : pmap_type zero fuel papi api).
Lemma map_sims c : sim (pmcall papi c) (mcall api (the_op c)).
Proof. by apply sim_mcall, (pmap_type_sim zero fuel). Qed.
Lemma map_looks c : looks c -> readonly (pmcall papi c).
Proof. intros Hc. apply ro_mcall; [by eapply pmap_type_reads|done]. Qed.
Theorem map_lock tr w gs : mrun api ok u0 tr w -> guarded api ok tr w gs ->
  ∃ σ0, mspec dig zero u0 tr σ0 /\
  ∀ C, rtc (lstep (msec papi)) (lbegin w gs) C ->
  ¬ lrace C /\
  (∀ i e p k u, lc_gr C !! i = Some (Gr (In e p k) u) -> goes_on C p u) /\
  ∃ m n gs' σ, mturns api w gs (lc_log C) m n gs' /\ lspec dig zero σ0 (map snd gs) (lc_log C) (map snd gs') σ /\
    (∀ i g u, lc_gr C !! i = Some (Gr (Out g) u) -> gs' !! i = Some (g, u)) /\
    ((∀ i p k u, lc_gr C !! i ≠ Some (Gr (In true p k) u)) -> lc_mem C = m /\ lc_nxt C = n /\
      ∀ op u, ok (calls (lc_log C) tr) op -> ∃ r w' σ', mcall api op (World m n u) = Ret r w' /\
        mstep dig zero (MState (ms_map σ) (ms_val σ) u) op r σ').
Proof.
  intros Hr Hg. destruct (map_keeps zero fuel api dig ok u0 Hfuel Ht) as [R HK].
  destruct (mrun_knows zero api dig ok u0 R HK tr w Hr) as (σ0 & Hs & Hk & HR). exists σ0. split; [done|]. intros C HC.
  exact (lock_ok zero api papi dig ok u0 R HK map_sims map_looks tr w gs σ0 Hk HR Hg C HC).
Qed.
Theorem map_unlock tr w gs : mrun api ok u0 tr w -> guarded api ok tr w gs ->
  ∀ C, rtc (lstep (msec papi)) (lbegin w gs) C ->
  ∃ C', rtc (lstep (msec papi)) C C' /\ (∀ i t, lc_gr C' !! i = Some t -> ∃ g, gr_st t = Out g) /\ ∀ e, lets_in C' e.
Proof.
  intros Hr Hg C HC. destruct (map_keeps zero fuel api dig ok u0 Hfuel Ht) as [R HK].
  destruct (mrun_knows zero api dig ok u0 R HK tr w Hr) as (σ0 & Hs & Hk & HR).
  destruct (lock_ends zero api papi dig ok u0 R HK map_sims map_looks tr w gs σ0 Hk HR Hg C HC) as (C' & HC' & Ho).
  exists C'. split_and!; [done|done|by apply out_lets_in].
Qed.
End types.
Section stypes.
Context `{Countable K} {CK U : Type} (fuel : nat) (api : setapi K unit CK U) (papi : psetapi K unit CK U)
  (dig : N -> K -> nat -> N) (ok : list (sop K U * sres) -> sop K U -> Prop) (u0 : U) (Hfuel : 256 <= fuel)
  (Ht : set_type fuel api dig ok) (Hpt : pset_type fuel papi api).
Lemma set_sims c : sim (pscall papi c) (scall api c).
Proof. by apply sim_scall, (pset_type_sim fuel). Qed.
Lemma set_looks c : slooks c -> readonly (pscall papi c).
Proof. intros Hc. apply ro_scall; [by eapply pset_type_reads|done]. Qed.
Theorem set_lock tr w gs : srun api ok u0 tr w -> sguarded api ok tr w gs ->
  ∃ σ0, sspec dig u0 tr σ0 /\
  ∀ C, rtc (lstep (ssec papi)) (lbegin w gs) C ->
  ¬ lrace C /\
  (∀ i e p k u, lc_gr C !! i = Some (Gr (In e p k) u) -> goes_on C p u) /\
  ∃ m n gs' σ, sturns api w gs (lc_log C) m n gs' /\ slspec dig σ0 (map snd gs) (lc_log C) (map snd gs') σ /\
    (∀ i g u, lc_gr C !! i = Some (Gr (Out g) u) -> gs' !! i = Some (g, u)) /\
    ((∀ i p k u, lc_gr C !! i ≠ Some (Gr (In true p k) u)) -> lc_mem C = m /\ lc_nxt C = n /\
      ∀ op u, ok (scalls (lc_log C) tr) op -> ∃ r w' σ', scall api op (World m n u) = Ret r w' /\
        sstep dig (SState (ss_set σ) u) op r σ').
Proof.
  intros Hr Hg. destruct (set_keeps fuel api dig ok u0 Hfuel Ht) as [R HK].
  destruct (srun_sknows api dig ok u0 R HK tr w Hr) as (σ0 & Hs & Hk & HR). exists σ0. split; [done|]. intros C HC.
  exact (slock_ok api papi dig ok u0 R HK set_sims set_looks tr w gs σ0 Hk HR Hg C HC).
Qed.
Theorem set_unlock tr w gs : srun api ok u0 tr w -> sguarded api ok tr w gs ->
  ∀ C, rtc (lstep (ssec papi)) (lbegin w gs) C ->
  ∃ C', rtc (lstep (ssec papi)) C C' /\ (∀ i t, lc_gr C' !! i = Some t -> ∃ g, gr_st t = Out g) /\ ∀ e, lets_in C' e.
Proof.
  intros Hr Hg C HC. destruct (set_keeps fuel api dig ok u0 Hfuel Ht) as [R HK].
  destruct (srun_sknows api dig ok u0 R HK tr w Hr) as (σ0 & Hs & Hk & HR).
  destruct (slock_ends api papi dig ok u0 R HK set_sims set_looks tr w gs σ0 Hk HR Hg C HC) as (C' & HC' & Ho).
  exists C'. split_and!; [done|done|by apply out_lets_in].
Qed.
End stypes.
