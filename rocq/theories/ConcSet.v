(** Goroutines that use sets: every call stays within the memory of the goroutine and the
    sets that all of them only read. *)
From stdpp Require Import base numbers list gmap relations.
From Verif Require Import GoInt Mem Hash Amt Families BitsFacts Steps Tree Rep Paths Descend Insert Split Delete Remove Core Scan Order Heap Spec SpecFacts Guards HashFacts Client Types Refine RefineSet Instances Pack.
From Verif Require Import Prog PClient ConcSpec Conc ReadOnly ConcClient ForkSpec Knows ConcMap ConcMapAll.
Local Open Scope nat_scope.

Section set.
Context `{Countable K} {HS CK U : Type}.
Variables (fuel : nat) (api : setapi K unit CK U) (dig : N -> K -> nat -> N)
  (ok : list (sop K U * sres) -> sop K U -> Prop) (u0 : U) (Hfuel : 256 <= fuel).
Variables (F FA : fam K HS unit CK U) (L : layout K unit CK) (Q : N -> Prop)
    (aop : K -> insop unit CK U) (W : N -> K -> K -> nat -> Prop) (dfull : bool)
    (HF : fam_ok F L) (HL : laws F L)
    (Hdig : ∀ s k d, nib F s k d = dig s k d)
    (HFA : alike F L FA) (HW : goodway L dig FA W)
    (Haop : ∀ k, io_found (aop k) = (λ _, Mem.ret tt) /\ io_new (aop k) = setcell L tt k /\ io_split (aop k) = setcell L tt k)
    (HAdd : ∀ (oh : option loc) k, sa_Add api oh k = insert FA (aop k) fuel oh k)
    (HDel : dfull = true -> ∀ (oh : option loc) k, sa_Del api oh k = delete F fuel oh k)
    (HHas : ∀ (oh : option loc) k, sa_Has api oh k = has F fuel oh k)
    (HAll : ∀ (oh : option loc) f, sa_All api oh f = all_set F fuel oh f)
    (Hok : ∀ tr op, ok tr op -> sallowed (ly_ok L) Q tr op /\ RefineSet.guarded dig W dfull tr op).
Local Notation sop := (sop K U).
Local Notation history := (list (sop * sres)).
Local Notation world := (world unit CK U).
Local Notation sstate := (sstate K U).
Local Notation tree := (tree K).
Local Notation heap := (gmap loc (N * tree)).
Local Notation RelG := (RefineSet.RelG F L Q).
Local Notation can := (RefineSet.can L Q dig W dfull).
Local Notation step_okF := (RefineSet.step_okF F L Q HF HL fuel Hfuel dig Hdig FA aop W dfull tt HFA HW Haop api HAdd HDel HHas HAll).
Implicit Types (w : world) (σ : sstate) (G : heap) (h l p : positive) (tr : history) (op : sop).

(** ** A part of the memory *)
Definition sst_part fh σ : sstate := SState (map_part fh (ss_set σ)) (ss_usr σ).
Lemma spart_rel fl fh G w σ : RelG G w σ ->
  (∀ h s T, G !! h = Some (s, T) -> fh h = true -> ∀ l, l ∈ foot h T -> fl l = true) ->
  RelG (map_part fh G) (mem_part fl w) (sst_part fh σ).
Proof.
  intros (HI & Hm & Hu) Hf. split; [|split_and!; [|done]].
  - constructor.
    + intros l b Hb. apply (in_ok _ _ _ _ _ _ HI l b). by eapply lookup_weaken, part_sub.
    + intros h s T [HG Hh]%map_part_some. destruct (in_good _ _ _ _ _ _ HI _ _ _ HG) as [HQ Hg]. split; [done|].
      eapply Good_keep; [done|]. intros l Hl. apply keep_same. by apply part_lookup, (Hf h s T).
    + intros h1 s1 T1 h2 s2 T2 Hne [H1 _]%map_part_some [H2 _]%map_part_some. by apply (in_sep _ _ _ _ _ _ HI _ _ _ _ _ _ Hne H1 H2).
  - simpl. rewrite Hm. apply map_eq. intros h. destruct (fh h) eqn:E.
    + by rewrite lookup_fmap, !map_part_lookup, lookup_fmap by done.
    + rewrite lookup_fmap. assert (Hn : ∀ {A} (G' : gmap positive A), map_part fh G' !! h = None).
      { intros A G'. apply map_filter_lookup_None. right. intros x _. simpl. by rewrite E. }
      by rewrite !Hn.
Qed.

(** The call uses only what is in the part. *)
Definition sop_in (fh : positive -> bool) op : Prop :=
  match op with
  | SNew _ => True
  | SAdd h _ | SDel h _ | SHas h _ | SLen h | SDep h | SAll h _ => fh h = true
  end.
Lemma spart_can fh σ op : can σ op -> sop_in fh op -> can (sst_part fh σ) op.
Proof.
  intros Hc Hin. unfold RefineSet.can, RefineSet.sfits in *.
  destruct op as [s|h k|h k|h k|h|h|h f]; simpl in *; try done; by rewrite map_part_lookup.
Qed.

(** ** What a goroutine holds *)
Variables (X Sb : loc -> bool) (mi sh : positive -> bool).
Hypothesis HXS : ∀ l, X l = true -> Sb l = false.
(** The goroutines start after tr0 in state σ0, with the sets G0 in memory m0. *)
Variables (tr0 : history) (σ0 : sstate) (G0 : heap) (m0 : gmap loc (block unit CK)).
Hypothesis Hk0 : sknows tr0 σ0.
Record sholding new σ G w : Prop := SHolding {
  sd_steps : ssteps dig σ0 new σ;
  sd_rel : RelG G w σ;
  sd_mine : ∀ h s T, G !! h = Some (s, T) -> mi h = true -> ∀ l, l ∈ foot h T -> X l = true;
  sd_shared : ∀ h s T, G !! h = Some (s, T) -> sh h = true -> ∀ l, l ∈ foot h T -> Sb l = true;
  sd_names : ∀ l, names (w_nxt w) l -> X l = true;
  sd_live : ∀ h, sh h = true -> is_Some (G !! h);
  sd_out : ∀ l, X l = false -> w_mem w !! l = m0 !! l;
  sd_maps : ∀ h, X h = false -> G !! h = G0 !! h;
  sd_writes : ∀ op r h, (op, r) ∈ new -> RefineSet.touches op h -> X h = true }.
Definition sheld tr w : Prop := ∃ new σ G, tr = new ++ tr0 /\ sholding new σ G w.
Lemma sholding_knows new σ G w : sholding new σ G w -> sknows (new ++ tr0) σ.
Proof. intros Hh. eapply sknows_steps; [exact Hk0|apply Hh]. Qed.

Lemma sheld_step new w σ G op r w' σ' G' : sholding new σ G w ->
  sstep dig σ op r σ' -> RelG G' w' σ' -> confined (RefineSet.touches op) G w G' w' ->
  (∀ l, X l = false -> w_mem w' !! l = w_mem w !! l) -> names (w_nxt w) (w_nxt w') ->
  (∀ h, RefineSet.touches op h -> mi h = true) ->
  sholding ((op, r) :: new) σ' G' w'.
Proof.
  intros [Hs HR H1 H2 H3 H6 H7 H8 H9] Hst HR' [Hnx Hcf] Hfr Hnm Ht. pose proof HR as (HI & Hm & Hu). pose proof HR' as (HI' & Hm' & _).
  assert (Hun : ∀ l, X l = false -> (l < w_nxt w)%positive -> ∀ h s T, G' !! h = Some (s, T) -> l ∈ foot h T -> G !! h = Some (s, T)).
  { intros l Hl Hlt. apply Hcf; [done|]. intros h s T Hth Hh Hin. apply Ht in Hth. rewrite (H1 _ _ _ Hh Hth _ Hin) in Hl. done. }
  assert (Hsame : ∀ h, X h = false -> G' !! h = G !! h).
  { intros h Hx. destruct (G' !! h) as [[s T]|] eqn:E'.
    - symmetry. apply (Hun h Hx); [|done|by left].
      destruct (in_good _ _ _ _ _ _ HI' _ _ _ E') as [_ [HM _]].
      assert (Hal : is_Some (w_mem w' !! h)) by (eapply MapI_alloc; [exact HM|by left]).
      rewrite (Hfr h Hx) in Hal. destruct Hal as [b Hb]. by eapply (in_ok _ _ _ _ _ _ HI).
    - destruct (G !! h) as [[s T]|] eqn:E; [|done]. exfalso.
      assert (Hl : is_Some (ss_set σ !! h)) by (by rewrite Hm, lookup_fmap, E).
      eapply sstep_grow in Hl; [|done]. rewrite Hm', lookup_fmap, E' in Hl. by destruct Hl. }
  split; try done.
  - by econstructor.
  - intros h s T HG Hmi l Hl. destruct (X l) eqn:E; [done|].
    destruct (in_good _ _ _ _ _ _ HI' _ _ _ HG) as [_ Hg].
    assert (Hal : is_Some (w_mem w' !! l)) by (destruct Hg as [HM _]; by eapply MapI_alloc).
    rewrite (Hfr l E) in Hal. destruct Hal as [b Hb].
    rewrite <- E. apply (H1 h s T); try done. apply (Hun l); try done. by eapply (in_ok _ _ _ _ _ _ HI).
  - intros h s T HG Hsh l Hl. destruct (H6 h Hsh) as [[s0 T0] HG0].
    assert (Hh : X h = false).
    { destruct (X h) eqn:E; [|done]. rewrite <- (HXS h E). symmetry. apply (H2 h s0 T0); try done. by left. }
    rewrite (Hsame h Hh) in HG. by apply (H2 h s T).
  - intros l Hl. apply H3. by eapply names_trans.
  - intros h Hsh. destruct (H6 h Hsh) as [[s T] HG].
    assert (Hl : is_Some (ss_set σ !! h)) by (by rewrite Hm, lookup_fmap, HG).
    eapply sstep_grow in Hl; [|done]. rewrite Hm', lookup_fmap in Hl. destruct (G' !! h); [eauto|by destruct Hl].
  - intros l Hl. rewrite (Hfr l Hl). by apply H7.
  - intros h Hh. rewrite (Hsame h Hh). by apply H8.
  - intros op' r' h [[= -> ->]|Hin]%elem_of_cons Hwr; [|by eapply H9].
    assert (Hin : is_Some (ss_set σ !! h)).
    { destruct op as [s|h' k|h' k|h' k|h'|h'|h' f]; try done; simpl in Hwr; subst h'; simpl in Hst.
      - destruct Hst as (_ & s & m & Hm1 & _). eauto.
      - destruct Hst as (_ & s & m & Hm1 & _). eauto. }
    rewrite Hm, lookup_fmap in Hin. destruct (G !! h) as [[s T]|] eqn:E; [|by destruct Hin].
    apply (H1 h s T E); [by apply Ht|by left].
Qed.

(** A call on the goroutine's own sets. *)
Lemma scall_own {P : prog unit CK U sres} tr w op : sheld tr w -> ok tr op -> sim P (scall api op) -> sop_in mi op ->
  safe (λ l, X l = true) (λ l, Sb l = true) P w /\ ∃ r w', scall api op w = Ret r w' /\ sheld ((op, r) :: tr) w'.
Proof.
  intros (new & σ & G & -> & Hh) Ho Hsim Hin. pose proof (sd_rel _ _ _ _ Hh) as HR. pose proof (sd_mine _ _ _ _ Hh) as H1. pose proof (sd_names _ _ _ _ Hh) as H3.
  destruct (Hok _ _ Ho) as [Ha Hg].
  assert (Hcan : can σ op) by (eapply sknows_can; [by eapply sholding_knows|exact Ha|exact Hg]).
  destruct (step_okF _ _ _ op (spart_rel X mi G w σ HR H1) (spart_can mi σ op Hcan Hin)) as (r & w1 & _ & _ & Hc1 & _).
  destruct (step_okF G w σ op HR Hcan) as (r' & w' & σ' & G' & Hc & Hst & HR' & _ & Hcf).
  rewrite <- (Hsim (mem_part X w)) in Hc1. destruct w as [m n u]. unfold mem_part in Hc1. simpl in Hc1.
  destruct (run_part (λ l, X l = true) (λ l, Sb l = true) P _ m n u r w1 Hc1) as [Hsafe (m' & Hr & _ & Hnm & Hfr)].
  - apply (part_sub X (World m n u)).
  - intros l. apply (part_in X (World m n u)).
  - done.
  - intros l [b Hb]. destruct HR as (HI & _). apply (in_ok _ _ _ _ _ _ HI l b Hb).
  - rewrite (Hsim _), Hc in Hr. injection Hr as -> ->. split; [done|]. exists r, (World m' (w_nxt w1) (w_usr w1)). split; [done|].
    exists ((op, r) :: new), σ', G'. split; [done|]. eapply (sheld_step new (World m n u)); try done.
    + intros l Hl. simpl. apply Hfr. by rewrite Hl.
    + intros h Ht. destruct op; simpl in *; try done; by subst.
Qed.

(** A call that only reads. *)
Lemma scall_look {P : prog unit CK U sres} tr w op : sheld tr w -> ok tr op -> sim P (scall api op) -> readonly P ->
  sop_in (λ h, mi h || sh h) op -> (∀ h, ¬ RefineSet.touches op h) ->
  safe (λ l, X l = true) (λ l, Sb l = true) P w /\ ∃ r w', scall api op w = Ret r w' /\ sheld ((op, r) :: tr) w' /\
    ∀ m, (∀ l, X l = true \/ Sb l = true -> m !! l = w_mem w !! l) ->
      scall api op (World m (w_nxt w) (w_usr w)) = Ret r (World m (w_nxt w) (w_usr w')).
Proof.
  intros (new & σ & G & -> & Hh) Ho Hsim Hro Hin Hnt. pose proof (sd_rel _ _ _ _ Hh) as HR. pose proof (sd_mine _ _ _ _ Hh) as H1.
  pose proof (sd_shared _ _ _ _ Hh) as H2.
  destruct (Hok _ _ Ho) as [Ha Hg].
  assert (Hcan : can σ op) by (eapply sknows_can; [by eapply sholding_knows|exact Ha|exact Hg]).
  assert (Hf : ∀ h s T, G !! h = Some (s, T) -> mi h || sh h = true -> ∀ l, l ∈ foot h T -> X l || Sb l = true).
  { intros h s T HG [Hx|Hx]%orb_true_iff l Hl; apply orb_true_iff; [left|right]; eauto. }
  destruct (step_okF _ _ _ op (spart_rel (λ l, X l || Sb l) (λ h, mi h || sh h) G w σ HR Hf)
    (spart_can (λ h, mi h || sh h) σ op Hcan Hin)) as (r & w1 & _ & _ & Hc1 & _).
  destruct (step_okF G w σ op HR Hcan) as (r' & w' & σ' & G' & Hc & Hst & HR' & _ & Hcf).
  rewrite <- (Hsim (mem_part _ w)) in Hc1. destruct w as [m n u]. unfold mem_part in Hc1. simpl in Hc1.
  assert (Hin' : ∀ l, is_Some (filter (λ x : positive * block unit CK, X x.1 || Sb x.1 = true) m !! l) -> X l = true \/ Sb l = true).
  { intros l Hl. apply orb_true_iff. by apply (part_in (λ l, X l || Sb l) (World m n u)). }
  destruct (read_part (λ l, X l = true) (λ l, Sb l = true) P _ m n u r w1 Hc1 Hro) as [Hsafe Hr]; [|done|].
  { apply (part_sub (λ l, X l || Sb l) (World m n u)). }
  rewrite (Hsim _), Hc in Hr. injection Hr as -> ->. split; [done|]. exists r, (World m n (w_usr w1)). split_and!; [done| |].
  - exists ((op, r) :: new), σ', G'. split; [done|]. eapply (sheld_step new (World m n u)); try done; [apply names_refl|]. intros h Ht. by destruct (Hnt h).
  - intros m' Hm'. simpl in *.
    destruct (read_part (λ l, X l = true) (λ l, Sb l = true) P _ m' n u r w1 Hc1 Hro) as [_ Hr]; [|done|by rewrite (Hsim _) in Hr].
    apply map_subseteq_spec. intros l b Hb. rewrite (Hm' l (Hin' l (mk_is_Some _ _ Hb))). by apply map_filter_lookup_Some in Hb as [Hb _].
Qed.

(** ** A goroutine *)
Variable papi : psetapi K unit CK U.
Hypothesis Hpsim : ∀ op, sim (pscall papi op) (scall api op).
Hypothesis Hpro : ∀ op, slooks op -> readonly (pscall papi op).
Variables (own : positive -> option nat) (i : nat).
Hypothesis Hmi : ∀ h, smine own tr0 i h -> mi h = true.
Hypothesis Hvi : ∀ h, svisible own tr0 i h -> mi h = true \/ sh h = true.

Lemma suses_in op : suses own tr0 i op ->
  sop_in mi op \/ (slooks op /\ sop_in (λ h, mi h || sh h) op /\ ∀ h, ¬ RefineSet.touches op h).
Proof.
  intros Hu.
  assert (Hv : ∀ h, svisible own tr0 i h -> mi h || sh h = true) by (intros h Hh; by apply orb_true_iff, Hvi).
  destruct op as [s|h k|h k|h k|h|h|h f]; simpl in *; auto 6.
Qed.
Lemma sclient_ok c : ∀ tr w, sheld tr w -> sfine api ok own tr0 i c tr w ->
  safe (λ l, X l = true) (λ l, Sb l = true) (saccesses papi c tr) w /\
  ∀ hist w', run (saccesses papi c tr) w = Ret hist w' -> ssolo api c tr w hist w' /\ sheld hist w'.
Proof.
  induction c as [|op k IH]; intros tr w Hh Hf; simpl in *.
  - split; [done|]. intros hist w' Hr. by injection Hr as <- <-.
  - destruct Hf as (Ho & Hu & Hf).
    assert (Hcall : safe (λ l, X l = true) (λ l, Sb l = true) (pscall papi op) w /\
      ∃ r w', scall api op w = Ret r w' /\ sheld ((op, r) :: tr) w').
    { destruct (suses_in _ Hu) as [Hin|(Hl & Hin & Hnt)].
      - apply scall_own; auto.
      - destruct (scall_look (P := pscall papi op) tr w op) as [H1 (r & w' & H2 & H3 & _)]; auto. split; [done|]. eauto. }
    destruct Hcall as [Hs (r & w1 & Hc & Hh1)]. destruct (IH r _ _ Hh1 (Hf _ _ Hc)) as [IH1 IH2]. split.
    + apply safe_bind; [done|]. intros a w2 Hr. rewrite (Hpsim op w), Hc in Hr. by injection Hr as <- <-.
    + intros hist w' Hr. rewrite run_bind in Hr. unfold Mem.bind in Hr. rewrite (Hpsim op w), Hc in Hr.
      destruct (IH2 _ _ Hr) as [H1 H2]. split; [|done]. by exists r, w1.
Qed.
End set.

(** ** All goroutines *)
Section all.
Context `{Countable K} {HS CK U : Type}.
Variables (dig : N -> K -> nat -> N) (u0 : U).
Variables (F : fam K HS unit CK U) (L : layout K unit CK) (Q : N -> Prop).
Local Notation sop := (sop K U).
Local Notation history := (list (sop * sres)).
Local Notation world := (world unit CK U).
Local Notation sstate := (sstate K U).
Local Notation tree := (tree K).
Local Notation heap := (gmap loc (N * tree)).
Local Notation RelG := (RefineSet.RelG F L Q).
Variables (tr : history) (w : world) (σ : sstate) (G : heap).
Hypothesis (Hs : sknows tr σ) (HR : RelG G w σ).
Variables (own : positive -> option nat) (starts : list loc).
Hypothesis Hsp : spread (w_nxt w) starts.

Definition sbelongs (l h : positive) : Prop := ∃ s T, G !! h = Some (s, T) /\ l ∈ foot h T.
Lemma sold_iff h : (∃ s, (SNew s, THandle h) ∈ tr) <-> is_Some (G !! h).
Proof.
  destruct HR as (_ & Hm & _). split.
  - intros [s Hin]. destruct (sk_live _ _ Hs _ _ Hin) as [x Hx]. rewrite Hm, lookup_fmap in Hx. destruct (G !! h); [eauto|done].
  - intros [[s T] HG]. exists s. eapply (sk_in _ _ Hs h s). by rewrite Hm, lookup_fmap, HG.
Qed.
Lemma sbelongs_lt l h : sbelongs l h -> (l < w_nxt w)%positive.
Proof.
  destruct HR as (HI & Hm & _). intros (s & T & HG & Hl).
  destruct (in_good _ _ _ _ _ _ HI _ _ _ HG) as [_ Hg]. eapply foot_lt; [apply (in_ok _ _ _ _ _ _ HI)|exact Hg|done].
Qed.
Lemma sbelongs_fun l h1 h2 : sbelongs l h1 -> sbelongs l h2 -> h1 = h2.
Proof.
  destruct HR as (HI & Hm & _). intros (s1 & T1 & HG1 & Hl1) (s2 & T2 & HG2 & Hl2).
  destruct (decide (h1 = h2)) as [|Hne]; [done|]. by destruct (in_sep _ _ _ _ _ _ HI _ _ _ _ _ _ Hne HG1 HG2 l Hl1).
Qed.

(** What belongs to goroutine i. *)
Definition sown0 (i : nat) : list positive :=
  flat_map (λ x : positive * (N * tree), if decide (own x.1 = Some i) then foot x.1 x.2.2 else []) (map_to_list G).
Lemma sown0_iff i l : l ∈ sown0 i <-> ∃ h, own h = Some i /\ sbelongs l h.
Proof.
  unfold sown0. rewrite elem_of_list_In, in_flat_map. split.
  - intros ([h [s T]] & Hx & Hl).
    simpl in Hl. destruct (decide (own h = Some i)) as [Ho|]; [|done]. exists h. split; [done|]. exists s, T.
    split; [|by apply elem_of_list_In]. apply elem_of_map_to_list. by apply elem_of_list_In.
  - intros (h & Ho & (s & T & HG & Hl)).
    exists (h, (s, T)). split; [by apply elem_of_list_In, elem_of_map_to_list|]. simpl. rewrite decide_True by done. by apply elem_of_list_In.
Qed.
Definition sXs (i : nat) (l : loc) : bool :=
  match starts !! i with Some a => namesb a l || bool_decide (l ∈ sown0 i) | None => false end.
Definition sSs (l : loc) : bool := forallb (λ i, negb (sXs i l)) (seq 0 (length starts)).

Lemma sXs_iff i l : sXs i l = true <-> ∃ a, starts !! i = Some a /\ (names a l \/ ∃ h, own h = Some i /\ sbelongs l h).
Proof.
  unfold sXs. destruct (starts !! i) as [a|].
  - rewrite orb_true_iff, bool_decide_eq_true, sown0_iff, namesb_ok. naive_solver.
  - naive_solver.
Qed.
Lemma sXs_fun i j l : sXs i l = true -> sXs j l = true -> i = j.
Proof.
  intros (a & Ha & H1)%sXs_iff (b & Hb & H2)%sXs_iff. destruct Hsp as [Hge Hsep].
  assert (Hn : ∀ i a h, starts !! i = Some a -> names a l -> sbelongs l h -> False).
  { intros i' a' h' Ha' Hna Hbe. apply sbelongs_lt in Hbe. apply names_le in Hna. apply elem_of_list_lookup_2, Hge in Ha'. lia. }
  destruct H1 as [H1|(h1 & Ho1 & H1)], H2 as [H2|(h2 & Ho2 & H2)].
  - by eapply Hsep.
  - by destruct (Hn i a h2).
  - by destruct (Hn j b h1).
  - rewrite (sbelongs_fun _ _ _ H1 H2) in Ho1. congruence.
Qed.
Lemma sSs_iff l : sSs l = true <-> ∀ i, sXs i l = false.
Proof.
  unfold sSs. rewrite forallb_forall. split.
  - intros Hf i. destruct (decide (i < length starts)) as [Hi|Hi].
    + specialize (Hf i). destruct (sXs i l); [|done]. simpl in Hf. symmetry. apply Hf. apply in_seq. lia.
    + unfold sXs. destruct (starts !! i) eqn:E; [|done]. apply lookup_lt_Some in E. lia.
  - intros Hf i _. by rewrite Hf.
Qed.
Lemma sXs_Ss i l : sXs i l = true -> sSs l = false.
Proof. intros Hx. destruct (sSs l) eqn:E; [|done]. rewrite sSs_iff in E. rewrite E in Hx. done. Qed.
Lemma sshared_Ss l h : sbelongs l h -> own h = None -> sSs l = true.
Proof.
  intros Hb Ho. apply sSs_iff. intros i. destruct (sXs i l) eqn:E; [|done]. apply sXs_iff in E as (a & Ha & [Hn|(h' & Ho' & Hb')]).
  - destruct Hsp as [Hge _]. apply sbelongs_lt in Hb. apply names_le in Hn. apply elem_of_list_lookup_2, Hge in Ha. lia.
  - rewrite (sbelongs_fun _ _ _ Hb Hb') in Ho. congruence.
Qed.
Lemma smis_ok i h : smine own tr i h -> mis G own i h = true.
Proof.
  intros Hm. unfold mis, old. destruct (bool_decide_reflect (is_Some (G !! h))) as [Hh|]; [|done].
  apply bool_decide_eq_true. by apply Hm, sold_iff.
Qed.
Lemma svis_ok i h : svisible own tr i h -> mis G own i h = true \/ shs G own h = true.
Proof.
  intros Hm. unfold mis, shs, old. destruct (bool_decide_reflect (is_Some (G !! h))) as [Hh|]; [|by left]. simpl.
  rewrite !bool_decide_eq_true. by apply Hm, sold_iff.
Qed.
Lemma sheld_start i a : starts !! i = Some a ->
  sheld dig F L Q (sXs i) sSs (mis G own i) (shs G own) tr σ G (w_mem w) tr (from w a).
Proof.
  intros Ha. exists [], σ, G. split; [done|]. pose proof HR as (HI & Hm & Hu). destruct Hsp as [Hge _].
  assert (Hle : (w_nxt w <= a)%positive) by (apply Hge; by eapply elem_of_list_lookup_2).
  split; try done.
  - constructor.
  - split_and!; try done. constructor.
    + intros l b Hb. simpl in *. pose proof (in_ok _ _ _ _ _ _ HI l b Hb). lia.
    + intros h s T HG. destruct (in_good _ _ _ _ _ _ HI _ _ _ HG) as [HQ Hg]. split; [done|].
      eapply Good_keep; [done|]. intros l _. by apply keep_same.
    + apply (in_sep _ _ _ _ _ _ HI).
  - intros h s T HG Hmi l Hl. unfold mis, old in Hmi. rewrite bool_decide_eq_true_2 in Hmi by eauto.
    apply bool_decide_eq_true in Hmi. apply sXs_iff. exists a. split; [done|]. right. exists h. split; [done|]. red. eauto.
  - intros h s T HG Hsh l Hl. apply andb_true_iff in Hsh as [_ Ho%bool_decide_eq_true]. apply (sshared_Ss l h); [|done]. red. eauto.
  - intros l Hl. apply sXs_iff. exists a. split; [done|]. by left.
  - intros h Hsh. apply andb_true_iff in Hsh as [Ho _]. by apply bool_decide_eq_true in Ho.
  - by intros op r h Hin%elem_of_nil.
Qed.
End all.

Section gos.
Context `{Countable K} {HS CK U : Type}.
Variables (fuel : nat) (api : setapi K unit CK U) (papi : psetapi K unit CK U) (dig : N -> K -> nat -> N)
  (ok : list (sop K U * sres) -> sop K U -> Prop) (Hfuel : 256 <= fuel).
Variables (F FA : fam K HS unit CK U) (L : layout K unit CK) (Q : N -> Prop)
    (aop : K -> insop unit CK U) (W : N -> K -> K -> nat -> Prop) (dfull : bool)
    (HF : fam_ok F L) (HL : laws F L)
    (Hdig : ∀ s k d, nib F s k d = dig s k d)
    (HFA : alike F L FA) (HW : goodway L dig FA W)
    (Haop : ∀ k, io_found (aop k) = (λ _, Mem.ret tt) /\ io_new (aop k) = setcell L tt k /\ io_split (aop k) = setcell L tt k)
    (HAdd : ∀ (oh : option loc) k, sa_Add api oh k = insert FA (aop k) fuel oh k)
    (HDel : dfull = true -> ∀ (oh : option loc) k, sa_Del api oh k = delete F fuel oh k)
    (HHas : ∀ (oh : option loc) k, sa_Has api oh k = has F fuel oh k)
    (HAll : ∀ (oh : option loc) f, sa_All api oh f = all_set F fuel oh f)
    (Hok : ∀ tr op, ok tr op -> sallowed (ly_ok L) Q tr op /\ RefineSet.guarded dig W dfull tr op).
Hypothesis Hpt : pset_type fuel papi api.
Variables (tr : list (sop K U * sres)) (w : world unit CK U) (cs : list (sclient K U)) (starts : list loc) (own : positive -> option nat).
Variables (σ : sstate K U) (G : gmap loc (N * tree K)).
Hypothesis (Hs : sknows tr σ) (HR : RefineSet.RelG F L Q G w σ).
Hypothesis (Hsp : spread (w_nxt w) starts) (Hlen : length starts = length cs).
Hypothesis Hfine : ∀ i c a, cs !! i = Some c -> starts !! i = Some a -> sfine api ok own tr i c tr (from w a).
Local Notation X := (sXs G own starts).
Local Notation Sb := (sSs G own starts).
Local Notation mi := (mis G own).
Local Notation sh := (shs G own).
Local Notation sheld := (sheld dig F L Q).
Local Notation ps := (zip_with (λ c a, (saccesses papi c tr, from w a)) cs starts).

Lemma sgos_X : ∀ i j l, X i l = true -> X j l = true -> i = j.
Proof. eapply sXs_fun; eassumption. Qed.
Lemma sgos_Sb : ∀ i l, X i l = true -> ¬ Sb l = true.
Proof. intros i l Hl. by rewrite (sXs_Ss _ _ _ i l Hl). Qed.
Lemma sgos_client i c a : cs !! i = Some c -> starts !! i = Some a ->
  safe (λ l, X i l = true) (λ l, Sb l = true) (saccesses papi c tr) (from w a) /\
  ∀ hist w', run (saccesses papi c tr) (from w a) = Ret hist w' -> ssolo api c tr (from w a) hist w' /\
    sheld (X i) Sb (mi i) sh tr σ G (w_mem w) hist w'.
Proof.
  intros Hc Ha. pose proof (pset_type_sim _ _ _ Hpt) as Hsim. pose proof (pset_type_reads _ _ _ Hpt) as Hreads.
  eapply (sclient_ok fuel api dig ok Hfuel F FA L Q aop W dfull HF HL Hdig HFA HW Haop HAdd HDel HHas HAll Hok (X i) Sb (mi i) sh
    (sXs_Ss _ _ _ i) tr σ G (w_mem w) Hs papi).
  - intros c'. by apply sim_scall.
  - intros c'. by apply ro_scall.
  - intros h. by eapply smis_ok.
  - intros h. by eapply svis_ok.
  - eapply sheld_start; eassumption.
  - by apply Hfine.
Qed.
Lemma sgos_good C : rtc step (sbegin papi tr w cs starts) C -> good (λ i l, X i l = true) (λ l, Sb l = true) (w_mem w) ps C.
Proof.
  intros HC. eapply steps_good; [exact sgos_X|exact sgos_Sb| |exact HC]. split_and!; simpl.
  - by rewrite !zip_with_length.
  - intros i t p0 w0 Hi Hp. apply lookup_zip_with_Some in Hp as (c & a & [= -> ->] & Hc & Ha).
    rewrite (zip_lookup _ _ _ _ _ _ Hc Ha) in Hi. injection Hi as <-. exists (from w a). split; try done. by apply (sgos_client i c a).
  - done.
Qed.
Lemma sgos_result C i t c a hist : rtc step (sbegin papi tr w cs starts) C ->
  c_thr C !! i = Some t -> cs !! i = Some c -> starts !! i = Some a -> returned t hist ->
  ∃ w', ssolo api c tr (from w a) hist w' /\ sheld (X i) Sb (mi i) sh tr σ G (w_mem w) hist w' /\
    th_nxt t = w_nxt w' /\ th_usr t = w_usr w' /\ ∀ l, X i l = true \/ Sb l = true -> c_mem C !! l = w_mem w' !! l.
Proof.
  intros HC Hi Hc Ha Hret.
  destruct (good_result _ _ _ _ _ _ _ _ _ _ (sgos_good C HC) Hi (zip_lookup _ _ _ _ _ _ Hc Ha) Hret) as (w' & Hrun & Hn & Hu & Hm).
  destruct (sgos_client i c a Hc Ha) as [_ Hcl2]. destruct (Hcl2 _ _ Hrun) as [Hso Hh]. by exists w'.
Qed.
Lemma sgos_ok C : rtc step (sbegin papi tr w cs starts) C ->
  ¬ race C /\
  (∀ i t, c_thr C !! i = Some t -> ((∃ hist, returned t hist) \/ runs C t) /\ fresh C t) /\
  (∀ i t c a hist, c_thr C !! i = Some t -> cs !! i = Some c -> starts !! i = Some a -> returned t hist ->
    ∃ w', ssolo api c tr (from w a) hist w' /\ (∃ new σ', hist = new ++ tr /\ ssteps dig σ new σ') /\ th_usr t = w_usr w' /\
      ∀ op, ok hist op -> slooks op -> suses own tr i op ->
        ∃ r u', scall api op w' = Ret r (World (w_mem w') (w_nxt w') u') /\
          scall api op (World (c_mem C) (th_nxt t) (th_usr t)) = Ret r (World (c_mem C) (th_nxt t) u')).
Proof.
  intros HC. pose proof (sgos_good C HC) as Hg. split_and!.
  - eapply good_no_race; [exact sgos_X|exact sgos_Sb|exact Hg].
  - intros i t Hi. eapply good_runs; [exact Hg|exact Hi].
  - intros i t c a hist Hi Hc Ha Hret. destruct (sgos_result C i t c a hist HC Hi Hc Ha Hret) as (w' & Hso & Hh & Hn & Hu & Hm).
    exists w'. split_and!; [done| |done|].
    + destruct Hh as (new & σ' & G' & -> & Hh). exists new, σ'. split; [done|]. apply Hh.
    + intros op Ho Hl Huse.
      pose proof (pset_type_sim _ _ _ Hpt) as Hsim. pose proof (pset_type_reads _ _ _ Hpt) as Hreads.
      assert (Hvi : ∀ i h, svisible own tr i h -> mi i h = true \/ sh h = true) by (eapply svis_ok; eassumption).
      assert (Hin : sop_in (λ h, mi i h || sh h) op /\ ∀ h, ¬ RefineSet.touches op h).
      { assert (Hv : ∀ h, svisible own tr i h -> mi i h || sh h = true) by (intros h Hh'; by apply orb_true_iff, Hvi).
        destruct op as [s|h k|h k|h k|h|h|h f]; simpl in *; auto; try done. }
      destruct Hin as [Hin Hnt].
      destruct (scall_look fuel api dig ok Hfuel F FA L Q aop W dfull HF HL Hdig HFA HW Haop HAdd HDel HHas HAll Hok
        (X i) Sb (mi i) sh (sXs_Ss _ _ _ i) tr σ G (w_mem w) Hs hist w' op Hh Ho (sim_scall papi api op Hsim) (ro_scall papi op Hreads Hl) Hin Hnt)
        as [_ (r & w2 & Hcall & _ & Hm2)].
      exists r, (w_usr w2). split.
      * specialize (Hm2 (w_mem w') (λ l _, eq_refl)). destruct w'. exact Hm2.
      * rewrite Hn, Hu. apply Hm2. intros l. apply Hm.
Qed.
End gos.

Section goroutines.
Context `{Countable K} {CK U : Type} (fuel : nat) (api : setapi K unit CK U) (papi : psetapi K unit CK U)
  (dig : N -> K -> nat -> N) (ok : list (sop K U * sres) -> sop K U -> Prop) (u0 : U) (Hfuel : 256 <= fuel)
  (Ht : set_type fuel api dig ok) (Hpt : pset_type fuel papi api).
Variables (tr : list (sop K U * sres)) (w : world unit CK U) (cs : list (sclient K U)) (starts : list loc) (own : positive -> option nat).
Hypothesis (Hr : srun api ok u0 tr w) (Hsp : spread (w_nxt w) starts) (Hlen : length starts = length cs).
Hypothesis Hfine : ∀ i c a, cs !! i = Some c -> starts !! i = Some a -> sfine api ok own tr i c tr (from w a).

Theorem sgoroutines_ok C : rtc step (sbegin papi tr w cs starts) C ->
  ¬ race C /\
  (∀ i t, c_thr C !! i = Some t -> ((∃ hist, returned t hist) \/ runs C t) /\ fresh C t) /\
  (∀ i t c a hist, c_thr C !! i = Some t -> cs !! i = Some c -> starts !! i = Some a -> returned t hist ->
    ∃ w', ssolo api c tr (from w a) hist w' /\ (∃ σ, sspec dig u0 hist σ) /\ th_usr t = w_usr w' /\
      ∀ op, ok hist op -> slooks op -> suses own tr i op ->
        ∃ r u', scall api op w' = Ret r (World (w_mem w') (w_nxt w') u') /\
          scall api op (World (c_mem C) (th_nxt t) (th_usr t)) = Ret r (World (c_mem C) (th_nxt t) u')).
Proof.
  intros HC.
  destruct (set_pack fuel api dig ok Ht) as [HS F FA L Q aop W dfull HF HL Hdig HFA HW Haop HAdd HDel HHas HAll Hok].
  assert (HRel : ∃ σ, sspec dig u0 tr σ /\ RefineSet.Rel F L Q w σ).
  { apply (RefineSet.run_rel F L Q HF HL fuel Hfuel dig Hdig FA aop W dfull tt HFA HW Haop api HAdd HDel HHas HAll ok u0 Hok tr w Hr). }
  destruct HRel as (σ & Hs & G & HR).
  destruct (sgos_ok fuel api papi dig ok Hfuel F FA L Q aop W dfull HF HL Hdig HFA HW Haop HAdd HDel HHas HAll Hok Hpt
    tr w cs starts own σ G (sspec_knows _ _ _ _ Hs) HR Hsp Hfine C HC) as (H1 & H2 & H3).
  split_and!; [done|done|]. intros i t c a hist Hi Hc Ha Hret.
  destruct (H3 i t c a hist Hi Hc Ha Hret) as (w' & Hso & (new & σ' & -> & Hst) & Hrest). exists w'. split_and!; [done| |apply Hrest|apply Hrest].
  exists σ'. by eapply sspec_steps.
Qed.

Lemma ssolo_fun c : ∀ tr (w : world unit CK U) h1 h2 w1 w2, ssolo api c tr w h1 w1 -> ssolo api c tr w h2 w2 -> h1 = h2 /\ w1 = w2.
Proof.
  clear. induction c as [|c k IH]; intros tr w h1 h2 w1 w2; simpl.
  - by intros [-> ->] [-> ->].
  - intros (r & w' & Hr & Hs) (r' & w'' & Hr' & Hs'). rewrite Hr in Hr'. injection Hr' as <- <-. by eapply IH.
Qed.
Theorem sgoroutines_agree C1 C2 i t1 t2 hist1 hist2 :
  rtc step (sbegin papi tr w cs starts) C1 -> rtc step (sbegin papi tr w cs starts) C2 ->
  c_thr C1 !! i = Some t1 -> c_thr C2 !! i = Some t2 -> returned t1 hist1 -> returned t2 hist2 ->
  hist1 = hist2 /\ th_usr t1 = th_usr t2.
Proof.
  intros HC1 HC2 H1 H2 Hr1 Hr2.
  assert (Hn : ∀ C, rtc step (sbegin papi tr w cs starts) C -> length (c_thr C) = length cs).
  { intros C HC. assert (Hl : length (c_thr (sbegin papi tr w cs starts)) = length cs) by (simpl; rewrite zip_with_length; lia).
    revert Hl. generalize (sbegin papi tr w cs starts), HC. clear. intros C0 HC Hl.
    induction HC as [|x y z Hxy _ IH]; [done|]. apply IH. destruct Hxy as [j t m t2' Hj Hnx]. cbn [c_thr]. by rewrite insert_length. }
  assert (Hi : i < length cs) by (rewrite <- (Hn _ HC1); by eapply lookup_lt_Some).
  destruct (lookup_lt_is_Some_2 cs i Hi) as [c Hc]. rewrite <- Hlen in Hi. destruct (lookup_lt_is_Some_2 starts i Hi) as [a Ha].
  destruct (sgoroutines_ok C1 HC1) as (_ & _ & Hg1). destruct (sgoroutines_ok C2 HC2) as (_ & _ & Hg2).
  destruct (Hg1 i t1 c a hist1 H1 Hc Ha Hr1) as (w1 & Hs1 & _ & Hu1 & _). destruct (Hg2 i t2 c a hist2 H2 Hc Ha Hr2) as (w2 & Hs2 & _ & Hu2 & _).
  destruct (ssolo_fun _ _ _ _ _ _ _ Hs1 Hs2) as [-> ->]. by rewrite Hu1, Hu2.
Qed.
End goroutines.
