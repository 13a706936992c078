(** Goroutines that use maps: every call stays within the memory of the goroutine and the
    maps that all of them only read. *)
From stdpp Require Import base numbers list gmap.
From Verif Require Import GoInt Mem Hash Amt Families BitsFacts Steps Tree Rep Paths Descend Insert Split Delete Remove Core Scan Order Heap Spec SpecFacts Guards HashFacts Client Types Refine RefineSet Instances Pack.
From Verif Require Import Prog PClient ConcSpec Conc ReadOnly ConcClient ForkSpec Knows.
Local Open Scope nat_scope.

Section map.
Context `{Countable K} {HS V CK U : Type}.
Variables (zero : V) (fuel : nat) (api : mapapi K V CK U) (dig : N -> K -> nat -> N)
  (ok : list (mop K V U * mres V) -> mop K V U -> Prop) (u0 : U) (Hfuel : 256 <= fuel).
Variables (F FS FM : fam K HS V CK U) (L : layout K V CK) (Q : N -> Prop)
    (sop : K -> V -> insop V CK U) (mdop : K -> (ptr -> bool -> M V CK U unit) -> insop V CK U)
    (vs : V -> V) (WS WM : N -> K -> K -> nat -> Prop)
    (HF : fam_ok F L) (HL : laws F L) (Hcell : ly_cell L = true)
    (Hdig : ∀ s k d, nib F s k d = dig s k d)
    (HFS : alike F L FS) (HFM : alike F L FM)
    (HWS : goodway L dig FS WS) (HWM : goodway L dig FM WM)
    (Hvs : ∀ s k ck d, WS s k ck d -> ∀ v, vs v = v)
    (Hsop : ∀ k v, io_found (sop k v) = (λ iv, Mem.store_val (lk_ptr iv) v) /\
       io_new (sop k v) = cellnew L v k /\ io_split (sop k v) = cellnew L (vs v) k)
    (Hmop : ∀ k f,
       io_found (mdop k f) = (λ iv, match lk_ptr iv with Nil => Mem.panic | At p => f (At p) true end) /\
       io_new (mdop k f) = modnew L zero k f /\ io_split (mdop k f) = modnew L zero k f)
    (HSet : ∀ (oh : option loc) k v, ma_Set api oh k v = insert FS (sop k v) fuel oh k)
    (HMod : ∀ (oh : option loc) k f, ma_Mod api oh k f = insert FM (mdop k f) fuel oh k)
    (HDel : ∀ (oh : option loc) k, ma_Del api oh k = delete F fuel oh k)
    (HGet : ∀ (oh : option loc) k, ma_Get api oh k = get F fuel zero oh k)
    (HVal : ∀ (oh : option loc) k, ma_Val api oh k = val F fuel zero oh k)
    (HPtr : ∀ (oh : option loc) k, ma_Ptr api oh k = ptr_of F fuel oh k)
    (HAll : ∀ (oh : option loc) f, ma_All api oh f = all_map F fuel oh f)
    (Hok : ∀ tr op, ok tr op -> mallowed (ly_ok L) Q tr op /\ ins_guard dig WS WM tr op).
Local Notation mop := (mop K V U).
Local Notation history := (list (mop * mres V)).
Local Notation world := (world V CK U).
Local Notation mstate := (mstate K V U).
Local Notation tree := (tree K).
Local Notation heap := (gmap loc (N * tree)).
Local Notation RelG := (Refine.RelG F L Q).
Local Notation can := (Refine.can L Q dig WS WM).
Local Notation step_okF := (Refine.step_okF F L Q HF HL Hcell zero fuel Hfuel dig Hdig FS FM sop mdop vs WS WM
    HFS HFM HWS HWM Hvs Hsop Hmop api HSet HMod HDel HGet HVal HPtr HAll).
Implicit Types (w : world) (σ : mstate) (G : heap) (h l p : positive) (tr : history) (op : mop).

(** ** A part of the memory *)
Definition mem_part (fl : loc -> bool) w : world := World (filter (λ x, fl x.1 = true) (w_mem w)) (w_nxt w) (w_usr w).
Lemma part_lookup fl w l : fl l = true -> w_mem (mem_part fl w) !! l = w_mem w !! l.
Proof.
  intros Hl. unfold mem_part. simpl. destruct (w_mem w !! l) as [b|] eqn:E.
  - apply map_filter_lookup_Some. done.
  - apply map_filter_lookup_None. by left.
Qed.
Lemma part_in fl w l : is_Some (w_mem (mem_part fl w) !! l) -> fl l = true.
Proof. intros [b Hb]. by apply map_filter_lookup_Some in Hb as [_ Hb]. Qed.
Lemma part_sub fl w : w_mem (mem_part fl w) ⊆ w_mem w.
Proof. apply map_filter_subseteq. Qed.

Definition map_part {A} (fh : positive -> bool) (G : gmap positive A) : gmap positive A := filter (λ x, fh x.1 = true) G.
Lemma map_part_lookup {A} fh (G : gmap positive A) h : fh h = true -> map_part fh G !! h = G !! h.
Proof.
  intros Hl. unfold map_part. destruct (G !! h) as [b|] eqn:E.
  - apply map_filter_lookup_Some. done.
  - apply map_filter_lookup_None. by left.
Qed.
Lemma map_part_some {A} fh (G : gmap positive A) h x : map_part fh G !! h = Some x -> G !! h = Some x /\ fh h = true.
Proof. apply map_filter_lookup_Some. Qed.

Definition st_part fl fh w σ : mstate := MState (map_part fh (ms_map σ)) (vals (mem_part fl w)) (ms_usr σ).
Lemma part_rel fl fh G w σ : RelG G w σ ->
  (∀ h s T, G !! h = Some (s, T) -> fh h = true -> ∀ l, l ∈ foot h T -> fl l = true) ->
  RelG (map_part fh G) (mem_part fl w) (st_part fl fh w σ).
Proof.
  intros (HI & Hm & Hv & Hu) Hf. split; [|split_and!; [|done|done]].
  - constructor.
    + intros l b Hb. apply (in_ok _ _ _ _ _ _ HI l b). by eapply lookup_weaken, part_sub.
    + intros h s T [HG Hh]%map_part_some. destruct (in_good _ _ _ _ _ _ HI _ _ _ HG) as [HQ Hg]. split; [done|].
      eapply Good_keep; [done|]. intros l Hl. apply keep_same. by apply part_lookup, (Hf h s T).
    + intros h1 s1 T1 h2 s2 T2 Hne [H1 _]%map_part_some [H2 _]%map_part_some. by apply (in_sep _ _ _ _ _ _ HI _ _ _ _ _ _ Hne H1 H2).
  - simpl. rewrite Hm. apply map_eq. intros h. destruct (fh h) eqn:E.
    + by rewrite lookup_fmap, !map_part_lookup, lookup_fmap by done.
    + rewrite lookup_fmap. assert (Hn : ∀ {A} (G' : gmap positive A), map_part fh G' !! h = None).
      { intros A G'. apply map_filter_lookup_None. right. intros x _. simpl. by rewrite E. }
      by rewrite !Hn.
Qed.

(** The call uses only what is in the part. *)
Definition op_in (fl fh : positive -> bool) op : Prop :=
  match op with
  | MNew _ => True
  | MSet h _ _ | MMod h _ _ | MDel h _ | MAll h _ | MGet h _ | MVal h _ | MPtr h _ | MLen h | MDep h => fh h = true
  | MLoad p | MStore p _ => fl p = true
  end.
Lemma part_can fl fh G w σ op : RelG G w σ -> can σ op -> op_in fl fh op -> can (st_part fl fh w σ) op.
Proof.
  intros (HI & Hm & Hv & Hu) Hc Hin. unfold Refine.can, Refine.fits in *.
  destruct op as [s|h k v|h k f|h k|h k|h k|h k|h|h|h f|p|p v]; simpl in *; try done.
  1-9: by rewrite map_part_lookup.
  1-2: rewrite Hv in Hc; rewrite vals_lookup in Hc |- *; by rewrite part_lookup.
Qed.

(** ** What a goroutine holds *)
Variables (X Sb : loc -> bool) (mi sh : positive -> bool).
Hypothesis HXS : ∀ l, X l = true -> Sb l = false.
(** The goroutines start after tr0 in state σ0, with the maps G0 in memory m0. *)
Variables (tr0 : history) (σ0 : mstate) (G0 : heap) (m0 : gmap loc (block V CK)).
Hypothesis Hk0 : knows tr0 σ0.
Hypothesis Hm0 : ms_map σ0 = (λ x : N * tree, (x.1, Refine.dict x.2)) <$> G0.
(** A call that changes which keys are in map h. *)
Definition writes op h : Prop :=
  match op with MSet h' _ _ | MMod h' _ _ | MDel h' _ => h' = h | _ => False end.
Record holding new σ G w : Prop := Holding {
  hd_steps : msteps dig zero σ0 new σ;
  hd_rel : RelG G w σ;
  hd_mine : ∀ h s T, G !! h = Some (s, T) -> mi h = true -> ∀ l, l ∈ foot h T -> X l = true;
  hd_shared : ∀ h s T, G !! h = Some (s, T) -> sh h = true -> ∀ l, l ∈ foot h T -> Sb l = true;
  hd_names : ∀ l, names (w_nxt w) l -> X l = true;
  hd_pmine : ∀ h k p, (MPtr h k, RPtr (Some p)) ∈ new ++ tr0 -> mi h = true -> X p = true;
  hd_pshared : ∀ h k p, (MPtr h k, RPtr (Some p)) ∈ new ++ tr0 -> sh h = true -> Sb p = true;
  hd_live : ∀ h, sh h = true -> is_Some (G !! h);
  hd_out : ∀ l, X l = false -> w_mem w !! l = m0 !! l;
  hd_maps : ∀ h, X h = false -> G !! h = G0 !! h;
  hd_writes : ∀ op r h, (op, r) ∈ new -> writes op h -> X h = true;
  hd_ptrs : ∀ h k p, (MPtr h k, RPtr (Some p)) ∈ new -> X h = false -> ∃ s m, ms_map σ0 !! h = Some (s, m) /\ m !! k = Some p;
  hd_sees : ∀ h k p, (MPtr h k, RPtr (Some p)) ∈ new -> mi h = true \/ sh h = true }.
Definition held tr w : Prop := ∃ new σ G, tr = new ++ tr0 /\ holding new σ G w.
Lemma holding_knows new σ G w : holding new σ G w -> knows (new ++ tr0) σ.
Proof. intros Hh. eapply knows_steps; [exact Hk0|apply Hh]. Qed.

Lemma dict_foot s w h T k p : Good F L 240 s w h T -> Refine.dict T !! k = Some p -> p ∈ foot h T.
Proof.
  intros HG Hp. apply (Refine.dict_some F L Hcell _ _ _ _ _ _ HG) in Hp. right.
  clear HG. induction T as [k' p'|a cs IH] using tree_ind'; simpl in *.
  - apply elem_of_list_singleton in Hp. injection Hp as -> <-. simpl. by left.
  - right. apply elem_of_list_In, in_flat_map. apply elem_of_list_In, in_flat_map in Hp as (c & Hc & Hp).
    exists c. split; [done|]. apply elem_of_list_In. rewrite Forall_forall in IH. apply (IH c); by apply elem_of_list_In.
Qed.

Lemma held_step new w σ G op r w' σ' G' : holding new σ G w ->
  mstep dig zero σ op r σ' -> RelG G' w' σ' -> confined (Refine.touches σ op) G w G' w' ->
  (∀ l, X l = false -> w_mem w' !! l = w_mem w !! l) -> names (w_nxt w) (w_nxt w') ->
  (∀ h, Refine.touches σ op h -> mi h = true) -> (∀ h, writes op h -> mi h = true) ->
  (∀ h k, op = MPtr h k -> mi h = true \/ sh h = true) ->
  holding ((op, r) :: new) σ' G' w'.
Proof.
  intros Hh Hst HR' [Hnx Hcf] Hfr Hnm Ht Hw Hsee. pose proof (kn_wf _ _ (holding_knows _ _ _ _ Hh)) as Hwf.
  destruct Hh as [Hs HR H1 H2 H3 H4 H5 H6 H7 H8 H9 H10 H11]. pose proof HR as (HI & Hm & Hv & Hu). pose proof HR' as (HI' & Hm' & _).
  destruct (mstep_wf dig zero σ op r σ' Hwf Hst) as [_ [Hgr _]].
  assert (Hun : ∀ l, X l = false -> (l < w_nxt w)%positive -> ∀ h s T, G' !! h = Some (s, T) -> l ∈ foot h T -> G !! h = Some (s, T)).
  { intros l Hl Hlt. apply Hcf; [done|]. intros h s T Hth Hh Hin. apply Ht in Hth. rewrite (H1 _ _ _ Hh Hth _ Hin) in Hl. done. }
  assert (Hsame : ∀ h, X h = false -> G' !! h = G !! h).
  { intros h Hx. destruct (G' !! h) as [[s T]|] eqn:E'.
    - symmetry. apply (Hun h Hx); [|done|by left].
      destruct (in_good _ _ _ _ _ _ HI' _ _ _ E') as [_ [HM _]].
      assert (Hal : is_Some (w_mem w' !! h)) by (eapply MapI_alloc; [exact HM|by left]).
      rewrite (Hfr h Hx) in Hal. destruct Hal as [b Hb]. by eapply (in_ok _ _ _ _ _ _ HI).
    - destruct (G !! h) as [[s T]|] eqn:E; [|done]. exfalso.
      assert (Hl : ms_map σ !! h = Some (s, Refine.dict T)) by (by rewrite Hm, lookup_fmap, E).
      apply Hgr in Hl as [m2 Hl]. rewrite Hm', lookup_fmap, E' in Hl. done. }
  split; try done.
  - by econstructor.
  - intros h s T HG Hmi l Hl. destruct (X l) eqn:E; [done|].
    destruct (in_good _ _ _ _ _ _ HI' _ _ _ HG) as [_ Hg].
    assert (Hal : is_Some (w_mem w' !! l)) by (destruct Hg as [HM _]; by eapply MapI_alloc).
    rewrite (Hfr l E) in Hal. destruct Hal as [b Hb].
    rewrite <- E. apply (H1 h s T); try done. apply (Hun l); try done. by eapply (in_ok _ _ _ _ _ _ HI).
  - intros h s T HG Hsh l Hl. destruct (H6 h Hsh) as [[s0 T0] HG0].
    assert (Hh : X h = false).
    { destruct (X h) eqn:E; [|done]. rewrite <- (HXS h E). symmetry. apply (H2 h s0 T0); try done. by left. }
    rewrite (Hsame h Hh) in HG. by apply (H2 h s T).
  - intros l Hl. apply H3. by eapply names_trans.
  - intros h k p [Heq|Hin]%elem_of_cons Hmi; [|by eapply H4]. injection Heq as <- <-.
    destruct Hst as (_ & s & m & Hmap & [= Hp]). rewrite Hm, lookup_fmap in Hmap.
    destruct (G !! h) as [[s' T]|] eqn:E; [|done]. simpl in Hmap. injection Hmap as <- <-.
    destruct (in_good _ _ _ _ _ _ HI _ _ _ E) as [_ Hg]. eapply (H1 h); try done. by eapply dict_foot.
  - intros h k p [Heq|Hin]%elem_of_cons Hmi; [|by eapply H5]. injection Heq as <- <-.
    destruct Hst as (_ & s & m & Hmap & [= Hp]). rewrite Hm, lookup_fmap in Hmap.
    destruct (G !! h) as [[s' T]|] eqn:E; [|done]. simpl in Hmap. injection Hmap as <- <-.
    destruct (in_good _ _ _ _ _ _ HI _ _ _ E) as [_ Hg]. eapply (H2 h); try done. by eapply dict_foot.
  - intros h Hsh. destruct (H6 h Hsh) as [[s T] HG].
    assert (Hl : ms_map σ !! h = Some (s, Refine.dict T)) by (by rewrite Hm, lookup_fmap, HG).
    apply Hgr in Hl as [m2 Hl]. rewrite Hm', lookup_fmap in Hl. destruct (G' !! h); [eauto|done].
  - intros l Hl. rewrite (Hfr l Hl). by apply H7.
  - intros h Hh. rewrite (Hsame h Hh). by apply H8.
  - intros op' r' h [[= -> ->]|Hin]%elem_of_cons Hwr; [|by eapply H9].
    assert (Hin : is_Some (ms_map σ !! h)).
    { destruct op as [s|h' k v|h' k f|h' k|h' k|h' k|h' k|h'|h'|h' f|p|p v]; try done; simpl in Hwr; subst h'; simpl in Hst.
      - destruct Hst as (_ & s & m & Hm1 & _). eauto.
      - destruct Hst as (_ & Hp). destruct (f _ _ _) as [u1 v1]. destruct Hp as (s & m & Hm1 & _). eauto.
      - destruct Hst as (_ & s & m & Hm1 & _). eauto. }
    rewrite Hm, lookup_fmap in Hin. destruct (G !! h) as [[s T]|] eqn:E; [|by destruct Hin].
    apply (H1 h s T E); [by apply Hw|by left].
  - intros h k p [Heq|Hin]%elem_of_cons Hx; [|by eapply H10]. injection Heq as <- <-.
    destruct Hst as (_ & s & m & Hmap & [= Hp]). exists s, m. split; [|done].
    rewrite Hm, lookup_fmap, (H8 h Hx) in Hmap. by rewrite Hm0, lookup_fmap.
  - intros h k p [Heq|Hin]%elem_of_cons; [|by eapply H11]. injection Heq as <- _. by eapply Hsee.
Qed.

(** A call on the goroutine's own maps. *)
Lemma call_own {P : prog V CK U (mres V)} tr w op : held tr w -> ok tr op -> sim P (mcall api op) -> op_in X mi op ->
  safe (λ l, X l = true) (λ l, Sb l = true) P w /\ ∃ r w', mcall api op w = Ret r w' /\ held ((op, r) :: tr) w'.
Proof.
  intros (new & σ & G & -> & Hh) Ho Hsim Hin. pose proof (hd_rel _ _ _ _ Hh) as HR. pose proof (hd_mine _ _ _ _ Hh) as H1. pose proof (hd_names _ _ _ _ Hh) as H3.
  destruct (Hok _ _ Ho) as [Ha Hg].
  assert (Hcan : can σ op) by (eapply knows_can; [by eapply holding_knows|exact Ha|exact Hg]).
  destruct (step_okF _ _ _ op (part_rel X mi G w σ HR H1) (part_can X mi G w σ op HR Hcan Hin)) as (r & w1 & _ & _ & Hc1 & _).
  destruct (step_okF G w σ op HR Hcan) as (r' & w' & σ' & G' & Hc & Hst & HR' & _ & Hcf).
  rewrite <- (Hsim (mem_part X w)) in Hc1. destruct w as [m n u]. unfold mem_part in Hc1. simpl in Hc1.
  destruct (run_part (λ l, X l = true) (λ l, Sb l = true) P _ m n u r w1 Hc1) as [Hsafe (m' & Hr & _ & Hnm & Hfr)].
  - apply (part_sub X (World m n u)).
  - intros l. apply (part_in X (World m n u)).
  - done.
  - intros l [b Hb]. destruct HR as (HI & _). apply (in_ok _ _ _ _ _ _ HI l b Hb).
  - rewrite (Hsim _), Hc in Hr. injection Hr as -> ->. split; [done|]. exists r, (World m' (w_nxt w1) (w_usr w1)). split; [done|].
    exists ((op, r) :: new), σ', G'. split; [done|]. eapply (held_step new (World m n u)); try done.
    + intros l Hl. simpl. apply Hfr. by rewrite Hl.
    + intros h Ht. destruct op; simpl in *; try done; first [by destruct Ht as [-> _]|by subst].
    + intros h Ht. destruct op; simpl in *; try done; by subst.
    + intros h k ->. by left.
Qed.

(** A call that only reads. *)
Lemma call_look {P : prog V CK U (mres V)} tr w op : held tr w -> ok tr op -> sim P (mcall api op) -> readonly P ->
  op_in (λ l, X l || Sb l) (λ h, mi h || sh h) op -> (∀ σ h, ¬ Refine.touches σ op h) ->
  safe (λ l, X l = true) (λ l, Sb l = true) P w /\ ∃ r w', mcall api op w = Ret r w' /\ held ((op, r) :: tr) w' /\
    ∀ m, (∀ l, X l = true \/ Sb l = true -> m !! l = w_mem w !! l) ->
      mcall api op (World m (w_nxt w) (w_usr w)) = Ret r (World m (w_nxt w) (w_usr w')).
Proof.
  intros (new & σ & G & -> & Hh) Ho Hsim Hro Hin Hnt. pose proof (hd_rel _ _ _ _ Hh) as HR. pose proof (hd_mine _ _ _ _ Hh) as H1.
  pose proof (hd_shared _ _ _ _ Hh) as H2.
  destruct (Hok _ _ Ho) as [Ha Hg].
  assert (Hcan : can σ op) by (eapply knows_can; [by eapply holding_knows|exact Ha|exact Hg]).
  assert (Hf : ∀ h s T, G !! h = Some (s, T) -> mi h || sh h = true -> ∀ l, l ∈ foot h T -> X l || Sb l = true).
  { intros h s T HG [Hx|Hx]%orb_true_iff l Hl; apply orb_true_iff; [left|right]; eauto. }
  destruct (step_okF _ _ _ op (part_rel (λ l, X l || Sb l) (λ h, mi h || sh h) G w σ HR Hf)
    (part_can (λ l, X l || Sb l) (λ h, mi h || sh h) G w σ op HR Hcan Hin)) as (r & w1 & _ & _ & Hc1 & _).
  destruct (step_okF G w σ op HR Hcan) as (r' & w' & σ' & G' & Hc & Hst & HR' & _ & Hcf).
  rewrite <- (Hsim (mem_part _ w)) in Hc1. destruct w as [m n u]. unfold mem_part in Hc1. simpl in Hc1.
  assert (Hin' : ∀ l, is_Some (filter (λ x : positive * block V CK, X x.1 || Sb x.1 = true) m !! l) -> X l = true \/ Sb l = true).
  { intros l Hl. apply orb_true_iff. by apply (part_in (λ l, X l || Sb l) (World m n u)). }
  destruct (read_part (λ l, X l = true) (λ l, Sb l = true) P _ m n u r w1 Hc1 Hro) as [Hsafe Hr]; [|done|].
  { apply (part_sub (λ l, X l || Sb l) (World m n u)). }
  rewrite (Hsim _), Hc in Hr. injection Hr as -> ->. split; [done|]. exists r, (World m n (w_usr w1)). split_and!; [done| |].
  - exists ((op, r) :: new), σ', G'. split; [done|]. eapply (held_step new (World m n u)); try done; [apply names_refl| | |].
    + intros h Ht. by destruct (Hnt σ h).
    + intros h Ht. exfalso. apply (Hnt (minit u0) h). destruct op; simpl in *; try done; subst; split; try done; intros s1 m1 Hs1; simpl in Hs1; by rewrite lookup_empty in Hs1.
    + intros h k ->. simpl in Hin. by apply orb_true_iff in Hin.
  - intros m' Hm'. simpl in *.
    destruct (read_part (λ l, X l = true) (λ l, Sb l = true) P _ m' n u r w1 Hc1 Hro) as [_ Hr]; [|done|by rewrite (Hsim _) in Hr].
    apply map_subseteq_spec. intros l b Hb. rewrite (Hm' l (Hin' l (mk_is_Some _ _ Hb))). by apply map_filter_lookup_Some in Hb as [Hb _].
Qed.

(** ** A goroutine *)
Variable papi : pmapapi K V CK U.
Hypothesis Hpsim : ∀ c, sim (pmcall papi c) (mcall api (the_op c)).
Hypothesis Hpro : ∀ c, looks c -> readonly (pmcall papi c).
Variables (own : positive -> option nat) (i : nat).
Hypothesis Hmi : ∀ h, mine own tr0 i h -> mi h = true.
Hypothesis Hvi : ∀ h, visible own tr0 i h -> mi h = true \/ sh h = true.

Lemma uses_in c tr w : held tr w -> uses own tr0 i tr c ->
  op_in X mi (the_op c) \/ (looks c /\ op_in (λ l, X l || Sb l) (λ h, mi h || sh h) (the_op c) /\ ∀ σ h, ¬ Refine.touches σ (the_op c) h).
Proof.
  intros (new & σ & G & -> & Hh) Hu. pose proof (hd_pmine _ _ _ _ Hh) as H4. pose proof (hd_pshared _ _ _ _ Hh) as H5. clear Hh.
  assert (Hv : ∀ h, visible own tr0 i h -> mi h || sh h = true) by (intros h Hh; by apply orb_true_iff, Hvi).
  destruct c as [[s|h k v|h k f|h k|h k|h k|h k|h|h|h f|p|p v]|h f]; simpl in *; auto 6.
  - destruct Hu as (h & k & Hin & Hh). right. split; [done|]. split; [|auto]. apply orb_true_iff. destruct (Hvi _ Hh); eauto.
  - destruct Hu as (h & k & Hin & Hh). left. eauto.
Qed.
Lemma client_ok c : ∀ tr w, held tr w -> fine api ok own tr0 i c tr w ->
  safe (λ l, X l = true) (λ l, Sb l = true) (accesses papi c tr) w /\
  ∀ hist w', run (accesses papi c tr) w = Ret hist w' -> solo api c tr w hist w' /\ held hist w'.
Proof.
  induction c as [|c k IH]; intros tr w Hh Hf; simpl in *.
  - split; [done|]. intros hist w' Hr. by injection Hr as <- <-.
  - destruct Hf as (Ho & Hu & Hf).
    assert (Hcall : safe (λ l, X l = true) (λ l, Sb l = true) (pmcall papi c) w /\
      ∃ r w', mcall api (the_op c) w = Ret r w' /\ held ((the_op c, r) :: tr) w').
    { destruct (uses_in _ _ _ Hh Hu) as [Hin|(Hl & Hin & Hnt)].
      - apply call_own; auto.
      - destruct (call_look (P := pmcall papi c) tr w (the_op c)) as [H1 (r & w' & H2 & H3 & _)]; auto. split; [done|]. eauto. }
    destruct Hcall as [Hs (r & w1 & Hc & Hh1)]. destruct (IH r _ _ Hh1 (Hf _ _ Hc)) as [IH1 IH2]. split.
    + apply safe_bind; [done|]. intros a w2 Hr. rewrite (Hpsim c w), Hc in Hr. by injection Hr as <- <-.
    + intros hist w' Hr. rewrite run_bind in Hr. unfold Mem.bind in Hr. rewrite (Hpsim c w), Hc in Hr.
      destruct (IH2 _ _ Hr) as [H1 H2]. split; [|done]. by exists r, w1.
Qed.
End map.

(** ** All goroutines *)
Section all.
Context `{Countable K} {HS V CK U : Type}.
Variables (zero : V) (dig : N -> K -> nat -> N) (u0 : U).
Variables (F : fam K HS V CK U) (L : layout K V CK) (Q : N -> Prop) (Hcell : ly_cell L = true).
Local Notation mop := (mop K V U).
Local Notation history := (list (mop * mres V)).
Local Notation world := (world V CK U).
Local Notation mstate := (mstate K V U).
Local Notation tree := (tree K).
Local Notation heap := (gmap loc (N * tree)).
Local Notation RelG := (Refine.RelG F L Q).
Variables (tr : history) (w : world) (σ : mstate) (G : heap).
Hypothesis (Hs : knows tr σ) (HR : RelG G w σ).
Variables (own : positive -> option nat) (starts : list loc).
Hypothesis Hsp : spread (w_nxt w) starts.

(** The block belongs to the map. *)
Definition belongs (l h : positive) : Prop :=
  (∃ s T, G !! h = Some (s, T) /\ l ∈ foot h T) \/ ∃ k, (MPtr h k, RPtr (Some l)) ∈ tr.
Lemma old_iff h : (∃ s, (MNew s, RHandle h) ∈ tr) <-> is_Some (G !! h).
Proof.
  destruct HR as (_ & Hm & _). split.
  - intros [s Hin]. destruct (kn_live _ _ Hs _ _ Hin) as [x Hx]. rewrite Hm, lookup_fmap in Hx. destruct (G !! h); [eauto|done].
  - intros [[s T] HG]. exists s. eapply (kn_seed tr σ Hs). by rewrite Hm, lookup_fmap, HG.
Qed.
Lemma cell_leaf m t : ∀ d lk l v ck, rep L m d lk t -> l ∈ locs t -> m !! l = Some (BKv v ck) -> ∃ k, (k, At l) ∈ leaves t.
Proof.
  induction t as [k p|a cs IH] using tree_ind'; intros d lk l v ck Hr Hl Hb.
  - destruct p as [|c]; simpl in *; [by apply elem_of_nil in Hl|]. apply elem_of_list_singleton in Hl as ->. exists k. by left.
  - apply rep_node_inv in Hr as (-> & Hrs & lks & rest & Ha & Hlen & Hf).
    simpl in Hl. apply elem_of_cons in Hl as [->|Hl]; [congruence|].
    clear Ha Hlen Hrs. simpl. induction Hf as [|lk c lks cs Hr Hf IHf]; simpl in *; [by apply elem_of_nil in Hl|].
    apply Forall_cons in IH as [IH1 IH2]. apply elem_of_app in Hl as [Hl|Hl].
    + destruct (IH1 _ _ _ _ _ Hr Hl Hb) as [k Hk]. exists k. apply elem_of_app. by left.
    + destruct (IHf IH2 Hl) as [k Hk]. exists k. apply elem_of_app. by right.
Qed.
Lemma belongs_lt l h : belongs l h -> (l < w_nxt w)%positive.
Proof.
  destruct HR as (HI & Hm & Hv & _). intros [(s & T & HG & Hl)|(k & Hin)].
  - destruct (in_good _ _ _ _ _ _ HI _ _ _ HG) as [_ Hg]. eapply foot_lt; [apply (in_ok _ _ _ _ _ _ HI)|exact Hg|done].
  - destruct (kn_ptr _ _ Hs _ _ _ Hin) as [_ [v Hx]]. rewrite Hv, vals_lookup in Hx.
    destruct (w_mem w !! l) as [b|] eqn:E; [|done]. by eapply (in_ok _ _ _ _ _ _ HI).
Qed.
Lemma belongs_fun l h1 h2 : belongs l h1 -> belongs l h2 -> h1 = h2.
Proof.
  destruct (kn_prov tr σ Hs) as (π & P1 & P2 & _). destruct HR as (HI & Hm & Hv & _).
  assert (Hπ : ∀ h h' k s T, G !! h = Some (s, T) -> l ∈ foot h T -> (MPtr h' k, RPtr (Some l)) ∈ tr -> h = h').
  { intros h h' k s T HG Hl Hin. destruct (kn_ptr _ _ Hs _ _ _ Hin) as [_ [v Hx]]. rewrite Hv, vals_lookup in Hx.
    destruct (w_mem w !! l) as [[|v' ck|]|] eqn:E; try done.
    destruct (in_good _ _ _ _ _ _ HI _ _ _ HG) as [_ Hg]. pose proof Hg as [[(rt & Hr & _ & Hrep & _) _ _ _] _].
    apply elem_of_cons in Hl as [->|Hl]; [congruence|]. destruct (cell_leaf _ _ _ _ _ _ _ Hrep Hl E) as [k' Hk'].
    apply (Refine.dict_some F L Hcell _ _ _ _ _ _ Hg) in Hk'.
    assert (π !! l = Some h). { eapply P1; [|exact Hk']. by rewrite Hm, lookup_fmap, HG. }
    assert (π !! l = Some h') by (by eapply P2). congruence. }
  intros [(s1 & T1 & HG1 & Hl1)|(k1 & Hin1)] [(s2 & T2 & HG2 & Hl2)|(k2 & Hin2)].
  - destruct (decide (h1 = h2)) as [|Hne]; [done|]. by destruct (in_sep _ _ _ _ _ _ HI _ _ _ _ _ _ Hne HG1 HG2 l Hl1).
  - by eapply Hπ.
  - symmetry. by eapply Hπ.
  - apply P2 in Hin1, Hin2. congruence.
Qed.

(** What belongs to goroutine i. *)
Definition own0 (i : nat) : list positive :=
  flat_map (λ x : positive * (N * tree), if decide (own x.1 = Some i) then foot x.1 x.2.2 else []) (map_to_list G) ++
  flat_map (λ x : mop * mres V, match x with
    | (MPtr h k, RPtr (Some p)) => if decide (own h = Some i) then [p] else []
    | _ => []
    end) tr.
Lemma own0_iff i l : l ∈ own0 i <-> ∃ h, own h = Some i /\ belongs l h.
Proof.
  unfold own0. rewrite elem_of_app, !elem_of_list_In, !in_flat_map. split.
  - intros [([h [s T]] & Hx & Hl)|([op r] & Hx & Hl)].
    + simpl in Hl. destruct (decide (own h = Some i)) as [Ho|]; [|done]. exists h. split; [done|]. left. exists s, T.
      split; [|by apply elem_of_list_In]. apply elem_of_map_to_list. by apply elem_of_list_In.
    + destruct op as [s|h k v|h k f|h k|h k|h k|h k|h|h|h f|p|p v]; try done. destruct r as [| | | |[p|]| |]; try done.
      destruct (decide (own h = Some i)) as [Ho|]; [|done]. destruct Hl as [<-|[]]. exists h. split; [done|]. right. exists k.
      by apply elem_of_list_In.
  - intros (h & Ho & [(s & T & HG & Hl)|(k & Hin)]).
    + left. exists (h, (s, T)). split; [by apply elem_of_list_In, elem_of_map_to_list|]. simpl. rewrite decide_True by done. by apply elem_of_list_In.
    + right. exists (MPtr h k, RPtr (Some l)). split; [by apply elem_of_list_In|]. rewrite decide_True by done. by left.
Qed.
Definition Xs (i : nat) (l : loc) : bool :=
  match starts !! i with Some a => namesb a l || bool_decide (l ∈ own0 i) | None => false end.
Definition Ss (l : loc) : bool := forallb (λ i, negb (Xs i l)) (seq 0 (length starts)).
Definition old (h : positive) : bool := bool_decide (is_Some (G !! h)).
Definition mis (i : nat) (h : positive) : bool := if old h then bool_decide (own h = Some i) else true.
Definition shs (h : positive) : bool := old h && bool_decide (own h = None).

Lemma Xs_iff i l : Xs i l = true <-> ∃ a, starts !! i = Some a /\ (names a l \/ ∃ h, own h = Some i /\ belongs l h).
Proof.
  unfold Xs. destruct (starts !! i) as [a|].
  - rewrite orb_true_iff, bool_decide_eq_true, own0_iff, namesb_ok. naive_solver.
  - naive_solver.
Qed.
Lemma Xs_fun i j l : Xs i l = true -> Xs j l = true -> i = j.
Proof.
  intros (a & Ha & H1)%Xs_iff (b & Hb & H2)%Xs_iff. destruct Hsp as [Hge Hsep].
  assert (Hn : ∀ i a h, starts !! i = Some a -> names a l -> belongs l h -> False).
  { intros i' a' h' Ha' Hna Hbe. apply belongs_lt in Hbe. apply names_le in Hna. apply elem_of_list_lookup_2, Hge in Ha'. lia. }
  destruct H1 as [H1|(h1 & Ho1 & H1)], H2 as [H2|(h2 & Ho2 & H2)].
  - by eapply Hsep.
  - by destruct (Hn i a h2).
  - by destruct (Hn j b h1).
  - rewrite (belongs_fun _ _ _ H1 H2) in Ho1. congruence.
Qed.
Lemma Ss_iff l : Ss l = true <-> ∀ i, Xs i l = false.
Proof.
  unfold Ss. rewrite forallb_forall. split.
  - intros Hf i. destruct (decide (i < length starts)) as [Hi|Hi].
    + specialize (Hf i). destruct (Xs i l); [|done]. simpl in Hf. symmetry. apply Hf. apply in_seq. lia.
    + unfold Xs. destruct (starts !! i) eqn:E; [|done]. apply lookup_lt_Some in E. lia.
  - intros Hf i _. by rewrite Hf.
Qed.
Lemma Xs_Ss i l : Xs i l = true -> Ss l = false.
Proof. intros Hx. destruct (Ss l) eqn:E; [|done]. rewrite Ss_iff in E. rewrite E in Hx. done. Qed.
Lemma shared_Ss l h : belongs l h -> own h = None -> Ss l = true.
Proof.
  intros Hb Ho. apply Ss_iff. intros i. destruct (Xs i l) eqn:E; [|done]. apply Xs_iff in E as (a & Ha & [Hn|(h' & Ho' & Hb')]).
  - destruct Hsp as [Hge _]. apply belongs_lt in Hb. apply names_le in Hn. apply elem_of_list_lookup_2, Hge in Ha. lia.
  - rewrite (belongs_fun _ _ _ Hb Hb') in Ho. congruence.
Qed.
Lemma mis_ok i h : mine own tr i h -> mis i h = true.
Proof.
  intros Hm. unfold mis, old. destruct (bool_decide_reflect (is_Some (G !! h))) as [Hh|]; [|done].
  apply bool_decide_eq_true. by apply Hm, old_iff.
Qed.
Lemma vis_ok i h : visible own tr i h -> mis i h = true \/ shs h = true.
Proof.
  intros Hm. unfold mis, shs, old. destruct (bool_decide_reflect (is_Some (G !! h))) as [Hh|]; [|by left]. simpl.
  rewrite !bool_decide_eq_true. by apply Hm, old_iff.
Qed.
Lemma held_start i a : starts !! i = Some a ->
  held zero dig F L Q (Xs i) Ss (mis i) shs tr σ G (w_mem w) tr (from w a).
Proof.
  intros Ha. exists [], σ, G. split; [done|]. pose proof HR as (HI & Hm & Hv & Hu). destruct Hsp as [Hge _].
  assert (Hle : (w_nxt w <= a)%positive) by (apply Hge; by eapply elem_of_list_lookup_2).
  split; try done; simpl.
  - constructor.
  - split_and!; try done. constructor.
    + intros l b Hb. simpl in *. pose proof (in_ok _ _ _ _ _ _ HI l b Hb). lia.
    + intros h s T HG. destruct (in_good _ _ _ _ _ _ HI _ _ _ HG) as [HQ Hg]. split; [done|].
      eapply Good_keep; [done|]. intros l _. by apply keep_same.
    + apply (in_sep _ _ _ _ _ _ HI).
  - intros h s T HG Hmi l Hl. unfold mis, old in Hmi. rewrite bool_decide_eq_true_2 in Hmi by eauto.
    apply bool_decide_eq_true in Hmi. apply Xs_iff. exists a. split; [done|]. right. exists h. split; [done|]. left. eauto.
  - intros h s T HG Hsh l Hl. apply andb_true_iff in Hsh as [_ Ho%bool_decide_eq_true]. apply (shared_Ss l h); [|done]. left. eauto.
  - intros l Hl. apply Xs_iff. exists a. split; [done|]. by left.
  - intros h k p Hin Hmi. apply Xs_iff. exists a. split; [done|]. right. exists h. split; [|right; eauto].
    unfold mis, old in Hmi. destruct (bool_decide_reflect (is_Some (G !! h))) as [Hh|Hh]; [by apply bool_decide_eq_true in Hmi|].
    exfalso. apply Hh. destruct (kn_ptr _ _ Hs _ _ _ Hin) as [[x Hx] _]. rewrite Hm, lookup_fmap in Hx. destruct (G !! h); [eauto|done].
  - intros h k p Hin Hsh. apply andb_true_iff in Hsh as [_ Ho%bool_decide_eq_true]. apply (shared_Ss p h); [|done]. right. eauto.
  - intros h Hsh. apply andb_true_iff in Hsh as [Ho _]. by apply bool_decide_eq_true in Ho.
  - intros op r h Hin. by apply elem_of_nil in Hin.
  - intros h k p Hin. by apply elem_of_nil in Hin.
  - intros h k p Hin. by apply elem_of_nil in Hin.
Qed.
End all.
