(** Callbacks of All that panic. *)
From Coq Require Import Sorted.
From stdpp Require Import base numbers list gmap.
From Verif Require Import GoInt Mem Hash Amt Families BitsFacts Steps Tree Rep Paths Descend Insert Split Delete Remove Core Scan Order Heap Spec SpecFacts HashFacts Guards Client Types Refine RefineSet Instances Pack Observe ObserveFacts ObserveMap ObserveSet.
Local Open Scope nat_scope.

(** A callback for All that changes the value it is given and the user's own
    state, as g tells, and then returns, or panics where g gives None. *)
Definition raise_cb {K V CK U} (g : U -> K -> V -> U * V * option bool) (k : K) (p : ptr) : M V CK U bool :=
  x <- load_kv p ;;
  u <- get_usr ;;
  store_val p (g u k x.1).1.2 ;;;
  put_usr (g u k x.1).1.1 ;;;
  match (g u k x.1).2 with Some b => ret b | None => panic end.
Definition sraise_cb {K CK U} (g : U -> K -> U * option bool) (k : K) : M unit CK U bool :=
  u <- get_usr ;;
  put_usr (g u k).1 ;;;
  match (g u k).2 with Some b => ret b | None => panic end.
(** The callback that returns false instead of panicking. *)
Definition quiet {K V U} (g : U -> K -> V -> U * V * option bool) (u : U) (k : K) (v : V) : U * V * bool :=
  ((g u k v).1, match (g u k v).2 with Some b => b | None => false end).
Definition squiet {K U} (g : U -> K -> U * option bool) (u : U) (k : K) : U * bool :=
  ((g u k).1, match (g u k).2 with Some b => b | None => false end).
(** Called on the entries es one after the other until it returns false or
    panics, the callback panics. *)
Fixpoint raised {K V U} (g : U -> K -> V -> U * V * option bool) (es : list (K * V)) (u : U) : bool :=
  match es with
  | [] => false
  | (k, v) :: es => match (g u k v).2 with None => true | Some true => raised g es (g u k v).1.1 | Some false => false end
  end.
Fixpoint sraised {K U} (g : U -> K -> U * option bool) (ks : list K) (u : U) : bool :=
  match ks with
  | [] => false
  | k :: ks => match (g u k).2 with None => true | Some true => sraised g ks (g u k).1 | Some false => false end
  end.

(** raised with the values behind pointers. *)
Fixpoint raised_at `{Countable K} {V U} (g : U -> K -> V -> U * V * option bool) (ps : list (K * positive)) (u : U) (vals : gmap positive V) : bool :=
  match ps with
  | [] => false
  | (k, p) :: ps =>
      match vals !! p with
      | None => false
      | Some v => match (g u k v).2 with
                  | None => true
                  | Some true => raised_at g ps (g u k v).1.1 (<[p := (g u k v).1.2]> vals)
                  | Some false => false
                  end
      end
  end.
Lemma raised_vals `{Countable K} {V U} (g : U -> K -> V -> U * V * option bool) ps : ∀ (es : list (K * V)) u vals,
  NoDup ps.*2 -> es.*1 = ps.*1 -> (∀ i k p, ps !! i = Some (k, p) -> ∃ v, vals !! p = Some v /\ es !! i = Some (k, v)) ->
  raised_at g ps u vals = raised g es u.
Proof.
  induction ps as [|[k p] ps IH]; intros [|[k' v] es] u vals Hnd Hk He; try done.
  injection Hk as -> Hk. apply NoDup_cons in Hnd as [Hp Hnd].
  destruct (He 0 k p eq_refl) as (v' & Hv & [= <-]). cbn [raised_at raised]. rewrite Hv.
  destruct (g u k v).2 as [[]|]; [|done..]. apply IH; [done..|].
  intros i k' p' Hi. destruct (He (S i) k' p' Hi) as (v' & Hv' & He'). exists v'. split; [|done].
  rewrite lookup_insert_ne; [done|]. intros <-. apply Hp. apply elem_of_list_fmap. exists (k', p).
  split; [done|]. by eapply elem_of_list_lookup_2.
Qed.

(** The entries with their values. *)
Lemma entries `{Countable K} {V U} (σ : mstate K V U) h s (m : gmap K positive) ps : mwf σ -> ms_map σ !! h = Some (s, m) -> ps ≡ₚ map_to_list m ->
  ∃ es, es ≡ₚ map_to_list (cont σ h) /\ es.*1 = ps.*1 /\ ∀ (g : U -> K -> V -> U * V * option bool) u, raised_at g ps u (ms_val σ) = raised g es u.
Proof.
  intros Hw Hm Hps.
  set (es := omap (λ x : K * positive, (λ v, (x.1, v)) <$> (ms_val σ !! x.2)) ps).
  assert (Hin : ∀ k p, (k, p) ∈ ps <-> m !! k = Some p).
  { intros k p. rewrite Hps. apply elem_of_map_to_list. }
  assert (Hndk : NoDup ps.*1) by (rewrite Hps; apply NoDup_fst_map_to_list).
  assert (Hval : ∀ k p, (k, p) ∈ ps -> is_Some (ms_val σ !! p)).
  { intros k p Hi. apply Hin in Hi. by apply (mw_val _ Hw _ _ _ _ _ Hm Hi). }
  assert (Hndp : NoDup ps.*2).
  { assert (Hinj : ∀ k k' p, (k, p) ∈ ps -> (k', p) ∈ ps -> k = k').
    { intros k k' p H1 H2. apply Hin in H1, H2. by destruct (mw_inj _ Hw _ _ _ _ _ _ _ _ _ Hm H1 Hm H2). }
    clear Hval Hin Hps Hm es. induction ps as [|[k p] ps IH]; simpl in *; [constructor|].
    apply NoDup_cons in Hndk as [Hk Hndk]. apply NoDup_cons. split; [|apply IH; [done|]; intros; eapply Hinj; by right].
    intros Hx. apply elem_of_list_fmap in Hx as ([k' p'] & -> & Hx). simpl in *. apply Hk.
    apply elem_of_list_fmap. exists (k', p'). split; [|done]. simpl. eapply Hinj; [left|by right]. }
  assert (Hes : es.*1 = ps.*1 /\ ∀ i k p, ps !! i = Some (k, p) -> ∃ v, ms_val σ !! p = Some v /\ es !! i = Some (k, v)).
  { subst es. clear Hndk Hndp Hin Hps. induction ps as [|[k p] ps IH]; simpl; [done|].
    destruct (Hval k p) as [v Hv]; [left|]. rewrite Hv. simpl.
    destruct IH as [IH1 IH2]; [intros; eapply Hval; by right|]. split; [by f_equal|].
    intros [|i] k' p' Hi; simpl in *; [injection Hi as <- <-; eauto|by apply IH2]. }
  destruct Hes as [Hk He]. exists es. split_and!; [|done|intros g u; by apply raised_vals].
  apply NoDup_Permutation.
  - apply (NoDup_fmap_1 fst). by rewrite Hk.
  - apply NoDup_map_to_list.
  - intros [k v]. rewrite elem_of_map_to_list, cont_lookup. unfold value. rewrite Hm. simpl. split.
    + intros Hx. apply elem_of_list_omap in Hx as ([k' p] & Hx & E). simpl in E.
      destruct (ms_val σ !! p) as [v'|] eqn:E'; [|done]. injection E as -> ->. apply Hin in Hx. rewrite Hx. done.
    + destruct (m !! k) as [p|] eqn:E; [|done]. simpl. intros Hv. apply elem_of_list_omap. exists (k, p).
      split; [by apply Hin|]. simpl. by rewrite Hv.
Qed.

Section maps.
Context {V U : Type} (zero : V) (fuel : nat) (u0 : U) (Hfuel : 256 <= fuel).
Context `{Countable K} {CK : Type} (api : mapapi K V CK U) (dig : N -> K -> nat -> N).
Variable ok : list (mop K V U * mres V) -> mop K V U -> Prop.
Hypothesis Ht : map_type zero fuel api dig ok.
Implicit Types (tr : list (mop K V U * mres V)) (w : world V CK U) (h p : positive) (k : K) (v : V).

Lemma raise_cb_run g k a w v (ck : CK) : w_mem w !! a = Some (BKv v ck) ->
  let w' := World (<[a := BKv (g (w_usr w) k v).1.2 ck]> (w_mem w)) (w_nxt w) (g (w_usr w) k v).1.1 in
  raise_cb g k (At a) w = match (g (w_usr w) k v).2 with Some b => Ret b w' | None => Panic w' end.
Proof.
  intros Ha. cbv zeta. unfold raise_cb. rewrite (bind_Ret _ _ _ _ _ (load_kv_step _ _ _ _ Ha)).
  rewrite (bind_Ret get_usr _ w (w_usr w) w eq_refl). cbn [fst].
  rewrite (bind_Ret _ _ _ _ _ (store_val_step _ _ _ _ _ Ha)). unfold bind. simpl.
  by destruct (g (w_usr w) k v).2.
Qed.

Lemma raise_sim tr w h s g : mrun api ok u0 tr w -> (MNew s, RHandle h) ∈ tr -> ok tr (MAll h (quiet g)) ->
  ∃ σ m ps w', mspec dig zero u0 tr σ /\ ms_map σ !! h = Some (s, m) /\ ps ≡ₚ map_to_list m /\ in_order dig s ps.*1 /\
    mcall api (MAll h (quiet g)) w = Ret RUnit w' /\
    ma_All api (Some h) (raise_cb g) w = (if raised_at g ps (ms_usr σ) (ms_val σ) then Panic w' else Ret tt w') /\ ms_usr σ = w_usr w /\
    contents api zero ok tr w h (cont σ h).
Proof.
  intros Hr Hn Ho. destruct (map_pack zero fuel api dig ok Ht) as [].
  destruct (Refine.run_rel F L Q HF HL Hcell zero fuel Hfuel dig Hdig FS FM sop mdop vs WS WM
      HFS HFM HWS HWM Hvs Hsop Hmop api HSet HMod HDel HGet HVal HPtr HAll ok u0 Hok tr w Hr) as (σ & Hs & HR).
  assert (Hcont : contents api zero ok tr w h (cont σ h)).
  { eapply (run_contents zero fuel u0 api dig ok Ht (Refine.Rel F L Q)); try done.
    apply (Refine.rel_step F L Q HF HL Hcell zero fuel Hfuel dig Hdig FS FM sop mdop vs WS WM
      HFS HFM HWS HWM Hvs Hsop Hmop api HSet HMod HDel HGet HVal HPtr HAll ok u0 Hok). }
  destruct HR as (G & HI & Hm & Hv & Hu).
  destruct (mspec_new _ _ _ _ _ Hs _ _ Hn) as [m Hmh]. pose proof Hmh as Hmh'.
  rewrite Hm, lookup_fmap in Hmh'. destruct (G !! h) as [[s' T]|] eqn:HGh; [|done]. injection Hmh' as -> <-.
  destruct (in_good _ _ _ _ _ _ HI _ _ _ HGh) as [HQ HG].
  assert (Hvis : ∀ es w, Inv F L 240 Q w G -> (∀ e, e ∈ es -> e ∈ Refine.ent T) ->
    ∃ b w', visits L (act_map F (all_cb (quiet g))) (map (λ e, (e.1, At e.2)) es) w = Ret b w' /\
      visits L (act_map F (raise_cb g)) (map (λ e, (e.1, At e.2)) es) w = if raised_at g es (w_usr w) (vals w) then Panic w' else Ret b w').
  { clear w Hr HI Hm Hv Hu HG Hcont. induction es as [|[k a] es IH]; intros w HI Hsub; cbn [map visits raised_at fst snd].
    { exists true, w. done. }
    destruct (in_good _ _ _ _ _ _ HI _ _ _ HGh) as [_ HG].
    assert (Hin : (k, At a) ∈ leaves T) by (apply (ent_in F L Hcell _ _ _ _ _ _ HG), Hsub; left).
    destruct (Good_ok _ _ _ _ _ _ _ _ _ HG Hin) as [Hk Hc]. pose proof Hc as Hc'.
    unfold cell in Hc'. rewrite Hcell in Hc'. destruct Hc' as (a' & v & [= <-] & Ha).
    set (w1 := World (<[a := BKv (g (w_usr w) k v).1.2 (ly_ck L k)]> (w_mem w)) (w_nxt w) (g (w_usr w) k v).1.1).
    assert (Hrun1 : act_map F (all_cb (quiet g)) (ly_leaf L k (At a)) w = Ret (quiet g (w_usr w) k v).2 w1).
    { unfold act_map. rewrite (bind_Ret _ _ _ _ _ (fo_key _ _ HF k (At a) w Hk Hc)).
      rewrite (fo_ptr _ _ HF). by apply (all_cb_run (quiet g)). }
    assert (Hrun2 : act_map F (raise_cb g) (ly_leaf L k (At a)) w = match (g (w_usr w) k v).2 with Some b => Ret b w1 | None => Panic w1 end).
    { unfold act_map. rewrite (bind_Ret _ _ _ _ _ (fo_key _ _ HF k (At a) w Hk Hc)).
      rewrite (fo_ptr _ _ HF). by apply raise_cb_run. }
    rewrite (bind_Ret _ _ _ _ _ Hrun1). rewrite vals_lookup, Ha. unfold quiet at 1. cbn [snd].
    unfold bind. rewrite Hrun2. destruct (g (w_usr w) k v).2 as [[]|].
    - assert (HI' : Inv F L 240 Q w1 G) by (by eapply Inv_store).
      destruct (IH w1 HI') as (b & w' & H1 & H2); [intros e He; apply Hsub; by right|].
      exists b, w'. split; [exact H1|]. rewrite H2. unfold w1 at 1 2. by rewrite vals_store.
    - by exists false, w1.
    - by exists false, w1. }
  destruct (Hvis (Refine.ent T) w HI) as (b & w' & H1 & H2); [done|].
  rewrite <- (Refine.ent_leaves F L Hcell _ _ _ _ HG) in H1, H2.
  assert (Hscan : ∀ do, (∀ k a w b w', (k, At a) ∈ leaves T -> Inv F L 240 Q w G -> do k (At a) w = Ret b w' -> Inv F L 240 Q w' G) ->
    scan (act_map F do) fuel (RootRef h) w = visits L (act_map F do) (leaves T) w).
  { intros do Hdo. apply (scan_spec L (act_map F do) h T (λ w, Inv F L 240 Q w G)) with (c := []); try done.
    - intros w0 H0. destruct (in_good _ _ _ _ _ _ H0 _ _ _ HGh) as [_ HG0]. by eapply Good_carries.
    - intros k p w0 b0 w0' Hin H0 Hx. destruct (in_good _ _ _ _ _ _ H0 _ _ _ HGh) as [_ HG0].
      destruct (Good_ok _ _ _ _ _ _ _ _ _ HG0 Hin) as [Hk Hc]. pose proof Hc as Hc'.
      unfold cell in Hc'. rewrite Hcell in Hc'. destruct Hc' as (a' & v & -> & Ha).
      unfold act_map in Hx. rewrite (bind_Ret _ _ _ _ _ (fo_key _ _ HF k (At a') w0 Hk Hc)) in Hx.
      rewrite (fo_ptr _ _ HF) in Hx. by eapply Hdo.
    - by eapply Good_node.
    - destruct HG as [HM _]. pose proof (mi_hgt _ _ _ _ _ _ HM). lia. }
  assert (Hcellat : ∀ k a w, (k, At a) ∈ leaves T -> Inv F L 240 Q w G -> ∃ v, w_mem w !! a = Some (BKv v (ly_ck L k))).
  { intros k a w0 Hin H0. destruct (in_good _ _ _ _ _ _ H0 _ _ _ HGh) as [_ HG0].
    destruct (Good_ok _ _ _ _ _ _ _ _ _ HG0 Hin) as [_ Hc]. unfold cell in Hc. rewrite Hcell in Hc.
    destruct Hc as (a' & v & [= <-] & Ha). eauto. }
  exists σ, (Refine.dict T), (Refine.ent T), w'. split_and!; try done.
  - symmetry. apply (Refine.dict_list F L Hcell _ _ _ _ HG).
  - rewrite (Refine.ent_keys F L Hcell _ _ _ _ HG). pose proof (order_spec F L 240 s w h T HG) as Hso.
    eapply StronglySorted_impl; [|exact Hso]. intros x y (d & Hd1 & Hd2). exists d. split.
    + intros i Hi. rewrite <- !Hdig. by apply Hd1.
    + by rewrite <- !Hdig.
  - cbn [mcall]. rewrite HAll. unfold all_map. rewrite bind_assoc. unfold bind.
    rewrite Hscan, H1; [done|]. intros k a w0 b0 w1 Hin H0 Hx. destruct (Hcellat k a w0 Hin H0) as [v Ha].
    rewrite (all_cb_run _ _ _ _ _ _ Ha) in Hx. injection Hx as <- <-. by eapply Inv_store.
  - rewrite HAll. unfold all_map, bind. rewrite Hscan, H2, Hu, Hv.
    + by destruct (raised_at _ _ _ _).
    + intros k a w0 b0 w1 Hin H0 Hx. destruct (Hcellat k a w0 Hin H0) as [v Ha].
      rewrite (raise_cb_run _ _ _ _ _ _ Ha) in Hx. destruct (g (w_usr w0) k v).2; [|done]. injection Hx as <- <-. by eapply Inv_store.
Qed.

(** All with a callback that may panic does what All does with the callback that
    returns false instead; it panics just if the callback does. *)
Theorem raise_effect tr w h s g m : mrun api ok u0 tr w -> (MNew s, RHandle h) ∈ tr -> ok tr (MAll h (quiet g)) ->
  contents api zero ok tr w h m ->
  ∃ es w', es ≡ₚ map_to_list m /\ in_order dig s es.*1 /\
    ma_All api (Some h) (raise_cb g) w = (if raised g es (w_usr w) then Panic w' else Ret tt w') /\
    let tr' := (MAll h (quiet g), RUnit) :: tr in
    mrun api ok u0 tr' w' /\ w_usr w' = usr_after (quiet g) es (w_usr w) /\
    contents api zero ok tr' w' h (list_to_map (after (quiet g) es (w_usr w))) /\
    ∀ h' m', h' ≠ h -> contents api zero ok tr w h' m' -> contents api zero ok tr' w' h' m'.
Proof.
  intros Hr Hn Ho Hm. destruct (raise_sim tr w h s g Hr Hn Ho) as (σ & mp & ps & w' & Hs & Hmp & Hps & Hord & Hc & Hra & Hu & Hcont).
  destruct (obs_all zero fuel u0 Hfuel api dig ok Ht tr w h s (quiet g) m Hr Hn Ho Hm) as (es & w2 & Hc2 & Hes & Hord2 & Hx).
  rewrite Hc in Hc2. injection Hc2 as <-.
  destruct (entries σ h s mp ps (mspec_wf _ _ _ _ _ Hs) Hmp Hps) as (es2 & Hes2 & Hk2 & Hr2).
  assert (Hmc : m = cont σ h) by (eapply contents_unique; [exact Hm|exact Hcont]). rewrite <- Hmc in Hes2.
  assert (es2 = es) as ->.
  { assert (Hks : es2.*1 = es.*1).
    { eapply (in_order_unique dig s); [by rewrite Hk2|done|]. by rewrite Hes2, Hes. }
    assert (Hperm : es2 ≡ₚ es) by (by rewrite Hes2, Hes).
    assert (Hmem : ∀ e, e ∈ es2 -> m !! e.1 = Some e.2) by (intros [k v] He; rewrite Hes2 in He; by apply elem_of_map_to_list in He).
    assert (Hmem' : ∀ e, e ∈ es -> m !! e.1 = Some e.2) by (intros [k v] He; rewrite Hes in He; by apply elem_of_map_to_list in He).
    clear -Hks Hmem Hmem'. revert es Hks Hmem Hmem'. induction es2 as [|[k v] l IH]; intros [|[k' v'] l'] Hk Hm Hm'; try done.
    injection Hk as -> Hk. f_equal; [|apply IH; [done|intros; apply Hm; by right|intros; apply Hm'; by right]].
    pose proof (Hm (k', v) ltac:(left)) as E1. pose proof (Hm' (k', v') ltac:(left)) as E2. simpl in *. congruence. }
  exists es, w'. cbv zeta. rewrite Hra, Hr2, Hu. destruct Hx as (Hx1 & Hx2 & Hx3).
  split; [done|]. split; [done|]. split; [done|]. split; [by econstructor|]. split; [done|]. split; done.
Qed.
End maps.

Section sets.
Context {U : Type} (fuel : nat) (u0 : U) (Hfuel : 256 <= fuel).
Context `{Countable K} {CK : Type} (api : setapi K unit CK U) (dig : N -> K -> nat -> N).
Variable ok : list (sop K U * sres) -> sop K U -> Prop.
Hypothesis Ht : set_type fuel api dig ok.
Implicit Types (tr : list (sop K U * sres)) (w : world unit CK U) (h : positive) (k : K).

Lemma sraise_cb_run g k w :
  let w' := World (w_mem w) (w_nxt w) (g (w_usr w) k).1 in
  sraise_cb (CK:=CK) g k w = match (g (w_usr w) k).2 with Some b => Ret b w' | None => Panic w' end.
Proof. unfold sraise_cb, bind. simpl. by destruct (g (w_usr w) k).2. Qed.

Lemma sraise_sim tr w h s g : srun api ok u0 tr w -> (SNew s, THandle h) ∈ tr -> ok tr (SAll h (squiet g)) ->
  ∃ X ks w', members api ok tr w h X /\ ks ≡ₚ elements X /\ in_order dig s ks /\
    scall api (SAll h (squiet g)) w = Ret TUnit w' /\
    sa_All api (Some h) (sraise_cb g) w = (if sraised g ks (w_usr w) then Panic w' else Ret tt w').
Proof.
  intros Hr Hn Ho. destruct (set_pack fuel api dig ok Ht) as [].
  destruct (RefineSet.run_rel F L Q HF HL fuel Hfuel dig Hdig FA aop W dfull tt HFA HW Haop api HAdd HDel HHas HAll ok u0 Hok tr w Hr) as (σ & Hs & HR).
  assert (Hcont : members api ok tr w h (elems σ h)).
  { eapply (run_members fuel u0 api dig ok Ht (RefineSet.Rel F L Q)); try done.
    apply (RefineSet.rel_step F L Q HF HL fuel Hfuel dig Hdig FA aop W dfull tt HFA HW Haop api HAdd HDel HHas HAll ok u0 Hok). }
  destruct HR as (G & HI & Hm & Hu).
  destruct (sspec_new _ _ _ _ Hs _ _ Hn) as [X Hmh]. pose proof Hmh as Hmh'.
  rewrite Hm, lookup_fmap in Hmh'. destruct (G !! h) as [[s' T]|] eqn:HGh; [|done]. injection Hmh' as -> <-.
  destruct (in_good _ _ _ _ _ _ HI _ _ _ HGh) as [HQ HG].
  assert (Hvis : ∀ es w, Inv F L 240 Q w G -> (∀ e, e ∈ es -> e ∈ leaves T) ->
    ∃ b w', visits L (act_set F (set_cb (squiet g))) es w = Ret b w' /\
      visits L (act_set F (sraise_cb g)) es w = if sraised g (map fst es) (w_usr w) then Panic w' else Ret b w').
  { clear w Hr HI Hm Hu HG Hcont. induction es as [|[k p] es IH]; intros w HI Hsub; cbn [map visits sraised fst snd].
    { exists true, w. done. }
    destruct (in_good _ _ _ _ _ _ HI _ _ _ HGh) as [_ HG].
    assert (Hin : (k, p) ∈ leaves T) by (apply Hsub; left).
    destruct (Good_ok _ _ _ _ _ _ _ _ _ HG Hin) as [Hk Hc].
    set (w1 := World (w_mem w) (w_nxt w) (g (w_usr w) k).1).
    assert (Hrun1 : act_set F (set_cb (squiet g)) (ly_leaf L k p) w = Ret (squiet g (w_usr w) k).2 w1).
    { unfold act_set. by rewrite (bind_Ret _ _ _ _ _ (fo_key _ _ HF k p w Hk Hc)). }
    assert (Hrun2 : act_set F (sraise_cb g) (ly_leaf L k p) w = match (g (w_usr w) k).2 with Some b => Ret b w1 | None => Panic w1 end).
    { unfold act_set. rewrite (bind_Ret _ _ _ _ _ (fo_key _ _ HF k p w Hk Hc)). apply sraise_cb_run. }
    rewrite (bind_Ret _ _ _ _ _ Hrun1). unfold squiet at 1. cbn [snd].
    unfold bind. rewrite Hrun2. destruct (g (w_usr w) k).2 as [[]|].
    - assert (HI' : Inv F L 240 Q w1 G) by (by apply Inv_usr).
      destruct (IH w1 HI') as (b & w' & H1 & H2); [intros e He; apply Hsub; by right|].
      exists b, w'. split; [exact H1|]. by rewrite H2.
    - by exists false, w1.
    - by exists false, w1. }
  destruct (Hvis (leaves T) w HI) as (b & w' & H1 & H2); [done|].
  assert (Hscan : ∀ do, (∀ k w b w', Inv F L 240 Q w G -> do k w = Ret b w' -> Inv F L 240 Q w' G) ->
    scan (act_set F do) fuel (RootRef h) w = visits L (act_set F do) (leaves T) w).
  { intros do Hdo. apply (scan_spec L (act_set F do) h T (λ w, Inv F L 240 Q w G)) with (c := []); try done.
    - intros w0 H0. destruct (in_good _ _ _ _ _ _ H0 _ _ _ HGh) as [_ HG0]. by eapply Good_carries.
    - intros k p w0 b0 w0' Hin H0 Hx. destruct (in_good _ _ _ _ _ _ H0 _ _ _ HGh) as [_ HG0].
      destruct (Good_ok _ _ _ _ _ _ _ _ _ HG0 Hin) as [Hk Hc].
      unfold act_set in Hx. rewrite (bind_Ret _ _ _ _ _ (fo_key _ _ HF k p w0 Hk Hc)) in Hx. by eapply Hdo.
    - by eapply Good_node.
    - destruct HG as [HM _]. pose proof (mi_hgt _ _ _ _ _ _ HM). lia. }
  exists (RefineSet.keys T), (map fst (leaves T)), w'.
  split; [|split; [|split; [|split]]].
  - unfold elems in Hcont. by rewrite Hmh in Hcont.
  - by rewrite (RefineSet.keys_list F L _ _ _ _ HG).
  - pose proof (order_spec F L 240 s w h T HG) as Hso.
    eapply StronglySorted_impl; [|exact Hso]. intros x y (d & Hd1 & Hd2). exists d. split.
    + intros i Hi. rewrite <- !Hdig. by apply Hd1.
    + by rewrite <- !Hdig.
  - cbn [scall]. rewrite HAll. unfold all_set. rewrite bind_assoc. unfold bind.
    rewrite Hscan, H1; [done|]. intros k w0 b0 w1 H0 Hx. injection Hx as <- <-. by apply Inv_usr.
  - rewrite HAll. unfold all_set, bind. rewrite Hscan, H2.
    + by destruct (sraised _ _ _).
    + intros k w0 b0 w1 H0 Hx. rewrite sraise_cb_run in Hx. destruct (g (w_usr w0) k).2; [|done]. injection Hx as <- <-. by apply Inv_usr.
Qed.

Theorem sraise_effect tr w h s g X : srun api ok u0 tr w -> (SNew s, THandle h) ∈ tr -> ok tr (SAll h (squiet g)) ->
  members api ok tr w h X ->
  ∃ ks w', ks ≡ₚ elements X /\ in_order dig s ks /\
    sa_All api (Some h) (sraise_cb g) w = (if sraised g ks (w_usr w) then Panic w' else Ret tt w') /\
    let tr' := (SAll h (squiet g), TUnit) :: tr in
    srun api ok u0 tr' w' /\ w_usr w' = (svisit (squiet g) ks (w_usr w)).2 /\
    ∀ h' X', members api ok tr w h' X' -> members api ok tr' w' h' X'.
Proof.
  intros Hr Hn Ho Hm. destruct (sraise_sim tr w h s g Hr Hn Ho) as (X2 & ks & w' & Hm2 & Hks & Hord & Hc & Hra).
  destruct (sobs_all fuel u0 Hfuel api dig ok Ht tr w h s (squiet g) X Hr Hn Ho Hm) as (ks2 & w2 & Hc2 & Hks2 & Hord2 & Hx1 & Hx2).
  rewrite Hc in Hc2. injection Hc2 as <-.
  assert (X2 = X) as -> by (eapply members_unique; [exact Hm2|exact Hm]).
  assert (ks2 = ks) as -> by (eapply (in_order_unique dig s); [done..|by rewrite Hks, Hks2]).
  exists ks, w'. cbv zeta. split; [done|]. split; [done|]. split; [done|]. split; [by econstructor|]. split; done.
Qed.
End sets.
