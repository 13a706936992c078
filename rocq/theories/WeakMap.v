(** The map types against the bags of Bag.v, for arbitrary hash and equality
    functions. *)
From Coq Require Import Sorted SpecFloat.
From stdpp Require Import base numbers list gmap.
From Verif Require Import GoInt Mem Hash Amt Families BitsFacts Steps Tree Rep Paths Descend Insert Split Delete Remove Core Scan Heap Spec Client Refine Levels Shape Weak Place WeakHeap Rekey Bag WeakRuns.
Local Open Scope nat_scope.

Lemma le254 : 254 <= 254.
Proof. lia. Qed.

(** ** Histories of bags *)
Section hist.
Context {K V U : Type} (eq : K -> K -> bool) (zero : V) (lost over stable : bool) (clob : K -> K -> Prop) (u0 : U).
Implicit Types (σ : bstate K V U) (tr : list (mop K V U * mres V)).
Local Notation bstep := (bstep eq zero lost over stable).
Local Notation bspec := (bspec eq zero lost over stable clob u0).

Lemma each_dom (f : U -> K -> V -> U * V * bool) es : ∀ u (vs : gmap positive V) p, is_Some (vs !! p) -> is_Some ((each f es u vs).2 !! p).
Proof.
  induction es as [|[k a] es IH]; intros u vs p Hp; cbn [each]; [done|].
  destruct (vs !! a) as [v|]; [|done]. destruct (f u k v) as [[u' v'] b].
  assert (is_Some (<[a := v']> vs !! p)) by (rewrite lookup_insert_is_Some; destruct (decide (a = p)); auto).
  destruct b; [by apply IH|done].
Qed.

(** An iteration that leaves the values alone. *)
Definition shown (vs : gmap positive V) (es : list (K * positive)) : list (K * V) :=
  omap (λ e, (λ v, (e.1, v)) <$> vs !! e.2) es.
Lemma each_shown (g : U -> K -> V -> U) (vs : gmap positive V) es : ∀ u, (∀ e, e ∈ es -> is_Some (vs !! e.2)) ->
  each (λ u k v, (g u k v, v, true)) es u vs = (foldl (λ u e, g u e.1 e.2) u (shown vs es), vs) /\
  length (shown vs es) = length es.
Proof.
  induction es as [|[k p] es IH]; intros u Hes; [done|].
  destruct (Hes (k, p) ltac:(left)) as [v Hv]. cbn [snd] in Hv. cbn [each]. rewrite Hv, insert_id by done.
  assert (E : shown vs ((k, p) :: es) = (k, v) :: shown vs es) by (unfold shown; simpl; by rewrite Hv).
  rewrite E. destruct (IH (g u k v)) as [H1 H2]; [intros e He; apply Hes; by right|].
  split; [exact H1|]. simpl. by rewrite H2.
Qed.
Lemma shown_in vs es k p v : (k, p) ∈ es -> vs !! p = Some v -> (k, v) ∈ shown vs es.
Proof. intros Hin Hv. apply elem_of_list_omap. exists (k, p). split; [done|]. simpl. by rewrite Hv. Qed.

Lemma bstep_mono σ op res σ' : bstep σ op res σ' ->
  (∀ h, is_Some (bs_map σ !! h) -> is_Some (bs_map σ' !! h)) /\
  (∀ p, is_Some (bs_val σ !! p) -> is_Some (bs_val σ' !! p)).
Proof.
  assert (Hins : ∀ {A} (m : gmap positive A) i x j, is_Some (m !! j) -> is_Some (<[i := x]> m !! j)).
  { intros A m i x j H. rewrite lookup_insert_is_Some. destruct (decide (i = j)); auto. }
  assert (Hput : ∀ l h k g, bput eq zero over stable l σ h k g σ' ->
    (∀ h, is_Some (bs_map σ !! h) -> is_Some (bs_map σ' !! h)) /\
    (∀ p, is_Some (bs_val σ !! p) -> is_Some (bs_val σ' !! p))).
  { intros l h k g (B & HB & Hx). destruct (bg_look B k).
    - destruct Hx as (v & Hv & ->). simpl. auto.
    - destruct Hx as (p & v & E & look & _ & _ & _ & _ & _ & _ & ->). simpl. auto. }
  destruct op as [s|h k v|h k f|h k|h k|h k|h k|h|h|h f|p|p v]; cbn [Bag.bstep]; intros Hst.
  - destruct Hst as (h & look & _ & _ & _ & ->). simpl. auto.
  - destruct Hst as [_ Hst]. by eapply Hput.
  - destruct Hst as [_ Hst]. by eapply Hput.
  - destruct Hst as [_ (B & HB & Hx)]. destruct (bg_look B k); [|by subst].
    destruct Hx as (k' & E & look & _ & _ & _ & _ & ->). simpl. auto.
  - by destruct Hst as [-> _].
  - by destruct Hst as [-> _].
  - by destruct Hst as [-> _].
  - by destruct Hst as [-> _].
  - by destruct Hst as [-> _].
  - destruct Hst as [_ (B & es & HB & _ & ->)]. simpl. split; [done|]. intros p. apply each_dom.
  - by destruct Hst as [-> _].
  - destruct Hst as [_ [_ ->]]. simpl. auto.
Qed.

Lemma bkey_mono σ p k σ' : bkey eq σ p k σ' ->
  (∀ h, is_Some (bs_map σ !! h) -> is_Some (bs_map σ' !! h)) /\
  (∀ p, is_Some (bs_val σ !! p) -> is_Some (bs_val σ' !! p)).
Proof.
  intros (_ & -> & _ & Hm). split; [|done]. intros h [B HB]. specialize (Hm h). rewrite HB in Hm.
  destruct (bs_map σ' !! h); [eauto|done].
Qed.

Lemma bspec_live tr σ : bspec tr σ -> ∀ s h, (MNew s, RHandle h) ∈ tr -> is_Some (bs_map σ !! h).
Proof.
  induction 1 as [|tr σ op res σ' Hs IH Hst|tr σ p k σ' Hs IH Hc Hst]; intros s h Hin.
  - by apply elem_of_nil in Hin.
  - apply elem_of_cons in Hin as [[= <- <-]|Hin].
    + destruct Hst as (h' & look & [= <-] & _ & _ & ->). simpl. rewrite lookup_insert. eauto.
    + apply bstep_mono in Hst as [H1 _]. by eapply H1, IH.
  - apply bkey_mono in Hst as [H1 _]. by eapply H1, IH.
Qed.

(** Everything that is found is an entry, and every entry has a value. *)
Lemma bspec_good tr σ : bspec tr σ -> ∀ h B, bs_map σ !! h = Some B ->
  finds eq (bg_ent B) (bg_look B) /\ ∀ k p, (k, p) ∈ bg_ent B -> is_Some (bs_val σ !! p).
Proof.
  assert (Hkeep : ∀ σ σ', (∀ p, is_Some (bs_val σ !! p) -> is_Some (bs_val σ' !! p)) ->
    (∀ h B, bs_map σ !! h = Some B -> finds eq (bg_ent B) (bg_look B) /\ ∀ k p, (k, p) ∈ bg_ent B -> is_Some (bs_val σ !! p)) ->
    ∀ h B, bs_map σ !! h = Some B -> finds eq (bg_ent B) (bg_look B) /\ ∀ k p, (k, p) ∈ bg_ent B -> is_Some (bs_val σ' !! p)).
  { intros σ1 σ2 Hm IH h B HB. destruct (IH h B HB) as [H1 H2]. split; [done|]. intros k p Hin. by eapply Hm, H2. }
  induction 1 as [|tr σ op res σ' Hs IH Hst|tr σ p k σ' Hs IH Hc Hst]; intros h B HB.
  - simpl in HB. by rewrite lookup_empty in HB.
  - pose proof (bstep_mono _ _ _ _ Hst) as [_ Hm].
    assert (Hput : ∀ l h0 k g, bput eq zero over stable l σ h0 k g σ' ->
      finds eq (bg_ent B) (bg_look B) /\ ∀ k p, (k, p) ∈ bg_ent B -> is_Some (bs_val σ' !! p)).
    { intros l h0 k g (B0 & HB0 & Hx). destruct (bg_look B0 k).
      - destruct Hx as (v & Hv & ->). by eapply (Hkeep σ).
      - destruct Hx as (p & v & E & look & _ & _ & HE & Hf & _ & _ & ->). simpl in HB. destruct (decide (h = h0)) as [->|Hne].
        + rewrite lookup_insert in HB. injection HB as <-. cbn [bg_ent bg_look]. split; [done|]. intros k1 p1 Hin. cbn [bs_val].
          destruct (decide (p1 = p)) as [->|Hp]; [rewrite lookup_insert; eauto|]. rewrite lookup_insert_ne by done.
          apply (proj2 (IH _ _ HB0) k1). destruct HE as [HE|(_ & k0 & p0 & E' & HE1 & _ & HE)]; rewrite HE in Hin;
            apply elem_of_cons in Hin as [[= -> ->]|Hin]; try done. rewrite HE1. by right.
        + rewrite lookup_insert_ne in HB by done. eapply (Hkeep σ); eauto. }
    destruct op as [s|h0 k v|h0 k f|h0 k|h0 k|h0 k|h0 k|h0|h0|h0 f|p|p v]; cbn [Bag.bstep] in Hst.
    + destruct Hst as (h0 & look & _ & _ & Hl & ->). simpl in HB. destruct (decide (h = h0)) as [->|Hne].
      * rewrite lookup_insert in HB. injection HB as <-. cbn [bg_ent bg_look]. split.
        -- intros k p Hx. by rewrite Hl in Hx.
        -- intros k p Hx. by apply elem_of_nil in Hx.
      * rewrite lookup_insert_ne in HB by done. by eapply IH.
    + destruct Hst as [_ Hst]. by eapply Hput.
    + destruct Hst as [_ Hst]. by eapply Hput.
    + destruct Hst as [_ (B0 & HB0 & Hx)]. destruct (bg_look B0 k); [|subst; by eapply IH].
      destruct Hx as (k' & E & look & _ & HE & Hf & _ & ->). simpl in HB. destruct (decide (h = h0)) as [->|Hne].
      * rewrite lookup_insert in HB. injection HB as <-. cbn [bg_ent bg_look]. split; [done|]. intros k1 p1 Hin.
        apply (proj2 (IH _ _ HB0) k1). rewrite HE. by right.
      * rewrite lookup_insert_ne in HB by done. by eapply IH.
    + destruct Hst as [-> _]. by eapply IH.
    + destruct Hst as [-> _]. by eapply IH.
    + destruct Hst as [-> _]. by eapply IH.
    + destruct Hst as [-> _]. by eapply IH.
    + destruct Hst as [-> _]. by eapply IH.
    + destruct Hst as [_ (B0 & es & HB0 & _ & ->)]. by eapply (Hkeep σ).
    + destruct Hst as [-> _]. by eapply IH.
    + destruct Hst as [_ [_ ->]]. by eapply (Hkeep σ).
  - destruct Hst as (_ & Hv & _ & Hm). specialize (Hm h). rewrite HB in Hm.
    destruct (bs_map σ !! h) as [B0|] eqn:E0; [|done]. destruct Hm as (He & Hf & _ & _). split; [done|].
    intros k1 p1 Hin. rewrite Hv. rewrite He in Hin. apply elem_of_list_In, in_map_iff in Hin as ([k0 p0] & Heq & Hin).
    apply elem_of_list_In in Hin. destruct (IH _ _ E0) as [_ H2]. unfold rekeyed in Heq. cbn [snd] in Heq.
    destruct (decide (p0 = p)); injection Heq as <- <-; subst; by eapply H2.
Qed.

Lemma bspec_addr tr σ : bspec tr σ -> ∀ h k p, (MPtr h k, RPtr (Some p)) ∈ tr -> is_Some (bs_val σ !! p).
Proof.
  induction 1 as [|tr σ op res σ' Hs IH Hst|tr σ p0 k0 σ' Hs IH Hc Hst]; intros h k p Hin.
  - by apply elem_of_nil in Hin.
  - pose proof (bstep_mono _ _ _ _ Hst) as [_ Hm]. apply elem_of_cons in Hin as [[= <- <-]|Hin]; [|by eapply Hm, IH].
    destruct Hst as [-> (B & HB & [= Hp])]. destruct (bspec_good _ _ Hs _ _ HB) as [Hf Hv].
    destruct (Hf k p (eq_sym Hp)) as (k' & Hin & _). by eapply Hv.
  - apply bkey_mono in Hst as [_ H1]. by eapply H1, IH.
Qed.
End hist.

Section refine.
Context {K HS V CK U : Type}.
Variables (F : fam K HS V CK U) (L : layout K V CK) (PL : N -> tree K -> Prop).
Local Notation D := 254.
Local Notation world := (world V CK U).
Local Notation M := (M V CK U).
Local Notation tree := (tree K).
Local Notation heap := (gmap loc (N * tree)).
Local Notation bstate := (bstate K V U).
Local Notation mop := (mop K V U).
Implicit Types (w : world) (T : tree) (k : K) (h : loc) (s : N) (v : V) (u : U) (G : heap) (σ : bstate).
Hypothesis HF : fam_ok F L.
Hypothesis Hall : ∀ k, ly_ok L k.
Hypothesis Hflat : ∀ k p, lk_tmap (ly_leaf L k p) = 0%N.
Hypothesis Hrepl : ∀ k p ck cp, lk_with_ptr p (ly_leaf L ck cp) = ly_leaf L k p.
Hypothesis Hcell : ly_cell L = true.
Hypothesis HPnew : ∀ s a, PL s (Node a []).
Hypothesis HP : place_ok F PL.
Variables (zero : V) (fuel : nat).
Hypothesis Hfuel : 256 <= fuel.
Local Notation WInv := (WInv L PL D).
Local Notation WGood s := (WGood L PL D s).
Local Notation eq := (f_eq F).
Variables (lost over stable : bool).

Definition bag_of (x : N * tree) : bag K := Bag (went x.2) (wlook F x.1 x.2).
Definition Rel w σ : Prop := ∃ G, WInv w G /\ bs_map σ = bag_of <$> G /\ bs_val σ = vals w /\ bs_usr σ = w_usr w.

Lemma Rel_init u : Rel (empty_world u) (binit u).
Proof.
  exists ∅. split; [apply WInv_empty|]. split_and!; [by rewrite fmap_empty| |done].
  apply map_eq. intros l. rewrite vals_lookup. done.
Qed.
Lemma Rel_handle w σ h : Rel w σ -> is_Some (bs_map σ !! h) ->
  ∃ G s T, WInv w G /\ G !! h = Some (s, T) /\ WGood s w h T /\
    bs_map σ = bag_of <$> G /\ bs_map σ !! h = Some (bag_of (s, T)) /\ bs_val σ = vals w /\ bs_usr σ = w_usr w.
Proof.
  intros (G & HI & Hm & Hv & Hu) [x Hx]. rewrite Hm, lookup_fmap in Hx.
  destruct (G !! h) as [[s T]|] eqn:E; [|done]. exists G, s, T.
  split_and!; try done; [by eapply wi_good|]. rewrite Hm, lookup_fmap, E. done.
Qed.
Lemma look_finds s T : finds eq (went T) (wlook F s T).
Proof. intros k p Hl. by eapply wlook_ent. Qed.

(** ** Reading *)
Lemma ptr_spec w G h s T k : WInv w G -> G !! h = Some (s, T) ->
  ptr_of F fuel (Some h) k w = Ret (match wlook F s T k with Some a => At a | None => Nil end) w.
Proof.
  intros HI Hh. pose proof (WInv_find F L PL D HF Hall Hcell le254 w G h s T k fuel HI Hh Hfuel) as Hf. unfold ptr_of.
  destruct (wlook F s T k) as [p|].
  - destruct Hf as (k' & _ & _ & Hr). rewrite (bind_Ret _ _ _ _ _ Hr). by rewrite (fo_ptr _ _ HF).
  - by rewrite (bind_Ret _ _ _ _ _ Hf).
Qed.
Lemma bvalue_look w σ h s T k : bs_map σ !! h = Some (bag_of (s, T)) -> bs_val σ = vals w ->
  bvalue σ h k = (a ← wlook F s T k; vals w !! a).
Proof. intros Hm Hv. unfold bvalue. rewrite Hm. simpl. by rewrite Hv. Qed.
Lemma found_block s w h T k a : WGood s w h T -> wlook F s T k = Some a ->
  ∃ v ck, w_mem w !! a = Some (BKv v ck) /\ vals w !! a = Some v.
Proof.
  intros HG Hl. apply wlook_ent in Hl as (k' & Hin & _).
  destruct (went_block L PL D Hcell _ _ _ _ _ _ HG Hin) as (v & Hb & Hv). eauto.
Qed.
Lemma get_spec w σ h s T k : WGood s w h T -> bs_map σ !! h = Some (bag_of (s, T)) -> bs_val σ = vals w ->
  ptr_of F fuel (Some h) k w = Ret (match wlook F s T k with Some a => At a | None => Nil end) w ->
  get F fuel zero (Some h) k w = Ret (default zero (bvalue σ h k), bool_decide (is_Some (bvalue σ h k))) w /\
  val F fuel zero (Some h) k w = Ret (default zero (bvalue σ h k)) w.
Proof.
  intros HG Hm Hv Hp. rewrite (bvalue_look _ _ _ _ _ _ Hm Hv). unfold get, val.
  rewrite !(bind_Ret _ _ _ _ _ Hp). destruct (wlook F s T k) as [a|] eqn:E.
  - destruct (found_block _ _ _ _ _ _ HG E) as (v & ck & Hb & Hval). simpl. rewrite Hval.
    rewrite !(bind_Ret _ _ _ _ _ (load_kv_step _ _ _ _ Hb)). done.
  - done.
Qed.

(** ** Writing *)
Variables (FS FM : fam K HS V CK U) (sop : K -> V -> insop V CK U)
  (mdop : K -> (ptr -> bool -> M unit) -> insop V CK U) (vs : V -> V).
Definition walike (F' : fam K HS V CK U) : Prop :=
  fam_ok F' L /\ (∀ s k d, nib F' s k d = nib F s k d) /\ f_eq F' = f_eq F /\ place_ok F' PL.
Hypothesis HFS : walike FS.
Hypothesis HFM : walike FM.
Definition wstable (F' : fam K HS V CK U) : Prop :=
  F' = F /\ right_conf F /\ ∀ s k k' d, eq k k' = true -> nib F s k d = nib F s k' d.
Hypothesis HSS : stable = true -> wstable FS.
Hypothesis HSM : stable = true -> wstable FM.
Hypothesis Hover : over = true -> stable = true.
Hypothesis Hvs : ∀ v, vs v = v \/ lost = true /\ vs v = zero.
Hypothesis Hsop : ∀ k v, io_found (sop k v) = (λ iv, store_val (lk_ptr iv) v) /\
  io_new (sop k v) = cellnew L v k /\ io_split (sop k v) = cellnew L (vs v) k /\ (io_check (sop k v) = true -> over = true).
Hypothesis Hmop : ∀ k f,
  io_found (mdop k f) = (λ iv, match lk_ptr iv with Nil => panic | At p => f (At p) true end) /\
  io_new (mdop k f) = modnew L zero k f /\ io_split (mdop k f) = modnew L zero k f /\ (io_check (mdop k f) = true -> over = true).

(** [g] gives the value stored; [vn b] what io_new and io_split really make. *)
Lemma insert_step F' op w σ h k lose (g : option V -> U * V) (vn : bool -> V) :
  walike F' -> (stable = true -> wstable F') -> Rel w σ -> is_Some (bs_map σ !! h) ->
  (io_check op = true -> over = true) ->
  (∀ b : bool, vn b = (g None).2 \/ lose = true /\ vn b = zero) ->
  (∀ a v ck, w_mem w !! a = Some (BKv v ck) -> ∀ iv, lk_ptr iv = At a ->
     io_found op iv w = Ret tt (World (<[a := BKv (g (Some v)).2 ck]> (w_mem w)) (w_nxt w) (g (Some v)).1)) ->
  (∀ (b : bool) w1, w_ok w1 -> (w_usr w1 = w_usr w -> (if b then io_new op else io_split op) w1 =
     Ret (At (w_nxt w1)) (World (<[w_nxt w1 := BKv (vn b) (ly_ck L k)]> (w_mem w1)) (xO (w_nxt w1)) (g None).1)) /\
     ∃ p w2, io_split op w1 = Ret p w2 /\ newcell L w1 w2 k p) ->
  (insert F' op fuel (Some h) k w = Hang /\ ∃ B, bs_map σ !! h = Some B /\ bg_look B k = None) \/
  (∃ w', insert F' op fuel (Some h) k w = Ret tt w' /\ ¬ shallow D w') \/
  (∃ w' σ', insert F' op fuel (Some h) k w = Ret tt w' /\ Rel w' σ' /\ bput eq zero over stable lose σ h k g σ').
Proof.
  intros (HF' & Hnib & Heq & HP') Hst HR Hh Hchk Hvn Hfound Hnew.
  destruct (Rel_handle _ _ _ HR Hh) as (G & s & T & HI & HGh & HG & Hm & Hmh & Hv & Hu).
  set (PL' := λ s T, PL s T /\ (stable = true -> placen F (sits F G) s T)).
  assert (HPP : place_ok F' PL').
  { apply place_ok_and; [done|]. apply place_ok_if. intros Hb. destruct (Hst Hb) as (-> & Hrc & _). by apply placen_ok. }
  assert (HI2 : WeakHeap.WInv L PL' D w G).
  { eapply WInv_mono; [eapply (WInv_sits F L PL D Hcell); exact HI|]. intros h0 s0 T0 _ [H1 H2]. by split. }
  pose proof (WInv_insert F L PL' D Hall Hflat Hrepl Hcell le254 F' op w G h s T k fuel HF' (Hnib s) Heq HPP HI2 HGh Hfuel
    (λ w1 Hok, proj2 (Hnew false w1 Hok))) as Hins.
  destruct (wlook F s T k) as [a|] eqn:E.
  - destruct Hins as (k' & Hin & He & Hrun).
    destruct (found_block _ _ _ _ _ _ HG E) as (v & ck & Hb & Hval).
    right; right. rewrite Hrun, (Hfound _ _ _ Hb) by (by rewrite (fo_ptr _ _ HF)).
    eexists _, (BState (bs_map σ) (<[a := (g (Some v)).2]> (bs_val σ)) (g (Some v)).1). split; [done|]. split.
    + exists G. split_and!; try done.
      * by eapply WInv_store.
      * simpl. rewrite vals_store. by rewrite Hv.
    + exists (bag_of (s, T)). split; [done|]. cbn [bg_look bag_of fst snd]. rewrite E. exists v. split; [|done].
      by rewrite Hv.
  - destruct Hins as [Hh1|[(w' & lv & Hr & Hlv)|(b & w1 & Hq & Hok1 & Hm2)]].
    + left. split; [done|]. eexists. split; [exact Hmh|]. done.
    + right; left. exists w'. split; [done|]. intros Hs. specialize (Hs _ _ _ Hlv). lia.
    + right; right. cbv zeta in Hm2.
      destruct (Hm2 _ _ (proj1 (Hnew b w1 Hok1) (qu_usr _ _ _ Hq)) (newcell_ok L Hcell _ _ _ _ Hok1)) as (w' & T' & Hrun & HI2' & Hsp & Hlv & Hu' & Hv').
      assert (HI' : WInv w' (<[h := (s, T')]> G)) by (eapply WInv_mono; [exact HI2'|]; by intros ??? _ []).
      assert (HG' : WGood s w' h T') by (eapply (wi_good _ _ _ _ _ HI' h); apply lookup_insert).
      assert (Hpl' : stable = true -> placen F (sits F G) s T').
      { destruct (wi_good _ _ _ _ _ HI2' h s T' ltac:(apply lookup_insert)) as [_ [_ Hx]]. exact Hx. }
      exists w', (BState (<[h := bag_of (s, T')]> (bs_map σ)) (<[w_nxt w1 := vn b]> (bs_val σ)) (g None).1).
      assert (Hvw1 : vals w1 = vals w) by (eapply vals_quiet; [apply HI|exact Hq]).
      split; [done|]. split.
      * exists (<[h := (s, T')]> G). split_and!; [done| | |done]; simpl.
        -- by rewrite fmap_insert, Hm.
        -- rewrite Hv', vals_alloc, Hv. by rewrite Hvw1.
      * exists (bag_of (s, T)). split; [done|]. cbn [bg_look bag_of fst snd]. rewrite E.
        exists (w_nxt w1), (vn b), (went T'), (wlook F s T'). split_and!.
        -- rewrite Hv, <- Hvw1. by apply vals_fresh.
        -- apply Hvn.
        -- destruct Hlv as [Hlv|(Hc & ck & cp & E' & d & n & ch & H1 & H2 & H3 & H4 & H5 & H6)].
           ++ left. exact (went_perm _ _ Hlv).
           ++ right. specialize (Hchk Hc). split; [done|].
              assert (He : ∃ ea, cp = At ea).
              { pose proof (went_leaves L PL D Hcell _ _ _ _ HG) as Hwl.
                assert (Hein : (ck, cp) ∈ leaves T) by (rewrite H1; left). rewrite Hwl in Hein.
                apply elem_of_list_In, in_map_iff in Hein as ([ek ea] & [= <- <-] & _). eauto. }
              destruct He as (ea & ->). destruct (Hst (Hover Hchk)) as (-> & Hrc & Hsame).
              eexists ck, ea, _. split_and!; [exact (went_perm _ _ H1)| |exact (went_perm _ _ H2)].
              intros k1. by eapply (swapped_lost F L PL D le254 w G h s T k ck ea d n ch k1 (Hsame s) Hrc HI HGh).
        -- apply look_finds.
        -- intros He. eapply (wlook_spot F L PL D le254); [exact HG'|exact Hsp|done].
        -- intros Hb k1 p1 Hk1. cbn [bg_look bag_of fst snd] in Hk1.
           destruct (Hst Hb) as (-> & Hrc & Hsame).
           eapply (wlook_stays F L PL D le254 G h s T T' w' k1 p1 (Hsame s) HGh Hk1); [|by apply Hpl'|exact HG'].
           intros k2 Hin. apply went_in in Hin. apply went_in.
           destruct Hlv as [Hlv|(Hc & ck & cp & E' & d & n & ch & H1 & H2 & H3 & H4 & H5 & H6)].
           { rewrite Hlv. by right. }
           rewrite H2. right. rewrite H1 in Hin. apply elem_of_cons in Hin as [[= <- <-]|Hin]; [|done]. exfalso.
           by eapply (swapped_lost F L PL D le254 w G h s T k k2 p1 d n ch k1 (Hsame s) Hrc HI HGh).
        -- done.
Qed.

(** ** Iterating *)
Lemma visits_each f G h s T es : G !! h = Some (s, T) -> ∀ w, WInv w G -> (∀ e, e ∈ es -> e ∈ went T) ->
  ∃ b w', visits L (act_map F (all_cb f)) (map (λ e, (e.1, At e.2)) es) w = Ret b w' /\ WInv w' G /\
    vals w' = (each f es (w_usr w) (vals w)).2 /\ w_usr w' = (each f es (w_usr w) (vals w)).1.
Proof.
  intros Hh. induction es as [|[k a] es IH]; intros w HI Hsub; cbn [map visits each fst snd].
  { exists true, w. done. }
  pose proof (wi_good _ _ _ _ _ HI _ _ _ Hh) as HG. pose proof HG as [HM _].
  assert (Hin : (k, At a) ∈ leaves T) by (apply went_in, Hsub; left).
  pose proof (MapI_cell _ _ _ _ _ _ _ _ HM Hin) as Hc. pose proof Hc as Hc'.
  unfold cell in Hc'. rewrite Hcell in Hc'. destruct Hc' as (a' & v & [= <-] & Ha).
  assert (Hrun : act_map F (all_cb f) (ly_leaf L k (At a)) w = Ret (f (w_usr w) k v).2
    (World (<[a := BKv (f (w_usr w) k v).1.2 (ly_ck L k)]> (w_mem w)) (w_nxt w) (f (w_usr w) k v).1.1)).
  { unfold act_map. rewrite (bind_Ret _ _ _ _ _ (fo_key _ _ HF k (At a) w (Hall k) Hc)).
    rewrite (fo_ptr _ _ HF). by apply all_cb_run. }
  rewrite (bind_Ret _ _ _ _ _ Hrun). rewrite vals_lookup, Ha.
  destruct (f (w_usr w) k v) as [[u v'] b] eqn:Ef. cbn [fst snd].
  assert (HI' : WInv (World (<[a := BKv v' (ly_ck L k)]> (w_mem w)) (w_nxt w) u) G) by (by eapply WInv_store).
  destruct b.
  - destruct (IH _ HI') as (b & w' & H1 & H2 & H3 & H4).
    { intros e He. apply Hsub. by right. }
    exists b, w'. rewrite vals_store in H3, H4. split_and!; try done.
  - eexists _, _. split; [done|]. rewrite vals_store. done.
Qed.

Lemma all_spec f w G h s T : WInv w G -> G !! h = Some (s, T) ->
  ∃ w', all_map F fuel (Some h) (all_cb f) w = Ret tt w' /\ WInv w' G /\
    vals w' = (each f (went T) (w_usr w) (vals w)).2 /\ w_usr w' = (each f (went T) (w_usr w) (vals w)).1.
Proof.
  intros HI Hh. pose proof (wi_good _ _ _ _ _ HI _ _ _ Hh) as HG.
  destruct (visits_each f G h s T (went T) Hh w HI) as (b & w' & Hrun & HI' & Hv & Hu); [done|].
  exists w'. split_and!; try done. unfold all_map.
  rewrite <- (went_leaves L PL D Hcell _ _ _ _ HG) in Hrun.
  rewrite (bind_Ret _ _ _ b w'); [done|].
  rewrite <- Hrun.
  apply (scan_spec L (act_map F (all_cb f)) h T (λ w, WInv w G)) with (c := []); try done.
  - intros w0 H0. destruct (wi_good _ _ _ _ _ H0 _ _ _ Hh) as [HM0 _]. by eapply MapI_carries.
  - intros k p w0 b0 w0' Hin H0 Hr. destruct (wi_good _ _ _ _ _ H0 _ _ _ Hh) as [HM0 _].
    pose proof (MapI_cell _ _ _ _ _ _ _ _ HM0 Hin) as Hc. pose proof Hc as Hc'.
    unfold cell in Hc'. rewrite Hcell in Hc'. destruct Hc' as (a' & v & -> & Ha).
    unfold act_map in Hr. rewrite (bind_Ret _ _ _ _ _ (fo_key _ _ HF k (At a') w0 (Hall k) Hc)) in Hr.
    rewrite (fo_ptr _ _ HF), (all_cb_run _ _ _ _ _ _ Ha) in Hr. injection Hr as <- <-.
    by eapply WInv_store.
  - destruct HG as [HM _]. by eapply MapI_node.
  - destruct HG as [HM _]. pose proof (mi_hgt _ _ _ _ _ _ HM). lia.
Qed.

(** ** Every call *)
Variable api : mapapi K V CK U.
Hypothesis HSet : ∀ (oh : option loc) k v, ma_Set api oh k v = insert FS (sop k v) fuel oh k.
Hypothesis HMod : ∀ (oh : option loc) k f, ma_Mod api oh k f = insert FM (mdop k f) fuel oh k.
Hypothesis HDel : ∀ (oh : option loc) k, ma_Del api oh k = delete F fuel oh k.
Hypothesis HGet : ∀ (oh : option loc) k, ma_Get api oh k = get F fuel zero oh k.
Hypothesis HVal : ∀ (oh : option loc) k, ma_Val api oh k = val F fuel zero oh k.
Hypothesis HPtr : ∀ (oh : option loc) k, ma_Ptr api oh k = ptr_of F fuel oh k.
Hypothesis HAll : ∀ (oh : option loc) f, ma_All api oh f = all_map F fuel oh f.
Local Notation bstep := (bstep eq zero lost over stable).

Definition can σ (op : mop) : Prop :=
  match op with
  | MNew s => True
  | MSet h k _ | MMod h k _ | MDel h k | MGet h k | MVal h k | MPtr h k => is_Some (bs_map σ !! h)
  | MLen h | MDep h | MAll h _ => is_Some (bs_map σ !! h)
  | MLoad p | MStore p _ => is_Some (bs_val σ !! p)
  end.

Lemma step_ok w σ op : Rel w σ -> can σ op ->
  (mcall api op w = Hang /\ adds σ op) \/
  (∃ res w', mcall api op w = Ret res w' /\ ¬ shallow D w') \/
  (∃ res w' σ', mcall api op w = Ret res w' /\ bstep σ op res σ' /\ Rel w' σ').
Proof.
  intros HR Hcan. destruct op as [s|h k v|h k f|h k|h k|h k|h k|h|h|h f|p|p v]; simpl in Hcan.
  - (* New *)
    right; right. destruct HR as (G & HI & Hm & Hv & Hu).
    destruct (wnew_spec L PL D HPnew le254 w G s HI) as (h & a & w' & Hrun & HI' & Hfr & Hv' & Hu').
    exists (RHandle h), w', (BState (<[h := bag_of (s, Node a [])]> (bs_map σ)) (bs_val σ) (bs_usr σ)). split_and!.
    + unfold mcall. rewrite (bind_Ret _ _ _ _ _ Hrun). done.
    + exists h, (wlook F s (Node a [])). split_and!; try done. by rewrite Hm, lookup_fmap, Hfr.
    + exists (<[h := (s, Node a [])]> G). split_and!; simpl; [done| |congruence|congruence].
      by rewrite fmap_insert, Hm.
  - (* Set *)
    destruct (insert_step FS (sop k v) w σ h k lost (λ _, (w_usr w, v)) (λ b, if b then v else vs v) HFS HSS HR Hcan)
      as [[Hr Ha]|[(w' & Hr & Hd)|(w' & σ' & Hr & HR' & Hp)]].
    + apply Hsop.
    + intros []; [by left|]. apply Hvs.
    + intros a v0 ck Ha iv Hiv. destruct (Hsop k v) as (-> & _). rewrite Hiv. by rewrite (store_val_step _ _ _ _ _ Ha).
    + intros b w1 Hok1. destruct (Hsop k v) as (_ & H1 & H2 & _). split.
      * intros Hu. destruct b; rewrite ?H1, ?H2, cellnew_run; by rewrite Hu.
      * rewrite H2, cellnew_run. eexists _, _. split; [done|]. by apply newcell_ok.
    + left. split; [|done]. unfold mcall. rewrite HSet. unfold bind. by rewrite Hr.
    + right; left. exists RUnit, w'. split; [|done]. unfold mcall. by rewrite HSet, (bind_Ret _ _ _ _ _ Hr).
    + right; right. exists RUnit, w', σ'. split_and!; [|split; [done|]|done].
      * unfold mcall. by rewrite HSet, (bind_Ret _ _ _ _ _ Hr).
      * destruct HR as (_ & _ & _ & _ & ->). done.
  - (* Mod *)
    destruct (insert_step FM (mdop k (mod_cb f)) w σ h k false
      (λ o, f (w_usr w) (default zero o) (match o with Some _ => true | None => false end))
      (λ _, (f (w_usr w) zero false).2) HFM HSM HR Hcan)
      as [[Hr Ha]|[(w' & Hr & Hd)|(w' & σ' & Hr & HR' & Hp)]].
    + apply Hmop.
    + intros b. by left.
    + intros a v0 ck Ha iv Hiv. destruct (Hmop k (mod_cb f)) as (-> & _). rewrite Hiv. by rewrite (mod_cb_run _ _ _ _ _ _ Ha).
    + intros b w1 Hok1. destruct (Hmop k (mod_cb f)) as (_ & H1 & H2 & _). split.
      * intros Hu. destruct b; rewrite ?H1, ?H2, modnew_run by done; by rewrite Hu.
      * rewrite H2, modnew_run by done. eexists _, _. split; [done|]. by apply newcell_ok.
    + left. split; [|done]. unfold mcall. rewrite HMod. unfold bind. by rewrite Hr.
    + right; left. exists RUnit, w'. split; [|done]. unfold mcall. by rewrite HMod, (bind_Ret _ _ _ _ _ Hr).
    + right; right. exists RUnit, w', σ'. split_and!; [|split; [done|]|done].
      * unfold mcall. by rewrite HMod, (bind_Ret _ _ _ _ _ Hr).
      * destruct HR as (_ & _ & _ & _ & ->). done.
  - (* Del *)
    right; right. destruct (Rel_handle _ _ _ HR Hcan) as (G & s & T & HI & HGh & HG & Hm & Hmh & Hv & Hu).
    exists RUnit.
    set (PL' := λ s T, PL s T /\ (stable = true -> placen F (sits F G) s T)).
    assert (HPP : place_ok F PL').
    { apply place_ok_and; [done|]. apply place_ok_if. intros Hb. destruct (HSS Hb) as (_ & Hrc & _). by apply placen_ok. }
    assert (HI2 : WeakHeap.WInv L PL' D w G).
    { eapply WInv_mono; [eapply (WInv_sits F L PL D Hcell); exact HI|]. intros h0 s0 T0 _ [H1 H2]. by split. }
    destruct (WInv_delete F L PL' D HF Hall Hcell le254 HPP negb w G h s T k fuel HI2 HGh Hfuel)
      as [(Hmiss & w' & Hrun & HI2' & Hu' & Hv')|(k' & p & w' & T' & Hsp & Hms & Hrun & HI2' & Hlv & Hu' & Hv')].
    + exists w', σ. split; [unfold mcall; by rewrite HDel, (bind_Ret _ _ _ _ _ Hrun)|]. split.
      * split; [done|]. exists (bag_of (s, T)). split; [done|]. cbn [bg_look bag_of fst snd].
        destruct (wlook F s T k) as [p|] eqn:E; [|done]. apply wlook_some in E as (k' & Hs' & He).
        apply Hmiss in Hs'. rewrite He in Hs'. done.
      * exists G. split_and!; simpl; [|congruence..]. eapply WInv_mono; [exact HI2'|]; by intros ??? _ [].
    + assert (HI' : WInv w' (<[h := (s, T')]> G)) by (eapply WInv_mono; [exact HI2'|]; by intros ??? _ []).
      exists w', (BState (<[h := bag_of (s, T')]> (bs_map σ)) (bs_val σ) (bs_usr σ)).
      split; [unfold mcall; by rewrite HDel, (bind_Ret _ _ _ _ _ Hrun)|].
      assert (He : f_eq F k k' = true) by (by destruct (f_eq F k k')). split.
      * split; [done|]. exists (bag_of (s, T)). split; [done|]. cbn [bg_look bag_of fst snd].
        rewrite (wlook_spot F L PL D le254 _ _ _ _ _ _ _ HG Hsp He). exists k', (went T'), (wlook F s T'). split_and!; try done.
        -- cbn [bg_ent bag_of fst snd]. exact (went_perm _ _ Hlv).
        -- apply look_finds.
        -- intros Hb k1 p1 Hk1 Hne. destruct (HSS Hb) as (_ & Hrc & Hsame).
           destruct (wi_good _ _ _ _ _ HI2' h s T' ltac:(apply lookup_insert)) as [_ [_ Hpl']].
           eapply (wlook_stays F L PL D le254 G h s T T' w' k1 p1 (Hsame s) HGh Hk1); [|by apply Hpl'|].
           ++ intros k2 Hin. apply went_in in Hin. apply went_in. rewrite Hlv in Hin.
              apply elem_of_cons in Hin as [[= <- <-]|Hin]; done.
           ++ eapply (wi_good _ _ _ _ _ HI' h). apply lookup_insert.
      * exists (<[h := (s, T')]> G). split_and!; simpl; [done| |congruence|congruence]. by rewrite fmap_insert, Hm.
  - (* Get *)
    right; right. destruct (Rel_handle _ _ _ HR Hcan) as (G & s & T & HI & HGh & HG & Hm & Hmh & Hv & Hu).
    destruct (get_spec w σ h s T k HG Hmh Hv (ptr_spec _ _ _ _ _ _ HI HGh)) as [H1 H2].
    eexists _, w, σ. unfold mcall. rewrite HGet, (bind_Ret _ _ _ _ _ H1). split; [done|]. split; [|done]. done.
  - (* Val *)
    right; right. destruct (Rel_handle _ _ _ HR Hcan) as (G & s & T & HI & HGh & HG & Hm & Hmh & Hv & Hu).
    destruct (get_spec w σ h s T k HG Hmh Hv (ptr_spec _ _ _ _ _ _ HI HGh)) as [H1 H2].
    eexists _, w, σ. unfold mcall. rewrite HVal, (bind_Ret _ _ _ _ _ H2). split; [done|]. split; [|done]. done.
  - (* Ptr *)
    right; right. destruct (Rel_handle _ _ _ HR Hcan) as (G & s & T & HI & HGh & HG & Hm & Hmh & Hv & Hu).
    eexists _, w, σ. unfold mcall. rewrite HPtr, (bind_Ret _ _ _ _ _ (ptr_spec _ _ _ _ _ _ HI HGh)). split; [done|].
    split; [|done]. split; [done|]. exists (bag_of (s, T)). split; [done|]. cbn [bg_look bag_of fst snd].
    by destruct (wlook F s T k).
  - (* Len *)
    right; right. destruct (Rel_handle _ _ _ HR Hcan) as (G & s & T & HI & HGh & HG & Hm & Hmh & Hv & Hu).
    destruct (WInv_root L PL D w G h s T HI HGh) as (rt & Hr & Hl & Hd).
    eexists _, w, σ. unfold mcall, Len, root_len. rewrite bind_assoc, (bind_Ret _ _ _ _ _ (load_root_step _ _ _ Hr)).
    split; [done|]. split; [|done]. split; [done|]. exists (bag_of (s, T)). split; [done|].
    rewrite Hl. cbn [bg_ent bag_of fst snd]. rewrite (went_leaves L PL D Hcell _ _ _ _ HG) at 1. by rewrite map_length.
  - (* Dep *)
    right; right. destruct (Rel_handle _ _ _ HR Hcan) as (G & s & T & HI & HGh & HG & Hm & Hmh & Hv & Hu).
    destruct (WInv_root L PL D w G h s T HI HGh) as (rt & Hr & Hl & Hd).
    assert (Hlen : length (leaves T) = length (went T)).
    { rewrite (went_leaves L PL D Hcell _ _ _ _ HG) at 1. by rewrite map_length. }
    exists (RDep (mean (N.of_nat (sumdep 0 T)) (N.of_nat (length (went T))))), w, σ.
    split; [|split; [split; [done|]; exists (bag_of (s, T)), (sumdep 0 T)|done]].
    + unfold mcall, Dep, root_dep. rewrite bind_assoc, (bind_Ret _ _ _ _ _ (load_root_step _ _ _ Hr)).
      rewrite Hl, Hd, Hlen. unfold mean. by destruct (_ =? 0)%N.
    + split_and!; try done. cbn [bg_ent bag_of fst snd]. rewrite <- Hlen. destruct HG as [HM _]. apply sumdep_le.
      * by eapply MapI_node.
      * pose proof (mi_hgt _ _ _ _ _ _ HM). lia.
  - (* All *)
    right; right. destruct (Rel_handle _ _ _ HR Hcan) as (G & s & T & HI & HGh & HG & Hm & Hmh & Hv & Hu).
    destruct (all_spec f w G h s T HI HGh) as (w' & Hrun & HI' & Hv' & Hu').
    exists RUnit, w', (BState (bs_map σ) (each f (went T) (bs_usr σ) (bs_val σ)).2 (each f (went T) (bs_usr σ) (bs_val σ)).1).
    split; [unfold mcall; by rewrite HAll, (bind_Ret _ _ _ _ _ Hrun)|]. split.
    + split; [done|]. exists (bag_of (s, T)), (went T). done.
    + exists G. rewrite Hv, Hu. done.
  - (* load *)
    right; right. destruct Hcan as [v Hp]. pose proof HR as (G & HI & Hm & Hv & Hu). rewrite Hv, vals_lookup in Hp.
    destruct (w_mem w !! p) as [[|v' ck|]|] eqn:E; try done. injection Hp as ->.
    exists (RVal v), w, σ. unfold mcall. rewrite (bind_Ret _ _ _ _ _ (load_kv_step _ _ _ _ E)). split; [done|].
    split; [|done]. split; [done|]. exists v. split; [|done]. by rewrite Hv, vals_lookup, E.
  - (* store *)
    right; right. pose proof Hcan as [v0 Hp]. pose proof HR as (G & HI & Hm & Hv & Hu). rewrite Hv, vals_lookup in Hp.
    destruct (w_mem w !! p) as [[|v' ck|]|] eqn:E; try done. injection Hp as ->.
    eexists RUnit, _, (BState (bs_map σ) (<[p := v]> (bs_val σ)) (bs_usr σ)). unfold mcall.
    rewrite (bind_Ret _ _ _ _ _ (store_val_step _ _ _ _ _ E)). split; [done|].
    split; [done|]. exists G. split_and!; simpl; try done.
    + by eapply WInv_store.
    + unfold set_mem. rewrite vals_store. by rewrite Hv.
Qed.

(** ** Overwritten keys *)
Variables (clob : CK -> CK -> Prop) (u0 : U).
Hypothesis Hck : ∀ ck ck', clob ck ck' -> ∃ k, ly_ck L k = ck'.
Hypothesis Hlink : ∀ ck ck', clob ck ck' -> ∀ k1 k2 q, ly_leaf L k1 q = ly_leaf L k2 q.
Hypothesis HPkey : ∀ ck ck', clob ck ck' -> ∀ p k s T, PL s T -> PL s (rekey p k T).
Local Notation clobk := (λ k k', clob (ly_ck L k) (ly_ck L k')).
Local Notation bspec := (bspec eq zero lost over stable clobk u0).

Lemma went_rekey p k T : went (rekey p k T) = map (rekeyed p k) (went T).
Proof.
  unfold went. rewrite rekey_leaves. induction (leaves T) as [|[k0 [|a]] l IH]; simpl; [done|exact IH|].
  f_equal; [|exact IH]. unfold rekeyed. cbn [snd]. by destruct (decide (a = p)) as [->|].
Qed.
Lemma rekey_other p k T : p ∉ (went T).*2 -> rekey p k T = T.
Proof.
  intros Hp. assert (Hl : ∀ k0, (k0, At p) ∉ leaves T).
  { intros k0 Hin. apply Hp. apply went_in in Hin. apply elem_of_list_fmap. by exists (k0, p). }
  clear Hp. induction T as [k0 q|a cs IH] using tree_ind'; cbn [rekey].
  - f_equal. destruct q as [|a]; [done|]. cbn [newkey]. destruct (decide (a = p)) as [->|]; [|done].
    exfalso. apply (Hl k0). simpl. left.
  - f_equal. cbn [leaves] in Hl. induction IH as [|[n t] cs Ht IH IH2]; [done|]. simpl. f_equal.
    + cbn [snd] in Ht. rewrite Ht; [done|]. intros k0 Hin. apply (Hl k0). simpl. rewrite elem_of_app. by left.
    + apply IH2. intros k0 Hin. apply (Hl k0). simpl. rewrite elem_of_app. by right.
Qed.

Lemma wlook_rekey w G h s T p k k1 p1 : WInv w G -> G !! h = Some (s, T) -> p1 ≠ p ->
  wlook F s (rekey p k T) k1 = Some p1 <-> wlook F s T k1 = Some p1.
Proof.
  intros HI Hh Hne. pose proof (wi_good _ _ _ _ _ HI _ _ _ Hh) as [HM _].
  unfold wlook. rewrite rekey_pleaves. set (g := λ e : list N * (K * ptr), _).
  (* at most one entry is in the place of k1 *)
  assert (Hone : ∀ e1 e2, e1 ∈ pleaves [] T -> e2 ∈ pleaves [] T -> e1.1 = nibs F s k1 (length e1.1) ->
    e2.1 = nibs F s k1 (length e2.1) -> e1.2 = e2.2).
  { intros [q1 [a1 b1]] [q2 [a2 b2]] H1 H2 H3 H4. cbn [fst snd] in *.
    destruct (spot_same F L PL D le254 s w h T k1 a1 b1 a2 b2) as [-> ->]; [by eapply wi_good|by exists q1|by exists q2|done]. }
  assert (Hg : ∀ e a, g e = Some a -> e.1 = nibs F s k1 (length e.1) /\ e.2.2 = At a).
  { intros [q [k0 pa]] a Hx. subst g. cbn [fst snd] in *. destruct (bool_decide _) eqn:E; [|done].
    destruct (f_eq F k1 k0); [|done]. simpl in Hx. destruct pa as [|a0]; [done|]. injection Hx as ->.
    by apply bool_decide_eq_true in E. }
  assert (Hhead : ∀ l, head (omap g l) = Some p1 -> ∃ e, e ∈ l /\ g e = Some p1).
  { intros l Hl. assert (Hin : p1 ∈ omap g l).
    { destruct (omap g l); [done|]. injection Hl as ->. left. }
    apply elem_of_list_omap in Hin as (e & H1 & H2). eauto. }
  assert (Hmem : ∀ l, (∃ e, e ∈ l /\ g e = Some p1) -> (∀ e a, e ∈ l -> g e = Some a -> a = p1) -> head (omap g l) = Some p1).
  { intros l (e & H1 & H2) Hall1. assert (Hin : p1 ∈ omap g l) by (apply elem_of_list_omap; eauto).
    destruct (omap g l) as [|a l'] eqn:E; [by apply elem_of_nil in Hin|]. simpl. f_equal.
    assert (Ha : a ∈ omap g l) by (rewrite E; left). apply elem_of_list_omap in Ha as (e' & H3 & H4). by eapply Hall1. }
  set (r := λ e : list N * (K * ptr), (e.1, (newkey p k e.2.2 e.2.1, e.2.2))).
  assert (Hr : ∀ e, e.2.2 ≠ At p -> r e = e).
  { intros [q [k0 [|a]]] Hx; unfold r; cbn [fst snd newkey] in *; [done|]. rewrite decide_False by congruence. done. }
  assert (Hr1 : ∀ e, (r e).1 = e.1 /\ (r e).2.2 = e.2.2) by done.
  split; intros Hl; apply Hhead in Hl as (e & Hin & He); apply Hmem.
  - apply elem_of_list_In, in_map_iff in Hin as (e0 & <- & Hin). apply elem_of_list_In in Hin.
    destruct (Hg _ _ He) as [H1 H2]. rewrite (proj2 (Hr1 e0)) in H2. exists e0. split; [done|].
    rewrite Hr in He; [done|]. rewrite H2. congruence.
  - intros e2 a2 Hin2 He2. apply elem_of_list_In, in_map_iff in Hin as (e0 & <- & Hin). apply elem_of_list_In in Hin.
    destruct (Hg _ _ He) as [H1 H2]. destruct (Hg _ _ He2) as [H3 H4].
    rewrite (proj1 (Hr1 e0)) in H1. rewrite (proj2 (Hr1 e0)) in H2.
    pose proof (Hone _ _ Hin Hin2 H1 H3) as Hx. rewrite Hx in H2. congruence.
  - exists e. split; [|done]. destruct (Hg _ _ He) as [H1 H2]. apply elem_of_list_In, in_map_iff. exists e.
    split; [|by apply elem_of_list_In]. apply Hr. rewrite H2. congruence.
  - intros e2 a2 Hin2 He2. apply elem_of_list_In, in_map_iff in Hin2 as (e0 & <- & Hin2). apply elem_of_list_In in Hin2.
    destruct (Hg _ _ He) as [H1 H2]. destruct (Hg _ _ He2) as [H3 H4].
    rewrite (proj1 (Hr1 e0)) in H3. rewrite (proj2 (Hr1 e0)) in H4.
    pose proof (Hone _ _ Hin Hin2 H1 H3) as Hx. rewrite Hx in H2. congruence.
Qed.

Lemma key_step w σ p v ck ck' : clob ck ck' -> Rel w σ -> w_mem w !! p = Some (BKv v ck) ->
  ∃ k σ', (∀ h B k0, bs_map σ !! h = Some B -> (k0, p) ∈ bg_ent B -> clobk k0 k) /\
    bkey eq σ p k σ' /\ Rel (set_mem w (<[p := BKv v ck']> (w_mem w))) σ'.
Proof.
  intros Hc (G & HI & Hm & Hv & Hu) Hp. destruct (Hck _ _ Hc) as [k Hk]. subst ck'.
  exists k, (BState (bag_of <$> ((λ x, (x.1, rekey p k x.2)) <$> G)) (bs_val σ) (bs_usr σ)). split_and!.
  - intros h B k0 HB Hin. rewrite Hm, lookup_fmap in HB. destruct (G !! h) as [[s T]|] eqn:E; [|done].
    injection HB as <-. cbn [bg_ent bag_of snd] in Hin.
    destruct (went_block L PL D Hcell _ _ _ _ _ _ (wi_good _ _ _ _ _ HI _ _ _ E) Hin) as (v0 & Hb & _).
    rewrite Hp in Hb. injection Hb as -> ->. done.
  - split_and!; try done.
    + rewrite Hv, vals_lookup, Hp. eauto.
    + intros h. cbn [bs_map]. rewrite Hm, !lookup_fmap. destruct (G !! h) as [[s T]|] eqn:E; [|done].
      cbn [fmap option_fmap option_map bag_of bg_ent bg_look fst snd]. split_and!.
      * apply went_rekey.
      * apply look_finds.
      * intros Hn. by rewrite rekey_other.
      * intros k1 p1 Hne. by eapply wlook_rekey.
  - eexists. split; [eapply (WInv_rekey p k L Hcell Hall (Hlink _ _ Hc)); [by eapply HPkey|done|done]|].
    split_and!; try done. cbn [bs_val]. rewrite Hv. apply map_eq. intros l. rewrite !vals_lookup. cbn [w_mem set_mem].
    destruct (decide (l = p)) as [->|Hne]; [by rewrite lookup_insert, Hp|by rewrite lookup_insert_ne].
Qed.

Lemma read_rel w σ h B k : Rel w σ -> bs_map σ !! h = Some B ->
  mcall api (MPtr h k) w = Ret (RPtr (bg_look B k)) w /\
  mcall api (MGet h k) w = Ret (RGet (default zero (bvalue σ h k)) (bool_decide (is_Some (bvalue σ h k)))) w /\
  mcall api (MVal h k) w = Ret (RVal (default zero (bvalue σ h k))) w.
Proof.
  intros HR HB. destruct (Rel_handle _ _ h HR ltac:(eauto)) as (G & s & T & HI & HGh & HG & Hm & Hmh & Hv & Hu).
  pose proof (ptr_spec _ _ _ _ _ k HI HGh) as Hp.
  destruct (get_spec w σ h s T k HG Hmh Hv Hp) as [H1 H2].
  rewrite HB in Hmh. injection Hmh as ->. cbn [mcall bg_look bag_of fst snd].
  rewrite HGet, HVal, HPtr, (bind_Ret _ _ _ _ _ H1), (bind_Ret _ _ _ _ _ H2), (bind_Ret _ _ _ _ _ Hp).
  split_and!; try done. by destruct (wlook F s T k).
Qed.

(** Len, All and Get agree. *)
Lemma agree_rel w σ h : Rel w σ -> is_Some (bs_map σ !! h) -> ∃ es : list (K * V),
  mcall api (MLen h) w = Ret (RLen (N.of_nat (length es) mod 2 ^ 64)) w /\
  (∀ g : U -> K -> V -> U, ∃ w', mcall api (MAll h (λ u k v, (g u k v, v, true))) w = Ret RUnit w' /\
     w_usr w' = foldl (λ u e, g u e.1 e.2) (w_usr w) es) /\
  ∀ k, ∃ v b, mcall api (MGet h k) w = Ret (RGet v b) w /\
    if b : bool then ∃ k', (k', v) ∈ es /\ eq k k' = true else v = zero.
Proof.
  intros HR Hh. destruct (Rel_handle _ _ _ HR Hh) as (G & s & T & HI & HGh & HG & Hm & Hmh & Hv & Hu).
  assert (Hent : ∀ e, e ∈ went T -> is_Some (vals w !! e.2)).
  { intros [k p] Hin. destruct (went_block L PL D Hcell _ _ _ _ _ _ HG Hin) as (v & _ & Hx). eauto. }
  exists (shown (vals w) (went T)). split_and!.
  - destruct (WInv_root L PL D w G h s T HI HGh) as (rt & Hrt & Hl & Hd).
    destruct (each_shown (λ u _ _, u) (vals w) (went T) (w_usr w) Hent) as [_ ->].
    cbn [mcall]. unfold Len, root_len. rewrite bind_assoc, (bind_Ret _ _ _ _ _ (load_root_step _ _ _ Hrt)).
    rewrite Hl. rewrite (went_leaves L PL D Hcell _ _ _ _ HG) at 1. by rewrite map_length.
  - intros g. destruct (all_spec (λ u k v, (g u k v, v, true)) w G h s T HI HGh) as (w' & Hrun & _ & _ & Hu').
    exists w'. split; [cbn [mcall]; by rewrite HAll, (bind_Ret _ _ _ _ _ Hrun)|]. rewrite Hu'.
    destruct (each_shown g (vals w) (went T) (w_usr w) Hent) as [-> _]. done.
  - intros k. destruct (get_spec w σ h s T k HG Hmh Hv (ptr_spec _ _ _ _ _ _ HI HGh)) as [H1 _].
    rewrite (bvalue_look _ _ _ _ _ _ Hmh Hv) in H1. cbn [mcall]. rewrite HGet, (bind_Ret _ _ _ _ _ H1). cbn [fst snd].
    eexists _, _. split; [done|]. destruct (wlook F s T k) as [p|] eqn:E; [|done]. simpl.
    apply wlook_ent in E as (k' & Hin & He). destruct (Hent _ Hin) as [v Hvv]. cbn [snd] in Hvv. rewrite Hvv. simpl.
    exists k'. split; [|done]. by eapply shown_in.
Qed.
End refine.
