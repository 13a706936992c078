(** The set types against the bags of Bag.v, for arbitrary hash and equality
    functions. *)
From Coq Require Import Sorted SpecFloat.
From stdpp Require Import base numbers list gmap.
From Verif Require Import GoInt Mem Hash Amt Families BitsFacts Steps Tree Rep Paths Descend Insert Split Delete Remove Core Scan Heap Spec Client Refine RefineSet Levels Shape Weak Place WeakHeap Rekey Bag WeakRuns WeakMap.
Local Open Scope nat_scope.

Section hist.
Context {K U : Type} (eq : K -> K -> bool) (inverted stable : bool) (clob : K -> K -> Prop) (u0 : U).
Implicit Types (σ : sbstate K U) (tr : list (sop K U * sres)).

Lemma sbstep_mono σ op res σ' : sbstep eq inverted stable σ op res σ' -> ∀ h, is_Some (sbs_set σ !! h) -> is_Some (sbs_set σ' !! h).
Proof.
  assert (Hins : ∀ {A} (m : gmap positive A) i x j, is_Some (m !! j) -> is_Some (<[i := x]> m !! j)).
  { intros A m i x j H. rewrite lookup_insert_is_Some. destruct (decide (i = j)); auto. }
  destruct op as [s|h k|h k|h k|h|h|h f]; cbn [sbstep]; intros Hst.
  - destruct Hst as (h & has & _ & _ & _ & ->). simpl. auto.
  - destruct Hst as [_ (B & HB & Hx)]. destruct (sb_has B k); [by subst|].
    destruct Hx as (E & has & _ & _ & _ & _ & ->). simpl. auto.
  - destruct Hst as [_ (B & HB & [[_ ->]|(_ & k' & E & has & _ & _ & _ & _ & ->)])]; [done|]. simpl. auto.
  - by destruct Hst as [-> _].
  - by destruct Hst as [-> _].
  - by destruct Hst as [-> _].
  - destruct Hst as [_ (B & ks & HB & _ & ->)]. done.
Qed.

Lemma sbspec_live tr σ : sbspec eq inverted stable clob u0 tr σ -> ∀ s h, (SNew s, THandle h) ∈ tr -> is_Some (sbs_set σ !! h).
Proof.
  induction 1 as [|tr σ op res σ' Hs IH Hst|tr σ k0 k σ' Hs IH Hc Hst]; intros s h Hin.
  - by apply elem_of_nil in Hin.
  - apply elem_of_cons in Hin as [[= <- <-]|Hin].
    + destruct Hst as (h' & look & [= <-] & _ & _ & ->). simpl. rewrite lookup_insert. eauto.
    + eapply sbstep_mono; [done|]. by eapply IH.
  - destruct Hst as (_ & h0 & Hm). destruct (IH _ _ Hin) as [B HB]. specialize (Hm h). rewrite HB in Hm.
    destruct (sbs_set σ' !! h); [eauto|done].
Qed.
End hist.

Section refine.
Context {K HS V CK U : Type}.
Variables (F : fam K HS V CK U) (L : layout K V CK) (PL : N -> tree K -> Prop).
Local Notation D := 254.
Local Notation world := (world V CK U).
Local Notation M := (M V CK U).
Local Notation tree := (tree K).
Local Notation heap := (gmap loc (N * tree)).
Local Notation sbstate := (sbstate K U).
Local Notation sop := (sop K U).
Implicit Types (w : world) (T : tree) (k : K) (h : loc) (s : N) (v : V) (u : U) (G : heap) (σ : sbstate).
Hypothesis HF : fam_ok F L.
Hypothesis Hall : ∀ k, ly_ok L k.
Hypothesis Hflat : ∀ k p, lk_tmap (ly_leaf L k p) = 0%N.
Hypothesis Hrepl : ∀ k p ck cp, lk_with_ptr p (ly_leaf L ck cp) = ly_leaf L k p.
Hypothesis Hcell : ly_cell L = true.
Hypothesis HPnew : ∀ s a, PL s (Node a []).
Hypothesis HP : place_ok F PL.
Variables (zero : V) (fuel : nat).
Hypothesis Hfuel : 256 <= fuel.
Local Notation WInv := (WInv L PL D).
Local Notation WGood s := (WGood L PL D s).
Local Notation eq := (f_eq F).
Variables (inverted stable : bool).
Hypothesis HSS : stable = true -> right_conf F /\ ∀ s k k' d, eq k k' = true -> nib F s k d = nib F s k' d.

Definition bag_of (x : N * tree) : sbag K :=
  SBag (map fst (leaves x.2)) (λ k, match wlook F x.1 x.2 k with Some _ => true | None => false end).
Definition Rel w σ : Prop := ∃ G, WInv w G /\ sbs_set σ = bag_of <$> G /\ sbs_usr σ = w_usr w.

Lemma Rel_init u : Rel (empty_world u) (sbinit u).
Proof. exists ∅. split; [apply WInv_empty|]. split; [by rewrite fmap_empty|done]. Qed.
Lemma Rel_handle w σ h : Rel w σ -> is_Some (sbs_set σ !! h) ->
  ∃ G s T, WInv w G /\ G !! h = Some (s, T) /\ WGood s w h T /\
    sbs_set σ = bag_of <$> G /\ sbs_set σ !! h = Some (bag_of (s, T)) /\ sbs_usr σ = w_usr w.
Proof.
  intros (G & HI & Hm & Hu) [x Hx]. rewrite Hm, lookup_fmap in Hx.
  destruct (G !! h) as [[s T]|] eqn:E; [|done]. exists G, s, T.
  split_and!; try done; [by eapply wi_good|]. rewrite Hm, lookup_fmap, E. done.
Qed.
Lemma has_finds s T : sfinds eq (sb_keys (bag_of (s, T))) (sb_has (bag_of (s, T))).
Proof.
  intros k Hk. cbn [sb_has bag_of fst snd] in Hk. destruct (wlook F s T k) as [p|] eqn:E; [|done].
  apply wlook_ent in E as (k' & Hin & He). exists k'. split; [|done]. cbn [sb_keys bag_of snd].
  apply elem_of_list_In, in_map_iff. exists (k', At p). split; [done|]. apply elem_of_list_In. by apply went_in.
Qed.

Lemma has_spec w G h s T k : WInv w G -> G !! h = Some (s, T) ->
  has F fuel (Some h) k w = Ret (sb_has (bag_of (s, T)) k) w.
Proof.
  intros HI Hh. pose proof (WInv_find F L PL D HF Hall Hcell le254 w G h s T k fuel HI Hh Hfuel) as Hf. unfold has.
  cbn [sb_has bag_of fst snd]. destruct (wlook F s T k) as [p|].
  - destruct Hf as (k' & _ & _ & Hr). by rewrite (bind_Ret _ _ _ _ _ Hr).
  - by rewrite (bind_Ret _ _ _ _ _ Hf).
Qed.

Variables (aop : K -> insop V CK U).
Hypothesis Haop : ∀ k, io_found (aop k) = (λ _, ret tt) /\
  io_new (aop k) = cellnew L zero k /\ io_split (aop k) = cellnew L zero k /\ io_check (aop k) = false.

Lemma add_step w σ h k : Rel w σ -> is_Some (sbs_set σ !! h) ->
  (insert F (aop k) fuel (Some h) k w = Hang /\ ∃ B, sbs_set σ !! h = Some B /\ sb_has B k = false) \/
  (∃ w', insert F (aop k) fuel (Some h) k w = Ret tt w' /\ ¬ shallow D w') \/
  (∃ w' σ', insert F (aop k) fuel (Some h) k w = Ret tt w' /\ Rel w' σ' /\
    sbstep eq inverted stable σ (SAdd h k) TUnit σ').
Proof.
  intros HR Hh. destruct (Haop k) as (Hfnd & Hnew & Hsplit & Hchk).
  destruct (Rel_handle _ _ _ HR Hh) as (G & s & T & HI & HGh & HG & Hm & Hmh & Hu).
  assert (Hmk : ∀ (b : bool) w1, (if b then io_new (aop k) else io_split (aop k)) w1 =
    Ret (At (w_nxt w1)) (World (<[w_nxt w1 := BKv zero (ly_ck L k)]> (w_mem w1)) (xO (w_nxt w1)) (w_usr w1))).
  { intros [] w1; rewrite ?Hnew, ?Hsplit; apply cellnew_run. }
  set (PL' := λ s T, PL s T /\ (stable = true -> placen F (sits F G) s T)).
  assert (HPP : place_ok F PL').
  { apply place_ok_and; [done|]. apply place_ok_if. intros Hb. destruct (HSS Hb) as (Hrc & _). by apply placen_ok. }
  assert (HI2 : WeakHeap.WInv L PL' D w G).
  { eapply WInv_mono; [eapply (WInv_sits F L PL D Hcell); exact HI|]. intros h0 s0 T0 _ [H1 H2]. by split. }
  pose proof (WInv_insert F L PL' D Hall Hflat Hrepl Hcell le254 F (aop k) w G h s T k fuel HF (λ _ _, eq_refl) eq_refl HPP HI2 HGh Hfuel) as Hins.
  assert (Hpre : ∀ w1 : world, w_ok w1 -> ∃ p w2, io_split (aop k) w1 = Ret p w2 /\ newcell L w1 w2 k p).
  { intros w1 Hok1. eexists _, _. split; [exact (Hmk false w1)|]. by apply newcell_ok. }
  specialize (Hins Hpre). destruct (wlook F s T k) as [a|] eqn:E.
  - destruct Hins as (k' & Hin & He & Hrun). right; right. exists w, σ. rewrite Hrun, Hfnd. split; [done|]. split; [done|].
    split; [done|]. exists (bag_of (s, T)). split; [done|]. cbn [sb_has bag_of fst snd]. by rewrite E.
  - destruct Hins as [Hh1|[(w' & lv & Hr & Hlv)|(b & w1 & Hq & Hok1 & Hm2)]].
    + left. split; [done|]. eexists. split; [exact Hmh|]. cbn [sb_has bag_of fst snd]. by rewrite E.
    + right; left. exists w'. split; [done|]. intros Hs. specialize (Hs _ _ _ Hlv). lia.
    + right; right. cbv zeta in Hm2.
      destruct (Hm2 _ _ (Hmk b w1) (newcell_ok L Hcell _ _ _ _ Hok1)) as (w' & T' & Hrun & HI2' & Hsp & Hlv & Hu' & Hv').
      assert (HI' : WInv w' (<[h := (s, T')]> G)) by (eapply WInv_mono; [exact HI2'|]; by intros ??? _ []).
      assert (HG' : WGood s w' h T') by (eapply (wi_good _ _ _ _ _ HI' h); apply lookup_insert).
      exists w', (SBState (<[h := bag_of (s, T')]> (sbs_set σ)) (sbs_usr σ)). split; [done|]. split.
      * exists (<[h := (s, T')]> G). split_and!; [done| |]; simpl.
        -- by rewrite fmap_insert, Hm.
        -- rewrite Hu'. cbn [w_usr]. by rewrite (qu_usr _ _ _ Hq).
      * split; [done|]. exists (bag_of (s, T)). split; [done|]. cbn [sb_has bag_of fst snd]. rewrite E.
        exists (sb_keys (bag_of (s, T'))), (sb_has (bag_of (s, T'))). split_and!; [|apply has_finds| | |done].
        -- destruct Hlv as [Hlv|(Hc & _)]; [|congruence]. cbn [sb_keys bag_of snd]. by rewrite Hlv.
        -- intros He. cbn [sb_has bag_of fst snd]. by rewrite (wlook_spot F L PL D le254 _ _ _ _ _ _ _ HG' Hsp He).
        -- intros Hb k1. cbn [sb_has bag_of fst snd]. destruct (wlook F s T k1) as [p1|] eqn:E1; [|done]. intros _.
           destruct (HSS Hb) as (Hrc & Hsame).
           destruct (wi_good _ _ _ _ _ HI2' h s T' ltac:(apply lookup_insert)) as [_ [_ Hpl']].
           rewrite (wlook_stays F L PL D le254 G h s T T' w' k1 p1 (Hsame s) HGh E1); [done| |by apply Hpl'|exact HG'].
           intros k2 Hin. apply went_in in Hin. apply went_in.
           destruct Hlv as [Hlv|(Hc & _)]; [|congruence]. rewrite Hlv. by right.
Qed.

Lemma visits_seach f G h s T es : G !! h = Some (s, T) -> ∀ w, WInv w G -> (∀ e, e ∈ es -> e ∈ leaves T) ->
  ∃ b, visits L (act_set F (set_cb f)) es w = Ret b (World (w_mem w) (w_nxt w) (seach f (map fst es) (w_usr w))).
Proof.
  intros Hh. induction es as [|[k p] es IH]; intros w HI Hsub; cbn [map visits seach fst snd].
  { exists true. by destruct w. }
  pose proof (wi_good _ _ _ _ _ HI _ _ _ Hh) as [HM _].
  assert (Hin : (k, p) ∈ leaves T) by (apply Hsub; left).
  pose proof (MapI_cell _ _ _ _ _ _ _ _ HM Hin) as Hc.
  assert (Hrun : act_set F (set_cb f) (ly_leaf L k p) w = Ret (f (w_usr w) k).2 (World (w_mem w) (w_nxt w) (f (w_usr w) k).1)).
  { unfold act_set. by rewrite (bind_Ret _ _ _ _ _ (fo_key _ _ HF k p w (Hall k) Hc)). }
  rewrite (bind_Ret _ _ _ _ _ Hrun). destruct (f (w_usr w) k) as [u b]. cbn [fst snd]. destruct b.
  - destruct (IH (World (w_mem w) (w_nxt w) u)) as (b & Hb).
    + by apply WInv_usr.
    + intros e He. apply Hsub. by right.
    + eauto.
  - eauto.
Qed.

Lemma all_spec f w G h s T : WInv w G -> G !! h = Some (s, T) ->
  all_set F fuel (Some h) (set_cb f) w = Ret tt (World (w_mem w) (w_nxt w) (seach f (map fst (leaves T)) (w_usr w))).
Proof.
  intros HI Hh. pose proof (wi_good _ _ _ _ _ HI _ _ _ Hh) as HG.
  destruct (visits_seach f G h s T (leaves T) Hh w HI) as (b & Hrun); [done|]. unfold all_set.
  rewrite (bind_Ret _ _ _ b (World (w_mem w) (w_nxt w) (seach f (map fst (leaves T)) (w_usr w)))); [done|].
  rewrite <- Hrun.
  apply (scan_spec L (act_set F (set_cb f)) h T (λ w, WInv w G)) with (c := []); try done.
  - intros w0 H0. destruct (wi_good _ _ _ _ _ H0 _ _ _ Hh) as [HM0 _]. by eapply MapI_carries.
  - intros k p w0 b0 w0' Hin H0 Hr. destruct (wi_good _ _ _ _ _ H0 _ _ _ Hh) as [HM0 _].
    pose proof (MapI_cell _ _ _ _ _ _ _ _ HM0 Hin) as Hc.
    unfold act_set in Hr. rewrite (bind_Ret _ _ _ _ _ (fo_key _ _ HF k p w0 (Hall k) Hc)) in Hr.
    injection Hr as <- <-. by apply WInv_usr.
  - destruct HG as [HM _]. by eapply MapI_node.
  - destruct HG as [HM _]. pose proof (mi_hgt _ _ _ _ _ _ HM). lia.
Qed.

Variable api : setapi K V CK U.
Hypothesis HAdd : ∀ (oh : option loc) k, sa_Add api oh k = insert F (aop k) fuel oh k.
Hypothesis HDel : ∀ (oh : option loc) k, sa_Del api oh k = delete_gen F (if inverted then (λ b, b) else negb) fuel oh k.
Hypothesis HHas : ∀ (oh : option loc) k, sa_Has api oh k = has F fuel oh k.
Hypothesis HAll : ∀ (oh : option loc) f, sa_All api oh f = all_set F fuel oh f.
Local Notation sbstep := (sbstep eq inverted stable).

Definition can σ (op : sop) : Prop :=
  match op with
  | SNew s => True
  | SAdd h k | SDel h k | SHas h k => is_Some (sbs_set σ !! h)
  | SLen h | SDep h | SAll h _ => is_Some (sbs_set σ !! h)
  end.

Lemma step_ok w σ op : Rel w σ -> can σ op ->
  (scall api op w = Hang /\ sadds σ op) \/
  (∃ res w', scall api op w = Ret res w' /\ ¬ shallow D w') \/
  (∃ res w' σ', scall api op w = Ret res w' /\ sbstep σ op res σ' /\ Rel w' σ').
Proof.
  intros HR Hcan. destruct op as [s|h k|h k|h k|h|h|h f]; simpl in Hcan.
  - right; right. destruct HR as (G & HI & Hm & Hu).
    destruct (wnew_spec L PL D HPnew le254 w G s HI) as (h & a & w' & Hrun & HI' & Hfr & Hv' & Hu').
    exists (THandle h), w', (SBState (<[h := bag_of (s, Node a [])]> (sbs_set σ)) (sbs_usr σ)). split_and!.
    + unfold scall. rewrite (bind_Ret _ _ _ _ _ Hrun). done.
    + exists h, (sb_has (bag_of (s, Node a []))). split_and!; try done. by rewrite Hm, lookup_fmap, Hfr.
    + exists (<[h := (s, Node a [])]> G). split_and!; simpl; [done| |congruence]. by rewrite fmap_insert, Hm.
  - destruct (add_step w σ h k HR Hcan) as [[Hr Ha]|[(w' & Hr & Hd)|(w' & σ' & Hr & HR' & Hp)]].
    + left. split; [|done]. unfold scall. rewrite HAdd. unfold bind. by rewrite Hr.
    + right; left. exists TUnit, w'. split; [|done]. unfold scall. by rewrite HAdd, (bind_Ret _ _ _ _ _ Hr).
    + right; right. exists TUnit, w', σ'. split_and!; try done. unfold scall. by rewrite HAdd, (bind_Ret _ _ _ _ _ Hr).
  - right; right. destruct (Rel_handle _ _ _ HR Hcan) as (G & s & T & HI & HGh & HG & Hm & Hmh & Hu).
    exists TUnit.
    set (PL' := λ s T, PL s T /\ (stable = true -> placen F (sits F G) s T)).
    assert (HPP : place_ok F PL').
    { apply place_ok_and; [done|]. apply place_ok_if. intros Hb. destruct (HSS Hb) as (Hrc & _). by apply placen_ok. }
    assert (HI2 : WeakHeap.WInv L PL' D w G).
    { eapply WInv_mono; [eapply (WInv_sits F L PL D Hcell); exact HI|]. intros h0 s0 T0 _ [H1 H2]. by split. }
    destruct (WInv_delete F L PL' D HF Hall Hcell le254 HPP (if inverted then (λ b, b) else negb) w G h s T k fuel HI2 HGh Hfuel)
      as [(Hmiss & w' & Hrun & HI2' & Hu' & Hv')|(k' & p & w' & T' & Hsp & Hms & Hrun & HI2' & Hlv & Hu' & Hv')].
    + exists w', σ. split; [unfold scall; by rewrite HDel, (bind_Ret _ _ _ _ _ Hrun)|]. split.
      * split; [done|]. exists (bag_of (s, T)). split; [done|]. left. split; [|done]. cbn [sb_has bag_of fst snd].
        destruct inverted; [done|]. destruct (wlook F s T k) as [p|] eqn:E; [|done]. apply wlook_some in E as (k' & Hs' & He).
        apply Hmiss in Hs'. rewrite He in Hs'. done.
      * exists G. split_and!; simpl; [|congruence..]. eapply WInv_mono; [exact HI2'|]; by intros ??? _ [].
    + assert (HI' : WInv w' (<[h := (s, T')]> G)) by (eapply WInv_mono; [exact HI2'|]; by intros ??? _ []).
      exists w', (SBState (<[h := bag_of (s, T')]> (sbs_set σ)) (sbs_usr σ)).
      split; [unfold scall; by rewrite HDel, (bind_Ret _ _ _ _ _ Hrun)|].
      assert (He : f_eq F k k' = negb inverted) by (destruct inverted, (f_eq F k k'); done). split.
      * split; [done|]. exists (bag_of (s, T)). split; [done|]. right. split.
        -- cbn [sb_has bag_of fst snd]. destruct inverted.
           ++ destruct (wlook F s T k) as [p'|] eqn:E; [|done]. apply wlook_some in E as (k2 & Hs2 & He2).
              destruct (spot_same F L PL D le254 _ _ _ _ _ _ _ _ _ HG Hsp Hs2) as [-> _]. simpl in He. congruence.
           ++ by rewrite (wlook_spot F L PL D le254 _ _ _ _ _ _ _ HG Hsp He).
        -- exists k', (sb_keys (bag_of (s, T'))), (sb_has (bag_of (s, T'))). split_and!; [done| |apply has_finds| |done].
           { cbn [sb_keys bag_of snd]. by rewrite Hlv. }
           intros Hb k1. cbn [sb_has bag_of fst snd]. destruct (wlook F s T k1) as [p1|] eqn:E1; [|done]. intros _ Hne.
           destruct (HSS Hb) as (Hrc & Hsame).
           destruct (wi_good _ _ _ _ _ HI2' h s T' ltac:(apply lookup_insert)) as [_ [_ Hpl']].
           rewrite (wlook_stays F L PL D le254 G h s T T' w' k1 p1 (Hsame s) HGh E1); [done| |by apply Hpl'|].
           2:{ eapply (wi_good _ _ _ _ _ HI' h). apply lookup_insert. }
           intros k2 Hin. apply went_in in Hin. apply went_in. rewrite Hlv in Hin.
           apply elem_of_cons in Hin as [[= -> ->]|Hin]; [|done]. exfalso.
           apply wlook_some in E1 as (k3 & (q3 & _ & H3) & He3). destruct Hsp as (q4 & _ & H4).
           destruct HG as [HM _]. pose proof (mi_nodup _ _ _ _ _ _ HM) as Hnd. apply NoDup_cons in Hnd as [_ Hnd].
           destruct (pleaf_unique T _ _ _ _ _ Hnd H3 H4) as [_ ->]. congruence.
      * exists (<[h := (s, T')]> G). split_and!; simpl; [done| |congruence]. by rewrite fmap_insert, Hm.
  - right; right. destruct (Rel_handle _ _ _ HR Hcan) as (G & s & T & HI & HGh & HG & Hm & Hmh & Hu).
    eexists _, w, σ. unfold scall. rewrite HHas, (bind_Ret _ _ _ _ _ (has_spec _ _ _ _ _ k HI HGh)). split; [done|].
    split; [|done]. split; [done|]. by exists (bag_of (s, T)).
  - right; right. destruct (Rel_handle _ _ _ HR Hcan) as (G & s & T & HI & HGh & HG & Hm & Hmh & Hu).
    destruct (WInv_root L PL D w G h s T HI HGh) as (rt & Hr & Hl & Hd).
    eexists _, w, σ. unfold scall, Len, root_len. rewrite bind_assoc, (bind_Ret _ _ _ _ _ (load_root_step _ _ _ Hr)).
    split; [done|]. split; [|done]. split; [done|]. exists (bag_of (s, T)). split; [done|].
    rewrite Hl. cbn [sb_keys bag_of snd]. by rewrite map_length.
  - right; right. destruct (Rel_handle _ _ _ HR Hcan) as (G & s & T & HI & HGh & HG & Hm & Hmh & Hu).
    destruct (WInv_root L PL D w G h s T HI HGh) as (rt & Hr & Hl & Hd).
    exists (TDep (mean (N.of_nat (sumdep 0 T)) (N.of_nat (length (leaves T))))), w, σ.
    split; [|split; [split; [done|]; exists (bag_of (s, T)), (sumdep 0 T)|done]].
    + unfold scall, Dep, root_dep. rewrite bind_assoc, (bind_Ret _ _ _ _ _ (load_root_step _ _ _ Hr)).
      rewrite Hl, Hd. unfold mean. by destruct (_ =? 0)%N.
    + cbn [sb_keys bag_of snd]. rewrite map_length. split_and!; try done. destruct HG as [HM _]. apply sumdep_le.
      * by eapply MapI_node.
      * pose proof (mi_hgt _ _ _ _ _ _ HM). lia.
  - right; right. destruct (Rel_handle _ _ _ HR Hcan) as (G & s & T & HI & HGh & HG & Hm & Hmh & Hu).
    pose proof (all_spec f w G h s T HI HGh) as Hrun.
    eexists TUnit, _, (SBState (sbs_set σ) (seach f (map fst (leaves T)) (sbs_usr σ))).
    split; [unfold scall; by rewrite HAll, (bind_Ret _ _ _ _ _ Hrun)|]. split.
    + split; [done|]. by exists (bag_of (s, T)), (map fst (leaves T)).
    + exists G. split_and!; simpl; [by apply WInv_usr|done|by rewrite Hu].
Qed.

(** ** Overwritten keys *)
Variables (clob : CK -> CK -> Prop) (u0 : U).
Hypothesis Hck : ∀ ck ck', clob ck ck' -> (∃ k, ly_ck L k = ck) /\ (∃ k, ly_ck L k = ck').
Hypothesis Hinj : ∀ ck ck', clob ck ck' -> ∀ k1 k2, ly_ck L k1 = ly_ck L k2 -> k1 = k2.
Hypothesis Hlink : ∀ ck ck', clob ck ck' -> ∀ k1 k2 q, ly_leaf L k1 q = ly_leaf L k2 q.
Hypothesis HPkey : ∀ ck ck', clob ck ck' -> ∀ p k s T, PL s T -> PL s (rekey p k T).
Local Notation clobk := (λ k k', clob (ly_ck L k) (ly_ck L k')).
Local Notation sbspec := (sbspec eq inverted stable clobk u0).

Lemma key_step w σ p v ck ck' : clob ck ck' -> Rel w σ -> w_mem w !! p = Some (BKv v ck) ->
  ∃ k0 k σ', clobk k0 k /\ sbkey eq σ k0 k σ' /\ Rel (set_mem w (<[p := BKv v ck']> (w_mem w))) σ'.
Proof.
  intros Hc (G & HI & Hm & Hu) Hp. destruct (Hck _ _ Hc) as [[kold Hold] [k Hk]]. subst ck ck'.
  exists kold, k, (SBState (bag_of <$> ((λ x, (x.1, rekey p k x.2)) <$> G)) (sbs_usr σ)). split_and!; [done|..].
  - split; [done|].
    (* the container of p, if any *)
    assert (Hone : (∃ h0 s0 T0, G !! h0 = Some (s0, T0) /\ p ∈ (went T0).*2) \/
      (∀ h0 s0 T0, G !! h0 = Some (s0, T0) -> p ∉ (went T0).*2)).
    { destruct (decide (Exists (λ x, p ∈ (went x.2.2).*2) (map_to_list G))) as [He|Hn].
      - left. apply Exists_exists in He as ([h0 [s0 T0]] & Hin & Hx). apply elem_of_map_to_list in Hin. eauto.
      - right. intros h0 s0 T0 Hh Hx. apply Hn, Exists_exists. exists (h0, (s0, T0)). split; [|done].
        by apply elem_of_map_to_list. }
    assert (Hfoot : ∀ h s T, p ∈ (went T).*2 -> p ∈ foot h T).
    { intros h s T Hx. apply elem_of_list_fmap in Hx as ([k0 p0] & -> & Hx). apply went_in in Hx.
      right. eapply sub_in; [apply leaf_locs|]. apply elem_of_list_In, in_flat_map. exists (k0, At p0).
      split; [by apply elem_of_list_In|]. by left. }
    assert (Hoth : ∀ s T, p ∉ (went T).*2 -> bag_of (s, rekey p k T) = bag_of (s, T)).
    { intros s T Hx. by rewrite rekey_other. }
    destruct Hone as [(h0 & s0 & T0 & Hh0 & Hin)|Hnone].
    + exists h0. intros h. cbn [sbs_set]. rewrite Hm, !lookup_fmap. destruct (G !! h) as [[s T]|] eqn:E; [|done].
      cbn [fmap option_fmap option_map fst snd]. destruct (decide (h = h0)) as [->|Hne].
      * right. rewrite E in Hh0. injection Hh0 as -> ->. split; [done|]. split; [apply has_finds|].
        apply elem_of_list_fmap in Hin as ([k0 p0] & -> & Hin). cbn [snd] in *.
        assert (k0 = kold) as ->.
        { destruct (went_block L PL D Hcell _ _ _ _ _ _ (wi_good _ _ _ _ _ HI _ _ _ E) Hin) as (v0 & Hb & _).
          rewrite Hp in Hb. injection Hb as _ Hb. symmetry. by eapply Hinj. }
        apply went_in in Hin. split.
        { intros k1 Hk1 Hk2. cbn [sb_has bag_of fst snd].
          assert (Hnp : ∀ T1 kx, (∀ k', (k', At p0) ∈ leaves T1 -> k' = kx) -> f_eq F k1 kx = false -> wlook F s0 T1 k1 ≠ Some p0).
          { intros T1 kx Hx Hf Hl. apply wlook_ent in Hl as (k' & Hin' & He'). apply went_in, Hx in Hin' as ->. congruence. }
          assert (Huniq : ∀ k', (k', At p0) ∈ leaves T0 -> k' = kold).
          { intros k' Hin'. destruct (wi_good _ _ _ _ _ HI _ _ _ E) as [HM _]. pose proof (mi_nodup _ _ _ _ _ _ HM) as Hnd.
            apply NoDup_cons in Hnd as [_ Hnd]. rewrite <- (pleaves_leaves T0 []) in Hin, Hin'.
            apply elem_of_list_In, in_map_iff in Hin as ([q1 e1] & E1 & Hin). cbn [snd] in E1. subst e1. apply elem_of_list_In in Hin.
            apply elem_of_list_In, in_map_iff in Hin' as ([q2 e2] & E2 & Hin'). cbn [snd] in E2. subst e2. apply elem_of_list_In in Hin'.
            by destruct (pleaf_unique T0 _ _ _ _ _ Hnd Hin Hin') as [_ ->]. }
          assert (Huniq' : ∀ k', (k', At p0) ∈ leaves (rekey p0 k T0) -> k' = k).
          { intros k' Hin'. rewrite rekey_leaves in Hin'. apply elem_of_list_In, in_map_iff in Hin' as ([k2 q2] & E2 & _).
            cbn [fst snd] in E2. injection E2 as <- ->. cbn [newkey]. by rewrite decide_True. }
          destruct (wlook F s0 T0 k1) as [p1|] eqn:El; destruct (wlook F s0 (rekey p0 k T0) k1) as [p2|] eqn:El'; try done; exfalso.
          - assert (p1 ≠ p0) as Hne by (intros ->; by eapply (Hnp T0 kold)).
            apply (wlook_rekey F L PL w G h0 s0 T0 p0 k k1 p1 HI E Hne) in El. congruence.
          - assert (p2 ≠ p0) as Hne by (intros ->; by eapply (Hnp (rekey p0 k T0) k)).
            apply (wlook_rekey F L PL w G h0 s0 T0 p0 k k1 p2 HI E Hne) in El'. congruence. }
        apply elem_of_list_split in Hin as (l1 & l2 & Hl).
        destruct (wi_good _ _ _ _ _ HI _ _ _ E) as [HM _]. pose proof (mi_nodup _ _ _ _ _ _ HM) as Hnd.
        apply NoDup_cons in Hnd as [_ Hnd].
        exists (map fst l1), (map fst l2). cbn [sb_keys bag_of snd]. rewrite rekey_leaves, Hl, !map_app, !map_map. split; [done|].
        assert (Hsame : ∀ l, (∀ k', (k', At p0) ∉ l) -> map (λ x : K * ptr, (newkey p0 k x.2 x.1, x.2).1) l = map fst l).
        { intros l Hn. apply map_ext_in. intros [k1 q] H1. cbn [fst snd]. destruct q as [|a]; [done|]. cbn [newkey].
          destruct (decide (a = p0)) as [->|]; [|done]. apply elem_of_list_In in H1. by apply Hn in H1. }
        f_equal; [apply Hsame; intros k1; exact (proj1 (leaf_unique T0 l1 kold p0 l2 k1 Hnd Hl))|]. cbn [map fst snd newkey].
        rewrite decide_True by done. f_equal. apply Hsame. intros k1. exact (proj2 (leaf_unique T0 l1 kold p0 l2 k1 Hnd Hl)).
      * left. apply Hoth. intros Hx. by eapply (wi_sep _ _ _ _ _ HI h s T h0 s0 T0 Hne E Hh0); eapply Hfoot.
    + exists 1%positive. intros h. cbn [sbs_set]. rewrite Hm, !lookup_fmap. destruct (G !! h) as [[s T]|] eqn:E; [|done].
      left. apply Hoth. by eapply Hnone.
  - eexists. split; [eapply (WInv_rekey p k L Hcell Hall (Hlink _ _ Hc)); [by eapply HPkey|done|done]|]. done.
Qed.

(** ** Histories *)
Implicit Types (tr : list (sop * sres)).
Lemma allowed_can tr σ op : sbspec tr σ -> sallowed (λ _, True) (λ _, True) tr op -> can σ op.
Proof.
  intros Hs Ha. pose proof (sbspec_live _ _ _ _ _ tr σ Hs) as Hl.
  destruct op as [s|h k|h k|h k|h|h|h f]; simpl in *; try done.
  1-3: destruct Ha as [[s Hh] _]; by eapply Hl.
  1-3: destruct Ha as [s Hh]; by eapply Hl.
Qed.

Lemma run_rel tr w : swrun api D clob u0 tr w -> ∃ σ, sbspec tr σ /\ Rel w σ.
Proof.
  induction 1 as [|tr w op res w' Hr IH Ho Hc Hsh|tr w p v ck ck' Hcl Hr IH Hp].
  - exists (sbinit u0). split; [constructor|apply Rel_init].
  - destruct IH as (σ & Hs & HR).
    destruct (step_ok w σ op HR) as [[Hh _]|[(res' & w1 & Hc' & Hd)|(res' & w1 & σ' & Hc' & Hst & HR')]].
    { by eapply allowed_can. }
    + congruence.
    + rewrite Hc in Hc'. injection Hc' as <- <-. done.
    + rewrite Hc in Hc'. injection Hc' as <- <-. exists σ'. split; [|done]. by econstructor.
  - destruct IH as (σ & Hs & HR). destruct (key_step w σ p v ck ck' Hcl HR Hp) as (k0 & k & σ' & Hk1 & Hk & HR').
    exists σ'. split; [|done]. by eapply sbspec_key.
Qed.

Theorem weak_spec tr w : swrun api D clob u0 tr w -> ∃ σ, sbspec tr σ /\ sbs_usr σ = w_usr w /\
  ∀ op, sallowed (λ _, True) (λ _, True) tr op ->
    (scall api op w = Hang /\ sadds σ op) \/
    (∃ res w', scall api op w = Ret res w' /\
       (shallow D w' -> ∃ σ', sbstep σ op res σ' /\ sbs_usr σ' = w_usr w')).
Proof.
  intros Hr. destruct (run_rel tr w Hr) as (σ & Hs & HR). exists σ. split; [done|]. split; [by destruct HR as (_&_&_&?)|].
  intros op Ho. destruct (step_ok w σ op HR) as [?|[(res' & w1 & Hc' & Hd)|(res' & w1 & σ' & Hc' & Hst & HR')]].
  { by eapply allowed_can. }
  - by left.
  - right. exists res', w1. split; [done|]. intros Hx. by destruct Hd.
  - right. exists res', w1. split; [done|]. intros _. exists σ'. split; [done|]. by destruct HR' as (_&_&_&?).
Qed.

Theorem weak_readback tr w h k res w' : swrun api D clob u0 tr w -> sallowed (λ _, True) (λ _, True) tr (SAdd h k) ->
  scall api (SAdd h k) w = Ret res w' -> shallow D w' -> eq k k = true ->
  scall api (SHas h k) w' = Ret (THas true) w'.
Proof.
  intros Hr Ho Hc Hsh Hkk. destruct (run_rel tr w Hr) as (σ & Hs & HR).
  destruct (step_ok w σ (SAdd h k) HR) as [[Hh _]|[(res' & w1 & Hc' & Hd)|(res' & w1 & σ' & Hc' & Hst & HR')]].
  { by eapply allowed_can. }
  { congruence. }
  { rewrite Hc in Hc'. by injection Hc' as <- <-. }
  rewrite Hc in Hc'. injection Hc' as <- <-. destruct Hst as [-> (B & HB & Hst)].
  assert (Hv : ∃ B', sbs_set σ' !! h = Some B' /\ sb_has B' k = true).
  { destruct (sb_has B k) eqn:E.
    - subst σ'. eauto.
    - destruct Hst as (E' & has & _ & _ & Hlk & _ & ->). exists (SBag E' has). split; [apply lookup_insert|]. by apply Hlk. }
  destruct Hv as (B' & HB' & Hv).
  destruct (Rel_handle _ _ _ HR' ltac:(eauto)) as (G & s & T & HI & HGh & HG & Hm & Hmh & Hu).
  rewrite HB' in Hmh. injection Hmh as ->. cbn [scall].
  by rewrite HHas, (bind_Ret _ _ _ _ _ (has_spec _ _ _ _ _ k HI HGh)), Hv.
Qed.

Theorem weak_agree tr w h : swrun api D clob u0 tr w -> (∃ s, (SNew s, THandle h) ∈ tr) -> ∃ ks : list K,
  scall api (SLen h) w = Ret (TLen (N.of_nat (length ks) mod 2 ^ 64)) w /\
  (∀ f : U -> K -> U * bool, ∃ w', scall api (SAll h f) w = Ret TUnit w' /\ w_usr w' = seach f ks (w_usr w)) /\
  ∀ k, ∃ b, scall api (SHas h k) w = Ret (THas b) w /\ (b = true -> ∃ k', k' ∈ ks /\ eq k k' = true).
Proof.
  intros Hr [s0 Hlive]. destruct (run_rel tr w Hr) as (σ & Hs & HR).
  pose proof (sbspec_live _ _ _ _ _ tr σ Hs _ _ Hlive) as Hh.
  destruct (Rel_handle _ _ _ HR Hh) as (G & s & T & HI & HGh & HG & Hm & Hmh & Hu).
  exists (map fst (leaves T)). split_and!.
  - destruct (WInv_root L PL D w G h s T HI HGh) as (rt & Hrt & Hl & Hd).
    cbn [scall]. unfold Len, root_len. rewrite bind_assoc, (bind_Ret _ _ _ _ _ (load_root_step _ _ _ Hrt)).
    rewrite Hl. by rewrite map_length.
  - intros f. eexists. split; [cbn [scall]; by rewrite HAll, (bind_Ret _ _ _ _ _ (all_spec f w G h s T HI HGh))|done].
  - intros k. eexists. cbn [scall]. rewrite HHas, (bind_Ret _ _ _ _ _ (has_spec _ _ _ _ _ k HI HGh)). split; [done|].
    intros Hb. by apply (has_finds s T k).
Qed.
End refine.
