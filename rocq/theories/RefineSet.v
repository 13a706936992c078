(** The set types against the finite sets of Spec.v. *)
From Coq Require Import Sorted SpecFloat.
From stdpp Require Import base numbers list gmap.
From Verif Require Import GoInt Mem Hash Amt Families BitsFacts Steps Tree Rep Paths Descend Insert Split Delete Remove Core Scan Order Heap Spec SpecFacts Guards Client Refine.
Local Open Scope nat_scope.

Section refine.
Context `{Countable K} {HS V CK U : Type}.
Variables (F : fam K HS V CK U) (L : layout K V CK) (Q : N -> Prop).
Local Notation D := 240.
Local Notation block := (block V CK).
Local Notation world := (world V CK U).
Local Notation M := (M V CK U).
Local Notation tree := (tree K).
Local Notation heap := (gmap loc (N * tree)).
Local Notation sstate := (sstate K U).
Local Notation sop := (sop K U).
Implicit Types (w : world) (T : tree) (k : K) (h : loc) (s : N) (u : U) (G : heap) (σ : sstate).
Hypothesis HF : fam_ok F L.
Hypothesis HL : laws F L.
Variables (fuel : nat).
Hypothesis Hfuel : 256 <= fuel.
Variable dig : N -> K -> nat -> N.
Hypothesis Hdig : ∀ s k d, nib F s k d = dig s k d.
Local Notation Good s := (Good F L D s).
Local Notation Inv := (Inv F L D Q).

Definition keys T : gset K := list_to_set (map fst (leaves T)).

Lemma keys_in T k : k ∈ keys T <-> ∃ p, (k, p) ∈ leaves T.
Proof.
  unfold keys. rewrite elem_of_list_to_set, elem_of_list_In, in_map_iff. split.
  - intros ([k' p] & <- & Hi). exists p. by apply elem_of_list_In.
  - intros (p & Hi). exists (k, p). split; [done|]. by apply elem_of_list_In.
Qed.
Lemma keys_not T k : k ∉ keys T <-> ∀ p, (k, p) ∉ leaves T.
Proof. rewrite keys_in. naive_solver. Qed.
Lemma keys_list s w h T : Good s w h T -> elements (keys T) ≡ₚ map fst (leaves T).
Proof.
  intros HG. unfold keys. apply elements_list_to_set. eapply keys_nodup; [by eapply Good_wf|apply HG].
Qed.
Lemma keys_size s w h T : Good s w h T -> size (keys T) = length (leaves T).
Proof. intros HG. unfold size, set_size. simpl. rewrite (keys_list _ _ _ _ HG). by rewrite map_length. Qed.

Definition RelG G w (σ : sstate) : Prop := Inv w G /\
  ss_set σ = (λ x : N * tree, (x.1, keys x.2)) <$> G /\ ss_usr σ = w_usr w.
Definition Rel w (σ : sstate) : Prop := ∃ G, RelG G w σ.
(** From G to G' only the trees with other keys change. *)
Definition only G (σ : sstate) G' (σ' : sstate) : Prop :=
  ∀ h x, ss_set σ !! h = Some x -> ss_set σ' !! h = Some x -> G' !! h = G !! h.

Lemma Rel_init u : Rel (empty_world u) (sinit u).
Proof. exists ∅. split; [apply Inv_empty|]. split; [by rewrite fmap_empty|done]. Qed.

Variables (FA : fam K HS V CK U) (aop : K -> insop V CK U) (W : N -> K -> K -> nat -> Prop) (dfull : bool) (zero : V).
Definition setcell k : M ptr :=
  if ly_cell L then a <- alloc (BKv zero (ly_ck L k)) ;; ret (At a) else ret Nil.
Hypothesis HFA : alike F L FA.
Hypothesis HW : goodway L dig FA W.
Hypothesis Haop : ∀ k, io_found (aop k) = (λ _, ret tt) /\
  io_new (aop k) = setcell k /\ io_split (aop k) = setcell k.
Variable api : setapi K V CK U.
Hypothesis HAdd : ∀ (oh : option loc) k, sa_Add api oh k = insert FA (aop k) fuel oh k.
Hypothesis HDel : dfull = true -> ∀ (oh : option loc) k, sa_Del api oh k = delete F fuel oh k.
Hypothesis HHas : ∀ (oh : option loc) k, sa_Has api oh k = has F fuel oh k.
Hypothesis HAll : ∀ (oh : option loc) f, sa_All api oh f = all_set F fuel oh f.

Definition sfits (σ : sstate) h k : Prop :=
  ∃ s X, ss_set σ !! h = Some (s, X) /\ (k ∈ X \/ free dig W s (elements X) k).
Definition can (σ : sstate) (op : sop) : Prop :=
  match op with
  | SNew s => Q s
  | SAdd h k => is_Some (ss_set σ !! h) /\ ly_ok L k /\ sfits σ h k
  | SDel h k => is_Some (ss_set σ !! h) /\ ly_ok L k /\ dfull = true
  | SHas h k => is_Some (ss_set σ !! h) /\ ly_ok L k
  | SLen h | SDep h | SAll h _ => is_Some (ss_set σ !! h)
  end.

Lemma RelG_handle G w σ h : RelG G w σ -> is_Some (ss_set σ !! h) ->
  ∃ s T, Inv w G /\ G !! h = Some (s, T) /\ Q s /\ Good s w h T /\
    ss_set σ = (λ x : N * tree, (x.1, keys x.2)) <$> G /\ ss_set σ !! h = Some (s, keys T) /\
    ss_usr σ = w_usr w.
Proof.
  intros (HI & Hm & Hu) [x Hx]. rewrite Hm, lookup_fmap in Hx.
  destruct (G !! h) as [[s T]|] eqn:E; [|done]. simpl in Hx. injection Hx as <-.
  destruct (in_good _ _ _ _ _ _ HI _ _ _ E) as [HQ HG].
  exists s, T. split_and!; try done. rewrite Hm, lookup_fmap, E. done.
Qed.
Lemma Rel_handle w σ h : Rel w σ -> is_Some (ss_set σ !! h) ->
  ∃ G s T, Inv w G /\ G !! h = Some (s, T) /\ Q s /\ Good s w h T /\
    ss_set σ = (λ x : N * tree, (x.1, keys x.2)) <$> G /\ ss_set σ !! h = Some (s, keys T) /\
    ss_usr σ = w_usr w.
Proof. intros [G HR] Hh. exists G. by apply RelG_handle. Qed.

Lemma setcell_run k w1 : w_ok w1 -> ∃ p w2, setcell k w1 = Ret p w2 /\ newcell L w1 w2 k p /\ w_usr w2 = w_usr w1.
Proof.
  intros Hok. unfold setcell. destruct (ly_cell L) eqn:E.
  - eexists _, _. split; [done|]. split; [|done]. by apply newcell_ok.
  - exists Nil, w1. split; [done|]. split; [|done]. split_and!.
    + done.
    + lia.
    + intros l _. by apply keep_same.
    + unfold cell. by rewrite E.
    + intros l Hl. by apply elem_of_nil in Hl.
Qed.

Lemma set_insert_keys G h s T : (λ x : N * tree, (x.1, keys x.2)) <$> <[h := (s, T)]> G
  = <[h := (s, keys T)]> ((λ x : N * tree, (x.1, keys x.2)) <$> G).
Proof. by rewrite fmap_insert. Qed.

Lemma add_step G w σ h k : RelG G w σ -> is_Some (ss_set σ !! h) -> ly_ok L k -> sfits σ h k ->
  ∃ s X w' G', ss_set σ !! h = Some (s, X) /\ insert FA (aop k) fuel (Some h) k w = Ret tt w' /\
    RelG G' w' (SState (<[h := (s, {[k]} ∪ X)]> (ss_set σ)) (ss_usr σ)) /\
    only G σ G' (SState (<[h := (s, {[k]} ∪ X)]> (ss_set σ)) (ss_usr σ)) /\ confined (λ h', h = h') G w G' w'.
Proof.
  intros HR Hh Hok Hfull. pose proof HFA as (HF' & Hnib & HL').
  destruct (RelG_handle _ _ _ _ HR Hh) as (s & T & HI & HGh & HQ & HG & Hm & Hmh & Hu).
  exists s, (keys T).
  assert (Hre : clear FA L D s T k).
  { eapply (way_clear F L dig Hdig FA W s w h T k _ HFA HW Hok HG (keys_list _ _ _ _ HG)).
    intros Habs. destruct Hfull as (s' & X & HX & Hx). rewrite Hmh in HX. injection HX as <- <-.
    destruct Hx as [Hx|Hx]; [|done]. apply keys_in in Hx as [p Hx]. by apply Habs in Hx. }
  destruct (Haop k) as (Hfnd & Hnew & Hsplit).
  destruct (Inv_insert F L D Q le240 FA (aop k) w G h s T k fuel HF' (Hnib s) HL' HI HGh Hok Hfuel Hre)
    as [(p & Hin & Hrun)|(Habs & b & w1 & Hq & Hok1 & He & Hc & Hpan & Hm2)].
  - exists w, G. split; [done|]. rewrite Hrun, Hfnd. split; [done|]. split; [|split; [done|apply confined_refl]].
    split_and!; try done. simpl. rewrite subseteq_union_1_L; [by rewrite insert_id|].
    apply singleton_subseteq_l, keys_in. eauto.
  - cbv zeta in Hm2. destruct (setcell_run k w1 Hok1) as (p & w2 & Hmk & Hnc & Hu2).
    assert (Hmk' : (if b then io_new (aop k) else io_split (aop k)) w1 = Ret p w2).
    { destruct b; by rewrite ?Hnew, ?Hsplit. }
    destruct (Hm2 _ _ Hmk' Hnc) as (w' & T' & Hrun & HI' & Hlv & Hu' & Hv' & Hq2 & Hft).
    exists w', (<[h := (s, T')]> G). split; [done|]. split; [done|]. split; [split_and!; simpl; [done| |]|split].
    + rewrite set_insert_keys, Hm. replace (keys T') with ({[k]} ∪ keys T); [done|].
      unfold keys. rewrite Hlv. done.
    + rewrite Hu', Hu2, (qu_usr _ _ _ Hq). done.
    + intros h' x Hx Hx'. simpl in Hx'. destruct (decide (h' = h)) as [->|Hne]; [|by rewrite lookup_insert_ne].
      exfalso. rewrite lookup_insert in Hx'. rewrite Hmh in Hx. rewrite <- Hx in Hx'. injection Hx' as Hd.
      assert (Hk : k ∈ keys T) by (rewrite <- Hd; set_solver +). apply keys_in in Hk as [p' Hk]. by apply Habs in Hk.
    + destruct Hnc as (_ & Hn12 & Hkp & _ & _).
      pose proof (qu_nxt _ _ _ Hq) as Hn1. pose proof (qu_nxt _ _ _ Hq2) as Hn2.
      eapply (confined_update _ w w' G h s T T'); [done|done|lia| |done].
      intros l Hl Hnf. eapply keep_trans; [|eapply keep_trans].
      * apply keep_same. by apply (qu_frame _ _ _ Hq).
      * apply Hkp. lia.
      * apply keep_same. apply (qu_frame _ _ _ Hq2); [lia|]. intros [?|?]; [done|lia].
Qed.

Lemma has_step w σ h k : Rel w σ -> is_Some (ss_set σ !! h) -> ly_ok L k ->
  ∃ s X, ss_set σ !! h = Some (s, X) /\ has F fuel (Some h) k w = Ret (bool_decide (k ∈ X)) w.
Proof.
  intros HR Hh Hok. destruct (Rel_handle _ _ _ HR Hh) as (G & s & T & HI & HGh & HQ & HG & Hm & Hmh & Hu).
  exists s, (keys T). split; [done|]. unfold has.
  destruct (Inv_find F L D Q HF le240 HL w G h s T k fuel HI HGh Hok Hfuel) as [(p & Hin & Hc & Hr)|(Hn & Hr)];
    rewrite (bind_Ret _ _ _ _ _ Hr).
  - rewrite bool_decide_true; [done|]. apply keys_in. eauto.
  - rewrite bool_decide_false; [done|]. by apply keys_not.
Qed.

Lemma visits_seach f G h s T es : G !! h = Some (s, T) -> ∀ w, Inv w G -> (∀ e, e ∈ es -> e ∈ leaves T) ->
  ∃ b, visits L (act_set F (set_cb f)) es w = Ret b (World (w_mem w) (w_nxt w) (seach f (map fst es) (w_usr w))).
Proof.
  intros Hh. induction es as [|[k p] es IH]; intros w HI Hsub; cbn [map visits seach fst snd].
  { exists true. by destruct w. }
  destruct (in_good _ _ _ _ _ _ HI _ _ _ Hh) as [HQ HG].
  assert (Hin : (k, p) ∈ leaves T) by (apply Hsub; left).
  destruct (Good_ok _ _ _ _ _ _ _ _ _ HG Hin) as [Hok Hc].
  assert (Hrun : act_set F (set_cb f) (ly_leaf L k p) w = Ret (f (w_usr w) k).2 (World (w_mem w) (w_nxt w) (f (w_usr w) k).1)).
  { unfold act_set. by rewrite (bind_Ret _ _ _ _ _ (fo_key _ _ HF k p w Hok Hc)). }
  rewrite (bind_Ret _ _ _ _ _ Hrun). destruct (f (w_usr w) k) as [u b]. cbn [fst snd]. destruct b.
  - destruct (IH (World (w_mem w) (w_nxt w) u)) as (b & Hb).
    + by apply Inv_usr.
    + intros e He. apply Hsub. by right.
    + eauto.
  - eauto.
Qed.

Lemma all_step f w σ h : Rel w σ -> is_Some (ss_set σ !! h) ->
  ∃ s X ks, ss_set σ !! h = Some (s, X) /\ ks ≡ₚ elements X /\ in_order dig s ks /\
    all_set F fuel (Some h) (set_cb f) w = Ret tt (World (w_mem w) (w_nxt w) (seach f ks (w_usr w))).
Proof.
  intros HR Hh. destruct (Rel_handle _ _ _ HR Hh) as (G & s & T & HI & HGh & HQ & HG & Hm & Hmh & Hu).
  exists s, (keys T), (map fst (leaves T)). split_and!.
  - done.
  - by rewrite (keys_list _ _ _ _ HG).
  - pose proof (order_spec F L D s w h T HG) as Hs.
    eapply StronglySorted_impl; [|exact Hs]. intros x y (d & H1 & H2). exists d. split.
    + intros i Hi. rewrite <- !Hdig. by apply H1.
    + by rewrite <- !Hdig.
  - destruct (visits_seach f G h s T (leaves T) HGh w HI) as (b & Hrun); [done|]. unfold all_set.
    rewrite (bind_Ret _ _ _ b (World (w_mem w) (w_nxt w) (seach f (map fst (leaves T)) (w_usr w)))); [done|].
    rewrite <- Hrun.
    apply (scan_spec L (act_set F (set_cb f)) h T (λ w, Inv w G)) with (c := []); try done.
    + intros w0 H0. destruct (in_good _ _ _ _ _ _ H0 _ _ _ HGh) as [_ HG0]. by eapply Good_carries.
    + intros k p w0 b0 w0' Hin H0 Hr. destruct (in_good _ _ _ _ _ _ H0 _ _ _ HGh) as [_ HG0].
      destruct (Good_ok _ _ _ _ _ _ _ _ _ HG0 Hin) as [Hok Hc].
      unfold act_set in Hr. rewrite (bind_Ret _ _ _ _ _ (fo_key _ _ HF k p w0 Hok Hc)) in Hr.
      injection Hr as <- <-. by apply Inv_usr.
    + by eapply Good_node.
    + destruct HG as [HM _]. pose proof (mi_hgt _ _ _ _ _ _ HM). lia.
Qed.

(** The sets that the call may rebuild. *)
Definition touches (op : sop) (h' : positive) : Prop :=
  match op with SAdd h _ | SDel h _ => h = h' | _ => False end.
Lemma step_okF G w σ op : RelG G w σ -> can σ op ->
  ∃ res w' σ' G', scall api op w = Ret res w' /\ sstep dig σ op res σ' /\ RelG G' w' σ' /\ only G σ G' σ' /\ confined (touches op) G w G' w'.
Proof.
  intros HR Hcan. destruct op as [s|h k|h k|h k|h|h|h f]; simpl in Hcan.
  - destruct HR as (HI & Hm & Hu).
    destruct (new_spec F L D Q le240 w G s HI Hcan) as (h & a & w' & Hrun & HI' & Hfr & Hv' & Hu' & _ & Hn1 & Hn2 & Hn3 & Hsm).
    exists (THandle h), w', (SState (<[h := (s, ∅)]> (ss_set σ)) (ss_usr σ)), (<[h := (s, Node a [])]> G).
    split; [|split; [|split]].
    + unfold scall. rewrite (bind_Ret _ _ _ _ _ Hrun). done.
    + exists h. split_and!; try done. by rewrite Hm, lookup_fmap, Hfr.
    + split_and!; simpl; [done| |congruence].
      rewrite set_insert_keys, Hm. done.
    + split.
      { intros h' x Hx _. rewrite Hm, lookup_fmap in Hx. rewrite lookup_insert_ne; [done|]. intros <-. by rewrite Hfr in Hx. }
      split; [done|]. intros l Hl _. split; [by apply keep_same, Hsm|].
      intros h' s' T' H' Hin. destruct (decide (h' = h)) as [->|Hne]; [|by rewrite lookup_insert_ne in H'].
      exfalso. rewrite lookup_insert in H'. injection H' as <- <-. unfold foot in Hin. simpl in Hin.
      apply elem_of_cons in Hin as [->|Hin]; [lia|]. apply elem_of_list_singleton in Hin as ->. lia.
  - destruct Hcan as (Hh & Hok & Hfull).
    destruct (add_step G w σ h k HR Hh Hok Hfull) as (s & X & w' & G' & Hs & Hrun & HR').
    eexists TUnit, w', _, G'. split; [unfold scall; by rewrite HAdd, (bind_Ret _ _ _ _ _ Hrun)|].
    split; [|exact HR']. split; [done|]. by exists s, X.
  - destruct Hcan as (Hh & Hok & Hd).
    destruct (RelG_handle _ _ _ _ HR Hh) as (s & T & HI & HGh & HQ & HG & Hm & Hmh & Hu).
    exists TUnit.
    destruct (Inv_delete F L D Q HF le240 HL w G h s T k fuel HI HGh Hok Hfuel)
      as [(p & q & w' & T' & Hin & _ & Hrun & HI' & Hlv & Hu' & Hv' & Hqt & _ & Hft)|(Habs & w' & Hrun & HI' & Hsb & Hu' & Hv')];
      exists w', (SState (<[h := (s, keys T ∖ {[k]})]> (ss_set σ)) (ss_usr σ)); [exists (<[h := (s, T')]> G)|exists G];
      (split; [unfold scall; by rewrite (HDel Hd), (bind_Ret _ _ _ _ _ Hrun)|]);
      (split; [split; [done|]; by exists s, (keys T)|]); (split; [|split]).
    + split_and!; simpl; [done| |congruence].
      rewrite set_insert_keys, Hm. replace (keys T') with (keys T ∖ {[k]}); [done|].
      assert (Hnd : NoDup (map fst (leaves T))) by (eapply keys_nodup; [by eapply Good_wf|apply HG]).
      rewrite Hlv in Hnd. simpl in Hnd. apply NoDup_cons in Hnd as [Hnk _].
      unfold keys. rewrite Hlv. simpl.
      assert (k ∉ (list_to_set (map fst (leaves T')) : gset K)) by (by rewrite elem_of_list_to_set).
      set_solver +H0.
    + intros h' x Hx Hx'. simpl in Hx'. destruct (decide (h' = h)) as [->|Hne]; [|by rewrite lookup_insert_ne].
      exfalso. rewrite lookup_insert in Hx'. rewrite Hmh in Hx. rewrite <- Hx in Hx'. injection Hx' as Hd'.
      assert (Hk : k ∈ keys T) by (apply keys_in; eauto). rewrite <- Hd' in Hk. set_solver +Hk.
    + eapply (confined_update _ w w' G h s T T'); [done|done|apply (qu_nxt _ _ _ Hqt)| |done].
      intros l Hl Hnf. apply keep_same. by apply (qu_frame _ _ _ Hqt).
    + split_and!; simpl; [done| |congruence].
      apply keys_not in Habs. rewrite difference_disjoint_L by (set_solver +Habs).
      rewrite <- Hm. by rewrite insert_id.
    + done.
    + assert (Hqt : quiet (λ l, l = h) w w') by (by eapply sbp_quiet).
      rewrite <- (insert_id G h (s, T)) at 2 by done.
      eapply (confined_update _ w w' G h s T T); [done|done|apply (qu_nxt _ _ _ Hqt)| |auto].
      intros l Hl Hnf. apply keep_same. apply (qu_frame _ _ _ Hqt); [done|]. intros ->. apply Hnf. unfold foot. set_solver +.
  - destruct Hcan as (Hh & Hok). destruct (has_step w σ h k (ex_intro _ G HR) Hh Hok) as (s & X & Hs & Hrun).
    eexists _, w, σ, G. unfold scall. rewrite HHas, (bind_Ret _ _ _ _ _ Hrun). split; [done|].
    split; [|split; [done|split; [done|apply confined_refl]]]. split; [done|]. by exists s, X.
  - destruct (RelG_handle _ _ _ _ HR Hcan) as (s & T & HI & HGh & HQ & HG & Hm & Hmh & Hu).
    destruct (Inv_root F L D Q w G h s T HI HGh) as (rt & Hr & Hl & Hd).
    eexists _, w, σ, G. unfold scall, Len, root_len. rewrite bind_assoc, (bind_Ret _ _ _ _ _ (load_root_step _ _ _ Hr)).
    split; [done|]. split; [|split; [done|split; [done|apply confined_refl]]]. split; [done|]. exists s, (keys T). split; [done|].
    rewrite (keys_size _ _ _ _ HG), Hl. done.
  - destruct (RelG_handle _ _ _ _ HR Hcan) as (s & T & HI & HGh & HQ & HG & Hm & Hmh & Hu).
    destruct (Inv_root F L D Q w G h s T HI HGh) as (rt & Hr & Hl & Hd).
    exists (TDep (mean (N.of_nat (total_depth dig s (elements (keys T)))) (N.of_nat (size (keys T))))), w, σ, G.
    split; [|split; [split; [done|]; by exists s, (keys T)|split; [done|split; [done|apply confined_refl]]]].
    unfold scall, Dep, root_dep. rewrite bind_assoc, (bind_Ret _ _ _ _ _ (load_root_step _ _ _ Hr)).
    rewrite (keys_size _ _ _ _ HG), Hl, Hd, (sum_depths F L D s w h T le240 HG). unfold mean.
    replace (total_depth (λ s k, Descend.nib F s k) s (map fst (leaves T)))
      with (total_depth dig s (elements (keys T))); [by destruct (_ =? 0)%N|].
    rewrite (total_depth_perm dig s _ (map fst (leaves T))) by (by eapply keys_list).
    apply total_depth_ext. intros. by rewrite Hdig.
  - destruct (all_step f w σ h (ex_intro _ G HR) Hcan) as (s & X & ks & Hs & Hks & Ho & Hrun).
    eexists TUnit, _, (SState (ss_set σ) (seach f ks (ss_usr σ))), G.
    split; [unfold scall; by rewrite HAll, (bind_Ret _ _ _ _ _ Hrun)|]. split; [|split; [|split; [done|]]].
    + split; [done|]. by exists s, X, ks.
    + destruct HR as (HI & Hm & Hu). split_and!; simpl; [by apply Inv_usr|done|by rewrite Hu].
    + apply confined_keep; [simpl; lia|]. intros l _. by apply keep_same.
Qed.

Lemma step_okG G w σ op : RelG G w σ -> can σ op ->
  ∃ res w' σ' G', scall api op w = Ret res w' /\ sstep dig σ op res σ' /\ RelG G' w' σ' /\ only G σ G' σ'.
Proof.
  intros HR Hcan. destruct (step_okF G w σ op HR Hcan) as (res & w' & σ' & G' & H1 & H2 & H3 & H4 & _).
  by exists res, w', σ', G'.
Qed.


Lemma step_ok w σ op : Rel w σ -> can σ op ->
  ∃ res w' σ', scall api op w = Ret res w' /\ sstep dig σ op res σ' /\ Rel w' σ'.
Proof.
  intros [G HR] Hcan. destruct (step_okG G w σ op HR Hcan) as (res & w' & σ' & G' & H1 & H2 & H3 & _).
  exists res, w', σ'. split_and!; try done. by exists G'.
Qed.

Lemma read_pure w σ op res w' : Rel w σ -> can σ op -> sreads op -> scall api op w = Ret res w' -> w' = w.
Proof.
  intros HR Hcan Hrd Hc. destruct op as [s|h k|h k|h k|h|h|h f]; simpl in Hcan; try done.
  - destruct Hcan as (Hh & Hok). destruct (has_step w σ h k HR Hh Hok) as (s & X & Hs & Hrun).
    unfold scall in Hc. rewrite HHas, (bind_Ret _ _ _ _ _ Hrun) in Hc. by injection Hc.
  - destruct (Rel_handle _ _ _ HR Hcan) as (G & s & T & HI & HGh & HQ & HG & Hm & Hmh & Hu).
    destruct (Inv_root F L D Q w G h s T HI HGh) as (rt & Hr & Hl & Hd).
    unfold scall, Len, root_len in Hc. rewrite bind_assoc, (bind_Ret _ _ _ _ _ (load_root_step _ _ _ Hr)) in Hc. by injection Hc.
  - destruct (Rel_handle _ _ _ HR Hcan) as (G & s & T & HI & HGh & HQ & HG & Hm & Hmh & Hu).
    destruct (Inv_root F L D Q w G h s T HI HGh) as (rt & Hr & Hl & Hd).
    unfold scall, Dep, root_dep in Hc. rewrite bind_assoc, (bind_Ret _ _ _ _ _ (load_root_step _ _ _ Hr)) in Hc.
    destruct (_ =? _)%N in Hc; by injection Hc.
Qed.

(** ** Histories *)
Implicit Types (tr : list (sop * sres)).
Definition guarded tr (op : sop) : Prop :=
  match op with
  | SDel h k => dfull = true
  | _ => add_guard dig W tr op
  end.

Lemma allowed_can u0 tr σ op : sspec dig u0 tr σ -> sallowed (ly_ok L) Q tr op -> guarded tr op -> can σ op.
Proof.
  intros Hs Ha Hg. pose proof (sspec_live dig u0 tr σ Hs) as Hl.
  destruct op as [s|h k|h k|h k|h|h|h f]; simpl in *; try done.
  1: destruct Ha as [[s Hh] Hk]; split_and!; [by eapply Hl|done|];
    destruct (Hl _ _ Hh) as [[s' X] HX]; destruct (sspec_stored dig u0 tr σ Hs _ _ _ HX) as [-> Hin];
    eexists _, _; split; [exact HX|]; destruct Hg as [?|Hg]; [by left|right; by apply Hg].
  1: destruct Ha as [[s Hh] Hk]; split_and!; [by eapply Hl|done|done].
  1: destruct Ha as [[s Hh] Hk]; split; [by eapply Hl|done].
  1-3: destruct Ha as [s Hh]; by eapply Hl.
Qed.

Variable ok : list (sop * sres) -> sop -> Prop.
Variable u0 : U.
Hypothesis Hok : ∀ tr op, ok tr op -> sallowed (ly_ok L) Q tr op /\ guarded tr op.

Lemma run_rel tr w : srun api ok u0 tr w -> ∃ σ, sspec dig u0 tr σ /\ Rel w σ.
Proof.
  induction 1 as [|tr w op res w' Hr IH Ho Hc].
  - exists (sinit u0). split; [constructor|apply Rel_init].
  - destruct IH as (σ & Hs & HR). destruct (Hok _ _ Ho) as [Ha Hg].
    destruct (step_ok w σ op HR) as (res' & w'' & σ' & Hc' & Hst & HR').
    { by eapply allowed_can. }
    rewrite Hc in Hc'. injection Hc' as <- <-. exists σ'. split; [|done]. by econstructor.
Qed.

Lemma rel_step tr w σ op : sspec dig u0 tr σ -> Rel w σ -> ok tr op ->
  ∃ res w' σ', scall api op w = Ret res w' /\ sstep dig σ op res σ' /\ Rel w' σ' /\
    (sreads op -> w' = w /\ σ' = σ).
Proof.
  intros Hs HR Ho. destruct (Hok _ _ Ho) as [Ha Hg].
  assert (Hcan : can σ op) by (by eapply allowed_can).
  destruct (step_ok w σ op HR Hcan) as (res & w' & σ' & Hc & Hst & HR').
  exists res, w', σ'. split_and!; try done. intros Hrd. split.
  - by eapply read_pure.
  - destruct op; try done; by destruct Hst as [-> _].
Qed.

Theorem run_spec tr w : srun api ok u0 tr w ->
  (∃ σ, sspec dig u0 tr σ) /\ ∀ op, ok tr op -> ∃ res w', scall api op w = Ret res w'.
Proof.
  intros Hr. destruct (run_rel tr w Hr) as (σ & Hs & HR). split; [eauto|].
  intros op Ho. destruct (Hok _ _ Ho) as [Ha Hg].
  destruct (step_ok w σ op HR) as (res' & w'' & σ' & Hc' & _); [by eapply allowed_can|]. eauto.
Qed.
End refine.
