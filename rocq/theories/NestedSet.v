(** Programs with callbacks, for every set type. *)
From Coq Require Import Sorted.
From stdpp Require Import base numbers list gmap.
From Verif Require Import GoInt Mem Hash Amt Families BitsFacts Steps Tree Rep Paths Descend Insert Split Delete Remove Core Scan Order Heap Spec SpecFacts HashFacts Guards Client Types Refine RefineSet Instances Pack Sep Programs ProgramFacts Nested.
Local Open Scope nat_scope.

Section sim.
Context `{Countable K} {HS V CK U : Type}.
Variables (F : fam K HS V CK U) (L : layout K V CK) (Q : N -> Prop).
Local Notation D := 240.
Local Notation world := (world V CK U).
Local Notation M := (M V CK U).
Local Notation tree := (tree K).
Local Notation heap := (gmap loc (N * tree)).
Local Notation sstate := (sstate K U).
Local Notation sop := (sop K U).
Local Notation sprog := (sprog K U).
Implicit Types (w : world) (T : tree) (k : K) (h : loc) (s : N) (u : U) (G : heap) (σ : sstate) (R : gset positive).
Hypothesis HF : fam_ok F L.
Hypothesis HL : laws F L.
Variables (fuel : nat).
Hypothesis Hfuel : 256 <= fuel.
Variable dig : N -> K -> nat -> N.
Hypothesis Hdig : ∀ s k d, nib F s k d = dig s k d.
Variables (FA : fam K HS V CK U) (aop : K -> insop V CK U) (W : N -> K -> K -> nat -> Prop) (dfull : bool) (zero : V).
Hypothesis HFA : alike F L FA.
Hypothesis HW : goodway L dig FA W.
Hypothesis Haop : ∀ k, io_found (aop k) = (λ _, ret tt) /\
  io_new (aop k) = setcell L zero k /\ io_split (aop k) = setcell L zero k.
Variable api : setapi K V CK U.
Hypothesis HAdd : ∀ (oh : option loc) k, sa_Add api oh k = insert FA (aop k) fuel oh k.
Hypothesis HDel : dfull = true -> ∀ (oh : option loc) k, sa_Del api oh k = delete F fuel oh k.
Hypothesis HHas : ∀ (oh : option loc) k, sa_Has api oh k = has F fuel oh k.
Hypothesis HAll : ∀ (oh : option loc) f, sa_All api oh f = all_set F fuel oh f.
Local Notation Good s := (Good F L D s).
Local Notation Inv := (Inv F L D Q).
Local Notation RelG := (RefineSet.RelG F L Q).

(** The calls of All's callback are a loop over the keys, as long as these stay. *)
Lemma all_members (I : list K -> world -> Prop) w h s T (do : K -> M bool) :
  (∀ ks w, I ks w -> ∃ G, Inv w G /\ G !! h = Some (s, T)) ->
  (∀ k ks w w', I (k :: ks) w -> do k w = Ret true w' -> I ks w') ->
  I (map fst (leaves T)) w ->
  sa_All api (Some h) do w = (_ <- walk do (map fst (leaves T)) ;; ret tt) w.
Proof.
  intros HIR Hstep HIw. rewrite HAll. unfold all_set.
  assert (HIgood : ∀ ks w, I ks w -> Good s w h T).
  { intros ks w0 H0. destruct (HIR _ _ H0) as (G0 & HI0 & Hh0). by apply (in_good _ _ _ _ _ _ HI0 _ _ _ Hh0). }
  pose proof (HIgood _ _ HIw) as HG.
  assert (Hactm : ∀ k p ks w, (k, p) ∈ leaves T -> I (k :: ks) w -> act_set F do (ly_leaf L k p) w = do k w).
  { intros k p ks w0 Hin H0. pose proof (HIgood _ _ H0) as HG0.
    destruct (Good_ok _ _ _ _ _ _ _ _ _ HG0 Hin) as [Hk Hc].
    unfold act_set. by rewrite (bind_Ret _ _ _ _ _ (fo_key _ _ HF k p w0 Hk Hc)). }
  assert (Hvis : ∀ es w, (∀ e, e ∈ es -> e ∈ leaves T) -> I (map fst es) w ->
    visits L (act_set F do) es w = walk do (map fst es) w).
  { induction es as [|[k p] es IH]; intros w0 Hsub H0; [done|]. cbn [visits map walk fst snd].
    assert (E' : act_set F do (ly_leaf L k p) w0 = do k w0) by (eapply Hactm; [apply Hsub; left|exact H0]).
    destruct (act_set F do (ly_leaf L k p) w0) as [b w1| | |] eqn:E; [|by unfold bind; rewrite E, <- E'..].
    rewrite (bind_Ret _ _ _ _ _ E), (bind_Ret _ _ _ _ _ (eq_sym E')). destruct b; [|done]. apply IH.
    - intros e He. apply Hsub. by right.
    - by eapply Hstep. }
  unfold bind. erewrite (scan_steps L (act_set F do) h T (λ es w, (∀ e, e ∈ es -> e ∈ leaves T) /\ I (map fst es) w)) with (c := []) (rest := []).
  - rewrite Hvis by done. done.
  - intros es w0 [_ H0]. eapply Good_carries. by eapply HIgood.
  - intros k p es w0 w1 [Hsub H0] Ha. split; [intros e He; apply Hsub; by right|].
    eapply Hstep; [exact H0|]. rewrite <- Ha. symmetry. eapply Hactm; [apply Hsub; left|done].
  - done.
  - by eapply Good_node.
  - destruct HG as [HM _]. pose proof (mi_hgt _ _ _ _ _ _ HM). lia.
  - rewrite app_nil_r. by split.
Qed.

(** Only sets in R change their keys. *)
Definition sran R G R' G' : Prop := R ⊆ R' /\ ∀ h, h ∉ R' -> is_Some (G !! h) -> G' !! h = G !! h.
Lemma sran_refl R G : sran R G R G.
Proof. done. Qed.
Lemma sran_trans R1 G1 R2 G2 R3 G3 : sran R1 G1 R2 G2 -> sran R2 G2 R3 G3 -> sran R1 G1 R3 G3.
Proof.
  intros [s1 k1] [s2 k2]. split; [by etrans|]. intros h Hn Hs.
  assert (Hn2 : h ∉ R2) by (intros Hx; by apply Hn, s2). rewrite k2; [by apply k1|done|]. by rewrite k1.
Qed.
Definition sended R G (Φ : gset positive -> sstate -> Prop) w' : Prop :=
  ∃ R' σ' G', Φ R' σ' /\ RelG G' w' σ' /\ sran R G R' G'.
Definition sends {A : Type} R G (Φ : spost A) (Ψ : gset positive -> sstate -> Prop) (o : outcome V CK U A) : Prop :=
  match o with
  | Ret x w' => sended R G (Φ x) w'
  | Panic w' => sended R G Ψ w'
  | _ => False
  end.
Lemma sends_trans {A : Type} R1 G1 R2 G2 (Φ : spost A) Ψ o : sran R1 G1 R2 G2 -> sends R2 G2 Φ Ψ o -> sends R1 G1 Φ Ψ o.
Proof.
  intros Hr. assert (Ht : ∀ Φ w', sended R2 G2 Φ w' -> sended R1 G1 Φ w').
  { intros Φ' w' (R' & σ' & G' & HΦ & HR & Hr'). exists R', σ', G'. split; [done|]. split; [done|]. by eapply sran_trans. }
  destruct o; cbn [sends]; try done; apply Ht.
Qed.

Lemma sstep_rekeyed σ op r σ' h : sstep dig σ op r σ' -> h ∉ srekeyed σ op -> is_Some (ss_set σ !! h) ->
  ss_set σ' !! h = ss_set σ !! h.
Proof.
  intros Hst Hh Hs. destruct op as [s|h' k|h' k|h' k|h'|h'|h' f]; cbn [sstep srekeyed] in *.
  - destruct Hst as (h' & -> & Hn & ->). simpl. rewrite lookup_insert_ne; [done|]. intros ->. rewrite Hn in Hs. by destruct Hs.
  - destruct Hst as (-> & s & X & Hm & ->). simpl. destruct (decide (h = h')) as [->|Hne]; [|by rewrite lookup_insert_ne].
    rewrite lookup_insert, Hm. unfold has_member in Hh. rewrite Hm in Hh. case_bool_decide as Hk; [|by rewrite elem_of_singleton in Hh].
    by rewrite subseteq_union_1_L by (by apply singleton_subseteq_l).
  - destruct Hst as (-> & s & X & Hm & ->). simpl. destruct (decide (h = h')) as [->|Hne]; [|by rewrite lookup_insert_ne].
    rewrite lookup_insert, Hm. unfold has_member in Hh. rewrite Hm in Hh. case_bool_decide as Hk; [by rewrite elem_of_singleton in Hh|].
    by rewrite difference_disjoint_L by (by apply disjoint_singleton_r).
  - by destruct Hst as [-> _].
  - by destruct Hst as [-> _].
  - by destruct Hst as [-> _].
  - by destruct Hst as (_ & s & X & ks & _ & _ & _ & ->).
Qed.

Variable P : K -> Prop.
Hypothesis HP : ∀ k, P k -> ly_ok L k.

Lemma smay_can σ op : smay P Q (free dig W) dfull σ op -> RefineSet.can L Q dig W dfull σ op.
Proof.
  destruct op as [s|h k|h k|h k|h|h|h f]; cbn [smay RefineSet.can]; try done.
  - intros (Hk & s & X & Hm & Hx). split; [by rewrite Hm|]. split; [auto|]. by exists s, X.
  - intros (Hk & Hs & Hd). auto.
  - intros (Hk & Hs). auto.
Qed.

Lemma seach_sim h s T (run : K -> spost bool -> gset positive -> sstate -> Prop) fin Ψ (do : K -> M bool) :
  (∀ k Φ R σ G w, RelG G w σ -> run k Φ R σ -> sends R G Φ Ψ (do k w)) ->
  ∀ ks R σ G w, RelG G w σ -> G !! h = Some (s, T) -> swp_each h run fin ks R σ ->
  sends R G (λ _, fin) Ψ (walk do ks w).
Proof.
  intros Hrun. induction ks as [|k ks IH]; intros R σ G w HR HG Hw; cbn [walk swp_each] in *.
  { exists R, σ, G. split; [done|]. split; [done|]. apply sran_refl. }
  pose proof (Hrun k _ R σ G w HR Hw) as Hd. destruct (do k w) as [go w1|w1| |] eqn:E; [|unfold bind; rewrite E; done..].
  rewrite (bind_Ret _ _ _ _ _ E). cbn [sends] in Hd. destruct go.
  - destruct Hd as (R' & σ' & G' & [Hn Hw'] & HR' & Hr). eapply sends_trans; [exact Hr|]. eapply IH; [done| |done].
    destruct Hr as (_ & Hk). rewrite Hk; [done|done|]. by rewrite HG.
  - done.
Qed.

Theorem ssim {A : Type} (p : sprog A) : ∀ Φ Ψ R σ G w, RelG G w σ ->
  swp dig P Q (free dig W) dfull p Φ Ψ R σ -> sends R G Φ Ψ (sexec api p w).
Proof.
  induction p as [A x|A op c IHc|A f c IHc|A|A h f IHf c IHc|A p IHp c IHc]; intros Φ Ψ R σ G w HR Hwp;
    cbn [sexec swp] in *.
  - exists R, σ, G. split; [done|]. split; [done|]. apply sran_refl.
  - destruct Hwp as (Hmay & Hc).
    destruct (RefineSet.step_okG F L Q HF HL fuel Hfuel dig Hdig FA aop W dfull zero HFA HW Haop api HAdd HDel HHas HAll
      G w σ op HR (smay_can σ op Hmay)) as (r & w' & σ' & G' & Hcall & Hst & HR' & Hon).
    rewrite (bind_Ret _ _ _ _ _ Hcall). eapply sends_trans; [|eapply IHc; [exact HR'|by apply Hc]].
    split; [apply union_subseteq_l|]. intros h [_ Hh]%not_elem_of_union Hs.
    assert (Hss : is_Some (ss_set σ !! h)).
    { destruct HR as (_ & Hm & _). rewrite Hm, lookup_fmap. destruct Hs as [x ->]. done. }
    pose proof (sstep_rekeyed σ op r σ' h Hst Hh Hss) as He. destruct Hss as [x Hx]. eapply Hon; [exact Hx|congruence].
  - pose proof HR as (HI & Hm & Hu).
    change ((_ <- get_usr ;; _) w) with (sexec api (c (w_usr w)) (World (w_mem w) (w_nxt w) (f (w_usr w)))).
    rewrite <- Hu. eapply sends_trans; [apply sran_refl|eapply IHc; [|exact Hwp]]. split_and!; try done. by apply Inv_usr.
  - exists R, σ, G. split; [done|]. split; [done|]. apply sran_refl.
  - destruct Hwp as (s & X & Hm & Hwp).
    destruct (RefineSet.RelG_handle F L Q _ _ _ h HR) as (s' & T & HI & HGh & HQ & HG & _ & Hmh & Hu); [by rewrite Hm|].
    rewrite Hmh in Hm. injection Hm as -> <-. specialize (Hwp (map fst (leaves T))).
    assert (Hperm : map fst (leaves T) ≡ₚ elements (keys T)) by (by rewrite (keys_list F L _ _ _ _ HG)).
    assert (Hord : in_order dig s (map fst (leaves T))).
    { pose proof (order_spec F L D s w h T HG) as Hso.
      eapply StronglySorted_impl; [|exact Hso]. intros x y (d & Hd1 & Hd2). exists d. split.
      - intros i Hi. rewrite <- !Hdig. by apply Hd1.
      - by rewrite <- !Hdig. }
    specialize (Hwp Hperm Hord).
    set (Ψ' := λ R' σ', Ψ (R' ∪ R) σ') in *.
    set (fin := λ R' σ', swp dig P Q (free dig W) dfull c Φ Ψ (R' ∪ R) σ') in *.
    set (run := λ k Φ', swp dig P Q (free dig W) dfull (f k) Φ' Ψ') in *.
    assert (Hrun : ∀ k Φ R σ G w, RelG G w σ -> run k Φ R σ -> sends R G Φ Ψ' (sexec api (f k) w)).
    { intros. by eapply IHf. }
    pose proof (all_members (λ ks w, ∃ R σ G, RelG G w σ /\ G !! h = Some (s, T) /\ swp_each h run fin ks R σ) w h s T (λ k, sexec api (f k))) as Hall.
    unfold bind at 1. rewrite Hall; [| | |by exists (R ∖ {[h]}), σ, G].
    + pose proof (seach_sim h s T run fin Ψ' (λ k, sexec api (f k)) Hrun _ _ σ G w HR HGh Hwp) as Hf. unfold bind.
      assert (Hr : ∀ R' G', sran (R ∖ {[h]}) G R' G' -> sran R G (R' ∪ R) G').
      { intros R' G' (Hs1 & Hk1). split; [apply union_subseteq_r|]. intros h' [Hn _]%not_elem_of_union. by apply Hk1. }
      destruct (walk _ _ w) as [b w1|w1| |]; cbn [sends] in Hf; try done.
      * cbn [ret]. destruct Hf as (R1 & σ1 & G1 & Hw1 & HR1 & Hr1). eapply sends_trans; [by apply Hr|]. by eapply IHc.
      * destruct Hf as (R1 & σ1 & G1 & HΨ & HR1 & Hr1). exists (R1 ∪ R), σ1, G1. split; [done|]. split; [done|]. by apply Hr.
    + intros ks w0 (R0 & σ0 & G0 & HR0 & HG0 & _). exists G0. split; [apply HR0|done].
    + intros k ks w0 w1 (R0 & σ0 & G0 & HR0 & HG0 & Hw0) Hdo. cbn [swp_each] in *.
      pose proof (Hrun k _ _ _ _ _ HR0 Hw0) as Hx. rewrite Hdo in Hx.
      destruct Hx as (R1 & σ1 & G1 & [Hn1 Hw1] & HR1 & _ & Hk1). exists R1, σ1, G1. split; [done|].
      split; [|done]. rewrite Hk1; [done|done|]. by rewrite HG0.
  - unfold try. pose proof (IHp _ _ _ _ _ _ HR Hwp) as Hp. destruct (sexec api p w) as [x w1|w1| |]; cbn [sends] in Hp; try done.
    all: destruct Hp as (R1 & σ1 & G1 & Hw1 & HR1 & Hr1); eapply sends_trans; [exact Hr1|]; by eapply IHc.
Qed.
End sim.

(** ** The calculus is monotone *)
Section mono.
Context `{Countable K} {U : Type} (dig : N -> K -> nat -> N).
Local Notation sstate := (sstate K U).
Local Notation sprog := (sprog K U).
Implicit Types (σ : sstate) (R : gset positive).
Variables (P P' : K -> Prop) (Q Q' : N -> Prop) (fit fit' : N -> list K -> K -> Prop) (dl dl' : bool).
Hypothesis HP : ∀ k, P k -> P' k.
Hypothesis HQ : ∀ s, Q s -> Q' s.
Hypothesis Hfit : ∀ s (X : gset K) k, Q s -> (∀ k, k ∈ X -> P k) -> P k -> k ∉ X -> fit s (elements X) k -> fit' s (elements X) k.
Hypothesis Hdl : ∀ k, P k -> dl = true -> dl' = true.

(** The seeds and keys of all sets are considered ones. *)
Definition sclean σ : Prop := ∀ h s X, ss_set σ !! h = Some (s, X) -> Q s /\ ∀ k, k ∈ X -> P k.
Lemma smay_clean σ op r σ' : smay P Q fit dl σ op -> sstep dig σ op r σ' -> sclean σ -> sclean σ'.
Proof.
  intros Hm Hst Hc. assert (Hput : ∀ h0 s0 X0, Q s0 -> (∀ k, k ∈ X0 -> P k) -> ∀ h s X, <[h0 := (s0, X0)]> (ss_set σ) !! h = Some (s, X) -> Q s /\ ∀ k, k ∈ X -> P k).
  { intros h0 s0 X0 Hs0 HX0 h s X Hx. destruct (decide (h = h0)) as [->|Hne].
    - rewrite lookup_insert in Hx. by injection Hx as <- <-.
    - rewrite lookup_insert_ne in Hx by done. by eapply Hc. }
  destruct op as [s|h k|h k|h k|h|h|h f]; cbn [smay sstep] in *.
  - destruct Hst as (h & -> & _ & ->). intros h0 s0 X0. apply Hput; [done|]. intros k Hk. by apply elem_of_empty in Hk.
  - destruct Hst as (_ & s & X & HX & ->). destruct Hm as [Hk _]. destruct (Hc _ _ _ HX) as [Hs Hks].
    intros h0 s0 X0. apply Hput; [done|]. intros k' [->%elem_of_singleton|Hk']%elem_of_union; auto.
  - destruct Hst as (_ & s & X & HX & ->). destruct Hm as [Hk _]. destruct (Hc _ _ _ HX) as [Hs Hks].
    intros h0 s0 X0. apply Hput; [done|]. intros k' [Hk' _]%elem_of_difference; auto.
  - by destruct Hst as [-> _].
  - by destruct Hst as [-> _].
  - by destruct Hst as [-> _].
  - by destruct Hst as (_ & s & X & ks & _ & _ & _ & ->).
Qed.

Lemma smay_mono σ op : sclean σ -> smay P Q fit dl σ op -> smay P' Q' fit' dl' σ op.
Proof.
  intros Hc. destruct op as [s|h k|h k|h k|h|h|h f]; cbn [smay]; try done.
  - apply HQ.
  - intros (Hk & s & X & Hm & Hx). split; [auto|]. exists s, X. split; [done|]. destruct (Hc _ _ _ Hm) as [Hs Hks].
    destruct (decide (k ∈ X)); [by left|right]. destruct Hx; [done|auto].
  - intros (Hk & Hs & Hd). split; [auto|]. split; [done|]. by eapply Hdl.
  - intros (Hk & Hs). auto.
Qed.
Lemma swp_each_mono h (run run' : K -> spost bool -> gset positive -> sstate -> Prop) (fin fin' : gset positive -> sstate -> Prop) :
  (∀ k (Φ Φ' : spost bool) R σ, sclean σ -> (∀ x R σ, sclean σ -> Φ x R σ -> Φ' x R σ) -> run k Φ R σ -> run' k Φ' R σ) ->
  (∀ R σ, sclean σ -> fin R σ -> fin' R σ) ->
  ∀ ks R σ, sclean σ -> swp_each h run fin ks R σ -> swp_each h run' fin' ks R σ.
Proof.
  intros Hrun Hfin. induction ks as [|k ks IH]; intros R σ Hc; cbn [swp_each]; [auto|].
  apply Hrun; [done|]. intros [] R' σ' Hc'; [|auto]. intros [Hn Hw]. split; [done|]. by apply IH.
Qed.
Lemma swp_mono {A : Type} (p : sprog A) : ∀ (Φ Φ' : spost A) (Ψ Ψ' : gset positive -> sstate -> Prop) R σ,
  (∀ x R σ, sclean σ -> Φ x R σ -> Φ' x R σ) -> (∀ R σ, sclean σ -> Ψ R σ -> Ψ' R σ) -> sclean σ ->
  swp dig P Q fit dl p Φ Ψ R σ -> swp dig P' Q' fit' dl' p Φ' Ψ' R σ.
Proof.
  induction p as [A x|A op c IHc|A f c IHc|A|A h f IHf c IHc|A p IHp c IHc];
    intros Φ Φ' Ψ Ψ' R σ HΦ HΨ Hcl; cbn [swp].
  - by apply HΦ.
  - intros (Hm & Hc). split; [by apply smay_mono|]. intros r σ' Hst. eapply IHc; [done|done| |by apply Hc].
    by eapply smay_clean.
  - by apply IHc.
  - by apply HΨ.
  - intros (s & X & Hm & Hw). exists s, X. split; [done|]. intros ks Hks Ho.
    eapply swp_each_mono; [| |done|by apply Hw].
    + intros k Φ1 Φ2 R' σ' Hc' HΦ1. apply IHf; [done| |done]. intros R1 σ1. apply HΨ.
    + intros R' σ'. by apply IHc.
  - apply IHp; [intros x| |done]; intros R' σ'; by apply IHc.
Qed.
End mono.

Section adequate.
Context {U : Type} (fuel : nat) (u0 : U).
Hypothesis Hfuel : 256 <= fuel.

Lemma history_members `{Countable K} s h (ks : list K) :
  ∃ tr : list (sop K U * sres), (∀ s', (SNew s', THandle h) ∈ tr <-> s' = s) /\ sstored tr h = list_to_set ks.
Proof.
  induction ks as [|k ks (tr & Hn & Hs)].
  - exists [(SNew s, THandle h)]. split; [|done]. intros s'. rewrite elem_of_list_singleton. naive_solver.
  - exists ((SAdd h k, TUnit) :: tr). split.
    + intros s'. rewrite elem_of_cons, Hn. naive_solver.
    + cbn [sstored]. rewrite Pos.eqb_refl, Hs. done.
Qed.
Lemma sclean_init `{Countable K} (P : K -> Prop) Q : sclean P Q (sinit u0).
Proof. intros h s X Hx. simpl in Hx. by rewrite lookup_empty in Hx. Qed.

Lemma nested_set `{Countable K} {CK} (api : setapi K unit CK U) dig ok P Q W dl :
  set_type fuel api dig ok ->
  (∀ tr op, sallowed P Q tr op -> add_guard dig W tr op -> dl = true \/ no_del op -> ok tr op) ->
  ∀ (A : Type) (p : sprog K U A) (Φ : A -> U -> Prop) (Ψ : U -> Prop),
  swp dig P Q (free dig W) dl p (λ x _ σ, Φ x (ss_usr σ)) (λ _ σ, Ψ (ss_usr σ)) ∅ (sinit u0) ->
  match sexec api p (empty_world u0) with
  | Ret x w => Φ x (w_usr w)
  | Panic w => Ψ (w_usr w)
  | _ => False
  end.
Proof.
  intros Ht Hall A p Φ Ψ Hwp. destruct (set_pack fuel api dig _ Ht) as [].
  assert (HP : ∀ k, P k -> ly_ok L k).
  { intros k Hk. destruct (Hok [(SNew 0%N, THandle xH)] (SHas xH k)) as [[_ Hx] _]; [|done].
    apply Hall; [|done|by right]. split; [|done]. exists 0%N. by left. }
  assert (HQ : ∀ s, Q s -> Q0 s).
  { intros s Hs. destruct (Hok [] (SNew s)) as [Hx _]; [|done]. apply Hall; [done|done|by right]. }
  assert (Hfr : ∀ s (X : gset K) k, Q s -> (∀ k, k ∈ X -> P k) -> P k -> k ∉ X ->
    free dig W s (elements X) k -> free dig W0 s (elements X) k).
  { intros s X k _ _ Hk Hn Hfree. destruct (history_members s xH (elements X)) as (tr & Htr & Hs).
    rewrite list_to_set_elements_L in Hs.
    destruct (Hok tr (SAdd xH k)) as [_ Hg].
    - apply Hall; [| |by right].
      + split; [|done]. exists s. by apply Htr.
      + right. intros s' ->%Htr. by rewrite Hs.
    - simpl in Hg. rewrite Hs in Hg. destruct Hg as [Hin|Hg]; [done|]. apply Hg. by apply Htr. }
  assert (Hdl : ∀ k, P k -> dl = true -> dfull = true).
  { intros k Hk Hd. destruct (Hok [(SNew 0%N, THandle xH)] (SDel xH k)) as [_ Hx]; [|exact Hx].
    apply Hall; [|done|by left]. split; [|done]. exists 0%N. by left. }
  pose proof (swp_mono dig P P Q Q0 (free dig W) (free dig W0) dl dfull (λ k Hk, Hk) HQ Hfr Hdl p _ _ _ _ _ _
    (λ _ _ _ _ Hx, Hx) (λ _ _ _ Hx, Hx) (sclean_init P Q) Hwp) as Hwp'.
  assert (HR : RefineSet.RelG F L Q0 ∅ (empty_world u0) (sinit u0)).
  { split; [apply Inv_empty|]. split; [by rewrite fmap_empty|done]. }
  pose proof (ssim F L Q0 HF HL fuel Hfuel dig Hdig FA aop W0 dfull tt HFA HW Haop api HAdd HDel HHas HAll P HP p _ _ ∅
    (sinit u0) ∅ (empty_world u0) HR Hwp') as Hs.
  destruct (sexec api p (empty_world u0)) as [x w|w| |]; cbn [sends] in Hs; [| |done..].
  all: destruct Hs as (R & σ & G & HΦ & (_ & _ & Hu) & _); by rewrite <- Hu.
Qed.

(** Keys that the hash separates always fit. *)
Lemma nested_sep_set `{Countable K} {CK} (api : setapi K unit CK U) dig ok P Q W dl :
  set_type fuel api dig ok ->
  (∀ tr op, sallowed P Q tr op -> add_guard dig W tr op -> dl = true \/ no_del op -> ok tr op) ->
  separates dig P Q 240 -> ways dig P Q W ->
  ∀ (A : Type) (p : sprog K U A) (Φ : A -> U -> Prop) (Ψ : U -> Prop),
  swp dig P Q (λ _ _ _, True) dl p (λ x _ σ, Φ x (ss_usr σ)) (λ _ σ, Ψ (ss_usr σ)) ∅ (sinit u0) ->
  match sexec api p (empty_world u0) with
  | Ret x w => Φ x (w_usr w)
  | Panic w => Ψ (w_usr w)
  | _ => False
  end.
Proof.
  intros Ht Hall Hs HW A p Φ Ψ Hwp. eapply (nested_set api dig ok P Q W dl Ht Hall).
  refine (swp_mono dig P P Q Q _ (free dig W) dl dl (λ k Hk, Hk) (λ s Hs, Hs) _ (λ _ _ Hx, Hx) p _ _ _ _ _ _
    (λ _ _ _ _ Hx, Hx) (λ _ _ _ Hx, Hx) (sclean_init P Q) Hwp).
  intros s X k HQ HX Hk _ _. eapply sep_free; [done|done|done| |done]. intros k' Hk'%elem_of_elements. auto.
Qed.
End adequate.
