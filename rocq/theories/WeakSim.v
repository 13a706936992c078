(** Consequences of a simulation by the bags of Bag.v. *)
From Coq Require Import SpecFloat.
From stdpp Require Import base numbers list gmap.
From Verif Require Import GoInt Mem Amt Families Spec Client Bag WeakRuns WeakMap.
Local Open Scope nat_scope.

(** ** Spec level *)
Section spec.
Context {K V U : Type} (eq : K -> K -> bool) (zero : V) (lost over stable : bool) (clob : K -> K -> Prop) (u0 : U).
Implicit Types (σ : bstate K V U) (tr : list (mop K V U * mres V)) (B : bag K).
Local Notation bstep := (bstep eq zero lost over stable).
Local Notation bspec := (bspec eq zero lost over stable clob u0).

(** Calls that do not delete the entry at p, and calls that do not write to it. *)
Definition bkeeps σ (op : mop K V U) (p : positive) : Prop :=
  match op with
  | MDel h k => ∀ B, bs_map σ !! h = Some B -> bg_look B k ≠ Some p
  | _ => True
  end.
Definition bspares σ (op : mop K V U) (p : positive) : Prop :=
  match op with
  | MSet h k _ | MMod h k _ => ∀ B, bs_map σ !! h = Some B -> bg_look B k ≠ Some p
  | MAll _ f => ∀ u k v, (f u k v).1.2 = v
  | MStore p' _ => p' ≠ p
  | _ => True
  end.

Lemma each_same (f : U -> K -> V -> U * V * bool) es : (∀ u k v, (f u k v).1.2 = v) ->
  ∀ u (vs : gmap positive V), (each f es u vs).2 = vs.
Proof.
  intros Hf. induction es as [|[k a] es IH]; intros u vs; cbn [each]; [done|].
  destruct (vs !! a) as [v|] eqn:E; [|done]. pose proof (Hf u k v) as Hv. destruct (f u k v) as [[u' v'] b].
  cbn [fst snd] in Hv. subst v'. rewrite insert_id by done. destruct b; [apply IH|done].
Qed.

Lemma bput_other l σ h k g σ' h1 B1 k1 p1 : bput eq zero over stable l σ h k g σ' -> stable = true ->
  bs_map σ !! h1 = Some B1 -> bg_look B1 k1 = Some p1 -> is_Some (bs_val σ !! p1) ->
  (∃ B', bs_map σ' !! h1 = Some B' /\ bg_look B' k1 = Some p1) /\
  ((∀ B, bs_map σ !! h = Some B -> bg_look B k ≠ Some p1) -> bs_val σ' !! p1 = bs_val σ !! p1).
Proof.
  intros (B & HB & Hst) Hs HB1 Hp1 [v1 Hv1]. destruct (bg_look B k) as [p|] eqn:Ek.
  - destruct Hst as (v & Hv & ->). cbn [bs_map bs_val]. split; [eauto|]. intros Hn. rewrite lookup_insert_ne; [done|].
    intros ->. exact (Hn _ HB Ek).
  - destruct Hst as (p & v & E & look & Hfr & _ & _ & _ & _ & Hst & ->). cbn [bs_map bs_val]. split.
    + destruct (decide (h = h1)) as [->|Hne].
      * rewrite lookup_insert. eexists. split; [done|]. cbn [bg_look]. apply (Hst Hs). congruence.
      * rewrite lookup_insert_ne by done. eauto.
    + intros _. rewrite lookup_insert_ne; [done|]. intros ->. congruence.
Qed.

Lemma bstep_other σ op res σ' h1 B1 k1 p1 : bstep σ op res σ' -> stable = true ->
  bs_map σ !! h1 = Some B1 -> bg_look B1 k1 = Some p1 -> is_Some (bs_val σ !! p1) ->
  (bkeeps σ op p1 -> ∃ B', bs_map σ' !! h1 = Some B' /\ bg_look B' k1 = Some p1) /\
  (bspares σ op p1 -> bs_val σ' !! p1 = bs_val σ !! p1).
Proof.
  intros Hst Hs HB Hk Hv. destruct op as [s|h k v|h k f|h k|h k|h k|h k|h|h|h f|p|p v]; cbn [Bag.bstep bkeeps bspares] in *.
  - destruct Hst as (h & look & _ & Hfr & _ & ->). cbn [bs_map bs_val]. split; [|done]. intros _.
    rewrite lookup_insert_ne by congruence. eauto.
  - destruct Hst as [_ Hst]. destruct (bput_other _ _ _ _ _ _ _ _ _ _ Hst Hs HB Hk Hv). done.
  - destruct Hst as [_ Hst]. destruct (bput_other _ _ _ _ _ _ _ _ _ _ Hst Hs HB Hk Hv). done.
  - destruct Hst as (_ & B & HB' & Hst). destruct (bg_look B k) as [p|] eqn:Ek; [|subst; split; eauto].
    destruct Hst as (k' & E & look & _ & _ & _ & Hst & ->). cbn [bs_map bs_val]. split; [|done]. intros Hn.
    destruct (decide (h = h1)) as [->|Hne]; [|rewrite lookup_insert_ne by done; eauto].
    rewrite lookup_insert. eexists. split; [done|]. cbn [bg_look]. apply (Hst Hs); [congruence|]. intros ->. exact (Hn _ HB' Ek).
  - destruct Hst as [-> _]. split; eauto.
  - destruct Hst as [-> _]. split; eauto.
  - destruct Hst as [-> _]. split; eauto.
  - destruct Hst as [-> _]. split; eauto.
  - destruct Hst as [-> _]. split; eauto.
  - destruct Hst as (_ & B & es & HB' & _ & ->). cbn [bs_map bs_val]. split; [eauto|]. intros Hf. by rewrite each_same.
  - destruct Hst as [-> _]. split; eauto.
  - destruct Hst as (_ & _ & ->). cbn [bs_map bs_val]. split; [eauto|]. intros Hn. by rewrite lookup_insert_ne.
Qed.

(** No two entries share an address. *)
Lemma map_rekeyed p k (es : list (K * positive)) : (map (rekeyed p k) es).*2 = es.*2.
Proof.
  induction es as [|[k0 p0] es IH]; [done|]. change ((rekeyed p k (k0, p0)).2 :: (map (rekeyed p k) es).*2 = p0 :: es.*2).
  rewrite IH. unfold rekeyed. simpl. by case_decide; subst.
Qed.
Lemma in_snd (es : list (K * positive)) p : p ∈ es.*2 <-> ∃ k, (k, p) ∈ es.
Proof.
  rewrite elem_of_list_fmap. split; [intros ([k p'] & -> & ?); eauto|]. intros [k ?]. by exists (k, p).
Qed.
Lemma bspec_addrs tr σ : bspec tr σ ->
  (∀ h B, bs_map σ !! h = Some B -> NoDup (bg_ent B).*2) /\
  (∀ h1 B1 h2 B2 p, bs_map σ !! h1 = Some B1 -> bs_map σ !! h2 = Some B2 -> p ∈ (bg_ent B1).*2 -> p ∈ (bg_ent B2).*2 -> h1 = h2).
Proof.
  set (good := λ m : gmap positive (bag K), (∀ h B, m !! h = Some B -> NoDup (bg_ent B).*2) /\
    (∀ h1 B1 h2 B2 p, m !! h1 = Some B1 -> m !! h2 = Some B2 -> p ∈ (bg_ent B1).*2 -> p ∈ (bg_ent B2).*2 -> h1 = h2)).
  assert (Hins : ∀ m h E look, good m -> NoDup E.*2 ->
    (∀ h1 B1 p, h1 ≠ h -> m !! h1 = Some B1 -> p ∈ E.*2 -> p ∉ (bg_ent B1).*2) -> good (<[h := Bag E look]> m)).
  { intros m h E look [H1 H2] HE Hd. split.
    - intros h1 B1 HB. destruct (decide (h1 = h)) as [->|Hne].
      + rewrite lookup_insert in HB. by injection HB as <-.
      + rewrite lookup_insert_ne in HB by done. by eapply H1.
    - intros h1 B1 h2 B2 p HB1 HB2 Hp1 Hp2.
      destruct (decide (h1 = h)) as [->|Hn1]; destruct (decide (h2 = h)) as [->|Hn2]; [done| | |].
      + rewrite lookup_insert in HB1. injection HB1 as <-. rewrite lookup_insert_ne in HB2 by done.
        by destruct (Hd _ _ _ Hn2 HB2 Hp1).
      + rewrite lookup_insert in HB2. injection HB2 as <-. rewrite lookup_insert_ne in HB1 by done.
        by destruct (Hd _ _ _ Hn1 HB1 Hp2).
      + rewrite lookup_insert_ne in HB1 by done. rewrite lookup_insert_ne in HB2 by done. by eapply H2. }
  induction 1 as [|tr σ op res σ' Hs IH Hst|tr σ p k σ' Hs IH Hc Hst].
  - split; intros; cbn [binit bs_map] in *; simplify_map_eq.
  - pose proof (bspec_good _ _ _ _ _ _ _ _ _ Hs) as Hgood.
    assert (Hput : ∀ l h k g, bput eq zero over stable l σ h k g σ' -> good (bs_map σ')).
    { intros l h k g (B & HB & Hx). destruct (bg_look B k); [by destruct Hx as (v & _ & ->)|].
      destruct Hx as (p & v & E & look & Hfr & _ & HE & _ & _ & _ & ->). cbn [bs_map].
      assert (Hin : ∀ q, q ∈ E.*2 -> q = p \/ q ∈ (bg_ent B).*2).
      { intros q. rewrite !in_snd. intros [k1 Hin]. destruct HE as [HE|(_ & k0 & p0 & E' & HE1 & _ & HE)]; rewrite HE in Hin.
        - apply elem_of_cons in Hin as [[= -> ->]|Hin]; [by left|right; eauto].
        - apply elem_of_cons in Hin as [[= -> ->]|Hin]; [by left|right]. exists k1. rewrite HE1. by right. }
      assert (Hnew : ∀ h1 B1, bs_map σ !! h1 = Some B1 -> p ∉ (bg_ent B1).*2).
      { intros h1 B1 HB1. rewrite in_snd. intros [k1 Hk1]. destruct (proj2 (Hgood _ _ HB1) _ _ Hk1) as [? ?]. congruence. }
      pose proof (proj1 IH _ _ HB) as Hnd. pose proof (Hnew _ _ HB) as Hn.
      apply Hins; [done| |].
      - destruct HE as [HE|(_ & k0 & p0 & E' & HE1 & _ & HE)].
        + rewrite (fmap_Permutation snd _ _ HE). simpl. by constructor.
        + rewrite (fmap_Permutation snd _ _ HE). rewrite (fmap_Permutation snd _ _ HE1) in Hnd, Hn. simpl in *.
          apply NoDup_cons in Hnd as [_ Hnd]. constructor; [|done]. intros ?. apply Hn. by right.
      - intros h1 B1 q Hne HB1 Hq Hq1. apply Hin in Hq as [->|Hq]; [by eapply Hnew|].
        apply Hne. by eapply (proj2 IH). }
    destruct op as [s|h k v|h k f|h k|h k|h k|h k|h|h|h f|p|p v]; cbn [Bag.bstep] in Hst.
    + destruct Hst as (h & look & _ & _ & _ & ->). cbn [bs_map]. apply Hins; [done|constructor|].
      intros h1 B1 p _ _ Hp. by apply elem_of_nil in Hp.
    + destruct Hst as [_ Hst]. by eapply Hput.
    + destruct Hst as [_ Hst]. by eapply Hput.
    + destruct Hst as (_ & B & HB & Hx). destruct (bg_look B k) as [p|]; [|by subst].
      destruct Hx as (k' & E & look & _ & HE & _ & _ & ->). cbn [bs_map].
      pose proof (proj1 IH _ _ HB) as Hnd. rewrite (fmap_Permutation snd _ _ HE) in Hnd. simpl in Hnd.
      apply NoDup_cons in Hnd as [Hn Hnd]. apply Hins; [done|done|]. intros h1 B1 q Hne HB1 Hq Hq1. apply Hne.
      eapply (proj2 IH); [done|exact HB|done|]. rewrite (fmap_Permutation snd _ _ HE). by right.
    + by destruct Hst as [-> _].
    + by destruct Hst as [-> _].
    + by destruct Hst as [-> _].
    + by destruct Hst as [-> _].
    + by destruct Hst as [-> _].
    + by destruct Hst as (_ & B & es & _ & _ & ->).
    + by destruct Hst as [-> _].
    + by destruct Hst as (_ & _ & ->).
  - destruct Hst as (_ & _ & _ & Hm).
    assert (Hback : ∀ h B', bs_map σ' !! h = Some B' -> ∃ B, bs_map σ !! h = Some B /\ (bg_ent B').*2 = (bg_ent B).*2).
    { intros h B' HB'. specialize (Hm h). rewrite HB' in Hm. destruct (bs_map σ !! h) as [B|]; [|done].
      exists B. split; [done|]. destruct Hm as (-> & _). apply map_rekeyed. }
    split.
    + intros h B' HB'. destruct (Hback _ _ HB') as (B & HB & ->). by eapply (proj1 IH).
    + intros h1 B1 h2 B2 q HB1 HB2 Hq1 Hq2. destruct (Hback _ _ HB1) as (C1 & HC1 & He1).
      destruct (Hback _ _ HB2) as (C2 & HC2 & He2). rewrite He1 in Hq1. rewrite He2 in Hq2. by eapply (proj2 IH).
Qed.

(** ** Keys that the caller never overwrites *)
Section track.
Context `{HED : EqDecision K, HC : !Countable K}.
Hypothesis Heq : ∀ k k', eq k k' = true <-> k = k'.
Hypothesis Hstable : stable = true.
Variable k : K.
Hypothesis Hclob : ∀ k1 k2, clob k1 k2 -> k1 ≠ k /\ k2 ≠ k.

(** One entry with key k that k finds, or none. *)
Definition tracks (B : bag K) (b : Prop) : Prop :=
  (b -> ∃ p, bg_look B k = Some p /\ ∀ p', (k, p') ∈ bg_ent B -> p' = p) /\
  (¬ b -> bg_look B k = None /\ ∀ p', (k, p') ∉ bg_ent B).

Lemma tracks_none E look : finds eq E look -> (∀ p', (k, p') ∉ E) -> look k = None.
Proof.
  intros Hf Hn. destruct (look k) as [q|] eqn:Eq; [|done]. destruct (Hf _ _ Eq) as (k' & Hin & He).
  apply Heq in He as <-. by destruct (Hn q).
Qed.
Lemma tracks_put l σ h k1 g σ' (b b' : positive -> Prop) : bput eq zero over stable l σ h k1 g σ' ->
  (∀ h, Decision (b h)) ->
  (∀ h' B, bs_map σ !! h' = Some B -> tracks B (b h')) ->
  (b' h <-> (k1 = k \/ b h)) -> (∀ h', h' ≠ h -> b' h' <-> b h') ->
  ∀ h' B, bs_map σ' !! h' = Some B -> tracks B (b' h').
Proof.
  intros (B0 & HB0 & Hst) Hdec IH Hb Hb' h' B HB.
  assert (Hif : ∀ (P Q : Prop) C, (P <-> Q) -> tracks C P -> tracks C Q) by (unfold tracks; naive_solver).
  destruct (bg_look B0 k1) as [p1|] eqn:E1.
  - destruct Hst as (v & _ & ->). cbn [bs_map] in HB. destruct (decide (h' = h)) as [->|Hne].
    + destruct (IH _ _ HB) as [H1 H2]. split; intros Hx.
      * destruct (decide (b h)) as [Hy|Hy]; [by apply H1|]. destruct (H2 Hy) as [Hl _].
        apply Hb in Hx as [->|?]; [|done]. rewrite HB in HB0. injection HB0 as <-. congruence.
      * apply H2. tauto.
    + eapply Hif; [symmetry; by apply Hb'|by eapply IH].
  - destruct Hst as (p & v & E & look & _ & _ & HE & Hf & Hk & Hkeep & ->). cbn [bs_map] in HB.
    destruct (decide (h' = h)) as [->|Hne].
    2: { rewrite lookup_insert_ne in HB by done. eapply Hif; [symmetry; by apply Hb'|by eapply IH]. }
    rewrite lookup_insert in HB. injection HB as <-. destruct (IH _ _ HB0) as [H1 H2].
    assert (Hin : ∀ p', (k, p') ∈ E -> (k1 = k /\ p' = p) \/ (k, p') ∈ bg_ent B0).
    { intros p' Hin. destruct HE as [HE|(_ & k0 & p0 & E' & HE1 & _ & HE)]; rewrite HE in Hin;
        apply elem_of_cons in Hin as [[= -> ->]|Hin]; auto. right. rewrite HE1. by right. }
    destruct (decide (b h)) as [Hy|Hy].
    + destruct (H1 Hy) as (q & Hq & Hq'). split; [intros _|tauto]. exists q. cbn [bg_look bg_ent]. split; [by apply Hkeep|].
      intros p' Hp'. apply Hin in Hp' as [[-> ->]|Hp']; [congruence|by apply Hq'].
    + destruct (H2 Hy) as [Hn Hn']. destruct (decide (k1 = k)) as [->|Hne1].
      * split; [intros _|tauto]. exists p. cbn [bg_look bg_ent]. split; [apply Hk; by apply Heq|].
        intros p' Hp'. apply Hin in Hp' as [[_ ->]|Hp']; [done|]. by destruct (Hn' p').
      * split; [tauto|intros _]. cbn [bg_look bg_ent]. assert (Hz : ∀ p', (k, p') ∉ E).
        { intros p' Hp'. apply Hin in Hp' as [[-> ->]|Hp']; [done|]. by destruct (Hn' p'). }
        split; [by eapply tracks_none|done].
Qed.

Lemma bspec_new tr σ : bspec tr σ -> ∀ h, bs_map σ !! h = None -> stored tr h = ∅.
Proof.
  assert (Hif : ∀ (σ0 : bstate K V U) h h' B X, bs_map σ0 !! h' = Some B -> bs_map σ0 !! h = None -> (if Pos.eqb h' h then X else ∅ : gset K) = ∅).
  { intros σ0 h h' B X H1 H2. assert (Pos.eqb h' h = false) as -> by (apply Pos.eqb_neq; congruence). done. }
  induction 1 as [|tr σ op res σ' Hs IH Hst|tr σ p k' σ' Hs IH Hc Hst]; intros h Hn; [done| |].
  - pose proof (bstep_mono _ _ _ _ _ _ _ _ _ Hst) as [Hm _].
    assert (Hn0 : bs_map σ !! h = None).
    { apply eq_None_not_Some. intros Hx. apply Hm in Hx. rewrite Hn in Hx. by destruct Hx. }
    pose proof (IH _ Hn0) as Hx.
    destruct op as [s|h1 k1 v|h1 k1 f|h1 k1|h1 k1|h1 k1|h1 k1|h1|h1|h1 f|p|p v]; cbn [Bag.bstep stored] in *; rewrite Hx; try done.
    1-2: destruct Hst as (_ & B & HB & _); by eapply Hif.
    destruct Hst as (_ & B & HB & _). by eapply Hif.
  - apply IH. destruct Hst as (_ & _ & _ & Hm). specialize (Hm h). rewrite Hn in Hm. by destruct (bs_map σ !! h).
Qed.

Lemma not_removed (X : gset K) k1 : k ∉ X ∖ {[k1]} -> k ∈ X -> k1 = k.
Proof.
  intros Hx Hy. destruct (decide (k1 = k)) as [|Hne]; [done|]. destruct Hx. apply elem_of_difference.
  split; [done|]. rewrite elem_of_singleton. congruence.
Qed.
Lemma bspec_tracks tr σ : bspec tr σ -> ∀ h B, bs_map σ !! h = Some B -> tracks B (k ∈ stored tr h).
Proof.
  induction 1 as [|tr σ op res σ' Hs IH Hst|tr σ p k' σ' Hs IH Hc Hst].
  - intros h B HB. cbn [binit bs_map] in HB. by rewrite lookup_empty in HB.
  - pose proof (bspec_addrs _ _ Hs) as [Hnd _].
    pose proof (bspec_good _ _ _ _ _ _ _ _ _ Hs) as Hgood.
    destruct op as [s|h k1 v|h k1 f|h k1|h k1|h k1|h k1|h|h|h f|p|p v]; cbn [Bag.bstep stored] in *.
    + destruct Hst as (h0 & look & -> & Hfr & Hl & ->). cbn [bs_map]. intros h B HB.
      destruct (decide (h = h0)) as [->|Hne].
      * rewrite lookup_insert in HB. injection HB as <-. split.
        -- rewrite (bspec_new _ _ Hs _ Hfr). intros Hx. by apply elem_of_empty in Hx.
        -- intros _. cbn [bg_look bg_ent]. split; [done|]. intros p'. apply not_elem_of_nil.
      * rewrite lookup_insert_ne in HB by done. by apply IH.
    + destruct Hst as [_ Hst]. eapply tracks_put; [done| |exact IH| |].
      * intros h'. apply _.
      * cbn beta. rewrite Pos.eqb_refl. set_solver +.
      * intros h' Hne. cbn beta. assert (Pos.eqb h h' = false) as -> by (apply Pos.eqb_neq; congruence). done.
    + destruct Hst as [_ Hst]. eapply tracks_put; [done| |exact IH| |].
      * intros h'. apply _.
      * cbn beta. rewrite Pos.eqb_refl. set_solver +.
      * intros h' Hne. cbn beta. assert (Pos.eqb h h' = false) as -> by (apply Pos.eqb_neq; congruence). done.
    + destruct Hst as (_ & B & HB & Hst). intros h' B' HB'.
      destruct (decide (h' = h)) as [->|Hne].
      2: { assert (Pos.eqb h h' = false) as -> by (apply Pos.eqb_neq; congruence). destruct (bg_look B k1); [|subst; by apply IH].
        destruct Hst as (k' & E & look & _ & _ & _ & _ & ->). cbn [bs_map] in HB'. rewrite lookup_insert_ne in HB' by done. by apply IH. }
      rewrite Pos.eqb_refl. destruct (IH _ _ HB) as [H1 H2]. destruct (bg_look B k1) as [p1|] eqn:E1.
      * destruct Hst as (k' & E & look & He & HE & Hf & Hkeep & ->). apply Heq in He as <-.
        cbn [bs_map] in HB'. rewrite lookup_insert in HB'. injection HB' as <-.
        pose proof (Hnd _ _ HB) as Hn. rewrite (fmap_Permutation snd _ _ HE) in Hn. simpl in Hn. apply NoDup_cons in Hn as [Hn _].
        assert (Hsub : ∀ p', (k, p') ∈ E -> (k, p') ∈ bg_ent B) by (intros p' Hp'; rewrite HE; by right).
        assert (Hk1 : (k1, p1) ∈ bg_ent B) by (rewrite HE; by left).
        split; cbn [bg_look bg_ent].
        -- rewrite elem_of_difference, elem_of_singleton. intros [Hx Hne]. destruct (H1 Hx) as (q & Hq & Hq').
           destruct (proj1 (Hgood _ _ HB) _ _ Hq) as (k'' & Hin & He). apply Heq in He as <-.
           assert (Hqp : q ≠ p1).
           { intros ->. rewrite HE in Hin. apply elem_of_cons in Hin as [[= ->]|Hin]; [done|]. apply Hn. rewrite in_snd. eauto. }
           exists q. split; [by apply (Hkeep Hstable)|]. intros p' Hp'. by apply Hq', Hsub.
        -- intros Hx. assert (Hz : ∀ p', (k, p') ∉ E).
           { intros p' Hp'. destruct (decide (k ∈ stored tr h)) as [Hy|Hy].
             - assert (k1 = k) as -> by (by eapply not_removed). destruct (H1 Hy) as (q & Hq & Hq').
               rewrite Hq in E1. injection E1 as ->. rewrite (Hq' _ (Hsub _ Hp')) in Hp'. apply Hn. rewrite in_snd. eauto.
             - by destruct (proj2 (H2 Hy) p' (Hsub _ Hp')). }
           split; [by eapply tracks_none|done].
      * subst σ'. rewrite HB in HB'. injection HB' as <-. split.
        -- intros Hx. apply elem_of_difference in Hx as [Hx _]. by apply H1.
        -- intros Hx. destruct (decide (k ∈ stored tr h)) as [Hy|Hy]; [|by apply H2].
           assert (k1 = k) as -> by (by eapply not_removed). destruct (H1 Hy) as (q & Hq & _). congruence.
    + by destruct Hst as [-> _].
    + by destruct Hst as [-> _].
    + by destruct Hst as [-> _].
    + by destruct Hst as [-> _].
    + by destruct Hst as [-> _].
    + by destruct Hst as (_ & B & es & _ & _ & ->).
    + by destruct Hst as [-> _].
    + by destruct Hst as (_ & _ & ->).
  - intros h B' HB'. destruct Hst as (_ & _ & _ & Hm). specialize (Hm h). rewrite HB' in Hm.
    destruct (bs_map σ !! h) as [B|] eqn:HB; [|done]. destruct Hm as (HE & Hf & _ & Hl). destruct (IH _ _ HB) as [H1 H2].
    pose proof (bspec_good _ _ _ _ _ _ _ _ _ Hs _ _ HB) as [Hgood _].
    assert (Hsub : ∀ p', (k, p') ∈ bg_ent B' -> (k, p') ∈ bg_ent B).
    { intros p' Hp'. rewrite HE in Hp'. apply elem_of_list_In, in_map_iff in Hp' as ([k0 p0] & He & Hin).
      apply elem_of_list_In in Hin. unfold rekeyed in He. cbn [snd] in He. case_decide; [|by injection He as -> ->].
      subst p0. injection He as -> ->. by destruct (Hclob _ _ (Hc _ _ _ HB Hin)). }
    split.
    + intros Hx. destruct (H1 Hx) as (q & Hq & Hq'). exists q. split; [|intros p' Hp'; by apply Hq', Hsub].
      apply Hl; [|done]. intros ->. destruct (Hgood _ _ Hq) as (k0 & Hin & He). apply Heq in He as <-.
      by destruct (Hclob _ _ (Hc _ _ _ HB Hin)).
    + intros Hx. destruct (H2 Hx) as [_ Hn]. assert (Hz : ∀ p', (k, p') ∉ bg_ent B') by (intros p' Hp'; by apply (Hn p'), Hsub).
      split; [by eapply tracks_none|done].
Qed.

Local Notation written := (written k).
Local Notation calm := (calm k).
Lemma pair_unique (es : list (K * positive)) k1 k2 p : NoDup es.*2 -> (k1, p) ∈ es -> (k2, p) ∈ es -> k1 = k2.
Proof.
  induction es as [|[k0 p0] es IH]; intros Hnd H1 H2; [by apply elem_of_nil in H1|].
  change (NoDup (p0 :: es.*2)) in Hnd. apply NoDup_cons in Hnd as [Hn Hnd].
  apply elem_of_cons in H1 as [[= -> ->]|H1]; apply elem_of_cons in H2 as [[= E]|H2].
  - done.
  - destruct Hn. rewrite in_snd. eauto.
  - subst. destruct Hn. rewrite in_snd. eauto.
  - by apply IH.
Qed.
Lemma same_entry tr σ h1 B1 k1 h2 B2 k2 p : bspec tr σ -> bs_map σ !! h1 = Some B1 -> bs_map σ !! h2 = Some B2 ->
  bg_look B1 k1 = Some p -> bg_look B2 k2 = Some p -> h1 = h2 /\ k1 = k2.
Proof.
  intros Hs HB1 HB2 H1 H2. pose proof (bspec_good _ _ _ _ _ _ _ _ _ Hs) as Hgood. pose proof (bspec_addrs _ _ Hs) as [Hnd Hdisj].
  destruct (proj1 (Hgood _ _ HB1) _ _ H1) as (k' & Hi1 & He). apply Heq in He as <-.
  destruct (proj1 (Hgood _ _ HB2) _ _ H2) as (k' & Hi2 & He). apply Heq in He as <-.
  assert (h1 = h2) as <-. { eapply (Hdisj _ _ _ _ p HB1 HB2); rewrite in_snd; eauto. }
  split; [done|]. rewrite HB1 in HB2. injection HB2 as <-. by eapply pair_unique; [by eapply Hnd| |].
Qed.
Lemma written_stored tr h : is_Some (written tr h) -> k ∈ stored tr h.
Proof.
  induction tr as [|[op res] tr IH]; intros Hx; [by destruct Hx|].
  destruct op as [s|h1 k1 v|h1 k1 f|h1 k1|h1 k1|h1 k1|h1 k1|h1|h1|h1 f|p|p v]; cbn [written stored] in *; try by apply IH.
  - case_decide as Hd; [destruct Hd as [-> ->]; rewrite Pos.eqb_refl; set_solver +|].
    destruct (Pos.eqb h1 h); [apply elem_of_union_r|]; by apply IH.
  - destruct (Pos.eqb h1 h); [apply elem_of_union_r|]; by apply IH.
  - case_decide as Hd; [by destruct Hx|]. destruct (Pos.eqb h1 h) eqn:E; [|by apply IH].
    apply Pos.eqb_eq in E as ->. apply elem_of_difference. split; [by apply IH|]. intros ->%elem_of_singleton. by apply Hd.
Qed.

Lemma bspec_written tr σ : lost = false -> bspec tr σ -> ∀ h, (∀ op res, (op, res) ∈ tr -> calm h op) ->
  is_Some (bs_map σ !! h) -> bvalue σ h k = written tr h.
Proof.
  intros Hlost Hs0 h. induction Hs0 as [|tr σ op res σ' Hs IH Hst|tr σ p k' σ' Hs IH Hc Hst]; intros Hcalm [B' HB'].
  - cbn [binit bs_map] in HB'. by rewrite lookup_empty in HB'.
  - pose proof (bspec_good _ _ _ _ _ _ _ _ _ Hs) as Hgood.
    assert (Hs' : bspec ((op, res) :: tr) σ') by (by econstructor).
    destruct (bspec_tracks _ _ Hs' _ _ HB') as [H1' H2'].
    assert (Hc : calm h op) by (eapply Hcalm; by left).
    assert (Hx : ∀ op' res', (op', res') ∈ tr -> calm h op') by (intros op' res' Hin; eapply Hcalm; by right).
    specialize (IH Hx).
    destruct (decide (k ∈ stored ((op, res) :: tr) h)) as [Hy|Hy].
    2: { destruct (H2' Hy) as [Hn _]. unfold bvalue. rewrite HB'. simpl. rewrite Hn. simpl.
      symmetry. apply eq_None_not_Some. intros Hz. by apply Hy, written_stored. }
    destruct (H1' Hy) as (p & Hp & _). unfold bvalue. rewrite HB'. simpl. rewrite Hp. simpl.
    (* calls that are not on (h, k) *)
    assert (Hother : k ∈ stored tr h -> (∀ B, bs_map σ !! h = Some B -> ∀ q, bg_look B k = Some q -> bkeeps σ op q /\ bspares σ op q) ->
      bs_val σ' !! p = written tr h).
    { intros Hk Hbk. destruct (bs_map σ !! h) as [B|] eqn:HB.
      - destruct (bspec_tracks _ _ Hs _ _ HB) as [H1 _]. destruct (H1 Hk) as (q & Hq & _).
        destruct (Hbk _ eq_refl _ Hq) as [Hb1 Hb2].
        destruct (proj1 (Hgood _ _ HB) _ _ Hq) as (k'' & Hin & _).
        destruct (bstep_other _ _ _ _ _ _ _ _ Hst Hstable HB Hq (proj2 (Hgood _ _ HB) _ _ Hin)) as [Ho1 Ho2].
        destruct (Ho1 Hb1) as (B2 & HB2 & Hl). rewrite HB' in HB2. injection HB2 as <-.
        rewrite Hp in Hl. injection Hl as ->. rewrite (Ho2 Hb2). rewrite <- IH by eauto. unfold bvalue. rewrite HB. simpl.
        by rewrite Hq.
      - rewrite (bspec_new _ _ Hs _ HB) in Hk. by apply elem_of_empty in Hk. }
    destruct op as [s|h1 k1 v|h1 k1 f|h1 k1|h1 k1|h1 k1|h1 k1|h1|h1|h1 f|p1|p1 v]; cbn [written stored calm bkeeps bspares] in *;
      try (by apply Hother).
    + case_decide as Hd.
      * destruct Hd as [-> ->]. destruct Hst as (_ & B & HB & Hst). destruct (bg_look B k) as [q|] eqn:Eq.
        -- destruct Hst as (v0 & _ & ->). cbn [bs_map bs_val] in *. rewrite HB in HB'. injection HB' as <-.
           rewrite Hp in Eq. injection Eq as ->. apply lookup_insert.
        -- destruct Hst as (q & v0 & E & look & _ & Hv & _ & _ & Hk & _ & ->). cbn [bs_map bs_val] in *.
           rewrite lookup_insert in HB'. injection HB' as <-. cbn [bg_look] in Hp. rewrite Hk in Hp by (by apply Heq).
           injection Hp as ->. rewrite lookup_insert. destruct Hv as [->|[? _]]; [done|congruence].
      * apply Hother.
        -- destruct (Pos.eqb h1 h) eqn:E; [|done]. apply Pos.eqb_eq in E as ->. apply elem_of_union in Hy as [Hy|?]; [|done].
           apply elem_of_singleton in Hy as ->. by destruct Hd.
        -- intros B HB q Hq. split; [done|]. intros B1 HB1 Hq1.
           destruct (same_entry _ _ _ _ _ _ _ _ _ Hs HB1 HB Hq1 Hq). by destruct Hd.
    + apply Hother.
      * destruct (Pos.eqb h1 h) eqn:E; [|done]. apply Pos.eqb_eq in E as ->. apply elem_of_union in Hy as [Hy|?]; [|done].
        apply elem_of_singleton in Hy as ->. by destruct Hc.
      * intros B HB q Hq. split; [done|]. intros B1 HB1 Hq1.
        destruct (same_entry _ _ _ _ _ _ _ _ _ Hs HB1 HB Hq1 Hq). by destruct Hc.
    + case_decide as Hd.
      * destruct Hd as [-> ->]. rewrite Pos.eqb_refl in Hy. set_solver +Hy.
      * apply Hother.
        -- destruct (Pos.eqb h1 h); [|done]. by apply elem_of_difference in Hy as [? _].
        -- intros B HB q Hq. split; [|done]. intros B1 HB1 Hq1.
           destruct (same_entry _ _ _ _ _ _ _ _ _ Hs HB1 HB Hq1 Hq). by destruct Hd.
  - pose proof Hst as (_ & Hv & _ & Hm). specialize (Hm h). rewrite HB' in Hm.
    destruct (bs_map σ !! h) as [B|] eqn:HB; [|done].
    rewrite <- IH by eauto. pose proof (bspec_key _ _ _ _ _ _ _ _ _ _ _ _ Hs Hc Hst) as Hs'.
    destruct (bspec_tracks _ _ Hs _ _ HB) as [H1 H2]. destruct (bspec_tracks _ _ Hs' _ _ HB') as [H1' H2'].
    unfold bvalue. rewrite HB, HB', Hv. simpl. f_equal. clear Hv.
    destruct (decide (k ∈ stored tr h)) as [Hy|Hy].
    + destruct (H1 Hy) as (q & Hq & _). destruct Hm as (_ & _ & _ & Hl). destruct (H1' Hy) as (q' & Hq' & _).
      assert (q ≠ p). { intros ->. destruct (proj1 (bspec_good _ _ _ _ _ _ _ _ _ Hs _ _ HB) _ _ Hq) as (k0 & Hin & He).
        apply Heq in He as <-. by destruct (Hclob _ _ (Hc _ _ _ HB Hin)). }
      rewrite Hq. by apply Hl.
    + destruct (H2 Hy) as [-> _]. by destruct (H2' Hy) as [-> _].
Qed.
End track.
End spec.

(** ** Simulations *)
Section sim.
Context {K V U : Type} (api : mapapi K V K U) (eq : K -> K -> bool) (zero : V) (lost over stable : bool) (clob : K -> K -> Prop).
Local Notation world := (world V K U).
Implicit Types (w : world) (σ : bstate K V U) (tr : list (mop K V U * mres V)) (B : bag K) (h p : positive) (v : V).
Local Notation bstep := (bstep eq zero lost over stable).
Local Notation D := 254.

Record wsim (R : world -> bstate K V U -> Prop) : Prop := WSim {
  ws_init : ∀ u, R (empty_world u) (binit u);
  ws_usr : ∀ w σ, R w σ -> bs_usr σ = w_usr w;
  ws_read : ∀ w σ h B k, R w σ -> bs_map σ !! h = Some B ->
    mcall api (MPtr h k) w = Ret (RPtr (bg_look B k)) w /\
    mcall api (MGet h k) w = Ret (RGet (default zero (bvalue σ h k)) (bool_decide (is_Some (bvalue σ h k)))) w /\
    mcall api (MVal h k) w = Ret (RVal (default zero (bvalue σ h k))) w;
  ws_step : ∀ w σ op, R w σ -> can σ op ->
    (mcall api op w = Hang /\ adds σ op) \/
    (∃ res w', mcall api op w = Ret res w' /\ ¬ shallow D w') \/
    (∃ res w' σ', mcall api op w = Ret res w' /\ bstep σ op res σ' /\ R w' σ');
  ws_key : ∀ w σ p v ck ck', clob ck ck' -> R w σ -> w_mem w !! p = Some (BKv v ck) ->
    ∃ k σ', (∀ h B k0, bs_map σ !! h = Some B -> (k0, p) ∈ bg_ent B -> clob k0 k) /\
      bkey eq σ p k σ' /\ R (set_mem w (<[p := BKv v ck']> (w_mem w))) σ';
  ws_agree : ∀ w σ h, R w σ -> is_Some (bs_map σ !! h) -> ∃ es : list (K * V),
    mcall api (MLen h) w = Ret (RLen (N.of_nat (length es) mod 2 ^ 64)) w /\
    (∀ g : U -> K -> V -> U, ∃ w', mcall api (MAll h (λ u k v, (g u k v, v, true))) w = Ret RUnit w' /\
       w_usr w' = foldl (λ u e, g u e.1 e.2) (w_usr w) es) /\
    ∀ k, ∃ v b, mcall api (MGet h k) w = Ret (RGet v b) w /\
      if b : bool then ∃ k', (k', v) ∈ es /\ eq k k' = true else v = zero }.

Variables (u0 : U) (R : world -> bstate K V U -> Prop).
Hypothesis HR : wsim R.
Local Notation bspec := (bspec eq zero lost over stable clob u0).
Local Notation wrun := (wrun api D clob u0).
Local Notation allowed := (mallowed (λ _, True) (λ _, True)).

Lemma spec_can tr σ op : bspec tr σ -> allowed tr op -> can σ op.
Proof.
  intros Hs Ha. pose proof (bspec_live _ _ _ _ _ _ _ tr σ Hs) as Hl. pose proof (bspec_addr _ _ _ _ _ _ _ tr σ Hs) as Hp.
  destruct op as [s|h k v|h k f|h k|h k|h k|h k|h|h|h f|p|p v]; simpl in *; try done.
  1-6: destruct Ha as [[s Hh] _]; by eapply Hl.
  1-3: destruct Ha as [s Hh]; by eapply Hl.
  1-2: destruct Ha as (h & k & Hin); by eapply Hp.
Qed.
Lemma sim_step w σ op res w' : R w σ -> can σ op -> mcall api op w = Ret res w' -> shallow D w' ->
  ∃ σ', bstep σ op res σ' /\ R w' σ'.
Proof.
  intros Hw Ho Hc Hsh. destruct (ws_step _ HR w σ op Hw Ho) as [[Hh _]|[(res' & w1 & Hc' & Hd)|(res' & w1 & σ' & Hc' & Hst & HR')]].
  - congruence.
  - rewrite Hc in Hc'. by injection Hc' as <- <-.
  - rewrite Hc in Hc'. injection Hc' as <- <-. eauto.
Qed.
Lemma sim_run tr w : wrun tr w -> ∃ σ, bspec tr σ /\ R w σ.
Proof.
  induction 1 as [|tr w op res w' Hr IH Ho Hc Hsh|tr w p v ck ck' Hcl Hr IH Hp].
  - exists (binit u0). split; [constructor|by apply ws_init].
  - destruct IH as (σ & Hs & Hw). destruct (sim_step _ _ _ _ _ Hw (spec_can _ _ _ Hs Ho) Hc Hsh) as (σ' & Hst & HR').
    exists σ'. split; [|done]. by econstructor.
  - destruct IH as (σ & Hs & Hw). destruct (ws_key _ HR w σ p v ck ck' Hcl Hw Hp) as (k & σ' & Hk1 & Hk & HR').
    exists σ'. split; [|done]. by eapply bspec_key.
Qed.

Theorem sim_spec tr w : wrun tr w -> ∃ σ, bspec tr σ /\ bs_usr σ = w_usr w /\
  ∀ op, allowed tr op ->
    (mcall api op w = Hang /\ adds σ op) \/
    (∃ res w', mcall api op w = Ret res w' /\
       (shallow D w' -> ∃ σ', bstep σ op res σ' /\ bs_usr σ' = w_usr w')).
Proof.
  intros Hr. destruct (sim_run tr w Hr) as (σ & Hs & Hw). exists σ. split; [done|]. split; [by eapply ws_usr|].
  intros op Ho. destruct (ws_step _ HR w σ op Hw) as [?|[(res' & w1 & Hc' & Hd)|(res' & w1 & σ' & Hc' & Hst & Hw')]].
  { by eapply spec_can. }
  - by left.
  - right. exists res', w1. split; [done|]. intros Hx. by destruct Hd.
  - right. exists res', w1. split; [done|]. intros _. exists σ'. split; [done|]. by eapply ws_usr.
Qed.

Theorem sim_agree tr w h : wrun tr w -> (∃ s, (MNew s, RHandle h) ∈ tr) -> ∃ es : list (K * V),
  mcall api (MLen h) w = Ret (RLen (N.of_nat (length es) mod 2 ^ 64)) w /\
  (∀ g : U -> K -> V -> U, ∃ w', mcall api (MAll h (λ u k v, (g u k v, v, true))) w = Ret RUnit w' /\
     w_usr w' = foldl (λ u e, g u e.1 e.2) (w_usr w) es) /\
  ∀ k, ∃ v b, mcall api (MGet h k) w = Ret (RGet v b) w /\
    if b : bool then ∃ k', (k', v) ∈ es /\ eq k k' = true else v = zero.
Proof.
  intros Hr [s Hs]. destruct (sim_run tr w Hr) as (σ & Hsp & Hw). eapply (ws_agree _ HR); [done|].
  by eapply (bspec_live _ _ _ _ _ _ _ tr σ Hsp).
Qed.

(** An entry stays as it is while others change. *)
Lemma sim_found tr w σ h k p : bspec tr σ -> R w σ -> allowed tr (MPtr h k) -> mcall api (MPtr h k) w = Ret (RPtr (Some p)) w ->
  ∃ B, bs_map σ !! h = Some B /\ bg_look B k = Some p /\ is_Some (bs_val σ !! p).
Proof.
  intros Hs Hw Ho Hp. destruct (spec_can _ _ _ Hs Ho) as [B HB]. destruct (ws_read _ HR _ _ _ _ k Hw HB) as (Hp' & _).
  rewrite Hp in Hp'. injection Hp' as Hp'. exists B. split_and!; [done|done|].
  destruct (bspec_good _ _ _ _ _ _ _ _ _ Hs _ _ HB) as [Hf Hv]. destruct (Hf _ _ (eq_sym Hp')) as (k' & Hin & _). by eapply Hv.
Qed.
Lemma sim_same w σ h B k p w' σ' B' : R w σ -> bs_map σ !! h = Some B -> bg_look B k = Some p ->
  R w' σ' -> bs_map σ' !! h = Some B' -> bg_look B' k = Some p -> bs_val σ' !! p = bs_val σ !! p ->
  ∀ v b, mcall api (MGet h k) w = Ret (RGet v b) w -> mcall api (MGet h k) w' = Ret (RGet v b) w'.
Proof.
  intros Hw HB Hp Hw' HB' Hp' Hv v b Hg. destruct (ws_read _ HR _ _ _ _ k Hw HB) as (_ & Hg1 & _).
  destruct (ws_read _ HR _ _ _ _ k Hw' HB') as (_ & Hg2 & _). rewrite Hg in Hg1. injection Hg1 as -> ->. rewrite Hg2.
  unfold bvalue. rewrite HB, HB'. simpl. rewrite Hp, Hp'. simpl. by rewrite Hv.
Qed.
Theorem sim_other tr w h k p op res w' : stable = true -> wrun tr w ->
  allowed tr (MPtr h k) -> mcall api (MPtr h k) w = Ret (RPtr (Some p)) w ->
  allowed tr op -> mcall api op w = Ret res w' -> shallow D w' -> keeps api w op p ->
  mcall api (MPtr h k) w' = Ret (RPtr (Some p)) w' /\
  (spares api w op p -> ∀ v b, mcall api (MGet h k) w = Ret (RGet v b) w -> mcall api (MGet h k) w' = Ret (RGet v b) w').
Proof.
  intros Hst Hr Hop Hp Ho Hc Hsh Hk. destruct (sim_run _ _ Hr) as (σ & Hs & Hw).
  destruct (sim_found _ _ _ _ _ _ Hs Hw Hop Hp) as (B & HB & Hl & Hv).
  destruct (sim_step _ _ _ _ _ Hw (spec_can _ _ _ Hs Ho) Hc Hsh) as (σ' & Hstep & Hw').
  destruct (bstep_other _ _ _ _ _ _ _ _ _ _ _ _ _ Hstep Hst HB Hl Hv) as [H1 H2].
  assert (Haim : ∀ h1 k1, mcall api (MPtr h1 k1) w ≠ Ret (RPtr (Some p)) w -> ∀ B1, bs_map σ !! h1 = Some B1 -> bg_look B1 k1 ≠ Some p).
  { intros h1 k1 Hn B1 HB1 Hl1. apply Hn. destruct (ws_read _ HR _ _ _ _ k1 Hw HB1) as (-> & _). by rewrite Hl1. }
  destruct H1 as (B' & HB' & Hl').
  { destruct op; simpl in *; try done. by apply Haim. }
  split.
  - destruct (ws_read _ HR _ _ _ _ k Hw' HB') as (-> & _). by rewrite Hl'.
  - intros Hsp. eapply (sim_same _ _ _ _ _ _ _ _ _ Hw HB Hl Hw' HB' Hl'). apply H2.
    destruct op; simpl in *; try done; by apply Haim.
Qed.
Theorem sim_other_key tr w h k p q v ck ck' w' : wrun tr w ->
  allowed tr (MPtr h k) -> mcall api (MPtr h k) w = Ret (RPtr (Some p)) w ->
  clob ck ck' -> w_mem w !! q = Some (BKv v ck) -> q ≠ p -> w' = set_mem w (<[q := BKv v ck']> (w_mem w)) ->
  mcall api (MPtr h k) w' = Ret (RPtr (Some p)) w' /\
  ∀ v b, mcall api (MGet h k) w = Ret (RGet v b) w -> mcall api (MGet h k) w' = Ret (RGet v b) w'.
Proof.
  intros Hr Hop Hp Hcl Hq Hne ->. destruct (sim_run _ _ Hr) as (σ & Hs & Hw).
  destruct (sim_found _ _ _ _ _ _ Hs Hw Hop Hp) as (B & HB & Hl & _).
  destruct (ws_key _ HR _ _ _ _ _ _ Hcl Hw Hq) as (k' & σ' & _ & (_ & Hv & _ & Hm) & Hw').
  specialize (Hm h). rewrite HB in Hm. destruct (bs_map σ' !! h) as [B'|] eqn:HB'; [|done].
  destruct Hm as (_ & _ & _ & Hlk). assert (Hl' : bg_look B' k = Some p) by (by apply Hlk).
  split.
  - destruct (ws_read _ HR _ _ _ _ k Hw' HB') as (-> & _). by rewrite Hl'.
  - eapply (sim_same _ _ _ _ _ _ _ _ _ Hw HB Hl Hw' HB' Hl'). by rewrite Hv.
Qed.

(** What is written can be read. *)
Lemma sim_put tr σ σ' w' l h k g : bspec tr σ -> bput eq zero over stable l σ h k g σ' -> R w' σ' -> eq k k = true ->
  ∃ B v, bs_map σ !! h = Some B /\ (v = (g (bvalue σ h k)).2 \/ l = true /\ v = zero) /\
    mcall api (MGet h k) w' = Ret (RGet v true) w' /\ mcall api (MVal h k) w' = Ret (RVal v) w' /\
    ∃ p, mcall api (MPtr h k) w' = Ret (RPtr (Some p)) w'.
Proof.
  intros Hs (B & HB & Hst) Hw' Hkk.
  assert (Hv : ∃ B' p v, bs_map σ' !! h = Some B' /\ bg_look B' k = Some p /\ bs_val σ' !! p = Some v /\
    (v = (g (bvalue σ h k)).2 \/ l = true /\ v = zero)).
  { destruct (bg_look B k) as [p|] eqn:E.
    - destruct Hst as (v0 & Hv0 & ->). exists B, p, (g (Some v0)).2. split_and!; [done|done|by apply lookup_insert|].
      left. unfold bvalue. rewrite HB. simpl. rewrite E. simpl. by rewrite Hv0.
    - destruct Hst as (p & v0 & E' & look & _ & Hv0 & _ & _ & Hlk & _ & ->). exists (Bag E' look), p, v0. split_and!.
      + apply lookup_insert.
      + by apply Hlk.
      + apply lookup_insert.
      + unfold bvalue. rewrite HB. simpl. by rewrite E. }
  destruct Hv as (B' & p & v & HB' & Hp & Hv & Hvv). exists B, v. split; [done|]. split; [done|].
  destruct (ws_read _ HR _ _ _ _ k Hw' HB') as (H1 & H2 & H3).
  assert (Hbv : bvalue σ' h k = Some v) by (unfold bvalue; rewrite HB'; simpl; rewrite Hp; done).
  rewrite Hbv in H2, H3. rewrite Hp in H1. eauto.
Qed.
Theorem sim_set tr w h k v res w' : wrun tr w -> allowed tr (MSet h k v) ->
  mcall api (MSet h k v) w = Ret res w' -> shallow D w' -> eq k k = true ->
  ∃ v', (v' = v \/ lost = true /\ v' = zero) /\
  mcall api (MGet h k) w' = Ret (RGet v' true) w' /\ mcall api (MVal h k) w' = Ret (RVal v') w' /\
  ∃ p, mcall api (MPtr h k) w' = Ret (RPtr (Some p)) w'.
Proof.
  intros Hr Ho Hc Hsh Hkk. destruct (sim_run _ _ Hr) as (σ & Hs & Hw).
  destruct (sim_step _ _ _ _ _ Hw (spec_can _ _ _ Hs Ho) Hc Hsh) as (σ' & [_ Hst] & Hw').
  destruct (sim_put _ _ _ _ _ _ _ _ Hs Hst Hw' Hkk) as (B & v' & HB & Hv & Hx). eauto.
Qed.
Theorem sim_mod tr w h k f res w' : wrun tr w -> allowed tr (MMod h k f) ->
  mcall api (MMod h k f) w = Ret res w' -> shallow D w' -> eq k k = true ->
  ∃ v b, mcall api (MGet h k) w = Ret (RGet v b) w /\
  let '(u', v') := f (w_usr w) v b in w_usr w' = u' /\
  mcall api (MGet h k) w' = Ret (RGet v' true) w' /\ mcall api (MVal h k) w' = Ret (RVal v') w' /\
  ∃ p, mcall api (MPtr h k) w' = Ret (RPtr (Some p)) w'.
Proof.
  intros Hr Ho Hc Hsh Hkk. destruct (sim_run _ _ Hr) as (σ & Hs & Hw).
  destruct (sim_step _ _ _ _ _ Hw (spec_can _ _ _ Hs Ho) Hc Hsh) as (σ' & [_ Hst] & Hw').
  destruct (sim_put _ _ _ _ _ _ _ _ Hs Hst Hw' Hkk) as (B & v' & HB & Hv & Hx).
  destruct (ws_read _ HR _ _ _ _ k Hw HB) as (_ & Hg & _). eexists _, _. split; [exact Hg|].
  assert (Hf : f (w_usr w) (default zero (bvalue σ h k)) (bool_decide (is_Some (bvalue σ h k))) = (w_usr w', v')).
  { rewrite <- (ws_usr _ HR _ _ Hw), <- (ws_usr _ HR _ _ Hw').
    assert (Hu : bs_usr σ' = (f (bs_usr σ) (default zero (bvalue σ h k)) (bool_decide (is_Some (bvalue σ h k)))).1).
    { destruct Hst as (B0 & HB0 & Hst). rewrite HB in HB0. injection HB0 as <-. unfold bvalue. rewrite HB. simpl.
      destruct (bg_look B k) as [p|]; simpl.
      - destruct Hst as (v0 & -> & ->). done.
      - by destruct Hst as (p & v0 & E' & look & _ & _ & _ & _ & _ & _ & ->). }
    destruct Hv as [->|[? _]]; [|done]. rewrite Hu. destruct (bvalue σ h k); simpl; by destruct (f _ _ _). }
  rewrite Hf. split; [done|]. exact Hx.
Qed.

(** Keys that are never overwritten. *)
Theorem sim_tracks `{HED : EqDecision K, HC : !Countable K} tr w h k : (∀ k k', eq k k' = true <-> k = k') -> stable = true ->
  wrun tr w -> (∀ k1 k2, clob k1 k2 -> k1 ≠ k /\ k2 ≠ k) -> allowed tr (MPtr h k) ->
  (∃ o, mcall api (MPtr h k) w = Ret (RPtr o) w /\ (is_Some o <-> k ∈ stored tr h)) /\
  (lost = false -> (∀ op res, (op, res) ∈ tr -> calm k h op) ->
    mcall api (MGet h k) w = Ret (RGet (default zero (written k tr h)) (bool_decide (is_Some (written k tr h)))) w).
Proof.
  intros Heq Hst Hr Hcl Ho. destruct (sim_run _ _ Hr) as (σ & Hs & Hw). destruct (spec_can _ _ _ Hs Ho) as [B HB].
  destruct (ws_read _ HR _ _ _ _ k Hw HB) as (Hp & Hg & _). split.
  - exists (bg_look B k). split; [done|]. destruct (bspec_tracks _ _ _ _ _ _ _ Heq Hst k Hcl _ _ Hs _ _ HB) as [H1 H2].
    split.
    + intros [p Hx]. destruct (decide (k ∈ stored tr h)) as [|Hn]; [done|]. destruct (H2 Hn). congruence.
    + intros Hx. destruct (H1 Hx) as (p & -> & _). eauto.
  - intros Hl Hcalm. rewrite Hg. by rewrite (bspec_written _ _ _ _ _ _ _ Heq Hst k Hcl _ _ Hl Hs h Hcalm ltac:(eauto)).
Qed.
End sim.
