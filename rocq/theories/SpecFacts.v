(** Facts about the specification alone. *)
From Coq Require Import Sorted SpecFloat.
From stdpp Require Import base numbers list gmap.
From Verif Require Import Spec.
Local Open Scope nat_scope.

Section maps.
Context `{Countable K} {V U : Type}.
Variable dig : N -> K -> nat -> N.
Variable zero : V.
Implicit Types (σ : mstate K V U) (k : K) (h p : positive) (v : V) (u : U).
Local Notation mspec := (mspec dig zero).
Local Notation mstep := (mstep dig zero).

Lemma each_dom f (es : list (K * positive)) : ∀ u vals p,
  is_Some (vals !! p) <-> is_Some ((each (V:=V) (U:=U) f es u vals).2 !! p).
Proof.
  induction es as [|[k q] es IH]; intros u vals p; simpl; [done|].
  destruct (vals !! q) as [v|] eqn:E; [|done]. destruct (f u k v) as [[u' v'] b].
  assert (Hi : is_Some (vals !! p) <-> is_Some (<[q := v']> vals !! p)).
  { destruct (decide (p = q)) as [->|Hne]; [rewrite lookup_insert, E; split; eauto|by rewrite lookup_insert_ne]. }
  destruct b; [|done]. by rewrite Hi, IH.
Qed.

(** The maps and the values of a state fit together. *)
Record mwf σ : Prop := MWf {
  mw_val : ∀ h s m k p, ms_map σ !! h = Some (s, m) -> m !! k = Some p -> is_Some (ms_val σ !! p);
  mw_inj : ∀ h s m k h' s' m' k' p, ms_map σ !! h = Some (s, m) -> m !! k = Some p ->
    ms_map σ !! h' = Some (s', m') -> m' !! k' = Some p -> h' = h /\ k' = k }.

(** Values and handles are never taken back. *)
Definition mgrow σ σ' : Prop :=
  (∀ h s m, ms_map σ !! h = Some (s, m) -> ∃ m', ms_map σ' !! h = Some (s, m')) /\
  (∀ p, is_Some (ms_val σ !! p) -> is_Some (ms_val σ' !! p)).

Lemma mgrow_refl σ : mgrow σ σ.
Proof. split; eauto. Qed.

Lemma ins_some {A} (m : gmap positive A) p q (a : A) : is_Some (m !! p) -> is_Some (<[q := a]> m !! p).
Proof. intros Hm. destruct (decide (p = q)) as [->|Hne]; [rewrite lookup_insert; eauto|by rewrite lookup_insert_ne]. Qed.

Lemma put_wf σ h k v u σ' : mwf σ -> put σ h k v u σ' -> mwf σ' /\ mgrow σ σ'.
Proof.
  intros [Hv Hi] (s & m & Hm & Hp). destruct (m !! k) as [p|] eqn:E.
  - subst σ'. split.
    + constructor; simpl; [|done]. intros h1 s1 m1 k1 p1 H1 H2. eapply ins_some, Hv; eassumption.
    + split; simpl; [eauto|]. intros. by apply ins_some.
  - destruct Hp as (p & Hf & ->). split.
    + assert (Hcase : ∀ h1 s1 m1 k1 p1, <[h := (s, <[k := p]> m)]> (ms_map σ) !! h1 = Some (s1, m1) -> m1 !! k1 = Some p1 ->
        (h1 = h /\ k1 = k /\ p1 = p) \/ ∃ m2, ms_map σ !! h1 = Some (s1, m2) /\ m2 !! k1 = Some p1).
      { intros h1 s1 m1 k1 p1 H1 H2. destruct (decide (h1 = h)) as [->|Hne].
        - rewrite lookup_insert in H1. injection H1 as <- <-. destruct (decide (k1 = k)) as [->|Hnk].
          + rewrite lookup_insert in H2. left. by injection H2 as ->.
          + rewrite lookup_insert_ne in H2 by done. eauto.
        - rewrite lookup_insert_ne in H1 by done. eauto. }
      assert (Hnp : ∀ h1 s1 m1 k1, ms_map σ !! h1 = Some (s1, m1) -> m1 !! k1 = Some p -> False).
      { intros h1 s1 m1 k1 H1 H2. destruct (Hv _ _ _ _ _ H1 H2) as [? ?]. congruence. }
      constructor; simpl.
      * intros h1 s1 m1 k1 p1 H1 H2. destruct (Hcase _ _ _ _ _ H1 H2) as [(_ & _ & ->)|(m2 & H3 & H4)].
        -- rewrite lookup_insert. eauto.
        -- eapply ins_some, Hv; eassumption.
      * intros h1 s1 m1 k1 h2 s2 m2 k2 p1 H1 H2 H3 H4.
        destruct (Hcase _ _ _ _ _ H1 H2) as [(-> & -> & ->)|(m3 & H5 & H6)];
        destruct (Hcase _ _ _ _ _ H3 H4) as [(E1 & E2 & E3)|(m4 & H7 & H8)].
        -- done.
        -- exfalso; eauto.
        -- subst p1. exfalso; eauto.
        -- eauto.
    + split; simpl.
      * intros h1 s1 m1 H1. destruct (decide (h1 = h)) as [->|Hne].
        -- rewrite lookup_insert. rewrite Hm in H1. injection H1 as -> ->. eauto.
        -- rewrite lookup_insert_ne by done. eauto.
      * intros. by apply ins_some.
Qed.

Lemma mstep_wf σ op res σ' : mwf σ -> mstep σ op res σ' -> mwf σ' /\ mgrow σ σ'.
Proof.
  intros Hw Hst. pose proof Hw as [Hv Hi].
  destruct op as [s|h k v|h k f|h k|h k|h k|h k|h|h|h f|p|p v]; simpl in Hst.
  - destruct Hst as (h & _ & Hn & ->). split.
    + constructor; simpl.
      * intros h1 s1 m1 k1 p1 H1 H2. destruct (decide (h1 = h)) as [->|Hne].
        -- rewrite lookup_insert in H1. injection H1 as <- <-. by rewrite lookup_empty in H2.
        -- rewrite lookup_insert_ne in H1 by done. eauto.
      * intros h1 s1 m1 k1 h2 s2 m2 k2 p1 H1 H2 H3 H4.
        destruct (decide (h1 = h)) as [->|Hne1].
        { rewrite lookup_insert in H1. injection H1 as <- <-. by rewrite lookup_empty in H2. }
        destruct (decide (h2 = h)) as [->|Hne2].
        { rewrite lookup_insert in H3. injection H3 as <- <-. by rewrite lookup_empty in H4. }
        rewrite lookup_insert_ne in H1, H3 by done. eauto.
    + split; simpl; [|done]. intros h1 s1 m1 H1. destruct (decide (h1 = h)) as [->|Hne]; [congruence|].
      rewrite lookup_insert_ne by done. eauto.
  - destruct Hst as [_ Hp]. by eapply put_wf.
  - destruct Hst as [_ Hp]. destruct (f _ _ _) as [u v]. by eapply put_wf.
  - destruct Hst as (_ & s & m & Hm & ->). split.
    + assert (Hcase : ∀ h1 s1 m1 k1 p1, <[h := (s, delete k m)]> (ms_map σ) !! h1 = Some (s1, m1) -> m1 !! k1 = Some p1 ->
        ∃ m2, ms_map σ !! h1 = Some (s1, m2) /\ m2 !! k1 = Some p1).
      { intros h1 s1 m1 k1 p1 H1 H2. destruct (decide (h1 = h)) as [->|Hne].
        - rewrite lookup_insert in H1. injection H1 as <- <-. apply lookup_delete_Some in H2 as [_ H2]. eauto.
        - rewrite lookup_insert_ne in H1 by done. eauto. }
      constructor; simpl.
      * intros h1 s1 m1 k1 p1 H1 H2. destruct (Hcase _ _ _ _ _ H1 H2) as (m2 & H3 & H4). eauto.
      * intros h1 s1 m1 k1 h2 s2 m2 k2 p1 H1 H2 H3 H4.
        destruct (Hcase _ _ _ _ _ H1 H2) as (m3 & H5 & H6).
        destruct (Hcase _ _ _ _ _ H3 H4) as (m4 & H7 & H8). eauto.
    + split; simpl; [|done]. intros h1 s1 m1 H1. destruct (decide (h1 = h)) as [->|Hne].
      * rewrite lookup_insert. rewrite Hm in H1. injection H1 as -> ->. eauto.
      * rewrite lookup_insert_ne by done. eauto.
  - destruct Hst as [-> _]. split; [done|apply mgrow_refl].
  - destruct Hst as [-> _]. split; [done|apply mgrow_refl].
  - destruct Hst as [-> _]. split; [done|apply mgrow_refl].
  - destruct Hst as [-> _]. split; [done|apply mgrow_refl].
  - destruct Hst as [-> _]. split; [done|apply mgrow_refl].
  - destruct Hst as (_ & s & m & es & Hm & _ & _ & ->). split.
    + constructor; simpl; [|done]. intros h1 s1 m1 k1 p1 H1 H2. apply each_dom. eauto.
    + split; simpl; [eauto|]. intros p Hp. by apply each_dom.
  - destruct Hst as [-> _]. split; [done|apply mgrow_refl].
  - destruct Hst as (_ & Hp & ->). split.
    + constructor; simpl; [|done]. intros h1 s1 m1 k1 p1 H1 H2. eapply ins_some, Hv; eassumption.
    + split; simpl; [eauto|]. intros. by apply ins_some.
Qed.

Lemma mspec_wf u0 tr σ : mspec u0 tr σ -> mwf σ.
Proof.
  induction 1 as [|tr σ op res σ' Hs IH Hst].
  - constructor; simpl; intros; by rewrite lookup_empty in *.
  - by eapply mstep_wf.
Qed.

Lemma mspec_live u0 tr σ : mspec u0 tr σ -> ∀ s h, (MNew s, RHandle h) ∈ tr -> is_Some (ms_map σ !! h).
Proof.
  induction 1 as [|tr σ op res σ' Hs IH Hst]; intros s h Hin; [by apply elem_of_nil in Hin|].
  apply elem_of_cons in Hin as [[= <- <-]|Hin].
  - destruct Hst as (h' & [= <-] & _ & ->). simpl. rewrite lookup_insert. eauto.
  - apply IH in Hin as [[s' m] Hm]. destruct (mstep_wf σ op res σ' (mspec_wf _ _ _ Hs) Hst) as [_ [Hg _]].
    apply Hg in Hm as [m' ->]. eauto.
Qed.

Lemma mspec_addr u0 tr σ : mspec u0 tr σ -> ∀ h k p, (MPtr h k, RPtr (Some p)) ∈ tr -> is_Some (ms_val σ !! p).
Proof.
  induction 1 as [|tr σ op res σ' Hs IH Hst]; intros h k p Hin; [by apply elem_of_nil in Hin|].
  apply elem_of_cons in Hin as [[= <- <-]|Hin].
  - destruct Hst as (-> & s & m & Hm & [= Hp]). by eapply (mw_val σ (mspec_wf _ _ _ Hs)).
  - apply IH in Hin. destruct (mstep_wf σ op res σ' (mspec_wf _ _ _ Hs) Hst) as [_ [_ Hg]]. by apply Hg.
Qed.
End maps.

Section sets.
Context `{Countable K} {U : Type}.
Variable dig : N -> K -> nat -> N.
Implicit Types (σ : sstate K U).

Lemma sstep_grow σ op res σ' h : sstep dig σ op res σ' -> is_Some (ss_set σ !! h) -> is_Some (ss_set σ' !! h).
Proof.
  intros Hst Hh. destruct op as [s|h1 k|h1 k|h1 k|h1|h1|h1 f]; simpl in Hst.
  - destruct Hst as (h1 & _ & _ & ->). by apply ins_some.
  - destruct Hst as (_ & s & X & Hm & ->). by apply ins_some.
  - destruct Hst as (_ & s & X & Hm & ->). by apply ins_some.
  - by destruct Hst as (-> & _).
  - by destruct Hst as (-> & _).
  - by destruct Hst as (-> & _).
  - by destruct Hst as (_ & s & X & ks & _ & _ & _ & ->).
Qed.

Lemma sspec_live u0 tr σ : sspec dig u0 tr σ -> ∀ s h, (SNew s, THandle h) ∈ tr -> is_Some (ss_set σ !! h).
Proof.
  induction 1 as [|tr σ op res σ' Hs IH Hst]; intros s h Hin; [by apply elem_of_nil in Hin|].
  apply elem_of_cons in Hin as [[= <- <-]|Hin].
  - destruct Hst as (h' & [= <-] & _ & ->). simpl. rewrite lookup_insert. eauto.
  - apply IH in Hin. by eapply sstep_grow.
Qed.
End sets.
