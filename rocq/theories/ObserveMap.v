(** What the methods of a map show in every reachable state, and how each call
    changes it. *)
From Coq Require Import Sorted SpecFloat.
From stdpp Require Import base numbers list gmap.
From Verif Require Import GoInt Mem Spec SpecFacts Guards Client Types Observe ObserveFacts Order Pack.
Local Open Scope nat_scope.

Lemma map_ok_allowed {V U} (zero : V) fuel (u0 : U) `{Countable K} {CK} (api : mapapi K V CK U) dig ok :
  map_type zero fuel api dig ok ->
  ∃ P Q, (∀ tr op, ok tr op -> mallowed P Q tr op) /\
    (∀ tr op, mallowed P Q tr op -> match op with MSet _ _ _ | MMod _ _ _ => False | _ => True end -> ok tr op).
Proof.
  intros Ht. destruct Ht as [? P Q|? P Q|? P Q ?|?????? P Q ?|????? P Q ?]; exists P, Q; (split; [tauto|]);
    intros tr op Ha Hop; try done; destruct op; simpl in *; tauto.
Qed.

Lemma mallowed_mono {K V U} (P : K -> Prop) Q (x : mop K V U * mres V) tr op : mallowed P Q tr op -> mallowed P Q (x :: tr) op.
Proof. intros Ha. destruct op; simpl in *; try done; set_solver. Qed.

Lemma digits_lt_irrefl x : ¬ digits_lt x x.
Proof. intros (d & _ & Hd). lia. Qed.
Lemma digits_lt_trans x y z : digits_lt x y -> digits_lt y z -> digits_lt x z.
Proof.
  intros (d & Hd1 & Hd2) (e & He1 & He2). destruct (Nat.lt_trichotomy d e) as [Hl|[->|Hl]].
  - exists d. split; [intros i Hi; rewrite Hd1, He1 by lia; done|]. by rewrite <-He1.
  - exists e. split; [intros i Hi; rewrite Hd1, He1 by lia; done|]. lia.
  - exists e. split; [intros i Hi; rewrite Hd1, He1 by lia; done|]. by rewrite Hd1.
Qed.

Section order.
Context `{Countable K}.
Variable dig : N -> K -> nat -> N.
Lemma in_order_unique s (ks ks' : list K) : in_order dig s ks -> in_order dig s ks' -> ks ≡ₚ ks' -> ks = ks'.
Proof.
  revert ks'. induction ks as [|k ks IH]; intros [|k' ks'] Ho Ho' Hp.
  - done.
  - apply Permutation_nil_l in Hp. done.
  - symmetry in Hp. apply Permutation_nil_l in Hp. done.
  - inversion Ho as [|?? Ho1 Hf1]; subst. inversion Ho' as [|?? Ho1' Hf1']; subst.
    assert (k = k') as ->.
    { destruct (decide (k = k')) as [|Hne]; [done|]. exfalso.
      assert (Hk : k ∈ ks') by (assert (k ∈ k' :: ks') as [->|]%elem_of_cons by (rewrite <-Hp; left); done).
      assert (Hk' : k' ∈ ks) by (assert (k' ∈ k :: ks) as [->|]%elem_of_cons by (rewrite Hp; left); done).
      rewrite Forall_forall in Hf1, Hf1'. specialize (Hf1 k' Hk'). specialize (Hf1' k Hk).
      eapply digits_lt_irrefl, digits_lt_trans; eassumption. }
    f_equal. apply IH; [done..|]. by eapply Permutation_cons_inv.
Qed.
End order.

Section obs.
Context {V U : Type} (zero : V) (fuel : nat) (u0 : U).
Hypothesis Hfuel : 256 <= fuel.
Context `{Countable K} {CK : Type} (api : mapapi K V CK U) (dig : N -> K -> nat -> N).
Variable ok : list (mop K V U * mres V) -> mop K V U -> Prop.
Hypothesis Ht : map_type zero fuel api dig ok.
Implicit Types (tr : list (mop K V U * mres V)) (w : world V CK U) (m : gmap K V) (h p : positive) (k : K) (v : V).
Local Notation contents := (contents api zero ok).
Local Notation mrun := (mrun api ok u0).

Lemma ok_get_live tr h k : ok tr (MGet h k) -> ∃ s, (MNew s, RHandle h) ∈ tr.
Proof. intros Ho. destruct (map_ok_allowed zero fuel u0 api dig ok Ht) as (P & Q & Hall & _). by destruct (Hall _ _ Ho). Qed.

Lemma run_stored tr w σ h k : mrun tr w -> mspec dig zero u0 tr σ -> holds σ h k -> ok tr (MGet h k).
Proof.
  intros Hr Hs Hh. apply (stored_holds dig zero u0 tr σ h k Hs) in Hh. apply stored_some in Hh as (y & Hy & Hm).
  destruct (map_ok_allowed zero fuel u0 api dig ok Ht) as (P & Q & Hall & Hback).
  apply Hback; [|done]. clear Hs σ. induction Hr as [|tr w op res w' Hr IH Hok Hc]; [by apply elem_of_nil in Hy|].
  apply elem_of_cons in Hy as [->|Hy]; [|by apply mallowed_mono, IH].
  apply mallowed_mono. apply Hall in Hok. destruct op; simpl in *; try done; by destruct Hm as [-> ->].
Qed.

Lemma run_contents (R : world V CK U -> mstate K V U -> Prop) tr w σ h :
  (∀ tr w σ op, mspec dig zero u0 tr σ -> R w σ -> ok tr op ->
       ∃ res w' σ', mcall api op w = Ret res w' /\ mstep dig zero σ op res σ' /\ R w' σ' /\
         (reads op -> w' = w /\ σ' = σ)) ->
  mrun tr w -> mspec dig zero u0 tr σ -> R w σ -> contents tr w h (cont σ h).
Proof.
  intros Hstep Hr Hs HR. split.
  - intros k Hk. eapply run_stored; [done..|]. rewrite cont_lookup in Hk. unfold value in Hk. unfold holds.
    destruct (ms_map σ !! h) as [[s m]|] eqn:E; [|by destruct Hk]. simpl in Hk.
    destruct (m !! k) as [p|] eqn:E'; [|by destruct Hk]. eauto.
  - intros k Hk. destruct (Hstep _ _ _ _ Hs HR Hk) as (res & w' & σ' & Hc & Hst & _ & Hrd).
    destruct (Hrd I) as [-> ->]. destruct Hst as (_ & _ & ->). by rewrite Hc, cont_lookup.
Qed.

Lemma contents_unique tr w h m m' : contents tr w h m -> contents tr w h m' -> m = m'.
Proof.
  intros [H1 H2] [H1' H2']. apply map_eq. intros k.
  destruct (m !! k) as [v|] eqn:E.
  - assert (Ho : ok tr (MGet h k)) by (apply H1; rewrite E; eauto).
    pose proof (H2 _ Ho) as Hg. rewrite (H2' _ Ho), E in Hg. simpl in Hg. injection Hg as Hv Hb.
    apply bool_decide_eq_true in Hb as [v' Hv']. rewrite Hv' in *. simpl in Hv. congruence.
  - destruct (m' !! k) as [v'|] eqn:E'; [|done].
    assert (Ho : ok tr (MGet h k)) by (apply H1'; rewrite E'; eauto).
    pose proof (H2 _ Ho) as Hg. rewrite (H2' _ Ho), E, E' in Hg. simpl in Hg. by injection Hg.
Qed.

(** Every live map has contents. *)
Lemma obs_contents tr w h : mrun tr w -> ∃ m, contents tr w h m.
Proof.
  intros Hr. destruct (map_sim zero fuel u0 Hfuel api dig ok Ht) as (R & H1 & _ & H3).
  destruct (H1 _ _ Hr) as (σ & Hs & HR). exists (cont σ h). by eapply run_contents.
Qed.

(** The state of a run, its contents and one more call. *)
Lemma obs_step tr w op : mrun tr w -> ok tr op ->
  ∃ σ res w' σ', mspec dig zero u0 tr σ /\ mcall api op w = Ret res w' /\ mstep dig zero σ op res σ' /\
    mwf σ /\ ms_usr σ = w_usr w /\ ms_usr σ' = w_usr w' /\ mrun ((op, res) :: tr) w' /\
    (∀ h m, contents tr w h m -> m = cont σ h) /\
    (∀ h, contents ((op, res) :: tr) w' h (cont σ' h)) /\ (reads op -> w' = w).
Proof.
  intros Hr Ho. destruct (map_sim zero fuel u0 Hfuel api dig ok Ht) as (R & H1 & H2 & H3).
  destruct (H1 _ _ Hr) as (σ & Hs & HR). destruct (H3 _ _ _ _ Hs HR Ho) as (res & w' & σ' & Hc & Hst & HR' & Hrd).
  assert (Hr' : mrun ((op, res) :: tr) w') by (by econstructor).
  exists σ, res, w', σ'. split_and!; auto.
  - by eapply mspec_wf.
  - intros h m Hm. eapply contents_unique; [done|]. by eapply run_contents.
  - intros h. eapply run_contents; [exact H3|done| |done]. by econstructor.
  - intros Hrd'. by destruct (Hrd Hrd').
Qed.

Lemma obs_len tr w h m : mrun tr w -> ok tr (MLen h) -> contents tr w h m ->
  mcall api (MLen h) w = Ret (RLen (N.of_nat (size m) mod 2 ^ 64)) w.
Proof.
  intros Hr Ho Hm. destruct (obs_step _ _ _ Hr Ho) as (σ & res & w' & σ' & Hs & Hc & Hst & Hw & _ & _ & _ & Hcu & _ & Hrd).
  rewrite (Hrd I) in Hc. destruct Hst as (_ & s & m' & Hm' & ->). rewrite (Hcu _ _ Hm), (cont_size _ _ _ _ Hw Hm'). done.
Qed.

Lemma obs_dep tr w h s m : mrun tr w -> (MNew s, RHandle h) ∈ tr -> ok tr (MDep h) -> contents tr w h m ->
  mcall api (MDep h) w = Ret (RDep (mean (N.of_nat (total_depth dig s (map_to_list m).*1)) (N.of_nat (size m)))) w.
Proof.
  intros Hr Hn Ho Hm. destruct (obs_step _ _ _ Hr Ho) as (σ & res & w' & σ' & Hs & Hc & Hst & Hw & _ & _ & _ & Hcu & _ & Hrd).
  rewrite (Hrd I) in Hc. destruct Hst as (_ & s' & m' & Hm' & ->).
  destruct (mspec_new _ _ _ _ _ Hs _ _ Hn) as [m2 Hm2]. rewrite Hm' in Hm2. injection Hm2 as <- <-.
  rewrite (Hcu _ _ Hm), (cont_size _ _ _ _ Hw Hm'). rewrite (total_depth_perm dig s' _ _ (cont_keys _ _ _ _ Hw Hm')). done.
Qed.

Lemma obs_val tr w h k m : mrun tr w -> ok tr (MVal h k) -> contents tr w h m ->
  mcall api (MVal h k) w = Ret (RVal (default zero (m !! k))) w.
Proof.
  intros Hr Ho Hm. destruct (obs_step _ _ _ Hr Ho) as (σ & res & w' & σ' & Hs & Hc & Hst & Hw & _ & _ & _ & Hcu & _ & Hrd).
  rewrite (Hrd I) in Hc. destruct Hst as (_ & _ & ->). by rewrite (Hcu _ _ Hm), cont_lookup.
Qed.

Lemma obs_ptr tr w h k m : mrun tr w -> ok tr (MPtr h k) -> contents tr w h m ->
  ∃ a, mcall api (MPtr h k) w = Ret (RPtr a) w /\ (is_Some a <-> is_Some (m !! k)).
Proof.
  intros Hr Ho Hm. destruct (obs_step _ _ _ Hr Ho) as (σ & res & w' & σ' & Hs & Hc & Hst & Hw & _ & _ & _ & Hcu & _ & Hrd).
  rewrite (Hrd I) in Hc. destruct Hst as (_ & s & m' & Hm' & ->). exists (m' !! k). split; [done|].
  rewrite (Hcu _ _ Hm). rewrite <-!elem_of_dom. by rewrite (cont_dom _ _ _ _ Hw Hm').
Qed.

Lemma obs_new tr w s : mrun tr w -> ok tr (MNew s) -> ∃ h w', mcall api (MNew s) w = Ret (RHandle h) w' /\
  let tr' := (MNew s, RHandle h) :: tr in
  (∀ s', (MNew s', RHandle h) ∉ tr) /\
  contents tr' w' h ∅ /\ w_usr w' = w_usr w /\ ∀ h' m, h' ≠ h -> contents tr w h' m -> contents tr' w' h' m.
Proof.
  intros Hr Ho. destruct (obs_step _ _ _ Hr Ho) as (σ & res & w' & σ' & Hs & Hc & Hst & Hw & Hu & Hu' & _ & Hcu & Hc' & _).
  destruct Hst as (h & -> & Hn & ->). destruct (new_cont σ h s) as [He Ho'].
  exists h, w'. cbv zeta. split_and!; [done| |by rewrite <-He|by rewrite <-Hu, <-Hu'|].
  - intros s' Hin. destruct (mspec_new _ _ _ _ _ Hs _ _ Hin). congruence.
  - intros h' m Hh Hm. rewrite (Hcu _ _ Hm), <-(Ho' _ Hh). done.
Qed.

Lemma obs_set tr w h k v m : mrun tr w -> ok tr (MSet h k v) -> contents tr w h m ->
  ∃ w', mcall api (MSet h k v) w = Ret RUnit w' /\
  let tr' := (MSet h k v, RUnit) :: tr in
  contents tr' w' h (<[k := v]> m) /\ w_usr w' = w_usr w /\
  ∀ h' m', h' ≠ h -> contents tr w h' m' -> contents tr' w' h' m'.
Proof.
  intros Hr Ho Hm. destruct (obs_step _ _ _ Hr Ho) as (σ & res & w' & σ' & Hs & Hc & Hst & Hw & Hu & Hu' & _ & Hcu & Hc' & _).
  destruct Hst as (-> & Hp). destruct (put_cont _ _ _ _ _ _ Hw Hp) as (He & Ho' & Hu2).
  exists w'. cbv zeta. split_and!; [done|by rewrite (Hcu _ _ Hm), <-He|congruence|].
  intros h' m' Hh Hm'. rewrite (Hcu _ _ Hm'), <-(Ho' _ Hh). done.
Qed.

Lemma obs_mod tr w h k f m : mrun tr w -> ok tr (MMod h k f) -> contents tr w h m ->
  let '(u, v) := f (w_usr w) (default zero (m !! k)) (bool_decide (is_Some (m !! k))) in
  ∃ w', mcall api (MMod h k f) w = Ret RUnit w' /\
  let tr' := (MMod h k f, RUnit) :: tr in
  contents tr' w' h (<[k := v]> m) /\ w_usr w' = u /\
  ∀ h' m', h' ≠ h -> contents tr w h' m' -> contents tr' w' h' m'.
Proof.
  intros Hr Ho Hm. destruct (obs_step _ _ _ Hr Ho) as (σ & res & w' & σ' & Hs & Hc & Hst & Hw & Hu & Hu' & _ & Hcu & Hc' & _).
  destruct Hst as (-> & Hp). rewrite (Hcu _ _ Hm), cont_lookup. rewrite <-Hu. destruct (f _ _ _) as [u v].
  destruct (put_cont _ _ _ _ _ _ Hw Hp) as (He & Ho' & Hu2).
  exists w'. cbv zeta. split_and!; [done|by rewrite <-He|congruence|].
  intros h' m' Hh Hm'. rewrite (Hcu _ _ Hm'), <-(Ho' _ Hh). done.
Qed.

Lemma obs_del tr w h k m : mrun tr w -> ok tr (MDel h k) -> contents tr w h m ->
  ∃ w', mcall api (MDel h k) w = Ret RUnit w' /\
  let tr' := (MDel h k, RUnit) :: tr in
  contents tr' w' h (delete k m) /\ w_usr w' = w_usr w /\
  ∀ h' m', h' ≠ h -> contents tr w h' m' -> contents tr' w' h' m'.
Proof.
  intros Hr Ho Hm. destruct (obs_step _ _ _ Hr Ho) as (σ & res & w' & σ' & Hs & Hc & Hst & Hw & Hu & Hu' & _ & Hcu & Hc' & _).
  destruct Hst as (-> & s & m' & Hm' & ->). destruct (del_cont _ _ k _ _ Hm') as (He & Ho').
  exists w'. cbv zeta. split_and!; [done|by rewrite (Hcu _ _ Hm), <-He|by rewrite <-Hu, <-Hu'|].
  intros h' m2 Hh Hm2. rewrite (Hcu _ _ Hm2), <-(Ho' _ Hh). done.
Qed.

Lemma obs_all tr w h s f m : mrun tr w -> (MNew s, RHandle h) ∈ tr -> ok tr (MAll h f) -> contents tr w h m ->
  ∃ es w', mcall api (MAll h f) w = Ret RUnit w' /\
  let tr' := (MAll h f, RUnit) :: tr in
  es ≡ₚ map_to_list m /\ in_order dig s es.*1 /\ w_usr w' = usr_after f es (w_usr w) /\
  contents tr' w' h (list_to_map (after f es (w_usr w))) /\
  ∀ h' m', h' ≠ h -> contents tr w h' m' -> contents tr' w' h' m'.
Proof.
  intros Hr Hn Ho Hm. destruct (obs_step _ _ _ Hr Ho) as (σ & res & w' & σ' & Hs & Hc & Hst & Hw & Hu & Hu' & _ & Hcu & Hc' & _).
  destruct Hst as (-> & s' & mp & ps & Hmp & Hps & Hord & ->).
  destruct (mspec_new _ _ _ _ _ Hs _ _ Hn) as [m2 Hm2]. rewrite Hmp in Hm2. injection Hm2 as <- <-.
  destruct (all_cont σ h s' mp f ps Hw Hmp Hps) as (es & Hes & Hk & Hue & Hce & Hoth).
  exists es, w'. rewrite <-Hu. cbv zeta. split_and!; [done|by rewrite (Hcu _ _ Hm)|by rewrite Hk|by rewrite <-Hue, <-Hu'|by rewrite <-Hce|].
  intros h' m' Hh Hm'. rewrite (Hcu _ _ Hm'), <-(Hoth _ Hh). done.
Qed.

(** Pointers. *)
Lemma obs_ptr_live tr1 tr2 w h k p m : let tr := tr2 ++ (MPtr h k, RPtr (Some p)) :: tr1 in
  mrun tr w -> (∀ r, (MDel h k, r) ∉ tr2) -> ok tr (MPtr h k) -> ok tr (MLoad p) -> contents tr w h m ->
  mcall api (MPtr h k) w = Ret (RPtr (Some p)) w /\
  ∃ v, m !! k = Some v /\ mcall api (MLoad p) w = Ret (RVal v) w.
Proof.
  intros tr Hr Hnd Ho1 Ho2 Hm.
  destruct (obs_step _ _ _ Hr Ho1) as (σ & res & w' & σ' & Hs & Hc & Hst & Hw & _ & _ & _ & Hcu & _ & Hrd).
  destruct (ptr_history _ _ _ _ _ _ _ _ _ Hs) as [Hv Hat].
  assert (Ha : at_ σ h k p) by (by apply Hat). destruct Ha as (s & mp & Hmp & Hk). split.
  - rewrite (Hrd I) in Hc. destruct Hst as (_ & s' & m' & Hm' & ->). rewrite Hmp in Hm'. injection Hm' as <- <-. by rewrite Hc, Hk.
  - destruct (obs_step _ _ _ Hr Ho2) as (σ2 & res2 & w2 & σ2' & Hs2 & Hc2 & Hst2 & Hw2 & _ & _ & _ & Hcu2 & _ & Hrd2).
    destruct (ptr_history _ _ _ _ _ _ _ _ _ Hs2) as [Hv2 Hat2].
    assert (Ha2 : at_ σ2 h k p) by (by apply Hat2). destruct Ha2 as (s2 & mp2 & Hmp2 & Hk2).
    rewrite (Hrd2 I) in Hc2. destruct Hst2 as (_ & v & Hv' & ->). exists v. split; [|done].
    rewrite (Hcu2 _ _ Hm), cont_lookup. unfold value. rewrite Hmp2. simpl. rewrite Hk2. done.
Qed.

Lemma obs_store_live tr1 tr2 w h k p v m : let tr := tr2 ++ (MPtr h k, RPtr (Some p)) :: tr1 in
  mrun tr w -> (∀ r, (MDel h k, r) ∉ tr2) -> ok tr (MStore p v) -> contents tr w h m ->
  ∃ w', mcall api (MStore p v) w = Ret RUnit w' /\
  let tr' := (MStore p v, RUnit) :: tr in
  contents tr' w' h (<[k := v]> m) /\
  ∀ h' m', h' ≠ h -> contents tr w h' m' -> contents tr' w' h' m'.
Proof.
  intros tr Hr Hnd Ho Hm. destruct (obs_step _ _ _ Hr Ho) as (σ & res & w' & σ' & Hs & Hc & Hst & Hw & Hu & Hu' & _ & Hcu & Hc' & _).
  destruct (ptr_history _ _ _ _ _ _ _ _ _ Hs) as [Hv Hat].
  assert (Ha : at_ σ h k p) by (by apply Hat). destruct Ha as (s & mp & Hmp & Hk).
  destruct Hst as (-> & _ & ->). destruct (store_cont σ p v Hw) as [H1 H2].
  exists w'. cbv zeta. split_and!; [done|by rewrite (Hcu _ _ Hm), <-(H1 _ _ _ _ Hmp Hk)|].
  intros h' m' Hh Hm'. rewrite (Hcu _ _ Hm'), <-(H2 h'); [done|].
  intros s' m2 k' Hm2 Hk'. destruct (proj1 (Hat h' k')) as (-> & _); [|done]. by exists s', m2.
Qed.

Lemma obs_store_dead tr1 tr2 w h k p v r : let tr := tr2 ++ (MPtr h k, RPtr (Some p)) :: tr1 in
  mrun tr w -> (MDel h k, r) ∈ tr2 -> ok tr (MStore p v) ->
  ∃ w', mcall api (MStore p v) w = Ret RUnit w' /\
  ∀ h' m', contents tr w h' m' -> contents ((MStore p v, RUnit) :: tr) w' h' m'.
Proof.
  intros tr Hr Hd Ho. destruct (obs_step _ _ _ Hr Ho) as (σ & res & w' & σ' & Hs & Hc & Hst & Hw & Hu & Hu' & _ & Hcu & Hc' & _).
  destruct (ptr_history _ _ _ _ _ _ _ _ _ Hs) as [Hv Hat].
  destruct Hst as (-> & _ & ->). destruct (store_cont σ p v Hw) as [H1 H2].
  exists w'. split; [done|]. intros h' m' Hm'. rewrite (Hcu _ _ Hm'), <-(H2 h'); [done|].
  intros s' m2 k' Hm2 Hk'. destruct (proj1 (Hat h' k')) as (_ & _ & Hn); [by exists s', m2|]. by eapply Hn.
Qed.

(** Deleting an absent key changes no result. *)
Lemma mstep_read_det (σ : mstate K V U) op res1 res2 σ1 σ2 : reads op -> mstep dig zero σ op res1 σ1 -> mstep dig zero σ op res2 σ2 -> res1 = res2.
Proof.
  intros Hrd. destruct op; simpl; try done; intros (_ & H1) (_ & H2).
  - destruct H1 as [_ ->], H2 as [_ ->]. done.
  - destruct H1 as [_ ->], H2 as [_ ->]. done.
  - destruct H1 as (s1 & m1 & Hm1 & ->), H2 as (s2 & m2 & Hm2 & ->). congruence.
  - destruct H1 as (s1 & m1 & Hm1 & ->), H2 as (s2 & m2 & Hm2 & ->). congruence.
  - destruct H1 as (s1 & m1 & Hm1 & ->), H2 as (s2 & m2 & Hm2 & ->). congruence.
  - destruct H1 as (v1 & Hm1 & ->), H2 as (v2 & Hm2 & ->). congruence.
Qed.

Lemma obs_del_absent tr w h k m : mrun tr w -> ok tr (MDel h k) -> contents tr w h m -> m !! k = None ->
  ∃ w', mcall api (MDel h k) w = Ret RUnit w' /\ w_usr w' = w_usr w /\
  let tr' := (MDel h k, RUnit) :: tr in
  (∀ op, reads op -> ok tr op -> ∃ res, mcall api op w = Ret res w /\ mcall api op w' = Ret res w').
Proof.
  intros Hr Ho Hm Hk. destruct (map_sim zero fuel u0 Hfuel api dig ok Ht) as (R & H1 & H2 & H3).
  destruct (H1 _ _ Hr) as (σ & Hs & HR). destruct (H3 _ _ _ _ Hs HR Ho) as (res & w' & σ' & Hc & Hst & HR' & _).
  assert (Hcm : m = cont σ h) by (eapply contents_unique; [done|by eapply run_contents]).
  assert (Hs' : mspec dig zero u0 ((MDel h k, res) :: tr) σ') by (by econstructor).
  assert (σ' = σ /\ res = RUnit) as [-> ->].
  { destruct Hst as (-> & s & mp & Hmp & ->). split; [|done]. rewrite delete_notin.
    - rewrite insert_id by done. by destruct σ.
    - apply not_elem_of_dom. rewrite <-(cont_dom _ _ _ _ (mspec_wf _ _ _ _ _ Hs) Hmp), <-Hcm. by apply not_elem_of_dom. }
  exists w'. split_and!; [done|by rewrite <-(H2 _ _ HR), <-(H2 _ _ HR')|]. intros tr' op Hrd Hop.
  destruct (H3 _ _ _ _ Hs HR Hop) as (r1 & w1 & σ1 & Hc1 & Hst1 & _ & Hp1). destruct (Hp1 Hrd) as [-> ->].
  assert (Hop' : ok tr' op) by (by eapply map_ok_mono).
  destruct (H3 _ _ _ _ Hs' HR' Hop') as (r2 & w2 & σ2 & Hc2 & Hst2 & _ & Hp2). destruct (Hp2 Hrd) as [-> ->].
  rewrite (mstep_read_det _ _ _ _ _ _ Hrd Hst2 Hst1) in Hc2. eauto.
Qed.

(** Which keys are stored, from the history alone. *)
Lemma obs_stored tr w h k m : mrun tr w -> contents tr w h m -> is_Some (m !! k) <-> k ∈ stored tr h.
Proof.
  intros Hr Hm. destruct (map_sim zero fuel u0 Hfuel api dig ok Ht) as (R & H1 & H2 & H3).
  destruct (H1 _ _ Hr) as (σ & Hs & HR).
  assert (Hcm : m = cont σ h) by (eapply contents_unique; [done|by eapply run_contents]).
  rewrite (stored_holds dig zero u0 tr σ h k Hs). unfold holds. subst m. split.
  - intros Hk%elem_of_dom. destruct (ms_map σ !! h) as [[s mp]|] eqn:E.
    + rewrite (cont_dom _ _ _ _ (mspec_wf _ _ _ _ _ Hs) E) in Hk. apply elem_of_dom in Hk. eauto.
    + unfold cont in Hk. rewrite E in Hk. set_solver.
  - intros (s & mp & E & Hk). apply elem_of_dom. rewrite (cont_dom _ _ _ _ (mspec_wf _ _ _ _ _ Hs) E). by apply elem_of_dom.
Qed.

(** A Get recorded in the history tells the contents. *)
Lemma obs_last_get tr w h k v m : mrun ((MGet h k, RGet v true) :: tr) w ->
  contents ((MGet h k, RGet v true) :: tr) w h m -> m !! k = Some v.
Proof.
  intros Hr Hm. inversion Hr as [|tr0 w0 op res w' Hr0 Ho Hc]; subst.
  destruct (obs_step _ _ _ Hr0 Ho) as (σ & res & w' & σ' & Hs & Hc1 & Hst & _ & _ & _ & _ & _ & Hc' & Hrd).
  rewrite Hc in Hc1. injection Hc1 as <- <-. pose proof (Hrd I) as ->.
  rewrite (contents_unique _ _ _ _ _ Hm (Hc' h)). destruct Hst as (-> & _ & [= Hv Hb]).
  rewrite cont_lookup. symmetry in Hb. apply bool_decide_eq_true in Hb as [v' Hv']. rewrite Hv' in *. simpl in Hv. congruence.
Qed.

(** Two containers with the same seed and the same keys, possibly of different
    value types and with different histories. *)
Lemma obs_dep_keys tr w h s m ks : mrun tr w -> (MNew s, RHandle h) ∈ tr -> ok tr (MDep h) -> contents tr w h m ->
  ks ≡ₚ (map_to_list m).*1 ->
  mcall api (MDep h) w = Ret (RDep (mean (N.of_nat (total_depth dig s ks)) (N.of_nat (length ks)))) w.
Proof.
  intros Hr Hn Ho Hm Hks. rewrite (obs_dep _ _ _ _ _ Hr Hn Ho Hm).
  rewrite (total_depth_perm dig s _ _ Hks). apply Permutation_length in Hks. rewrite fmap_length in Hks. by rewrite Hks.
Qed.
End obs.

(** The calls an iteration makes. *)
Lemma visit_prefix {K V U} (f : U -> K -> V -> U * V * bool) es : ∀ u,
  ∃ rest, es = calls f es u ++ rest /\
    usr_after f es u = foldl (λ u e, (f u e.1 e.2).1.1) u (calls f es u) /\
    ((∀ u k v, (f u k v).2 = true) -> rest = []) /\
    (rest ≠ [] -> ∃ cs k v, calls f es u = cs ++ [(k, v)] /\
       (f (foldl (λ u e, (f u e.1 e.2).1.1) u cs) k v).2 = false).
Proof.
  unfold calls, usr_after. induction es as [|[k v] es IH]; intros u; [exists []; done|]. simpl.
  destruct (f u k v) as [[u1 v1] go] eqn:E. destruct go.
  - destruct (IH u1) as (rest & H1 & H2 & H3 & H4). destruct (visit f es u1) as [[cs u2] es2]. simpl in *.
    exists rest. split_and!.
    + by f_equal.
    + by rewrite E.
    + done.
    + intros (cs' & k' & v' & -> & Hl)%H4. exists ((k, v) :: cs'), k', v'. split; [done|]. simpl. by rewrite E.
  - simpl. exists es. split_and!; [done|by rewrite E| |].
    + intros Ha. specialize (Ha u k v). by rewrite E in Ha.
    + intros _. exists [], k, v. split; [done|]. simpl. by rewrite E.
Qed.
