(** What the methods of a set show in every reachable state, and how each call
    changes it. *)
From Coq Require Import Sorted SpecFloat.
From stdpp Require Import base numbers list gmap.
From Verif Require Import GoInt Mem Spec SpecFacts Client Types Observe Order Pack.
Local Open Scope nat_scope.

Lemma set_ok_allowed {U} fuel (u0 : U) `{Countable K} {CK} (api : setapi K unit CK U) dig ok :
  set_type fuel api dig ok ->
  ∃ P Q, (∀ tr op, ok tr op -> sallowed P Q tr op) /\
    (∀ tr op, sallowed P Q tr op -> match op with SAdd _ _ | SDel _ _ => False | _ => True end -> ok tr op).
Proof.
  intros Ht. destruct Ht as [? P Q|? P Q|? P Q ?|?????? P Q ?|????? P Q ?]; exists P, Q; (split; [tauto|]);
    intros tr op Ha Hop; try done; destruct op; simpl in *; tauto.
Qed.

Lemma sallowed_mono {K U} (P : K -> Prop) Q (x : sop K U * sres) tr op : sallowed P Q tr op -> sallowed P Q (x :: tr) op.
Proof. intros Ha. destruct op; simpl in *; try done; set_solver. Qed.

Section spec.
Context `{Countable K} {U : Type}.
Variable dig : N -> K -> nat -> N.
Implicit Types (σ : sstate K U) (h : positive) (k : K) (X : gset K).

Definition elems σ h : gset K := match ss_set σ !! h with Some (_, X) => X | None => ∅ end.

Lemma sstep_seed σ op res σ' h s X : sstep dig σ op res σ' -> ss_set σ !! h = Some (s, X) ->
  ∃ X', ss_set σ' !! h = Some (s, X').
Proof.
  intros Hst Hh. destruct op as [s1|h1 k|h1 k|h1 k|h1|h1|h1 f]; simpl in Hst.
  - destruct Hst as (h1 & _ & Hn & ->). simpl. exists X. rewrite lookup_insert_ne; [done|congruence].
  - destruct Hst as (_ & s1 & X1 & Hm & ->). simpl. destruct (decide (h = h1)) as [->|Hne].
    + rewrite lookup_insert. rewrite Hm in Hh. injection Hh as -> ->. eauto.
    + rewrite lookup_insert_ne by done. eauto.
  - destruct Hst as (_ & s1 & X1 & Hm & ->). simpl. destruct (decide (h = h1)) as [->|Hne].
    + rewrite lookup_insert. rewrite Hm in Hh. injection Hh as -> ->. eauto.
    + rewrite lookup_insert_ne by done. eauto.
  - destruct Hst as (-> & _). eauto.
  - destruct Hst as (-> & _). eauto.
  - destruct Hst as (-> & _). eauto.
  - destruct Hst as (_ & s1 & X1 & ks & _ & _ & _ & ->). eauto.
Qed.

Lemma sspec_new u0 tr σ : sspec dig u0 tr σ -> ∀ s h, (SNew s, THandle h) ∈ tr -> ∃ X, ss_set σ !! h = Some (s, X).
Proof.
  induction 1 as [|tr σ op res σ' Hs IH Hst]; intros s h Hin; [by apply elem_of_nil in Hin|].
  apply elem_of_cons in Hin as [[= <- <-]|Hin].
  - destruct Hst as (h' & [= <-] & _ & ->). simpl. rewrite lookup_insert. eauto.
  - apply IH in Hin as [X HX]. by eapply sstep_seed.
Qed.

(** A member was added. *)
Lemma sspec_added u0 tr σ : sspec dig u0 tr σ -> ∀ h k, k ∈ elems σ h -> ∃ r, (SAdd h k, r) ∈ tr.
Proof.
  induction 1 as [|tr σ op res σ' Hs IH Hst]; intros h k Hk; [unfold elems in Hk; simpl in Hk; rewrite lookup_empty in Hk; set_solver|].
  assert (Hin : k ∈ elems σ h -> ∃ r, (SAdd h k, r) ∈ (op, res) :: tr) by (intros Hin; destruct (IH _ _ Hin) as [r ?]; exists r; by right).
  unfold elems in *. destruct op as [s1|h1 k1|h1 k1|h1 k1|h1|h1|h1 f]; simpl in Hst.
  - destruct Hst as (h1 & _ & Hn & ->). simpl in Hk. destruct (decide (h = h1)) as [->|Hne].
    + rewrite lookup_insert in Hk. set_solver.
    + rewrite lookup_insert_ne in Hk by done. auto.
  - destruct Hst as (-> & s1 & X1 & Hm & ->). simpl in Hk. destruct (decide (h = h1)) as [->|Hne].
    + rewrite lookup_insert in Hk. rewrite Hm in *. destruct (decide (k = k1)) as [->|Hk1].
      * eexists. left.
      * apply Hin. set_solver.
    + rewrite lookup_insert_ne in Hk by done. auto.
  - destruct Hst as (-> & s1 & X1 & Hm & ->). simpl in Hk. destruct (decide (h = h1)) as [->|Hne].
    + rewrite lookup_insert in Hk. rewrite Hm in *. apply Hin. set_solver.
    + rewrite lookup_insert_ne in Hk by done. auto.
  - destruct Hst as (-> & _). auto.
  - destruct Hst as (-> & _). auto.
  - destruct Hst as (-> & _). auto.
  - destruct Hst as (_ & s1 & X1 & ks & _ & _ & _ & ->). auto.
Qed.

Lemma upd_elems σ h s X u : 
  let σ' := SState (<[h := (s, X)]> (ss_set σ)) u in
  elems σ' h = X /\ ∀ h', h' ≠ h -> elems σ' h' = elems σ h'.
Proof. split; [unfold elems; simpl; by rewrite lookup_insert|]. intros h' Hh. unfold elems. simpl. by rewrite lookup_insert_ne. Qed.

Lemma seach_svisit (f : U -> K -> U * bool) ks : ∀ u, seach f ks u = (svisit f ks u).2.
Proof.
  induction ks as [|k ks IH]; intros u; simpl; [done|]. destruct (f u k) as [u' []]; [|done].
  rewrite IH. by destruct (svisit f ks u').
Qed.
End spec.

Section obs.
Context {U : Type} (fuel : nat) (u0 : U).
Hypothesis Hfuel : 256 <= fuel.
Context `{Countable K} {CK : Type} (api : setapi K unit CK U) (dig : N -> K -> nat -> N).
Variable ok : list (sop K U * sres) -> sop K U -> Prop.
Hypothesis Ht : set_type fuel api dig ok.
Implicit Types (tr : list (sop K U * sres)) (w : world unit CK U) (X : gset K) (h : positive) (k : K).
Local Notation members := (members api ok).
Local Notation srun := (srun api ok u0).

Lemma run_members (R : world unit CK U -> sstate K U -> Prop) tr w σ h :
  (∀ tr w σ op, sspec dig u0 tr σ -> R w σ -> ok tr op ->
       ∃ res w' σ', scall api op w = Ret res w' /\ sstep dig σ op res σ' /\ R w' σ' /\
         (sreads op -> w' = w /\ σ' = σ)) ->
  srun tr w -> sspec dig u0 tr σ -> R w σ -> members tr w h (elems σ h).
Proof.
  intros Hstep Hr Hs HR. split.
  - intros k Hk. destruct (sspec_added _ _ _ _ Hs _ _ Hk) as [r Hin].
    destruct (set_ok_allowed fuel u0 api dig ok Ht) as (P & Q & Hall & Hback). apply Hback; [|done].
    clear Hs HR Hk. induction Hr as [|tr w op res w' Hr IH Hok Hc]; [by apply elem_of_nil in Hin|].
    apply elem_of_cons in Hin as [[= <- <-]|Hin]; [|by apply sallowed_mono, IH].
    apply sallowed_mono. by apply Hall in Hok.
  - intros k Hk. destruct (Hstep _ _ _ _ Hs HR Hk) as (res & w' & σ' & Hc & Hst & _ & Hrd).
    destruct (Hrd I) as [-> ->]. destruct Hst as (_ & s & X & HX & ->). unfold elems. by rewrite HX.
Qed.

Lemma members_unique tr w h X X' : members tr w h X -> members tr w h X' -> X = X'.
Proof.
  intros [H1 H2] [H1' H2']. apply set_eq. intros k. split; intros Hk.
  - pose proof (H1 _ Hk) as Ho. pose proof (H2 _ Ho) as Hg. rewrite (H2' _ Ho) in Hg. injection Hg as Hb.
    rewrite (bool_decide_eq_true_2 (k ∈ X)) in Hb by done. by apply bool_decide_eq_true in Hb.
  - pose proof (H1' _ Hk) as Ho. pose proof (H2 _ Ho) as Hg. rewrite (H2' _ Ho) in Hg. injection Hg as Hb.
    rewrite (bool_decide_eq_true_2 (k ∈ X')) in Hb by done. symmetry in Hb. by apply bool_decide_eq_true in Hb.
Qed.

Lemma obs_members tr w h : srun tr w -> ∃ X, members tr w h X.
Proof.
  intros Hr. destruct (set_sim fuel u0 Hfuel api dig ok Ht) as (R & H1 & _ & H3).
  destruct (H1 _ _ Hr) as (σ & Hs & HR). exists (elems σ h). by eapply run_members.
Qed.

Lemma sobs_step tr w op : srun tr w -> ok tr op ->
  ∃ σ res w' σ', sspec dig u0 tr σ /\ scall api op w = Ret res w' /\ sstep dig σ op res σ' /\
    ss_usr σ = w_usr w /\ ss_usr σ' = w_usr w' /\
    (∀ h X, members tr w h X -> X = elems σ h) /\
    (∀ h, members ((op, res) :: tr) w' h (elems σ' h)) /\ (sreads op -> w' = w).
Proof.
  intros Hr Ho. destruct (set_sim fuel u0 Hfuel api dig ok Ht) as (R & H1 & H2 & H3).
  destruct (H1 _ _ Hr) as (σ & Hs & HR). destruct (H3 _ _ _ _ Hs HR Ho) as (res & w' & σ' & Hc & Hst & HR' & Hrd).
  assert (Hr' : srun ((op, res) :: tr) w') by (by econstructor).
  exists σ, res, w', σ'. split_and!; auto.
  - intros h X Hm. eapply members_unique; [done|]. by eapply run_members.
  - intros h. eapply run_members; [exact H3|done| |done]. by econstructor.
  - intros Hrd'. by destruct (Hrd Hrd').
Qed.

Lemma sobs_len tr w h X : srun tr w -> ok tr (SLen h) -> members tr w h X ->
  scall api (SLen h) w = Ret (TLen (N.of_nat (size X) mod 2 ^ 64)) w.
Proof.
  intros Hr Ho Hm. destruct (sobs_step _ _ _ Hr Ho) as (σ & res & w' & σ' & Hs & Hc & Hst & _ & _ & Hcu & _ & Hrd).
  rewrite (Hrd I) in Hc. destruct Hst as (_ & s & X' & HX & ->). rewrite (Hcu _ _ Hm). unfold elems. by rewrite HX.
Qed.

Lemma sobs_dep tr w h s X : srun tr w -> (SNew s, THandle h) ∈ tr -> ok tr (SDep h) -> members tr w h X ->
  scall api (SDep h) w = Ret (TDep (mean (N.of_nat (total_depth dig s (elements X))) (N.of_nat (size X)))) w.
Proof.
  intros Hr Hn Ho Hm. destruct (sobs_step _ _ _ Hr Ho) as (σ & res & w' & σ' & Hs & Hc & Hst & _ & _ & Hcu & _ & Hrd).
  rewrite (Hrd I) in Hc. destruct Hst as (_ & s' & X' & HX & ->). rewrite (Hcu _ _ Hm). unfold elems. rewrite HX.
  destruct (sspec_new _ _ _ _ Hs _ _ Hn) as [X2 HX2]. rewrite HX in HX2. injection HX2 as <- <-. done.
Qed.

Lemma sobs_new tr w s : srun tr w -> ok tr (SNew s) -> ∃ h w', scall api (SNew s) w = Ret (THandle h) w' /\
  let tr' := (SNew s, THandle h) :: tr in
  (∀ s', (SNew s', THandle h) ∉ tr) /\
  members tr' w' h ∅ /\ w_usr w' = w_usr w /\ ∀ h' X, h' ≠ h -> members tr w h' X -> members tr' w' h' X.
Proof.
  intros Hr Ho. destruct (sobs_step _ _ _ Hr Ho) as (σ & res & w' & σ' & Hs & Hc & Hst & Hu & Hu' & Hcu & Hc' & _).
  destruct Hst as (h & -> & Hn & ->). destruct (upd_elems σ h s ∅ (ss_usr σ)) as [He Ho'].
  exists h, w'. cbv zeta. split_and!; [done| |by rewrite <-He|by rewrite <-Hu, <-Hu'|].
  - intros s' Hin. destruct (sspec_new _ _ _ _ Hs _ _ Hin). congruence.
  - intros h' X Hh Hm. rewrite (Hcu _ _ Hm), <-(Ho' _ Hh). done.
Qed.

Lemma sobs_add tr w h k X : srun tr w -> ok tr (SAdd h k) -> members tr w h X ->
  ∃ w', scall api (SAdd h k) w = Ret TUnit w' /\
  let tr' := (SAdd h k, TUnit) :: tr in
  members tr' w' h ({[k]} ∪ X) /\ w_usr w' = w_usr w /\
  ∀ h' X', h' ≠ h -> members tr w h' X' -> members tr' w' h' X'.
Proof.
  intros Hr Ho Hm. destruct (sobs_step _ _ _ Hr Ho) as (σ & res & w' & σ' & Hs & Hc & Hst & Hu & Hu' & Hcu & Hc' & _).
  destruct Hst as (-> & s & X' & HX & ->). destruct (upd_elems σ h s ({[k]} ∪ X') (ss_usr σ)) as [He Ho'].
  assert (HXX : elems σ h = X') by (unfold elems; by rewrite HX).
  exists w'. cbv zeta. split_and!; [done|by rewrite (Hcu _ _ Hm), HXX, <-He|by rewrite <-Hu, <-Hu'|].
  intros h' X2 Hh Hm2. rewrite (Hcu _ _ Hm2), <-(Ho' _ Hh). done.
Qed.

Lemma sobs_del tr w h k X : srun tr w -> ok tr (SDel h k) -> members tr w h X ->
  ∃ w', scall api (SDel h k) w = Ret TUnit w' /\
  let tr' := (SDel h k, TUnit) :: tr in
  members tr' w' h (X ∖ {[k]}) /\ w_usr w' = w_usr w /\
  ∀ h' X', h' ≠ h -> members tr w h' X' -> members tr' w' h' X'.
Proof.
  intros Hr Ho Hm. destruct (sobs_step _ _ _ Hr Ho) as (σ & res & w' & σ' & Hs & Hc & Hst & Hu & Hu' & Hcu & Hc' & _).
  destruct Hst as (-> & s & X' & HX & ->). destruct (upd_elems σ h s (X' ∖ {[k]}) (ss_usr σ)) as [He Ho'].
  assert (HXX : elems σ h = X') by (unfold elems; by rewrite HX).
  exists w'. cbv zeta. split_and!; [done|by rewrite (Hcu _ _ Hm), HXX, <-He|by rewrite <-Hu, <-Hu'|].
  intros h' X2 Hh Hm2. rewrite (Hcu _ _ Hm2), <-(Ho' _ Hh). done.
Qed.

Lemma sobs_all tr w h s f X : srun tr w -> (SNew s, THandle h) ∈ tr -> ok tr (SAll h f) -> members tr w h X ->
  ∃ ks w', scall api (SAll h f) w = Ret TUnit w' /\
  let tr' := (SAll h f, TUnit) :: tr in
  ks ≡ₚ elements X /\ in_order dig s ks /\ w_usr w' = (svisit f ks (w_usr w)).2 /\
  ∀ h' X', members tr w h' X' -> members tr' w' h' X'.
Proof.
  intros Hr Hn Ho Hm. destruct (sobs_step _ _ _ Hr Ho) as (σ & res & w' & σ' & Hs & Hc & Hst & Hu & Hu' & Hcu & Hc' & _).
  destruct Hst as (-> & s' & X' & ks & HX & Hks & Hord & ->).
  destruct (sspec_new _ _ _ _ Hs _ _ Hn) as [X2 HX2]. rewrite HX in HX2. injection HX2 as <- <-.
  assert (HXX : elems σ h = X') by (unfold elems; by rewrite HX).
  exists ks, w'. cbv zeta. split_and!; [done|by rewrite (Hcu _ _ Hm), HXX|done| |].
  - rewrite <-Hu', <-Hu. simpl. apply seach_svisit.
  - intros h' X2 Hm2. rewrite (Hcu _ _ Hm2). apply (Hc' h').
Qed.

Lemma sstep_read_det (σ : sstate K U) op res1 res2 σ1 σ2 : sreads op -> sstep dig σ op res1 σ1 -> sstep dig σ op res2 σ2 -> res1 = res2.
Proof.
  intros Hrd. destruct op; simpl; try done; intros (_ & s1 & m1 & Hm1 & ->) (_ & s2 & m2 & Hm2 & ->); rewrite Hm1 in Hm2; by injection Hm2 as <- <-.
Qed.

Lemma sobs_del_absent tr w h k X : srun tr w -> ok tr (SDel h k) -> members tr w h X -> k ∉ X ->
  ∃ w', scall api (SDel h k) w = Ret TUnit w' /\ w_usr w' = w_usr w /\
  let tr' := (SDel h k, TUnit) :: tr in
  (∀ op, sreads op -> ok tr op -> ∃ res, scall api op w = Ret res w /\ scall api op w' = Ret res w').
Proof.
  intros Hr Ho Hm Hk. destruct (set_sim fuel u0 Hfuel api dig ok Ht) as (R & H1 & H2 & H3).
  destruct (H1 _ _ Hr) as (σ & Hs & HR). destruct (H3 _ _ _ _ Hs HR Ho) as (res & w' & σ' & Hc & Hst & HR' & _).
  assert (Hcm : X = elems σ h) by (eapply members_unique; [done|by eapply run_members]).
  assert (Hs' : sspec dig u0 ((SDel h k, res) :: tr) σ') by (by econstructor).
  assert (σ' = σ /\ res = TUnit) as [-> ->].
  { destruct Hst as (-> & s & X' & HX & ->). split; [|done]. unfold elems in Hcm. rewrite HX in Hcm. subst X'.
    assert (X ∖ {[k]} = X) as -> by set_solver. rewrite insert_id by done. by destruct σ. }
  exists w'. split_and!; [done|by rewrite <-(H2 _ _ HR), <-(H2 _ _ HR')|]. intros tr' op Hrd Hop.
  destruct (H3 _ _ _ _ Hs HR Hop) as (r1 & w1 & σ1 & Hc1 & Hst1 & _ & Hp1). destruct (Hp1 Hrd) as [-> ->].
  assert (Hop' : ok tr' op) by (by eapply set_ok_mono).
  destruct (H3 _ _ _ _ Hs' HR' Hop') as (r2 & w2 & σ2 & Hc2 & Hst2 & _ & Hp2). destruct (Hp2 Hrd) as [-> ->].
  rewrite (sstep_read_det _ _ _ _ _ _ Hrd Hst2 Hst1) in Hc2. eauto.
Qed.

Lemma sobs_last_has tr w h k b X : srun ((SHas h k, THas b) :: tr) w ->
  members ((SHas h k, THas b) :: tr) w h X -> (k ∈ X <-> b = true).
Proof.
  intros Hr Hm. inversion Hr as [|tr0 w0 op res w' Hr0 Ho Hc]; subst.
  destruct (sobs_step _ _ _ Hr0 Ho) as (σ & res & w' & σ' & Hs & Hc1 & Hst & _ & _ & _ & Hc' & Hrd).
  rewrite Hc in Hc1. injection Hc1 as <- <-. pose proof (Hrd I) as ->.
  rewrite (members_unique _ _ _ _ _ Hm (Hc' h)). destruct Hst as (-> & s & X' & HX & [= ->]).
  unfold elems. rewrite HX. by rewrite bool_decide_eq_true.
Qed.

Lemma sobs_dep_keys tr w h s X ks : srun tr w -> (SNew s, THandle h) ∈ tr -> ok tr (SDep h) -> members tr w h X ->
  ks ≡ₚ elements X ->
  scall api (SDep h) w = Ret (TDep (mean (N.of_nat (total_depth dig s ks)) (N.of_nat (length ks)))) w.
Proof.
  intros Hr Hn Ho Hm Hks. rewrite (sobs_dep _ _ _ _ _ Hr Hn Ho Hm).
  rewrite (total_depth_perm dig s _ _ Hks). apply Permutation_length in Hks. by rewrite Hks.
Qed.
End obs.

Lemma svisit_prefix {K U} (f : U -> K -> U * bool) ks : ∀ u,
  ∃ rest, ks = (svisit f ks u).1 ++ rest /\
    (svisit f ks u).2 = foldl (λ u k, (f u k).1) u (svisit f ks u).1 /\
    ((∀ u k, (f u k).2 = true) -> rest = []) /\
    (rest ≠ [] -> ∃ cs k, (svisit f ks u).1 = cs ++ [k] /\ (f (foldl (λ u k, (f u k).1) u cs) k).2 = false).
Proof.
  induction ks as [|k ks IH]; intros u; [exists []; done|]. simpl.
  destruct (f u k) as [u1 go] eqn:E. destruct go.
  - destruct (IH u1) as (rest & H1 & H2 & H3 & H4). destruct (svisit f ks u1) as [cs u2]. simpl in *.
    exists rest. split_and!.
    + by f_equal.
    + by rewrite E.
    + done.
    + intros (cs' & k' & -> & Hl)%H4. exists (k :: cs'), k'. split; [done|]. simpl. by rewrite E.
  - simpl. exists ks. split_and!; [done|by rewrite E| |].
    + intros Ha. specialize (Ha u k). by rewrite E in Ha.
    + intros _. exists [], k. split; [done|]. simpl. by rewrite E.
Qed.
