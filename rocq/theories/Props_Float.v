(** Property C60: Dep has only rounding errors.

    C14 has the two counters modulo 2^64. A key has depth at most 241, so the sum of the
    depths does not overflow as long as there are at most 2^56 keys, and with more keys the
    arrays alone take 2^60 bytes (C58). Up to 2^45 keys, and always on 32-bit platforms, Dep
    is the float64 that is nearest to the mean of the depths. *)
From stdpp Require Import base numbers list gmap relations.
From Verif Require Import GoInt Mem Hash Prog Amt Families Spec SpecFacts Heap Guards Client Types Observe ObserveFacts ObserveMap ObserveSet Pack Runs Sep DepthSpec MemorySpec PClient ConcClient ConcMapAll TimeTypes KeepSpec GcSpec ReuseSpec ReuseRuns Props_Types Props_Ops Props_Gc Props_Reuse.
From Verif Require Import LayoutSpec Layout LayoutMem LayoutRuns Room Props_Layout Props_Room FloatSpec DepFloat DepExact.
Local Open Scope N_scope.

Section maps.
Context (V U K CK : Type) (EqK : EqDecision K) (CoK : Countable K) (zero : V) (u0 : U) (fuel : nat).
Context (api : mapapi K V CK U) (dig : N -> K -> nat -> N) (ok : list (mop K V U * mres V) -> mop K V U -> Prop).
Hypothesis Hfuel : (256 <= fuel)%nat.
Hypothesis Htype : map_type zero fuel api dig ok.
(** Dep is the float64 nearest to the mean, up to 2^45 keys. *)
Theorem C60_nearest_map : ∀ tr w h s M, mrun api ok u0 tr w -> (MNew s, RHandle h) ∈ tr -> ok tr (MDep h) -> contents api zero ok tr w h M ->
  M ≠ ∅ -> N.of_nat (base.size M) <= 2 ^ 45 ->
  ∃ d, mcall api (MDep h) w = Ret (RDep d) w /\ nearest d (true_mean (total_depth dig s (map_to_list M).*1) (base.size M)).
Proof.
  intros tr w h s M Hr Hin Ho HM Hne Hsz. eexists. split; [exact (C14_Dep_map V U K CK EqK CoK zero u0 fuel api dig ok Hfuel Htype tr w h s M Hr Hin Ho HM)|].
  assert (Hl : length (map_to_list M).*1 = base.size M) by by rewrite fmap_length. rewrite <- Hl in *. apply mean_nearest; [|exact Hsz].
  intros E. apply Hne. apply map_to_list_empty_iff. by apply fmap_nil_inv in E.
Qed.
(** Up to 2^56 keys the sum of the depths fits uint64, and Dep has an error of at most 2^-51 of the mean. *)
Theorem C60_close_map : ∀ tr w h s M, mrun api ok u0 tr w -> (MNew s, RHandle h) ∈ tr -> ok tr (MDep h) -> contents api zero ok tr w h M ->
  M ≠ ∅ -> N.of_nat (base.size M) <= 2 ^ 56 ->
  N.of_nat (total_depth dig s (map_to_list M).*1) < 2 ^ 64 /\
  ∃ d, mcall api (MDep h) w = Ret (RDep d) w /\ close d (true_mean (total_depth dig s (map_to_list M).*1) (base.size M)).
Proof.
  intros tr w h s M Hr Hin Ho HM Hne Hsz.
  assert (Hl : length (map_to_list M).*1 = base.size M) by by rewrite fmap_length.
  destruct (mean_close dig s (map_to_list M).*1) as [H1 H2]; [|by rewrite Hl|].
  { intros E. apply Hne. apply map_to_list_empty_iff. by apply fmap_nil_inv in E. }
  split; [exact H1|]. eexists. split; [exact (C14_Dep_map V U K CK EqK CoK zero u0 fuel api dig ok Hfuel Htype tr w h s M Hr Hin Ho HM)|]. by rewrite <- Hl.
Qed.
End maps.

Section maps_in_memory.
Context (V U K CK : Type) (EqK : EqDecision K) (CoK : Countable K) (zero : V) (u0 : U) (fuel : nat) (p : platform) (kvsize : N).
Context (papi : pmapapi K V CK U) (api : mapapi K V CK U) (dig : N -> K -> nat -> N).
Context (ok : list (mop K V U * mres V) -> mop K V U -> Prop).
Hypothesis Hfuel : (256 <= fuel)%nat.
Hypothesis Htype : map_both zero fuel papi api dig ok.
Lemma below_map m tr R B T u tr0 ρ w0 s h M : (∀ a t x, T !! a = Some t -> owns p kvsize a t x -> x < m) ->
  bwild p kvsize papi u0 tr R B T u -> beside api papi ok u0 tr R (view p B T) u tr0 ρ w0 ->
  h ∈ R -> (MNew s, RHandle (ρ h)) ∈ tr0 -> contents api zero ok tr0 w0 (ρ h) M ->
  N.of_nat (base.size M) * linkSize p <= m.
Proof using Hfuel Htype.
  intros Hm Hw Hb Hh Hin HM. pose proof (map_both_prog _ _ _ _ _ _ Htype) as Hp. pose proof (beside_mrun _ _ _ _ _ _ _ _ _ _ _ Hb) as Hr.
  pose proof (map_both_type _ _ _ _ _ _ Htype) as Hty.
  destruct (bwild_wild _ _ _ _ _ _ _ _ _ _ _ _ Hp Hw) as [Hs _].
  destruct (map_room zero fuel u0 Hfuel api dig ok Hty tr0 w0 s (ρ h) Hr Hin) as (arrs & H1 & H2).
  destruct (beside_stands zero fuel papi api u0 Hp ok _ _ _ _ _ _ _ Hb) as (_ & β & Hst & HR).
  destruct (arrays_as β _ _ Hst h (ρ h) (map_to_list arrs)) as (l & L1 & L2 & _ & L3); [by apply HR|apply NoDup_fst_map_to_list| |].
  { intros a n Ha. apply H1. by apply elem_of_map_to_list. }
  assert (Hpk : N.of_nat (sum_list l.*2) * linkSize p <= m).
  { apply (packed_below p kvsize T); [apply Hs|exact Hm|done|]. intros a n Ha. destruct (L3 a n Ha) as (ls & E & <-). apply (view_links _ _ _ _ _ E). }
  rewrite L2 in Hpk. etransitivity; [|exact Hpk]. apply N.mul_le_mono_r.
  assert (Heq : base.size (stored tr0 (ρ h)) = base.size M).
  { rewrite <- (size_dom M). f_equal. apply leibniz_equiv. intros k. rewrite elem_of_dom.
    symmetry. exact (C01_stored_iff_last_write V U K CK EqK CoK zero u0 fuel api dig ok Hfuel Hty tr0 w0 (ρ h) k M Hr HM). }
  lia.
Qed.
(** Dep on a platform with bytes: if no address is 2^60 or above, its error is at most 2^-51 of the mean,
    and on 32-bit platforms it is the float64 nearest to the mean. *)
Theorem C60_Dep_map : ∀ tr R B T u tr0 ρ w0 s h M res B' T' u',
  bwild p kvsize papi u0 tr R B T u -> beside api papi ok u0 tr R (view p B T) u tr0 ρ w0 ->
  h ∈ R -> (MNew s, RHandle (ρ h)) ∈ tr0 -> ok tr0 (MDep (ρ h)) -> contents api zero ok tr0 w0 (ρ h) M -> M ≠ ∅ ->
  rtc (bmoves p kvsize res_as R) (pmcall papi (Op (MDep h)), B, T, u) (PRet res, B', T', u') ->
  ((∀ a t x, T !! a = Some t -> owns p kvsize a t x -> x < 2 ^ 60) ->
    ∃ d, res = RDep d /\ close d (true_mean (total_depth dig s (map_to_list M).*1) (base.size M))) /\
  (wide p = false ->
    ∃ d, res = RDep d /\ nearest d (true_mean (total_depth dig s (map_to_list M).*1) (base.size M))).
Proof.
  intros tr R B T u tr0 ρ w0 s h M res B' T' u' Hw Hb Hh Hin Hok HM Hne Hm.
  pose proof (beside_mrun _ _ _ _ _ _ _ _ _ _ _ Hb) as Hr. pose proof (map_both_type _ _ _ _ _ _ Htype) as Hty.
  destruct (C57_call_map V U K CK EqK CoK zero u0 fuel p kvsize papi api dig ok Hfuel Htype tr R B T u tr0 ρ w0 (MDep h) Hw Hb Hok) as (res0 & w' & E & Hres).
  { intros a Ha. cbn in Ha. by injection Ha as <-. }
  destruct (proj2 (Hres _ _ _ _ Hm) res eq_refl) as (ρ' & _ & E0 & _). cbn [op_by] in E.
  assert (Hd : ∀ d, mcall api (MDep (ρ h)) w0 = Ret (RDep d) w0 -> res = RDep d).
  { intros d Ed. rewrite Ed in E. injection E as <- _. destruct res as [| | | |[]| |]; cbn [res_by] in E0; congruence. }
  pose proof (link_layout p) as (_ & _ & _ & El). split.
  - intros Hlow. assert (Hsz : N.of_nat (base.size M) <= 2 ^ 56).
    { destruct (wide p) eqn:Ew.
      - pose proof (below_map _ _ _ _ _ _ _ _ _ _ _ _ Hlow Hw Hb Hh Hin HM) as Hx. rewrite El in Hx. unfold word in Hx. rewrite Ew in Hx.
        assert (2 ^ 60 = 16 * 2 ^ 56) as E6 by done. rewrite E6 in Hx. lia.
      - assert (Hlow' : ∀ a t x, T !! a = Some t -> owns p kvsize a t x -> x < top p).
        { intros a t x Ha Hx. destruct (bwild_wild _ _ _ _ _ _ _ _ _ _ _ _ (map_both_prog _ _ _ _ _ _ Htype) Hw) as [Hs _].
          assert (Hp : placed p kvsize T) by apply Hs. by apply (proj2 (proj1 Hp a t Ha)). }
        pose proof (below_map _ _ _ _ _ _ _ _ _ _ _ _ Hlow' Hw Hb Hh Hin HM) as Hx. rewrite El in Hx. unfold top, word in Hx. rewrite Ew in Hx.
        change (2 ^ (8 * 4)) with 4294967296 in Hx. assert (2 ^ 56 = 72057594037927936) as -> by done. lia. }
    destruct (C60_close_map V U K CK EqK CoK zero u0 fuel api dig ok Hfuel Hty tr0 w0 (ρ h) s M Hr Hin Hok HM Hne Hsz) as (_ & d & Ed & Hc). exists d. split; [by apply Hd|exact Hc].
  - intros Ew. assert (Hsz : N.of_nat (base.size M) <= 2 ^ 45).
    { assert (Hlow' : ∀ a t x, T !! a = Some t -> owns p kvsize a t x -> x < top p).
      { intros a t x Ha Hx. destruct (bwild_wild _ _ _ _ _ _ _ _ _ _ _ _ (map_both_prog _ _ _ _ _ _ Htype) Hw) as [Hs _].
        assert (Hp : placed p kvsize T) by apply Hs. by apply (proj2 (proj1 Hp a t Ha)). }
      pose proof (below_map _ _ _ _ _ _ _ _ _ _ _ _ Hlow' Hw Hb Hh Hin HM) as Hx. rewrite El in Hx. unfold top, word in Hx. rewrite Ew in Hx.
      change (2 ^ (8 * 4)) with 4294967296 in Hx. assert (2 ^ 45 = 35184372088832) as -> by done. lia. }
    destruct (C60_nearest_map V U K CK EqK CoK zero u0 fuel api dig ok Hfuel Hty tr0 w0 (ρ h) s M Hr Hin Hok HM Hne Hsz) as (d & Ed & Hc). exists d. split; [by apply Hd|exact Hc].
Qed.
End maps_in_memory.

Section sets.
Context (U K CK : Type) (EqK : EqDecision K) (CoK : Countable K) (u0 : U) (fuel : nat).
Context (api : setapi K unit CK U) (dig : N -> K -> nat -> N) (ok : list (sop K U * sres) -> sop K U -> Prop).
Hypothesis Hfuel : (256 <= fuel)%nat.
Hypothesis Htype : set_type fuel api dig ok.
(** Dep is the float64 nearest to the mean, up to 2^45 keys. *)
Theorem C60_nearest_set : ∀ tr w h s M, srun api ok u0 tr w -> (SNew s, THandle h) ∈ tr -> ok tr (SDep h) -> members api ok tr w h M ->
  M ≠ ∅ -> N.of_nat (base.size M) <= 2 ^ 45 ->
  ∃ d, scall api (SDep h) w = Ret (TDep d) w /\ nearest d (true_mean (total_depth dig s (elements M)) (base.size M)).
Proof.
  intros tr w h s M Hr Hin Ho HM Hne Hsz. eexists. split; [exact (C14_Dep_set U K CK EqK CoK u0 fuel api dig ok Hfuel Htype tr w h s M Hr Hin Ho HM)|].
  assert (Hl : length (elements M) = base.size M) by done. rewrite <- Hl in *. apply mean_nearest; [|exact Hsz].
  intros E. apply Hne. apply leibniz_equiv. by apply elements_empty_iff.
Qed.
(** Up to 2^56 keys the sum of the depths fits uint64, and Dep has an error of at most 2^-51 of the mean. *)
Theorem C60_close_set : ∀ tr w h s M, srun api ok u0 tr w -> (SNew s, THandle h) ∈ tr -> ok tr (SDep h) -> members api ok tr w h M ->
  M ≠ ∅ -> N.of_nat (base.size M) <= 2 ^ 56 ->
  N.of_nat (total_depth dig s (elements M)) < 2 ^ 64 /\
  ∃ d, scall api (SDep h) w = Ret (TDep d) w /\ close d (true_mean (total_depth dig s (elements M)) (base.size M)).
Proof.
  intros tr w h s M Hr Hin Ho HM Hne Hsz.
  assert (Hl : length (elements M) = base.size M) by done.
  destruct (mean_close dig s (elements M)) as [H1 H2]; [|by rewrite Hl|].
  { intros E. apply Hne. apply leibniz_equiv. by apply elements_empty_iff. }
  split; [exact H1|]. eexists. split; [exact (C14_Dep_set U K CK EqK CoK u0 fuel api dig ok Hfuel Htype tr w h s M Hr Hin Ho HM)|]. by rewrite <- Hl.
Qed.
End sets.

Section sets_in_memory.
Context (U K CK : Type) (EqK : EqDecision K) (CoK : Countable K) (u0 : U) (fuel : nat) (p : platform) (kvsize : N).
Context (papi : psetapi K unit CK U) (api : setapi K unit CK U) (dig : N -> K -> nat -> N).
Context (ok : list (sop K U * sres) -> sop K U -> Prop).
Hypothesis Hfuel : (256 <= fuel)%nat.
Hypothesis Htype : set_both fuel papi api dig ok.
Lemma below_set m tr R B T u tr0 ρ w0 s h M : (∀ a t x, T !! a = Some t -> owns p kvsize a t x -> x < m) ->
  bswild p kvsize papi u0 tr R B T u -> sbeside api papi ok u0 tr R (view p B T) u tr0 ρ w0 ->
  h ∈ R -> (SNew s, THandle (ρ h)) ∈ tr0 -> members api ok tr0 w0 (ρ h) M ->
  N.of_nat (base.size M) * linkSize p <= m.
Proof using Hfuel Htype.
  intros Hm Hw Hb Hh Hin HM. pose proof (set_both_prog _ _ _ _ _  Htype) as Hp. pose proof (sbeside_srun _ _ _ _ _ _ _ _ _ _ _ Hb) as Hr.
  pose proof (set_both_type _ _ _ _ _  Htype) as Hty.
  destruct (bswild_swild _ _ _ _ _ _ _ _ _ _ _  Hp Hw) as [Hs _].
  destruct (set_room fuel u0 Hfuel api dig ok Hty tr0 w0 s (ρ h) Hr Hin) as (arrs & H1 & H2).
  destruct (sbeside_stands fuel papi api u0 Hp ok _ _ _ _ _ _ _ Hb) as (_ & β & Hst & HR).
  destruct (arrays_as β _ _ Hst h (ρ h) (map_to_list arrs)) as (l & L1 & L2 & _ & L3); [by apply HR|apply NoDup_fst_map_to_list| |].
  { intros a n Ha. apply H1. by apply elem_of_map_to_list. }
  assert (Hpk : N.of_nat (sum_list l.*2) * linkSize p <= m).
  { apply (packed_below p kvsize T); [apply Hs|exact Hm|done|]. intros a n Ha. destruct (L3 a n Ha) as (ls & E & <-). apply (view_links _ _ _ _ _ E). }
  rewrite L2 in Hpk. etransitivity; [|exact Hpk]. apply N.mul_le_mono_r.
  assert (Heq : base.size (sstored tr0 (ρ h)) = base.size M).
  { f_equal. destruct (set_sim fuel u0 Hfuel api dig ok Hty) as (Rel & Hrel & _ & Hstep). destruct (Hrel _ _ Hr) as (σ & Hsp & HR').
    pose proof (run_members fuel u0 api dig ok Hty Rel tr0 w0 σ (ρ h) Hstep Hr Hsp HR') as Hme. rewrite (members_unique api ok tr0 w0 (ρ h) _ _ HM Hme).
    destruct (sspec_new dig u0 tr0 σ Hsp _ _ Hin) as [X' HX']. unfold elems. rewrite HX'. by destruct (sspec_stored dig u0 tr0 σ Hsp _ _ _ HX') as [-> _]. }
  lia.
Qed.
(** Dep on a platform with bytes: if no address is 2^60 or above, its error is at most 2^-51 of the mean,
    and on 32-bit platforms it is the float64 nearest to the mean. *)
Theorem C60_Dep_set : ∀ tr R B T u tr0 ρ w0 s h M res B' T' u',
  bswild p kvsize papi u0 tr R B T u -> sbeside api papi ok u0 tr R (view p B T) u tr0 ρ w0 ->
  h ∈ R -> (SNew s, THandle (ρ h)) ∈ tr0 -> ok tr0 (SDep (ρ h)) -> members api ok tr0 w0 (ρ h) M -> M ≠ ∅ ->
  rtc (bmoves p kvsize sres_as R) (pscall papi (SDep h), B, T, u) (PRet res, B', T', u') ->
  ((∀ a t x, T !! a = Some t -> owns p kvsize a t x -> x < 2 ^ 60) ->
    ∃ d, res = TDep d /\ close d (true_mean (total_depth dig s (elements M)) (base.size M))) /\
  (wide p = false ->
    ∃ d, res = TDep d /\ nearest d (true_mean (total_depth dig s (elements M)) (base.size M))).
Proof.
  intros tr R B T u tr0 ρ w0 s h M res B' T' u' Hw Hb Hh Hin Hok HM Hne Hm.
  pose proof (sbeside_srun _ _ _ _ _ _ _ _ _ _ _ Hb) as Hr. pose proof (set_both_type _ _ _ _ _  Htype) as Hty.
  destruct (C57_call_set U K CK EqK CoK u0 fuel p kvsize papi api dig ok Hfuel Htype tr R B T u tr0 ρ w0 (SDep h) Hw Hb Hok) as (res0 & w' & E & Hres).
  { intros a Ha. cbn in Ha. by injection Ha as <-. }
  destruct (proj2 (Hres _ _ _ _ Hm) res eq_refl) as (ρ' & _ & E0 & _). cbn [sop_by] in E.
  assert (Hd : ∀ d, scall api (SDep (ρ h)) w0 = Ret (TDep d) w0 -> res = TDep d).
  { intros d Ed. rewrite Ed in E. injection E as <- _. destruct res; cbn [sres_by] in E0; congruence. }
  pose proof (link_layout p) as (_ & _ & _ & El). split.
  - intros Hlow. assert (Hsz : N.of_nat (base.size M) <= 2 ^ 56).
    { destruct (wide p) eqn:Ew.
      - pose proof (below_set _ _ _ _ _ _ _ _ _ _ _ _ Hlow Hw Hb Hh Hin HM) as Hx. rewrite El in Hx. unfold word in Hx. rewrite Ew in Hx.
        assert (2 ^ 60 = 16 * 2 ^ 56) as E6 by done. rewrite E6 in Hx. lia.
      - assert (Hlow' : ∀ a t x, T !! a = Some t -> owns p kvsize a t x -> x < top p).
        { intros a t x Ha Hx. destruct (bswild_swild _ _ _ _ _ _ _ _ _ _ _  (set_both_prog _ _ _ _ _  Htype) Hw) as [Hs _].
          assert (Hp : placed p kvsize T) by apply Hs. by apply (proj2 (proj1 Hp a t Ha)). }
        pose proof (below_set _ _ _ _ _ _ _ _ _ _ _ _ Hlow' Hw Hb Hh Hin HM) as Hx. rewrite El in Hx. unfold top, word in Hx. rewrite Ew in Hx.
        change (2 ^ (8 * 4)) with 4294967296 in Hx. assert (2 ^ 56 = 72057594037927936) as -> by done. lia. }
    destruct (C60_close_set U K CK EqK CoK u0 fuel api dig ok Hfuel Hty tr0 w0 (ρ h) s M Hr Hin Hok HM Hne Hsz) as (_ & d & Ed & Hc). exists d. split; [by apply Hd|exact Hc].
  - intros Ew. assert (Hsz : N.of_nat (base.size M) <= 2 ^ 45).
    { assert (Hlow' : ∀ a t x, T !! a = Some t -> owns p kvsize a t x -> x < top p).
      { intros a t x Ha Hx. destruct (bswild_swild _ _ _ _ _ _ _ _ _ _ _  (set_both_prog _ _ _ _ _  Htype) Hw) as [Hs _].
        assert (Hp : placed p kvsize T) by apply Hs. by apply (proj2 (proj1 Hp a t Ha)). }
      pose proof (below_set _ _ _ _ _ _ _ _ _ _ _ _ Hlow' Hw Hb Hh Hin HM) as Hx. rewrite El in Hx. unfold top, word in Hx. rewrite Ew in Hx.
      change (2 ^ (8 * 4)) with 4294967296 in Hx. assert (2 ^ 45 = 35184372088832) as -> by done. lia. }
    destruct (C60_nearest_set U K CK EqK CoK u0 fuel api dig ok Hfuel Hty tr0 w0 (ρ h) s M Hr Hin Hok HM Hne Hsz) as (d & Ed & Hc). exists d. split; [by apply Hd|exact Hc].
Qed.
End sets_in_memory.

(** The map of C57_nonvacuous: two of its three keys have depth 1, and Dep is the float64 nearest to 2/3. *)
Example C60_nonvacuous : ∀ p,
  let api := StringMap_api (U:=N) sum8 0%N 256 in
  let papi := PStringMap_api (U:=N) sum8 0%N 256 in
  let ok := λ tr op, mallowed (λ _, true = true) (λ _, true = true) tr op /\ ins_guard (digit sum8) any_way any_way tr op in
  map_both 0%N 256 papi api (digit sum8) ok /\
  ∃ tr R B T u tr0 ρ w0 d B' T' u', bwild p 24 papi 0 tr R B T u /\ beside api papi ok 0 tr R (view p B T) u tr0 ρ w0 /\
    1024%positive ∈ R /\ (MNew 0, RHandle (ρ 1024%positive)) ∈ tr0 /\ ok tr0 (MDep (ρ 1024%positive)) /\
    total_depth (digit sum8) 0 (elements (stored tr0 (ρ 1024%positive))) = 2%nat /\ base.size (stored tr0 (ρ 1024%positive)) = 3%nat /\
    rtc (bmoves p 24 res_as R) (pmcall papi (Op (MDep 1024)), B, T, u) (PRet (RDep d), B', T', u') /\ nearest d (true_mean 2 3).
Proof.
  intros p api papi ok. pose (chk := gchk (V:=N) (U:=N) (digit sum8) (λ _, true) anyb anyb).
  assert (Hb : map_both 0%N 256 papi api (digit sum8) ok) by apply both_StringMap. split; [exact Hb|].
  assert (Hchk : ∀ tr op, chk tr op = true -> ok tr op) by (intros tr op; apply gchk_ok; apply anyb_ok).
  assert (He : match bboth_exec p 24 papi api chk (BothAt [] [] ∅ 0%N [] [] (empty_world 0%N)) (spots p) four_keys with
    | Some s => ba_R s = [4096; 1024]%positive /\ named (ba_names s) 1024 = 2%positive /\
        match last (ba_tr0 s) with Some (MNew s, RHandle h) => s = 0 /\ h = 2%positive | _ => False end /\
        chk (ba_tr0 s) (MDep 2) = true /\ total_depth (digit sum8) 0 (elements (stored (ba_tr0 s) 2)) = 2%nat /\ base.size (stored (ba_tr0 s) 2) = 3%nat /\
        match bdrive p 24 (pmcall papi (Op (MDep 1024))) [] (ba_m s) (ba_u s) with Some (RDep d, _, _, _) => d = quot 2 3 | _ => False end
    | None => False end) by (destruct p as [[] []]; vm_compute; repeat split).
  destruct (bboth_exec _ _ _ _ _ _ _ _) as [s|] eqn:E; [|destruct He]. destruct He as (H1 & H2 & H3 & H4 & H4' & H5 & H6).
  apply (bboth_exec_good 0%N 256 p 24 papi api 0%N (map_both_prog _ _ _ _ _ _ Hb) ok chk Hchk) in E.
  2:{ split; [constructor|]. exists (λ _, 0), ∅. split; [unfold view; by rewrite map_imap_empty|]. by constructor. }
  destruct E as [Hg (B & T & Hv & Hw)]. destruct (bwild_wild _ _ _ _ _ _ _ _ _ _ _ _ (map_both_prog _ _ _ _ _ _ Hb) Hw) as [Hs _].
  destruct (bdrive _ _ _ _ _ _) as [[[[[| | | | | |d] addrs'] m'] u']|] eqn:Ed; try (exfalso; exact H6).
  assert (Hr : ready p T (pmcall papi (Op (MDep 1024)))) by (apply ready_none, t_mcall; eapply pmap_type_tidy; exact (map_both_prog _ _ _ _ _ _ Hb)).
  destruct (bdrive_bmoves p 24 res_as (list_to_set (ba_R s)) _ _ _ _ _ _ _ _ _ _ Hv Hs Hr Ed) as (B' & T' & _ & Hm).
  eexists _, _, B, T, _, _, _, _, d, B', T', u'. split; [exact Hw|]. split; [rewrite Hv; exact Hg|]. rewrite H2. split; [rewrite H1; set_solver +|].
  split; [|split; [by apply Hchk|split; [exact H4'|split; [exact H5|split; [exact Hm|]]]]].
  - destruct (last (ba_tr0 s)) as [[[] []]|] eqn:El; try (exfalso; exact H3). destruct H3 as [-> ->].
    apply last_Some in El as [l' ->]. set_solver +.
  - rewrite H6. rewrite true_mean_quot. apply quot_nearest; by vm_compute.
Qed.

Print Assumptions C60_nearest_map.
Print Assumptions C60_nearest_set.
Print Assumptions C60_close_map.
Print Assumptions C60_close_set.
Print Assumptions C60_Dep_map.
Print Assumptions C60_Dep_set.
