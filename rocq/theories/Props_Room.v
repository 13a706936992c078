(** Property C58: Len does not overflow.

    C13 has Len modulo 2^64, and Go converts the counter to uint, which has 32 bits on
    32-bit platforms. A container with so many keys does not fit into memory: each key takes
    a link in an array, and arrays have no byte in common (LayoutSpec.v: [placed]). So Len
    is the number of keys, on 64-bit and 32-bit platforms. *)
From stdpp Require Import base numbers list gmap relations.
From Verif Require Import GoInt Mem Hash Prog Amt Families Spec SpecFacts Heap Guards Client Types Observe ObserveFacts ObserveMap ObserveSet Pack Runs Sep DepthSpec MemorySpec PClient ConcClient ConcMapAll TimeTypes KeepSpec GcSpec ReuseSpec ReuseRuns Props_Types Props_Ops Props_Gc Props_Reuse.
From Verif Require Import LayoutSpec Layout LayoutMem LayoutRuns Room Props_Layout.
Local Open Scope N_scope.

Section maps.
Context (V U K CK : Type) (EqK : EqDecision K) (CoK : Countable K) (zero : V) (u0 : U) (fuel : nat) (p : platform) (kvsize : N).
Context (papi : pmapapi K V CK U) (api : mapapi K V CK U) (dig : N -> K -> nat -> N).
Context (ok : list (mop K V U * mres V) -> mop K V U -> Prop).
Hypothesis Hfuel : (256 <= fuel)%nat.
Hypothesis Htype : map_both zero fuel papi api dig ok.

(** The links of the keys and of the arrays below the first fit into the address space. *)
Theorem C58_room_map : ∀ tr R B T u tr0 ρ w0 s h,
  bwild p kvsize papi u0 tr R B T u -> beside api papi ok u0 tr R (view p B T) u tr0 ρ w0 ->
  h ∈ R -> (MNew s, RHandle (ρ h)) ∈ tr0 ->
  N.of_nat (base.size (stored tr0 (ρ h)) + branches dig s (elements (stored tr0 (ρ h)))) * linkSize p <= top p.
Proof.
  intros tr R B T u tr0 ρ w0 s h Hw Hb Hh Hin. pose proof (map_both_prog _ _ _ _ _ _ Htype) as Hp.
  destruct (bwild_wild _ _ _ _ _ _ _ _ _ _ _ _ Hp Hw) as [Hs _].
  destruct (map_room zero fuel u0 Hfuel api dig ok (map_both_type _ _ _ _ _ _ Htype) tr0 w0 s (ρ h) (beside_mrun _ _ _ _ _ _ _ _ _ _ _ Hb) Hin) as (arrs & H1 & H2).
  destruct (beside_stands zero fuel papi api u0 Hp ok _ _ _ _ _ _ _ Hb) as (_ & β & Hst & HR).
  destruct (arrays_as β _ _ Hst h (ρ h) (map_to_list arrs)) as (l & L1 & L2 & _ & L3); [by apply HR|apply NoDup_fst_map_to_list| |].
  { intros a n Ha. apply H1. by apply elem_of_map_to_list. }
  assert (Hpk : N.of_nat (sum_list l.*2) * linkSize p <= top p).
  { apply (packed p kvsize T); [apply Hs|done|]. intros a n Ha. destruct (L3 a n Ha) as (ls & E & <-). apply (view_links _ _ _ _ _ E). }
  rewrite L2 in Hpk. etransitivity; [|exact Hpk]. apply N.mul_le_mono_r. lia.
Qed.
(** Len returns the number of keys, and this fits uint, which has the size of a pointer. *)
Theorem C58_Len_map : ∀ tr R B T u tr0 ρ w0 s h M res B' T' u',
  bwild p kvsize papi u0 tr R B T u -> beside api papi ok u0 tr R (view p B T) u tr0 ρ w0 ->
  h ∈ R -> (MNew s, RHandle (ρ h)) ∈ tr0 -> ok tr0 (MLen (ρ h)) -> contents api zero ok tr0 w0 (ρ h) M ->
  rtc (bmoves p kvsize res_as R) (pmcall papi (Op (MLen h)), B, T, u) (PRet res, B', T', u') ->
  res = RLen (N.of_nat (base.size M)) /\ N.of_nat (base.size M) < top p.
Proof.
  intros tr R B T u tr0 ρ w0 s h M res B' T' u' Hw Hb Hh Hin Hok HM Hm.
  pose proof (beside_mrun _ _ _ _ _ _ _ _ _ _ _ Hb) as Hr. pose proof (map_both_type _ _ _ _ _ _ Htype) as Hty.
  pose proof (C58_room_map _ _ _ _ _ _ _ _ _ _ Hw Hb Hh Hin) as Hroom.
  assert (Hst : base.size (stored tr0 (ρ h)) = base.size M).
  { rewrite <- (size_dom M). f_equal. apply leibniz_equiv. intros k. rewrite elem_of_dom.
    symmetry. exact (C01_stored_iff_last_write V U K CK EqK CoK zero u0 fuel api dig ok Hfuel Hty tr0 w0 (ρ h) k M Hr HM). }
  assert (Hlt : N.of_nat (base.size M) < top p).
  { rewrite Hst in Hroom. pose proof (link_layout p) as (_ & _ & _ & E). pose proof (word_pos p). rewrite E in Hroom.
    assert (0 < top p) by (unfold top; apply N.neq_0_lt_0, N.pow_nonzero; lia).
    destruct (base.size M) as [|n]; [done|]. nia. }
  split; [|done].
  destruct (C57_call_map V U K CK EqK CoK zero u0 fuel p kvsize papi api dig ok Hfuel Htype tr R B T u tr0 ρ w0 (MLen h) Hw Hb Hok) as (res0 & w' & E & Hres).
  { intros a Ha. cbn in Ha. by injection Ha as <-. }
  destruct (proj2 (Hres _ _ _ _ Hm) res eq_refl) as (ρ' & _ & E0 & _). cbn [op_by] in E.
  rewrite (C13_Len_map V U K CK EqK CoK zero u0 fuel api dig ok Hfuel Hty tr0 w0 (ρ h) M Hr Hok HM) in E.
  assert (Hmod : N.of_nat (base.size M) mod 2 ^ 64 = N.of_nat (base.size M)).
  { apply N.mod_small. eapply N.lt_le_trans; [exact Hlt|]. unfold top, word. destruct p as [[] b]; vm_compute; discriminate. }
  rewrite Hmod in E. injection E as <- _. destruct res as [| | | |[]| |]; cbn [res_by] in E0; congruence.
Qed.
End maps.

Section sets.
Context (U K CK : Type) (EqK : EqDecision K) (CoK : Countable K) (u0 : U) (fuel : nat) (p : platform) (kvsize : N).
Context (papi : psetapi K unit CK U) (api : setapi K unit CK U) (dig : N -> K -> nat -> N).
Context (ok : list (sop K U * sres) -> sop K U -> Prop).
Hypothesis Hfuel : (256 <= fuel)%nat.
Hypothesis Htype : set_both fuel papi api dig ok.
Theorem C58_room_set : ∀ tr R B T u tr0 ρ w0 s h,
  bswild p kvsize papi u0 tr R B T u -> sbeside api papi ok u0 tr R (view p B T) u tr0 ρ w0 ->
  h ∈ R -> (SNew s, THandle (ρ h)) ∈ tr0 ->
  N.of_nat (base.size (sstored tr0 (ρ h)) + branches dig s (elements (sstored tr0 (ρ h)))) * linkSize p <= top p.
Proof.
  intros tr R B T u tr0 ρ w0 s h Hw Hb Hh Hin. pose proof (set_both_prog _ _ _ _ _ Htype) as Hp.
  destruct (bswild_swild _ _ _ _ _ _ _ _ _ _ _ Hp Hw) as [Hs _].
  destruct (set_room fuel u0 Hfuel api dig ok (set_both_type _ _ _ _ _ Htype) tr0 w0 s (ρ h) (sbeside_srun _ _ _ _ _ _ _ _ _ _ _ Hb) Hin) as (arrs & H1 & H2).
  destruct (sbeside_stands fuel papi api u0 Hp ok _ _ _ _ _ _ _ Hb) as (_ & β & Hst & HR).
  destruct (arrays_as β _ _ Hst h (ρ h) (map_to_list arrs)) as (l & L1 & L2 & _ & L3); [by apply HR|apply NoDup_fst_map_to_list| |].
  { intros a n Ha. apply H1. by apply elem_of_map_to_list. }
  assert (Hpk : N.of_nat (sum_list l.*2) * linkSize p <= top p).
  { apply (packed p kvsize T); [apply Hs|done|]. intros a n Ha. destruct (L3 a n Ha) as (ls & E & <-). apply (view_links _ _ _ _ _ E). }
  rewrite L2 in Hpk. etransitivity; [|exact Hpk]. apply N.mul_le_mono_r. lia.
Qed.
Theorem C58_Len_set : ∀ tr R B T u tr0 ρ w0 s h X res B' T' u',
  bswild p kvsize papi u0 tr R B T u -> sbeside api papi ok u0 tr R (view p B T) u tr0 ρ w0 ->
  h ∈ R -> (SNew s, THandle (ρ h)) ∈ tr0 -> ok tr0 (SLen (ρ h)) -> members api ok tr0 w0 (ρ h) X ->
  rtc (bmoves p kvsize sres_as R) (pscall papi (SLen h), B, T, u) (PRet res, B', T', u') ->
  res = TLen (N.of_nat (base.size X)) /\ N.of_nat (base.size X) < top p.
Proof.
  intros tr R B T u tr0 ρ w0 s h X res B' T' u' Hw Hb Hh Hin Hok HM Hm.
  pose proof (sbeside_srun _ _ _ _ _ _ _ _ _ _ _ Hb) as Hr. pose proof (set_both_type _ _ _ _ _ Htype) as Hty.
  pose proof (C58_room_set _ _ _ _ _ _ _ _ _ _ Hw Hb Hh Hin) as Hroom.
  assert (Hst : base.size (sstored tr0 (ρ h)) = base.size X).
  { f_equal. destruct (set_sim fuel u0 Hfuel api dig ok Hty) as (Rel & Hrel & _ & Hstep). destruct (Hrel _ _ Hr) as (σ & Hsp & HR).
    pose proof (run_members fuel u0 api dig ok Hty Rel tr0 w0 σ (ρ h) Hstep Hr Hsp HR) as Hme. rewrite (members_unique api ok tr0 w0 (ρ h) _ _ HM Hme).
    destruct (sspec_new dig u0 tr0 σ Hsp _ _ Hin) as [X' HX']. unfold elems. rewrite HX'. by destruct (sspec_stored dig u0 tr0 σ Hsp _ _ _ HX') as [-> _]. }
  assert (Hlt : N.of_nat (base.size X) < top p).
  { rewrite Hst in Hroom. pose proof (link_layout p) as (_ & _ & _ & E). pose proof (word_pos p). rewrite E in Hroom.
    assert (0 < top p) by (unfold top; apply N.neq_0_lt_0, N.pow_nonzero; lia).
    destruct (base.size X) as [|n]; [done|]. nia. }
  split; [|done].
  destruct (C57_call_set U K CK EqK CoK u0 fuel p kvsize papi api dig ok Hfuel Htype tr R B T u tr0 ρ w0 (SLen h) Hw Hb Hok) as (res0 & w' & E & Hres).
  { intros a Ha. cbn in Ha. by injection Ha as <-. }
  destruct (proj2 (Hres _ _ _ _ Hm) res eq_refl) as (ρ' & _ & E0 & _). cbn [sop_by] in E.
  rewrite (C13_Len_set U K CK EqK CoK u0 fuel api dig ok Hfuel Hty tr0 w0 (ρ h) X Hr Hok HM) in E.
  assert (Hmod : N.of_nat (base.size X) mod 2 ^ 64 = N.of_nat (base.size X)).
  { apply N.mod_small. eapply N.lt_le_trans; [exact Hlt|]. unfold top, word. destruct p as [[] b]; vm_compute; discriminate. }
  rewrite Hmod in E. injection E as <- _. destruct res; cbn [sres_by] in E0; congruence.
Qed.
End sets.

(** The map of C57_nonvacuous: it has three keys, and Len says so. *)
Example C58_nonvacuous : ∀ p,
  let api := StringMap_api (U:=N) sum8 0%N 256 in
  let papi := PStringMap_api (U:=N) sum8 0%N 256 in
  let ok := λ tr op, mallowed (λ _, true = true) (λ _, true = true) tr op /\ ins_guard (digit sum8) any_way any_way tr op in
  map_both 0%N 256 papi api (digit sum8) ok /\
  ∃ tr R B T u tr0 ρ w0 B' T' u', bwild p 24 papi 0 tr R B T u /\ beside api papi ok 0 tr R (view p B T) u tr0 ρ w0 /\
    1024%positive ∈ R /\ (MNew 0, RHandle (ρ 1024%positive)) ∈ tr0 /\ ok tr0 (MLen (ρ 1024%positive)) /\ base.size (stored tr0 (ρ 1024%positive)) = 3%nat /\
    rtc (bmoves p 24 res_as R) (pmcall papi (Op (MLen 1024)), B, T, u) (PRet (RLen 3), B', T', u').
Proof.
  intros p api papi ok. pose (chk := gchk (V:=N) (U:=N) (digit sum8) (λ _, true) anyb anyb).
  assert (Hb : map_both 0%N 256 papi api (digit sum8) ok) by apply both_StringMap. split; [exact Hb|].
  assert (Hchk : ∀ tr op, chk tr op = true -> ok tr op) by (intros tr op; apply gchk_ok; apply anyb_ok).
  assert (He : match bboth_exec p 24 papi api chk (BothAt [] [] ∅ 0%N [] [] (empty_world 0%N)) (spots p) four_keys with
    | Some s => ba_R s = [4096; 1024]%positive /\ named (ba_names s) 1024 = 2%positive /\
        match last (ba_tr0 s) with Some (MNew s, RHandle h) => s = 0 /\ h = 2%positive | _ => False end /\
        chk (ba_tr0 s) (MLen 2) = true /\ base.size (stored (ba_tr0 s) 2) = 3%nat /\
        match bdrive p 24 (pmcall papi (Op (MLen 1024))) [] (ba_m s) (ba_u s) with Some (RLen n, _, _, _) => n = 3 | _ => False end
    | None => False end) by (destruct p as [[] []]; vm_compute; repeat split).
  destruct (bboth_exec _ _ _ _ _ _ _ _) as [s|] eqn:E; [|destruct He]. destruct He as (H1 & H2 & H3 & H4 & H5 & H6).
  apply (bboth_exec_good 0%N 256 p 24 papi api 0%N (map_both_prog _ _ _ _ _ _ Hb) ok chk Hchk) in E.
  2:{ split; [constructor|]. exists (λ _, 0), ∅. split; [unfold view; by rewrite map_imap_empty|]. by constructor. }
  destruct E as [Hg (B & T & Hv & Hw)]. destruct (bwild_wild _ _ _ _ _ _ _ _ _ _ _ _ (map_both_prog _ _ _ _ _ _ Hb) Hw) as [Hs _].
  destruct (bdrive _ _ _ _ _ _) as [[[[[| | | | |n|] addrs'] m'] u']|] eqn:Ed; try (exfalso; exact H6). subst n.
  assert (Hr : ready p T (pmcall papi (Op (MLen 1024)))) by (apply ready_none, t_mcall; eapply pmap_type_tidy; exact (map_both_prog _ _ _ _ _ _ Hb)).
  destruct (bdrive_bmoves p 24 res_as (list_to_set (ba_R s)) _ _ _ _ _ _ _ _ _ _ Hv Hs Hr Ed) as (B' & T' & _ & Hm).
  eexists _, _, B, T, _, _, _, _, B', T', u'. split; [exact Hw|]. split; [rewrite Hv; exact Hg|]. rewrite H2. split; [rewrite H1; set_solver +|].
  split; [|split; [by apply Hchk|split; [exact H5|exact Hm]]].
  destruct (last (ba_tr0 s)) as [[[] []]|] eqn:El; try (exfalso; exact H3). destruct H3 as [-> ->].
  apply last_Some in El as [l' ->]. set_solver +.
Qed.

Print Assumptions C58_room_map.
Print Assumptions C58_Len_map.
Print Assumptions C58_room_set.
Print Assumptions C58_Len_set.
