(** Property C44: goroutines.

    ConcSpec.v interleaves goroutines access by access. The programs are PAmt.v and
    PFam.v, the code of Amt.v and Families.v as trees of memory accesses.
    [begin papi tr w cs starts]: after the calls of the history tr, which left the world
    w, the goroutines cs start; goroutine i names the blocks that it allocates from the
    i-th start on ([spread]: no two goroutines use the same name).
    [fine api ok own tr i c tr _]: goroutine i, running alone, only makes calls that are
    allowed; it calls Set, Mod, Del and All with a callback that may write only on maps
    that it owns or has made, and writes through pointers into those only; maps without
    an owner are read by everyone. [Look] is All with a callback that does not write. *)
From stdpp Require Import base numbers list gmap relations.
From Verif Require Import GoInt Mem Hash Amt Families Spec Client Types Pack Runs Guards Sep Prog PClient ConcSpec Conc ReadOnly ConcClient ConcMapAll ConcSet ConcRuns Props_Types Props_Ops Props_Mem.
Local Open Scope nat_scope.

(** No data race, no goroutine panics, hangs or touches memory that it must not, whatever
    the others do; and a goroutine that returns has made the calls and got the results of
    a run on its own, which are those of plain finite maps. What it can read then is what
    it could read after that run. *)
Theorem C44_goroutines_map : ∀ `{Countable K} (V CK U : Type) (zero : V) (fuel : nat) (api : mapapi K V CK U)
    (papi : pmapapi K V CK U) (dig : N -> K -> nat -> N) (ok : list (mop K V U * mres V) -> mop K V U -> Prop) (u0 : U),
  256 <= fuel -> map_type zero fuel api dig ok -> pmap_type zero fuel papi api ->
  ∀ tr w cs starts own,
  mrun api ok u0 tr w -> spread (w_nxt w) starts -> length starts = length cs ->
  (∀ i c a, cs !! i = Some c -> starts !! i = Some a -> fine api ok own tr i c tr (from w a)) ->
  ∀ C, rtc step (begin papi tr w cs starts) C ->
  ¬ race C /\
  (∀ i t, c_thr C !! i = Some t -> ((∃ hist, returned t hist) \/ runs C t) /\ fresh C t) /\
  (∀ i t c a hist, c_thr C !! i = Some t -> cs !! i = Some c -> starts !! i = Some a -> returned t hist ->
    ∃ w', solo api c tr (from w a) hist w' /\ (∃ σ, mspec dig zero u0 hist σ) /\ th_usr t = w_usr w' /\
      ∀ c', ok hist (the_op c') -> looks c' -> uses own tr i hist c' ->
        ∃ r u', mcall api (the_op c') w' = Ret r (World (w_mem w') (w_nxt w') u') /\
          mcall api (the_op c') (World (c_mem C) (th_nxt t) (th_usr t)) = Ret r (World (c_mem C) (th_nxt t) u')).
Proof. intros. by eapply goroutines_ok. Qed.

Theorem C44_goroutines_set : ∀ `{Countable K} (CK U : Type) (fuel : nat) (api : setapi K unit CK U)
    (papi : psetapi K unit CK U) (dig : N -> K -> nat -> N) (ok : list (sop K U * sres) -> sop K U -> Prop) (u0 : U),
  256 <= fuel -> set_type fuel api dig ok -> pset_type fuel papi api ->
  ∀ tr w cs starts own,
  srun api ok u0 tr w -> spread (w_nxt w) starts -> length starts = length cs ->
  (∀ i c a, cs !! i = Some c -> starts !! i = Some a -> sfine api ok own tr i c tr (from w a)) ->
  ∀ C, rtc step (sbegin papi tr w cs starts) C ->
  ¬ race C /\
  (∀ i t, c_thr C !! i = Some t -> ((∃ hist, returned t hist) \/ runs C t) /\ fresh C t) /\
  (∀ i t c a hist, c_thr C !! i = Some t -> cs !! i = Some c -> starts !! i = Some a -> returned t hist ->
    ∃ w', ssolo api c tr (from w a) hist w' /\ (∃ σ, sspec dig u0 hist σ) /\ th_usr t = w_usr w' /\
      ∀ op, ok hist op -> slooks op -> suses own tr i op ->
        ∃ r u', scall api op w' = Ret r (World (w_mem w') (w_nxt w') u') /\
          scall api op (World (c_mem C) (th_nxt t) (th_usr t)) = Ret r (World (c_mem C) (th_nxt t) u')).
Proof. intros. by eapply sgoroutines_ok. Qed.

(** The programs of accesses do what the code of Amt.v and Families.v does. *)
Theorem C44_accesses_map : ∀ (K V CK U : Type) (zero : V) (fuel : nat) (papi : pmapapi K V CK U) (api : mapapi K V CK U),
  pmap_type zero fuel papi api -> ∀ c w, run (pmcall papi c) w = mcall api (the_op c) w.
Proof. intros K V CK U zero fuel papi api Ht c. apply sim_mcall. by eapply pmap_type_sim. Qed.
Theorem C44_accesses_set : ∀ (K CK U : Type) (fuel : nat) (papi : psetapi K unit CK U) (api : setapi K unit CK U),
  pset_type fuel papi api -> ∀ op w, run (pscall papi op) w = scall api op w.
Proof. intros K CK U fuel papi api Ht op. apply sim_scall. by eapply pset_type_sim. Qed.

(** No schedule goes on for ever. *)
Theorem C44_schedules_end : ∀ (V CK U A : Type) (f : nat -> config V CK U A), ¬ ∀ n, step (f n) (f (S n)).
Proof. intros V CK U A f. apply schedules_end. Qed.

(** The results do not depend on the schedule. *)
Theorem C44_schedules_agree : ∀ `{Countable K} (V CK U : Type) (zero : V) (fuel : nat) (api : mapapi K V CK U)
    (papi : pmapapi K V CK U) (dig : N -> K -> nat -> N) (ok : list (mop K V U * mres V) -> mop K V U -> Prop) (u0 : U),
  256 <= fuel -> map_type zero fuel api dig ok -> pmap_type zero fuel papi api ->
  ∀ tr w cs starts own,
  mrun api ok u0 tr w -> spread (w_nxt w) starts -> length starts = length cs ->
  (∀ i c a, cs !! i = Some c -> starts !! i = Some a -> fine api ok own tr i c tr (from w a)) ->
  ∀ C1 C2 i t1 t2 hist1 hist2,
  rtc step (begin papi tr w cs starts) C1 -> rtc step (begin papi tr w cs starts) C2 ->
  c_thr C1 !! i = Some t1 -> c_thr C2 !! i = Some t2 -> returned t1 hist1 -> returned t2 hist2 ->
  hist1 = hist2 /\ th_usr t1 = th_usr t2.
Proof.
  intros K E H V CK U zero fuel api papi dig ok u0 Hf Ht Hp tr w cs starts own Hr Hsp Hlen Hfine C1 C2 i t1 t2 hist1 hist2 HC1 HC2 H1 H2 Hr1 Hr2.
  exact (goroutines_agree zero fuel api papi dig ok u0 Hf Ht Hp tr w cs starts own Hr Hsp Hlen Hfine C1 C2 i t1 t2 hist1 hist2 HC1 HC2 H1 H2 Hr1 Hr2).
Qed.

Theorem C44_schedules_agree_set : ∀ `{Countable K} (CK U : Type) (fuel : nat) (api : setapi K unit CK U)
    (papi : psetapi K unit CK U) (dig : N -> K -> nat -> N) (ok : list (sop K U * sres) -> sop K U -> Prop) (u0 : U),
  256 <= fuel -> set_type fuel api dig ok -> pset_type fuel papi api ->
  ∀ tr w cs starts own,
  srun api ok u0 tr w -> spread (w_nxt w) starts -> length starts = length cs ->
  (∀ i c a, cs !! i = Some c -> starts !! i = Some a -> sfine api ok own tr i c tr (from w a)) ->
  ∀ C1 C2 i t1 t2 hist1 hist2,
  rtc step (sbegin papi tr w cs starts) C1 -> rtc step (sbegin papi tr w cs starts) C2 ->
  c_thr C1 !! i = Some t1 -> c_thr C2 !! i = Some t2 -> returned t1 hist1 -> returned t2 hist2 ->
  hist1 = hist2 /\ th_usr t1 = th_usr t2.
Proof.
  intros K E H CK U fuel api papi dig ok u0 Hf Ht Hp tr w cs starts own Hr Hsp Hlen Hfine C1 C2 i t1 t2 hist1 hist2 HC1 HC2 H1 H2 Hr1 Hr2.
  exact (sgoroutines_agree fuel api papi dig ok u0 Hf Ht Hp tr w cs starts own Hr Hsp Hlen Hfine C1 C2 i t1 t2 hist1 hist2 HC1 HC2 H1 H2 Hr1 Hr2).
Qed.

(** The names that the goroutines need exist. *)
Theorem C44_starts_exist : ∀ nxt n, length (Conc.starts nxt n) = n /\ spread nxt (Conc.starts nxt n).
Proof. intros nxt n. split; [by unfold Conc.starts; rewrite map_length, seq_length|apply starts_spread]. Qed.

Print Assumptions C44_goroutines_map.
Print Assumptions C44_goroutines_set.
Print Assumptions C44_accesses_map.
Print Assumptions C44_accesses_set.
Print Assumptions C44_schedules_end.
Print Assumptions C44_schedules_agree.
Print Assumptions C44_schedules_agree_set.
Print Assumptions C44_starts_exist.

(** ** The hypotheses can be met *)

(** Map 2 is read by both goroutines. Goroutine 0 owns map 8; goroutine 1 makes its own. *)
Definition crewops : list (mop bytes N N) :=
  [MNew 7; MNew 7; MSet 2 [1]%N 10%N; MSet 2 [17]%N 30%N; MSet 8 [2]%N 1%N; MPtr 2 [17]%N].
Definition crewown (h : positive) : option nat := if Pos.eqb h 8 then Some 0 else None.
Definition crew0 : client bytes N N :=
  Do (Op (MGet 2 [1]%N)) (λ r, match r with
  | RGet v b =>
      Do (Op (MSet 8 [1]%N (v + 1)%N)) (λ _, Do (Look 2 (λ u k v, (u + v, true)%N)) (λ _, Do (Op (MDel 8 [2]%N)) (λ _,
      Do (Op (MLen 8)) (λ _, Stop))))
  | _ => Stop
  end).
Definition crew1 (p : positive) : client bytes N N :=
  Do (Op (MNew 0)) (λ r, match r with
  | RHandle h =>
      Do (Op (MSet h [33]%N 5%N)) (λ _, Do (Op (MMod h [33]%N (λ u v b, (u + 1, v * 2)%N))) (λ _, Do (Op (MLoad p)) (λ _,
      Do (Look 2 (λ u k v, (u, false))) (λ _, Do (Op (MGet h [33]%N)) (λ _, Stop)))))
  | _ => Stop
  end).
Definition crewtrw : list (mop bytes N N * mres N) * world N bytes N :=
  default ([], empty_world 0%N) (mexec toyapi toychk [] (empty_world 0%N) crewops).
Definition crewstarts : list loc := Conc.starts (w_nxt crewtrw.2) 2.
Definition crewptr : positive :=
  match crewtrw.1 with (_, RPtr (Some p)) :: _ => p | _ => 1%positive end.
Definition crew : list (client bytes N N) := [crew0; crew1 crewptr].
Lemma crew_run : mrun toyapi toyok 0%N crewtrw.1 crewtrw.2.
Proof.
  unfold crewtrw. destruct (mexec toyapi toychk [] (empty_world 0%N) crewops) as [[tr w]|] eqn:E.
  - simpl. eapply mexec_run; [exact toychk_ok|constructor|exact E].
  - constructor.
Qed.
Lemma crew_fine i c a : crew !! i = Some c -> crewstarts !! i = Some a ->
  fine toyapi toyok crewown crewtrw.1 i c crewtrw.1 (from crewtrw.2 a).
Proof.
  intros Hc Ha. destruct i as [|[|i]]; [| |done]; simpl in Hc; injection Hc as <-; simpl in Ha; injection Ha as <-;
    (eapply fineb_ok; [exact toychk_ok|vm_compute; reflexivity]).
Qed.

Example C44_nonvacuous :
  map_type 0%N 256 toyapi (digit toy) toyok /\ pmap_type 0%N 256 (PStringMap_api toy 0%N 256) toyapi /\
  mrun toyapi toyok 0%N crewtrw.1 crewtrw.2 /\ crewtrw.1.*1 = reverse crewops /\ spread (w_nxt crewtrw.2) crewstarts /\
  length crewstarts = length crew /\
  (∀ i c a, crew !! i = Some c -> crewstarts !! i = Some a -> fine toyapi toyok crewown crewtrw.1 i c crewtrw.1 (from crewtrw.2 a)) /\
  ∃ C t0 t1 h0 h1, rtc step (begin (PStringMap_api toy 0%N 256) crewtrw.1 crewtrw.2 crew crewstarts) C /\
    c_thr C !! 0 = Some t0 /\ returned t0 h0 /\ c_thr C !! 1 = Some t1 /\ returned t1 h1 /\
    take 5 h0.*2 = [RLen 1%N; RUnit; RUnit; RUnit; RGet 10%N true] /\
    take 4 h1.*2 = [RGet 10%N true; RUnit; RVal 30%N; RUnit].
Proof.
  split; [exact toy_type|]. split; [apply pt_StringMap|]. split; [exact crew_run|]. split; [vm_compute; reflexivity|].
  split; [apply starts_spread|]. split; [reflexivity|]. split; [exact crew_fine|].
  assert (Hex : ∃ C, rtc step (begin (PStringMap_api toy 0%N 256) crewtrw.1 crewtrw.2 crew crewstarts) C /\
    ((λ h : list (mop bytes N N * mres N), take 5 h.*2) <$> resultb C 0, (λ h : list (mop bytes N N * mres N), take 4 h.*2) <$> resultb C 1)
    = (Some [RLen 1%N; RUnit; RUnit; RUnit; RGet 10%N true], Some [RGet 10%N true; RUnit; RVal 30%N; RUnit])).
  { eexists. split; [apply (scheds_steps (concat (repeat [0; 1; 1; 0; 0] 400)))|]. vm_compute. reflexivity. }
  destruct Hex as (C & HC & Hres). injection Hres as H0 H1.
  destruct (resultb C 0) as [h0|] eqn:E0; [|done]. destruct (resultb C 1) as [h1|] eqn:E1; [|done].
  apply resultb_ok in E0 as (t0 & Ht0 & Hr0). apply resultb_ok in E1 as (t1 & Ht1 & Hr1).
  simpl in H0, H1. injection H0 as H0. injection H1 as H1. exists C, t0, t1, h0, h1. done.
Qed.

(** Sets: both goroutines read set 2, each adds to its own. *)
Definition screwops : list (sop bytes (list bytes)) :=
  [SNew 7; SNew 7; SNew 0; SAdd 2 [1]%N; SAdd 2 [17]%N; SAdd 8 [2]%N].
Definition screwown (h : positive) : option nat := if Pos.eqb h 8 then Some 0 else if Pos.eqb h 32 then Some 1 else None.
Definition screw : list (sclient bytes (list bytes)) :=
  [SDo (SHas 2 [1]%N) (λ _, SDo (SAdd 8 [17]%N) (λ _, SDo (SAll 2 (λ u k, (k :: u, true))) (λ _, SDo (SDel 8 [2]%N) (λ _, SDo (SLen 8) (λ _, SStop)))));
   SDo (SAdd 32 [33]%N) (λ _, SDo (SHas 2 [33]%N) (λ _, SDo (SNew 7) (λ r, match r with
     | THandle h => SDo (SAdd h [1]%N) (λ _, SDo (SLen h) (λ _, SStop)) | _ => SStop end)))].
Definition screwtrw : list (sop bytes (list bytes) * sres) * world unit bytes (list bytes) :=
  default ([], empty_world []) (sexec toysapi toyschk [] (empty_world []) screwops).
Definition screwstarts : list loc := Conc.starts (w_nxt screwtrw.2) 2.
Example C44_set_nonvacuous :
  set_type 256 toysapi (digit toy) toysok /\ pset_type 256 (PStringSet_api toy 256) toysapi /\
  srun toysapi toysok [] screwtrw.1 screwtrw.2 /\ screwtrw.1.*1 = reverse screwops /\ spread (w_nxt screwtrw.2) screwstarts /\
  length screwstarts = length screw /\
  (∀ i c a, screw !! i = Some c -> screwstarts !! i = Some a -> sfine toysapi toysok screwown screwtrw.1 i c screwtrw.1 (from screwtrw.2 a)) /\
  ∃ C t0 t1 h0 h1, rtc step (sbegin (PStringSet_api toy 256) screwtrw.1 screwtrw.2 screw screwstarts) C /\
    c_thr C !! 0 = Some t0 /\ returned t0 h0 /\ c_thr C !! 1 = Some t1 /\ returned t1 h1 /\
    take 5 h0.*2 = [TLen 1%N; TUnit; TUnit; TUnit; THas true] /\ take 2 h1.*2 = [TLen 1%N; TUnit].
Proof.
  split; [exact toys_type|]. split; [apply pt_StringSet|]. split.
  { unfold screwtrw. destruct (sexec toysapi toyschk [] (empty_world []) screwops) as [[tr w]|] eqn:E.
    - simpl. eapply sexec_run; [exact toyschk_ok|constructor|exact E].
    - constructor. }
  split; [vm_compute; reflexivity|]. split; [apply starts_spread|]. split; [reflexivity|]. split.
  { intros i c a Hc Ha. destruct i as [|[|i]]; [| |done]; simpl in Hc; injection Hc as <-; simpl in Ha; injection Ha as <-;
      (eapply sfineb_ok; [exact toyschk_ok|vm_compute; reflexivity]). }
  assert (Hex : ∃ C, rtc step (sbegin (PStringSet_api toy 256) screwtrw.1 screwtrw.2 screw screwstarts) C /\
    ((λ h : list (sop bytes (list bytes) * sres), take 5 h.*2) <$> resultb C 0, (λ h : list (sop bytes (list bytes) * sres), take 2 h.*2) <$> resultb C 1)
    = (Some [TLen 1%N; TUnit; TUnit; TUnit; THas true], Some [TLen 1%N; TUnit])).
  { eexists. split; [apply (scheds_steps (concat (repeat [0; 1; 1; 0; 0] 400)))|]. vm_compute. reflexivity. }
  destruct Hex as (C & HC & Hres). injection Hres as H0 H1.
  destruct (resultb C 0) as [h0|] eqn:E0; [|done]. destruct (resultb C 1) as [h1|] eqn:E1; [|done].
  apply resultb_ok in E0 as (t0 & Ht0 & Hr0). apply resultb_ok in E1 as (t1 & Ht1 & Hr1).
  simpl in H0, H1. injection H0 as H0. injection H1 as H1. exists C, t0, t1, h0, h1. done.
Qed.

(** ** Why a map that several goroutines use must only be read *)

(** The interleaving is of whole blocks here, so that [race] counts accesses of different
    fields too. The theorems below therefore show what goes wrong. *)
Definition two (c0 c1 : client bytes N N) : config N bytes N (list (mop bytes N N * mres N)) :=
  begin (PStringMap_api toy 0%N 256) crewtrw.1 crewtrw.2 [c0; c1] crewstarts.
Definition once (op : mop bytes N N) : client bytes N N := Do (Op op) (λ _, Stop).
(** A Get of a stored key can miss it while another goroutine calls Set with a new key:
    Set shifts the items before it updates the bitmap. *)
Definition got {V CK U} (o : outcome V CK U (mres V)) : option (mres V) := match o with Ret r _ => Some r | _ => None end.
Lemma got_ok (op : mop bytes N N) w r : reads op -> got (mcall toyapi op w) = Some r -> mcall toyapi op w = Ret r w.
Proof.
  intros Ho Hg. destruct (mcall toyapi op w) as [r' w'| | |] eqn:E; simpl in Hg; [|congruence..]. injection Hg as ->.
  assert (Hany : any_map 0%N 256 toyapi) by constructor.
  f_equal. exact (proj1 (C23_reads_change_nothing_map _ _ _ _ _ _ _ Hany op w Ho) r w' E).
Qed.
Theorem C44_reader_misses_refuted :
  mcall toyapi (MGet 2 [17]%N) (snd crewtrw) = Ret (RGet 30%N true) (snd crewtrw) /\
  ∃ C t h, rtc step (two (once (MSet 2 [0]%N 5%N)) (once (MGet 2 [17]%N))) C /\
    c_thr C !! 1 = Some t /\ returned t h /\ (h.*2) !! 0 = Some (RGet 0%N false).
Proof.
  split; [apply got_ok; [exact I|vm_compute; reflexivity]|].
  assert (Hex : ∃ C, rtc step (two (once (MSet 2 [0]%N 5%N)) (once (MGet 2 [17]%N))) C /\
    (λ h : list (mop bytes N N * mres N), (h.*2) !! 0) <$> resultb C 1 = Some (Some (RGet 0%N false))).
  { eexists. split; [apply (scheds_steps (repeat 0 42 ++ repeat 1 200))|]. vm_compute. reflexivity. }
  destruct Hex as (C & HC & Hres). destruct (resultb C 1) as [h|] eqn:E; [|discriminate Hres].
  injection Hres as Hres. apply resultb_ok in E as (t & Ht & Hr). exists C, t, h. split_and!; assumption.
Qed.
(** Two goroutines that call Del with keys that are not in the map both write the scratch
    path in the root of the map. *)
Lemma not_stored (tr : list (mop bytes N N * mres N)) h k : bool_decide (k ∈ stored tr h) = false -> k ∉ stored tr h.
Proof. apply bool_decide_eq_false. Qed.
Definition about_path (C : config N bytes N (list (mop bytes N N * mres N))) (i : nat) (l : loc) : Prop :=
  ∃ t r r' k, c_thr C !! i = Some t /\ th_prog t = PWrite l (BRoot r') k /\ c_mem C !! l = Some (BRoot r) /\
    rt_path r' !! 0 ≠ rt_path r !! 0.
Definition first_radix (r : root) : option N := pl_radix <$> rt_path r !! 0.
Definition about_pathb (C : config N bytes N (list (mop bytes N N * mres N))) (i : nat) (l : loc) : bool :=
  match c_thr C !! i, c_mem C !! l with
  | Some (Thread (PWrite l' (BRoot r') _) _ _), Some (BRoot r) => Pos.eqb l l' && negb (bool_decide (first_radix r' = first_radix r))
  | _, _ => false
  end.
Lemma about_pathb_ok C i l : about_pathb C i l = true -> about_path C i l.
Proof.
  unfold about_pathb. intros H. destruct (c_thr C !! i) as [[p n u]|] eqn:Et; [|done].
  destruct p as [| | | | |l' b k| | |]; try done. destruct b as [| |r']; try done.
  destruct (c_mem C !! l) as [[| |r]|] eqn:Em; try done. apply andb_prop in H as [Hl Hb]. apply Pos.eqb_eq in Hl as <-.
  apply negb_true_iff, bool_decide_eq_false in Hb. exists (Thread (PWrite l (BRoot r') k) n u), r, r', k.
  split_and!; [exact Et|reflexivity|exact Em|]. intros E. apply Hb. unfold first_radix. by rewrite E.
Qed.
Theorem C44_Del_absent_races : ([33]%N : bytes) ∉ stored crewtrw.1 2 /\ ([2]%N : bytes) ∉ stored crewtrw.1 2 /\
  ∃ C l, rtc step (two (once (MDel 2 [33]%N)) (once (MDel 2 [2]%N))) C /\ about_path C 0 l /\ about_path C 1 l.
Proof.
  split; [apply not_stored; vm_compute; reflexivity|]. split; [apply not_stored; vm_compute; reflexivity|].
  eexists _, 2%positive. split; [apply (scheds_steps (repeat 0 4 ++ repeat 1 4))|].
  split; apply about_pathb_ok; vm_compute; reflexivity.
Qed.
(** Two goroutines that call Set on the same map can both return although one of the
    values is lost: afterwards Len counts four items, but a key is not found. *)
Theorem C44_two_writers_refuted : ∃ C t0 t1 h0 h1,
  rtc step (two (once (MSet 2 [2]%N 5%N)) (once (MSet 2 [33]%N 6%N))) C /\
  c_thr C !! 0 = Some t0 /\ returned t0 h0 /\ c_thr C !! 1 = Some t1 /\ returned t1 h1 /\
  let w := World (c_mem C) 1 0%N in
  mcall toyapi (MLen 2) w = Ret (RLen 4) w /\ mcall toyapi (MGet 2 [33]%N) w = Ret (RGet 0%N false) w.
Proof.
  assert (Hex : ∃ C, rtc step (two (once (MSet 2 [2]%N 5%N)) (once (MSet 2 [33]%N 6%N))) C /\
    ((λ h : list (mop bytes N N * mres N), length h) <$> resultb C 0, (λ h : list (mop bytes N N * mres N), length h) <$> resultb C 1)
    = (Some 7, Some 7) /\
    got (mcall toyapi (MLen 2) (World (c_mem C) 1 0%N)) = Some (RLen 4) /\
    got (mcall toyapi (MGet 2 [33]%N) (World (c_mem C) 1 0%N)) = Some (RGet 0%N false)).
  { eexists. split; [apply (scheds_steps (repeat 0 38 ++ repeat 1 600 ++ repeat 0 600))|]. vm_compute. auto. }
  destruct Hex as (C & HC & Hres & Hl & Hg). injection Hres as H0 H1.
  destruct (resultb C 0) as [h0|] eqn:E0; [|done]. destruct (resultb C 1) as [h1|] eqn:E1; [|done].
  apply resultb_ok in E0 as (t0 & Ht0 & Hr0). apply resultb_ok in E1 as (t1 & Ht1 & Hr1).
  exists C, t0, t1, h0, h1. split_and!; try assumption.
  intros w. split; apply got_ok; [exact I|exact Hl|exact I|exact Hg].
Qed.
Print Assumptions C44_reader_misses_refuted.
Print Assumptions C44_Del_absent_races.
Print Assumptions C44_two_writers_refuted.
