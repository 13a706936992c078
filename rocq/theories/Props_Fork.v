(** Property C47: programs that start goroutines, wait for them and go on.

    ForkSpec.v: [frun] are the runs of such programs (calls, and from time to time the
    goroutines of Props_Conc.v, interleaved access by access), [fspec] says what they do
    to plain finite maps: each goroutine does its calls as if it were alone with the maps
    as they were when it started ([msteps]); afterwards the changes of all goroutines are
    there ([merged]). [sfrun] and [sfspec] are the same for sets. *)
From stdpp Require Import base numbers list gmap relations.
From Verif Require Import GoInt Mem Hash Amt Families Spec Client Types Pack Runs Guards Prog PClient ConcSpec Conc ConcClient ConcMapAll ConcSet ConcRuns ForkSpec ForkMap ForkSet Props_Types Props_Ops Props_Mem Props_Conc.
Local Open Scope nat_scope.

(** The program as a whole gets the results that plain finite maps give, also after it has
    waited for goroutines; its next call does not fail and is again a step of these maps. *)
Theorem C47_fork_join_map : ∀ `{Countable K} (V CK U : Type) (zero : V) (fuel : nat) (api : mapapi K V CK U)
    (papi : pmapapi K V CK U) (dig : N -> K -> nat -> N) (ok : list (mop K V U * mres V) -> mop K V U -> Prop) (u0 : U),
  256 <= fuel -> map_type zero fuel api dig ok -> pmap_type zero fuel papi api ->
  ∀ tr w, frun u0 papi api ok tr w ->
  ∃ σ, fspec dig zero u0 tr σ /\ ms_usr σ = w_usr w /\
    ∀ op, ok tr op -> ∃ res w' σ', mcall api op w = Ret res w' /\ mstep dig zero σ op res σ'.
Proof.
  intros K E H V CK U zero fuel api papi dig ok u0 Hf Ht Hp tr w Hr.
  exact (proj1 (fork_ok zero fuel api papi dig ok u0 Hf Ht Hp tr w Hr)).
Qed.
Theorem C47_fork_join_set : ∀ `{Countable K} (CK U : Type) (fuel : nat) (api : setapi K unit CK U)
    (papi : psetapi K unit CK U) (dig : N -> K -> nat -> N) (ok : list (sop K U * sres) -> sop K U -> Prop) (u0 : U),
  256 <= fuel -> set_type fuel api dig ok -> pset_type fuel papi api ->
  ∀ tr w, sfrun u0 papi api ok tr w ->
  ∃ σ, sfspec dig u0 tr σ /\ ss_usr σ = w_usr w /\
    ∀ op, ok tr op -> ∃ res w' σ', scall api op w = Ret res w' /\ sstep dig σ op res σ'.
Proof.
  intros K E H CK U fuel api papi dig ok u0 Hf Ht Hp tr w Hr.
  exact (proj1 (sfork_ok fuel api papi dig ok u0 Hf Ht Hp tr w Hr)).
Qed.

(** Goroutines that such a program starts do not race, panic or hang, and have the results
    of plain finite maps. *)
Theorem C47_goroutines_map : ∀ `{Countable K} (V CK U : Type) (zero : V) (fuel : nat) (api : mapapi K V CK U)
    (papi : pmapapi K V CK U) (dig : N -> K -> nat -> N) (ok : list (mop K V U * mres V) -> mop K V U -> Prop) (u0 : U),
  256 <= fuel -> map_type zero fuel api dig ok -> pmap_type zero fuel papi api ->
  ∀ tr w cs starts own,
  frun u0 papi api ok tr w -> spread (w_nxt w) starts -> length starts = length cs ->
  (∀ i c a, cs !! i = Some c -> starts !! i = Some a -> fine api ok own tr i c tr (from w a)) ->
  ∀ C, rtc step (begin papi tr w cs starts) C ->
  ¬ race C /\
  (∀ i t, c_thr C !! i = Some t -> ((∃ hist, returned t hist) \/ runs C t) /\ fresh C t) /\
  (∀ i t c a hist, c_thr C !! i = Some t -> cs !! i = Some c -> starts !! i = Some a -> returned t hist ->
    ∃ w', solo api c tr (from w a) hist w' /\ th_usr t = w_usr w' /\
      ∃ new σ σ', hist = new ++ tr /\ fspec dig zero u0 tr σ /\ msteps dig zero σ new σ').
Proof.
  intros K E H V CK U zero fuel api papi dig ok u0 Hf Ht Hp tr w cs starts own Hr.
  exact (proj2 (fork_ok zero fuel api papi dig ok u0 Hf Ht Hp tr w Hr) cs starts own).
Qed.
Theorem C47_goroutines_set : ∀ `{Countable K} (CK U : Type) (fuel : nat) (api : setapi K unit CK U)
    (papi : psetapi K unit CK U) (dig : N -> K -> nat -> N) (ok : list (sop K U * sres) -> sop K U -> Prop) (u0 : U),
  256 <= fuel -> set_type fuel api dig ok -> pset_type fuel papi api ->
  ∀ tr w cs starts own,
  sfrun u0 papi api ok tr w -> spread (w_nxt w) starts -> length starts = length cs ->
  (∀ i c a, cs !! i = Some c -> starts !! i = Some a -> sfine api ok own tr i c tr (from w a)) ->
  ∀ C, rtc step (sbegin papi tr w cs starts) C ->
  ¬ race C /\
  (∀ i t, c_thr C !! i = Some t -> ((∃ hist, returned t hist) \/ runs C t) /\ fresh C t) /\
  (∀ i t c a hist, c_thr C !! i = Some t -> cs !! i = Some c -> starts !! i = Some a -> returned t hist ->
    ∃ w', ssolo api c tr (from w a) hist w' /\ th_usr t = w_usr w' /\
      ∃ new σ σ', hist = new ++ tr /\ sfspec dig u0 tr σ /\ ssteps dig σ new σ').
Proof.
  intros K E H CK U fuel api papi dig ok u0 Hf Ht Hp tr w cs starts own Hr.
  exact (proj2 (sfork_ok fuel api papi dig ok u0 Hf Ht Hp tr w Hr) cs starts own).
Qed.

(** Waiting for them does not take for ever: from every state on the way all goroutines
    can return, and the program goes on. *)
Theorem C47_all_return_map : ∀ `{Countable K} (V CK U : Type) (zero : V) (fuel : nat) (api : mapapi K V CK U)
    (papi : pmapapi K V CK U) (dig : N -> K -> nat -> N) (ok : list (mop K V U * mres V) -> mop K V U -> Prop) (u0 : U),
  256 <= fuel -> map_type zero fuel api dig ok -> pmap_type zero fuel papi api ->
  ∀ tr w cs starts own C,
  frun u0 papi api ok tr w -> spread (w_nxt w) starts -> length starts = length cs ->
  (∀ i c a, cs !! i = Some c -> starts !! i = Some a -> fine api ok own tr i c tr (from w a)) ->
  rtc step (begin papi tr w cs starts) C ->
  ∃ C' news n, rtc step C C' /\ (∀ u, frun u0 papi api ok (concat news ++ tr) (World (c_mem C') n u)) /\ length news = length cs /\
    ∀ i t, c_thr C' !! i = Some t -> ∃ new, news !! i = Some new /\ returned t (new ++ tr).
Proof.
  intros K E H V CK U zero fuel api papi dig ok u0 Hf Ht Hp tr w cs starts own C Hr Hsp Hlen Hfine HC.
  exact (fork_joins zero fuel api papi dig ok u0 Hf Ht Hp tr w cs starts own C Hr Hsp Hlen Hfine HC).
Qed.
Theorem C47_all_return_set : ∀ `{Countable K} (CK U : Type) (fuel : nat) (api : setapi K unit CK U)
    (papi : psetapi K unit CK U) (dig : N -> K -> nat -> N) (ok : list (sop K U * sres) -> sop K U -> Prop) (u0 : U),
  256 <= fuel -> set_type fuel api dig ok -> pset_type fuel papi api ->
  ∀ tr w cs starts own C,
  sfrun u0 papi api ok tr w -> spread (w_nxt w) starts -> length starts = length cs ->
  (∀ i c a, cs !! i = Some c -> starts !! i = Some a -> sfine api ok own tr i c tr (from w a)) ->
  rtc step (sbegin papi tr w cs starts) C ->
  ∃ C' news n, rtc step C C' /\ (∀ u, sfrun u0 papi api ok (concat news ++ tr) (World (c_mem C') n u)) /\ length news = length cs /\
    ∀ i t, c_thr C' !! i = Some t -> ∃ new, news !! i = Some new /\ returned t (new ++ tr).
Proof.
  intros K E H CK U fuel api papi dig ok u0 Hf Ht Hp tr w cs starts own C Hr Hsp Hlen Hfine HC.
  exact (sfork_joins fuel api papi dig ok u0 Hf Ht Hp tr w cs starts own C Hr Hsp Hlen Hfine HC).
Qed.

Print Assumptions C47_fork_join_map.
Print Assumptions C47_fork_join_set.
Print Assumptions C47_goroutines_map.
Print Assumptions C47_goroutines_set.
Print Assumptions C47_all_return_map.
Print Assumptions C47_all_return_set.

(** ** The hypotheses can be met *)

Lemma mrun_frun {K V CK U} (papi : pmapapi K V CK U) (api : mapapi K V CK U) ok u0 tr w : mrun api ok u0 tr w -> frun u0 papi api ok tr w.
Proof. induction 1; [constructor|by econstructor]. Qed.
Lemma fexec_run {K V CK U} (papi : pmapapi K V CK U) (api : mapapi K V CK U) chk (ok : list (mop K V U * mres V) -> mop K V U -> Prop) u0 ops :
  (∀ tr op, chk tr op = true -> ok tr op) ->
  ∀ tr w tr' w', frun u0 papi api ok tr w -> mexec api chk tr w ops = Some (tr', w') -> frun u0 papi api ok tr' w'.
Proof.
  intros Hchk. induction ops as [|op ops IH]; intros tr w tr' w' Hr He; simpl in He; [by injection He as <- <-|].
  destruct (chk tr op) eqn:Ec; [|discriminate He]. destruct (mcall api op w) as [res w1| | |] eqn:E; try discriminate He.
  eapply IH; [|exact He]. econstructor; [exact Hr|by apply Hchk|exact E].
Qed.

Lemma mexec_hist {K V CK U} (api : mapapi K V CK U) chk ops : ∀ tr w tr' w', mexec api chk tr w ops = Some (tr', w') ->
  ∃ t, tr' = t ++ tr /\ t.*1 = reverse ops.
Proof.
  induction ops as [|op ops IH]; intros tr w tr' w' He; simpl in He; [injection He as <- <-; by exists []|].
  destruct (chk tr op); [|discriminate He]. destruct (mcall api op w) as [res w1| | |]; try discriminate He.
  destruct (IH _ _ _ _ He) as (t & -> & Ht). exists (t ++ [(op, res)]). rewrite <- app_assoc. split; [done|].
  by rewrite fmap_app, Ht, reverse_cons.
Qed.

(** The goroutines of Props_Conc.v run, the program waits for them and goes on: it uses a
    map that goroutine 0 has changed, the map that goroutine 1 has made and the map that
    both have read. *)
Definition crewpapi : pmapapi bytes N bytes N := PStringMap_api toy 0%N 256.
Definition crewC := fold_left sched (concat (repeat [0; 1; 1; 0; 0] 400)) (begin crewpapi crewtrw.1 crewtrw.2 crew crewstarts).
Definition crewnew (i : nat) : list (mop bytes N N * mres N) :=
  match resultb crewC i with Some h => take (length h - length crewtrw.1) h | None => [] end.
Definition crewhist : list (mop bytes N N * mres N) := concat [crewnew 0; crewnew 1] ++ crewtrw.1.
Definition crewjoin : world N bytes N := World (c_mem crewC) (above (c_mem crewC)) 0%N.
Definition crewmade : positive :=
  match last (crewnew 1) with Some (_, RHandle h) => h | _ => 1%positive end.
Definition crewlater : list (mop bytes N N) :=
  [MGet 8 [1]%N; MLen 8; MSet crewmade [2]%N 9%N; MGet crewmade [33]%N; MLen crewmade; MSet 2 [33]%N 4%N; MLen 2].
Lemma two_lookup {A} (f : nat -> A) i x : [f 0; f 1] !! i = Some x -> x = f i.
Proof. destruct i as [|[|i]]; simpl; [congruence|congruence|done]. Qed.
Lemma crew_steps : rtc step (begin crewpapi crewtrw.1 crewtrw.2 crew crewstarts) crewC.
Proof. apply scheds_steps. Qed.
Local Opaque crewC crewtrw.
Lemma crew_join : frun 0%N crewpapi toyapi toyok crewhist crewjoin.
Proof.
  pose proof crew_steps as HC.
  pose proof (mrun_frun crewpapi _ _ _ _ _ crew_run) as Hr.
  assert (Hres : ∀ i t, c_thr crewC !! i = Some t -> ∃ h, resultb crewC i = Some h).
  { intros i t Hi. assert (Hi' : i < 2).
    { apply lookup_lt_Some in Hi. by rewrite (begin_length crewpapi crewtrw.1 crewtrw.2 crew crewstarts crewC eq_refl HC) in Hi. }
    assert (Hb : ∀ j, j < 2 -> (length <$> resultb crewC j) ≠ None).
    { intros [|[|j]] Hj; [vm_compute; discriminate|vm_compute; discriminate|lia]. }
    specialize (Hb i Hi'). destruct (resultb crewC i) as [h|]; [by exists h|destruct Hb; reflexivity]. }
  apply (frun_join 0%N crewpapi toyapi toyok crewtrw.1 crewtrw.2 crew crewstarts crewown crewC [crewnew 0; crewnew 1] (above (c_mem crewC)) 0%N Hr
    (starts_spread _ _) eq_refl crew_fine HC eq_refl).
  - intros i t new Hi Hn. destruct (Hres i t Hi) as [h Eh].
    destruct (resultb_ok _ _ _ Eh) as (t' & Hi' & Hret). rewrite Hi in Hi'. injection Hi' as <-.
    pose proof (two_lookup crewnew i new Hn) as Hnew.
    pose proof (lookup_lt_Some _ _ _ Hi) as Hil. rewrite (begin_length crewpapi crewtrw.1 crewtrw.2 crew crewstarts crewC eq_refl HC) in Hil.
    destruct (lookup_lt_is_Some_2 crew i Hil) as [c Hc]. destruct (lookup_lt_is_Some_2 crewstarts i Hil) as [a Ha].
    destruct (C47_goroutines_map _ _ _ 0%N 256 toyapi crewpapi (digit toy) toyok 0%N (le_n _) toy_type (pt_StringMap _ _ _ _ _)
      _ _ crew crewstarts crewown Hr (starts_spread _ _) eq_refl crew_fine crewC HC) as (_ & _ & Hg).
    destruct (Hg i t c a h Hi Hc Ha Hret) as (_ & _ & _ & nw & _ & _ & E & _).
    rewrite Hnew. unfold crewnew. rewrite Eh, E at 1. rewrite E, app_length.
    replace (length nw + length crewtrw.1 - length crewtrw.1) with (length nw) by lia. rewrite take_app. by rewrite <- E.
  - intros l. apply above_ok.
Qed.
Example C47_nonvacuous :
  map_type 0%N 256 toyapi (digit toy) toyok /\ pmap_type 0%N 256 crewpapi toyapi /\
  length (crewnew 0) = 5 /\ length (crewnew 1) = 6 /\
  ∃ t w, frun 0%N crewpapi toyapi toyok (t ++ crewhist) w /\ t.*1 = reverse crewlater /\
    t.*2 = reverse [RGet 11%N true; RLen 1%N; RUnit; RGet 10%N true; RLen 2%N; RUnit; RLen 3%N].
Proof.
  split; [exact toy_type|]. split; [apply pt_StringMap|]. split; [vm_compute; reflexivity|]. split; [vm_compute; reflexivity|].
  assert (He : (λ x : list (mop bytes N N * mres N) * world N bytes N, take 7 x.1.*2) <$> mexec toyapi toychk crewhist crewjoin crewlater
    = Some (reverse [RGet 11%N true; RLen 1%N; RUnit; RGet 10%N true; RLen 2%N; RUnit; RLen 3%N])) by (vm_compute; reflexivity).
  destruct (mexec toyapi toychk crewhist crewjoin crewlater) as [[tr w]|] eqn:E; [|discriminate He].
  destruct (mexec_hist _ _ _ _ _ _ _ E) as (t & -> & Ht). exists t, w. split; [|split; [exact Ht|]].
  - eapply fexec_run; [exact toychk_ok|exact crew_join|exact E].
  - apply (inj Some) in He. rewrite <- He. cbn [fst]. rewrite fmap_app.
    assert (Hl : length t.*2 = 7).
    { rewrite fmap_length, <- (fmap_length fst t), Ht. reflexivity. }
    rewrite <- Hl. by rewrite take_app.
Qed.

Lemma srun_sfrun {K CK U} (papi : psetapi K unit CK U) (api : setapi K unit CK U) ok u0 tr w : srun api ok u0 tr w -> sfrun u0 papi api ok tr w.
Proof. induction 1; [constructor|by econstructor]. Qed.
Example C47_set_nonvacuous :
  set_type 256 toysapi (digit toy) toysok /\ pset_type 256 (PStringSet_api toy 256) toysapi /\
  ∃ C news n, rtc step (sbegin (PStringSet_api toy 256) screwtrw.1 screwtrw.2 screw screwstarts) C /\ length news = 2 /\
    sfrun [] (PStringSet_api toy 256) toysapi toysok (concat news ++ screwtrw.1) (World (c_mem C) n []) /\
    ∀ i t, c_thr C !! i = Some t -> ∃ new, news !! i = Some new /\ returned t (new ++ screwtrw.1).
Proof.
  destruct C44_set_nonvacuous as (Ht & Hp & Hr & _ & Hsp & Hlen & Hfine & _). split; [exact Ht|]. split; [exact Hp|].
  destruct (C47_all_return_set _ _ 256 toysapi (PStringSet_api toy 256) (digit toy) toysok [] (le_n _) Ht Hp _ _ screw screwstarts screwown _
    (srun_sfrun _ _ _ _ _ _ Hr) Hsp Hlen Hfine (rtc_refl _ _)) as (C & news & n & HC & Hrun & Hln & Hret).
  exists C, news, n. split; [exact HC|]. split; [exact Hln|]. split; [apply Hrun|exact Hret].
Qed.
