(** Property C53: containers share no memory.

    [keeps] (KeepSpec.v) says that a block can be reached from a container by
    following the pointers in memory. Whatever the hash function, the comparison of
    keys and the calls are, also after calls that go wrong without panicking, two
    containers never keep the same block. *)
From stdpp Require Import base numbers list gmap relations.
From Verif Require Import GoInt Mem Hash Amt Families Spec Guards Client Types Levels Observe Pack Runs Sep KeepSpec Own OwnRuns Props_Types Props_Keep.
Local Open Scope nat_scope.

(** Calls on maps of any type that return. *)
Theorem C53_maps : ∀ (V U K CK : Type) (zero : V) (fuel : nat) (api : mapapi K V CK U) (u0 : U) tr w s s' h h' b,
  any_map zero fuel api -> mrun api (λ _ _, True) u0 tr w ->
  (MNew s, RHandle h) ∈ tr -> (MNew s', RHandle h') ∈ tr ->
  keeps (w_mem w) h b -> keeps (w_mem w) h' b -> h = h'.
Proof.
  intros V U K CK zero fuel api u0 tr w s s' h h' b Ha. exact (maps_apart zero fuel api Ha (λ _ _, True) u0 tr w s s' h h' b).
Qed.

(** Calls on sets of any type, BytesSet (bt = false) included. *)
Theorem C53_sets : ∀ (U K CK : Type) (fuel : nat) (bt : bool) (api : setapi K unit CK U) (u0 : U) tr w s s' h h' b,
  any_set fuel bt api -> srun api (λ _ _, True) u0 tr w ->
  (SNew s, THandle h) ∈ tr -> (SNew s', THandle h') ∈ tr ->
  keeps (w_mem w) h b -> keeps (w_mem w) h' b -> h = h'.
Proof.
  intros U K CK fuel bt api u0 tr w s s' h h' b Ha. exact (sets_apart fuel bt api Ha (λ _ _, True) u0 tr w s s' h h' b).
Qed.
Print Assumptions C53_maps.
Print Assumptions C53_sets.

(** Two maps, each of which keeps structs. *)
Example C53_nonvacuous :
  let api := StringMap_api (U:=N) sum8 0%N 256 in
  ∃ tr w, any_map 0%N 256 api /\ mrun api (λ _ _, True) 0%N tr w /\ (MNew 0, RHandle 2) ∈ tr /\ (MNew 0, RHandle 32) ∈ tr /\
    keeps (w_mem w) 2 8 /\ keeps (w_mem w) 32 64 /\ (∃ x, w_mem w !! 8%positive = Some x) /\ ∃ x, w_mem w !! 64%positive = Some x.
Proof.
  intros api.
  set (tr0 := [(MSet (V:=N) (U:=N) 32 [3]%N 30%N, RUnit (V:=N)); (MSet 32 [1]%N 30%N, RUnit);
    (MNew 0, RHandle 32); (MSet 2 [2]%N 20%N, RUnit); (MSet 2 [1]%N 10%N, RUnit); (MNew 0, RHandle 2)]).
  assert (He : match mexec api (λ _ _, true) [] (empty_world 0%N) (reverse tr0.*1) with
    | Some (tr, w) => tr = tr0 /\ pathb (w_mem w) 2 [1%positive; 8%positive] = true /\ pathb (w_mem w) 32 [16%positive; 64%positive] = true /\
        w_mem w !! 8%positive = Some (BKv 20%N [2]%N) /\ w_mem w !! 64%positive = Some (BKv 30%N [1]%N)
    | None => False end) by (vm_compute; split; [reflexivity|split; [reflexivity|split; [reflexivity|split; reflexivity]]]).
  destruct (mexec api (λ _ _, true) [] (empty_world 0%N) _) as [[tr w]|] eqn:E; [|destruct He].
  destruct He as (Htr & H1 & H2 & H3 & H4).
  assert (Hr : mrun api (λ _ _, True) 0%N tr w).
  { eapply mexec_run; [|constructor|exact E]. done. }
  clear E. exists tr, w. split; [constructor|]. split; [exact Hr|]. rewrite Htr. unfold tr0. split_and!.
  - repeat first [left|right].
  - repeat first [left|right].
  - by apply (pathb_ok (w_mem w) [1%positive]).
  - by apply (pathb_ok (w_mem w) [16%positive]).
  - eauto.
  - eauto.
Qed.

Example C53_set_nonvacuous :
  let api := BytesSet_api (U:=N) sum8 256 in
  ∃ tr w, any_set 256 false api /\ srun api (λ _ _, True) 0%N tr w /\ (SNew 0, THandle 2) ∈ tr /\ (SNew 0, THandle 32) ∈ tr /\
    keeps (w_mem w) 2 8 /\ keeps (w_mem w) 32 64 /\ (∃ x, w_mem w !! 8%positive = Some x) /\ ∃ x, w_mem w !! 64%positive = Some x.
Proof.
  intros api.
  set (tr0 := [(SAdd (U:=N) 32 [3]%N, TUnit); (SAdd 32 [1]%N, TUnit);
    (SNew 0, THandle 32); (SAdd 2 [2]%N, TUnit); (SAdd 2 [1]%N, TUnit); (SNew 0, THandle 2)]).
  assert (He : match sexec api (λ _ _, true) [] (empty_world 0%N) (reverse tr0.*1) with
    | Some (tr, w) => tr = tr0 /\ pathb (w_mem w) 2 [1%positive; 8%positive] = true /\ pathb (w_mem w) 32 [16%positive; 64%positive] = true /\
        w_mem w !! 8%positive = Some (BKv tt [2]%N) /\ w_mem w !! 64%positive = Some (BKv tt [1]%N)
    | None => False end) by (vm_compute; split; [reflexivity|split; [reflexivity|split; [reflexivity|split; reflexivity]]]).
  destruct (sexec api (λ _ _, true) [] (empty_world 0%N) _) as [[tr w]|] eqn:E; [|destruct He].
  destruct He as (Htr & H1 & H2 & H3 & H4).
  assert (Hr : srun api (λ _ _, True) 0%N tr w).
  { eapply sexec_run; [|constructor|exact E]. done. }
  clear E. exists tr, w. split; [constructor|]. split; [exact Hr|]. rewrite Htr. unfold tr0. split_and!.
  - repeat first [left|right].
  - repeat first [left|right].
  - by apply (pathb_ok (w_mem w) [1%positive]).
  - by apply (pathb_ok (w_mem w) [16%positive]).
  - eauto.
  - eauto.
Qed.
