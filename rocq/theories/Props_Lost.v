(** C04, C05, C26, C41: what is lost where the claims fail, for all executions. *)
From stdpp Require Import base numbers list gmap.
From Verif Require Import GoInt Mem Hash Amt Families Spec Client Types Guards Observe Runs Refuted Panics Instances Pack Refine RefineSet Props_Types Props_Panic Lost.
Local Open Scope nat_scope.

(** ** C26

    The case that [C26_Mod_panic_partial] leaves out. k is not stored, and the
    stored key k' is in its way ([in_way] in Spec.v). If the callback of Mod(k)
    panics and the caller recovers, then Get of k' does not find its entry
    again: it panics (nil dereference) or reports that k' is not there. So the
    condition [unhindered] of [C26_Mod_panic_partial] cannot be weakened. *)
Section maps.
Context (V U : Type) (zero : V) (fuel : nat) (u0 : U).
Context (K : Type) `{Countable K} (CK : Type) (api : mapapi K V CK U) (dig : N -> K -> nat -> N)
  (ok : list (mop K V U * mres V) -> mop K V U -> Prop).
Hypothesis Hfuel : 256 <= fuel.
Hypothesis Ht : map_type zero fuel api dig ok.

Theorem C26_hindered_lost : ∀ tr w h s k k' f,
  prun dig api ok u0 tr w -> ok tr (MMod h k f) -> (MNew s, RHandle h) ∈ tr ->
  in_way dig s (elements (stored tr h)) k k' ->
  (∃ v, ma_Get api (Some h) k' w = Ret (v, true) w) /\
  ∃ w', ma_Mod api (Some h) k (panic_cb f) w = Panic w' /\
    ∀ x, x = k \/ x = k' -> ma_Get api (Some h) x w' = Panic w' \/ ma_Get api (Some h) x w' = Ret (zero, false) w'.
Proof. exact (hindered_lost zero fuel u0 Hfuel api dig ok Ht). Qed.

(** ** C41

    In the same situation the callback of Mod(k) calls Get of k' (or of k) and
    goes on with what c does with the answer. c is such that it panics if it is
    told that the key is not there. Then Mod always panics: Get panics, or it
    does not find k', although k' is stored. *)
Theorem C41_hindered_read : ∀ tr w h s k k' f,
  prun dig api ok u0 tr w -> ok tr (MMod h k f) -> (MNew s, RHandle h) ∈ tr ->
  in_way dig s (elements (stored tr h)) k k' ->
  (∃ v, ma_Get api (Some h) k' w = Ret (v, true) w) /\
  ∀ x (c : ptr -> bool -> V * bool -> M V CK U unit), x = k \/ x = k' ->
    (∀ p b w', ∃ w2, c p b (zero, false) w' = Panic w2) ->
    ∃ w', ma_Mod api (Some h) k (λ p b, bind (ma_Get api (Some h) x) (c p b)) w = Panic w'.
Proof. exact (hindered_read zero fuel u0 Hfuel api dig ok Ht). Qed.
End maps.

(** ** C04, C05

    The other side of [int_way] (Types.v). The executions are those of
    [C04_IntMap_is_finite_map_partial]: up to now every key went in as it
    should. Now k arrives, k' is in its way, the two share one more digit, and
    of the bits 32..47 of k' the one which that digit names is set. (They all
    are set if k' is in -2^32..-1.) Then Set(k) and Mod(k) return as usual, and
    afterwards neither k nor k', which Get found before, is found again: Get
    reads an array of links as if it was a key-value pair, or reports that the
    key is not there. *)
Theorem C04_stale_lost : ∀ (V U : Type) (zero : V) (u0 : U) (fuel : nat) (sum64 : N -> bytes -> N) (Q : N -> Prop)
    (tr : list (mop Z V U * mres V)) w s h k k', 256 <= fuel ->
  mrun (IntMap_api sum64 zero fuel)
    (λ tr op, mallowed is_int64 Q tr op /\ ins_guard (int_digit sum64) (int_way sum64) (int_way sum64) tr op) u0 tr w ->
  (MNew s, RHandle h) ∈ tr -> is_int64 k -> in_way (int_digit sum64) s (elements (stored tr h)) k k' ->
  separated 240 (int_digit sum64 s k) (int_digit sum64 s k') ->
  let e := S (depth (int_digit sum64) s (elements (stored tr h)) k') in
  int_digit sum64 s k e = int_digit sum64 s k' e -> Z.testbit k' (32 + Z.of_N (int_digit sum64 s k e)) = true ->
  (∃ v, IntMap_Get sum64 zero fuel (Some h) k' w = Ret (v, true) w) /\
  ∀ op, (∃ v, op = MSet h k v) \/ (∃ f, op = MMod h k f) ->
  ∃ w', mcall (IntMap_api sum64 zero fuel) op w = Ret RUnit w' /\
    ∀ x, x = k \/ x = k' ->
      IntMap_Get sum64 zero fuel (Some h) x w' = Fault \/ IntMap_Get sum64 zero fuel (Some h) x w' = Ret (zero, false) w'.
Proof. intros V U zero u0 fuel sum64 Q tr w s h k k' Hf. exact (intmap_stale zero fuel u0 sum64 Q Hf tr w s h k k'). Qed.

(** The same for IntSet.Add: of k and k' those that are negative are not found again. *)
Theorem C05_stale_lost : ∀ (U : Type) (u0 : U) (fuel : nat) (sum64 : N -> bytes -> N) (Q : N -> Prop)
    (tr : list (sop Z U * sres)) w s h k k', 256 <= fuel ->
  srun (IntSet_api sum64 fuel)
    (λ tr op, sallowed is_int64 Q tr op /\ add_guard (int_digit sum64) (int_way sum64) tr op) u0 tr w ->
  (SNew s, THandle h) ∈ tr -> is_int64 k -> in_way (int_digit sum64) s (elements (sstored tr h)) k k' ->
  separated 240 (int_digit sum64 s k) (int_digit sum64 s k') ->
  let e := S (depth (int_digit sum64) s (elements (sstored tr h)) k') in
  int_digit sum64 s k e = int_digit sum64 s k' e -> Z.testbit k' (32 + Z.of_N (int_digit sum64 s k e)) = true ->
  IntSet_Has sum64 fuel (Some h) k' w = Ret true w /\
  ∃ w', scall (IntSet_api sum64 fuel) (SAdd h k) w = Ret TUnit w' /\
    ∀ x, x = k \/ x = k' -> (x < 0)%Z -> IntSet_Has sum64 fuel (Some h) x w' = Ret false w'.
Proof. intros U u0 fuel sum64 Q tr w s h k k' Hf. exact (intset_stale fuel u0 sum64 Q Hf tr w s h k k'). Qed.

(** ** The hypotheses are met *)
Lemma in_way_dec `{EqDecision K} (dig : N -> K -> nat -> N) s ks k k' :
  bool_decide (k' ∈ ks) && negb (bool_decide (k' = k)) && (depth dig s ks k' <? common 241 (dig s k) (dig s k')) = true ->
  in_way dig s ks k k'.
Proof.
  intros [[H1 H2]%andb_prop H3]%andb_prop. apply bool_decide_eq_true in H1. apply negb_true_iff, bool_decide_eq_false in H2.
  apply Nat.ltb_lt in H3. by split_and!.
Qed.

Lemma mrun_prun `{Countable K} {V CK U} (dig : N -> K -> nat -> N) (api : mapapi K V CK U) ok u0 tr w :
  mrun api ok u0 tr w -> prun dig api ok u0 tr w.
Proof. induction 1 as [|tr w op res w' Hr IH Ho Hc]; [constructor|by eapply prun_call]. Qed.

Lemma rev_eq {A} (l r : list A) : reverse l = r -> l = reverse r.
Proof. intros <-. by rewrite reverse_involutive. Qed.

(** Here [1] and [17] share the digit 0. *)
Example C26_hindered_nonvacuous : ∃ tr w,
  let ok := λ tr op, mallowed (λ _, true = true) (λ _, true = true) tr op /\ ins_guard (digit toyh) any_way any_way tr op in
  prun (digit toyh) (StringMap_api toyh 0%N 256) ok 0%N tr w /\
  ok tr (MMod 2 [17]%N bump) /\ (MNew 7, RHandle 2) ∈ tr /\ in_way (digit toyh) 7 (elements (stored tr 2)) [17]%N [1]%N.
Proof.
  destruct (mexec_res (StringMap_api toyh 0%N 256) (gchk (digit toyh) (λ _, true) anyb anyb)
    (λ tr op, mallowed (λ _, true = true) (λ _, true = true) tr op /\ ins_guard (digit toyh) any_way any_way tr op) 0%N
    [MNew 7; MSet 2 [1]%N 10%N] [RHandle 2; RUnit]) as (tr & w & Hr & E).
  { intros tr op; apply gchk_ok; apply anyb_ok. }
  { vm_compute. reflexivity. }
  apply rev_eq in E. exists tr, w. split; [by apply mrun_prun|]. subst tr. split.
  { apply (gchk_ok (digit toyh) (λ _, true) anyb anyb); [apply anyb_ok..|]. vm_compute. reflexivity. }
  split; [cbn; set_solver +|]. apply in_way_dec. vm_compute. reflexivity.
Qed.

(** A callback of Mod that reads the map and panics if the key is not there. *)
Definition insist (p : ptr) (b : bool) (r : N * bool) : M N bytes N unit := if r.2 then ret tt else panic.
Example C41_hindered_nonvacuous : ∃ tr w,
  let ok := λ tr op, mallowed (λ _, true = true) (λ _, true = true) tr op /\ ins_guard (digit toyh) any_way any_way tr op in
  prun (digit toyh) (StringMap_api toyh 0%N 256) ok 0%N tr w /\
  ok tr (MMod 2 [17]%N bump) /\ (MNew 7, RHandle 2) ∈ tr /\ in_way (digit toyh) 7 (elements (stored tr 2)) [17]%N [1]%N /\
  ∀ p b w', ∃ w2, insist p b (0%N, false) w' = Panic w2.
Proof.
  destruct C26_hindered_nonvacuous as (tr & w & H1 & H2 & H3 & H4). exists tr, w. split; [exact H1|]. split; [exact H2|]. split; [exact H3|]. split; [exact H4|].
  intros p b w'. by exists w'.
Qed.

(** Here 255 and -1 share 32 digits, and -1 is alone in the container. *)
Example C04_stale_nonvacuous : ∃ tr w,
  mrun (IntMap_api toyi2 0%N 256) (λ tr op, mallowed is_int64 (λ _, true = true) tr op /\
    ins_guard (int_digit toyi2) (int_way toyi2) (int_way toyi2) tr op) 0%N tr w /\
  (MNew 7, RHandle 2) ∈ tr /\ is_int64 255 /\ in_way (int_digit toyi2) 7 (elements (stored tr 2)) 255%Z (-1)%Z /\
  separated 240 (int_digit toyi2 7 255) (int_digit toyi2 7 (-1)) /\
  let e := S (depth (int_digit toyi2) 7 (elements (stored tr 2)) (-1)%Z) in
  int_digit toyi2 7 255 e = int_digit toyi2 7 (-1) e /\ Z.testbit (-1) (32 + Z.of_N (int_digit toyi2 7 255 e)) = true.
Proof.
  destruct (mexec_res (IntMap_api toyi2 0%N 256) (gchk (int_digit toyi2) intb (int_wayb toyi2) (int_wayb toyi2))
    (λ tr op, mallowed is_int64 (λ _, true = true) tr op /\
      ins_guard (int_digit toyi2) (int_way toyi2) (int_way toyi2) tr op) 0%N
    [MNew 7; MSet 2 (-1)%Z 10%N] [RHandle 2; RUnit]) as (tr & w & Hr & E).
  { intros tr op Hc. apply (gchk_ok (int_digit toyi2) intb (int_wayb toyi2) (int_wayb toyi2) (int_way toyi2) (int_way toyi2)) in Hc; [|apply int_wayb_ok..].
    destruct Hc as [Ha Hg]. split; [|done]. eapply allowed_impl; [|exact Ha]. intros k. apply intb_ok. }
  { vm_compute. reflexivity. }
  apply rev_eq in E. exists tr, w. split; [done|]. subst tr.
  split; [cbn; set_solver +|]. split; [unfold is_int64; lia|].
  split; [apply in_way_dec; vm_compute; reflexivity|].
  split; [exists 32; split; [lia|vm_compute; done]|].
  split; vm_compute; reflexivity.
Qed.
Example C05_stale_nonvacuous : ∃ tr w,
  srun (IntSet_api toyi2 256) (λ tr op, sallowed is_int64 (λ _, true = true) tr op /\
    add_guard (int_digit toyi2) (int_way toyi2) tr op) ([] : list Z) tr w /\
  (SNew 7, THandle 2) ∈ tr /\ is_int64 255 /\ in_way (int_digit toyi2) 7 (elements (sstored tr 2)) 255%Z (-1)%Z /\
  separated 240 (int_digit toyi2 7 255) (int_digit toyi2 7 (-1)) /\
  let e := S (depth (int_digit toyi2) 7 (elements (sstored tr 2)) (-1)%Z) in
  int_digit toyi2 7 255 e = int_digit toyi2 7 (-1) e /\ Z.testbit (-1) (32 + Z.of_N (int_digit toyi2 7 255 e)) = true.
Proof.
  destruct (sexec_res (IntSet_api toyi2 256) (gschk (int_digit toyi2) intb (int_wayb toyi2))
    (λ tr op, sallowed is_int64 (λ _, true = true) tr op /\ add_guard (int_digit toyi2) (int_way toyi2) tr op) ([] : list Z)
    [SNew 7; SAdd 2 (-1)%Z] [THandle 2; TUnit]) as (tr & w & Hr & E).
  { intros tr op Hc. apply (gschk_ok (int_digit toyi2) intb (int_wayb toyi2) (int_way toyi2)) in Hc; [|apply int_wayb_ok..].
    destruct Hc as [Ha Hg]. split; [|done]. eapply sallowed_impl; [|exact Ha]. intros k. apply intb_ok. }
  { vm_compute. reflexivity. }
  apply rev_eq in E. exists tr, w. split; [done|]. subst tr.
  split; [cbn; set_solver +|]. split; [unfold is_int64; lia|].
  split; [apply in_way_dec; vm_compute; reflexivity|].
  split; [exists 32; split; [lia|vm_compute; done]|].
  split; vm_compute; reflexivity.
Qed.

Print Assumptions C26_hindered_lost.
Print Assumptions C04_stale_lost.
Print Assumptions C05_stale_lost.
Print Assumptions C41_hindered_read.
