(** C26: callbacks of Mod that panic, with the panic recovered by the caller. *)
From stdpp Require Import base numbers list gmap.
From Verif Require Import GoInt Mem Hash Amt Families Spec Client Types Guards Observe Runs Refuted Panics Props_Types.
Local Open Scope nat_scope.

(** ** What holds

    [prun] (Panics.v) are the executions in which callbacks of Mod may change
    the value they are given, change the user's state, and then panic. In such
    an execution let m be the entries of h that Get shows. If k is stored, or
    no stored key is in the way of k ([in_way] in Spec.v), then after the panic
    Get shows the same entries, except for the value the callback wrote if k
    was stored. Other containers are as before. If k was not stored, every
    reading call returns what it returned before.

    What is missing: Mod of a key that is not stored when a stored key is in
    the way. The claim is false then, see below. *)
Section maps.
Context (V U : Type) (zero : V) (fuel : nat) (u0 : U).
Context (K : Type) `{Countable K} (CK : Type) (api : mapapi K V CK U) (dig : N -> K -> nat -> N)
  (ok : list (mop K V U * mres V) -> mop K V U -> Prop).
Hypothesis Hfuel : 256 <= fuel.
Hypothesis Ht : map_type zero fuel api dig ok.

Theorem C26_Mod_panic_partial : ∀ tr w h k f m,
  prun dig api ok u0 tr w -> ok tr (MMod h k f) -> unhindered dig h k tr -> contents api zero ok tr w h m ->
  let '(u, v) := f (w_usr w) (default zero (m !! k)) (bool_decide (is_Some (m !! k))) in
  ∃ w', ma_Mod api (Some h) k (panic_cb f) w = Panic w' /\
  let tr' := recovered h k f tr in
  contents api zero ok tr' w' h (if m !! k then <[k := v]> m else m) /\ w_usr w' = u /\
  (∀ h' m', h' ≠ h -> contents api zero ok tr w h' m' -> contents api zero ok tr' w' h' m') /\
  (m !! k = None -> ∀ op, reads op -> ok tr op -> ∃ res, mcall api op w = Ret res w /\ mcall api op w' = Ret res w').
Proof. exact (panic_effect zero fuel u0 Hfuel api dig ok Ht). Qed.

(** The maps remain usable: after any number of panics every call returns, and
    the results and contents are those that the specification of Spec.v gives
    for the same calls. There a Mod that panicked counts as a Mod if its key was
    stored, and as Mod and Del if not ([recovered]). *)
Theorem C26_usable_partial : ∀ tr w, prun dig api ok u0 tr w ->
  (∃ σ, mspec dig zero u0 tr σ) /\ (∀ h, ∃ m, contents api zero ok tr w h m) /\
  ∀ op, ok tr op -> ∃ res w', mcall api op w = Ret res w'.
Proof. exact (prun_spec zero fuel u0 Hfuel api dig ok Ht). Qed.
End maps.

(** ** What fails

    With a stored key in the way, the callback runs while that key is being
    moved down, and the panic leaves the map without it (string_map.go:257-282). *)
Definition recovering {V CK U A} (m : M V CK U A) : M V CK U unit := λ w,
  match m w with Ret _ w' => Ret tt w' | Panic w' => Ret tt w' | Fault => Fault | Hang => Hang end.
Definition panics {V CK A} (m : M V CK unit A) : Prop :=
  match m (empty_world tt) with Panic _ => True | _ => False end.
Definition raises {V CK U} (p : ptr) (b : bool) : M V CK U unit := panic.

Section refuted.
Local Open Scope N_scope.

Theorem StringMap_Mod_panic_refuted : ∃ (sum64 : N -> bytes -> N) seed k1 k2 v d,
  (d < 241)%nat /\ digit sum64 seed k1 d ≠ digit sum64 seed k2 d /\
  ∀ n, let fuel := enough n in
    let prog := h <- New seed ;; StringMap_Set sum64 fuel h k1 v ;;;
          g1 <- StringMap_Get sum64 0 fuel h k1 ;;
          recovering (StringMap_Mod sum64 0 fuel h k2 raises) ;;; ret (h, g1) in
    result (x <- prog ;; l <- Len x.1 ;; ret (x.2, l)) = Some ((v, true), 1) /\
    panics (x <- prog ;; StringMap_Get sum64 0 fuel x.1 k1) /\
    panics (x <- prog ;; StringMap_Set sum64 fuel x.1 k1 v) /\
    panics (x <- prog ;; StringMap_All sum64 fuel x.1 (λ _ _, ret true)).
Proof.
  exists le8, 0, [0; 1], [0; 2], 7, 2%nat.
  split_and!; [first [done|lia|by vm_compute]..|]. intros n fuel prog. subst fuel prog. split_and!; vm_compute; done.
Qed.
Theorem BytesMap_Mod_panic_refuted : ∃ (sum64 : N -> bytes -> N) seed k1 k2 v d,
  (d < 241)%nat /\ digit sum64 seed k1 d ≠ digit sum64 seed k2 d /\
  ∀ n, let fuel := enough n in
    let prog := h <- New seed ;; BytesMap_Set sum64 fuel h k1 v ;;;
          g1 <- BytesMap_Get sum64 0 fuel h k1 ;;
          recovering (BytesMap_Mod sum64 0 fuel h k2 raises) ;;; ret (h, g1) in
    result (x <- prog ;; l <- Len x.1 ;; ret (x.2, l)) = Some ((v, true), 1) /\
    panics (x <- prog ;; BytesMap_Get sum64 0 fuel x.1 k1) /\
    panics (x <- prog ;; BytesMap_Set sum64 fuel x.1 k1 v) /\
    panics (x <- prog ;; BytesMap_All sum64 fuel x.1 (λ _ _, ret true)).
Proof.
  exists le8, 0, [0; 1], [0; 2], 7, 2%nat.
  split_and!; [first [done|lia|by vm_compute]..|]. intros n fuel prog. subst fuel prog. split_and!; vm_compute; done.
Qed.
Theorem ArrMap_Mod_panic_refuted : ∃ (sum64 : N -> bytes -> N) seed (k1 k2 : bytes) v d,
  (d < 241)%nat /\ digit sum64 seed k1 d ≠ digit sum64 seed k2 d /\
  ∀ n, let fuel := enough n in
    let prog := h <- New seed ;; ArrMap_Set sum64 0 fuel (λ a b : bytes, bool_decide (a = b)) id h k1 v ;;;
          g1 <- ArrMap_Get sum64 0 fuel (λ a b : bytes, bool_decide (a = b)) id h k1 ;;
          recovering (ArrMap_Mod sum64 0 fuel (λ a b : bytes, bool_decide (a = b)) id h k2 raises) ;;; ret (h, g1) in
    result (x <- prog ;; l <- Len x.1 ;; ret (x.2, l)) = Some ((v, true), 1) /\
    panics (x <- prog ;; ArrMap_Get sum64 0 fuel (λ a b : bytes, bool_decide (a = b)) id x.1 k1) /\
    panics (x <- prog ;; ArrMap_Set sum64 0 fuel (λ a b : bytes, bool_decide (a = b)) id x.1 k1 v) /\
    panics (x <- prog ;; ArrMap_All sum64 fuel (λ a b : bytes, bool_decide (a = b)) id x.1 (λ _ _, ret true)).
Proof.
  exists le8, 0, [0; 1], [0; 2], 7, 2%nat.
  split_and!; [first [done|lia|by vm_compute]..|]. intros n fuel prog. subst fuel prog. split_and!; vm_compute; done.
Qed.
(** The first 16 digits of these two keys are equal, so that the wrong rehash of
    C11 makes no difference. *)
Theorem Map_Mod_panic_refuted : ∃ (Hash : N -> N -> N -> N) seed k1 k2 v d,
  (d < 241)%nat /\ gdigit Hash seed k1 d ≠ gdigit Hash seed k2 d /\ mod_way Hash seed k2 k1 0 /\
  ∀ n, let fuel := enough n in
    let prog := h <- New seed ;; Map_Set fuel N.eqb Hash h k1 v ;;;
          g1 <- Map_Get 0 fuel N.eqb Hash h k1 ;;
          recovering (Map_Mod 0 fuel N.eqb Hash h k2 raises) ;;; ret (h, g1) in
    result (x <- prog ;; l <- Len x.1 ;; ret (x.2, l)) = Some ((v, true), 1) /\
    panics (x <- prog ;; Map_Get 0 fuel N.eqb Hash x.1 k1) /\
    panics (x <- prog ;; Map_Set fuel N.eqb Hash x.1 k1 v) /\
    panics (x <- prog ;; Map_All fuel N.eqb Hash x.1 (λ _ _, ret true)).
Proof.
  exists Jhash, 0, 1, 2, 7, 16%nat.
  split_and!; [first [done|lia|by vm_compute]..|]. intros n fuel prog. subst fuel prog. split_and!; vm_compute; done.
Qed.
(** IntMap keeps the key in the item: the stored key is gone, without a panic,
    and key 0 is there twice, with a nil pointer as its value. *)
Theorem IntMap_Mod_panic_refuted : ∃ (sum64 : N -> bytes -> N) seed k1 k2 v d,
  is_int64 k1 /\ is_int64 k2 /\ (d < 241)%nat /\ digit sum64 seed (intbytes k1) d ≠ digit sum64 seed (intbytes k2) d /\
  ∀ n, let fuel := enough n in
    let prog := h <- New seed ;; IntMap_Set sum64 fuel h k1 v ;;;
          g1 <- IntMap_Get sum64 0 fuel h k1 ;;
          recovering (IntMap_Mod sum64 0 fuel h k2 raises) ;;; ret (h, g1) in
    result (x <- prog ;; l <- Len x.1 ;; g2 <- IntMap_Get sum64 0 fuel x.1 k1 ;; ret (x.2, l, g2)) = Some ((v, true), 1, (0, false)) /\
    panics (x <- prog ;; IntMap_All sum64 fuel x.1 (λ _ p, load_kv p ;;; ret true)).
Proof.
  exists le8, 0, 1%Z, 17%Z, 7, 1%nat.
  split_and!; [first [done|lia|unfold is_int64; lia|by vm_compute]..|]. intros n fuel prog. subst fuel prog. split_and!; vm_compute; done.
Qed.
End refuted.

(** ** Examples *)

(** Executions with panics. *)
Section exec.
Context `{Countable K} {V CK U : Type}.
Inductive pact := Call (op : mop K V U) | Raise (h : positive) (k : K) (f : U -> V -> bool -> U * V).
Fixpoint pexec (dig : N -> K -> nat -> N) (api : mapapi K V CK U) (chk : list (mop K V U * mres V) -> mop K V U -> bool)
    (tr : list (mop K V U * mres V)) (w : world V CK U) (l : list pact) : option (list (mop K V U * mres V) * world V CK U) :=
  match l with
  | [] => Some (tr, w)
  | Call op :: l =>
      if chk tr op then
        match mcall api op w with Ret res w' => pexec dig api chk ((op, res) :: tr) w' l | _ => None end
      else None
  | Raise h k f :: l =>
      if chk tr (MMod h k f) && insb dig nob nob tr (MMod h k f) then
        match ma_Mod api (Some h) k (panic_cb f) w with Panic w' => pexec dig api chk (recovered h k f tr) w' l | _ => None end
      else None
  end.
Lemma pexec_run dig api chk (ok : list (mop K V U * mres V) -> mop K V U -> Prop) u0 l : (∀ tr op, chk tr op = true -> ok tr op) ->
  ∀ tr w tr' w', prun dig api ok u0 tr w -> pexec dig api chk tr w l = Some (tr', w') -> prun dig api ok u0 tr' w'.
Proof.
  intros Hchk. induction l as [|[op|h k f] l IH]; intros tr w tr' w' Hr He; simpl in He; [by injection He as <- <-| |].
  - destruct (chk tr op) eqn:Ec; [|done]. destruct (mcall api op w) as [res w1| | |] eqn:E; try done.
    eapply IH; [|exact He]. eapply prun_call; [exact Hr|by apply Hchk|exact E].
  - destruct (chk tr (MMod h k f)) eqn:Ec; [|done]. destruct (bool_decide _ || _) eqn:Ei; [|done]. simpl in He.
    destruct (ma_Mod api (Some h) k (panic_cb f) w) as [|w1| |] eqn:E; try done.
    eapply IH; [|exact He]. eapply prun_panic; [exact Hr|by apply Hchk| |exact E].
    apply (insb_ok dig nob nob no_way no_way tr (MMod h k f)) in Ei; [|apply nob_ok..].
    destruct Ei as [Hk|Hk]; [by left|right]. intros s k' Hs Hw. by destruct (Hk s Hs k' Hw).
Qed.
Lemma pexec_test dig api chk (ok : list (mop K V U * mres V) -> mop K V U -> Prop) u0 l rs : (∀ tr op, chk tr op = true -> ok tr op) ->
  (λ x, (reverse x.1).*2) <$> pexec dig api chk [] (empty_world u0) l = Some rs ->
  ∃ tr w, prun dig api ok u0 tr w /\ (reverse tr).*2 = rs.
Proof.
  intros Hchk He. destruct (pexec dig api chk [] (empty_world u0) l) as [[tr w]|] eqn:E; [|done]. injection He as Hrs.
  exists tr, w. split; [|done]. eapply pexec_run; [exact Hchk|apply prun_nil|exact E].
Qed.
End exec.
Arguments pact : clear implicits.

(** A panic with the key stored, two panics with other keys, and calls
    afterwards. *)
Definition bump (u v : N) (b : bool) : N * N := (u + 1, v + 5)%N.
Definition script {K} (a b c : K) : list (pact K N N) :=
  [Call (MNew 7); Call (MSet 2 a 10%N); Raise 2 a bump; Call (MGet 2 a); Raise 2 b bump; Call (MGet 2 b);
   Call (MSet 2 b 20%N); Raise 2 c bump; Call (MLen 2); Call (MMod 2 c bump); Call (MGet 2 c); Call (MGet 2 a)]%positive.
Definition script_res : list (mres N) :=
  [RHandle 2; RUnit; RUnit; RGet 15%N true; RUnit; RUnit; RGet 0%N false; RUnit; RUnit; RUnit; RLen 2%N; RUnit; RGet 5%N true; RGet 15%N true].
Example C26_nonvacuous :
  (∃ tr w, prun (digit toyh) (StringMap_api toyh 0%N 256)
     (λ tr op, mallowed (λ _, true = true) (λ _, true = true) tr op /\ ins_guard (digit toyh) any_way any_way tr op) 0%N tr w /\
     (reverse tr).*2 = script_res) /\
  (∃ tr w, prun (digit toyh) (BytesMap_api toyh 0%N 256)
     (λ tr op, mallowed (λ _, true = true) (λ _, true = true) tr op /\ ins_guard (digit toyh) any_way any_way tr op) 0%N tr w /\
     (reverse tr).*2 = script_res) /\
  (∃ tr w, prun (int_digit toyi2) (IntMap_api toyi2 0%N 256)
     (λ tr op, mallowed (λ k, intb k = true) (λ _, true = true) tr op /\ ins_guard (int_digit toyi2) (int_way toyi2) (int_way toyi2) tr op) 0%N tr w /\
     (reverse tr).*2 = script_res) /\
  (∃ tr w, prun (arr_digit toyh id) (ArrMap_api toyh 0%N 256 (λ a b : bytes, bool_decide (a = b)) id)
     (λ tr op, mallowed (λ _, true = true) (λ _, true = true) tr op /\ ins_guard (arr_digit toyh id) no_way any_way tr op) 0%N tr w /\
     (reverse tr).*2 = script_res) /\
  (∃ tr w, prun (gdigit Jhash) (Map_api 0%N 256 N.eqb Jhash)
     (λ tr op, mallowed (λ _, true = true) (λ _, true = true) tr op /\ ins_guard (gdigit Jhash) (set_way Jhash) (mod_way Jhash) tr op) 0%N tr w /\
     (reverse tr).*2 = script_res).
Proof.
  split_and!.
  - eapply (pexec_test _ _ (gchk (digit toyh) (λ _, true) anyb anyb) _ _ (script [1] [2] [3])%N);
    [intros tr op; apply gchk_ok; apply anyb_ok|vm_compute; reflexivity].
  - eapply (pexec_test _ _ (gchk (digit toyh) (λ _, true) anyb anyb) _ _ (script [1] [2] [3])%N);
    [intros tr op; apply gchk_ok; apply anyb_ok|vm_compute; reflexivity].
  - eapply (pexec_test _ _ (gchk (int_digit toyi2) intb (int_wayb toyi2) (int_wayb toyi2)) _ _ (script 1 2 3)%Z);
    [intros tr op; apply gchk_ok; apply int_wayb_ok|vm_compute; reflexivity].
  - eapply (pexec_test _ _ (gchk (arr_digit toyh id) (λ _, true) nob anyb) _ _ (script [1] [2] [3])%N);
    [intros tr op; apply gchk_ok; [apply nob_ok|apply anyb_ok]|vm_compute; reflexivity].
  - eapply (pexec_test _ _ (gchk (gdigit Jhash) (λ _, true) (set_wayb Jhash) (mod_wayb Jhash)) _ _ (script 1 18 35)%N);
    [intros tr op; apply gchk_ok; [apply set_wayb_ok|apply mod_wayb_ok]|vm_compute; reflexivity].
Qed.

Print Assumptions C26_Mod_panic_partial.
Print Assumptions C26_usable_partial.
Print Assumptions StringMap_Mod_panic_refuted.
Print Assumptions BytesMap_Mod_panic_refuted.
Print Assumptions ArrMap_Mod_panic_refuted.
Print Assumptions Map_Mod_panic_refuted.
Print Assumptions IntMap_Mod_panic_refuted.
