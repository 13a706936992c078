(** C37 to C39: callbacks of All that panic, and callbacks that themselves call
    methods of the containers. *)
From stdpp Require Import base numbers list gmap.
From Verif Require Import GoInt Mem Hash Amt Families Spec Client Types Guards Observe Runs Refuted Steps Programs ProgramFacts Tells Callbacks Raise FineTest Props_Types.
Local Open Scope nat_scope.

(** ** C37: callbacks of All that panic

    [raise_cb g] (Raise.v) is a callback that changes the value it is given and
    the user's own state as g tells, and then returns a boolean or, where g
    gives None, panics. [quiet g] returns false where g gives None. Let m be
    the entries of h. Then All visits them in the order of their digits, and
    panics if g panics on one of them before it returned false. What is then
    left is what is left after a visit with [quiet g] ([after] in Observe.v),
    also for the user's own state, and other maps have the same entries. The
    execution can go on, as if [quiet g] had been called. *)
Section maps.
Context (V U : Type) (zero : V) (fuel : nat) (u0 : U).
Context (K : Type) `{Countable K} (CK : Type) (api : mapapi K V CK U) (dig : N -> K -> nat -> N)
  (ok : list (mop K V U * mres V) -> mop K V U -> Prop).
Hypothesis Hfuel : 256 <= fuel.
Hypothesis Ht : map_type zero fuel api dig ok.

Theorem C37_All_panic_map : ∀ tr w h s (g : U -> K -> V -> U * V * option bool) m,
  mrun api ok u0 tr w -> (MNew s, RHandle h) ∈ tr -> ok tr (MAll h (quiet g)) -> contents api zero ok tr w h m ->
  ∃ es w', es ≡ₚ map_to_list m /\ in_order dig s es.*1 /\
    ma_All api (Some h) (raise_cb g) w = (if raised g es (w_usr w) then Panic w' else Ret tt w') /\
    let tr' := (MAll h (quiet g), RUnit) :: tr in
    mrun api ok u0 tr' w' /\ w_usr w' = usr_after (quiet g) es (w_usr w) /\
    contents api zero ok tr' w' h (list_to_map (after (quiet g) es (w_usr w))) /\
    ∀ h' m', h' ≠ h -> contents api zero ok tr w h' m' -> contents api zero ok tr' w' h' m'.
Proof. exact (raise_effect zero fuel u0 Hfuel api dig ok Ht). Qed.

(** ** C38: callbacks that call methods

    A program ([prog] in Programs.v) makes calls of Spec.v, reads and changes
    the user's own variables, panics, or is done. [all_prog api f] is the
    callback that runs the program [f k a] for the key k and the pointer a that
    All passes to it. [loop (with_ptr f h) ks] is the program that, for each
    key k of ks in turn, gets the pointer a with Ptr and runs [f k a], until
    one of them gives false.

    [crun] are the executions of calls that ok allows and changes to own
    variables. Then there is one order ks of the stored keys such that All is
    that loop, for every f that makes only calls that ok allows, and that does
    not tell to go on after it added keys to h or deleted keys of h
    ([loop_fine]). The world afterwards is the one that some further calls
    lead to. So f may read and change values, use other maps, change the keys
    of h and then stop, or panic. *)
Theorem C38_All_is_loop_map : ∀ tr w h s,
  crun (mcall api) ok u0 tr w -> (MNew s, RHandle h) ∈ tr ->
  ∃ ks, ks ≡ₚ elements (stored tr h) /\ in_order dig s ks /\
    ∀ f, loop_fine (mcall api) ok (changes_keys h) (with_ptr f h) tr w ks ->
      ma_All api (Some h) (all_prog api f) w = exec (mcall api) (loop (with_ptr f h) ks) w /\
      ∃ log w', crun (mcall api) ok u0 (log ++ tr) w' /\
        (exec (mcall api) (loop (with_ptr f h) ks) w = Ret tt w' \/
         exec (mcall api) (loop (with_ptr f h) ks) w = Panic w').
Proof. intros. by eapply (loop_map zero fuel Hfuel api dig ok Ht u0). Qed.

(** What is observed in such executions is what the specification gives: the
    results are those of finite maps (Spec.v), Get shows the stored keys, every
    further call returns, and reading calls change nothing. *)
Theorem C38_executions_map : ∀ tr w, crun (mcall api) ok u0 tr w ->
  (∃ σ, cspec (mstep dig zero) mown (minit u0) tr σ) /\
  (∀ h, ∃ m, contents api zero ok tr w h m /\ dom m = stored tr h) /\
  ∀ op, ok tr op -> ∃ res w', mcall api op w = Ret res w' /\ (reads op -> w' = w).
Proof. exact (crun_spec zero fuel Hfuel api dig ok Ht u0). Qed.
End maps.

Section sets.
Context (U : Type) (fuel : nat) (u0 : U).
Context (K : Type) `{Countable K} (CK : Type) (api : setapi K unit CK U) (dig : N -> K -> nat -> N)
  (ok : list (sop K U * sres) -> sop K U -> Prop).
Hypothesis Hfuel : 256 <= fuel.
Hypothesis Ht : set_type fuel api dig ok.

Theorem C37_All_panic_set : ∀ tr w h s (g : U -> K -> U * option bool) X,
  srun api ok u0 tr w -> (SNew s, THandle h) ∈ tr -> ok tr (SAll h (squiet g)) -> members api ok tr w h X ->
  ∃ ks w', ks ≡ₚ elements X /\ in_order dig s ks /\
    sa_All api (Some h) (sraise_cb g) w = (if sraised g ks (w_usr w) then Panic w' else Ret tt w') /\
    let tr' := (SAll h (squiet g), TUnit) :: tr in
    srun api ok u0 tr' w' /\ w_usr w' = (svisit (squiet g) ks (w_usr w)).2 /\
    ∀ h' X', members api ok tr w h' X' -> members api ok tr' w' h' X'.
Proof. exact (sraise_effect fuel u0 Hfuel api dig ok Ht). Qed.

Theorem C38_All_is_loop_set : ∀ tr w h s,
  crun (scall api) ok u0 tr w -> (SNew s, THandle h) ∈ tr ->
  ∃ ks, ks ≡ₚ elements (sstored tr h) /\ in_order dig s ks /\
    ∀ f, loop_fine (scall api) ok (changes_members h) f tr w ks ->
      sa_All api (Some h) (set_prog api f) w = exec (scall api) (loop f ks) w /\
      ∃ log w', crun (scall api) ok u0 (log ++ tr) w' /\
        (exec (scall api) (loop f ks) w = Ret tt w' \/ exec (scall api) (loop f ks) w = Panic w').
Proof. intros. by eapply (loop_set fuel Hfuel api dig ok Ht u0). Qed.

Theorem C38_executions_set : ∀ tr w, crun (scall api) ok u0 tr w ->
  (∃ σ, cspec (sstep dig) sown (sinit u0) tr σ) /\
  (∀ h, (∃ s, (SNew s, THandle h) ∈ tr) -> members api ok tr w h (sstored tr h)) /\
  ∀ op, ok tr op -> ∃ res w', scall api op w = Ret res w' /\ (sreads op -> w' = w).
Proof. exact (scrun_spec fuel Hfuel api dig ok Ht u0). Qed.
End sets.

(** ** C39: callbacks that change the keys and go on

    All reads which slots of a node are used once, before it visits them
    (string_map.go:402-425), and follows the node's pointer anew for each of
    them. So the callback must not add or delete keys of the container and
    then go on. *)

(** What holds: if f stops after the first key, whatever it did to the map, then
    All runs f on the first key in the order of digits, and that is all. What is
    missing is going on after a change; that is refuted below. *)
Theorem C39_change_and_stop_partial : ∀ (V U : Type) (zero : V) (fuel : nat) (u0 : U) (K : Type) `{Countable K} (CK : Type)
    (api : mapapi K V CK U) (dig : N -> K -> nat -> N) (ok : list (mop K V U * mres V) -> mop K V U -> Prop),
  256 <= fuel -> map_type zero fuel api dig ok -> ∀ tr w h s,
  crun (mcall api) ok u0 tr w -> (MNew s, RHandle h) ∈ tr ->
  ∃ ks, ks ≡ₚ elements (stored tr h) /\ in_order dig s ks /\
    ∀ f, (∀ k, k ∈ stored tr h -> fine (mcall api) ok (changes_keys h) (λ _ _ _ go, go = false) False tr w (with_ptr f h k)) ->
      ma_All api (Some h) (all_prog api f) w =
        exec (mcall api) (match ks with [] => Done tt | k :: _ => bindp (with_ptr f h k) (λ _, Done tt) end) w.
Proof.
  intros V U zero fuel u0 K ? ? CK api dig ok Hf Ht tr w h s Hr Hn.
  destruct (loop_map zero fuel Hf api dig ok Ht u0 tr w h s Hr Hn) as (ks & Hks & Ho & Hl).
  exists ks. split; [done|]. split; [done|]. intros f Hfine.
  destruct ks as [|k ks]; [apply (Hl f); exact I|].
  assert (Hk : k ∈ stored tr h). { apply elem_of_elements. rewrite <- Hks. left. }
  assert (Hlf : loop_fine (mcall api) ok (changes_keys h) (with_ptr f h) tr w (k :: ks)).
  { cbn [loop_fine]. eapply fine_mono; [|by apply Hfine]. by intros ???? ->. }
  destruct (Hl f Hlf) as [-> _]. cbn [loop]. rewrite !exec_bindp.
  destruct (exec (mcall api) (with_ptr f h k) w) as [go w'| | |] eqn:E; [|by unfold bind; rewrite E..].
  rewrite !(bind_Ret _ _ _ _ _ E). by destruct (fine_post _ _ _ _ _ _ _ _ _ _ (Hfine k Hk) E) as (_ & _ & ->).
Qed.

(** Insert the keys, then call All with a callback that notes the key it is
    given and then runs cb. The keys visited and Len afterwards, or None if a
    block of memory is used with a wrong type. *)
Definition visiting {K V CK} (put : option loc -> K -> M V CK (list K) unit)
    (all : option loc -> (K -> M V CK (list K) bool) -> M V CK (list K) unit)
    (cb : option loc -> K -> M V CK (list K) bool) (ks : list K) : option (option (list K * N)) :=
  match (h <- New 0 ;; foldr (λ k c, put h k ;;; c) (ret tt) ks ;;;
         all h (λ k, u <- get_usr ;; put_usr (u ++ [k]) ;;; cb h k) ;;;
         l <- Len h ;; u <- get_usr ;; ret (u, l)) (empty_world [])
  with Ret x _ => Some (Some x) | Fault => Some None | _ => None end.

Section refuted.
Local Open Scope N_scope.
Local Notation Mb := (M N bytes (list bytes)).

(** Four keys with pairwise different first digits; the callback deletes the
    key that it is given, and goes on. One key is not visited, one is visited
    twice, and one is left. *)
Theorem C39_delete_visited_refuted : ∃ (sum64 : N -> bytes -> N) (Hash : N -> N -> N -> N) (k1 k2 k3 k4 : bytes) (i1 i2 i3 i4 : Z) (g1 g2 g3 g4 v : N),
  NoDup (map (λ k, digit sum64 0 k 0) [k1; k2; k3; k4]) /\
  Forall is_int64 [i1; i2; i3; i4] /\ NoDup (map (λ k, int_digit sum64 0 k 0) [i1; i2; i3; i4]) /\
  NoDup (map (λ k, gdigit Hash 0 k 0) [g1; g2; g3; g4]) /\
  ∀ n, let fuel := enough n in
  visiting (λ h k, StringMap_Set sum64 fuel h k v) (λ h f, StringMap_All sum64 fuel h (λ k _, f k))
    (λ h k, StringMap_Del sum64 fuel h k ;;; ret true) [k1; k2; k3; k4] = Some (Some ([k1; k3; k4; k4], 1)) /\
  visiting (λ h k, BytesMap_Set sum64 fuel h k v) (λ h f, BytesMap_All sum64 fuel h (λ k _, f k))
    (λ h k, BytesMap_Del sum64 fuel h k ;;; ret true) [k1; k2; k3; k4] = Some (Some ([k1; k3; k4; k4], 1)) /\
  visiting (λ h k, IntMap_Set sum64 fuel h k v) (λ h f, IntMap_All sum64 fuel h (λ k _, f k))
    (λ h k, IntMap_Del sum64 fuel h k ;;; ret true) [i1; i2; i3; i4] = Some (Some ([i1; i3; i4; i4], 1)) /\
  visiting (λ h k, ArrMap_Set sum64 0 fuel (λ a b : bytes, bool_decide (a = b)) id h k v) (λ h f, ArrMap_All sum64 fuel (λ a b : bytes, bool_decide (a = b)) id h (λ k _, f k))
    (λ h k, ArrMap_Del sum64 fuel (λ a b : bytes, bool_decide (a = b)) id h k ;;; ret true) [k1; k2; k3; k4] = Some (Some ([k1; k3; k4; k4], 1)) /\
  visiting (λ h k, Map_Set fuel N.eqb Hash h k v) (λ h f, Map_All fuel N.eqb Hash h (λ k _, f k))
    (λ h k, Map_Del fuel N.eqb Hash h k ;;; ret true) [g1; g2; g3; g4] = Some (Some ([g1; g3; g4; g4], 1)) /\
  visiting (StringSet_Add sum64 fuel) (StringSet_All sum64 fuel)
    (λ h k, StringSet_Del sum64 fuel h k ;;; ret true) [k1; k2; k3; k4] = Some (Some ([k1; k3; k4; k4], 1)) /\
  visiting (IntSet_Add sum64 fuel) (IntSet_All sum64 fuel)
    (λ h k, IntSet_Del sum64 fuel h k ;;; ret true) [i1; i2; i3; i4] = Some (Some ([i1; i3; i4; i4], 1)) /\
  visiting (ArrSet_Add sum64 fuel (λ a b : bytes, bool_decide (a = b)) id) (ArrSet_All sum64 fuel (λ a b : bytes, bool_decide (a = b)) id)
    (λ h k, ArrSet_Del sum64 fuel (λ a b : bytes, bool_decide (a = b)) id h k ;;; ret true) [k1; k2; k3; k4] = Some (Some ([k1; k3; k4; k4], 1)) /\
  visiting (Set_Add fuel N.eqb Hash) (Set_All fuel N.eqb Hash)
    (λ h k, Set_Del fuel N.eqb Hash h k ;;; ret true) [g1; g2; g3; g4] = Some (Some ([g1; g3; g4; g4], 1)).
Proof.
  exists le8, (λ k _ _, k), [1], [2], [3], [4], 1%Z, 2%Z, 3%Z, 4%Z, 1, 2, 3, 4, 7.
  split; [apply (bool_decide_unpack _); vm_compute; exact I|].
  split; [repeat constructor; unfold is_int64; lia|].
  split; [apply (bool_decide_unpack _); vm_compute; exact I|].
  split; [apply (bool_decide_unpack _); vm_compute; exact I|].
  intros n fuel. subst fuel. split_and!; vm_compute; reflexivity.
Qed.

(** Two keys with different first digits; visiting the first one, the callback
    adds a third key that shares its first digit with the second key, and goes
    on. The slot of the second key then holds a branch, which All takes for an
    entry: the pointer to an array of items is used as a pointer to an entry. *)
Theorem C39_add_unsafe_refuted : ∃ (sum64 : N -> bytes -> N) (Hash : N -> N -> N -> N) (k1 k2 k3 : bytes) (g1 g2 g3 v : N),
  NoDup (map (λ k, digit sum64 0 k 0) [k1; k2]) /\ digit sum64 0 k2 1 ≠ digit sum64 0 k3 1 /\
  NoDup (map (λ k, gdigit Hash 0 k 0) [g1; g2]) /\ gdigit Hash 0 g2 1 ≠ gdigit Hash 0 g3 1 /\
  ∀ n, let fuel := enough n in
  visiting (λ h k, StringMap_Set sum64 fuel h k v) (λ h f, StringMap_All sum64 fuel h (λ k _, f k))
    (λ h k, StringMap_Set sum64 fuel h k3 v ;;; ret true) [k1; k2] = Some None /\
  visiting (λ h k, BytesMap_Set sum64 fuel h k v) (λ h f, BytesMap_All sum64 fuel h (λ k _, f k))
    (λ h k, BytesMap_Set sum64 fuel h k3 v ;;; ret true) [k1; k2] = Some None /\
  visiting (λ h k, Map_Set fuel N.eqb Hash h k v) (λ h f, Map_All fuel N.eqb Hash h (λ k _, f k))
    (λ h k, Map_Set fuel N.eqb Hash h g3 v ;;; ret true) [g1; g2] = Some None /\
  visiting (StringSet_Add sum64 fuel) (StringSet_All sum64 fuel)
    (λ h k, StringSet_Add sum64 fuel h k3 ;;; ret true) [k1; k2] = Some None /\
  visiting (BytesSet_Add sum64 fuel) (BytesSet_All sum64 fuel)
    (λ h k, BytesSet_Add sum64 fuel h k3 ;;; ret true) [k1; k2] = Some None /\
  visiting (ArrSet_Add sum64 fuel (λ a b : bytes, bool_decide (a = b)) id) (ArrSet_All sum64 fuel (λ a b : bytes, bool_decide (a = b)) id)
    (λ h k, ArrSet_Add sum64 fuel (λ a b : bytes, bool_decide (a = b)) id h k3 ;;; ret true) [k1; k2] = Some None /\
  visiting (Set_Add fuel N.eqb Hash) (Set_All fuel N.eqb Hash)
    (λ h k, Set_Add fuel N.eqb Hash h g3 ;;; ret true) [g1; g2] = Some None.
Proof.
  exists le8, (λ k _ _, k), [1], [2], [18], 1, 2, 18, 7.
  split; [apply (bool_decide_unpack _); vm_compute; exact I|].
  split; [vm_compute; discriminate|].
  split; [apply (bool_decide_unpack _); vm_compute; exact I|].
  split; [vm_compute; discriminate|].
  intros n fuel. subst fuel. split_and!; vm_compute; reflexivity.
Qed.
End refuted.

(** ** Examples *)

(** C37: a visit that panics after some entries. *)
Definition raise_test `{Countable K} {V CK U} (api : mapapi K V CK U) chk (u0 : U) (ops : list (mop K V U)) h s g (P : world V CK U -> bool) : bool :=
  match mexec api chk [] (empty_world u0) ops with
  | None => false
  | Some (tr, w) =>
      existsb (λ x, match x with (MNew s', RHandle h') => N.eqb s' s && Pos.eqb h' h | _ => false end) tr &&
      chk tr (MAll h (quiet g)) &&
      match ma_All api (Some h) (raise_cb g) w with Panic w' => P w' | _ => false end
  end.
Lemma raise_test_ok `{Countable K} {V CK U} (api : mapapi K V CK U) chk (ok : list (mop K V U * mres V) -> mop K V U -> Prop) (u0 : U) ops h s g P :
  (∀ tr op, chk tr op = true -> ok tr op) -> raise_test api chk u0 ops h s g P = true ->
  ∃ tr w w', mrun api ok u0 tr w /\ (MNew s, RHandle h) ∈ tr /\ ok tr (MAll h (quiet g)) /\
    ma_All api (Some h) (raise_cb g) w = Panic w' /\ P w' = true.
Proof.
  intros Hchk Hb. unfold raise_test in Hb. destruct (mexec api chk [] (empty_world u0) ops) as [[tr w]|] eqn:E; [|done].
  apply andb_prop in Hb as [Hb HP]. apply andb_prop in Hb as [Hn Hl].
  destruct (ma_All api (Some h) (raise_cb g) w) as [|w'| |] eqn:Ea; try done. exists tr, w, w'.
  split; [eapply mexec_run; [exact Hchk|constructor|exact E]|].
  split; [|split; [by apply Hchk|done]].
  apply existsb_exists in Hn as ([o r] & Hin & Hx). destruct o, r; try done. apply andb_prop in Hx as [H1 H2].
  apply N.eqb_eq in H1 as ->. apply Pos.eqb_eq in H2 as ->. by apply elem_of_list_In.
Qed.
Definition sraise_test `{Countable K} {CK U} (api : setapi K unit CK U) chk (u0 : U) (ops : list (sop K U)) h s g (P : world unit CK U -> bool) : bool :=
  match sexec api chk [] (empty_world u0) ops with
  | None => false
  | Some (tr, w) =>
      existsb (λ x, match x with (SNew s', THandle h') => N.eqb s' s && Pos.eqb h' h | _ => false end) tr &&
      chk tr (SAll h (squiet g)) &&
      match sa_All api (Some h) (sraise_cb g) w with Panic w' => P w' | _ => false end
  end.
Lemma sraise_test_ok `{Countable K} {CK U} (api : setapi K unit CK U) chk (ok : list (sop K U * sres) -> sop K U -> Prop) (u0 : U) ops h s g P :
  (∀ tr op, chk tr op = true -> ok tr op) -> sraise_test api chk u0 ops h s g P = true ->
  ∃ tr w w', srun api ok u0 tr w /\ (SNew s, THandle h) ∈ tr /\ ok tr (SAll h (squiet g)) /\
    sa_All api (Some h) (sraise_cb g) w = Panic w' /\ P w' = true.
Proof.
  intros Hchk Hb. unfold sraise_test in Hb. destruct (sexec api chk [] (empty_world u0) ops) as [[tr w]|] eqn:E; [|done].
  apply andb_prop in Hb as [Hb HP]. apply andb_prop in Hb as [Hn Hl].
  destruct (sa_All api (Some h) (sraise_cb g) w) as [|w'| |] eqn:Ea; try done. exists tr, w, w'.
  split; [eapply sexec_run; [exact Hchk|constructor|exact E]|].
  split; [|split; [by apply Hchk|done]].
  apply existsb_exists in Hn as ([o r] & Hin & Hx). destruct o, r; try done. apply andb_prop in Hx as [H1 H2].
  apply N.eqb_eq in H1 as ->. apply Pos.eqb_eq in H2 as ->. by apply elem_of_list_In.
Qed.

Definition yields {V CK U A} (o : outcome V CK U A) (p : A -> world V CK U -> bool) : bool :=
  match o with Ret a w => p a w | _ => false end.
Definition shows {K V CK U} `{EqDecision V} (api : mapapi K V CK U) h (es : list (K * option V)) (w : world V CK U) : bool :=
  forallb (λ e, yields (ma_Get api (Some h) e.1 w) (λ x _, bool_decide ((if x.2 then Some x.1 else None) = e.2))) es.
Definition shows_set {K CK U} (api : setapi K unit CK U) h (es : list (K * bool)) (w : world unit CK U) : bool :=
  forallb (λ e, yields (sa_Has api (Some h) e.1 w) (λ x _, Bool.eqb x e.2)) es.

(** The callback adds 5 to the value and counts; it panics at the value 20. *)
Definition jolt {K} (u : N) (k : K) (v : N) : N * N * option bool := (u + 1, v + 5, if v =? 20 then None else Some true)%N.
Definition fill {K} (a b c : K) : list (mop K N N) := [MNew 7; MNew 7; MSet 2 a 10%N; MSet 2 b 20%N; MSet 2 c 30%N].
Definition jolted {K CK} (api : mapapi K N CK N) (a b c : K) (w : world N CK N) : bool :=
  (w_usr w =? 2)%N && shows api 2 [(a, Some 15%N); (b, Some 25%N); (c, Some 30%N)] w.
Definition sjolt (u : N) (k : bytes) : N * option bool := (u + 1, if (u =? 1)%N then None else Some true)%N.

Definition jolt_case {K CK} (api : mapapi K N CK N) ok (a b c : K) : Prop :=
  ∃ tr w w', mrun api ok 0%N tr w /\ (MNew 7, RHandle 2) ∈ tr /\ (ok tr (MAll 2%positive (quiet jolt)) : Prop) /\
    ma_All api (Some 2%positive) (raise_cb jolt) w = Panic w' /\ jolted api a b c w' = true.
Definition sjolted (api : setapi bytes unit bytes N) (w : world unit bytes N) : bool :=
  (w_usr w =? 2)%N && shows_set api 2 [([1%N], true); ([2%N], true); ([3%N], true); ([4%N], false)] w.
Example C37_nonvacuous :
  jolt_case (StringMap_api toyh 0%N 256)
    (λ tr op, mallowed (λ _, true = true) (λ _, true = true) tr op /\ ins_guard (digit toyh) any_way any_way tr op) [1%N] [2%N] [3%N] /\
  jolt_case (IntMap_api toyi2 0%N 256)
    (λ tr op, mallowed (λ k, intb k = true) (λ _, true = true) tr op /\ ins_guard (int_digit toyi2) (int_way toyi2) (int_way toyi2) tr op) 1%Z 2%Z 3%Z /\
  jolt_case (Map_api 0%N 256 N.eqb Jhash)
    (λ tr op, mallowed (λ _, true = true) (λ _, true = true) tr op /\ ins_guard (gdigit Jhash) (set_way Jhash) (mod_way Jhash) tr op) 17%N 18%N 35%N /\
  let api := StringSet_api toyh 256 in
  let ok := λ tr op, sallowed (λ _, true = true) (λ _, true = true) tr op /\ add_guard (digit toyh) any_way tr op in
  ∃ tr w w', srun api ok 0%N tr w /\ (SNew 7, THandle 2) ∈ tr /\ ok tr (SAll 2%positive (squiet sjolt)) /\
    sa_All api (Some 2%positive) (sraise_cb sjolt) w = Panic w' /\ sjolted api w' = true.
Proof.
  split; [|split; [|split]].
  - eapply (raise_test_ok _ (gchk (digit toyh) (λ _, true) anyb anyb) _ _ (fill [1] [2] [3])%N _ _ _ (jolted _ _ _ _));
    [intros tr op; apply gchk_ok; apply anyb_ok|vm_compute; reflexivity].
  - eapply (raise_test_ok _ (gchk (int_digit toyi2) intb (int_wayb toyi2) (int_wayb toyi2)) _ _ (fill 1 2 3)%Z _ _ _ (jolted _ _ _ _));
    [intros tr op; apply gchk_ok; apply int_wayb_ok|vm_compute; reflexivity].
  - eapply (raise_test_ok _ (gchk (gdigit Jhash) (λ _, true) (set_wayb Jhash) (mod_wayb Jhash)) _ _ (fill 17 18 35)%N _ _ _ (jolted _ _ _ _));
    [intros tr op; apply gchk_ok; [apply set_wayb_ok|apply mod_wayb_ok]|vm_compute; reflexivity].
  - eapply (sraise_test_ok _ (gschk (digit toyh) (λ _, true) anyb) _ _ [SNew 7; SAdd 2 [1]; SAdd 2 [2]; SAdd 2 [3]]%N _ _ _
      (sjolted _));
    [intros tr op; apply gschk_ok; apply anyb_ok|vm_compute; reflexivity].
Qed.

(** C38: the callback copies the entry, with a changed value, to another map and
    counts. *)
Definition copying {K} (h2 : positive) (k : K) (a : positive) : prog (mop K N N) (mres N) N bool :=
  Call (MLoad a) (λ r, match r with
    | RVal v => Call (MGet 2 k) (λ r', match r' with
        | RGet v' true => Call (MStore a (v + 1)%N) (λ _, Call (MSet h2 k (v + v')%N) (λ _, Own (λ u, u + 1)%N (λ _, Done true)))
        | _ => Throw end)
    | _ => Throw end).
Definition copied {K CK} (api : mapapi K N CK N) (h2 : positive) (a b c : K) (o : outcome N CK N unit) : bool :=
  yields o (λ _ w, (w_usr w =? 3)%N && shows api 2 [(a, Some 11%N); (b, Some 21%N); (c, Some 31%N)] w &&
    shows api h2 [(a, Some 20%N); (b, Some 40%N); (c, Some 60%N)] w).
(** The callback deletes the first entry it sees, adds another one and stops. *)
Definition moving {K} (c' : K) (k : K) (a : positive) : prog (mop K N N) (mres N) N bool :=
  Call (MDel 2 k) (λ _, Call (MLoad a) (λ r, match r with
    | RVal v => Call (MSet 2 c' v) (λ _, Done false)
    | _ => Throw end)).
Definition moved {K CK} (api : mapapi K N CK N) (a b c c' : K) (o : outcome N CK N unit) : bool :=
  yields o (λ _ w, shows api 2 [(a, None); (b, Some 20%N); (c, Some 30%N); (c', Some 10%N)] w).
(** The callback panics at the second entry. *)
Definition stumbling {K} (k : K) (a : positive) : prog (mop K N N) (mres N) N bool :=
  Own (λ u, u + 1)%N (λ u, Call (MStore a u) (λ _, if (u =? 1)%N then Throw else Done true)).
Definition stumbled {K CK} (api : mapapi K N CK N) (a b c : K) (o : outcome N CK N unit) : bool :=
  match o with Panic w => shows api 2 [(a, Some 0%N); (b, Some 1%N); (c, Some 30%N)] w | _ => false end.

Definition prog_case {K} `{Countable K} {CK} (api : mapapi K N CK N) ok h (f : K -> positive -> prog (mop K N N) (mres N) N bool) (P : outcome N CK N unit -> bool) : Prop :=
  ∃ tr w, crun (mcall api) ok 0%N tr w /\ (MNew 7, RHandle h) ∈ tr /\
    (∀ ks, ks ≡ₚ elements (stored tr h) -> loop_fine (mcall api) ok (changes_keys h) (with_ptr f h) tr w ks) /\
    P (ma_All api (Some h) (all_prog api f) w) = true.
Example C38_nonvacuous_map :
  let api := StringMap_api toyh 0%N 256 in
  let ok := λ tr op, mallowed (λ _, true = true) (λ _, true = true) tr op /\ ins_guard (digit toyh) any_way any_way tr op in
  let iapi := IntMap_api toyi2 0%N 256 in
  let iok := λ tr op, mallowed (λ k, intb k = true) (λ _, true = true) tr op /\ ins_guard (int_digit toyi2) (int_way toyi2) (int_way toyi2) tr op in
  let gapi := Map_api 0%N 256 N.eqb Jhash in
  let gok := λ tr op, mallowed (λ _, true = true) (λ _, true = true) tr op /\ ins_guard (gdigit Jhash) (set_way Jhash) (mod_way Jhash) tr op in
  prog_case api ok 2 (copying 8) (copied api 8 [1%N] [2%N] [3%N]) /\
  prog_case api ok 2 (moving [4%N]) (moved api [1%N] [2%N] [3%N] [4%N]) /\
  prog_case api ok 2 stumbling (stumbled api [1%N] [2%N] [3%N]) /\
  prog_case iapi iok 2 (copying 8) (copied iapi 8 1%Z 2%Z 3%Z) /\
  prog_case gapi gok 2 (copying 8) (copied gapi 8 17%N 18%N 35%N).
Proof.
  intros api ok iapi iok gapi gok. split; [|split; [|split; [|split]]].
  - eapply (loop_test_ok _ (gchk (digit toyh) (λ _, true) anyb anyb) _ _ (fill [1] [2] [3])%N);
    [intros tr op; apply gchk_ok; apply anyb_ok|vm_compute; reflexivity].
  - eapply (loop_test_ok _ (gchk (digit toyh) (λ _, true) anyb anyb) _ _ (fill [1] [2] [3])%N);
    [intros tr op; apply gchk_ok; apply anyb_ok|vm_compute; reflexivity].
  - eapply (loop_test_ok _ (gchk (digit toyh) (λ _, true) anyb anyb) _ _ (fill [1] [2] [3])%N);
    [intros tr op; apply gchk_ok; apply anyb_ok|vm_compute; reflexivity].
  - eapply (loop_test_ok _ (gchk (int_digit toyi2) intb (int_wayb toyi2) (int_wayb toyi2)) _ _ (fill 1 2 3)%Z);
    [intros tr op; apply gchk_ok; apply int_wayb_ok|vm_compute; reflexivity].
  - eapply (loop_test_ok _ (gchk (gdigit Jhash) (λ _, true) (set_wayb Jhash) (mod_wayb Jhash)) _ _ (fill 17 18 35)%N);
    [intros tr op; apply gchk_ok; [apply set_wayb_ok|apply mod_wayb_ok]|vm_compute; reflexivity].
Qed.

(** The callback adds the key to another set, or deletes it there if it was in it already. *)
Definition sifting (k : bytes) : prog (sop bytes N) sres N bool :=
  Call (SHas 8 k) (λ r, match r with
    | THas true => Call (SDel 8 k) (λ _, Done true)
    | _ => Call (SAdd 8 k) (λ _, Own (λ u, u + 1)%N (λ _, Done true)) end).
Definition sifted (api : setapi bytes unit bytes N) (o : outcome unit bytes N unit) : bool :=
  yields o (λ _ w, (w_usr w =? 2)%N && shows_set api 2 [([1%N], true); ([2%N], true); ([3%N], true)] w &&
    shows_set api 8 [([1%N], true); ([2%N], false); ([3%N], true); ([4%N], true)] w).
Example C38_nonvacuous_set :
  let api := StringSet_api toyh 256 in
  let ok := λ tr op, sallowed (λ _, true = true) (λ _, true = true) tr op /\ add_guard (digit toyh) any_way tr op in
  ∃ tr w, crun (scall api) ok 0%N tr w /\ (SNew 7, THandle 2) ∈ tr /\
    (∀ ks, ks ≡ₚ elements (sstored tr 2) -> loop_fine (scall api) ok (changes_members 2) sifting tr w ks) /\
    sifted api (sa_All api (Some 2%positive) (set_prog api sifting) w) = true.
Proof.
  intros api ok.
  eapply (sloop_test_ok _ (gschk (digit toyh) (λ _, true) anyb) _ _ [SNew 7; SNew 7; SAdd 2 [1]; SAdd 2 [2]; SAdd 2 [3]; SAdd 8 [2]; SAdd 8 [4]]%N);
    [intros tr op; apply gschk_ok; apply anyb_ok|vm_compute; reflexivity].
Qed.

Print Assumptions C37_All_panic_map.
Print Assumptions C37_All_panic_set.
Print Assumptions C38_All_is_loop_map.
Print Assumptions C38_All_is_loop_set.
Print Assumptions C38_executions_map.
Print Assumptions C38_executions_set.
Print Assumptions C39_change_and_stop_partial.
Print Assumptions C39_delete_visited_refuted.
Print Assumptions C39_add_unsafe_refuted.
