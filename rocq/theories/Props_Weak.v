(** Properties C33 and C34: what holds without any condition on the keys, their
    hash function and their comparison. The specification is in Bag.v, the
    executions are in WeakRuns.v and the types in WeakTypes.v.

    All theorems are about executions in which no level gets deeper than 254,
    because the depth is a uint8 in the code. What goes wrong beyond that is
    shown by Map_deep_refuted and StringMap_deep_refuted (Refuted.v). *)
From stdpp Require Import base numbers list gmap.
From Verif Require Import GoInt Mem Hash Amt Families Spec Client Levels Bag WeakRuns WeakTypes WeakSim WeakPack WeakExec Refuted.
Local Open Scope nat_scope.

Local Notation allowed := (mallowed (λ _, True) (λ _, True)).
Local Notation sallowed := (sallowed (λ _, True) (λ _, True)).

(** ** Every map type *)
Section maps.
Context (V U K : Type) (zero : V) (u0 : U) (fuel : nat).
Context (api : mapapi K V K U) (eq : K -> K -> bool) (lost over stable : bool) (clob : K -> K -> Prop).
Hypothesis Hfuel : 256 <= fuel.
Hypothesis Htype : weak_map zero fuel api eq lost over stable clob.
Local Notation wrun := (wrun api 254 clob u0).

(** The results of all calls are those of a bag. In particular no call accesses
    memory out of bounds or panics (Fault and Panic are other outcomes than
    Ret), and only calls that have to add an entry may fail to return. *)
Theorem C33_C34_map_is_bag_partial : ∀ tr w, wrun tr w ->
  ∃ σ, bspec eq zero lost over stable clob u0 tr σ /\ bs_usr σ = w_usr w /\
  ∀ op, allowed tr op ->
    (mcall api op w = Hang /\ adds σ op) \/
    (∃ res w', mcall api op w = Ret res w' /\
       (shallow 254 w' -> ∃ σ', bstep eq zero lost over stable σ op res σ' /\ bs_usr σ' = w_usr w')).
Proof.
  destruct (weak_sim zero fuel Hfuel api eq lost over stable clob Htype) as [R HR].
  exact (sim_spec api eq zero lost over stable clob u0 R HR).
Qed.

(** Len is the number of entries that All visits, and what Get finds is one of
    them, with an equal key. *)
Theorem C33_C34_Len_All_map_partial : ∀ tr w h, wrun tr w -> (∃ s, (MNew s, RHandle h) ∈ tr) -> ∃ es : list (K * V),
  mcall api (MLen h) w = Ret (RLen (N.of_nat (length es) mod 2 ^ 64)) w /\
  (∀ g : U -> K -> V -> U, ∃ w', mcall api (MAll h (λ u k v, (g u k v, v, true))) w = Ret RUnit w' /\
     w_usr w' = foldl (λ u e, g u e.1 e.2) (w_usr w) es) /\
  ∀ k, ∃ v b, mcall api (MGet h k) w = Ret (RGet v b) w /\
    if b : bool then ∃ k', (k', v) ∈ es /\ eq k k' = true else v = zero.
Proof.
  destruct (weak_sim zero fuel Hfuel api eq lost over stable clob Htype) as [R HR].
  exact (sim_agree api eq zero lost over stable clob u0 R HR).
Qed.

(** Directly after a Set of a key that equals itself, Get, Val and Ptr find it. *)
Theorem C33_Set_map_partial : ∀ tr w h k v res w', wrun tr w -> allowed tr (MSet h k v) ->
  mcall api (MSet h k v) w = Ret res w' -> shallow 254 w' -> eq k k = true ->
  ∃ v', (v' = v \/ lost = true /\ v' = zero) /\
  mcall api (MGet h k) w' = Ret (RGet v' true) w' /\ mcall api (MVal h k) w' = Ret (RVal v') w' /\
  ∃ p, mcall api (MPtr h k) w' = Ret (RPtr (Some p)) w'.
Proof.
  destruct (weak_sim zero fuel Hfuel api eq lost over stable clob Htype) as [R HR].
  exact (sim_set api eq zero lost over stable clob u0 R HR).
Qed.

(** Mod calls back with what Get tells, and Get then finds the new value. *)
Theorem C33_Mod_map_partial : ∀ tr w h k f res w', wrun tr w -> allowed tr (MMod h k f) ->
  mcall api (MMod h k f) w = Ret res w' -> shallow 254 w' -> eq k k = true ->
  ∃ v b, mcall api (MGet h k) w = Ret (RGet v b) w /\
  let '(u', v') := f (w_usr w) v b in w_usr w' = u' /\
  mcall api (MGet h k) w' = Ret (RGet v' true) w' /\ mcall api (MVal h k) w' = Ret (RVal v') w' /\
  ∃ p, mcall api (MPtr h k) w' = Ret (RPtr (Some p)) w'.
Proof.
  destruct (weak_sim zero fuel Hfuel api eq lost over stable clob Htype) as [R HR].
  exact (sim_mod api eq zero lost over stable clob u0 R HR).
Qed.

(** In the types whose calls on one key do not disturb others: a key that finds
    the entry at p finds it after every call that does not delete that
    entry, with the same value unless the call writes there ... *)
Theorem C34_other_calls_partial : stable = true -> ∀ tr w h k p op res w', wrun tr w ->
  allowed tr (MPtr h k) -> mcall api (MPtr h k) w = Ret (RPtr (Some p)) w ->
  allowed tr op -> mcall api op w = Ret res w' -> shallow 254 w' -> keeps api w op p ->
  mcall api (MPtr h k) w' = Ret (RPtr (Some p)) w' /\
  (spares api w op p -> ∀ v b, mcall api (MGet h k) w = Ret (RGet v b) w -> mcall api (MGet h k) w' = Ret (RGet v b) w').
Proof.
  destruct (weak_sim zero fuel Hfuel api eq lost over stable clob Htype) as [R HR]. intros Hst tr w h k p op res w'.
  exact (sim_other api eq zero lost over stable clob u0 R HR tr w h k p op res w' Hst).
Qed.

(** ... and after the key of any other entry is overwritten. *)
Theorem C34_other_overwritten_partial : ∀ tr w h k p q v ck ck' w', wrun tr w ->
  allowed tr (MPtr h k) -> mcall api (MPtr h k) w = Ret (RPtr (Some p)) w ->
  clob ck ck' -> w_mem w !! q = Some (BKv v ck) -> q ≠ p -> w' = set_mem w (<[q := BKv v ck']> (w_mem w)) ->
  mcall api (MPtr h k) w' = Ret (RPtr (Some p)) w' /\
  ∀ v b, mcall api (MGet h k) w = Ret (RGet v b) w -> mcall api (MGet h k) w' = Ret (RGet v b) w'.
Proof.
  destruct (weak_sim zero fuel Hfuel api eq lost over stable clob Htype) as [R HR].
  exact (sim_other_key api eq zero lost over stable clob u0 R HR).
Qed.
End maps.

(** ** C33 for the generic Map *)
Section generic.
Context (K V U : Type) (zero : V) (u0 : U) (fuel : nat) (Equal : K -> K -> bool) (Hash : K -> N -> N -> N).
Hypothesis Hfuel : 256 <= fuel.
Local Notation api := (Map_api zero fuel Equal Hash).
Theorem C33_Map_Set_Get_partial : ∀ tr w h k v res w', wrun api 254 untouched u0 tr w -> allowed tr (MSet h k v) ->
  mcall api (MSet h k v) w = Ret res w' -> shallow 254 w' -> Equal k k = true ->
  mcall api (MGet h k) w' = Ret (RGet v true) w' /\ mcall api (MVal h k) w' = Ret (RVal v) w' /\
  ∃ es : list (K * V), (∃ k', (k', v) ∈ es /\ Equal k k' = true) /\
    mcall api (MLen h) w' = Ret (RLen (N.of_nat (length es) mod 2 ^ 64)) w' /\
    ∀ g : U -> K -> V -> U, ∃ w2, mcall api (MAll h (λ u k v, (g u k v, v, true))) w' = Ret RUnit w2 /\
      w_usr w2 = foldl (λ u e, g u e.1 e.2) (w_usr w') es.
Proof.
  intros tr w h k v res w' Hr Ho Hc Hsh Hk.
  destruct (C33_Set_map_partial V U K zero u0 fuel api Equal false false false untouched Hfuel (weak_Map zero fuel K Equal Hash)
    tr w h k v res w' Hr Ho Hc Hsh Hk) as (v' & Hv & Hg & Hl & _).
  assert (v' = v) as -> by (destruct Hv as [->|[? _]]; done).
  split; [done|]. split; [done|].
  destruct (C33_C34_Len_All_map_partial V U K zero u0 fuel api Equal false false false untouched Hfuel (weak_Map zero fuel K Equal Hash)
    ((MSet h k v, res) :: tr) w' h) as (es & Hlen & Hall & Hget).
  - by econstructor.
  - destruct Ho as [[s Hs] _]. exists s. by right.
  - exists es. split_and!; [|done|done]. destruct (Hget k) as (v2 & b & Hg2 & Hb). rewrite Hg in Hg2. by injection Hg2 as <- <-.
Qed.
End generic.

(** ** C34 for BytesMap: clob tells which keys the caller overwrites, and by what *)
Section bytes.
Context (V U : Type) (zero : V) (u0 : U) (fuel : nat) (sum64 : N -> bytes -> N) (clob : bytes -> bytes -> Prop).
Hypothesis Hfuel : 256 <= fuel.
Local Notation api := (BytesMap_api sum64 zero fuel).
Local Notation wrun := (wrun api 254 clob u0).

(** Every call returns, unless it has to add an entry, and then nothing else
    can happen than that it does not return. *)
Theorem C34_calls_return_partial : ∀ tr w op, wrun tr w -> allowed tr op ->
  (∃ res w', mcall api op w = Ret res w') \/
  mcall api op w = Hang /\ ∃ h k, mcall api (MPtr h k) w = Ret (RPtr None) w /\
    match op with MSet h' k' _ | MMod h' k' _ => h' = h /\ k' = k | _ => False end.
Proof.
  intros tr w op Hr Ho.
  destruct (weak_sim (U:=U) zero fuel Hfuel api same_bytes false true true clob (weak_BytesMap zero fuel sum64 clob)) as [R HR].
  destruct (sim_run api same_bytes zero false true true clob u0 R HR tr w Hr) as (σ & Hs & Hw).
  destruct (ws_step _ _ _ _ _ _ _ _ HR w σ op Hw (spec_can _ _ _ _ _ _ u0 tr σ op Hs Ho)) as [[Hh Ha]|[(res & w' & Hc & _)|(res & w' & _ & Hc & _)]].
  - right. split; [done|]. destruct op as [s|h k v|h k f|h k|h k|h k|h k|h|h|h f|p|p v]; try done;
      destruct Ha as (B & HB & Hl); exists h, k; (split; [|done]);
      destruct (ws_read _ _ _ _ _ _ _ _ HR w σ h B k Hw HB) as (Hp & _); by rewrite Hp, Hl.
  - left. eauto.
  - left. eauto.
Qed.

(** A key that is never overwritten, nor written over another key, is found if
    and only if its last Set, Mod or Del was not a Del, ... *)
Theorem C34_other_keys_found_partial : ∀ tr w h k, wrun tr w -> (∀ k1 k2, clob k1 k2 -> k1 ≠ k /\ k2 ≠ k) ->
  (∃ s, (MNew s, RHandle h) ∈ tr) ->
  ∃ o, mcall api (MPtr h k) w = Ret (RPtr o) w /\ (is_Some o <-> k ∈ stored tr h).
Proof.
  intros tr w h k Hr Hk Hh.
  destruct (weak_sim (U:=U) zero fuel Hfuel api same_bytes false true true clob (weak_BytesMap zero fuel sum64 clob)) as [R HR].
  assert (Heq : ∀ a b, same_bytes a b = true <-> a = b) by (intros a b; unfold same_bytes; rewrite bool_decide_eq_true; naive_solver).
  exact (proj1 (sim_tracks api same_bytes zero false true true clob u0 R HR tr w h k Heq eq_refl Hr Hk (conj Hh I))).
Qed.

(** ... and Get returns the value of that Set, unless there are other ways to
    change values in the history: a Mod of k, an All that changes values, a
    write through a pointer. *)
Theorem C34_other_keys_value_partial : ∀ tr w h k, wrun tr w -> (∀ k1 k2, clob k1 k2 -> k1 ≠ k /\ k2 ≠ k) ->
  (∃ s, (MNew s, RHandle h) ∈ tr) -> (∀ op res, (op, res) ∈ tr -> calm k h op) ->
  mcall api (MGet h k) w = Ret (RGet (default zero (written k tr h)) (bool_decide (is_Some (written k tr h)))) w.
Proof.
  intros tr w h k Hr Hk Hh Hc.
  destruct (weak_sim (U:=U) zero fuel Hfuel api same_bytes false true true clob (weak_BytesMap zero fuel sum64 clob)) as [R HR].
  assert (Heq : ∀ a b, same_bytes a b = true <-> a = b) by (intros a b; unfold same_bytes; rewrite bool_decide_eq_true; naive_solver).
  exact (proj2 (sim_tracks api same_bytes zero false true true clob u0 R HR tr w h k Heq eq_refl Hr Hk (conj Hh I)) eq_refl Hc).
Qed.
End bytes.

(** ** Every set type *)
Section sets.
Context (U K : Type) (u0 : U) (fuel : nat).
Context (api : setapi K unit K U) (eq : K -> K -> bool) (inverted stable : bool) (clob : K -> K -> Prop).
Hypothesis Hfuel : 256 <= fuel.
Hypothesis Htype : weak_set fuel api eq inverted stable clob.
Local Notation swrun := (swrun api 254 clob u0).

Theorem C33_C34_set_is_bag_partial : ∀ tr w, swrun tr w ->
  ∃ σ, sbspec eq inverted stable clob u0 tr σ /\ sbs_usr σ = w_usr w /\
  ∀ op, sallowed tr op ->
    (scall api op w = Hang /\ sadds σ op) \/
    (∃ res w', scall api op w = Ret res w' /\
       (shallow 254 w' -> ∃ σ', sbstep eq inverted stable σ op res σ' /\ sbs_usr σ' = w_usr w')).
Proof. exact (weak_set_spec fuel Hfuel api eq inverted stable clob u0 Htype). Qed.
Theorem C33_C34_Len_All_set_partial : ∀ tr w h, swrun tr w -> (∃ s, (SNew s, THandle h) ∈ tr) -> ∃ ks : list K,
  scall api (SLen h) w = Ret (TLen (N.of_nat (length ks) mod 2 ^ 64)) w /\
  (∀ f : U -> K -> U * bool, ∃ w', scall api (SAll h f) w = Ret TUnit w' /\ w_usr w' = seach f ks (w_usr w)) /\
  ∀ k, ∃ b, scall api (SHas h k) w = Ret (THas b) w /\ (b = true -> ∃ k', k' ∈ ks /\ eq k k' = true).
Proof. exact (weak_set_agree fuel Hfuel api eq inverted stable clob u0 Htype). Qed.
Theorem C33_Add_set_partial : ∀ tr w h k res w', swrun tr w -> sallowed tr (SAdd h k) ->
  scall api (SAdd h k) w = Ret res w' -> shallow 254 w' -> eq k k = true ->
  scall api (SHas h k) w' = Ret (THas true) w'.
Proof. exact (weak_set_readback fuel Hfuel api eq inverted stable clob u0 Htype). Qed.
End sets.

(** ** Examples *)

(** The calls of Map_Set_refuted: the key 16 gets lost. Still the hypotheses
    of C33 hold for setting it again. There are two entries for it then. *)
Section map_example.
Local Open Scope N_scope.
Local Notation ex := (Map_api (U:=unit) 0 256 N.eqb num_hash).
Definition ex_acts : list (wact N N N unit) :=
  [Call (MNew 0); Call (MSet 2 0 7); Call (MSet 2 16 8); Call (MSet 2 272 9)].
Lemma map_example_of (api : mapapi N N N unit) op acts (lost found : mop N N unit) :
  match wexec api 254 (λ _ _, false) [] (empty_world tt) acts with
  | Some (tr, w) => allowedb tr op &&
      match mcall api lost w with Ret (RGet _ false) _ => true | _ => false end &&
      match mcall api op w with
      | Ret _ w' => shallowb 254 w' && match mcall api found w' with Ret (RLen n) _ => n =? 4 | _ => false end
      | _ => false
      end
  | None => false
  end = true ->
  ∃ tr w res w' v w1 w2, wrun api 254 untouched tt tr w /\ allowed tr op /\ mcall api op w = Ret res w' /\ shallow 254 w' /\
    mcall api lost w = Ret (RGet v false) w1 /\ mcall api found w' = Ret (RLen 4) w2.
Proof.
  intros H. destruct (wexec_test api 254 (λ _ _, false) untouched tt acts (λ tr w, allowedb tr op &&
      match mcall api lost w with Ret (RGet _ false) _ => true | _ => false end &&
      match mcall api op w with
      | Ret _ w' => shallowb 254 w' && match mcall api found w' with Ret (RLen n) _ => n =? 4 | _ => false end
      | _ => false
      end)) as (tr & w & Hr & Hb); [done|exact H|].
  apply andb_prop in Hb as [[Ha Hl]%andb_prop Hb].
  destruct (mcall api lost w) as [[| |v []| | | |] w1| | |] eqn:El; try done.
  destruct (mcall api op w) as [res w'| | |] eqn:Eo; try done. apply andb_prop in Hb as [Hs Hf].
  destruct (mcall api found w') as [[| | | | |n|] w2| | |] eqn:Ef; try done. apply N.eqb_eq in Hf as ->.
  exists tr, w, res, w', v, w1, w2. split_and!; try done; [by apply allowedb_ok|by apply shallowb_ok].
Qed.
Example C33_Map_nonvacuous : ∃ tr w res w' v w1 w2, wrun ex 254 untouched tt tr w /\ allowed tr (MSet 2 16 5) /\
  mcall ex (MSet 2 16 5) w = Ret res w' /\ shallow 254 w' /\
  mcall ex (MGet 2 16) w = Ret (RGet v false) w1 /\ mcall ex (MLen 2) w' = Ret (RLen 4) w2.
Proof. apply (map_example_of _ _ ex_acts). vm_compute. reflexivity. Qed.
End map_example.

(** BytesMap: two keys with the same first two digits are stored, then the second
    one is overwritten by the caller. Setting it again replaces the entry, because the code
    sees that the conflicting key was modified. *)
Section bytes_example.
Local Open Scope N_scope.
Local Notation ex := (BytesMap_api (U:=unit) le8 0 256).
Definition bytes_clob (a b : bytes) : Prop := a ≠ [7; 1] /\ b ≠ [7; 1].
Definition bytes_clobb (a b : bytes) : bool := negb (bool_decide (a = [7; 1])) && negb (bool_decide (b = [7; 1])).
Lemma bytes_clobb_ok a b : bytes_clobb a b = true -> bytes_clob a b.
Proof. unfold bytes_clobb, bytes_clob. intros [?%negb_true_iff ?%negb_true_iff]%andb_prop. by rewrite bool_decide_eq_false in *. Qed.
Lemma bytes_example_of {K CK : Type} (api : mapapi K N CK unit) clobb (clob : CK -> CK -> Prop) acts (op get : mop K N unit) (q : positive) ck' (n : N) :
  (∀ a b, clobb a b = true -> clob a b) ->
  match wexec api 254 clobb [] (empty_world tt) acts with
  | Some (tr, w) => allowedb tr op &&
      match mcall api get w with Ret (RGet v true) _ => v =? n | _ => false end &&
      match w_mem w !! q with Some (BKv _ ck) => clobb ck ck' | _ => false end &&
      match mcall api op w with Ret _ w' => shallowb 254 w' | _ => false end
  | None => false
  end = true ->
  ∃ tr w res w' w1 v ck, wrun api 254 clob tt tr w /\ allowed tr op /\ mcall api op w = Ret res w' /\ shallow 254 w' /\
    mcall api get w = Ret (RGet n true) w1 /\ w_mem w !! q = Some (BKv v ck) /\ clob ck ck'.
Proof.
  intros Hc H. destruct (wexec_test api 254 clobb clob tt acts (λ tr w, allowedb tr op &&
      match mcall api get w with Ret (RGet v true) _ => v =? n | _ => false end &&
      match w_mem w !! q with Some (BKv _ ck) => clobb ck ck' | _ => false end &&
      match mcall api op w with Ret _ w' => shallowb 254 w' | _ => false end)) as (tr & w & Hr & Hb); [done|exact H|].
  apply andb_prop in Hb as [[[Ha Hg]%andb_prop Hq]%andb_prop Hb].
  destruct (mcall api get w) as [[| |v []| | | |] w1| | |] eqn:Eg; try done. apply N.eqb_eq in Hg as ->.
  destruct (w_mem w !! q) as [[|v ck|]|] eqn:Eq; try done.
  destruct (mcall api op w) as [res w'| | |] eqn:Eo; try done.
  exists tr, w, res, w', w1, v, ck. split_and!; try done; [by apply allowedb_ok|by apply shallowb_ok|by apply Hc].
Qed.
Example C34_nonvacuous : ∃ tr w res w' w1 v ck, wrun ex 254 bytes_clob tt tr w /\ allowed tr (MSet 2 [7; 2] 8) /\
  mcall ex (MSet 2 [7; 2] 8) w = Ret res w' /\ shallow 254 w' /\
  mcall ex (MGet 2 [7; 1]) w = Ret (RGet 5 true) w1 /\ w_mem w !! 32%positive = Some (BKv v ck) /\ bytes_clob ck [1; 1].
Proof.
  apply (bytes_example_of _ bytes_clobb _ [Call (MNew 0); Call (MSet 2 [7; 1] 5); Call (MSet 2 [7; 2] 6); Key 32 [9; 9]]).
  { exact bytes_clobb_ok. } vm_compute. reflexivity.
Qed.
(** The key [7; 1] meets the hypothesis of C34_other_keys_found_partial. *)
Example C34_other_keys_nonvacuous : (∀ k1 k2, bytes_clob k1 k2 -> k1 ≠ [7; 1] /\ k2 ≠ [7; 1]) /\ bytes_clob [7; 2] [9; 9].
Proof. split; [by intros|done]. Qed.
End bytes_example.

(** An ArrSet whose keys are numbers with NaN: nothing equals NaN. It is in the
    set after Add, All visits it, and Has does not find it. *)
Section set_example.
Local Open Scope N_scope.
Definition nan_eq (a b : option N) : bool := match a, b with Some a, Some b => a =? b | _, _ => false end.
Definition nan_bytes (a : option N) : bytes := match a with Some n => [n; 0; 0; 0] | None => [255; 0; 0; 0] end.
Local Notation ex := (ArrSet_api (U:=unit) le8 256 nan_eq nan_bytes).
Lemma set_example_of {K : Type} (api : setapi K unit K unit) ops (op has len : sop K unit) :
  match swexec api 254 [] (empty_world tt) ops with
  | Some (tr, w) => sallowedb tr op &&
      match scall api op w with
      | Ret _ w' => shallowb 254 w' && match scall api has w' with Ret (THas b) _ => negb b | _ => false end &&
          match scall api len w' with Ret (TLen n) _ => n =? 2 | _ => false end
      | _ => false
      end
  | None => false
  end = true ->
  ∃ tr w res w' w1 w2, swrun api 254 untouched tt tr w /\ sallowed tr op /\ scall api op w = Ret res w' /\ shallow 254 w' /\
    scall api has w' = Ret (THas false) w1 /\ scall api len w' = Ret (TLen 2) w2.
Proof.
  intros H. destruct (swexec_test api 254 untouched tt ops (λ tr w, sallowedb tr op &&
      match scall api op w with
      | Ret _ w' => shallowb 254 w' && match scall api has w' with Ret (THas b) _ => negb b | _ => false end &&
          match scall api len w' with Ret (TLen n) _ => n =? 2 | _ => false end
      | _ => false
      end)) as (tr & w & Hr & Hb); [exact H|].
  apply andb_prop in Hb as [Ha Hb]. destruct (scall api op w) as [res w'| | |] eqn:Eo; try done.
  apply andb_prop in Hb as [[Hs Hh]%andb_prop Hl].
  destruct (scall api has w') as [[| |[]| |] w1| | |] eqn:Eh; try done.
  destruct (scall api len w') as [[| | |n|] w2| | |] eqn:El; try done. apply N.eqb_eq in Hl as ->.
  exists tr, w, res, w', w1, w2. split_and!; try done; [by apply sallowedb_ok|by apply shallowb_ok].
Qed.
Example C33_set_nonvacuous : ∃ tr w res w' w1 w2, swrun ex 254 untouched tt tr w /\ sallowed tr (SAdd 2 None) /\
  scall ex (SAdd 2 None) w = Ret res w' /\ shallow 254 w' /\
  scall ex (SHas 2 None) w' = Ret (THas false) w1 /\ scall ex (SLen 2) w' = Ret (TLen 2) w2.
Proof. apply (set_example_of _ [SNew 0; SAdd 2 (Some 15)]). vm_compute. reflexivity. Qed.
End set_example.

Print Assumptions C33_C34_map_is_bag_partial.
Print Assumptions C33_C34_Len_All_map_partial.
Print Assumptions C33_Set_map_partial.
Print Assumptions C33_Mod_map_partial.
Print Assumptions C34_other_calls_partial.
Print Assumptions C34_other_overwritten_partial.
Print Assumptions C33_Map_Set_Get_partial.
Print Assumptions C34_calls_return_partial.
Print Assumptions C34_other_keys_found_partial.
Print Assumptions C34_other_keys_value_partial.
Print Assumptions C33_C34_set_is_bag_partial.
Print Assumptions C33_C34_Len_All_set_partial.
Print Assumptions C33_Add_set_partial.

