(** C20: keys that are not equal and have the same digits. Adding one of them
    while the other is stored never returns: whatever the fuel, the call does
    not come to an end. *)
From stdpp Require Import base numbers list gmap.
From Verif Require Import GoInt Mem Hash Amt Families Spec Client Types Runs Refuted Levels Bag WeakRuns WeakTypes WeakPack WeakExec Alike AlikePack AlikeStrong Props_Types Props_Weak.
Local Open Scope nat_scope.

(** ** StringMap, BytesMap and ArrMap, StringSet, BytesSet and ArrSet

    In every state that calls lead to, es are the entries that All visits. If
    one of them has a key k' that is not equal to k and the digits of k' are
    those of k, then Set and Mod of k do not return. Nothing is assumed about
    the hash function, the equality of ArrMap keys, the keys used so far or
    the seeds. What is missing: keys that the caller overwrites, and more than
    255 levels. *)
Section maps.
Context (V U K : Type) (zero : V) (u0 : U) (fuel : nat) (api : mapapi K V K U) (eq : K -> K -> bool) (dig : N -> K -> nat -> N).
Hypothesis Hfuel : 256 <= fuel.
Hypothesis Htype : alike_map zero fuel api eq dig.
Theorem C20_map_partial : ∀ tr w s h, wrun api 254 untouched u0 tr w -> (MNew s, RHandle h) ∈ tr -> ∃ es : list (K * V),
  (∀ g : U -> K -> V -> U, ∃ w', mcall api (MAll h (λ u k v, (g u k v, v, true))) w = Ret RUnit w' /\
     w_usr w' = foldl (λ u e, g u e.1 e.2) (w_usr w) es) /\
  ∀ k k' v', (k', v') ∈ es -> eq k k' = false -> (∀ d, dig s k d = dig s k' d) ->
    (∀ v, mcall api (MSet h k v) w = Hang) /\ (∀ f, mcall api (MMod h k f) w = Hang).
Proof.
  destruct (alike_pack zero fuel api eq dig Htype) as [over Hp].
  exact (alike_hangs zero fuel Hfuel api eq dig over u0 (alike_any zero fuel api eq dig Htype) Hp).
Qed.
End maps.
Section sets.
Context (U K : Type) (u0 : U) (fuel : nat) (b : bool) (api : setapi K unit K U) (eq : K -> K -> bool) (dig : N -> K -> nat -> N).
Hypothesis Hfuel : 256 <= fuel.
Hypothesis Htype : alike_set fuel b api eq dig.
Theorem C20_set_partial : ∀ tr w s h, swrun api 254 untouched u0 tr w -> (SNew s, THandle h) ∈ tr -> ∃ ks : list K,
  (∀ f : U -> K -> U * bool, ∃ w', scall api (SAll h f) w = Ret TUnit w' /\ w_usr w' = seach f ks (w_usr w)) /\
  ∀ k k', k' ∈ ks -> eq k k' = false -> (∀ d, dig s k d = dig s k' d) -> scall api (SAdd h k) w = Hang.
Proof. exact (salike_hangs fuel Hfuel b api eq dig u0 Htype). Qed.
End sets.

(** A key that is equal to no key, such as a float NaN: once it was set, setting
    it or any key with its bytes again does not return. *)
Section nan.
Context (V U K : Type) (zero : V) (u0 : U) (fuel : nat) (sum64 : N -> bytes -> N) (keq : K -> K -> bool) (KeyBytes : K -> bytes).
Hypothesis Hfuel : 256 <= fuel.
Theorem C20_ArrMap_nan_partial : let api := ArrMap_api sum64 zero fuel keq KeyBytes in
  ∀ tr w s h nan op0 res0 k, wrun api 254 untouched u0 tr w -> (MNew s, RHandle h) ∈ tr ->
  puts h nan op0 -> (op0, res0) ∈ tr -> (∀ k', keq nan k' = false /\ keq k' nan = false) -> KeyBytes k = KeyBytes nan ->
  (∀ v, mcall api (MSet h k v) w = Hang) /\ (∀ f, mcall api (MMod h k f) w = Hang).
Proof.
  intros api tr w s h nan op0 res0 k Hr Hs Hp Hin Hn Hk.
  eapply (alike_nan zero fuel Hfuel api (swapped keq) (λ s k, digit sum64 s (KeyBytes k)) false u0
    (alike_any zero fuel api _ _ (alike_ArrMap zero fuel K sum64 keq KeyBytes)) (arr_pack zero fuel K sum64 keq KeyBytes));
    [done|exact Hr|exact Hs|exact Hp|exact Hin| |].
  - intros k'. destruct (Hn k'). done.
  - intros d. by rewrite Hk.
Qed.
Theorem C20_ArrSet_nan_partial : let api := ArrSet_api sum64 fuel keq KeyBytes in
  ∀ tr w s h nan res0 k, swrun api 254 untouched u0 tr w -> (SNew s, THandle h) ∈ tr ->
  (SAdd h nan, res0) ∈ tr -> (∀ k', keq nan k' = false /\ keq k' nan = false) -> KeyBytes k = KeyBytes nan ->
  scall api (SAdd h k) w = Hang.
Proof.
  intros api tr w s h nan res0 k Hr Hs Hin Hn Hk.
  eapply (salike_nan fuel Hfuel true api (swapped keq) (λ s k, digit sum64 s (KeyBytes k)) u0 (alike_ArrSet fuel K sum64 keq KeyBytes));
    [done|exact Hr|exact Hs|exact Hin| |].
  - intros k'. destruct (Hn k'). done.
  - intros d. by rewrite Hk.
Qed.
End nan.

(** ** IntMap and IntSet

    After calls none of which hits the wrong split of C04 and C05. *)
Section int.
Context (V U : Type) (zero : V) (u0 : U) (fuel : nat) (sum64 : N -> bytes -> N) (Q : N -> Prop).
Hypothesis Hfuel : 256 <= fuel.
Theorem C20_IntMap_partial : let api := IntMap_api sum64 zero fuel in
  ∀ tr w s h k k', mrun api (λ tr op, mallowed is_int64 Q tr op /\ ins_guard (int_digit sum64) (int_way sum64) (int_way sum64) tr op) u0 tr w ->
  (MNew s, RHandle h) ∈ tr -> k' ∈ stored tr h -> k ≠ k' -> (∀ d, int_digit sum64 s k d = int_digit sum64 s k' d) ->
  (∀ v, mcall api (MSet h k v) w = Hang) /\ (∀ f, mcall api (MMod h k f) w = Hang).
Proof. exact (int_hangs zero fuel u0 Hfuel sum64 Q). Qed.
Theorem C20_IntSet_partial : let api := IntSet_api sum64 fuel in
  ∀ tr w s h k k', srun api (λ tr op, sallowed is_int64 Q tr op /\ add_guard (int_digit sum64) (int_way sum64) tr op) u0 tr w ->
  (SNew s, THandle h) ∈ tr -> k' ∈ sstored tr h -> k ≠ k' -> (∀ d, int_digit sum64 s k d = int_digit sum64 s k' d) ->
  scall api (SAdd h k) w = Hang.
Proof. exact (intset_hangs fuel u0 Hfuel sum64 Q). Qed.
End int.

(** ** Map and Set

    After calls none of which hits the wrong rehash of C10 to C12, if the wrong
    rehash makes no difference for the two keys. Otherwise the claim is false, see
    Map_Set_alike_refuted. *)
Section generic.
Context (V U K : Type) `{Countable K} (zero : V) (u0 : U) (fuel : nat) (Equal : K -> K -> bool) (Hash : K -> N -> N -> N)
  (P : K -> Prop) (Q : N -> Prop).
Hypothesis Hfuel : 256 <= fuel.
Hypothesis Heq : decides_eq Equal P.
Theorem C20_Map_partial : let api := Map_api zero fuel Equal Hash in
  ∀ tr w s h k k', mrun api (λ tr op, mallowed P Q tr op /\ ins_guard (gdigit Hash) (set_way Hash) (mod_way Hash) tr op) u0 tr w ->
  (MNew s, RHandle h) ∈ tr -> k' ∈ stored tr h -> Equal k k' = false -> (∀ d, gdigit Hash s k d = gdigit Hash s k' d) ->
  ((∀ d, d <= 240 -> set_way Hash s k k' d) -> ∀ v, mcall api (MSet h k v) w = Hang) /\
  ((∀ d, d <= 240 -> mod_way Hash s k k' d) -> ∀ f, mcall api (MMod h k f) w = Hang).
Proof. exact (gen_hangs zero fuel u0 Hfuel Equal Hash P Q Heq). Qed.
Theorem C20_Set_partial : let api := Set_api fuel Equal Hash in
  ∀ tr w s h k k', srun api (λ tr op, sallowed P Q tr op /\ add_guard (gdigit Hash) (set_way Hash) tr op) u0 tr w ->
  (SNew s, THandle h) ∈ tr -> k' ∈ sstored tr h -> Equal k k' = false -> (∀ d, gdigit Hash s k d = gdigit Hash s k' d) ->
  (∀ d, d <= 240 -> set_way Hash s k k' d) -> scall api (SAdd h k) w = Hang.
Proof. exact (genset_hangs fuel u0 Hfuel Equal Hash P Q Heq). Qed.
End generic.

(** The claim is false of Map and Set: 1 and 2 have the same hashes in every
    iteration, and the digits of 3 differ from theirs in the second place. 3 and 1
    are set. Then setting 2 returns, because 1 is rehashed with the wrong
    iteration (generic_map.go:149, generic_set.go:100). *)
Section refuted.
Local Open Scope N_scope.
Definition alike_hash (k seed iter : N) : N :=
  if k =? 3 then (if iter =? 0 then 16 else 0) else if iter =? 0 then 0 else 15 * 256.
Theorem Map_Set_alike_refuted : ∃ (Hash : N -> N -> N -> N) seed k1 k2 k3 v1 v2 v3,
  k1 ≠ k2 /\ (∀ s i, Hash k1 s i = Hash k2 s i) /\ v1 ≠ 0 /\
  ∀ n, result (h <- New seed ;;
          Map_Set (enough n) N.eqb Hash h k3 v3 ;;;
          Map_Set (enough n) N.eqb Hash h k1 v1 ;;;
          g1 <- Map_Get 0 (enough n) N.eqb Hash h k1 ;;
          Map_Set (enough n) N.eqb Hash h k2 v2 ;;;
          g2 <- Map_Get 0 (enough n) N.eqb Hash h k2 ;;
          ret (g1, g2)) = Some ((v1, true), (v2, true)).
Proof.
  exists alike_hash, 0, 1, 2, 3, 7, 8, 9.
  split_and!; [done|done|done|]. intros n. vm_compute. reflexivity.
Qed.
Theorem Set_Add_alike_refuted : ∃ (Hash : N -> N -> N -> N) seed k1 k2 k3,
  k1 ≠ k2 /\ (∀ s i, Hash k1 s i = Hash k2 s i) /\
  ∀ n, result (h <- New seed ;;
          Set_Add (enough n) N.eqb Hash h k3 ;;;
          Set_Add (enough n) N.eqb Hash h k1 ;;;
          g1 <- Set_Has (enough n) N.eqb Hash h k1 ;;
          Set_Add (enough n) N.eqb Hash h k2 ;;;
          g2 <- Set_Has (enough n) N.eqb Hash h k2 ;;
          ret (g1, g2)) = Some (true, true).
Proof.
  exists alike_hash, 0, 1, 2, 3.
  split_and!; [done|done|]. intros n. vm_compute. reflexivity.
Qed.
Theorem Map_Mod_alike_refuted : ∃ (Hash : N -> N -> N -> N) seed k1 k2 k3 v1 v2 v3,
  k1 ≠ k2 /\ (∀ s i, Hash k1 s i = Hash k2 s i) /\ v1 ≠ 0 /\
  ∀ n, result (h <- New seed ;;
          Map_Set (enough n) N.eqb Hash h k3 v3 ;;;
          Map_Set (enough n) N.eqb Hash h k1 v1 ;;;
          g1 <- Map_Get 0 (enough n) N.eqb Hash h k1 ;;
          Map_Mod 0 (enough n) N.eqb Hash h k2 (λ p _, store_val p v2) ;;;
          g2 <- Map_Get 0 (enough n) N.eqb Hash h k2 ;;
          ret (g1, g2)) = Some ((v1, true), (v2, true)).
Proof.
  exists alike_hash, 0, 1, 2, 3, 7, 8, 9.
  split_and!; [done|done|done|]. intros n. vm_compute. reflexivity.
Qed.
End refuted.

(** ** Examples *)
Section examples.
Local Open Scope N_scope.

(** An ArrMap whose equality tells 1 and 257 apart while their bytes agree, and
    with NaN: 1, 2, and NaN are set. All visits them, so 257 and NaN meet the
    hypotheses. *)
Definition low_bytes (a : option N) : bytes := match a with Some n => [n mod 256; 0; 0; 0] | None => [255; 0; 0; 0] end.
Local Notation ex := (ArrMap_api le8 0 256 nan_eq low_bytes).
Local Notation sex := (ArrSet_api le8 256 nan_eq low_bytes).
Definition note (u : list (option N)) (k : option N) (v : N) : list (option N) := k :: u.
Lemma alike_example_of (api : mapapi (option N) N (option N) (list (option N))) acts (all : mop (option N) N (list (option N))) ks :
  match wexec api 254 (λ _ _, false) [] (empty_world []) acts with
  | Some (tr, w) =>
      match mcall api all w with Ret _ w' => bool_decide (w_usr w' = ks) | _ => false end &&
      existsb (λ x, match x with (MNew 0, RHandle h) => (h =? 2)%positive | _ => false end) tr &&
      existsb (λ x, match x with (MSet h None v, RUnit) => (h =? 2)%positive && (v =? 30) | _ => false end) tr
  | None => false
  end = true ->
  ∃ tr w res w', wrun api 254 untouched [] tr w /\ mcall api all w = Ret res w' /\ w_usr w' = ks /\
    (MNew 0, RHandle 2) ∈ tr /\ (MSet 2 None 30, RUnit) ∈ tr.
Proof.
  intros H. destruct (wexec_test api 254 (λ _ _, false) untouched [] acts (λ tr w,
      match mcall api all w with Ret _ w' => bool_decide (w_usr w' = ks) | _ => false end &&
      existsb (λ x, match x with (MNew 0, RHandle h) => (h =? 2)%positive | _ => false end) tr &&
      existsb (λ x, match x with (MSet h None v, RUnit) => (h =? 2)%positive && (v =? 30) | _ => false end) tr)) as (tr & w & Hr & Hb); [done|exact H|].
  apply andb_prop in Hb as [[Ha Hb]%andb_prop Hc].
  destruct (mcall api all w) as [res w'| | |] eqn:E; try done. apply bool_decide_eq_true in Ha.
  exists tr, w, res, w'. split_and!; try done.
  - apply existsb_exists in Hb as ([[[|?]| | | | | | | | | | |] []] & Hin & Hx); try done.
    apply Pos.eqb_eq in Hx as ->. by apply elem_of_list_In.
  - apply existsb_exists in Hc as ([[|? [] v| | | | | | | | | |] []] & Hin & Hx); try done.
    apply andb_prop in Hx as [->%Pos.eqb_eq ->%N.eqb_eq]. by apply elem_of_list_In.
Qed.
Example C20_map_nonvacuous :
  (∀ d, digit le8 0 (low_bytes (Some 257)) d = digit le8 0 (low_bytes (Some 1)) d) /\ swapped nan_eq (Some 257) (Some 1) = false /\
  (∀ k', nan_eq None k' = false /\ nan_eq k' None = false) /\
  ∃ tr w res w', wrun ex 254 untouched [] tr w /\
    mcall ex (MAll 2 (λ u k v, (note u k v, v, true))) w = Ret res w' /\ w_usr w' = [None; Some 2; Some 1] /\
    (MNew 0, RHandle 2) ∈ tr /\ (MSet 2 None 30, RUnit) ∈ tr.
Proof.
  split; [done|]. split; [done|]. split; [intros [k'|]; done|].
  apply (alike_example_of _ [Call (MNew 0); Call (MSet 2 (Some 1) 10); Call (MSet 2 (Some 2) 20); Call (MSet 2 None 30)]).
  vm_compute. reflexivity.
Qed.

(** The same for ArrSet. *)
Lemma salike_example_of (api : setapi (option N) unit (option N) (list (option N))) ops (all : sop (option N) (list (option N))) ks :
  match swexec api 254 [] (empty_world []) ops with
  | Some (tr, w) =>
      match scall api all w with Ret _ w' => bool_decide (w_usr w' = ks) | _ => false end &&
      existsb (λ x, match x with (SNew 0, THandle h) => (h =? 2)%positive | _ => false end) tr &&
      existsb (λ x, match x with (SAdd h None, TUnit) => (h =? 2)%positive | _ => false end) tr
  | None => false
  end = true ->
  ∃ tr w res w', swrun api 254 untouched [] tr w /\ scall api all w = Ret res w' /\ w_usr w' = ks /\
    (SNew 0, THandle 2) ∈ tr /\ (SAdd 2 None, TUnit) ∈ tr.
Proof.
  intros H. destruct (swexec_test api 254 untouched [] ops (λ tr w,
      match scall api all w with Ret _ w' => bool_decide (w_usr w' = ks) | _ => false end &&
      existsb (λ x, match x with (SNew 0, THandle h) => (h =? 2)%positive | _ => false end) tr &&
      existsb (λ x, match x with (SAdd h None, TUnit) => (h =? 2)%positive | _ => false end) tr)) as (tr & w & Hr & Hb); [exact H|].
  apply andb_prop in Hb as [[Ha Hb]%andb_prop Hc].
  destruct (scall api all w) as [res w'| | |] eqn:E; try done. apply bool_decide_eq_true in Ha.
  exists tr, w, res, w'. split_and!; try done.
  - apply existsb_exists in Hb as ([[[|?]| | | | | |] []] & Hin & Hx); try done.
    apply Pos.eqb_eq in Hx as ->. by apply elem_of_list_In.
  - apply existsb_exists in Hc as ([[|? []| | | | |] []] & Hin & Hx); try done.
    apply Pos.eqb_eq in Hx as ->. by apply elem_of_list_In.
Qed.
Example C20_set_nonvacuous : ∃ tr w res w', swrun sex 254 untouched [] tr w /\
    scall sex (SAll 2 (λ u k, (k :: u, true))) w = Ret res w' /\ w_usr w' = [None; Some 2; Some 1] /\
    (SNew 0, THandle 2) ∈ tr /\ (SAdd 2 None, TUnit) ∈ tr.
Proof. apply (salike_example_of _ [SNew 0; SAdd 2 (Some 1); SAdd 2 (Some 2); SAdd 2 None]). vm_compute. reflexivity. Qed.

(** IntMap and IntSet with a hash function that looks at the first byte only: 1 is
    stored, and 257 has the same digits. *)
Example C20_int_nonvacuous : (∀ d, int_digit toyi 7 257 d = int_digit toyi 7 1 d) /\
  (∃ tr w, mrun (IntMap_api toyi 0 256)
    (λ tr op, mallowed is_int64 (λ _, True) tr op /\ ins_guard (int_digit toyi) (int_way toyi) (int_way toyi) tr op) 0 tr w /\
    (MNew 7, RHandle 2) ∈ tr /\ 1%Z ∈ stored tr 2) /\
  ∃ tr w, srun (IntSet_api toyi 256)
    (λ tr op, sallowed is_int64 (λ _, True) tr op /\ add_guard (int_digit toyi) (int_way toyi) tr op) ([] : list Z) tr w /\
    (SNew 7, THandle 2) ∈ tr /\ 1%Z ∈ sstored tr 2.
Proof.
  split; [intros d; reflexivity|]. split.
  - destruct (mexec_res (IntMap_api toyi 0 256) (gchk (int_digit toyi) intb (int_wayb toyi) (int_wayb toyi))
      (λ tr op, mallowed is_int64 (λ _, True) tr op /\ ins_guard (int_digit toyi) (int_way toyi) (int_way toyi) tr op) 0
      [MNew 7; MSet 2 (-1)%Z 10; MSet 2 1%Z 20; MSet 2 17%Z 20; MDel 2 (-1)%Z] [RHandle 2; RUnit; RUnit; RUnit; RUnit]) as (tr & w & Hr & Htr).
    + intros tr op Hc. eapply gchk_ok in Hc as [Ha Hg]; [|apply int_wayb_ok..]. split; [|exact Hg].
      destruct op; simpl in *; try done; destruct Ha as [? Hk]; (split; [done|by apply intb_ok]).
    + vm_compute. reflexivity.
    + exists tr, w. split; [exact Hr|]. rewrite <-(reverse_involutive tr), Htr. simpl. split; [|set_solver].
      apply elem_of_list_In. simpl. auto 10.
  - destruct (sexec_res (IntSet_api toyi 256) (gschk (int_digit toyi) intb (int_wayb toyi))
      (λ tr op, sallowed is_int64 (λ _, True) tr op /\ add_guard (int_digit toyi) (int_way toyi) tr op) ([] : list Z)
      [SNew 7; SAdd 2 (-1)%Z; SAdd 2 1%Z; SAdd 2 17%Z; SDel 2 (-1)%Z] [THandle 2; TUnit; TUnit; TUnit; TUnit]) as (tr & w & Hr & Htr).
    + intros tr op Hc. eapply gschk_ok in Hc as [Ha Hg]; [|apply int_wayb_ok..]. split; [|exact Hg].
      destruct op; simpl in *; try done; destruct Ha as [? Hk]; (split; [done|by apply intb_ok]).
    + vm_compute. reflexivity.
    + exists tr, w. split; [exact Hr|]. rewrite <-(reverse_involutive tr), Htr. simpl. split; [|set_solver].
      apply elem_of_list_In. simpl. auto 10.
Qed.

(** Map and Set with a Hash that ignores iter and looks at the low byte only. *)
Definition low_hash (k s i : N) : N := k mod 256.
Example C20_generic_nonvacuous : (∀ d, gdigit low_hash 7 257 d = gdigit low_hash 7 1 d) /\ decides_eq N.eqb (λ _, True) /\
  (∀ d, set_way low_hash 7 257 1 d) /\ (∀ d, mod_way low_hash 7 257 1 d) /\
  (∃ tr w, mrun (Map_api 0 256 N.eqb low_hash)
    (λ tr op, mallowed (λ _, True) (λ _, True) tr op /\ ins_guard (gdigit low_hash) (set_way low_hash) (mod_way low_hash) tr op) 0 tr w /\
    (MNew 7, RHandle 2) ∈ tr /\ 1 ∈ stored tr 2) /\
  ∃ tr w, srun (Set_api 256 N.eqb low_hash)
    (λ tr op, sallowed (λ _, True) (λ _, True) tr op /\ add_guard (gdigit low_hash) (set_way low_hash) tr op) ([] : list N) tr w /\
    (SNew 7, THandle 2) ∈ tr /\ 1 ∈ sstored tr 2.
Proof.
  split; [intros d; reflexivity|]. split; [apply N_decides|]. split; [intros d; reflexivity|]. split; [intros d; reflexivity|]. split.
  - destruct (mexec_res (Map_api 0 256 N.eqb low_hash) (gchk (gdigit low_hash) (λ _, true) (set_wayb low_hash) (mod_wayb low_hash))
      (λ tr op, mallowed (λ _, True) (λ _, True) tr op /\ ins_guard (gdigit low_hash) (set_way low_hash) (mod_way low_hash) tr op) 0
      [MNew 7; MSet 2 3 10; MSet 2 1 20; MSet 2 17 20; MDel 2 3] [RHandle 2; RUnit; RUnit; RUnit; RUnit]) as (tr & w & Hr & Htr).
    + intros tr op Hc. eapply gchk_ok in Hc as [Ha Hg]; [|apply set_wayb_ok|apply mod_wayb_ok]. split; [|exact Hg].
      destruct op; simpl in *; try done; destruct Ha as [? Hk]; done.
    + vm_compute. reflexivity.
    + exists tr, w. split; [exact Hr|]. rewrite <-(reverse_involutive tr), Htr. simpl. split; [|set_solver].
      apply elem_of_list_In. simpl. auto 10.
  - destruct (sexec_res (Set_api 256 N.eqb low_hash) (gschk (gdigit low_hash) (λ _, true) (set_wayb low_hash))
      (λ tr op, sallowed (λ _, True) (λ _, True) tr op /\ add_guard (gdigit low_hash) (set_way low_hash) tr op) ([] : list N)
      [SNew 7; SAdd 2 3; SAdd 2 1; SAdd 2 17; SDel 2 3] [THandle 2; TUnit; TUnit; TUnit; TUnit]) as (tr & w & Hr & Htr).
    + intros tr op Hc. eapply gschk_ok in Hc as [Ha Hg]; [|apply set_wayb_ok..]. split; [|exact Hg].
      destruct op; simpl in *; try done; destruct Ha as [? Hk]; done.
    + vm_compute. reflexivity.
    + exists tr, w. split; [exact Hr|]. rewrite <-(reverse_involutive tr), Htr. simpl. split; [|set_solver].
      apply elem_of_list_In. simpl. auto 10.
Qed.
End examples.

Print Assumptions C20_map_partial.
Print Assumptions C20_set_partial.
Print Assumptions C20_ArrMap_nan_partial.
Print Assumptions C20_ArrSet_nan_partial.
Print Assumptions C20_IntMap_partial.
Print Assumptions C20_IntSet_partial.
Print Assumptions C20_Map_partial.
Print Assumptions C20_Set_partial.
Print Assumptions Map_Set_alike_refuted.
Print Assumptions Set_Add_alike_refuted.
Print Assumptions Map_Mod_alike_refuted.
