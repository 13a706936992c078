(** C40: programs whose callbacks are programs.

    In a program ([nprog] and [sprog] in Nested.v) a callback of Mod or All is
    itself a program: it makes calls, changes values through the pointer it is
    given, panics, recovers, and calls Mod and All with further callbacks.
    [nexec api p] and [sexec api p] run p on the model of the code.

    [wp dig zero P Q fitS fitM p lk Φ Ψ g σ] and [swp] (Nested.v) say what p
    does if maps are plain finite maps: p ends with Φ or panics with Ψ. The
    model of the code does not occur in their definition. They demand that

    - the keys and seeds are those considered (P and Q), and the calls are made
      on containers that New returned, or on addresses of values;
    - the callback of a Mod of a key that is not stored does not use the map at
      all, nor is the map used again if that callback panics; but if no stored
      key is in the way of the new one, the callback may use the map and add or
      delete no keys, and the map may be used after a panic;
    - the callback of All does not tell to go on after it changed the keys.

    A new key that is added must fit: [free dig WS] and [free dig WM] are the
    conditions of [ins_guard] in C01 to C12. The second theorem takes keys that
    the hash separates, where each key fits.

    Then the code ends with Φ or panics with Ψ as well; it does not hang or use
    memory wrongly. Φ and Ψ speak of the result and of the user's own variables:
    whatever else is of interest the program can find out with calls. *)
From stdpp Require Import base numbers list gmap.
From Verif Require Import GoInt Mem Hash Amt Families Spec Client Types Sep Guards Refuted Steps Nested NestedRun NestedSet Props_Types.
Local Open Scope nat_scope.

Section maps.
Context (V U : Type) (zero : V) (fuel : nat) (u0 : U) (Hfuel : 256 <= fuel).
Context (K : Type) `{Countable K} (CK : Type) (api : mapapi K V CK U) (dig : N -> K -> nat -> N)
  (P : K -> Prop) (Q : N -> Prop) (WS WM : N -> K -> K -> nat -> Prop).
Hypothesis Ht : map_type zero fuel api dig (λ tr op, mallowed P Q tr op /\ ins_guard dig WS WM tr op).

Theorem C40_programs_map : ∀ (A : Type) (p : nprog K V U A) (Φ : A -> U -> Prop) (Ψ : U -> Prop),
  wp dig zero P Q (free dig WS) (free dig WM) p ∅ (λ x _ σ, Φ x (ms_usr σ)) (λ _ σ, Ψ (ms_usr σ)) (Mark ∅ ∅) (minit u0) ->
  match nexec api p (empty_world u0) with
  | Ret x w => Φ x (w_usr w)
  | Panic w => Ψ (w_usr w)
  | _ => False
  end.
Proof. exact (nested_map zero fuel u0 Hfuel api dig P Q WS WM Ht). Qed.

Theorem C40_separated_map : separates dig P Q 240 -> ways dig P Q WS -> ways dig P Q WM ->
  ∀ (A : Type) (p : nprog K V U A) (Φ : A -> U -> Prop) (Ψ : U -> Prop),
  let anywhere := λ _ _ _, True in
  wp dig zero P Q anywhere anywhere p ∅ (λ x _ σ, Φ x (ms_usr σ)) (λ _ σ, Ψ (ms_usr σ)) (Mark ∅ ∅) (minit u0) ->
  match nexec api p (empty_world u0) with
  | Ret x w => Φ x (w_usr w)
  | Panic w => Ψ (w_usr w)
  | _ => False
  end.
Proof. exact (nested_sep_map zero fuel u0 Hfuel api dig P Q WS WM Ht). Qed.
End maps.

(** Sets: only All has a callback. dl tells whether Del is used; BytesSet must
    be used without it. *)
Section sets.
Context (U : Type) (fuel : nat) (u0 : U) (Hfuel : 256 <= fuel).
Context (K : Type) `{Countable K} (CK : Type) (api : setapi K unit CK U) (dig : N -> K -> nat -> N)
  (ok : list (sop K U * sres) -> sop K U -> Prop)
  (P : K -> Prop) (Q : N -> Prop) (W : N -> K -> K -> nat -> Prop) (dl : bool).
Hypothesis Ht : set_type fuel api dig ok.
Hypothesis Hok : ∀ tr op, sallowed P Q tr op -> add_guard dig W tr op -> dl = true \/ no_del op -> ok tr op.

Theorem C40_programs_set : ∀ (A : Type) (p : sprog K U A) (Φ : A -> U -> Prop) (Ψ : U -> Prop),
  swp dig P Q (free dig W) dl p (λ x _ σ, Φ x (ss_usr σ)) (λ _ σ, Ψ (ss_usr σ)) ∅ (sinit u0) ->
  match Nested.sexec api p (empty_world u0) with
  | Ret x w => Φ x (w_usr w)
  | Panic w => Ψ (w_usr w)
  | _ => False
  end.
Proof. exact (nested_set fuel u0 Hfuel api dig ok P Q W dl Ht Hok). Qed.

Theorem C40_separated_set : separates dig P Q 240 -> ways dig P Q W ->
  ∀ (A : Type) (p : sprog K U A) (Φ : A -> U -> Prop) (Ψ : U -> Prop),
  swp dig P Q (λ _ _ _, True) dl p (λ x _ σ, Φ x (ss_usr σ)) (λ _ σ, Ψ (ss_usr σ)) ∅ (sinit u0) ->
  match Nested.sexec api p (empty_world u0) with
  | Ret x w => Φ x (w_usr w)
  | Panic w => Ψ (w_usr w)
  | _ => False
  end.
Proof. exact (nested_sep_set fuel u0 Hfuel api dig ok P Q W dl Ht Hok). Qed.
End sets.

Section example.
Context `{Countable K} {V U : Type} (dig : N -> K -> nat -> N) (zero : V).
Context (P : K -> Prop) (Q : N -> Prop) (fitS fitM : N -> list K -> K -> Prop).
Variables (k : K) (v1 v2 : V).

(** Mod of k in h calls, in its callback, Get of k in h, Mod of k in h2 with a
    callback that stores v1 there, and stores v2. Then the callback of All on h copies the
    value to h2 and panics. *)
Definition copy_prog : nprog K V U (mres V * bool * mres V) :=
  NCall (MNew 0) (λ r, match r with RHandle h =>
  NCall (MNew 0) (λ r, match r with RHandle h2 =>
  NMod h k
    (λ a _, NCall (MGet h k) (λ r, match r with RGet _ true => NThrow | _ =>
       NMod h2 k (λ a2 _, NCall (MStore a2 v1) (λ _, NDone tt)) (NCall (MStore a v2) (λ _, NDone tt)) end))
  (NCall (MGet h2 k) (λ r1,
   NTry (NAll h (λ k a, NCall (MLoad a) (λ r, match r with RVal v => NCall (MSet h2 k v) (λ _, NThrow) | _ => NDone false end))
     (NDone tt))
   (λ b, NCall (MGet h2 k) (λ r2, NDone (r1, b, r2)))))
  | _ => NThrow end) | _ => NThrow end).

Local Arguments wp : simpl never.
Local Ltac side := first [done|simpl; set_solver].
Lemma copy_wp u0 : P k -> Q 0%N -> (∀ s, fitM s [] k) ->
  wp dig zero P Q fitS fitM copy_prog ∅ (λ x _ _, x = (RGet v1 true, true, RGet v2 true)) (λ _ _, False) (Mark ∅ ∅) (minit u0).
Proof.
  intros Hk HQ Hfit. unfold copy_prog.
  apply wp_call; [done..|]. intros r σ (h & -> & _ & ->). cbn [minit ms_map ms_val ms_usr rekeyed].
  apply wp_call; [done..|]. intros r σ (h2 & -> & Hn & ->). cbn [ms_map ms_val ms_usr rekeyed] in *.
  assert (h2 ≠ h) as Hne by (intros ->; by rewrite lookup_insert in Hn). clear Hn.
  eapply wp_mod_free; [done|side|simpl; by rewrite lookup_insert_ne, lookup_insert|done|done|apply Hfit|by intros k' [Hx%elem_of_nil _]|].
  intros a _. cbn [ms_map ms_val ms_usr].
  apply wp_call; [|side..|].
  { split; [done|]. simpl. rewrite lookup_insert_ne, lookup_insert by done. eauto. }
  intros r σ (-> & _ & ->). unfold value. simpl. rewrite lookup_insert_ne, lookup_insert by done. simpl. rewrite lookup_empty. simpl.
  eapply wp_mod_new; [done|side|simpl; by rewrite lookup_insert|done|side|apply Hfit|].
  intros a2 Ha2. cbn [ms_map ms_val ms_usr] in *.
  assert (a2 ≠ a) as Hna by (intros ->; by rewrite lookup_insert in Ha2). clear Ha2.
  apply wp_call; [|side..|].
  { simpl. rewrite lookup_insert. eauto. }
  intros r σ (-> & _ & ->). cbn [ms_map ms_val ms_usr rekeyed]. apply wp_done.
  apply wp_call; [|side..|].
  { simpl. rewrite !lookup_insert_ne, lookup_insert by done. eauto. }
  intros r σ (-> & _ & ->). cbn [ms_map ms_val ms_usr rekeyed]. apply wp_done.
  apply wp_call; [|side..|].
  { split; [done|]. simpl. rewrite lookup_insert_ne, lookup_insert by done. eauto. }
  intros r1 σ (-> & _ & ->). unfold value. simpl. rewrite lookup_insert_ne, !lookup_insert by done. simpl. rewrite lookup_insert. simpl.
  rewrite lookup_insert_ne, lookup_insert by done. simpl.
  apply wp_try. eapply wp_all; [side|simpl; by rewrite lookup_insert|]. intros es Hes _.
  rewrite insert_empty, map_to_list_singleton in Hes. apply Permutation_singleton_r in Hes as ->. cbn [wp_each].
  apply wp_call; [|side..|].
  { simpl. rewrite lookup_insert. eauto. }
  simpl. intros r σ (-> & v & Hv & ->). simpl in Hv. rewrite lookup_insert in Hv. injection Hv as <-.
  apply wp_call; [| |side|].
  { split; [done|]. eexists _, _. simpl. rewrite lookup_insert_ne, lookup_insert by done. split; [done|]. left. rewrite lookup_insert. eauto. }
  { side. }
  intros r σ (-> & s & m & Hm & Hp). simpl in Hm. rewrite lookup_insert_ne, lookup_insert in Hm by done. injection Hm as <- <-.
  rewrite lookup_insert in Hp. subst σ. apply wp_throw. simpl.
  apply wp_call; [| |side|].
  { split; [done|]. simpl. rewrite lookup_insert_ne, lookup_insert by done. eauto. }
  { side. }
  intros r σ (-> & _ & ->). unfold value. simpl. rewrite lookup_insert_ne, !lookup_insert by done. simpl. rewrite lookup_insert. simpl.
  rewrite lookup_insert. simpl. by apply wp_done.
Qed.
End example.

(** ** Examples *)

(** The program runs on the code with the predicted result. *)
Example C40_nonvacuous_map : ∀ (v1 v2 : N),
  (∃ w, nexec (StringMap_api le8 0%N 256) (copy_prog [7%N] v1 v2) (empty_world tt) = Ret (RGet v1 true, true, RGet v2 true) w) /\
  (∃ w, nexec (IntMap_api le8 0%N 256) (copy_prog 7%Z v1 v2) (empty_world tt) = Ret (RGet v1 true, true, RGet v2 true) w) /\
  (∃ w, nexec (ArrMap_api le8 0%N 256 N.eqb (λ k, [k])) (copy_prog 7%N v1 v2) (empty_world tt) = Ret (RGet v1 true, true, RGet v2 true) w) /\
  (∃ w, nexec (Map_api 0%N 256 N.eqb (λ k _ _, k)) (copy_prog 7%N v1 v2) (empty_world tt) = Ret (RGet v1 true, true, RGet v2 true) w).
Proof.
  assert (Hrun : ∀ K `{Countable K} CK (api : mapapi K N CK unit) dig P Q WS WM (k : K) (v1 v2 : N), 
    map_type 0%N 256 api dig (λ tr op, mallowed P Q tr op /\ ins_guard dig WS WM tr op) -> P k -> Q 0%N ->
    ∃ w, nexec api (copy_prog k v1 v2) (empty_world tt) = Ret (RGet v1 true, true, RGet v2 true) w).
  { intros K ?? CK api dig P Q WS WM k v1 v2 Ht Hk HQ.
    pose proof (C40_programs_map N unit 0%N 256 tt (le_n _) K CK api dig P Q WS WM Ht _ (copy_prog k v1 v2)
      (λ x _, x = (RGet v1 true, true, RGet v2 true)) (λ _, False)) as Hx.
    destruct (nexec api (copy_prog k v1 v2) (empty_world tt)) as [x w|w| |]; [exists w; f_equal|exfalso..].
    all: apply Hx; apply copy_wp; [done|done|]; intros s k' [Hk' _]; by apply elem_of_nil in Hk'. }
  intros v1 v2. split_and!.
  - eapply Hrun; [apply (type_StringMap 0%N 256 le8 (λ _, True) (λ _, True))|done..].
  - eapply Hrun; [apply (type_IntMap 0%N 256 le8 is_int64 (λ _, True)); auto|unfold is_int64; lia|done].
  - eapply Hrun; [apply (type_ArrMap 0%N 256 N le8 N.eqb (λ k, [k]) (λ _, True) (λ _, True))|done..].
    intros ????. apply N.eqb_eq.
  - eapply Hrun; [apply (type_Map 0%N 256 N N.eqb (λ k _ _, k) (λ _, True) (λ _, True))|done..].
    intros ????. apply N.eqb_eq.
Qed.

(** The callback of All on one set adds the key to another set and, in the
    callback of All on that one, finds it there and panics. *)
Definition meet_prog {K} (k : K) : sprog K nat (sres * bool) :=
  SpCall (SNew 0) (λ r, match r with THandle h =>
  SpCall (SNew 0) (λ r, match r with THandle h2 =>
  SpCall (SAdd h k) (λ _,
  SpTry (SpAll h (λ k1, SpCall (SAdd h2 k1) (λ _,
      SpAll h2 (λ k2, SpCall (SHas h k2) (λ r, match r with THas true => SpOwn S (λ _, SpThrow) | _ => SpDone true end)) (SpDone false)))
    (SpDone tt))
  (λ b, SpCall (SLen h2) (λ r, SpDone (r, b))))
  | _ => SpThrow end) | _ => SpThrow end).
Lemma meet_wp `{Countable K} (dig : N -> K -> nat -> N) (P : K -> Prop) (Q : N -> Prop) (fit : N -> list K -> K -> Prop) dl k :
  P k -> Q 0%N -> (∀ s, fit s [] k) ->
  swp dig P Q fit dl (meet_prog k) (λ x _ σ, x = (TLen 1, true) /\ ss_usr σ = 1) (λ _ _, False) ∅ (sinit 0).
Proof.
  intros Hk HQ Hfit. unfold meet_prog. cbn [swp]. split; [done|]. intros r σ (h & -> & _ & ->). cbn [swp sinit ss_set ss_usr].
  split; [done|]. intros r σ (h2 & -> & Hn & ->). cbn [swp ss_set ss_usr] in *.
  assert (h2 ≠ h) as Hne by (intros ->; by rewrite lookup_insert in Hn). clear Hn.
  split.
  { split; [done|]. exists 0%N, ∅. split; [cbn; by rewrite lookup_insert_ne, lookup_insert|]. right. rewrite elements_empty. apply Hfit. }
  intros r σ Hst. cbn in Hst. destruct Hst as (-> & s & X & HX & ->). cbn [ss_set ss_usr] in *.
  rewrite lookup_insert_ne, lookup_insert in HX by done. injection HX as <- <-. rewrite union_empty_r_L. cbn [swp ss_set ss_usr].
  exists 0%N, {[k]}. split; [by rewrite lookup_insert|]. intros ks Hks _. rewrite elements_singleton in Hks.
  apply Permutation_singleton_r in Hks as ->. cbn [swp_each swp ss_set ss_usr].
  split.
  { split; [done|]. exists 0%N, ∅. split; [cbn; by rewrite lookup_insert_ne, lookup_insert|]. right. rewrite elements_empty. apply Hfit. }
  intros r σ Hst. cbn in Hst. destruct Hst as (-> & s & X & HX & ->). cbn [ss_set ss_usr] in *.
  rewrite lookup_insert_ne, lookup_insert in HX by done. injection HX as <- <-. rewrite union_empty_r_L. cbn [swp ss_set ss_usr].
  exists 0%N, {[k]}. split; [by rewrite lookup_insert|]. intros ks Hks _. rewrite elements_singleton in Hks.
  apply Permutation_singleton_r in Hks as ->. cbn [swp_each swp ss_set ss_usr].
  split.
  { split; [done|]. cbn. rewrite lookup_insert_ne, lookup_insert by done. eauto. }
  intros r σ Hst. cbn in Hst. destruct Hst as (-> & s & X & HX & ->). cbn [ss_set ss_usr] in *.
  rewrite lookup_insert_ne, lookup_insert in HX by done. injection HX as <- <-.
  rewrite bool_decide_true by set_solver +. cbn [swp ss_set ss_usr].
  split.
  { cbn. rewrite lookup_insert. eauto. }
  intros r σ Hst. cbn in Hst. destruct Hst as (-> & s & X & HX & ->). cbn [ss_set ss_usr] in *.
  rewrite lookup_insert in HX. injection HX as <- <-. by rewrite size_singleton.
Qed.
Example C40_nonvacuous_set :
  (∃ w, Nested.sexec (StringSet_api le8 256) (meet_prog [7%N]) (empty_world 0) = Ret (TLen 1%N, true) w /\ w_usr w = 1) /\
  (∃ w, Nested.sexec (BytesSet_api le8 256) (meet_prog [7%N]) (empty_world 0) = Ret (TLen 1%N, true) w /\ w_usr w = 1) /\
  (∃ w, Nested.sexec (Set_api 256 N.eqb (λ k _ _, k)) (meet_prog 7%N) (empty_world 0) = Ret (TLen 1%N, true) w /\ w_usr w = 1).
Proof.
  assert (Hrun : ∀ K `{Countable K} CK (api : setapi K unit CK nat) dig ok P Q W dl (k : K), set_type 256 api dig ok ->
    (∀ tr op, sallowed P Q tr op -> add_guard dig W tr op -> dl = true \/ no_del op -> ok tr op) -> P k -> Q 0%N ->
    ∃ w, Nested.sexec api (meet_prog k) (empty_world 0) = Ret (TLen 1%N, true) w /\ w_usr w = 1).
  { intros K ?? CK api dig ok P Q W dl k Ht Hok Hk HQ.
    pose proof (C40_programs_set nat 256 0 (le_n _) K CK api dig ok P Q W dl Ht Hok _ (meet_prog k)
      (λ x u, x = (TLen 1, true) /\ u = 1) (λ _, False)) as Hx.
    destruct (Nested.sexec api (meet_prog k) (empty_world 0)) as [x w|w| |]; [|exfalso..].
    1: destruct Hx as [-> Hu]; [|by exists w].
    2-4: apply Hx.
    all: apply meet_wp; [done|done|]; intros s k' [Hk' _]; by apply elem_of_nil in Hk'. }
  split_and!.
  - eapply (Hrun _ _ _ _ _ _ _ (λ _, True) (λ _, True) any_way true); [apply (type_StringSet 256 le8 (λ _, True) (λ _, True))|by intros; split|done..].
  - eapply (Hrun _ _ _ _ _ _ _ (λ _, True) (λ _, True) any_way false); [apply (type_BytesSet 256 le8 (λ _, True) (λ _, True))| |done..].
    intros tr op Ha Hg [Hd|Hd]; [done|by split].
  - eapply (Hrun _ _ _ _ _ _ _ (λ _, True) (λ _, True) _ true); [apply (type_Set 256 N N.eqb (λ k _ _, k) (λ _, True) (λ _, True)); intros ????; apply N.eqb_eq|by intros; split|done..].
Qed.

(** ** The demands on callbacks of Mod are needed *)

(** Store the key old, call Mod of the key new with a callback that runs
    during, and then Get of ks and Len. *)
Definition inside {K} (old new : K) (during : positive -> nprog K N unit unit) (ks : list K) : nprog K N unit (list (mres N)) :=
  NCall (MNew 0) (λ r, match r with RHandle h =>
    NCall (MSet h old 1%N) (λ _, NMod h new (λ _ _, during h)
      (foldr (λ k (c : list (mres N) -> nprog K N unit (list (mres N))) rs, NCall (MGet h k) (λ r, c (rs ++ [r])))
        (λ rs, NCall (MLen h) (λ r, NDone (rs ++ [r]))) ks []))
    | _ => NThrow end).
Inductive seen {A} : Type := Result (x : A) | Panicked | Crashed | Looped.
Definition see {V CK U A} (o : outcome V CK U A) : seen :=
  match o with Ret x _ => Result x | Panic _ => Panicked | Fault => Crashed | Hang => Looped end.

(** The stored key is in the way of the new one, and the callback reads the map:
    Get of the stored key panics, or does not find it (IntMap). *)
Theorem C41_read_inside_refuted : ∃ (sum64 : N -> bytes -> N) (k1 k2 : bytes) (i1 i2 : Z),
  in_way (digit sum64) 0 [k1] k2 k1 /\ digit sum64 0 k1 1 ≠ digit sum64 0 k2 1 /\
  is_int64 i1 /\ is_int64 i2 /\ in_way (int_digit sum64) 0 [i1] i2 i1 /\ int_digit sum64 0 i1 1 ≠ int_digit sum64 0 i2 1 /\
  let get {K} (k : K) h : nprog K N unit unit := NCall (MGet h k) (λ _, NDone tt) in
  let check {K} (k : K) h : nprog K N unit unit := NCall (MGet h k) (λ r, match r with RGet _ true => NThrow | _ => NDone tt end) in
  see (nexec (StringMap_api sum64 0%N 256) (inside k1 k2 (get k1) [k1; k2]) (empty_world tt)) = Panicked /\
  see (nexec (BytesMap_api sum64 0%N 256) (inside k1 k2 (get k1) [k1; k2]) (empty_world tt)) = Panicked /\
  see (nexec (ArrMap_api sum64 0%N 256 (λ a b : bytes, bool_decide (a = b)) id) (inside k1 k2 (get k1) [k1; k2]) (empty_world tt)) = Panicked /\
  see (nexec (IntMap_api sum64 0%N 256) (inside i1 i2 (check i1) [i1; i2]) (empty_world tt)) = Result [RGet 1%N true; RGet 0%N true; RLen 2].
Proof.
  exists le8, [2%N], [18%N], 2%Z, 18%Z.
  assert (Hw : ∀ (K : Type) `{EqDecision K} (dig : N -> K -> nat -> N) k k', k ≠ k' -> 0 < common 241 (dig 0%N k) (dig 0%N k') -> in_way dig 0 [k'] k k').
  { intros K ? dig k k' Hne Hc. split; [left|]. split; [done|]. unfold depth. simpl. by rewrite decide_True. }
  split; [apply Hw; [done|]; apply Nat.ltb_lt; vm_compute; reflexivity|].
  split; [vm_compute; discriminate|]. split; [unfold is_int64; lia|]. split; [unfold is_int64; lia|].
  split; [apply Hw; [done|]; apply Nat.ltb_lt; vm_compute; reflexivity|].
  split; [vm_compute; discriminate|].
  intros get check. split_and!; vm_compute; reflexivity.
Qed.

(** No stored key is in the way of the new one, and the callback adds another
    key to the map: the stored key and the new key are lost, and Len counts them. *)
Theorem C41_add_inside_refuted : ∃ (sum64 : N -> bytes -> N) (Hash : N -> N -> N -> N) (k1 k2 k3 : bytes) (i1 i2 i3 : Z) (g1 g2 g3 : N),
  NoDup (map (λ k, digit sum64 0 k 0) [k1; k2; k3]) /\
  Forall is_int64 [i1; i2; i3] /\ NoDup (map (λ k, int_digit sum64 0 k 0) [i1; i2; i3]) /\
  NoDup (map (λ k, gdigit Hash 0 k 0) [g1; g2; g3]) /\
  let put {K} (k : K) h : nprog K N unit unit := NCall (MSet h k 7%N) (λ _, NDone tt) in
  let lost := Result [RGet 0%N false; RGet 0%N false; RGet 7%N true; RLen 3] in
  see (nexec (StringMap_api sum64 0%N 256) (inside k1 k2 (put k3) [k1; k2; k3]) (empty_world tt)) = lost /\
  see (nexec (BytesMap_api sum64 0%N 256) (inside k1 k2 (put k3) [k1; k2; k3]) (empty_world tt)) = lost /\
  see (nexec (ArrMap_api sum64 0%N 256 (λ a b : bytes, bool_decide (a = b)) id) (inside k1 k2 (put k3) [k1; k2; k3]) (empty_world tt)) = lost /\
  see (nexec (IntMap_api sum64 0%N 256) (inside i1 i2 (put i3) [i1; i2; i3]) (empty_world tt)) = lost /\
  see (nexec (Map_api 0%N 256 N.eqb Hash) (inside g1 g2 (put g3) [g1; g2; g3]) (empty_world tt)) = lost.
Proof.
  exists le8, (λ k _ _, k), [2%N], [3%N], [1%N], 2%Z, 3%Z, 1%Z, 2%N, 3%N, 1%N.
  split; [apply (bool_decide_unpack _); vm_compute; exact I|].
  split; [repeat constructor; unfold is_int64; lia|].
  split; [apply (bool_decide_unpack _); vm_compute; exact I|].
  split; [apply (bool_decide_unpack _); vm_compute; exact I|].
  intros put lost. split_and!; vm_compute; reflexivity.
Qed.

Print Assumptions C40_programs_map.
Print Assumptions C40_separated_map.
Print Assumptions C40_programs_set.
Print Assumptions C40_separated_set.
Print Assumptions C41_read_inside_refuted.
Print Assumptions C41_add_inside_refuted.
