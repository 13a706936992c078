(** C46: programs that use containers of several types at once.

    In a program ([xprog] in MixedSpec.v) calls on containers of any number of
    map and set types occur in any order, and a callback of Mod or All is itself
    such a program: it may use containers of its own type and of all others,
    panic, recover, and call Mod and All with further callbacks. [xexec] runs a
    program on the model of the code.

    [xwp] (MixedSpec.v) says what a program does if maps and sets are plain
    finite ones; the model of the code does not occur in its definition. It
    demands of the containers of each type what C40 demands of those of one
    type. It demands nothing else: whatever the callback of Mod or All of one
    type does with containers of other types is fine.

    Then the code ends with Φ or panics with Ψ as well; it does not hang or use
    memory wrongly. *)
From stdpp Require Import base numbers list gmap finite.
From Verif Require Import GoInt Mem Hash Amt Families Spec Client Types Sep Guards Refuted Steps Nested NestedRun NestedSet MixedSpec MixedRules Mixed Props_Types.
Local Open Scope nat_scope.

Section mixed.
(** Finitely many map types I and set types J. *)
Context (I J : Type) `{EqDecision I, EqDecision J} `{!Finite I, !Finite J}.
Context (K V CK : I -> Type) (SK SCK : J -> Type) (U : Type).
Context `{∀ i, EqDecision (K i)} `{∀ i, Countable (K i)} `{∀ j, EqDecision (SK j)} `{∀ j, Countable (SK j)}.
Local Notation joint := (joint V U CK SCK).
Context (fuel : nat) (u0 : U) (Hfuel : 256 <= fuel).
(** The map types, with the keys, seeds and new keys considered as in C40. *)
Context (mapi : ∀ i, mapapi (K i) (V i) (CK i) joint) (dig : ∀ i, N -> K i -> nat -> N) (zero : ∀ i, V i)
  (P : ∀ i, K i -> Prop) (Q : I -> N -> Prop) (WS WM : ∀ i, N -> K i -> K i -> nat -> Prop).
Hypothesis Hmaps : ∀ i,
  map_type (zero i) fuel (mapi i) (dig i) (λ tr op, mallowed (P i) (Q i) tr op /\ ins_guard (dig i) (WS i) (WM i) tr op).
(** The set types. *)
Context (sapi : ∀ j, setapi (SK j) unit (SCK j) joint) (sdig : ∀ j, N -> SK j -> nat -> N)
  (ok : ∀ j, list (sop (SK j) joint * sres) -> sop (SK j) joint -> Prop)
  (SP : ∀ j, SK j -> Prop) (SQ : J -> N -> Prop) (W : ∀ j, N -> SK j -> SK j -> nat -> Prop) (dl : J -> bool).
Hypothesis Hsets : ∀ j, set_type fuel (sapi j) (sdig j) (ok j).
Hypothesis Hok : ∀ j tr op, sallowed (SP j) (SQ j) tr op -> add_guard (sdig j) (W j) tr op -> dl j = true \/ no_del op -> ok j tr op.

Theorem C46_programs : ∀ (A : Type) (p : xprog K V SK U A) (Φ : A -> U -> Prop) (Ψ : U -> Prop),
  xwp dig zero P Q (λ i, free (dig i) (WS i)) (λ i, free (dig i) (WM i)) sdig SP SQ (λ j, free (sdig j) (W j)) dl
    p (λ _, ∅) (λ x _ σ, Φ x (x_usr σ)) (λ _ σ, Ψ (x_usr σ)) xnone (xinit u0) ->
  match xexec mapi sapi p (joint0 u0) with
  | JRet x s => Φ x (j_usr s)
  | JPanic s => Ψ (j_usr s)
  | _ => False
  end.
Proof.
  intros A p. destruct (pick (λ i, map_runs (zero i) fuel Hfuel (mapi i) (dig i) (P i) (Q i) (WS i) (WM i) (Hmaps i))) as [mr].
  destruct (pick (λ j, set_runs fuel Hfuel (sapi j) (sdig j) (ok j) (SP j) (SQ j) (W j) (dl j) (Hsets j) (Hok j))) as [sr].
  exact (xrun mapi sapi dig zero P Q _ _ sdig SP SQ _ dl mr sr u0 A p).
Qed.

(** Keys that the hash of each type separates always fit. *)
Theorem C46_separated :
  (∀ i, separates (dig i) (P i) (Q i) 240 /\ ways (dig i) (P i) (Q i) (WS i) /\ ways (dig i) (P i) (Q i) (WM i)) ->
  (∀ j, separates (sdig j) (SP j) (SQ j) 240 /\ ways (sdig j) (SP j) (SQ j) (W j)) ->
  ∀ (A : Type) (p : xprog K V SK U A) (Φ : A -> U -> Prop) (Ψ : U -> Prop),
  xwp dig zero P Q (λ _ _ _ _, True) (λ _ _ _ _, True) sdig SP SQ (λ _ _ _ _, True) dl
    p (λ _, ∅) (λ x _ σ, Φ x (x_usr σ)) (λ _ σ, Ψ (x_usr σ)) xnone (xinit u0) ->
  match xexec mapi sapi p (joint0 u0) with
  | JRet x s => Φ x (j_usr s)
  | JPanic s => Ψ (j_usr s)
  | _ => False
  end.
Proof.
  intros Hm Hs A p. destruct (pick (λ i, map_runs (zero i) fuel Hfuel (mapi i) (dig i) (P i) (Q i) (WS i) (WM i) (Hmaps i))) as [mr].
  destruct (pick (λ j, set_runs fuel Hfuel (sapi j) (sdig j) (ok j) (SP j) (SQ j) (W j) (dl j) (Hsets j) (Hok j))) as [sr].
  refine (xrun mapi sapi dig zero P Q _ _ sdig SP SQ _ dl (λ i, _) (λ j, _) u0 A p).
  - destruct (Hm i) as (Hsep & HS & HM).
    assert (Hin : ∀ W, ways (dig i) (P i) (Q i) W -> fits_in (P i) (Q i) (λ _ _ _, True) (free (dig i) W)).
    { intros W' HW s m k HQ Hks Hk _ _. eapply sep_free; [done|done|done| |done].
      intros k' ([k1 a] & -> & Hx)%elem_of_list_fmap. apply elem_of_map_to_list in Hx. simpl. eauto. }
    exact (mruns_fits (zero i) (mapi i) (dig i) (P i) (Q i) _ _ _ _ (Hin _ HS) (Hin _ HM) (mr i)).
  - destruct (Hs j) as (Hsep & HW). refine (sruns_fits (sapi j) (sdig j) (SP j) (SQ j) _ _ (dl j) _ (sr j)).
    intros s X k HQ HX Hk _ _. eapply sep_free; [done|done|done| |done]. intros k' Hk'%elem_of_elements. auto.
Qed.
End mixed.

(** ** Example

    A StringMap whose values are pointers to IntSets, and an IntMap. The
    callback of StringMap.Mod makes an IntSet, adds a key and stores its pointer
    as the value. The callback of StringMap.All loads the pointer and calls All
    on the IntSet; that callback calls IntMap.Mod with the key, whose callback
    stores a value; and then it panics. *)
Section example.
Definition ex_K (i : bool) : Type := if i then bytes else Z.
Definition ex_V (i : bool) : Type := if i then option positive else N.
Definition ex_CK (i : bool) : Type := if i then bytes else unit.
Local Instance ex_eq i : EqDecision (ex_K i) := match i with true => _ | false => _ end.
Local Instance ex_cnt i : Countable (ex_K i) := match i with true => _ | false => _ end.
Local Notation ex := (xprog ex_K ex_V (λ _ : unit, Z) nat).
Definition words_call {A} (op : mcmd bytes (option positive)) (c : mres (option positive) -> ex A) : ex A := XMap true op c.
Definition words_Mod {A} h (k : bytes) (f : positive -> bool -> ex unit) (c : ex A) : ex A := XMod true h k f c.
Definition words_All {A} h (f : bytes -> positive -> ex bool) (c : ex A) : ex A := XRange true h f c.
Definition nums_call {A} (op : mcmd Z N) (c : mres N -> ex A) : ex A := XMap false op c.
Definition nums_Mod {A} h (x : Z) (f : positive -> bool -> ex unit) (c : ex A) : ex A := XMod false h x f c.
Definition set_call {A} (op : scmd Z) (c : sres -> ex A) : ex A := XSet tt op c.
Definition set_All {A} h (f : Z -> ex bool) (c : ex A) : ex A := XEach tt h f c.
Definition ex_prog (k : bytes) (x : Z) (v : N) : ex (mres N * bool) :=
  words_call (CNew 0) (λ r, match r with RHandle words =>
  nums_call (CNew 0) (λ r, match r with RHandle nums =>
  words_Mod words k (λ a _,
    set_call (DNew 0) (λ r, match r with THandle t =>
    set_call (DAdd t x) (λ _,
    words_call (CStore a (Some t)) (λ _, XDone tt)) | _ => XThrow end))
  (XTry
    (words_All words (λ _ a, words_call (CLoad a) (λ r, match r with RVal (Some t) =>
       set_All t (λ y, nums_Mod nums y (λ a2 _, nums_call (CStore a2 v) (λ _, XDone tt)) (XOwn S (λ _, XDone true))) XThrow
       | _ => XDone true end))
     (XDone tt))
    (λ b, nums_call (CGet nums x) (λ r, XDone (r, b))))
  | _ => XThrow end) | _ => XThrow end).

Section wp.
Variables (dig : ∀ i, N -> ex_K i -> nat -> N) (zero : ∀ i, ex_V i) (P : ∀ i, ex_K i -> Prop) (Q : bool -> N -> Prop)
  (fitS fitM : ∀ i, N -> list (ex_K i) -> ex_K i -> Prop).
Variables (sdig : unit -> N -> Z -> nat -> N) (SP : unit -> Z -> Prop) (SQ : unit -> N -> Prop)
  (fit : unit -> N -> list Z -> Z -> Prop) (dl : unit -> bool).
Local Arguments xwp : simpl never.
Local Ltac norm := repeat first [progress cbn|rewrite upd_same|rewrite upd_other by done].
Local Tactic Notation "norm" "in" hyp(H) := repeat first [progress cbn in H|rewrite upd_same in H|rewrite upd_other in H by done].
Lemma ex_wp k x v : P true k -> P false x -> SP tt x -> (∀ i, Q i 0%N) -> SQ tt 0%N ->
  (∀ s, fitM true s [] k) -> (∀ s, fitM false s [] x) -> (∀ s, fit tt s [] x) ->
  xwp dig zero P Q fitS fitM sdig SP SQ fit dl (ex_prog k x v) (λ _, ∅)
    (λ r _ σ, r = (RGet v true, true) /\ x_usr σ = 1) (λ _ _, False) xnone (xinit 0).
Proof.
  intros Hk Hx HSx HQ HSQ Hf1 Hf2 Hf3. unfold ex_prog, words_call, words_Mod, words_All, nums_call, nums_Mod, set_call, set_All.
  apply xwp_map; [apply HQ|done|done|]. intros r σ (words & -> & _ & ->). norm.
  apply xwp_map; [apply HQ|done|done|]. intros r σ (nums & -> & _ & ->). norm.
  eapply xwp_mod_new; [done|norm; set_solver +|norm; apply lookup_insert|done|set_solver +|apply Hf1|]. intros a _. norm.
  apply xwp_set; [apply HSQ|]. intros r σ (t & -> & _ & ->). norm.
  apply xwp_set.
  { split; [done|]. exists 0%N, ∅. split; [norm; apply lookup_insert|]. right. rewrite elements_empty. apply Hf3. }
  intros r σ Hst. norm in Hst. destruct Hst as (-> & s & X & HX & ->).
  rewrite lookup_insert in HX. injection HX as <- <-. norm.
  apply xwp_map; [norm; rewrite lookup_insert; eauto|done|done|]. intros r σ Hst. norm in Hst. destruct Hst as (-> & _ & ->). norm.
  apply xwp_done. apply xwp_try.
  eapply xwp_all; [norm; set_solver +|norm; apply lookup_insert|]. intros es Hes _.
  rewrite insert_empty, map_to_list_singleton in Hes. apply Permutation_singleton_r in Hes as ->. cbn [xwp_each].
  apply xwp_map; [norm; rewrite lookup_insert; eauto|done|done|]. intros r σ Hst. norm in Hst.
  destruct Hst as (-> & v0 & Hv & ->). rewrite lookup_insert in Hv. injection Hv as <-. norm.
  eapply xwp_set_all; [norm; apply lookup_insert|]. intros ks Hks _. rewrite union_empty_r_L, elements_singleton in Hks.
  apply Permutation_singleton_r in Hks as ->. cbn [xwp_each].
  eapply xwp_mod_new; [done|norm; set_solver +|norm; apply lookup_insert|done|set_solver +|apply Hf2|]. intros a2 _. norm.
  apply xwp_map; [norm; rewrite lookup_insert; eauto|done|done|]. intros r σ Hst. norm in Hst. destruct Hst as (-> & _ & ->). norm.
  apply xwp_done. apply xwp_own, xwp_done. split; [norm; set_solver +|]. apply xwp_throw.
  apply xwp_map; [|norm; set_solver +|done|].
  { split; [done|]. norm. rewrite lookup_insert. eauto. }
  intros r σ Hst. norm in Hst. destruct Hst as (-> & _ & ->). apply xwp_done. split; [|done].
  unfold value. norm. rewrite lookup_insert. norm. rewrite lookup_insert. norm. by rewrite lookup_insert.
Qed.
End wp.

Local Notation joint := (joint ex_V nat ex_CK (λ _ : unit, unit)).
Definition ex_mapi i : mapapi (ex_K i) (ex_V i) (ex_CK i) joint :=
  match i with true => StringMap_api le8 None 256 | false => IntMap_api le8 0%N 256 end.
Definition ex_sapi (j : unit) : setapi Z unit unit joint := IntSet_api le8 256.
(** The program runs on the code with the predicted result. *)
Example C46_nonvacuous : ∀ v : N,
  match xexec ex_mapi ex_sapi (ex_prog [7%N] 3%Z v) (joint0 0) with
  | JRet r s => r = (RGet v true, true) /\ j_usr s = 1
  | _ => False
  end.
Proof.
  intros v.
  set (P := λ i : bool, match i return ex_K i -> Prop with true => λ _, True | false => is_int64 end).
  set (dig := λ i : bool, match i return N -> ex_K i -> nat -> N with true => digit le8 | false => int_digit le8 end).
  set (zero := λ i : bool, match i return ex_V i with true => None | false => 0%N end).
  set (W := λ i : bool, match i return N -> ex_K i -> ex_K i -> nat -> Prop with true => any_way | false => int_way le8 end).
  assert (Hm : ∀ i, map_type (zero i) 256 (ex_mapi i) (dig i)
    (λ tr op, mallowed (P i) (λ _, True) tr op /\ ins_guard (dig i) (W i) (W i) tr op)).
  { intros []; [apply (type_StringMap None 256 le8 (λ _, True) (λ _, True))|].
    apply (type_IntMap 0%N 256 le8 is_int64 (λ _, True)); auto. }
  pose proof (type_IntSet (U:=joint) 256 le8 is_int64 (λ _, True) (λ k Hk, Hk)) as Hs.
  pose proof (C46_programs bool unit ex_K ex_V ex_CK (λ _, Z) (λ _, unit) nat 256 0 (le_n _) ex_mapi dig zero P (λ _ _, True) W W Hm
    ex_sapi (λ _, int_digit le8) _ (λ _, is_int64) (λ _ _, True) (λ _, int_way le8) (λ _, true) (λ _, Hs)
    (λ _ tr op Ha Hg _, conj Ha Hg) _ (ex_prog [7%N] 3%Z v) (λ r u, r = (RGet v true, true) /\ u = 1) (λ _, False)) as Hx.
  apply Hx. refine (ex_wp dig zero P (λ _ _, True) _ _ _ (λ _, is_int64) (λ _ _, True) _ _ [7%N] 3%Z v I _ _ (λ _, I) I _ _ _).
  - change (is_int64 3). unfold is_int64. lia.
  - change (is_int64 3). unfold is_int64. lia.
  - intros s k' [Hk' _]. exfalso. by apply elem_of_nil in Hk'.
  - intros s k' [Hk' _]. exfalso. by apply elem_of_nil in Hk'.
  - intros s k' [Hk' _]. exfalso. by apply elem_of_nil in Hk'.
Qed.
End example.

Print Assumptions C46_programs.
Print Assumptions C46_separated.
