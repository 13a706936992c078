(** Properties C13 to C19, C22, C24, C25 and C31 for every map and set type.

    [map_type zero fuel api dig ok] (Types.v): api is the set of methods of one of
    StringMap, BytesMap, IntMap, ArrMap, Map; dig gives the 4-bit hash digits of
    its keys; ok says which calls are made. [mrun api ok u0 tr w]: some program made the
    calls tr (latest first) and arrived at the heap w. [contents api zero ok tr w h m]
    (Observe.v): m is what Get shows of map h. *)
From Coq Require Import SpecFloat.
From stdpp Require Import base numbers list gmap.
From Verif Require Import GoInt Mem Hash Spec Guards Client Types Observe ObserveFacts ObserveMap ObserveSet Pack Runs Sep Props_Types.
Local Open Scope nat_scope.

Section maps.
Context (V U K CK : Type) (EqK : EqDecision K) (CoK : Countable K) (zero : V) (u0 : U) (fuel : nat).
Context (api : mapapi K V CK U) (dig : N -> K -> nat -> N) (ok : list (mop K V U * mres V) -> mop K V U -> Prop).
Hypothesis Hfuel : 256 <= fuel.
Hypothesis Htype : map_type zero fuel api dig ok.
Implicit Types (tr : list (mop K V U * mres V)) (w : world V CK U) (h p : positive) (k : K) (v : V) (m : gmap K V).
Local Notation contents := (contents api zero ok).
Local Notation mrun := (mrun api ok u0).

(** Every map has contents at all times. *)
Theorem contents_exist : ∀ tr w h, mrun tr w -> ∃ m, contents tr w h m /\ ∀ m', contents tr w h m' -> m' = m.
Proof.
  intros tr w h Hr. destruct (obs_contents zero fuel u0 Hfuel api dig ok Htype tr w h Hr) as [m Hm].
  exists m. split; [done|]. intros m' Hm'. exact (contents_unique zero api ok tr w h m' m Hm' Hm).
Qed.

(** The stored keys are those whose last Set, Mod or Del was a Set or a Mod. *)
Theorem C01_stored_iff_last_write : ∀ tr w h k m, mrun tr w -> contents tr w h m ->
  is_Some (m !! k) <-> k ∈ stored tr h.
Proof. exact (obs_stored zero fuel u0 Hfuel api dig ok Htype). Qed.

Theorem C13_Len_map : ∀ tr w h m, mrun tr w -> ok tr (MLen h) -> contents tr w h m ->
  mcall api (MLen h) w = Ret (RLen (N.of_nat (size m) mod 2 ^ 64)) w.
Proof. exact (obs_len zero fuel u0 Hfuel api dig ok Htype). Qed.

Theorem C14_Dep_map : ∀ tr w h s m, mrun tr w -> (MNew s, RHandle h) ∈ tr -> ok tr (MDep h) -> contents tr w h m ->
  mcall api (MDep h) w =
    Ret (RDep (mean (N.of_nat (total_depth dig s (map_to_list m).*1)) (N.of_nat (size m)))) w.
Proof. exact (obs_dep zero fuel u0 Hfuel api dig ok Htype). Qed.

(** C15 and C16: f is called on the entries es of the map, each once, in
    increasing order of their digits, until it returns false. *)
Theorem C15_C16_All_map : ∀ tr w h s f m, mrun tr w -> (MNew s, RHandle h) ∈ tr -> ok tr (MAll h f) ->
  contents tr w h m ->
  ∃ es w', mcall api (MAll h f) w = Ret RUnit w' /\
  let tr' := (MAll h f, RUnit) :: tr in
  es ≡ₚ map_to_list m /\ in_order dig s es.*1 /\
  w_usr w' = usr_after f es (w_usr w) /\
  contents tr' w' h (list_to_map (after f es (w_usr w))) /\
  ∀ h' m', h' ≠ h -> contents tr w h' m' -> contents tr' w' h' m'.
Proof. exact (obs_all zero fuel u0 Hfuel api dig ok Htype). Qed.

(** C18 and C19: every call returns: it accesses memory correctly, does not
    panic and does not run forever. *)
Theorem C18_C19_calls_return_map : ∀ tr w op, mrun tr w -> ok tr op -> ∃ res w', mcall api op w = Ret res w'.
Proof. intros tr w op Hr. exact (proj2 (map_type_spec zero fuel u0 Hfuel api dig ok Htype tr w Hr) op). Qed.

(** C22 and C10: the effect of each call on this and all other containers. *)
Theorem C22_New_map : ∀ tr w s, mrun tr w -> ok tr (MNew s) ->
  ∃ h w', mcall api (MNew s) w = Ret (RHandle h) w' /\
  let tr' := (MNew s, RHandle h) :: tr in
  (∀ s', (MNew s', RHandle h) ∉ tr) /\ contents tr' w' h ∅ /\ w_usr w' = w_usr w /\
  ∀ h' m, h' ≠ h -> contents tr w h' m -> contents tr' w' h' m.
Proof. exact (obs_new zero fuel u0 Hfuel api dig ok Htype). Qed.

Theorem C22_Set_map : ∀ tr w h k v m, mrun tr w -> ok tr (MSet h k v) -> contents tr w h m ->
  ∃ w', mcall api (MSet h k v) w = Ret RUnit w' /\
  let tr' := (MSet h k v, RUnit) :: tr in
  contents tr' w' h (<[k := v]> m) /\ w_usr w' = w_usr w /\
  ∀ h' m', h' ≠ h -> contents tr w h' m' -> contents tr' w' h' m'.
Proof. exact (obs_set zero fuel u0 Hfuel api dig ok Htype). Qed.

Theorem C22_Del_map : ∀ tr w h k m, mrun tr w -> ok tr (MDel h k) -> contents tr w h m ->
  ∃ w', mcall api (MDel h k) w = Ret RUnit w' /\
  let tr' := (MDel h k, RUnit) :: tr in
  contents tr' w' h (delete k m) /\ w_usr w' = w_usr w /\
  ∀ h' m', h' ≠ h -> contents tr w h' m' -> contents tr' w' h' m'.
Proof. exact (obs_del zero fuel u0 Hfuel api dig ok Htype). Qed.

(** C25: Mod applies the callback exactly once: the user's state and the value
    are what one call leaves, whatever state the callback keeps. *)
Theorem C25_Mod : ∀ tr w h k f m, mrun tr w -> ok tr (MMod h k f) -> contents tr w h m ->
  let '(u, v) := f (w_usr w) (default zero (m !! k)) (bool_decide (is_Some (m !! k))) in
  ∃ w', mcall api (MMod h k f) w = Ret RUnit w' /\
  let tr' := (MMod h k f, RUnit) :: tr in
  contents tr' w' h (<[k := v]> m) /\ w_usr w' = u /\
  ∀ h' m', h' ≠ h -> contents tr w h' m' -> contents tr' w' h' m'.
Proof. exact (obs_mod zero fuel u0 Hfuel api dig ok Htype). Qed.

Theorem C01_Val : ∀ tr w h k m, mrun tr w -> ok tr (MVal h k) -> contents tr w h m ->
  mcall api (MVal h k) w = Ret (RVal (default zero (m !! k))) w.
Proof. exact (obs_val zero fuel u0 Hfuel api dig ok Htype). Qed.

Theorem C01_Ptr : ∀ tr w h k m, mrun tr w -> ok tr (MPtr h k) -> contents tr w h m ->
  ∃ a, mcall api (MPtr h k) w = Ret (RPtr a) w /\ (is_Some a <-> is_Some (m !! k)).
Proof. exact (obs_ptr zero fuel u0 Hfuel api dig ok Htype). Qed.

(** C24: p was returned by Ptr(k); k was not deleted since. *)
Theorem C24_pointer_valid : ∀ tr1 tr2 w h k p m,
  let tr := tr2 ++ (MPtr h k, RPtr (Some p)) :: tr1 in
  mrun tr w -> (∀ r, (MDel h k, r) ∉ tr2) -> ok tr (MPtr h k) -> ok tr (MLoad p) -> contents tr w h m ->
  mcall api (MPtr h k) w = Ret (RPtr (Some p)) w /\
  ∃ v, m !! k = Some v /\ mcall api (MLoad p) w = Ret (RVal v) w.
Proof. exact (obs_ptr_live zero fuel u0 Hfuel api dig ok Htype). Qed.

Theorem C24_pointer_write : ∀ tr1 tr2 w h k p v m,
  let tr := tr2 ++ (MPtr h k, RPtr (Some p)) :: tr1 in
  mrun tr w -> (∀ r, (MDel h k, r) ∉ tr2) -> ok tr (MStore p v) -> contents tr w h m ->
  ∃ w', mcall api (MStore p v) w = Ret RUnit w' /\
  let tr' := (MStore p v, RUnit) :: tr in
  contents tr' w' h (<[k := v]> m) /\
  ∀ h' m', h' ≠ h -> contents tr w h' m' -> contents tr' w' h' m'.
Proof. exact (obs_store_live zero fuel u0 Hfuel api dig ok Htype). Qed.

(** ... and k was deleted since: the write reaches no stored value. *)
Theorem C24_pointer_stale : ∀ tr1 tr2 w h k p v r,
  let tr := tr2 ++ (MPtr h k, RPtr (Some p)) :: tr1 in
  mrun tr w -> (MDel h k, r) ∈ tr2 -> ok tr (MStore p v) ->
  ∃ w', mcall api (MStore p v) w = Ret RUnit w' /\
  ∀ h' m', contents tr w h' m' -> contents ((MStore p v, RUnit) :: tr) w' h' m'.
Proof. exact (obs_store_dead zero fuel u0 Hfuel api dig ok Htype). Qed.

(** C31: deleting a key that is not stored changes the result of no call that
    reads, on this or any other map (also no pointer). *)
Theorem C31_Del_absent_map : ∀ tr w h k m, mrun tr w -> ok tr (MDel h k) -> contents tr w h m -> m !! k = None ->
  ∃ w', mcall api (MDel h k) w = Ret RUnit w' /\ w_usr w' = w_usr w /\
  (∀ op, reads op -> ok tr op -> ∃ res, mcall api op w = Ret res w /\ mcall api op w' = Ret res w').
Proof. exact (obs_del_absent zero fuel u0 Hfuel api dig ok Htype). Qed.
End maps.

(** C16 and C17: two maps with the same seed and the same keys, with any two
    histories, value types and user programs: the iterations visit the same keys
    in the same order, and Dep is the same. *)
Theorem C16_C17_same_keys_map : ∀ (K : Type) (EqK : EqDecision K) (CoK : Countable K) (dig : N -> K -> nat -> N)
    (V1 U1 CK1 V2 U2 CK2 : Type) (zero1 : V1) (zero2 : V2) (u1 : U1) (u2 : U2) (fuel : nat)
    (api1 : mapapi K V1 CK1 U1) (api2 : mapapi K V2 CK2 U2)
    (ok1 : list (mop K V1 U1 * mres V1) -> mop K V1 U1 -> Prop)
    (ok2 : list (mop K V2 U2 * mres V2) -> mop K V2 U2 -> Prop),
  256 <= fuel -> map_type zero1 fuel api1 dig ok1 -> map_type zero2 fuel api2 dig ok2 ->
  ∀ tr1 w1 h1 m1 tr2 w2 h2 m2 s,
  mrun api1 ok1 u1 tr1 w1 -> (MNew s, RHandle h1) ∈ tr1 -> contents api1 zero1 ok1 tr1 w1 h1 m1 ->
  mrun api2 ok2 u2 tr2 w2 -> (MNew s, RHandle h2) ∈ tr2 -> contents api2 zero2 ok2 tr2 w2 h2 m2 ->
  dom m1 = dom m2 ->
  (∀ f1 f2, ok1 tr1 (MAll h1 f1) -> ok2 tr2 (MAll h2 f2) -> ∃ es1 es2 w1' w2',
     es1 ≡ₚ map_to_list m1 /\ es2 ≡ₚ map_to_list m2 /\ es1.*1 = es2.*1 /\
     mcall api1 (MAll h1 f1) w1 = Ret RUnit w1' /\ w_usr w1' = usr_after f1 es1 (w_usr w1) /\
     mcall api2 (MAll h2 f2) w2 = Ret RUnit w2' /\ w_usr w2' = usr_after f2 es2 (w_usr w2)) /\
  (ok1 tr1 (MDep h1) -> ok2 tr2 (MDep h2) ->
     ∃ x, mcall api1 (MDep h1) w1 = Ret (RDep x) w1 /\ mcall api2 (MDep h2) w2 = Ret (RDep x) w2).
Proof.
  intros K EqK CoK dig V1 U1 CK1 V2 U2 CK2 zero1 zero2 u1 u2 fuel api1 api2 ok1 ok2 Hf Ht1 Ht2
    tr1 w1 h1 m1 tr2 w2 h2 m2 s Hr1 Hn1 Hm1 Hr2 Hn2 Hm2 Hd.
  pose proof (dom_keys m1 m2 Hd) as Hk. split.
  - intros f1 f2 Ho1 Ho2.
    destruct (obs_all zero1 fuel u1 Hf api1 dig ok1 Ht1 tr1 w1 h1 s f1 m1 Hr1 Hn1 Ho1 Hm1) as (es1 & w1' & Hc1 & He1 & Hi1 & Hu1 & _).
    destruct (obs_all zero2 fuel u2 Hf api2 dig ok2 Ht2 tr2 w2 h2 s f2 m2 Hr2 Hn2 Ho2 Hm2) as (es2 & w2' & Hc2 & He2 & Hi2 & Hu2 & _).
    exists es1, es2, w1', w2'. split_and!; try done. apply (in_order_unique dig s); [done..|].
    by rewrite He1, He2.
  - intros Ho1 Ho2. eexists. split.
    + exact (obs_dep_keys zero1 fuel u1 Hf api1 dig ok1 Ht1 tr1 w1 h1 s m1 _ Hr1 Hn1 Ho1 Hm1 (reflexivity _)).
    + exact (obs_dep_keys zero2 fuel u2 Hf api2 dig ok2 Ht2 tr2 w2 h2 s m2 _ Hr2 Hn2 Ho2 Hm2 Hk).
Qed.

(** What [usr_after] and [calls] mean: the calls are a prefix of the entries,
    all of them if the callback never returns false, and otherwise up to and
    including the one on which it does. *)
Theorem C15_calls_map : ∀ (K V U : Type) (f : U -> K -> V -> U * V * bool) (es : list (K * V)) (u : U),
  ∃ rest, es = calls f es u ++ rest /\
    usr_after f es u = foldl (λ u e, (f u e.1 e.2).1.1) u (calls f es u) /\
    ((∀ u k v, (f u k v).2 = true) -> rest = []) /\
    (rest ≠ [] -> ∃ cs k v, calls f es u = cs ++ [(k, v)] /\
       (f (foldl (λ u e, (f u e.1 e.2).1.1) u cs) k v).2 = false).
Proof. intros K V U. exact visit_prefix. Qed.

Section sets.
Context (U K CK : Type) (EqK : EqDecision K) (CoK : Countable K) (u0 : U) (fuel : nat).
Context (api : setapi K unit CK U) (dig : N -> K -> nat -> N) (ok : list (sop K U * sres) -> sop K U -> Prop).
Hypothesis Hfuel : 256 <= fuel.
Hypothesis Htype : set_type fuel api dig ok.
Implicit Types (tr : list (sop K U * sres)) (w : world unit CK U) (h : positive) (k : K) (X : gset K).
Local Notation members := (members api ok).
Local Notation srun := (srun api ok u0).

Theorem members_exist : ∀ tr w h, srun tr w -> ∃ X, members tr w h X /\ ∀ X', members tr w h X' -> X' = X.
Proof.
  intros tr w h Hr. destruct (obs_members fuel u0 Hfuel api dig ok Htype tr w h Hr) as [X HX].
  exists X. split; [done|]. intros X' HX'. exact (members_unique api ok tr w h X' X HX' HX).
Qed.

Theorem C13_Len_set : ∀ tr w h X, srun tr w -> ok tr (SLen h) -> members tr w h X ->
  scall api (SLen h) w = Ret (TLen (N.of_nat (size X) mod 2 ^ 64)) w.
Proof. exact (sobs_len fuel u0 Hfuel api dig ok Htype). Qed.

Theorem C14_Dep_set : ∀ tr w h s X, srun tr w -> (SNew s, THandle h) ∈ tr -> ok tr (SDep h) -> members tr w h X ->
  scall api (SDep h) w = Ret (TDep (mean (N.of_nat (total_depth dig s (elements X))) (N.of_nat (size X)))) w.
Proof. exact (sobs_dep fuel u0 Hfuel api dig ok Htype). Qed.

Theorem C15_C16_All_set : ∀ tr w h s f X, srun tr w -> (SNew s, THandle h) ∈ tr -> ok tr (SAll h f) ->
  members tr w h X ->
  ∃ ks w', scall api (SAll h f) w = Ret TUnit w' /\
  let tr' := (SAll h f, TUnit) :: tr in
  ks ≡ₚ elements X /\ in_order dig s ks /\ w_usr w' = (svisit f ks (w_usr w)).2 /\
  ∀ h' X', members tr w h' X' -> members tr' w' h' X'.
Proof. exact (sobs_all fuel u0 Hfuel api dig ok Htype). Qed.

Theorem C18_C19_calls_return_set : ∀ tr w op, srun tr w -> ok tr op -> ∃ res w', scall api op w = Ret res w'.
Proof. intros tr w op Hr. exact (proj2 (set_type_spec fuel u0 Hfuel api dig ok Htype tr w Hr) op). Qed.

Theorem C22_New_set : ∀ tr w s, srun tr w -> ok tr (SNew s) ->
  ∃ h w', scall api (SNew s) w = Ret (THandle h) w' /\
  let tr' := (SNew s, THandle h) :: tr in
  (∀ s', (SNew s', THandle h) ∉ tr) /\ members tr' w' h ∅ /\ w_usr w' = w_usr w /\
  ∀ h' X, h' ≠ h -> members tr w h' X -> members tr' w' h' X.
Proof. exact (sobs_new fuel u0 Hfuel api dig ok Htype). Qed.

Theorem C22_Add_set : ∀ tr w h k X, srun tr w -> ok tr (SAdd h k) -> members tr w h X ->
  ∃ w', scall api (SAdd h k) w = Ret TUnit w' /\
  let tr' := (SAdd h k, TUnit) :: tr in
  members tr' w' h ({[k]} ∪ X) /\ w_usr w' = w_usr w /\
  ∀ h' X', h' ≠ h -> members tr w h' X' -> members tr' w' h' X'.
Proof. exact (sobs_add fuel u0 Hfuel api dig ok Htype). Qed.

Theorem C22_Del_set : ∀ tr w h k X, srun tr w -> ok tr (SDel h k) -> members tr w h X ->
  ∃ w', scall api (SDel h k) w = Ret TUnit w' /\
  let tr' := (SDel h k, TUnit) :: tr in
  members tr' w' h (X ∖ {[k]}) /\ w_usr w' = w_usr w /\
  ∀ h' X', h' ≠ h -> members tr w h' X' -> members tr' w' h' X'.
Proof. exact (sobs_del fuel u0 Hfuel api dig ok Htype). Qed.

Theorem C31_Del_absent_set : ∀ tr w h k X, srun tr w -> ok tr (SDel h k) -> members tr w h X -> k ∉ X ->
  ∃ w', scall api (SDel h k) w = Ret TUnit w' /\ w_usr w' = w_usr w /\
  (∀ op, sreads op -> ok tr op -> ∃ res, scall api op w = Ret res w /\ scall api op w' = Ret res w').
Proof. exact (sobs_del_absent fuel u0 Hfuel api dig ok Htype). Qed.
End sets.

Theorem C16_C17_same_keys_set : ∀ (K : Type) (EqK : EqDecision K) (CoK : Countable K) (dig : N -> K -> nat -> N)
    (U1 CK1 U2 CK2 : Type) (u1 : U1) (u2 : U2) (fuel : nat)
    (api1 : setapi K unit CK1 U1) (api2 : setapi K unit CK2 U2)
    (ok1 : list (sop K U1 * sres) -> sop K U1 -> Prop) (ok2 : list (sop K U2 * sres) -> sop K U2 -> Prop),
  256 <= fuel -> set_type fuel api1 dig ok1 -> set_type fuel api2 dig ok2 ->
  ∀ tr1 w1 h1 tr2 w2 h2 X s,
  srun api1 ok1 u1 tr1 w1 -> (SNew s, THandle h1) ∈ tr1 -> members api1 ok1 tr1 w1 h1 X ->
  srun api2 ok2 u2 tr2 w2 -> (SNew s, THandle h2) ∈ tr2 -> members api2 ok2 tr2 w2 h2 X ->
  (∀ f1 f2, ok1 tr1 (SAll h1 f1) -> ok2 tr2 (SAll h2 f2) -> ∃ ks w1' w2',
     ks ≡ₚ elements X /\
     scall api1 (SAll h1 f1) w1 = Ret TUnit w1' /\ w_usr w1' = (svisit f1 ks (w_usr w1)).2 /\
     scall api2 (SAll h2 f2) w2 = Ret TUnit w2' /\ w_usr w2' = (svisit f2 ks (w_usr w2)).2) /\
  (ok1 tr1 (SDep h1) -> ok2 tr2 (SDep h2) ->
     ∃ x, scall api1 (SDep h1) w1 = Ret (TDep x) w1 /\ scall api2 (SDep h2) w2 = Ret (TDep x) w2).
Proof.
  intros K EqK CoK dig U1 CK1 U2 CK2 u1 u2 fuel api1 api2 ok1 ok2 Hf Ht1 Ht2
    tr1 w1 h1 tr2 w2 h2 X s Hr1 Hn1 Hm1 Hr2 Hn2 Hm2. split.
  - intros f1 f2 Ho1 Ho2.
    destruct (sobs_all fuel u1 Hf api1 dig ok1 Ht1 tr1 w1 h1 s f1 X Hr1 Hn1 Ho1 Hm1) as (es1 & w1' & Hc1 & He1 & Hi1 & Hu1 & _).
    destruct (sobs_all fuel u2 Hf api2 dig ok2 Ht2 tr2 w2 h2 s f2 X Hr2 Hn2 Ho2 Hm2) as (es2 & w2' & Hc2 & He2 & Hi2 & Hu2 & _).
    assert (es2 = es1) as -> by (apply (in_order_unique dig s); [done..|by rewrite He1, He2]).
    exists es1, w1', w2'. done.
  - intros Ho1 Ho2. eexists. split.
    + exact (sobs_dep fuel u1 Hf api1 dig ok1 Ht1 tr1 w1 h1 s X Hr1 Hn1 Ho1 Hm1).
    + exact (sobs_dep fuel u2 Hf api2 dig ok2 Ht2 tr2 w2 h2 s X Hr2 Hn2 Ho2 Hm2).
Qed.

Theorem C15_calls_set : ∀ (K U : Type) (f : U -> K -> U * bool) (ks : list K) (u : U),
  ∃ rest, ks = (svisit f ks u).1 ++ rest /\
    (svisit f ks u).2 = foldl (λ u k, (f u k).1) u (svisit f ks u).1 /\
    ((∀ u k, (f u k).2 = true) -> rest = []) /\
    (rest ≠ [] -> ∃ cs k, (svisit f ks u).1 = cs ++ [k] /\ (f (foldl (λ u k, (f u k).1) u cs) k).2 = false).
Proof. intros K U. exact svisit_prefix. Qed.

Print Assumptions contents_exist.
Print Assumptions C01_stored_iff_last_write.
Print Assumptions C13_Len_map.
Print Assumptions C14_Dep_map.
Print Assumptions C15_C16_All_map.
Print Assumptions C18_C19_calls_return_map.
Print Assumptions C22_New_map.
Print Assumptions C22_Set_map.
Print Assumptions C22_Del_map.
Print Assumptions C25_Mod.
Print Assumptions C01_Val.
Print Assumptions C01_Ptr.
Print Assumptions C24_pointer_valid.
Print Assumptions C24_pointer_write.
Print Assumptions C24_pointer_stale.
Print Assumptions C31_Del_absent_map.
Print Assumptions C16_C17_same_keys_map.
Print Assumptions C15_calls_map.
Print Assumptions members_exist.
Print Assumptions C13_Len_set.
Print Assumptions C14_Dep_set.
Print Assumptions C15_C16_All_set.
Print Assumptions C18_C19_calls_return_set.
Print Assumptions C22_New_set.
Print Assumptions C22_Add_set.
Print Assumptions C22_Del_set.
Print Assumptions C31_Del_absent_set.
Print Assumptions C16_C17_same_keys_set.
Print Assumptions C15_calls_set.

(** ** The hypotheses can be met *)

(** A map with two stored keys below a chain of 33 shared digits. *)
Definition toyops2 : list (mop bytes N N) := toyops [1]%N [2]%N [17]%N [33]%N ++ [MGet 2 [1]%N; MGet 2 [33]%N].
Definition toyapi : mapapi bytes N bytes N := StringMap_api toy 0%N 256.
Definition toyok (tr : list (mop bytes N N * mres N)) (op : mop bytes N N) : Prop :=
  mallowed toyP toyQ tr op /\ ins_guard (digit toy) any_way any_way tr op.
Lemma toy_type : map_type 0%N 256 toyapi (digit toy) toyok.
Proof. apply type_StringMap. Qed.
Lemma toy_ok tr w op : mrun toyapi toyok 0%N tr w -> mallowed toyP toyQ tr op -> toyok tr op.
Proof.
  intros Hr Ho. split; [done|].
  eapply (sep_guard 0%N toyapi (digit toy) toyP toyQ); [|apply toy_separates|apply any_ways|apply any_ways|exact Hr|exact Ho]. by intros ?? [].
Qed.
Definition toychk (tr : list (mop bytes N N * mres N)) (op : mop bytes N N) : bool :=
  mchk (memb toykeys) (memN [0; 7]%N) tr op && insb (digit toy) anyb anyb tr op.
Lemma toychk_ok tr op : toychk tr op = true -> toyok tr op.
Proof.
  intros [H1 H2]%andb_prop. split; [by apply mchk_ok|]. eapply insb_ok; [apply anyb_ok|apply anyb_ok|exact H2].
Qed.
Lemma toy_run : ∃ tr w, mrun toyapi toyok 0%N tr w /\
  reverse tr = zip toyops2 (toyres ++ [RGet 11%N true; RGet 10%N true]).
Proof. eapply mexec_res; [apply toychk_ok|vm_compute; reflexivity]. Qed.


Example C13_C31_map_nonvacuous : ∃ tr w m,
  let ok := toyok in
  map_type 0%N 256 toyapi (digit toy) ok /\ mrun toyapi ok 0%N tr w /\
  (MNew 7, RHandle 2) ∈ tr /\ contents toyapi 0%N ok tr w 2 m /\ m !! [33]%N = Some 10%N /\
  ok tr (MLen 2) /\ ok tr (MDep 2) /\ ok tr (MAll 2 (λ u k v, (u, v, true))) /\ ok tr (MNew 0) /\
  ok tr (MSet 2 [2]%N 5%N) /\ ok tr (MMod 2 [2]%N (λ u v b, (u, v))) /\ ok tr (MDel 2 [2]%N) /\
  ∃ tr2 tr1, tr = tr2 ++ (MPtr 2 [33]%N, RPtr (Some 1099511627776%positive)) :: tr1 /\
    (∀ r, (MDel 2 [33]%N, r) ∉ tr2) /\ ok tr (MStore 1099511627776 3%N) /\ ok tr (MLoad 1099511627776).
Proof.
  destruct toy_run as (tr & w & Hr & Htr).
  destruct (obs_contents 0%N 256 0%N (le_n _) _ _ _ toy_type tr w 2 Hr) as [m Hm].
  apply (f_equal reverse) in Htr. rewrite reverse_involutive in Htr.
  assert (Hsplit : tr = take 6 tr ++ (MPtr 2 [33]%N, RPtr (Some 1099511627776%positive)) :: drop 7 tr) by (by rewrite Htr).
  assert (Hn : (MNew 7, RHandle 2) ∈ tr).
  { rewrite Htr. apply elem_of_list_In. vm_compute. tauto. }
  assert (Hp : (MPtr 2 [33]%N, RPtr (Some 1099511627776%positive)) ∈ tr).
  { rewrite Hsplit. apply elem_of_app. right. left. }
  assert (Hd : ∀ r, (MDel 2 [33]%N, r) ∉ take 6 tr).
  { intros r Hin%elem_of_list_In. rewrite Htr in Hin. vm_compute in Hin.
    repeat (destruct Hin as [Hin|Hin]; [discriminate Hin|]). done. }
  assert (Hg : m !! [33]%N = Some 10%N).
  { vm_compute in Htr. rewrite Htr in Hr, Hm. exact (obs_last_get 0%N 256 0%N (le_n _) _ _ _ toy_type _ _ _ _ _ _ Hr Hm). }
  exists tr, w, m. split; [exact toy_type|]. split; [exact Hr|]. split; [exact Hn|]. split; [exact Hm|]. split; [exact Hg|].
  assert (Hl : ∃ s : N, (MNew s, RHandle 2) ∈ tr) by (by exists 7%N).
  assert (Ha : ∃ h k, (MPtr h k, RPtr (Some 1099511627776%positive)) ∈ tr) by (by eexists _, _).
  pose proof (λ op, toy_ok tr w op Hr) as Hok.
  split_and!; try (by apply Hok). exists (take 6 tr), (drop 7 tr). split_and!; [done|done|by apply Hok|by apply Hok].
Qed.

(** A pointer to a deleted entry. *)
Example C24_stale_nonvacuous : ∃ tr2 tr1 w r,
  let tr := tr2 ++ (MPtr 2 [2]%N, RPtr (Some 34359738368%positive)) :: tr1 in
  mrun toyapi toyok 0%N tr w /\ (MDel 2 [2]%N, r) ∈ tr2 /\ toyok tr (MStore 34359738368 3%N).
Proof.
  assert (Hrun : ∃ tr w, mrun toyapi toyok 0%N tr w /\ reverse tr =
    zip [MNew 7; MSet 2 [1]%N 10%N; MSet 2 [2]%N 20%N; MPtr 2 [2]%N; MDel 2 [2]%N; MSet 2 [2]%N 30%N; MLoad 34359738368; MGet 2 [2]%N]
        [RHandle 2; RUnit; RUnit; RPtr (Some 34359738368%positive); RUnit; RUnit; RVal 20%N; RGet 30%N true]).
  { eapply mexec_res; [apply toychk_ok|vm_compute; reflexivity]. }
  destruct Hrun as (tr & w & Hr & Htr). apply (f_equal reverse) in Htr. rewrite reverse_involutive in Htr.
  vm_compute in Htr. exists (take 4 tr), (drop 5 tr), w, RUnit. rewrite Htr in Hr |- *. simpl.
  split; [exact Hr|]. split.
  - apply elem_of_list_In. vm_compute. tauto.
  - apply (toy_ok _ _ _ Hr). exists 2%positive, [2]%N. apply elem_of_list_In. vm_compute. tauto.
Qed.

Definition toysapi : setapi bytes unit bytes (list bytes) := StringSet_api toy 256.
Definition toysok (tr : list (sop bytes (list bytes) * sres)) (op : sop bytes (list bytes)) : Prop :=
  sallowed toyP toyQ tr op /\ add_guard (digit toy) any_way tr op.
Lemma toys_type : set_type 256 toysapi (digit toy) toysok.
Proof. apply type_StringSet. Qed.
Lemma toys_ok tr w op : srun toysapi toysok [] tr w -> sallowed toyP toyQ tr op -> toysok tr op.
Proof.
  intros Hr Ho. split; [done|].
  eapply (sep_sguard [] toysapi (digit toy) toyP toyQ); [|apply toy_separates|apply any_ways|exact Hr|exact Ho]. by intros ?? [].
Qed.
Definition toyschk (tr : list (sop bytes (list bytes) * sres)) (op : sop bytes (list bytes)) : bool :=
  schk (memb toykeys) (memN [0; 7]%N) tr op && addb (digit toy) anyb tr op.
Lemma toyschk_ok tr op : toyschk tr op = true -> toysok tr op.
Proof.
  intros [H1 H2]%andb_prop. split; [by apply schk_ok|]. eapply addb_ok; [apply anyb_ok|exact H2].
Qed.
Example C13_C31_set_nonvacuous : ∃ tr w X,
  let ok := toysok in
  set_type 256 toysapi (digit toy) ok /\ srun toysapi ok [] tr w /\
  (SNew 7, THandle 2) ∈ tr /\ members toysapi ok tr w 2 X /\ [17]%N ∈ X /\
  ok tr (SLen 2) /\ ok tr (SDep 2) /\ ok tr (SAll 2 (λ u k, (u, true))) /\ ok tr (SNew 0) /\
  ok tr (SAdd 2 [2]%N) /\ ok tr (SDel 2 [2]%N).
Proof.
  assert (Hrun : ∃ tr w, srun toysapi toysok [] tr w /\ reverse tr =
    zip (toysops [1]%N [2]%N [17]%N [33]%N ++ toysops2 [2]%N ++ [SHas 2 [17]%N]) (toysres ++ [TUnit; THas false; THas true])).
  { eapply sexec_res; [apply toyschk_ok|vm_compute; reflexivity]. }
  destruct Hrun as (tr & w & Hr & Htr).
  destruct (obs_members 256 [] (le_n _) _ _ _ toys_type tr w 2 Hr) as [X HX].
  apply (f_equal reverse) in Htr. rewrite reverse_involutive in Htr.
  assert (Hn : (SNew 7, THandle 2) ∈ tr).
  { rewrite Htr. apply elem_of_list_In. vm_compute. tauto. }
  exists tr, w, X. split; [exact toys_type|]. split; [exact Hr|]. split; [exact Hn|]. split; [exact HX|].
  assert (Hg : [17]%N ∈ X).
  { vm_compute in Htr. rewrite Htr in Hr, HX. by apply (sobs_last_has 256 [] (le_n _) _ _ _ toys_type _ _ _ _ _ _ Hr HX). }
  assert (Hl : ∃ s : N, (SNew s, THandle 2) ∈ tr) by (by exists 7%N).
  pose proof (λ op, toys_ok tr w op Hr) as Hok.
  split_and!; try done; by apply Hok.
Qed.

(** Two maps in one program, built in different ways, with the same keys. *)
Example C16_C17_nonvacuous : ∃ tr w m1 m2,
  let ok := toyok in
  map_type 0%N 256 toyapi (digit toy) ok /\ mrun toyapi ok 0%N tr w /\
  (MNew 7, RHandle 2) ∈ tr /\ contents toyapi 0%N ok tr w 2 m1 /\
  (MNew 7, RHandle 8) ∈ tr /\ contents toyapi 0%N ok tr w 8 m2 /\ dom m1 = dom m2 /\ [17]%N ∈ dom m1.
Proof.
  assert (Hrun : ∃ tr w, mrun toyapi toyok 0%N tr w /\ reverse tr =
    zip [MNew 7; MNew 7; MSet 2 [1]%N 10%N; MSet 2 [17]%N 20%N; MSet 8 [2]%N 1%N; MSet 8 [17]%N 1%N;
         MMod 8 [1]%N (λ u v b, (u, v)); MDel 8 [2]%N]
        [RHandle 2; RHandle 8; RUnit; RUnit; RUnit; RUnit; RUnit; RUnit]).
  { eapply mexec_res; [apply toychk_ok|vm_compute; reflexivity]. }
  destruct Hrun as (tr & w & Hr & Htr). apply (f_equal reverse) in Htr. rewrite reverse_involutive in Htr.
  destruct (obs_contents 0%N 256 0%N (le_n _) _ _ _ toy_type tr w 2 Hr) as [m1 Hm1].
  destruct (obs_contents 0%N 256 0%N (le_n _) _ _ _ toy_type tr w 8 Hr) as [m2 Hm2].
  assert (Hk : ∀ h m k, contents toyapi 0%N toyok tr w h m -> k ∈ dom m <-> toyP k /\ k ∈ stored tr h).
  { intros h m k Hm. rewrite elem_of_dom, (obs_stored 0%N 256 0%N (le_n _) _ _ _ toy_type _ _ _ _ _ Hr Hm).
    split; [|tauto]. intros Hs. split; [|done].
    apply (obs_stored 0%N 256 0%N (le_n _) _ _ _ toy_type _ _ _ _ _ Hr Hm) in Hs. by destruct (proj1 (proj1 Hm k Hs)). }
  exists tr, w, m1, m2. split; [exact toy_type|]. split; [exact Hr|].
  split; [rewrite Htr; apply elem_of_list_In; vm_compute; tauto|]. split; [exact Hm1|].
  split; [rewrite Htr; apply elem_of_list_In; vm_compute; tauto|]. split; [exact Hm2|]. split.
  - apply set_eq. intros k. rewrite (Hk 2%positive m1 k Hm1), (Hk 8%positive m2 k Hm2).
    split; intros [HP Hs]; (split; [done|]); rewrite Htr in *; apply memb_in in HP; simpl in HP;
      destruct HP as [<-|[<-|[<-|[<-|[]]]]]; (apply (bool_decide_unpack _); apply (bool_decide_pack _) in Hs; revert Hs; vm_compute; done).
  - apply (Hk 2%positive m1 [17]%N Hm1). rewrite Htr. done.
Qed.
