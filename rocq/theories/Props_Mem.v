(** Properties C23, C30 and C31 at the level of memory, for every map and set type
    (Types.v: [any_map], [any_set]) with any hash function and any comparison of
    keys, in every state of the memory, reachable or not. *)
From stdpp Require Import base numbers list gmap relations.
From Verif Require Import GoInt Mem Hash Spec Client Types Readers ReadOps AnyFacts.
From Verif Require Import Guards Observe ObserveFacts ObserveMap ObserveSet Pack Runs Sep Props_Types Props_Ops.
Local Open Scope nat_scope.

Section maps.
Context (K V CK U : Type) (zero : V) (fuel : nat) (api : mapapi K V CK U).
Hypothesis Ht : any_map zero fuel api.
Implicit Types (w : world V CK U) (k : K) (v : V) (op : mop K V U).

(** C23: Get, Val, Ptr, Len, Dep and loads through pointers leave the whole state
    as it is, also when they panic. *)
Theorem C23_reads_change_nothing_map : ∀ op w, reads op ->
  (∀ res w', mcall api op w = Ret res w' -> w' = w) /\ (∀ w', mcall api op w = Panic w' -> w' = w).
Proof.
  intros op w Hr. split; intros *; [apply quiet_Ret|apply quiet_Panic]; exact (any_reads_quiet zero fuel api Ht op Hr).
Qed.

(** All, with a callback that leaves the values alone, changes no memory. *)
Theorem C23_All_changes_no_memory_map : ∀ h f w res w', (∀ u k v, (f u k v).1.2 = v) ->
  mcall api (MAll h f) w = Ret res w' -> w_mem w' = w_mem w /\ w_nxt w' = w_nxt w.
Proof.
  intros h f w res w' Hf He. destruct (any_looks_thread zero fuel api Ht (MAll h f) Hf) as [t Htt].
  rewrite Htt in He. exact (alone_mem t w res w' He).
Qed.

(** ... also when the callback itself calls reading methods, of this or of other
    containers ([reader], Readers.v: it loads memory and uses its own state). *)
Theorem C23_All_nested_reads_map : ∀ h do w res w', (∀ k p, reader (do k p)) ->
  ma_All api h do w = Ret res w' -> w_mem w' = w_mem w /\ w_nxt w' = w_nxt w.
Proof.
  intros h do w res w' Hdo He. destruct (any_All_thread zero fuel api Ht h do Hdo) as [t Htt].
  rewrite Htt in He. exact (alone_mem t w res w' He).
Qed.

(** Concurrent readers: the calls cs are made by one goroutine each, on one shared
    memory m, with own states us. Each call is a thread that loads blocks one by
    one and cannot write to m. Whatever the interleaving, the threads finish, and
    each with the result and the own state it has when it runs alone. *)
Theorem C23_concurrent_reads_map : ∀ cs : list (mop K V U), Forall looks cs ->
  ∃ ts, Forall2 (λ c t, ∀ w, mcall api c w = alone t w) cs ts /\
  ∀ m nxt us, length us = length cs ->
    sn (pstep m) (zip us ts) /\
    ∀ ys, rtc (pstep m) (zip us ts) ys -> (∀ zs, ¬ pstep m ys zs) ->
    Forall2 (λ (uc : U * mop K V U) y, ∃ o, y.2 = TDone o /\
               mcall api uc.2 (World m nxt uc.1) = finish o (World m nxt y.1))
      (zip us cs) ys.
Proof.
  intros cs Hcs. apply (pool_spec (mcall api)). eapply Forall_impl; [exact Hcs|]. exact (any_looks_thread zero fuel api Ht).
Qed.

(** C30: if Ptr(k) is p then Set(k) only writes the value field of the struct at p:
    the key field ck stays, and nothing is allocated. *)
Theorem C30_Set_keeps_key : ∀ h k v p v0 ck w w1,
  ma_Ptr api h k w = Ret (At p) w1 -> w_mem w !! p = Some (BKv v0 ck) ->
  ma_Set api h k v w = Ret tt (World (<[p := BKv v ck]> (w_mem w)) (w_nxt w) (w_usr w)).
Proof.
  intros h k v p v0 ck w w1 Hp Hm. destruct (any_Ptr_Set zero fuel api Ht h k p w w1 v Hp) as [_ ->].
  unfold store_val. by rewrite Hm.
Qed.

(** Mod(k) does nothing but call the callback, any callback, with p and true. *)
Theorem C30_Mod_only_calls_back : ∀ h k f p w w1,
  ma_Ptr api h k w = Ret (At p) w1 -> ma_Mod api h k f w = f (At p) true w.
Proof. intros h k f p w w1 Hp. exact (proj2 (any_Ptr_Mod zero fuel api Ht h k p w w1 f Hp)). Qed.

(** C31: if Ptr(k) is nil then Del(k) changes nothing but the scratch path in the
    root of h. *)
Theorem C31_Del_absent_memory_map : ∀ h k w w1,
  ma_Ptr api (Some h) k w = Ret Nil w1 ->
  ∃ w2, ma_Del api (Some h) k w = Ret tt w2 /\
    w_nxt w2 = w_nxt w /\ w_usr w2 = w_usr w /\
    (∀ b, b ≠ h -> w_mem w2 !! b = w_mem w !! b) /\
    ∃ rt path, w_mem w !! h = Some (BRoot rt) /\
      w_mem w2 !! h = Some (BRoot (Root (rt_link rt) (rt_seed rt) (rt_len rt) (rt_dep rt) path)).
Proof. intros h k w w1 Hp. exact (proj2 (any_Ptr_Del zero fuel api Ht h k w w1 Hp)). Qed.
End maps.

Section sets.
Context (K CK U : Type) (fuel : nat) (b : bool) (api : setapi K unit CK U).
Hypothesis Ht : any_set fuel b api.
Implicit Types (w : world unit CK U) (k : K) (op : sop K U).

Theorem C23_reads_change_nothing_set : ∀ op w, sreads op ->
  (∀ res w', scall api op w = Ret res w' -> w' = w) /\ (∀ w', scall api op w = Panic w' -> w' = w).
Proof.
  intros op w Hr. split; intros *; [apply quiet_Ret|apply quiet_Panic]; exact (any_sreads_quiet fuel b api Ht op Hr).
Qed.
Theorem C23_All_changes_no_memory_set : ∀ h f w res w',
  scall api (SAll h f) w = Ret res w' -> w_mem w' = w_mem w /\ w_nxt w' = w_nxt w.
Proof.
  intros h f w res w' He. destruct (any_slooks_thread fuel b api Ht (SAll h f) I) as [t Htt].
  rewrite Htt in He. exact (alone_mem t w res w' He).
Qed.
Theorem C23_All_nested_reads_set : ∀ h do w res w', (∀ k, reader (do k)) ->
  sa_All api h do w = Ret res w' -> w_mem w' = w_mem w /\ w_nxt w' = w_nxt w.
Proof.
  intros h do w res w' Hdo He. destruct (any_sAll_thread fuel b api Ht h do Hdo) as [t Htt].
  rewrite Htt in He. exact (alone_mem t w res w' He).
Qed.
Theorem C23_concurrent_reads_set : ∀ cs : list (sop K U), Forall slooks cs ->
  ∃ ts, Forall2 (λ c t, ∀ w, scall api c w = alone t w) cs ts /\
  ∀ m nxt us, length us = length cs ->
    sn (pstep m) (zip us ts) /\
    ∀ ys, rtc (pstep m) (zip us ts) ys -> (∀ zs, ¬ pstep m ys zs) ->
    Forall2 (λ (uc : U * sop K U) y, ∃ o, y.2 = TDone o /\
               scall api uc.2 (World m nxt uc.1) = finish o (World m nxt y.1))
      (zip us cs) ys.
Proof.
  intros cs Hcs. apply (pool_spec (scall api)). eapply Forall_impl; [exact Hcs|]. exact (any_slooks_thread fuel b api Ht).
Qed.

(** C30: adding a key that is already there changes nothing at all. *)
Theorem C30_Add_present : ∀ h k w w1, sa_Has api h k w = Ret true w1 -> sa_Add api h k w = Ret tt w.
Proof. intros h k w w1 Hp. exact (proj2 (any_Has_Add fuel b api Ht h k w w1 Hp)). Qed.

(** C31, for all sets but BytesSet. *)
Theorem C31_Del_absent_memory_set : ∀ h k w w1, b = true ->
  sa_Has api (Some h) k w = Ret false w1 ->
  ∃ w2, sa_Del api (Some h) k w = Ret tt w2 /\
    w_nxt w2 = w_nxt w /\ w_usr w2 = w_usr w /\
    (∀ b, b ≠ h -> w_mem w2 !! b = w_mem w !! b) /\
    ∃ rt path, w_mem w !! h = Some (BRoot rt) /\
      w_mem w2 !! h = Some (BRoot (Root (rt_link rt) (rt_seed rt) (rt_len rt) (rt_dep rt) path)).
Proof. intros h k w w1 Hb Hp. exact (proj2 (any_Has_Del fuel b api Ht h k w w1 Hb Hp)). Qed.
End sets.

(** C30 in reachable states (Props_Ops.v): the hypotheses above are met whenever k
    is stored. *)
Section reach.
Context (V U K CK : Type) (EqK : EqDecision K) (CoK : Countable K) (zero : V) (u0 : U) (fuel : nat).
Context (api : mapapi K V CK U) (dig : N -> K -> nat -> N) (ok : list (mop K V U * mres V) -> mop K V U -> Prop).
Hypothesis Hfuel : 256 <= fuel.
Hypothesis Htype : map_type zero fuel api dig ok.
Theorem C30_Set_stored : ∀ tr w h k v m,
  mrun api ok u0 tr w -> ok tr (MPtr h k) -> ok tr (MSet h k v) -> contents api zero ok tr w h m -> is_Some (m !! k) ->
  ∃ p v0 ck, mcall api (MPtr h k) w = Ret (RPtr (Some p)) w /\ w_mem w !! p = Some (BKv v0 ck) /\
    mcall api (MSet h k v) w = Ret RUnit (World (<[p := BKv v ck]> (w_mem w)) (w_nxt w) (w_usr w)).
Proof.
  intros tr w h k v m Hr Ho Hs Hm Hk.
  destruct (C01_Ptr V U K CK _ _ zero u0 fuel api dig ok Hfuel Htype tr w h k m Hr Ho Hm) as (a & Ha & Hak).
  destruct (C18_C19_calls_return_map V U K CK _ _ zero u0 fuel api dig ok Hfuel Htype tr w _ Hr Hs) as (res & w' & Hset).
  destruct (proj2 Hak Hk) as [p Hpa]. clear Hak Hk. subst a. assert (any_map zero fuel api) as Hany by (destruct Htype; constructor).
  assert (ma_Ptr api (Some h) k w = Ret (At p) w) as Hp.
  { revert Ha. simpl. unfold bind. destruct (ma_Ptr api (Some h) k w) as [[|] w1| | |]; try done. by intros [= -> ->]. }
  destruct (any_Ptr_Set zero fuel api Hany (Some h) k p w w v Hp) as [_ He].
  revert Hset. simpl. unfold bind. rewrite He. unfold store_val.
  destruct (w_mem w !! p) as [[]|] eqn:Hb; try done. intros _. by eexists p, _, _.
Qed.
End reach.

Print Assumptions C23_reads_change_nothing_map.
Print Assumptions C23_All_changes_no_memory_map.
Print Assumptions C23_All_nested_reads_map.
Print Assumptions C23_concurrent_reads_map.
Print Assumptions C30_Set_keeps_key.
Print Assumptions C30_Mod_only_calls_back.
Print Assumptions C31_Del_absent_memory_map.
Print Assumptions C23_reads_change_nothing_set.
Print Assumptions C23_All_changes_no_memory_set.
Print Assumptions C23_All_nested_reads_set.
Print Assumptions C23_concurrent_reads_set.
Print Assumptions C30_Add_present.
Print Assumptions C31_Del_absent_memory_set.
Print Assumptions C30_Set_stored.

(** ** The hypotheses can be met *)
(** The state after the calls ops. *)
Fixpoint after_calls {K V CK U} (api : mapapi K V CK U) (ops : list (mop K V U)) (w : world V CK U) : option (world V CK U) :=
  match ops with
  | [] => Some w
  | op :: ops => match mcall api op w with Ret _ w' => after_calls api ops w' | _ => None end
  end.
Fixpoint safter_calls {K CK U} (api : setapi K unit CK U) (ops : list (sop K U)) (w : world unit CK U) : option (world unit CK U) :=
  match ops with
  | [] => Some w
  | op :: ops => match scall api op w with Ret _ w' => safter_calls api ops w' | _ => None end
  end.

(** Two stored keys below a chain of 17 shared digits; an absent one that collides. *)
Definition memops : list (mop bytes N N) := [MNew 7; MSet 2 [1]%N 10%N; MSet 2 [17]%N 20%N].
Lemma ptr_example {K CK U} (api : mapapi K N CK U) ops w0 h k1 k2 n :
  match after_calls api ops w0 with
  | Some w =>
      match ma_Ptr api h k1 w, ma_Ptr api h k2 w with
      | Ret (At p) _, Ret Nil _ => match w_mem w !! p with Some (BKv v0 _) => (v0 =? n)%N | _ => false end
      | _, _ => false end
  | None => false end = true ->
  ∃ w w1 w2 p ck, after_calls api ops w0 = Some w /\
    ma_Ptr api h k1 w = Ret (At p) w1 /\ w_mem w !! p = Some (BKv n ck) /\ ma_Ptr api h k2 w = Ret Nil w2.
Proof.
  destruct (after_calls api ops w0) as [w|]; [|done].
  destruct (ma_Ptr api h k1 w) as [[|p] w1| | |] eqn:H1; try done.
  destruct (ma_Ptr api h k2 w) as [[|] w2| | |] eqn:H2; try done.
  destruct (w_mem w !! p) as [[|v0 ck|]|] eqn:Hp; try done. intros ->%N.eqb_eq. by exists w, w1, w2, p, ck.
Qed.
Example C30_C31_nonvacuous : ∃ w w1 w2 p ck,
  after_calls toyapi memops (empty_world 0%N) = Some w /\
  ma_Ptr toyapi (Some 2%positive) [17]%N w = Ret (At p) w1 /\ w_mem w !! p = Some (BKv 20%N ck) /\
  ma_Ptr toyapi (Some 2%positive) [33]%N w = Ret Nil w2.
Proof. apply ptr_example. vm_compute. reflexivity. Qed.

Definition memsops : list (sop bytes (list bytes)) := [SNew 7; SAdd 2 [1]%N; SAdd 2 [17]%N].
Lemma has_example {K CK U} (api : setapi K unit CK U) ops w0 h k1 k2 :
  match safter_calls api ops w0 with
  | Some w => match sa_Has api h k1 w, sa_Has api h k2 w with Ret true _, Ret false _ => true | _, _ => false end
  | None => false end = true ->
  ∃ w w1 w2, safter_calls api ops w0 = Some w /\ sa_Has api h k1 w = Ret true w1 /\ sa_Has api h k2 w = Ret false w2.
Proof.
  destruct (safter_calls api ops w0) as [w|]; [|done].
  destruct (sa_Has api h k1 w) as [[] w1| | |] eqn:H1; try done.
  destruct (sa_Has api h k2 w) as [[] w2| | |] eqn:H2; try done. intros _. by exists w, w1, w2.
Qed.
Example C30_C31_set_nonvacuous : ∃ w w1 w2,
  safter_calls toysapi memsops (empty_world []) = Some w /\
  sa_Has toysapi (Some 2%positive) [17]%N w = Ret true w1 /\
  sa_Has toysapi (Some 2%positive) [33]%N w = Ret false w2.
Proof. apply has_example. vm_compute. reflexivity. Qed.

(** Three concurrent calls, one of them an iteration. *)
Example C23_looks_nonvacuous : Forall looks
  [MGet 2 [17]%N; MLen 2; MAll 2 (λ (u : N) (k : bytes) (v : N), ((u + v)%N, v, true))].
Proof. repeat constructor. Qed.
