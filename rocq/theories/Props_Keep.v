(** Property C49: a map keeps alive the structs of its stored keys and no others.

    [keeps] (KeepSpec.v) says that a block can be reached from a container by
    following the pointers in memory, so that the garbage collector must keep it as
    long as the container is kept. That stored entries are kept is proved, and that
    nothing else is kept by a map on which Del was never called. That removed entries
    are not kept is false of the code: Del shifts the items of an array back
    and leaves the last slot as it was, and the pointer in it can even be that of an
    array which the container no longer uses, with all that was stored in it. *)
From stdpp Require Import base numbers list gmap relations.
From Verif Require Import GoInt Mem Hash Amt Families Spec Guards Client Types Levels Observe Pack Runs Sep KeepSpec KeepRuns Own OwnRuns Props_Types.
Local Open Scope nat_scope.

Section maps.
Context (V U K CK : Type) (EqK : EqDecision K) (CoK : Countable K) (zero : V) (u0 : U) (fuel : nat).
Context (api : mapapi K V CK U) (dig : N -> K -> nat -> N) (ok : list (mop K V U * mres V) -> mop K V U -> Prop).
Hypothesis Hfuel : 256 <= fuel.
Hypothesis Htype : map_type zero fuel api dig ok.

(** What Ptr returns is kept by the map. Missing: that nothing else is, which is
    false ([C49_last_kept], [C49_refuted]). *)
Theorem C49_stored_kept_partial : ∀ tr w h k b w0, mrun api ok u0 tr w -> ok tr (MPtr h k) ->
  mcall api (MPtr h k) w = Ret (RPtr (Some b)) w0 -> keeps (w_mem w) h b.
Proof. exact (stored_kept zero fuel u0 Hfuel api dig ok Htype). Qed.

(** If no key was removed from the map, each struct that it keeps is that of a stored
    key. Nothing is asked of the calls on other maps. *)
Theorem C49_without_Del_partial : ∀ tr w s h b v ck, mrun api ok u0 tr w -> (MNew s, RHandle h) ∈ tr ->
  (∀ k res, (MDel h k, res) ∉ tr) -> keeps (w_mem w) h b -> w_mem w !! b = Some (BKv v ck) ->
  ∃ k w0, k ∈ stored tr h /\ mcall api (MPtr h k) w = Ret (RPtr (Some b)) w0.
Proof.
  intros tr w s h b v ck Hr Hin Hd Hk Hb.
  destruct (kept_was_stored zero fuel u0 Hfuel api dig ok Htype tr w s h b v ck Hr Hin Hk Hb) as (tr2 & tr1 & w1 & k & w0 & _ & _ & _ & Hx).
  destruct (Hx Hd) as (Hst & w2 & Hp). by exists k, w2.
Qed.

(** In all other maps each struct that is kept is or was that of a key of this map:
    at some time, after the calls tr1, Ptr would have returned it. *)
Theorem C49_was_stored_partial : ∀ tr w s h b v ck, mrun api ok u0 tr w -> (MNew s, RHandle h) ∈ tr ->
  keeps (w_mem w) h b -> w_mem w !! b = Some (BKv v ck) ->
  ∃ tr2 tr1 w1 k w0, tr = tr2 ++ tr1 /\ mrun api ok u0 tr1 w1 /\ mcall api (MPtr h k) w1 = Ret (RPtr (Some b)) w0.
Proof.
  intros tr w s h b v ck Hr Hin Hk Hb.
  destruct (kept_was_stored zero fuel u0 Hfuel api dig ok Htype tr w s h b v ck Hr Hin Hk Hb) as (tr2 & tr1 & w1 & k & w0 & E & Hr1 & Hp & _).
  by exists tr2, tr1, w1, k, w0.
Qed.

(** A removed entry stays reachable whenever no other stored key has the same or a
    greater first digit, for example if it was the only one. *)
Theorem C49_last_kept : ∀ tr w s h k b w0 res w', mrun api ok u0 tr w -> (MNew s, RHandle h) ∈ tr -> k ∈ stored tr h ->
  (∀ k', k' ∈ stored tr h -> k' ≠ k -> (dig s k' 0 < dig s k 0)%N) ->
  mcall api (MPtr h k) w = Ret (RPtr (Some b)) w0 -> mcall api (MDel h k) w = Ret res w' -> keeps (w_mem w') h b.
Proof. exact (del_last_kept zero fuel u0 Hfuel api dig ok Htype). Qed.

Theorem C49_only_kept : ∀ tr w s h k b w0 res w', mrun api ok u0 tr w -> (MNew s, RHandle h) ∈ tr -> stored tr h ≡ {[k]} ->
  mcall api (MPtr h k) w = Ret (RPtr (Some b)) w0 -> mcall api (MDel h k) w = Ret res w' -> keeps (w_mem w') h b.
Proof.
  intros tr w s h k b w0 res w' Hr Hin Hst Hp Hd. apply (C49_last_kept tr w s h k b w0 res w' Hr Hin); [|  |exact Hp|exact Hd].
  - apply Hst. by apply elem_of_singleton.
  - intros k' Hk' Hne. destruct Hne. apply Hst in Hk'. by apply elem_of_singleton in Hk'.
Qed.
End maps.

Print Assumptions C49_stored_kept_partial.
Print Assumptions C49_without_Del_partial.
Print Assumptions C49_was_stored_partial.
Print Assumptions C49_last_kept.
Print Assumptions C49_only_kept.

(** ** A map without keys that keeps five removed entries *)

(** A path of pointers, computed. *)
Definition pointsb {V CK} (m : gmap loc (block V CK)) (a b : loc) : bool :=
  match m !! a with
  | Some (BLinks ls) => existsb (λ x, match lk_ptr x with At c => (c =? b)%positive | Nil => false end) ls
  | Some (BRoot rt) => match lk_ptr (rt_link rt) with At c => (c =? b)%positive | Nil => false end
  | _ => false
  end.
Lemma pointsb_ok {V CK} (m : gmap loc (block V CK)) a b : pointsb m a b = true -> points m a b.
Proof.
  unfold pointsb, points. destruct (m !! a) as [[ls| |rt]|]; try discriminate.
  - intros (x & Hx & E)%existsb_exists. apply elem_of_list_In, elem_of_list_lookup in Hx as [i Hi]. exists i, x. split; [exact Hi|].
    destruct (lk_ptr x) as [|c]; [discriminate E|]. apply Pos.eqb_eq in E. by rewrite E.
  - destruct (lk_ptr (rt_link rt)) as [|c]; [discriminate|]. intros E%Pos.eqb_eq. left. by rewrite E.
Qed.
Fixpoint pathb {V CK} (m : gmap loc (block V CK)) (a : loc) (l : list loc) : bool :=
  match l with [] => true | b :: l => pointsb m a b && pathb m b l end.
Lemma pathb_ok {V CK} (m : gmap loc (block V CK)) l b : ∀ a, pathb m a (l ++ [b]) = true -> keeps m a b.
Proof.
  induction l as [|c l IH]; intros a E; simpl in E; apply andb_true_iff in E as [E1 E2].
  - apply rtc_once, pointsb_ok, E1.
  - apply rtc_l with c; [by apply pointsb_ok|by apply IH].
Qed.

Definition sum8 (s : N) (b : bytes) : N := match b with [n] => n | _ => 0%N end.
Definition five : list N := [2; 18; 34; 50; 66]%N.
(** The addresses of their structs. *)
Definition five_structs : list loc := [8; 32; 64; 128; 512]%positive.
Definition history : list (mop bytes N N) :=
  MNew 0 :: MSet 2 [1]%N 9%N :: map (λ n, MSet 2 [n] n) five ++ map (λ n, MPtr 2 [n]) five ++
  map (λ n, MDel 2 [n]) (1%N :: five) ++ [MLen 2].

(** One key whose first digit is 1 and five whose first digit is 2 are stored and
    removed again. The map is empty, and the structs of the five can be reached from
    it: Del of the first leaves a second link to the array of the others in the root. *)
Theorem C49_refuted :
  let api := StringMap_api (U:=N) sum8 0%N 256 in
  let ok := λ tr op, mallowed (λ _, true = true) (λ _, true = true) tr op /\ ins_guard (digit sum8) any_way any_way tr op in
  map_type 0%N 256 api (digit sum8) ok /\
  ∃ tr w bs, mrun api ok 0%N ((MLen 2, RLen 0) :: tr) w /\ NoDup bs /\ length bs = 5 /\
    (∀ b, b ∈ bs -> ∃ n, (MPtr 2 [n], RPtr (Some b)) ∈ tr /\ (MDel 2 [n], RUnit) ∈ tr /\ keeps (w_mem w) 2 b).
Proof.
  intros api ok. split; [apply type_StringMap|].
  set (trace := zip history (RHandle (V:=N) 2 :: replicate 6 RUnit ++ map (λ b, RPtr (Some b)) five_structs ++ replicate 6 RUnit ++ [RLen 0])).
  assert (He : match mexec api (gchk (digit sum8) (λ _, true) anyb anyb) [] (empty_world 0%N) history with
    | Some (tr, w) => tr = reverse trace /\ forallb (λ b, pathb (w_mem w) 2 [1%positive; 256%positive; b]) five_structs = true
    | None => False end) by (vm_compute; split; reflexivity).
  destruct (mexec api (gchk (digit sum8) (λ _, true) anyb anyb) [] (empty_world 0%N) history) as [[tr w]|] eqn:E; [|destruct He].
  destruct He as [Htr Hp].
  assert (Hr : mrun api ok 0%N tr w).
  { eapply mexec_run; [|constructor|exact E]. intros tr0 op. apply gchk_ok; apply anyb_ok. }
  clear E. exists (tail tr), w, five_structs.
  assert (Hh : tr = (MLen 2, RLen 0) :: tail tr) by (rewrite Htr; vm_compute; reflexivity).
  rewrite <- Hh. split; [exact Hr|]. split; [apply (bool_decide_unpack (NoDup five_structs)); vm_compute; exact I|]. split; [reflexivity|].
  intros b Hb. rewrite forallb_forall in Hp.
  assert (Hk : keeps (w_mem w) 2 b).
  { apply (pathb_ok (w_mem w) [1%positive; 256%positive]). apply Hp. by apply elem_of_list_In. }
  clear Hr Hh Hp. rewrite Htr. unfold five_structs in Hb.
  repeat (apply elem_of_cons in Hb as [->|Hb]); [..|by apply elem_of_nil in Hb].
  - exists 2%N. split; [|split; [|exact Hk]]; vm_compute; repeat first [left|right].
  - exists 18%N. split; [|split; [|exact Hk]]; vm_compute; repeat first [left|right].
  - exists 34%N. split; [|split; [|exact Hk]]; vm_compute; repeat first [left|right].
  - exists 50%N. split; [|split; [|exact Hk]]; vm_compute; repeat first [left|right].
  - exists 66%N. split; [|split; [|exact Hk]]; vm_compute; repeat first [left|right].
Qed.
Print Assumptions C49_refuted.

(** The hypotheses of [C49_last_kept] can be met in a map of two keys. *)
Example C49_nonvacuous :
  let api := StringMap_api (U:=N) sum8 0%N 256 in
  let ok := λ tr op, mallowed (λ _, true = true) (λ _, true = true) tr op /\ ins_guard (digit sum8) any_way any_way tr op in
  ∃ tr w b w0 w', mrun api ok 0%N tr w /\ (MNew 0, RHandle 2) ∈ tr /\ stored tr 2 ≡ {[ [1]%N; [2]%N ]} /\
    (digit sum8 0 [1]%N 0 < digit sum8 0 [2]%N 0)%N /\
    mcall api (MPtr 2 [2]%N) w = Ret (RPtr (Some b)) w0 /\ mcall api (MDel 2 [2]%N) w = Ret RUnit w'.
Proof.
  intros api ok.
  set (tr0 := [(MSet (V:=N) (U:=N) 2 [2]%N 20%N, RUnit (V:=N)); (MSet 2 [1]%N 10%N, RUnit); (MNew 0, RHandle 2)]).
  assert (He : match mexec api (gchk (digit sum8) (λ _, true) anyb anyb) [] (empty_world 0%N)
      [MNew 0; MSet 2 [1]%N 10%N; MSet 2 [2]%N 20%N] with
    | Some (tr, w) => tr = tr0 /\ match mcall api (MPtr 2 [2]%N) w with Ret (RPtr (Some _)) _ => True | _ => False end /\
        match mcall api (MDel 2 [2]%N) w with Ret RUnit _ => True | _ => False end
    | None => False end) by (vm_compute; split; [reflexivity|split; exact I]).
  destruct (mexec api (gchk (digit sum8) (λ _, true) anyb anyb) [] (empty_world 0%N) _) as [[tr w]|] eqn:E; [|destruct He].
  destruct He as (Htr & H1 & H2).
  assert (Hr : mrun api ok 0%N tr w).
  { eapply mexec_run; [|constructor|exact E]. intros tr1 op. apply gchk_ok; apply anyb_ok. }
  clear E. destruct (mcall api (MPtr 2 [2]%N) w) as [res1 w1| | |] eqn:E1; try destruct H1.
  destruct res1 as [| | | |[b|]| |]; try destruct H1.
  destruct (mcall api (MDel 2 [2]%N) w) as [res2 w2| | |] eqn:E2; try destruct H2.
  destruct res2; try destruct H2.
  exists tr, w, b, w1, w2. split; [exact Hr|]. split; [rewrite Htr; right; right; left|]. split.
  - rewrite Htr. unfold tr0. intros k. simpl. rewrite !elem_of_union, !elem_of_singleton, elem_of_empty. tauto.
  - split; [vm_compute; reflexivity|]. split; [exact E1|exact E2].
Qed.

(** Two maps of two keys each; the struct of a key of the first is kept by it, and
    nothing was removed from the first while a key was removed from the second. *)
Example C49_without_Del_nonvacuous :
  let api := StringMap_api (U:=N) sum8 0%N 256 in
  let ok := λ tr op, mallowed (λ _, true = true) (λ _, true = true) tr op /\ ins_guard (digit sum8) any_way any_way tr op in
  ∃ tr w b v ck, mrun api ok 0%N tr w /\ (MNew 0, RHandle 2) ∈ tr /\ (MNew 0, RHandle 32) ∈ tr /\ (MDel 32 [1]%N, RUnit) ∈ tr /\
    (∀ k res, (MDel 2 k, res) ∉ tr) /\ keeps (w_mem w) 2 b /\ w_mem w !! b = Some (BKv v ck) /\ stored tr 2 ≡ {[ [1]%N; [2]%N ]}.
Proof.
  intros api ok.
  set (tr0 := [(MDel (V:=N) (U:=N) 32 [1]%N, RUnit (V:=N)); (MSet 32 [3]%N 30%N, RUnit); (MSet 32 [1]%N 30%N, RUnit);
    (MNew 0, RHandle 32); (MSet 2 [2]%N 20%N, RUnit); (MSet 2 [1]%N 10%N, RUnit); (MNew 0, RHandle 2)]).
  assert (He : match mexec api (gchk (digit sum8) (λ _, true) anyb anyb) [] (empty_world 0%N) (reverse tr0.*1) with
    | Some (tr, w) => tr = tr0 /\ pathb (w_mem w) 2 [1%positive; 8%positive] = true /\
        w_mem w !! 8%positive = Some (BKv 20%N [2]%N)
    | None => False end) by (vm_compute; split; [reflexivity|split; reflexivity]).
  destruct (mexec api (gchk (digit sum8) (λ _, true) anyb anyb) [] (empty_world 0%N) _) as [[tr w]|] eqn:E; [|destruct He].
  destruct He as (Htr & H1 & H2).
  assert (Hr : mrun api ok 0%N tr w).
  { eapply mexec_run; [|constructor|exact E]. intros tr1 op. apply gchk_ok; apply anyb_ok. }
  clear E. exists tr, w, 8%positive, 20%N, [2]%N. split; [exact Hr|]. rewrite Htr. unfold tr0. split_and!.
  - repeat first [left|right].
  - repeat first [left|right].
  - left.
  - intros k res Hin. repeat (apply elem_of_cons in Hin as [Hin|Hin]; [discriminate Hin|]). by apply elem_of_nil in Hin.
  - by apply (pathb_ok (w_mem w) [1%positive]).
  - exact H2.
  - intros k. simpl. rewrite !elem_of_union, !elem_of_singleton, elem_of_empty. tauto.
Qed.
