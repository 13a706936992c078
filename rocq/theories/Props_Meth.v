(** C55: key methods (Hash, Equal, KeyBytes, ==) that panic. *)
From stdpp Require Import base numbers list gmap.
From Verif Require Import GoInt Mem Hash Amt Families Spec Client Types Guards Runs Refuted EAmt MethSpec MethRuns Props_Types.
Local Open Scope nat_scope.

(** ** What holds

    The key methods may read and write any state C of their own, and may panic whenever they
    are called. When they return, they return what the functions keq and KeyBytes (ArrMap,
    ArrSet), Equal and Hash (Map, Set) tell. The user recovers from the panics, and goes on.

    What is missing: if Set, Mod or Add of a new key finds a stored key in its way that agrees
    with it in the first 16 * j digits (j > 0), then Hash of these two keys with iter = j is
    supposed not to panic ([calm], part of ok). Without this the claim is false, see below. *)
Section maps.
Context (V U C : Type) (zero : V) (fuel : nat) (u0 : U) (c0 : C).
Context (K : Type) `{Countable K} (api : mapapi K V K (U * C)) (bad : Prop) (dig : N -> K -> nat -> N)
  (ok : list (mop K V U * mres V) -> mop K V U -> Prop).
Hypothesis Hfuel : 256 <= fuel.
Hypothesis Ht : emap_type zero fuel api bad dig ok.

(** The calls that return do what the specification of finite maps says, as if those that
    panicked had not been made. *)
Theorem C55_history_map_partial : ∀ tr w, memrun api ok u0 c0 tr w ->
  ∃ σ, mspec dig zero u0 tr σ /\ ms_usr σ = (w_usr w).1.
Proof. intros tr w Hr. exact (proj1 (memrun_all zero fuel Hfuel u0 c0 api bad dig ok Ht tr w Hr)). Qed.

(** Every call returns, or else panics because a key method can; the user's state is then
    as it was. *)
Theorem C55_call_map_partial : ∀ tr w op, memrun api ok u0 c0 tr w -> ok tr op ->
  (∃ res w', mcall api (emap_op op) w = Ret res w') \/
  (bad /\ ∃ w', mcall api (emap_op op) w = Panic w' /\ (w_usr w').1 = (w_usr w).1).
Proof. intros tr w op Hr Ho. exact (proj1 (proj2 (proj2 (memrun_all zero fuel Hfuel u0 c0 api bad dig ok Ht tr w Hr)) op Ho)). Qed.

(** New, Len, Dep, All and access through pointers never panic. *)
Theorem C55_keyless_map_partial : ∀ tr w op, memrun api ok u0 c0 tr w -> ok tr op ->
  match op with MNew _ | MLen _ | MDep _ | MAll _ _ | MLoad _ | MStore _ _ => True | _ => False end ->
  ∃ res w', mcall api (emap_op op) w = Ret res w'.
Proof. intros tr w op Hr Ho. exact (proj2 (proj2 (proj2 (memrun_all zero fuel Hfuel u0 c0 api bad dig ok Ht tr w Hr)) op Ho)). Qed.
End maps.

Section sets.
Context (U C : Type) (fuel : nat) (u0 : U) (c0 : C).
Context (K : Type) `{Countable K} (api : setapi K unit K (U * C)) (bad : Prop) (dig : N -> K -> nat -> N)
  (ok : list (sop K U * sres) -> sop K U -> Prop).
Hypothesis Hfuel : 256 <= fuel.
Hypothesis Ht : eset_type fuel api bad dig ok.

Theorem C55_history_set_partial : ∀ tr w, semrun api ok u0 c0 tr w ->
  ∃ σ, sspec dig u0 tr σ /\ ss_usr σ = (w_usr w).1.
Proof. intros tr w Hr. exact (proj1 (semrun_all fuel Hfuel u0 c0 api bad dig ok Ht tr w Hr)). Qed.

Theorem C55_call_set_partial : ∀ tr w op, semrun api ok u0 c0 tr w -> ok tr op ->
  (∃ res w', scall api (eset_op op) w = Ret res w') \/
  (bad /\ ∃ w', scall api (eset_op op) w = Panic w' /\ (w_usr w').1 = (w_usr w).1).
Proof. intros tr w op Hr Ho. exact (proj1 (proj2 (proj2 (semrun_all fuel Hfuel u0 c0 api bad dig ok Ht tr w Hr)) op Ho)). Qed.

Theorem C55_keyless_set_partial : ∀ tr w op, semrun api ok u0 c0 tr w -> ok tr op ->
  match op with SNew _ | SLen _ | SDep _ | SAll _ _ => True | _ => False end ->
  ∃ res w', scall api (eset_op op) w = Ret res w'.
Proof. intros tr w op Hr Ho. exact (proj2 (proj2 (proj2 (semrun_all fuel Hfuel u0 c0 api bad dig ok Ht tr w Hr)) op Ho)). Qed.
End sets.

(** ** What fails

    If two keys agree in the first 16 digits, Set asks for their next hashes while the stored
    key is being moved down (generic_map.go:155-160). If Hash panics then, the stored key is
    lost: Get does not find it, although Len still counts it. The same in sets
    (generic_set.go:106-111). *)
Definition rescue {V CK U A} (m : M V CK U A) : M V CK U unit := λ w,
  match m w with Ret _ w' => Ret tt w' | Panic w' => Ret tt w' | Fault => Fault | Hang => Hang end.
Definition outputs {V CK U A} (u : U) (m : M V CK U A) : option A :=
  match m (empty_world u) with Ret a _ => Some a | _ => None end.

Theorem C55_Map_deep_refuted : ∃ (Hash : N -> N -> N -> N) Hash' seed k1 k2 v d,
  (∀ k s i, answers (Hash' k s i) (Hash k s i)) /\ (∀ s i, ¬ can_panic (Hash' k1 s i)) /\
  d < 241 /\ gdigit Hash seed k1 d ≠ gdigit Hash seed k2 d /\ set_way Hash seed k2 k1 0 /\
  ∀ n, let api := EMap_api (U:=unit) (C:=unit) 0%N (enough n) (λ a b c, (c, Some (N.eqb a b))) Hash' in
    outputs (tt, tt) (h <- New seed ;; ma_Set api h k1 v ;;; g1 <- ma_Get api h k1 ;;
        rescue (ma_Set api h k2 v) ;;; l <- Len h ;; g2 <- ma_Get api h k1 ;; ret (g1, l, g2)) =
    Some ((v, true), 1%N, (0%N, false)).
Proof.
  exists Jhash, (λ k s i c, (c, if (k =? 2)%N && negb (i =? 0)%N then None else Some (Jhash k s i))), 0%N, 1%N, 2%N, 7%N, 16.
  split_and!.
  - intros k s i c b. simpl. by destruct ((k =? 2)%N && negb (i =? 0)%N); intros [= <-].
  - intros s i [c Hc]. done.
  - lia.
  - by vm_compute.
  - by vm_compute.
  - intros n api. subst api. vm_compute. reflexivity.
Qed.

Theorem C55_Set_deep_refuted : ∃ (Hash : N -> N -> N -> N) Hash' seed k1 k2 d,
  (∀ k s i, answers (Hash' k s i) (Hash k s i)) /\ (∀ s i, ¬ can_panic (Hash' k1 s i)) /\
  d < 241 /\ gdigit Hash seed k1 d ≠ gdigit Hash seed k2 d /\ set_way Hash seed k2 k1 0 /\
  ∀ n, let api := ESet_api (U:=unit) (C:=unit) (enough n) (λ a b c, (c, Some (N.eqb a b))) Hash' in
    outputs (tt, tt) (h <- New seed ;; sa_Add api h k1 ;;; g1 <- sa_Has api h k1 ;;
        rescue (sa_Add api h k2) ;;; l <- Len h ;; g2 <- sa_Has api h k1 ;; ret (g1, l, g2)) =
    Some (true, 1%N, false).
Proof.
  exists Jhash, (λ k s i c, (c, if (k =? 2)%N && negb (i =? 0)%N then None else Some (Jhash k s i))), 0%N, 1%N, 2%N, 16.
  split_and!.
  - intros k s i c b. simpl. by destruct ((k =? 2)%N && negb (i =? 0)%N); intros [= <-].
  - intros s i [c Hc]. done.
  - lia.
  - by vm_compute.
  - by vm_compute.
  - intros n api. subst api. vm_compute. reflexivity.
Qed.

(** ** Examples *)
Section exec.
Context {K V U C : Type}.
(** Runs calls; a panic leaves the history unchanged. *)
Fixpoint emexec (api : mapapi K V K (U * C)) (chk : list (mop K V U * mres V) -> mop K V U -> bool)
    (tr : list (mop K V U * mres V)) (n : nat) (w : world V K (U * C)) (l : list (mop K V U))
    : option (list (mop K V U * mres V) * nat * world V K (U * C)) :=
  match l with
  | [] => Some (tr, n, w)
  | op :: l =>
      if chk tr op then
        match mcall api (emap_op op) w with
        | Ret res w' => emexec api chk ((op, res) :: tr) n w' l
        | Panic w' => emexec api chk tr (S n) w' l
        | _ => None
        end
      else None
  end.
Lemma emexec_run api chk (ok : list (mop K V U * mres V) -> mop K V U -> Prop) u0 c0 l : (∀ tr op, chk tr op = true -> ok tr op) ->
  ∀ tr n w tr' n' w', memrun api ok u0 c0 tr w -> emexec api chk tr n w l = Some (tr', n', w') -> memrun api ok u0 c0 tr' w'.
Proof.
  intros Hchk. induction l as [|op l IH]; intros tr n w tr' n' w' Hr He; simpl in He; [by injection He as <- <- <-|].
  destruct (chk tr op) eqn:Ec; [|done]. destruct (mcall api (emap_op op) w) as [res w1|w1| |] eqn:E; try done.
  - eapply IH; [|exact He]. eapply memrun_call; [exact Hr|by apply Hchk|exact E].
  - eapply IH; [|exact He]. eapply memrun_panic; [exact Hr|by apply Hchk|exact E].
Qed.
Lemma emexec_test api chk (ok : list (mop K V U * mres V) -> mop K V U -> Prop) u0 c0 l rs np : (∀ tr op, chk tr op = true -> ok tr op) ->
  (λ x, ((reverse x.1.1).*2, x.1.2)) <$> emexec api chk [] 0 (empty_world (u0, c0)) l = Some (rs, np) ->
  ∃ tr w, memrun api ok u0 c0 tr w /\ (reverse tr).*2 = rs.
Proof.
  intros Hchk He. destruct (emexec api chk [] 0 (empty_world (u0, c0)) l) as [[[tr n] w]|] eqn:E; [|done]. injection He as Hrs _.
  exists tr, w. split; [|done]. eapply emexec_run; [exact Hchk|apply memrun_nil|exact E].
Qed.
End exec.

(** Every fifth call of KeyBytes or Hash panics, but for Hash of 1 and 2 with iter = 1, which
    is called when they move down 17 levels. Of the twelve calls below, two panic in ArrMap: a
    Mod that was about to move another key, and a Del; both are made again, with success.
    In Map three panic: the first Mod, when Hash is called with iter = 1, and two of Get. *)
Definition fifthJ (k s i : N) (n : nat) : nat * option N :=
  (S n, if (n mod 5 =? 4) && negb ((k <? 3)%N && (i =? 1)%N) then None else Some (Jhash k s i)).
Lemma fifthJ_answers k s i : answers (fifthJ k s i) (Jhash k s i).
Proof. intros c b. unfold fifthJ. cbn [snd]. destruct (_ && _); [done|]. by intros [= <-]. Qed.
Definition differb (s k k' : N) (n : nat) : bool := existsb (λ i, negb (gdigit Jhash s k i =? gdigit Jhash s k' i)%N) (seq 0 n).
Lemma differb_ok s k k' n : differb s k k' n = true -> ¬ ∀ i, i < n -> gdigit Jhash s k i = gdigit Jhash s k' i.
Proof.
  intros (i & Hi & Hd)%existsb_exists Ha. apply in_seq in Hi. rewrite (Ha i) in Hd by lia. by rewrite N.eqb_refl in Hd.
Qed.
Definition calmb (s k k' : N) : bool := differb s k k' 16 || ((k <? 3)%N && (k' <? 3)%N && differb s k k' 32).
Lemma calmb_ok s k k' : calmb s k k' = true -> calm Jhash fifthJ s k k'.
Proof.
  intros Hb j Hj Ha. destruct (differb s k k' 16) eqn:E16.
  - exfalso. apply (differb_ok _ _ _ _ E16). intros i Hi. apply Ha. lia.
  - unfold calmb in Hb. rewrite E16 in Hb. simpl in Hb. apply andb_prop in Hb as [[H1 H2]%andb_prop H32].
    destruct (decide (j = 1)) as [->|Hne].
    + split; intros [c Hc]; unfold fifthJ in Hc; cbn [snd] in Hc; [rewrite H1 in Hc|rewrite H2 in Hc]; simpl in Hc; by rewrite andb_false_r in Hc.
    + exfalso. apply (differb_ok _ _ _ _ H32). intros i Hi. apply Ha. lia.
Qed.
Definition set_way'b (s k k' : N) (d : nat) : bool := set_wayb Jhash s k k' d && calmb s k k'.
Definition mod_way'b (s k k' : N) (d : nat) : bool := mod_wayb Jhash s k k' d && calmb s k k'.
Lemma set_way'b_ok s k k' d : set_way'b s k k' d = true -> set_way Jhash s k k' d /\ calm Jhash fifthJ s k k'.
Proof. intros [H1 H2]%andb_prop. split; [by apply set_wayb_ok|by apply calmb_ok]. Qed.
Lemma mod_way'b_ok s k k' d : mod_way'b s k k' d = true -> mod_way Jhash s k k' d /\ calm Jhash fifthJ s k k'.
Proof. intros [H1 H2]%andb_prop. split; [by apply mod_wayb_ok|by apply calmb_ok]. Qed.
Definition fifth {K A} (f : K -> A) (k : K) (c : nat) : nat * option A := (S c, if c mod 5 =? 4 then None else Some (f k)).
Lemma fifth_answers {K A} (f : K -> A) k : answers (fifth f k) (f k).
Proof. intros c b. unfold fifth. cbn [snd]. destruct (c mod 5 =? 4); [done|]. by intros [= <-]. Qed.
Definition steps12 {K} (a b c : K) : list (mop K N N) :=
  [MNew 7; MSet 2 a 10%N; MSet 2 b 20%N; MGet 2 b; MMod 2 c (λ u v _, (u, v + 30)%N); MMod 2 c (λ u v _, (u, v + 30)%N); MGet 2 a; MGet 2 b; MDel 2 b; MDel 2 b; MGet 2 c; MLen 2]%positive.
Example C55_nonvacuous :
  (let api := EArrMap_api (U:=N) 0%N 256 toyh (λ (a b : bytes) n, (n, Some (bool_decide (a = b)))) (fifth id) in
   let ok := λ tr op, mallowed (λ _, true = true) (λ _, true = true) tr op /\ ins_guard (arr_digit toyh id) no_way any_way tr op in
   (∃ bad, emap_type 0%N 256 api bad (arr_digit toyh id) ok) /\
   ∃ tr w, memrun api ok 0%N 0 tr w /\
     (reverse tr).*2 = [RHandle 2; RUnit; RUnit; RGet 20%N true; RUnit; RGet 10%N true; RGet 20%N true; RUnit; RGet 30%N true; RLen 2]) /\
  (let api := EMap_api (U:=N) 0%N 256 (λ a b n, (n, Some (N.eqb a b))) fifthJ in
   let ok := λ tr op, mallowed (λ _, true = true) (λ _, true = true) tr op /\ ins_guard (gdigit Jhash) (λ s k k' d, set_way Jhash s k k' d /\ calm Jhash fifthJ s k k')
     (λ s k k' d, mod_way Jhash s k k' d /\ calm Jhash fifthJ s k k') tr op in
   (∃ bad, emap_type 0%N 256 api bad (gdigit Jhash) ok) /\
   ∃ tr w, memrun api ok 0%N 1 tr w /\
     (reverse tr).*2 = [RHandle 2; RUnit; RUnit; RGet 20%N true; RUnit; RGet 10%N true; RUnit; RUnit; RLen 2]).
Proof.
  split.
  - split.
    + eexists. apply (type_EArrMap 0%N 256 bytes toyh (λ a b, bool_decide (a = b)) id (λ _, true = true) (λ _, true = true)).
      * apply bytes_decides.
      * intros k k' c b. simpl. by intros [= <-].
      * intros k. apply fifth_answers.
    + eapply (emexec_test _ (gchk (arr_digit toyh id) (λ _, true) nob anyb) _ _ _ (steps12 [1] [2] [17])%N);
      [intros tr op; apply gchk_ok; [apply nob_ok|apply anyb_ok]|vm_compute; reflexivity].
  - split.
    + eexists. apply (type_EMap 0%N 256 N N.eqb Jhash (λ _, true = true) (λ _, true = true)).
      * apply N_decides.
      * intros k k' c b. simpl. by intros [= <-].
      * intros k s i. apply fifthJ_answers.
    + eapply (emexec_test _ (gchk (gdigit Jhash) (λ _, true) set_way'b mod_way'b) _ _ _ (steps12 1 2 3)%N);
      [intros tr op; apply gchk_ok; [apply set_way'b_ok|apply mod_way'b_ok]|vm_compute; reflexivity].
Qed.

Section sexec.
Context {K U C : Type}.
Fixpoint semexec (api : setapi K unit K (U * C)) (chk : list (sop K U * sres) -> sop K U -> bool)
    (tr : list (sop K U * sres)) (w : world unit K (U * C)) (l : list (sop K U))
    : option (list (sop K U * sres) * world unit K (U * C)) :=
  match l with
  | [] => Some (tr, w)
  | op :: l =>
      if chk tr op then
        match scall api (eset_op op) w with
        | Ret res w' => semexec api chk ((op, res) :: tr) w' l
        | Panic w' => semexec api chk tr w' l
        | _ => None
        end
      else None
  end.
Lemma semexec_run api chk (ok : list (sop K U * sres) -> sop K U -> Prop) u0 c0 l : (∀ tr op, chk tr op = true -> ok tr op) ->
  ∀ tr w tr' w', semrun api ok u0 c0 tr w -> semexec api chk tr w l = Some (tr', w') -> semrun api ok u0 c0 tr' w'.
Proof.
  intros Hchk. induction l as [|op l IH]; intros tr w tr' w' Hr He; simpl in He; [by injection He as <- <-|].
  destruct (chk tr op) eqn:Ec; [|done]. destruct (scall api (eset_op op) w) as [res w1|w1| |] eqn:E; try done.
  - eapply IH; [|exact He]. eapply semrun_call; [exact Hr|by apply Hchk|exact E].
  - eapply IH; [|exact He]. eapply semrun_panic; [exact Hr|by apply Hchk|exact E].
Qed.
Lemma semexec_test api chk (ok : list (sop K U * sres) -> sop K U -> Prop) u0 c0 l rs : (∀ tr op, chk tr op = true -> ok tr op) ->
  (λ x, (reverse x.1).*2) <$> semexec api chk [] (empty_world (u0, c0)) l = Some rs ->
  ∃ tr w, semrun api ok u0 c0 tr w /\ (reverse tr).*2 = rs.
Proof.
  intros Hchk He. destruct (semexec api chk [] (empty_world (u0, c0)) l) as [[tr w]|] eqn:E; [|done]. injection He as Hrs.
  exists tr, w. split; [|done]. eapply semexec_run; [exact Hchk|apply semrun_nil|exact E].
Qed.
End sexec.

Definition steps10 {K} (a b c : K) : list (sop K N) :=
  [SNew 7; SAdd 2 a; SAdd 2 b; SHas 2 b; SAdd 2 c; SAdd 2 c; SHas 2 a; SHas 2 b; SDel 2 b; SDel 2 b; SHas 2 c; SLen 2]%positive.
Example C55_nonvacuous_set :
  (let api := EArrSet_api (U:=N) 256 toyh (λ (a b : bytes) n, (n, Some (bool_decide (a = b)))) (fifth id) in
   let ok := λ tr op, sallowed (λ _, true = true) (λ _, true = true) tr op /\ add_guard (arr_digit toyh id) any_way tr op in
   (∃ bad, eset_type 256 api bad (arr_digit toyh id) ok) /\
   ∃ tr w, semrun api ok 0%N 0 tr w /\
     (reverse tr).*2 = [THandle 2; TUnit; TUnit; THas true; TUnit; THas true; THas true; TUnit; THas true; TLen 2]) /\
  (let api := ESet_api (U:=N) 256 (λ a b n, (n, Some (N.eqb a b))) fifthJ in
   let ok := λ tr op, sallowed (λ _, true = true) (λ _, true = true) tr op /\ add_guard (gdigit Jhash) (λ s k k' d, set_way Jhash s k k' d /\ calm Jhash fifthJ s k k') tr op in
   (∃ bad, eset_type 256 api bad (gdigit Jhash) ok) /\
   ∃ tr w, semrun api ok 0%N 1 tr w /\
     (reverse tr).*2 = [THandle 2; TUnit; TUnit; THas true; TUnit; THas true; TUnit; TUnit; TLen 2]).
Proof.
  split.
  - split.
    + eexists. apply (type_EArrSet 256 bytes toyh (λ a b, bool_decide (a = b)) id (λ _, true = true) (λ _, true = true)).
      * apply bytes_decides.
      * intros k k' c b. simpl. by intros [= <-].
      * intros k. apply fifth_answers.
    + eapply (semexec_test _ (gschk (arr_digit toyh id) (λ _, true) anyb) _ _ _ (steps10 [1] [2] [17])%N);
      [intros tr op; apply gschk_ok; apply anyb_ok|vm_compute; reflexivity].
  - split.
    + eexists. apply (type_ESet 256 N N.eqb Jhash (λ _, true = true) (λ _, true = true)).
      * apply N_decides.
      * intros k k' c b. simpl. by intros [= <-].
      * intros k s i. apply fifthJ_answers.
    + eapply (semexec_test _ (gschk (gdigit Jhash) (λ _, true) set_way'b) _ _ _ (steps10 1 2 3)%N);
      [intros tr op; apply gschk_ok; apply set_way'b_ok|vm_compute; reflexivity].
Qed.

Print Assumptions C55_history_map_partial.
Print Assumptions C55_call_map_partial.
Print Assumptions C55_keyless_map_partial.
Print Assumptions C55_history_set_partial.
Print Assumptions C55_call_set_partial.
Print Assumptions C55_keyless_set_partial.
Print Assumptions C55_Map_deep_refuted.
Print Assumptions C55_Set_deep_refuted.
