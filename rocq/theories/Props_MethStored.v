(** C59: the calls call the key methods only on the key they are given and on keys that are
    stored in the container at that moment. *)
From stdpp Require Import base numbers list gmap.
From Verif Require Import GoInt Mem Hash Amt Families Spec Client Types Guards Runs Refuted EAmt MethSpec MethCount MethStored Props_Types Props_Meth Props_MethCount.
Local Open Scope nat_scope.

(** Every key on which a method is called is k or one of the stored keys. *)
Definition only_known `{Countable K} (k : K) (keys : gset K) (l : list K) : Prop := ∀ x, x ∈ l -> x = k \/ x ∈ keys.

(** log: the keys on which the methods were called, with those that they got as arguments.
    In every execution of C55, in which calls may have panicked. *)
Section maps.
Context (V U C : Type) (zero : V) (fuel : nat) (u0 : U) (c0 : C).
Context (K : Type) `{Countable K} (bad : Prop) (dig : N -> K -> nat -> N) (ok : list (mop K V U * mres V) -> mop K V U -> Prop).

Lemma known_map (api : mapapi K V K (U * C)) (log : C -> list K) tr w op h k b s : 256 <= fuel -> emap_type zero fuel api bad dig ok ->
  (∀ P0 T, match op with
    | MGet h k | MVal h k | MPtr h k | MDel h k | MSet h k _ | MMod h k _ =>
        rooted P0 w h T -> sayw log (known T k) (mcall api (emap_op op)) w
    | _ => True
    end) ->
  memrun api ok u0 c0 tr w -> mabout op = Some (h, k, b) -> (MNew s, RHandle h) ∈ tr ->
  match mcall api (emap_op op) w with
  | Ret _ w' | Panic w' => ∃ l, log (w_usr w').2 = log (w_usr w).2 ++ l /\ only_known k (stored tr h) l
  | _ => True
  end.
Proof.
  intros Hfuel Ht Hsay Hr Ho Hs. destruct (memrun_tree zero fuel u0 c0 api bad dig ok Hfuel Ht tr w Hr s h Hs) as (P0 & T & HT & Hst).
  specialize (Hsay P0 T). assert (Hw : sayw log (known T k) (mcall api (emap_op op)) w).
  { destruct op; try done; injection Ho as -> -> <-; by apply Hsay. }
  unfold sayw in Hw. destruct (mcall api (emap_op op) w); try done; destruct Hw as (l & Hl & El); exists l; (split; [done|]);
    intros x Hx; (destruct (proj1 (Forall_forall _ _) Hl x Hx) as [->|[q Hq]]; [by left|right; by eapply Hst]).
Qed.

Theorem C59_Map : 256 <= fuel -> ∀ (Equal : K -> K -> C -> C * option bool) Hash, emap_type zero fuel (EMap_api zero fuel Equal Hash) bad dig ok ->
  ∀ log : C -> list K, (∀ k k' c, log (Equal k k' c).1 = log c ++ [k; k']) -> (∀ k s i c, log (Hash k s i c).1 = log c ++ [k]) ->
  ∀ tr w op h k b s, memrun (EMap_api zero fuel Equal Hash) ok u0 c0 tr w -> mabout op = Some (h, k, b) -> (MNew s, RHandle h) ∈ tr ->
  match mcall (EMap_api zero fuel Equal Hash) (emap_op op) w with
  | Ret _ w' | Panic w' => ∃ l, log (w_usr w').2 = log (w_usr w).2 ++ l /\ only_known k (stored tr h) l
  | _ => True
  end.
Proof.
  intros Hfuel Equal Hash Ht log He Hh tr w op h k b s. apply known_map; [done|done|].
  intros P0 T. exact (gen_known_map log zero fuel Equal Hash P0 He Hh op w T).
Qed.
Theorem C59_ArrMap : 256 <= fuel -> ∀ sum64 (keq : K -> K -> C -> C * option bool) KeyBytes,
  emap_type zero fuel (EArrMap_api zero fuel sum64 keq KeyBytes) bad dig ok ->
  ∀ log : C -> list K, (∀ k k' c, log (keq k k' c).1 = log c ++ [k; k']) -> (∀ k c, log (KeyBytes k c).1 = log c ++ [k]) ->
  ∀ tr w op h k b s, memrun (EArrMap_api zero fuel sum64 keq KeyBytes) ok u0 c0 tr w -> mabout op = Some (h, k, b) -> (MNew s, RHandle h) ∈ tr ->
  match mcall (EArrMap_api zero fuel sum64 keq KeyBytes) (emap_op op) w with
  | Ret _ w' | Panic w' => ∃ l, log (w_usr w').2 = log (w_usr w).2 ++ l /\ only_known k (stored tr h) l
  | _ => True
  end.
Proof.
  intros Hfuel sum64 keq KeyBytes Ht log He Hh tr w op h k b s. apply known_map; [done|done|].
  intros P0 T. exact (arr_known_map log zero fuel sum64 keq KeyBytes P0 He Hh op w T).
Qed.
End maps.

Section sets.
Context (U C : Type) (fuel : nat) (u0 : U) (c0 : C).
Context (K : Type) `{Countable K} (bad : Prop) (dig : N -> K -> nat -> N) (ok : list (sop K U * sres) -> sop K U -> Prop).

Lemma known_set (api : setapi K unit K (U * C)) (log : C -> list K) tr w op h k b s : 256 <= fuel -> eset_type fuel api bad dig ok ->
  (∀ P0 T, match op with
    | SHas h k | SDel h k | SAdd h k => rooted P0 w h T -> sayw log (known T k) (scall api (eset_op op)) w
    | _ => True
    end) ->
  semrun api ok u0 c0 tr w -> sabout op = Some (h, k, b) -> (SNew s, THandle h) ∈ tr ->
  match scall api (eset_op op) w with
  | Ret _ w' | Panic w' => ∃ l, log (w_usr w').2 = log (w_usr w).2 ++ l /\ only_known k (sstored tr h) l
  | _ => True
  end.
Proof.
  intros Hfuel Ht Hsay Hr Ho Hs. destruct (semrun_tree fuel u0 c0 api bad dig ok Hfuel Ht tr w Hr s h Hs) as (P0 & T & HT & Hst).
  specialize (Hsay P0 T). assert (Hw : sayw log (known T k) (scall api (eset_op op)) w).
  { destruct op; try done; injection Ho as -> -> <-; by apply Hsay. }
  unfold sayw in Hw. destruct (scall api (eset_op op) w); try done; destruct Hw as (l & Hl & El); exists l; (split; [done|]);
    intros x Hx; (destruct (proj1 (Forall_forall _ _) Hl x Hx) as [->|[q Hq]]; [by left|right; by eapply Hst]).
Qed.

Theorem C59_Set : 256 <= fuel -> ∀ (Equal : K -> K -> C -> C * option bool) Hash, eset_type fuel (ESet_api fuel Equal Hash) bad dig ok ->
  ∀ log : C -> list K, (∀ k k' c, log (Equal k k' c).1 = log c ++ [k; k']) -> (∀ k s i c, log (Hash k s i c).1 = log c ++ [k]) ->
  ∀ tr w op h k b s, semrun (ESet_api fuel Equal Hash) ok u0 c0 tr w -> sabout op = Some (h, k, b) -> (SNew s, THandle h) ∈ tr ->
  match scall (ESet_api fuel Equal Hash) (eset_op op) w with
  | Ret _ w' | Panic w' => ∃ l, log (w_usr w').2 = log (w_usr w).2 ++ l /\ only_known k (sstored tr h) l
  | _ => True
  end.
Proof.
  intros Hfuel Equal Hash Ht log He Hh tr w op h k b s. apply known_set; [done|done|].
  intros P0 T. exact (gen_known_set log fuel Equal Hash P0 He Hh op w T).
Qed.
Theorem C59_ArrSet : 256 <= fuel -> ∀ sum64 (keq : K -> K -> C -> C * option bool) KeyBytes,
  eset_type fuel (EArrSet_api fuel sum64 keq KeyBytes) bad dig ok ->
  ∀ log : C -> list K, (∀ k k' c, log (keq k k' c).1 = log c ++ [k; k']) -> (∀ k c, log (KeyBytes k c).1 = log c ++ [k]) ->
  ∀ tr w op h k b s, semrun (EArrSet_api fuel sum64 keq KeyBytes) ok u0 c0 tr w -> sabout op = Some (h, k, b) -> (SNew s, THandle h) ∈ tr ->
  match scall (EArrSet_api fuel sum64 keq KeyBytes) (eset_op op) w with
  | Ret _ w' | Panic w' => ∃ l, log (w_usr w').2 = log (w_usr w).2 ++ l /\ only_known k (sstored tr h) l
  | _ => True
  end.
Proof.
  intros Hfuel sum64 keq KeyBytes Ht log He Hh tr w op h k b s. apply known_set; [done|done|].
  intros P0 T. exact (arr_known_set log fuel sum64 keq KeyBytes P0 He Hh op w T).
Qed.
End sets.

(** ** Examples: methods that note their keys *)
Definition eq_notes {K} (eqb : K -> K -> bool) (a b : K) (c : list K) : list K * option bool := (c ++ [a; b], Some (eqb a b)).
Definition notes {K A} (f : K -> A) (k : K) (c : list K) : list K * option A := (c ++ [k], Some (f k)).

Lemma emexec_then {K V U C} (api : mapapi K V K (U * C)) chk (ok : list (mop K V U * mres V) -> mop K V U -> Prop) u0 c0 l rs (P : C -> Prop) op (Q : C -> mres V -> C -> Prop) :
  (∀ tr op, chk tr op = true -> ok tr op) ->
  match emexec api chk [] 0 (empty_world (u0, c0)) l with
  | Some (tr, _, w) => (reverse tr).*2 = rs /\ P (w_usr w).2 /\
      match mcall api (emap_op op) w with Ret res w' => Q (w_usr w).2 res (w_usr w').2 | _ => False end
  | None => False
  end ->
  ∃ tr w res w', memrun api ok u0 c0 tr w /\ (reverse tr).*2 = rs /\ P (w_usr w).2 /\ mcall api (emap_op op) w = Ret res w' /\ Q (w_usr w).2 res (w_usr w').2.
Proof.
  intros Hchk He. destruct (emexec api chk [] 0 (empty_world (u0, c0)) l) as [[[tr n] w]|] eqn:E; [|done]. destruct He as (Hrs & HP & Hc).
  destruct (mcall api (emap_op op) w) as [res w'| | |] eqn:Ec; try done.
  exists tr, w, res, w'. split_and!; try done. eapply emexec_run; [exact Hchk|apply memrun_nil|exact E].
Qed.

Lemma calm_notes s k k' : calm Jhash (λ k s i, notes (λ k, Jhash k s i) k) s k k'.
Proof. intros j _ _. split; by intros [c Hc]. Qed.

(** A Get of a key that was removed: its hash or bytes are asked for, and it is compared to
    another key, which is stored. *)
Example C59_nonvacuous :
  (let api := EMap_api (U:=N) 0%N 256 (eq_notes N.eqb) (λ k s i, notes (λ k, Jhash k s i) k) in
   let ok := λ tr op, mallowed (λ _, true = true) (λ _, true = true) tr op /\ ins_guard (gdigit Jhash) (λ s k k' d, set_way Jhash s k k' d /\ calm Jhash (λ k s i, notes (λ k, Jhash k s i) k) s k k')
     (λ s k k' d, mod_way Jhash s k k' d /\ calm Jhash (λ k s i, notes (λ k, Jhash k s i) k) s k k') tr op in
   (∃ bad, emap_type 0%N 256 api bad (gdigit Jhash) ok) /\
   ∃ tr w res w', memrun api ok 0%N [] tr w /\ (reverse tr).*2 = [RHandle 2; RUnit; RUnit; RUnit; RUnit] /\
     (w_usr w).2 = [1; 2; 2; 1; 1; 2; 1; 35; 2; 2; 2; 2]%N /\ mcall api (emap_op (MGet 2 2%N)) w = Ret res w' /\
     (res = RGet 0%N false /\ (w_usr w').2 = (w_usr w).2 ++ [2; 2; 1]%N)) /\
  (let api := EArrMap_api (U:=N) 0%N 256 toyh (eq_notes (λ a b : bytes, bool_decide (a = b))) (notes id) in
   let ok := λ tr op, mallowed (λ _, true = true) (λ _, true = true) tr op /\ ins_guard (arr_digit toyh id) no_way any_way tr op in
   (∃ bad, emap_type 0%N 256 api bad (arr_digit toyh id) ok) /\
   ∃ tr w res w', memrun api ok 0%N [] tr w /\ (reverse tr).*2 = [RHandle 2; RUnit; RUnit; RUnit; RUnit] /\
     (w_usr w).2 = [[1]; [2]; [17]; [1]; [17]; [1]; [17]; [17]; [17]]%N /\ mcall api (emap_op (MGet 2 [17]%N)) w = Ret res w' /\
     (res = RGet 0%N false /\ (w_usr w').2 = (w_usr w).2 ++ [[17]; [1]; [17]]%N)).
Proof.
  split; split.
  - eexists. apply (type_EMap 0%N 256 N N.eqb Jhash (λ _, true = true) (λ _, true = true)).
    + apply N_decides.
    + intros k k' c b. simpl. by intros [= <-].
    + intros k s i c b. simpl. by intros [= <-].
  - eapply (emexec_then _ (gchk (gdigit Jhash) (λ _, true) (set_wayb Jhash) (mod_wayb Jhash)) _ _ _
      [MNew 7; MSet 2 1%N 10%N; MSet 2 2%N 20%N; MSet 2 35%N 30%N; MDel 2 2%N]%positive _ (λ c, c = _) (MGet 2 2%N) (λ c r c', r = _ /\ c' = c ++ _));
      [intros tr op; apply gchk_ok; [intros s k k' d Hb; split; [by apply set_wayb_ok|by apply calm_notes]|intros s k k' d Hb; split; [by apply mod_wayb_ok|by apply calm_notes]]|vm_compute; done].
  - eexists. apply (type_EArrMap 0%N 256 bytes toyh (λ a b, bool_decide (a = b)) id (λ _, true = true) (λ _, true = true)).
    + apply bytes_decides.
    + intros k k' c b. simpl. by intros [= <-].
    + intros k c b. simpl. by intros [= <-].
  - eapply (emexec_then _ (gchk (arr_digit toyh id) (λ _, true) nob anyb) _ _ _
      [MNew 7; MSet 2 [1]%N 10%N; MSet 2 [2]%N 20%N; MMod 2 [17]%N (λ u v _, (u, v + 30)%N); MDel 2 [17]%N]%positive _ (λ c, c = _) (MGet 2 [17]%N) (λ c r c', r = _ /\ c' = c ++ _));
      [intros tr op; apply gchk_ok; [apply nob_ok|apply anyb_ok]|vm_compute; done].
Qed.

Lemma semexec_then {K U C} (api : setapi K unit K (U * C)) chk (ok : list (sop K U * sres) -> sop K U -> Prop) u0 c0 l rs (P : C -> Prop) op (Q : C -> sres -> C -> Prop) :
  (∀ tr op, chk tr op = true -> ok tr op) ->
  match semexec api chk [] (empty_world (u0, c0)) l with
  | Some (tr, w) => (reverse tr).*2 = rs /\ P (w_usr w).2 /\
      match scall api (eset_op op) w with Ret res w' => Q (w_usr w).2 res (w_usr w').2 | _ => False end
  | None => False
  end ->
  ∃ tr w res w', semrun api ok u0 c0 tr w /\ (reverse tr).*2 = rs /\ P (w_usr w).2 /\ scall api (eset_op op) w = Ret res w' /\ Q (w_usr w).2 res (w_usr w').2.
Proof.
  intros Hchk He. destruct (semexec api chk [] (empty_world (u0, c0)) l) as [[tr w]|] eqn:E; [|done]. destruct He as (Hrs & HP & Hc).
  destruct (scall api (eset_op op) w) as [res w'| | |] eqn:Ec; try done.
  exists tr, w, res, w'. split_and!; try done. eapply semexec_run; [exact Hchk|apply semrun_nil|exact E].
Qed.
Example C59_nonvacuous_set :
  (let api := ESet_api (U:=N) 256 (eq_notes N.eqb) (λ k s i, notes (λ k, Jhash k s i) k) in
   let ok := λ tr op, sallowed (λ _, true = true) (λ _, true = true) tr op /\ add_guard (gdigit Jhash) (λ s k k' d, set_way Jhash s k k' d /\ calm Jhash (λ k s i, notes (λ k, Jhash k s i) k) s k k') tr op in
   (∃ bad, eset_type 256 api bad (gdigit Jhash) ok) /\
   ∃ tr w res w', semrun api ok 0%N [] tr w /\ (reverse tr).*2 = [THandle 2; TUnit; TUnit; TUnit; TUnit] /\
     (w_usr w).2 = [1; 2; 2; 1; 1; 2; 1; 35; 2; 2; 2; 2]%N /\ scall api (eset_op (SHas 2 2%N)) w = Ret res w' /\
     (res = THas false /\ (w_usr w').2 = (w_usr w).2 ++ [2; 2; 1]%N)) /\
  (let api := EArrSet_api (U:=N) 256 toyh (eq_notes (λ a b : bytes, bool_decide (a = b))) (notes id) in
   let ok := λ tr op, sallowed (λ _, true = true) (λ _, true = true) tr op /\ add_guard (arr_digit toyh id) any_way tr op in
   (∃ bad, eset_type 256 api bad (arr_digit toyh id) ok) /\
   ∃ tr w res w', semrun api ok 0%N [] tr w /\ (reverse tr).*2 = [THandle 2; TUnit; TUnit; TUnit; TUnit] /\
     (w_usr w).2 = [[1]; [2]; [17]; [1]; [17]; [1]; [17]; [17]; [17]]%N /\ scall api (eset_op (SHas 2 [17]%N)) w = Ret res w' /\
     (res = THas false /\ (w_usr w').2 = (w_usr w).2 ++ [[17]; [1]; [17]]%N)).
Proof.
  split; split.
  - eexists. apply (type_ESet 256 N N.eqb Jhash (λ _, true = true) (λ _, true = true)).
    + apply N_decides.
    + intros k k' c b. simpl. by intros [= <-].
    + intros k s i c b. simpl. by intros [= <-].
  - eapply (semexec_then _ (gschk (gdigit Jhash) (λ _, true) (set_wayb Jhash)) _ _ _
      [SNew 7; SAdd 2 1%N; SAdd 2 2%N; SAdd 2 35%N; SDel 2 2%N]%positive _ (λ c, c = _) (SHas 2 2%N) (λ c r c', r = _ /\ c' = c ++ _));
      [intros tr op; apply gschk_ok; intros s k k' d Hb; split; [by apply set_wayb_ok|by apply calm_notes]|vm_compute; done].
  - eexists. apply (type_EArrSet 256 bytes toyh (λ a b, bool_decide (a = b)) id (λ _, true = true) (λ _, true = true)).
    + apply bytes_decides.
    + intros k k' c b. simpl. by intros [= <-].
    + intros k c b. simpl. by intros [= <-].
  - eapply (semexec_then _ (gschk (arr_digit toyh id) (λ _, true) anyb) _ _ _
      [SNew 7; SAdd 2 [1]%N; SAdd 2 [2]%N; SAdd 2 [17]%N; SDel 2 [17]%N]%positive _ (λ c, c = _) (SHas 2 [17]%N) (λ c r c', r = _ /\ c' = c ++ _));
      [intros tr op; apply gschk_ok; apply anyb_ok|vm_compute; done].
Qed.

Print Assumptions C59_Map.
Print Assumptions C59_ArrMap.
Print Assumptions C59_Set.
Print Assumptions C59_ArrSet.
