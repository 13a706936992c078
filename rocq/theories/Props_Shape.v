(** Properties C29, C32 and C35: the memory of the containers of a run, for every
    map and set type (Types.v). What the memory looks like is defined in
    Levels.v, without the functions of the model. *)
From stdpp Require Import base numbers list gmap.
From Verif Require Import GoInt Mem Hash Amt Spec Guards Client Types Levels NoUnlink Core ShapeRuns Pack Runs Refuted Sep Props_Types Props_Ops.
Local Open Scope nat_scope.

Section maps.
Context (V U K CK : Type) (EqK : EqDecision K) (CoK : Countable K) (zero : V) (u0 : U) (fuel : nat).
Context (api : mapapi K V CK U) (dig : N -> K -> nat -> N) (ok : list (mop K V U * mres V) -> mop K V U -> Prop).
Hypothesis Hfuel : 256 <= fuel.
Hypothesis Htype : map_type zero fuel api dig ok.
Implicit Types (h : positive) (k : K) (lv x : link).

(** C32: after any run, every level lv of a container h has an array of slots: 16 at
    the root; elsewhere the least multiple of 4 that is at least the number of
    items, and there are at least two entries at or below lv. *)
Theorem C32_map : ∀ tr w s h d lv, mrun api ok u0 tr w -> (MNew s, RHandle h) ∈ tr -> level (w_mem w) h d lv ->
  ∃ n, slots (w_mem w) lv n /\ (d = 0 -> n = 16) /\
    (d ≠ 0 -> n mod 4 = 0 /\ length (digits_of lv) <= n < length (digits_of lv) + 4 /\
      ∃ q1 x1 q2 x2, q1 ≠ q2 /\ below (w_mem w) lv q1 x1 /\ below (w_mem w) lv q2 x2).
Proof.
  intros tr w s h d lv Hr Hin Hl.
  destruct (map_good zero fuel u0 Hfuel api dig ok Htype tr w s h Hr Hin) as (HS & F & L & s' & T & _ & _ & _ & _ & HG & _).
  exact (good_slots F L 240 s' w h T d lv HG Hl).
Qed.

(** C35: a level below the root that holds an entry holds another item, so that it
    does not become empty when the entry is removed. *)
Theorem C35_other_item_map : ∀ tr w s h d lv i r x, mrun api ok u0 tr w -> (MNew s, RHandle h) ∈ tr ->
  level (w_mem w) h d lv -> d ≠ 0 -> slot (w_mem w) lv i r x -> is_entry lv r = true ->
  ∃ i' r' x', r' ≠ r /\ slot (w_mem w) lv i' r' x'.
Proof.
  intros tr w s h d lv i r x Hr Hin Hl.
  destruct (map_good zero fuel u0 Hfuel api dig ok Htype tr w s h Hr Hin) as (HS & F & L & s' & T & _ & _ & _ & _ & HG & _).
  exact (good_other F L 240 s' w h T d lv i r x HG Hl).
Qed.

(** ... and Del (here [delete], Amt.v) does the same without the loop that unlinks
    empty branches ([delete_short], NoUnlink.v: the same text without the
    loop), for every key. *)
Theorem C35_no_loop_map : ∀ tr w s h k, mrun api ok u0 tr w -> (MNew s, RHandle h) ∈ tr ->
  ∃ HS (F : fam K HS V CK U), (∀ oh k0, ma_Del api oh k0 = delete F fuel oh k0) /\
    ma_Del api (Some h) k w = delete_short F negb fuel (Some h) k w.
Proof. exact (del_short zero fuel u0 Hfuel api dig ok Htype). Qed.

(** C29, for runs in which Del is only called with stored keys, of a depth below 12
    ([near_del]): the scratch paths hold no pointers. Missing: other calls of
    Del, for which it is false (C29_refuted, C29_deep_refuted). *)
Theorem C29_map_partial : ∀ tr w, mrun api (λ tr op, ok tr op /\ near_del dig tr op) u0 tr w ->
  ∀ s h, (MNew s, RHandle h) ∈ tr -> path_empty (w_mem w) h.
Proof. exact (runs_clean zero fuel u0 Hfuel api dig ok Htype). Qed.
End maps.

Section sets.
Context (U K CK : Type) (EqK : EqDecision K) (CoK : Countable K) (u0 : U) (fuel : nat).
Context (api : setapi K unit CK U) (dig : N -> K -> nat -> N) (ok : list (sop K U * sres) -> sop K U -> Prop).
Hypothesis Hfuel : 256 <= fuel.
Hypothesis Htype : set_type fuel api dig ok.
Implicit Types (h : positive) (k : K) (lv x : link).

Theorem C32_set : ∀ tr w s h d lv, srun api ok u0 tr w -> (SNew s, THandle h) ∈ tr -> level (w_mem w) h d lv ->
  ∃ n, slots (w_mem w) lv n /\ (d = 0 -> n = 16) /\
    (d ≠ 0 -> n mod 4 = 0 /\ length (digits_of lv) <= n < length (digits_of lv) + 4 /\
      ∃ q1 x1 q2 x2, q1 ≠ q2 /\ below (w_mem w) lv q1 x1 /\ below (w_mem w) lv q2 x2).
Proof.
  intros tr w s h d lv Hr Hin Hl.
  destruct (set_good fuel u0 Hfuel api dig ok Htype tr w s h Hr Hin) as (HS & F & L & s' & T & _ & _ & _ & _ & HG & _).
  exact (good_slots F L 240 s' w h T d lv HG Hl).
Qed.
Theorem C35_other_item_set : ∀ tr w s h d lv i r x, srun api ok u0 tr w -> (SNew s, THandle h) ∈ tr ->
  level (w_mem w) h d lv -> d ≠ 0 -> slot (w_mem w) lv i r x -> is_entry lv r = true ->
  ∃ i' r' x', r' ≠ r /\ slot (w_mem w) lv i' r' x'.
Proof.
  intros tr w s h d lv i r x Hr Hin Hl.
  destruct (set_good fuel u0 Hfuel api dig ok Htype tr w s h Hr Hin) as (HS & F & L & s' & T & _ & _ & _ & _ & HG & _).
  exact (good_other F L 240 s' w h T d lv i r x HG Hl).
Qed.
(** [ok] allows Del for all set types but BytesSet. *)
Theorem C35_no_loop_set : ∀ tr w s h k, srun api ok u0 tr w -> (SNew s, THandle h) ∈ tr -> ok tr (SDel h k) ->
  ∃ HS (F : fam K HS unit CK U), (∀ oh k0, sa_Del api oh k0 = delete F fuel oh k0) /\
    sa_Del api (Some h) k w = delete_short F negb fuel (Some h) k w.
Proof. exact (sdel_short fuel u0 Hfuel api dig ok Htype). Qed.
Theorem C29_set_partial : ∀ tr w, srun api (λ tr op, ok tr op /\ near_sdel dig tr op) u0 tr w ->
  ∀ s h, (SNew s, THandle h) ∈ tr -> path_empty (w_mem w) h.
Proof. exact (sruns_clean fuel u0 Hfuel api dig ok Htype). Qed.
End sets.

Print Assumptions C32_map.
Print Assumptions C35_other_item_map.
Print Assumptions C35_no_loop_map.
Print Assumptions C29_map_partial.
Print Assumptions C32_set.
Print Assumptions C35_other_item_set.
Print Assumptions C35_no_loop_set.
Print Assumptions C29_set_partial.

(** ** Concrete runs *)

(** The last link and the state after a run, tested by a boolean function. *)
Lemma mexec_test {K V CK U} (api : mapapi K V CK U) chk (ok : list (mop K V U * mres V) -> mop K V U -> Prop) u0 ops test :
  (∀ tr op, chk tr op = true -> ok tr op) ->
  match mexec api chk [] (empty_world u0) ops with Some (tr, w) => test tr w | None => false end = true ->
  ∃ tr w, mrun api ok u0 tr w /\ test tr w = true.
Proof.
  intros Hchk He. destruct (mexec api chk [] (empty_world u0) ops) as [[tr w]|] eqn:E; [|done].
  exists tr, w. split; [|done]. eapply mexec_run; [exact Hchk|constructor|exact E].
Qed.
Definition newb {K V U} (s : N) (h : positive) (tr : list (mop K V U * mres V)) : bool :=
  existsb (λ x, match x with (MNew s', RHandle h') => (s =? s')%N && (h =? h')%positive | _ => false end) tr.
Lemma newb_in {K V U} s h (tr : list (mop K V U * mres V)) : newb s h tr = true -> (MNew s, RHandle h) ∈ tr.
Proof.
  intros ([o r] & Hin & Hb)%existsb_exists. destruct o, r; try done.
  apply andb_prop in Hb as [->%N.eqb_eq ->%Pos.eqb_eq]. by apply elem_of_list_In.
Qed.
(** The scratch path holds a pointer. *)
Definition dirtyb {V CK U} (h : positive) (w : world V CK U) : bool :=
  match w_mem w !! h with
  | Some (BRoot rt) => existsb (λ y, match pl_link y with Some _ => true | None => false end) (rt_path rt)
  | _ => false
  end.
Lemma dirtyb_dirty {V CK U} h (w : world V CK U) : dirtyb h w = true -> ¬ path_empty (w_mem w) h.
Proof.
  unfold dirtyb. intros Hd (rt & Hr & Hf). rewrite Hr in Hd.
  apply existsb_exists in Hd as (y & Hin & Hy). rewrite Forall_forall in Hf.
  apply elem_of_list_In in Hin. apply Hf in Hin. by rewrite Hin in Hy.
Qed.

(** StringMap with the hash le8 of Refuted.v, whose digits are those of the first
    bytes: [1], [17] and [33] share the first digit. *)
Definition le8keys : list bytes := [[1]; [2]; [17]; [33]]%N.
Definition le8api : mapapi bytes N bytes N := StringMap_api le8 0%N 256.
Definition le8ok (tr : list (mop bytes N N * mres N)) (op : mop bytes N N) : Prop :=
  mallowed (λ k, memb le8keys k = true) (λ s, memN [7]%N s = true) tr op /\ ins_guard (digit le8) any_way any_way tr op.
Definition le8chk (tr : list (mop bytes N N * mres N)) (op : mop bytes N N) : bool :=
  mchk (memb le8keys) (memN [7]%N) tr op && insb (digit le8) anyb anyb tr op.
Lemma le8chk_ok tr op : le8chk tr op = true -> le8ok tr op.
Proof.
  intros [H1 H2]%andb_prop. split; [by apply mchk_ok|]. eapply insb_ok; [apply anyb_ok|apply anyb_ok|exact H2].
Qed.
Lemma le8_type : map_type 0%N 256 le8api (digit le8) le8ok.
Proof. apply type_StringMap. Qed.

(** Deleting an absent key that shares digits with a stored one leaves pointers in
    the scratch path: lines 331-349 of string_map.go return without clearing it. *)
Theorem C29_refuted : ∃ (tr : list (mop bytes N N * mres N)) w h, map_type 0%N 256 le8api (digit le8) le8ok /\
  mrun le8api le8ok 0%N tr w /\ (MNew 7, RHandle h) ∈ tr /\ ¬ path_empty (w_mem w) h.
Proof.
  destruct (mexec_test le8api le8chk le8ok 0%N
    [MNew 7; MSet 2 [1]%N 10%N; MSet 2 [17]%N 20%N; MDel 2 [33]%N] (λ tr w, newb 7 2 tr && dirtyb 2 w))
    as (tr & w & Hr & [Hn Hd]%andb_prop); [apply le8chk_ok|vm_compute; reflexivity|].
  exists tr, w, 2%positive. split_and!; [apply le8_type|done|by apply newb_in|by apply dirtyb_dirty].
Qed.
Print Assumptions C29_refuted.


(** So does deleting a stored key of depth 12 or more (here 33): the slice outgrows the
    scratch path, and only the copy is cleared. *)
Theorem C29_deep_refuted : ∃ (tr : list (mop bytes N N * mres N)) w h k, map_type 0%N 256 toyapi (digit toy) toyok /\
  mrun toyapi toyok 0%N tr w /\ (MNew 7, RHandle h) ∈ tr /\ k ∈ stored tr h /\ path_empty (w_mem w) h /\
  ∃ w', mcall toyapi (MDel h k) w = Ret RUnit w' /\ ¬ path_empty (w_mem w') h.
Proof.
  destruct (mexec_test toyapi toychk toyok 0%N [MNew 7; MSet 2 [1]%N 10%N; MSet 2 [17]%N 20%N]
    (λ tr w, newb 7 2 tr && bool_decide ([17]%N ∈ stored tr 2) &&
      match w_mem w !! 2%positive with Some (BRoot rt) => forallb (λ y, match pl_link y with Some _ => false | None => true end) (rt_path rt) | _ => false end &&
      match mcall toyapi (MDel 2 [17]%N) w with Ret RUnit w' => dirtyb 2 w' | _ => false end))
    as (tr & w & Hr & Hb); [apply toychk_ok|vm_compute; reflexivity|].
  apply andb_prop in Hb as [Hb Hd]. apply andb_prop in Hb as [Hb Hc]. apply andb_prop in Hb as [Hn Hs].
  exists tr, w, 2%positive, [17]%N. split_and!; [apply toy_type|done|by apply newb_in|by apply bool_decide_eq_true in Hs| |].
  - unfold path_empty. destruct (w_mem w !! 2%positive) as [[| |rt]|]; try done. exists rt. split; [done|].
    rewrite Forall_forall. rewrite forallb_forall in Hc. intros y Hy%elem_of_list_In%Hc. by destruct (pl_link y).
  - destruct (mcall toyapi (MDel 2 [17]%N) w) as [[] w'| | |]; try done. exists w'. split; [done|by apply dirtyb_dirty].
Qed.
Print Assumptions C29_deep_refuted.

(** The hypotheses of C29_map_partial can be met: two keys that share a digit, and one
    of them deleted. *)
Definition nearb {K} `{Countable K} {V U} (dig : N -> K -> nat -> N) (tr : list (mop K V U * mres V)) (op : mop K V U) : bool :=
  match op with
  | MDel h k => bool_decide (k ∈ stored tr h) &&
      forallb (λ x, match x with (MNew s, RHandle h') => negb (h' =? h)%positive || (depth dig s (elements (stored tr h)) k <? 12) | _ => true end) tr
  | _ => true
  end.
Lemma nearb_ok {K} `{Countable K} {V U} dig (tr : list (mop K V U * mres V)) op : nearb dig tr op = true -> near_del dig tr op.
Proof.
  destruct op; try done. intros [H1 H2]%andb_prop. split; [by apply bool_decide_eq_true in H1|].
  intros s Hin%elem_of_list_In. rewrite forallb_forall in H2. specialize (H2 _ Hin). simpl in H2.
  rewrite Pos.eqb_refl in H2. by apply Nat.ltb_lt.
Qed.
Example C29_nonvacuous : ∃ (tr : list (mop bytes N N * mres N)) w,
  mrun le8api (λ tr op, le8ok tr op /\ near_del (digit le8) tr op) 0%N tr w /\ (MNew 7, RHandle 2) ∈ tr /\
  (MDel 2 [17]%N, RUnit) ∈ tr.
Proof.
  destruct (mexec_test le8api (λ tr op, le8chk tr op && nearb (digit le8) tr op) (λ tr op, le8ok tr op /\ near_del (digit le8) tr op) 0%N
    [MNew 7; MSet 2 [1]%N 10%N; MSet 2 [17]%N 20%N; MDel 2 [17]%N] (λ tr w, newb 7 2 tr &&
      existsb (λ x, match x with (MDel h k, RUnit) => (h =? 2)%positive && bool_decide (k = [17]%N) | _ => false end) tr))
    as (tr & w & Hr & [Hn Hd]%andb_prop); [|vm_compute; reflexivity|].
  - intros tr op [H1 H2]%andb_prop. split; [by apply le8chk_ok|by apply nearb_ok].
  - exists tr, w. split_and!; [done|by apply newb_in|].
    apply existsb_exists in Hd as ([o r] & Hin & Hb). destruct o, r; try done.
    apply andb_prop in Hb as [->%Pos.eqb_eq ->%bool_decide_eq_true]. by apply elem_of_list_In.
Qed.

(** Those of C32_map and C35_other_item_map: a level below the root that holds an entry. *)
Fixpoint walk {V CK} (m : gmap loc (block V CK)) (lv : link) (is : list nat) : option link :=
  match is with
  | [] => Some lv
  | i :: is =>
      match lk_ptr lv with
      | At a => match m !! a with
          | Some (BLinks ls) =>
              match digits_of lv !! i, ls !! i with
              | Some r, Some x => if is_entry lv r then None else walk m x is
              | _, _ => None
              end
          | _ => None end
      | Nil => None
      end
  end.
Lemma walk_level {V CK} (m : gmap loc (block V CK)) h is : ∀ d lv x, level m h d lv -> walk m lv is = Some x ->
  level m h (length is + d) x.
Proof.
  induction is as [|i is IH]; intros d lv x Hl Hw; simpl in Hw; [by injection Hw as <-|].
  destruct (lk_ptr lv) as [|a] eqn:Ep; [done|]. destruct (m !! a) as [[ls| |]|] eqn:Ea; try done.
  destruct (digits_of lv !! i) as [r|] eqn:Er; [|done]. destruct (ls !! i) as [y|] eqn:Ey; [|done].
  destruct (is_entry lv r) eqn:Ee; [done|].
  replace (length (i :: is) + d) with (length is + S d) by (simpl; lia).
  eapply IH; [|exact Hw]. eapply level_sub; [exact Hl| |exact Ee]. by exists a, ls.
Qed.
Example C32_C35_nonvacuous : ∃ (tr : list (mop bytes N N * mres N)) w lv i r x,
  map_type 0%N 256 le8api (digit le8) le8ok /\
  mrun le8api le8ok 0%N tr w /\ (MNew 7, RHandle 2) ∈ tr /\ level (w_mem w) 2 1 lv /\
  slot (w_mem w) lv i r x /\ is_entry lv r = true /\ length (digits_of lv) = 3.
Proof.
  destruct (mexec_test le8api le8chk le8ok 0%N [MNew 7; MSet 2 [1]%N 10%N; MSet 2 [17]%N 20%N; MSet 2 [33]%N 20%N; MSet 2 [2]%N 20%N]
    (λ tr w, newb 7 2 tr && match w_mem w !! 2%positive with
      | Some (BRoot rt) =>
          match walk (w_mem w) (rt_link rt) [0] with
          | Some lv => (length (digits_of lv) =? 3) &&
              match lk_ptr lv with
              | At a => match w_mem w !! a with
                  | Some (BLinks ls) => match digits_of lv !! 2, ls !! 2 with Some r, Some x => is_entry lv r | _, _ => false end
                  | _ => false end
              | Nil => false end
          | None => false end
      | _ => false end)) as (tr & w & Hr & [Hn Hb]%andb_prop); [apply le8chk_ok|vm_compute; reflexivity|].
  destruct (w_mem w !! 2%positive) as [[| |rt]|] eqn:E2; try done.
  destruct (walk (w_mem w) (rt_link rt) [0]) as [lv|] eqn:Ew; [|done]. apply andb_prop in Hb as [Hlen Hb].
  destruct (lk_ptr lv) as [|a] eqn:Ep; [done|]. destruct (w_mem w !! a) as [[ls| |]|] eqn:Ea; try done.
  destruct (digits_of lv !! 2) as [r|] eqn:Er; [|done]. destruct (ls !! 2) as [x|] eqn:Ex; [|done].
  exists tr, w, lv, 2, r, x. split_and!; [apply le8_type|done|by apply newb_in| |by exists a, ls|done|by apply Nat.eqb_eq].
  apply (walk_level (w_mem w) 2 [0] 0 (rt_link rt) lv); [by constructor|done].
Qed.
