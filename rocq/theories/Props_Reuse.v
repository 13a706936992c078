(** Property C54: the collector may run at any moment, and memory may be used again.

    C50 collects garbage between calls and never uses an address again. Here
    (ReuseSpec.v: [moves], [wild]) the collector runs between any two accesses to memory,
    also in the middle of a call, where it may take whatever neither the user's pointers
    nor those that the code still has at this point lead to; and the allocator may return
    any free address, also one that was in use before. No call then meets a block that is
    gone or was given to someone else, and each returns what it returns with neither.
    So no result depends on where blocks are, and the code never keeps an address where
    the collector does not see it. *)
From stdpp Require Import base numbers list gmap relations.
From Verif Require Import GoInt Mem Hash Prog Amt Families Spec Guards Client Types Pack Runs Sep PClient ConcClient ConcMapAll TimeTypes KeepSpec GcSpec Gc ReuseSpec Reuse ReuseProg ReuseRuns Props_Types Props_Gc.
Local Open Scope nat_scope.

(** ** What happens happens without *)

(** A history without the names of maps and pointers. *)
Definition nameless {K V U} (tr : list (mop K V U * mres V)) : list (mop K V U * mres V) :=
  map (λ e, (op_by (λ _, 1%positive) e.1, res_by (λ _, 1%positive) e.2)) tr.
Definition snameless {K U} (tr : list (sop K U * sres)) : list (sop K U * sres) :=
  map (λ e, (sop_by (λ _, 1%positive) e.1, sres_by (λ _, 1%positive) e.2)) tr.

(** Any map with any hash function and any calls: the history is one without collections
    and without using memory again (Client.v: [mrun]), except for the names of maps and
    pointers, and the user's own state is the same. *)
Theorem C54_history_map : ∀ (K V CK U : Type) (zero : V) fuel (papi : pmapapi K V CK U) api (u0 : U) tr R m u,
  pmap_type zero fuel papi api -> wild papi u0 tr R m u ->
  ∃ tr0 w0, mrun api (λ _ _, True) u0 tr0 w0 /\ nameless tr = nameless tr0 /\ u = w_usr w0.
Proof.
  intros K V CK U zero fuel papi api u0 tr R m u Ht Hw. destruct (wild_beside zero fuel papi api u0 Ht tr R m u Hw) as (tr0 & ρ & w0 & Hb).
  exists tr0, w0. split; [by eapply beside_mrun|]. split; [|by eapply beside_stands].
  clear Hw. induction Hb as [|tr R m u tr0 ρ w0 op res m' u' ρ' w0' Hb IH| ]; [done| |done]. unfold nameless in *. cbn [map]. rewrite IH. f_equal.
  simpl. f_equal; [by destruct op|by destruct res as [| | | |[]| |]].
Qed.
Theorem C54_history_set : ∀ (K CK U : Type) fuel (papi : psetapi K unit CK U) api (u0 : U) tr R m u,
  pset_type fuel papi api -> swild papi u0 tr R m u ->
  ∃ tr0 w0, srun api (λ _ _, True) u0 tr0 w0 /\ snameless tr = snameless tr0 /\ u = w_usr w0.
Proof.
  intros K CK U fuel papi api u0 tr R m u Ht Hw. destruct (swild_sbeside fuel papi api u0 Ht tr R m u Hw) as (tr0 & ρ & w0 & Hb).
  exists tr0, w0. split; [by eapply sbeside_srun|]. split; [|by eapply sbeside_stands].
  clear Hw. induction Hb as [|tr R m u tr0 ρ w0 op res m' u' ρ' w0' Hb IH| ]; [done| |done]. unfold snameless in *. cbn [map]. rewrite IH. f_equal.
  simpl. f_equal; [by destruct op|by destruct res].
Qed.

(** There are names for all maps and pointers with which the two runs go beside each other
    (ReuseSpec.v: [beside]). *)
Theorem C54_beside_map : ∀ (K V CK U : Type) (zero : V) fuel (papi : pmapapi K V CK U) api (u0 : U) tr R m u,
  pmap_type zero fuel papi api -> wild papi u0 tr R m u ->
  ∃ tr0 ρ w0, beside api papi (λ _ _, True) u0 tr R m u tr0 ρ w0.
Proof. intros K V CK U zero fuel papi api u0 tr R m u Ht. exact (wild_beside zero fuel papi api u0 Ht tr R m u). Qed.
Theorem C54_beside_set : ∀ (K CK U : Type) fuel (papi : psetapi K unit CK U) api (u0 : U) tr R m u,
  pset_type fuel papi api -> swild papi u0 tr R m u ->
  ∃ tr0 ρ w0, sbeside api papi (λ _ _, True) u0 tr R m u tr0 ρ w0.
Proof. intros K CK U fuel papi api u0 tr R m u Ht. exact (swild_sbeside fuel papi api u0 Ht tr R m u). Qed.

(** ** Every call comes to an end *)
Section maps.
Context (V U K CK : Type) (EqK : EqDecision K) (CoK : Countable K) (zero : V) (u0 : U) (fuel : nat).
Context (papi : pmapapi K V CK U) (api : mapapi K V CK U) (dig : N -> K -> nat -> N).
Context (ok : list (mop K V U * mres V) -> mop K V U -> Prop).
Hypothesis Hfuel : 256 <= fuel.
Hypothesis Htype : map_both zero fuel papi api dig ok.

(** The next call, made with a map or pointer that the program still has: whatever the
    collector and the allocator have done so far in this call, it can go on to its end, and
    whenever it ends it returns what the call beside it returns. The two runs are then
    again beside each other. *)
Theorem C54_call_map : ∀ tr R m u tr0 ρ w0 op, beside api papi ok u0 tr R m u tr0 ρ w0 ->
  ok tr0 (op_by ρ op) -> (∀ a, takes op = Some a -> a ∈ R) ->
  (∀ c, rtc (moves res_as R) (pmcall papi (Op op), m, u) c -> ∃ res m' u', rtc (moves res_as R) c (PRet res, m', u')) /\
  ∃ res0 w0', mcall api (op_by ρ op) w0 = Ret res0 w0' /\
    ∀ res m' u', rtc (moves res_as R) (pmcall papi (Op op), m, u) (PRet res, m', u') ->
      ∃ ρ', keeps_names R (R ∪ gives res) ρ ρ' /\ res0 = res_by ρ' res /\ u' = w_usr w0' /\
        beside api papi ok u0 ((op, res) :: tr) (R ∪ gives res) m' u' ((op_by ρ op, res0) :: tr0) ρ' w0'.
Proof.
  intros tr R m u tr0 ρ w0 op Hb Ho Hta. pose proof (map_both_prog _ _ _ _ _ _ Htype) as Hp.
  pose proof (beside_mrun papi api u0 ok tr R m u tr0 ρ w0 Hb) as Hr.
  destruct (map_type_spec zero fuel u0 Hfuel api dig ok (map_both_type _ _ _ _ _ _ Htype) tr0 w0 Hr) as [_ Hcall].
  destruct (Hcall _ Ho) as (res0 & w0' & E).
  destruct (beside_next zero fuel papi api u0 Hp ok tr R m u tr0 ρ w0 op res0 w0' Hb Hta E) as [H1 H2].
  split; [exact H1|]. exists res0, w0'. split; [exact E|]. intros res m' u' Hmv.
  destruct (H2 _ _ _ Hmv) as (Hu & ρ' & Hk & ->). exists ρ'. split; [exact Hk|]. split; [reflexivity|]. split; [exact Hu|].
  eapply beside_call; [exact Hb|exact Ho|exact Hta|exact Hmv|exact E|exact Hk|exact Hu].
Qed.
End maps.

Section sets.
Context (U K CK : Type) (EqK : EqDecision K) (CoK : Countable K) (u0 : U) (fuel : nat).
Context (papi : psetapi K unit CK U) (api : setapi K unit CK U) (dig : N -> K -> nat -> N).
Context (ok : list (sop K U * sres) -> sop K U -> Prop).
Hypothesis Hfuel : 256 <= fuel.
Hypothesis Htype : set_both fuel papi api dig ok.

Theorem C54_call_set : ∀ tr R m u tr0 ρ w0 op, sbeside api papi ok u0 tr R m u tr0 ρ w0 ->
  ok tr0 (sop_by ρ op) -> (∀ a, stakes op = Some a -> a ∈ R) ->
  (∀ c, rtc (moves sres_as R) (pscall papi op, m, u) c -> ∃ res m' u', rtc (moves sres_as R) c (PRet res, m', u')) /\
  ∃ res0 w0', scall api (sop_by ρ op) w0 = Ret res0 w0' /\
    ∀ res m' u', rtc (moves sres_as R) (pscall papi op, m, u) (PRet res, m', u') ->
      ∃ ρ', keeps_names R (R ∪ sgives res) ρ ρ' /\ res0 = sres_by ρ' res /\ u' = w_usr w0' /\
        sbeside api papi ok u0 ((op, res) :: tr) (R ∪ sgives res) m' u' ((sop_by ρ op, res0) :: tr0) ρ' w0'.
Proof.
  intros tr R m u tr0 ρ w0 op Hb Ho Hta. pose proof (set_both_prog _ _ _ _ _ Htype) as Hp.
  pose proof (sbeside_srun papi api u0 ok tr R m u tr0 ρ w0 Hb) as Hr.
  destruct (set_type_spec fuel u0 Hfuel api dig ok (set_both_type _ _ _ _ _ Htype) tr0 w0 Hr) as [_ Hcall].
  destruct (Hcall _ Ho) as (res0 & w0' & E).
  destruct (sbeside_next fuel papi api u0 Hp ok tr R m u tr0 ρ w0 op res0 w0' Hb Hta E) as [H1 H2].
  split; [exact H1|]. exists res0, w0'. split; [exact E|]. intros res m' u' Hmv.
  destruct (H2 _ _ _ Hmv) as (Hu & ρ' & Hk & ->). exists ρ'. split; [exact Hk|]. split; [reflexivity|]. split; [exact Hu|].
  eapply sbeside_call; [exact Hb|exact Ho|exact Hta|exact Hmv|exact E|exact Hk|exact Hu].
Qed.
End sets.

Print Assumptions C54_history_map.
Print Assumptions C54_history_set.
Print Assumptions C54_beside_map.
Print Assumptions C54_beside_set.
Print Assumptions C54_call_map.
Print Assumptions C54_call_set.

(** ** Programs that are like that *)

(** Running a call: before each access the collector may leave only the blocks of a given
    list, which must have whatever the rest of the call can reach; the allocator returns
    the lowest free address. [S] are the addresses that the call has so far. *)
Section drive.
Context {V CK U A : Type} (as_ : names -> A -> A -> Prop).

Definition gc_keep (c : option (list loc)) (need : list loc) (m : gmap loc (block V CK)) : option (gmap loc (block V CK)) :=
  match c with
  | None => Some m
  | Some T => if closedb m T && forallb (λ a, bool_decide (a ∈ T)) need then Some (filter (λ x, x.1 ∈ T) m) else None
  end.
Definition low : list loc := map Pos.of_nat (seq 1 40).
Definition lowest_free (l : list loc) (m : gmap loc (block V CK)) : option loc :=
  List.find (λ a, match m !! a with None => true | _ => false end) l.
Lemma lowest_free_ok l m a : lowest_free l m = Some a -> m !! a = None.
Proof. intros H. apply find_some in H as [_ H]. by destruct (m !! a). Qed.
Fixpoint drive (R : list loc) (p : prog V CK U A) (plan : list (option (list loc))) (S : list loc)
    (m : gmap loc (block V CK)) (u : U) : option (A * gmap loc (block V CK) * U) :=
  match p with
  | PRet a => Some (a, m, u)
  | PRead l k =>
      match gc_keep (default None (head plan)) (R ++ S) m with
      | Some m => match m !! l with Some b => drive R (k b) (tail plan) (succs m l ++ S) m u | None => None end
      | None => None
      end
  | PWrite l b k =>
      match gc_keep (default None (head plan)) (R ++ S) m with
      | Some m => match m !! l with Some _ => drive R k (tail plan) S (<[l := b]> m) u | None => None end
      | None => None
      end
  | PAlloc b k =>
      match gc_keep (default None (head plan)) (R ++ S) m with
      | Some m => match lowest_free low m with Some l => drive R (k l) (tail plan) (l :: S) (<[l := b]> m) u | None => None end
      | None => None
      end
  | PGet k => drive R (k u) plan S m u
  | PPut u' k => drive R k plan S m u'
  | _ => None
  end.

Lemma self_bounded S : bounded (self S).
Proof.
  exists (1 + foldr Pos.add 1 (elements S))%positive.
  assert (H : ∀ l (a : loc), a ∈ l -> (a < 1 + foldr Pos.add 1 l)%positive).
  { induction l as [|x l IH]; intros a Ha; [by apply elem_of_nil in Ha|]. apply elem_of_cons in Ha as [->|Ha]; cbn [foldr]; [lia|]. specialize (IH a Ha). lia. }
  intros a a' [Ha ->]. split; apply H, elem_of_elements, Ha.
Qed.
Lemma self_more (S T : gset loc) : S ⊆ T -> more (self S) (self T).
Proof. intros H a a' [Ha ->]. split; [by apply H|done]. Qed.
Lemma link_self (S : gset loc) x : (∀ c, lk_ptr x = At c -> c ∈ S) -> link_as (self S) x x.
Proof. intros H. split; [|done]. destruct (lk_ptr x) as [|c]; simpl; [done|]. split; [by apply H|done]. Qed.
Lemma block_self (m : gmap loc (block V CK)) l b (S : gset loc) : m !! l = Some b -> (∀ c, c ∈ succs m l -> c ∈ S) -> block_as (self S) b b.
Proof.
  intros Hb H. assert (H' : ∀ c, points m l c -> c ∈ S) by (intros c Hc; by apply H, succs_ok).
  clear H. unfold points in H'. rewrite Hb in H'. destruct b as [ls|v k|rt]; simpl.
  - apply Forall2_same_length_lookup_2; [done|]. intros i x y Hx Hy. assert (x = y) as -> by congruence.
    apply link_self. intros c Hc. apply H'. by exists i, y.
  - done.
  - split; [apply link_self; intros c Hc; apply H'; by left|]. split; [done|]. split; [done|]. split; [done|].
    apply Forall2_same_length_lookup_2; [done|]. intros i x y Hx Hy. assert (x = y) as -> by congruence.
    split; [done|]. destruct (pl_link y) as [[c|c j|]|] eqn:E; simpl; [| |done|done].
    + split; [|done]. apply H'. right. exists i, y. split; [done|]. by left.
    + split; [|done]. split; [|done]. apply H'. right. exists i, y. split; [done|]. right. by exists j.
Qed.
Lemma gc_keep_moves R c S (p : prog V CK U A) m m' u : has_only as_ (list_to_set S) p ->
  gc_keep c (R ++ S) m = Some m' -> rtc (moves as_ (list_to_set R)) (p, m, u) (p, m', u).
Proof.
  intros Hp. unfold gc_keep. destruct c as [T|]; [|intros [= <-]; by apply rtc_refl].
  destruct (closedb m T) eqn:Ec; [|done]. simpl. destruct (forallb _ _) eqn:Ef; [|done]. intros [= <-].
  apply rtc_once. apply (mv_collect as_ _ (list_to_set S)); [exact Hp|]. apply closed_collected; [exact Ec|].
  intros a Ha. rewrite forallb_forall in Ef. specialize (Ef a). apply bool_decide_eq_true in Ef; [exact Ef|].
  apply elem_of_list_In. set_solver +Ha.
Qed.
Lemma drive_moves R p : ∀ plan S m u a m' u', has_only as_ (list_to_set S) p ->
  drive R p plan S m u = Some (a, m', u') -> rtc (moves as_ (list_to_set R)) (p, m, u) (PRet a, m', u').
Proof.
  induction p as [a| | | |l k IH|l b k IH|b k IH|k IH|u1 k IH]; intros plan S m u a0 m' u' Hp E; cbn [drive] in E; try discriminate.
  - injection E as -> -> ->. apply rtc_refl.
  - destruct (gc_keep _ (R ++ S) m) as [m1|] eqn:Eg; [|discriminate]. destruct (m1 !! l) as [b|] eqn:Eb; [|discriminate].
    eapply rtc_transitive; [by eapply gc_keep_moves|]. eapply rtc_l; [by apply mv_read|]. eapply IH; [|exact E].
    unfold has_only in Hp. inversion Hp as [| | | |? ? ? ? ? Hl Hk| | | |]; subst. apply Hk; [apply self_more; set_solver +|apply self_bounded|].
    eapply block_self; [exact Eb|]. intros c Hc. set_solver +Hc.
  - destruct (gc_keep _ (R ++ S) m) as [m1|] eqn:Eg; [|discriminate]. destruct (m1 !! l) as [b0|] eqn:Eb; [|discriminate].
    eapply rtc_transitive; [by eapply gc_keep_moves|]. eapply rtc_l; [by eapply mv_write|]. eapply IH; [|exact E].
    unfold has_only in Hp. by inversion Hp.
  - destruct (gc_keep _ (R ++ S) m) as [m1|] eqn:Eg; [|discriminate]. destruct (lowest_free low m1) as [l|] eqn:El; [|discriminate].
    eapply rtc_transitive; [by eapply gc_keep_moves|]. eapply rtc_l; [apply (mv_alloc _ _ _ _ _ _ l)|eapply IH; [|exact E]].
    + by apply lowest_free_ok in El.
    + unfold has_only in Hp. inversion Hp as [| | | | | |? ? ? ? ? Hb Hk| |]; subst.
      apply Hk; [apply self_more; set_solver +|apply self_bounded|]. split; [set_solver +|done].
  - eapply rtc_l; [apply mv_get|]. eapply IH; [|exact E]. unfold has_only in Hp. inversion Hp as [| | | | | | |? ? ? Hk|]; subst. apply Hk.
  - eapply rtc_l; [apply mv_put|]. eapply IH; [|exact E]. unfold has_only in Hp. by inversion Hp.
Qed.
End drive.

(** Such a run and one without collections, computed together. *)
Section exec.
Context {K V CK U : Type} `{EqDecision V, EqDecision U} (zero : V) (fuel : nat).
Context (papi : pmapapi K V CK U) (api : mapapi K V CK U) (u0 : U) (Ht : pmap_type zero fuel papi api).
Context (ok : list (mop K V U * mres V) -> mop K V U -> Prop) (chk : list (mop K V U * mres V) -> mop K V U -> bool).
Hypothesis Hchk : ∀ tr op, chk tr op = true -> ok tr op.

Inductive item : Type :=
  | Call (op : mop K V U) (plan : list (option (list loc)))
  | Forget (R : list loc).
Record both_at := BothAt {
  ba_tr : list (mop K V U * mres V); ba_R : list loc; ba_m : gmap loc (block V CK); ba_u : U;
  ba_tr0 : list (mop K V U * mres V); ba_names : list (loc * loc); ba_w : world V CK U }.
Definition named (l : list (loc * loc)) (a : loc) : loc :=
  match List.find (λ x, Pos.eqb x.1 a) l with Some x => x.2 | None => a end.
Definition rename (res res0 : mres V) (l : list (loc * loc)) : list (loc * loc) :=
  match res, res0 with
  | RHandle h, RHandle h0 => (h, h0) :: l
  | RPtr (Some p), RPtr (Some p0) => (p, p0) :: l
  | _, _ => l
  end.
Definition gives_list (res : mres V) : list loc :=
  match res with RHandle h => [h] | RPtr (Some p) => [p] | _ => [] end.
Definition res_eqb (x y : mres V) : bool :=
  match x, y with
  | RUnit, RUnit => true
  | RHandle a, RHandle b => Pos.eqb a b
  | RGet v b, RGet v' b' => bool_decide (v = v') && Bool.eqb b b'
  | RVal v, RVal v' => bool_decide (v = v')
  | RPtr (Some p), RPtr (Some q) => Pos.eqb p q
  | RPtr None, RPtr None => true
  | RLen n, RLen n' => N.eqb n n'
  | _, _ => false
  end.
Lemma res_eqb_ok x y : res_eqb x y = true -> x = y.
Proof.
  destruct x as [|h|v b|v|[p|]|n|x], y as [|h'|v' b'|v'|[p'|]|n'|x']; simpl; intros H; try discriminate; try reflexivity.
  - apply Pos.eqb_eq in H. by subst.
  - apply andb_prop in H as [H1 H2]. apply bool_decide_eq_true in H1. apply Bool.eqb_prop in H2. by subst.
  - apply bool_decide_eq_true in H. by subst.
  - apply Pos.eqb_eq in H. by subst.
  - apply N.eqb_eq in H. by subst.
Qed.
Definition names_okb (R R' : list loc) (l l' : list (loc * loc)) : bool :=
  forallb (λ a, Pos.eqb (named l' a) (named l a)) R &&
  forallb (λ a, forallb (λ b, implb (Pos.eqb (named l' a) (named l' b)) (Pos.eqb a b)) R') R'.
Definition both_step (s : both_at) (i : item) : option both_at :=
  let 'BothAt tr R m u tr0 l w := s in
  match i with
  | Forget R' => if forallb (λ a, bool_decide (a ∈ R)) R' then Some (BothAt tr R' m u tr0 l w) else None
  | Call op plan =>
      if chk tr0 (op_by (named l) op) && match takes op with Some a => bool_decide (a ∈ R) | None => true end then
        match drive R (pmcall papi (Op op)) plan (match takes op with Some a => [a] | None => [] end) m u,
              mcall api (op_by (named l) op) w with
        | Some (res, m', u'), Ret res0 w' =>
            let l' := rename res res0 l in
            if res_eqb (res_by (named l') res) res0 && names_okb R (gives_list res ++ R) l l' && bool_decide (u' = w_usr w')
            then Some (BothAt ((op, res) :: tr) (gives_list res ++ R) m' u' ((op_by (named l) op, res0) :: tr0) l' w') else None
        | _, _ => None
        end
      else None
  end.
Fixpoint both_exec (s : both_at) (is : list item) : option both_at :=
  match is with [] => Some s | i :: is => match both_step s i with Some s => both_exec s is | None => None end end.
Definition good (s : both_at) : Prop :=
  beside api papi ok u0 (ba_tr s) (list_to_set (ba_R s)) (ba_m s) (ba_u s) (ba_tr0 s) (named (ba_names s)) (ba_w s).
Lemma both_step_good s i s' : good s -> both_step s i = Some s' -> good s'.
Proof using Hchk Ht.
  destruct s as [tr R m u tr0 l w], i as [op plan|R']; unfold good; cbn [both_step ba_tr ba_R ba_m ba_u ba_tr0 ba_names ba_w]; intros Hb E.
  - destruct (chk tr0 (op_by (named l) op)) eqn:Ec; [|discriminate]. rewrite andb_true_l in E. destruct (match takes op with Some a => _ | None => _ end) eqn:Et; [|discriminate].
    destruct (drive _ _ _ _ _ _) as [[[res m'] u']|] eqn:Ed; [|discriminate].
    destruct (mcall api _ w) as [res0 w'| | |] eqn:Em; try discriminate.
    destruct (res_eqb _ _) eqn:Er; [|discriminate]. destruct (names_okb _ _ _ _) eqn:En; [|discriminate].
    rewrite andb_true_l in E. destruct (bool_decide (u' = w_usr w')) eqn:Eu; [|discriminate]. injection E as <-.
    cbn [ba_tr ba_R ba_m ba_u ba_tr0 ba_names ba_w]. set (l' := rename res res0 l) in *. clearbody l'.
    apply res_eqb_ok in Er. apply bool_decide_eq_true in Eu. apply andb_prop in En as [En1 En2]. rewrite forallb_forall in En1, En2.
    rewrite <-Er. assert (HR : list_to_set (gives_list res ++ R) = (list_to_set R ∪ gives res : gset loc)).
    { apply leibniz_equiv. destruct res as [| | | |[]| |]; simpl; set_solver +. }
    rewrite HR. assert (Hta : ∀ a, takes op = Some a -> a ∈ (list_to_set R : gset loc)).
    { intros a Ha. rewrite Ha in Et. apply bool_decide_eq_true in Et. by apply elem_of_list_to_set. }
    eapply beside_call; [exact Hb|by apply Hchk|exact Hta| |by rewrite Er| |exact Eu].
    + eapply drive_moves; [|exact Ed]. unfold has_only.
      assert (Hid : op_by (λ a, a) op = op) by (by destruct op). assert (Has : prog_as res_as (self (list_to_set (match takes op with Some a => [a] | None => [] end))) (pmcall papi (Op op)) (pmcall papi (Op (op_by (λ a, a) op)))); [|by rewrite Hid in Has].
      apply as_mcall; [by eapply pmap_type_as|]. intros a Ha. rewrite Ha. split; [set_solver +|done].
    + split.
      * intros a Ha. apply Pos.eqb_eq, En1, elem_of_list_In. set_solver +Ha.
      * intros a b Ha Hb' Hab. rewrite <-HR, !elem_of_list_to_set in Ha, Hb'. rewrite elem_of_list_In in Ha, Hb'.
        specialize (En2 _ Ha). rewrite forallb_forall in En2. specialize (En2 _ Hb').
        rewrite Hab, Pos.eqb_refl in En2. by apply Pos.eqb_eq.
  - destruct (forallb _ _) eqn:Ef; [|discriminate]. injection E as <-. cbn [ba_tr ba_R ba_m ba_u ba_tr0 ba_names ba_w].
    eapply beside_forget; [exact Hb|]. intros a Ha. rewrite elem_of_list_to_set in Ha |- *.
    rewrite forallb_forall in Ef. apply elem_of_list_In, Ef in Ha. by apply bool_decide_eq_true in Ha.
Qed.
Lemma both_exec_good is : ∀ s s', good s -> both_exec s is = Some s' -> good s'.
Proof using Hchk Ht.
  induction is as [|i is IH]; cbn [both_exec]; intros s s' Hg E; [by injection E as <-|].
  destruct (both_step s i) as [s1|] eqn:E1; [|discriminate]. eapply IH; [|exact E]. by eapply both_step_good.
Qed.
End exec.

(** A program has a map, adds a key and forgets the map. It makes a second map; while that
    call is between its two allocations, the collector takes the first map with its value,
    and the second allocation gets address 1, which was that of the first map's array. The
    value of the second map's key gets address 2, which was that of the first map. The
    program takes a pointer to it, forgets the second map, and makes a third one, in whose
    call the second map goes. The pointer still leads to the value 30, although address 2
    has in the meantime been a map, nothing, and a value. *)
Definition again : list (item (K:=bytes) (V:=N) (U:=N)) :=
  [Call (MNew 0) []; Call (MSet 2 [1]%N 10%N) []; Forget [];
   Call (MNew 7) [None; Some [4]%positive]; Call (MSet 1 [1]%N 30%N) []; Call (MPtr 1 [1]%N) []; Forget [2]%positive;
   Call (MNew 0) [Some [2]%positive]].
Example C54_nonvacuous :
  let api := StringMap_api (U:=N) sum8 0%N 256 in
  let papi := PStringMap_api (U:=N) sum8 0%N 256 in
  let ok := λ tr op, mallowed (λ _, true = true) (λ _, true = true) tr op /\ ins_guard (digit sum8) any_way any_way tr op in
  map_both 0%N 256 papi api (digit sum8) ok /\
  ∃ tr m u tr0 ρ w0, beside api papi ok 0%N tr {[3; 2]}%positive m u tr0 ρ w0 /\
    rev (map snd tr) = [RHandle 2; RUnit; RHandle 1; RUnit; RPtr (Some 2%positive); RHandle 3] /\
    rev (map snd tr0) = [RHandle 2; RUnit; RHandle 16; RUnit; RPtr (Some 32%positive); RHandle 128] /\
    size m = 3 /\ size (w_mem w0) = 8 /\
    ok tr0 (op_by ρ (MLoad 2)) /\ ok tr0 (op_by ρ (MGet 3 [1]%N)) /\
    (∃ w', mcall api (op_by ρ (MLoad 2)) w0 = Ret (RVal 30%N) w') /\
    (∃ w', mcall api (op_by ρ (MGet 3 [1]%N)) w0 = Ret (RGet 0%N false) w').
Proof.
  intros api papi ok. pose (chk := gchk (V:=N) (U:=N) (digit sum8) (λ _, true) anyb anyb).
  pose (s0 := BothAt (K:=bytes) (V:=N) (CK:=bytes) (U:=N) [] [] ∅ 0%N [] [] (empty_world 0%N)).
  assert (Hb : map_both 0%N 256 papi api (digit sum8) ok) by apply both_StringMap. split; [exact Hb|].
  assert (Hchk : ∀ tr op, chk tr op = true -> ok tr op) by (intros tr op; apply gchk_ok; apply anyb_ok).
  assert (He : match both_exec papi api chk s0 again with
    | Some s => ba_R s = [3; 2]%positive /\
        rev (map snd (ba_tr s)) = [RHandle 2; RUnit; RHandle 1; RUnit; RPtr (Some 2%positive); RHandle 3] /\
        rev (map snd (ba_tr0 s)) = [RHandle 2; RUnit; RHandle 16; RUnit; RPtr (Some 32%positive); RHandle 128] /\
        size (ba_m s) = 3 /\ size (w_mem (ba_w s)) = 8 /\
        chk (ba_tr0 s) (op_by (named (ba_names s)) (MLoad 2)) = true /\ chk (ba_tr0 s) (op_by (named (ba_names s)) (MGet 3 [1]%N)) = true /\
        match mcall api (op_by (named (ba_names s)) (MLoad 2)) (ba_w s) with Ret (RVal v) _ => v = 30%N | _ => False end /\
        match mcall api (op_by (named (ba_names s)) (MGet 3 [1]%N)) (ba_w s) with Ret (RGet v b) _ => v = 0%N /\ b = false | _ => False end
    | None => False end) by (vm_compute; repeat split).
  destruct (both_exec papi api chk s0 again) as [s|] eqn:E; [|destruct He].
  destruct He as (HR & H1 & H2 & H3 & H4 & H5 & H6 & H7 & H8).
  apply (both_exec_good 0%N 256 papi api 0%N (map_both_prog _ _ _ _ _ _ Hb) ok chk Hchk) in E; [|constructor].
  unfold good in E. rewrite HR in E. apply Hchk in H5, H6.
  eexists _, _, _, _, _, _. split; [eapply beside_forget; [exact E|]|].
  { intros a Ha. apply elem_of_union in Ha as [Ha|Ha]; apply elem_of_singleton in Ha as ->; set_solver +. }
  split; [exact H1|]. split; [exact H2|]. split; [exact H3|]. split; [exact H4|]. split; [exact H5|]. split; [exact H6|].
  split; [destruct (mcall api (op_by (named (ba_names s)) (MLoad 2)) (ba_w s)) as [[] w'| | |]; try destruct H7; by exists w'|].
  destruct (mcall api (op_by (named (ba_names s)) (MGet 3 [1]%N)) (ba_w s)) as [[] w'| | |]; try destruct H8. subst. by exists w'.
Qed.

(** A set: whatever the allocator and the collector do, it can be made and added to, and
    then has the key. *)
Example C54_nonvacuous_set :
  let api := StringSet_api (U:=N) sum8 256 in
  let papi := PStringSet_api (U:=N) sum8 256 in
  let ok := λ tr op, sallowed (λ _, true = true) (λ _, true = true) tr op /\ add_guard (digit sum8) any_way tr op in
  set_both 256 papi api (digit sum8) ok /\
  ∃ h m u tr0 ρ w0, sbeside api papi ok 0%N [(SAdd h [1]%N, TUnit); (SNew 0, THandle h)] {[h]} m u tr0 ρ w0 /\
    ok tr0 (sop_by ρ (SHas h [1]%N)) /\ ∃ w', scall api (sop_by ρ (SHas h [1]%N)) w0 = Ret (THas true) w'.
Proof.
  intros api papi ok. pose (chk := gschk (U:=N) (digit sum8) (λ _, true) anyb).
  assert (Hb : set_both 256 papi api (digit sum8) ok) by apply both_StringSet. split; [exact Hb|].
  assert (Hchk : ∀ tr op, chk tr op = true -> ok tr op) by (intros tr op; apply gschk_ok; apply anyb_ok).
  pose proof (C54_call_set N bytes bytes _ _ 0%N 256 papi api (digit sum8) ok (le_n 256) Hb) as Hnext.
  assert (E1 : match scall api (SNew 0) (empty_world 0%N) with
    | Ret r w => r = THandle 2 /\ chk [(SNew 0, THandle 2)] (SAdd 2 [1]%N) = true /\
        match scall api (SAdd 2 [1]%N) w with
        | Ret r w => r = TUnit /\ chk [(SAdd 2 [1]%N, TUnit); (SNew 0, THandle 2)] (SHas 2 [1]%N) = true /\
            match scall api (SHas 2 [1]%N) w with Ret r _ => r = THas true | _ => False end
        | _ => False end
    | _ => False end) by (vm_compute; repeat split).
  destruct (Hnext [] ∅ ∅ 0%N [] (λ a, a) (empty_world 0%N) (SNew 0)) as [Hf (res0 & w1 & Hc & Hr)];
    [constructor|apply Hchk; vm_compute; reflexivity|intros a Ha; discriminate|].
  cbn [sop_by] in Hc, Hr. rewrite Hc in E1. destruct E1 as (-> & Hk & E1).
  destruct (Hf _ (rtc_refl _ _)) as (res & m1 & u1 & Hm). destruct (Hr _ _ _ Hm) as (ρ1 & Hn1 & Hres & Hu1 & Hb1).
  destruct res as [|h| | |]; try discriminate. injection Hres as Hh. clear Hf Hr Hm Hc.
  destruct (Hnext _ _ _ _ _ _ _ (SAdd h [1]%N) Hb1) as [Hf (res0 & w2 & Hc & Hr)];
    [cbn [sop_by]; rewrite <-Hh; by apply Hchk|intros a Ha; cbn in Ha; injection Ha as <-; cbn [sgives]; set_solver +|].
  cbn [sop_by] in Hc, Hr. rewrite <-Hh in Hc, Hr. rewrite Hc in E1. destruct E1 as (-> & Hk2 & E1).
  destruct (Hf _ (rtc_refl _ _)) as (res & m2 & u2 & Hm). destruct (Hr _ _ _ Hm) as (ρ2 & Hn2 & Hres & Hu2 & Hb2).
  destruct res as [|h'| | |]; try discriminate. clear Hres.
  assert (Hh2 : ρ2 h = 2%positive). { rewrite Hh. destruct Hn2 as [Hn2 _]. apply Hn2. cbn [sgives]. set_solver +. }
  eexists h, _, _, _, _, _. split; [eapply sbeside_forget; [exact Hb2|cbn [sgives]; set_solver +]|].
  cbn [sop_by]. rewrite Hh2. split; [by apply Hchk|].
  destruct (scall api (SHas 2 [1]%N) w2) as [r w'| | |]; try destruct E1. exists w'. by subst.
Qed.

(** What the theorems exclude: code that uses an address it was not given. Nothing that
    does so has only addresses that the collector sees. *)
Example C54_hidden : ∀ (k : block N bytes -> prog N bytes N (mres N)), ¬ has_only res_as ∅ (PRead 7 k).
Proof. intros k H. unfold has_only in H. inversion H as [| | | |β l l' k1 k2 Hl Hk| | | |]. destruct Hl as [Hl _]. by apply elem_of_empty in Hl. Qed.
