(** Property C50: collecting garbage never changes what a program does.

    The memory of Mem.v never shrinks. Here (GcSpec.v: [gcrun], [sgcrun]) the program
    may forget maps, sets and pointers, and between any two calls the blocks to which
    none of those it still has leads may disappear. No call then faults for want of a
    block, and each returns what it would have returned without collections. So the
    pointers by which the code finds its blocks are all ones the collector sees. *)
From stdpp Require Import base numbers list gmap relations.
From Verif Require Import GoInt Mem Hash Amt Families Spec Guards Client Types Pack Runs Sep KeepSpec GcSpec Gc GcRuns Props_Types.
Local Open Scope nat_scope.

(** ** What happens with collections happens without *)

(** Any map with any hash function and any calls: a history with collections is one
    without, and the user's own state is the same. *)
Theorem C50_history_map : ∀ (K V CK U : Type) (zero : V) fuel (api : mapapi K V CK U) ok (u0 : U) tr R w,
  any_map zero fuel api -> gcrun api ok u0 tr R w -> ∃ w0, mrun api ok u0 tr w0 /\ w_usr w = w_usr w0.
Proof.
  intros K V CK U zero fuel api ok u0 tr R w Ha Hg.
  destruct (gcrun_less zero fuel api ok u0 tr R w Ha Hg) as (w0 & Hr & _ & _ & Hu). by exists w0.
Qed.
Theorem C50_history_set : ∀ (K CK U : Type) b fuel (api : setapi K unit CK U) ok (u0 : U) tr R w,
  any_set fuel b api -> sgcrun api ok u0 tr R w -> ∃ w0, srun api ok u0 tr w0 /\ w_usr w = w_usr w0.
Proof.
  intros K CK U b fuel api ok u0 tr R w Ha Hg.
  destruct (sgcrun_less b fuel api ok u0 tr R w Ha Hg) as (w0 & Hr & _ & _ & Hu). by exists w0.
Qed.

Section maps.
Context (V U K CK : Type) (EqK : EqDecision K) (CoK : Countable K) (zero : V) (u0 : U) (fuel : nat).
Context (api : mapapi K V CK U) (dig : N -> K -> nat -> N) (ok : list (mop K V U * mres V) -> mop K V U -> Prop).
Hypothesis Hfuel : 256 <= fuel.
Hypothesis Htype : map_type zero fuel api dig ok.

(** The next call, made with a map or pointer that the program still has, returns; the
    same call returns the same and leaves the user the same state when there were no
    collections. *)
Theorem C50_call_map : ∀ tr R w op, gcrun api ok u0 tr R w -> ok tr op -> (∀ a, takes op = Some a -> a ∈ R) ->
  ∃ w0 res w' w0', mrun api ok u0 tr w0 /\ w_usr w = w_usr w0 /\ mcall api op w0 = Ret res w0' /\
    mcall api op w = Ret res w' /\ w_usr w' = w_usr w0'.
Proof. exact (gc_invisible zero fuel u0 Hfuel api dig ok Htype). Qed.
End maps.

Section sets.
Context (U K CK : Type) (EqK : EqDecision K) (CoK : Countable K) (u0 : U) (fuel : nat).
Context (api : setapi K unit CK U) (dig : N -> K -> nat -> N) (ok : list (sop K U * sres) -> sop K U -> Prop).
Hypothesis Hfuel : 256 <= fuel.
Hypothesis Htype : set_type fuel api dig ok.

Theorem C50_call_set : ∀ tr R w op, sgcrun api ok u0 tr R w -> ok tr op -> (∀ a, stakes op = Some a -> a ∈ R) ->
  ∃ w0 res w' w0', srun api ok u0 tr w0 /\ w_usr w = w_usr w0 /\ scall api op w0 = Ret res w0' /\
    scall api op w = Ret res w' /\ w_usr w' = w_usr w0'.
Proof. exact (sgc_invisible fuel u0 Hfuel api dig ok Htype). Qed.
End sets.

Print Assumptions C50_history_map.
Print Assumptions C50_history_set.
Print Assumptions C50_call_map.
Print Assumptions C50_call_set.

(** ** Programs that are like that *)

(** A list of blocks that no pointer leaves, computed. *)
Definition succs {V CK} (m : gmap loc (block V CK)) (a : loc) : list loc :=
  match m !! a with
  | Some (BLinks ls) => omap (λ x, match lk_ptr x with At c => Some c | Nil => None end) ls
  | Some (BRoot rt) => (match lk_ptr (rt_link rt) with At c => [c] | Nil => [] end) ++
      omap (λ y, match pl_link y with Some (RootRef c) => Some c | Some (SlotRef c _) => Some c | _ => None end) (rt_path rt)
  | _ => []
  end.
Lemma succs_ok {V CK} (m : gmap loc (block V CK)) a b : points m a b -> b ∈ succs m a.
Proof.
  unfold points, succs. destruct (m !! a) as [[ls| |rt]|]; try done.
  - intros (i & x & Hx & Hp). apply elem_of_list_omap. exists x. split; [by eapply elem_of_list_lookup_2|]. by rewrite Hp.
  - intros [Hp|(i & y & Hy & Hp)]; apply elem_of_app.
    + left. rewrite Hp. by left.
    + right. apply elem_of_list_omap. exists y. split; [by eapply elem_of_list_lookup_2|].
      destruct Hp as [Hp|[j Hp]]; by rewrite Hp.
Qed.
Definition closedb {V CK} (m : gmap loc (block V CK)) (S : list loc) : bool :=
  forallb (λ a, forallb (λ b, bool_decide (b ∈ S)) (succs m a)) S.
Lemma closedb_ok {V CK} (m : gmap loc (block V CK)) S a b : closedb m S = true -> a ∈ S -> keeps m a b -> b ∈ S.
Proof.
  intros Hc Ha. induction 1 as [a|a c b Hac _ IH]; [done|]. apply IH.
  unfold closedb in Hc. rewrite forallb_forall in Hc. specialize (Hc a ltac:(by apply elem_of_list_In)).
  rewrite forallb_forall in Hc. specialize (Hc c ltac:(by apply elem_of_list_In, succs_ok)). by apply bool_decide_eq_true in Hc.
Qed.
Lemma closed_collected {V CK} (m : gmap loc (block V CK)) S R : closedb m S = true -> (∀ a, a ∈ R -> a ∈ S) ->
  collected R m (filter (λ x, x.1 ∈ S) m).
Proof.
  intros Hc HR. split; [apply map_filter_subseteq|]. intros a b Ha Hk.
  assert (Hb : b ∈ S) by (eapply closedb_ok; [exact Hc|by apply HR|exact Hk]).
  destruct (m !! b) as [x|] eqn:E; [by apply map_filter_lookup_Some|]. apply map_filter_lookup_None. by left.
Qed.

(** A run without collections is one of these: the program forgets nothing. *)
Definition given {K V U} (tr : list (mop K V U * mres V)) : gset loc := ⋃ (map (λ e, gives e.2) tr).
Lemma run_gcrun {K V CK U} (api : mapapi K V CK U) (ok : list (mop K V U * mres V) -> mop K V U -> Prop) (u0 : U) P Q tr w : (∀ tr op, ok tr op -> mallowed P Q tr op) ->
  mrun api ok u0 tr w -> gcrun api ok u0 tr (given tr) w.
Proof.
  intros Hok. induction 1 as [|tr w op res w' Hr IH Ho Hc]; [constructor|].
  assert (Hg : given ((op, res) :: tr) ⊆ given tr ∪ gives res) by (unfold given; simpl; set_solver).
  eapply gc_forget; [|exact Hg]. econstructor; [exact IH|exact Ho| |exact Hc].
  assert (Hin : ∀ o r a, (o, r) ∈ tr -> a ∈ gives r -> a ∈ given tr).
  { intros o r a Hor Ha. unfold given. apply elem_of_union_list. exists (gives r). split; [|done].
    apply elem_of_list_fmap. by exists (o, r). }
  apply Hok in Ho. intros a Ha.
  destruct op as [s|h k v|h k f|h k|h k|h k|h k|h|h|h f|p|p v]; simpl in Ho, Ha; try discriminate; injection Ha as ->.
  1-6: destruct Ho as [[s Hs] _]; eapply Hin; [exact Hs|]; simpl; by apply elem_of_singleton.
  1-3: destruct Ho as [s Hs]; eapply Hin; [exact Hs|]; simpl; by apply elem_of_singleton.
  1-2: destruct Ho as (h & k & Hs); eapply Hin; [exact Hs|]; simpl; by apply elem_of_singleton.
Qed.

(** Two maps with two keys each and a pointer to a value of the first. The program keeps
    the second map and that pointer, and a collection takes the first map and its other
    value. *)
Definition sum8 (s : N) (b : bytes) : N := match b with [n] => n | _ => 0%N end.
Definition two_maps : list (mop bytes N N) :=
  [MNew 0; MSet 2 [1]%N 10%N; MSet 2 [2]%N 20%N; MPtr 2 [1]%N; MNew 0; MSet 32 [1]%N 30%N; MSet 32 [2]%N 40%N].
Example C50_nonvacuous :
  let api := StringMap_api (U:=N) sum8 0%N 256 in
  let ok := λ tr op, mallowed (λ _, true = true) (λ _, true = true) tr op /\ ins_guard (digit sum8) any_way any_way tr op in
  map_type 0%N 256 api (digit sum8) ok /\
  ∃ tr w m', gcrun api ok 0%N tr {[4; 32]}%positive w /\ collected {[4; 32]}%positive (w_mem w) m' /\
    gcrun api ok 0%N tr {[4; 32]}%positive (set_mem w m') /\
    size (w_mem w) = 8 /\ size m' = 5 /\
    (MPtr 2 [1]%N, RPtr (Some 4%positive)) ∈ tr /\
    (∃ w', mcall api (MLoad 4) (set_mem w m') = Ret (RVal 10%N) w') /\
    (∃ w', mcall api (MGet 32 [2]%N) (set_mem w m') = Ret (RGet 40%N true) w') /\
    mcall api (MGet 2 [1]%N) (set_mem w m') = Fault.
Proof.
  intros api ok. split; [apply type_StringMap|].
  set (S := [4; 16; 32; 64; 128]%positive).
  assert (He : match mexec api (gchk (digit sum8) (λ _, true) anyb anyb) [] (empty_world 0%N) two_maps with
    | Some (tr, w) => let m' := filter (λ x : loc * block N bytes, x.1 ∈ S) (w_mem w) in
        match nth_error tr 3 with Some (MPtr 2 k, RPtr (Some 4%positive)) => k = [1]%N | _ => False end /\
        bool_decide ({[4; 32]}%positive ⊆ given tr) = true /\
        closedb (w_mem w) S = true /\ size (w_mem w) = 8 /\ size m' = 5 /\
        match mcall api (MLoad 4) (set_mem w m') with Ret (RVal v) _ => v = 10%N | _ => False end /\
        match mcall api (MGet 32 [2]%N) (set_mem w m') with Ret (RGet v b) _ => v = 40%N /\ b = true | _ => False end /\
        mcall api (MGet 2 [1]%N) (set_mem w m') = Fault
    | None => False end) by (vm_compute; repeat split).
  destruct (mexec api (gchk (digit sum8) (λ _, true) anyb anyb) [] (empty_world 0%N) two_maps) as [[tr w]|] eqn:E; [|destruct He].
  cbv zeta in He. set (m' := filter (λ x : loc * block N bytes, x.1 ∈ S) (w_mem w)) in He.
  destruct He as (Hp & Hgv & Hcl & Hs1 & Hs2 & H1 & H2 & H3).
  assert (Hr : mrun api ok 0%N tr w).
  { eapply mexec_run; [|constructor|exact E]. intros tr1 op. apply gchk_ok; apply anyb_ok. }
  clear E. apply (run_gcrun api ok 0%N (λ _, true = true) (λ _, true = true)) in Hr; [|intros ? ? [? _]; assumption].
  assert (Hg : gcrun api ok 0%N tr {[4; 32]}%positive w).
  { eapply gc_forget; [exact Hr|]. by apply bool_decide_eq_true in Hgv. }
  assert (Hc : collected {[4; 32]}%positive (w_mem w) m').
  { apply closed_collected; [exact Hcl|]. intros a Ha. unfold S. set_solver +Ha. }
  exists tr, w, m'. split; [exact Hg|]. split; [exact Hc|]. split; [by apply gc_collect|]. split; [exact Hs1|]. split; [exact Hs2|].
  split; [|split; [|split; [|exact H3]]].
  - destruct (nth_error tr 3) as [[op res]|] eqn:En; [|destruct Hp].
    apply nth_error_In, elem_of_list_In in En.
    destruct op as [| | | | | |h k| | | | |]; try destruct Hp. destruct h as [|[]|]; try destruct Hp.
    destruct res as [| | | |[[|[|[]|]|]|]| |]; try destruct Hp. exact En.
  - destruct (mcall api (MLoad 4) (set_mem w m')) as [[] w'| | |]; try destruct H1. by exists w'.
  - destruct (mcall api (MGet 32 [2]%N) (set_mem w m')) as [[] w'| | |]; try destruct H2. subst. by exists w'.
Qed.
