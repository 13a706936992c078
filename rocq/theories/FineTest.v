(** Boolean tests for [fine] and [loop_fine], to exhibit concrete programs that
    meet the hypotheses of the theorems on callbacks. *)
From stdpp Require Import base numbers list gmap.
From Verif Require Import GoInt Mem Hash Amt Families Spec Client Guards Runs Programs ProgramFacts Tells.
Local Open Scope nat_scope.

Section test.
Context {Op Res V CK U : Type}.
Local Notation world := (world V CK U).
Local Notation M := (M V CK U).
Local Notation trace := (list (Op * Res)).
Implicit Types (w : world) (tr : trace).
Variable call : Op -> M Res.
Variables (ok changes : trace -> Op -> Prop) (okb chb : trace -> Op -> bool).
Hypothesis Hok : ∀ tr op, okb tr op = true -> ok tr op.
Hypothesis Hch : ∀ tr op, changes tr op -> chb tr op = true.

Fixpoint fineb {A} (post : trace -> world -> bool -> A -> bool) (t : bool) tr w (p : prog Op Res U A) : bool :=
  match p with
  | Done a => post tr w t a
  | Call op c => okb tr op && match call op w with Ret r w' => fineb post (t || chb tr op) ((op, r) :: tr) w' (c r) | _ => true end
  | Own f c => fineb post t tr (own (f (w_usr w)) w) (c (w_usr w))
  | Throw => true
  end.
Fixpoint loop_fineb {K} (body : K -> prog Op Res U bool) tr w (ks : list K) : bool :=
  match ks with
  | [] => true
  | k :: ks => fineb (λ tr' w' t go, negb go || (negb t && loop_fineb body tr' w' ks)) false tr w (body k)
  end.

Lemma fineb_ok {A} (post : trace -> world -> Prop -> A -> Prop) postb (p : prog Op Res U A) : ∀ (t : Prop) tb tr w,
  (∀ tr w (t : Prop) tb a, (t -> tb = true) -> postb tr w tb a = true -> post tr w t a) -> (t -> tb = true) ->
  fineb postb tb tr w p = true -> fine call ok changes post t tr w p.
Proof.
  intros t tb tr w Hp. revert t tb tr w. induction p as [a|op c IH|f c IH|]; intros t tb tr w Ht Hb; cbn [fine fineb] in *.
  - by eapply Hp.
  - apply andb_prop in Hb as [H1 H2]. split; [by apply Hok|]. intros r w' E. rewrite E in H2.
    eapply IH; [|exact H2]. intros [Hx|Hx]; [by rewrite (Ht Hx)|]. rewrite (Hch _ _ Hx). by destruct tb.
  - by eapply IH.
  - done.
Qed.
Lemma loop_fineb_ok {K} (body : K -> prog Op Res U bool) ks : ∀ tr w,
  loop_fineb body tr w ks = true -> loop_fine call ok changes body tr w ks.
Proof.
  induction ks as [|k ks IH]; intros tr w Hb; cbn [loop_fine loop_fineb] in *; [done|].
  eapply fineb_ok; [| |exact Hb]; [|done].
  simpl. intros tr' w' t tb go Ht Hx ->. simpl in Hx. apply andb_prop in Hx as [H1 H2]. split; [|by apply IH].
  intros Hc. by rewrite (Ht Hc) in H1.
Qed.
End test.

Section keys.
Context `{Countable K} {V CK U : Type}.
Definition changes_keysb h (tr : list (mop K V U * mres V)) (op : mop K V U) : bool :=
  match op with
  | MSet h' k _ | MMod h' k _ => bool_decide (h' = h) && negb (bool_decide (k ∈ stored tr h))
  | MDel h' k => bool_decide (h' = h) && bool_decide (k ∈ stored tr h)
  | _ => false
  end.
Lemma changes_keysb_ok h (tr : list (mop K V U * mres V)) op : changes_keys h tr op -> changes_keysb h tr op = true.
Proof.
  destruct op; simpl; try done; intros [-> Hk]; rewrite (bool_decide_true (h = h)) by done; simpl.
  1, 2: by rewrite bool_decide_false.
  by rewrite bool_decide_true.
Qed.
Definition changes_membersb h (tr : list (sop K U * sres)) (op : sop K U) : bool :=
  match op with
  | SAdd h' k => bool_decide (h' = h) && negb (bool_decide (k ∈ sstored tr h))
  | SDel h' k => bool_decide (h' = h) && bool_decide (k ∈ sstored tr h)
  | _ => false
  end.
Lemma changes_membersb_ok h (tr : list (sop K U * sres)) op : changes_members h tr op -> changes_membersb h tr op = true.
Proof.
  destruct op; simpl; try done; intros [-> Hk]; rewrite (bool_decide_true (h = h)) by done; simpl.
  - by rewrite bool_decide_false.
  - by rewrite bool_decide_true.
Qed.

(** After the calls ops, a loop over the keys of h in any order is fine, and
    running All with the callback f gives the result end. *)
Definition loop_test (api : mapapi K V CK U) chk u0 (ops : list (mop K V U)) h s
    (f : K -> positive -> prog (mop K V U) (mres V) U bool) (P : outcome V CK U unit -> bool) : bool :=
  match mexec api chk [] (empty_world u0) ops with
  | None => false
  | Some (tr, w) =>
      existsb (λ x, match x with (MNew s', RHandle h') => N.eqb s' s && Pos.eqb h' h | _ => false end) tr &&
      forallb (loop_fineb (mcall api) chk (changes_keysb h) (with_ptr f h) tr w) (permutations (elements (stored tr h))) &&
      P (ma_All api (Some h) (all_prog api f) w)
  end.
Lemma loop_test_ok api chk (ok : list (mop K V U * mres V) -> mop K V U -> Prop) u0 ops h s f P : (∀ tr op, chk tr op = true -> ok tr op) ->
  loop_test api chk u0 ops h s f P = true ->
  ∃ tr w, crun (mcall api) ok u0 tr w /\ (MNew s, RHandle h) ∈ tr /\
    (∀ ks, ks ≡ₚ elements (stored tr h) -> loop_fine (mcall api) ok (changes_keys h) (with_ptr f h) tr w ks) /\
    P (ma_All api (Some h) (all_prog api f) w) = true.
Proof.
  intros Hchk Hb. unfold loop_test in Hb. destruct (mexec api chk [] (empty_world u0) ops) as [[tr w]|] eqn:E; [|done].
  apply andb_prop in Hb as [Hb HP]. apply andb_prop in Hb as [Hn Hl]. exists tr, w.
  assert (Hr : mrun api ok u0 tr w) by (eapply mexec_run; [exact Hchk|constructor|exact E]).
  split; [|split; [|split; [|done]]].
  - clear -Hr. induction Hr; [constructor|econstructor; eauto].
  - apply existsb_exists in Hn as ([o r] & Hin & Hx). destruct o, r; try done. apply andb_prop in Hx as [H1 H2].
    apply N.eqb_eq in H1 as ->. apply Pos.eqb_eq in H2 as ->. by apply elem_of_list_In.
  - intros ks Hks. eapply loop_fineb_ok; [exact Hchk|apply changes_keysb_ok|].
    rewrite forallb_forall in Hl. apply Hl, elem_of_list_In, permutations_Permutation. by symmetry.
Qed.

Definition sloop_test (api : setapi K unit CK U) chk u0 (ops : list (sop K U)) h s
    (f : K -> prog (sop K U) sres U bool) (P : outcome unit CK U unit -> bool) : bool :=
  match sexec api chk [] (empty_world u0) ops with
  | None => false
  | Some (tr, w) =>
      existsb (λ x, match x with (SNew s', THandle h') => N.eqb s' s && Pos.eqb h' h | _ => false end) tr &&
      forallb (loop_fineb (scall api) chk (changes_membersb h) f tr w) (permutations (elements (sstored tr h))) &&
      P (sa_All api (Some h) (set_prog api f) w)
  end.
Lemma sloop_test_ok api chk (ok : list (sop K U * sres) -> sop K U -> Prop) u0 ops h s f P : (∀ tr op, chk tr op = true -> ok tr op) ->
  sloop_test api chk u0 ops h s f P = true ->
  ∃ tr w, crun (scall api) ok u0 tr w /\ (SNew s, THandle h) ∈ tr /\
    (∀ ks, ks ≡ₚ elements (sstored tr h) -> loop_fine (scall api) ok (changes_members h) f tr w ks) /\
    P (sa_All api (Some h) (set_prog api f) w) = true.
Proof.
  intros Hchk Hb. unfold sloop_test in Hb. destruct (sexec api chk [] (empty_world u0) ops) as [[tr w]|] eqn:E; [|done].
  apply andb_prop in Hb as [Hb HP]. apply andb_prop in Hb as [Hn Hl]. exists tr, w.
  assert (Hr : srun api ok u0 tr w) by (eapply sexec_run; [exact Hchk|constructor|exact E]).
  split; [|split; [|split; [|done]]].
  - clear -Hr. induction Hr; [constructor|econstructor; eauto].
  - apply existsb_exists in Hn as ([o r] & Hin & Hx). destruct o, r; try done. apply andb_prop in Hx as [H1 H2].
    apply N.eqb_eq in H1 as ->. apply Pos.eqb_eq in H2 as ->. by apply elem_of_list_In.
  - intros ks Hks. eapply loop_fineb_ok; [exact Hchk|apply changes_membersb_ok|].
    rewrite forallb_forall in Hl. apply Hl, elem_of_list_In, permutations_Permutation. by symmetry.
Qed.
End keys.
