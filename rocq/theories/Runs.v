(** Executing a list of calls, to exhibit concrete runs of the model. *)
From stdpp Require Import base numbers list gmap.
From Verif Require Import GoInt Mem Hash Amt Families Spec Client.
Local Open Scope nat_scope.

Section runs.
Context {K V CK U : Type}.

Fixpoint mexec (api : mapapi K V CK U) (chk : list (mop K V U * mres V) -> mop K V U -> bool)
    (tr : list (mop K V U * mres V)) (w : world V CK U) (ops : list (mop K V U)) :
    option (list (mop K V U * mres V) * world V CK U) :=
  match ops with
  | [] => Some (tr, w)
  | op :: ops =>
      if chk tr op then
        match mcall api op w with Ret res w' => mexec api chk ((op, res) :: tr) w' ops | _ => None end
      else None
  end.

Lemma mexec_run api chk (ok : list (mop K V U * mres V) -> mop K V U -> Prop) u0 ops : (∀ tr op, chk tr op = true -> ok tr op) ->
  ∀ tr w tr' w', mrun api ok u0 tr w -> mexec api chk tr w ops = Some (tr', w') -> mrun api ok u0 tr' w'.
Proof.
  intros Hchk. induction ops as [|op ops IH]; intros tr w tr' w' Hr He; simpl in He; [by injection He as <- <-|].
  destruct (chk tr op) eqn:Ec; [|done]. destruct (mcall api op w) as [res w1| | |] eqn:E; try done.
  eapply IH; [|exact He]. econstructor; [exact Hr|by apply Hchk|exact E].
Qed.

Fixpoint sexec (api : setapi K V CK U) (chk : list (sop K U * sres) -> sop K U -> bool)
    (tr : list (sop K U * sres)) (w : world V CK U) (ops : list (sop K U)) :
    option (list (sop K U * sres) * world V CK U) :=
  match ops with
  | [] => Some (tr, w)
  | op :: ops =>
      if chk tr op then
        match scall api op w with Ret res w' => sexec api chk ((op, res) :: tr) w' ops | _ => None end
      else None
  end.

Lemma sexec_run api chk (ok : list (sop K U * sres) -> sop K U -> Prop) u0 ops : (∀ tr op, chk tr op = true -> ok tr op) ->
  ∀ tr w tr' w', srun api ok u0 tr w -> sexec api chk tr w ops = Some (tr', w') -> srun api ok u0 tr' w'.
Proof.
  intros Hchk. induction ops as [|op ops IH]; intros tr w tr' w' Hr He; simpl in He; [by injection He as <- <-|].
  destruct (chk tr op) eqn:Ec; [|done]. destruct (scall api op w) as [res w1| | |] eqn:E; try done.
  eapply IH; [|exact He]. econstructor; [exact Hr|by apply Hchk|exact E].
Qed.

(** A boolean test for [mallowed] and [sallowed]. *)
Definition livebm (tr : list (mop K V U * mres V)) (h : positive) : bool :=
  existsb (λ x, match x with (MNew _, RHandle h') => Pos.eqb h' h | _ => false end) tr.
Definition addrb (tr : list (mop K V U * mres V)) (p : positive) : bool :=
  existsb (λ x, match x with (MPtr _ _, RPtr (Some p')) => Pos.eqb p' p | _ => false end) tr.
Definition mchk (P : K -> bool) (Q : N -> bool) (tr : list (mop K V U * mres V)) (op : mop K V U) : bool :=
  match op with
  | MNew s => Q s
  | MSet h k _ | MMod h k _ | MDel h k | MGet h k | MVal h k | MPtr h k => livebm tr h && P k
  | MLen h | MDep h | MAll h _ => livebm tr h
  | MLoad p | MStore p _ => addrb tr p
  end.
Lemma mchk_ok P Q tr op : mchk P Q tr op = true -> mallowed (λ k, P k = true) (λ s, Q s = true) tr op.
Proof.
  assert (Hl : ∀ h, livebm tr h = true -> ∃ s, (MNew s, RHandle h) ∈ tr).
  { intros h Hh. apply existsb_exists in Hh as ([o r] & Hin & Hb). destruct o, r; try done.
    apply Pos.eqb_eq in Hb as ->. eexists. by apply elem_of_list_In. }
  assert (Ha : ∀ p, addrb tr p = true -> ∃ h k, (MPtr h k, RPtr (Some p)) ∈ tr).
  { intros h Hh. apply existsb_exists in Hh as ([o r] & Hin & Hb). destruct o, r as [| | | |[q|]| |]; try done.
    apply Pos.eqb_eq in Hb as ->. eexists _, _. by apply elem_of_list_In. }
  destruct op; simpl; auto; intros [H1 H2]%andb_prop; auto.
Qed.
Definition livebs (tr : list (sop K U * sres)) (h : positive) : bool :=
  existsb (λ x, match x with (SNew _, THandle h') => Pos.eqb h' h | _ => false end) tr.
Definition schk (P : K -> bool) (Q : N -> bool) (tr : list (sop K U * sres)) (op : sop K U) : bool :=
  match op with
  | SNew s => Q s
  | SAdd h k | SDel h k | SHas h k => livebs tr h && P k
  | SLen h | SDep h | SAll h _ => livebs tr h
  end.
Lemma schk_ok P Q tr op : schk P Q tr op = true -> sallowed (λ k, P k = true) (λ s, Q s = true) tr op.
Proof.
  assert (Hl : ∀ h, livebs tr h = true -> ∃ s, (SNew s, THandle h) ∈ tr).
  { intros h Hh. apply existsb_exists in Hh as ([o r] & Hin & Hb). destruct o, r; try done.
    apply Pos.eqb_eq in Hb as ->. eexists. by apply elem_of_list_In. }
  destruct op; simpl; auto; intros [H1 H2]%andb_prop; auto.
Qed.
End runs.

Lemma mexec_res {K V CK U} (api : mapapi K V CK U) chk (ok : list (mop K V U * mres V) -> mop K V U -> Prop) u0 ops rs : (∀ tr op, chk tr op = true -> ok tr op) ->
  (λ x, (reverse x.1).*2) <$> mexec api chk [] (empty_world u0) ops = Some rs ->
  ∃ tr w, mrun api ok u0 tr w /\ reverse tr = zip ops rs.
Proof.
  intros Hchk He. destruct (mexec api chk [] (empty_world u0) ops) as [[tr w]|] eqn:E; [|done].
  injection He as Hrs. exists tr, w. split; [eapply mexec_run; [exact Hchk|constructor|exact E]|].
  assert (Ho : ∀ ops tr w tr' w', mexec api chk tr w ops = Some (tr', w') -> (reverse tr').*1 = (reverse tr).*1 ++ ops).
  { clear. induction ops as [|op ops IH]; intros tr w tr' w' He; simpl in He; [injection He as -> ->; by rewrite app_nil_r|].
    destruct (chk tr op); [|done]. destruct (mcall api op w) as [res w1| | |]; try done.
    rewrite (IH _ _ _ _ He), reverse_cons, fmap_app. simpl. by rewrite <-app_assoc. }
  specialize (Ho _ _ _ _ _ E). simpl in Ho. rewrite <-Hrs, <-Ho. simpl.
  generalize (reverse tr). clear. intros l. induction l as [|[x y] l IH]; [done|]. simpl. f_equal. exact IH.
Qed.

Lemma sexec_res {K V CK U} (api : setapi K V CK U) chk (ok : list (sop K U * sres) -> sop K U -> Prop) u0 ops rs : (∀ tr op, chk tr op = true -> ok tr op) ->
  (λ x, (reverse x.1).*2) <$> sexec api chk [] (empty_world u0) ops = Some rs ->
  ∃ tr w, srun api ok u0 tr w /\ reverse tr = zip ops rs.
Proof.
  intros Hchk He. destruct (sexec api chk [] (empty_world u0) ops) as [[tr w]|] eqn:E; [|done].
  injection He as Hrs. exists tr, w. split; [eapply sexec_run; [exact Hchk|constructor|exact E]|].
  assert (Ho : ∀ ops tr w tr' w', sexec api chk tr w ops = Some (tr', w') -> (reverse tr').*1 = (reverse tr).*1 ++ ops).
  { clear. induction ops as [|op ops IH]; intros tr w tr' w' He; simpl in He; [injection He as -> ->; by rewrite app_nil_r|].
    destruct (chk tr op); [|done]. destruct (scall api op w) as [res w1| | |]; try done.
    rewrite (IH _ _ _ _ He), reverse_cons, fmap_app. simpl. by rewrite <-app_assoc. }
  specialize (Ho _ _ _ _ _ E). simpl in Ho. rewrite <-Hrs, <-Ho. simpl.
  generalize (reverse tr). clear. intros l. induction l as [|[x y] l IH]; [done|]. simpl. f_equal. exact IH.
Qed.

(** Checking separation of the keys in a list. *)
Section sep.
Context `{EqDecision K}.
Definition sepb (dig : N -> K -> nat -> N) (ks : list K) (ss : list N) (n : nat) : bool :=
  forallb (λ s, forallb (λ k, forallb (λ k', bool_decide (k = k') ||
    existsb (λ d, negb (dig s k d =? dig s k' d)%N) (seq 0 (S n))) ks) ks) ss.
Definition memb (ks : list K) (k : K) : bool := existsb (λ k', bool_decide (k = k')) ks.
Definition memN (ss : list N) (s : N) : bool := existsb (N.eqb s) ss.
Lemma memb_in ks k : memb ks k = true -> In k ks.
Proof. intros (k' & Hin & Hb)%existsb_exists. apply bool_decide_eq_true in Hb. by subst. Qed.
Lemma memN_in ss s : memN ss s = true -> In s ss.
Proof. intros (k' & Hin & Hb)%existsb_exists. apply N.eqb_eq in Hb. by subst. Qed.
Lemma sepb_sep dig ks ss n : sepb dig ks ss n = true ->
  ∀ s k k', memN ss s = true -> memb ks k = true -> memb ks k' = true -> k ≠ k' -> separated n (dig s k) (dig s k').
Proof.
  intros Hb s k k' Hs%memN_in Hk%memb_in Hk'%memb_in Hne. unfold sepb in Hb.
  rewrite forallb_forall in Hb. specialize (Hb s Hs). rewrite forallb_forall in Hb. specialize (Hb k Hk).
  rewrite forallb_forall in Hb. specialize (Hb k' Hk').
  rewrite bool_decide_eq_false_2 in Hb by done. cbn [orb] in Hb.
  apply existsb_exists in Hb as (d & Hd%in_seq & Hne'). exists d. split; [lia|].
  intros He. by rewrite He, N.eqb_refl in Hne'.
Qed.
End sep.
