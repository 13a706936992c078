(** Executing concrete calls, to show that the hypotheses about executions in
    Props_Weak.v can be met. *)
From stdpp Require Import base numbers list gmap.
From Verif Require Import GoInt Mem Amt Families Spec Client Levels Bag WeakRuns.
Local Open Scope nat_scope.

(** No level below lv is more than n levels away from it. *)
Section within.
Context {V CK : Type}.
Implicit Types (m : gmap loc (block V CK)) (lv x : link).
Fixpoint within (n : nat) m lv : bool :=
  match lk_ptr lv with
  | Nil => true
  | At a =>
      match m !! a with
      | Some (BLinks ls) =>
          forallb (λ e : N * link,
            if is_entry lv e.1 then true
            else match n with O => false | S n => within n m e.2 end) (zip (digits_of lv) ls)
      | _ => true
      end
  end.
Lemma slot_zip {A B : Type} (l : list A) (k : list B) i (x : A) (y : B) : l !! i = Some x -> k !! i = Some y -> (x, y) ∈ zip l k.
Proof.
  revert k i. induction l as [|a l IH]; intros [|b k] [|i] Hx Hy; try done; simpl in *.
  - injection Hx as ->. injection Hy as ->. left.
  - right. by eapply IH.
Qed.
Lemma within_slot n m lv i r x : within n m lv = true -> slot m lv i r x -> is_entry lv r = false ->
  ∃ n', n = S n' /\ within n' m x = true.
Proof.
  intros Hw (a & ls & Hp & Ha & Hd & Hx) He.
  assert (H : (if is_entry lv r then true else match n with O => false | S n => within n m x end) = true).
  { destruct n; simpl in Hw; rewrite Hp, Ha in Hw; rewrite forallb_forall in Hw;
      apply (Hw (r, x)), elem_of_list_In; by eapply slot_zip. }
  rewrite He in H. destruct n as [|n]; [done|]. eauto.
Qed.
Definition shallowb {U} (D : nat) (w : world V CK U) : bool :=
  forallb (λ x : loc * block V CK, match x.2 with BRoot rt => within D (w_mem w) (rt_link rt) | _ => true end) (map_to_list (w_mem w)).
Lemma shallowb_ok {U} D (w : world V CK U) : shallowb D w = true -> shallow D w.
Proof.
  intros Hb. assert (H : ∀ h d lv, level (w_mem w) h d lv -> d <= D /\ within (D - d) (w_mem w) lv = true).
  { induction 1 as [rt Hr|d lv i r x Hl IH Hs He].
    - split; [lia|]. unfold shallowb in Hb. rewrite forallb_forall in Hb. rewrite Nat.sub_0_r.
      apply (Hb (h, BRoot rt)), elem_of_list_In, elem_of_map_to_list. done.
    - destruct IH as [Hd Hw]. destruct (within_slot _ _ _ _ _ _ Hw Hs He) as (n & Hn & Hx).
      assert (D - S d = n) as -> by lia. split; [lia|done]. }
  intros h d lv Hl. by apply H in Hl as [? _].
Qed.
End within.

Section exec.
Context {K V CK U : Type}.
Implicit Types (tr : list (mop K V U * mres V)).
Definition liveb (h : positive) tr : bool :=
  existsb (λ x, match x with (MNew _, RHandle h') => (h =? h')%positive | _ => false end) tr.
Definition allowedb tr (op : mop K V U) : bool :=
  match op with
  | MNew _ => true
  | MSet h _ _ | MMod h _ _ | MDel h _ | MGet h _ | MVal h _ | MPtr h _ | MLen h | MDep h | MAll h _ => liveb h tr
  | MLoad _ | MStore _ _ => false
  end.
Lemma liveb_ok h tr : liveb h tr = true -> ∃ s, (MNew s, RHandle h) ∈ tr.
Proof.
  intros ([o r] & Hin & Hb)%existsb_exists. destruct o as [s| | | | | | | | | | |], r; try done.
  apply Pos.eqb_eq in Hb as ->. exists s. by apply elem_of_list_In.
Qed.
Lemma allowedb_ok tr op : allowedb tr op = true -> mallowed (λ _, True) (λ _, True) tr op.
Proof. destruct op; simpl; try done; intros H%liveb_ok; try split; done. Qed.

(** A call, or an overwritten key. *)
Inductive wact : Type := Call (op : mop K V U) | Key (p : positive) (ck : CK).
Fixpoint wexec (api : mapapi K V CK U) (D : nat) (clobb : CK -> CK -> bool) tr (w : world V CK U) (acts : list wact)
    : option (list (mop K V U * mres V) * world V CK U) :=
  match acts with
  | [] => Some (tr, w)
  | Call op :: acts =>
      if allowedb tr op then
        match mcall api op w with
        | Ret res w' => if shallowb D w' then wexec api D clobb ((op, res) :: tr) w' acts else None
        | _ => None
        end
      else None
  | Key p ck' :: acts =>
      match w_mem w !! p with
      | Some (BKv v ck) => if clobb ck ck' then wexec api D clobb tr (set_mem w (<[p := BKv v ck']> (w_mem w))) acts else None
      | _ => None
      end
  end.
Lemma wexec_run api D clobb (clob : CK -> CK -> Prop) u0 acts : (∀ a b, clobb a b = true -> clob a b) ->
  ∀ tr w tr' w', wrun api D clob u0 tr w -> wexec api D clobb tr w acts = Some (tr', w') -> wrun api D clob u0 tr' w'.
Proof.
  intros Hc. induction acts as [|[op|p ck'] acts IH]; intros tr w tr' w' Hr He; simpl in He.
  - by injection He as <- <-.
  - destruct (allowedb tr op) eqn:Ho; [|done]. destruct (mcall api op w) as [res w1| | |] eqn:Ec; try done.
    destruct (shallowb D w1) eqn:Es; [|done]. eapply IH; [|exact He].
    econstructor; [done|by apply allowedb_ok|done|by apply shallowb_ok].
  - destruct (w_mem w !! p) as [[|v ck|]|] eqn:Ep; try done. destruct (clobb ck ck') eqn:Eb; [|done].
    eapply IH; [|exact He]. econstructor; [by apply Hc|done|done].
Qed.
Lemma wexec_test api D clobb (clob : CK -> CK -> Prop) u0 acts test : (∀ a b, clobb a b = true -> clob a b) ->
  match wexec api D clobb [] (empty_world u0) acts with Some (tr, w) => test tr w | None => false end = true ->
  ∃ tr w, wrun api D clob u0 tr w /\ test tr w = true.
Proof.
  intros Hc He. destruct (wexec api D clobb [] (empty_world u0) acts) as [[tr w]|] eqn:E; [|done].
  exists tr, w. split; [|done]. eapply wexec_run; [exact Hc|constructor|exact E].
Qed.
End exec.
Global Arguments wact : clear implicits.

Section sexec.
Context {K V CK U : Type}.
Implicit Types (tr : list (sop K U * sres)).
Definition sliveb (h : positive) tr : bool :=
  existsb (λ x, match x with (SNew _, THandle h') => (h =? h')%positive | _ => false end) tr.
Definition sallowedb tr (op : sop K U) : bool :=
  match op with
  | SNew _ => true
  | SAdd h _ | SDel h _ | SHas h _ | SLen h | SDep h | SAll h _ => sliveb h tr
  end.
Lemma sliveb_ok h tr : sliveb h tr = true -> ∃ s, (SNew s, THandle h) ∈ tr.
Proof.
  intros ([o r] & Hin & Hb)%existsb_exists. destruct o as [s| | | | | |], r; try done.
  apply Pos.eqb_eq in Hb as ->. exists s. by apply elem_of_list_In.
Qed.
Lemma sallowedb_ok tr op : sallowedb tr op = true -> sallowed (λ _, True) (λ _, True) tr op.
Proof. destruct op; simpl; try done; intros H%sliveb_ok; try split; done. Qed.
Fixpoint swexec (api : setapi K V CK U) (D : nat) tr (w : world V CK U) (ops : list (sop K U))
    : option (list (sop K U * sres) * world V CK U) :=
  match ops with
  | [] => Some (tr, w)
  | op :: ops =>
      if sallowedb tr op then
        match scall api op w with
        | Ret res w' => if shallowb D w' then swexec api D ((op, res) :: tr) w' ops else None
        | _ => None
        end
      else None
  end.
Lemma swexec_test api D (clob : CK -> CK -> Prop) u0 ops test :
  match swexec api D [] (empty_world u0) ops with Some (tr, w) => test tr w | None => false end = true ->
  ∃ tr w, swrun api D clob u0 tr w /\ test tr w = true.
Proof.
  assert (Hx : ∀ tr w tr' w', swrun api D clob u0 tr w -> swexec api D tr w ops = Some (tr', w') -> swrun api D clob u0 tr' w').
  { induction ops as [|op ops IH]; intros tr w tr' w' Hr He; simpl in He; [by injection He as <- <-|].
    destruct (sallowedb tr op) eqn:Ho; [|done]. destruct (scall api op w) as [res w1| | |] eqn:Ec; try done.
    destruct (shallowb D w1) eqn:Es; [|done]. eapply IH; [|exact He].
    econstructor; [done|by apply sallowedb_ok|done|by apply shallowb_ok]. }
  intros He. destruct (swexec api D [] (empty_world u0) ops) as [[tr w]|] eqn:E; [|done].
  exists tr, w. split; [|done]. eapply Hx; [constructor|exact E].
Qed.
End sexec.
