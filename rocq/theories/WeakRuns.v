(** Executions without any condition on keys, hash functions and comparisons. *)
From stdpp Require Import base numbers list gmap.
From Verif Require Import GoInt Mem Amt Families Spec Client Levels Bag.
Local Open Scope nat_scope.

(** No container has a level deeper than D. *)
Definition shallow {V CK U} (D : nat) (w : world V CK U) : Prop :=
  ∀ h d lv, level (w_mem w) h d lv -> d <= D.

(** Calls that have to add an entry. *)
Definition adds {K V U} (σ : bstate K V U) (op : mop K V U) : Prop :=
  match op with
  | MSet h k _ | MMod h k _ => ∃ B, bs_map σ !! h = Some B /\ bg_look B k = None
  | _ => False
  end.
Definition sadds {K U} (σ : sbstate K U) (op : sop K U) : Prop :=
  match op with
  | SAdd h k => ∃ B, sbs_set σ !! h = Some B /\ sb_has B k = false
  | _ => False
  end.

(** Executions of any calls in which no level gets deeper than D. Between the
    calls the caller may also overwrite keys of stored entries, as clob tells. *)
Definition untouched {A : Type} (old new : A) : Prop := False.
Definition overwritten {A : Type} (old new : A) : Prop := True.
Section runs.
Context {K V CK U : Type}.
Inductive wrun (api : mapapi K V CK U) (D : nat) (clob : CK -> CK -> Prop) (u0 : U) : list (mop K V U * mres V) -> world V CK U -> Prop :=
  | wrun_nil : wrun api D clob u0 [] (empty_world u0)
  | wrun_call tr w op res w' :
      wrun api D clob u0 tr w -> mallowed (λ _, True) (λ _, True) tr op -> mcall api op w = Ret res w' ->
      shallow D w' -> wrun api D clob u0 ((op, res) :: tr) w'
  | wrun_key tr w p v ck ck' : clob ck ck' ->
      wrun api D clob u0 tr w -> w_mem w !! p = Some (BKv v ck) ->
      wrun api D clob u0 tr (set_mem w (<[p := BKv v ck']> (w_mem w))).
Inductive swrun (api : setapi K V CK U) (D : nat) (clob : CK -> CK -> Prop) (u0 : U) : list (sop K U * sres) -> world V CK U -> Prop :=
  | swrun_nil : swrun api D clob u0 [] (empty_world u0)
  | swrun_call tr w op res w' :
      swrun api D clob u0 tr w -> sallowed (λ _, True) (λ _, True) tr op -> scall api op w = Ret res w' ->
      shallow D w' -> swrun api D clob u0 ((op, res) :: tr) w'
  | swrun_key tr w p v ck ck' : clob ck ck' ->
      swrun api D clob u0 tr w -> w_mem w !! p = Some (BKv v ck) ->
      swrun api D clob u0 tr (set_mem w (<[p := BKv v ck']> (w_mem w))).
End runs.

(** Calls that do not delete the entry at p, and calls that write nothing there. *)
Section calls.
Context {K V U : Type}.
Definition keeps {CK} (api : mapapi K V CK U) (w : world V CK U) (op : mop K V U) (p : positive) : Prop :=
  match op with
  | MDel h k => mcall api (MPtr h k) w ≠ Ret (RPtr (Some p)) w
  | _ => True
  end.
Definition spares {CK} (api : mapapi K V CK U) (w : world V CK U) (op : mop K V U) (p : positive) : Prop :=
  match op with
  | MSet h k _ | MMod h k _ => mcall api (MPtr h k) w ≠ Ret (RPtr (Some p)) w
  | MAll _ f => ∀ u k v, (f u k v).1.2 = v
  | MStore p' _ => p' ≠ p
  | _ => True
  end.

Context `{EqDecision K}.
(** The last value set, for histories in which only Set gives values to k. *)
Fixpoint written (k : K) (tr : list (mop K V U * mres V)) (h : positive) : option V :=
  match tr with
  | [] => None
  | (op, _) :: tr =>
      match op with
      | MSet h' k' v => if decide (h' = h /\ k' = k) then Some v else written k tr h
      | MDel h' k' => if decide (h' = h /\ k' = k) then None else written k tr h
      | _ => written k tr h
      end
  end.
Definition calm (k : K) (h : positive) (op : mop K V U) : Prop :=
  match op with
  | MMod h' k' _ => ¬ (h' = h /\ k' = k)
  | MAll _ f => ∀ u k' v, (f u k' v).1.2 = v
  | MStore _ _ => False
  | _ => True
  end.
End calls.
