(** Observing a container through its own methods. *)
From stdpp Require Import base numbers list gmap.
From Verif Require Import GoInt Mem Spec Client.
Local Open Scope nat_scope.

(** m is what Get shows of the map h: Get returns exactly the entries of m, on
    every key it may be called with, and changes nothing. *)
Definition contents `{Countable K} {V CK U} (api : mapapi K V CK U) (zero : V)
    (ok : list (mop K V U * mres V) -> mop K V U -> Prop)
    (tr : list (mop K V U * mres V)) (w : world V CK U) (h : positive) (m : gmap K V) : Prop :=
  (∀ k, is_Some (m !! k) -> ok tr (MGet h k)) /\
  (∀ k, ok tr (MGet h k) ->
     mcall api (MGet h k) w = Ret (RGet (default zero (m !! k)) (bool_decide (is_Some (m !! k)))) w).

(** X is what Has shows of the set h. *)
Definition members `{Countable K} {CK U} (api : setapi K unit CK U)
    (ok : list (sop K U * sres) -> sop K U -> Prop)
    (tr : list (sop K U * sres)) (w : world unit CK U) (h : positive) (X : gset K) : Prop :=
  (∀ k, k ∈ X -> ok tr (SHas h k)) /\
  (∀ k, ok tr (SHas h k) -> scall api (SHas h k) w = Ret (THas (bool_decide (k ∈ X))) w).

(** Calling f on entries one after the other until it returns false: the
    calls that are made, the final state of the user, and the entries afterwards. *)
Fixpoint visit {K V U} (f : U -> K -> V -> U * V * bool) (es : list (K * V)) (u : U) :
    list (K * V) * U * list (K * V) :=
  match es with
  | [] => ([], u, [])
  | (k, v) :: es =>
      let '(u, v', go) := f u k v in
      if (go : bool) then
        let '(calls, u, es) := visit f es u in ((k, v) :: calls, u, (k, v') :: es)
      else ([(k, v)], u, (k, v') :: es)
  end.
Definition calls {K V U} (f : U -> K -> V -> U * V * bool) es u := (visit f es u).1.1.
Definition usr_after {K V U} (f : U -> K -> V -> U * V * bool) es u := (visit f es u).1.2.
Definition after {K V U} (f : U -> K -> V -> U * V * bool) es u := (visit f es u).2.

(** The same for a callback of a set. *)
Fixpoint svisit {K U} (f : U -> K -> U * bool) (ks : list K) (u : U) : list K * U :=
  match ks with
  | [] => ([], u)
  | k :: ks =>
      let '(u, go) := f u k in
      if (go : bool) then let '(calls, u) := svisit f ks u in (k :: calls, u) else ([k], u)
  end.
