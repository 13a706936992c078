(** Programs whose garbage is collected. Used to state C50. *)
From stdpp Require Import base numbers list gmap.
From Verif Require Import Mem Spec Client KeepSpec.
Local Open Scope nat_scope.

(** A collection leaves part of the memory. It may take any block that no pointer the
    program still has leads to (KeepSpec.v: [keeps]), and it leaves the others as they
    are. *)
Definition collected {V CK : Type} (R : gset loc) (m m' : gmap loc (block V CK)) : Prop :=
  m' ⊆ m /\ ∀ a b, a ∈ R -> keeps m a b -> m' !! b = m !! b.

Section maps.
Context {K V CK U : Type}.
Local Notation world := (world V CK U).
Local Notation history := (list (mop K V U * mres V)).

(** The pointer with which a call is made, and the one which it returns. *)
Definition takes (op : mop K V U) : option loc :=
  match op with
  | MNew _ => None
  | MSet h _ _ | MMod h _ _ | MDel h _ | MGet h _ | MVal h _ | MPtr h _ | MLen h | MDep h | MAll h _ => Some h
  | MLoad p | MStore p _ => Some p
  end.
Definition gives (res : mres V) : gset loc :=
  match res with RHandle h => {[h]} | RPtr (Some p) => {[p]} | _ => ∅ end.

(** The runs of a program that uses maps, as [mrun] (Client.v), but with R, the maps and
    pointers to values which the program still has. It may forget some of them at any
    time, and between two calls the garbage may be collected. *)
Inductive gcrun (api : mapapi K V CK U) (ok : history -> mop K V U -> Prop) (u0 : U) : history -> gset loc -> world -> Prop :=
  | gc_nil : gcrun api ok u0 [] ∅ (empty_world u0)
  | gc_call tr R w op res w' :
      gcrun api ok u0 tr R w -> ok tr op -> (∀ a, takes op = Some a -> a ∈ R) -> mcall api op w = Ret res w' ->
      gcrun api ok u0 ((op, res) :: tr) (R ∪ gives res) w'
  | gc_forget tr R R' w :
      gcrun api ok u0 tr R w -> R' ⊆ R -> gcrun api ok u0 tr R' w
  | gc_collect tr R w m' :
      gcrun api ok u0 tr R w -> collected R (w_mem w) m' -> gcrun api ok u0 tr R (set_mem w m').
End maps.

Section sets.
Context {K V CK U : Type}.
Local Notation world := (world V CK U).
Local Notation history := (list (sop K U * sres)).

Definition stakes (op : sop K U) : option loc :=
  match op with
  | SNew _ => None
  | SAdd h _ | SDel h _ | SHas h _ | SLen h | SDep h | SAll h _ => Some h
  end.
Definition sgives (res : sres) : gset loc :=
  match res with THandle h => {[h]} | _ => ∅ end.

Inductive sgcrun (api : setapi K V CK U) (ok : history -> sop K U -> Prop) (u0 : U) : history -> gset loc -> world -> Prop :=
  | sgc_nil : sgcrun api ok u0 [] ∅ (empty_world u0)
  | sgc_call tr R w op res w' :
      sgcrun api ok u0 tr R w -> ok tr op -> (∀ a, stakes op = Some a -> a ∈ R) -> scall api op w = Ret res w' ->
      sgcrun api ok u0 ((op, res) :: tr) (R ∪ sgives res) w'
  | sgc_forget tr R R' w :
      sgcrun api ok u0 tr R w -> R' ⊆ R -> sgcrun api ok u0 tr R' w
  | sgc_collect tr R w m' :
      sgcrun api ok u0 tr R w -> collected R (w_mem w) m' -> sgcrun api ok u0 tr R (set_mem w m').
End sets.
