(** Goroutines that use maps and sets. *)
From stdpp Require Import base numbers list gmap.
From Verif Require Import GoInt Mem Hash Spec Client Prog PClient ConcSpec.
Local Open Scope nat_scope.

(** The map and set types as programs of memory accesses. *)
Inductive pmap_type : ∀ {K V CK U : Type}, V -> nat -> pmapapi K V CK U -> mapapi K V CK U -> Prop :=
  | pt_StringMap sum64 V U (zero : V) fuel : pmap_type zero fuel (PStringMap_api (U:=U) sum64 zero fuel) (StringMap_api sum64 zero fuel)
  | pt_BytesMap sum64 V U (zero : V) fuel : pmap_type zero fuel (PBytesMap_api (U:=U) sum64 zero fuel) (BytesMap_api sum64 zero fuel)
  | pt_IntMap sum64 V U (zero : V) fuel : pmap_type zero fuel (PIntMap_api (U:=U) sum64 zero fuel) (IntMap_api sum64 zero fuel)
  | pt_ArrMap sum64 K V U (zero : V) fuel keq (KeyBytes : K -> bytes) :
      pmap_type zero fuel (PArrMap_api (U:=U) sum64 zero fuel keq KeyBytes) (ArrMap_api sum64 zero fuel keq KeyBytes)
  | pt_Map K V U (zero : V) fuel Equal (Hash : K -> N -> N -> N) :
      pmap_type zero fuel (PMap_api (U:=U) zero fuel Equal Hash) (Map_api zero fuel Equal Hash).
Inductive pset_type : ∀ {K CK U : Type}, nat -> psetapi K unit CK U -> setapi K unit CK U -> Prop :=
  | pt_StringSet sum64 U fuel : pset_type fuel (PStringSet_api (U:=U) sum64 fuel) (StringSet_api sum64 fuel)
  | pt_BytesSet sum64 U fuel : pset_type fuel (PBytesSet_api (U:=U) sum64 fuel) (BytesSet_api sum64 fuel)
  | pt_IntSet sum64 U fuel : pset_type fuel (PIntSet_api (U:=U) sum64 fuel) (IntSet_api sum64 fuel)
  | pt_ArrSet sum64 K U fuel keq (KeyBytes : K -> bytes) :
      pset_type fuel (PArrSet_api (U:=U) sum64 fuel keq KeyBytes) (ArrSet_api sum64 fuel keq KeyBytes)
  | pt_Set K U fuel Equal (Hash : K -> N -> N -> N) :
      pset_type fuel (PSet_api (U:=U) fuel Equal Hash) (Set_api fuel Equal Hash).

Section maps.
Context {K V CK U : Type}.
Local Notation history := (list (mop K V U * mres V)).
Variables (papi : pmapapi K V CK U) (api : mapapi K V CK U) (ok : history -> mop K V U -> Prop).

(** A goroutine: it makes calls one after the other and decides with the results how to
    go on. *)
Inductive client : Type :=
  | Stop
  | Do (c : cop K V U) (k : mres V -> client).

(** The goroutine as a program, which returns its history. *)
Fixpoint accesses (c : client) (tr : history) : prog V CK U history :=
  match c with
  | Stop => PRet tr
  | Do c k => bind (pmcall papi c) (λ r, accesses (k r) ((the_op c, r) :: tr))
  end.

(** The goroutine when nothing else runs: from history tr and world w to hist and w'. *)
Fixpoint solo (c : client) (tr : history) (w : world V CK U) (hist : history) (w' : world V CK U) : Prop :=
  match c with
  | Stop => hist = tr /\ w' = w
  | Do c k => ∃ r w1, mcall api (the_op c) w = Ret r w1 /\ solo (k r) ((the_op c, r) :: tr) w1 hist w'
  end.

(** Goroutines start after the history tr0. Each map of tr0 belongs to one goroutine, or
    to none of them and is only read. A map that goroutine i made belongs to i. *)
Section share.
Variables (own : positive -> option nat) (tr0 : history) (i : nat).
Definition mine (h : positive) : Prop := (∃ s, (MNew s, RHandle h) ∈ tr0) -> own h = Some i.
Definition visible (h : positive) : Prop := (∃ s, (MNew s, RHandle h) ∈ tr0) -> own h = Some i \/ own h = None.
(** The call is one that goroutine i may make after the history tr: it changes only what
    is i's own. *)
Definition uses (tr : history) (c : cop K V U) : Prop :=
  match c with
  | Op (MNew _) => True
  | Op (MSet h _ _) | Op (MMod h _ _) | Op (MDel h _) | Op (MAll h _) => mine h
  | Op (MGet h _) | Op (MVal h _) | Op (MPtr h _) | Op (MLen h) | Op (MDep h) | Look h _ => visible h
  | Op (MLoad p) => ∃ h k, (MPtr h k, RPtr (Some p)) ∈ tr /\ visible h
  | Op (MStore p _) => ∃ h k, (MPtr h k, RPtr (Some p)) ∈ tr /\ mine h
  end.
(** All calls that the goroutine makes when it is alone are such calls, and allowed. *)
Fixpoint fine (c : client) (tr : history) (w : world V CK U) : Prop :=
  match c with
  | Stop => True
  | Do c k => ok tr (the_op c) /\ uses tr c /\
      ∀ r w', mcall api (the_op c) w = Ret r w' -> fine (k r) ((the_op c, r) :: tr) w'
  end.
End share.

(** Goroutines cs start in w after the history tr, at the names in starts and with a copy
    of the user's state. *)
Definition begin (tr : history) (w : world V CK U) (cs : list client) (starts : list loc) : config V CK U history :=
  Config (w_mem w) (zip_with (λ c a, Thread (accesses c tr) a (w_usr w)) cs starts).
Definition from (w : world V CK U) (a : loc) : world V CK U := World (w_mem w) a (w_usr w).
End maps.
Global Arguments client : clear implicits.

Section sets.
Context {K CK U : Type}.
Local Notation history := (list (sop K U * sres)).
Variables (papi : psetapi K unit CK U) (api : setapi K unit CK U) (ok : history -> sop K U -> Prop).

Inductive sclient : Type :=
  | SStop
  | SDo (op : sop K U) (k : sres -> sclient).
Fixpoint saccesses (c : sclient) (tr : history) : prog unit CK U history :=
  match c with
  | SStop => PRet tr
  | SDo op k => bind (pscall papi op) (λ r, saccesses (k r) ((op, r) :: tr))
  end.
Fixpoint ssolo (c : sclient) (tr : history) (w : world unit CK U) (hist : history) (w' : world unit CK U) : Prop :=
  match c with
  | SStop => hist = tr /\ w' = w
  | SDo op k => ∃ r w1, scall api op w = Ret r w1 /\ ssolo (k r) ((op, r) :: tr) w1 hist w'
  end.
Section share.
Variables (own : positive -> option nat) (tr0 : history) (i : nat).
Definition smine (h : positive) : Prop := (∃ s, (SNew s, THandle h) ∈ tr0) -> own h = Some i.
Definition svisible (h : positive) : Prop := (∃ s, (SNew s, THandle h) ∈ tr0) -> own h = Some i \/ own h = None.
Definition suses (op : sop K U) : Prop :=
  match op with
  | SNew _ => True
  | SAdd h _ | SDel h _ => smine h
  | SHas h _ | SLen h | SDep h | SAll h _ => svisible h
  end.
Fixpoint sfine (c : sclient) (tr : history) (w : world unit CK U) : Prop :=
  match c with
  | SStop => True
  | SDo op k => ok tr op /\ suses op /\
      ∀ r w', scall api op w = Ret r w' -> sfine (k r) ((op, r) :: tr) w'
  end.
End share.
Definition sbegin (tr : history) (w : world unit CK U) (cs : list sclient) (starts : list loc) : config unit CK U history :=
  Config (w_mem w) (zip_with (λ c a, Thread (saccesses c tr) a (w_usr w)) cs starts).
End sets.
Global Arguments sclient : clear implicits.
