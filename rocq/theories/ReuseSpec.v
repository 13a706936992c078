(** Programs whose garbage may be collected at any moment, in the middle of a call, and
    whose memory is used again. Used to state C54. *)
From stdpp Require Import base numbers list gmap relations.
From Verif Require Import Mem Prog Spec Client PClient KeepSpec GcSpec.
Local Open Scope nat_scope.

(** ** The same up to the choice of addresses *)

(** Which address of one memory stands for which of another. *)
Definition names : Type := loc -> loc -> Prop.
Definition more (β β' : names) : Prop := ∀ a a', β a a' -> β' a a'.
Definition bounded (β : names) : Prop := ∃ n : positive, ∀ a a', β a a' -> (a < n)%positive /\ (a' < n)%positive.

Section same.
Variable β : names.
Definition ptr_as (p q : ptr) : Prop :=
  match p, q with Nil, Nil => True | At a, At a' => β a a' | _, _ => False end.
Definition link_as (x y : link) : Prop :=
  ptr_as (lk_ptr x) (lk_ptr y) /\ lk_pmap x = lk_pmap y /\ lk_tmap x = lk_tmap y.
Definition lref_as (l l' : lref) : Prop :=
  match l, l' with
  | RootRef a, RootRef a' => β a a'
  | SlotRef a i, SlotRef a' i' => β a a' /\ i = i'
  | WildRef, WildRef => True
  | _, _ => False
  end.
Definition plink_as (x y : plink) : Prop :=
  pl_radix x = pl_radix y /\
  match pl_link x, pl_link y with None, None => True | Some l, Some l' => lref_as l l' | _, _ => False end.
Definition root_as (x y : root) : Prop :=
  link_as (rt_link x) (rt_link y) /\ rt_seed x = rt_seed y /\ rt_len x = rt_len y /\ rt_dep x = rt_dep y /\
  Forall2 plink_as (rt_path x) (rt_path y).
Definition block_as {V CK} (b b' : block V CK) : Prop :=
  match b, b' with
  | BLinks ls, BLinks ls' => Forall2 link_as ls ls'
  | BKv v k, BKv v' k' => v = v' /\ k = k'
  | BRoot x, BRoot y => root_as x y
  | _, _ => False
  end.
End same.

Section progs.
Context {V CK U : Type}.
Local Notation prog := (prog V CK U).

(** Two programs that do the same, one with the addresses that stand for those of the
    other: each address they use they were given, or have read, or have been given by the
    allocator. *)
Inductive prog_as {A} (as_ : names -> A -> A -> Prop) : names -> prog A -> prog A -> Prop :=
  | as_ret β a a' : as_ β a a' -> prog_as as_ β (PRet a) (PRet a')
  | as_panic β : prog_as as_ β PPanic PPanic
  | as_fault β : prog_as as_ β PFault PFault
  | as_hang β : prog_as as_ β PHang PHang
  | as_read (β : names) l l' k k' : β l l' ->
      (∀ β' b b', more β β' -> bounded β' -> block_as β' b b' -> prog_as as_ β' (k b) (k' b')) ->
      prog_as as_ β (PRead l k) (PRead l' k')
  | as_write (β : names) l l' b b' k k' : β l l' -> block_as β b b' -> prog_as as_ β k k' ->
      prog_as as_ β (PWrite l b k) (PWrite l' b' k')
  | as_alloc β b b' k k' : block_as β b b' ->
      (∀ (β' : names) l l', more β β' -> bounded β' -> β' l l' -> prog_as as_ β' (k l) (k' l')) ->
      prog_as as_ β (PAlloc b k) (PAlloc b' k')
  | as_get β k k' : (∀ u, prog_as as_ β (k u) (k' u)) -> prog_as as_ β (PGet k) (PGet k')
  | as_put β u k k' : prog_as as_ β k k' -> prog_as as_ β (PPut u k) (PPut u k').

(** The program has no address outside S: it does the same whatever any other address
    stands for. *)
Definition self (S : gset loc) : names := λ a a', a ∈ S /\ a' = a.
Definition has_only {A} (as_ : names -> A -> A -> Prop) (S : gset loc) (p : prog A) : Prop := prog_as as_ (self S) p p.

(** ** One access at a time, with an allocator and a collector *)

(** The program that uses the container has the addresses R; the call is in progress with
    program p. An allocation may return any address that is free, whether it was in use
    before or not. At any moment the collector may take any block to which no address of R
    and none that p has leads. *)
Inductive moves {A} (as_ : names -> A -> A -> Prop) (R : gset loc) :
    prog A * gmap loc (block V CK) * U -> prog A * gmap loc (block V CK) * U -> Prop :=
  | mv_read l k m u b : m !! l = Some b -> moves as_ R (PRead l k, m, u) (k b, m, u)
  | mv_write l b k m u b0 : m !! l = Some b0 -> moves as_ R (PWrite l b k, m, u) (k, <[l := b]> m, u)
  | mv_alloc b k m u l : m !! l = None -> moves as_ R (PAlloc b k, m, u) (k l, <[l := b]> m, u)
  | mv_get k m u : moves as_ R (PGet k, m, u) (k u, m, u)
  | mv_put u' k m u : moves as_ R (PPut u' k, m, u) (k, m, u')
  | mv_collect S p m m' u : has_only as_ S p -> collected (R ∪ S) m m' -> moves as_ R (p, m, u) (p, m', u).
End progs.

(** ** Programs that use maps *)
Section maps.
Context {K V CK U : Type}.
Local Notation history := (list (mop K V U * mres V)).

(** A call and a result with other addresses. *)
Definition op_by (ρ : loc -> loc) (op : mop K V U) : mop K V U :=
  match op with
  | MNew s => MNew s
  | MSet h k v => MSet (ρ h) k v
  | MMod h k f => MMod (ρ h) k f
  | MDel h k => MDel (ρ h) k
  | MGet h k => MGet (ρ h) k
  | MVal h k => MVal (ρ h) k
  | MPtr h k => MPtr (ρ h) k
  | MLen h => MLen (ρ h)
  | MDep h => MDep (ρ h)
  | MAll h f => MAll (ρ h) f
  | MLoad p => MLoad (ρ p)
  | MStore p v => MStore (ρ p) v
  end.
Definition res_by (ρ : loc -> loc) (res : mres V) : mres V :=
  match res with
  | RHandle h => RHandle (ρ h)
  | RPtr (Some p) => RPtr (Some (ρ p))
  | RPtr None => RPtr None
  | RUnit => RUnit | RGet v b => RGet v b | RVal v => RVal v | RLen n => RLen n | RDep x => RDep x
  end.
Definition res_as (β : names) (res res' : mres V) : Prop :=
  match res, res' with
  | RHandle h, RHandle h' => β h h'
  | RPtr (Some p), RPtr (Some p') => β p p'
  | RPtr None, RPtr None => True
  | RUnit, RUnit => True
  | RGet v b, RGet v' b' => v = v' /\ b = b'
  | RVal v, RVal v' => v = v'
  | RLen n, RLen n' => n = n'
  | RDep x, RDep x' => x = x'
  | _, _ => False
  end.

(** A renaming for the addresses that the program had and those which it has now: it is as
    before for those it had, and different addresses have different names. *)
Definition keeps_names (R R' : gset loc) (ρ ρ' : loc -> loc) : Prop :=
  (∀ a, a ∈ R -> ρ' a = ρ a) /\ ∀ a b, a ∈ R' -> b ∈ R' -> ρ' a = ρ' b -> a = b.

(** The runs of a program that uses maps with such an allocator and collector: its
    history, the addresses which it still has, the memory and its own state. *)
Inductive wild (papi : pmapapi K V CK U) (u0 : U) : history -> gset loc -> gmap loc (block V CK) -> U -> Prop :=
  | wild_nil : wild papi u0 [] ∅ ∅ u0
  | wild_call tr R m u op res m' u' :
      wild papi u0 tr R m u -> (∀ a, takes op = Some a -> a ∈ R) ->
      rtc (moves res_as R) (pmcall papi (Op op), m, u) (PRet res, m', u') ->
      wild papi u0 ((op, res) :: tr) (R ∪ gives res) m' u'
  | wild_forget tr R R' m u : wild papi u0 tr R m u -> R' ⊆ R -> wild papi u0 tr R' m u.

(** Such a run and, beside it, a run of Client.v, where memory is never collected and each
    address is new: the same calls with the same results up to the names ρ. *)
Inductive beside (api : mapapi K V CK U) (papi : pmapapi K V CK U) (ok : history -> mop K V U -> Prop) (u0 : U) :
    history -> gset loc -> gmap loc (block V CK) -> U -> history -> (loc -> loc) -> world V CK U -> Prop :=
  | beside_nil ρ : beside api papi ok u0 [] ∅ ∅ u0 [] ρ (empty_world u0)
  | beside_call tr R m u tr0 ρ w0 op res m' u' ρ' w0' :
      beside api papi ok u0 tr R m u tr0 ρ w0 ->
      ok tr0 (op_by ρ op) -> (∀ a, takes op = Some a -> a ∈ R) ->
      rtc (moves res_as R) (pmcall papi (Op op), m, u) (PRet res, m', u') ->
      mcall api (op_by ρ op) w0 = Ret (res_by ρ' res) w0' -> keeps_names R (R ∪ gives res) ρ ρ' -> u' = w_usr w0' ->
      beside api papi ok u0 ((op, res) :: tr) (R ∪ gives res) m' u' ((op_by ρ op, res_by ρ' res) :: tr0) ρ' w0'
  | beside_forget tr R R' m u tr0 ρ w0 :
      beside api papi ok u0 tr R m u tr0 ρ w0 -> R' ⊆ R -> beside api papi ok u0 tr R' m u tr0 ρ w0.
End maps.

(** ** Programs that use sets *)
Section sets.
Context {K V CK U : Type}.
Local Notation history := (list (sop K U * sres)).

Definition sop_by (ρ : loc -> loc) (op : sop K U) : sop K U :=
  match op with
  | SNew s => SNew s
  | SAdd h k => SAdd (ρ h) k
  | SDel h k => SDel (ρ h) k
  | SHas h k => SHas (ρ h) k
  | SLen h => SLen (ρ h)
  | SDep h => SDep (ρ h)
  | SAll h f => SAll (ρ h) f
  end.
Definition sres_by (ρ : loc -> loc) (res : sres) : sres :=
  match res with THandle h => THandle (ρ h) | _ => res end.
Definition sres_as (β : names) (res res' : sres) : Prop :=
  match res, res' with THandle h, THandle h' => β h h' | THandle _, _ | _, THandle _ => False | _, _ => res = res' end.

Inductive swild (papi : psetapi K V CK U) (u0 : U) : history -> gset loc -> gmap loc (block V CK) -> U -> Prop :=
  | swild_nil : swild papi u0 [] ∅ ∅ u0
  | swild_call tr R m u op res m' u' :
      swild papi u0 tr R m u -> (∀ a, stakes op = Some a -> a ∈ R) ->
      rtc (moves sres_as R) (pscall papi op, m, u) (PRet res, m', u') ->
      swild papi u0 ((op, res) :: tr) (R ∪ sgives res) m' u'
  | swild_forget tr R R' m u : swild papi u0 tr R m u -> R' ⊆ R -> swild papi u0 tr R' m u.

Inductive sbeside (api : setapi K V CK U) (papi : psetapi K V CK U) (ok : history -> sop K U -> Prop) (u0 : U) :
    history -> gset loc -> gmap loc (block V CK) -> U -> history -> (loc -> loc) -> world V CK U -> Prop :=
  | sbeside_nil ρ : sbeside api papi ok u0 [] ∅ ∅ u0 [] ρ (empty_world u0)
  | sbeside_call tr R m u tr0 ρ w0 op res m' u' ρ' w0' :
      sbeside api papi ok u0 tr R m u tr0 ρ w0 ->
      ok tr0 (sop_by ρ op) -> (∀ a, stakes op = Some a -> a ∈ R) ->
      rtc (moves sres_as R) (pscall papi op, m, u) (PRet res, m', u') ->
      scall api (sop_by ρ op) w0 = Ret (sres_by ρ' res) w0' -> keeps_names R (R ∪ sgives res) ρ ρ' -> u' = w_usr w0' ->
      sbeside api papi ok u0 ((op, res) :: tr) (R ∪ sgives res) m' u' ((sop_by ρ op, sres_by ρ' res) :: tr0) ρ' w0'
  | sbeside_forget tr R R' m u tr0 ρ w0 :
      sbeside api papi ok u0 tr R m u tr0 ρ w0 -> R' ⊆ R -> sbeside api papi ok u0 tr R' m u tr0 ρ w0.
End sets.
