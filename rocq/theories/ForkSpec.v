(** Programs that start goroutines and wait for them: what they do to plain finite maps and
    sets, and how they run. *)
From stdpp Require Import base numbers list gmap relations.
From Verif Require Import GoInt Mem Hash Spec Client Prog PClient ConcSpec ConcClient.
Local Open Scope nat_scope.

(** Several workers start with m and end with ms. They are merged to m': what a worker has
    changed or made is as that worker left it, the rest is as it was. *)
Definition merged {A} (m : gmap positive A) (ms : list (gmap positive A)) (m' : gmap positive A) : Prop :=
  ∀ l, (∀ mi, mi ∈ ms -> mi !! l ≠ m !! l -> m' !! l = mi !! l) /\
    ((∀ mi, mi ∈ ms -> mi !! l = m !! l) -> m' !! l = m !! l).

Section maps.
Context `{Countable K} {V CK U : Type}.
Local Notation mstate := (mstate K V U).
Local Notation history := (list (mop K V U * mres V)).
Variables (dig : N -> K -> nat -> N) (zero : V) (u0 : U).

(** Calls one after the other (latest call first), from state σ on. *)
Inductive msteps (σ : mstate) : history -> mstate -> Prop :=
  | msteps_nil : msteps σ [] σ
  | msteps_cons tr σ1 op res σ2 : msteps σ tr σ1 -> mstep dig zero σ1 op res σ2 -> msteps σ ((op, res) :: tr) σ2.

(** A history of a program that makes calls, and from time to time starts goroutines and
    waits for all of them. Each goroutine does its own calls (news) as if it were alone
    with the maps as they are when it starts. Afterwards all of its changes are there.
    The program's own state is then what the program wants. *)
Inductive fspec : history -> mstate -> Prop :=
  | fspec_nil : fspec [] (minit u0)
  | fspec_call tr σ op res σ' : fspec tr σ -> mstep dig zero σ op res σ' -> fspec ((op, res) :: tr) σ'
  | fspec_join tr σ (news : list history) (σs : list mstate) σ' :
      fspec tr σ -> length σs = length news ->
      (∀ i new σi, news !! i = Some new -> σs !! i = Some σi -> msteps σ new σi) ->
      merged (ms_map σ) (map ms_map σs) (ms_map σ') -> merged (ms_val σ) (map ms_val σs) (ms_val σ') ->
      fspec (concat news ++ tr) σ'.

(** The program runs: its own calls one after the other, and the goroutines of ConcSpec.v
    in any order of their accesses. When all of them have returned the program goes on
    with the memory that they have left and names that are not in use. *)
Variables (papi : pmapapi K V CK U) (api : mapapi K V CK U) (ok : history -> mop K V U -> Prop).
Inductive frun : history -> world V CK U -> Prop :=
  | frun_nil : frun [] (empty_world u0)
  | frun_call tr w op res w' : frun tr w -> ok tr op -> mcall api op w = Ret res w' -> frun ((op, res) :: tr) w'
  | frun_join tr w cs starts own C news n u : frun tr w ->
      spread (w_nxt w) starts -> length starts = length cs ->
      (∀ i c a, cs !! i = Some c -> starts !! i = Some a -> fine api ok own tr i c tr (from w a)) ->
      rtc step (begin papi tr w cs starts) C ->
      length news = length cs ->
      (∀ i t new, c_thr C !! i = Some t -> news !! i = Some new -> returned t (new ++ tr)) ->
      (∀ l, is_Some (c_mem C !! l) -> (l < n)%positive) ->
      frun (concat news ++ tr) (World (c_mem C) n u).
End maps.

Section sets.
Context `{Countable K} {CK U : Type}.
Local Notation sstate := (sstate K U).
Local Notation history := (list (sop K U * sres)).
Variables (dig : N -> K -> nat -> N) (u0 : U).
Inductive ssteps (σ : sstate) : history -> sstate -> Prop :=
  | ssteps_nil : ssteps σ [] σ
  | ssteps_cons tr σ1 op res σ2 : ssteps σ tr σ1 -> sstep dig σ1 op res σ2 -> ssteps σ ((op, res) :: tr) σ2.
Inductive sfspec : history -> sstate -> Prop :=
  | sfspec_nil : sfspec [] (sinit u0)
  | sfspec_call tr σ op res σ' : sfspec tr σ -> sstep dig σ op res σ' -> sfspec ((op, res) :: tr) σ'
  | sfspec_join tr σ (news : list history) (σs : list sstate) σ' :
      sfspec tr σ -> length σs = length news ->
      (∀ i new σi, news !! i = Some new -> σs !! i = Some σi -> ssteps σ new σi) ->
      merged (ss_set σ) (map ss_set σs) (ss_set σ') ->
      sfspec (concat news ++ tr) σ'.
Variables (papi : psetapi K unit CK U) (api : setapi K unit CK U) (ok : history -> sop K U -> Prop).
Inductive sfrun : history -> world unit CK U -> Prop :=
  | sfrun_nil : sfrun [] (empty_world u0)
  | sfrun_call tr w op res w' : sfrun tr w -> ok tr op -> scall api op w = Ret res w' -> sfrun ((op, res) :: tr) w'
  | sfrun_join tr w cs starts own C news n u : sfrun tr w ->
      spread (w_nxt w) starts -> length starts = length cs ->
      (∀ i c a, cs !! i = Some c -> starts !! i = Some a -> sfine api ok own tr i c tr (from w a)) ->
      rtc step (sbegin papi tr w cs starts) C ->
      length news = length cs ->
      (∀ i t new, c_thr C !! i = Some t -> news !! i = Some new -> returned t (new ++ tr)) ->
      (∀ l, is_Some (c_mem C !! l) -> (l < n)%positive) ->
      sfrun (concat news ++ tr) (World (c_mem C) n u).
End sets.
