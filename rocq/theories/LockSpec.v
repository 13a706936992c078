(** Goroutines that share maps and sets behind a readers-writer lock (Go's sync.RWMutex):
    how they run, access by access, and what they do to plain finite maps and sets. *)
From stdpp Require Import base numbers list gmap relations.
From Verif Require Import GoInt Mem Hash Spec Client Prog PClient ConcSpec ConcClient ReadOnly ForkSpec.
Local Open Scope nat_scope.

(** A goroutine takes the lock, for writing (e = true: Lock) or for reading (RLock), does
    x, gives the lock back and decides with the result how to go on. It may go on for
    ever. *)
CoInductive gor (X A : Type) : Type :=
  | Quit
  | Sec (e : bool) (x : X) (k : A -> gor X A).
Global Arguments Quit {X A}.
Global Arguments Sec {X A} e x k.

Section machine.
Context {V CK U X A : Type} (body : X -> prog V CK U A).
Local Notation gor := (gor X A).

(** A goroutine is outside the lock, or has it and p is left to do. *)
Inductive status : Type :=
  | Out (g : gor)
  | In (e : bool) (p : prog V CK U A) (k : A -> gor).
(** Each goroutine has a state of its own. *)
Record gr : Type := Gr { gr_st : status; gr_usr : U }.
(** The memory, the name of the next new block, the goroutines, and what has been done
    behind the lock: who did it and with which result (latest first). *)
Record lconfig : Type := LConfig {
  lc_mem : gmap loc (block V CK); lc_nxt : loc; lc_gr : list gr; lc_log : list (nat * A) }.

(** The lock lets in one writer, or any number of readers. *)
Definition lets_in (C : lconfig) (e : bool) : Prop :=
  ∀ j e' p k u, lc_gr C !! j = Some (Gr (In e' p k) u) -> e = false /\ e' = false.

(** One goroutine takes the lock, makes its next access or gives the lock back. *)
Inductive lstep (C : lconfig) : lconfig -> Prop :=
  | l_lock i e x k u : lc_gr C !! i = Some (Gr (Out (Sec e x k)) u) -> lets_in C e ->
      lstep C (LConfig (lc_mem C) (lc_nxt C) (<[i := Gr (In e (body x) k) u]> (lc_gr C)) (lc_log C))
  | l_access i e p k u m' p' n' u' : lc_gr C !! i = Some (Gr (In e p k) u) ->
      next (lc_mem C) (Thread p (lc_nxt C) u) = Some (m', Thread p' n' u') ->
      lstep C (LConfig m' n' (<[i := Gr (In e p' k) u']> (lc_gr C)) (lc_log C))
  | l_unlock i e a k u : lc_gr C !! i = Some (Gr (In e (PRet a) k) u) ->
      lstep C (LConfig (lc_mem C) (lc_nxt C) (<[i := Gr (Out (k a)) u]> (lc_gr C)) ((i, a) :: lc_log C)).

Definition lbegin (w : world V CK U) (gs : list (gor * U)) : lconfig :=
  LConfig (w_mem w) (w_nxt w) (map (λ g, Gr (Out g.1) g.2) gs) [].

(** Two goroutines are about to access the same block, and one of them writes. *)
Definition lrace (C : lconfig) : Prop :=
  ∃ i j e e' p p' k k' u u' l b b', i ≠ j /\
    lc_gr C !! i = Some (Gr (In e p k) u) /\ lc_gr C !! j = Some (Gr (In e' p' k') u') /\
    access (Thread p (lc_nxt C) u) = Some (l, b) /\ access (Thread p' (lc_nxt C) u') = Some (l, b') /\ (b = true \/ b' = true).
(** A goroutine that has the lock can go on: it can make its next access, or is at the end
    and gives the lock back. A block that it is about to allocate is not in use. *)
Definition goes_on (C : lconfig) (p : prog V CK U A) (u : U) : Prop :=
  ((∃ a, p = PRet a) \/ is_Some (next (lc_mem C) (Thread p (lc_nxt C) u))) /\
  match p with PAlloc _ _ => lc_mem C !! lc_nxt C = None | _ => True end.

(** The same goroutines one after the other: whoever comes next does all that it does
    behind the lock before anyone else. [sem x w a w']: x returns a from w, in w'. *)
Variable sem : X -> world V CK U -> A -> world V CK U -> Prop.
Inductive turns (w0 : world V CK U) (gs0 : list (gor * U)) : list (nat * A) -> gmap loc (block V CK) -> loc -> list (gor * U) -> Prop :=
  | turns_nil : turns w0 gs0 [] (w_mem w0) (w_nxt w0) gs0
  | turns_one log m n gs i e x k u a w' : turns w0 gs0 log m n gs -> gs !! i = Some (Sec e x k, u) ->
      sem x (World m n u) a w' ->
      turns w0 gs0 ((i, a) :: log) (w_mem w') (w_nxt w') (<[i := (k a, w_usr w')]> gs).
End machine.
Global Arguments status : clear implicits.
Global Arguments gr : clear implicits.
Global Arguments lconfig : clear implicits.

(** ** Maps *)
Section maps.
Context `{Countable K} {V CK U : Type}.
Local Notation mstate := (mstate K V U).
Local Notation history := (list (mop K V U * mres V)).
Variables (dig : N -> K -> nat -> N) (zero : V).

(** What has been done behind the lock, to plain finite maps: one section after the other,
    each goroutine with its own state (us). *)
Inductive lspec (σ0 : mstate) (us0 : list U) : list (nat * history) -> list U -> mstate -> Prop :=
  | lspec_nil : lspec σ0 us0 [] us0 σ0
  | lspec_one log us σ i u new σ' : lspec σ0 us0 log us σ -> us !! i = Some u ->
      msteps dig zero (MState (ms_map σ) (ms_val σ) u) new σ' ->
      lspec σ0 us0 ((i, new) :: log) (<[i := ms_usr σ']> us) σ'.

Variables (papi : pmapapi K V CK U) (api : mapapi K V CK U) (ok : history -> mop K V U -> Prop).
(** The program of a section, which returns the calls that it has made (latest first). *)
Definition msec (c : client K V U) : prog V CK U history := accesses papi c [].
(** All calls of the section are allowed, and with RLock all of them only read. *)
Fixpoint lfine (e : bool) (c : client K V U) (tr : history) (w : world V CK U) : Prop :=
  match c with
  | Stop => True
  | Do c k => ok tr (the_op c) /\ (e = false -> looks c) /\
      ∀ r w', mcall api (the_op c) w = Ret r w' -> lfine e (k r) ((the_op c, r) :: tr) w'
  end.
(** The calls of the log after the history tr. *)
Definition calls (log : list (nat * history)) (tr : history) : history := concat (map snd log) ++ tr.
Definition mturns := turns (λ c w new w', solo api c [] w new w').
(** The goroutines gs, one after the other, only make such calls. *)
Definition guarded (tr : history) (w : world V CK U) (gs : list (gor (client K V U) history * U)) : Prop :=
  ∀ log m n gs', mturns w gs log m n gs' ->
  ∀ i e c k u, gs' !! i = Some (Sec e c k, u) -> lfine e c (calls log tr) (World m n u).
End maps.

(** ** Sets *)
Section sets.
Context `{Countable K} {CK U : Type}.
Local Notation sstate := (sstate K U).
Local Notation history := (list (sop K U * sres)).
Variable dig : N -> K -> nat -> N.
Inductive slspec (σ0 : sstate) (us0 : list U) : list (nat * history) -> list U -> sstate -> Prop :=
  | slspec_nil : slspec σ0 us0 [] us0 σ0
  | slspec_one log us σ i u new σ' : slspec σ0 us0 log us σ -> us !! i = Some u ->
      ssteps dig (SState (ss_set σ) u) new σ' ->
      slspec σ0 us0 ((i, new) :: log) (<[i := ss_usr σ']> us) σ'.
Variables (papi : psetapi K unit CK U) (api : setapi K unit CK U) (ok : history -> sop K U -> Prop).
Definition ssec (c : sclient K U) : prog unit CK U history := saccesses papi c [].
Fixpoint slfine (e : bool) (c : sclient K U) (tr : history) (w : world unit CK U) : Prop :=
  match c with
  | SStop => True
  | SDo op k => ok tr op /\ (e = false -> slooks op) /\
      ∀ r w', scall api op w = Ret r w' -> slfine e (k r) ((op, r) :: tr) w'
  end.
Definition scalls (log : list (nat * history)) (tr : history) : history := concat (map snd log) ++ tr.
Definition sturns := turns (λ c w new w', ssolo api c [] w new w').
Definition sguarded (tr : history) (w : world unit CK U) (gs : list (gor (sclient K U) history * U)) : Prop :=
  ∀ log m n gs', sturns w gs log m n gs' ->
  ∀ i e c k u, gs' !! i = Some (Sec e c k, u) -> slfine e c (scalls log tr) (World m n u).
End sets.
