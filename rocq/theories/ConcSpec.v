(** Goroutines: programs (Prog.v) that share the memory and are interleaved access by
    access. *)
From stdpp Require Import base numbers list gmap relations.
From Verif Require Import GoInt Mem Prog.
Local Open Scope nat_scope.

Section machine.
Context {V CK U A : Type}.
Local Notation block := (block V CK).
Local Notation prog := (prog V CK U).

(** A goroutine: the rest of its program, the name of the next block that it allocates,
    and its own state. *)
Record thread : Type := Thread { th_prog : prog A; th_nxt : loc; th_usr : U }.
(** The memory and the goroutines. *)
Record config : Type := Config { c_mem : gmap loc block; c_thr : list thread }.

(** The next access of a goroutine. *)
Definition next (m : gmap loc block) (t : thread) : option (gmap loc block * thread) :=
  let 'Thread p n u := t in
  match p with
  | PRead l k => match m !! l with Some b => Some (m, Thread (k b) n u) | None => None end
  | PWrite l b k => match m !! l with Some _ => Some (<[l := b]> m, Thread k n u) | None => None end
  | PAlloc b k => Some (<[n := b]> m, Thread (k n) (xO n) u)
  | PGet k => Some (m, Thread (k u) n u)
  | PPut u' k => Some (m, Thread k n u')
  | PRet _ | PPanic | PFault | PHang => None
  end.

(** One goroutine makes its next access. *)
Inductive step (C : config) : config -> Prop :=
  | Step i t m' t' : c_thr C !! i = Some t -> next (c_mem C) t = Some (m', t') ->
      step C (Config m' (<[i := t']> (c_thr C))).

(** The block that a goroutine accesses next, and whether it writes. *)
Definition access (t : thread) : option (loc * bool) :=
  match th_prog t with
  | PRead l _ => Some (l, false)
  | PWrite l _ _ => Some (l, true)
  | PAlloc _ _ => Some (th_nxt t, true)
  | _ => None
  end.
(** A data race: two goroutines are about to access the same block, and one of them
    writes. *)
Definition race (C : config) : Prop :=
  ∃ i j t t' l b b', i ≠ j /\ c_thr C !! i = Some t /\ c_thr C !! j = Some t' /\
    access t = Some (l, b) /\ access t' = Some (l, b') /\ (b = true \/ b' = true).
(** A goroutine has returned, or makes its next access. Otherwise it has panicked, done
    something undefined or is in an endless loop. *)
Definition returned (t : thread) (a : A) : Prop := th_prog t = PRet a.
Definition runs (C : config) (t : thread) : Prop := is_Some (next (c_mem C) t).
(** The memory that a goroutine is about to allocate is not in use. *)
Definition fresh (C : config) (t : thread) : Prop :=
  match th_prog t with PAlloc _ _ => c_mem C !! th_nxt t = None | _ => True end.
End machine.
Global Arguments thread : clear implicits.
Global Arguments config : clear implicits.

(** The names that a goroutine uses that starts at a. *)
Definition names (a : loc) (l : loc) : Prop := ∃ n, l = Nat.iter n xO a.
(** Goroutines that start at different names, none of them used before, and never use
    the same one. *)
Definition spread (nxt : loc) (starts : list loc) : Prop :=
  (∀ a, a ∈ starts -> (nxt <= a)%positive) /\
  ∀ i j a b l, starts !! i = Some a -> starts !! j = Some b -> names a l -> names b l -> i = j.
