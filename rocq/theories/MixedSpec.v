(** Programs that use containers of several types at once, with callbacks that
    use containers of any type. How such programs run on the model of the code,
    and a calculus for them in which maps and sets are plain finite ones. *)
From stdpp Require Import base numbers list gmap.
From Verif Require Import GoInt Mem Spec Client Nested.
Local Open Scope nat_scope.

(** Change one component of a family. *)
Definition upd {I : Type} `{EqDecision I} {T : I -> Type} (f : ∀ i, T i) (i : I) (x : T i) : ∀ j, T j := λ j,
  match decide (i = j) with
  | left e => eq_rect i T x j e
  | right _ => f j
  end.

(** The calls without callbacks; all but Mod and All. *)
Inductive mcmd (K V : Type) : Type :=
  | CNew (seed : N)
  | CSet (h : positive) (k : K) (v : V)
  | CDel (h : positive) (k : K)
  | CGet (h : positive) (k : K)
  | CVal (h : positive) (k : K)
  | CPtr (h : positive) (k : K)
  | CLen (h : positive)
  | CDep (h : positive)
  | CLoad (p : positive)
  | CStore (p : positive) (v : V).
Global Arguments CNew {K V} seed.
Global Arguments CSet {K V} h k v.
Global Arguments CDel {K V} h k.
Global Arguments CGet {K V} h k.
Global Arguments CVal {K V} h k.
Global Arguments CPtr {K V} h k.
Global Arguments CLen {K V} h.
Global Arguments CDep {K V} h.
Global Arguments CLoad {K V} p.
Global Arguments CStore {K V} p v.
Definition mop_of {K V U : Type} (c : mcmd K V) : mop K V U :=
  match c with
  | CNew s => MNew s
  | CSet h k v => MSet h k v
  | CDel h k => MDel h k
  | CGet h k => MGet h k
  | CVal h k => MVal h k
  | CPtr h k => MPtr h k
  | CLen h => MLen h
  | CDep h => MDep h
  | CLoad p => MLoad p
  | CStore p v => MStore p v
  end.
Inductive scmd (K : Type) : Type :=
  | DNew (seed : N)
  | DAdd (h : positive) (k : K)
  | DDel (h : positive) (k : K)
  | DHas (h : positive) (k : K)
  | DLen (h : positive)
  | DDep (h : positive).
Global Arguments DNew {K} seed.
Global Arguments DAdd {K} h k.
Global Arguments DDel {K} h k.
Global Arguments DHas {K} h k.
Global Arguments DLen {K} h.
Global Arguments DDep {K} h.
Definition sop_of {K U : Type} (c : scmd K) : sop K U :=
  match c with
  | DNew s => SNew s
  | DAdd h k => SAdd h k
  | DDel h k => SDel h k
  | DHas h k => SHas h k
  | DLen h => SLen h
  | DDep h => SDep h
  end.

Section mixed.
(** I are the map types in use, with keys K and values V; J the set types in
    use, with keys SK. U is the type of the user's own variables. *)
Context {I J : Type} `{EqDecision I, EqDecision J} {K V : I -> Type} {SK : J -> Type} {U : Type}.
Context `{∀ i, EqDecision (K i)} `{∀ i, Countable (K i)} `{∀ j, EqDecision (SK j)} `{∀ j, Countable (SK j)}.
Implicit Types (h a : positive).

(** A program makes calls and goes on with their results, reads and changes the
    user's own variables, panics, runs a program and recovers from its panic,
    or calls Mod or All with a callback that is a program. *)
Inductive xprog : Type -> Type :=
  | XDone {A} (x : A) : xprog A
  | XThrow {A} : xprog A
  | XOwn {A} (f : U -> U) (c : U -> xprog A) : xprog A
  | XTry {A} (p : xprog unit) (c : bool -> xprog A) : xprog A
  | XMap {A} i (op : mcmd (K i) (V i)) (c : mres (V i) -> xprog A) : xprog A
  | XMod {A} i h (k : K i) (f : positive -> bool -> xprog unit) (c : xprog A) : xprog A
  | XRange {A} i h (f : K i -> positive -> xprog bool) (c : xprog A) : xprog A
  | XSet {A} j (op : scmd (SK j)) (c : sres -> xprog A) : xprog A
  | XEach {A} j h (f : SK j -> xprog bool) (c : xprog A) : xprog A.

(** ** Running a program on the model of the code

    Containers of different types share no memory, so each type gets a memory
    of its own. While a method of one type runs, everything else is to it the
    user's state, which it does not touch but its callbacks may. *)
Section run.
Context {CK : I -> Type} {SCK : J -> Type}.
Record joint : Type := Joint {
  j_map : ∀ i, gmap loc (block (V i) (CK i)) * loc;
  j_set : ∀ j, gmap loc (block unit (SCK j)) * loc;
  j_usr : U }.
Inductive jout (A : Type) : Type := JRet (x : A) (s : joint) | JPanic (s : joint) | JFault | JHang.
Arguments JRet {A} x s.
Arguments JPanic {A} s.
Arguments JFault {A}.
Arguments JHang {A}.
Definition JM (A : Type) : Type := joint -> jout A.
Definition jbind {A B} (m : JM A) (f : A -> JM B) : JM B := λ s,
  match m s with
  | JRet x s => f x s
  | JPanic s => JPanic s
  | JFault => JFault
  | JHang => JHang
  end.
Definition jtry {A} (p : JM unit) (c : bool -> JM A) : JM A := λ s,
  match p s with
  | JRet _ s => c false s
  | JPanic s => c true s
  | JFault => JFault
  | JHang => JHang
  end.

(** The memory of one type, as a world of the model, and back. *)
Definition put_mem s i (b : gmap loc (block (V i) (CK i)) * loc) : joint := Joint (upd (j_map s) i b) (j_set s) (j_usr s).
Definition put_smem s j (b : gmap loc (block unit (SCK j)) * loc) : joint := Joint (j_map s) (upd (j_set s) j b) (j_usr s).
Definition split_map i (s : joint) : world (V i) (CK i) joint := World (j_map s i).1 (j_map s i).2 s.
Definition join_map i (w : world (V i) (CK i) joint) : joint := put_mem (w_usr w) i (w_mem w, w_nxt w).
Definition split_set j (s : joint) : world unit (SCK j) joint := World (j_set s j).1 (j_set s j).2 s.
Definition join_set j (w : world unit (SCK j) joint) : joint := put_smem (w_usr w) j (w_mem w, w_nxt w).
(** Run a method of one type; run a callback of a method of one type. *)
Definition with_map i {A} (m : M (V i) (CK i) joint A) : JM A := λ s,
  match m (split_map i s) with
  | Ret x w => JRet x (join_map i w)
  | Panic w => JPanic (join_map i w)
  | Fault => JFault
  | Hang => JHang
  end.
Definition for_map i {A} (p : JM A) : M (V i) (CK i) joint A := λ w,
  match p (join_map i w) with
  | JRet x s => Ret x (split_map i s)
  | JPanic s => Panic (split_map i s)
  | JFault => Fault
  | JHang => Hang
  end.
Definition with_set j {A} (m : M unit (SCK j) joint A) : JM A := λ s,
  match m (split_set j s) with
  | Ret x w => JRet x (join_set j w)
  | Panic w => JPanic (join_set j w)
  | Fault => JFault
  | Hang => JHang
  end.
Definition for_set j {A} (p : JM A) : M unit (SCK j) joint A := λ w,
  match p (join_set j w) with
  | JRet x s => Ret x (split_set j s)
  | JPanic s => Panic (split_set j s)
  | JFault => Fault
  | JHang => Hang
  end.

Context (mapi : ∀ i, mapapi (K i) (V i) (CK i) joint) (sapi : ∀ j, setapi (SK j) unit (SCK j) joint).
Fixpoint xexec {A} (p : xprog A) : JM A :=
  match p with
  | XDone x => JRet x
  | XThrow => JPanic
  | XOwn f c => λ s, xexec (c (j_usr s)) (Joint (j_map s) (j_set s) (f (j_usr s)))
  | XTry p c => jtry (xexec p) (λ b, xexec (c b))
  | XMap i op c => jbind (with_map i (mcall (mapi i) (mop_of op))) (λ r, xexec (c r))
  | XMod i h k f c =>
      jbind (with_map i (ma_Mod (mapi i) (Some h) k
        (λ q b, match q with At a => for_map i (xexec (f a b)) | Nil => panic end)))
      (λ _, xexec c)
  | XRange i h f c =>
      jbind (with_map i (ma_All (mapi i) (Some h)
        (λ k q, match q with At a => for_map i (xexec (f k a)) | Nil => panic end)))
      (λ _, xexec c)
  | XSet j op c => jbind (with_set j (scall (sapi j) (sop_of op))) (λ r, xexec (c r))
  | XEach j h f c =>
      jbind (with_set j (sa_All (sapi j) (Some h) (λ k, for_set j (xexec (f k))))) (λ _, xexec c)
  end.
(** Where programs start. *)
Definition joint0 (u : U) : joint := Joint (λ _, (∅, xH)) (λ _, (∅, xH)) u.
End run.

(** ** The calculus

    As [wp] and [swp] of Nested.v, with a state and marks for each type. *)
Record xstate : Type := XState {
  x_map : ∀ i, mstate (K i) (V i) unit;
  x_set : ∀ j, sstate (SK j) unit;
  x_usr : U }.
Record xmark : Type := XMark { g_map : I -> mark; g_set : J -> gset positive }.
Implicit Types (σ : xstate) (g : xmark).
Definition put_map σ i (x : mstate (K i) (V i) unit) : xstate := XState (upd (x_map σ) i x) (x_set σ) (x_usr σ).
Definition put_set σ j (x : sstate (SK j) unit) : xstate := XState (x_map σ) (upd (x_set σ) j x) (x_usr σ).
Definition mark_map g i (m : mark) : xmark := XMark (upd (T:=λ _, mark) (g_map g) i m) (g_set g).
Definition mark_set g j (R : gset positive) : xmark := XMark (g_map g) (upd (T:=λ _, gset positive) (g_set g) j R).
Definition xinit (u : U) : xstate := XState (λ _, minit tt) (λ _, sinit tt) u.
Definition xnone : xmark := XMark (λ _, Mark ∅ ∅) (λ _, ∅).

Context (dig : ∀ i, N -> K i -> nat -> N) (zero : ∀ i, V i) (P : ∀ i, K i -> Prop) (Q : I -> N -> Prop)
  (fitS fitM : ∀ i, N -> list (K i) -> K i -> Prop).
Context (sdig : ∀ j, N -> SK j -> nat -> N) (SP : ∀ j, SK j -> Prop) (SQ : J -> N -> Prop)
  (fit : ∀ j, N -> list (SK j) -> SK j -> Prop) (dl : J -> bool).

Definition xpost (A : Type) : Type := A -> xmark -> xstate -> Prop.
(** The calls of the callback of All, which may tell to go on only where
    still holds. *)
Fixpoint xwp_each {E : Type} (still : xmark -> Prop) (run : E -> xpost bool -> xmark -> xstate -> Prop)
    (fin : xmark -> xstate -> Prop) (es : list E) g σ : Prop :=
  match es with
  | [] => fin g σ
  | e :: es => run e (λ go g' σ', if go then still g' /\ xwp_each still run fin es g' σ' else fin g' σ') g σ
  end.

Fixpoint xwp {A} (p : xprog A) (lk : I -> gset positive) : xpost A -> (xmark -> xstate -> Prop) -> xmark -> xstate -> Prop :=
  match p in xprog A return xpost A -> (xmark -> xstate -> Prop) -> xmark -> xstate -> Prop with
  | XDone x => λ Φ Ψ g σ, Φ x g σ
  | XThrow => λ Φ Ψ g σ, Ψ g σ
  | XOwn f c => λ Φ Ψ g σ, xwp (c (x_usr σ)) lk Φ Ψ g (XState (x_map σ) (x_set σ) (f (x_usr σ)))
  | XTry p c => λ Φ Ψ g σ, xwp p lk (λ _, xwp (c false) lk Φ Ψ) (xwp (c true) lk Φ Ψ) g σ
  | XMap i op c => λ Φ Ψ g σ,
      may (P i) (Q i) (fitS i) (fitM i) (x_map σ i) (mop_of op) /\
      (∀ h, uses (U:=unit) (mop_of op) h -> h ∉ mk_away (g_map g i)) /\
      (∀ h, rebuilds (x_map σ i) (mop_of op) h -> h ∉ lk i) /\
      ∀ r x, mstep (dig i) (zero i) (x_map σ i) (mop_of op) r x ->
        xwp (c r) lk Φ Ψ (mark_map g i (note (g_map g i) (rekeyed (x_map σ i) (mop_of op)))) (put_map σ i x)
  | XMod i h k f c => λ Φ Ψ g σ,
      P i k /\ h ∉ mk_away (g_map g i) /\ ∃ s m, ms_map (x_map σ i) !! h = Some (s, m) /\
      match m !! k with
      | Some a => xwp (f a true) lk (λ _, xwp c lk Φ Ψ) Ψ g σ
      | None =>
          h ∉ lk i /\ fitM i s (map_to_list m).*1 k /\
          ∀ a, ms_val (x_map σ i) !! a = None ->
            let σ1 := put_map σ i (MState (ms_map (x_map σ i)) (<[a := zero i]> (ms_val (x_map σ i))) tt) in
            let add g' σ' :=
              xwp c lk Φ Ψ (mark_map g' i (back (g_map g' i) h))
                (put_map σ' i (MState (<[h := (s, <[k := a]> m)]> (ms_map (x_map σ' i))) (ms_val (x_map σ' i)) tt)) in
            xwp (f a false) lk (λ _, add) Ψ (mark_map g i (lose (g_map g i) h)) σ1 \/
            (∀ k', ¬ in_way (dig i) s (map_to_list m).*1 k k') /\
              xwp (f a false) (upd (T:=λ _, gset positive) lk i (lk i ∪ {[h]})) (λ _, add) Ψ g σ1
      end
  | XRange i h f c => λ Φ Ψ g σ,
      h ∉ mk_away (g_map g i) /\ ∃ s m, ms_map (x_map σ i) !! h = Some (s, m) /\
      let after g' := mark_map g' i (note (g_map g' i) (mk_rekeyed (g_map g i))) in
      ∀ es, es ≡ₚ map_to_list m -> in_order (dig i) s es.*1 ->
        xwp_each (λ g', h ∉ mk_rekeyed (g_map g' i))
          (λ e Φ', xwp (f e.1 e.2) lk Φ' (λ g' σ', Ψ (after g') σ'))
          (λ g' σ', xwp c lk Φ Ψ (after g') σ') es (mark_map g i (start (g_map g i) h)) σ
  | XSet j op c => λ Φ Ψ g σ,
      smay (SP j) (SQ j) (fit j) (dl j) (x_set σ j) (sop_of op) /\
      ∀ r x, sstep (sdig j) (x_set σ j) (sop_of op) r x ->
        xwp (c r) lk Φ Ψ (mark_set g j (g_set g j ∪ srekeyed (x_set σ j) (sop_of op))) (put_set σ j x)
  | XEach j h f c => λ Φ Ψ g σ,
      ∃ s X, ss_set (x_set σ j) !! h = Some (s, X) /\
      let after g' := mark_set g' j (g_set g' j ∪ g_set g j) in
      ∀ ks, ks ≡ₚ elements X -> in_order (sdig j) s ks ->
        xwp_each (λ g', h ∉ g_set g' j)
          (λ k Φ', xwp (f k) lk Φ' (λ g' σ', Ψ (after g') σ'))
          (λ g' σ', xwp c lk Φ Ψ (after g') σ') ks (mark_set g j (g_set g j ∖ {[h]})) σ
  end.
End mixed.
Global Arguments xprog {I J} K V SK U A.
Global Arguments joint {I J} V U CK SCK.
Global Arguments jout {I J} V U CK SCK A.
Global Arguments JM {I J} V U CK SCK A.
Global Arguments JRet {I J V U CK SCK A} x s.
Global Arguments JPanic {I J V U CK SCK A} s.
Global Arguments JFault {I J V U CK SCK A}.
Global Arguments JHang {I J V U CK SCK A}.
Global Arguments xstate {I J} K V SK U {_ _ _ _}.
Global Arguments xmark I J : clear implicits.
