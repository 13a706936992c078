(** What a user expects of the containers, stated without reference to the trie
    or to any function of the model. *)
From Coq Require Import SpecFloat Sorted.
From stdpp Require Import base numbers list gmap fin_maps.
Local Open Scope nat_scope.

(** ** Hash digits *)

(** n copies of a byte sequence. *)
Fixpoint copies (n : nat) (b : list N) : list N :=
  match n with O => [] | S n => b ++ copies n b end.

(** The d-th 4-bit hash digit of a byte sequence: digit d mod 16 (the lowest
    one first) of the hash of d/16 + 1 copies. *)
Definition digit (sum64 : N -> list N -> N) (seed : N) (b : list N) (d : nat) : N :=
  (N.shiftr (sum64 seed (copies (S (d / 16)) b)) (4 * N.of_nat (d mod 16)) mod 16)%N.

(** The same for a key type with its own Hash method: digit d mod 16 of the
    hash with iter = d/16. *)
Definition gdigit {K} (Hash : K -> N -> N -> N) (seed : N) (k : K) (d : nat) : N :=
  (N.shiftr (Hash k seed (N.of_nat (d / 16))) (4 * N.of_nat (d mod 16)) mod 16)%N.

(** Two keys have different digits among the digits 0..n. *)
Definition separated (n : nat) (x y : nat -> N) : Prop := ∃ d, d <= n /\ x d ≠ y d.

(** The number of leading digits that x and y share, counting up to n. *)
Fixpoint common (n : nat) (x y : nat -> N) : nat :=
  match n with
  | O => 0
  | S n => if (x 0%nat =? y 0%nat)%N then S (common n (λ i, x (S i)) (λ i, y (S i))) else 0
  end.

(** The digits of x are smaller than those of y at the first difference. *)
Definition digits_lt (x y : nat -> N) : Prop :=
  ∃ d, (∀ i, i < d -> x i = y i) /\ (x d < y d)%N.

Section spec.
Context `{EqDecision K, Countable K}.

(** The digits of a key in a container with a given seed. *)
Variable dig : N -> K -> nat -> N.

(** The depth of a key among the keys ks: the number of digits shared with the
    nearest other key. *)
Definition depth (s : N) (ks : list K) (k : K) : nat :=
  foldr max 0 (map (λ k', if decide (k' = k) then 0 else common 241 (dig s k) (dig s k')) ks).
Definition total_depth (s : N) (ks : list K) : nat := sum_list (map (depth s ks) ks).

(** The quotient of two uint64 numbers as float64, 0 when the second is 0. *)
Definition mean (total n : N) : spec_float :=
  if (n mod 2 ^ 64 =? 0)%N then S754_zero false
  else SFdiv 53 1024 (binary_normalize 53 1024 (Z.of_N (total mod 2 ^ 64)) 0 false)
                     (binary_normalize 53 1024 (Z.of_N (n mod 2 ^ 64)) 0 false).

(** The order in which keys are visited. *)
Definition in_order (s : N) (ks : list K) : Prop :=
  StronglySorted (λ k k', digits_lt (dig s k) (dig s k')) ks.

(** Among the stored keys ks, k' is in the way of k: k shares more leading digits
    with k' than any other stored key does. An insertion of k then has to make
    room for both. *)
Definition in_way (s : N) (ks : list K) (k k' : K) : Prop :=
  k' ∈ ks /\ k' ≠ k /\ depth s ks k' < common 241 (dig s k) (dig s k').

(** Every key in the way of k differs from k in one of the digits 0..240, and W
    holds for it; the last argument of W is its depth. *)
Definition free (W : N -> K -> K -> nat -> Prop) (s : N) (ks : list K) (k : K) : Prop :=
  ∀ k', in_way s ks k k' -> separated 240 (dig s k) (dig s k') /\ W s k k' (depth s ks k').

(** ** Maps *)
Section maps.
Context {V U : Type}.
Variable zero : V.

(** The user's calls. Handles and pointers are addresses; a copy of a map value
    is the same handle. f is the user's callback: it reads and updates the
    user's own state (type U) and the value it is given. *)
Inductive mop : Type :=
  | MNew (seed : N)
  | MSet (h : positive) (k : K) (v : V)
  | MMod (h : positive) (k : K) (f : U -> V -> bool -> U * V)
  | MDel (h : positive) (k : K)
  | MGet (h : positive) (k : K)
  | MVal (h : positive) (k : K)
  | MPtr (h : positive) (k : K)
  | MLen (h : positive)
  | MDep (h : positive)
  | MAll (h : positive) (f : U -> K -> V -> U * V * bool)
  | MLoad (p : positive)
  | MStore (p : positive) (v : V).

Inductive mres : Type :=
  | RUnit
  | RHandle (h : positive)
  | RGet (v : V) (b : bool)
  | RVal (v : V)
  | RPtr (p : option positive)
  | RLen (n : N)
  | RDep (x : spec_float).

(** The state of a user's program: for each map its seed and, for each stored
    key, the address of its value; the values at all addresses handed out so
    far; the user's own state. *)
Record mstate : Type := MState {
  ms_map : gmap positive (N * gmap K positive);
  ms_val : gmap positive V;
  ms_usr : U }.
Definition minit (u : U) : mstate := MState ∅ ∅ u.

(** Storing v under k in map h: in place if k is stored, otherwise at an
    address never used for a value before. *)
Definition put (σ : mstate) (h : positive) (k : K) (v : V) (u : U) (σ' : mstate) : Prop :=
  ∃ s m, ms_map σ !! h = Some (s, m) /\
  match m !! k with
  | Some p => σ' = MState (ms_map σ) (<[p := v]> (ms_val σ)) u
  | None => ∃ p, ms_val σ !! p = None /\
      σ' = MState (<[h := (s, <[k := p]> m)]> (ms_map σ)) (<[p := v]> (ms_val σ)) u
  end.

(** The value stored under k. *)
Definition value (σ : mstate) (h : positive) (k : K) : option V :=
  '(_, m) ← ms_map σ !! h; p ← m !! k; ms_val σ !! p.

(** The calls of an iteration over the entries es. *)
Fixpoint each (f : U -> K -> V -> U * V * bool) (es : list (K * positive))
    (u : U) (vals : gmap positive V) : U * gmap positive V :=
  match es with
  | [] => (u, vals)
  | (k, p) :: es =>
      match vals !! p with
      | None => (u, vals)
      | Some v =>
          let '(u, v, b) := f u k v in
          if (b : bool) then each f es u (<[p := v]> vals) else (u, <[p := v]> vals)
      end
  end.

(** What each call returns and does. *)
Definition mstep (σ : mstate) (op : mop) (res : mres) (σ' : mstate) : Prop :=
  match op with
  | MNew s => ∃ h, res = RHandle h /\ ms_map σ !! h = None /\
      σ' = MState (<[h := (s, ∅)]> (ms_map σ)) (ms_val σ) (ms_usr σ)
  | MSet h k v => res = RUnit /\ put σ h k v (ms_usr σ) σ'
  | MMod h k f => res = RUnit /\
      let '(u, v) := f (ms_usr σ) (default zero (value σ h k)) (bool_decide (is_Some (value σ h k))) in
      put σ h k v u σ'
  | MDel h k => res = RUnit /\ ∃ s m, ms_map σ !! h = Some (s, m) /\
      σ' = MState (<[h := (s, delete k m)]> (ms_map σ)) (ms_val σ) (ms_usr σ)
  | MGet h k => σ' = σ /\ is_Some (ms_map σ !! h) /\
      res = RGet (default zero (value σ h k)) (bool_decide (is_Some (value σ h k)))
  | MVal h k => σ' = σ /\ is_Some (ms_map σ !! h) /\ res = RVal (default zero (value σ h k))
  | MPtr h k => σ' = σ /\ ∃ s m, ms_map σ !! h = Some (s, m) /\ res = RPtr (m !! k)
  | MLen h => σ' = σ /\ ∃ s m, ms_map σ !! h = Some (s, m) /\
      res = RLen (N.of_nat (size m) mod 2 ^ 64)
  | MDep h => σ' = σ /\ ∃ s m, ms_map σ !! h = Some (s, m) /\
      res = RDep (mean (N.of_nat (total_depth s (map_to_list m).*1)) (N.of_nat (size m)))
  | MAll h f => res = RUnit /\ ∃ s m es, ms_map σ !! h = Some (s, m) /\
      es ≡ₚ map_to_list m /\ in_order s es.*1 /\
      σ' = MState (ms_map σ) (each f es (ms_usr σ) (ms_val σ)).2 (each f es (ms_usr σ) (ms_val σ)).1
  | MLoad p => σ' = σ /\ ∃ v, ms_val σ !! p = Some v /\ res = RVal v
  | MStore p v => res = RUnit /\ is_Some (ms_val σ !! p) /\
      σ' = MState (ms_map σ) (<[p := v]> (ms_val σ)) (ms_usr σ)
  end.

(** A history (latest call first) that a plain finite map could produce. *)
Inductive mspec (u0 : U) : list (mop * mres) -> mstate -> Prop :=
  | mspec_nil : mspec u0 [] (minit u0)
  | mspec_cons tr σ op res σ' : mspec u0 tr σ -> mstep σ op res σ' -> mspec u0 ((op, res) :: tr) σ'.

(** The calls that only read. *)
Definition reads (op : mop) : Prop :=
  match op with MGet _ _ | MVal _ _ | MPtr _ _ | MLen _ | MDep _ | MLoad _ => True | _ => False end.

(** The calls a user may make after a history: handles come from New, pointers
    from Ptr, keys and seeds satisfy P and Q. *)
Definition mallowed (P : K -> Prop) (Q : N -> Prop) (tr : list (mop * mres)) (op : mop) : Prop :=
  let live h := ∃ s, (MNew s, RHandle h) ∈ tr in
  let addr p := ∃ h k, (MPtr h k, RPtr (Some p)) ∈ tr in
  match op with
  | MNew s => Q s
  | MSet h k _ | MMod h k _ | MDel h k | MGet h k | MVal h k | MPtr h k => live h /\ P k
  | MLen h | MDep h | MAll h _ => live h
  | MLoad p | MStore p _ => addr p
  end.

(** The keys stored in h after a history: those for which the last Set, Mod or
    Del was not a Del. *)
Fixpoint stored (tr : list (mop * mres)) (h : positive) : gset K :=
  match tr with
  | [] => ∅
  | (op, _) :: tr =>
      match op with
      | MSet h' k _ | MMod h' k _ => if Pos.eqb h' h then {[k]} ∪ stored tr h else stored tr h
      | MDel h' k => if Pos.eqb h' h then stored tr h ∖ {[k]} else stored tr h
      | _ => stored tr h
      end
  end.

(** The condition on a Set (WS) or Mod (WM) of a key that is not stored. *)
Definition ins_guard (WS WM : N -> K -> K -> nat -> Prop) (tr : list (mop * mres)) (op : mop) : Prop :=
  let fine W h k := k ∈ stored tr h \/
    ∀ s, (MNew s, RHandle h) ∈ tr -> free W s (elements (stored tr h)) k in
  match op with
  | MSet h k _ => fine WS h k
  | MMod h k _ => fine WM h k
  | _ => True
  end.
End maps.

(** ** Sets *)
Section sets.
Context {U : Type}.
Inductive sop : Type :=
  | SNew (seed : N)
  | SAdd (h : positive) (k : K)
  | SDel (h : positive) (k : K)
  | SHas (h : positive) (k : K)
  | SLen (h : positive)
  | SDep (h : positive)
  | SAll (h : positive) (f : U -> K -> U * bool).
Inductive sres : Type :=
  | TUnit
  | THandle (h : positive)
  | THas (b : bool)
  | TLen (n : N)
  | TDep (x : spec_float).

Record sstate : Type := SState {
  ss_set : gmap positive (N * gset K);
  ss_usr : U }.
Definition sinit (u : U) : sstate := SState ∅ u.

Fixpoint seach (f : U -> K -> U * bool) (ks : list K) (u : U) : U :=
  match ks with
  | [] => u
  | k :: ks => let '(u, b) := f u k in if (b : bool) then seach f ks u else u
  end.

Definition sstep (σ : sstate) (op : sop) (res : sres) (σ' : sstate) : Prop :=
  match op with
  | SNew s => ∃ h, res = THandle h /\ ss_set σ !! h = None /\
      σ' = SState (<[h := (s, ∅)]> (ss_set σ)) (ss_usr σ)
  | SAdd h k => res = TUnit /\ ∃ s X, ss_set σ !! h = Some (s, X) /\
      σ' = SState (<[h := (s, {[k]} ∪ X)]> (ss_set σ)) (ss_usr σ)
  | SDel h k => res = TUnit /\ ∃ s X, ss_set σ !! h = Some (s, X) /\
      σ' = SState (<[h := (s, X ∖ {[k]})]> (ss_set σ)) (ss_usr σ)
  | SHas h k => σ' = σ /\ ∃ s X, ss_set σ !! h = Some (s, X) /\ res = THas (bool_decide (k ∈ X))
  | SLen h => σ' = σ /\ ∃ s X, ss_set σ !! h = Some (s, X) /\ res = TLen (N.of_nat (size X) mod 2 ^ 64)
  | SDep h => σ' = σ /\ ∃ s X, ss_set σ !! h = Some (s, X) /\
      res = TDep (mean (N.of_nat (total_depth s (elements X))) (N.of_nat (size X)))
  | SAll h f => res = TUnit /\ ∃ s X ks, ss_set σ !! h = Some (s, X) /\
      ks ≡ₚ elements X /\ in_order s ks /\ σ' = SState (ss_set σ) (seach f ks (ss_usr σ))
  end.

Definition sreads (op : sop) : Prop :=
  match op with SHas _ _ | SLen _ | SDep _ => True | _ => False end.

Inductive sspec (u0 : U) : list (sop * sres) -> sstate -> Prop :=
  | sspec_nil : sspec u0 [] (sinit u0)
  | sspec_cons tr σ op res σ' : sspec u0 tr σ -> sstep σ op res σ' -> sspec u0 ((op, res) :: tr) σ'.

Definition sallowed (P : K -> Prop) (Q : N -> Prop) (tr : list (sop * sres)) (op : sop) : Prop :=
  let live h := ∃ s, (SNew s, THandle h) ∈ tr in
  match op with
  | SNew s => Q s
  | SAdd h k | SDel h k | SHas h k => live h /\ P k
  | SLen h | SDep h | SAll h _ => live h
  end.

Fixpoint sstored (tr : list (sop * sres)) (h : positive) : gset K :=
  match tr with
  | [] => ∅
  | (op, _) :: tr =>
      match op with
      | SAdd h' k => if Pos.eqb h' h then {[k]} ∪ sstored tr h else sstored tr h
      | SDel h' k => if Pos.eqb h' h then sstored tr h ∖ {[k]} else sstored tr h
      | _ => sstored tr h
      end
  end.

Definition add_guard (W : N -> K -> K -> nat -> Prop) (tr : list (sop * sres)) (op : sop) : Prop :=
  match op with
  | SAdd h k => k ∈ sstored tr h \/ ∀ s, (SNew s, THandle h) ∈ tr -> free W s (elements (sstored tr h)) k
  | _ => True
  end.
Definition no_del (op : sop) : Prop := match op with SDel _ _ => False | _ => True end.
End sets.
End spec.

Global Arguments reads {K V U} op.
Global Arguments sreads {K U} op.
Global Arguments mop : clear implicits.
Global Arguments mres : clear implicits.
Global Arguments mstate _ {_ _}.
Global Arguments sop : clear implicits.
Global Arguments sstate _ {_ _}.
