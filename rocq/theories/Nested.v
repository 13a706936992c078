(** Programs whose callbacks are programs: a callback of Mod or All may itself
    make calls, panic, and use callbacks. How such programs run on the model of
    the code, and a calculus for them in which maps are plain finite maps. *)
From stdpp Require Import base numbers list gmap.
From Verif Require Import GoInt Mem Spec Client.
Local Open Scope nat_scope.

Section nested.
Context `{Countable K} {V U : Type}.
Implicit Types (h a : positive) (k : K) (v : V).

(** A program makes calls and goes on with their results, reads and changes the
    user's own variables, panics, calls Mod or All with a callback that is a
    program, or runs a program and recovers from its panic. The callback of Mod
    gets the address of the value and whether the key was stored; that of All
    gets the key and the address of its value, and tells whether to go on. *)
Inductive nprog : Type -> Type :=
  | NDone {A} (x : A) : nprog A
  | NCall {A} (op : mop K V U) (c : mres V -> nprog A) : nprog A
  | NOwn {A} (f : U -> U) (c : U -> nprog A) : nprog A
  | NThrow {A} : nprog A
  | NMod {A} h k (f : positive -> bool -> nprog unit) (c : nprog A) : nprog A
  | NAll {A} h (f : K -> positive -> nprog bool) (c : nprog A) : nprog A
  | NTry {A} (p : nprog unit) (c : bool -> nprog A) : nprog A.

(** ** Running a program on the model of the code *)
Section run.
Context {CK : Type} (api : mapapi K V CK U).
Local Notation M := (M V CK U).

(** defer func() { recover() }(): c is told whether p panicked. *)
Definition try {A} (p : M unit) (c : bool -> M A) : M A := λ w,
  match p w with
  | Ret _ w' => c false w'
  | Panic w' => c true w'
  | Fault => Fault
  | Hang => Hang
  end.

Fixpoint nexec {A} (p : nprog A) : M A :=
  match p with
  | NDone x => ret x
  | NCall op c => r <- mcall api op ;; nexec (c r)
  | NOwn f c => u <- get_usr ;; put_usr (f u) ;;; nexec (c u)
  | NThrow => panic
  | NMod h k f c =>
      ma_Mod api (Some h) k (λ q b, match q with At a => nexec (f a b) | Nil => panic end) ;;;
      nexec c
  | NAll h f c =>
      ma_All api (Some h) (λ k q, match q with At a => nexec (f k a) | Nil => panic end) ;;;
      nexec c
  | NTry p c => try (nexec p) (λ b, nexec (c b))
  end.
End run.

(** ** The calculus *)
Section calculus.
Context (dig : N -> K -> nat -> N) (zero : V).
(** The keys and seeds considered, and the conditions on a Set (fitS) or Mod
    (fitM) of a new key in a map with a seed and stored keys. *)
Context (P : K -> Prop) (Q : N -> Prop) (fitS fitM : N -> list K -> K -> Prop).
Local Notation mstate := (mstate K V U).
Implicit Types (σ : mstate).

Definition has_key σ h k : Prop := ∃ s m, ms_map σ !! h = Some (s, m) /\ is_Some (m !! k).
Definition may_add (fit : N -> list K -> K -> Prop) σ h k : Prop :=
  ∃ s m, ms_map σ !! h = Some (s, m) /\ (is_Some (m !! k) \/ fit s (map_to_list m).*1 k).

(** The calls that are considered in a state. *)
Definition may σ (op : mop K V U) : Prop :=
  match op with
  | MNew s => Q s
  | MSet h k _ => P k /\ may_add fitS σ h k
  | MMod h k _ => P k /\ may_add fitM σ h k
  | MDel h k | MGet h k | MVal h k | MPtr h k => P k /\ is_Some (ms_map σ !! h)
  | MLen h | MDep h | MAll h _ => is_Some (ms_map σ !! h)
  | MLoad p | MStore p _ => is_Some (ms_val σ !! p)
  end.
(** The map a call is made on. *)
Definition uses (op : mop K V U) h : Prop :=
  match op with
  | MNew _ | MLoad _ | MStore _ _ => False
  | MSet h' _ _ | MMod h' _ _ | MDel h' _ | MGet h' _ | MVal h' _ | MPtr h' _
  | MLen h' | MDep h' | MAll h' _ => h' = h
  end.
(** The call adds a key to h or is a Del on h. *)
Definition rebuilds σ (op : mop K V U) h : Prop :=
  match op with
  | MSet h' k _ | MMod h' k _ => h' = h /\ ¬ has_key σ h k
  | MDel h' _ => h' = h
  | _ => False
  end.
(** The maps whose keys the call changes. *)
Definition stored_in σ h k : bool :=
  match ms_map σ !! h with
  | Some (_, m) => match m !! k with Some _ => true | None => false end
  | None => false
  end.
Definition rekeyed σ (op : mop K V U) : gset positive :=
  match op with
  | MSet h k _ | MMod h k _ => if stored_in σ h k then ∅ else {[h]}
  | MDel h k => if stored_in σ h k then {[h]} else ∅
  | _ => ∅
  end.

(** What the calculus keeps track of besides the state: the maps that must not
    be used at all, because a Mod on them is not finished, and the maps whose
    keys have been changed. *)
Record mark : Type := Mark { mk_away : gset positive; mk_rekeyed : gset positive }.
Implicit Types (g : mark).
Definition note g (C : gset positive) : mark := Mark (mk_away g) (mk_rekeyed g ∪ C).
Definition lose g h : mark := Mark (mk_away g ∪ {[h]}) (mk_rekeyed g ∪ {[h]}).
Definition back g h : mark := Mark (mk_away g ∖ {[h]}) (mk_rekeyed g ∪ {[h]}).
Definition start g h : mark := Mark (mk_away g) (mk_rekeyed g ∖ {[h]}).

Definition post (A : Type) : Type := A -> mark -> mstate -> Prop.

(** The calls of the callback of All for the entries es: run k a is the callback
    on the key k with its value at a. It must not tell to go on once it has
    changed the keys of h. *)
Fixpoint wp_each h (run : K -> positive -> post bool -> mark -> mstate -> Prop)
    (fin : mark -> mstate -> Prop) (es : list (K * positive)) g σ : Prop :=
  match es with
  | [] => fin g σ
  | (k, a) :: es =>
      run k a (λ go g' σ', if go then h ∉ mk_rekeyed g' /\ wp_each h run fin es g' σ' else fin g' σ') g σ
  end.

(** [wp p lk Φ Ψ g σ]: run from the state σ, all calls of p are considered and p
    ends with Φ, or panics with Ψ. lk are the maps that only may be read and
    whose values may be changed, but that must get no new key and no Del.

    A Mod of a stored key just runs its callback. A Mod of a key that is not
    stored puts the zero value at a new address, runs the callback, and adds the
    key. While the callback runs the map may not be used at all, and is lost
    for good when the callback panics; if no key is in the way of the new one,
    the map may still be used but not rebuilt, and survives a panic. *)
Fixpoint wp {A} (p : nprog A) (lk : gset positive) : post A -> (mark -> mstate -> Prop) -> mark -> mstate -> Prop :=
  match p in nprog A return post A -> (mark -> mstate -> Prop) -> mark -> mstate -> Prop with
  | NDone x => λ Φ Ψ g σ, Φ x g σ
  | NCall op c => λ Φ Ψ g σ,
      may σ op /\ (∀ h, uses op h -> h ∉ mk_away g) /\ (∀ h, rebuilds σ op h -> h ∉ lk) /\
      ∀ r σ', mstep dig zero σ op r σ' -> wp (c r) lk Φ Ψ (note g (rekeyed σ op)) σ'
  | NOwn f c => λ Φ Ψ g σ,
      wp (c (ms_usr σ)) lk Φ Ψ g (MState (ms_map σ) (ms_val σ) (f (ms_usr σ)))
  | NThrow => λ Φ Ψ g σ, Ψ g σ
  | NMod h k f c => λ Φ Ψ g σ,
      P k /\ h ∉ mk_away g /\ ∃ s m, ms_map σ !! h = Some (s, m) /\
      match m !! k with
      | Some a => wp (f a true) lk (λ _, wp c lk Φ Ψ) Ψ g σ
      | None =>
          h ∉ lk /\ fitM s (map_to_list m).*1 k /\
          ∀ a, ms_val σ !! a = None ->
            let σ1 := MState (ms_map σ) (<[a := zero]> (ms_val σ)) (ms_usr σ) in
            let add g' σ' :=
              wp c lk Φ Ψ (back g' h) (MState (<[h := (s, <[k := a]> m)]> (ms_map σ')) (ms_val σ') (ms_usr σ')) in
            wp (f a false) lk (λ _, add) Ψ (lose g h) σ1 \/
            (∀ k', ¬ in_way dig s (map_to_list m).*1 k k') /\
              wp (f a false) (lk ∪ {[h]}) (λ _, add) Ψ g σ1
      end
  | NAll h f c => λ Φ Ψ g σ,
      h ∉ mk_away g /\ ∃ s m, ms_map σ !! h = Some (s, m) /\
      ∀ es, es ≡ₚ map_to_list m -> in_order dig s es.*1 ->
        wp_each h (λ k a Φ', wp (f k a) lk Φ' (λ g' σ', Ψ (note g' (mk_rekeyed g)) σ'))
          (λ g' σ', wp c lk Φ Ψ (note g' (mk_rekeyed g)) σ') es (start g h) σ
  | NTry p c => λ Φ Ψ g σ,
      wp p lk (λ _, wp (c false) lk Φ Ψ) (wp (c true) lk Φ Ψ) g σ
  end.
End calculus.
End nested.
Global Arguments nprog K V U A : clear implicits.

(** ** Sets

    The same for sets, where only All has a callback. *)
Section sets.
Context `{Countable K} {U : Type}.
Implicit Types (h : positive) (k : K).

Inductive sprog : Type -> Type :=
  | SpDone {A} (x : A) : sprog A
  | SpCall {A} (op : sop K U) (c : sres -> sprog A) : sprog A
  | SpOwn {A} (f : U -> U) (c : U -> sprog A) : sprog A
  | SpThrow {A} : sprog A
  | SpAll {A} h (f : K -> sprog bool) (c : sprog A) : sprog A
  | SpTry {A} (p : sprog unit) (c : bool -> sprog A) : sprog A.

Section run.
Context {V CK : Type} (api : setapi K V CK U).
Local Notation M := (M V CK U).
Fixpoint sexec {A} (p : sprog A) : M A :=
  match p with
  | SpDone x => ret x
  | SpCall op c => r <- scall api op ;; sexec (c r)
  | SpOwn f c => u <- get_usr ;; put_usr (f u) ;;; sexec (c u)
  | SpThrow => panic
  | SpAll h f c => sa_All api (Some h) (λ k, sexec (f k)) ;;; sexec c
  | SpTry p c => try (sexec p) (λ b, sexec (c b))
  end.
End run.

Section calculus.
(** The keys and seeds considered, the condition on adding a key, and whether
    Del is considered. *)
Context (dig : N -> K -> nat -> N) (P : K -> Prop) (Q : N -> Prop) (fit : N -> list K -> K -> Prop) (dl : bool).
Local Notation sstate := (sstate K U).
Implicit Types (σ : sstate) (R : gset positive).

Definition smay σ (op : sop K U) : Prop :=
  match op with
  | SNew s => Q s
  | SAdd h k => P k /\ ∃ s X, ss_set σ !! h = Some (s, X) /\ (k ∈ X \/ fit s (elements X) k)
  | SDel h k => P k /\ is_Some (ss_set σ !! h) /\ dl = true
  | SHas h k => P k /\ is_Some (ss_set σ !! h)
  | SLen h | SDep h | SAll h _ => is_Some (ss_set σ !! h)
  end.
(** The sets whose keys the call changes. *)
Definition has_member σ h k : bool :=
  match ss_set σ !! h with Some (_, X) => bool_decide (k ∈ X) | None => false end.
Definition srekeyed σ (op : sop K U) : gset positive :=
  match op with
  | SAdd h k => if has_member σ h k then ∅ else {[h]}
  | SDel h k => if has_member σ h k then {[h]} else ∅
  | _ => ∅
  end.

(** R are the sets whose keys have been changed. *)
Definition spost (A : Type) : Type := A -> gset positive -> sstate -> Prop.
Fixpoint swp_each h (run : K -> spost bool -> gset positive -> sstate -> Prop)
    (fin : gset positive -> sstate -> Prop) (ks : list K) R σ : Prop :=
  match ks with
  | [] => fin R σ
  | k :: ks =>
      run k (λ go R' σ', if go then h ∉ R' /\ swp_each h run fin ks R' σ' else fin R' σ') R σ
  end.

Fixpoint swp {A} (p : sprog A) : spost A -> (gset positive -> sstate -> Prop) -> gset positive -> sstate -> Prop :=
  match p in sprog A return spost A -> (gset positive -> sstate -> Prop) -> gset positive -> sstate -> Prop with
  | SpDone x => λ Φ Ψ R σ, Φ x R σ
  | SpCall op c => λ Φ Ψ R σ,
      smay σ op /\ ∀ r σ', sstep dig σ op r σ' -> swp (c r) Φ Ψ (R ∪ srekeyed σ op) σ'
  | SpOwn f c => λ Φ Ψ R σ, swp (c (ss_usr σ)) Φ Ψ R (SState (ss_set σ) (f (ss_usr σ)))
  | SpThrow => λ Φ Ψ R σ, Ψ R σ
  | SpAll h f c => λ Φ Ψ R σ,
      ∃ s X, ss_set σ !! h = Some (s, X) /\
      ∀ ks, ks ≡ₚ elements X -> in_order dig s ks ->
        swp_each h (λ k Φ', swp (f k) Φ' (λ R' σ', Ψ (R' ∪ R) σ'))
          (λ R' σ', swp c Φ Ψ (R' ∪ R) σ') ks (R ∖ {[h]}) σ
  | SpTry p c => λ Φ Ψ R σ, swp p (λ _, swp (c false) Φ Ψ) (swp (c true) Φ Ψ) R σ
  end.
End calculus.
End sets.
Global Arguments sprog K U A : clear implicits.
