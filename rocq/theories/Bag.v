(** What a user can still expect of the containers when nothing is known of the
    hash and equality functions of the keys: the stored entries form a bag. Stated
    without reference to the trie or to any function of the model. *)
From Coq Require Import SpecFloat.
From stdpp Require Import base numbers list gmap.
From Verif Require Import Spec.
Local Open Scope nat_scope.

(** ** Maps *)
Section maps.
Context {K V U : Type}.
(** The comparison of keys: given key first, stored key second. *)
Variable eq : K -> K -> bool.
Variable zero : V.
(** lost: a Set that adds an entry may store the zero value (ArrMap).
    over: an addition may replace an entry that no key finds (BytesMap).
    stable: a call on one key changes nothing for keys that find another entry
    (all types but Map and Set). *)
Variables lost over stable : bool.

(** The entries of a map, each with the address of its value, and for every key
    the address that Get, Val, Ptr, Set, Mod and Del find. *)
Record bag : Type := Bag { bg_ent : list (K * positive); bg_look : K -> option positive }.
Record bstate : Type := BState {
  bs_map : gmap positive bag;
  bs_val : gmap positive V;
  bs_usr : U }.
Definition binit (u : U) : bstate := BState ∅ ∅ u.

(** Only entries with an equal key are found. *)
Definition finds (E : list (K * positive)) (look : K -> option positive) : Prop :=
  ∀ k p, look k = Some p -> ∃ k', (k', p) ∈ E /\ eq k k' = true.

(** Set and Mod: g gives the user's new state and the value to store, from the
    value found. If none is found the call adds an entry at an address never used
    before, and if k equals itself then k is found from now on. *)
Definition bput (lose : bool) (σ : bstate) (h : positive) (k : K) (g : option V -> U * V) (σ' : bstate) : Prop :=
  ∃ B, bs_map σ !! h = Some B /\
  match bg_look B k with
  | Some p => ∃ v, bs_val σ !! p = Some v /\
      σ' = BState (bs_map σ) (<[p := (g (Some v)).2]> (bs_val σ)) (g (Some v)).1
  | None => ∃ p v E look, bs_val σ !! p = None /\
      (v = (g None).2 \/ lose = true /\ v = zero) /\
      (E ≡ₚ (k, p) :: bg_ent B \/
       over = true /\ ∃ k0 p0 E', bg_ent B ≡ₚ (k0, p0) :: E' /\ (∀ k1, bg_look B k1 ≠ Some p0) /\ E ≡ₚ (k, p) :: E') /\
      finds E look /\ (eq k k = true -> look k = Some p) /\
      (stable = true -> ∀ k1 p1, bg_look B k1 = Some p1 -> look k1 = Some p1) /\
      σ' = BState (<[h := Bag E look]> (bs_map σ)) (<[p := v]> (bs_val σ)) (g None).1
  end.

(** The value found for k. *)
Definition bvalue (σ : bstate) (h : positive) (k : K) : option V :=
  B ← bs_map σ !! h; p ← bg_look B k; bs_val σ !! p.

Definition bstep (σ : bstate) (op : mop K V U) (res : mres V) (σ' : bstate) : Prop :=
  match op with
  | MNew s => ∃ h look, res = RHandle h /\ bs_map σ !! h = None /\ (∀ k, look k = None) /\
      σ' = BState (<[h := Bag [] look]> (bs_map σ)) (bs_val σ) (bs_usr σ)
  | MSet h k v => res = RUnit /\ bput lost σ h k (λ _, (bs_usr σ, v)) σ'
  | MMod h k f => res = RUnit /\
      bput false σ h k (λ o, f (bs_usr σ) (default zero o) (match o with Some _ => true | None => false end)) σ'
  | MDel h k => res = RUnit /\ ∃ B, bs_map σ !! h = Some B /\
      match bg_look B k with
      | None => σ' = σ
      | Some p => ∃ k' E look, eq k k' = true /\ bg_ent B ≡ₚ (k', p) :: E /\ finds E look /\
          (stable = true -> ∀ k1 p1, bg_look B k1 = Some p1 -> p1 ≠ p -> look k1 = Some p1) /\
          σ' = BState (<[h := Bag E look]> (bs_map σ)) (bs_val σ) (bs_usr σ)
      end
  | MGet h k => σ' = σ /\ is_Some (bs_map σ !! h) /\
      res = RGet (default zero (bvalue σ h k)) (bool_decide (is_Some (bvalue σ h k)))
  | MVal h k => σ' = σ /\ is_Some (bs_map σ !! h) /\ res = RVal (default zero (bvalue σ h k))
  | MPtr h k => σ' = σ /\ ∃ B, bs_map σ !! h = Some B /\ res = RPtr (bg_look B k)
  | MLen h => σ' = σ /\ ∃ B, bs_map σ !! h = Some B /\
      res = RLen (N.of_nat (length (bg_ent B)) mod 2 ^ 64)
  | MDep h => σ' = σ /\ ∃ B n, bs_map σ !! h = Some B /\ n <= 254 * length (bg_ent B) /\
      res = RDep (mean (N.of_nat n) (N.of_nat (length (bg_ent B))))
  | MAll h f => res = RUnit /\ ∃ B es, bs_map σ !! h = Some B /\ es ≡ₚ bg_ent B /\
      σ' = BState (bs_map σ) (each f es (bs_usr σ) (bs_val σ)).2 (each f es (bs_usr σ) (bs_val σ)).1
  | MLoad p => σ' = σ /\ ∃ v, bs_val σ !! p = Some v /\ res = RVal v
  | MStore p v => res = RUnit /\ is_Some (bs_val σ !! p) /\
      σ' = BState (bs_map σ) (<[p := v]> (bs_val σ)) (bs_usr σ)
  end.

(** The caller overwrites the key of the entry at address p. *)
Definition rekeyed (p : positive) (k : K) (e : K * positive) : K * positive :=
  if decide (e.2 = p) then (k, p) else e.
Definition bkey (σ : bstate) (p : positive) (k : K) (σ' : bstate) : Prop :=
  is_Some (bs_val σ !! p) /\ bs_val σ' = bs_val σ /\ bs_usr σ' = bs_usr σ /\
  ∀ h, match bs_map σ !! h, bs_map σ' !! h with
       | None, None => True
       | Some B, Some B' => bg_ent B' = map (rekeyed p k) (bg_ent B) /\ finds (bg_ent B') (bg_look B') /\
           (p ∉ (bg_ent B).*2 -> bg_look B' = bg_look B) /\
           ∀ k1 p1, p1 ≠ p -> bg_look B' k1 = Some p1 <-> bg_look B k1 = Some p1
       | _, _ => False
       end.

(** Histories (latest call first) that such bags could produce. clob: which stored
    keys does the caller overwrite between the calls, and by what? *)
Inductive bspec (clob : K -> K -> Prop) (u0 : U) : list (mop K V U * mres V) -> bstate -> Prop :=
  | bspec_nil : bspec clob u0 [] (binit u0)
  | bspec_call tr σ op res σ' : bspec clob u0 tr σ -> bstep σ op res σ' -> bspec clob u0 ((op, res) :: tr) σ'
  | bspec_key tr σ p k σ' : bspec clob u0 tr σ ->
      (∀ h B k0, bs_map σ !! h = Some B -> (k0, p) ∈ bg_ent B -> clob k0 k) ->
      bkey σ p k σ' -> bspec clob u0 tr σ'.
End maps.

Global Arguments bag : clear implicits.
Global Arguments bstate : clear implicits.

(** ** Sets *)
Section sets.
Context {K U : Type}.
Variable eq : K -> K -> bool.
(** inverted: Del removes only keys that are not equal (BytesSet).
    stable: a call on one key changes nothing for others (all types but Set). *)
Variables inverted stable : bool.

(** The stored keys, and for every key what Has tells. *)
Record sbag : Type := SBag { sb_keys : list K; sb_has : K -> bool }.
Record sbstate : Type := SBState { sbs_set : gmap positive sbag; sbs_usr : U }.
Definition sbinit (u : U) : sbstate := SBState ∅ u.

Definition sfinds (E : list K) (has : K -> bool) : Prop :=
  ∀ k, has k = true -> ∃ k', k' ∈ E /\ eq k k' = true.

Definition sbstep (σ : sbstate) (op : sop K U) (res : sres) (σ' : sbstate) : Prop :=
  match op with
  | SNew s => ∃ h has, res = THandle h /\ sbs_set σ !! h = None /\ (∀ k, has k = false) /\
      σ' = SBState (<[h := SBag [] has]> (sbs_set σ)) (sbs_usr σ)
  | SAdd h k => res = TUnit /\ ∃ B, sbs_set σ !! h = Some B /\
      if sb_has B k then σ' = σ
      else ∃ E has, E ≡ₚ k :: sb_keys B /\ sfinds E has /\ (eq k k = true -> has k = true) /\
        (stable = true -> ∀ k1, sb_has B k1 = true -> has k1 = true) /\
        σ' = SBState (<[h := SBag E has]> (sbs_set σ)) (sbs_usr σ)
  | SDel h k => res = TUnit /\ ∃ B, sbs_set σ !! h = Some B /\
      ((if inverted then True else sb_has B k = false) /\ σ' = σ \/
       sb_has B k = negb inverted /\ ∃ k' E has, eq k k' = negb inverted /\
         sb_keys B ≡ₚ k' :: E /\ sfinds E has /\
         (stable = true -> ∀ k1, sb_has B k1 = true -> eq k1 k' = false -> has k1 = true) /\
         σ' = SBState (<[h := SBag E has]> (sbs_set σ)) (sbs_usr σ))
  | SHas h k => σ' = σ /\ ∃ B, sbs_set σ !! h = Some B /\ res = THas (sb_has B k)
  | SLen h => σ' = σ /\ ∃ B, sbs_set σ !! h = Some B /\
      res = TLen (N.of_nat (length (sb_keys B)) mod 2 ^ 64)
  | SDep h => σ' = σ /\ ∃ B n, sbs_set σ !! h = Some B /\ n <= 254 * length (sb_keys B) /\
      res = TDep (mean (N.of_nat n) (N.of_nat (length (sb_keys B))))
  | SAll h f => res = TUnit /\ ∃ B ks, sbs_set σ !! h = Some B /\ ks ≡ₚ sb_keys B /\
      σ' = SBState (sbs_set σ) (seach f ks (sbs_usr σ))
  end.

(** The caller overwrites one stored key k0, if it is still in a set. *)
Definition sbkey (σ : sbstate) (k0 k : K) (σ' : sbstate) : Prop :=
  sbs_usr σ' = sbs_usr σ /\
  ∃ h0, ∀ h, match sbs_set σ !! h, sbs_set σ' !! h with
       | None, None => True
       | Some B, Some B' => B' = B \/ h = h0 /\ sfinds (sb_keys B') (sb_has B') /\
           (∀ k1, eq k1 k0 = false -> eq k1 k = false -> sb_has B' k1 = sb_has B k1) /\
           ∃ l1 l2, sb_keys B = l1 ++ k0 :: l2 /\ sb_keys B' = l1 ++ k :: l2
       | _, _ => False
       end.

Inductive sbspec (clob : K -> K -> Prop) (u0 : U) : list (sop K U * sres) -> sbstate -> Prop :=
  | sbspec_nil : sbspec clob u0 [] (sbinit u0)
  | sbspec_call tr σ op res σ' : sbspec clob u0 tr σ -> sbstep σ op res σ' -> sbspec clob u0 ((op, res) :: tr) σ'
  | sbspec_key tr σ k0 k σ' : sbspec clob u0 tr σ -> clob k0 k -> sbkey σ k0 k σ' -> sbspec clob u0 tr σ'.
End sets.

Global Arguments sbag : clear implicits.
Global Arguments sbstate : clear implicits.
