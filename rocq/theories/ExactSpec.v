(** What two functions of the code do instead of what is expected of them:
    ArrMap.Set and BytesSet.Del. As Spec.v, this file refers neither to the trie
    nor to any function of the model. *)
From stdpp Require Import base numbers list gmap.
From Verif Require Import Spec.
Local Open Scope nat_scope.

Section exact.
Context `{Countable K} {V U : Type}.
Variables (dig : N -> K -> nat -> N) (zero : V).

(** Some stored key is in the way of k. *)
Definition hindered (s : N) (ks : list K) (k : K) : Prop := ∃ k', in_way dig s ks k k'.

(** As a finite map, except that a Set of a key with a stored key in its way
    stores the zero value instead of the given one. *)
Definition zstep (σ : mstate K V U) (op : mop K V U) (res : mres V) (σ' : mstate K V U) : Prop :=
  match op with
  | MSet h k v => ∃ s m, ms_map σ !! h = Some (s, m) /\
      ((hindered s (map_to_list m).*1 k /\ mstep dig zero σ (MSet h k zero) res σ') \/
       (¬ hindered s (map_to_list m).*1 k /\ mstep dig zero σ (MSet h k v) res σ'))
  | _ => mstep dig zero σ op res σ'
  end.
Inductive zspec (u0 : U) : list (mop K V U * mres V) -> mstate K V U -> Prop :=
  | zspec_nil : zspec u0 [] (minit u0)
  | zspec_cons tr σ op res σ' : zspec u0 tr σ -> zstep σ op res σ' -> zspec u0 ((op, res) :: tr) σ'.

(** As a finite set, except that Del of k removes the key in the way of k, if
    there is one, and otherwise nothing. (A stored key has none in its way.) *)
Definition dstep (σ : sstate K U) (op : sop K U) (res : sres) (σ' : sstate K U) : Prop :=
  match op with
  | SDel h k => res = TUnit /\ ∃ s X, ss_set σ !! h = Some (s, X) /\
      ((∃ k', in_way dig s (elements X) k k' /\ 
          σ' = SState (<[h := (s, X ∖ {[k']})]> (ss_set σ)) (ss_usr σ)) \/
       (¬ hindered s (elements X) k /\ σ' = σ))
  | _ => sstep dig σ op res σ'
  end.
Inductive dspec (u0 : U) : list (sop K U * sres) -> sstate K U -> Prop :=
  | dspec_nil : dspec u0 [] (sinit u0)
  | dspec_cons tr σ op res σ' : dspec u0 tr σ -> dstep σ op res σ' -> dspec u0 ((op, res) :: tr) σ'.

(** The condition on an Add, as [add_guard] of Spec.v, but with the keys that the
    set really holds after the history. *)
Definition dguard (u0 : U) (tr : list (sop K U * sres)) (op : sop K U) : Prop :=
  match op with
  | SAdd h k => ∀ σ s X, dspec u0 tr σ -> ss_set σ !! h = Some (s, X) ->
      k ∈ X \/ ∀ k', in_way dig s (elements X) k k' -> separated 240 (dig s k) (dig s k')
  | _ => True
  end.
End exact.
