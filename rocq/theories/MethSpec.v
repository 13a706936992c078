(** Executions of the types of EAmt.v, whose key methods (Hash, Equal, KeyBytes, ==) may have
    effects of their own and may panic. *)
From stdpp Require Import base numbers list gmap.
From Verif Require Import GoInt Mem Hash Amt Families Spec Client Types EAmt.
Local Open Scope nat_scope.

(** The user's calls. Callbacks do not touch the state C of the key methods. *)
Definition emap_op {K V U C} (op : mop K V U) : mop K V (U * C) :=
  match op with
  | MNew s => MNew s
  | MSet h k v => MSet h k v
  | MMod h k f => MMod h k (λ uc v b, ((((f uc.1 v b).1, uc.2), (f uc.1 v b).2)))
  | MDel h k => MDel h k
  | MGet h k => MGet h k
  | MVal h k => MVal h k
  | MPtr h k => MPtr h k
  | MLen h => MLen h
  | MDep h => MDep h
  | MAll h f => MAll h (λ uc k v, ((((f uc.1 k v).1.1, uc.2), (f uc.1 k v).1.2), (f uc.1 k v).2))
  | MLoad p => MLoad p
  | MStore p v => MStore p v
  end.
Definition eset_op {K U C} (op : sop K U) : sop K (U * C) :=
  match op with
  | SNew s => SNew s
  | SAdd h k => SAdd h k
  | SDel h k => SDel h k
  | SHas h k => SHas h k
  | SLen h => SLen h
  | SDep h => SDep h
  | SAll h f => SAll h (λ uc k, (((f uc.1 k).1, uc.2), (f uc.1 k).2))
  end.

(** A key method that, whenever it returns, returns a; and one that can panic. *)
Definition answers {C A} (f : C -> C * option A) (a : A) : Prop := ∀ c b, (f c).2 = Some b -> b = a.
Definition can_panic {C A} (f : C -> C * option A) : Prop := ∃ c, (f c).2 = None.
(** Of two keys that agree in the first 16 * j digits, the hashes with iter = j do not panic. *)
Definition calm {K C} (Hash : K -> N -> N -> N) (Hash' : K -> N -> N -> C -> C * option N) (s : N) (k k' : K) : Prop :=
  ∀ j, 0 < j -> (∀ i, i < 16 * j -> gdigit Hash s k i = gdigit Hash s k' i) ->
    ¬ can_panic (Hash' k s (N.of_nat j)) /\ ¬ can_panic (Hash' k' s (N.of_nat j)).

(** Executions. A call whose key method panics is recovered by the user and leaves no trace
    in the history. *)
Section runs.
Context {K V U C : Type}.
Inductive memrun (api : mapapi K V K (U * C)) (ok : list (mop K V U * mres V) -> mop K V U -> Prop) (u0 : U) (c0 : C) :
    list (mop K V U * mres V) -> world V K (U * C) -> Prop :=
  | memrun_nil : memrun api ok u0 c0 [] (empty_world (u0, c0))
  | memrun_call tr w op res w' : memrun api ok u0 c0 tr w -> ok tr op -> mcall api (emap_op op) w = Ret res w' ->
      memrun api ok u0 c0 ((op, res) :: tr) w'
  | memrun_panic tr w op w' : memrun api ok u0 c0 tr w -> ok tr op -> mcall api (emap_op op) w = Panic w' ->
      memrun api ok u0 c0 tr w'.
Inductive semrun (api : setapi K unit K (U * C)) (ok : list (sop K U * sres) -> sop K U -> Prop) (u0 : U) (c0 : C) :
    list (sop K U * sres) -> world unit K (U * C) -> Prop :=
  | semrun_nil : semrun api ok u0 c0 [] (empty_world (u0, c0))
  | semrun_call tr w op res w' : semrun api ok u0 c0 tr w -> ok tr op -> scall api (eset_op op) w = Ret res w' ->
      semrun api ok u0 c0 ((op, res) :: tr) w'
  | semrun_panic tr w op w' : semrun api ok u0 c0 tr w -> ok tr op -> scall api (eset_op op) w = Panic w' ->
      semrun api ok u0 c0 tr w'.
End runs.

Section types.
Context {V U C : Type} (zero : V) (fuel : nat).

(** [emap_type api bad dig ok]: api is a map type whose key methods answer, if they return,
    what the functions keq and KeyBytes, or Equal and Hash, tell. [bad]: one of them can
    panic. dig and ok: as in [map_type] (Types.v), and if Set or Mod of a new key finds a
    stored key in its way then the two are [calm]. *)
Inductive emap_type : ∀ {K} `{Countable K}, mapapi K V K (U * C) -> Prop -> (N -> K -> nat -> N) ->
    (list (mop K V U * mres V) -> mop K V U -> Prop) -> Prop :=
  | type_EArrMap K `{Countable K} sum64 keq KeyBytes (P : K -> Prop) Q
      (keq' : K -> K -> C -> C * option bool) (KeyBytes' : K -> C -> C * option bytes) :
      decides_eq keq P -> (∀ k k', answers (keq' k k') (keq k k')) -> (∀ k, answers (KeyBytes' k) (KeyBytes k)) ->
      emap_type (K:=K) (EArrMap_api zero fuel sum64 keq' KeyBytes')
        ((∃ k k', can_panic (keq' k k')) \/ ∃ k, can_panic (KeyBytes' k)) (arr_digit sum64 KeyBytes)
        (λ tr op, mallowed P Q tr op /\ ins_guard (arr_digit sum64 KeyBytes) no_way any_way tr op)
  | type_EMap K `{Countable K} Equal Hash (P : K -> Prop) Q
      (Equal' : K -> K -> C -> C * option bool) (Hash' : K -> N -> N -> C -> C * option N) :
      decides_eq Equal P -> (∀ k k', answers (Equal' k k') (Equal k k')) -> (∀ k s i, answers (Hash' k s i) (Hash k s i)) ->
      emap_type (K:=K) (EMap_api zero fuel Equal' Hash')
        ((∃ k k', can_panic (Equal' k k')) \/ ∃ k s i, can_panic (Hash' k s i)) (gdigit Hash)
        (λ tr op, mallowed P Q tr op /\ ins_guard (gdigit Hash) (λ s k k' d, set_way Hash s k k' d /\ calm Hash Hash' s k k')
          (λ s k k' d, mod_way Hash s k k' d /\ calm Hash Hash' s k k') tr op).

Inductive eset_type : ∀ {K} `{Countable K}, setapi K unit K (U * C) -> Prop -> (N -> K -> nat -> N) ->
    (list (sop K U * sres) -> sop K U -> Prop) -> Prop :=
  | type_EArrSet K `{Countable K} sum64 keq KeyBytes (P : K -> Prop) Q
      (keq' : K -> K -> C -> C * option bool) (KeyBytes' : K -> C -> C * option bytes) :
      decides_eq keq P -> (∀ k k', answers (keq' k k') (keq k k')) -> (∀ k, answers (KeyBytes' k) (KeyBytes k)) ->
      eset_type (K:=K) (EArrSet_api fuel sum64 keq' KeyBytes')
        ((∃ k k', can_panic (keq' k k')) \/ ∃ k, can_panic (KeyBytes' k)) (arr_digit sum64 KeyBytes)
        (λ tr op, sallowed P Q tr op /\ add_guard (arr_digit sum64 KeyBytes) any_way tr op)
  | type_ESet K `{Countable K} Equal Hash (P : K -> Prop) Q
      (Equal' : K -> K -> C -> C * option bool) (Hash' : K -> N -> N -> C -> C * option N) :
      decides_eq Equal P -> (∀ k k', answers (Equal' k k') (Equal k k')) -> (∀ k s i, answers (Hash' k s i) (Hash k s i)) ->
      eset_type (K:=K) (ESet_api fuel Equal' Hash')
        ((∃ k k', can_panic (Equal' k k')) \/ ∃ k s i, can_panic (Hash' k s i)) (gdigit Hash)
        (λ tr op, sallowed P Q tr op /\ add_guard (gdigit Hash) (λ s k k' d, set_way Hash s k k' d /\ calm Hash Hash' s k k') tr op).
End types.
