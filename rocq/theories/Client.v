(** User programs: the calls of Spec.v run on the model of the code. *)
From stdpp Require Import base numbers list gmap.
From Coq Require Import SpecFloat.
From Verif Require Import GoInt Mem Hash Amt Families Spec.
Local Open Scope nat_scope.

Section client.
Context {K V CK U : Type}.
Local Notation M := (M V CK U).
Local Notation world := (world V CK U).

(** The methods of a map type. *)
Record mapapi : Type := MapApi {
  ma_Set : option loc -> K -> V -> M unit;
  ma_Mod : option loc -> K -> (ptr -> bool -> M unit) -> M unit;
  ma_Del : option loc -> K -> M unit;
  ma_Get : option loc -> K -> M (V * bool);
  ma_Val : option loc -> K -> M V;
  ma_Ptr : option loc -> K -> M ptr;
  ma_All : option loc -> (K -> ptr -> M bool) -> M unit }.

(** The methods of a set type. *)
Record setapi : Type := SetApi {
  sa_Add : option loc -> K -> M unit;
  sa_Del : option loc -> K -> M unit;
  sa_Has : option loc -> K -> M bool;
  sa_All : option loc -> (K -> M bool) -> M unit }.

(** A user's callback for Mod: it reads and writes the value it is given and
    the user's own state. *)
Definition mod_cb (f : U -> V -> bool -> U * V) (p : ptr) (b : bool) : M unit :=
  x <- load_kv p ;;
  u <- get_usr ;;
  store_val p (f u x.1 b).2 ;;;
  put_usr (f u x.1 b).1.

(** A user's callback for All. *)
Definition all_cb (f : U -> K -> V -> U * V * bool) (k : K) (p : ptr) : M bool :=
  x <- load_kv p ;;
  u <- get_usr ;;
  store_val p (f u k x.1).1.2 ;;;
  put_usr (f u k x.1).1.1 ;;;
  ret (f u k x.1).2.

Definition set_cb (f : U -> K -> U * bool) (k : K) : M bool :=
  u <- get_usr ;;
  put_usr (f u k).1 ;;;
  ret (f u k).2.

Definition handle (h : option loc) : M loc :=
  match h with Some r => ret r | None => panic end.

(** A call, with its result. *)
Definition mcall (api : mapapi) (op : mop K V U) : M (mres V) :=
  match op with
  | MNew s => h <- New s ;; r <- handle h ;; ret (RHandle r)
  | MSet h k v => ma_Set api (Some h) k v ;;; ret RUnit
  | MMod h k f => ma_Mod api (Some h) k (mod_cb f) ;;; ret RUnit
  | MDel h k => ma_Del api (Some h) k ;;; ret RUnit
  | MGet h k => x <- ma_Get api (Some h) k ;; ret (RGet x.1 x.2)
  | MVal h k => x <- ma_Val api (Some h) k ;; ret (RVal x)
  | MPtr h k => p <- ma_Ptr api (Some h) k ;;
      ret (RPtr (match p with Nil => None | At a => Some a end))
  | MLen h => n <- Len (Some h) ;; ret (RLen n)
  | MDep h => x <- Dep (Some h) ;; ret (RDep x)
  | MAll h f => ma_All api (Some h) (all_cb f) ;;; ret RUnit
  | MLoad p => x <- load_kv (At p) ;; ret (RVal x.1)
  | MStore p v => store_val (At p) v ;;; ret RUnit
  end.

Definition scall (api : setapi) (op : sop K U) : M sres :=
  match op with
  | SNew s => h <- New s ;; r <- handle h ;; ret (THandle r)
  | SAdd h k => sa_Add api (Some h) k ;;; ret TUnit
  | SDel h k => sa_Del api (Some h) k ;;; ret TUnit
  | SHas h k => b <- sa_Has api (Some h) k ;; ret (THas b)
  | SLen h => n <- Len (Some h) ;; ret (TLen n)
  | SDep h => x <- Dep (Some h) ;; ret (TDep x)
  | SAll h f => sa_All api (Some h) (set_cb f) ;;; ret TUnit
  end.

(** Executions that start with an empty heap and make only calls that [ok]
    allows after the history so far (latest call first). *)
Inductive mrun (api : mapapi) (ok : list (mop K V U * mres V) -> mop K V U -> Prop) (u0 : U) :
    list (mop K V U * mres V) -> world -> Prop :=
  | mrun_nil : mrun api ok u0 [] (empty_world u0)
  | mrun_cons tr w op res w' :
      mrun api ok u0 tr w -> ok tr op -> mcall api op w = Ret res w' ->
      mrun api ok u0 ((op, res) :: tr) w'.

Inductive srun (api : setapi) (ok : list (sop K U * sres) -> sop K U -> Prop) (u0 : U) :
    list (sop K U * sres) -> world -> Prop :=
  | srun_nil : srun api ok u0 [] (empty_world u0)
  | srun_cons tr w op res w' :
      srun api ok u0 tr w -> ok tr op -> scall api op w = Ret res w' ->
      srun api ok u0 ((op, res) :: tr) w'.
End client.

Global Arguments mapapi : clear implicits.
Global Arguments setapi : clear implicits.

(** ** The map and set types *)
Section types.
Variable sum64 : N -> bytes -> N.
Context {V U : Type} (zero : V) (fuel : nat).

Definition StringMap_api : mapapi bytes V bytes U := MapApi
  (StringMap_Set sum64 fuel) (StringMap_Mod sum64 zero fuel) (StringMap_Del sum64 fuel)
  (StringMap_Get sum64 zero fuel) (StringMap_Val sum64 zero fuel) (StringMap_Ptr sum64 fuel)
  (StringMap_All sum64 fuel).

Definition BytesMap_api : mapapi bytes V bytes U := MapApi
  (BytesMap_Set sum64 fuel) (BytesMap_Mod sum64 zero fuel) (BytesMap_Del sum64 fuel)
  (BytesMap_Get sum64 zero fuel) (BytesMap_Val sum64 zero fuel) (BytesMap_Ptr sum64 fuel)
  (BytesMap_All sum64 fuel).

Definition IntMap_api : mapapi Z V unit U := MapApi
  (IntMap_Set sum64 fuel) (IntMap_Mod sum64 zero fuel) (IntMap_Del sum64 fuel)
  (IntMap_Get sum64 zero fuel) (IntMap_Val sum64 zero fuel) (IntMap_Ptr sum64 fuel)
  (IntMap_All sum64 fuel).

Definition ArrMap_api {K} (keq : K -> K -> bool) (KeyBytes : K -> bytes) : mapapi K V K U := MapApi
  (ArrMap_Set sum64 zero fuel keq KeyBytes) (ArrMap_Mod sum64 zero fuel keq KeyBytes)
  (ArrMap_Del sum64 fuel keq KeyBytes) (ArrMap_Get sum64 zero fuel keq KeyBytes)
  (ArrMap_Val sum64 zero fuel keq KeyBytes) (ArrMap_Ptr sum64 fuel keq KeyBytes)
  (ArrMap_All sum64 fuel keq KeyBytes).

Definition Map_api {K} (Equal : K -> K -> bool) (Hash : K -> N -> N -> N) : mapapi K V K U := MapApi
  (Map_Set fuel Equal Hash) (Map_Mod zero fuel Equal Hash) (Map_Del fuel Equal Hash)
  (Map_Get zero fuel Equal Hash) (Map_Val zero fuel Equal Hash) (Map_Ptr fuel Equal Hash)
  (Map_All fuel Equal Hash).

Definition StringSet_api : setapi bytes unit bytes U := SetApi
  (StringSet_Add sum64 fuel) (StringSet_Del sum64 fuel) (StringSet_Has sum64 fuel)
  (StringSet_All sum64 fuel).
Definition BytesSet_api : setapi bytes unit bytes U := SetApi
  (BytesSet_Add sum64 fuel) (BytesSet_Del sum64 fuel) (BytesSet_Has sum64 fuel)
  (BytesSet_All sum64 fuel).
Definition IntSet_api : setapi Z unit unit U := SetApi
  (IntSet_Add sum64 fuel) (IntSet_Del sum64 fuel) (IntSet_Has sum64 fuel)
  (IntSet_All sum64 fuel).
Definition ArrSet_api {K} (keq : K -> K -> bool) (KeyBytes : K -> bytes) : setapi K unit K U := SetApi
  (ArrSet_Add sum64 fuel keq KeyBytes) (ArrSet_Del sum64 fuel keq KeyBytes)
  (ArrSet_Has sum64 fuel keq KeyBytes) (ArrSet_All sum64 fuel keq KeyBytes).
Definition Set_api {K} (Equal : K -> K -> bool) (Hash : K -> N -> N -> N) : setapi K unit K U := SetApi
  (Set_Add fuel Equal Hash) (Set_Del fuel Equal Hash) (Set_Has fuel Equal Hash)
  (Set_All fuel Equal Hash).
End types.
