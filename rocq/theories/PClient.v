(** The calls of Client.v as programs of memory accesses. *)
From stdpp Require Import base numbers list gmap.
From Coq Require Import SpecFloat.
From Verif Require Import GoInt Mem Hash Families Spec Client Prog PAmt PFam ProgSim.
From Verif Require Amt.
Local Open Scope nat_scope.

Section client.
Context {K V CK U : Type}.
Local Notation M := (prog V CK U).

(** The methods of a map type and of a set type. *)
Record pmapapi : Type := PMapApi {
  pm_Set : option loc -> K -> V -> M unit;
  pm_Mod : option loc -> K -> (ptr -> bool -> M unit) -> M unit;
  pm_Del : option loc -> K -> M unit;
  pm_Get : option loc -> K -> M (V * bool);
  pm_Val : option loc -> K -> M V;
  pm_Ptr : option loc -> K -> M ptr;
  pm_All : option loc -> (K -> ptr -> M bool) -> M unit }.
Record psetapi : Type := PSetApi {
  ps_Add : option loc -> K -> M unit;
  ps_Del : option loc -> K -> M unit;
  ps_Has : option loc -> K -> M bool;
  ps_All : option loc -> (K -> M bool) -> M unit }.

(** The callbacks of Client.v. *)
Definition pmod_cb (f : U -> V -> bool -> U * V) (p : ptr) (b : bool) : M unit :=
  x <- load_kv p ;;
  u <- get_usr ;;
  store_val p (f u x.1 b).2 ;;;
  put_usr (f u x.1 b).1.
Definition pall_cb (f : U -> K -> V -> U * V * bool) (k : K) (p : ptr) : M bool :=
  x <- load_kv p ;;
  u <- get_usr ;;
  store_val p (f u k x.1).1.2 ;;;
  put_usr (f u k x.1).1.1 ;;;
  ret (f u k x.1).2.
Definition pset_cb (f : U -> K -> U * bool) (k : K) : M bool :=
  u <- get_usr ;;
  put_usr (f u k).1 ;;;
  ret (f u k).2.
(** A callback for All that reads the value and does not write it. *)
Definition plook_cb (f : U -> K -> V -> U * bool) (k : K) (p : ptr) : M bool :=
  x <- load_kv p ;;
  u <- get_usr ;;
  put_usr (f u k x.1).1 ;;;
  ret (f u k x.1).2.
Definition phandle (h : option loc) : M loc :=
  match h with Some r => ret r | None => panic end.

(** The calls of a goroutine: those of Spec.v, and All with a callback that does not
    write to the values. *)
Inductive cop : Type :=
  | Op (op : mop K V U)
  | Look (h : positive) (f : U -> K -> V -> U * bool).
(** The same call among those of Spec.v. *)
Definition same (f : U -> K -> V -> U * bool) (u : U) (k : K) (v : V) : U * V * bool := ((f u k v).1, v, (f u k v).2).
Definition the_op (c : cop) : mop K V U :=
  match c with Op op => op | Look h f => MAll h (same f) end.

Definition pmcall (api : pmapapi) (c : cop) : M (mres V) :=
  match c with
  | Op (MNew s) => h <- New s ;; r <- phandle h ;; ret (RHandle r)
  | Op (MSet h k v) => pm_Set api (Some h) k v ;;; ret RUnit
  | Op (MMod h k f) => pm_Mod api (Some h) k (pmod_cb f) ;;; ret RUnit
  | Op (MDel h k) => pm_Del api (Some h) k ;;; ret RUnit
  | Op (MGet h k) => x <- pm_Get api (Some h) k ;; ret (RGet x.1 x.2)
  | Op (MVal h k) => x <- pm_Val api (Some h) k ;; ret (RVal x)
  | Op (MPtr h k) => p <- pm_Ptr api (Some h) k ;;
      ret (RPtr (match p with Nil => None | At a => Some a end))
  | Op (MLen h) => n <- Len (Some h) ;; ret (RLen n)
  | Op (MDep h) => x <- Dep (Some h) ;; ret (RDep x)
  | Op (MAll h f) => pm_All api (Some h) (pall_cb f) ;;; ret RUnit
  | Op (MLoad p) => x <- load_kv (At p) ;; ret (RVal x.1)
  | Op (MStore p v) => store_val (At p) v ;;; ret RUnit
  | Look h f => pm_All api (Some h) (plook_cb f) ;;; ret RUnit
  end.

Definition pscall (api : psetapi) (op : sop K U) : M sres :=
  match op with
  | SNew s => h <- New s ;; r <- phandle h ;; ret (THandle r)
  | SAdd h k => ps_Add api (Some h) k ;;; ret TUnit
  | SDel h k => ps_Del api (Some h) k ;;; ret TUnit
  | SHas h k => b <- ps_Has api (Some h) k ;; ret (THas b)
  | SLen h => n <- Len (Some h) ;; ret (TLen n)
  | SDep h => x <- Dep (Some h) ;; ret (TDep x)
  | SAll h f => ps_All api (Some h) (pset_cb f) ;;; ret TUnit
  end.

(** ** The methods do what those of a mapapi or setapi do when nothing else runs. *)
Record mapi_sim (p : pmapapi) (a : mapapi K V CK U) : Prop := MapiSim {
  ms_Set : ∀ h k v, sim (pm_Set p h k v) (ma_Set a h k v);
  ms_Mod : ∀ h k pf f, (∀ q b, sim (pf q b) (f q b)) -> sim (pm_Mod p h k pf) (ma_Mod a h k f);
  ms_Del : ∀ h k, sim (pm_Del p h k) (ma_Del a h k);
  ms_Get : ∀ h k, sim (pm_Get p h k) (ma_Get a h k);
  ms_Val : ∀ h k, sim (pm_Val p h k) (ma_Val a h k);
  ms_Ptr : ∀ h k, sim (pm_Ptr p h k) (ma_Ptr a h k);
  ms_All : ∀ h pf f, (∀ k q, sim (pf k q) (f k q)) -> sim (pm_All p h pf) (ma_All a h f) }.
Record sapi_sim (p : psetapi) (a : setapi K V CK U) : Prop := SapiSim {
  ss_Add : ∀ h k, sim (ps_Add p h k) (sa_Add a h k);
  ss_Del : ∀ h k, sim (ps_Del p h k) (sa_Del a h k);
  ss_Has : ∀ h k, sim (ps_Has p h k) (sa_Has a h k);
  ss_All : ∀ h pf f, (∀ k, sim (pf k) (f k)) -> sim (ps_All p h pf) (sa_All a h f) }.

Lemma sim_mod_cb f q b : sim (pmod_cb f q b) (mod_cb f q b).
Proof. unfold pmod_cb, mod_cb. sims. Qed.
Lemma sim_all_cb f k q : sim (pall_cb f k q) (all_cb f k q).
Proof. unfold pall_cb, all_cb. sims. Qed.
Lemma sim_set_cb f k : sim (pset_cb f k) (set_cb f k).
Proof. unfold pset_cb, set_cb. sims. Qed.
Lemma sim_look_cb f k q : sim (plook_cb f k q) (all_cb (same f) k q).
Proof.
  intros [m n u]. unfold plook_cb, all_cb, Mem.bind. destruct q as [|l]; simpl; [done|].
  destruct (m !! l) as [[|v ck|]|] eqn:E; try done. simpl. rewrite E. simpl.
  by rewrite insert_id.
Qed.

Lemma sim_mcall p a c : mapi_sim p a -> sim (pmcall p c) (mcall a (the_op c)).
Proof.
  intros [H1 H2 H3 H4 H5 H6 H7]. destruct c as [[]|]; cbn [pmcall the_op mcall]; sims.
  - unfold New, Families.New. sims. apply sim_new_root.
  - unfold phandle, handle. sims.
  - apply H2. apply sim_mod_cb.
  - apply sim_root_len.
  - apply sim_root_dep.
  - apply H7. apply sim_all_cb.
  - apply H7. apply sim_look_cb.
Qed.
Lemma sim_scall p a op : sapi_sim p a -> sim (pscall p op) (scall a op).
Proof.
  intros [H1 H2 H3 H4]. destruct op; cbn [pscall scall]; sims.
  - unfold New, Families.New. sims. apply sim_new_root.
  - unfold phandle, handle. sims.
  - apply sim_root_len.
  - apply sim_root_dep.
  - apply H4. apply sim_set_cb.
Qed.
End client.
Global Arguments pmapapi : clear implicits.
Global Arguments psetapi : clear implicits.
Global Arguments cop : clear implicits.

(** ** The map and set types *)
Section types.
Variable sum64 : N -> bytes -> N.
Context {V U : Type} (zero : V) (fuel : nat).

Definition PStringMap_api : pmapapi bytes V bytes U := PMapApi
  (StringMap_Set sum64 fuel) (StringMap_Mod sum64 zero fuel) (StringMap_Del sum64 fuel)
  (StringMap_Get sum64 zero fuel) (StringMap_Val sum64 zero fuel) (StringMap_Ptr sum64 fuel)
  (StringMap_All sum64 fuel).
Definition PBytesMap_api : pmapapi bytes V bytes U := PMapApi
  (BytesMap_Set sum64 fuel) (BytesMap_Mod sum64 zero fuel) (BytesMap_Del sum64 fuel)
  (BytesMap_Get sum64 zero fuel) (BytesMap_Val sum64 zero fuel) (BytesMap_Ptr sum64 fuel)
  (BytesMap_All sum64 fuel).
Definition PIntMap_api : pmapapi Z V unit U := PMapApi
  (IntMap_Set sum64 fuel) (IntMap_Mod sum64 zero fuel) (IntMap_Del sum64 fuel)
  (IntMap_Get sum64 zero fuel) (IntMap_Val sum64 zero fuel) (IntMap_Ptr sum64 fuel)
  (IntMap_All sum64 fuel).
Definition PArrMap_api {K} (keq : K -> K -> bool) (KeyBytes : K -> bytes) : pmapapi K V K U := PMapApi
  (ArrMap_Set sum64 zero fuel keq KeyBytes) (ArrMap_Mod sum64 zero fuel keq KeyBytes)
  (ArrMap_Del sum64 fuel keq KeyBytes) (ArrMap_Get sum64 zero fuel keq KeyBytes)
  (ArrMap_Val sum64 zero fuel keq KeyBytes) (ArrMap_Ptr sum64 fuel keq KeyBytes)
  (ArrMap_All sum64 fuel keq KeyBytes).
Definition PMap_api {K} (Equal : K -> K -> bool) (Hash : K -> N -> N -> N) : pmapapi K V K U := PMapApi
  (Map_Set fuel Equal Hash) (Map_Mod zero fuel Equal Hash) (Map_Del fuel Equal Hash)
  (Map_Get zero fuel Equal Hash) (Map_Val zero fuel Equal Hash) (Map_Ptr fuel Equal Hash)
  (Map_All fuel Equal Hash).

Definition PStringSet_api : psetapi bytes unit bytes U := PSetApi
  (StringSet_Add sum64 fuel) (StringSet_Del sum64 fuel) (StringSet_Has sum64 fuel)
  (StringSet_All sum64 fuel).
Definition PBytesSet_api : psetapi bytes unit bytes U := PSetApi
  (BytesSet_Add sum64 fuel) (BytesSet_Del sum64 fuel) (BytesSet_Has sum64 fuel)
  (BytesSet_All sum64 fuel).
Definition PIntSet_api : psetapi Z unit unit U := PSetApi
  (IntSet_Add sum64 fuel) (IntSet_Del sum64 fuel) (IntSet_Has sum64 fuel)
  (IntSet_All sum64 fuel).
Definition PArrSet_api {K} (keq : K -> K -> bool) (KeyBytes : K -> bytes) : psetapi K unit K U := PSetApi
  (ArrSet_Add sum64 fuel keq KeyBytes) (ArrSet_Del sum64 fuel keq KeyBytes)
  (ArrSet_Has sum64 fuel keq KeyBytes) (ArrSet_All sum64 fuel keq KeyBytes).
Definition PSet_api {K} (Equal : K -> K -> bool) (Hash : K -> N -> N -> N) : psetapi K unit K U := PSetApi
  (Set_Add fuel Equal Hash) (Set_Del fuel Equal Hash) (Set_Has fuel Equal Hash)
  (Set_All fuel Equal Hash).
End types.

Section sims.
Variable sum64 : N -> bytes -> N.
Lemma sim_kv_key {K V U} iv : sim (PFam.kv_key (K:=K) (V:=V) (U:=U) iv) (Families.kv_key iv).
Proof. unfold PFam.kv_key, Families.kv_key. sims. Qed.
Lemma sim_kv_new {K V U} v k : sim (PFam.kv_new (K:=K) (V:=V) (U:=U) v k) (Families.kv_new v k).
Proof. unfold PFam.kv_new, Families.kv_new. sims. Qed.
Lemma string_sim {V U} : famsim (PFam.string_fam (V:=V) (U:=U) sum64) (Families.string_fam sum64).
Proof. split; try done; simpl; intros; first [apply sim_kv_key|apply sim_kv_new]. Qed.
Lemma bytes_sim {V U} : famsim (PFam.bytes_fam (V:=V) (U:=U) sum64) (Families.bytes_fam sum64).
Proof. split; try done; simpl; intros; first [apply sim_kv_key|apply sim_kv_new]. Qed.
Lemma arr_sim {K V U} keq KB : famsim (PFam.arr_fam (K:=K) (V:=V) (U:=U) sum64 keq KB) (Families.arr_fam sum64 keq KB).
Proof. split; try done; simpl; intros; first [apply sim_kv_key|apply sim_kv_new]. Qed.
Lemma int_sim {V U} : famsim (PFam.int_fam (V:=V) (U:=U) sum64) (Families.int_fam sum64).
Proof. split; try done; simpl; intros; unfold PFam.int_new, Families.int_new; sims. Qed.
Lemma intset_sim {V U} : famsim (PFam.intset_fam (V:=V) (U:=U) sum64) (Families.intset_fam sum64).
Proof. by split. Qed.
Lemma gen_sim {K V U} eq H : famsim (PFam.gen_fam (K:=K) (V:=V) (U:=U) eq H) (Families.gen_fam eq H).
Proof. split; try done; simpl; intros; first [apply sim_kv_key|apply sim_kv_new]. Qed.
Lemma gen_mod_sim {K V U} eq H : famsim (PFam.gen_mod_fam (K:=K) (V:=V) (U:=U) eq H) (Families.gen_mod_fam eq H).
Proof. split; try done; simpl; intros; first [apply sim_kv_key|apply sim_kv_new]. Qed.

Hint Resolve string_sim bytes_sim arr_sim int_sim intset_sim gen_sim gen_mod_sim sim_get sim_val sim_ptr_of sim_delete
  sim_delete_gen sim_all_map sim_all_set sim_has sim_insert sim_set_op sim_mod_op sim_add_op sim_with_check sim_with_split : csim.
Hint Resolve fs_new : csim.
Context {V U : Type} (zero : V) (fuel : nat).
Ltac mapi := split; intros; [eapply sim_insert|eapply sim_insert|eapply sim_delete|eapply sim_get|eapply sim_val|eapply sim_ptr_of|eapply sim_all_map];
  eauto 6 with csim nocore.
Ltac sapi := split; intros; [eapply sim_insert|first [eapply sim_delete|eapply sim_delete_gen]|eapply sim_has|eapply sim_all_set]; eauto 6 with csim nocore.
Lemma StringMap_sim : mapi_sim (PStringMap_api (V:=V) (U:=U) sum64 zero fuel) (StringMap_api sum64 zero fuel).
Proof. mapi. Qed.
Lemma BytesMap_sim : mapi_sim (PBytesMap_api (V:=V) (U:=U) sum64 zero fuel) (BytesMap_api sum64 zero fuel).
Proof. mapi. Qed.
Lemma IntMap_sim : mapi_sim (PIntMap_api (V:=V) (U:=U) sum64 zero fuel) (IntMap_api sum64 zero fuel).
Proof. mapi. Qed.
Lemma ArrMap_sim {K} keq KB : mapi_sim (PArrMap_api (V:=V) (U:=U) (K:=K) sum64 zero fuel keq KB) (ArrMap_api sum64 zero fuel keq KB).
Proof. mapi. Qed.
Lemma Map_sim {K} eq H : mapi_sim (PMap_api (V:=V) (U:=U) (K:=K) zero fuel eq H) (Map_api zero fuel eq H).
Proof. mapi. Qed.
Lemma StringSet_sim : sapi_sim (PStringSet_api (U:=U) sum64 fuel) (StringSet_api sum64 fuel).
Proof. sapi. Qed.
Lemma BytesSet_sim : sapi_sim (PBytesSet_api (U:=U) sum64 fuel) (BytesSet_api sum64 fuel).
Proof. sapi. Qed.
Lemma IntSet_sim : sapi_sim (PIntSet_api (U:=U) sum64 fuel) (IntSet_api sum64 fuel).
Proof. sapi. Qed.
Lemma ArrSet_sim {K} keq KB : sapi_sim (PArrSet_api (U:=U) (K:=K) sum64 fuel keq KB) (ArrSet_api sum64 fuel keq KB).
Proof. sapi. Qed.
Lemma Set_sim {K} eq H : sapi_sim (PSet_api (U:=U) (K:=K) fuel eq H) (Set_api fuel eq H).
Proof. sapi. Qed.
End sims.
