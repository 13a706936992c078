(** The ten families as instances of the template of Amt.v. *)
From stdpp Require Import base numbers list gmap.
From Coq Require Import SpecFloat.
From Verif Require Import GoInt Mem Hash Amt.
Local Open Scope N_scope.

Section families.
(** The hash function of maphash (see Hash.v); every theorem quantifies over it. *)
Variable sum64 : N -> bytes -> N.

(** ** Families that hash with a streaming maphash.Hash *)
Section stream.
Context {K V CK U : Type}.
Variable kbytes : K -> bytes.

(** string_map.go:91-94; arr_map.go:84-88; bytes_map.go:93-96; int_map.go:97-101. *)
Definition stream_start (seed : N) (k : K) : mhash * N :=
  let hw := mh_write (mh_new seed) (kbytes k) in (hw, mh_sum sum64 hw).

(** string_map.go:105-106; arr_map.go:99-100; bytes_map.go:107-108;
    int_map.go:112-113. *)
Definition stream_next (seed : N) (k : K) (d : N) (h : mhash * N) : mhash * N :=
  let hw := mh_write h.1 (kbytes k) in (hw, mh_sum sum64 hw).

(** [for cd := uint8(0); cd <= d; cd += 16 { chw.Write(ckey) }]
    (string_map.go:152-154; arr_map.go:148-150; bytes_map.go:155-157;
    int_map.go:161-163). cd is a uint8 and wraps. *)
Fixpoint conf_loop (fuel : nat) (b : bytes) (cd d : N) (h : mhash) : option mhash :=
  match fuel with
  | O => None
  | S fuel =>
      if cd <=? d then conf_loop fuel b (u8 (cd + 16)) d (mh_write h b) else Some h
  end.

(** string_map.go:150-155; arr_map.go:145-151; bytes_map.go:153-158;
    int_map.go:158-164. *)
Definition stream_conf (fuel : nat) (seed : N) (k ck : K) (d : N) : option (mhash * N) :=
  (λ hw, (hw, N.shiftr (mh_sum sum64 hw) (4 * (d mod 16)))) <$>
    conf_loop fuel (kbytes ck) 0 d (mh_new seed).
End stream.

(** ** Key-value structs that hold the key: kv, arrkv, byteskv, strkv
    (generic_map.go:57-60, arr_map.go:43-46, bytes_map.go:52-55,
    string_map.go:50-53) *)
Section kv.
Context {K V U : Type}.
(** [ckv.k] (string_map.go:143-144). *)
Definition kv_key (iv : link) : M V K U K := x <- load_kv (lk_ptr iv) ;; ret x.2.
(** [link{ptr: unsafe.Pointer(kv)}] (string_map.go:195-197). *)
Definition kv_leaf (k : K) (p : ptr) : link := Link p 0 0.
(** [pair[0].ptr = unsafe.Pointer(kv)] (string_map.go:176). *)
Definition kv_pair (k : K) (p : ptr) (x : link) : link := lk_with_ptr p x.
(** [&strkv[V]{value, key}] (string_map.go:174). *)
Definition kv_new (v : V) (k : K) : M V K U ptr := a <- alloc (BKv v k) ;; ret (At a).
End kv.

(** ** Integer keys, stored in the link *)
Section ints.
Context {V U : Type}.
(** int_map.go:119,152,371,438: the key is in the link; no struct is read. *)
Definition int_key (iv : link) : M V unit U Z := ret (int_join (lk_pmap iv) (lk_tmap iv)).
(** int_map.go:206-210. *)
Definition int_leaf (k : Z) (p : ptr) : link := Link p (int_lo k) (int_hi k).
(** int_map.go:185. *)
Definition int_pair (k : Z) (p : ptr) (x : link) : link := Link p (int_lo k) (int_hi k).
(** [&intkv[V]{value}] (int_map.go:183,207). *)
Definition int_new (v : V) (k : Z) : M V unit U ptr := a <- alloc (BKv v tt) ;; ret (At a).
(** IntSet stores no struct (int_set.go:136,157-160). *)
Definition intset_new (v : V) (k : Z) : M V unit U ptr := ret Nil.
End ints.

(** ** The families *)
Section instances.
Context {V U : Type}.

(** StringMap (string_map.go) and, with V = unit, StringSet (string_set.go):
    keys are compared with == (string_map.go:112,145,347). *)
Definition string_fam : fam bytes mhash V bytes U :=
  Fam (stream_start (λ k, k)) (stream_next (λ k, k)) (stream_conf (λ k, k))
      kv_key kv_leaf kv_pair kv_new (λ k ck, bool_decide (ck = k)).

(** BytesMap (bytes_map.go) and BytesSet (bytes_set.go): keys are compared with
    bytes.Equal (bytes_map.go:114,148). A retained slice is modelled by the
    bytes it had when it was added: callers must not modify it
    (bytes_map.go:46-48). See WeakMap.v for callers that do. *)
Definition bytes_fam : fam bytes mhash V bytes U :=
  Fam (stream_start (λ k, k)) (stream_next (λ k, k)) (stream_conf (λ k, k))
      kv_key kv_leaf kv_pair kv_new (λ k ck, bool_decide (ck = k)).

(** ArrMap (arr_map.go) and ArrSet (arr_set.go), for a key type with Go's ==
    ([keq]) and a KeyBytes method (arr_map.go:33-36, 106, 140). *)
Definition arr_fam {K} (keq : K -> K -> bool) (KeyBytes : K -> bytes)
    : fam K mhash V K U :=
  Fam (stream_start KeyBytes) (stream_next KeyBytes) (stream_conf KeyBytes)
      kv_key kv_leaf kv_pair kv_new (λ k ck, keq ck k).

(** IntMap (int_map.go). *)
Definition int_fam : fam Z mhash V unit U :=
  Fam (stream_start intbytes) (stream_next intbytes) (stream_conf intbytes)
      int_key int_leaf int_pair int_new (λ k ck, bool_decide (ck = k)).

(** IntSet (int_set.go). *)
Definition intset_fam : fam Z mhash V unit U :=
  Fam (stream_start intbytes) (stream_next intbytes) (stream_conf intbytes)
      int_key int_leaf int_pair intset_new (λ k ck, bool_decide (ck = k)).

(** Generic Map and Set, for a key type with methods Equal and Hash
    (generic_map.go:32-38), taken to be total and pure.
    Start: generic_map.go:98; rehash: line 109; conflicting key: line 149
    ([ckey.Hash(m.seed, uint(d%16)) >> (4*(d%16))]). *)
Definition gen_fam {K} (Equal : K -> K -> bool) (Hash : K -> N -> N -> N)
    : fam K unit V K U :=
  Fam (λ seed k, (tt, Hash k seed 0))
      (λ seed k d _, (tt, Hash k seed (N.shiftr d 4)))
      (λ _ seed k ck d, Some (tt, N.shiftr (Hash ck seed (d mod 16)) (4 * (d mod 16))))
      kv_key kv_leaf kv_pair kv_new Equal.

(** Generic Mod rehashes [key] instead of the conflicting key
    (generic_map.go:238). *)
Definition gen_mod_fam {K} (Equal : K -> K -> bool) (Hash : K -> N -> N -> N)
    : fam K unit V K U :=
  Fam (λ seed k, (tt, Hash k seed 0))
      (λ seed k d _, (tt, Hash k seed (N.shiftr d 4)))
      (λ _ seed k ck d, Some (tt, N.shiftr (Hash k seed (d mod 16)) (4 * (d mod 16))))
      kv_key kv_leaf kv_pair kv_new Equal.
End instances.

(** ** The API *)

(** New*, Nil, Len and Dep are the same for all families (amt.go:72-92;
    string_map.go:56-68). A map or set value is a *root: [None] is the zero
    value, copies share the pointer. *)
Section common.
Context {V CK U : Type}.
Definition New (seed : N) : M V CK U (option loc) := r <- new_root seed ;; ret (Some r).
Definition IsNil (h : option loc) : bool := match h with None => true | Some _ => false end.
Definition Len (h : option loc) : M V CK U N := root_len h.
Definition Dep (h : option loc) : M V CK U spec_float := root_dep h.
End common.

Section api.
Context {V U : Type}.
(** The zero value of V. *)
Variable zero : V.
Variable fuel : nat.

(** StringMap: string_map.go:71, 79, 90, 121, 221, 323, 402. *)
Definition StringMap_Get h k := get (U:=U) string_fam fuel zero h k.
Definition StringMap_Val h k := val (U:=U) string_fam fuel zero h k.
Definition StringMap_Ptr h k := ptr_of (V:=V) (U:=U) string_fam fuel h k.
Definition StringMap_Set h k v := insert (V:=V) (U:=U) string_fam (set_op string_fam k v) fuel h k.
Definition StringMap_Mod h k f := insert (V:=V) (U:=U) string_fam (mod_op string_fam zero k f) fuel h k.
Definition StringMap_Del h k := delete (V:=V) (U:=U) string_fam fuel h k.
Definition StringMap_All h f := all_map (V:=V) (U:=U) string_fam fuel h f.

(** BytesMap: bytes_map.go:73, 81, 92, 124, 229, 337, 416. *)
Definition BytesMap_Get h k := get (U:=U) bytes_fam fuel zero h k.
Definition BytesMap_Val h k := val (U:=U) bytes_fam fuel zero h k.
Definition BytesMap_Ptr h k := ptr_of (V:=V) (U:=U) bytes_fam fuel h k.
Definition BytesMap_Set h k v :=
  insert (V:=V) (U:=U) bytes_fam (with_check (set_op bytes_fam k v)) fuel h k.
Definition BytesMap_Mod h k f :=
  insert (V:=V) (U:=U) bytes_fam (with_check (mod_op bytes_fam zero k f)) fuel h k.
Definition BytesMap_Del h k := delete (V:=V) (U:=U) bytes_fam fuel h k.
Definition BytesMap_All h f := all_map (V:=V) (U:=U) bytes_fam fuel h f.

(** IntMap: int_map.go:77, 85, 96, 128, 236, 346, 426. *)
Definition IntMap_Get h k := get (U:=U) int_fam fuel zero h k.
Definition IntMap_Val h k := val (U:=U) int_fam fuel zero h k.
Definition IntMap_Ptr h k := ptr_of (V:=V) (U:=U) int_fam fuel h k.
Definition IntMap_Set h k v := insert (V:=V) (U:=U) int_fam (set_op int_fam k v) fuel h k.
Definition IntMap_Mod h k f := insert (V:=V) (U:=U) int_fam (mod_op int_fam zero k f) fuel h k.
Definition IntMap_Del h k := delete (V:=V) (U:=U) int_fam fuel h k.
Definition IntMap_All h f := all_map (V:=V) (U:=U) int_fam fuel h f.

Section arr.
Context {K : Type}.
Variables (keq : K -> K -> bool) (KeyBytes : K -> bytes).
Local Notation AF := (arr_fam keq KeyBytes).
(** ArrMap: arr_map.go:64, 72, 83, 115, 217, 321, 401. The struct made by Set
    after a conflict has no value (arr_map.go:170). *)
Definition ArrMap_Get h k := get (U:=U) AF fuel zero h k.
Definition ArrMap_Val h k := val (U:=U) AF fuel zero h k.
Definition ArrMap_Ptr h k := ptr_of (V:=V) (U:=U) AF fuel h k.
Definition ArrMap_Set h k v :=
  insert (V:=V) (U:=U) AF (with_split (set_op AF k v) (f_new AF zero k)) fuel h k.
Definition ArrMap_Mod h k f := insert (V:=V) (U:=U) AF (mod_op AF zero k f) fuel h k.
Definition ArrMap_Del h k := delete (V:=V) (U:=U) AF fuel h k.
Definition ArrMap_All h f := all_map (V:=V) (U:=U) AF fuel h f.
End arr.

Section gen.
Context {K : Type}.
Variables (Equal : K -> K -> bool) (Hash : K -> N -> N -> N).
Local Notation GF := (gen_fam Equal Hash).
(** Map: generic_map.go:78, 86, 97, 124, 213, 304, 379. *)
Definition Map_Get h k := get (U:=U) GF fuel zero h k.
Definition Map_Val h k := val (U:=U) GF fuel zero h k.
Definition Map_Ptr h k := ptr_of (V:=V) (U:=U) GF fuel h k.
Definition Map_Set h k v := insert (V:=V) (U:=U) GF (set_op GF k v) fuel h k.
Definition Map_Mod h k f :=
  insert (V:=V) (U:=U) (gen_mod_fam Equal Hash) (mod_op GF zero k f) fuel h k.
Definition Map_Del h k := delete (V:=V) (U:=U) GF fuel h k.
Definition Map_All h f := all_map (V:=V) (U:=U) GF fuel h f.
End gen.
End api.

Section api_set.
Context {U : Type}.
Variable fuel : nat.
(** Sets store kv[K, struct{}] structs: the value type is unit. *)

(** StringSet: string_set.go:53, 81, 179, 258. *)
Definition StringSet_Has h k := has (V:=unit) (U:=U) string_fam fuel h k.
Definition StringSet_Add h k := insert (V:=unit) (U:=U) string_fam (add_op string_fam tt k) fuel h k.
Definition StringSet_Del h k := delete (V:=unit) (U:=U) string_fam fuel h k.
Definition StringSet_All h f := all_set (V:=unit) (U:=U) string_fam fuel h f.

(** BytesSet: bytes_set.go:55, 84, 182, 261. Del treats an equal key as missing
    (bytes_set.go:206). *)
Definition BytesSet_Has h k := has (V:=unit) (U:=U) bytes_fam fuel h k.
Definition BytesSet_Add h k := insert (V:=unit) (U:=U) bytes_fam (add_op bytes_fam tt k) fuel h k.
Definition BytesSet_Del h k := delete_gen (V:=unit) (U:=U) bytes_fam (λ b, b) fuel h k.
Definition BytesSet_All h f := all_set (V:=unit) (U:=U) bytes_fam fuel h f.

(** IntSet: int_set.go:53, 82, 184, 264. *)
Definition IntSet_Has h k := has (V:=unit) (U:=U) intset_fam fuel h k.
Definition IntSet_Add h k := insert (V:=unit) (U:=U) intset_fam (add_op intset_fam tt k) fuel h k.
Definition IntSet_Del h k := delete (V:=unit) (U:=U) intset_fam fuel h k.
Definition IntSet_All h f := all_set (V:=unit) (U:=U) intset_fam fuel h f.

Section arr.
Context {K : Type}.
Variables (keq : K -> K -> bool) (KeyBytes : K -> bytes).
Local Notation AF := (arr_fam keq KeyBytes).
(** ArrSet: arr_set.go:53, 82, 182, 262. *)
Definition ArrSet_Has h k := has (V:=unit) (U:=U) AF fuel h k.
Definition ArrSet_Add h k := insert (V:=unit) (U:=U) AF (add_op AF tt k) fuel h k.
Definition ArrSet_Del h k := delete (V:=unit) (U:=U) AF fuel h k.
Definition ArrSet_All h f := all_set (V:=unit) (U:=U) AF fuel h f.
End arr.

Section gen.
Context {K : Type}.
Variables (Equal : K -> K -> bool) (Hash : K -> N -> N -> N).
Local Notation GF := (gen_fam Equal Hash).
(** Set: generic_set.go:52, 76, 163, 238. *)
Definition Set_Has h k := has (V:=unit) (U:=U) GF fuel h k.
Definition Set_Add h k := insert (V:=unit) (U:=U) GF (add_op GF tt k) fuel h k.
Definition Set_Del h k := delete (V:=unit) (U:=U) GF fuel h k.
Definition Set_All h f := all_set (V:=unit) (U:=U) GF fuel h f.
End gen.
End api_set.
End families.
