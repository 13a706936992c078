(** The generic and the ArrKey types with key methods (Hash, Equal, KeyBytes, and Go's ==
    where it is not that of a basic type) that have effects of their own and may panic.

    The code is that of Amt.v and Families.v, except that each call of a key method is a
    step of its own, in the order of the Go code. Amt.v takes these methods to be total and
    pure functions. *)
From stdpp Require Import base numbers list gmap.
From Verif Require Import GoInt Mem Hash Amt Families Spec Client.
Local Open Scope N_scope.

Section methods.
(** C: whatever the key methods read and write, none of which is memory of the containers
    nor the user's other state U. *)
Context {V CK U C : Type}.
Local Notation M := (M V CK (U * C)).

(** A call of a key method: it changes C, and returns a value or panics ([None]). *)
Definition meth {A} (f : C -> C * option A) : M A :=
  uc <- get_usr ;;
  put_usr (uc.1, (f uc.2).1) ;;;
  match (f uc.2).2 with Some a => ret a | None => panic end.
End methods.

Section eamt.
Context {K HS V CK U C : Type}.
Local Notation M := (M V CK (U * C)).
Local Notation found := (@found HS).

(** What differs between the types (as [fam] of Amt.v). *)
Record efam : Type := EFam {
  (** generic_map.go:98; arr_map.go:84-88 *)
  e_start : N -> K -> M (HS * N);
  (** generic_map.go:109; arr_map.go:99-100 *)
  e_next : N -> K -> N -> HS * N -> M (HS * N);
  (** generic_map.go:149, 238; arr_map.go:145-151 *)
  e_conf : nat -> N -> K -> K -> N -> M (option (HS * N));
  (** generic_map.go:114, 144; arr_map.go:106, 140 *)
  e_eq : K -> K -> M bool;
  (** how items and structs are read and made; its hash and comparison are not used *)
  e_base : fam K unit V CK (U * C) }.
Variable F : efam.
Local Notation B := (e_base F).

(** generic_map.go:105-110; arr_map.go:96-101. *)
Definition eadvance (seed : N) (k : K) (d : N) (h : HS * N) : M (HS * N) :=
  if negb (d mod 16 =? 0) then ret (h.1, N.shiftr h.2 4) else e_next F seed k d h.

(** The traversal loop: generic_map.go:101-113 (Ptr), 128-140 (Set), 217-229 (Mod),
    311-324 (Del); arr_map.go:91-105 and the others alike. *)
Fixpoint edescend {A} (visit : A -> N -> lref -> M A) (fuel : nat) (seed : N) (k : K)
    (h : HS * N) (l : lref) (d : N) (acc : A) : M (found A) :=
  match fuel with
  | O => hang
  | S fuel =>
      lv <- load_link l ;;
      if N.land (lk_pmap lv) (bit_of (radix_of h)) =? 0
      then ret (Missing fuel h d l acc)
      else
        acc <- visit acc (radix_of h) l ;;
        let item := elem (lk_ptr lv) (idx_of (lk_pmap lv) (radix_of h)) in
        if N.land (lk_tmap lv) (bit_of (radix_of h)) =? 0
        then h <- eadvance seed k (u8 (d + 1)) h ;;
             edescend visit fuel seed k h item (u8 (d + 1)) acc
        else ret (Present fuel h d l item acc)
  end.

(** generic_map.go:97-121; generic_set.go:52-73; arr_map.go:83-112; arr_set.go:53-79. *)
Definition efind (fuel : nat) (h : option loc) (k : K) : M (option link) :=
  match h with
  | None => panic
  | Some r =>
      rt <- load_root r ;;
      hs <- e_start F (rt_seed rt) k ;;
      res <- edescend no_visit fuel (rt_seed rt) k hs (RootRef r) 0 tt ;;
      match res with
      | Missing _ _ _ _ _ => ret None
      | Present _ _ _ _ item _ =>
          iv <- load_link item ;;
          ck <- f_key B iv ;;
          b <- e_eq F k ck ;;
          ret (if (b : bool) then Some iv else None)
      end
  end.

(** Ptr (generic_map.go:97-121; arr_map.go:83-112). *)
Definition eptr_of (fuel : nat) (h : option loc) (k : K) : M ptr :=
  res <- efind fuel h k ;;
  match res with
  | None => ret Nil
  | Some iv => match lk_ptr iv with Nil => panic | At p => ret (At p) end
  end.
(** Get (generic_map.go:78-83; arr_map.go:64-69). *)
Definition eget (fuel : nat) (zero : V) (h : option loc) (k : K) : M (V * bool) :=
  p <- eptr_of fuel h k ;;
  match p with
  | Nil => ret (zero, false)
  | At _ => x <- load_kv p ;; ret (x.1, true)
  end.
(** Val (generic_map.go:86-93; arr_map.go:72-79). *)
Definition eval (fuel : nat) (zero : V) (h : option loc) (k : K) : M V :=
  match h with
  | None => ret zero
  | Some _ =>
      p <- eptr_of fuel h k ;;
      match p with
      | Nil => ret zero
      | At _ => x <- load_kv p ;; ret x.1
      end
  end.
(** Has (generic_set.go:52-73; arr_set.go:53-79). *)
Definition ehas (fuel : nat) (h : option loc) (k : K) : M bool :=
  res <- efind fuel h k ;;
  ret (match res with Some _ => true | None => false end).

Variable op : insop V CK (U * C).

(** The loop that replaces an item by new branches: generic_map.go:153-181 (Set), 242-271
    (Mod), generic_set.go:105-133; arr_map.go:155-183 and the others alike. *)
Fixpoint esplit (fuel : nat) (r : loc) (seed : N) (k ck : K) (cp : ptr)
    (h ch : HS * N) (item : lref) (d : N) : M unit :=
  match fuel with
  | O => hang
  | S fuel =>
      let d := u8 (d + 1) in
      h <- eadvance seed k d h ;;
      ch <- eadvance seed ck d ch ;;
      let kbit := bit_of (radix_of h) in
      let cbit := bit_of (radix_of ch) in
      upd_link item (lk_with_pmap (N.lor kbit cbit)) ;;;
      if negb (kbit =? cbit)
      then
        upd_link item (λ x, lk_with_tmap (lk_pmap x) x) ;;;
        a <- new_link_array 2 ;;
        upd_link item (lk_with_ptr a) ;;;
        p <- io_split op ;;
        iv <- load_link item ;;
        (if kbit <? cbit
         then upd_link (elem (lk_ptr iv) 0) (f_pair B k p) ;;;
              upd_link (elem (lk_ptr iv) 1) (f_pair B ck cp)
         else upd_link (elem (lk_ptr iv) 0) (f_pair B ck cp) ;;;
              upd_link (elem (lk_ptr iv) 1) (f_pair B k p)) ;;;
        count_in r (d * 2)
      else
        a <- new_link_array 1 ;;
        upd_link item (lk_with_ptr a) ;;;
        esplit fuel r seed k ck cp h ch (elem a 0) d
  end.

(** generic_map.go:142-182 (Set), 231-272 (Mod); generic_set.go:94-134; arr_map.go:138-184
    and the others alike. None of these types has the check of BytesMap. *)
Definition eadd_present (fuel : nat) (r : loc) (seed : N) (k : K) (h : HS * N) (d : N)
    (l item : lref) : M unit :=
  iv <- load_link item ;;
  ck <- f_key B iv ;;
  b <- e_eq F k ck ;;
  if (b : bool) then io_found op iv
  else
    conf <- e_conf F fuel seed k ck d ;;
    match conf with
    | None => hang
    | Some ch =>
        upd_link l (λ x, lk_with_tmap (andnot (lk_tmap x) (bit_of (radix_of h))) x) ;;;
        upd_root r (λ rt, rt_with_dep (sub64 (rt_dep rt) d) rt) ;;;
        esplit fuel r seed k ck (lk_ptr iv) h ch item d
    end.

(** Set (generic_map.go:124-210; arr_map.go:115-213), Mod (generic_map.go:213-301;
    arr_map.go:217-318), Add (generic_set.go:76-160; arr_set.go:82-179). *)
Definition einsert (fuel : nat) (h : option loc) (k : K) : M unit :=
  match h with
  | None => panic
  | Some r =>
      rt <- load_root r ;;
      hs <- e_start F (rt_seed rt) k ;;
      res <- edescend no_visit fuel (rt_seed rt) k hs (RootRef r) 0 tt ;;
      match res with
      | Missing _ hs d l _ =>
          lv <- load_link l ;;
          add_item B op r k (tt, hs.2) d l (idx_of (lk_pmap lv) (radix_of hs))
      | Present fuel' hs d l item _ =>
          eadd_present fuel' r (rt_seed rt) k hs d l item
      end
  end.

(** Del (generic_map.go:304-375; generic_set.go:163-234; arr_map.go:321-397;
    arr_set.go:182-258). *)
Definition edelete (fuel : nat) (h : option loc) (k : K) : M unit :=
  match h with
  | None => panic
  | Some r =>
      rt <- load_root r ;;
      hs <- e_start F (rt_seed rt) k ;;
      res <- edescend (path_push r) fuel (rt_seed rt) k hs (RootRef r) 0 (PRoot 0) ;;
      match res with
      | Missing _ _ _ _ _ => ret tt
      | Present _ hs d l item p =>
          iv <- load_link item ;;
          ck <- f_key B iv ;;
          b <- e_eq F k ck ;;
          if negb (b : bool) then ret tt
          else
            lv <- load_link l ;;
            remove fuel r p (tt, hs.2) d l (idx_of (lk_pmap lv) (radix_of hs))
      end
  end.
End eamt.
Global Arguments efam : clear implicits.

(** ** The types *)
Section types.
Context {K V U C : Type}.
Local Notation M := (M V K (U * C)).

(** Structs that hold the key (generic_map.go:57-60; arr_map.go:43-46). *)
Definition kv_base : fam K unit V K (U * C) :=
  Fam (λ _ _, (tt, 0)) (λ _ _ _ h, h) (λ _ _ _ _ _, None) kv_key kv_leaf kv_pair kv_new (λ _ _, false).

(** Generic Map and Set: Start: generic_map.go:98; rehash: line 109; conflicting key: line
    149, in Mod line 238, which hashes the new key. *)
Definition gen_efam (Equal : K -> K -> C -> C * option bool) (Hash : K -> N -> N -> C -> C * option N) (is_mod : bool)
    : efam K unit V K U C :=
  EFam (λ seed k, x <- meth (Hash k seed 0) ;; ret (tt, x))
       (λ seed k d _, x <- meth (Hash k seed (N.shiftr d 4)) ;; ret (tt, x))
       (λ _ seed k ck d, x <- meth (Hash (if is_mod then k else ck) seed (d mod 16)) ;;
          ret (Some (tt, N.shiftr x (4 * (d mod 16)))))
       (λ k ck, meth (Equal k ck)) kv_base.

(** ArrMap and ArrSet: the bytes of a key are asked for once (arr_map.go:84, 145) and kept
    with the state of the hash. *)
Definition arr_efam (sum64 : N -> bytes -> N) (keq : K -> K -> C -> C * option bool) (KeyBytes : K -> C -> C * option bytes)
    : efam K (mhash * bytes) V K U C :=
  EFam (λ seed k, kb <- meth (KeyBytes k) ;;
          let hw := mh_write (mh_new seed) kb in ret ((hw, kb), mh_sum sum64 hw))
       (λ seed k d h, let hw := mh_write h.1.1 h.1.2 in ret ((hw, h.1.2), mh_sum sum64 hw))
       (λ fuel seed k ck d, ckb <- meth (KeyBytes ck) ;;
          ret ((λ hw, ((hw, ckb), N.shiftr (mh_sum sum64 hw) (4 * (d mod 16)))) <$> conf_loop fuel ckb 0 d (mh_new seed)))
       (λ k ck, meth (keq ck k)) kv_base.
End types.

Section api.
Context {K V U C : Type} (zero : V) (fuel : nat).

(** ArrMap (arr_map.go:64, 72, 83, 115, 217, 321, 401); the struct made by Set after a
    conflict has no value (arr_map.go:170). All calls no key method. *)
Definition EArrMap_api (sum64 : N -> bytes -> N) (keq : K -> K -> C -> C * option bool) (KeyBytes : K -> C -> C * option bytes)
    : mapapi K V K (U * C) :=
  let F := arr_efam sum64 keq KeyBytes in
  MapApi (λ h k v, einsert F (with_split (set_op kv_base k v) (kv_new zero k)) fuel h k)
          (λ h k f, einsert F (mod_op kv_base zero k f) fuel h k)
          (edelete F fuel) (eget F fuel zero) (eval F fuel zero) (eptr_of F fuel)
          (all_map kv_base fuel).
(** Map (generic_map.go:78, 86, 97, 124, 213, 304, 379). *)
Definition EMap_api (Equal : K -> K -> C -> C * option bool) (Hash : K -> N -> N -> C -> C * option N)
    : mapapi K V K (U * C) :=
  let F := gen_efam Equal Hash false in
  MapApi (λ h k v, einsert F (set_op kv_base k v) fuel h k)
          (λ h k f, einsert (gen_efam Equal Hash true) (mod_op kv_base zero k f) fuel h k)
          (edelete F fuel) (eget F fuel zero) (eval F fuel zero) (eptr_of F fuel)
          (all_map kv_base fuel).
End api.

Section api_set.
Context {K U C : Type} (fuel : nat).
(** ArrSet (arr_set.go:53, 82, 182, 262). *)
Definition EArrSet_api (sum64 : N -> bytes -> N) (keq : K -> K -> C -> C * option bool) (KeyBytes : K -> C -> C * option bytes)
    : setapi K unit K (U * C) :=
  let F := arr_efam sum64 keq KeyBytes in
  SetApi (λ h k, einsert F (add_op kv_base tt k) fuel h k) (edelete F fuel) (ehas F fuel) (all_set kv_base fuel).
(** Set (generic_set.go:52, 76, 163, 238). *)
Definition ESet_api (Equal : K -> K -> C -> C * option bool) (Hash : K -> N -> N -> C -> C * option N)
    : setapi K unit K (U * C) :=
  let F := gen_efam Equal Hash false in
  SetApi (λ h k, einsert F (add_op kv_base tt k) fuel h k) (edelete F fuel) (ehas F fuel) (all_set kv_base fuel).
End api_set.
