(** The trie code shared by the ten families (amt.go and the methods that are
    textual copies of one another). Line numbers without a file name refer to
    string_map.go; the instances in Families.v cite the lines of each family. *)
From stdpp Require Import base numbers list gmap.
From Coq Require Import SpecFloat.
From Verif Require Import GoInt Mem.
Local Open Scope N_scope.

Section amt.
(** K: key type; HS: state of a streaming hash (trivial for the generic
    families); V, CK, U: see Mem.v. *)
Context {K HS V CK U : Type}.
Local Notation M := (M V CK U).

(** ** amt.go *)

(** newRoot (amt.go:72-76). The random seed is an argument. *)
Definition new_root (seed : N) : M loc :=
  a <- alloc (BLinks (replicate 16 zero_link)) ;;
  alloc (BRoot (Root (Link (At a) 0 0) seed 0 0 (replicate 12 (PLink 0 None)))).

(** root.Len (amt.go:79-84). [None] is a nil *root. uint is 64 bits wide. *)
Definition root_len (h : option loc) : M N :=
  match h with
  | None => ret 0
  | Some r => rt <- load_root r ;; ret (rt_len rt)
  end.

(** float64(n) for a uint64 n, and float64 division: IEEE-754 binary64, round
    to nearest even (Coq.Floats.SpecFloat). *)
Definition float_of_N (n : N) : spec_float :=
  binary_normalize 53 1024 (Z.of_N n) 0 false.
Definition float_div (x y : spec_float) : spec_float := SFdiv 53 1024 x y.

(** root.Dep (amt.go:87-92). *)
Definition root_dep (h : option loc) : M spec_float :=
  match h with
  | None => ret (S754_zero false)
  | Some r =>
      rt <- load_root r ;;
      if rt_len rt =? 0 then ret (S754_zero false)
      else ret (float_div (float_of_N (rt_dep rt)) (float_of_N (rt_len rt)))
  end.

(** newLinkArray (amt.go:120-131). *)
Definition new_link_array (capacity : nat) : M ptr :=
  a <- alloc (BLinks (replicate
         (if (capacity <=? 4)%nat then 4
          else if (capacity <=? 8)%nat then 8
          else if (capacity <=? 12)%nat then 12 else 16)%nat zero_link)) ;;
  ret (At a).

(** ** What differs between the families *)
Record fam : Type := Fam {
  (** hash state and hd before the loop (lines 91-94) *)
  f_start : N -> K -> HS * N;
  (** rehash of a key at depth d, d%16 = 0 (lines 105-106) *)
  f_next : N -> K -> N -> HS * N -> HS * N;
  (** rehash of the conflicting key: seed, new key, conflicting key, depth
      (lines 150-155); [None]: the loop exceeds its fuel *)
  f_conf : nat -> N -> K -> K -> N -> option (HS * N);
  (** the key of a key-value item (line 144; int_map.go:152) *)
  f_key : link -> M K;
  (** the link literal of a new key-value item (lines 195-197;
      int_map.go:206-210) *)
  f_leaf : K -> ptr -> link;
  (** assignment to an element of [pair] (line 176; int_map.go:185) *)
  f_pair : K -> ptr -> link -> link;
  (** allocation of the key-value struct (line 174; nothing for IntSet) *)
  f_new : V -> K -> M ptr;
  (** argument key equals stored key (line 112) *)
  f_eq : K -> K -> bool }.

Variable F : fam.

(** ** Traversal, common to Ptr, Has, Set, Add, Mod and Del *)

(** [d++; if d%16 != 0 { hd >>= 4 } else { rehash }] (lines 101-107); d is the
    incremented depth. In the generic families the test is [d&0xF != 0]
    (generic_map.go:106), the same function of d. *)
Definition advance (seed : N) (k : K) (d : N) (h : HS * N) : HS * N :=
  if negb (d mod 16 =? 0) then (h.1, N.shiftr h.2 4) else f_next F seed k d h.

(** [radix := uint8(hd & 0xF)] (line 95). *)
Definition radix_of (h : HS * N) : N := N.land h.2 15.
(** [bit := uint32(1)<<radix] (line 96). *)
Definition bit_of (radix : N) : N := shl32 1 radix.
(** [idx := OnesCount32(l.pmap &^ (^uint32(0)<<radix))] (line 96). *)
Definition idx_of (pmap radix : N) : nat := ones_count32 (andnot pmap (shl32 ones32 radix)).

(** Where a traversal stops: the item is missing, or a key-value item is
    present. Carries the remaining fuel, the hash state, the depth, the level
    [l] and the accumulator of the visitor. *)
Inductive found (A : Type) : Type :=
  | Missing (fuel : nat) (h : HS * N) (d : N) (l : lref) (acc : A)
  | Present (fuel : nat) (h : HS * N) (d : N) (l item : lref) (acc : A).
Global Arguments Missing {A}.
Global Arguments Present {A}.

(** The traversal loop (lines 97-111; Set 128-142, Mod 228-242, Del 331-346).
    [visit] is what Del does at the head of the loop body (line 332); it is
    a no-op elsewhere. *)
Fixpoint descend {A} (visit : A -> N -> lref -> M A) (fuel : nat) (seed : N) (k : K)
    (h : HS * N) (l : lref) (d : N) (acc : A) : M (found A) :=
  match fuel with
  | O => hang
  | S fuel =>
      lv <- load_link l ;;
      if N.land (lk_pmap lv) (bit_of (radix_of h)) =? 0
      then ret (Missing fuel h d l acc)
      else
        acc <- visit acc (radix_of h) l ;;
        let item := elem (lk_ptr lv) (idx_of (lk_pmap lv) (radix_of h)) in
        if N.land (lk_tmap lv) (bit_of (radix_of h)) =? 0
        then descend visit fuel seed k (advance seed k (u8 (d + 1)) h) item (u8 (d + 1)) acc
        else ret (Present fuel h d l item acc)
  end.

Definition no_visit (acc : unit) (radix : N) (l : lref) : M unit := ret acc.

(** The common part of Ptr (lines 90-118) and Has (string_set.go:53-78): the
    matching key-value item, if any. A nil root panics at [m.seed]. *)
Definition find (fuel : nat) (h : option loc) (k : K) : M (option link) :=
  match h with
  | None => panic
  | Some r =>
      rt <- load_root r ;;
      res <- descend no_visit fuel (rt_seed rt) k (f_start F (rt_seed rt) k)
               (RootRef r) 0 tt ;;
      match res with
      | Missing _ _ _ _ _ => ret None
      | Present _ _ _ _ item _ =>
          iv <- load_link item ;;
          ck <- f_key F iv ;;
          ret (if f_eq F k ck then Some iv else None)
      end
  end.

(** Ptr (lines 90-118): [&kv.v] panics if the item's pointer is nil. *)
Definition ptr_of (fuel : nat) (h : option loc) (k : K) : M ptr :=
  res <- find fuel h k ;;
  match res with
  | None => ret Nil
  | Some iv => match lk_ptr iv with Nil => panic | At p => ret (At p) end
  end.

(** Get (lines 71-76); [zero] is the zero value of V. *)
Definition get (fuel : nat) (zero : V) (h : option loc) (k : K) : M (V * bool) :=
  p <- ptr_of fuel h k ;;
  match p with
  | Nil => ret (zero, false)
  | At _ => x <- load_kv p ;; ret (x.1, true)
  end.

(** Val (lines 79-86). *)
Definition val (fuel : nat) (zero : V) (h : option loc) (k : K) : M V :=
  match h with
  | None => ret zero
  | Some _ =>
      p <- ptr_of fuel h k ;;
      match p with
      | Nil => ret zero
      | At _ => x <- load_kv p ;; ret x.1
      end
  end.

(** Has (string_set.go:53-78). *)
Definition has (fuel : nat) (h : option loc) (k : K) : M bool :=
  res <- find fuel h k ;;
  ret (match res with Some _ => true | None => false end).

(** ** Insertion: Set (lines 121-217), Mod (221-320), Add (string_set.go:81-176) *)

(** Write and read of the i-th link of an array through pointer arithmetic
    (lines 192-193). *)
Definition load_at (p : ptr) (i : nat) : M link := load_link (elem p i).
Definition store_at (p : ptr) (i : nat) (x : link) : M unit := store_link (elem p i) x.
Definition upd_link (l : lref) (f : link -> link) : M unit :=
  x <- load_link l ;; store_link l (f x).

(** [for after := int(count)-1; after >= int(idx); after-- { p[after+1] = p[after] }]
    (lines 191-194) with n = count - idx iterations; the current [after] is
    idx + n'. Simplification (all copy loops): l.ptr is read once, before the
    loop, not in every iteration. *)
Fixpoint shift_up (p : ptr) (idx n : nat) : M unit :=
  match n with
  | O => ret tt
  | S n' =>
      x <- load_at p (idx + n') ;;
      store_at p (idx + n' + 1) x ;;;
      shift_up p idx n'
  end.

(** [for i := start; i < start+n; i++ { dst[i+doff] = src[i+soff] }]: the copy
    loops of lines 201-204 (doff = soff = 0), 208-211 (doff = 1),
    371-374 and 376-379 (soff = 1). *)
Fixpoint copy_range (src dst : ptr) (soff doff start n : nat) : M unit :=
  match n with
  | O => ret tt
  | S n' =>
      x <- load_at src (start + soff) ;;
      store_at dst (start + doff) x ;;;
      copy_range src dst soff doff (S start) n'
  end.

(** What differs between Set, Mod and Add. *)
Record insop : Type := InsOp {
  (** the key exists (lines 145-148, 245-248) *)
  io_found : link -> M unit;
  (** allocation (and, for Mod, initialisation by the callback) of the new
      key-value struct when no item is in the way (lines 196, 290-291) *)
  io_new : M ptr;
  (** the same after a conflict (lines 174, 274-275) *)
  io_split : M ptr;
  (** Mod makes the struct before it looks at the level (lines 290-291), Set
      while storing it (lines 195-197, 205-207) *)
  io_early : bool;
  (** BytesMap checks whether the conflicting key was modified
      (bytes_map.go:159-162, 264-269) *)
  io_check : bool }.

Variable op : insop.

(** m.len++ and m.dep += n (lines 180-181, 215-216). *)
Definition count_in (r : loc) (n : N) : M unit :=
  upd_root r (λ rt, rt_with_len (add64 (rt_len rt) 1) rt) ;;;
  upd_root r (λ rt, rt_with_dep (add64 (rt_dep rt) n) rt).

(** The loop that replaces an item by new branches until the two keys no
    longer collide (lines 159-187). [cp] is the conflicting key's struct. *)
Fixpoint split (fuel : nat) (r : loc) (seed : N) (k ck : K) (cp : ptr)
    (h ch : HS * N) (item : lref) (d : N) : M unit :=
  match fuel with
  | O => hang
  | S fuel =>
      let d := u8 (d + 1) in
      let h := advance seed k d h in
      let ch := advance seed ck d ch in
      let kbit := bit_of (radix_of h) in
      let cbit := bit_of (radix_of ch) in
      upd_link item (lk_with_pmap (N.lor kbit cbit)) ;;;
      if negb (kbit =? cbit)
      then
        upd_link item (λ x, lk_with_tmap (lk_pmap x) x) ;;;
        a <- new_link_array 2 ;;
        upd_link item (lk_with_ptr a) ;;;
        p <- io_split op ;;
        iv <- load_link item ;;
        (if kbit <? cbit
         then upd_link (elem (lk_ptr iv) 0) (f_pair F k p) ;;;
              upd_link (elem (lk_ptr iv) 1) (f_pair F ck cp)
         else upd_link (elem (lk_ptr iv) 0) (f_pair F ck cp) ;;;
              upd_link (elem (lk_ptr iv) 1) (f_pair F k p)) ;;;
        count_in r (d * 2)
      else
        a <- new_link_array 1 ;;
        upd_link item (lk_with_ptr a) ;;;
        split fuel r seed k ck cp h ch (elem a 0) d
  end.

(** Adding an item to a level that has none for the radix (lines 189-216,
    Mod 290-319). *)
Definition add_item (r : loc) (k : K) (h : HS * N) (d : N) (l : lref) (idx : nat) : M unit :=
  early <- (if io_early op then p <- io_new op ;; ret (Some p) else ret None) ;;
  let mk := match early with Some p => ret p | None => io_new op end in
  lv <- load_link l ;;
  let count := ones_count32 (lk_pmap lv) in
  (if (negb (count =? 0)%nat && negb (count mod 4 =? 0)%nat) || (d =? 0)
   then (* array slot available *)
     shift_up (lk_ptr lv) idx (count - idx) ;;;
     p <- mk ;;
     store_at (lk_ptr lv) idx (f_leaf F k p)
   else (* array full or empty *)
     let src := lk_ptr lv in
     a <- new_link_array (count + 1) ;;
     upd_link l (lk_with_ptr a) ;;;
     copy_range src a 0 0 0 idx ;;;
     p <- mk ;;
     store_at a idx (f_leaf F k p) ;;;
     copy_range src a 0 1 idx (count - idx)) ;;;
  upd_link l (λ x, lk_with_pmap (N.lor (lk_pmap x) (bit_of (radix_of h))) x) ;;;
  upd_link l (λ x, lk_with_tmap (N.lor (lk_tmap x) (bit_of (radix_of h))) x) ;;;
  count_in r d.

(** A key-value item is in the way (lines 143-187, Mod 243-288). *)
Definition add_present (fuel : nat) (r : loc) (seed : N) (k : K) (h : HS * N) (d : N)
    (l item : lref) : M unit :=
  iv <- load_link item ;;
  ck <- f_key F iv ;;
  if f_eq F k ck then io_found op iv
  else
    match f_conf F fuel seed k ck d with
    | None => hang
    | Some ch =>
        if io_check op && negb (radix_of ch =? radix_of h)
        then p <- io_split op ;; upd_link item (lk_with_ptr p)
        else
          upd_link l (λ x, lk_with_tmap (andnot (lk_tmap x) (bit_of (radix_of h))) x) ;;;
          upd_root r (λ rt, rt_with_dep (sub64 (rt_dep rt) d) rt) ;;;
          split fuel r seed k ck (lk_ptr iv) h ch item d
    end.

(** Set / Mod / Add. [idx] is computed when the loop exits, before the Mod
    callback runs. *)
Definition insert (fuel : nat) (h : option loc) (k : K) : M unit :=
  match h with
  | None => panic
  | Some r =>
      rt <- load_root r ;;
      res <- descend no_visit fuel (rt_seed rt) k (f_start F (rt_seed rt) k)
               (RootRef r) 0 tt ;;
      match res with
      | Missing _ hs d l _ =>
          lv <- load_link l ;;
          add_item r k hs d l (idx_of (lk_pmap lv) (radix_of hs))
      | Present fuel' hs d l item _ =>
          add_present fuel' r (rt_seed rt) k hs d l item
      end
  end.
End amt.

Global Arguments fam : clear implicits.
Global Arguments insop : clear implicits.

Section ops.
Context {K HS V CK U : Type}.
Local Notation M := (M V CK U).
Variable F : fam K HS V CK U.

(** Set (lines 121-217): [ckv.v = value] or a new [strkv[V]{value, key}]. *)
Definition set_op (k : K) (v : V) : insop V CK U := InsOp
  (λ iv, store_val (lk_ptr iv) v) (f_new F v k) (f_new F v k) false false.

(** Mod (lines 221-320): [mod(&ckv.v, true)], or a zero value passed to
    [mod(&kv.v, false)]. The callback is any computation. *)
Definition mod_new (zero : V) (k : K) (md : ptr -> bool -> M unit) : M ptr :=
  p <- f_new F zero k ;; md p false ;;; ret p.
Definition mod_op (zero : V) (k : K) (md : ptr -> bool -> M unit) : insop V CK U := InsOp
  (λ iv, match lk_ptr iv with Nil => panic | At p => md (At p) true end)
  (mod_new zero k md) (mod_new zero k md) true false.

(** Add (string_set.go:81-176): nothing to update; values are struct{}. *)
Definition add_op (zero : V) (k : K) : insop V CK U := InsOp
  (λ _, ret tt) (f_new F zero k) (f_new F zero k) false false.

(** BytesMap.Set and Mod (bytes_map.go:159-162, 264-269). *)
Definition with_check (o : insop V CK U) : insop V CK U :=
  InsOp (io_found o) (io_new o) (io_split o) (io_early o) true.
(** ArrMap.Set (arr_map.go:170): the struct made after a conflict. *)
Definition with_split (o : insop V CK U) (s : M ptr) : insop V CK U :=
  InsOp (io_found o) (io_new o) s (io_early o) (io_check o).

(** ** Deletion: Del (lines 323-397) *)

(** The slice [path]: a prefix of the root's scratch array, or, once append
    has outgrown its 12 elements, an array of its own (line 332: append). *)
Inductive pathv : Type := PRoot (n : nat) | POwn (l : list plink).

Definition path_push (r : loc) (p : pathv) (radix : N) (l : lref) : M pathv :=
  match p with
  | PRoot n =>
      rt <- load_root r ;;
      if (n <? 12)%nat
      then upd_root r (λ rt, rt_with_path (<[n := PLink radix (Some l)]> (rt_path rt)) rt) ;;;
           ret (PRoot (S n))
      else ret (POwn (take n (rt_path rt) ++ [PLink radix (Some l)]))
  | POwn q => ret (POwn (q ++ [PLink radix (Some l)]))
  end.

(** [path[i]] with its bounds check. *)
Definition path_get (r : loc) (p : pathv) (i : nat) : M plink :=
  match p with
  | PRoot n =>
      rt <- load_root r ;;
      if (i <? n)%nat
      then match rt_path rt !! i with Some x => ret x | None => panic end
      else panic
  | POwn q => match q !! i with Some x => ret x | None => panic end
  end.

(** [path[i].link = nil] with its bounds check; returns the updated slice. *)
Definition path_clear (r : loc) (p : pathv) (i : nat) : M pathv :=
  x <- path_get r p i ;;
  match p with
  | PRoot n =>
      upd_root r (λ rt, rt_with_path (<[i := PLink (pl_radix x) None]> (rt_path rt)) rt) ;;;
      ret (PRoot n)
  | POwn q => ret (POwn (<[i := PLink (pl_radix x) None]> q))
  end.

(** [l, radix = path[d].link, path[d].radix; path[d].link = nil] followed by a
    dereference of l (lines 360-362, 385-387): panics if l is nil. *)
Definition path_pop (r : loc) (p : pathv) (i : nat) : M (pathv * N * lref) :=
  x <- path_get r p i ;;
  p <- path_clear r p i ;;
  match pl_link x with
  | None => panic
  | Some l => ret (p, pl_radix x, l)
  end.

(** "unlink empty branches up to the root" (lines 357-366). Returns the path,
    l, idx, d and count. *)
Fixpoint unlink (fuel : nat) (r : loc) (p : pathv) (l : lref) (idx : nat) (d : N) (count : nat)
    : M (pathv * lref * nat * N * nat) :=
  match fuel with
  | O => hang
  | S fuel =>
      if (count =? 0)%nat && negb (d =? 0)
      then
        upd_link l (lk_with_ptr Nil) ;;;
        let d := dec8 d in
        x <- path_pop r p (N.to_nat d) ;;
        let '(p, radix, l) := x in
        lv <- load_link l ;;
        let idx := idx_of (lk_pmap lv) radix in
        upd_link l (λ y, lk_with_pmap (andnot (lk_pmap y) (bit_of radix)) y) ;;;
        upd_link l (λ y, lk_with_tmap (andnot (lk_tmap y) (bit_of radix)) y) ;;;
        lv <- load_link l ;;
        unlink fuel r p l idx d (ones_count32 (lk_pmap lv))
      else ret (p, l, idx, d, count)
  end.

(** "replace single-valued branches with key-values up to the root"
    (lines 381-389). Returns the path and d. *)
Fixpoint collapse (fuel : nat) (r : loc) (p : pathv) (l : lref) (d : N) (count : nat)
    : M (pathv * N) :=
  match fuel with
  | O => hang
  | S fuel =>
      lv <- load_link l ;;
      if (count =? 1)%nat && (lk_pmap lv =? lk_tmap lv) && negb (d =? 0)
      then
        x <- load_link (elem (lk_ptr lv) 0) ;;
        store_link l x ;;;
        upd_root r (λ rt, rt_with_dep (sub64 (rt_dep rt) 1) rt) ;;;
        let d := dec8 d in
        y <- path_pop r p (N.to_nat d) ;;
        let '(p, radix, l) := y in
        upd_link l (λ z, lk_with_tmap (N.lor (lk_tmap z) (bit_of radix)) z) ;;;
        lv <- load_link l ;;
        collapse fuel r p l d (ones_count32 (lk_pmap lv))
      else ret (p, d)
  end.

(** "clear the path to prevent leaks" (lines 391-394). *)
Fixpoint clear_path (fuel : nat) (r : loc) (p : pathv) (d : N) : M unit :=
  match fuel with
  | O => hang
  | S fuel =>
      if d =? 0 then ret tt
      else
        let d := dec8 d in
        p <- path_clear r p (N.to_nat d) ;;
        clear_path fuel r p d
  end.

(** The removal proper (lines 350-395); [idx] is the item's index. *)
Definition remove (fuel : nat) (r : loc) (p : pathv) (h : HS * N) (d : N) (l : lref) (idx : nat)
    : M unit :=
  upd_link l (λ y, lk_with_pmap (andnot (lk_pmap y) (bit_of (radix_of h))) y) ;;;
  upd_link l (λ y, lk_with_tmap (andnot (lk_tmap y) (bit_of (radix_of h))) y) ;;;
  upd_root r (λ rt, rt_with_len (sub64 (rt_len rt) 1) rt) ;;;
  upd_root r (λ rt, rt_with_dep (sub64 (rt_dep rt) d) rt) ;;;
  p <- path_clear r p (N.to_nat d) ;;
  lv <- load_link l ;;
  x <- unlink fuel r p l idx d (ones_count32 (lk_pmap lv)) ;;
  let '(p, l, idx, d, count) := x in
  (* shift items back *)
  lv <- load_link l ;;
  let src := lk_ptr lv in
  (if (count mod 4 =? 0)%nat && negb (d =? 0)
   then a <- new_link_array count ;;
        upd_link l (lk_with_ptr a) ;;;
        copy_range src a 0 0 0 idx
   else ret tt) ;;;
  lv <- load_link l ;;
  copy_range src (lk_ptr lv) 1 0 idx (count - idx) ;;;
  y <- collapse fuel r p l d count ;;
  clear_path fuel r y.1 y.2.

(** Del (lines 323-397). [miss] decides from "argument key equals stored key"
    whether the key counts as missing (line 347: not equal;
    bytes_set.go:206: equal). *)
Definition delete_gen (miss : bool -> bool) (fuel : nat) (h : option loc) (k : K) : M unit :=
  match h with
  | None => panic
  | Some r =>
      rt <- load_root r ;;
      res <- descend F (path_push r) fuel (rt_seed rt) k (f_start F (rt_seed rt) k)
               (RootRef r) 0 (PRoot 0) ;;
      match res with
      | Missing _ _ _ _ _ => ret tt
      | Present _ hs d l item p =>
          iv <- load_link item ;;
          ck <- f_key F iv ;;
          if miss (f_eq F k ck) then ret tt
          else
            lv <- load_link l ;;
            remove fuel r p hs d l (idx_of (lk_pmap lv) (radix_of hs))
      end
  end.
Definition delete := delete_gen negb.

(** ** Iteration: stringScan (lines 406-423) *)

(** The loop over the items of a level (lines 409-421): n items left, the
    current index i, the bits left in pmap; tmap was read at entry, l.ptr is
    read in every iteration. [rec] scans a branch, [act] handles a key-value
    item. *)
Fixpoint scan_items (rec : lref -> M bool) (act : link -> M bool)
    (l : lref) (tmap : N) (n i : nat) (pmap : N) : M bool :=
  match n with
  | O => ret true
  | S n =>
      let bit := shl32 1 (trailing_zeros32 pmap) in
      lv <- load_link l ;;
      let item := elem (lk_ptr lv) i in
      ok <- (if negb (N.land tmap bit =? 0)
             then iv <- load_link item ;; act iv
             else rec item) ;;
      if (ok : bool)
      then scan_items rec act l tmap n (S i) (andnot pmap bit)
      else ret false
  end.

Fixpoint scan (act : link -> M bool) (fuel : nat) (l : lref) : M bool :=
  match fuel with
  | O => hang
  | S fuel =>
      lv <- load_link l ;;
      scan_items (scan act fuel) act l (lk_tmap lv) (ones_count32 (lk_pmap lv)) 0 (lk_pmap lv)
  end.

(** Lines 413-416 for maps: [do(kv.k, &kv.v)]. *)
Definition act_map (do : K -> ptr -> M bool) (iv : link) : M bool :=
  k <- f_key F iv ;;
  match lk_ptr iv with Nil => panic | At p => do k (At p) end.
(** string_set.go: [do(kv.k)]. *)
Definition act_set (do : K -> M bool) (iv : link) : M bool :=
  k <- f_key F iv ;; do k.

(** All (lines 402-404): [&m.link] panics if m.root is nil. *)
Definition all_map (fuel : nat) (h : option loc) (do : K -> ptr -> M bool) : M unit :=
  match h with
  | None => panic
  | Some r => _ <- scan (act_map do) fuel (RootRef r) ;; ret tt
  end.
Definition all_set (fuel : nat) (h : option loc) (do : K -> M bool) : M unit :=
  match h with
  | None => panic
  | Some r => _ <- scan (act_set do) fuel (RootRef r) ;; ret tt
  end.
End ops.
