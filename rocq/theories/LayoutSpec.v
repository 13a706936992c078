(** Memory as bytes: the layout of Go's types, the structs of amt.go, and pointer
    arithmetic on addresses. Used to state C57. *)
From stdpp Require Import base numbers list gmap relations.
From Verif Require Import Mem Prog Spec Client PClient KeepSpec GcSpec ReuseSpec.
Local Open Scope N_scope.

(** ** Sizes, alignments and offsets *)

(** A platform: 64 or 32 bits wide, and the order of the bytes in a word. *)
Record platform : Type := Platform { wide : bool; big : bool }.
(** The size of a pointer and of uintptr in bytes. *)
Definition word (p : platform) : N := if wide p then 8 else 4.
Definition top (p : platform) : N := 2 ^ (8 * word p).
(** uintptr arithmetic wraps around. *)
Definition uintptr (p : platform) (x : N) : N := x mod top p.

(** Go's types, as far as their layout goes: unsigned integers of n bytes, pointers, arrays,
    structs (a struct that is embedded is a field), and any other type of a given size and
    alignment, for the parameters K and V. *)
Inductive gty : Type :=
  | GUint (n : N)
  | GPtr
  | GArray (n : N) (t : gty)
  | GStruct (fs : list gty)
  | GAny (size align : N).

Definition round_up (x a : N) : N := (x + (a - 1)) / a * a.

(** The rules of the compiler (cmd/compile/internal/types, CalcSize): an integer is aligned
    to its size, but to a word at most; the fields of a struct follow each other, each at
    the next address that its alignment allows; the size of a struct is a multiple of its
    alignment, and a struct that ends with a field without size gets one more byte, so that
    a pointer to that field is not one behind the struct. *)
Section layout.
Variable p : platform.
Fixpoint align (t : gty) : N :=
  match t with
  | GUint n => N.min n (word p)
  | GPtr => word p
  | GArray _ t => align t
  | GStruct fs => foldr (λ f a, N.max (align f) a) 1 fs
  | GAny _ a => a
  end.
Definition pad (lastsize e : N) : N := if (lastsize =? 0) && negb (e =? 0) then e + 1 else e.
Fixpoint size (t : gty) : N :=
  match t with
  | GUint n => n
  | GPtr => word p
  | GArray n t => n * size t
  | GStruct fs =>
      let '(e, last) := fold_left (λ x f, (round_up x.1 (align f) + size f, size f)) fs (0, 1) in
      round_up (pad last e) (align (GStruct fs))
  | GAny s _ => s
  end.
(** Where the fields fs end, and where field i starts. *)
Definition ends (fs : list gty) : N := fold_left (λ e f, round_up e (align f) + size f) fs 0.
Definition offset (fs : list gty) (i : nat) : N :=
  match fs !! i with Some f => round_up (ends (take i fs)) (align f) | None => ends fs end.
End layout.

(** ** The structs of amt.go *)

(** link (amt.go:108-112). *)
Definition link_fields : list gty := [GPtr; GUint 4; GUint 4].
Definition link_t : gty := GStruct link_fields.
(** const linkSize (amt.go:114). *)
Definition linkSize (p : platform) : N := size p link_t.
(** maphash.Seed is a struct with one uint64. *)
Definition seed_t : gty := GStruct [GUint 8].
(** pathLink (amt.go:134-137). *)
Definition pathLink_t : gty := GStruct [GUint 1; GPtr].
(** root (amt.go:62-70): link, seed, len, dep, padding, items, path. *)
Definition root_fields : list gty :=
  [link_t; seed_t; GUint 8; GUint 8; GArray 3 (GUint 8); GArray 16 link_t; GArray 12 pathLink_t].
Definition root_t : gty := GStruct root_fields.
Definition items_at (p : platform) : N := offset p root_fields 5.
Definition path_at (p : platform) : N := offset p root_fields 6.
(** newLinkArray (amt.go:120-131). *)
Definition array_t (capacity : N) : gty := GArray capacity link_t.
(** kv, arrkv, byteskv, strkv (generic_map.go:57-60, arr_map.go:43-46, bytes_map.go:52-55,
    string_map.go:50-53): the value and then the key. *)
Definition kv_t (V K : gty) : gty := GStruct [V; K].

(** Types that exist: sizes and alignments are as Go makes them. *)
Fixpoint real (t : gty) : Prop :=
  match t with
  | GUint n => n = 1 \/ n = 2 \/ n = 4 \/ n = 8
  | GPtr => True
  | GArray _ t => real t
  | GStruct fs => foldr (λ f P, real f /\ P) True fs
  | GAny s a => (∃ e, a = 2 ^ e) /\ s mod a = 0
  end.

(** ** Bytes *)

(** The memory: a byte at each address. *)
Definition bytemem : Type := N -> N.
Definition fetch (B : bytemem) (a : N) (n : nat) : list N := map (λ i, B (a + N.of_nat i)) (seq 0 n).
Definition put (B : bytemem) (a : N) (bs : list N) : bytemem := λ x,
  if a <=? x then match bs !! N.to_nat (x - a) with Some b => b | None => B x end else B x.

(** Numbers as bytes, the lowest byte first or last. *)
Fixpoint digits (n : nat) (x : N) : list N :=
  match n with O => [] | S n => x mod 256 :: digits n (x / 256) end.
Definition value (bs : list N) : N := foldr (λ b r, b + 256 * r) 0 bs.
Section links.
Variable p : platform.
Definition bytes_of (n : nat) (x : N) : list N := if big p then rev (digits n x) else digits n x.
Definition number_of (bs : list N) : N := value (if big p then rev bs else bs).
Definition get_num (B : bytemem) (a : N) (n : nat) : N := number_of (fetch B a n).
Definition put_num (B : bytemem) (a : N) (n : nat) (x : N) : bytemem := put B a (bytes_of n x).

(** A pointer is an address; nil is 0. *)
Definition ptr_at (x : N) : ptr := match x with N0 => Nil | Npos l => At l end.
Definition addr_of (q : ptr) : N := match q with Nil => 0 | At l => Npos l end.

(** The link at address a, and writing its fields. *)
Definition ptr_off : N := offset p link_fields 0.
Definition pmap_off : N := offset p link_fields 1.
Definition tmap_off : N := offset p link_fields 2.
Definition get_link (B : bytemem) (a : N) : link :=
  Link (ptr_at (get_num B (a + ptr_off) (N.to_nat (word p)))) (get_num B (a + pmap_off) 4) (get_num B (a + tmap_off) 4).
Definition put_ptr (B : bytemem) (a : N) (q : ptr) : bytemem := put_num B (a + ptr_off) (N.to_nat (word p)) (addr_of q).
Definition put_pmap (B : bytemem) (a : N) (x : N) : bytemem := put_num B (a + pmap_off) 4 x.
Definition put_tmap (B : bytemem) (a : N) (x : N) : bytemem := put_num B (a + tmap_off) 4 x.
Definition put_link (B : bytemem) (a : N) (x : link) : bytemem :=
  put_tmap (put_pmap (put_ptr B a (lk_ptr x)) a (lk_pmap x)) a (lk_tmap x).

(** [uintptr(l.ptr) + uintptr(idx)*linkSize] (string_map.go:98): the address of the idx-th
    link of the array at address a. *)
Definition slot (a : N) (idx : nat) : N := uintptr p (a + uintptr p (uintptr p (N.of_nat idx) * linkSize p)).
End links.

(** ** Memory with bytes *)

(** What the runtime knows about an allocated block: its type. The links of arrays and of
    roots are bytes; the other fields, which the code only uses through typed pointers, are
    not. *)
Inductive tblock (V CK : Type) : Type :=
  | TLinks (n : nat)
  | TKv (v : V) (k : CK)
  | TRoot (seed len dep : N) (path : list plink).
Global Arguments TLinks {V CK}.
Global Arguments TKv {V CK}.
Global Arguments TRoot {V CK}.

Section blocks.
Context {V CK : Type}.
Variables (p : platform) (kvsize : N).
Definition typed (b : block V CK) : tblock V CK :=
  match b with
  | BLinks ls => TLinks (length ls)
  | BKv v k => TKv v k
  | BRoot r => TRoot (rt_seed r) (rt_len r) (rt_dep r) (rt_path r)
  end.
(** The type stays: arrays have a length. *)
Definition like (t t' : tblock V CK) : Prop :=
  match t, t' with
  | TLinks n, TLinks n' => n = n'
  | TKv _ _, TKv _ _ => True
  | TRoot _ _ _ _, TRoot _ _ _ _ => True
  | _, _ => False
  end.

(** The block at address l, read byte by byte, and writing it. *)
Definition read_block (B : bytemem) (l : loc) (t : tblock V CK) : block V CK :=
  match t with
  | TLinks n => BLinks (map (λ i, get_link p B (slot p (Npos l) i)) (seq 0 n))
  | TKv v k => BKv v k
  | TRoot s n d q => BRoot (Root (get_link p B (Npos l)) s n d q)
  end.
Fixpoint put_slots (B : bytemem) (l : loc) (i : nat) (ls : list link) : bytemem :=
  match ls with [] => B | x :: ls => put_slots (put_link p B (slot p (Npos l) i) x) l (S i) ls end.
Definition write_block (B : bytemem) (l : loc) (b : block V CK) : bytemem :=
  match b with
  | BLinks ls => put_slots B l 0 ls
  | BKv _ _ => B
  | BRoot r => put_link p B (Npos l) (rt_link r)
  end.
Definition view (B : bytemem) (T : gmap loc (tblock V CK)) : gmap loc (block V CK) :=
  map_imap (λ l t, Some (read_block B l t)) T.

(** Address x belongs to the block at l. The bytes of a root do not have those of [items],
    the array inside the struct, which is a block of its own (Mem.v). *)
Definition owns (l : loc) (t : tblock V CK) (x : N) : Prop :=
  match t with
  | TLinks n => Npos l <= x < Npos l + size p (array_t (N.of_nat n))
  | TKv _ _ => Npos l <= x < Npos l + kvsize
  | TRoot _ _ _ _ => Npos l <= x < Npos l + items_at p \/ Npos l + path_at p <= x < Npos l + size p root_t
  end.
(** No block has bytes outside the address space, and no two blocks have a byte in common. *)
Definition placed (T : gmap loc (tblock V CK)) : Prop :=
  (∀ l t, T !! l = Some t -> Npos l < top p /\ ∀ x, owns l t x -> x < top p) /\
  (∀ l l' t t' x, T !! l = Some t -> T !! l' = Some t' -> owns l t x -> owns l' t' x -> l = l').

(** Numbers fit the types of their fields. *)
Definition fits_link (x : link) : Prop := addr_of (lk_ptr x) < top p /\ lk_pmap x < 2 ^ 32 /\ lk_tmap x < 2 ^ 32.
Definition fits (b : block V CK) : Prop :=
  match b with
  | BLinks ls => Forall fits_link ls
  | BKv _ _ => True
  | BRoot r => fits_link (rt_link r) /\ rt_len r < 2 ^ 64 /\ rt_dep r < 2 ^ 64 /\ Forall (λ x, pl_radix x < 2 ^ 8) (rt_path r)
  end.
End blocks.

(** ** Runs with bytes *)

Section runs.
Context {V CK U : Type}.
Variables (p : platform) (kvsize : N).
Local Notation prog := (prog V CK U).

(** As [moves] (ReuseSpec.v): one access at a time, with an allocator that returns any place
    for the block that has no byte of another, and a collector. *)
Inductive bmoves {A} (as_ : names -> A -> A -> Prop) (R : gset loc) :
    prog A * bytemem * gmap loc (tblock V CK) * U -> prog A * bytemem * gmap loc (tblock V CK) * U -> Prop :=
  | bm_read l k B T u t : T !! l = Some t ->
      bmoves as_ R (PRead l k, B, T, u) (k (read_block p B l t), B, T, u)
  | bm_write l b k B T u t : T !! l = Some t -> like t (typed b) ->
      bmoves as_ R (PWrite l b k, B, T, u) (k, write_block p B l b, <[l := typed b]> T, u)
  | bm_alloc l b k B T u : T !! l = None -> placed p kvsize (<[l := typed b]> T) ->
      bmoves as_ R (PAlloc b k, B, T, u) (k l, write_block p B l b, <[l := typed b]> T, u)
  | bm_get k B T u : bmoves as_ R (PGet k, B, T, u) (k u, B, T, u)
  | bm_put u' k B T u : bmoves as_ R (PPut u' k, B, T, u) (k, B, T, u')
  | bm_collect S q B T T' u : has_only as_ S q -> T' ⊆ T -> collected (R ∪ S) (view p B T) (view p B T') ->
      bmoves as_ R (q, B, T, u) (q, B, T', u).
End runs.

(** As [wild] and [swild]: the programs that use maps, and those that use sets. The memory
    first has any bytes. *)
Inductive bwild {K V CK U} (p : platform) (kvsize : N) (papi : pmapapi K V CK U) (u0 : U) :
    list (mop K V U * mres V) -> gset loc -> bytemem -> gmap loc (tblock V CK) -> U -> Prop :=
  | bw_nil B : (∀ x, B x < 256) -> bwild p kvsize papi u0 [] ∅ B ∅ u0
  | bw_call tr R B T u op res B' T' u' :
      bwild p kvsize papi u0 tr R B T u -> (∀ a, takes op = Some a -> a ∈ R) ->
      rtc (bmoves p kvsize res_as R) (pmcall papi (Op op), B, T, u) (PRet res, B', T', u') ->
      bwild p kvsize papi u0 ((op, res) :: tr) (R ∪ gives res) B' T' u'
  | bw_forget tr R R' B T u : bwild p kvsize papi u0 tr R B T u -> R' ⊆ R -> bwild p kvsize papi u0 tr R' B T u.
Inductive bswild {K CK U} (p : platform) (kvsize : N) (papi : psetapi K unit CK U) (u0 : U) :
    list (sop K U * sres) -> gset loc -> bytemem -> gmap loc (tblock unit CK) -> U -> Prop :=
  | bsw_nil B : (∀ x, B x < 256) -> bswild p kvsize papi u0 [] ∅ B ∅ u0
  | bsw_call tr R B T u op res B' T' u' :
      bswild p kvsize papi u0 tr R B T u -> (∀ a, stakes op = Some a -> a ∈ R) ->
      rtc (bmoves p kvsize sres_as R) (pscall papi op, B, T, u) (PRet res, B', T', u') ->
      bswild p kvsize papi u0 ((op, res) :: tr) (R ∪ sgives res) B' T' u'
  | bsw_forget tr R R' B T u : bswild p kvsize papi u0 tr R B T u -> R' ⊆ R -> bswild p kvsize papi u0 tr R' B T u.
