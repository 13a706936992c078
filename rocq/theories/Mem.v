(** Memory, references and the computation type in which the Go code is
    modelled. *)
From stdpp Require Import base numbers list gmap.
From Verif Require Import GoInt.
Local Open Scope N_scope.

(** Addresses of heap blocks. *)
Notation loc := positive (only parsing).

(** unsafe.Pointer / *V / *kv: nil or the address of a block. All pointers
    stored in links point to the start of a block (the field [v] is the first
    field of every kv struct: string_map.go:50-53). *)
Inductive ptr : Type := Nil | At (l : loc).

(** link (amt.go:108-112). pmap and tmap are uint32. *)
Record link : Type := Link { lk_ptr : ptr; lk_pmap : N; lk_tmap : N }.

(** The zero link, [link{}]. *)
Definition zero_link : link := Link Nil 0 0.

(** *link values: the link embedded in a root, the i-th slot of a link array,
    or the result of pointer arithmetic on a pointer that is not a link array. *)
Inductive lref : Type := RootRef (r : loc) | SlotRef (a : loc) (i : nat) | WildRef.

(** pathLink (amt.go:134-137); [None] is a nil *link. *)
Record plink : Type := PLink { pl_radix : N; pl_link : option lref }.

(** root (amt.go:62-70). The padding field is omitted. Simplification: the
    array [items] embedded in the struct is a separate 16-slot block, whose
    address is stored in [rt_link] as in newRoot. The seed is a number. *)
Record root : Type := Root {
  rt_link : link;
  rt_seed : N;
  rt_len : N;
  rt_dep : N;
  rt_path : list plink }.

Section mem.
(** V: the value type of the maps; CK: what a key-value struct stores of its
    key (the key, or nothing for IntMap); U: state of the user program that
    callbacks may read and write. *)
Context {V CK U : Type}.

(** Heap blocks: a link array [4|8|12|16]link, a key-value struct
    (string_map.go:50-53, int_map.go:52-55), or a root. *)
Inductive block : Type :=
  | BLinks (ls : list link)
  | BKv (v : V) (k : CK)
  | BRoot (r : root).

(** A world: the heap, the next address to allocate, the user's state. *)
Record world : Type := World {
  w_mem : gmap loc block;
  w_nxt : loc;
  w_usr : U }.

(** Outcome of a computation: normal return; Go run-time panic (recoverable,
    so the world at that point is kept); undefined behaviour (invalid unsafe
    access); or more loop iterations than the fuel allows. *)
Inductive outcome (A : Type) : Type :=
  | Ret (a : A) (w : world)
  | Panic (w : world)
  | Fault
  | Hang.
Global Arguments Ret {A} a w.
Global Arguments Panic {A} w.
Global Arguments Fault {A}.
Global Arguments Hang {A}.

Definition M (A : Type) : Type := world -> outcome A.

Definition ret {A} (a : A) : M A := λ w, Ret a w.
Definition bind {A B} (m : M A) (f : A -> M B) : M B := λ w,
  match m w with
  | Ret a w' => f a w'
  | Panic w' => Panic w'
  | Fault => Fault
  | Hang => Hang
  end.
Definition panic {A} : M A := λ w, Panic w.
Definition fault {A} : M A := λ _, Fault.
Definition hang {A} : M A := λ _, Hang.

Definition set_mem (w : world) (m : gmap loc block) : world :=
  World m (w_nxt w) (w_usr w).

(** Allocation ([new], [&T{...}]): a fresh address. Addresses are only names, and Go
    promises nothing about them except that they are new. A goroutine that starts
    at [a] uses [a], [a~0], [a~0~0], ..., which leaves names for the others (Conc.v). *)
Definition alloc (b : block) : M loc := λ w,
  Ret (w_nxt w) (World (<[w_nxt w := b]> (w_mem w)) (xO (w_nxt w)) (w_usr w)).

(** Reading and writing a root struct through a non-nil *root. *)
Definition load_root (r : loc) : M root := λ w,
  match w_mem w !! r with Some (BRoot rt) => Ret rt w | _ => Fault end.
Definition upd_root (r : loc) (f : root -> root) : M unit := λ w,
  match w_mem w !! r with
  | Some (BRoot rt) => Ret tt (set_mem w (<[r := BRoot (f rt)]> (w_mem w)))
  | _ => Fault
  end.

(** Reading and writing a *link. *)
Definition load_link (l : lref) : M link := λ w,
  match l with
  | RootRef r =>
      match w_mem w !! r with Some (BRoot rt) => Ret (rt_link rt) w | _ => Fault end
  | SlotRef a i =>
      match w_mem w !! a with
      | Some (BLinks ls) =>
          match ls !! i with Some x => Ret x w | None => Fault end
      | _ => Fault
      end
  | WildRef => Fault
  end.
Definition store_link (l : lref) (x : link) : M unit := λ w,
  match l with
  | RootRef r =>
      match w_mem w !! r with
      | Some (BRoot rt) =>
          Ret tt (set_mem w (<[r := BRoot (Root x (rt_seed rt) (rt_len rt) (rt_dep rt)
                                              (rt_path rt))]> (w_mem w)))
      | _ => Fault
      end
  | SlotRef a i =>
      match w_mem w !! a with
      | Some (BLinks ls) =>
          match ls !! i with
          | Some _ => Ret tt (set_mem w (<[a := BLinks (<[i := x]> ls)]> (w_mem w)))
          | None => Fault
          end
      | _ => Fault
      end
  | WildRef => Fault
  end.

(** Reading the fields of, and writing the value of, a key-value struct. *)
Definition load_kv (p : ptr) : M (V * CK) := λ w,
  match p with
  | Nil => Panic w
  | At l => match w_mem w !! l with Some (BKv v k) => Ret (v, k) w | _ => Fault end
  end.
Definition store_val (p : ptr) (v : V) : M unit := λ w,
  match p with
  | Nil => Panic w
  | At l =>
      match w_mem w !! l with
      | Some (BKv _ k) => Ret tt (set_mem w (<[l := BKv v k]> (w_mem w)))
      | _ => Fault
      end
  end.

(** The user's state, available to callbacks. *)
Definition get_usr : M U := λ w, Ret (w_usr w) w.
Definition put_usr (u : U) : M unit := λ w, Ret tt (World (w_mem w) (w_nxt w) u).

(** The empty heap. *)
Definition empty_world (u : U) : world := World ∅ 1%positive u.
End mem.

Global Arguments block : clear implicits.
Global Arguments world : clear implicits.
Global Arguments outcome : clear implicits.
Global Arguments M : clear implicits.

Notation "x <- m ;; k" := (bind m (λ x, k))
  (at level 100, m at next level, right associativity).
Notation "m ;;; k" := (bind m (λ _, k))
  (at level 100, right associativity).

(** [uintptr(p) + uintptr(i)*linkSize] converted to *link
    (string_map.go:98 and every other element access). *)
Definition elem (p : ptr) (i : nat) : lref :=
  match p with At a => SlotRef a i | Nil => WildRef end.

(** Field updates of links and roots ([l.pmap = ...] and so on). *)
Definition lk_with_ptr (p : ptr) (x : link) : link := Link p (lk_pmap x) (lk_tmap x).
Definition lk_with_pmap (n : N) (x : link) : link := Link (lk_ptr x) n (lk_tmap x).
Definition lk_with_tmap (n : N) (x : link) : link := Link (lk_ptr x) (lk_pmap x) n.
Definition rt_with_len (n : N) (x : root) : root :=
  Root (rt_link x) (rt_seed x) n (rt_dep x) (rt_path x).
Definition rt_with_dep (n : N) (x : root) : root :=
  Root (rt_link x) (rt_seed x) (rt_len x) n (rt_path x).
Definition rt_with_path (p : list plink) (x : root) : root :=
  Root (rt_link x) (rt_seed x) (rt_len x) (rt_dep x) p.
