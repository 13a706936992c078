(** Which blocks of memory a container keeps from being collected. Used to state C49. *)
From stdpp Require Import base numbers list gmap relations.
From Verif Require Import Mem.
Local Open Scope nat_scope.

Section keeps.
Context {V CK : Type}.
Implicit Types (m : gmap loc (block V CK)) (a b h : loc).

(** Block a holds a pointer to block b or into it: an array of links in any of its
    slots, a root in its link or in its scratch path. *)
Definition points m a b : Prop :=
  match m !! a with
  | Some (BLinks ls) => ∃ i x, ls !! i = Some x /\ lk_ptr x = At b
  | Some (BRoot rt) => lk_ptr (rt_link rt) = At b \/
      ∃ i y, rt_path rt !! i = Some y /\
        (pl_link y = Some (RootRef b) \/ ∃ j, pl_link y = Some (SlotRef b j))
  | _ => False
  end.

(** Whoever keeps the container h keeps block b. *)
Definition keeps m h b : Prop := rtc (points m) h b.
End keeps.
