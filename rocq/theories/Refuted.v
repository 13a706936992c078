(** Properties that the code violates: concrete executions. *)
From stdpp Require Import base numbers list gmap.
From Verif Require Import GoInt Mem Hash Amt Families Spec HashFacts.
Local Open Scope N_scope.

(** A hash function for the examples: the little-endian number of the first
    eight bytes, whatever the seed. *)
Fixpoint le (b : bytes) : N := match b with [] => 0 | x :: b => x + 256 * le b end.
Definition le8 (seed : N) (b : bytes) : N := le (take 8 b).

(** What a program that starts with an empty heap returns. *)
Definition result {V CK A} (m : M V CK unit A) : option A :=
  match m (empty_world tt) with Ret a _ => Some a | _ => None end.

(** Some fuel that is enough for every operation; n is arbitrary. *)
Definition enough (n : nat) : nat := (256 + n)%nat.

(** C04: IntMap loses a key of 2^32 or more when an insertion goes through a
    chain of branches (int_map.go:170-200: tmap keeps the upper key bits). *)
Theorem IntMap_int64_refuted : ∃ (sum64 : N -> bytes -> N) seed k1 k2 v1 v2 d,
  is_int64 k1 /\ is_int64 k2 /\ (d < 241)%nat /\
  digit sum64 seed (intbytes k1) d ≠ digit sum64 seed (intbytes k2) d /\
  ∀ n, result (h <- New seed ;;
          IntMap_Set sum64 (enough n) h k1 v1 ;;;
          g1 <- IntMap_Get sum64 0 (enough n) h k1 ;;
          IntMap_Set sum64 (enough n) h k2 v2 ;;;
          g2 <- IntMap_Get sum64 0 (enough n) h k1 ;;
          ret (g1, g2)) = Some ((v1, true), (0, false)) /\ v1 ≠ 0.
Proof.
  exists le8, 0, (2 ^ 32)%Z, 256%Z, 7, 8, 2%nat.
  split_and!; [first [done|lia|unfold is_int64; lia|by vm_compute]..|]. intros n. split; [|done]. vm_compute. reflexivity.
Qed.

(** C05: the same for IntSet. *)
Theorem IntSet_int64_refuted : ∃ (sum64 : N -> bytes -> N) seed k1 k2 d,
  is_int64 k1 /\ is_int64 k2 /\ (d < 241)%nat /\
  digit sum64 seed (intbytes k1) d ≠ digit sum64 seed (intbytes k2) d /\
  ∀ n, result (h <- New seed ;;
          IntSet_Add sum64 (enough n) h k1 ;;;
          g1 <- IntSet_Has sum64 (enough n) h k1 ;;
          IntSet_Add sum64 (enough n) h k2 ;;;
          g2 <- IntSet_Has sum64 (enough n) h k1 ;;
          ret (g1, g2)) = Some (true, false).
Proof.
  exists le8, 0, (2 ^ 32)%Z, 256%Z, 2%nat.
  split_and!; [first [done|lia|unfold is_int64; lia|by vm_compute]..|]. intros n. vm_compute. reflexivity.
Qed.

(** C07: ArrMap.Set drops the value when the new key collides with a stored
    one (arr_map.go:170). *)
Theorem ArrMap_Set_refuted : ∃ (sum64 : N -> bytes -> N) seed (k1 k2 : bytes) v1 v2 d,
  (d < 241)%nat /\ digit sum64 seed k1 d ≠ digit sum64 seed k2 d /\
  ∀ n, let AF := (λ a b : bytes, bool_decide (a = b)) in
    result (h <- New seed ;;
          ArrMap_Set sum64 0 (enough n) AF (λ k, k) h k1 v1 ;;;
          ArrMap_Set sum64 0 (enough n) AF (λ k, k) h k2 v2 ;;;
          ArrMap_Get sum64 0 (enough n) AF (λ k, k) h k2) = Some (0, true) /\ v2 ≠ 0.
Proof.
  exists le8, 0, [0; 1], [0; 2], 7, 8, 2%nat.
  split_and!; [first [done|lia|unfold is_int64; lia|by vm_compute]..|]. intros n. split; [|done]. vm_compute. reflexivity.
Qed.

(** C09: BytesSet.Del keeps the key it is asked to remove, and removes another
    one (bytes_set.go:206). *)
Theorem BytesSet_Del_refuted : ∃ (sum64 : N -> bytes -> N) seed (k1 k2 : bytes) d,
  (d < 241)%nat /\ digit sum64 seed k1 d ≠ digit sum64 seed k2 d /\
  ∀ n, result (h <- New seed ;;
          BytesSet_Add sum64 (enough n) h k1 ;;;
          BytesSet_Del sum64 (enough n) h k1 ;;;
          g1 <- BytesSet_Has sum64 (enough n) h k1 ;;
          BytesSet_Del sum64 (enough n) h k2 ;;;
          g2 <- BytesSet_Has sum64 (enough n) h k1 ;;
          ret (g1, g2)) = Some (true, false).
Proof.
  exists le8, 0, [0; 1], [0; 2], 2%nat.
  split_and!; [first [done|lia|unfold is_int64; lia|by vm_compute]..|]. intros n. vm_compute. reflexivity.
Qed.

(** A key type for the generic containers: numbers, hashed to themselves and
    then to something that depends on the iteration. *)
Definition num_hash (k seed iter : N) : N := if iter =? 0 then k else u64 (k * 31 + 7 * iter).

(** C10: the generic Map.Set loses a stored key: it rehashes the conflicting
    key with the wrong iteration (generic_map.go:149). *)
Theorem Map_Set_refuted : ∃ (Hash : N -> N -> N -> N) seed k1 k2 k3 v1 v2 v3,
  k1 ≠ k3 /\ k2 ≠ k3 /\ k1 ≠ k2 /\ v2 ≠ 0 /\
  Hash k1 seed 0 ≠ Hash k2 seed 0 /\ Hash k1 seed 0 ≠ Hash k3 seed 0 /\
  Hash k2 seed 0 ≠ Hash k3 seed 0 /\
  ∀ n, result (h <- New seed ;;
          Map_Set (enough n) N.eqb Hash h k1 v1 ;;;
          Map_Set (enough n) N.eqb Hash h k2 v2 ;;;
          g1 <- Map_Get 0 (enough n) N.eqb Hash h k2 ;;
          Map_Set (enough n) N.eqb Hash h k3 v3 ;;;
          g2 <- Map_Get 0 (enough n) N.eqb Hash h k2 ;;
          ret (g1, g2)) = Some ((v2, true), (0, false)).
Proof.
  exists num_hash, 0, 0, 16, 272, 7, 8, 9.
  split_and!; [first [done|lia|unfold is_int64; lia|by vm_compute]..|]. intros n. vm_compute. reflexivity.
Qed.

(** C12: the same for the generic Set.Add (generic_set.go:100). *)
Theorem Set_Add_refuted : ∃ (Hash : N -> N -> N -> N) seed k1 k2 k3,
  k1 ≠ k3 /\ k2 ≠ k3 /\ k1 ≠ k2 /\
  Hash k1 seed 0 ≠ Hash k2 seed 0 /\ Hash k1 seed 0 ≠ Hash k3 seed 0 /\
  Hash k2 seed 0 ≠ Hash k3 seed 0 /\
  ∀ n, result (h <- New seed ;;
          Set_Add (enough n) N.eqb Hash h k1 ;;;
          Set_Add (enough n) N.eqb Hash h k2 ;;;
          g1 <- Set_Has (enough n) N.eqb Hash h k2 ;;
          Set_Add (enough n) N.eqb Hash h k3 ;;;
          g2 <- Set_Has (enough n) N.eqb Hash h k2 ;;
          ret (g1, g2)) = Some (true, false).
Proof.
  exists num_hash, 0, 0, 16, 272.
  split_and!; [first [done|lia|unfold is_int64; lia|by vm_compute]..|]. intros n. vm_compute. reflexivity.
Qed.

(** C11: the generic Map.Mod loses a stored key: it rehashes the new key
    instead of the conflicting one (generic_map.go:238). *)
Theorem Map_Mod_refuted : ∃ (Hash : N -> N -> N -> N) seed k1 k2 v1 v2,
  k1 ≠ k2 /\ v1 ≠ 0 /\ Hash k1 seed 0 ≠ Hash k2 seed 0 /\
  ∀ n, result (h <- New seed ;;
          Map_Set (enough n) N.eqb Hash h k1 v1 ;;;
          g1 <- Map_Get 0 (enough n) N.eqb Hash h k1 ;;
          Map_Mod 0 (enough n) N.eqb Hash h k2 (λ p _, store_val p v2) ;;;
          g2 <- Map_Get 0 (enough n) N.eqb Hash h k1 ;;
          ret (g1, g2)) = Some ((v1, true), (0, false)).
Proof.
  exists num_hash, 0, 0, 16, 7, 8.
  split_and!; [first [done|lia|unfold is_int64; lia|by vm_compute]..|]. intros n. vm_compute. reflexivity.
Qed.
(** ** Levels deeper than 255

    The depth is a uint8 and wraps around, but the path that Del records does
    not: path[d] is then an entry near the root (generic_map.go:305-366). *)
Definition crashes {V CK A} (m : M V CK unit A) : Prop :=
  m (empty_world tt) = Fault.

(** C33: three keys whose hash digits differ within the first three. Because
    of the wrong rehash (generic_map.go:149), the third Set builds 258 levels,
    and deleting the third key marks a branch as an entry. The next Set
    returns, but All, and Get of the first key, take an array of items for a
    key and its value. *)
Definition deep_hash (k seed iter : N) : N :=
  if k =? 0 then (if iter =? 0 then 256 else 0) else if k =? 1 then 16 else 0.
Theorem Map_deep_refuted : ∃ (Hash : N -> N -> N -> N) seed k1 k2 k3,
  gdigit Hash seed k1 1 ≠ gdigit Hash seed k2 1 /\
  gdigit Hash seed k1 2 ≠ gdigit Hash seed k3 2 /\
  gdigit Hash seed k2 1 ≠ gdigit Hash seed k3 1 /\
  ∀ n, let fuel := enough (256 + n) in
    let prog := h <- New seed ;;
          Map_Set fuel N.eqb Hash h k1 7 ;;;
          Map_Set fuel N.eqb Hash h k2 8 ;;;
          Map_Set fuel N.eqb Hash h k3 9 ;;;
          Map_Del fuel N.eqb Hash h k3 ;;;
          Map_Set fuel N.eqb Hash h k2 10 ;;; ret h in
    result (h <- prog ;; Map_Get 0 fuel N.eqb Hash h k2) = Some (10, true) /\
    crashes (h <- prog ;; Map_All fuel N.eqb Hash h (λ _ _, ret true)) /\
    crashes (h <- prog ;; Map_Get 0 fuel N.eqb Hash h k1).
Proof.
  exists deep_hash, 0, 0, 1, 2.
  split_and!; [by vm_compute..|]. intros n fuel prog. subst fuel prog. split_and!; vm_compute; reflexivity.
Qed.

(** The same in a StringMap, with two keys that agree in more than 256 digits. *)
Definition long_hash (seed : N) (b : bytes) : N :=
  if (length b <=? 16)%nat then 0 else 256 * hd 0 b.
Theorem StringMap_deep_refuted : ∃ (sum64 : N -> bytes -> N) seed k1 k2 d,
  digit sum64 seed k1 d ≠ digit sum64 seed k2 d /\
  ∀ n, let fuel := enough (256 + n) in
    let prog := h <- New seed ;;
          StringMap_Set sum64 fuel h k1 7 ;;;
          StringMap_Set sum64 fuel h k2 8 ;;; ret h in
    result (h <- prog ;;
          g1 <- StringMap_Get sum64 0 fuel h k1 ;;
          g2 <- StringMap_Get sum64 0 fuel h k2 ;;
          StringMap_Del sum64 fuel h k2 ;;; ret (g1, g2)) = Some ((7, true), (8, true)) /\
    crashes (h <- prog ;; StringMap_Del sum64 fuel h k2 ;;; StringMap_Get sum64 0 fuel h k1).
Proof.
  exists long_hash, 0, [1], [2], 258%nat.
  split; [by vm_compute|]. intros n fuel prog. subst fuel prog. split; vm_compute; reflexivity.
Qed.


Print Assumptions Map_deep_refuted.
Print Assumptions StringMap_deep_refuted.
