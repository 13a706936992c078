(** Properties of integer keys, hashing and uninitialised containers. *)
From stdpp Require Import base numbers list gmap.
From Coq Require Import SpecFloat.
From Verif Require Import GoInt Mem Hash Amt Families Spec HashFacts.
Local Open Scope N_scope.

(** ** C06: integer keys *)

(** The link of an item holds the two halves of the key (int_map.go:206-210);
    reading them back (int_map.go:119) gives the key. *)
Theorem C06_int_key_lossless : ∀ (V U : Type) (k : Z) (p : ptr) (w : world V unit U),
  is_int64 k ->
  int_key (int_leaf k p) w = Ret k w /\
  (∀ x, int_key (int_pair k p x) w = Ret k w).
Proof.
  intros V U k p w Hk. unfold int_key, int_leaf, int_pair. simpl. unfold ret.
  by rewrite int_lo_hi.
Qed.

Theorem C06_int_key_halves_fit : ∀ k : Z, int_lo k < 2 ^ 32 /\ int_hi k < 2 ^ 32.
Proof.
  intros k. unfold int_lo, int_hi.
  split; apply N2Z.inj_lt; rewrite Z2N.id by (apply Z.mod_pos_bound; lia);
    apply Z.mod_pos_bound; lia.
Qed.

Theorem C06_intbytes_injective : ∀ k k' : Z,
  is_int64 k -> is_int64 k' -> intbytes k = intbytes k' -> k = k'.
Proof. exact intbytes_inj. Qed.

Theorem C06_intbytes_is_8_bytes : ∀ k : Z,
  length (intbytes k) = 8%nat /\ Forall (λ b, b < 256) (intbytes k).
Proof.
  intros k. split; [done|]. unfold intbytes. apply Forall_fmap, Forall_forall.
  intros i _. simpl. apply N2Z.inj_lt. rewrite Z2N.id by (apply Z.mod_pos_bound; lia).
  apply Z.mod_pos_bound. lia.
Qed.

Example C06_example : is_int64 (-1)%Z /\ int_join (int_lo (-1)) (int_hi (-1)) = (-1)%Z /\
  int_join (int_lo (- 2 ^ 63)) (int_hi (- 2 ^ 63)) = (- 2 ^ 63)%Z.
Proof. split; [unfold is_int64; lia|by vm_compute]. Qed.

(** ** C27: HashBytes and the Hash methods *)

(** For every iter but the largest uint, String.Hash, Bytes.Hash and Int.Hash
    hash iter + 1 copies of the key. *)
Theorem C27_Hash_methods : ∀ (sum64 : N -> bytes -> N) (fuel : nat) (seed iter : N),
  iter < 2 ^ 64 - 1 -> iter + 1 < N.of_nat fuel ->
  (∀ k, String_Hash sum64 fuel k seed iter = Some (sum64 seed (copies (S (N.to_nat iter)) k))) /\
  (∀ k, Bytes_Hash sum64 fuel k seed iter = Some (sum64 seed (copies (S (N.to_nat iter)) k))) /\
  (∀ k, Int_Hash sum64 fuel k seed iter =
        Some (sum64 seed (copies (S (N.to_nat iter)) (intbytes k)))).
Proof.
  intros sum64 fuel seed iter Hi Hf.
  split_and!; intros k; unfold String_Hash, Bytes_Hash, Int_Hash;
    rewrite (hash_loop_run _ _ (S (N.to_nat iter))) by lia; done.
Qed.

(** HashBytes does so for iter < 255. *)
Theorem C27_HashBytes_partial : ∀ (sum64 : N -> bytes -> N) (fuel : nat) (key : bytes) (seed iter : N),
  iter < 255 -> iter + 1 < N.of_nat fuel ->
  HashBytes sum64 fuel key seed iter = Some (sum64 seed (copies (S (N.to_nat iter)) key)).
Proof.
  intros sum64 fuel key seed iter Hi Hf. unfold HashBytes.
  assert (u8 iter = iter) as E by (apply N.mod_small; lia).
  rewrite (hashbytes_run _ _ (S (N.to_nat iter))); rewrite ?E; try done; lia.
Qed.

(** For iter = 255 it never returns ... *)
Theorem C27_HashBytes_255_refuted : ∀ (sum64 : N -> bytes -> N) (fuel : nat) (key : bytes) (seed : N),
  HashBytes sum64 fuel key seed 255 = None.
Proof. intros. unfold HashBytes. by rewrite hashbytes_hang. Qed.

(** ... and for larger ones it hashes fewer copies: iter is cut to 8 bits. *)
Theorem C27_HashBytes_large_refuted :
  ∀ (sum64 : N -> bytes -> N) (fuel : nat) (key : bytes) (seed iter : N),
  iter mod 256 ≠ 255 -> 256 < N.of_nat fuel ->
  HashBytes sum64 fuel key seed iter =
  Some (sum64 seed (copies (S (N.to_nat (iter mod 256))) key)).
Proof.
  intros sum64 fuel key seed iter Hi Hf. unfold HashBytes.
  assert (u8 iter < 256) by (by apply N.mod_lt). unfold u8 in *.
  rewrite (hashbytes_run _ _ (S (N.to_nat (iter mod 256)))); unfold u8; try done; lia.
Qed.

Example C27_large_example : ∃ (sum64 : N -> bytes -> N) key seed,
  HashBytes sum64 300 key seed 256 ≠ Some (sum64 seed (copies 257 key)).
Proof. exists (λ _ b, N.of_nat (length b)), [1], 0. by vm_compute. Qed.

(** String.Hash, Bytes.Hash and Int.Hash never return for the largest uint. *)
Theorem C27_Hash_max_refuted : ∀ (sum64 : N -> bytes -> N) (fuel : nat) (seed : N),
  (∀ k, String_Hash sum64 fuel k seed (2 ^ 64 - 1) = None) /\
  (∀ k, Bytes_Hash sum64 fuel k seed (2 ^ 64 - 1) = None) /\
  (∀ k, Int_Hash sum64 fuel k seed (2 ^ 64 - 1) = None).
Proof.
  intros. split_and!; intros k; unfold String_Hash, Bytes_Hash, Int_Hash; by rewrite hash_loop_hang.
Qed.

Example C27_example :
  HashBytes (λ _ b, N.of_nat (length b)) 10 [1; 2; 3] 0 2 = Some 9 /\
  String_Hash (λ _ b, N.of_nat (length b)) 10 [1; 2; 3] 0 2 = Some 9.
Proof. by vm_compute. Qed.

(** ** C28: rehashing the conflicting key *)

(** For depths below 240 the loop that rehashes the conflicting key (lines
    150-155 of string_map.go and its copies) hashes d/16 + 1 copies of it and
    shifts by 4 (d mod 16) ... *)
Theorem C28_conflict_hash_partial :
  ∀ (K : Type) (sum64 : N -> bytes -> N) (kbytes : K -> bytes) (fuel d : nat) (seed : N) (k ck : K),
  (d < 240)%nat -> (16 <= fuel)%nat ->
  ∃ hw, stream_conf sum64 kbytes fuel seed k ck (N.of_nat d) =
    Some (hw, N.shiftr (sum64 seed (copies (S (d / 16)) (kbytes ck))) (4 * N.of_nat (d mod 16))) /\
    mh_buf hw = copies (S (d / 16)) (kbytes ck).
Proof.
  intros K sum64 kbytes fuel d seed k ck Hd Hf.
  set (F := Fam (V:=unit) (CK:=unit) (U:=unit) (stream_start sum64 kbytes) (stream_next sum64 kbytes)
    (stream_conf sum64 kbytes) (λ _, panic) (λ _ p, Link p 0 0) (λ _ _ x, x) (λ _ _, panic) (λ _ _, true)).
  rewrite (stream_conf_ok sum64 kbytes F) by done.
  rewrite (stream_hproc sum64 kbytes F) by done. eauto.
Qed.

(** ... and for depths 240 to 255 it never ends. *)
Theorem C28_conflict_hash_refuted :
  ∀ (K : Type) (sum64 : N -> bytes -> N) (kbytes : K -> bytes) (fuel : nat) (seed d : N) (k ck : K),
  240 <= d < 256 -> stream_conf sum64 kbytes fuel seed k ck d = None.
Proof.
  intros K sum64 kbytes fuel seed d k ck Hd. unfold stream_conf.
  by rewrite conf_loop_hang.
Qed.

(** ** C21: uninitialised containers *)
Section uninitialised.
Context {V K U : Type}.
Variables (sum64 : N -> bytes -> N) (zero : V) (fuel : nat)
  (keq Equal : K -> K -> bool) (KeyBytes : K -> bytes) (Hash : K -> N -> N -> N).

(** On the zero value of each map type: Nil, Len and Dep for every type, ... *)
Theorem C21_nil_len_dep : ∀ (CK : Type) (w : world V CK U) (seed : N),
  IsNil None = true /\ Len None w = Ret 0 w /\ Dep None w = Ret (S754_zero false) w /\
  (∀ r, IsNil (Some r) = false) /\ (∃ r w', New seed w = Ret (Some r) w').
Proof. intros. split_and!; try done. eexists _, _. done. Qed.

(** ... Val returns the zero value; everything else panics without effect. *)
Theorem C21_StringMap : ∀ (w : world V bytes U) k v f g,
  StringMap_Val sum64 zero fuel None k w = Ret zero w /\
  StringMap_Get sum64 zero fuel None k w = Panic w /\
  StringMap_Ptr sum64 fuel None k w = Panic w /\
  StringMap_Set sum64 fuel None k v w = Panic w /\
  StringMap_Mod sum64 zero fuel None k f w = Panic w /\
  StringMap_Del sum64 fuel None k w = Panic w /\
  StringMap_All sum64 fuel None g w = Panic w.
Proof. done. Qed.
Theorem C21_BytesMap : ∀ (w : world V bytes U) k v f g,
  BytesMap_Val sum64 zero fuel None k w = Ret zero w /\
  BytesMap_Get sum64 zero fuel None k w = Panic w /\
  BytesMap_Ptr sum64 fuel None k w = Panic w /\
  BytesMap_Set sum64 fuel None k v w = Panic w /\
  BytesMap_Mod sum64 zero fuel None k f w = Panic w /\
  BytesMap_Del sum64 fuel None k w = Panic w /\
  BytesMap_All sum64 fuel None g w = Panic w.
Proof. done. Qed.
Theorem C21_IntMap : ∀ (w : world V unit U) k v f g,
  IntMap_Val sum64 zero fuel None k w = Ret zero w /\
  IntMap_Get sum64 zero fuel None k w = Panic w /\
  IntMap_Ptr sum64 fuel None k w = Panic w /\
  IntMap_Set sum64 fuel None k v w = Panic w /\
  IntMap_Mod sum64 zero fuel None k f w = Panic w /\
  IntMap_Del sum64 fuel None k w = Panic w /\
  IntMap_All sum64 fuel None g w = Panic w.
Proof. done. Qed.
Theorem C21_ArrMap : ∀ (w : world V K U) k v f g,
  ArrMap_Val sum64 zero fuel keq KeyBytes None k w = Ret zero w /\
  ArrMap_Get sum64 zero fuel keq KeyBytes None k w = Panic w /\
  ArrMap_Ptr sum64 fuel keq KeyBytes None k w = Panic w /\
  ArrMap_Set sum64 zero fuel keq KeyBytes None k v w = Panic w /\
  ArrMap_Mod sum64 zero fuel keq KeyBytes None k f w = Panic w /\
  ArrMap_Del sum64 fuel keq KeyBytes None k w = Panic w /\
  ArrMap_All sum64 fuel keq KeyBytes None g w = Panic w.
Proof. done. Qed.
Theorem C21_Map : ∀ (w : world V K U) k v f g,
  Map_Val zero fuel Equal Hash None k w = Ret zero w /\
  Map_Get zero fuel Equal Hash None k w = Panic w /\
  Map_Ptr fuel Equal Hash None k w = Panic w /\
  Map_Set fuel Equal Hash None k v w = Panic w /\
  Map_Mod zero fuel Equal Hash None k f w = Panic w /\
  Map_Del fuel Equal Hash None k w = Panic w /\
  Map_All fuel Equal Hash None g w = Panic w.
Proof. done. Qed.
Theorem C21_sets : ∀ (wb : world unit bytes U) (wi : world unit unit U) (wk : world unit K U)
    (b : bytes) (i : Z) (k : K) fb fi fk,
  (StringSet_Has sum64 fuel None b wb = Panic wb /\ StringSet_Add sum64 fuel None b wb = Panic wb /\
   StringSet_Del sum64 fuel None b wb = Panic wb /\ StringSet_All sum64 fuel None fb wb = Panic wb) /\
  (BytesSet_Has sum64 fuel None b wb = Panic wb /\ BytesSet_Add sum64 fuel None b wb = Panic wb /\
   BytesSet_Del sum64 fuel None b wb = Panic wb /\ BytesSet_All sum64 fuel None fb wb = Panic wb) /\
  (IntSet_Has sum64 fuel None i wi = Panic wi /\ IntSet_Add sum64 fuel None i wi = Panic wi /\
   IntSet_Del sum64 fuel None i wi = Panic wi /\ IntSet_All sum64 fuel None fi wi = Panic wi) /\
  (ArrSet_Has sum64 fuel keq KeyBytes None k wk = Panic wk /\
   ArrSet_Add sum64 fuel keq KeyBytes None k wk = Panic wk /\
   ArrSet_Del sum64 fuel keq KeyBytes None k wk = Panic wk /\
   ArrSet_All sum64 fuel keq KeyBytes None fk wk = Panic wk) /\
  (Set_Has fuel Equal Hash None k wk = Panic wk /\ Set_Add fuel Equal Hash None k wk = Panic wk /\
   Set_Del fuel Equal Hash None k wk = Panic wk /\ Set_All fuel Equal Hash None fk wk = Panic wk).
Proof. done. Qed.
End uninitialised.

Print Assumptions C06_int_key_lossless.
Print Assumptions C06_int_key_halves_fit.
Print Assumptions C06_intbytes_injective.
Print Assumptions C06_intbytes_is_8_bytes.
Print Assumptions C27_Hash_methods.
Print Assumptions C27_HashBytes_partial.
Print Assumptions C27_HashBytes_255_refuted.
Print Assumptions C27_HashBytes_large_refuted.
Print Assumptions C27_Hash_max_refuted.
Print Assumptions C28_conflict_hash_partial.
Print Assumptions C28_conflict_hash_refuted.
Print Assumptions C21_nil_len_dep.
Print Assumptions C21_StringMap.
Print Assumptions C21_sets.
