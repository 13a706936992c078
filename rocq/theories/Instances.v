(** The families as instances of the proofs in Refine.v and RefineSet.v. *)
From Coq Require Import Sorted SpecFloat.
From stdpp Require Import base numbers list gmap.
From Verif Require Import GoInt Mem Hash Amt Families BitsFacts Steps Tree Rep Paths Descend Insert Split Delete Remove Core Scan Order Heap Spec SpecFacts HashFacts Client Types Refine RefineSet.
Local Open Scope nat_scope.

(** ** Layouts *)
Definition kv_layout {K V} (P : K -> Prop) : layout K V K := Layout kv_leaf (λ k, k) true P.
Definition int_layout {V} (P : Z -> Prop) : layout Z V unit := Layout int_leaf (λ _, tt) true (λ k, P k /\ is_int64 k).
Definition intset_layout {V} (P : Z -> Prop) : layout Z V unit := Layout int_leaf (λ _, tt) false (λ k, P k /\ is_int64 k).

Lemma kv_fam_ok {K HS V U} (P : K -> Prop) st nx cf eq :
  fam_ok (Fam (HS:=HS) (V:=V) (U:=U) st nx cf kv_key kv_leaf kv_pair kv_new eq) (kv_layout P).
Proof.
  constructor; try done. intros k p w _ Hc. unfold cell in Hc. simpl in Hc. destruct Hc as (a & v & -> & Ha).
  simpl. unfold kv_key. simpl. by rewrite (bind_Ret _ _ _ _ _ (load_kv_step _ _ _ _ Ha)).
Qed.

(** Keys whose upper half is zero. *)
Lemma small_hi k : (0 <= k < 2 ^ 32)%Z -> int_hi k = 0%N.
Proof.
  unfold int_hi. intros Hk. rewrite Z.shiftr_div_pow2 by lia.
  rewrite (Z.div_small k) by lia. done.
Qed.

Lemma int_fam_ok {V U} (P : Z -> Prop) sum64 : fam_ok (V:=V) (U:=U) (int_fam sum64) (int_layout P).
Proof. constructor; try done. intros k p w [_ Hk] _. simpl. unfold int_key. simpl. by rewrite int_lo_hi. Qed.
Lemma intset_fam_ok {V U} (P : Z -> Prop) sum64 : fam_ok (V:=V) (U:=U) (intset_fam sum64) (intset_layout P).
Proof. constructor; try done. intros k p w [_ Hk] _. simpl. unfold int_key. simpl. by rewrite int_lo_hi. Qed.

(** ** Digits *)
Section stream.
Context {K V CK U : Type} (sum64 : N -> bytes -> N) (kbytes : K -> bytes) (F : fam K mhash V CK U) (L : layout K V CK).
Hypothesis Hst : f_start F = stream_start sum64 kbytes.
Hypothesis Hnx : f_next F = stream_next sum64 kbytes.
Hypothesis Hcf : f_conf F = stream_conf sum64 kbytes.

Lemma stream_dig s k d : nib F s k d = digit sum64 s (kbytes k) d.
Proof. by apply stream_nib. Qed.
Lemma stream_goodway dig (W : N -> K -> K -> nat -> Prop) :
  (∀ s k ck p d, W s k ck d -> lk_tmap (ly_leaf L ck p) = 0%N \/ dig s k (S d) ≠ dig s ck (S d)) -> goodway L dig F W.
Proof.
  intros Hflat s k ck p d Hk Hck Hw Hd. split; [|by apply Hflat]. intros fuel Hf. rewrite Hcf. by apply stream_conf_ok.
Qed.
End stream.

Section generic.
Context {K V U : Type} (Equal : K -> K -> bool) (Hash : K -> N -> N -> N).
Local Notation GF := (gen_fam (V:=V) (U:=U) Equal Hash).
Local Notation GM := (gen_mod_fam (V:=V) (U:=U) Equal Hash).

Lemma gen_hproc s k d : hproc GF s k d =
  (tt, N.shiftr (Hash k s (N.of_nat (d / 16))) (4 * N.of_nat (d mod 16))).
Proof.
  induction d as [|d IH].
  - cbn [hproc]. done.
  - cbn [hproc]. unfold advance.
    assert (E : (N.of_nat (S d) mod 16 = N.of_nat (S d mod 16))%N) by (by rewrite Nat2N.inj_mod).
    rewrite E. destruct (N.eqb_spec (N.of_nat (S d mod 16)) 0) as [H0|H0]; cbn [negb].
    + assert (H0' : S d mod 16 = 0) by lia. cbn [f_next gen_fam].
      rewrite H0'. change (4 * N.of_nat 0)%N with 0%N. rewrite N.shiftr_0_r.
      rewrite N.shiftr_div_pow2. change (2 ^ 4)%N with (N.of_nat 16). by rewrite <- Nat2N.inj_div.
    + destruct (div16_S d) as [E1 E2]; [lia|]. rewrite IH, E1, E2. cbn [fst snd]. f_equal.
      rewrite N.shiftr_shiftr. f_equal. lia.
Qed.
Lemma gen_nib s k d : nib GF s k d = gdigit Hash s k d.
Proof.
  unfold nib, radix_of, gdigit. rewrite gen_hproc. cbn [snd].
  change 15%N with (N.ones 4). by rewrite N.land_ones.
Qed.
Lemma gen_mod_nib s k d : nib GM s k d = nib GF s k d.
Proof. done. Qed.

Variables (P : K -> Prop).
Hypothesis Heq : ∀ k k', P k -> P k' -> Equal k k' = true <-> k = k'.
Lemma gen_laws : laws GF (kv_layout P).
Proof. by constructor. Qed.
Lemma gen_alike : alike GF (kv_layout P) GF.
Proof. split_and!; [apply kv_fam_ok|done|apply gen_laws]. Qed.
Lemma gen_mod_alike : alike GF (kv_layout P) GM.
Proof. split_and!; [apply kv_fam_ok|done|by constructor]. Qed.
Lemma gen_conf (h : N) d : (tt, N.shiftr h (4 * (N.of_nat d mod 16))) = (tt, upper h d).
Proof. unfold upper. change 16%N with (N.of_nat 16). by rewrite <- Nat2N.inj_mod. Qed.
Lemma gen_goodway : goodway (kv_layout P) (gdigit Hash) GF (set_way Hash).
Proof.
  intros s k ck p d _ _ Hw _. split; [|by left]. intros fuel _. rewrite gen_hproc. cbn [f_conf gen_fam].
  rewrite gen_conf. unfold set_way in Hw. change 16%N with (N.of_nat 16). rewrite <- Nat2N.inj_mod. by rewrite Hw.
Qed.
Lemma gen_mod_goodway : goodway (kv_layout P) (gdigit Hash) GM (mod_way Hash).
Proof.
  intros s k ck p d _ _ Hw _. split; [|by left]. intros fuel _. change (hproc GM) with (hproc GF).
  rewrite gen_hproc. cbn [f_conf gen_mod_fam].
  rewrite gen_conf. unfold mod_way in Hw. change 16%N with (N.of_nat 16). rewrite <- Nat2N.inj_mod. by rewrite Hw.
Qed.
End generic.
