(** The hash digits of a key, and the loops that compute them. *)
From stdpp Require Import base numbers list gmap.
From Verif Require Import GoInt Mem Hash Amt Families BitsFacts Descend Spec.
Local Open Scope nat_scope.

Lemma copies_snoc n b : copies (S n) b = copies n b ++ b.
Proof.
  induction n as [|n IH]; simpl; [by rewrite app_nil_r|].
  simpl in IH. rewrite IH at 1. by rewrite app_assoc.
Qed.

Lemma div16_S d : S d mod 16 ≠ 0 -> S d / 16 = d / 16 /\ S d mod 16 = S (d mod 16).
Proof.
  intros H.
  pose proof (Nat.div_mod_eq d 16). pose proof (Nat.mod_upper_bound d 16 ltac:(lia)).
  pose proof (Nat.div_mod_eq (S d) 16). pose proof (Nat.mod_upper_bound (S d) 16 ltac:(lia)).
  assert (S d / 16 = d / 16 \/ S d / 16 = S (d / 16)) as [E|E] by lia; lia.
Qed.
Lemma div16_0 d : S d mod 16 = 0 -> S d / 16 = S (d / 16).
Proof.
  intros H.
  pose proof (Nat.div_mod_eq d 16). pose proof (Nat.mod_upper_bound d 16 ltac:(lia)).
  pose proof (Nat.div_mod_eq (S d) 16). lia.
Qed.

Section hash.
Variable sum64 : N -> bytes -> N.

Section stream.
Context {K V CK U : Type} (kbytes : K -> bytes) (F : fam K mhash V CK U).
Hypothesis Hstart : f_start F = stream_start sum64 kbytes.
Hypothesis Hnext : f_next F = stream_next sum64 kbytes.

Lemma stream_hproc seed k d : hproc F seed k d =
  (MHash seed (copies (S (d / 16)) (kbytes k)),
   N.shiftr (sum64 seed (copies (S (d / 16)) (kbytes k))) (4 * N.of_nat (d mod 16))).
Proof.
  induction d as [|d IH].
  - cbn [hproc]. rewrite Hstart. unfold stream_start, mh_write, mh_new, mh_sum. simpl.
    rewrite app_nil_r. done.
  - cbn [hproc]. unfold advance.
    assert (E : (N.of_nat (S d) mod 16 = N.of_nat (S d mod 16))%N) by (by rewrite Nat2N.inj_mod).
    rewrite E. destruct (N.eqb_spec (N.of_nat (S d mod 16)) 0) as [H0|H0]; cbn [negb].
    + assert (H0' : S d mod 16 = 0) by lia.
      rewrite Hnext. unfold stream_next, mh_write, mh_sum. rewrite IH. cbn [fst mh_seed mh_buf].
      rewrite (div16_0 _ H0'), H0'. rewrite <- copies_snoc. by rewrite N.shiftr_0_r.
    + destruct (div16_S d) as [E1 E2]; [lia|]. rewrite IH, E1, E2. cbn [fst snd]. f_equal.
      rewrite N.shiftr_shiftr. f_equal. lia.
Qed.

Lemma stream_nib seed k d : nib F seed k d = digit sum64 seed (kbytes k) d.
Proof.
  unfold nib, radix_of, digit. rewrite stream_hproc. cbn [snd].
  change 15%N with (N.ones 4). by rewrite N.land_ones.
Qed.
End stream.

(** The loop that rehashes a conflicting key. *)
Lemma conf_loop_run b (d : nat) n : ∀ fuel i h,
  (16 * (i + n) > d) -> (n = 0 \/ 16 * (i + n - 1) <= d) -> d < 240 -> n < fuel -> i + n < 16 ->
  conf_loop fuel b (N.of_nat (16 * i)) (N.of_nat d) h = Some (MHash (mh_seed h) (mh_buf h ++ copies n b)).
Proof.
  induction n as [|n IH]; intros fuel i h H1 H2 H3 Hf H16; destruct fuel as [|fuel]; try lia; cbn [conf_loop].
  - destruct (N.leb_spec (N.of_nat (16 * i)) (N.of_nat d)); [lia|].
    simpl. rewrite app_nil_r. by destruct h.
  - destruct (N.leb_spec (N.of_nat (16 * i)) (N.of_nat d)); [|lia].
    rewrite u8_small by lia.
    replace (N.of_nat (16 * i) + 16)%N with (N.of_nat (16 * S i)) by lia.
    rewrite IH by lia. unfold mh_write. cbn [mh_seed mh_buf copies]. by rewrite <- app_assoc.
Qed.

Lemma stream_conf_ok {K V CK U} (kbytes : K -> bytes) (F : fam K mhash V CK U) fuel seed k ck d :
  f_start F = stream_start sum64 kbytes -> f_next F = stream_next sum64 kbytes ->
  d < 240 -> 16 <= fuel ->
  stream_conf sum64 kbytes fuel seed k ck (N.of_nat d) = Some (hproc F seed ck d).
Proof.
  intros Hs Hn Hd Hf. unfold stream_conf.
  pose proof (Nat.div_mod_eq d 16). pose proof (Nat.mod_upper_bound d 16 ltac:(lia)).
  assert (d / 16 < 15) by (apply Nat.div_lt_upper_bound; lia).
  change 0%N with (N.of_nat (16 * 0)).
  rewrite (conf_loop_run _ d (S (d / 16))) by lia.
  simpl. rewrite (stream_hproc kbytes) by done. cbn [mh_seed mh_buf mh_new app].
  unfold mh_sum. cbn [mh_seed mh_buf]. do 2 f_equal. f_equal. by rewrite Nat2N.inj_mod.
Qed.

(** From depth 240 on the loop never ends: cd wraps around to 0. *)
Lemma conf_loop_hang b d fuel : ∀ cd h, (240 <= d < 256)%N -> (cd mod 16 = 0)%N -> (cd < 256)%N ->
  conf_loop fuel b cd d h = None.
Proof.
  induction fuel as [|fuel IH]; intros cd h Hd H16 Hcd; [done|]. cbn [conf_loop].
  destruct (N.leb_spec cd d) as [Hle|Hgt].
  - apply IH; [done| |].
    + pose proof (N.div_mod' cd 16) as Hq. rewrite H16 in Hq.
      assert (Hq16 : (cd / 16 < 16)%N) by (apply N.div_lt_upper_bound; lia).
      assert (Hx : (cd + 16 < 256 \/ cd + 16 = 256)%N) by lia.
      destruct Hx as [Hx|Hx].
      * rewrite u8_small by done. replace (cd + 16)%N with ((cd / 16 + 1) * 16)%N by lia.
        by apply N.mod_mul.
      * rewrite Hx. done.
    + unfold u8. apply N.mod_lt. done.
  - pose proof (N.div_mod' cd 16). exfalso.
    assert (cd / 16 < 16)%N by (apply N.div_lt_upper_bound; lia). lia.
Qed.

Lemma conf_loop_more b d n : ∀ fuel cd h x, conf_loop fuel b cd d h = Some x -> conf_loop (fuel + n) b cd d h = Some x.
Proof.
  induction fuel as [|fuel IH]; intros cd h x; cbn [conf_loop Nat.add]; [done|].
  destruct (_ <=? _)%N; [apply IH|done].
Qed.
(** Whenever the loop ends, the conflicting key is rehashed right. *)
Lemma stream_conf_right {K V CK U} (kbytes : K -> bytes) (F : fam K mhash V CK U) fuel seed k ck d x :
  f_start F = stream_start sum64 kbytes -> f_next F = stream_next sum64 kbytes -> d <= 255 ->
  stream_conf sum64 kbytes fuel seed k ck (N.of_nat d) = Some x -> x = hproc F seed ck d.
Proof.
  intros Hs Hn Hd Hx. destruct (decide (d < 240)) as [Hlt|Hge].
  - pose proof (stream_conf_ok kbytes F (fuel + 16) seed k ck d Hs Hn Hlt ltac:(lia)) as Hy.
    unfold stream_conf in *. destruct (conf_loop fuel (kbytes ck) 0 (N.of_nat d) (mh_new seed)) as [y|] eqn:E; [|done].
    rewrite (conf_loop_more _ _ 16 _ _ _ _ E) in Hy. simpl in *. congruence.
  - unfold stream_conf in Hx. rewrite conf_loop_hang in Hx; [done|lia|done|lia].
Qed.

(** ** The Hash methods *)
Lemma hash_loop_run b (iter : N) n : ∀ fuel i h,
  (iter < 2 ^ 64 - 1)%N -> (i + N.of_nat n = iter + 1)%N -> n < fuel ->
  hash_loop fuel b iter i h = Some (MHash (mh_seed h) (mh_buf h ++ copies n b)).
Proof.
  induction n as [|n IH]; intros fuel i h Hi Hn Hf; destruct fuel as [|fuel]; try lia; cbn [hash_loop].
  - destruct (N.leb_spec i iter); [lia|]. simpl. rewrite app_nil_r. by destruct h.
  - destruct (N.leb_spec i iter); [|lia]. rewrite u64_small by lia.
    rewrite IH by lia. unfold mh_write. cbn [mh_seed mh_buf copies]. by rewrite <- app_assoc.
Qed.
Lemma hash_loop_hang b fuel : ∀ i h, (i < 2 ^ 64)%N -> hash_loop fuel b (2 ^ 64 - 1) i h = None.
Proof.
  induction fuel as [|fuel IH]; intros i h Hi; [done|]. cbn [hash_loop].
  destruct (N.leb_spec i (2 ^ 64 - 1)); [|lia]. apply IH. unfold u64. by apply N.mod_lt.
Qed.
Lemma hashbytes_run b (iter : N) n : ∀ fuel i h,
  (u8 iter < 255)%N -> (i + N.of_nat n = u8 iter + 1)%N -> n < fuel ->
  hashbytes_loop fuel b iter i h = Some (MHash (mh_seed h) (mh_buf h ++ copies n b)).
Proof.
  induction n as [|n IH]; intros fuel i h Hi Hn Hf; destruct fuel as [|fuel]; try lia; cbn [hashbytes_loop].
  - destruct (N.leb_spec i (u8 iter)); [lia|]. simpl. rewrite app_nil_r. by destruct h.
  - destruct (N.leb_spec i (u8 iter)); [|lia]. rewrite (u8_small (i + 1)) by lia.
    rewrite IH by lia. unfold mh_write. cbn [mh_seed mh_buf copies]. by rewrite <- app_assoc.
Qed.
Lemma hashbytes_hang b (iter : N) fuel : ∀ i h, u8 iter = 255%N -> (i < 256)%N ->
  hashbytes_loop fuel b iter i h = None.
Proof.
  induction fuel as [|fuel IH]; intros i h Hu Hi; [done|]. cbn [hashbytes_loop]. rewrite Hu.
  destruct (N.leb_spec i 255); [|lia]. apply IH; [done|]. unfold u8. by apply N.mod_lt.
Qed.
End hash.

(** ** Integer keys *)
Lemma int_lo_hi k : is_int64 k -> int_join (int_lo k) (int_hi k) = k.
Proof.
  intros Hk. unfold int_join, int_lo, int_hi, int64, is_int64 in *.
  rewrite !Z2N.id by (apply Z.mod_pos_bound; lia).
  rewrite Z.shiftr_div_pow2, Z.shiftl_mul_pow2 by lia.
  set (lo := (k mod 2 ^ 32)%Z). set (hi := ((k / 2 ^ 32) mod 2 ^ 32)%Z).
  assert (Hlo : (0 <= lo < 2 ^ 32)%Z) by (apply Z.mod_pos_bound; lia).
  assert (E : ((hi * 2 ^ 32 + 2 ^ 63) mod 2 ^ 64 - 2 ^ 63 = k - lo)%Z).
  { assert (Hdm : (k = 2 ^ 32 * (k / 2 ^ 32) + lo)%Z) by (apply Z.div_mod; lia).
    assert (Hhi : (k / 2 ^ 32 = 2 ^ 32 * ((k / 2 ^ 32) / 2 ^ 32) + hi)%Z) by (apply Z.div_mod; lia).
    assert (Hq : ((k / 2 ^ 32) / 2 ^ 32 = k / 2 ^ 64)%Z) by (rewrite Z.div_div by lia; done).
    rewrite Hq in Hhi.
    assert (Hk64 : (k / 2 ^ 64 = 0 \/ k / 2 ^ 64 = -1)%Z).
    { destruct (decide (0 <= k)%Z).
      - left. apply Z.div_small. lia.
      - right. symmetry. apply (Z.div_unique_pos _ _ _ (k + 2 ^ 64)); lia. }
    assert (Hx : (hi * 2 ^ 32 + 2 ^ 63 = (k - lo + 2 ^ 63) + (- (k / 2 ^ 64)) * 2 ^ 64)%Z) by lia.
    rewrite Hx, Z.mod_add by lia. rewrite Z.mod_small; [lia|].
    split; [|lia].
    assert (- 2 ^ 31 <= k / 2 ^ 32)%Z by (apply Z.div_le_lower_bound; lia). lia. }
  rewrite E. clear E.
  assert (Z.lor lo (k - lo) = lo + (k - lo))%Z as ->; [|lia].
  assert (Hland : Z.land lo (k - lo) = 0%Z).
  { apply Z.bits_inj'. intros n Hn. rewrite Z.land_spec, Z.bits_0.
    destruct (Z.ltb_spec n 32) as [H32|H32].
    - replace (k - lo)%Z with (Z.shiftl (k / 2 ^ 32) 32).
      + rewrite Z.shiftl_spec_low by done. apply andb_false_r.
      + rewrite Z.shiftl_mul_pow2 by lia. pose proof (Z.div_mod k (2 ^ 32) ltac:(lia)). unfold lo. lia.
    - unfold lo. rewrite Z.mod_pow2_bits_high by lia. done. }
  rewrite Z.add_nocarry_lxor by done. symmetry. by apply Z.lxor_lor.
Qed.

Lemma intbytes_bits k n : (0 <= n < 64)%Z ->
  Z.testbit k n = N.testbit (default 0%N (intbytes k !! Z.to_nat (n / 8))) (Z.to_N (n mod 8)).
Proof.
  intros Hn.
  assert (Hd : (0 <= n / 8 < 8)%Z) by (split; [apply Z.div_pos; lia|apply Z.div_lt_upper_bound; lia]).
  unfold intbytes. rewrite list_lookup_fmap, lookup_seq_lt by lia. simpl.
  pose proof (Z.mod_pos_bound n 8 ltac:(lia)).
  rewrite Z2Nat.id by lia.
  rewrite <- Z.testbit_of_N. rewrite !Z2N.id by (try apply Z.mod_pos_bound; lia).
  change 256%Z with (2 ^ 8)%Z. rewrite Z.mod_pow2_bits_low by lia.
  rewrite Z.shiftr_spec by lia. f_equal. pose proof (Z.div_mod n 8 ltac:(lia)). lia.
Qed.

Lemma int64_bits_high k n : is_int64 k -> (63 <= n)%Z -> Z.testbit k n = Z.testbit k 63.
Proof.
  unfold is_int64. intros Hk Hn. destruct (decide (0 <= k)%Z).
  - rewrite !Z.bits_above_log2; try done; try lia.
    + destruct (decide (k = 0)%Z) as [->|]; [simpl; lia|]. apply Z.log2_lt_pow2; lia.
    + destruct (decide (k = 0)%Z) as [->|]; [simpl; lia|]. apply Z.log2_lt_pow2; [lia|].
      assert (2 ^ 63 <= 2 ^ n)%Z by (apply Z.pow_le_mono_r; lia). lia.
  - assert (∀ m, (63 <= m)%Z -> Z.testbit k m = true) as H; [|rewrite !H; done || lia].
    intros m Hm. destruct (Z.testbit k m) eqn:E; [done|]. exfalso.
    rewrite <- (Z.lnot_involutive k) in E. rewrite Z.lnot_spec in E by lia.
    apply negb_false_iff in E.
    rewrite Z.bits_above_log2 in E; [done| |]; unfold Z.lnot.
    + lia.
    + destruct (decide (Z.pred (- k) = 0)%Z) as [->|]; [simpl; lia|]. apply Z.log2_lt_pow2; [lia|].
      assert (2 ^ 63 <= 2 ^ m)%Z by (apply Z.pow_le_mono_r; lia). lia.
Qed.

Lemma intbytes_inj k k' : is_int64 k -> is_int64 k' -> intbytes k = intbytes k' -> k = k'.
Proof.
  intros Hk Hk' E. apply Z.bits_inj'. intros n Hn.
  assert (∀ m, (0 <= m < 64)%Z -> Z.testbit k m = Z.testbit k' m) as H.
  { intros m Hm. rewrite !intbytes_bits by done. by rewrite E. }
  destruct (Z.ltb_spec n 64); [apply H; lia|].
  rewrite (int64_bits_high k), (int64_bits_high k') by (done || lia). apply H. lia.
Qed.
