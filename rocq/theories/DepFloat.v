(** Dividing two counters as float64: the rounding errors. *)
From Coq Require Import SpecFloat ZArith Reals Lra Lia.
From Flocq Require Import Core Relative BinarySingleNaN.
From Verif Require Import FloatSpec.
Local Open Scope R_scope.

Notation fmt := (SpecFloat.fexp 53 1024).
Notation rnd := (round radix2 fmt ZnearestE).
Notation b64 := (binary_float 53 1024).
Lemma Hprec : Prec_gt_0 53. Proof. reflexivity. Qed.
Lemma Hmax : Prec_lt_emax 53 1024. Proof. reflexivity. Qed.
#[local] Existing Instance Hprec.
#[local] Existing Instance Hmax.
#[local] Instance fmt_ok : Valid_exp fmt := fexp_correct 53 1024 Hprec.
Lemma fmt_flt e : fmt e = FLT_exp (-1074) 53 e. Proof. reflexivity. Qed.

(** ** The operations of Coq's library and those of Flocq *)
Lemma nearest_even_same s m l : round_nearest_even m l = choice_mode mode_NE s m l.
Proof. destruct l as [|c]; [reflexivity|]. destruct c; [|reflexivity..]. simpl. unfold Round.cond_incr. now destruct (Z.even m). Qed.
Lemma round_aux_same sx mx ex lx : SpecFloat.binary_round_aux 53 1024 sx mx ex lx = binary_round_aux 53 1024 mode_NE sx mx ex lx.
Proof. unfold SpecFloat.binary_round_aux, binary_round_aux. destruct (shr_fexp _ _ _) as [mrs' e']. now rewrite (nearest_even_same sx). Qed.
Lemma round_same s m e : SpecFloat.binary_round 53 1024 s m e = binary_round 53 1024 mode_NE s m e.
Proof. unfold SpecFloat.binary_round, binary_round, shl_align_fexp. destruct (shl_align _ _ _) as [mz ez]. apply round_aux_same. Qed.
Lemma normalize_same m e z : SpecFloat.binary_normalize 53 1024 m e z = B2SF (BinarySingleNaN.binary_normalize 53 1024 Hprec Hmax mode_NE m e z).
Proof. destruct m; [reflexivity|simpl; rewrite B2SF_SF2B; apply round_same..]. Qed.
Lemma div_same (x y : b64) : SFdiv 53 1024 (B2SF x) (B2SF y) = B2SF (Bdiv mode_NE x y).
Proof.
  destruct x as [sx|sx| |sx mx ex Bx]; destruct y as [sy|sy| |sy my ey By]; try reflexivity. simpl. rewrite B2SF_SF2B.
  destruct (SFdiv_core_binary _ _ _ _ _ _) as [[mz ez] lz]. apply round_aux_same.
Qed.
Lemma value_B2R (x : b64) : value (B2SF x) = B2R x.
Proof.
  destruct x as [sx|sx| |sx mx ex Bx]; try reflexivity. simpl. unfold F2R. simpl. rewrite bpow_powerRZ. simpl.
  destruct sx; simpl; [rewrite (Ropp_Ropp_IZR (Zpos mx) : IZR (Zneg mx) = _)|]; lra.
Qed.
Lemma float64_B2SF (x : b64) : float64 (B2SF x).
Proof. apply valid_binary_B2SF. Qed.
Lemma finite_B2SF (x : b64) : is_finite x = true -> finite (B2SF x).
Proof. now destruct x. Qed.

(** ** Rounding *)
Lemma bpow_lt_max e : (e < 1024)%Z -> bpow radix2 e < bpow radix2 1024.
Proof. apply bpow_lt. Qed.
Lemma rnd_small x e : (-1000 <= e < 1024)%Z -> Rabs x <= bpow radix2 e -> Rabs (rnd x) < bpow radix2 1024.
Proof.
  intros He Hx. eapply Rle_lt_trans; [|apply (bpow_lt_max e); lia].
  apply abs_round_le_generic; [apply fmt_ok|apply valid_rnd_N| |exact Hx]. apply generic_format_bpow. unfold fmt, emin. lia.
Qed.
Lemma conv z : (0 <= z <= 2 ^ 64)%Z -> exists b : b64, SpecFloat.binary_normalize 53 1024 z 0 false = B2SF b /\ B2R b = rnd (IZR z) /\ is_finite b = true.
Proof.
  intros Hz. exists (BinarySingleNaN.binary_normalize 53 1024 Hprec Hmax mode_NE z 0 false). split; [apply normalize_same|].
  pose proof (binary_normalize_correct 53 1024 Hprec Hmax mode_NE z 0 false) as H. cbv zeta in H.
  assert (E : F2R (Float radix2 z 0) = IZR z) by (unfold F2R; simpl; lra). rewrite E in H. change (round_mode mode_NE) with ZnearestE in H.
  rewrite Rlt_bool_true in H; [split; apply H|]. apply (rnd_small _ 64); [lia|].
  rewrite Rabs_pos_eq by (apply IZR_le; lia). change (bpow radix2 64) with (IZR (2 ^ 64)). apply IZR_le. lia.
Qed.
Lemma rnd_error x : bpow radix2 (-1022) <= Rabs x -> Rabs (rnd x - x) <= bpow radix2 (-53) * Rabs x.
Proof.
  intros Hx. pose proof (relative_error_N_FLT radix2 (-1074) 53 ltac:(lia) (fun x => negb (Z.even x)) x Hx) as H.
  eapply Rle_trans; [exact H|]. apply Req_le. f_equal. simpl. lra.
Qed.
Lemma rnd_pos_error x : bpow radix2 (-1022) <= x -> (1 - bpow radix2 (-53)) * x <= rnd x <= (1 + bpow radix2 (-53)) * x.
Proof.
  intros Hx. pose proof (bpow_gt_0 radix2 (-1022)) as H0. pose proof (rnd_error x) as H. rewrite (Rabs_pos_eq x) in H by lra. specialize (H Hx).
  apply Rabs_le_inv in H. lra.
Qed.
Lemma rnd_int z : (0 <= z <= 2 ^ 53)%Z -> rnd (IZR z) = IZR z.
Proof.
  intros Hz. apply round_generic; [apply valid_rnd_N|].
  destruct (Z.eq_dec z (2 ^ 53)) as [->|Hn].
  - change (IZR (2 ^ 53)) with (bpow radix2 53). apply generic_format_bpow. vm_compute. discriminate.
  - apply (generic_format_FLT radix2 (-1074) 53). exists (Float radix2 z 0).
    + unfold F2R. change (IZR z = IZR z * 1). ring.
    + change (Z.abs z < 2 ^ 53)%Z. lia.
    + change (-1074 <= 0)%Z. lia.
Qed.
Lemma one_le x : 1 <= x -> bpow radix2 (-1022) <= x.
Proof. intros H. apply (Rle_trans _ 1); [|exact H]. change 1 with (bpow radix2 0). apply bpow_le. lia. Qed.

(** The quotient of two counters. *)
Definition quot (t n : Z) : spec_float :=
  SFdiv 53 1024 (SpecFloat.binary_normalize 53 1024 t 0 false) (SpecFloat.binary_normalize 53 1024 n 0 false).
Definition half_ulp : R := bpow radix2 (-53).
Lemma half_ulp_small : 0 < half_ulp < / 100.
Proof.
  split; [apply bpow_gt_0|]. apply (Rlt_le_trans _ (bpow radix2 (-7))); [apply bpow_lt; lia|]. simpl. lra.
Qed.
Lemma rnd_num z : (1 <= z)%Z -> (1 - half_ulp) * IZR z <= rnd (IZR z) <= (1 + half_ulp) * IZR z.
Proof. intros Hz. apply rnd_pos_error, one_le. apply IZR_le. exact Hz. Qed.

Lemma quot_rounds t n : (0 <= t <= 2 ^ 64)%Z -> (0 < n <= 2 ^ 64)%Z ->
  exists b : b64, quot t n = B2SF b /\ B2R b = rnd (rnd (IZR t) / rnd (IZR n)) /\ is_finite b = true.
Proof.
  intros Ht Hn. destruct (conv t Ht) as (x & Ex & Rx & Fx). destruct (conv n ltac:(lia)) as (y & Ey & Ry & Fy).
  unfold quot. rewrite Ex, Ey, div_same. exists (Bdiv mode_NE x y). split; [reflexivity|].
  pose proof (rnd_num n ltac:(lia)) as Hy. rewrite <- Ry in Hy. pose proof half_ulp_small as Hu.
  assert (1 <= IZR n) by (apply IZR_le; lia).
  assert (Hy0 : / 2 <= B2R y) by nra.
  pose proof (Bdiv_correct 53 1024 Hprec Hmax mode_NE x y ltac:(lra)) as H1. change (round_mode mode_NE) with ZnearestE in H1. rewrite <- Rx, <- Ry.
  rewrite Rlt_bool_true in H1; [rewrite <- Fx; split; apply H1|]. apply (rnd_small _ 66); [lia|].
  assert (Hx : 0 <= B2R x <= bpow radix2 65).
  { rewrite Rx. destruct (Z.eq_dec t 0) as [->|Hz]; [rewrite round_0 by apply valid_rnd_N; split; [lra|apply bpow_ge_0]|].
    pose proof (rnd_num t ltac:(lia)) as Hr. assert (1 <= IZR t) by (apply IZR_le; lia).
    assert (IZR t <= bpow radix2 64) by (change (bpow radix2 64) with (IZR (2 ^ 64)); apply IZR_le; lia).
    change (bpow radix2 65) with (bpow radix2 (1 + 64)). rewrite bpow_plus. change (bpow radix2 1) with 2. nra. }
  rewrite Rabs_pos_eq by (apply Rmult_le_pos; [lra|]; apply Rlt_le, Rinv_0_lt_compat; lra).
  apply (Rmult_le_reg_r (B2R y)); [lra|]. unfold Rdiv. rewrite Rmult_assoc, Rinv_l, Rmult_1_r by lra.
  change (bpow radix2 66) with (bpow radix2 (1 + 65)). rewrite bpow_plus. change (bpow radix2 1) with 2.
  pose proof (bpow_gt_0 radix2 65). nra.
Qed.

(** The quotient of numbers up to 2^53 is rounded once. *)
Lemma quot_nearest t n : (0 <= t <= 2 ^ 53)%Z -> (0 < n <= 2 ^ 53)%Z -> nearest (quot t n) (IZR t / IZR n).
Proof.
  intros Ht Hn. destruct (quot_rounds t n ltac:(lia) ltac:(lia)) as (b & E & Hb & Hf). rewrite !rnd_int in Hb by lia. rewrite E.
  split; [apply float64_B2SF|]. split; [now apply finite_B2SF|]. intros y Hy Hyf. rewrite value_B2R, Hb.
  destruct (round_N_pt radix2 fmt (fun x => negb (Z.even x)) (IZR t / IZR n)) as [_ H]. 
  assert (Ey : y = B2SF (SF2B y Hy)) by (symmetry; apply B2SF_SF2B). rewrite Ey, value_B2R. apply H. apply generic_format_B2R.
Qed.
(** Otherwise there are three rounding errors. *)
Lemma quot_error t n : (0 <= t <= 2 ^ 64)%Z -> (0 < n <= 2 ^ 64)%Z ->
  float64 (quot t n) /\ finite (quot t n) /\ Rabs (value (quot t n) - IZR t / IZR n) <= powerRZ 2 (-51) * (IZR t / IZR n).
Proof.
  intros Ht Hn. destruct (quot_rounds t n Ht Hn) as (b & E & Hb & Hf). rewrite E.
  split; [apply float64_B2SF|]. split; [now apply finite_B2SF|]. rewrite value_B2R, Hb.
  destruct (Z.eq_dec t 0) as [->|Hz].
  { rewrite !round_0 by apply valid_rnd_N. unfold Rdiv. rewrite !Rmult_0_l, round_0 by apply valid_rnd_N. rewrite Rmult_0_r, Rminus_0_r, Rabs_R0. lra. }
  pose proof (rnd_num t ltac:(lia)) as Hx. pose proof (rnd_num n ltac:(lia)) as Hy. pose proof half_ulp_small as Hu.
  assert (H1 : 1 <= IZR t) by (apply IZR_le; lia). assert (H2 : 1 <= IZR n) by (apply IZR_le; lia).
  assert (H3 : IZR n <= bpow radix2 64) by (change (bpow radix2 64) with (IZR (2 ^ 64)); apply IZR_le; lia).
  assert (E4 : powerRZ 2 (-51) = 4 * half_ulp).
  { change (powerRZ 2 (-51)) with (powerRZ (IZR radix2) (-51)). rewrite <- bpow_powerRZ. change (-51)%Z with (2 + -53)%Z. rewrite bpow_plus. change (bpow radix2 2) with 4. reflexivity. }
  rewrite E4. set (X := rnd (IZR t)) in *. set (Y := rnd (IZR n)) in *. set (u := half_ulp) in *.
  assert (HX : / 2 <= X) by nra. assert (HY : / 2 <= Y) by nra.
  assert (HYu : Y <= bpow radix2 65) by (change (bpow radix2 65) with (bpow radix2 (1 + 64)); rewrite bpow_plus; change (bpow radix2 1) with 2; nra).
  assert (Hq : bpow radix2 (-1022) <= X / Y).
  { apply (Rmult_le_reg_r Y); [lra|]. unfold Rdiv. rewrite Rmult_assoc, Rinv_l, Rmult_1_r by lra.
    apply (Rle_trans _ (bpow radix2 (-1022) * bpow radix2 65)); [apply Rmult_le_compat_l; [apply bpow_ge_0|exact HYu]|].
    rewrite <- bpow_plus. apply (Rle_trans _ (bpow radix2 (-1))); [apply bpow_le; lia|]. simpl. lra. }
  pose proof (rnd_pos_error _ Hq) as HD. fold half_ulp in HD. fold u in HD. set (D := rnd (X / Y)) in *.
  assert (HX1 : X / Y <= (1 + u) * IZR t / ((1 - u) * IZR n)).
  { apply Rmult_le_compat; [lra|apply Rlt_le, Rinv_0_lt_compat; lra|apply Hx|]. apply Rinv_le; [nra|apply Hy]. }
  assert (HX2 : (1 - u) * IZR t / ((1 + u) * IZR n) <= X / Y).
  { apply Rmult_le_compat; [nra|apply Rlt_le, Rinv_0_lt_compat; nra|apply Hx|]. apply Rinv_le; [lra|apply Hy]. }
  set (q := IZR t / IZR n) in *. assert (Hq0 : 0 < q) by (apply Rdiv_lt_0_compat; lra).
  assert (E1 : (1 + u) * IZR t / ((1 - u) * IZR n) = (1 + u) / (1 - u) * q) by (unfold q; field; lra).
  assert (E2 : (1 - u) * IZR t / ((1 + u) * IZR n) = (1 - u) / (1 + u) * q) by (unfold q; field; lra).
  rewrite E1 in HX1. rewrite E2 in HX2.
  assert (B1 : (1 + u) * ((1 + u) / (1 - u)) <= 1 + 4 * u).
  { apply (Rmult_le_reg_r (1 - u)); [lra|]. replace ((1 + u) * ((1 + u) / (1 - u)) * (1 - u)) with ((1 + u) * (1 + u)) by (field; lra). nra. }
  assert (B2 : 1 - 4 * u <= (1 - u) * ((1 - u) / (1 + u))).
  { apply (Rmult_le_reg_r (1 + u)); [lra|]. replace ((1 - u) * ((1 - u) / (1 + u)) * (1 + u)) with ((1 - u) * (1 - u)) by (field; lra). nra. }
  apply Rabs_le. split.
  - assert ((1 - 4 * u) * q <= D); [|lra]. apply (Rle_trans _ ((1 - u) * ((1 - u) / (1 + u)) * q)); [apply Rmult_le_compat_r; lra|].
    rewrite Rmult_assoc. eapply Rle_trans; [|apply HD]. apply Rmult_le_compat_l; lra.
  - assert (D <= (1 + 4 * u) * q); [|lra]. apply (Rle_trans _ ((1 + u) * ((1 + u) / (1 - u)) * q)); [|apply Rmult_le_compat_r; lra].
    rewrite Rmult_assoc. eapply Rle_trans; [apply HD|]. apply Rmult_le_compat_l; lra.
Qed.

(** If q is a float64, then only q itself is nearest to it. *)
Lemma nearest_exact x y : nearest x (value y) -> float64 y -> finite y -> value x = value y.
Proof. intros (_ & _ & H) Hy Hf. specialize (H y Hy Hf). rewrite Rminus_eq_0, Rabs_R0 in H. pose proof (Rabs_pos (value x - value y)). apply Rminus_diag_uniq. destruct (Req_dec (value x - value y) 0) as [E|E]; [exact E|]. apply Rabs_pos_lt in E. lra. Qed.
