(** The sum of the depths fits uint64, so Dep has only rounding errors. *)
From Coq Require Import SpecFloat ZArith Reals.
From stdpp Require Import base numbers list gmap.
From Verif Require Import Spec FloatSpec DepFloat.
Local Open Scope nat_scope.

Section depth.
Context `{Countable K} (dig : N -> K -> nat -> N).
Lemma common_le n : ∀ x y, common n x y <= n.
Proof. induction n as [|n IH]; intros x y; cbn [common]; [lia|]. destruct (N.eqb _ _); [|lia]. pose proof (IH (λ i, x (S i)) (λ i, y (S i))). lia. Qed.
Lemma depth_241 s ks k : depth dig s ks k <= 241.
Proof.
  unfold depth. induction ks as [|k' ks IH]; cbn [map foldr]; [lia|]. apply Nat.max_lub; [|exact IH].
  destruct (decide _); [lia|]. apply common_le.
Qed.
Lemma total_241 s ks : total_depth dig s ks <= 241 * length ks.
Proof.
  unfold total_depth. assert (Hx : ∀ l, sum_list (map (depth dig s ks) l) <= 241 * length l); [|apply Hx].
  induction l as [|k l IH]; [done|]. cbn [map length]. change (sum_list (?a :: ?b)) with (a + sum_list b). pose proof (depth_241 s ks k). lia.
Qed.
End depth.

Lemma mean_quot (t n : nat) : (N.of_nat t < 2 ^ 64)%N -> n ≠ 0 -> (N.of_nat n < 2 ^ 64)%N ->
  mean (N.of_nat t) (N.of_nat n) = quot (Z.of_nat t) (Z.of_nat n).
Proof.
  intros Ht Hn0 Hn. unfold mean. rewrite !N.mod_small by done. destruct (N.of_nat n =? 0)%N eqn:E; [apply N.eqb_eq in E; lia|].
  unfold quot. by rewrite !nat_N_Z.
Qed.
Lemma true_mean_quot t n : true_mean t n = (IZR (Z.of_nat t) / IZR (Z.of_nat n))%R.
Proof. unfold true_mean. by rewrite !INR_IZR_INZ. Qed.
Section mean.
Context `{Countable K} (dig : N -> K -> nat -> N) (s : N) (ks : list K).
Hypothesis Hks : ks ≠ [].
Lemma mean_nearest : (N.of_nat (length ks) <= 2 ^ 45)%N ->
  nearest (mean (N.of_nat (total_depth dig s ks)) (N.of_nat (length ks))) (true_mean (total_depth dig s ks) (length ks)).
Proof using Hks.
  intros Hn. pose proof (total_241 dig s ks) as Ht. assert (length ks ≠ 0) by (by destruct ks).
  assert (2 ^ 45 = 35184372088832)%N as E by done. rewrite E in Hn.
  assert (2 ^ 64 = 18446744073709551616)%N as E' by done. assert (2 ^ 53 = 9007199254740992)%Z as E2 by done.
  rewrite mean_quot, true_mean_quot by (rewrite ?E'; lia). apply quot_nearest; rewrite E2; lia.
Qed.
Lemma mean_close : (N.of_nat (length ks) <= 2 ^ 56)%N ->
  (N.of_nat (total_depth dig s ks) < 2 ^ 64)%N /\
  close (mean (N.of_nat (total_depth dig s ks)) (N.of_nat (length ks))) (true_mean (total_depth dig s ks) (length ks)).
Proof using Hks.
  intros Hn. pose proof (total_241 dig s ks) as Ht. assert (length ks ≠ 0) by (by destruct ks).
  assert (2 ^ 56 = 72057594037927936)%N as E by done. rewrite E in Hn.
  assert (2 ^ 64 = 18446744073709551616)%N as E' by done. assert (2 ^ 64 = 18446744073709551616)%Z as E2 by done.
  split; [rewrite E'; lia|]. rewrite mean_quot, true_mean_quot by (rewrite ?E'; lia). apply quot_error; rewrite E2; lia.
Qed.
End mean.
