(** Proofs for C89: sums of concave, Lipschitz gradients. *)
From Coq Require Import Reals Lra Psatz.
From Verif Require Import Base ListUtil Pytree PytreeSpec Io TreeUtil TreeUtilSpec TreeUtilProofs IntegratorSpec ExpectSpec GaussianLimit GaussianMatrix ConcaveSpec.
Open Scope R_scope.
Set Implicit Arguments.

Lemma distance2_nonneg s x y : 0 <= distance2 s x y.
Proof. apply sum_upto_nonneg. intros i _. apply Rle_0_sqr. Qed.
(** Minkowski's inequality without roots *)
Lemma minkowski d u v a b n : 0 <= a -> 0 <= b -> 0 <= n -> norm2 d u <= a * a * n -> norm2 d v <= b * b * n -> norm2 d (fun i => u i + v i) <= (a + b) * (a + b) * n.
Proof.
  intros Ha Hb Hn Hu Hv. unfold norm2 at 1. rewrite (@sum_upto_ext d _ (fun i => u i * u i + (2 * (u i * v i) + v i * v i))) by (intros; ring).
  rewrite !sum_upto_plus, (@sum_upto_scale d 2 (fun i => u i * v i)). fold (norm2 d u) (norm2 d v).
  assert (K : sum_upto d (fun i => u i * v i) <= a * b * n).
  { pose proof (cauchy d u v) as C. pose proof (norm2_nonneg d u) as N1. pose proof (norm2_nonneg d v) as N2.
    assert (P : 0 <= a * b * n) by (apply Rmult_le_pos; [apply Rmult_le_pos|]; auto).
    eapply Rle_trans; [apply Rle_abs|]. apply Rsqr_incr_0_var; [|exact P]. rewrite <- Rsqr_abs. unfold Rsqr. eapply Rle_trans; [exact C|].
    replace (a * b * n * (a * b * n)) with ((a * a * n) * (b * b * n)) by ring. apply Rmult_le_compat; auto. }
  replace ((a + b) * (a + b) * n) with (a * a * n + (2 * (a * b * n) + b * b * n)) by ring. lra.
Qed.
Lemma norm2_scale d c u : norm2 d (fun i => c * u i) = c * c * norm2 d u.
Proof. unfold norm2. rewrite <- sum_upto_scale. apply sum_upto_ext. intros; ring. Qed.
Lemma minkowski_sum d k (u : nat -> nat -> R) a n : 0 <= a -> 0 <= n -> (forall j, (j < k)%nat -> norm2 d (u j) <= a * a * n) -> norm2 d (fun i => sum_upto k (fun j => u j i)) <= (INR k * a) * (INR k * a) * n.
Proof.
  intros Ha Hn H. induction k as [|k IH].
  - cbn [INR]. rewrite (@norm2_ext d _ (fun _ => 0 * 0)) by (intros; unfold sum_upto; cbn; lra). rewrite (@norm2_scale d 0 (fun _ => 0)). lra.
  - rewrite (@norm2_ext d _ (fun i => sum_upto k (fun j => u j i) + u k i)) by (intros; rewrite sum_upto_S; reflexivity).
    replace (INR (S k) * a) with (INR k * a + a) by (rewrite S_INR; ring).
    apply minkowski; auto. apply Rmult_le_pos; auto. apply pos_INR.
Qed.
(** one step: the distance of two positions that move against a strongly monotone Lipschitz gradient *)
Lemma step_distance d (u g : nat -> R) e m L : 0 <= e -> m * norm2 d u <= sum_upto d (fun i => g i * u i) -> norm2 d g <= L * L * norm2 d u ->
  norm2 d (fun i => u i - e * g i) <= (1 - 2 * e * m + e * e * (L * L)) * norm2 d u.
Proof.
  intros He Hm HL. unfold norm2 at 1. rewrite (@sum_upto_ext d _ (fun i => u i * u i + ((- 2 * e) * (g i * u i) + e * e * (g i * g i)))) by (intros; ring).
  rewrite !sum_upto_plus, (@sum_upto_scale d (- 2 * e) (fun i => g i * u i)), (@sum_upto_scale d (e * e) (fun i => g i * g i)). fold (norm2 d u) (norm2 d g).
  assert (e * (m * norm2 d u) <= e * sum_upto d (fun i => g i * u i)) by (apply Rmult_le_compat_l; auto).
  assert (e * e * norm2 d g <= e * e * (L * L * norm2 d u)) by (apply Rmult_le_compat_l; auto; apply Rle_0_sqr). lra.
Qed.
Lemma prod_upto_S n f : prod_upto (S n) f = prod_upto n f * f n. Proof. reflexivity. Qed.
Lemma prod_upto_nonneg n f : (forall k, (k < n)%nat -> 0 <= f k) -> 0 <= prod_upto n f.
Proof. induction n as [|n IH]; intros H; [cbn; lra|]. cbn [prod_upto]. apply Rmult_le_pos; auto. Qed.
Lemma prod_upto_const n q : prod_upto n (fun _ => q) = q ^ n.
Proof. induction n as [|n IH]; [reflexivity|]. cbn [prod_upto pow]. rewrite IH. ring. Qed.
Lemma prod_upto_ext n f g : (forall k, (k < n)%nat -> f k = g k) -> prod_upto n f = prod_upto n g.
Proof. induction n as [|n IH]; intros H; [reflexivity|]. cbn [prod_upto]. rewrite IH, H; auto. Qed.
