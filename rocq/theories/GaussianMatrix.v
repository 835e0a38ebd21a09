(** Linear algebra for C77.  Models no code of /repo. *)
From Coq Require Import Reals Lra.
From Verif Require Import Base ListUtil TreeUtilSpec TreeUtilProofs ExpectSpec.
Open Scope R_scope.
Set Implicit Arguments.

(** squared norms of vectors and matrices of dimension d; product of a matrix with a vector *)
(** auxiliary definition of a statement or a proof; models no code of /repo *)
Definition norm2 (d : nat) (v : nat -> R) : R := sum_upto d (fun i => v i * v i).
(** auxiliary definition of a statement or a proof; models no code of /repo *)
Definition matvec (d : nat) (A : nat -> nat -> R) (v : nat -> R) (i : nat) : R := sum_upto d (fun j => A i j * v j).
(** auxiliary definition of a statement or a proof; models no code of /repo *)
Definition frob (d : nat) (W : nat -> nat -> R) : R := sum_upto d (fun i => sum_upto d (fun j => W i j * W i j)).

Lemma sum_upto_nonneg n f : (forall i, (i < n)%nat -> 0 <= f i) -> 0 <= sum_upto n f.
Proof. induction n as [|n IH]; intros H; [unfold sum_upto; cbn; lra|]. rewrite sum_upto_S. apply Rplus_le_le_0_compat; [apply IH; auto|apply H; lia]. Qed.
Lemma sum_upto_le n f g : (forall i, (i < n)%nat -> f i <= g i) -> sum_upto n f <= sum_upto n g.
Proof. induction n as [|n IH]; intros H; [unfold sum_upto; cbn; lra|]. rewrite !sum_upto_S. apply Rplus_le_compat; [apply IH; auto|apply H; lia]. Qed.
Lemma sum_upto_term n f i : (forall i, (i < n)%nat -> 0 <= f i) -> (i < n)%nat -> f i <= sum_upto n f.
Proof.
  induction n as [|n IH]; intros H Hi; [lia|]. rewrite sum_upto_S. destruct (Nat.eq_dec i n) as [->|].
  - pose proof (@sum_upto_nonneg n f ltac:(auto)). lra.
  - pose proof (H n ltac:(lia)). assert (f i <= sum_upto n f) by (apply IH; auto; lia). lra.
Qed.
Lemma norm2_nonneg d v : 0 <= norm2 d v.
Proof. apply sum_upto_nonneg. intros i _. nra. Qed.
Lemma frob_nonneg d W : 0 <= frob d W.
Proof. apply sum_upto_nonneg. intros i _. apply norm2_nonneg. Qed.
Lemma norm2_ext d u v : (forall i, (i < d)%nat -> u i = v i) -> norm2 d u = norm2 d v.
Proof. intros H. apply sum_upto_ext. intros i Hi. now rewrite H. Qed.
Lemma frob_ext d U V : (forall i j, (i < d)%nat -> (j < d)%nat -> U i j = V i j) -> frob d U = frob d V.
Proof. intros H. apply sum_upto_ext. intros i Hi. apply sum_upto_ext. intros j Hj. now rewrite H. Qed.

(** Cauchy-Schwarz *)
Lemma cauchy n a b : (sum_upto n (fun i => a i * b i)) * (sum_upto n (fun i => a i * b i)) <= norm2 n a * norm2 n b.
Proof.
  induction n as [|n IH]; [unfold norm2, sum_upto; cbn; lra|]. unfold norm2 in *. rewrite !sum_upto_S.
  set (P := sum_upto n (fun i => a i * b i)) in *. set (X := sum_upto n (fun i => a i * a i)) in *. set (Y := sum_upto n (fun i => b i * b i)) in *.
  assert (0 <= X) by (apply sum_upto_nonneg; intros; nra). assert (0 <= Y) by (apply sum_upto_nonneg; intros; nra).
  assert (K : 2 * P * (a n * b n) <= X * (b n * b n) + Y * (a n * a n)).
  { set (x := a n). set (y := b n). assert (KK : 2 * Rabs P * Rabs (x * y) <= X * (y * y) + Y * (x * x)).
    { assert (HP : Rabs P <= sqrt X * sqrt Y). { apply Rsqr_incr_0_var; [|apply Rmult_le_pos; apply sqrt_pos]. rewrite <- Rsqr_abs. unfold Rsqr. replace (sqrt X * sqrt Y * (sqrt X * sqrt Y)) with (sqrt X * sqrt X * (sqrt Y * sqrt Y)) by ring. rewrite !sqrt_sqrt by auto. exact IH. }
      rewrite Rabs_mult. pose proof (sqrt_pos X). pose proof (sqrt_pos Y). pose proof (sqrt_sqrt X ltac:(auto)) as HX. pose proof (sqrt_sqrt Y ltac:(auto)) as HY.
      assert (Ex : x * x = Rabs x * Rabs x) by (rewrite <- Rabs_mult; rewrite Rabs_pos_eq; [reflexivity|nra]). assert (Ey : y * y = Rabs y * Rabs y) by (rewrite <- Rabs_mult; rewrite Rabs_pos_eq; [reflexivity|nra]).
      rewrite Ex, Ey. pose proof (Rabs_pos x). pose proof (Rabs_pos y). set (p := sqrt X) in *. set (q := sqrt Y) in *. rewrite <- HX, <- HY.
      assert (2 * Rabs P * (Rabs x * Rabs y) <= 2 * (p * q) * (Rabs x * Rabs y)) by (apply Rmult_le_compat_r; [apply Rmult_le_pos; auto|lra]).
      pose proof (Rle_0_sqr (p * Rabs y - q * Rabs x)). unfold Rsqr in *. nra. }
    pose proof (Rle_abs (P * (x * y))) as HH. rewrite Rabs_mult in HH. lra. }
  nra.
Qed.
Lemma matvec_norm d A v : norm2 d (matvec d A v) <= frob d A * norm2 d v.
Proof.
  unfold norm2 at 1. unfold frob. rewrite Rmult_comm, <- sum_upto_scale. apply sum_upto_le. intros i Hi. unfold matvec. eapply Rle_trans; [apply (cauchy d (A i) v)|]. right. unfold norm2. ring.
Qed.
(** one gradient step of a coercive quadratic form is a contraction *)
Section Coercive.
Variables (d : nat) (A : nat -> nat -> R) (lam : R).
Hypothesis Hco : forall v, lam * norm2 d v <= sum_upto d (fun i => v i * matvec d A v i).
Variable eps : R.
Hypothesis He : 0 <= eps.
Let rho := 1 - eps * (2 * lam) + eps * eps * frob d A.
Lemma step_norm v : norm2 d (fun i => v i - eps * matvec d A v i) <= Rabs rho * norm2 d v.
Proof.
  unfold norm2 at 1. rewrite (@sum_upto_ext d _ (fun i => v i * v i + ((- 2 * eps) * (v i * matvec d A v i) + eps * eps * (matvec d A v i * matvec d A v i)))) by (intros; ring).
  rewrite !sum_upto_plus, !sum_upto_scale. fold (norm2 d v) (norm2 d (matvec d A v)). pose proof (Hco v) as H1. pose proof (matvec_norm d A v) as H2. pose proof (norm2_nonneg d v) as H3.
  pose proof (Rle_abs rho) as H4. assert (H5 : rho * norm2 d v <= Rabs rho * norm2 d v) by (apply Rmult_le_compat_r; auto). eapply Rle_trans; [|exact H5]. unfold rho.
  assert (eps * eps * norm2 d (matvec d A v) <= eps * eps * (frob d A * norm2 d v)) by (apply Rmult_le_compat_l; nra).
  assert (eps * (lam * norm2 d v) <= eps * sum_upto d (fun i => v i * matvec d A v i)) by (apply Rmult_le_compat_l; auto). lra.
Qed.
(** (I - eps A) W (I - eps A)^T *)
(** auxiliary definition of a statement or a proof; models no code of /repo *)
Definition congr (W : nat -> nat -> R) (i j : nat) : R :=
  let L := fun i j => W i j - eps * sum_upto d (fun k => A i k * W k j) in L i j - eps * sum_upto d (fun k => A j k * L i k).
Lemma frob_swap W : frob d W = frob d (fun i j => W j i).
Proof. unfold frob. apply (sum_upto_swap d d (fun i j => W i j * W i j)). Qed.
Lemma left_frob W : frob d (fun i j => W i j - eps * sum_upto d (fun k => A i k * W k j)) <= Rabs rho * frob d W.
Proof.
  rewrite frob_swap, (frob_swap W). unfold frob. rewrite <- sum_upto_scale. apply sum_upto_le. intros j Hj.
  apply (step_norm (fun i => W i j)).
Qed.
Lemma congr_frob W : frob d (congr W) <= Rabs rho * Rabs rho * frob d W.
Proof.
  apply Rle_trans with (Rabs rho * frob d (fun i j => W i j - eps * sum_upto d (fun k => A i k * W k j))).
  - unfold congr, frob. rewrite <- sum_upto_scale. apply sum_upto_le. intros i Hi.
    apply (step_norm (fun j => W i j - eps * sum_upto d (fun k => A i k * W k j))).
  - rewrite Rmult_assoc. apply Rmult_le_compat_l; [apply Rabs_pos|apply left_frob].
Qed.
(** auxiliary definition of a statement or a proof; models no code of /repo *)
Definition fnorm (W : nat -> nat -> R) : R := sqrt (frob d W).
Lemma congr_norm W : fnorm (congr W) <= Rabs rho * fnorm W.
Proof.
  unfold fnorm. apply Rsqr_incr_0_var; [|apply Rmult_le_pos; [apply Rabs_pos|apply sqrt_pos]]. unfold Rsqr. rewrite sqrt_sqrt by apply frob_nonneg.
  replace (Rabs rho * sqrt (frob d W) * (Rabs rho * sqrt (frob d W))) with (Rabs rho * Rabs rho * (sqrt (frob d W) * sqrt (frob d W))) by ring. rewrite sqrt_sqrt by apply frob_nonneg. apply congr_frob.
Qed.
End Coercive.
Lemma frob_cauchy d X Y : (sum_upto d (fun i => sum_upto d (fun j => X i j * Y i j))) <= fnorm d X * fnorm d Y.
Proof.
  assert (Hi : forall i, sum_upto d (fun j => X i j * Y i j) <= sqrt (norm2 d (X i)) * sqrt (norm2 d (Y i))).
  { intros i. eapply Rle_trans; [apply Rle_abs|]. apply Rsqr_incr_0_var; [|apply Rmult_le_pos; apply sqrt_pos]. rewrite <- Rsqr_abs. unfold Rsqr.
    replace (sqrt (norm2 d (X i)) * sqrt (norm2 d (Y i)) * (sqrt (norm2 d (X i)) * sqrt (norm2 d (Y i)))) with ((sqrt (norm2 d (X i)) * sqrt (norm2 d (X i))) * (sqrt (norm2 d (Y i)) * sqrt (norm2 d (Y i)))) by ring.
    rewrite !sqrt_sqrt by apply norm2_nonneg. apply cauchy. }
  eapply Rle_trans; [apply sum_upto_le; intros i _; apply Hi|]. eapply Rle_trans; [apply Rle_abs|]. unfold fnorm.
  apply Rsqr_incr_0_var; [|apply Rmult_le_pos; apply sqrt_pos]. rewrite <- Rsqr_abs. unfold Rsqr. eapply Rle_trans; [apply (cauchy d (fun i => sqrt (norm2 d (X i))) (fun i => sqrt (norm2 d (Y i))))|].
  right. unfold norm2 at 1 3. rewrite (@sum_upto_ext d _ (fun i => norm2 d (X i))) by (intros; apply sqrt_sqrt, norm2_nonneg). rewrite (@sum_upto_ext d (fun i => sqrt (norm2 d (Y i)) * sqrt (norm2 d (Y i))) (fun i => norm2 d (Y i))) by (intros; apply sqrt_sqrt, norm2_nonneg).
  change (sum_upto d (fun i => norm2 d (X i))) with (frob d X). change (sum_upto d (fun i => norm2 d (Y i))) with (frob d Y).
  replace (sqrt (frob d X) * sqrt (frob d Y) * (sqrt (frob d X) * sqrt (frob d Y))) with ((sqrt (frob d X) * sqrt (frob d X)) * (sqrt (frob d Y) * sqrt (frob d Y))) by ring. rewrite !sqrt_sqrt by apply frob_nonneg. reflexivity.
Qed.
Lemma fnorm_nonneg d W : 0 <= fnorm d W. Proof. apply sqrt_pos. Qed.
Lemma fnorm_sq d W : fnorm d W * fnorm d W = frob d W. Proof. apply sqrt_sqrt, frob_nonneg. Qed.
Lemma fnorm_triangle d X Y : fnorm d (fun i j => X i j + Y i j) <= fnorm d X + fnorm d Y.
Proof.
  pose proof (fnorm_nonneg d X). pose proof (fnorm_nonneg d Y).
  apply Rsqr_incr_0_var; [|lra]. unfold Rsqr. rewrite fnorm_sq. unfold frob.
  rewrite (@sum_upto_ext d _ (fun i => sum_upto d (fun j => X i j * X i j) + (2 * sum_upto d (fun j => X i j * Y i j) + sum_upto d (fun j => Y i j * Y i j)))).
  2:{ intros i _. rewrite <- sum_upto_scale, <- !sum_upto_plus. apply sum_upto_ext. intros; ring. }
  rewrite !sum_upto_plus, sum_upto_scale. fold (frob d X) (frob d Y). pose proof (frob_cauchy d X Y). rewrite <- !fnorm_sq. lra.
Qed.
Lemma fnorm_scale d c X : 0 <= c -> fnorm d (fun i j => c * X i j) = c * fnorm d X.
Proof.
  intros Hc. unfold fnorm. replace (frob d (fun i j => c * X i j)) with (c * c * frob d X).
  - rewrite sqrt_mult by (try apply frob_nonneg; nra). now rewrite sqrt_square.
  - unfold frob. rewrite <- sum_upto_scale. apply sum_upto_ext. intros i _. rewrite <- sum_upto_scale. apply sum_upto_ext. intros; ring.
Qed.
Lemma fnorm_ext d U V : (forall i j, (i < d)%nat -> (j < d)%nat -> U i j = V i j) -> fnorm d U = fnorm d V.
Proof. intros H. unfold fnorm. now rewrite (@frob_ext d U V H). Qed.
Lemma fnorm_entry d W i j : (i < d)%nat -> (j < d)%nat -> Rabs (W i j) <= fnorm d W.
Proof.
  intros Hi Hj. apply Rsqr_incr_0_var; [|apply fnorm_nonneg]. rewrite <- Rsqr_abs. unfold Rsqr. rewrite fnorm_sq.
  apply Rle_trans with (norm2 d (W i)); [apply (@sum_upto_term d (fun j => W i j * W i j)); auto; intros; nra|]. apply (@sum_upto_term d (fun i => norm2 d (W i))); auto. intros; apply norm2_nonneg.
Qed.
Lemma fnorm_bound d W c : 0 <= c -> (forall i j, (i < d)%nat -> (j < d)%nat -> Rabs (W i j) <= c) -> fnorm d W <= INR d * c.
Proof.
  intros Hc H. apply Rsqr_incr_0_var; [|apply Rmult_le_pos; auto; apply pos_INR]. unfold Rsqr. rewrite fnorm_sq.
  apply Rle_trans with (sum_upto d (fun i => sum_upto d (fun j => c * c))).
  - apply sum_upto_le. intros i Hi. apply sum_upto_le. intros j Hj. specialize (H i j Hi Hj). pose proof (Rabs_pos (W i j)). rewrite <- (Rabs_pos_eq (W i j * W i j)) by nra. rewrite Rabs_mult. nra.
  - assert (Hs : forall n x, sum_upto n (fun _ => x) = INR n * x) by (induction n as [|n IH]; intros x; [unfold sum_upto; cbn; lra|]; rewrite sum_upto_S, IH, S_INR; ring). rewrite !Hs. right. ring.
Qed.
Lemma trace_bound d W : Rabs (sum_upto d (fun k => W k k)) <= INR d * fnorm d W.
Proof.
  assert (H : forall n, (n <= d)%nat -> Rabs (sum_upto n (fun k => W k k)) <= INR n * fnorm d W).
  { induction n as [|n IH]; intros Hn; [unfold sum_upto; cbn; rewrite Rabs_R0; lra|]. rewrite sum_upto_S, S_INR. eapply Rle_trans; [apply Rabs_triang|]. pose proof (@fnorm_entry d W n n ltac:(lia) ltac:(lia)). specialize (IH ltac:(lia)). lra. }
  apply H. lia.
Qed.
