From Coq Require Import Reals Lra.
From Verif Require Import Base ListUtil TreeUtilSpec TreeUtilProofs ExpectSpec ExpectProofs GaussianLimit GaussianMatrix GaussianSpec.
Open Scope R_scope.
Set Implicit Arguments.

Section Step.
Variables (W : Type) (E : (W -> R) -> R).
Hypothesis HE : expectation E.
Variables (d : nat) (A : nat -> nat -> R) (eps T S : R).
Hypothesis He : 0 <= eps.
Hypothesis HT : 0 <= T.
Variables y h z y' : W -> nat -> R.
Hypothesis Hstep : unbiased_step E d S y h z.
Hypothesis Hy' : forall w i, (i < d)%nat -> y' w i = y w i - eps * (matvec d A (y w) i + h w i) + sqrt (2 * T * eps) * z w i.
Notation C := (fun i j => E (fun w => y w i * y w j)).
Notation H := (fun i j => E (fun w => h w i * h w j)).
Let P (w : W) (i : nat) : R := y w i - eps * matvec d A (y w) i.

Lemma E_P i (Z : W -> R) : E (fun w => P w i * Z w) = E (fun w => y w i * Z w) - eps * sum_upto d (fun k => A i k * E (fun w => y w k * Z w)).
Proof.
  unfold P, matvec.
  rewrite (@E_ext W E HE _ (fun w => y w i * Z w + (- eps) * sum_upto d (fun k => A i k * (y w k * Z w)))).
  - rewrite (@E_plus W E HE (fun w => y w i * Z w)), (@E_scale W E HE (- eps)), (@E_sum W E HE d (fun k w => A i k * (y w k * Z w))).
    rewrite (@sum_upto_ext d _ (fun k => A i k * E (fun w => y w k * Z w))) by (intros k _; apply (@E_scale W E HE (A i k) (fun w => y w k * Z w))). ring.
  - intros w. rewrite (@sum_upto_ext d (fun k => A i k * (y w k * Z w)) (fun k => Z w * (A i k * y w k))) by (intros; ring). rewrite sum_upto_scale. ring.
Qed.
Lemma mean_step i : (i < d)%nat -> E (fun w => y' w i) = E (fun w => y w i) - eps * matvec d A (fun k => E (fun w => y w k)) i.
Proof.
  intros Hi. destruct Hstep as (H0 & _). destruct (H0 i Hi) as [Hh Hz].
  rewrite (@E_ext W E HE _ (fun w => P w i * 1 + ((- eps) * h w i + sqrt (2 * T * eps) * z w i))) by (intros w; rewrite Hy' by auto; unfold P; ring).
  rewrite (@E_plus W E HE (fun w => P w i * 1)), (@E_plus W E HE (fun w => - eps * h w i)), (@E_scale W E HE (- eps)), (@E_scale W E HE (sqrt (2 * T * eps))), Hh, Hz.
  rewrite (@E_P i (fun _ => 1)). unfold matvec. rewrite (@E_ext W E HE (fun w => y w i * 1) (fun w => y w i)) by (intros; ring).
  rewrite (@sum_upto_ext d (fun k => A i k * E (fun w => y w k * 1)) (fun k => A i k * E (fun w => y w k))).
  - ring.
  - intros k _. f_equal. apply (@E_ext W E HE). intros; ring.
Qed.
Lemma cov_step i j : (i < d)%nat -> (j < d)%nat -> E (fun w => y' w i * y' w j) = congr d A eps C i j + 2 * T * eps * unit_matrix i j + eps * eps * H i j.
Proof.
  intros Hi Hj. destruct Hstep as (_ & Hyh & Hyz & Hhz & Hzz & _). set (q := sqrt (2 * T * eps)) in *.
  assert (Eq : q * q = 2 * T * eps) by (apply sqrt_sqrt; apply Rmult_le_pos; lra).
  assert (PZ : forall (a : nat) (Z : W -> nat -> R) b, (a < d)%nat -> (b < d)%nat -> second_moments E d y Z (fun _ _ => 0) -> E (fun w => P w a * Z w b) = 0).
  { intros a Z b Ha Hb HZ. rewrite (@E_P a (fun w => Z w b)). rewrite (HZ a b) by auto. rewrite (@sum_upto_zero d) by (intros k Hk; rewrite (HZ k b) by auto; ring). ring. }
  rewrite (@E_ext W E HE _ (fun w => P w i * P w j + ((- eps) * (P w i * h w j) + ((- eps) * (P w j * h w i) + (q * (P w i * z w j) + (q * (P w j * z w i) + (eps * eps * (h w i * h w j) + ((- eps * q) * (h w i * z w j) + ((- eps * q) * (h w j * z w i) + q * q * (z w i * z w j))))))))))
    by (intros w; rewrite !Hy' by auto; unfold P; ring).
  repeat rewrite (@E_plus W E HE). rewrite !(@E_scale W E HE).
  rewrite (PZ i h j), (PZ j h i), (PZ i z j), (PZ j z i) by auto. rewrite (Hhz i j), (Hhz j i), (Hzz i j) by auto. rewrite Eq.
  assert (EP : E (fun w => P w i * P w j) = congr d A eps C i j).
  { rewrite (@E_ext W E HE _ (fun w => P w j * P w i)) by (intros; ring). rewrite (@E_P j (fun w => P w i)).
    assert (L : forall a, E (fun w => y w a * P w i) = C i a - eps * sum_upto d (fun k => A i k * C k a)).
    { intros a. rewrite (@E_ext W E HE _ (fun w => P w i * y w a)) by (intros; ring). apply (@E_P i (fun w => y w a)). }
    rewrite L. rewrite (@sum_upto_ext d (fun k => A j k * E (fun w => y w k * P w i)) (fun k => A j k * (C i k - eps * sum_upto d (fun m => A i m * C m k)))) by (intros k _; cbv beta; rewrite L; reflexivity). reflexivity. }
  rewrite EP. ring.
Qed.

(** distance of the covariance from its limit T B *)
Variables (B : nat -> nat -> R) (lam : R).
Hypothesis HA : positive_definite d A lam.
Hypothesis HB : inverse_matrix d A B.
Hypothesis HS : 0 <= S.
Let rho := 1 - eps * (2 * lam) + eps * eps * frob d A.
Notation D M := (fnorm d (fun i j => M i j - T * B i j)).
(** auxiliary definition of a statement or a proof; models no code of /repo *)
Definition cov_Q : R := T * fnorm d A + INR d * (S * (1 + INR d * fnorm d (fun i j => T * B i j))).
(** auxiliary definition of a statement or a proof; models no code of /repo *)
Definition cov_P : R := INR d * (S * INR d).
Lemma congr_ext U V : (forall i j, (i < d)%nat -> (j < d)%nat -> U i j = V i j) -> forall i j, (i < d)%nat -> (j < d)%nat -> congr d A eps U i j = congr d A eps V i j.
Proof.
  intros HUV i j Hi Hj. unfold congr. rewrite HUV by auto. rewrite (@sum_upto_ext d (fun k => A i k * U k j) (fun k => A i k * V k j)) by (intros; now rewrite HUV).
  f_equal. f_equal. apply sum_upto_ext. intros k Hk. rewrite HUV by auto. f_equal. f_equal. f_equal. apply sum_upto_ext. intros m Hm. now rewrite HUV.
Qed.
Lemma congr_plus U V i j : congr d A eps (fun i j => U i j + V i j) i j = congr d A eps U i j + congr d A eps V i j.
Proof.
  unfold congr. rewrite (@sum_upto_ext d (fun k => A i k * (U k j + V k j)) (fun k => A i k * U k j + A i k * V k j)) by (intros; ring). rewrite sum_upto_plus.
  rewrite (@sum_upto_ext d (fun k => A j k * (U i k + V i k - eps * sum_upto d (fun m => A i m * (U m k + V m k))))
    (fun k => A j k * (U i k - eps * sum_upto d (fun m => A i m * U m k)) + A j k * (V i k - eps * sum_upto d (fun m => A i m * V m k)))).
  - rewrite sum_upto_plus. ring.
  - intros k _. rewrite (@sum_upto_ext d (fun m => A i m * (U m k + V m k)) (fun m => A i m * U m k + A i m * V m k)) by (intros; ring). rewrite sum_upto_plus. ring.
Qed.
Lemma congr_limit i j : (i < d)%nat -> (j < d)%nat -> congr d A eps (fun i j => T * B i j) i j = T * B i j - 2 * T * eps * unit_matrix i j + eps * eps * (T * A i j).
Proof.
  intros Hi Hj. unfold congr.
  assert (L : forall a, (a < d)%nat -> sum_upto d (fun k => A i k * (T * B k a)) = T * unit_matrix i a).
  { intros a Ha. rewrite (@sum_upto_ext d _ (fun k => T * (A i k * B k a))) by (intros; ring). rewrite sum_upto_scale. now rewrite (proj1 (HB Hi Ha)). }
  rewrite L by auto. rewrite (@sum_upto_ext d _ (fun k => T * (B i k * A k j) + (- eps * T) * (if (i =? k)%nat then A k j else 0))).
  - rewrite sum_upto_plus, !sum_upto_scale. rewrite (proj2 (HB Hi Hj)). rewrite (@sum_upto_delta d (fun k => A k j) i Hi). ring.
  - intros k Hk. rewrite L by auto. destruct HA as (Hsym & _). rewrite (Hsym j k) by auto. unfold unit_matrix. destruct (i =? k)%nat; ring.
Qed.
Lemma cov_contracts : D (fun i j => E (fun w => y' w i * y' w j)) <= (Rabs rho + eps * eps * cov_P) * D C + eps * eps * cov_Q.
Proof.
  rewrite (@fnorm_ext d _ (fun i j => congr d A eps (fun i j => C i j - T * B i j) i j + eps * eps * (T * A i j + H i j))).
  2:{ intros i j Hi Hj. rewrite (cov_step Hi Hj). rewrite (@congr_ext C (fun i j => T * B i j + (C i j - T * B i j))) by (auto; intros; ring). rewrite congr_plus, congr_limit by auto. ring. }
  eapply Rle_trans; [apply fnorm_triangle|]. rewrite (@fnorm_scale d (eps * eps) (fun i j => T * A i j + H i j)) by nra.
  destruct HA as (_ & _ & Hco). pose proof (@congr_norm d A lam Hco eps He (fun i j => C i j - T * B i j)) as H1. fold rho in H1.
  pose proof (fnorm_triangle d (fun i j => T * A i j) H) as H2. rewrite fnorm_scale in H2 by auto.
  destruct Hstep as (_ & _ & _ & _ & _ & Hhh).
  assert (Htr : Rabs (sum_upto d (fun k => E (fun w => y w k * y w k))) <= INR d * (D C + fnorm d (fun i j => T * B i j))).
  { eapply Rle_trans; [apply (trace_bound d C)|]. apply Rmult_le_compat_l; [apply pos_INR|]. rewrite (@fnorm_ext d C (fun i j => (C i j - T * B i j) + T * B i j)) by (intros; ring). apply fnorm_triangle. }
  assert (H3 : fnorm d H <= INR d * (S * (1 + INR d * (D C + fnorm d (fun i j => T * B i j))))).
  { apply fnorm_bound.
    - apply Rmult_le_pos; auto. pose proof (Rabs_pos (sum_upto d (fun k => E (fun w => y w k * y w k)))). lra.
    - intros i j Hi Hj. eapply Rle_trans; [apply Hhh; auto|]. apply Rmult_le_compat_l; auto. pose proof (Rle_abs (sum_upto d (fun k => E (fun w => y w k * y w k)))). lra. }
  assert (H4 : eps * eps * fnorm d (fun i j => T * A i j + H i j) <= eps * eps * (T * fnorm d A + INR d * (S * (1 + INR d * (D C + fnorm d (fun i j => T * B i j)))))) by (apply Rmult_le_compat_l; [nra|lra]).
  unfold cov_P, cov_Q. lra.
Qed.
Lemma mean_contracts : norm2 d (fun i => E (fun w => y' w i)) <= Rabs rho * norm2 d (fun i => E (fun w => y w i)).
Proof.
  rewrite (@norm2_ext d _ (fun i => E (fun w => y w i) - eps * matvec d A (fun k => E (fun w => y w k)) i)) by (intros i Hi; now apply mean_step).
  destruct HA as (_ & _ & Hco). apply (@step_norm d A lam Hco eps He).
Qed.
End Step.
