From Coq Require Import Reals Lra Lia List FunctionalExtensionality Permutation Classical ZArith.
From Verif Require Import Base ListUtil TreeUtilSpec TreeUtilProofs VolumeSpec RiemannSpec RiemannProofs.
Open Scope R_scope.
Set Implicit Arguments.
Local Arguments Nat.mul : simpl never.
Local Arguments Nat.pow : simpl never.

(** ** sums along one coordinate *)
Definition line (M k : nat) (h : R -> R) : R := sum_upto (2 * M * 2 ^ k) (fun i => / 2 ^ k * h (INR i / 2 ^ k - INR M)).
Lemma rs_cons M k c r f z : riemann_sum M k (c :: r) f z = line M k (fun t => riemann_sum M k r f (put z c t)).
Proof. reflexivity. Qed.
Lemma pow2_pos k : 0 < 2 ^ k. Proof. apply pow_lt; lra. Qed.
Lemma INR_pow2 k : INR (2 ^ k) = 2 ^ k. Proof. rewrite pow_INR. reflexivity. Qed.
Lemma grid_Z M k i : INR i / 2 ^ k - INR M = IZR (- Z.of_nat (M * 2 ^ k) + Z.of_nat i) / 2 ^ k.
Proof. pose proof (pow2_pos k). rewrite plus_IZR, opp_IZR, <- !INR_IZR_INZ, mult_INR, INR_pow2. field. lra. Qed.
Lemma line_Z M k h : line M k h = / 2 ^ k * sum_upto (2 * M * 2 ^ k) (fun i => h (IZR (- Z.of_nat (M * 2 ^ k) + Z.of_nat i) / 2 ^ k)).
Proof. unfold line. rewrite sum_upto_scale. f_equal. apply sum_upto_ext. intros i _. now rewrite grid_Z. Qed.
Lemma line_ext M k h h' : (forall t, h t = h' t) -> line M k h = line M k h'.
Proof. intros H. unfold line. apply sum_upto_ext. intros i _. now rewrite H. Qed.
Lemma line_diff M k h h' e : (forall t, Rabs (h t - h' t) <= e) -> Rabs (line M k h - line M k h') <= 2 * INR M * e.
Proof.
  intros H. unfold line. rewrite <- sum_upto_minus. eapply Rle_trans; [apply sum_upto_abs|].
  pose proof (pow2_pos k) as Hp. assert (Hi : 0 < / 2 ^ k) by now apply Rinv_0_lt_compat.
  eapply Rle_trans; [apply (@sum_upto_le _ _ (fun _ => / 2 ^ k * e))|].
  - intros i _. rewrite <- Rmult_minus_distr_l, Rabs_mult, (Rabs_pos_eq (/ 2 ^ k)) by lra. apply Rmult_le_compat_l; [lra|]. apply H.
  - rewrite sum_upto_const, !mult_INR, INR_pow2. change (INR 2) with 2. right. field. lra.
Qed.
Lemma line_plus M k h h' : line M k (fun t => h t + h' t) = line M k h + line M k h'.
Proof. unfold line. rewrite <- sum_upto_plus. apply sum_upto_ext. intros; ring. Qed.
Lemma line_scale M k a h : line M k (fun t => a * h t) = a * line M k h.
Proof. unfold line. rewrite <- sum_upto_scale. apply sum_upto_ext. intros; ring. Qed.
Lemma line_le M k h h' : (forall t, h t <= h' t) -> line M k h <= line M k h'.
Proof.
  intros H. unfold line. apply sum_upto_le. intros i _. assert (Hi : 0 < / 2 ^ k) by apply Rinv_0_lt_compat, pow2_pos. apply Rmult_le_compat_l; [lra|]. apply H.
Qed.
Lemma line_const M k e : line M k (fun _ => e) = 2 * INR M * e.
Proof. pose proof (pow2_pos k). unfold line. rewrite sum_upto_const, !mult_INR, INR_pow2. change (INR 2) with 2. field. lra. Qed.
Lemma line_zero M k h : (forall t, h t = 0) -> line M k h = 0.
Proof. intros H. unfold line. apply sum_upto_zero. intros i _. rewrite H. ring. Qed.
(** auxiliary definition of a statement or a proof; models no code of /repo *)
Definition vanishes (M : nat) (h : R -> R) : Prop := forall t, INR M <= Rabs t -> h t = 0.
Lemma vanishes_grid M k h j : vanishes M h -> (j <= - Z.of_nat (M * 2 ^ k) \/ Z.of_nat (M * 2 ^ k) <= j)%Z -> h (IZR j / 2 ^ k) = 0.
Proof.
  intros H Hj. pose proof (pow2_pos k) as Hp. apply H. unfold Rdiv. rewrite Rabs_mult, (Rabs_pos_eq (/ 2 ^ k)) by (left; now apply Rinv_0_lt_compat).
  apply Rmult_le_reg_r with (2 ^ k); [exact Hp|]. rewrite Rmult_assoc, Rinv_l, Rmult_1_r by lra.
  rewrite <- INR_pow2, <- mult_INR, INR_IZR_INZ, <- abs_IZR. apply IZR_le. lia.
Qed.
Lemma line_window M M0 k h (q : Z) : vanishes M0 h -> (Z.abs q <= Z.of_nat ((M - M0) * 2 ^ k))%Z -> (M0 <= M)%nat ->
  / 2 ^ k * sum_upto (2 * M * 2 ^ k) (fun i => h (IZR (q + - Z.of_nat (M * 2 ^ k) + Z.of_nat i) / 2 ^ k)) = line M0 k h.
Proof.
  intros H Hq HM. rewrite line_Z. f_equal. apply (@sum_window (fun j => h (IZR j / 2 ^ k))).
  - nia.
  - replace (2 * M0 * 2 ^ k)%nat with (M0 * 2 ^ k + M0 * 2 ^ k)%nat by ring. replace (2 * M * 2 ^ k)%nat with (M * 2 ^ k + M * 2 ^ k)%nat by ring.
    assert (Hm : ((M - M0) * 2 ^ k + M0 * 2 ^ k = M * 2 ^ k)%nat) by (rewrite <- Nat.mul_add_distr_r; f_equal; lia). lia.
  - intros i Hi. apply (@vanishes_grid M0); auto. replace (2 * M0 * 2 ^ k)%nat with (M0 * 2 ^ k + M0 * 2 ^ k)%nat in Hi by ring. lia.
Qed.
Lemma line_grow M M0 k h : vanishes M0 h -> (M0 <= M)%nat -> line M k h = line M0 k h.
Proof. intros H HM. rewrite line_Z, <- (@line_window M M0 k h 0%Z); auto. rewrite Z.abs_0. apply Nat2Z.is_nonneg. Qed.
Lemma line_flip M k h : vanishes M h -> line M k (fun t => h (- t)) = line M k h.
Proof.
  intros H. rewrite !line_Z. f_equal. rewrite sum_upto_rev. set (N := (2 * M * 2 ^ k)%nat). set (a := (- Z.of_nat (M * 2 ^ k))%Z).
  assert (EN2 : Z.of_nat N = (- 2 * a)%Z) by (unfold N, a; replace (2 * M * 2 ^ k)%nat with (2 * (M * 2 ^ k))%nat by ring; lia). clearbody N.
  assert (Ha : (a <= 0)%Z) by (unfold a; lia).
  rewrite (@sum_upto_ext N _ (fun i => h (IZR (a + 1 + Z.of_nat i) / 2 ^ k))).
  - pose (hz := fun j => h (IZR j / 2 ^ k)).
    change (sum_upto N (fun i => hz (a + 1 + Z.of_nat i)%Z) = sum_upto N (fun i => hz (a + Z.of_nat i)%Z)).
    assert (Hz : forall j, (j <= a \/ - a <= j)%Z -> hz j = 0) by (intros j Hj; unfold hz; apply (@vanishes_grid M); auto; unfold a in *; lia).
    destruct N as [|n] eqn:EN; [reflexivity|]. rewrite sum_upto_S, sum_upto_shift.
    rewrite (Hz (a + Z.of_nat 0)%Z) by lia. rewrite (Hz (a + 1 + Z.of_nat n)%Z) by lia. rewrite Rplus_0_l, Rplus_0_r.
    apply sum_upto_ext. intros i _. f_equal. lia.
  - intros i Hi. f_equal. replace (IZR (a + 1 + Z.of_nat i)) with (- IZR (a + Z.of_nat (N - 1 - i))); [field; pose proof (pow2_pos k); lra|].
    rewrite <- opp_IZR. f_equal. lia.
Qed.
Lemma line_shift M M0 B k h s e : vanishes M0 h -> Rabs s <= INR B -> (M0 + B + 1 <= M)%nat ->
  (forall t t', Rabs (t' - t) <= / 2 ^ k -> Rabs (h t' - h t) <= e) -> Rabs (line M k (fun t => h (t + s)) - line M k h) <= 2 * INR M * e.
Proof.
  intros H Hs HM He. pose proof (pow2_pos k) as Hp. set (q := Int_part (s * 2 ^ k)).
  destruct (base_Int_part (s * 2 ^ k)) as [Hq1 Hq2]. fold q in Hq1, Hq2.
  assert (Hqb : (Z.abs q <= Z.of_nat ((M - M0) * 2 ^ k))%Z).
  { assert (Hsb : - (INR B * 2 ^ k) <= s * 2 ^ k <= INR B * 2 ^ k).
    { apply Rabs_le_between in Hs || (unfold Rabs in Hs; destruct (Rcase_abs s)); split; nra. }
    rewrite <- INR_pow2, <- mult_INR, INR_IZR_INZ in Hsb. destruct Hsb as [Hl Hu].
    assert (q <= Z.of_nat (B * 2 ^ k))%Z. { apply le_IZR. rewrite INR_pow2 in *. lra. }
    assert (- Z.of_nat (B * 2 ^ k) - 1 < q)%Z. { apply lt_IZR. rewrite minus_IZR, opp_IZR. rewrite INR_pow2 in *. lra. }
    assert (1 <= 2 ^ k)%nat by (pose proof (Nat.pow_nonzero 2 k); lia).
    assert ((B * 2 ^ k + 2 ^ k <= (M - M0) * 2 ^ k))%nat by nia. lia. }
  rewrite (line_grow k H (M := M)) by lia. rewrite <- (@line_window M M0 k h q H Hqb) by lia.
  set (h' := fun t => h (t + IZR q / 2 ^ k)).
  assert (E : / 2 ^ k * sum_upto (2 * M * 2 ^ k) (fun i => h (IZR (q + - Z.of_nat (M * 2 ^ k) + Z.of_nat i) / 2 ^ k)) = line M k h').
  { rewrite line_Z. f_equal. apply sum_upto_ext. intros i _. unfold h'. f_equal. rewrite !plus_IZR. field. lra. }
  rewrite E. apply line_diff. intros t. unfold h'. apply He.
  replace (t + s - (t + IZR q / 2 ^ k)) with ((s * 2 ^ k - IZR q) * / 2 ^ k) by (field; lra).
  assert (Hi : 0 < / 2 ^ k) by now apply Rinv_0_lt_compat.
  rewrite Rabs_mult, (Rabs_pos_eq (/ 2 ^ k)) by lra. rewrite Rabs_pos_eq by lra. nra.
Qed.
Lemma line_refine M k j h h' e : (forall t t', Rabs (t' - t) <= / 2 ^ k -> Rabs (h' t' - h t) <= e) -> Rabs (line M (k + j) h' - line M k h) <= 2 * INR M * e.
Proof.
  intros H. unfold line. pose proof (pow2_pos k) as Hk. pose proof (pow2_pos j) as Hj.
  replace (2 * M * 2 ^ (k + j))%nat with (2 * M * 2 ^ k * 2 ^ j)%nat by (rewrite Nat.pow_add_r; lia).
  rewrite sum_upto_blocks, <- sum_upto_minus. eapply Rle_trans; [apply sum_upto_abs|].
  eapply Rle_trans; [apply (@sum_upto_le _ _ (fun _ => / 2 ^ k * e))|].
  - intros a _.
    replace (/ 2 ^ k * h (INR a / 2 ^ k - INR M)) with (sum_upto (2 ^ j) (fun _ => / 2 ^ (k + j) * h (INR a / 2 ^ k - INR M))).
    2:{ rewrite sum_upto_const, INR_pow2, pow_add. field. lra. }
    rewrite <- sum_upto_minus. eapply Rle_trans; [apply sum_upto_abs|].
    eapply Rle_trans; [apply (@sum_upto_le _ _ (fun _ => / 2 ^ (k + j) * e))|].
    + intros b Hb. rewrite <- Rmult_minus_distr_l, Rabs_mult. pose proof (pow2_pos (k + j)) as Hkj. assert (0 < / 2 ^ (k + j)) by now apply Rinv_0_lt_compat.
      rewrite (Rabs_pos_eq (/ 2 ^ (k + j))) by lra. apply Rmult_le_compat_l; [lra|]. apply H.
      rewrite plus_INR, mult_INR, INR_pow2, pow_add.
      replace ((INR a * 2 ^ j + INR b) / (2 ^ k * 2 ^ j) - INR M - (INR a / 2 ^ k - INR M)) with (INR b / 2 ^ j * / 2 ^ k) by (field; lra).
      assert (0 < / 2 ^ k) by now apply Rinv_0_lt_compat. assert (0 < / 2 ^ j) by now apply Rinv_0_lt_compat.
      assert (0 <= INR b / 2 ^ j <= 1).
      { pose proof (pos_INR b). apply lt_INR in Hb. rewrite INR_pow2 in Hb. split; [unfold Rdiv; nra|]. apply Rmult_le_reg_r with (2 ^ j); auto. unfold Rdiv. rewrite Rmult_assoc, Rinv_l by lra. lra. }
      rewrite Rabs_pos_eq by nra. nra.
    + rewrite sum_upto_const, INR_pow2, pow_add. right. field. lra.
  - rewrite sum_upto_const, !mult_INR, INR_pow2. change (INR 2) with 2. right. field. lra.
Qed.
