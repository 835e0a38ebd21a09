From Coq Require Import ZArith Reals Lra Lia.
From Flocq Require Import Core Relative.
From Verif Require Import FloatSizes.
Local Open Scope R_scope.

Section Prec.
Variable p emin : Z.
Hypothesis Hp : (1 < p)%Z.
Hypothesis He : (emin <= 1 - 2 * p)%Z.

Local Notation fexp := (FLT_exp emin p).
Local Notation rnd := (round radix2 fexp ZnearestE).

Local Instance prec_gt_0 : Prec_gt_0 p. unfold Prec_gt_0; lia. Qed.

Lemma rnd_int : forall n, (0 <= n <= 2 ^ p)%Z -> rnd (IZR n) = IZR n.
Proof.
  intros n Hn. apply round_generic; [apply valid_rnd_N|].
  destruct (Z.eq_dec n (2 ^ p)) as [->|Hne].
  - assert (H : IZR (2 ^ p) = bpow radix2 p) by (apply (IZR_Zpower radix2); lia).
    rewrite H. apply generic_format_FLT_bpow; try typeclasses eauto. lia.
  - apply generic_format_FLT.
    exists (Float radix2 n 0); cbn.
    + unfold F2R; cbn; ring.
    + rewrite Z.abs_eq by lia. change (n < 2 ^ p)%Z. lia.
    + lia.
Qed.

Lemma rnd_mono : forall x y, x <= y -> rnd x <= rnd y.
Proof. intros x y Hxy. apply round_le; try typeclasses eauto; exact Hxy. Qed.

Lemma rnd_err : forall a b, (0 < a < 2 ^ p)%Z -> (0 < b < 2 ^ p)%Z ->
  Rabs (rnd (IZR a / IZR b) - IZR a / IZR b) < / IZR b.
Proof.
  intros a b Ha Hb.
  assert (Hb' : 0 < IZR b) by (apply IZR_lt; lia).
  assert (Ha' : 1 <= IZR a) by (apply IZR_le; lia).
  assert (Hx : 0 < IZR a / IZR b) by (apply Rdiv_lt_0_compat; lra).
  assert (P2 : IZR (2 ^ p) = bpow radix2 p) by (apply (IZR_Zpower radix2); lia).
  pose proof (relative_error_N_FLT radix2 emin p prec_gt_0 (fun z => negb (Z.even z)) (IZR a / IZR b)) as H.
  assert (Hbig : bpow radix2 (emin + p - 1) <= Rabs (IZR a / IZR b)).
  { rewrite Rabs_pos_eq by lra.
    apply Rle_trans with (bpow radix2 (- p)).
    - apply bpow_le. lia.
    - rewrite bpow_opp. rewrite <- P2.
      apply Rle_trans with (/ IZR b).
      + apply Rinv_le; [exact Hb'|]. apply IZR_le; lia.
      + unfold Rdiv. assert (0 < / IZR b) by (apply Rinv_0_lt_compat; exact Hb'). nra. }
  specialize (H Hbig).
  eapply Rle_lt_trans; [exact H|].
  rewrite (Rabs_pos_eq (IZR a / IZR b)) by lra.
  assert (Hal : IZR a < bpow radix2 p) by (rewrite <- P2; apply IZR_lt; lia).
  replace (/ 2 * bpow radix2 (- p + 1) * (IZR a / IZR b)) with (IZR a * bpow radix2 (- p) * / IZR b).
  2:{ rewrite bpow_plus. change (bpow radix2 1) with 2. field. lra. }
  assert (0 < / IZR b) by (apply Rinv_0_lt_compat; exact Hb').
  assert (IZR a * bpow radix2 (- p) < 1).
  { apply Rlt_le_trans with (bpow radix2 p * bpow radix2 (- p)).
    - apply Rmult_lt_compat_r; [apply bpow_gt_0|exact Hal].
    - rewrite <- bpow_plus. replace (p + - p)%Z with 0%Z by lia. simpl; lra. }
  nra.
Qed.

Lemma gap_above : forall a b q, (0 < b)%Z -> (a < q * b)%Z -> IZR a / IZR b <= IZR q - / IZR b.
Proof.
  intros a b q Hb Hq. assert (Hb' : 0 < IZR b) by (apply IZR_lt; lia).
  apply Rmult_le_reg_r with (IZR b); [exact Hb'|].
  replace (IZR a / IZR b * IZR b) with (IZR a) by (field; lra).
  replace ((IZR q - / IZR b) * IZR b) with (IZR q * IZR b - 1) by (field; lra).
  rewrite <- mult_IZR, <- minus_IZR. apply IZR_le; lia.
Qed.

Lemma gap_below : forall a b q, (0 < b)%Z -> (q * b < a)%Z -> IZR q + / IZR b <= IZR a / IZR b.
Proof.
  intros a b q Hb Hq. assert (Hb' : 0 < IZR b) by (apply IZR_lt; lia).
  apply Rmult_le_reg_r with (IZR b); [exact Hb'|].
  replace (IZR a / IZR b * IZR b) with (IZR a) by (field; lra).
  replace ((IZR q + / IZR b) * IZR b) with (IZR q * IZR b + 1) by (field; lra).
  rewrite <- mult_IZR, <- plus_IZR. apply IZR_le; lia.
Qed.

Lemma le_div : forall a b q, (0 < b)%Z -> (q * b <= a)%Z -> IZR q <= IZR a / IZR b.
Proof.
  intros a b q Hb Hq. assert (Hb' : 0 < IZR b) by (apply IZR_lt; lia).
  apply Rmult_le_reg_r with (IZR b); [exact Hb'|].
  replace (IZR a / IZR b * IZR b) with (IZR a) by (field; lra).
  rewrite <- mult_IZR. apply IZR_le; lia.
Qed.

Lemma div_le : forall a b q, (0 < b)%Z -> (a <= q * b)%Z -> IZR a / IZR b <= IZR q.
Proof.
  intros a b q Hb Hq. assert (Hb' : 0 < IZR b) by (apply IZR_lt; lia).
  apply Rmult_le_reg_r with (IZR b); [exact Hb'|].
  replace (IZR a / IZR b * IZR b) with (IZR a) by (field; lra).
  rewrite <- mult_IZR. apply IZR_le; lia.
Qed.

Lemma rnd_floor : forall a b, (0 <= a < 2 ^ p)%Z -> (0 < b < 2 ^ p)%Z -> Zfloor (rnd (IZR a / IZR b)) = (a / b)%Z.
Proof.
  intros a b Ha Hb.
  pose proof (Z.div_mod a b ltac:(lia)) as Hdm. pose proof (Z.mod_pos_bound a b ltac:(lia)) as Hm.
  set (q := (a / b)%Z) in *.
  assert (Hq0 : (0 <= q)%Z) by (apply Z.div_pos; lia).
  assert (Hqa : (q <= a)%Z) by (apply Z.div_le_upper_bound; nia).
  destruct (Z.eq_dec a 0) as [Ha0|Ha0].
  - assert (q = 0)%Z by (unfold q; subst a; apply Z.div_0_l; lia). rewrite H, Ha0.
    replace (IZR 0 / IZR b) with (IZR 0) by (unfold Rdiv; lra).
    rewrite rnd_int by (split; [lia|apply Z.pow_nonneg; lia]). apply Zfloor_IZR.
  - apply Zfloor_imp. rewrite plus_IZR. split.
    + rewrite <- (rnd_int q) at 1 by lia. apply rnd_mono. apply le_div; [lia|nia].
    + pose proof (rnd_err a b ltac:(lia) ltac:(lia)) as He1.
      assert (Hg : IZR a / IZR b <= IZR (q + 1) - / IZR b) by (apply gap_above; [lia|nia]).
      rewrite plus_IZR in Hg. apply Rabs_lt_inv in He1. lra.
Qed.

Lemma rnd_ceil : forall a b, (0 <= a < 2 ^ p)%Z -> (0 < b < 2 ^ p)%Z ->
  Zceil (rnd (IZR a / IZR b)) = ((a + b - 1) / b)%Z.
Proof.
  intros a b Ha Hb.
  pose proof (Z.div_mod (a + b - 1) b ltac:(lia)) as Hdm. pose proof (Z.mod_pos_bound (a + b - 1) b ltac:(lia)) as Hm.
  set (q := ((a + b - 1) / b)%Z) in *.
  assert (Hq0 : (0 <= q)%Z) by (apply Z.div_pos; lia).
  destruct (Z.eq_dec a 0) as [Ha0|Ha0].
  - assert (q = 0)%Z by (unfold q; subst a; apply Z.div_small; lia). rewrite H, Ha0.
    replace (IZR 0 / IZR b) with (IZR 0) by (unfold Rdiv; lra).
    rewrite rnd_int by (split; [lia|apply Z.pow_nonneg; lia]). apply Zceil_IZR.
  - assert (Hqa : (q <= a)%Z) by (apply Z.div_le_upper_bound; nia).
    assert (Hq1 : (1 <= q)%Z) by (apply Z.div_le_lower_bound; lia).
    apply Zceil_imp. rewrite minus_IZR. split.
    + pose proof (rnd_err a b ltac:(lia) ltac:(lia)) as He1.
      assert (Hg : IZR (q - 1) + / IZR b <= IZR a / IZR b) by (apply gap_below; [lia|nia]).
      rewrite minus_IZR in Hg. apply Rabs_lt_inv in He1. lra.
    + rewrite <- (rnd_int q) by lia. apply rnd_mono. apply div_le; [lia|nia].
Qed.

End Prec.
