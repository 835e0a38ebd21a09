(** Proofs for C96: sums of the scaled positions of OBABO.  Models no code of /repo. *)
From Coq Require Import Reals Lra Lia Psatz.
From Verif Require Import Base ListUtil TreeUtilSpec TreeUtilProofs ExpectSpec GaussianLimit SghmcGaussian ObaboGaussian.
Open Scope R_scope.
Set Implicit Arguments.

(** one inner step: Y scaled position, Q scaled momentum, z the normal numbers *)
(** auxiliary definition of a statement or a proof; models no code of /repo *)
Definition follows (k a b : R) (W : Type) (z Y Q : nat -> W -> R) : Prop := forall t w,
  exists q1 q2 q3, q1 = a * Q t w + b * z (2 * t)%nat w /\ q2 = q1 - k * Y t w /\ Y (S t) w = Y t w + 2 * k * q2 /\ q3 = q2 - k * Y (S t) w /\ Q (S t) w = a * q3 + b * z (S (2 * t)) w.

Section Blocks.
Variables (k a b : R).
Hypothesis Hk : 0 < k < 1.
Hypothesis Ha : 0 < a < 1.
Notation eta := (1 - k * k).
Notation c := (1 - 2 * (k * k)).
Notation rt := (rate k a).
Lemma one_contracts y q : eta * ((c * y + 2 * k * a * q) * (c * y + 2 * k * a * q)) + (- (2 * a * k * eta) * y + a * a * c * q) * (- (2 * a * k * eta) * y + a * a * c * q) <= rt * (eta * (y * y) + q * q).
Proof.
  assert (He : 0 < eta < 1) by nra. set (g := sqrt eta). assert (Hg : g * g = eta) by (apply sqrt_sqrt; lra). assert (Pg : 0 < g) by (apply sqrt_lt_R0; lra).
  set (sn := 2 * k * g). assert (Hcs : c * c + sn * sn = 1) by (unfold sn; replace (2 * k * g * (2 * k * g)) with (4 * (k * k) * (g * g)) by ring; rewrite Hg; ring).
  assert (Hsn : sn <> 0) by (unfold sn; assert (0 < 2 * k * g) by (apply Rmult_lt_0_compat; lra); lra).
  assert (Er : rt = rho sn a) by (unfold rate, rho, sn; replace (2 * k * g * (2 * k * g)) with (4 * (k * k) * (g * g)) by ring; rewrite Hg; ring).
  pose proof (vector_contracts Hcs Hsn Ha (g * y) q) as V. rewrite <- Er in V.
  replace (c * (g * y) + a * sn * q) with (g * (c * y + 2 * k * a * q)) in V by (unfold sn; ring).
  replace (- (a * sn) * (g * y) + a * a * c * q) with (- (2 * a * k * (g * g)) * y + a * a * c * q) in V by (unfold sn; ring).
  rewrite <- !Hg.
  replace (g * g * ((c * y + 2 * k * a * q) * (c * y + 2 * k * a * q))) with (g * (c * y + 2 * k * a * q) * (g * (c * y + 2 * k * a * q))) by ring.
  replace (g * g * (y * y)) with (g * y * (g * y)) by ring. exact V.
Qed.
Lemma rt_range : 0 <= rt < 1. Proof. exact (proj1 (@dist2_step k a 1 Hk Ha (Tri 0 0 0))). Qed.
(** p inner steps *)
Lemma block p : exists m11 m12 m21 m22 cy cq,
  (forall y q, eta * ((m11 * y + m12 * q) * (m11 * y + m12 * q)) + (m21 * y + m22 * q) * (m21 * y + m22 * q) <= rt ^ p * (eta * (y * y) + q * q)) /\
  forall W z Y Q, @follows k a b W z Y Q -> forall t w,
    Y (t + p)%nat w = m11 * Y t w + m12 * Q t w + sum_upto (2 * p) (fun j => cy j * z (2 * t + j)%nat w) /\
    Q (t + p)%nat w = m21 * Y t w + m22 * Q t w + sum_upto (2 * p) (fun j => cq j * z (2 * t + j)%nat w).
Proof.
  induction p as [|p (m11 & m12 & m21 & m22 & cy & cq & Cn & IH)].
  - exists 1, 0, 0, 1, (fun _ => 0), (fun _ => 0). split; [intros y q; cbn; right; ring|]. intros W z Y Q _ t w. rewrite Nat.add_0_r. cbn [Nat.mul]. unfold sum_upto. cbn. split; ring.
  - set (n11 := c). set (n12 := 2 * k * a). set (n21 := - (2 * a * k * eta)). set (n22 := a * a * c).
    exists (n11 * m11 + n12 * m21), (n11 * m12 + n12 * m22), (n21 * m11 + n22 * m21), (n21 * m12 + n22 * m22),
      (fun j => if (j <? 2 * p)%nat then n11 * cy j + n12 * cq j else if (j =? 2 * p)%nat then 2 * k * b else 0),
      (fun j => if (j <? 2 * p)%nat then n21 * cy j + n22 * cq j else if (j =? 2 * p)%nat then a * b * c else b). split.
    + intros y q. pose proof (one_contracts (m11 * y + m12 * q) (m21 * y + m22 * q)) as O. fold n11 n12 n21 n22 in O.
      replace ((n11 * m11 + n12 * m21) * y + (n11 * m12 + n12 * m22) * q) with (n11 * (m11 * y + m12 * q) + n12 * (m21 * y + m22 * q)) by ring.
      replace ((n21 * m11 + n22 * m21) * y + (n21 * m12 + n22 * m22) * q) with (n21 * (m11 * y + m12 * q) + n22 * (m21 * y + m22 * q)) by ring.
      eapply Rle_trans; [exact O|]. cbn [pow]. rewrite Rmult_assoc. apply Rmult_le_compat_l; [apply rt_range|apply Cn].
    + intros W z Y Q Hf t w. destruct (IH W z Y Q Hf t w) as [I1 I2]. destruct (Hf (t + p)%nat w) as (q1 & q2 & q3 & E1 & E2 & E3 & E4 & E5).
      replace (t + S p)%nat with (S (t + p)) by lia. replace (2 * S p)%nat with (S (S (2 * p))) by lia. rewrite !sum_upto_S.
      assert (L0 : forall f g h : R, (if (2 * p <? 2 * p)%nat then f else if (2 * p =? 2 * p)%nat then g else h) = g) by (intros; rewrite Nat.ltb_irrefl, Nat.eqb_refl; reflexivity).
      assert (L1 : forall f g h : R, (if (S (2 * p) <? 2 * p)%nat then f else if (S (2 * p) =? 2 * p)%nat then g else h) = h).
      { intros. destruct (Nat.ltb_spec (S (2 * p)) (2 * p)); [lia|]. destruct (Nat.eqb_spec (S (2 * p)) (2 * p)); [lia|reflexivity]. }
      rewrite !L0, !L1. replace (2 * t + 2 * p)%nat with (2 * (t + p))%nat by lia. replace (2 * t + S (2 * p))%nat with (S (2 * (t + p))) by lia.
      set (z0 := z (2 * (t + p))%nat w) in *. set (z1 := z (S (2 * (t + p))) w) in *.
      assert (Sm : forall x y, sum_upto (2 * p) (fun j => (x * cy j + y * cq j) * z (2 * t + j)%nat w) = x * sum_upto (2 * p) (fun j => cy j * z (2 * t + j)%nat w) + y * sum_upto (2 * p) (fun j => cq j * z (2 * t + j)%nat w)).
      { intros x y. rewrite <- (@sum_upto_scale (2 * p) x (fun j => cy j * z (2 * t + j)%nat w)), <- (@sum_upto_scale (2 * p) y (fun j => cq j * z (2 * t + j)%nat w)), <- sum_upto_plus. apply sum_upto_ext. intros; ring. }
      rewrite (@sum_upto_ext (2 * p) (fun j => (if (j <? 2 * p)%nat then n11 * cy j + n12 * cq j else if (j =? 2 * p)%nat then 2 * k * b else 0) * z (2 * t + j)%nat w) (fun j => (n11 * cy j + n12 * cq j) * z (2 * t + j)%nat w))
        by (intros j Hj; destruct (Nat.ltb_spec j (2 * p)); [reflexivity|lia]).
      rewrite (@sum_upto_ext (2 * p) (fun j => (if (j <? 2 * p)%nat then n21 * cy j + n22 * cq j else if (j =? 2 * p)%nat then a * b * c else b) * z (2 * t + j)%nat w) (fun j => (n21 * cy j + n22 * cq j) * z (2 * t + j)%nat w))
        by (intros j Hj; destruct (Nat.ltb_spec j (2 * p)); [reflexivity|lia]).
      rewrite !Sm. assert (Y1 : Y (S (t + p)) w = n11 * Y (t + p)%nat w + n12 * Q (t + p)%nat w + 2 * k * b * z0) by (rewrite E3, E2, E1; unfold n11, n12; ring).
      split; [rewrite Y1, I1, I2; ring|]. rewrite E5, E4, Y1, E2, E1, I1, I2. unfold n11, n12, n21, n22. ring.
Qed.

(** sums of the scaled positions after 1, 2, ..., n blocks of p steps *)
Lemma block_sum p : (0 < p)%nat -> exists al be d, forall W z Y Q, @follows k a b W z Y Q -> forall n w,
  sum_upto n (fun i => Y (S i * p)%nat w) = (al * Y 0%nat w + be * Q 0%nat w) - (al * Y (n * p)%nat w + be * Q (n * p)%nat w) + sum_upto (n * (2 * p)) (fun t => d (t mod (2 * p))%nat * z t w).
Proof.
  intros Hp. destruct (block p) as (m11 & m12 & m21 & m22 & cy & cq & Cn & Bl). pose proof rt_range as Rr. assert (He : 0 < eta < 1) by nra.
  assert (Rp : 0 <= rt ^ p < 1).
  { destruct p as [|p]; [lia|]. cbn [pow]. assert (P : 0 <= rt ^ p <= 1) by (split; [apply pow_le; lra|]; rewrite <- (pow1 p); apply pow_incr; lra). split; [apply Rmult_le_pos; lra|]. apply Rle_lt_trans with (rt * 1); [apply Rmult_le_compat_l; lra|lra]. }
  set (det := (1 - m11) * (1 - m22) - m12 * m21).
  assert (Fix : forall y q, m11 * y + m12 * q = y -> m21 * y + m22 * q = q -> y = 0 /\ q = 0).
  { intros y q E1 E2. specialize (Cn y q). rewrite E1, E2 in Cn. pose proof (Rle_0_sqr y) as S1. pose proof (Rle_0_sqr q) as S2. unfold Rsqr in S1, S2.
    assert (P1 : 0 <= eta * (y * y)) by (apply Rmult_le_pos; lra). assert (Z : eta * (y * y) + q * q = 0) by nra.
    assert (Z1 : eta * (y * y) = 0) by lra. assert (Z2 : q * q = 0) by lra. split; [|nra]. apply Rmult_integral in Z1. destruct Z1; nra. }
  assert (Hd : det <> 0).
  { intros Z. unfold det in Z. destruct (Fix m12 (1 - m11)) as [F1 F2]; [ring|lra|]. destruct (Fix (1 - m22) m21) as [F3 F4]; [lra|ring|].
    destruct (Fix 1 0) as [F5 _]; [|lra|lra]. replace m11 with 1 by lra. ring. }
  set (al := (1 - m22) / det). set (be := m12 / det).
  assert (A1 : al * (1 - m11) - be * m21 = 1) by (unfold al, be; apply (Rmult_eq_reg_l det); [|exact Hd]; field_simplify; [unfold det; ring|exact Hd]).
  assert (A2 : al * m12 = be * (1 - m22)) by (unfold al, be; field; exact Hd).
  exists (al - 1), be, (fun j => al * cy j + be * cq j). intros W z Y Q Hf n w. induction n as [|n IH].
  - unfold sum_upto. cbn [Nat.mul seq List.map]. cbn. ring.
  - rewrite sum_upto_S, IH. replace (S n * (2 * p))%nat with (n * (2 * p) + 2 * p)%nat by lia. rewrite sum_upto_app.
    rewrite (@sum_upto_ext (2 * p) (fun i => (al * cy ((n * (2 * p) + i) mod (2 * p))%nat + be * cq ((n * (2 * p) + i) mod (2 * p))%nat) * z (n * (2 * p) + i)%nat w) (fun j => al * (cy j * z (2 * (n * p) + j)%nat w) + be * (cq j * z (2 * (n * p) + j)%nat w))).
    + rewrite (@sum_upto_plus (2 * p) (fun j => al * (cy j * z (2 * (n * p) + j)%nat w)) (fun j => be * (cq j * z (2 * (n * p) + j)%nat w))), (@sum_upto_scale (2 * p) al (fun j => cy j * z (2 * (n * p) + j)%nat w)), (@sum_upto_scale (2 * p) be (fun j => cq j * z (2 * (n * p) + j)%nat w)).
      destruct (Bl W z Y Q Hf (n * p)%nat w) as [B1 B2]. replace (S n * p)%nat with (n * p + p)%nat by lia.
      set (sy := sum_upto (2 * p) (fun j => cy j * z (2 * (n * p) + j)%nat w)) in *. set (sq := sum_upto (2 * p) (fun j => cq j * z (2 * (n * p) + j)%nat w)) in *.
      set (y := Y (n * p)%nat w) in *. set (q := Q (n * p)%nat w) in *. rewrite B2. set (y' := Y (n * p + p)%nat w) in *.
      assert (K : y = al * (y - y') + be * (q - (m21 * y + m22 * q + sq)) + (al * sy + be * sq)).
      { rewrite B1. replace (al * (y - (m11 * y + m12 * q + sy)) + be * (q - (m21 * y + m22 * q + sq)) + (al * sy + be * sq)) with ((al * (1 - m11) - be * m21) * y - al * m12 * q + be * (1 - m22) * q) by ring. rewrite A1, A2. ring. }
      lra.
    + intros j Hj. replace ((n * (2 * p) + j) mod (2 * p))%nat with j by (apply (Nat.mod_unique (n * (2 * p) + j) (2 * p) n j); lia).
      replace (n * (2 * p) + j)%nat with (2 * (n * p) + j)%nat by lia. ring.
Qed.
(** after a burn in of m blocks *)
Lemma block_sum_after p : (0 < p)%nat -> exists al be d, forall W z Y Q, @follows k a b W z Y Q -> forall m n w,
  sum_upto n (fun i => Y (S (m + i) * p)%nat w) = (al * Y (m * p)%nat w + be * Q (m * p)%nat w) - (al * Y ((m + n) * p)%nat w + be * Q ((m + n) * p)%nat w) + sum_upto (n * (2 * p)) (fun t => d (t mod (2 * p))%nat * z (m * (2 * p) + t)%nat w).
Proof.
  intros Hp. destruct (block_sum Hp) as (al & be & d & BS). exists al, be, d. intros W z Y Q Hf m n w. pose proof (BS W z Y Q Hf m w) as E1. pose proof (BS W z Y Q Hf (m + n)%nat w) as E2. rewrite sum_upto_app in E2.
  replace ((m + n) * (2 * p))%nat with (m * (2 * p) + n * (2 * p))%nat in E2 by lia. rewrite (sum_upto_app (m * (2 * p)) (n * (2 * p)) (fun t => d (t mod (2 * p))%nat * z t w)) in E2.
  rewrite (@sum_upto_ext (n * (2 * p)) (fun i => d ((m * (2 * p) + i) mod (2 * p))%nat * z (m * (2 * p) + i)%nat w) (fun t => d (t mod (2 * p))%nat * z (m * (2 * p) + t)%nat w)) in E2; [lra|].
  intros i _. f_equal. f_equal. rewrite Nat.add_comm, Nat.mod_add by lia. reflexivity.
Qed.
End Blocks.

(** ** expectations of squares *)
Lemma sum_sq_nonneg n c : 0 <= sum_upto n (fun t => c t * c t).
Proof. induction n as [|n IH]; [unfold sum_upto; cbn; lra|]. rewrite sum_upto_S. pose proof (Rle_0_sqr (c n)) as P. unfold Rsqr in P. lra. Qed.
Section Squares.
Variables (W : Type) (E : (W -> R) -> R) (z : nat -> W -> R) (N : nat).
Hypothesis HE : expectation E.
Hypothesis H1 : E (fun _ => 1) = 1.
Hypothesis Hm : forall t, (t < N)%nat -> E (z t) = 0.
Hypothesis Hc : forall t u, (t < N)%nat -> (u < N)%nat -> E (fun w => z t w * z u w) = if (t =? u)%nat then 1 else 0.
Lemma lin_sq n X : lin z n X -> (n <= N)%nat -> 0 <= E (fun w => X w * X w).
Proof using HE H1 Hm Hc.
  intros (c0 & c & HX) Hn. rewrite (proj1 HE _ (fun w => comb z c0 c n w * comb z c0 c n w)) by (intros w; now rewrite HX). rewrite (@E_comb_sq W E z N HE H1 Hm Hc) by exact Hn.
  apply Rplus_le_le_0_compat; [apply Rle_0_sqr|]. apply sum_sq_nonneg.
Qed.
Lemma lin_le n m X : lin z n X -> (n <= m)%nat -> lin z m X.
Proof using Type. intros H L. induction L as [|m L IH]; [exact H|now apply lin_up]. Qed.
Lemma two_squares X Y x y n : lin z n X -> lin z n Y -> (n <= N)%nat -> E (fun w => (x * X w + y * Y w) * (x * X w + y * Y w)) <= 2 * (x * x) * E (fun w => X w * X w) + 2 * (y * y) * E (fun w => Y w * Y w).
Proof using HE H1 Hm Hc.
  intros HX HY Hn. pose proof (lin_sq (lin_comb x (- y) HX HY) Hn) as P. cbv beta in P. pose proof (E_quad HE X Y X Y x (- y) x (- y)) as A. pose proof (E_quad HE X Y X Y x y x y) as B. cbv beta in A, B. rewrite A in P. rewrite B. lra.
Qed.
Lemma three_squares X Y V n : lin z n X -> lin z n Y -> lin z n V -> (n <= N)%nat ->
  E (fun w => (X w - Y w + V w) * (X w - Y w + V w)) <= 3 * (E (fun w => X w * X w) + E (fun w => Y w * Y w) + E (fun w => V w * V w)).
Proof using HE H1 Hm Hc.
  intros HX HY HV Hn. pose proof (lin_sq (lin_comb 1 1 HX HY) Hn) as P1. pose proof (lin_sq (lin_comb 1 (- 1) HX HV) Hn) as P2. pose proof (lin_sq (lin_comb 1 1 HY HV) Hn) as P3. cbv beta in P1, P2, P3.
  rewrite (E_quad HE X Y X Y 1 1 1 1) in P1. rewrite (E_quad HE X V X V 1 (- 1) 1 (- 1)) in P2. rewrite (E_quad HE Y V Y V 1 1 1 1) in P3.
  rewrite (proj1 HE _ (fun w => (1 * (1 * X w + (- 1) * Y w) + 1 * V w) * (1 * (1 * X w + (- 1) * Y w) + 1 * V w))) by (intros; ring).
  rewrite (E_quad HE (fun w => 1 * X w + (- 1) * Y w) V (fun w => 1 * X w + (- 1) * Y w) V 1 1 1 1).
  rewrite (E_quad HE X Y X Y 1 (- 1) 1 (- 1)). pose proof (E_lin2 HE (fun w => X w * V w) (fun w => Y w * V w) 1 (- 1)) as L.
  rewrite (proj1 HE (fun w => (1 * X w + (- 1) * Y w) * V w) (fun w => 1 * (X w * V w) + (- 1) * (Y w * V w))) by (intros; ring).
  rewrite (proj1 HE (fun w => V w * (1 * X w + (- 1) * Y w)) (fun w => 1 * (X w * V w) + (- 1) * (Y w * V w))) by (intros; ring). rewrite L.
  rewrite (E_comm HE Y X) in *. rewrite (E_comm HE V X) in P2. rewrite (E_comm HE V Y) in P3. lra.
Qed.
Lemma noise_sum d q n : (n * q <= N)%nat -> (0 < q)%nat -> E (fun w => sum_upto (n * q) (fun t => d (t mod q)%nat * z t w) * sum_upto (n * q) (fun t => d (t mod q)%nat * z t w)) = INR n * sum_upto q (fun j => d j * d j).
Proof using HE H1 Hm Hc.
  intros Hn Hq. rewrite (proj1 HE _ (fun w => comb z 0 (fun t => d (t mod q)%nat) (n * q) w * comb z 0 (fun t => d (t mod q)%nat) (n * q) w)) by (intros w; unfold comb; ring).
  rewrite (@E_comb_sq W E z N HE H1 Hm Hc) by exact Hn. rewrite Rmult_0_l, Rplus_0_l. clear Hn. induction n as [|n IH]; [unfold sum_upto; cbn; ring|].
  replace (S n * q)%nat with (n * q + q)%nat by lia. rewrite sum_upto_app, IH, S_INR.
  rewrite (@sum_upto_ext q (fun i => d ((n * q + i) mod q)%nat * d ((n * q + i) mod q)%nat) (fun j => d j * d j)); [ring|].
  intros j Hj. replace ((n * q + j) mod q)%nat with j by (apply (Nat.mod_unique (n * q + j) q n j); lia). reflexivity.
Qed.
End Squares.

(** bounded second moments for a constant step *)
Lemma dist2_bounded k a T D : 0 < k < 1 -> 0 < a < 1 -> (forall n, D (S n) = tri_step k a ((1 - a * a) * T) (D n)) -> exists B, 0 <= B /\ forall n, t_u (D n) <= B /\ t_w (D n) <= B.
Proof.
  intros Hk Ha HD. set (eta := 1 - k * k). assert (He : 0 < eta < 1) by (unfold eta; nra). pose proof (proj1 (@dist2_step k a T Hk Ha (Tri 0 0 0))) as Rr.
  assert (P0 : forall E, 0 <= dist2 k T E). { intros E. unfold dist2. fold eta. pose proof (Rle_0_sqr (eta * (t_u E - T / eta))). pose proof (Rle_0_sqr (t_v E)). pose proof (Rle_0_sqr (t_w E - T)). unfold Rsqr in *. assert (0 <= eta * (t_v E * t_v E)) by (apply Rmult_le_pos; lra). lra. }
  assert (B : forall n, dist2 k T (D n) <= dist2 k T (D 0%nat)).
  { induction n as [|n IH]; [lra|]. rewrite HD. destruct (@dist2_step k a T Hk Ha (D n)) as [_ H]. eapply Rle_trans; [exact H|]. eapply Rle_trans; [|exact IH]. rewrite <- (Rmult_1_l (dist2 k T (D n))) at 2. apply Rmult_le_compat_r; [apply P0|nra]. }
  set (R0 := dist2 k T (D 0%nat)) in *. assert (PR : 0 <= R0) by apply P0. assert (Le : forall x, x * x <= R0 -> x <= 1 + R0). { intros x Hx. destruct (Rle_dec x 1); [lra|]. nra. }
  exists (Rabs T + Rabs (T / eta) + (1 + R0) + (1 + R0) / eta). pose proof (Rabs_pos T). pose proof (Rabs_pos (T / eta)). assert (Q : 0 < (1 + R0) / eta) by (apply Rdiv_lt_0_compat; lra). split; [lra|].
  intros n. specialize (B n). unfold dist2 in B. fold eta in B. pose proof (Rle_0_sqr (eta * (t_u (D n) - T / eta))) as S1. pose proof (Rle_0_sqr (t_v (D n))) as S2. pose proof (Rle_0_sqr (t_w (D n) - T)) as S3. unfold Rsqr in *. assert (S4 : 0 <= eta * (t_v (D n) * t_v (D n))) by (apply Rmult_le_pos; lra).
  pose proof (Le (eta * (t_u (D n) - T / eta)) ltac:(lra)) as L1. pose proof (Le (t_w (D n) - T) ltac:(lra)) as L2. pose proof (Rle_abs T). pose proof (Rle_abs (T / eta)). split; [|lra].
  assert (L3 : t_u (D n) - T / eta <= (1 + R0) / eta). { apply (Rmult_le_reg_l eta); [lra|]. replace (eta * ((1 + R0) / eta)) with (1 + R0) by (field; lra). exact L1. } lra.
Qed.
