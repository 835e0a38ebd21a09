(** One step of SGGMC for the harmonic potential in one dimension: the mean of a function that is not even in the momentum decreases. The integrals. *)
From Coq Require Import Reals Lra Lia List FunctionalExtensionality.
From Verif Require Import Base Pytree TreeUtil TreeUtilSpec TreeUtilProofs Integrator IntegratorSpec BalanceSpec VolumeSpec VolumeProofs RiemannSpec RiemannProofs RiemannIntegral RiemannBounds RiemannAdequacy RiemannWeight RiemannPositive.
Open Scope R_scope.
Set Implicit Arguments.

Section A.
Variables c v h : R.
Hypothesis Hc : 0 < c.
Hypothesis Hv : 0 < v.
Hypothesis Hh : 0 < h.
Hypothesis Hh2 : h * h < 2.

(** the momentum after the first refreshment *)
Definition odd_r (z : phase) : R := c * z (CMom 0) + v * z (CNoise 0 0).
(** the acceptance probability *)
Definition odd_acc (x r : R) : R := Rmin 1 (exp (- (h * h / 8 * (((1 - h * h / 2) * x + h * r) * ((1 - h * h / 2) * x + h * r) - x * x)))).
(** the test function *)
Definition odd_f (x p : R) : R := tent_at (-1) 1 x * tent_at 1 1 p.
(** auxiliary definition of a statement or a proof; models no code of /repo *)
Definition odd_D (z : phase) : R := odd_acc (z (CPos 0)) (odd_r z) - odd_acc (z (CPos 0)) (- odd_r z).
(** density of position, momentum and the two random numbers *)
Definition odd_w (z : phase) : R := exp (- (z (CPos 0) * z (CPos 0) / 2 + z (CMom 0) * z (CMom 0) / 2)) * (exp (- (z (CNoise 0 0) * z (CNoise 0 0) / 2)) * exp (- (z (CNoise 1 0) * z (CNoise 1 0) / 2))).

(** change the sign of the momentum and of the first random number *)
Definition odd_sel (q : coord) : bool := match q with CMom 0 => true | CNoise 0 0 => true | _ => false end.
(** auxiliary definition of a statement or a proof; models no code of /repo *)
Definition odd_N (z : phase) : phase := fun q => if odd_sel q then - z q else z q.
Lemma odd_N_volume : preserves_volume 1 2 odd_N.
Proof. apply pv_flip. intros [i|[|i]|[|j] [|i]]; cbn; try discriminate; lia. Qed.
(** change the sign of the refreshed momentum by another random number *)
Definition odd_first (q : coord) : bool := match q with CNoise 0 0 => true | _ => false end.
(** auxiliary definition of a statement or a proof; models no code of /repo *)
Definition odd_S (z : phase) : phase := fun q => if odd_first q then - z q + - (2 * c / v) * z (CMom 0) else z q.
Lemma odd_S_volume : preserves_volume 1 2 odd_S.
Proof.
  assert (Hi : forall q, odd_first q = true -> inside 1 2 q) by (intros [i|i|[|j] [|i]]; cbn; try discriminate; lia).
  pose (F := fun (y : phase) q => if odd_first q then - y q else y q).
  pose (G := fun (y : phase) q => if odd_first q then y q + (fun _ y' => - (2 * c / v) * y' (CMom 0)) q y else y q).
  apply (@pv_ext 1 2 (fun z => G (F z))).
  - apply (@pv_compose 1 2 F G); [now apply pv_flip|]. apply (@pv_shear 1 2 odd_first (fun _ y' => - (2 * c / v) * y' (CMom 0))); auto.
    + intros _ _. apply cont_scale. apply cont_coord. cbn. lia.
    + intros q z z' _ H. rewrite (H (CMom 0)); [reflexivity|cbn; lia|reflexivity].
  - intros z q. unfold odd_S, F, G. destruct (odd_first q); reflexivity.
Qed.
Lemma odd_r_S z : odd_r (odd_S z) = - odd_r z. Proof. unfold odd_r, odd_S. cbn. field. lra. Qed.
Lemma odd_r_N z : odd_r (odd_N z) = - odd_r z. Proof. unfold odd_r, odd_N. cbn. ring. Qed.
Lemma odd_w_N z : odd_w (odd_N z) = odd_w z.
Proof. unfold odd_w, odd_N. cbn. do 2 f_equal; [|do 2 f_equal]; f_equal; field. Qed.
Lemma odd_D_S z : odd_D (odd_S z) = - odd_D z.
Proof. unfold odd_D. rewrite odd_r_S, Ropp_involutive. change (odd_S z (CPos 0)) with (z (CPos 0)). ring. Qed.

Lemma min_exp_mono a b : a <= b -> Rmin 1 (exp a) <= Rmin 1 (exp b).
Proof. intros H. apply Rle_min_compat_l. destruct H as [H| ->]; [left; now apply exp_increasing|lra]. Qed.
Lemma odd_acc_mono x r : x < 0 -> 0 <= r -> odd_acc x (- r) <= odd_acc x r.
Proof.
  intros Hx Hr. apply min_exp_mono. apply Ropp_le_contravar. apply Rmult_le_compat_l; [assert (0 < h * h) by (now apply Rmult_lt_0_compat); lra|].
  apply Rplus_le_compat_r. set (a := 1 - h * h / 2) in *. assert (Ha : 0 < a) by (unfold a; lra).
  assert (H : 0 <= (a * - x) * (h * r)) by (apply Rmult_le_pos; [left; apply Rmult_lt_0_compat; lra|apply Rmult_le_pos; lra]). 
  replace ((a * x + h * - r) * (a * x + h * - r)) with ((a * x + h * r) * (a * x + h * r) + 4 * (a * - x * (h * r))) by ring. lra.
Qed.
Lemma odd_D_sign z : z (CPos 0) < 0 -> (0 <= odd_r z -> 0 <= odd_D z) /\ (odd_r z <= 0 -> odd_D z <= 0).
Proof.
  intros Hx. unfold odd_D. split; intros Hr.
  - pose proof (@odd_acc_mono _ _ Hx Hr). lra.
  - pose proof (@odd_acc_mono _ (- odd_r z) Hx ltac:(lra)) as H. rewrite Ropp_involutive in H. lra.
Qed.
Lemma exp_le a b : a <= b -> exp a <= exp b. Proof. intros [H| ->]; [left; now apply exp_increasing|lra]. Qed.
Lemma odd_S_square z : z (CNoise 0 0) * z (CNoise 0 0) / 2 + 2 * c / (v * v) * z (CMom 0) * odd_r z = odd_S z (CNoise 0 0) * odd_S z (CNoise 0 0) / 2.
Proof. unfold odd_S, odd_r. cbn. field. lra. Qed.
Lemma odd_w_sign z : 0 < z (CMom 0) -> (0 <= odd_r z -> odd_w (odd_S z) <= odd_w z) /\ (odd_r z <= 0 -> odd_w z <= odd_w (odd_S z)).
Proof.
  intros Hp. pose proof (odd_S_square z) as E. set (k := 2 * c / (v * v) * z (CMom 0)) in *.
  assert (Hk : 0 < k) by (apply Rmult_lt_0_compat; auto; apply Rdiv_lt_0_compat; [lra|now apply Rmult_lt_0_compat]).
  unfold odd_w. change (odd_S z (CPos 0)) with (z (CPos 0)). change (odd_S z (CMom 0)) with (z (CMom 0)). change (odd_S z (CNoise 1 0)) with (z (CNoise 1 0)).
  split; intros Hr; (apply Rmult_le_compat_l; [left; apply exp_pos|]); (apply Rmult_le_compat_r; [left; apply exp_pos|]); apply exp_le.
  - assert (0 <= k * odd_r z) by (apply Rmult_le_pos; lra). lra.
  - assert (0 <= k * - odd_r z) by (apply Rmult_le_pos; lra). lra.
Qed.
Lemma odd_f_range x p : 0 <= odd_f x p <= 1.
Proof. unfold odd_f. assert (H : forall a b t, 0 <= tent_at a b t <= 1) by (intros; apply tent_range). pose proof (H (-1) 1 x). pose proof (H 1 1 p). split; [apply Rmult_le_pos; lra|]. apply Rle_trans with (1 * 1); [apply Rmult_le_compat; lra|lra]. Qed.
Lemma odd_f_support x p : odd_f x p <> 0 -> x < 0 /\ 0 < p.
Proof.
  intros H. split; apply Rnot_le_lt; intros Hle; apply H; unfold odd_f.
  - rewrite (@tent_at_zero (-1) 1 x); [ring|lra|]. rewrite Rabs_pos_eq; lra.
  - rewrite (@tent_at_zero 1 1 p); [ring|lra|]. rewrite Rabs_left1; lra.
Qed.
Lemma odd_product z : 0 <= (odd_w z - odd_w (odd_S z)) * odd_D z * odd_f (z (CPos 0)) (z (CMom 0)).
Proof.
  destruct (Req_dec (odd_f (z (CPos 0)) (z (CMom 0))) 0) as [-> |Hf]; [rewrite Rmult_0_r; lra|].
  destruct (odd_f_support Hf) as [Hx Hp]. apply Rmult_le_pos; [|apply odd_f_range].
  destruct (odd_D_sign z Hx) as [D1 D2]. destruct (odd_w_sign z Hp) as [W1 W2]. destruct (Rle_lt_dec 0 (odd_r z)) as [Hr|Hr].
  - specialize (D1 Hr). specialize (W1 Hr). apply Rmult_le_pos; lra.
  - specialize (D2 ltac:(lra)). specialize (W2 ltac:(lra)). replace ((odd_w z - odd_w (odd_S z)) * odd_D z) with ((odd_w (odd_S z) - odd_w z) * - odd_D z) by ring. apply Rmult_le_pos; lra.
Qed.
(** a point where the function is positive: x = -1, p = 1, r = h *)
Definition odd_point : phase := fun q => match q with CPos 0 => -1 | CMom 0 => 1 | CNoise 0 0 => (h - c) / v | _ => 0 end.
Lemma odd_point_r : odd_r odd_point = h. Proof. unfold odd_r, odd_point. field. lra. Qed.
Lemma odd_point_bound q : Rabs (odd_point q) <= 1 + Rabs ((h - c) / v).
Proof.
  pose proof (Rabs_pos ((h - c) / v)). destruct q as [[|i]|[|i]|[|j] [|i]]; cbn; rewrite ?Rabs_R0, ?Rabs_R1; try lra. rewrite Rabs_left; lra.
Qed.
Lemma odd_point_pos : 0 < (odd_w odd_point - odd_w (odd_S odd_point)) * odd_D odd_point * odd_f (odd_point (CPos 0)) (odd_point (CMom 0)).
Proof.
  assert (H2 : 0 < h * h) by now apply Rmult_lt_0_compat.
  apply Rmult_lt_0_compat; [apply Rmult_lt_0_compat|].
  - apply Rlt_Rminus. pose proof (odd_S_square odd_point) as E. rewrite odd_point_r in E. unfold odd_w.
    change (odd_S odd_point (CPos 0)) with (odd_point (CPos 0)). change (odd_S odd_point (CMom 0)) with (odd_point (CMom 0)). change (odd_S odd_point (CNoise 1 0)) with (odd_point (CNoise 1 0)).
    apply Rmult_lt_compat_l; [apply exp_pos|]. apply Rmult_lt_compat_r; [apply exp_pos|]. apply exp_increasing.
    assert (0 < 2 * c / (v * v) * odd_point (CMom 0) * h).
    { cbn. apply Rmult_lt_0_compat; auto. rewrite Rmult_1_r. apply Rdiv_lt_0_compat; [lra|now apply Rmult_lt_0_compat]. }
    lra.
  - unfold odd_D. rewrite odd_point_r. cbn [odd_point]. apply Rlt_Rminus. unfold odd_acc. set (k := h * h) in *.
    replace (((1 - k / 2) * -1 + h * - h) * ((1 - k / 2) * -1 + h * - h) - -1 * -1) with (k + k * k / 4) by (unfold k; field).
    replace (((1 - k / 2) * -1 + h * h) * ((1 - k / 2) * -1 + h * h) - -1 * -1) with (k + k * k / 4 - (4 * k - 2 * (k * k))) by (unfold k; field).
    assert (Hk : 0 < k * k) by now apply Rmult_lt_0_compat.
    assert (Hk2 : k * k < k * 2) by (apply Rmult_lt_compat_l; auto).
    assert (E1 : exp (- (k / 8 * (k + k * k / 4))) < 1).
    { rewrite <- exp_0. apply exp_increasing. assert (0 < k / 8 * (k + k * k / 4)) by (apply Rmult_lt_0_compat; lra). lra. }
    rewrite (Rmin_right 1 (exp (- (k / 8 * (k + k * k / 4))))) by lra. apply Rmin_glb_lt; auto. apply exp_increasing. apply Ropp_lt_contravar. apply Rmult_lt_compat_l; lra.
  - unfold odd_f. apply Rmult_lt_0_compat; apply tent_at_pos; try lra; cbn; [replace (-1 - -1) with 0 by ring|replace (1 - 1) with 0 by ring]; rewrite Rabs_R0; lra.
Qed.

Local Notation cont := (continuous 1 2).
Local Notation L := (riemann_integrable 1 2).
Local Notation I := (riemann_integral 1 2).
Lemma cont_x : cont (fun z => z (CPos 0)). Proof. apply cont_coord. cbn. lia. Qed.
Lemma cont_p : cont (fun z => z (CMom 0)). Proof. apply cont_coord. cbn. lia. Qed.
Lemma cont_r : cont odd_r.
Proof. apply (@cont_plus 1 2 (fun z => c * z (CMom 0)) (fun z => v * z (CNoise 0 0))); apply cont_scale; [apply cont_p|apply cont_coord; cbn; lia]. Qed.
Lemma cont_acc (r : phase -> R) : cont r -> cont (fun z => odd_acc (z (CPos 0)) (r z)).
Proof.
  intros Hr. unfold odd_acc. apply cont_min; [apply cont_const|]. apply (cont_continuity (h := exp)); [apply exp_continuity|]. apply cont_opp. apply cont_scale. 
  assert (Hq : cont (fun z => (1 - h * h / 2) * z (CPos 0) + h * r z)) by (apply cont_plus; apply cont_scale; auto using cont_x).
  apply (@cont_minus 1 2 (fun z => ((1 - h * h / 2) * z (CPos 0) + h * r z) * ((1 - h * h / 2) * z (CPos 0) + h * r z)) (fun z => z (CPos 0) * z (CPos 0))); apply cont_mult; auto using cont_x.
Qed.
Lemma cont_D : cont odd_D.
Proof. apply (@cont_minus 1 2 (fun z => odd_acc (z (CPos 0)) (odd_r z)) (fun z => odd_acc (z (CPos 0)) (- odd_r z))); apply cont_acc; [|apply cont_opp]; apply cont_r. Qed.
Lemma cont_f (p : phase -> R) : cont p -> cont (fun z => odd_f (z (CPos 0)) (p z)).
Proof. intros Hp. unfold odd_f. apply cont_mult; (apply cont_continuity; [apply tent_at_cont|]); auto using cont_x. Qed.
Lemma acc_range x r : 0 < odd_acc x r <= 1.
Proof. unfold odd_acc. split; [apply Rmin_glb_lt; [lra|apply exp_pos]|apply Rmin_l]. Qed.

(** all bounded continuous functions are integrable *)
Hypothesis Hint : forall g, cont g -> (forall z, Rabs (g z) <= 1) -> L (fun z => odd_w z * g z).
Lemma abs_le_1 x : -1 <= x <= 1 -> Rabs x <= 1. Proof. intros H. apply Rabs_le. lra. Qed.
Theorem odd_integral : let J := fun r => fun z => odd_w z * odd_acc (z (CPos 0)) (odd_r z) * odd_f (z (CPos 0)) (r * z (CMom 0)) in
  L (J 1) /\ L (J (-1)) /\ I (J (-1)) < I (J 1).
Proof.
  intros J. pose proof (riemann_integral_is_integral 1 2) as HI.
  assert (LJ : forall r, L (J r)).
  { intros r. refine (proj1 (@integral_ext _ _ _ _ HI (fun z => odd_w z * (odd_acc (z (CPos 0)) (odd_r z) * odd_f (z (CPos 0)) (r * z (CMom 0)))) _ _ _)); [intros z; unfold J; ring|].
    apply Hint; [apply cont_mult; [apply cont_acc, cont_r|apply cont_f; apply cont_scale; apply cont_p]|].
    intros z. pose proof (acc_range (z (CPos 0)) (odd_r z)). pose proof (odd_f_range (z (CPos 0)) (r * z (CMom 0))). rewrite Rabs_mult, !Rabs_pos_eq by lra. apply Rle_trans with (1 * 1); [apply Rmult_le_compat; lra|lra]. }
  split; [apply LJ|]. split; [apply LJ|].
  set (K := fun z => odd_w z * (odd_D z * odd_f (z (CPos 0)) (z (CMom 0)))).
  assert (BD : forall z, Rabs (odd_D z * odd_f (z (CPos 0)) (z (CMom 0))) <= 1).
  { intros z. rewrite Rabs_mult. apply Rle_trans with (1 * 1); [|lra]. apply Rmult_le_compat; try apply Rabs_pos; apply abs_le_1.
    - unfold odd_D. pose proof (acc_range (z (CPos 0)) (odd_r z)). pose proof (acc_range (z (CPos 0)) (- odd_r z)). lra.
    - pose proof (odd_f_range (z (CPos 0)) (z (CMom 0))). lra. }
  assert (LK : L K) by (apply Hint; auto; apply cont_mult; [apply cont_D|apply cont_f, cont_p]).
  (* the difference of the two integrals *)
  destruct (@integral_volume _ _ _ _ HI _ _ odd_N_volume (LJ (-1))) as [L1 I1].
  destruct (@integral_scale _ _ _ _ HI (-1) _ L1) as [L2 I2]. destruct (@integral_add _ _ _ _ HI _ _ (LJ 1) L2) as [L3 I3].
  assert (E : I K = I (J 1) - I (J (-1))).
  { transitivity (I (fun z => J 1 z + -1 * J (-1) (odd_N z))); [|rewrite I3, I2, I1; ring]. symmetry. apply (@integral_ext _ _ _ _ HI); auto. intros z. unfold J, K, odd_D.
    rewrite odd_w_N, odd_r_N. change (odd_N z (CPos 0)) with (z (CPos 0)). change (odd_N z (CMom 0)) with (- z (CMom 0)). replace (-1 * - z (CMom 0)) with (z (CMom 0)) by ring. rewrite Rmult_1_l. ring. }
  (* twice the integral of K is the integral of a nonnegative function *)
  destruct (@integral_volume _ _ _ _ HI _ _ odd_S_volume LK) as [L4 I4]. destruct (@integral_add _ _ _ _ HI _ _ LK L4) as [L5 I5].
  set (Q := fun z => (odd_w z - odd_w (odd_S z)) * odd_D z * odd_f (z (CPos 0)) (z (CMom 0))).
  destruct (@integral_ext _ _ _ _ HI (fun z => K z + K (odd_S z)) Q) as [LQ IQ]; auto.
  { intros z. unfold K, Q. rewrite odd_D_S. change (odd_S z (CPos 0)) with (z (CPos 0)). change (odd_S z (CMom 0)) with (z (CMom 0)). ring. }
  assert (P : 0 < I Q) by (apply (@integral_pos_at 1 2 Q odd_point (1 + Rabs ((h - c) / v)) LQ); [apply odd_product|apply odd_point_pos|apply odd_point_bound]).
  lra.
Qed.
End A.
