(** Real analysis for C86: the second moments of OBABO on a Gaussian posterior.  Models no code of /repo. *)
From Coq Require Import Reals Lra Psatz.
From Verif Require Import Base ListUtil TreeUtilSpec TreeUtilProofs ExpectSpec GaussianLimit SghmcGaussian.
Open Scope R_scope.
Set Implicit Arguments.

(** ** expansions to second order in the step size *)
(** auxiliary definition of a statement or a proof; models no code of /repo *)
Definition exp2 (f : R -> R) (f0 f1 : R) : Prop := exists r, bounded r /\ forall h, 0 <= h <= 1 -> f h = f0 + h * f1 + h * h * r h.
Lemma x_const c : exp2 (fun _ => c) c 0. Proof. exists (fun _ => 0). split; [apply b_const|intros; ring]. Qed.
Lemma x_id : exp2 (fun h => h) 0 1. Proof. exists (fun _ => 0). split; [apply b_const|intros; ring]. Qed.
Lemma x_plus f g f0 f1 g0 g1 : exp2 f f0 f1 -> exp2 g g0 g1 -> exp2 (fun h => f h + g h) (f0 + g0) (f1 + g1).
Proof. intros (r & Hr & Ef) (q & Hq & Eg). exists (fun h => r h + q h). split; [bnd|]. intros h Hh. rewrite Ef, Eg by exact Hh. ring. Qed.
Lemma x_minus f g f0 f1 g0 g1 : exp2 f f0 f1 -> exp2 g g0 g1 -> exp2 (fun h => f h - g h) (f0 - g0) (f1 - g1).
Proof. intros (r & Hr & Ef) (q & Hq & Eg). exists (fun h => r h - q h). split; [bnd|]. intros h Hh. rewrite Ef, Eg by exact Hh. ring. Qed.
Lemma x_opp f f0 f1 : exp2 f f0 f1 -> exp2 (fun h => - f h) (- f0) (- f1).
Proof. intros (r & Hr & Ef). exists (fun h => - r h). split; [bnd|]. intros h Hh. rewrite Ef by exact Hh. ring. Qed.
Lemma x_mult f g f0 f1 g0 g1 : exp2 f f0 f1 -> exp2 g g0 g1 -> exp2 (fun h => f h * g h) (f0 * g0) (f0 * g1 + f1 * g0).
Proof.
  intros (r & Hr & Ef) (q & Hq & Eg). exists (fun h => f1 * g1 + f0 * q h + g0 * r h + h * (f1 * q h + g1 * r h) + h * h * (r h * q h)). split; [bnd|]. intros h Hh. rewrite Ef, Eg by exact Hh. ring.
Qed.
Lemma x_eq f f0 f1 g0 g1 : exp2 f f0 f1 -> f0 = g0 -> f1 = g1 -> exp2 f g0 g1. Proof. now intros H -> ->. Qed.
Lemma x_exp c : 0 <= c -> exp2 (fun h => exp (- c * h)) 1 (- c).
Proof.
  intros Hc. exists (fun h => (exp (- c * h) - 1 + c * h) / (h * h)).
  assert (B : forall x, 0 <= x -> 0 <= exp (- x) - 1 + x <= x * x).
  { intros x Hx. pose proof (one_minus_exp x) as H1. split; [lra|]. rewrite exp_Ropp. pose proof (exp_ineq1_le x) as H2. assert (H3 : / exp x <= / (1 + x)) by (apply Rinv_le_contravar; lra).
    assert (H4 : / (1 + x) - 1 + x <= x * x); [|lra]. replace (/ (1 + x) - 1 + x) with (x * x * / (1 + x)) by (field; lra). rewrite <- (Rmult_1_r (x * x)) at 2. apply Rmult_le_compat_l; [nra|]. rewrite <- Rinv_1 at 2. apply Rinv_le_contravar; lra. }
  split.
  - exists (c * c). intros h Hh. destruct (Req_dec h 0) as [-> | Hn].
    + rewrite !Rmult_0_r, exp_0. replace ((1 - 1 + 0) / 0) with 0 by (unfold Rdiv; ring). rewrite Rabs_R0. nra.
    + specialize (B (c * h) ltac:(apply Rmult_le_pos; lra)). replace (- c * h) with (- (c * h)) by ring. assert (P : 0 < h * h) by nra. rewrite Rabs_right.
      * apply (Rmult_le_reg_r (h * h)); [exact P|]. replace ((exp (- (c * h)) - 1 + c * h) / (h * h) * (h * h)) with (exp (- (c * h)) - 1 + c * h) by (field; exact Hn). nra.
      * apply Rle_ge, Rmult_le_pos; [lra|left; now apply Rinv_0_lt_compat].
  - intros h Hh. destruct (Req_dec h 0) as [-> | Hn]; [rewrite Rmult_0_r, exp_0; ring|]. field. exact Hn.
Qed.
Ltac xp := repeat first [eassumption | apply x_const | apply x_id | eapply x_minus | eapply x_plus | eapply x_mult | eapply x_opp].

(** ** the second moments *)
(** (E Y^2, E Y Q, E Q^2) *)
(** auxiliary definition of a statement or a proof; models no code of /repo *)
Record tri := Tri { t_u : R; t_v : R; t_w : R }.
(** one step of OBABO: decay a, noise variance b2 of each momentum refreshment, k = half of step size times frequency *)
(** auxiliary definition of a statement or a proof; models no code of /repo *)
Definition tri_O (a b2 : R) (D : tri) : tri := Tri (t_u D) (a * t_v D) (a * a * t_w D + b2).
(** auxiliary definition of a statement or a proof; models no code of /repo *)
Definition tri_B (k : R) (D : tri) : tri := Tri (t_u D) (t_v D - k * t_u D) (t_w D - 2 * k * t_v D + k * k * t_u D).
(** auxiliary definition of a statement or a proof; models no code of /repo *)
Definition tri_A (k : R) (D : tri) : tri := Tri (t_u D + 4 * k * t_v D + 4 * k * k * t_w D) (t_v D + 2 * k * t_w D) (t_w D).
(** auxiliary definition of a statement or a proof; models no code of /repo *)
Definition tri_step (k a b2 : R) (D : tri) : tri := tri_O a b2 (tri_B k (tri_A k (tri_B k (tri_O a b2 D)))).

Section Vanishing.
Variables (om gam T : R).
Hypothesis Hom : 0 < om.
Hypothesis Hgam : 0 < gam.
Hypothesis HT : 0 <= T.
(** auxiliary definition of a statement or a proof; models no code of /repo *)
Definition ah (h : R) : R := exp (- (gam / 2) * h).
(** auxiliary definition of a statement or a proof; models no code of /repo *)
Definition hstep (h : R) (D : tri) : tri := tri_step (h * om / 2) (ah h) ((1 - ah h * ah h) * T) D.
Notation al := (fun h : R => 1 - h * h * (om * om / 2)).
Notation de := (fun h : R => h * om * (1 - h * h * (om * om / 4))).

(** step on the deviation from (T, 0, T) *)
Lemma hstep_dev h u v w : let a := ah h in let D' := hstep h (Tri (T + u) v (T + w)) in
  t_u D' - T = al h * al h * u + 2 * al h * (h * om) * a * v + h * om * (h * om) * (a * a) * w + h * h * (h * h * (T * om * om * om * om / 4)) /\
  t_v D' = - (a * al h * de h) * u + a * a * (al h * al h - h * om * de h) * v + a * a * a * (al h * (h * om)) * w + h * h * (h * (a * al h * T * om * om * om / 4)) /\
  t_w D' - T = a * a * de h * de h * u + - (2 * (a * a * a) * al h * de h) * v + a * a * (a * a) * (al h * al h) * w - h * h * (h * (a * a * T * de h * om * om * om / 4)).
Proof. cbv zeta. unfold hstep, tri_step, tri_O, tri_A, tri_B. cbn [t_u t_v t_w]. repeat split; field. Qed.
Lemma step_expansion : exists K, 0 <= K /\ forall h u v w, 0 <= h <= 1 -> exists r1 r2 r3,
  (Rabs r1 <= K * (1 + Rabs u + Rabs v + Rabs w) /\ Rabs r2 <= K * (1 + Rabs u + Rabs v + Rabs w) /\ Rabs r3 <= K * (1 + Rabs u + Rabs v + Rabs w)) /\
  let D' := hstep h (Tri (T + u) v (T + w)) in
  t_u D' - T = u + h * (2 * om * v) + h * h * r1 /\ t_v D' = v + h * (om * w - om * u - gam * v) + h * h * r2 /\ t_w D' - T = w + h * (- 2 * om * v - 2 * gam * w) + h * h * r3.
Proof using Hom Hgam HT.
  pose proof (x_exp (c := gam / 2) ltac:(lra)) as Xa. fold ah in Xa.
  assert (Ba : bounded ah). { exists 1. intros h Hh. unfold ah. rewrite Rabs_right by (left; apply exp_pos). replace 1 with (exp 0) by apply exp_0. assert (Q : - (gam / 2) * h <= 0) by nra. destruct Q as [Q|Q]; [left; now apply exp_increasing|right; now rewrite Q]. }
  change (fun h => exp (- (gam / 2) * h)) with ah in Xa.
  assert (A11 : exp2 (fun h => al h * al h) 1 0) by (eapply x_eq; [xp|field|field]).
  assert (A12 : exp2 (fun h => 2 * al h * (h * om) * ah h) 0 (2 * om)) by (eapply x_eq; [xp|field|field]).
  assert (A13 : exp2 (fun h => h * om * (h * om) * (ah h * ah h)) 0 0) by (eapply x_eq; [xp|field|field]).
  assert (A21 : exp2 (fun h => - (ah h * al h * de h)) 0 (- om)) by (eapply x_eq; [xp|field|field]).
  assert (A22 : exp2 (fun h => ah h * ah h * (al h * al h - h * om * de h)) 1 (- gam)) by (eapply x_eq; [xp|field|field]).
  assert (A23 : exp2 (fun h => ah h * ah h * ah h * (al h * (h * om))) 0 om) by (eapply x_eq; [xp|field|field]).
  assert (A31 : exp2 (fun h => ah h * ah h * de h * de h) 0 0) by (eapply x_eq; [xp|field|field]).
  assert (A32 : exp2 (fun h => - (2 * (ah h * ah h * ah h) * al h * de h)) 0 (- (2 * om))) by (eapply x_eq; [xp|field|field]).
  assert (A33 : exp2 (fun h => ah h * ah h * (ah h * ah h) * (al h * al h)) 1 (- (2 * gam))) by (eapply x_eq; [xp|field|field]).
  assert (B1 : bounded (fun h => h * h * (T * om * om * om * om / 4))) by bnd.
  assert (B2 : bounded (fun h => h * (ah h * al h * T * om * om * om / 4))) by (unfold Rdiv; bnd).
  assert (B3 : bounded (fun h => - (h * (ah h * ah h * T * de h * om * om * om / 4)))) by (unfold Rdiv; bnd).
  destruct A11 as (r11 & [k11 C11] & E11), A12 as (r12 & [k12 C12] & E12), A13 as (r13 & [k13 C13] & E13), A21 as (r21 & [k21 C21] & E21), A22 as (r22 & [k22 C22] & E22), A23 as (r23 & [k23 C23] & E23),
    A31 as (r31 & [k31 C31] & E31), A32 as (r32 & [k32 C32] & E32), A33 as (r33 & [k33 C33] & E33), B1 as [k1 C1], B2 as [k2 C2], B3 as [k3 C3].
  assert (Pos : forall k (f : R -> R), (forall h, 0 <= h <= 1 -> Rabs (f h) <= k) -> 0 <= k) by (intros k f Hf; specialize (Hf 0 ltac:(lra)); pose proof (Rabs_pos (f 0)); lra).
  set (K := k11 + k12 + k13 + k21 + k22 + k23 + k31 + k32 + k33 + k1 + k2 + k3).
  pose proof (Pos _ _ C11) as P11. pose proof (Pos _ _ C12) as P12. pose proof (Pos _ _ C13) as P13. pose proof (Pos _ _ C21) as P21. pose proof (Pos _ _ C22) as P22. pose proof (Pos _ _ C23) as P23.
  pose proof (Pos _ _ C31) as P31. pose proof (Pos _ _ C32) as P32. pose proof (Pos _ _ C33) as P33. pose proof (Pos _ _ C1) as P1. pose proof (Pos _ _ C2) as P2. pose proof (Pos _ _ C3) as P3.
  assert (Bound : forall a b c d u v w, Rabs a <= K -> Rabs b <= K -> Rabs c <= K -> Rabs d <= K -> Rabs (a * u + b * v + c * w + d) <= K * (1 + Rabs u + Rabs v + Rabs w)).
  { intros a b c d u v w Ha Hb Hc Hd. eapply Rle_trans; [apply Rabs_triang|]. eapply Rle_trans; [apply Rplus_le_compat_r, Rabs_triang|]. eapply Rle_trans; [apply Rplus_le_compat_r, Rplus_le_compat_r, Rabs_triang|]. rewrite !Rabs_mult.
    assert (Q : forall x y, Rabs x <= K -> Rabs x * Rabs y <= K * Rabs y) by (intros x y Hx; apply Rmult_le_compat_r; [apply Rabs_pos|exact Hx]). pose proof (Q a u Ha). pose proof (Q b v Hb). pose proof (Q c w Hc). lra. }
  exists K. split; [unfold K; lra|]. intros h u v w Hh. pose proof (hstep_dev h u v w) as H. cbv zeta in H. destruct H as (H1 & H2 & H3). cbv beta in *.
  exists (r11 h * u + r12 h * v + r13 h * w + h * h * (T * om * om * om * om / 4)), (r21 h * u + r22 h * v + r23 h * w + h * (ah h * al h * T * om * om * om / 4)), (r31 h * u + r32 h * v + r33 h * w + - (h * (ah h * ah h * T * de h * om * om * om / 4))).
  split; [split; [|split]; apply Bound; unfold K|].
  1: specialize (C11 h Hh); lra. 1: specialize (C12 h Hh); lra. 1: specialize (C13 h Hh); lra. 1: specialize (C1 h Hh); lra.
  1: specialize (C21 h Hh); lra. 1: specialize (C22 h Hh); lra. 1: specialize (C23 h Hh); lra. 1: specialize (C2 h Hh); lra.
  1: specialize (C31 h Hh); lra. 1: specialize (C32 h Hh); lra. 1: specialize (C33 h Hh); lra. 1: specialize (C3 h Hh); lra.
  cbv zeta. rewrite H1, H2, H3. split; [rewrite (E11 h Hh), (E12 h Hh), (E13 h Hh); ring|]. split; [rewrite (E22 h Hh), (E23 h Hh), (E21 h Hh); ring|]. rewrite (E33 h Hh), (E32 h Hh), (E31 h Hh). ring.
Qed.

(** ** a Lyapunov function *)
(** auxiliary definition of a statement or a proof; models no code of /repo *)
Definition th : R := Rmin (1 / 2) (gam / (2 * om + gam * gam / om)).
(** auxiliary definition of a statement or a proof; models no code of /repo *)
Definition Phi (u v w : R) : R := u * u + 2 * (v * v) + w * w + 2 * th * (u * v).
Lemma th_bounds : 0 < th <= 1 / 2 /\ th * (4 * om + 2 * (gam * gam / om)) <= 2 * gam.
Proof using Hom Hgam.
  assert (P : 0 < 2 * om + gam * gam / om) by (assert (0 < gam * gam / om) by (apply Rdiv_lt_0_compat; nra); lra). unfold th. split.
  - split; [apply Rmin_glb_lt; [lra|now apply Rdiv_lt_0_compat]|apply Rmin_l].
  - pose proof (Rmin_r (1 / 2) (gam / (2 * om + gam * gam / om))) as H. apply (Rmult_le_compat_r (2 * om + gam * gam / om)) in H; [|lra]. replace (gam / (2 * om + gam * gam / om) * (2 * om + gam * gam / om)) with gam in H by (field; split; [lra|]; intros Q; assert (Q2 : (2 * om + gam * gam / om) * om = 0) by (replace ((2 * om + gam * gam / om) * om) with (2 * om * om + gam * gam) by (field; lra); lra); nra). nra.
Qed.
Lemma Phi_bounds u v w : (u * u + v * v + w * w) / 2 <= Phi u v w <= 3 * (u * u + v * v + w * w).
Proof using Hom Hgam.
  destruct th_bounds as [[T1 T2] _]. unfold Phi. pose proof (Rle_0_sqr (u + v)) as Q1. pose proof (Rle_0_sqr (u - v)) as Q2. unfold Rsqr in Q1, Q2. pose proof (Rle_0_sqr u). pose proof (Rle_0_sqr v). pose proof (Rle_0_sqr w). unfold Rsqr in *.
  assert (A : - ((u * u + v * v) / 2) <= u * v <= (u * u + v * v) / 2) by (split; lra). assert (B : 2 * th * (u * v) <= (u * u + v * v) / 2 /\ - ((u * u + v * v) / 2) <= 2 * th * (u * v)) by (split; nra). lra.
Qed.
Lemma dissipation u v w : 2 * u * (2 * om * v) + 4 * v * (om * w - om * u - gam * v) + 2 * w * (- 2 * om * v - 2 * gam * w) + 2 * th * (v * (2 * om * v) + u * (om * w - om * u - gam * v))
  <= - (th * om) * (u * u) - 2 * gam * (v * v) - 2 * gam * (w * w).
Proof using Hom Hgam.
  destruct th_bounds as [[T1 _] T3]. 
  assert (S1 : 2 * (u * w) <= u * u / 2 + 2 * (w * w)) by (pose proof (Rle_0_sqr (u - 2 * w)) as Q; unfold Rsqr in Q; lra).
  assert (S2 : - 2 * gam * (u * v) <= om * (u * u) / 2 + 2 * (gam * gam / om) * (v * v)).
  { pose proof (Rle_0_sqr (om * u + 2 * gam * v)) as Q. unfold Rsqr in Q. apply (Rmult_le_reg_l (2 * om)); [lra|]. replace (2 * om * (om * (u * u) / 2 + 2 * (gam * gam / om) * (v * v))) with (om * u * (om * u) + 4 * gam * gam * (v * v)) by (field; lra). lra. }
  assert (P1 : th * om * (2 * (u * w)) <= th * om * (u * u / 2 + 2 * (w * w))) by (apply Rmult_le_compat_l; [apply Rmult_le_pos; lra|exact S1]).
  assert (P2 : th * (- 2 * gam * (u * v)) <= th * (om * (u * u) / 2 + 2 * (gam * gam / om) * (v * v))) by (apply Rmult_le_compat_l; lra).
  assert (G2 : 0 < gam * gam / om) by (apply Rdiv_lt_0_compat; nra). assert (T4 : th * (gam * gam / om) >= 0) by nra.
  assert (P3 : th * (4 * om + 2 * (gam * gam / om)) * (v * v) <= 2 * gam * (v * v)) by (apply Rmult_le_compat_r; [apply Rle_0_sqr|exact T3]).
  assert (P4 : th * (2 * om) * (w * w) <= 2 * gam * (w * w)) by (apply Rmult_le_compat_r; [apply Rle_0_sqr|nra]). nra.
Qed.
Lemma Phi_step : exists k0 C, 0 < k0 /\ 0 <= C /\ forall h u v w, 0 <= h <= 1 -> let D' := hstep h (Tri (T + u) v (T + w)) in
  Phi (t_u D' - T) (t_v D') (t_w D' - T) <= Phi u v w - h * k0 * (u * u + v * v + w * w) + h * h * C * (1 + (u * u + v * v + w * w)).
Proof using Hom Hgam HT.
  destruct step_expansion as (K & HK & EX). destruct th_bounds as [[T1 T2] T3]. set (c := 2 * om + 2 * gam + K).
  exists (Rmin (th * om) (2 * gam)), (4 * (10 * K + 5 * (c * c))). split; [apply Rmin_glb_lt; nra|]. split; [assert (0 <= c * c) by apply Rle_0_sqr; lra|].
  intros h u v w Hh D'. destruct (EX h u v w Hh) as (r1 & r2 & r3 & (B1 & B2 & B3) & E1 & E2 & E3). fold D' in E1, E2, E3. rewrite E1, E2, E3. clear E1 E2 E3 D' EX.
  set (L1 := 2 * om * v). set (L2 := om * w - om * u - gam * v). set (L3 := - 2 * om * v - 2 * gam * w). pose proof (dissipation u v w) as Ds. fold L1 L2 L3 in Ds.
  set (m := 1 + Rabs u + Rabs v + Rabs w) in *. pose proof (Rabs_pos u) as Pu. pose proof (Rabs_pos v) as Pv. pose proof (Rabs_pos w) as Pw.
  assert (Pm : 1 <= m) by (unfold m; lra). set (S := u * u + v * v + w * w).
  assert (Sq : forall x, Rabs x * Rabs x = x * x) by (intros x; rewrite <- Rabs_mult; apply Rabs_right, Rle_ge, Rle_0_sqr).
  assert (M2 : m * m <= 4 * (1 + S)).
  { unfold m, S. rewrite <- (Sq u), <- (Sq v), <- (Sq w). pose proof (Rle_0_sqr (1 - Rabs u)) as A1. pose proof (Rle_0_sqr (1 - Rabs v)) as A2. pose proof (Rle_0_sqr (1 - Rabs w)) as A3. pose proof (Rle_0_sqr (Rabs u - Rabs v)) as A4. pose proof (Rle_0_sqr (Rabs u - Rabs w)) as A5. pose proof (Rle_0_sqr (Rabs v - Rabs w)) as A6. unfold Rsqr in *. lra. }
  assert (Mul : forall x y a b, Rabs x <= a -> Rabs y <= b -> x * y <= a * b) by (intros x y a b Hx Hy; eapply Rle_trans; [apply Rle_abs|]; rewrite Rabs_mult; apply Rmult_le_compat; auto using Rabs_pos).
  assert (Bu : Rabs u <= m) by (unfold m; lra). assert (Bv : Rabs v <= m) by (unfold m; lra). assert (Bw : Rabs w <= m) by (unfold m; lra).
  assert (Tri3 : forall a b, Rabs (a + b) <= Rabs a + Rabs b) by apply Rabs_triang.
  assert (BL1 : Rabs L1 <= (2 * om + 2 * gam) * m). { unfold L1. rewrite Rabs_mult, Rabs_right by lra. assert (0 <= gam * m) by nra. nra. }
  assert (BL2 : Rabs L2 <= (2 * om + 2 * gam) * m).
  { unfold L2. replace (om * w - om * u - gam * v) with (om * w + (- om * u + - gam * v)) by ring. eapply Rle_trans; [apply Tri3|]. eapply Rle_trans; [apply Rplus_le_compat_l, Tri3|]. rewrite !Rabs_mult, !Rabs_Ropp, (Rabs_right om), (Rabs_right gam) by lra. assert (0 <= gam * m) by nra. assert (om * Rabs w <= om * m) by nra. assert (om * Rabs u <= om * m) by nra. assert (gam * Rabs v <= gam * m) by nra. lra. }
  assert (BL3 : Rabs L3 <= (2 * om + 2 * gam) * m).
  { unfold L3. replace (- 2 * om * v - 2 * gam * w) with (- (2 * om) * v + - (2 * gam) * w) by ring. eapply Rle_trans; [apply Tri3|]. rewrite !Rabs_mult, !Rabs_Ropp, (Rabs_right (2 * om)), (Rabs_right (2 * gam)) by lra. assert (2 * om * Rabs v <= 2 * om * m) by nra. assert (2 * gam * Rabs w <= 2 * gam * m) by nra. lra. }
  assert (Bd : forall L r, Rabs L <= (2 * om + 2 * gam) * m -> Rabs r <= K * m -> Rabs (L + h * r) <= c * m).
  { intros L r H1 H2. eapply Rle_trans; [apply Tri3|]. rewrite Rabs_mult, (Rabs_right h) by lra. pose proof (Rabs_pos r). assert (h * Rabs r <= Rabs r) by nra. unfold c. lra. }
  pose proof (Bd L1 r1 BL1 B1) as D1. pose proof (Bd L2 r2 BL2 B2) as D2. pose proof (Bd L3 r3 BL3 B3) as D3. set (d1 := L1 + h * r1) in *. set (d2 := L2 + h * r2) in *. set (d3 := L3 + h * r3) in *.
  replace (Phi (u + h * L1 + h * h * r1) (v + h * L2 + h * h * r2) (w + h * L3 + h * h * r3)) with
    (Phi u v w + h * (2 * u * L1 + 4 * v * L2 + 2 * w * L3 + 2 * th * (v * L1 + u * L2)) + h * h * (2 * u * r1 + 4 * v * r2 + 2 * w * r3 + 2 * th * (v * r1 + u * r2) + Phi d1 d2 d3)) by (unfold Phi, d1, d2, d3; ring).
  assert (X1 : 2 * u * r1 + 4 * v * r2 + 2 * w * r3 + 2 * th * (v * r1 + u * r2) <= 10 * K * (m * m)).
  { pose proof (Mul u r1 m (K * m) Bu B1). pose proof (Mul v r2 m (K * m) Bv B2). pose proof (Mul w r3 m (K * m) Bw B3). pose proof (Mul v r1 m (K * m) Bv B1). pose proof (Mul u r2 m (K * m) Bu B2).
    assert (0 <= K * (m * m)) by (apply Rmult_le_pos; nra). assert (2 * th * (v * r1 + u * r2) <= 1 * (2 * (m * (K * m)))); [|lra].
    apply Rle_trans with (2 * th * (2 * (m * (K * m)))); [apply Rmult_le_compat_l; lra|apply Rmult_le_compat_r; lra]. }
  assert (X2 : Phi d1 d2 d3 <= 5 * (c * c) * (m * m)).
  { unfold Phi. pose proof (Mul d1 d1 _ _ D1 D1). pose proof (Mul d2 d2 _ _ D2 D2). pose proof (Mul d3 d3 _ _ D3 D3). pose proof (Mul d1 d2 _ _ D1 D2). assert (0 <= c * m * (c * m)) by apply Rle_0_sqr.
    assert (2 * th * (d1 * d2) <= 1 * (c * m * (c * m))); [|lra]. apply Rle_trans with (2 * th * (c * m * (c * m))); [apply Rmult_le_compat_l; lra|apply Rmult_le_compat_r; lra]. }
  assert (X3 : (10 * K + 5 * (c * c)) * (m * m) <= 4 * (10 * K + 5 * (c * c)) * (1 + S)). { replace (4 * (10 * K + 5 * (c * c)) * (1 + S)) with ((10 * K + 5 * (c * c)) * (4 * (1 + S))) by ring. apply Rmult_le_compat_l; [assert (0 <= c * c) by apply Rle_0_sqr; lra|exact M2]. }
  pose proof (Rmin_l (th * om) (2 * gam)) as Ml. pose proof (Rmin_r (th * om) (2 * gam)) as Mr. set (k0 := Rmin (th * om) (2 * gam)) in *.
  assert (X4 : 2 * u * L1 + 4 * v * L2 + 2 * w * L3 + 2 * th * (v * L1 + u * L2) <= - (k0 * S)).
  { eapply Rle_trans; [exact Ds|]. unfold S. pose proof (Rle_0_sqr u). pose proof (Rle_0_sqr v). pose proof (Rle_0_sqr w). unfold Rsqr in *. assert (k0 * (u * u) <= th * om * (u * u)) by (apply Rmult_le_compat_r; lra). assert (k0 * (v * v) <= 2 * gam * (v * v)) by (apply Rmult_le_compat_r; lra). assert (k0 * (w * w) <= 2 * gam * (w * w)) by (apply Rmult_le_compat_r; lra). lra. }
  apply (Rmult_le_compat_l h) in X4; [|lra]. assert (X5 : 2 * u * r1 + 4 * v * r2 + 2 * w * r3 + 2 * th * (v * r1 + u * r2) + Phi d1 d2 d3 <= 4 * (10 * K + 5 * (c * c)) * (1 + S)) by lra. apply (Rmult_le_compat_l (h * h)) in X5; [|nra]. lra.
Qed.
(** the second moments tend to (T, 0, T) *)
Lemma tri_limit (e : nat -> R) (D : nat -> tri) : (forall n, 0 < e n) -> vanishing e -> divergent e -> (forall n, D (S n) = hstep (e n) (D n)) ->
  vanishing (fun n => Rabs (t_u (D n) - T)) /\ vanishing (fun n => Rabs (t_v (D n))) /\ vanishing (fun n => Rabs (t_w (D n) - T)).
Proof using Hom Hgam HT.
  intros Hp Hv Hd HD. destruct Phi_step as (k0 & C & Hk & HC & St).
  assert (V : vanishing (fun n => Phi (t_u (D n) - T) (t_v (D n)) (t_w (D n) - T))).
  { destruct (Hv (Rmin 1 (Rmin (k0 / (2 * (C + 1))) (6 / k0)))) as [N HN]. { repeat apply Rmin_glb_lt; [lra| |]; apply Rdiv_lt_0_compat; lra. }
    apply (@contraction_limit _ (fun n => e n * (k0 / 6)) (fun n => e n * (C * (6 / k0))) N).
    - intros n Hn. specialize (HN n Hn). pose proof (Hp n) as Pe. pose proof (Rmin_l 1 (Rmin (k0 / (2 * (C + 1))) (6 / k0))) as M1. pose proof (Rmin_r 1 (Rmin (k0 / (2 * (C + 1))) (6 / k0))) as M2. pose proof (Rmin_l (k0 / (2 * (C + 1))) (6 / k0)) as M3. pose proof (Rmin_r (k0 / (2 * (C + 1))) (6 / k0)) as M4.
      assert (H1 : e n <= 1) by lra. assert (H2 : e n * (C + 1) <= k0 / 2). { assert (Q : e n <= k0 / (2 * (C + 1))) by lra. apply (Rmult_le_compat_r (C + 1)) in Q; [|lra]. replace (k0 / (2 * (C + 1)) * (C + 1)) with (k0 / 2) in Q by (field; lra). exact Q. }
      assert (H3 : e n * (k0 / 6) <= 1). { assert (Q : e n <= 6 / k0) by lra. apply (Rmult_le_compat_r (k0 / 6)) in Q; [|lra]. replace (6 / k0 * (k0 / 6)) with 1 in Q by (field; lra). exact Q. }
      split; [split; [apply Rmult_le_pos; lra|exact H3]|]. rewrite HD. set (u := t_u (D n) - T). set (v := t_v (D n)). set (w := t_w (D n) - T).
      replace (D n) with (Tri (T + u) v (T + w)) by (unfold u, v, w; destruct (D n) as [x y z]; cbn [t_u t_v t_w]; f_equal; ring).
      specialize (St (e n) u v w ltac:(lra)). cbv zeta in St. eapply Rle_trans; [exact St|]. destruct (Phi_bounds u v w) as [_ Pb]. set (S := u * u + v * v + w * w) in *. assert (PS : 0 <= S) by (unfold S; pose proof (Rle_0_sqr u); pose proof (Rle_0_sqr v); pose proof (Rle_0_sqr w); unfold Rsqr in *; lra).
      replace (e n * (k0 / 6) * (e n * (C * (6 / k0)))) with (e n * e n * C) by (field; lra).
      assert (Q1 : e n * (e n * C) * S <= e n * (k0 / 2) * S). { apply Rmult_le_compat_r; [exact PS|]. apply Rmult_le_compat_l; [lra|]. nra. }
      assert (Q2 : e n * (k0 / 6) * Phi u v w <= e n * (k0 / 6) * (3 * S)) by (apply Rmult_le_compat_l; [apply Rmult_le_pos; lra|exact Pb]). lra.
    - intros d Hd0. assert (P : 0 <= C * (6 / k0)) by (apply Rmult_le_pos; [lra|left; apply Rdiv_lt_0_compat; lra]). destruct (Hv (d / (1 + C * (6 / k0)))) as [N1 HN1]; [apply Rdiv_lt_0_compat; lra|]. exists N1. intros n Hn. specialize (HN1 n Hn).
      apply (Rmult_le_compat_r (1 + C * (6 / k0))) in HN1; [|lra]. replace (d / (1 + C * (6 / k0)) * (1 + C * (6 / k0))) with d in HN1 by (field; lra). pose proof (Hp n). lra.
    - intros A. destruct (Hd (A / (k0 / 6))) as [N1 HN1]. exists N1. intros n Hn. specialize (HN1 n Hn). rewrite (@sum_upto_ext n _ (fun i => (k0 / 6) * e i)) by (intros; ring). rewrite (@sum_upto_scale n (k0 / 6) e).
      apply (Rmult_le_compat_l (k0 / 6)) in HN1; [|lra]. replace (k0 / 6 * (A / (k0 / 6))) with A in HN1 by (field; lra). exact HN1. }
  assert (Each : forall x S d, 0 < d -> x * x <= S -> S / 2 <= d * d / 2 -> Rabs x <= d). { intros x S d Hd0 H1 H2. apply Rsqr_incr_0_var; [|lra]. rewrite <- Rsqr_abs. unfold Rsqr. lra. }
  assert (Sum : forall d, 0 < d -> exists N, forall n, (N <= n)%nat -> (t_u (D n) - T) * (t_u (D n) - T) + t_v (D n) * t_v (D n) + (t_w (D n) - T) * (t_w (D n) - T) <= d * d).
  { intros d Hd0. destruct (V (d * d / 2) ltac:(nra)) as [N HN]. exists N. intros n Hn. specialize (HN n Hn). destruct (Phi_bounds (t_u (D n) - T) (t_v (D n)) (t_w (D n) - T)) as [Pb _]. lra. }
  repeat split; intros d Hd0; destruct (Sum d Hd0) as [N HN]; exists N; intros n Hn; specialize (HN n Hn); pose proof (Rle_0_sqr (t_u (D n) - T)); pose proof (Rle_0_sqr (t_v (D n))); pose proof (Rle_0_sqr (t_w (D n) - T)); unfold Rsqr in *;
    (eapply Each; [exact Hd0| |apply (Rmult_le_compat_r (/ 2)); [lra|exact HN]]); lra.
Qed.
End Vanishing.

(** ** constant step size: geometric convergence to the fixed point *)
Section Constant.
(** cosine and sine of the rotation of one leapfrog step, decay a *)
Variables (c sn a : R).
Hypothesis Hcs : c * c + sn * sn = 1.
Hypothesis Hsn : sn <> 0.
Hypothesis Ha : 0 < a < 1.
(** auxiliary definition of a statement or a proof; models no code of /repo *)
Definition rho : R := 1 - sn * sn * ((1 - a * a) * (1 - a * a)).
Lemma rho_range : 0 <= rho < 1.
Proof using Hcs Hsn Ha.
  unfold rho. assert (P : 0 < sn * sn) by nra. assert (Q : sn * sn <= 1) by (pose proof (Rle_0_sqr c) as H; unfold Rsqr in H; lra). assert (A : 0 < 1 - a * a < 1) by nra. assert (B : 0 < (1 - a * a) * (1 - a * a) <= 1) by nra. nra.
Qed.
Lemma vector_contracts x y : (c * x + a * sn * y) * (c * x + a * sn * y) + (- (a * sn) * x + a * a * c * y) * (- (a * sn) * x + a * a * c * y) <= rho * (x * x + y * y).
Proof using Hcs Hsn Ha.
  assert (Ps : 0 < sn * sn) by nra. assert (Pa : 0 < 1 - a * a) by nra. assert (Pa2 : 0 < a * a) by nra. set (d := sn * sn * ((1 - a * a) * (1 - a * a))).
  set (A := sn * sn * (1 - a * a) * (a * a)). set (B := - (a * c * sn * (1 - a * a))). set (F := 1 - a * a * (sn * sn) - a * a * (a * a) * (c * c) - d).
  assert (PA : 0 < A) by (unfold A; apply Rmult_lt_0_compat; [apply Rmult_lt_0_compat; lra|lra]).
  assert (EF : rho * (x * x + y * y) - ((c * x + a * sn * y) * (c * x + a * sn * y) + (- (a * sn) * x + a * a * c * y) * (- (a * sn) * x + a * a * c * y)) = A * (x * x) + 2 * B * (x * y) + F * (y * y)).
  { unfold rho, A, B, F, d. replace (c * c) with (1 - sn * sn) by lra. replace ((c * x + a * sn * y) * (c * x + a * sn * y) + (- (a * sn) * x + a * a * c * y) * (- (a * sn) * x + a * a * c * y)) with ((c * c) * (x * x) + 2 * (c * sn) * a * (x * y) + a * a * (sn * sn) * (y * y) + (a * a * (sn * sn) * (x * x) - 2 * (c * sn) * a * a * a * (x * y) + a * a * (a * a) * (c * c) * (y * y))) by ring. replace (c * c) with (1 - sn * sn) by lra. ring. }
  assert (Det : A * F - B * B = d * (a * a * (a * a))).
  { unfold A, B, F, d. replace (c * c) with (1 - sn * sn) by lra. replace (- (a * c * sn * (1 - a * a)) * - (a * c * sn * (1 - a * a))) with (a * a * (c * c) * (sn * sn) * ((1 - a * a) * (1 - a * a))) by ring. replace (c * c) with (1 - sn * sn) by lra. ring. }
  assert (Pd : 0 <= d * (a * a * (a * a))) by (unfold d; apply Rmult_le_pos; [apply Rmult_le_pos; [lra|apply Rmult_le_pos; lra]|apply Rmult_le_pos; lra]).
  assert (N : 0 <= A * (A * (x * x) + 2 * B * (x * y) + F * (y * y))).
  { replace (A * (A * (x * x) + 2 * B * (x * y) + F * (y * y))) with ((A * x + B * y) * (A * x + B * y) + (A * F - B * B) * (y * y)) by ring. rewrite Det. apply Rplus_le_le_0_compat; [apply Rle_0_sqr|apply Rmult_le_pos; [exact Pd|apply Rle_0_sqr]]. }
  assert (N2 : 0 <= A * (x * x) + 2 * B * (x * y) + F * (y * y)) by (apply (Rmult_le_reg_l A); [exact PA|]; rewrite Rmult_0_r; exact N). lra.
Qed.
(** a symmetric matrix (U, V; V, W) becomes K (U, V; V, W) K^T with K = (c, a sn; - a sn, a^2 c) *)
Lemma matrix_contracts U V W :
  let U' := c * c * U + 2 * c * sn * a * V + sn * sn * (a * a) * W in
  let V' := a * (- (c * sn) * U + (c * c - sn * sn) * a * V + c * sn * (a * a) * W) in
  let W' := a * a * (sn * sn * U - 2 * c * sn * a * V + c * c * (a * a) * W) in
  U' * U' + 2 * (V' * V') + W' * W' <= rho * rho * (U * U + 2 * (V * V) + W * W).
Proof using Hcs Hsn Ha.
  intros U' V' W'. destruct rho_range as [R0 _].
  set (x11 := c * U + a * sn * V). set (x21 := - (a * sn) * U + a * a * c * V). set (x12 := c * V + a * sn * W). set (x22 := - (a * sn) * V + a * a * c * W).
  pose proof (vector_contracts U V) as C1. pose proof (vector_contracts V W) as C2. fold x11 x21 in C1. fold x12 x22 in C2.
  pose proof (vector_contracts x11 x12) as C3. pose proof (vector_contracts x21 x22) as C4.
  replace (c * x11 + a * sn * x12) with U' in C3 by (unfold U', x11, x12; ring). replace (- (a * sn) * x11 + a * a * c * x12) with V' in C3 by (unfold V', x11, x12; ring).
  replace (c * x21 + a * sn * x22) with V' in C4 by (unfold V', x21, x22; ring). replace (- (a * sn) * x21 + a * a * c * x22) with W' in C4 by (unfold W', x21, x22; ring).
  assert (X : rho * (x11 * x11 + x12 * x12 + (x21 * x21 + x22 * x22)) <= rho * (rho * (U * U + V * V + (V * V + W * W)))) by (apply Rmult_le_compat_l; lra). lra.
Qed.
End Constant.

Section Fixed.
Variables (k a T : R).
Hypothesis Hk : 0 < k < 1.
Hypothesis Ha : 0 < a < 1.
Notation eta := (1 - k * k).
Notation step := (tri_step k a ((1 - a * a) * T)).
(** the fixed point *)
(** auxiliary definition of a statement or a proof; models no code of /repo *)
Definition fixed : tri := Tri (T / eta) 0 T.
Lemma fixed_ok : step fixed = fixed.
Proof using Hk Ha. assert (eta <> 0) by nra. unfold fixed, tri_step, tri_O, tri_B, tri_A. cbn [t_u t_v t_w]. f_equal; field; exact H. Qed.
(** auxiliary definition of a statement or a proof; models no code of /repo *)
Definition dist2 (D : tri) : R := eta * (t_u D - T / eta) * (eta * (t_u D - T / eta)) + 2 * (eta * (t_v D * t_v D)) + (t_w D - T) * (t_w D - T).
(** auxiliary definition of a statement or a proof; models no code of /repo *)
Definition rate : R := 1 - 4 * (k * k) * eta * ((1 - a * a) * (1 - a * a)).
Lemma dist2_step D : 0 <= rate < 1 /\ dist2 (step D) <= rate * rate * dist2 D.
Proof using Hk Ha.
  assert (He : 0 < eta < 1) by nra. set (g := sqrt eta). assert (Hg : g * g = eta) by (apply sqrt_sqrt; lra). assert (Pg : 0 < g) by (apply sqrt_lt_R0; lra).
  set (c := 1 - 2 * (k * k)). set (sn := 2 * k * g).
  assert (Hcs : c * c + sn * sn = 1) by (unfold c, sn; replace (2 * k * g * (2 * k * g)) with (4 * (k * k) * (g * g)) by ring; rewrite Hg; ring).
  assert (Hsn : sn <> 0) by (unfold sn; assert (0 < 2 * k * g) by (apply Rmult_lt_0_compat; lra); lra).
  assert (Er : rate = rho sn a) by (unfold rate, rho, sn; replace (2 * k * g * (2 * k * g)) with (4 * (k * k) * (g * g)) by ring; rewrite Hg; ring).
  rewrite Er. split; [exact (rho_range Hcs Hsn Ha)|].
  set (U := eta * (t_u D - T / eta)). set (V := g * t_v D). set (W := t_w D - T).
  pose proof (matrix_contracts Hcs Hsn Ha U V W) as H. cbv zeta in H.
  assert (Dv : dist2 D = U * U + 2 * (V * V) + W * W). { unfold dist2, U, V, W. replace (g * t_v D * (g * t_v D)) with (g * g * (t_v D * t_v D)) by ring. rewrite Hg. ring. }
  assert (Du : t_u D = (U + T) / eta) by (unfold U; field; lra). assert (Dw : t_w D = W + T) by (unfold W; ring). assert (Dvv : t_v D = V / g) by (unfold V; field; lra).
  rewrite Dv. eapply Rle_trans; [|exact H]. right. unfold dist2.
  assert (E1 : eta * (t_u (step D) - T / eta) = c * c * U + 2 * c * sn * a * V + sn * sn * (a * a) * W).
  { unfold tri_step, tri_O, tri_B, tri_A. cbn [t_u t_v t_w]. rewrite Du, Dw, Dvv. unfold c, sn. replace (2 * (1 - 2 * (k * k)) * (2 * k * g) * a * V) with (4 * (1 - 2 * (k * k)) * k * (g * g) * a * (V / g)) by (field; lra). replace (2 * k * g * (2 * k * g)) with (4 * (k * k) * (g * g)) by ring. rewrite Hg. field. split; lra. }
  assert (E2 : g * t_v (step D) = a * (- (c * sn) * U + (c * c - sn * sn) * a * V + c * sn * (a * a) * W)).
  { unfold tri_step, tri_O, tri_B, tri_A. cbn [t_u t_v t_w]. rewrite Du, Dw, Dvv. unfold c, sn. replace ((1 - 2 * (k * k)) * (1 - 2 * (k * k)) - 2 * k * g * (2 * k * g)) with ((1 - 2 * (k * k)) * (1 - 2 * (k * k)) - 4 * (k * k) * (g * g)) by ring. rewrite Hg. field. split; lra. }
  assert (E3 : t_w (step D) - T = a * a * (sn * sn * U - 2 * c * sn * a * V + c * c * (a * a) * W)).
  { unfold tri_step, tri_O, tri_B, tri_A. cbn [t_u t_v t_w]. rewrite Du, Dw, Dvv. unfold c, sn. replace (2 * (1 - 2 * (k * k)) * (2 * k * g) * a * V) with (4 * (1 - 2 * (k * k)) * k * (g * g) * a * (V / g)) by (field; lra). replace (2 * k * g * (2 * k * g)) with (4 * (k * k) * (g * g)) by ring. rewrite Hg. field. split; lra. }
  rewrite <- E1, <- E3. rewrite <- Hg. replace (2 * (g * g * (t_v (step D) * t_v (step D)))) with (2 * (g * t_v (step D) * (g * t_v (step D)))) by ring. rewrite E2. reflexivity.
Qed.
Lemma constant_limit (D : nat -> tri) : (forall n, D (S n) = step (D n)) -> forall d, 0 < d -> exists N, forall n, (N <= n)%nat ->
  Rabs (t_u (D n) - T / eta) <= d /\ Rabs (t_v (D n)) <= d /\ Rabs (t_w (D n) - T) <= d.
Proof using Hk Ha.
  intros HD d Hd. assert (He : 0 < eta < 1) by nra. assert (Rr : 0 <= rate < 1) by apply (dist2_step (D 0%nat)).
  assert (B : forall n, dist2 (D n) <= (rate * rate) ^ n * dist2 (D 0%nat)).
  { induction n as [|n IH]; [cbn; lra|]. rewrite HD. destruct (dist2_step (D n)) as [_ H]. cbn [pow]. eapply Rle_trans; [exact H|]. replace (rate * rate * (rate * rate) ^ n * dist2 (D 0%nat)) with (rate * rate * ((rate * rate) ^ n * dist2 (D 0%nat))) by ring. apply Rmult_le_compat_l; [nra|exact IH]. }
  assert (P0 : forall D, 0 <= dist2 D). { intros E. unfold dist2. pose proof (Rle_0_sqr (eta * (t_u E - T / eta))). pose proof (Rle_0_sqr (t_v E)). pose proof (Rle_0_sqr (t_w E - T)). unfold Rsqr in *. assert (0 <= eta * (t_v E * t_v E)) by (apply Rmult_le_pos; lra). lra. }
  assert (Hq : Rabs (rate * rate) < 1) by (rewrite Rabs_right by nra; nra). set (e := eta * d * (eta * d)). assert (Pe : 0 < e) by (unfold e; assert (0 < eta * d) by nra; nra).
  destruct (pow_lt_1_zero _ Hq (e / (1 + dist2 (D 0%nat)))) as [N HN]; [apply Rdiv_lt_0_compat; [exact Pe|specialize (P0 (D 0%nat)); lra]|].
  exists N. intros n Hn. specialize (HN n Hn). specialize (B n). pose proof (P0 (D 0%nat)) as Q0. pose proof (Rle_abs ((rate * rate) ^ n)) as Ab.
  assert (Bn : dist2 (D n) <= e). { eapply Rle_trans; [exact B|]. apply Rle_trans with (e / (1 + dist2 (D 0%nat)) * (1 + dist2 (D 0%nat))); [|right; field; lra]. apply Rle_trans with (e / (1 + dist2 (D 0%nat)) * dist2 (D 0%nat)); [apply Rmult_le_compat_r; lra|]. apply Rmult_le_compat_l; [|lra]. left. apply Rdiv_lt_0_compat; lra. }
  unfold dist2, e in Bn. set (u := t_u (D n) - T / eta) in *. set (v := t_v (D n)) in *. set (w := t_w (D n) - T) in *.
  pose proof (Rle_0_sqr (eta * u)) as Su. pose proof (Rle_0_sqr v) as Sv. pose proof (Rle_0_sqr w) as Sw. unfold Rsqr in *. assert (Sv2 : 0 <= eta * (v * v)) by (apply Rmult_le_pos; lra).
  assert (Abs : forall x, x * x <= d * d -> Rabs x <= d) by (intros x Hx; apply Rsqr_incr_0_var; [|lra]; rewrite <- Rsqr_abs; exact Hx).
  assert (E2 : eta * eta <= eta) by nra. assert (E1 : 0 < eta * eta) by nra. assert (Pd : 0 < d * d) by nra.
  split; [|split]; apply Abs.
  - apply (Rmult_le_reg_l (eta * eta)); [exact E1|]. lra.
  - apply (Rmult_le_reg_l eta); [lra|]. assert (eta * eta * (d * d) <= eta * (d * d)) by (apply Rmult_le_compat_r; lra). lra.
  - assert (eta * eta * (d * d) <= 1 * (d * d)) by (apply Rmult_le_compat_r; lra). lra.
Qed.
End Fixed.

(** ** second moments of the linear recursion with uncorrelated noise *)
Section Noise.
Variables (W : Type) (E : (W -> R) -> R) (z : nat -> W -> R) (N : nat).
Hypothesis HE : expectation E.
Hypothesis H1 : E (fun _ => 1) = 1.
Hypothesis Hm : forall t, (t < N)%nat -> E (z t) = 0.
Hypothesis Hc : forall t u, (t < N)%nat -> (u < N)%nat -> E (fun w => z t w * z u w) = if (t =? u)%nat then 1 else 0.
(** a combination of the first n noises *)
(** auxiliary definition of a statement or a proof; models no code of /repo *)
Definition lin (n : nat) (X : W -> R) : Prop := exists c0 c, forall w, X w = comb z c0 c n w.
Lemma lin_const n c : lin n (fun _ => c).
Proof using Type. clear - W. exists c, (fun _ => 0). intros w. unfold comb. rewrite sum_upto_zero by (intros; ring). ring. Qed.
Lemma lin_comb n X Y x y : lin n X -> lin n Y -> lin n (fun w => x * X w + y * Y w).
Proof using Type.
  intros (c0 & c & HX) (d0 & d & HY). exists (x * c0 + y * d0), (fun t => x * c t + y * d t). intros w. rewrite HX, HY. unfold comb.
  rewrite (@sum_upto_ext n (fun t => (x * c t + y * d t) * z t w) (fun t => x * (c t * z t w) + y * (d t * z t w))) by (intros; ring).
  rewrite (@sum_upto_plus n (fun t => x * (c t * z t w)) (fun t => y * (d t * z t w))), (@sum_upto_scale n x (fun t => c t * z t w)), (@sum_upto_scale n y (fun t => d t * z t w)). ring.
Qed.
Lemma lin_z n X x y : lin n X -> lin (S n) (fun w => x * X w + y * z n w).
Proof using Type.
  clear - W. intros (c0 & c & HX). exists (x * c0), (fun t => if (t =? n)%nat then y else x * c t). intros w. rewrite HX. unfold comb. rewrite sum_upto_S, Nat.eqb_refl.
  rewrite (@sum_upto_ext n (fun t => (if (t =? n)%nat then y else x * c t) * z t w) (fun t => x * (c t * z t w))) by (intros t Ht; destruct (Nat.eqb_spec t n); [lia|ring]). rewrite (@sum_upto_scale n x (fun t => c t * z t w)). ring.
Qed.
Lemma lin_up n X : lin n X -> lin (S n) X.
Proof using Type. intros H. destruct (@lin_z n X 1 0 H) as (c0 & c & HX). exists c0, c. intros w. rewrite <- HX. ring. Qed.
Lemma lin_ext n X Y : (forall w, X w = Y w) -> lin n X -> lin n Y.
Proof using Type. intros H (c0 & c & HX). exists c0, c. intros w. now rewrite <- H. Qed.
Lemma lin_orth n X : lin n X -> (n < N)%nat -> E (fun w => X w * z n w) = 0.
Proof using HE H1 Hm Hc. intros (c0 & c & HX) Hn. rewrite (proj1 HE _ (fun w => comb z c0 c n w * z n w)) by (intros w; now rewrite HX). apply (@E_comb_z W E z N HE H1 Hm Hc); auto. Qed.

(** auxiliary definition of a statement or a proof; models no code of /repo *)
Definition moments2 (Y Q : W -> R) : tri := Tri (E (fun w => Y w * Y w)) (E (fun w => Y w * Q w)) (E (fun w => Q w * Q w)).
(** auxiliary definition of a statement or a proof; models no code of /repo *)
Definition means2 (Y Q : W -> R) : tri := Tri (E Y * E Y) (E Y * E Q) (E Q * E Q).
Lemma E_lin2 X Y x y : E (fun w => x * X w + y * Y w) = x * E X + y * E Y.
Proof using HE. destruct HE as (_ & P & S). rewrite (P (fun w => x * X w) (fun w => y * Y w)), S, S. reflexivity. Qed.
Lemma E_quad X Y X' Y' x y x' y' : E (fun w => (x * X w + y * Y w) * (x' * X' w + y' * Y' w)) = x * x' * E (fun w => X w * X' w) + x * y' * E (fun w => X w * Y' w) + y * x' * E (fun w => Y w * X' w) + y * y' * E (fun w => Y w * Y' w).
Proof using HE.
  destruct HE as (X0 & P & S). rewrite (X0 _ (fun w => (fun w => (x * x') * (X w * X' w) + (x * y') * (X w * Y' w)) w + (fun w => (y * x') * (Y w * X' w) + (y * y') * (Y w * Y' w)) w)) by (intros; ring).
  rewrite P, (P (fun w => x * x' * (X w * X' w)) (fun w => x * y' * (X w * Y' w))), (P (fun w => y * x' * (Y w * X' w)) (fun w => y * y' * (Y w * Y' w))), !S. ring.
Qed.
Lemma E_comm X Y : E (fun w => X w * Y w) = E (fun w => Y w * X w).
Proof using HE. apply (proj1 HE). intros; ring. Qed.
(** refreshment of the momentum *)
Lemma moments_O n Y Q a b : lin n Y -> lin n Q -> (n < N)%nat -> moments2 Y (fun w => a * Q w + b * z n w) = tri_O a (b * b) (moments2 Y Q) /\ means2 Y (fun w => a * Q w + b * z n w) = tri_O a 0 (means2 Y Q).
Proof using HE H1 Hm Hc.
  intros HY HQ Hn. pose proof (lin_orth HY Hn) as OY. pose proof (lin_orth HQ Hn) as OQ. pose proof (Hc Hn Hn) as ZZ. rewrite Nat.eqb_refl in ZZ. unfold moments2, means2, tri_O. cbn [t_u t_v t_w]. split; f_equal.
  - rewrite (proj1 HE _ (fun w => (1 * Y w + 0 * Y w) * (a * Q w + b * z n w))) by (intros; ring). rewrite E_quad, OY. ring.
  - rewrite E_quad, OQ, (E_comm (z n) Q), OQ, ZZ. ring.
  - rewrite E_lin2, Hm by exact Hn. ring.
  - rewrite E_lin2, Hm by exact Hn. ring.
Qed.
Lemma moments_B Y Q k : moments2 Y (fun w => 1 * Q w + - k * Y w) = tri_B k (moments2 Y Q) /\ means2 Y (fun w => 1 * Q w + - k * Y w) = tri_B k (means2 Y Q).
Proof using HE.
  unfold moments2, means2, tri_B. cbn [t_u t_v t_w]. split; f_equal.
  - rewrite (proj1 HE _ (fun w => (1 * Y w + 0 * Y w) * (1 * Q w + - k * Y w))) by (intros; ring). rewrite E_quad. ring.
  - rewrite E_quad, (E_comm Q Y). ring.
  - rewrite E_lin2. ring.
  - rewrite E_lin2. ring.
Qed.
Lemma moments_A Y Q k : moments2 (fun w => 1 * Y w + 2 * k * Q w) Q = tri_A k (moments2 Y Q) /\ means2 (fun w => 1 * Y w + 2 * k * Q w) Q = tri_A k (means2 Y Q).
Proof using HE.
  unfold moments2, means2, tri_A. cbn [t_u t_v t_w]. split; f_equal.
  - rewrite E_quad, (E_comm Q Y). ring.
  - rewrite (proj1 HE _ (fun w => (1 * Y w + 2 * k * Q w) * (1 * Q w + 0 * Q w))) by (intros; ring). rewrite E_quad. ring.
  - rewrite E_lin2. ring.
  - rewrite E_lin2. ring.
Qed.
Lemma tri_ext Y Y' Q Q' : (forall w, Y w = Y' w) -> (forall w, Q w = Q' w) -> moments2 Y Q = moments2 Y' Q' /\ means2 Y Q = means2 Y' Q'.
Proof using HE.
  intros HY HQ. destruct HE as (X & _). unfold moments2, means2. rewrite (X Y Y' HY), (X Q Q' HQ). rewrite (X (fun w => Y w * Y w) (fun w => Y' w * Y' w)), (X (fun w => Y w * Q w) (fun w => Y' w * Q' w)), (X (fun w => Q w * Q w) (fun w => Q' w * Q' w)) by (intros; now rewrite ?HY, ?HQ). auto.
Qed.
(** one whole step *)
Lemma moments_step n Y Q Y' Q' k a b : lin n Y -> lin n Q -> (S n < N)%nat ->
  (forall w, exists q1 q2 q3, q1 = a * Q w + b * z n w /\ q2 = q1 - k * Y w /\ Y' w = Y w + 2 * k * q2 /\ q3 = q2 - k * Y' w /\ Q' w = a * q3 + b * z (S n) w) ->
  lin (S (S n)) Y' /\ lin (S (S n)) Q' /\ moments2 Y' Q' = tri_step k a (b * b) (moments2 Y Q) /\ means2 Y' Q' = tri_step k a 0 (means2 Y Q).
Proof using HE H1 Hm Hc.
  intros HY HQ Hn St. set (Q1 := fun w => a * Q w + b * z n w). set (Q2 := fun w => 1 * Q1 w + - k * Y w). set (Y1 := fun w => 1 * Y w + 2 * k * Q2 w). set (Q3 := fun w => 1 * Q2 w + - k * Y1 w).
  assert (LQ1 : lin (S n) Q1) by (now apply lin_z). assert (LY : lin (S n) Y) by (now apply lin_up). assert (LQ2 : lin (S n) Q2) by (now apply lin_comb). assert (LY1 : lin (S n) Y1) by (now apply lin_comb). assert (LQ3 : lin (S n) Q3) by (now apply lin_comb).
  assert (EY : forall w, Y1 w = Y' w) by (intros w; destruct (St w) as (q1 & q2 & q3 & -> & -> & -> & _); unfold Y1, Q2, Q1; ring).
  assert (EQ : forall w, a * Q3 w + b * z (S n) w = Q' w) by (intros w; destruct (St w) as (q1 & q2 & q3 & -> & -> & EY' & -> & ->); rewrite <- EY; unfold Q3, Y1, Q2, Q1; ring).
  split; [eapply lin_ext; [exact EY|apply lin_up, LY1]|]. split; [eapply lin_ext; [exact EQ|apply lin_z, LQ3]|].
  destruct (@tri_ext Y1 Y' (fun w => a * Q3 w + b * z (S n) w) Q' EY EQ) as [X1 X2]. destruct (@moments_O (S n) Y1 Q3 a b LY1 LQ3 Hn) as [A1 A2]. destruct (@moments_B Y1 Q2 k) as [B1 B2]. destruct (@moments_A Y Q2 k) as [C1 C2]. destruct (@moments_B Y Q1 k) as [D1 D2]. destruct (@moments_O n Y Q a b HY HQ ltac:(lia)) as [F1 F2].
  fold Q3 in B1, B2. fold Y1 in C1, C2. fold Q2 in D1, D2. fold Q1 in F1, F2. unfold tri_step. rewrite <- F1, <- D1, <- C1, <- B1, <- A1, X1. rewrite <- F2, <- D2, <- C2, <- B2, <- A2, X2. auto.
Qed.
End Noise.
