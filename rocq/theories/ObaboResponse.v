(** Proofs for C97: sums of the scaled positions of OBABO with nonincreasing step sizes between two positive bounds.  Models no code of /repo. *)
From Coq Require Import Reals Lra Lia Psatz.
From Verif Require Import Base ListUtil TreeUtilSpec TreeUtilProofs ExpectSpec GaussianLimit GaussianMatrix RiemannProofs SghmcGaussian ObaboGaussian ObaboAverageVary.
Open Scope R_scope.
Set Implicit Arguments.

(** one inner step without noise *)
(** auxiliary definition of a statement or a proof; models no code of /repo *)
Definition quiet (k a : R) (v : R * R) : R * R :=
  let q2 := a * snd v - k * fst v in let y := fst v + 2 * k * q2 in (y, a * (q2 - k * y)).
Lemma quiet_contracts k a v : 0 < k < 1 -> 0 < a < 1 -> let eta := 1 - k * k in let v' := quiet k a v in
  eta * (fst v' * fst v') + snd v' * snd v' <= rate k a * (eta * (fst v * fst v) + snd v * snd v).
Proof.
  intros Hk Ha. cbv zeta. destruct v as [y q]. unfold quiet. cbn [fst snd].
  assert (He : 0 < 1 - k * k < 1) by nra. set (eta := 1 - k * k) in *. set (g := sqrt eta). assert (Hg : g * g = eta) by (apply sqrt_sqrt; lra). assert (Pg : 0 < g) by (apply sqrt_lt_R0; lra).
  set (c := 1 - 2 * (k * k)). set (sn := 2 * k * g).
  assert (Hcs : c * c + sn * sn = 1) by (unfold c, sn; replace (2 * k * g * (2 * k * g)) with (4 * (k * k) * (g * g)) by ring; rewrite Hg; unfold eta; ring).
  assert (Hsn : sn <> 0) by (unfold sn; assert (0 < 2 * k * g) by (apply Rmult_lt_0_compat; lra); lra).
  assert (Er : rate k a = rho sn a) by (unfold rate, rho, sn; fold eta; replace (2 * k * g * (2 * k * g)) with (4 * (k * k) * (g * g)) by ring; rewrite Hg; ring).
  rewrite Er. pose proof (vector_contracts Hcs Hsn Ha (g * y) q) as H.
  replace (g * y * (g * y)) with (eta * (y * y)) in H by (rewrite <- Hg; ring). eapply Rle_trans; [|exact H]. right.
  assert (E1 : c * (g * y) + a * sn * q = g * (y + 2 * k * (a * q - k * y))) by (unfold c, sn; ring).
  assert (E2 : - (a * sn) * (g * y) + a * a * c * q = a * (a * q - k * y - k * (y + 2 * k * (a * q - k * y)))).
  { unfold c, sn. replace (- (a * (2 * k * g)) * (g * y)) with (- (2 * a * k * y) * (g * g)) by ring. rewrite Hg. unfold eta. ring. }
  rewrite E1, E2, <- Hg. ring.
Qed.
Lemma quiet_plus k a u v : quiet k a (fst u + fst v, snd u + snd v) = (fst (quiet k a u) + fst (quiet k a v), snd (quiet k a u) + snd (quiet k a v)).
Proof. unfold quiet. cbn [fst snd]. f_equal; ring. Qed.
Lemma quiet_scale k a c v : quiet k a (c * fst v, c * snd v) = (c * fst (quiet k a v), c * snd (quiet k a v)).
Proof. unfold quiet. cbn [fst snd]. f_equal; ring. Qed.

Section Response.
Variables k a b : nat -> R.
Variables (kmin kmax amin amax bmax : R).
Hypothesis Hk : forall t, 0 < kmin <= k t /\ k t <= kmax < 1.
Hypothesis Hd : forall t, k (S t) <= k t.
Hypothesis Ha : forall t, 0 < amin <= a t /\ a t <= amax < 1.
Hypothesis Hb : forall t, 0 <= b t * b t <= bmax.
Notation eta := (fun t => 1 - k t * k t).
(** auxiliary definition of a statement or a proof; models no code of /repo *)
Definition decay : R := 1 - 4 * (kmin * kmin) * (1 - kmax * kmax) * ((1 - amax * amax) * (1 - amax * amax)).
Lemma eta_range t : 1 - kmax * kmax <= eta t < 1 /\ 0 < 1 - kmax * kmax.
Proof. destruct (Hk t). split; [split|]; nra. Qed.
Lemma eta_up t : eta t <= eta (S t).
Proof. pose proof (Hd t). destruct (Hk t), (Hk (S t)). nra. Qed.
Lemma rate_decay t : 0 <= rate (k t) (a t) <= decay /\ 0 <= decay < 1.
Proof.
  destruct (Hk t) as [K1 K2], (Ha t) as [A1 A2]. assert (Ka : 0 < k t < 1) by lra. assert (Aa : 0 < a t < 1) by lra.
  destruct (dist2_step 0 Ka Aa (Tri 0 0 0)) as [R0 _].
  destruct (eta_range t) as [[E1 E2] E3]. cbv beta in *. unfold decay, rate in *.
  assert (P1 : 0 < 1 - amax * amax) by nra. assert (P2 : 1 - amax * amax <= 1 - a t * a t) by nra.
  assert (P3 : (1 - amax * amax) * (1 - amax * amax) <= (1 - a t * a t) * (1 - a t * a t)) by (apply Rmult_le_compat; lra).
  assert (P4 : kmin * kmin <= k t * k t) by (apply Rmult_le_compat; lra). assert (P5 : 0 < kmin * kmin) by (apply Rmult_lt_0_compat; lra).
  assert (P6 : 4 * (kmin * kmin) * (1 - kmax * kmax) <= 4 * (k t * k t) * (1 - k t * k t)) by (apply Rmult_le_compat; lra).
  assert (P7 : 4 * (kmin * kmin) * (1 - kmax * kmax) * ((1 - amax * amax) * (1 - amax * amax)) <= 4 * (k t * k t) * (1 - k t * k t) * ((1 - a t * a t) * (1 - a t * a t))).
  { apply Rmult_le_compat; [apply Rmult_le_pos; lra|apply Rmult_le_pos; lra|exact P6|exact P3]. }
  assert (P8 : 0 < 4 * (kmin * kmin) * (1 - kmax * kmax) * ((1 - amax * amax) * (1 - amax * amax))) by (apply Rmult_lt_0_compat; apply Rmult_lt_0_compat; lra).
  lra.
Qed.
(** size of a pair before step t *)
(** auxiliary definition of a statement or a proof; models no code of /repo *)
Definition size2 (t : nat) (v : R * R) : R := fst v * fst v + snd v * snd v / eta t.
Lemma size2_nonneg t v : 0 <= size2 t v.
Proof. unfold size2. destruct (eta_range t) as [[E1 E2] E3]. cbv beta in *. pose proof (Rle_0_sqr (fst v)) as Q1. pose proof (Rle_0_sqr (snd v)) as Q2. unfold Rsqr in *. apply Rplus_le_le_0_compat; [exact Q1|]. apply Rmult_le_pos; [exact Q2|left; apply Rinv_0_lt_compat; lra]. Qed.
Lemma size2_step t v : size2 (S t) (quiet (k t) (a t) v) <= decay * size2 t v.
Proof.
  destruct (Hk t) as [K1 K2], (Ha t) as [A1 A2]. pose proof (@quiet_contracts (k t) (a t) v ltac:(lra) ltac:(lra)) as Q. cbv zeta in Q. set (v' := quiet (k t) (a t) v) in *.
  destruct (eta_range t) as [[E1 E2] E3], (eta_range (S t)) as [[E4 E5] _]. pose proof (eta_up t) as Eu. cbv beta in *. destruct (rate_decay t) as [[R1 R2] R3].
  assert (Pv : 0 <= snd v' * snd v') by apply Rle_0_sqr.
  apply Rle_trans with (fst v' * fst v' + snd v' * snd v' / (1 - k t * k t)).
  - unfold size2. apply Rplus_le_compat_l. unfold Rdiv. apply Rmult_le_compat_l; [exact Pv|]. apply Rinv_le_contravar; lra.
  - apply Rle_trans with (rate (k t) (a t) * size2 t v); [|apply Rmult_le_compat_r; [apply size2_nonneg|exact R2]].
    unfold size2. apply (Rmult_le_reg_l (1 - k t * k t)); [lra|].
    replace ((1 - k t * k t) * (fst v' * fst v' + snd v' * snd v' / (1 - k t * k t))) with ((1 - k t * k t) * (fst v' * fst v') + snd v' * snd v') by (field; lra).
    replace ((1 - k t * k t) * (rate (k t) (a t) * (fst v * fst v + snd v * snd v / (1 - k t * k t)))) with (rate (k t) (a t) * ((1 - k t * k t) * (fst v * fst v) + snd v * snd v)) by (field; lra). exact Q.
Qed.
(** the pair before step t that comes from the pair v0 at the start *)
(** auxiliary definition of a statement or a proof; models no code of /repo *)
Fixpoint from_start (v0 : R * R) (t : nat) : R * R := match t with O => v0 | S t' => quiet (k t') (a t') (from_start v0 t') end.
(** the coefficient of noise j in the pair before step t *)
(** auxiliary definition of a statement or a proof; models no code of /repo *)
Fixpoint response (t j : nat) : R * R := match t with O => (0, 0) | S t' =>
  if (j =? 2 * t')%nat then quiet (k t') (a t') (0, b t' / a t') else if (j =? S (2 * t'))%nat then (0, b t') else quiet (k t') (a t') (response t' j) end.
(** auxiliary definition of a statement or a proof; models no code of /repo *)
Definition top : R := bmax / (amin * amin * (1 - kmax * kmax)).
Lemma amin_lt : 0 < amin < 1 /\ 0 < 1 - kmax * kmax /\ 0 <= bmax.
Proof. destruct (Ha 0%nat), (Hb 0%nat). destruct (eta_range 0) as [_ E]. lra. Qed.
Lemma top_nonneg : 0 <= top.
Proof. destruct amin_lt as ([A1 A2] & A3 & A4). unfold top. apply Rmult_le_pos; [exact A4|]. left. apply Rinv_0_lt_compat. apply Rmult_lt_0_compat; [apply Rmult_lt_0_compat|]; lra. Qed.
Lemma source_size t q : q * q <= bmax / (amin * amin) -> size2 t (0, q) <= top.
Proof.
  intros Hq. destruct amin_lt as ([A1 A2] & A3 & A4). destruct (eta_range t) as [[E1 E2] _]. cbv beta in *. unfold size2. cbn [fst snd]. rewrite Rmult_0_l, Rplus_0_l. pose proof (Rle_0_sqr q) as Q. unfold Rsqr in Q.
  replace top with (bmax / (amin * amin) / (1 - kmax * kmax)) by (unfold top; field; split; lra).
  unfold Rdiv at 1 2. apply Rmult_le_compat; [exact Q|left; apply Rinv_0_lt_compat; lra|exact Hq|apply Rinv_le_contravar; lra].
Qed.
Lemma response_late t j : (2 * t <= j)%nat -> response t j = (0, 0).
Proof.
  induction t as [|t IH]; intros Hj; [reflexivity|]. cbn [response]. destruct (Nat.eqb_spec j (2 * t)); [lia|]. destruct (Nat.eqb_spec j (S (2 * t))); [lia|]. rewrite IH by lia. unfold quiet. cbn [fst snd]. f_equal; ring.
Qed.
Lemma response_size t j : (j < 2 * t)%nat -> size2 t (response t j) <= top * decay ^ (t - 1 - j / 2).
Proof.
  destruct amin_lt as ([A1 A2] & A3 & A4). pose proof top_nonneg as Tp. assert (B1 : bmax <= bmax / (amin * amin)).
  { unfold Rdiv. rewrite <- (Rmult_1_r bmax) at 1. apply Rmult_le_compat_l; [exact A4|]. rewrite <- Rinv_1 at 1. apply Rinv_le_contravar; nra. }
  induction t as [|t IH]; intros Hj; [lia|]. cbn [response]. destruct (rate_decay t) as [_ [D1 D2]].
  destruct (Nat.eqb_spec j (2 * t)) as [-> | N1].
  - replace (S t - 1 - 2 * t / 2)%nat with 0%nat by (rewrite (Nat.mul_comm 2 t), Nat.div_mul by lia; lia). cbn [pow]. rewrite Rmult_1_r.
    eapply Rle_trans; [apply size2_step|]. assert (S0 : size2 t (0, b t / a t) <= top).
    { apply source_size. destruct (Ha t), (Hb t). replace (b t / a t * (b t / a t)) with (b t * b t * / (a t * a t)) by (field; lra). apply Rmult_le_compat; [lra|left; apply Rinv_0_lt_compat; nra|lra|apply Rinv_le_contravar; nra]. }
    pose proof (size2_nonneg t (0, b t / a t)). apply Rle_trans with (1 * top); [apply Rmult_le_compat; lra|lra].
  - destruct (Nat.eqb_spec j (S (2 * t))) as [-> | N2].
    + replace (S t - 1 - S (2 * t) / 2)%nat with 0%nat by (replace (S (2 * t) / 2)%nat with t by (apply (Nat.div_unique (S (2 * t)) 2 t 1); lia); lia). cbn [pow]. rewrite Rmult_1_r. apply source_size. destruct (Hb t). lra.
    + assert (Hj' : (j < 2 * t)%nat) by lia. specialize (IH Hj'). assert (J2 : (j / 2 < t)%nat) by (apply Nat.div_lt_upper_bound; lia).
      replace (S t - 1 - j / 2)%nat with (S (t - 1 - j / 2)) by lia. cbn [pow]. eapply Rle_trans; [apply size2_step|].
      replace (top * (decay * decay ^ (t - 1 - j / 2))) with (decay * (top * decay ^ (t - 1 - j / 2))) by ring. apply Rmult_le_compat_l; [lra|exact IH].
Qed.
Lemma start_size v0 t : size2 t (from_start v0 t) <= size2 0 v0 * decay ^ t.
Proof.
  induction t as [|t IH]; [cbn [from_start pow]; lra|]. cbn [from_start pow]. destruct (rate_decay t) as [_ D]. eapply Rle_trans; [apply size2_step|].
  replace (size2 0 v0 * (decay * decay ^ t)) with (decay * (size2 0 v0 * decay ^ t)) by ring. apply Rmult_le_compat_l; [lra|exact IH].
Qed.
(** the geometric factor of a coordinate *)
(** auxiliary definition of a statement or a proof; models no code of /repo *)
Definition root : R := sqrt decay.
Lemma root_range : 0 <= root < 1 /\ root * root = decay.
Proof. destruct (rate_decay 0) as [_ [D1 D2]]. unfold root. split; [split; [apply sqrt_pos|]|apply sqrt_sqrt; exact D1]. rewrite <- sqrt_1. apply sqrt_lt_1_alt. lra. Qed.
Lemma root_pow n : root ^ n * root ^ n = decay ^ n.
Proof. destruct root_range as [_ R]. rewrite <- Rpow_mult_distr, R. reflexivity. Qed.
Lemma abs_of_square x c n : 0 <= c -> x * x <= c * decay ^ n -> Rabs x <= sqrt c * root ^ n.
Proof.
  intros Hc0 H. destruct root_range as [[R1 R2] _]. assert (P : 0 <= root ^ n) by (apply pow_le; lra). pose proof (sqrt_pos c) as Q. apply Rsqr_incr_0_var; [|now apply Rmult_le_pos]. rewrite <- Rsqr_abs. unfold Rsqr.
  replace (sqrt c * root ^ n * (sqrt c * root ^ n)) with (sqrt c * sqrt c * (root ^ n * root ^ n)) by ring. rewrite root_pow, sqrt_sqrt by exact Hc0. exact H.
Qed.
Lemma fst_size t v : fst v * fst v <= size2 t v.
Proof. unfold size2. destruct (eta_range t) as [[E1 E2] E3]. cbv beta in *. assert (0 <= snd v * snd v / (1 - k t * k t)); [|lra]. apply Rmult_le_pos; [apply Rle_0_sqr|left; apply Rinv_0_lt_compat; lra]. Qed.
Lemma response_abs t j : Rabs (fst (response t j)) <= if (j <? 2 * t)%nat then sqrt top * root ^ (t - 1 - j / 2) else 0.
Proof.
  destruct (Nat.ltb_spec j (2 * t)) as [H|H]; [|rewrite response_late by exact H; cbn [fst]; rewrite Rabs_R0; lra].
  apply abs_of_square; [apply top_nonneg|]. eapply Rle_trans; [apply (fst_size t)|]. now apply response_size.
Qed.
Lemma start_abs v0 t : Rabs (fst (from_start v0 t)) <= sqrt (size2 0 v0) * root ^ t.
Proof. apply abs_of_square; [apply size2_nonneg|]. eapply Rle_trans; [apply (fst_size t)|apply start_size]. Qed.

(** the pair as a combination of the noises *)
Section Paths.
Variables (W : Type) (z Y Q : nat -> W -> R) (v0 : R * R).
Hypothesis H0 : forall w, Y 0%nat w = fst v0 /\ Q 0%nat w = snd v0.
Hypothesis Hf : follows_vary k a b z Y Q.
Lemma path_comb t w : Y t w = comb z (fst (from_start v0 t)) (fun j => fst (response t j)) (2 * t) w /\ Q t w = comb z (snd (from_start v0 t)) (fun j => snd (response t j)) (2 * t) w.
Proof.
  induction t as [|t [IY IQ]]; [destruct (H0 w) as [-> ->]; unfold comb; cbn; lra|].
  destruct (Hf t w) as (q1 & q2 & q3 & E1 & E2 & E3 & E4 & E5). destruct (Ha t) as [A1 A2].
  set (u := quiet (k t) (a t) (0, b t / a t)).
  assert (EY : Y (S t) w = fst (quiet (k t) (a t) (Y t w, Q t w)) + fst u * z (2 * t)%nat w) by (unfold u, quiet; cbn [fst snd]; rewrite E3, E2, E1; field; lra).
  assert (EQ : Q (S t) w = snd (quiet (k t) (a t) (Y t w, Q t w)) + snd u * z (2 * t)%nat w + b t * z (S (2 * t)) w) by (unfold u, quiet; cbn [fst snd]; rewrite E5, E4, E3, E2, E1; field; lra).
  assert (LinY : fst (quiet (k t) (a t) (Y t w, Q t w)) = comb z (fst (from_start v0 (S t))) (fun j => fst (quiet (k t) (a t) (response t j))) (2 * t) w).
  { rewrite IY, IQ. unfold comb, quiet. cbn [from_start fst snd]. unfold quiet. cbn [fst snd].
    rewrite (@sum_upto_ext (2 * t) (fun j => (fst (response t j) + 2 * k t * (a t * snd (response t j) - k t * fst (response t j))) * z j w) (fun j => (1 - 2 * k t * k t) * (fst (response t j) * z j w) + 2 * k t * a t * (snd (response t j) * z j w))) by (intros; ring).
    rewrite (@sum_upto_plus (2 * t) (fun j => (1 - 2 * k t * k t) * (fst (response t j) * z j w)) (fun j => 2 * k t * a t * (snd (response t j) * z j w))), (@sum_upto_scale (2 * t) (1 - 2 * k t * k t) (fun j => fst (response t j) * z j w)), (@sum_upto_scale (2 * t) (2 * k t * a t) (fun j => snd (response t j) * z j w)). ring. }
  assert (LinQ : snd (quiet (k t) (a t) (Y t w, Q t w)) = comb z (snd (from_start v0 (S t))) (fun j => snd (quiet (k t) (a t) (response t j))) (2 * t) w).
  { rewrite IY, IQ. unfold comb, quiet. cbn [from_start fst snd]. unfold quiet. cbn [fst snd].
    set (cy := a t * (- k t - k t * (1 - 2 * k t * k t))). set (cq := a t * (a t - k t * (2 * k t * a t))).
    rewrite (@sum_upto_ext (2 * t) (fun j => a t * (a t * snd (response t j) - k t * fst (response t j) - k t * (fst (response t j) + 2 * k t * (a t * snd (response t j) - k t * fst (response t j)))) * z j w) (fun j => cy * (fst (response t j) * z j w) + cq * (snd (response t j) * z j w))) by (intros; unfold cy, cq; ring).
    rewrite (@sum_upto_plus (2 * t) (fun j => cy * (fst (response t j) * z j w)) (fun j => cq * (snd (response t j) * z j w))), (@sum_upto_scale (2 * t) cy (fun j => fst (response t j) * z j w)), (@sum_upto_scale (2 * t) cq (fun j => snd (response t j) * z j w)). unfold cy, cq. ring. }
  rewrite EY, EQ, LinY, LinQ. unfold comb. replace (2 * S t)%nat with (S (S (2 * t))) by lia. rewrite !sum_upto_S.
  assert (R1 : response (S t) (2 * t) = u) by (cbn [response]; now rewrite Nat.eqb_refl).
  assert (R2 : response (S t) (S (2 * t)) = (0, b t)) by (cbn [response]; rewrite Nat.eqb_refl; destruct (Nat.eqb_spec (S (2 * t)) (2 * t)); [lia|reflexivity]).
  assert (R3 : forall j, (j < 2 * t)%nat -> response (S t) j = quiet (k t) (a t) (response t j)) by (intros j Hj; cbn [response]; destruct (Nat.eqb_spec j (2 * t)); [lia|]; destruct (Nat.eqb_spec j (S (2 * t))); [lia|reflexivity]).
  rewrite R1, R2. cbn [fst snd].
  rewrite (@sum_upto_ext (2 * t) (fun j => fst (response (S t) j) * z j w) (fun j => fst (quiet (k t) (a t) (response t j)) * z j w)) by (intros j Hj; now rewrite R3).
  rewrite (@sum_upto_ext (2 * t) (fun j => snd (response (S t) j) * z j w) (fun j => snd (quiet (k t) (a t) (response t j)) * z j w)) by (intros j Hj; now rewrite R3). split; ring.
Qed.

(** the sum of the positions before the steps tt 0 < tt 1 < ... *)
Variable tt : nat -> nat.
Hypothesis Htt : forall n, (tt n < tt (S n))%nat.
Lemma tt_up m n : (m <= n)%nat -> (tt m <= tt n)%nat.
Proof. induction n as [|n IH]; intros H; [replace m with 0%nat by lia; lia|]. destruct (Nat.eq_dec m (S n)) as [-> |]; [lia|]. pose proof (Htt n). specialize (IH ltac:(lia)). lia. Qed.
(** geometric sums along tt *)
Lemma along_sum (u : nat) n : (forall i, (i < n)%nat -> (u <= tt i)%nat) -> sum_upto n (fun i => root ^ (tt i - u)) <= root ^ (tt 0 - u) / (1 - root).
Proof.
  destruct root_range as [[R1 R2] _]. intros H.
  assert (A : forall m, (m <= n)%nat -> sum_upto m (fun i => root ^ (tt i - u)) <= (root ^ (tt 0 - u) - root ^ (tt m - u)) / (1 - root)).
  { induction m as [|m IH]; intros Hm; [unfold sum_upto; cbn; unfold Rdiv; lra|]. rewrite sum_upto_S. specialize (IH ltac:(lia)). pose proof (Htt m) as Up. pose proof (H m ltac:(lia)) as Lo.
    assert (P : root ^ (tt (S m) - u) <= root * root ^ (tt m - u)).
    { replace (tt (S m) - u)%nat with (S (tt m - u) + (tt (S m) - S (tt m)))%nat by lia. rewrite pow_add. cbn [pow]. rewrite <- (Rmult_1_r (root * root ^ (tt m - u))) at 2. apply Rmult_le_compat_l; [apply Rmult_le_pos; [lra|apply pow_le; lra]|].
      rewrite <- (pow1 (tt (S m) - S (tt m))). apply pow_incr. lra. }
    apply Rle_trans with ((root ^ (tt 0 - u) - root ^ (tt m - u)) / (1 - root) + root ^ (tt m - u)); [lra|].
    apply (Rmult_le_reg_r (1 - root)); [lra|]. unfold Rdiv. rewrite Rmult_plus_distr_r, !Rmult_assoc, Rinv_l, !Rmult_1_r by lra. lra. }
  eapply Rle_trans; [apply (A n (le_n _))|]. unfold Rdiv. apply Rmult_le_compat_r; [left; apply Rinv_0_lt_compat; lra|]. assert (0 <= root ^ (tt n - u)) by (apply pow_le; lra). lra.
Qed.
Lemma abs_sum n (f : nat -> R) : Rabs (sum_upto n f) <= sum_upto n (fun i => Rabs (f i)).
Proof. induction n as [|n IH]; [unfold sum_upto; cbn; rewrite Rabs_R0; lra|]. rewrite !sum_upto_S. eapply Rle_trans; [apply Rabs_triang|lra]. Qed.
(** the coefficient of noise j in the sum *)
Lemma response_sum n j : Rabs (sum_upto n (fun i => fst (response (tt i) j))) <= sqrt top / (1 - root) * root ^ (tt 0 - 1 - j / 2).
Proof.
  destruct root_range as [[R1 R2] _]. pose proof (sqrt_pos top) as Tp. eapply Rle_trans; [apply abs_sum|].
  (* the terms with j < 2 * tt i come last *)
  assert (Z : forall m, (m <= n)%nat -> (forall i, (i < m)%nat -> (2 * tt i <= j)%nat) -> sum_upto m (fun i => Rabs (fst (response (tt i) j))) = 0).
  { intros m _ Hm. apply sum_upto_zero. intros i Hi. rewrite response_late by now apply Hm. cbn [fst]. apply Rabs_R0. }
  assert (PP : 0 <= sqrt top / (1 - root) * root ^ (tt 0 - 1 - j / 2)). { apply Rmult_le_pos; [apply Rmult_le_pos; [exact Tp|left; apply Rinv_0_lt_compat; lra]|apply pow_le; lra]. }
  assert (G : forall m, sum_upto m (fun i => Rabs (fst (response (tt i) j))) <= sqrt top * (root ^ (tt 0 - 1 - j / 2) - root ^ (tt m - 1 - j / 2)) / (1 - root)).
  { induction m as [|m IH]; [unfold sum_upto; cbn; unfold Rdiv; rewrite Rminus_diag_eq by reflexivity; lra|]. rewrite sum_upto_S. pose proof (Htt m) as Up. pose proof (response_abs (tt m) j) as RA.
    apply (Rmult_le_reg_r (1 - root)); [lra|]. unfold Rdiv. rewrite (Rmult_assoc _ (/ (1 - root))), Rinv_l, Rmult_1_r by lra.
    apply (Rmult_le_compat_r (1 - root)) in IH; [|lra]. unfold Rdiv in IH. rewrite (Rmult_assoc _ (/ (1 - root))), Rinv_l, Rmult_1_r in IH by lra.
    destruct (Nat.ltb_spec j (2 * tt m)) as [Lt|Ge].
    - assert (J2 : (j / 2 < tt m)%nat) by (apply Nat.div_lt_upper_bound; lia). set (p := (tt m - 1 - j / 2)%nat) in *.
      assert (P : root ^ (tt (S m) - 1 - j / 2) <= root * root ^ p).
      { replace (tt (S m) - 1 - j / 2)%nat with (S p + (tt (S m) - S (tt m)))%nat by (unfold p; lia). rewrite pow_add. cbn [pow]. rewrite <- (Rmult_1_r (root * root ^ p)) at 2. apply Rmult_le_compat_l; [apply Rmult_le_pos; [lra|apply pow_le; lra]|].
        rewrite <- (pow1 (tt (S m) - S (tt m))). apply pow_incr. lra. }
      assert (Q1 : Rabs (fst (response (tt m) j)) * (1 - root) <= sqrt top * root ^ p * (1 - root)) by (apply Rmult_le_compat_r; lra).
      apply (Rmult_le_compat_l (sqrt top)) in P; [|exact Tp]. lra.
    - assert (Q1 : Rabs (fst (response (tt m) j)) * (1 - root) <= 0) by (apply Rle_trans with (0 * (1 - root)); [apply Rmult_le_compat_r; lra|lra]).
      assert (P : root ^ (tt (S m) - 1 - j / 2) <= root ^ (tt m - 1 - j / 2)).
      { assert ((tt m - 1 - j / 2 <= tt (S m) - 1 - j / 2)%nat) by lia. replace (tt (S m) - 1 - j / 2)%nat with ((tt m - 1 - j / 2) + (tt (S m) - 1 - j / 2 - (tt m - 1 - j / 2)))%nat by lia. rewrite pow_add. rewrite <- (Rmult_1_r (root ^ (tt m - 1 - j / 2))) at 2. apply Rmult_le_compat_l; [apply pow_le; lra|].
        rewrite <- (pow1 (tt (S m) - 1 - j / 2 - (tt m - 1 - j / 2))). apply pow_incr. lra. }
      apply (Rmult_le_compat_l (sqrt top)) in P; [|exact Tp]. lra. }
  eapply Rle_trans; [apply G|]. unfold Rdiv. replace (sqrt top * / (1 - root) * root ^ (tt 0 - 1 - j / 2)) with (sqrt top * root ^ (tt 0 - 1 - j / 2) * / (1 - root)) by ring. apply Rmult_le_compat_r; [left; apply Rinv_0_lt_compat; lra|].
  apply Rmult_le_compat_l; [exact Tp|]. assert (0 <= root ^ (tt n - 1 - j / 2)) by (apply pow_le; lra). lra.
Qed.
(** sums of squares of the coefficients *)
Lemma falling_sum B m : sum_upto (2 * m) (fun j => decay ^ (B - j / 2)) <= 2 * (decay * decay ^ (B - m) / (1 - decay) + INR (m - B)).
Proof.
  destruct (rate_decay 0) as [_ [D1 D2]]. induction m as [|m IH].
  - unfold sum_upto; cbn. rewrite Nat.sub_0_r. assert (0 <= decay * decay ^ B / (1 - decay)); [|lra]. apply Rmult_le_pos; [apply Rmult_le_pos; [exact D1|now apply pow_le]|left; apply Rinv_0_lt_compat; lra].
  - replace (2 * S m)%nat with (S (S (2 * m))) by lia. rewrite !sum_upto_S. replace (S (2 * m) / 2)%nat with m by (apply (Nat.div_unique (S (2 * m)) 2 m 1); lia). replace (2 * m / 2)%nat with m by (rewrite Nat.mul_comm, Nat.div_mul by lia; lia).
    destruct (Nat.le_gt_cases B m) as [H|H].
    + replace (B - m)%nat with 0%nat in * by lia. replace (B - S m)%nat with 0%nat by lia. replace (S m - B)%nat with (S (m - B)) by lia. rewrite S_INR. cbn [pow] in *. lra.
    + replace (S m - B)%nat with 0%nat by lia. replace (m - B)%nat with 0%nat in IH by lia. replace (B - m)%nat with (S (B - S m)) in * by lia. cbn [pow] in *. set (p := decay ^ (B - S m)) in *.
      assert (E : decay * p / (1 - decay) = decay * p + decay * (decay * p) / (1 - decay)) by (field; lra). cbn [INR] in *. lra.
Qed.
(** second moment of the sum *)
Lemma path_sum (E : (W -> R) -> R) n : expectation E -> E (fun _ => 1) = 1 -> (forall t, (t < 2 * tt (n - 1))%nat -> E (z t) = 0) ->
  (forall t u, (t < 2 * tt (n - 1))%nat -> (u < 2 * tt (n - 1))%nat -> E (fun w => z t w * z u w) = if (t =? u)%nat then 1 else 0) -> (0 < tt 0)%nat -> (0 < n)%nat ->
  E (fun w => sum_upto n (fun i => Y (tt i) w) * sum_upto n (fun i => Y (tt i) w)) <= (size2 0 v0 + top * (2 * (decay / (1 - decay) + INR (S (tt (n - 1)) - tt 0)))) / ((1 - root) * (1 - root)).
Proof.
  intros HE H1 Hm Hc Ht0 Hn. destruct root_range as [[R1 R2] R3]. destruct (rate_decay 0) as [_ [D1 D2]].
  set (M := tt (n - 1)) in *.
  set (c0 := sum_upto n (fun i => fst (from_start v0 (tt i)))). set (c := fun j => sum_upto n (fun i => fst (response (tt i) j))).
  assert (EC : forall w, sum_upto n (fun i => Y (tt i) w) = comb z c0 c (2 * M) w).
  { intros w. unfold comb, c0, c.
    rewrite (@sum_upto_ext n (fun i => Y (tt i) w) (fun i => fst (from_start v0 (tt i)) + sum_upto (2 * M) (fun j => fst (response (tt i) j) * z j w))).
    - rewrite (@sum_upto_plus n (fun i => fst (from_start v0 (tt i))) (fun i => sum_upto (2 * M) (fun j => fst (response (tt i) j) * z j w))). f_equal.
      generalize (2 * M)%nat as m. induction m as [|m IH]; [unfold sum_upto at 2 3; cbn; apply sum_upto_zero; reflexivity|]. rewrite sum_upto_S, <- IH, Rmult_comm, <- (@sum_upto_scale n (z m w) (fun i => fst (response (tt i) m))), <- (@sum_upto_plus n).
      apply sum_upto_ext. intros i _. rewrite sum_upto_S. ring.
    - intros i Hi. destruct (path_comb (tt i) w) as [-> _]. unfold comb. f_equal. assert (Li : (tt i <= M)%nat) by (unfold M; apply tt_up; lia).
      replace (2 * M)%nat with (2 * tt i + 2 * (M - tt i))%nat by lia. rewrite sum_upto_app. rewrite (@sum_upto_zero (2 * (M - tt i))); [ring|]. intros j _. rewrite response_late by lia. cbn [fst]. ring. }
  rewrite (proj1 HE _ (fun w => comb z c0 c (2 * M) w * comb z c0 c (2 * M) w)) by (intros w; now rewrite EC).
  rewrite (@E_comb_sq W E z (2 * M)%nat HE H1 Hm Hc c0 c (2 * M) (le_n _)).
  assert (Sq : forall x y, Rabs x <= y -> x * x <= y * y) by (intros x y Hxy; rewrite <- (Rabs_pos_eq (x * x)) by apply Rle_0_sqr; rewrite Rabs_mult; pose proof (Rabs_pos x); apply Rmult_le_compat; lra).
  assert (PI : 0 < / (1 - root)) by (apply Rinv_0_lt_compat; lra).
  assert (C0 : c0 * c0 <= size2 0 v0 / ((1 - root) * (1 - root))).
  { replace (size2 0 v0 / ((1 - root) * (1 - root))) with (sqrt (size2 0 v0) * / (1 - root) * (sqrt (size2 0 v0) * / (1 - root))) by (rewrite <- (sqrt_sqrt (size2 0 v0)) at 3 by apply size2_nonneg; field; lra).
    apply Sq. unfold c0. eapply Rle_trans; [apply abs_sum|]. apply Rle_trans with (sum_upto n (fun i => sqrt (size2 0 v0) * root ^ (tt i - 0))).
    - apply sum_upto_le. intros i _. rewrite Nat.sub_0_r. apply start_abs.
    - rewrite (@sum_upto_scale n (sqrt (size2 0 v0)) (fun i => root ^ (tt i - 0))). apply Rmult_le_compat_l; [apply sqrt_pos|]. eapply Rle_trans; [apply along_sum; intros; lia|]. unfold Rdiv. rewrite <- (Rmult_1_l (/ (1 - root))) at 2. apply Rmult_le_compat_r; [lra|]. rewrite <- (pow1 (tt 0 - 0)). apply pow_incr. lra. }
  assert (C1 : sum_upto (2 * M) (fun j => c j * c j) <= top * (2 * (decay / (1 - decay) + INR (S M - tt 0))) / ((1 - root) * (1 - root))).
  { apply Rle_trans with (sum_upto (2 * M) (fun j => top / ((1 - root) * (1 - root)) * decay ^ (tt 0 - 1 - j / 2))).
    - apply sum_upto_le. intros j _. replace (top / ((1 - root) * (1 - root)) * decay ^ (tt 0 - 1 - j / 2)) with (sqrt top / (1 - root) * root ^ (tt 0 - 1 - j / 2) * (sqrt top / (1 - root) * root ^ (tt 0 - 1 - j / 2))).
      + apply Sq. apply response_sum.
      + rewrite <- root_pow. rewrite <- (sqrt_sqrt top) at 3 by apply top_nonneg. field. lra.
    - rewrite (@sum_upto_scale (2 * M) (top / ((1 - root) * (1 - root))) (fun j => decay ^ (tt 0 - 1 - j / 2))). replace (top * (2 * (decay / (1 - decay) + INR (S M - tt 0))) / ((1 - root) * (1 - root))) with (top / ((1 - root) * (1 - root)) * (2 * (decay / (1 - decay) + INR (S M - tt 0)))) by (field; lra).
      apply Rmult_le_compat_l; [unfold Rdiv; apply Rmult_le_pos; [apply top_nonneg|left; apply Rinv_0_lt_compat; apply Rmult_lt_0_compat; lra]|]. eapply Rle_trans; [apply falling_sum|]. replace (M - (tt 0 - 1))%nat with (S M - tt 0)%nat by lia. apply Rmult_le_compat_l; [lra|]. apply Rplus_le_compat_r.
      unfold Rdiv. apply Rmult_le_compat_r; [left; apply Rinv_0_lt_compat; lra|]. rewrite <- (Rmult_1_r decay) at 3. apply Rmult_le_compat_l; [exact D1|]. rewrite <- (pow1 (tt 0 - 1 - M)). apply pow_incr. lra. }
  unfold Rdiv at 1. rewrite Rmult_plus_distr_r. apply Rplus_le_compat; assumption.
Qed.
End Paths.
End Response.
