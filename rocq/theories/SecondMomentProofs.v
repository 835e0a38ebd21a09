(** Averages of squares along a run with independent batches and noise: fourth moments, the martingale of the squares, the Lyapunov equation. *)
From Coq Require Import Reals Lra Psatz.
From Verif Require Import Base ListUtil TreeUtilSpec TreeUtilProofs PotentialSpec VarianceProofs ExpectSpec ExpectProofs GaussianLimit GaussianMatrix GaussianSpec GaussianProofs MinibatchSpec MinibatchProofs AverageProofs.
Open Scope R_scope.
Set Implicit Arguments.

(** ** the Lyapunov equation: A D + D A = X for symmetric D and positive definite A bounds D by X *)
Lemma lyapunov d A lam D X : 0 < lam -> (forall v, lam * norm2 d v <= sum_upto d (fun i => v i * matvec d A v i)) -> (forall i j, (i < d)%nat -> (j < d)%nat -> D i j = D j i) ->
  (forall i j, (i < d)%nat -> (j < d)%nat -> X i j = sum_upto d (fun k => A i k * D k j) + sum_upto d (fun k => A j k * D k i)) ->
  4 * (lam * lam) * frob d D <= frob d X.
Proof.
  intros Hl Hco Hsym HX. set (u := sum_upto d (fun j => sum_upto d (fun i => D i j * matvec d A (fun k => D k j) i))).
  assert (U1 : lam * frob d D <= u).
  { rewrite frob_swap. unfold frob. rewrite <- sum_upto_scale. apply sum_upto_le. intros j _. apply (Hco (fun i => D i j)). }
  assert (U2 : sum_upto d (fun i => sum_upto d (fun j => D i j * X i j)) = 2 * u).
  { rewrite (@sum_upto_ext d _ (fun i => sum_upto d (fun j => D i j * matvec d A (fun k => D k j) i) + sum_upto d (fun j => D j i * matvec d A (fun k => D k i) j))).
    2:{ intros i Hi. rewrite <- sum_upto_plus. apply sum_upto_ext. intros j Hj. rewrite HX, (Hsym j i) by auto. unfold matvec. ring. }
    rewrite sum_upto_plus, (sum_upto_swap d d (fun i j => D i j * matvec d A (fun k => D k j) i)). unfold u. ring. }
  pose proof (frob_cauchy d D X) as C. rewrite U2 in C. pose proof (fnorm_nonneg d D) as P1. pose proof (fnorm_nonneg d X) as P2. rewrite <- !fnorm_sq in *. set (a := fnorm d D) in *. set (b := fnorm d X) in *.
  assert (B : 2 * lam * a <= b).
  { destruct (Req_dec a 0) as [Z|Z]; [rewrite Z; lra|]. apply Rmult_le_reg_l with a; [lra|]. lra. }
  assert (P3 : 0 <= 2 * lam * a) by (apply Rmult_le_pos; lra). pose proof (Rmult_le_compat _ _ _ _ P3 P3 B B). lra.
Qed.
(** ** fourth power of the length after one step *)
Lemma fourth_power a s b : s * s <= a * b -> 0 <= a -> 0 <= b -> (a + 2 * s + b) * (a + 2 * s + b) <= a * a + 4 * (a * s) + 8 * (a * b) + 3 * (b * b).
Proof. intros H Ha Hb. pose proof (Rle_0_sqr (s - b)) as Q. unfold Rsqr in Q. lra. Qed.
Lemma norm2_sum d u v : norm2 d (fun i => u i + v i) = norm2 d u + 2 * sum_upto d (fun i => u i * v i) + norm2 d v.
Proof. unfold norm2. rewrite <- sum_upto_scale, <- !sum_upto_plus. apply sum_upto_ext. intros; ring. Qed.
Lemma norm2_sum_le d u v : norm2 d (fun i => u i + v i) <= 2 * norm2 d u + 2 * norm2 d v.
Proof. unfold norm2. rewrite <- !sum_upto_scale, <- !sum_upto_plus. apply sum_upto_le. intros i _. pose proof (Rle_0_sqr (u i - v i)) as Q. unfold Rsqr in Q. lra. Qed.
Lemma norm2_scale d c v : norm2 d (fun i => c * v i) = c * c * norm2 d v.
Proof. unfold norm2. rewrite <- sum_upto_scale. apply sum_upto_ext. intros; ring. Qed.
Lemma norm2_term d v i : (i < d)%nat -> v i * v i <= norm2 d v.
Proof. intros Hi. apply (@sum_upto_term d (fun i => v i * v i)); auto. intros j _. apply Rle_0_sqr. Qed.
Lemma sq_sum_le a b : (a + b) * (a + b) <= 2 * (a * a) + 2 * (b * b).
Proof. pose proof (Rle_0_sqr (a - b)) as Q. unfold Rsqr in Q. lra. Qed.
Lemma norm2_fourth d v : norm2 d v * norm2 d v <= INR d * sum_upto d (fun i => v i * v i * (v i * v i)).
Proof.
  pose proof (cauchy d (fun _ => 1) (fun i => v i * v i)) as C. cbv beta in C. unfold norm2 in *. rewrite (@sum_upto_ext d (fun i => 1 * (v i * v i)) (fun i => v i * v i)) in C by (intros; ring).
  rewrite (@sum_upto_ext d (fun _ => 1 * 1) (fun _ => 1)) in C by (intros; ring). rewrite sum_const, Rmult_1_r in C. exact C.
Qed.

Section Second.
Variables (W : Type) (idx : nat -> W -> list nat) (z : nat -> W -> nat -> R) (d : nat) (E : (W -> R) -> R) (N mb n : nat).
Notation known := (known idx z d).
Hypothesis HI : independent_run idx z d E N mb n.
Variables (y h : nat -> W -> nat -> R) (A B : nat -> nat -> R) (lam : R) (eps : nat -> R) (T c V2 e0 kappa : R).
Hypothesis Ky : forall k i, (i < d)%nat -> known k k (fun w => y k w i).
Hypothesis Kh : forall k i, (i < d)%nat -> known (Datatypes.S k) k (fun w => h k w i).
Hypothesis Hh : forall k F i, (k < n)%nat -> known k k F -> (i < d)%nat -> E (fun w => F w * h k w i) = 0.
Hypothesis Hb : forall k w, norm2 d (h k w) <= c * (1 + norm2 d (y k w)).
Hypothesis Hc : 0 <= c.
Hypothesis HT : 0 <= T.
Hypothesis HV2 : forall k, (k <= n)%nat -> E (fun w => norm2 d (y k w)) <= V2.
Hypothesis He : forall k, 0 <= eps k <= e0.
Hypothesis Hstep : forall k w i, (i < d)%nat -> y (Datatypes.S k) w i = y k w i - eps k * (matvec d A (y k w) i + h k w i) + sqrt (2 * T * eps k) * z k w i.
Hypothesis HA : positive_definite d A lam.
Hypothesis HB : inverse_matrix d A B.
Hypothesis Hz4 : forall k i, (k < n)%nat -> (i < d)%nat -> E (fun w => z k w i * z k w i * (z k w i * z k w i)) <= kappa.

Lemma e0_pos : 0 <= e0. Proof. destruct (He 0). lra. Qed.
Lemma Emono F G : known n n F -> known n n G -> (forall w, F w <= G w) -> E F <= E G.
Proof. apply (@E_mono W idx z d E N mb n HI). Qed.
Lemma V2_pos : 0 <= V2.
Proof.
  pose proof (HV2 (Nat.le_0_l n)) as H. destruct HI as (HE & _). eapply Rle_trans; [|exact H]. rewrite <- (E_zero HE). apply Emono; [apply known_const| |intros; apply norm2_nonneg].
  apply (@known_sum W idx z d n n d (fun i w => y 0 w i * y 0 w i)). intros i Hi. apply known_mult; apply (@known_mono W idx z d 0 0); auto; lia.
Qed.
Lemma KY k i : (k <= n)%nat -> (i < d)%nat -> known n n (fun w => y k w i). Proof. intros Hk Hi. apply (@known_mono W idx z d k k); auto. Qed.
Lemma KH k i : (k < n)%nat -> (i < d)%nat -> known n n (fun w => h k w i). Proof. intros Hk Hi. apply (@known_mono W idx z d (Datatypes.S k) k); auto; lia. Qed.
Lemma KZ k i : (k < n)%nat -> (i < d)%nat -> known n n (fun w => z k w i). Proof. intros Hk Hi. now apply known_noise. Qed.
Lemma known_norm2 a b (v : W -> nat -> R) : (forall i, (i < d)%nat -> known a b (fun w => v w i)) -> known a b (fun w => norm2 d (v w)).
Proof. intros H. apply (@known_sum W idx z d a b d (fun i w => v w i * v w i)). intros i Hi. apply known_mult; auto. Qed.
Lemma known_matvec a b (v : W -> nat -> R) i : (forall i, (i < d)%nat -> known a b (fun w => v w i)) -> known a b (fun w => matvec d A (v w) i).
Proof. intros H. apply (@known_sum W idx z d a b d (fun j w => A i j * v w j)). intros j Hj. apply known_scale; auto. Qed.
(** the step without the errors *)
(** auxiliary definition of a statement or a proof; models no code of /repo *)
Definition drift (k : nat) (w : W) (i : nat) : R := y k w i - eps k * matvec d A (y k w) i.
Lemma drift_known k i : (i < d)%nat -> known k k (fun w => drift k w i).
Proof.
  intros Hi. apply (@known_ext _ idx z d k k (fun w => y k w i + (- eps k) * matvec d A (y k w) i)); [intros; unfold drift; ring|]. apply known_plus; [auto|]. apply known_scale, known_matvec. auto.
Qed.
(** a bound of the contraction factor *)
(** auxiliary definition of a statement or a proof; models no code of /repo *)
Definition rate (e : R) : R := Rabs (1 - e * (2 * lam) + e * e * frob d A).
(** auxiliary definition of a statement or a proof; models no code of /repo *)
Definition rate0 : R := 1 + e0 * (2 * lam) + e0 * e0 * frob d A.
Lemma rate_le k : 0 <= rate (eps k) <= rate0.
Proof.
  split; [apply Rabs_pos|]. unfold rate, rate0. destruct (He k) as [P1 P2]. destruct HA as (_ & Pl & _). pose proof (frob_nonneg d A) as PF. set (e := eps k) in *.
  assert (Q1 : 0 <= e * (2 * lam)) by (apply Rmult_le_pos; lra). assert (Q2 : e * (2 * lam) <= e0 * (2 * lam)) by (apply Rmult_le_compat_r; lra).
  assert (Q3 : e * e <= e0 * e0) by (apply Rmult_le_compat; auto). assert (Q4 : 0 <= e * e * frob d A) by (apply Rmult_le_pos; auto; apply Rle_0_sqr). assert (Q5 : e * e * frob d A <= e0 * e0 * frob d A) by (apply Rmult_le_compat_r; auto).
  unfold Rabs. destruct (Rcase_abs _); lra.
Qed.
Lemma drift_norm k w : norm2 d (drift k w) <= rate (eps k) * norm2 d (y k w).
Proof. destruct HA as (_ & _ & Hco). apply (@step_norm d A lam Hco (eps k)). apply He. Qed.
(** the errors of a step *)
(** auxiliary definition of a statement or a proof; models no code of /repo *)
Definition kick (k : nat) (w : W) (i : nat) : R := (- eps k) * h k w i + sqrt (2 * T * eps k) * z k w i.
Lemma step_split k w i : (i < d)%nat -> y (Datatypes.S k) w i = drift k w i + kick k w i.
Proof. intros Hi. rewrite Hstep by exact Hi. unfold drift, kick. ring. Qed.
Lemma kick_norm k w : norm2 d (kick k w) <= 2 * (eps k * eps k) * norm2 d (h k w) + 4 * T * eps k * norm2 d (z k w).
Proof.
  unfold kick. eapply Rle_trans; [apply norm2_sum_le|]. rewrite !norm2_scale. rewrite (sqrt_sqrt (2 * T * eps k)) by (apply Rmult_le_pos; [lra|apply He]). lra.
Qed.
(** ** fourth moments *)
(** auxiliary definition of a statement or a proof; models no code of /repo *)
Definition coef4 (e : R) : R := rate e * rate e + 16 * rate e * (e * e) * c + 48 * (e * e * (e * e)) * (c * c).
(** auxiliary definition of a statement or a proof; models no code of /repo *)
Definition force4 : R := 16 * rate0 * e0 * c * V2 + 32 * T * INR d * rate0 * V2 + 48 * (e0 * (e0 * e0)) * (c * c) + 96 * (T * T) * e0 * (INR d * INR d * kappa).
Lemma noise_sum k F : (k < n)%nat -> known k k F -> E (fun w => F w * norm2 d (z k w)) = INR d * E F.
Proof.
  intros Hk HF. destruct HI as (HE & _ & _ & Hst). destruct (Hst k Hk) as [_ Hz]. assert (HF' : known (Datatypes.S k) k F) by (apply (@known_mono W idx z d k k); auto).
  rewrite (@E_ext W E HE _ (fun w => sum_upto d (fun i => F w * (z k w i * z k w i)))) by (intros w; unfold norm2; now rewrite <- sum_upto_scale). rewrite (@E_sum W E HE d (fun i w => F w * (z k w i * z k w i))).
  rewrite (@sum_upto_ext d _ (fun _ => E F)); [apply sum_const|]. intros i Hi. rewrite (proj2 (Hz F HF' i i Hi Hi)). unfold unit_matrix. rewrite Nat.eqb_refl. ring.
Qed.
Lemma noise_fourth k : (k < n)%nat -> E (fun w => norm2 d (z k w) * norm2 d (z k w)) <= INR d * INR d * kappa.
Proof.
  intros Hk. pose proof HI as (HE & _). apply Rle_trans with (E (fun w => INR d * sum_upto d (fun i => z k w i * z k w i * (z k w i * z k w i)))).
  - assert (K1 : known n n (fun w => norm2 d (z k w))) by (apply known_norm2; intros; now apply KZ). apply Emono; [now apply known_mult| |intros w; apply norm2_fourth].
    apply known_scale. apply (@known_sum W idx z d n n d (fun i w => z k w i * z k w i * (z k w i * z k w i))). intros i Hi. assert (K2 := @KZ k i Hk Hi). assert (K3 := known_mult K2 K2). now apply known_mult.
  - rewrite (@E_scale W E HE (INR d) (fun w => sum_upto d (fun i => z k w i * z k w i * (z k w i * z k w i)))), Rmult_assoc. apply Rmult_le_compat_l; [apply pos_INR|]. rewrite (@E_sum W E HE d (fun i w => z k w i * z k w i * (z k w i * z k w i))).
    rewrite <- sum_const. apply sum_upto_le. intros i Hi. now apply Hz4.
Qed.
Lemma fourth_step k : (k < n)%nat -> E (fun w => norm2 d (y (Datatypes.S k) w) * norm2 d (y (Datatypes.S k) w)) <= coef4 (eps k) * E (fun w => norm2 d (y k w) * norm2 d (y k w)) + eps k * force4.
Proof.
  intros Hk. pose proof HI as (HE & HE1 & _ & Hst). destruct (Hst k Hk) as [_ Hz]. set (e := eps k). destruct (He k) as [P1 P2]. fold e in P1, P2. destruct (rate_le k) as [R1 R2]. fold e in R1, R2. pose proof e0_pos as P0.
  assert (Pee : 0 <= e * e) by apply Rle_0_sqr. assert (Pcc : 0 <= c * c) by apply Rle_0_sqr. assert (Pe4 : 0 <= e * e * (e * e)) by apply Rle_0_sqr. assert (PTT : 0 <= T * T) by apply Rle_0_sqr. assert (PTe : 0 <= T * e) by (now apply Rmult_le_pos).
  set (Y := fun w => norm2 d (y k w)). set (a := fun w => norm2 d (drift k w)). set (s := fun w => sum_upto d (fun i => drift k w i * kick k w i)). set (Z := fun w => norm2 d (z k w)).
  assert (PY : forall w, 0 <= Y w) by (intros; apply norm2_nonneg). assert (Pa : forall w, 0 <= a w) by (intros; apply norm2_nonneg). assert (PZ : forall w, 0 <= Z w) by (intros; apply norm2_nonneg).
  assert (KDk : forall i, (i < d)%nat -> known k k (fun w => drift k w i)) by (intros; now apply drift_known).
  assert (KD : forall i, (i < d)%nat -> known n n (fun w => drift k w i)) by (intros; apply (@known_mono W idx z d k k); auto; lia).
  assert (KK : forall i, (i < d)%nat -> known n n (fun w => kick k w i)) by (intros; apply known_plus; apply known_scale; [now apply KH|now apply KZ]).
  assert (K_Y : known n n Y) by (apply known_norm2; intros; apply KY; auto; lia). assert (K_a : known n n a) by (now apply known_norm2). assert (K_Z : known n n Z) by (apply known_norm2; intros; now apply KZ).
  assert (K_ak : known k k a) by (now apply known_norm2).
  assert (K_s : known n n s) by (apply (@known_sum W idx z d n n d (fun i w => drift k w i * kick k w i)); intros; apply known_mult; auto).
  assert (K_Y' : known n n (fun w => norm2 d (y (Datatypes.S k) w))) by (apply known_norm2; intros; apply KY; auto).
  set (G := fun w => coef4 e * (Y w * Y w) + (4 * (a w * s w) + (16 * rate e * (e * e) * c * Y w + (32 * (T * e) * (a w * Z w) + (48 * (e * e * (e * e)) * (c * c) * 1 + 96 * (T * T) * (e * e) * (Z w * Z w)))))).
  apply Rle_trans with (E G).
  - apply Emono; [now apply known_mult| |].
    { unfold G. apply known_plus; [apply known_scale; now apply known_mult|]. apply known_plus; [apply known_scale; now apply known_mult|]. apply known_plus; [now apply known_scale|]. apply known_plus; [apply known_scale; now apply known_mult|]. apply known_plus; [apply known_scale, known_const|apply known_scale; now apply known_mult]. }
    intros w. set (b := norm2 d (kick k w)). assert (Pb : 0 <= b) by apply norm2_nonneg.
    assert (EY : norm2 d (y (Datatypes.S k) w) = a w + 2 * s w + b) by (rewrite (@norm2_ext d (y (Datatypes.S k) w) (fun i => drift k w i + kick k w i)) by (intros; now apply step_split); apply norm2_sum).
    rewrite EY. eapply Rle_trans; [apply fourth_power; auto; apply cauchy|]. pose proof (drift_norm k w) as B1. fold (a w) (Y w) e in B1. pose proof (kick_norm k w) as B2. fold b (Z w) e in B2. pose proof (Hb k w) as B3. fold (Y w) in B3.
    set (m := c * (1 + Y w)) in *. assert (Pm : 0 <= m) by (apply Rmult_le_pos; [exact Hc|specialize (PY w); lra]).
    assert (B4 : b <= 2 * (e * e) * m + 4 * T * e * Z w). { eapply Rle_trans; [exact B2|]. apply Rplus_le_compat_r. apply Rmult_le_compat_l; lra. }
    assert (B5 : a w * a w <= rate e * rate e * (Y w * Y w)). { replace (rate e * rate e * (Y w * Y w)) with ((rate e * Y w) * (rate e * Y w)) by ring. apply Rmult_le_compat; auto. }
    assert (B6 : 8 * (a w * b) <= 16 * (e * e) * (rate e * Y w * m) + 32 * (T * e) * (a w * Z w)).
    { assert (a w * b <= a w * (2 * (e * e) * m + 4 * T * e * Z w)) by (apply Rmult_le_compat_l; auto). assert (Q : a w * m <= rate e * Y w * m) by (apply Rmult_le_compat_r; auto). apply (Rmult_le_compat_l (e * e)) in Q; [|exact Pee]. lra. }
    assert (B7 : b * b <= 8 * (e * e * (e * e)) * (m * m) + 32 * (T * T) * (e * e) * (Z w * Z w)).
    { eapply Rle_trans; [apply (Rmult_le_compat _ _ _ _ Pb Pb B4 B4)|]. eapply Rle_trans; [apply sq_sum_le|]. right. ring. }
    assert (B8 : m * m <= 2 * (c * c) * (1 + Y w * Y w)).
    { unfold m. replace (c * (1 + Y w) * (c * (1 + Y w))) with (c * c * ((1 + Y w) * (1 + Y w))) by ring. pose proof (sq_sum_le 1 (Y w)) as Q. apply (Rmult_le_compat_l (c * c)) in Q; [|exact Pcc]. lra. }
    apply (Rmult_le_compat_l (e * e * (e * e))) in B8; [|exact Pe4].
    assert (B9 : rate e * Y w * m = rate e * c * (Y w + Y w * Y w)) by (unfold m; ring). rewrite B9 in B6. unfold G, coef4. set (YY := Y w * Y w) in *. set (aZ := a w * Z w) in *. set (ZZ := Z w * Z w) in *. set (as_ := a w * s w) in *.
    lra.
  - unfold G. rewrite (@E_plus W E HE (fun w => coef4 e * (Y w * Y w))), (@E_plus W E HE (fun w => 4 * (a w * s w))), (@E_plus W E HE (fun w => 16 * rate e * (e * e) * c * Y w)), (@E_plus W E HE (fun w => 32 * (T * e) * (a w * Z w))), (@E_plus W E HE (fun w => 48 * (e * e * (e * e)) * (c * c) * 1)).
    rewrite (@E_scale W E HE _ (fun w => Y w * Y w)), (@E_scale W E HE _ (fun w => a w * s w)), (@E_scale W E HE _ Y), (@E_scale W E HE _ (fun w => a w * Z w)), (@E_scale W E HE _ (fun _ => 1)), (@E_scale W E HE _ (fun w => Z w * Z w)), HE1.
    assert (S0 : E (fun w => a w * s w) = 0).
    { rewrite (@E_ext W E HE _ (fun w => sum_upto d (fun i => (- e) * (a w * drift k w i * h k w i) + sqrt (2 * T * e) * (a w * drift k w i * z k w i)))).
      2:{ intros w. unfold s. rewrite <- sum_upto_scale. apply sum_upto_ext. intros i _. unfold kick. fold e. ring. }
      rewrite (@E_sum W E HE d (fun i w => (- e) * (a w * drift k w i * h k w i) + sqrt (2 * T * e) * (a w * drift k w i * z k w i))). apply sum_upto_zero. intros i Hi.
      rewrite (@E_plus W E HE (fun w => (- e) * (a w * drift k w i * h k w i))), (@E_scale W E HE (- e) (fun w => a w * drift k w i * h k w i)), (@E_scale W E HE _ (fun w => a w * drift k w i * z k w i)).
      assert (KF : known k k (fun w => a w * drift k w i)) by (apply known_mult; auto). rewrite (@Hh k (fun w => a w * drift k w i) i Hk KF Hi).
      rewrite (proj1 (Hz (fun w => a w * drift k w i) (@known_mono W idx z d k k (Datatypes.S k) k _ (Nat.le_succ_diag_r k) (le_n k) KF) i i Hi Hi)). ring. }
    rewrite S0. unfold Z at 1. rewrite (@noise_sum k a Hk K_ak). pose proof (@noise_fourth k Hk) as F4. fold (Z) in F4. change (E (fun w => norm2 d (z k w) * norm2 d (z k w))) with (E (fun w => Z w * Z w)) in F4.
    assert (EYV : E Y <= V2) by (apply HV2; lia).
    assert (Ea : E a <= rate0 * V2).
    { apply Rle_trans with (E (fun w => rate e * Y w)); [apply Emono; [exact K_a|now apply known_scale|intros w; apply drift_norm]|]. rewrite (@E_scale W E HE (rate e) Y). apply Rle_trans with (rate e * V2); [now apply Rmult_le_compat_l|]. apply Rmult_le_compat_r; [apply V2_pos|exact R2]. }
    set (yy := E (fun w => Y w * Y w)). set (ey := E Y) in *. set (ea := E a) in *. set (zz := E (fun w => Z w * Z w)) in *. pose proof (pos_INR d) as Pd. pose proof V2_pos as PV.
    assert (Q1 : 16 * rate e * (e * e) * c * ey <= e * (16 * rate0 * e0 * c * V2)).
    { replace (16 * rate e * (e * e) * c * ey) with (e * (16 * (rate e * e * c * ey))) by ring. replace (e * (16 * rate0 * e0 * c * V2)) with (e * (16 * (rate0 * e0 * c * V2))) by ring. apply Rmult_le_compat_l; [exact P1|]. apply Rmult_le_compat_l; [lra|].
      assert (Q : 0 <= rate e * e * c) by (apply Rmult_le_pos; auto; now apply Rmult_le_pos). apply Rle_trans with (rate e * e * c * V2); [now apply Rmult_le_compat_l|]. apply Rmult_le_compat_r; [exact PV|]. apply Rmult_le_compat_r; [exact Hc|]. apply Rmult_le_compat; auto. }
    assert (Q2 : 32 * (T * e) * (INR d * ea) <= e * (32 * T * INR d * rate0 * V2)).
    { replace (32 * (T * e) * (INR d * ea)) with (e * (32 * (T * INR d * ea))) by ring. replace (e * (32 * T * INR d * rate0 * V2)) with (e * (32 * (T * INR d * (rate0 * V2)))) by ring. apply Rmult_le_compat_l; [exact P1|]. apply Rmult_le_compat_l; [lra|]. apply Rmult_le_compat_l; [now apply Rmult_le_pos|exact Ea]. }
    assert (Q3 : 48 * (e * e * (e * e)) * (c * c) * 1 <= e * (48 * (e0 * (e0 * e0)) * (c * c))).
    { replace (48 * (e * e * (e * e)) * (c * c) * 1) with (e * (48 * ((e * (e * e)) * (c * c)))) by ring. replace (e * (48 * (e0 * (e0 * e0)) * (c * c))) with (e * (48 * ((e0 * (e0 * e0)) * (c * c)))) by ring. apply Rmult_le_compat_l; [exact P1|]. apply Rmult_le_compat_l; [lra|]. apply Rmult_le_compat_r; [exact Pcc|]. apply Rmult_le_compat; auto. apply Rmult_le_compat; auto. }
    assert (Q4 : 96 * (T * T) * (e * e) * zz <= e * (96 * (T * T) * e0 * (INR d * INR d * kappa))).
    { assert (Pk : 0 <= INR d * INR d * kappa). { eapply Rle_trans; [|exact F4]. rewrite <- (E_zero HE). apply Emono; [apply known_const|now apply known_mult|]. intros w. apply Rmult_le_pos; auto. }
      replace (96 * (T * T) * (e * e) * zz) with (e * (96 * (T * T * e * zz))) by ring. replace (e * (96 * (T * T) * e0 * (INR d * INR d * kappa))) with (e * (96 * (T * T * e0 * (INR d * INR d * kappa)))) by ring. apply Rmult_le_compat_l; [exact P1|]. apply Rmult_le_compat_l; [lra|].
      apply Rle_trans with (T * T * e * (INR d * INR d * kappa)); [apply Rmult_le_compat_l; [now apply Rmult_le_pos|exact F4]|]. apply Rmult_le_compat_r; [exact Pk|]. apply Rmult_le_compat_l; auto. }
    unfold force4. change (E (fun w => norm2 d (y k w) * norm2 d (y k w))) with yy. fold e. clear HA HB Hz4 Hstep Hst Hz PY Pa PZ KDk KD KK K_Y K_a K_Z K_ak K_s K_Y' HV2 Ky Kh Hh. lra.
Qed.

(** ** the average of the products of two deviations *)
Variables (V4 : R) (r : nat -> R).
Hypothesis HV4 : forall k, (k <= n)%nat -> E (fun w => norm2 d (y k w) * norm2 d (y k w)) <= V4.
Hypothesis Hr : forall k, 0 <= r k.
Hypothesis Hmon : forall k, r k <= r (Datatypes.S k).
Section Pair.
Variables (i j : nat).
Hypothesis Hi : (i < d)%nat.
Hypothesis Hj : (j < d)%nat.
Lemma V4_pos : 0 <= V4.
Proof.
  pose proof (HV4 (Nat.le_0_l n)) as H. destruct HI as (HE & _). eapply Rle_trans; [|exact H]. rewrite <- (E_zero HE). assert (K : known n n (fun w => norm2 d (y 0 w))) by (apply known_norm2; intros; apply KY; auto; lia).
  apply Emono; [apply known_const|now apply known_mult|intros; apply Rmult_le_pos; apply norm2_nonneg].
Qed.
(** the martingale differences *)
(** auxiliary definition of a statement or a proof; models no code of /repo *)
Definition shot (k : nat) (w : W) (a : nat) : R := drift k w a - eps k * h k w a.
(** auxiliary definition of a statement or a proof; models no code of /repo *)
Definition diff1 (k : nat) (w : W) : R := sqrt (2 * T * eps k) * (shot k w i * z k w j + z k w i * shot k w j).
(** auxiliary definition of a statement or a proof; models no code of /repo *)
Definition diff2 (k : nat) (w : W) : R := 2 * T * eps k * (z k w i * z k w j - unit_matrix i j).
(** auxiliary definition of a statement or a proof; models no code of /repo *)
Definition diff3 (k : nat) (w : W) : R := (- eps k) * (h k w i * drift k w j + drift k w i * h k w j).
(** auxiliary definition of a statement or a proof; models no code of /repo *)
Definition diff (k : nat) (w : W) : R := diff1 k w + (diff2 k w + diff3 k w).
(** what is left *)
(** auxiliary definition of a statement or a proof; models no code of /repo *)
Definition rest (k : nat) (w : W) : R := h k w i * h k w j + matvec d A (y k w) i * matvec d A (y k w) j.
(** auxiliary definition of a statement or a proof; models no code of /repo *)
Definition symm (k : nat) (w : W) : R := matvec d A (y k w) i * y k w j + y k w i * matvec d A (y k w) j - 2 * T * unit_matrix i j.
Lemma square_step k w : eps k * symm k w = (y k w i * y k w j - y (Datatypes.S k) w i * y (Datatypes.S k) w j) + (diff k w + eps k * eps k * rest k w).
Proof.
  rewrite !Hstep by auto. unfold symm, diff, diff1, diff2, diff3, rest, shot, drift. assert (Q : sqrt (2 * T * eps k) * sqrt (2 * T * eps k) = 2 * T * eps k) by (apply sqrt_sqrt; apply Rmult_le_pos; [lra|apply He]).
  set (q := sqrt (2 * T * eps k)) in *. replace (2 * T * eps k * (z k w i * z k w j - unit_matrix i j)) with (q * q * (z k w i * z k w j) - 2 * T * eps k * unit_matrix i j) by (rewrite Q; ring). ring.
Qed.
Lemma shot_known k a : (a < d)%nat -> known (Datatypes.S k) k (fun w => shot k w a).
Proof.
  intros Ha. apply (@known_ext _ idx z d (Datatypes.S k) k (fun w => drift k w a + (- eps k) * h k w a)); [intros; unfold shot; ring|]. apply known_plus; [apply (@known_mono W idx z d k k); auto; now apply drift_known|]. apply known_scale. auto.
Qed.
Lemma KS k a : (k < n)%nat -> (a < d)%nat -> known n n (fun w => shot k w a). Proof. intros Hk Ha. apply (@known_mono W idx z d (Datatypes.S k) k); [lia|lia|now apply shot_known]. Qed.
Lemma KD k a : (k < n)%nat -> (a < d)%nat -> known n n (fun w => drift k w a). Proof. intros Hk Ha. apply (@known_mono W idx z d k k); [lia|lia|now apply drift_known]. Qed.
Lemma diff_known k : known (Datatypes.S k) (Datatypes.S k) (diff k).
Proof.
  assert (S1 : forall a, (a < d)%nat -> known (Datatypes.S k) (Datatypes.S k) (fun w => shot k w a)) by (intros; apply (@known_mono W idx z d (Datatypes.S k) k); auto; now apply shot_known).
  assert (D1 : forall a, (a < d)%nat -> known (Datatypes.S k) (Datatypes.S k) (fun w => drift k w a)) by (intros; apply (@known_mono W idx z d k k); auto; now apply drift_known).
  assert (H1 : forall a, (a < d)%nat -> known (Datatypes.S k) (Datatypes.S k) (fun w => h k w a)) by (intros; apply (@known_mono W idx z d (Datatypes.S k) k); auto).
  assert (Z1 : forall a, (a < d)%nat -> known (Datatypes.S k) (Datatypes.S k) (fun w => z k w a)) by (intros; apply known_noise; auto).
  apply known_plus; [|apply known_plus]; apply known_scale.
  - apply known_plus; apply known_mult; auto.
  - apply (@known_ext _ idx z d (Datatypes.S k) (Datatypes.S k) (fun w => z k w i * z k w j + (fun _ => - unit_matrix i j) w)); [intros; ring|]. apply known_plus; [apply known_mult; auto|apply known_const].
  - apply known_plus; apply known_mult; auto.
Qed.
Lemma diff_centred k F : (k < n)%nat -> known k k F -> E (fun w => F w * diff k w) = 0.
Proof.
  intros Hk HF. pose proof HI as (HE & HE1 & _ & Hst). destruct (Hst k Hk) as [_ Hz]. assert (HF' : known (Datatypes.S k) k F) by (apply (@known_mono W idx z d k k); auto).
  rewrite (@E_ext W E HE _ (fun w => sqrt (2 * T * eps k) * (F w * shot k w i * z k w j) + (sqrt (2 * T * eps k) * (F w * shot k w j * z k w i) + (2 * T * eps k * (F w * (z k w i * z k w j)) + ((- (2 * T * eps k) * unit_matrix i j) * F w + ((- eps k) * (F w * drift k w j * h k w i) + (- eps k) * (F w * drift k w i * h k w j)))))))
    by (intros w; unfold diff, diff1, diff2, diff3; ring).
  rewrite (@E_plus W E HE (fun w => sqrt (2 * T * eps k) * (F w * shot k w i * z k w j))), (@E_plus W E HE (fun w => sqrt (2 * T * eps k) * (F w * shot k w j * z k w i))), (@E_plus W E HE (fun w => 2 * T * eps k * (F w * (z k w i * z k w j)))), (@E_plus W E HE (fun w => (- (2 * T * eps k) * unit_matrix i j) * F w)), (@E_plus W E HE (fun w => (- eps k) * (F w * drift k w j * h k w i))).
  rewrite (@E_scale W E HE _ (fun w => F w * shot k w i * z k w j)), (@E_scale W E HE _ (fun w => F w * shot k w j * z k w i)), (@E_scale W E HE _ (fun w => F w * (z k w i * z k w j))), (@E_scale W E HE _ F), (@E_scale W E HE _ (fun w => F w * drift k w j * h k w i)), (@E_scale W E HE _ (fun w => F w * drift k w i * h k w j)).
  rewrite (proj1 (Hz (fun w => F w * shot k w i) (known_mult HF' (@shot_known k i Hi)) j j Hj Hj)), (proj1 (Hz (fun w => F w * shot k w j) (known_mult HF' (@shot_known k j Hj)) i i Hi Hi)), (proj2 (Hz F HF' i j Hi Hj)).
  rewrite (@Hh k (fun w => F w * drift k w j) i Hk (known_mult HF (@drift_known k j Hj)) Hi), (@Hh k (fun w => F w * drift k w i) j Hk (known_mult HF (@drift_known k i Hi)) Hj). ring.
Qed.
(** auxiliary definition of a statement or a proof; models no code of /repo *)
Definition shot_bound : R := 2 * rate0 * V2 + 2 * (e0 * e0) * (c * (1 + V2)).
(** auxiliary definition of a statement or a proof; models no code of /repo *)
Definition diff_bound : R := 24 * T * shot_bound + 24 * (T * T) * e0 * (kappa + 1) + 12 * e0 * (c * rate0 * (V2 + V4)).
Lemma shot_square k : (k < n)%nat -> E (fun w => norm2 d (shot k w)) <= shot_bound.
Proof.
  intros Hk. pose proof HI as (HE & HE1 & _ & _). destruct (rate_le k) as [R1 R2]. destruct (He k) as [P1 P2]. pose proof V2_pos as PV.
  apply Rle_trans with (E (fun w => (2 * rate (eps k) + 2 * (eps k * eps k) * c) * norm2 d (y k w) + (2 * (eps k * eps k) * c) * 1)).
  - apply Emono; [apply known_norm2; intros; now apply KS| |].
    + apply known_plus; apply known_scale; [apply known_norm2; intros; apply KY; auto; lia|apply known_const].
    + intros w. rewrite (@norm2_ext d (shot k w) (fun a => drift k w a + (- eps k) * h k w a)) by (intros; unfold shot; ring). eapply Rle_trans; [apply norm2_sum_le|]. rewrite norm2_scale. pose proof (drift_norm k w) as B1. pose proof (Hb k w) as B2.
      assert (P : 0 <= eps k * eps k) by apply Rle_0_sqr. apply (Rmult_le_compat_l (2 * (eps k * eps k))) in B2; [|lra]. lra.
  - rewrite (@E_plus W E HE (fun w => (2 * rate (eps k) + 2 * (eps k * eps k) * c) * norm2 d (y k w))), (@E_scale W E HE _ (fun w => norm2 d (y k w))), (@E_scale W E HE _ (fun _ => 1)), HE1. pose proof (@HV2 k ltac:(lia)) as L.
    assert (Q : eps k * eps k * c <= e0 * e0 * c) by (apply Rmult_le_compat_r; auto; apply Rmult_le_compat; auto). assert (Q0 : 0 <= eps k * eps k * c) by (apply Rmult_le_pos; auto; apply Rle_0_sqr).
    apply Rle_trans with ((2 * rate (eps k) + 2 * (eps k * eps k) * c) * V2 + 2 * (eps k * eps k) * c * 1); [apply Rplus_le_compat_r; apply Rmult_le_compat_l; lra|]. unfold shot_bound.
    assert (Q1 : rate (eps k) * V2 <= rate0 * V2) by (now apply Rmult_le_compat_r). assert (Q2 : eps k * eps k * c * V2 <= e0 * e0 * c * V2) by (now apply Rmult_le_compat_r). lra.
Qed.
Lemma diff_square k : (k < n)%nat -> E (fun w => diff k w * diff k w) <= eps k * diff_bound.
Proof.
  intros Hk. pose proof HI as (HE & HE1 & _ & Hst). destruct (Hst k Hk) as [_ Hz]. destruct (rate_le k) as [R1 R2]. destruct (He k) as [P1 P2]. pose proof V2_pos as PV. pose proof V4_pos as PV4. pose proof e0_pos as P0.
  set (e := eps k) in *. set (q := sqrt (2 * T * e)). assert (Q : q * q = 2 * T * e) by (apply sqrt_sqrt; apply Rmult_le_pos; lra).
  assert (Pee : 0 <= e * e) by apply Rle_0_sqr. assert (PTe : 0 <= T * e) by (now apply Rmult_le_pos). assert (PTT : 0 <= T * T * (e * e)) by (apply Rmult_le_pos; apply Rle_0_sqr).
  set (Y := fun w => norm2 d (y k w)). set (si := fun w => shot k w i). set (sj := fun w => shot k w j). set (zi := fun w => z k w i). set (zj := fun w => z k w j).
  assert (K1 : known n n si) by (now apply KS). assert (K2 : known n n sj) by (now apply KS). assert (K3 : known n n zi) by (now apply KZ). assert (K4 : known n n zj) by (now apply KZ). assert (K5 : known n n Y) by (apply known_norm2; intros; apply KY; auto; lia).
  set (G := fun w => 12 * (T * e) * (si w * si w * (zj w * zj w)) + (12 * (T * e) * (sj w * sj w * (zi w * zi w)) + (12 * (T * T * (e * e)) * (zi w * zi w * (zi w * zi w)) + (12 * (T * T * (e * e)) * (zj w * zj w * (zj w * zj w)) + (24 * (T * T * (e * e)) * 1 + (12 * (e * e) * (c * rate e)) * (Y w + Y w * Y w)))))).
  apply Rle_trans with (E G).
  - apply Emono.
    + apply known_mult; apply (@known_mono W idx z d (Datatypes.S k) (Datatypes.S k)); auto; apply diff_known.
    + unfold G. repeat (apply known_plus; [apply known_scale; repeat apply known_mult; auto; apply known_const|]). apply known_scale. apply known_plus; [auto|now apply known_mult].
    + intros w. unfold diff. set (d1 := diff1 k w). set (d2 := diff2 k w). set (d3 := diff3 k w).
      assert (B0 : (d1 + (d2 + d3)) * (d1 + (d2 + d3)) <= 3 * (d1 * d1) + 3 * (d2 * d2) + 3 * (d3 * d3)).
      { clear. pose proof (Rle_0_sqr (d1 - d2)) as H1. pose proof (Rle_0_sqr (d1 - d3)) as H2. pose proof (Rle_0_sqr (d2 - d3)) as H3. unfold Rsqr in *. lra. }
      assert (B1 : d1 * d1 <= 4 * (T * e) * (si w * si w * (zj w * zj w)) + 4 * (T * e) * (sj w * sj w * (zi w * zi w))).
      { unfold d1, diff1. fold e q. fold (si w) (sj w) (zi w) (zj w). pose proof (sq_sum_le (si w * zj w) (zi w * sj w)) as BB. replace (q * (si w * zj w + zi w * sj w) * (q * (si w * zj w + zi w * sj w))) with (q * q * ((si w * zj w + zi w * sj w) * (si w * zj w + zi w * sj w))) by ring. rewrite Q.
        apply (Rmult_le_compat_l (2 * T * e)) in BB; [|lra]. lra. }
      assert (B2 : d2 * d2 <= 4 * (T * T * (e * e)) * (zi w * zi w * (zi w * zi w)) + 4 * (T * T * (e * e)) * (zj w * zj w * (zj w * zj w)) + 8 * (T * T * (e * e))).
      { unfold d2, diff2. fold e. fold (zi w) (zj w). set (u := unit_matrix i j). assert (Pu : u * u <= 1) by (unfold u, unit_matrix; destruct (i =? j)%nat; lra). set (a := zi w). set (b := zj w).
        assert (BB : (a * b - u) * (a * b - u) <= a * a * (a * a) + b * b * (b * b) + 2). { clear - Pu. pose proof (Rle_0_sqr (a * a - b * b)) as H1. pose proof (Rle_0_sqr (a * b + u)) as H2. unfold Rsqr in *. lra. }
        apply (Rmult_le_compat_l (4 * (T * T * (e * e)))) in BB; [|lra]. lra. }
      assert (B3 : d3 * d3 <= 4 * (e * e) * (c * rate e) * (Y w + Y w * Y w)).
      { unfold d3, diff3. fold e. set (hi := h k w i). set (hj := h k w j). set (pi := drift k w i). set (pj := drift k w j). pose proof (Hb k w) as Bh. fold (Y w) in Bh. pose proof (drift_norm k w) as Bp. fold e (Y w) in Bp.
        pose proof (@norm2_term d (h k w) i Hi) as T1. pose proof (@norm2_term d (h k w) j Hj) as T2. pose proof (@norm2_term d (drift k w) i Hi) as T3. pose proof (@norm2_term d (drift k w) j Hj) as T4. fold hi in T1. fold hj in T2. fold pi in T3. fold pj in T4.
        set (H := c * (1 + Y w)) in *. set (P := rate e * Y w) in *. assert (S1 : hi * hi * (pj * pj) <= H * P) by (apply Rmult_le_compat; try apply Rle_0_sqr; lra). assert (S2 : pi * pi * (hj * hj) <= P * H) by (apply Rmult_le_compat; try apply Rle_0_sqr; lra).
        pose proof (sq_sum_le (hi * pj) (pi * hj)) as BB. apply (Rmult_le_compat_l (e * e)) in BB; [|exact Pee]. apply (Rmult_le_compat_l (2 * (e * e))) in S1; [|lra]. apply (Rmult_le_compat_l (2 * (e * e))) in S2; [|lra].
        replace (4 * (e * e) * (c * rate e) * (Y w + Y w * Y w)) with (4 * (e * e) * (H * P)) by (unfold H, P; ring). lra. }
      unfold G. lra.
  - unfold G. rewrite (@E_plus W E HE (fun w => 12 * (T * e) * (si w * si w * (zj w * zj w)))), (@E_plus W E HE (fun w => 12 * (T * e) * (sj w * sj w * (zi w * zi w)))), (@E_plus W E HE (fun w => 12 * (T * T * (e * e)) * (zi w * zi w * (zi w * zi w)))), (@E_plus W E HE (fun w => 12 * (T * T * (e * e)) * (zj w * zj w * (zj w * zj w)))), (@E_plus W E HE (fun w => 24 * (T * T * (e * e)) * 1)).
    rewrite (@E_scale W E HE _ (fun w => si w * si w * (zj w * zj w))), (@E_scale W E HE _ (fun w => sj w * sj w * (zi w * zi w))), (@E_scale W E HE _ (fun w => zi w * zi w * (zi w * zi w))), (@E_scale W E HE _ (fun w => zj w * zj w * (zj w * zj w))), (@E_scale W E HE _ (fun _ => 1)), (@E_scale W E HE _ (fun w => Y w + Y w * Y w)), HE1, (@E_plus W E HE Y).
    assert (S1 : E (fun w => si w * si w * (zj w * zj w)) <= shot_bound).
    { unfold zj. rewrite (proj2 (Hz (fun w => si w * si w) (known_mult (@shot_known k i Hi) (@shot_known k i Hi)) j j Hj Hj)). unfold unit_matrix. rewrite Nat.eqb_refl, Rmult_1_r. eapply Rle_trans; [|apply (@shot_square k Hk)]. apply Emono; [now apply known_mult|apply known_norm2; intros; now apply KS|intros w; now apply norm2_term]. }
    assert (S2 : E (fun w => sj w * sj w * (zi w * zi w)) <= shot_bound).
    { unfold zi. rewrite (proj2 (Hz (fun w => sj w * sj w) (known_mult (@shot_known k j Hj) (@shot_known k j Hj)) i i Hi Hi)). unfold unit_matrix. rewrite Nat.eqb_refl, Rmult_1_r. eapply Rle_trans; [|apply (@shot_square k Hk)]. apply Emono; [now apply known_mult|apply known_norm2; intros; now apply KS|intros w; now apply norm2_term]. }
    pose proof (Hz4 Hk Hi) as S3. pose proof (Hz4 Hk Hj) as S4. fold (zi) in S3. change (E (fun w => z k w i * z k w i * (z k w i * z k w i))) with (E (fun w => zi w * zi w * (zi w * zi w))) in S3. change (E (fun w => z k w j * z k w j * (z k w j * z k w j))) with (E (fun w => zj w * zj w * (zj w * zj w))) in S4.
    assert (S5 : E Y + E (fun w => Y w * Y w) <= V2 + V4) by (apply Rplus_le_compat; [apply HV2|apply HV4]; lia).
    assert (Pk : 0 <= kappa). { eapply Rle_trans; [|exact S3]. rewrite <- (E_zero HE). apply Emono; [apply known_const|repeat apply known_mult; auto|]. intros w. apply Rle_0_sqr. }
    set (x1 := E (fun w => si w * si w * (zj w * zj w))) in *. set (x2 := E (fun w => sj w * sj w * (zi w * zi w))) in *. set (x3 := E (fun w => zi w * zi w * (zi w * zi w))) in *. set (x4 := E (fun w => zj w * zj w * (zj w * zj w))) in *. set (x5 := E Y + E (fun w => Y w * Y w)) in *.
    apply (Rmult_le_compat_l (12 * (T * e))) in S1; [|lra]. apply (Rmult_le_compat_l (12 * (T * e))) in S2; [|lra]. apply (Rmult_le_compat_l (12 * (T * T * (e * e)))) in S3; [|lra]. apply (Rmult_le_compat_l (12 * (T * T * (e * e)))) in S4; [|lra].
    assert (Pcr : 0 <= c * rate e) by (now apply Rmult_le_pos). assert (Pecr : 0 <= 12 * (e * e) * (c * rate e)) by (apply Rmult_le_pos; lra). apply (Rmult_le_compat_l _ _ _ Pecr) in S5.
    assert (U1 : T * T * (e * e) * (kappa + 1) <= e * (T * T * e0 * (kappa + 1))). { replace (T * T * (e * e) * (kappa + 1)) with (e * (T * T * (kappa + 1) * e)) by ring. replace (T * T * e0 * (kappa + 1)) with (T * T * (kappa + 1) * e0) by ring. apply Rmult_le_compat_l; [exact P1|]. apply Rmult_le_compat_l; [|exact P2]. apply Rmult_le_pos; [apply Rle_0_sqr|lra]. }
    assert (U2 : e * e * (c * rate e) * (V2 + V4) <= e * (e0 * (c * rate0 * (V2 + V4)))).
    { replace (e * e * (c * rate e) * (V2 + V4)) with (e * (e * (c * rate e * (V2 + V4)))) by ring. apply Rmult_le_compat_l; [exact P1|]. assert (X1 : c * rate e <= c * rate0) by (now apply Rmult_le_compat_l). assert (X2 : c * rate e * (V2 + V4) <= c * rate0 * (V2 + V4)) by (apply Rmult_le_compat_r; [lra|exact X1]). assert (X3 : 0 <= c * rate e * (V2 + V4)) by (apply Rmult_le_pos; lra). apply Rmult_le_compat; auto. }
    unfold diff_bound. fold x5. clear - S1 S2 S3 S4 S5 U1 U2. lra.
Qed.
Lemma diff_sum m : (m <= n)%nat -> E (fun w => sum_upto m (fun k => r k * diff k w) * sum_upto m (fun k => r k * diff k w)) <= sum_upto m (fun k => r k * r k * (eps k * diff_bound)).
Proof.
  intros Hm. pose proof HI as (HE & HE1 & _). induction m as [|m IH].
  - rewrite (@E_ext W E HE _ (fun _ => 0)) by (intros; unfold sum_upto; cbn; ring). rewrite (E_zero HE). unfold sum_upto. cbn. lra.
  - specialize (IH ltac:(lia)). rewrite sum_upto_S. set (M := fun w => sum_upto m (fun k => r k * diff k w)) in *.
    assert (KM : known m m M) by (apply (@known_sum W idx z d m m m (fun k w => r k * diff k w)); intros k Hk; apply known_scale; apply (@known_mono W idx z d (Datatypes.S k) (Datatypes.S k)); auto; apply diff_known).
    rewrite (@E_ext W E HE _ (fun w => M w * M w + ((2 * r m) * (M w * diff m w) + (r m * r m) * (diff m w * diff m w)))) by (intros w; unfold M; rewrite sum_upto_S; ring).
    rewrite (@E_plus W E HE (fun w => M w * M w)), (@E_plus W E HE (fun w => (2 * r m) * (M w * diff m w))), (@E_scale W E HE _ (fun w => M w * diff m w)), (@E_scale W E HE _ (fun w => diff m w * diff m w)). rewrite (@diff_centred m M) by (auto; lia).
    pose proof (@diff_square m ltac:(lia)) as L. apply (Rmult_le_compat_l (r m * r m)) in L; [|apply Rle_0_sqr]. change (E (fun w => M w * M w) <= sum_upto m (fun k => r k * r k * (eps k * diff_bound))) in IH. lra.
Qed.
(** auxiliary definition of a statement or a proof; models no code of /repo *)
Definition rest_bound : R := 4 * (c * c) * (1 + V4) + 2 * (frob d A * frob d A) * V4.
Lemma rest_known k : (k < n)%nat -> known n n (rest k).
Proof. intros Hk. apply known_plus; apply known_mult; try (now apply KH); apply known_matvec; intros; apply KY; auto; lia. Qed.
Lemma rest_square k : (k < n)%nat -> E (fun w => rest k w * rest k w) <= rest_bound.
Proof.
  intros Hk. pose proof HI as (HE & HE1 & _). set (Y := fun w => norm2 d (y k w)). assert (K5 : known n n Y) by (apply known_norm2; intros; apply KY; auto; lia).
  apply Rle_trans with (E (fun w => (4 * (c * c) + 2 * (frob d A * frob d A)) * (Y w * Y w) + 4 * (c * c) * 1)).
  - apply Emono; [apply known_mult; now apply rest_known|apply known_plus; apply known_scale; [now apply known_mult|apply known_const]|]. intros w. unfold rest. eapply Rle_trans; [apply sq_sum_le|].
    pose proof (Hb k w) as Bh. fold (Y w) in Bh. pose proof (matvec_norm d A (y k w)) as Bm. fold (Y w) in Bm. set (hi := h k w i). set (hj := h k w j). set (ai := matvec d A (y k w) i). set (aj := matvec d A (y k w) j).
    pose proof (@norm2_term d (h k w) i Hi) as T1. pose proof (@norm2_term d (h k w) j Hj) as T2. pose proof (@norm2_term d (matvec d A (y k w)) i Hi) as T3. pose proof (@norm2_term d (matvec d A (y k w)) j Hj) as T4. fold hi in T1. fold hj in T2. fold ai in T3. fold aj in T4.
    set (H := c * (1 + Y w)) in *. set (P := frob d A * Y w) in *. assert (S1 : hi * hi * (hj * hj) <= H * H) by (apply Rmult_le_compat; try apply Rle_0_sqr; lra). assert (S2 : ai * ai * (aj * aj) <= P * P) by (apply Rmult_le_compat; try apply Rle_0_sqr; lra).
    pose proof (sq_sum_le 1 (Y w)) as BB. apply (Rmult_le_compat_l (c * c)) in BB; [|apply Rle_0_sqr]. replace (H * H) with (c * c * ((1 + Y w) * (1 + Y w))) in S1 by (unfold H; ring). replace (P * P) with (frob d A * frob d A * (Y w * Y w)) in S2 by (unfold P; ring). lra.
  - rewrite (@E_plus W E HE (fun w => (4 * (c * c) + 2 * (frob d A * frob d A)) * (Y w * Y w))), (@E_scale W E HE _ (fun w => Y w * Y w)), (@E_scale W E HE _ (fun _ => 1)), HE1. pose proof (@HV4 k ltac:(lia)) as L. fold (Y) in L. change (E (fun w => norm2 d (y k w) * norm2 d (y k w))) with (E (fun w => Y w * Y w)) in L.
    assert (P : 0 <= 4 * (c * c) + 2 * (frob d A * frob d A)) by (pose proof (Rle_0_sqr c); pose proof (Rle_0_sqr (frob d A)); unfold Rsqr in *; lra). apply (Rmult_le_compat_l _ _ _ P) in L. unfold rest_bound. lra.
Qed.
Lemma rest_sum m : (m <= n)%nat -> let b := sum_upto m (fun k => r k * (eps k * eps k)) in E (fun w => sum_upto m (fun k => r k * (eps k * eps k) * rest k w) * sum_upto m (fun k => r k * (eps k * eps k) * rest k w)) <= b * b * rest_bound.
Proof.
  intros Hm b. pose proof HI as (HE & HE1 & _). assert (Pw : forall k, 0 <= r k * (eps k * eps k)) by (intros; apply Rmult_le_pos; [apply Hr|apply Rle_0_sqr]). assert (Pb : 0 <= b) by (apply sum_upto_nonneg; auto).
  apply Rle_trans with (E (fun w => b * sum_upto m (fun k => r k * (eps k * eps k) * (rest k w * rest k w)))).
  - apply Emono.
    + apply known_mult; apply (@known_sum W idx z d n n m (fun k w => r k * (eps k * eps k) * rest k w)); intros k Hk; apply known_scale, rest_known; lia.
    + apply known_scale. apply (@known_sum W idx z d n n m (fun k w => r k * (eps k * eps k) * (rest k w * rest k w))). intros k Hk. apply known_scale, known_mult; apply rest_known; lia.
    + intros w. apply (@weighted_cauchy m (fun k => r k * (eps k * eps k)) (fun k => rest k w)). auto.
  - rewrite (@E_scale W E HE b (fun w => sum_upto m (fun k => r k * (eps k * eps k) * (rest k w * rest k w)))), (@E_sum W E HE m (fun k w => r k * (eps k * eps k) * (rest k w * rest k w))). rewrite Rmult_assoc. apply Rmult_le_compat_l; [exact Pb|]. unfold b. rewrite (Rmult_comm _ rest_bound), <- sum_upto_scale. apply sum_upto_le. intros k Hk.
    rewrite (@E_scale W E HE _ (fun w => rest k w * rest k w)), (Rmult_comm rest_bound). apply Rmult_le_compat_l; [auto|]. apply rest_square. lia.
Qed.
(** summation by parts *)
Lemma abel_pointwise m (u : nat -> R) : let s := sum_upto (Datatypes.S m) (fun k => r k * (u k - u (Datatypes.S k))) in let g := fun k => match k with O => r O | Datatypes.S l => r k - r l end in
  s * s <= 2 * r m * sum_upto (Datatypes.S m) (fun k => g k * (u k * u k)) + 2 * (r m * r m) * (u (Datatypes.S m) * u (Datatypes.S m)).
Proof.
  intros s g. assert (Pg : forall k, (k < Datatypes.S m)%nat -> 0 <= g k) by (intros [|k] _; unfold g; [apply Hr|pose proof (Hmon k); lra]).
  assert (Es : s = sum_upto (Datatypes.S m) (fun k => g k * u k) - r m * u (Datatypes.S m)) by apply (abel r m u). assert (Ew : sum_upto (Datatypes.S m) g = r m) by apply (abel_weights r m).
  pose proof (@weighted_cauchy (Datatypes.S m) g u Pg) as C. rewrite Ew in C. rewrite Es. set (x := sum_upto (Datatypes.S m) (fun k => g k * u k)) in *. set (v := r m * u (Datatypes.S m)). set (x2 := sum_upto (Datatypes.S m) (fun k => g k * (u k * u k))) in *.
  replace (2 * (r m * r m) * (u (Datatypes.S m) * u (Datatypes.S m))) with (2 * (v * v)) by (unfold v; ring). pose proof (sq_sum_le x (- v)) as Q. clear - C Q. lra.
Qed.
Lemma boundary_square m : (Datatypes.S m <= n)%nat -> let u := fun k w => y k w i * y k w j in
  E (fun w => sum_upto (Datatypes.S m) (fun k => r k * (u k w - u (Datatypes.S k) w)) * sum_upto (Datatypes.S m) (fun k => r k * (u k w - u (Datatypes.S k) w))) <= 4 * (r m * r m) * V4.
Proof.
  intros Hm u. pose proof HI as (HE & HE1 & _). set (g := fun k => match k with O => r O | Datatypes.S l => r k - r l end). assert (Pg : forall k, 0 <= g k) by (intros [|k]; unfold g; [apply Hr|pose proof (Hmon k); lra]).
  assert (KU : forall k, (k <= n)%nat -> known n n (u k)) by (intros k Hk; apply known_mult; now apply KY).
  assert (EU : forall k, (k <= n)%nat -> E (fun w => u k w * u k w) <= V4).
  { intros k Hk. eapply Rle_trans; [|apply (HV4 Hk)]. assert (K : known n n (fun w => norm2 d (y k w))) by (apply known_norm2; intros; now apply KY). apply Emono; [apply known_mult; auto|now apply known_mult|]. intros w. unfold u.
    pose proof (@norm2_term d (y k w) i Hi). pose proof (@norm2_term d (y k w) j Hj). replace (y k w i * y k w j * (y k w i * y k w j)) with (y k w i * y k w i * (y k w j * y k w j)) by ring. apply Rmult_le_compat; auto; apply Rle_0_sqr. }
  apply Rle_trans with (E (fun w => 2 * r m * sum_upto (Datatypes.S m) (fun k => g k * (u k w * u k w)) + 2 * (r m * r m) * (u (Datatypes.S m) w * u (Datatypes.S m) w))).
  - apply Emono.
    + apply known_mult; apply (@known_sum W idx z d n n (Datatypes.S m) (fun k w => r k * (u k w - u (Datatypes.S k) w))); intros k Hk; apply known_scale; apply (@known_ext _ idx z d n n (fun w => u k w + (-1) * u (Datatypes.S k) w)); try (intros; ring); (apply known_plus; [|apply known_scale]; apply KU; lia).
    + apply known_plus; apply known_scale; [|apply known_mult; apply KU; lia]. apply (@known_sum W idx z d n n (Datatypes.S m) (fun k w => g k * (u k w * u k w))). intros k Hk. apply known_scale, known_mult; apply KU; lia.
    + intros w. apply (@abel_pointwise m (fun k => u k w)).
  - rewrite (@E_plus W E HE (fun w => 2 * r m * sum_upto (Datatypes.S m) (fun k => g k * (u k w * u k w)))), (@E_scale W E HE (2 * r m) (fun w => sum_upto (Datatypes.S m) (fun k => g k * (u k w * u k w)))), (@E_scale W E HE (2 * (r m * r m)) (fun w => u (Datatypes.S m) w * u (Datatypes.S m) w)), (@E_sum W E HE (Datatypes.S m) (fun k w => g k * (u k w * u k w))).
    assert (S1 : sum_upto (Datatypes.S m) (fun k => E (fun w => g k * (u k w * u k w))) <= V4 * r m).
    { apply Rle_trans with (sum_upto (Datatypes.S m) (fun k => V4 * g k)).
      - apply sum_upto_le. intros k Hk. rewrite (@E_scale W E HE (g k) (fun w => u k w * u k w)), (Rmult_comm V4). apply Rmult_le_compat_l; [apply Pg|]. apply EU. lia.
      - rewrite sum_upto_scale. unfold g. rewrite (abel_weights r m). lra. }
    pose proof (EU (Datatypes.S m) Hm) as S2. assert (P1 : 0 <= 2 * r m) by (pose proof (Hr m); lra). assert (P2 : 0 <= 2 * (r m * r m)) by (pose proof (Rle_0_sqr (r m)) as Q; unfold Rsqr in Q; lra).
    apply (Rmult_le_compat_l _ _ _ P1) in S1. apply (Rmult_le_compat_l _ _ _ P2) in S2. lra.
Qed.
Lemma symm_known m : (m <= n)%nat -> known n n (fun w => sum_upto m (fun k => r k * eps k * symm k w)).
Proof.
  intros Hm. apply (@known_sum W idx z d n n m (fun k w => r k * eps k * symm k w)). intros k Hk. apply known_scale. unfold symm. assert (K1 : forall a, (a < d)%nat -> known n n (fun w => y k w a)) by (intros; apply KY; auto; lia). assert (K2 : forall a, known n n (fun w => matvec d A (y k w) a)) by (intros; now apply known_matvec).
  apply (@known_ext _ idx z d n n (fun w => (matvec d A (y k w) i * y k w j + y k w i * matvec d A (y k w) j) + (fun _ => - (2 * T * unit_matrix i j)) w)); [intros; ring|]. apply known_plus; [apply known_plus; apply known_mult; auto|apply known_const].
Qed.
Lemma diff_bound_pos : (0 < n)%nat -> 0 <= diff_bound.
Proof.
  intros Hn. pose proof V2_pos as P1. pose proof V4_pos as P2. pose proof e0_pos as P3. pose proof HI as (HE & _). destruct (rate_le 0) as [R1 R2]. assert (Pr : 0 <= rate0) by lra.
  assert (Pk : 0 <= kappa). { eapply Rle_trans; [|apply (Hz4 Hn Hi)]. rewrite <- (E_zero HE). assert (K : known n n (fun w => z 0 w i)) by (now apply KZ). apply Emono; [apply known_const|repeat apply known_mult; auto|]. intros w. apply Rle_0_sqr. }
  unfold diff_bound, shot_bound. assert (0 <= rate0 * V2) by (now apply Rmult_le_pos). assert (0 <= e0 * e0 * (c * (1 + V2))) by (repeat apply Rmult_le_pos; auto; lra).
  repeat apply Rplus_le_le_0_compat; repeat apply Rmult_le_pos; auto; lra.
Qed.
Lemma symm_square m : (Datatypes.S m <= n)%nat -> let a := sum_upto (Datatypes.S m) (fun k => r k * eps k) in let b := sum_upto (Datatypes.S m) (fun k => r k * (eps k * eps k)) in
  E (fun w => sum_upto (Datatypes.S m) (fun k => r k * eps k * symm k w) * sum_upto (Datatypes.S m) (fun k => r k * eps k * symm k w)) <= 12 * V4 * (r m * r m) + 3 * diff_bound * (r m * a) + 3 * rest_bound * (b * b).
Proof.
  intros Hm a b. pose proof HI as (HE & HE1 & _). set (u := fun k w => y k w i * y k w j). set (S1 := fun w => sum_upto (Datatypes.S m) (fun k => r k * (u k w - u (Datatypes.S k) w))). set (S2 := fun w => sum_upto (Datatypes.S m) (fun k => r k * diff k w)). set (S3 := fun w => sum_upto (Datatypes.S m) (fun k => r k * (eps k * eps k) * rest k w)).
  assert (SE : forall w, sum_upto (Datatypes.S m) (fun k => r k * eps k * symm k w) = S1 w + (S2 w + S3 w)).
  { intros w. unfold S1, S2, S3. rewrite <- !sum_upto_plus. apply sum_upto_ext. intros k _. rewrite Rmult_assoc, (@square_step k w). unfold u. ring. }
  assert (KU : forall k, (k <= n)%nat -> known n n (u k)) by (intros k Hk; apply known_mult; now apply KY).
  assert (K1 : known n n S1) by (apply (@known_sum W idx z d n n (Datatypes.S m) (fun k w => r k * (u k w - u (Datatypes.S k) w))); intros k Hk; apply known_scale; apply (@known_ext _ idx z d n n (fun w => u k w + (-1) * u (Datatypes.S k) w)); try (intros; ring); (apply known_plus; [|apply known_scale]; apply KU; lia)).
  assert (K2 : known n n S2) by (apply (@known_sum W idx z d n n (Datatypes.S m) (fun k w => r k * diff k w)); intros k Hk; apply known_scale; apply (@known_mono W idx z d (Datatypes.S k) (Datatypes.S k)); try lia; apply diff_known).
  assert (K3 : known n n S3) by (apply (@known_sum W idx z d n n (Datatypes.S m) (fun k w => r k * (eps k * eps k) * rest k w)); intros k Hk; apply known_scale, rest_known; lia).
  pose proof (@boundary_square m Hm) as B1. cbv zeta in B1. change (E (fun w => S1 w * S1 w) <= 4 * (r m * r m) * V4) in B1. pose proof (@diff_sum (Datatypes.S m) Hm) as B2. change (E (fun w => S2 w * S2 w) <= sum_upto (Datatypes.S m) (fun k => r k * r k * (eps k * diff_bound))) in B2. pose proof (@rest_sum (Datatypes.S m) Hm) as B3. cbv zeta in B3. change (E (fun w => S3 w * S3 w) <= b * b * rest_bound) in B3.
  assert (mono_r : forall k, (k <= m)%nat -> r k <= r m) by (clear - Hmon; intros k Hk; induction Hk as [|m' _ IH]; [right; reflexivity|eapply Rle_trans; [exact IH|apply Hmon]]).
  assert (B2' : sum_upto (Datatypes.S m) (fun k => r k * r k * (eps k * diff_bound)) <= diff_bound * (r m * a)).
  { unfold a. rewrite <- Rmult_assoc, <- sum_upto_scale. apply sum_upto_le. intros k Hk. pose proof (mono_r k ltac:(lia)) as L. pose proof (@diff_bound_pos ltac:(lia)) as Pd. replace (r k * r k * (eps k * diff_bound)) with ((diff_bound * (r k * eps k)) * r k) by ring. replace (diff_bound * r m * (r k * eps k)) with ((diff_bound * (r k * eps k)) * r m) by ring.
    apply Rmult_le_compat_l; [|exact L]. apply Rmult_le_pos; [exact Pd|]. apply Rmult_le_pos; [apply Hr|apply He]. }
  apply Rle_trans with (E (fun w => 3 * (S1 w * S1 w) + (3 * (S2 w * S2 w) + 3 * (S3 w * S3 w)))).
  - apply Emono; [apply known_mult; now apply symm_known|repeat apply known_plus; apply known_scale, known_mult; auto|]. intros w. rewrite SE. pose proof (Rle_0_sqr (S1 w - S2 w)) as H1. pose proof (Rle_0_sqr (S1 w - S3 w)) as H2. pose proof (Rle_0_sqr (S2 w - S3 w)) as H3. unfold Rsqr in *. lra.
  - rewrite (@E_plus W E HE (fun w => 3 * (S1 w * S1 w))), (@E_plus W E HE (fun w => 3 * (S2 w * S2 w))), (@E_scale W E HE 3 (fun w => S1 w * S1 w)), (@E_scale W E HE 3 (fun w => S2 w * S2 w)), (@E_scale W E HE 3 (fun w => S3 w * S3 w)). lra.
Qed.
End Pair.
(** the weighted average of the products: the Lyapunov equation applied to the sums *)
(** auxiliary definition of a statement or a proof; models no code of /repo *)
Definition second_bound (q1 q2 q3 : R) : R := / (4 * (lam * lam)) * (INR d * INR d * (12 * V4 * q1 + 3 * diff_bound * q2 + 3 * rest_bound * q3)).
Lemma second_square m i j : (Datatypes.S m <= n)%nat -> (i < d)%nat -> (j < d)%nat -> let a := sum_upto (Datatypes.S m) (fun k => r k * eps k) in let b := sum_upto (Datatypes.S m) (fun k => r k * (eps k * eps k)) in
  let D := fun w => sum_upto (Datatypes.S m) (fun k => r k * eps k * (y k w i * y k w j - T * B i j)) in
  E (fun w => D w * D w) <= second_bound (r m * r m) (r m * a) (b * b).
Proof.
  intros Hm Hi Hj a b D. pose proof HI as (HE & HE1 & _). destruct HA as (Asym & Plam & Hco).
  set (V := fun p q w => sum_upto (Datatypes.S m) (fun k => r k * eps k * (y k w p * y k w q - T * B p q))). set (X := fun p q w => sum_upto (Datatypes.S m) (fun k => r k * eps k * symm p q k w)).
  assert (KV : forall p q, (p < d)%nat -> (q < d)%nat -> known n n (V p q)).
  { intros p q Hp Hq. apply (@known_sum W idx z d n n (Datatypes.S m) (fun k w => r k * eps k * (y k w p * y k w q - T * B p q))). intros k Hk. apply known_scale. apply (@known_ext _ idx z d n n (fun w => y k w p * y k w q + (fun _ => - (T * B p q)) w)); [intros; ring|]. apply known_plus; [apply known_mult; apply KY; auto; lia|apply known_const]. }
  assert (KX : forall p q, (p < d)%nat -> (q < d)%nat -> known n n (X p q)) by (intros; now apply symm_known).
  assert (Bsym : forall p q, (p < d)%nat -> (q < d)%nat -> B p q = B q p).
  { intros p q Hp Hq. transitivity (sum_upto d (fun k => B p k * sum_upto d (fun l => A k l * B q l))).
    - rewrite (@sum_upto_ext d _ (fun k => if (q =? k)%nat then B p k else 0)); [symmetry; apply (@sum_upto_delta d (B p) q Hq)|]. intros k Hk.
      rewrite (@sum_upto_ext d _ (fun l => B q l * A l k)) by (intros l Hl; rewrite (Asym k l) by auto; ring). rewrite (proj2 (HB Hq Hk)). unfold unit_matrix. destruct (q =? k)%nat; ring.
    - rewrite (@sum_upto_ext d _ (fun k => sum_upto d (fun l => B q l * (B p k * A k l)))) by (intros k Hk; rewrite <- sum_upto_scale; apply sum_upto_ext; intros; ring). rewrite sum_upto_swap.
      rewrite (@sum_upto_ext d _ (fun l => if (p =? l)%nat then B q l else 0)); [apply (@sum_upto_delta d (B q) p Hp)|]. intros l Hl. rewrite sum_upto_scale, (proj2 (HB Hp Hl)). unfold unit_matrix. destruct (p =? l)%nat; ring. }
  assert (Ly : forall w, 4 * (lam * lam) * frob d (fun p q => V p q w) <= frob d (fun p q => X p q w)).
  { intros w. apply (@lyapunov d A lam (fun p q => V p q w) (fun p q => X p q w) Plam Hco).
    - intros p q Hp Hq. unfold V. apply sum_upto_ext. intros k _. rewrite (Bsym p q) by auto. ring.
    - assert (L1 : forall p q, (p < d)%nat -> (q < d)%nat -> sum_upto d (fun l => A p l * V l q w) = sum_upto (Datatypes.S m) (fun k => r k * eps k * (matvec d A (y k w) p * y k w q - T * unit_matrix p q))).
      { intros p q Hp Hq. unfold V. rewrite (@sum_upto_ext d _ (fun l => sum_upto (Datatypes.S m) (fun k => A p l * (r k * eps k * (y k w l * y k w q - T * B l q))))) by (intros; now rewrite <- sum_upto_scale). rewrite sum_upto_swap. apply sum_upto_ext. intros k _.
        rewrite (@sum_upto_ext d _ (fun l => (r k * eps k * y k w q) * (A p l * y k w l) + (- (r k * eps k * T)) * (A p l * B l q))) by (intros; ring). rewrite sum_upto_plus, !sum_upto_scale, (proj1 (HB Hp Hq)). unfold matvec. ring. }
      intros p q Hp Hq. rewrite (L1 p q Hp Hq), (L1 q p Hq Hp), <- sum_upto_plus. unfold X. apply sum_upto_ext. intros k _. unfold symm. assert (Us : unit_matrix q p = unit_matrix p q) by (unfold unit_matrix; now rewrite Nat.eqb_sym). rewrite Us. ring. }
  assert (P4 : 0 < 4 * (lam * lam)) by (assert (0 < lam * lam) by (now apply Rmult_lt_0_compat); lra). assert (Pi4 : 0 < / (4 * (lam * lam))) by (now apply Rinv_0_lt_compat).
  apply Rle_trans with (E (fun w => / (4 * (lam * lam)) * frob d (fun p q => X p q w))).
  - apply Emono; [apply known_mult; apply (KV i j Hi Hj)| |].
    + apply known_scale. unfold frob. apply (@known_sum W idx z d n n d (fun p w => sum_upto d (fun q => X p q w * X p q w))). intros p Hp. apply (@known_sum W idx z d n n d (fun q w => X p q w * X p q w)). intros q Hq. apply known_mult; auto.
    + intros w. apply Rmult_le_reg_l with (4 * (lam * lam)); [exact P4|]. rewrite <- (Rmult_assoc (4 * (lam * lam)) (/ (4 * (lam * lam)))), Rinv_r, Rmult_1_l by lra. eapply Rle_trans; [|apply Ly]. apply Rmult_le_compat_l; [lra|]. change (V i j w * V i j w <= frob d (fun p q => V p q w)).
      unfold frob. eapply Rle_trans; [|apply (@sum_upto_term d (fun p => sum_upto d (fun q => V p q w * V p q w)) i); auto; intros; apply sum_upto_nonneg; intros; apply Rle_0_sqr]. apply (@sum_upto_term d (fun q => V i q w * V i q w) j); auto. intros; apply Rle_0_sqr.
  - rewrite (@E_scale W E HE _ (fun w => frob d (fun p q => X p q w))). unfold second_bound. apply Rmult_le_compat_l; [lra|]. unfold frob. rewrite (@E_sum W E HE d (fun p w => sum_upto d (fun q => X p q w * X p q w))).
    rewrite Rmult_assoc, <- sum_const. apply sum_upto_le. intros p Hp. rewrite (@E_sum W E HE d (fun q w => X p q w * X p q w)), <- sum_const. apply sum_upto_le. intros q Hq. apply (@symm_square p q Hp Hq m Hm).
Qed.
End Second.
