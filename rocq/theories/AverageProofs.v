(** Averages along a run with independent batches and noise: summation by parts and the martingale of the errors. *)
From Coq Require Import Reals Lra Psatz.
From Verif Require Import Base ListUtil TreeUtilSpec TreeUtilProofs PotentialSpec ExpectSpec ExpectProofs GaussianLimit GaussianMatrix GaussianSpec GaussianProofs MinibatchSpec MinibatchProofs.
Open Scope R_scope.
Set Implicit Arguments.

Lemma weighted_cauchy n c v : (forall k, (k < n)%nat -> 0 <= c k) -> sum_upto n (fun k => c k * v k) * sum_upto n (fun k => c k * v k) <= sum_upto n c * sum_upto n (fun k => c k * (v k * v k)).
Proof.
  intros Hc. pose proof (cauchy n (fun k => sqrt (c k)) (fun k => sqrt (c k) * v k)) as C. unfold norm2 in C.
  assert (Q : forall k, (k < n)%nat -> sqrt (c k) * sqrt (c k) = c k) by (intros; apply sqrt_sqrt; auto).
  rewrite (@sum_upto_ext n (fun i => sqrt (c i) * (sqrt (c i) * v i)) (fun k => c k * v k)) in C by (intros k Hk; rewrite <- (Q k Hk) at 3; ring).
  rewrite (@sum_upto_ext n (fun i => sqrt (c i) * sqrt (c i)) c) in C by (intros k Hk; apply Q; auto).
  rewrite (@sum_upto_ext n (fun i => sqrt (c i) * v i * (sqrt (c i) * v i)) (fun k => c k * (v k * v k))) in C by (intros k Hk; rewrite <- (Q k Hk) at 3; ring). exact C.
Qed.

Section Average.
Variables (W : Type) (idx : nat -> W -> list nat) (z : nat -> W -> nat -> R) (d : nat) (E : (W -> R) -> R) (N mb n : nat).
Notation known := (known idx z d).
Hypothesis HI : independent_run idx z d E N mb n.
Variables (y h : nat -> W -> nat -> R) (A B : nat -> nat -> R) (eps : nat -> R) (T S V e0 : R).
Hypothesis Ky : forall k i, (i < d)%nat -> known k k (fun w => y k w i).
Hypothesis Kh : forall k i, (i < d)%nat -> known (Datatypes.S k) k (fun w => h k w i).
Hypothesis Hh : forall k F i, (k < n)%nat -> known k k F -> (i < d)%nat -> E (fun w => F w * h k w i) = 0.
Hypothesis HT : 0 <= T.
Hypothesis HV : forall k i, (k <= n)%nat -> (i < d)%nat -> E (fun w => y k w i * y k w i) <= V.
Hypothesis HS : forall k i, (k < n)%nat -> (i < d)%nat -> E (fun w => h k w i * h k w i) <= S.
Hypothesis HS0 : 0 <= S.
Hypothesis HV0 : 0 <= V.
Hypothesis He : forall k, 0 <= eps k <= e0.
Hypothesis Hstep : forall k w i, (i < d)%nat -> y (Datatypes.S k) w i = y k w i - eps k * (matvec d A (y k w) i + h k w i) + sqrt (2 * T * eps k) * z k w i.
Hypothesis HB : inverse_matrix d A B.
(** the weights are r k * eps k *)
Variable r : nat -> R.
Hypothesis Hr : forall k, 0 <= r k.
Hypothesis Hmon : forall k, r k <= r (Datatypes.S k).

Lemma E_mono F G : known n n F -> known n n G -> (forall w, F w <= G w) -> E F <= E G.
Proof.
  intros KF KG H. destruct HI as (HE & _ & Hp & _). assert (P : 0 <= E (fun w => G w + (-1) * F w)).
  { apply Hp; [apply known_plus; [exact KG|apply known_scale; exact KF]|]. intros w. specialize (H w). lra. }
  rewrite (@E_plus W E HE G), (@E_scale W E HE (-1) F) in P. lra.
Qed.
(** auxiliary definition of a statement or a proof; models no code of /repo *)
Definition mart (m : nat) (w : W) (i : nat) : R := sum_upto m (fun k => r k * ((- eps k) * h k w i + sqrt (2 * T * eps k) * z k w i)).
Lemma mart_known m i : (i < d)%nat -> known m m (fun w => mart m w i).
Proof.
  intros Hi. apply (@known_sum W idx z d m m m (fun k w => r k * ((- eps k) * h k w i + sqrt (2 * T * eps k) * z k w i))). intros k Hk. apply known_scale. apply known_plus; apply known_scale.
  - apply (@known_mono W idx z d (Datatypes.S k) k); auto; lia.
  - apply known_noise; auto.
Qed.
Lemma mart_square m i : (m <= n)%nat -> (i < d)%nat -> E (fun w => mart m w i * mart m w i) <= sum_upto m (fun k => r k * r k * (eps k * eps k * S + 2 * T * eps k)).
Proof.
  intros Hm Hi. destruct HI as (HE & HE1 & _ & Hst). induction m as [|m IH].
  - rewrite (@E_ext W E HE _ (fun _ => 0)) by (intros; unfold mart, sum_upto; cbn; ring). rewrite (E_zero HE). unfold sum_upto. cbn. lra.
  - specialize (IH ltac:(lia)). destruct (Hst m ltac:(lia)) as [_ Hz]. rewrite sum_upto_S. set (q := sqrt (2 * T * eps m)). assert (Q : q * q = 2 * T * eps m) by (apply sqrt_sqrt; apply Rmult_le_pos; [lra|apply He]).
    assert (KM := @mart_known m i Hi). assert (KM' : known (Datatypes.S m) m (fun w => mart m w i)) by (apply (@known_mono W idx z d m m); auto).
    set (M := fun w => mart m w i) in *. set (Z := fun w => z m w i). set (H := fun w => h m w i).
    rewrite (@E_ext W E HE _ (fun w => M w * M w + ((2 * r m * - eps m) * (M w * H w) + ((2 * r m * q) * (M w * Z w) + (r m * r m * (eps m * eps m) * (H w * H w) + ((2 * (r m * r m) * - eps m * q) * (H w * Z w) + (r m * r m * (q * q)) * (1 * (Z w * Z w)))))))).
    2:{ intros w. unfold M, H, Z, mart. rewrite sum_upto_S. fold q. ring. }
    rewrite (@E_plus W E HE (fun w => M w * M w)), (@E_plus W E HE (fun w => (2 * r m * - eps m) * (M w * H w))), (@E_plus W E HE (fun w => (2 * r m * q) * (M w * Z w))), (@E_plus W E HE (fun w => r m * r m * (eps m * eps m) * (H w * H w))), (@E_plus W E HE (fun w => (2 * (r m * r m) * - eps m * q) * (H w * Z w))).
    rewrite (@E_scale W E HE _ (fun w => M w * H w)), (@E_scale W E HE _ (fun w => M w * Z w)), (@E_scale W E HE _ (fun w => H w * H w)), (@E_scale W E HE _ (fun w => H w * Z w)), (@E_scale W E HE _ (fun w => 1 * (Z w * Z w))).
    unfold H at 1. rewrite (@Hh m M i) by (auto; lia). unfold Z at 1. rewrite (proj1 (Hz M KM' i i Hi Hi)). unfold Z at 1. rewrite (proj1 (Hz H (@Kh m i Hi) i i Hi Hi)).
    unfold Z. rewrite (proj2 (Hz (fun _ => 1) (known_const _ _ _ _ _ 1) i i Hi Hi)), HE1, Q. unfold unit_matrix. rewrite Nat.eqb_refl.
    assert (L : E (fun w => H w * H w) <= S) by (apply HS; auto; lia). assert (P : 0 <= r m * r m * (eps m * eps m)) by (apply Rmult_le_pos; apply Rle_0_sqr). apply (Rmult_le_compat_l _ _ _ P) in L. set (hh := E (fun w => H w * H w)) in *. set (mm := E (fun w => M w * M w)) in *. change (mm <= sum_upto m (fun k => r k * r k * (eps k * eps k * S + 2 * T * eps k))) in IH. lra.
Qed.
(** summation by parts *)
Lemma abel m (u : nat -> R) : sum_upto (Datatypes.S m) (fun k => r k * (u k - u (Datatypes.S k))) = sum_upto (Datatypes.S m) (fun k => (match k with O => r O | Datatypes.S j => r k - r j end) * u k) - r m * u (Datatypes.S m).
Proof. induction m as [|m IH]; [unfold sum_upto; cbn; ring|]. rewrite sum_upto_S, IH. rewrite (sum_upto_S (Datatypes.S m) (fun k => _ * u k)). ring. Qed.
Lemma abel_weights m : sum_upto (Datatypes.S m) (fun k => match k with O => r O | Datatypes.S j => r k - r j end) = r m.
Proof. induction m as [|m IH]; [unfold sum_upto; cbn; ring|]. rewrite sum_upto_S, IH. ring. Qed.
Lemma abel_square m i : (Datatypes.S m <= n)%nat -> (i < d)%nat ->
  E (fun w => sum_upto (Datatypes.S m) (fun k => r k * (y k w i - y (Datatypes.S k) w i)) * sum_upto (Datatypes.S m) (fun k => r k * (y k w i - y (Datatypes.S k) w i))) <= 4 * (r m * r m) * V.
Proof.
  intros Hm Hi. pose proof HI as (HE & _). set (c := fun k => match k with O => r O | Datatypes.S j => r k - r j end).
  assert (Pc : forall k, 0 <= c k) by (intros [|k]; cbn; [apply Hr|pose proof (Hmon k); lra]).
  assert (KY : forall k, (k <= n)%nat -> known n n (fun w => y k w i)) by (intros k Hk; apply (@known_mono W idx z d k k); auto).
  set (P := fun w => sum_upto (Datatypes.S m) (fun k => c k * (y k w i * y k w i))).
  assert (KP : known n n P) by (apply (@known_sum W idx z d n n (Datatypes.S m) (fun k w => c k * (y k w i * y k w i))); intros k Hk; apply known_scale, known_mult; apply KY; lia).
  eapply Rle_trans; [apply (E_mono (G := fun w => (2 * r m) * P w + (2 * (r m * r m)) * (y (Datatypes.S m) w i * y (Datatypes.S m) w i)))|].
  - assert (K : known n n (fun w => sum_upto (Datatypes.S m) (fun k => r k * (y k w i - y (Datatypes.S k) w i)))).
    { apply (@known_sum W idx z d n n (Datatypes.S m) (fun k w => r k * (y k w i - y (Datatypes.S k) w i))). intros k Hk. apply known_scale. apply (@known_ext _ idx z d n n (fun w => y k w i + (-1) * y (Datatypes.S k) w i)); [intros; ring|]. apply known_plus; [|apply known_scale]; apply KY; lia. }
    now apply known_mult.
  - apply known_plus; apply known_scale; [exact KP|]. apply known_mult; apply KY; lia.
  - intros w. rewrite (@abel m (fun k => y k w i)). change (sum_upto (Datatypes.S m) (fun k => match k with O => r O | Datatypes.S j => r k - r j end * y k w i)) with (sum_upto (Datatypes.S m) (fun k => c k * y k w i)). pose proof (@weighted_cauchy (Datatypes.S m) c (fun k => y k w i) (fun k _ => Pc k)) as C. rewrite (@abel_weights m : sum_upto (Datatypes.S m) c = r m) in C. fold (P w) in C.
    set (a := sum_upto (Datatypes.S m) (fun k => c k * y k w i)) in *. set (b := r m * y (Datatypes.S m) w i) in *. pose proof (Rle_0_sqr (a + b)) as Q. unfold Rsqr in Q.
    replace (2 * (r m * r m) * (y (Datatypes.S m) w i * y (Datatypes.S m) w i)) with (2 * (b * b)) by (unfold b; ring). lra.
  - rewrite (@E_plus W E HE (fun w => (2 * r m) * P w)), (@E_scale W E HE (2 * r m) P), (@E_scale W E HE (2 * (r m * r m)) (fun w => y (Datatypes.S m) w i * y (Datatypes.S m) w i)).
    assert (EP : E P <= r m * V).
    { unfold P. rewrite (@E_sum W E HE (Datatypes.S m) (fun k w => c k * (y k w i * y k w i))). apply Rle_trans with (sum_upto (Datatypes.S m) (fun k => V * c k)).
      - apply sum_upto_le. intros k Hk. rewrite (@E_scale W E HE (c k) (fun w => y k w i * y k w i)), (Rmult_comm V). apply Rmult_le_compat_l; [apply Pc|]. apply HV; auto; lia.
      - rewrite sum_upto_scale, (@abel_weights m : sum_upto (Datatypes.S m) c = r m). lra. }
    pose proof (@HV (Datatypes.S m) i Hm Hi) as L. assert (P1 : 0 <= 2 * r m) by (pose proof (Hr m); lra). assert (P2 : 0 <= 2 * (r m * r m)) by (pose proof (Rle_0_sqr (r m)) as Q; unfold Rsqr in Q; lra).
    apply (Rmult_le_compat_l _ _ _ P1) in EP. apply (Rmult_le_compat_l _ _ _ P2) in L. lra.
Qed.
(** the weighted sum of the deviations *)
Lemma telescope m w i : (i < d)%nat -> sum_upto m (fun k => r k * eps k * matvec d A (y k w) i) = sum_upto m (fun k => r k * (y k w i - y (Datatypes.S k) w i)) + mart m w i.
Proof. intros Hi. unfold mart. rewrite <- sum_upto_plus. apply sum_upto_ext. intros k _. rewrite Hstep by exact Hi. ring. Qed.
Lemma weighted_sum m w i : (i < d)%nat -> sum_upto m (fun k => r k * eps k * y k w i) = sum_upto d (fun j => B i j * sum_upto m (fun k => r k * eps k * matvec d A (y k w) j)).
Proof.
  intros Hi. rewrite (@sum_upto_ext d _ (fun j => sum_upto m (fun k => r k * eps k * (B i j * matvec d A (y k w) j)))) by (intros j Hj; rewrite <- sum_upto_scale; apply sum_upto_ext; intros; ring).
  rewrite sum_upto_swap. apply sum_upto_ext. intros k _. rewrite (@sum_upto_scale d (r k * eps k) (fun j => B i j * matvec d A (y k w) j)). f_equal. unfold matvec.
  rewrite (@sum_upto_ext d _ (fun j => sum_upto d (fun a => y k w a * (B i j * A j a)))) by (intros j Hj; rewrite <- sum_upto_scale; apply sum_upto_ext; intros; ring). rewrite sum_upto_swap.
  rewrite (@sum_upto_ext d _ (fun a => if (i =? a)%nat then y k w a else 0)); [symmetry; apply (@sum_upto_delta d (fun a => y k w a) i Hi)|].
  intros a Ha. rewrite (@sum_upto_scale d (y k w a) (fun j => B i j * A j a)), (proj2 (HB Hi Ha)). unfold unit_matrix. destruct (i =? a)%nat; ring.
Qed.
(** auxiliary definition of a statement or a proof; models no code of /repo *)
Definition avg_bound (i : nat) : R := norm2 d (B i) * INR d * (8 * V + 2 * (e0 * S + 2 * T)).
Lemma average_square m i : (Datatypes.S m <= n)%nat -> (i < d)%nat ->
  E (fun w => sum_upto (Datatypes.S m) (fun k => r k * eps k * y k w i) * sum_upto (Datatypes.S m) (fun k => r k * eps k * y k w i)) <= avg_bound i * (r m * r m + r m * sum_upto (Datatypes.S m) (fun k => r k * eps k)).
Proof.
  intros Hm Hi. pose proof HI as (HE & _). set (s := sum_upto (Datatypes.S m) (fun k => r k * eps k)).
  set (u := fun j w => sum_upto (Datatypes.S m) (fun k => r k * (y k w j - y (Datatypes.S k) w j))). set (M := fun j w => mart (Datatypes.S m) w j).
  assert (KY : forall k j, (k <= n)%nat -> (j < d)%nat -> known n n (fun w => y k w j)) by (intros k j Hk Hj; apply (@known_mono W idx z d k k); auto).
  assert (KU : forall j, (j < d)%nat -> known n n (u j)).
  { intros j Hj. apply (@known_sum W idx z d n n (Datatypes.S m) (fun k w => r k * (y k w j - y (Datatypes.S k) w j))). intros k Hk. apply known_scale. apply (@known_ext _ idx z d n n (fun w => y k w j + (-1) * y (Datatypes.S k) w j)); [intros; ring|]. apply known_plus; [|apply known_scale]; apply KY; auto; lia. }
  assert (KM : forall j, (j < d)%nat -> known n n (M j)) by (intros j Hj; apply (@known_mono W idx z d (Datatypes.S m) (Datatypes.S m)); auto; now apply mart_known).
  assert (mono_r : forall k, (k <= m)%nat -> r k <= r m) by (clear - Hmon; intros k Hk; induction Hk as [|m' _ IH]; [right; reflexivity|eapply Rle_trans; [exact IH|apply Hmon]]).
  assert (B1 : forall j, (j < d)%nat -> E (fun w => u j w * u j w) <= 4 * (r m * r m) * V) by (intros j Hj; apply abel_square; auto).
  assert (B2 : forall j, (j < d)%nat -> E (fun w => M j w * M j w) <= (e0 * S + 2 * T) * (r m * s)).
  { intros j Hj. eapply Rle_trans; [apply (@mart_square (Datatypes.S m) j Hm Hj)|]. unfold s. rewrite <- Rmult_assoc, <- sum_upto_scale. apply sum_upto_le. intros k Hk. destruct (He k) as [P1 P2]. pose proof (Hr k) as P3. pose proof (mono_r k ltac:(lia)) as P4.
    replace (r k * r k * (eps k * eps k * S + 2 * T * eps k)) with ((r k * eps k) * (r k * (eps k * S + 2 * T))) by ring. replace ((e0 * S + 2 * T) * r m * (r k * eps k)) with ((r k * eps k) * (r m * (e0 * S + 2 * T))) by ring.
    apply Rmult_le_compat_l; [now apply Rmult_le_pos|]. assert (eps k * S <= e0 * S) by (apply Rmult_le_compat_r; auto). assert (0 <= eps k * S) by (now apply Rmult_le_pos). apply Rmult_le_compat; auto; lra. }
  eapply Rle_trans; [apply (E_mono (G := fun w => norm2 d (B i) * sum_upto d (fun j => 2 * (u j w * u j w) + 2 * (M j w * M j w))))|].
  - apply known_mult; apply (@known_sum W idx z d n n (Datatypes.S m) (fun k w => r k * eps k * y k w i)); intros k Hk; apply known_scale, KY; auto; lia.
  - apply known_scale. apply (@known_sum W idx z d n n d (fun j w => 2 * (u j w * u j w) + 2 * (M j w * M j w))). intros j Hj. apply known_plus; apply known_scale, known_mult; auto.
  - intros w. rewrite (@weighted_sum (Datatypes.S m) w i Hi). eapply Rle_trans; [apply cauchy|]. apply Rmult_le_compat_l; [apply norm2_nonneg|]. apply sum_upto_le. intros j Hj. rewrite telescope by exact Hj. fold (u j w) (M j w).
    pose proof (Rle_0_sqr (u j w - M j w)) as Q. unfold Rsqr in Q. lra.
  - rewrite (@E_scale W E HE (norm2 d (B i)) (fun w => sum_upto d (fun j => 2 * (u j w * u j w) + 2 * (M j w * M j w)))). unfold avg_bound. rewrite !Rmult_assoc. apply Rmult_le_compat_l; [apply norm2_nonneg|].
    rewrite (@E_sum W E HE d (fun j w => 2 * (u j w * u j w) + 2 * (M j w * M j w))). set (Q := (8 * V + 2 * (e0 * S + 2 * T)) * (r m * r m + r m * s)).
    assert (Ps : 0 <= s) by (apply sum_upto_nonneg; intros k _; apply Rmult_le_pos; [apply Hr|apply He]). assert (Prs : 0 <= r m * s) by (apply Rmult_le_pos; auto). assert (Prr : 0 <= r m * r m) by apply Rle_0_sqr.
    assert (Pe : 0 <= e0 * S + 2 * T) by (destruct (He 0); assert (0 <= e0 * S) by (apply Rmult_le_pos; lra); lra).
    apply Rle_trans with (sum_upto d (fun _ => Q)).
    + apply sum_upto_le. intros j Hj. rewrite (@E_plus W E HE (fun w => 2 * (u j w * u j w))), (@E_scale W E HE 2 (fun w => u j w * u j w)), (@E_scale W E HE 2 (fun w => M j w * M j w)).
      specialize (B1 j Hj). specialize (B2 j Hj). unfold Q. assert (0 <= V * (r m * s)) by (now apply Rmult_le_pos). assert (0 <= (e0 * S + 2 * T) * (r m * r m)) by (now apply Rmult_le_pos). lra.
    + right. clear. induction d as [|k IH]; [unfold sum_upto; cbn; ring|]. rewrite sum_upto_S, IH, S_INR. ring.
Qed.
End Average.
