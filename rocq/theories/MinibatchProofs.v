From Coq Require Import Reals Lra Psatz.
From Verif Require Import Base ListUtil Pytree PytreeSpec Io TreeUtil TreeUtilSpec TreeUtilProofs Integrator IntegratorSpec IntegratorBasics Potential PotentialSpec PotentialProofs UnbiasedProofs VarianceProofs
  ExpectSpec ExpectProofs LeapfrogVolume EndToEndSpec EndToEndProofs GaussianMatrix GaussianSpec MinibatchSpec.
Open Scope R_scope.
Set Implicit Arguments.

(** ** partial derivatives of a quadratic function *)
Lemma quadratic_partials s f c b H x : wfv s -> quadratic s f c b H -> like s x -> partials s f x (fun i => b i - sum_upto (dim s) (fun j => H i j * el x j)).
Proof.
  intros Hs [Hsym Hf] Hx k Hk.
  assert (E : forall t i, (i < dim s)%nat -> el (at_coordinate s x k t) i = if (i =? k)%nat then t else el x i) by (intros t i Hi; unfold at_coordinate; now rewrite (proj2 (tree_of_ok _ Hs))).
  set (y := fun i t => if (i =? k)%nat then t else el x i). set (dy := fun i => if (i =? k)%nat then 1 else 0).
  assert (D : forall i, derivable_pt_lim (y i) (el x k) (dy i)) by (intros i; unfold y, dy; destruct (i =? k)%nat; [apply derivable_pt_lim_id|apply derivable_pt_lim_const]).
  assert (Y : forall i, y i (el x k) = el x i) by (intros i; unfold y; destruct (Nat.eqb_spec i k) as [->|]; reflexivity).
  apply (derivable_pt_lim_ext (fun t => (c + sum_upto (dim s) (fun i => b i * y i t)) + (- / 2) * sum_upto (dim s) (fun i => y i t * sum_upto (dim s) (fun j => H i j * y j t)))).
  { intros t. rewrite Hf by (unfold at_coordinate; now apply tree_of_ok). unfold Rdiv, Rminus. f_equal; [f_equal; apply sum_upto_ext; intros i Hi; now rewrite E|].
    rewrite (@sum_upto_ext (dim s) (fun i => el (at_coordinate s x k t) i * _) (fun i => y i t * sum_upto (dim s) (fun j => H i j * y j t))); [lra|].
    intros i Hi. rewrite E by auto. f_equal. apply sum_upto_ext. intros j Hj. now rewrite E. }
  assert (DV : sum_upto (dim s) (fun i => b i * dy i) = b k).
  { rewrite (@sum_upto_ext (dim s) _ (fun i => if (k =? i)%nat then b i else 0)); [apply (@sum_upto_delta (dim s) b k Hk)|]. intros i _. unfold dy. rewrite (Nat.eqb_sym i k). destruct (k =? i)%nat; ring. }
  set (Q := sum_upto (dim s) (fun i => dy i * sum_upto (dim s) (fun j => H i j * y j (el x k)) + y i (el x k) * sum_upto (dim s) (fun j => H i j * dy j))).
  assert (DQ : Q = 2 * sum_upto (dim s) (fun j => H k j * el x j)).
  { unfold Q. rewrite sum_upto_plus. rewrite (@sum_upto_ext (dim s) (fun i => dy i * _) (fun i => if (k =? i)%nat then sum_upto (dim s) (fun j => H i j * el x j) else 0)).
    2:{ intros i _. unfold dy. rewrite (Nat.eqb_sym i k). destruct (k =? i)%nat; [rewrite Rmult_1_l; apply sum_upto_ext; intros; now rewrite Y|ring]. }
    rewrite (@sum_upto_delta (dim s) (fun i => sum_upto (dim s) (fun j => H i j * el x j)) k Hk).
    rewrite (@sum_upto_ext (dim s) (fun i => y i (el x k) * _) (fun i => H k i * el x i)); [ring|].
    intros i Hi. rewrite Y. rewrite (@sum_upto_ext (dim s) (fun j => H i j * dy j) (fun j => if (k =? j)%nat then H i j else 0)).
    - rewrite (@sum_upto_delta (dim s) (H i) k Hk). rewrite (Hsym i k) by auto. ring.
    - intros j _. unfold dy. rewrite (Nat.eqb_sym j k). destruct (k =? j)%nat; ring. }
  replace (b k - sum_upto (dim s) (fun j => H k j * el x j)) with ((0 + sum_upto (dim s) (fun i => b i * dy i)) + (- / 2) * Q) by (rewrite DV, DQ; lra).
  apply derivable_pt_lim_plus.
  - apply derivable_pt_lim_plus; [apply (derivable_pt_lim_const c)|]. apply (sum_upto_derivable (fun i t => b i * y i t)). intros i _. apply (derivable_pt_lim_scal (y i)). apply D.
  - apply (derivable_pt_lim_scal (fun t => sum_upto (dim s) (fun i => y i t * sum_upto (dim s) (fun j => H i j * y j t)))). unfold Q. apply (sum_upto_derivable (fun i t => y i t * sum_upto (dim s) (fun j => H i j * y j t))).
    intros i _. apply (derivable_pt_lim_mult (y i) (fun t => sum_upto (dim s) (fun j => H i j * y j t))); [apply D|].
    apply (sum_upto_derivable (fun j t => H i j * y j t)). intros j _. apply (derivable_pt_lim_scal (y j)). apply D.
Qed.

(** ** deviation of the rescaled sum over a batch from the sum over the data set *)
(** auxiliary definition of a statement or a proof; models no code of /repo *)
Definition excess (N mb : nat) (f : nat -> R) (t : list nat) : R := INR N * (sum_upto mb (fun j => f (nth j t 0%nat)) / INR mb) - sum_upto N f.
Lemma average_excess N mb f : (0 < N)%nat -> (0 < mb)%nat -> average (map (excess N mb f) (tuples mb N)) = 0.
Proof.
  intros HN Hmb. assert (PN : 0 < INR N) by (now apply lt_0_INR). assert (Pm : 0 < INR mb) by (now apply lt_0_INR). unfold average. rewrite map_length.
  assert (PL : INR (length (tuples mb N)) <> 0) by (rewrite length_tuples; apply not_0_INR; apply Nat.pow_nonzero; lia).
  replace (rsum _) with 0; [field; auto|]. symmetry. unfold excess.
  rewrite (map_ext _ (fun t => - sum_upto N f + INR N / INR mb * sum_upto mb (fun j => f (nth j t 0%nat)))) by (intros; field; lra).
  rewrite (rsum_map_const_plus (fun t => INR N / INR mb * sum_upto mb (fun j => f (nth j t 0%nat)))), (rsum_map_scale (fun t => sum_upto mb (fun j => f (nth j t 0%nat)))).
  rewrite rsum_sum_swap. rewrite (@sum_upto_ext mb _ (fun _ => INR (length (tuples mb N)) * sum_upto N f / INR N)).
  - rewrite sum_const. field. lra.
  - intros j Hj. rewrite <- (tuples_single f N Hj). field. lra.
Qed.
Lemma average_scale A (g : A -> R) c L : average (map (fun t => c * g t) L) = c * average (map g L).
Proof. unfold average. rewrite rsum_map_scale, !map_length. unfold Rdiv. ring. Qed.
Lemma average_plus A (f g : A -> R) L : average (map (fun t => f t + g t) L) = average (map f L) + average (map g L).
Proof. unfold average. rewrite rsum_map_plus, !map_length. unfold Rdiv. ring. Qed.
Lemma average_sum A n (g : nat -> A -> R) L : average (map (fun t => sum_upto n (fun k => g k t)) L) = sum_upto n (fun k => average (map (g k) L)).
Proof.
  unfold average. rewrite (rsum_sum_swap L n (fun t k => g k t)). unfold Rdiv. rewrite <- sum_scale_r. apply sum_upto_ext. intros k _. now rewrite !map_length.
Qed.
Lemma rsum_abs_nonneg A (g : A -> R) L : 0 <= rsum (map (fun t => Rabs (g t)) L).
Proof. induction L as [|a L IH]; [cbn [map]; rewrite rsum_nil; lra|]. cbn [map]. rewrite rsum_cons. pose proof (Rabs_pos (g a)). lra. Qed.
Lemma rsum_abs_term A (g : A -> R) L t : In t L -> Rabs (g t) <= rsum (map (fun t => Rabs (g t)) L).
Proof.
  induction L as [|a L IH]; [intros []|]. cbn [map]. rewrite rsum_cons. pose proof (Rabs_pos (g a)). pose proof (rsum_abs_nonneg g L). intros [->|H1]; [lra|specialize (IH H1); lra].
Qed.
Lemma abs_sum n f : Rabs (sum_upto n f) <= sum_upto n (fun i => Rabs (f i)).
Proof. induction n as [|n IH]; [unfold sum_upto; cbn; rewrite Rabs_R0; lra|]. rewrite !sum_upto_S. eapply Rle_trans; [apply Rabs_triang|lra]. Qed.
Lemma one_plus_sq d v : (1 + sum_upto d (fun a => Rabs (v a))) * (1 + sum_upto d (fun a => Rabs (v a))) <= (1 + INR d) * (1 + norm2 d v).
Proof.
  set (u := sum_upto d (fun a => Rabs (v a))). assert (Hu : u * u <= INR d * norm2 d v).
  { pose proof (cauchy d (fun _ => 1) (fun a => Rabs (v a))) as C. cbv beta in C. unfold u. rewrite (@sum_upto_ext d (fun i => 1 * Rabs (v i)) (fun a => Rabs (v a))) in C by (intros; ring).
    eapply Rle_trans; [exact C|]. right. unfold norm2. rewrite (@sum_upto_ext d (fun _ => 1 * 1) (fun _ => 1)) by (intros; ring). rewrite sum_const.
    rewrite (@sum_upto_ext d (fun i => Rabs (v i) * Rabs (v i)) (fun i => v i * v i)); [ring|]. intros i _. rewrite <- Rabs_mult. apply Rabs_pos_eq. nra. }
  pose proof (norm2_nonneg d v). pose proof (pos_INR d).
  destruct (Req_dec (INR d) 0) as [Z|Z].
  - rewrite Z in *. assert (u * u <= 0) by lra. assert (u = 0) by nra. subst u. nra.
  - assert (0 < INR d) by lra. assert (2 * u <= INR d + norm2 d v); [|lra].
    assert (2 * u * INR d <= (INR d + norm2 d v) * INR d); [|nra]. pose proof (Rle_0_sqr (u - INR d)) as Hsq. unfold Rsqr in Hsq. nra.
Qed.

(** ** the class of known quantities *)
Section Known.
Variables (W : Type) (idx : nat -> W -> list nat) (z : nat -> W -> nat -> R) (d : nat).
Notation known := (known idx z d).
Lemma known_mono a b a' b' F : (a <= a')%nat -> (b <= b')%nat -> known a b F -> known a' b' F.
Proof.
  intros Ha Hb HF. induction HF as [c|k g Hk|k i Hk Hi|F G _ IF _ IG|F G _ IF _ IG|F G HE _ IF].
  - apply known_const.
  - apply known_idx. lia.
  - apply known_noise; [lia|exact Hi].
  - now apply known_plus.
  - now apply known_mult.
  - exact (@known_ext _ idx z d a' b' F G HE IF).
Qed.
Lemma known_scale a b c F : known a b F -> known a b (fun w => c * F w).
Proof. intros H. apply (known_mult (known_const _ _ _ a b c) H). Qed.
Lemma known_sum a b n (F : nat -> W -> R) : (forall k, (k < n)%nat -> known a b (F k)) -> known a b (fun w => sum_upto n (fun k => F k w)).
Proof.
  induction n as [|n IH]; intros H; [apply (known_const _ _ _ a b 0)|]. apply (@known_ext _ idx z d a b (fun w => sum_upto n (fun k => F k w) + F n w)); [intros w; now rewrite sum_upto_S|].
  apply known_plus; [apply IH; intros k Hk; apply H; lia|apply H; lia].
Qed.

(** ** one step with a gradient error that is affine in the deviation, with coefficients that depend on the batch and average out *)
Variables (E : (W -> R) -> R) (N mb n : nat).
Hypothesis HI : independent_run idx z d E N mb n.
Hypothesis Hidx : forall k w, In (idx k w) (tuples mb N).
Variables (k : nat) (y : W -> nat -> R) (h : W -> nat -> R) (g0 : nat -> list nat -> R) (g1 : nat -> nat -> list nat -> R).
Hypothesis Hk : (k < n)%nat.
Hypothesis Hy : forall i, (i < d)%nat -> known k k (fun w => y w i).
Hypothesis Hh : forall w i, (i < d)%nat -> h w i = g0 i (idx k w) + sum_upto d (fun a => y w a * g1 i a (idx k w)).
Hypothesis H0 : forall i, (i < d)%nat -> average (map (g0 i) (tuples mb N)) = 0.
Hypothesis H1 : forall i a, (i < d)%nat -> (a < d)%nat -> average (map (g1 i a) (tuples mb N)) = 0.
(** a bound of the coefficients *)
(** auxiliary definition of a statement or a proof; models no code of /repo *)
Definition coef_bound : R := sum_upto d (fun i => rsum (map (fun t => Rabs (g0 i t)) (tuples mb N)) + sum_upto d (fun a => rsum (map (fun t => Rabs (g1 i a t)) (tuples mb N)))).
Lemma known_h i : (i < d)%nat -> known (S k) k (fun w => h w i).
Proof using Hy Hh.
  intros Hi. apply (@known_ext _ idx z d (S k) k (fun w => g0 i (idx k w) + sum_upto d (fun a => y w a * g1 i a (idx k w)))); [intros w; symmetry; apply Hh; exact Hi|].
  apply known_plus; [apply (@known_idx _ idx z d (S k) k k (g0 i)); apply Nat.lt_succ_diag_r|].
  apply (@known_sum (S k) k d (fun a w => y w a * g1 i a (idx k w))). intros a Ha. apply known_mult; [exact (@known_mono k k (S k) k _ (Nat.le_succ_diag_r k) (le_n k) (Hy Ha))|apply (@known_idx _ idx z d (S k) k k (g1 i a)); apply Nat.lt_succ_diag_r].
Qed.
Lemma E_known_h F i : known k k F -> (i < d)%nat -> E (fun w => F w * h w i) = 0.
Proof.
  intros HF Hi. destruct HI as (HE & _ & _ & Hst). destruct (Hst k Hk) as [Hu _].
  rewrite (@E_ext W E HE _ (fun w => F w * g0 i (idx k w) + sum_upto d (fun a => (F w * y w a) * g1 i a (idx k w)))).
  2:{ intros w. rewrite Hh by auto. rewrite Rmult_plus_distr_l, <- sum_upto_scale. f_equal. apply sum_upto_ext. intros; ring. }
  rewrite (@E_plus W E HE). rewrite (Hu F (g0 i) HF), (H0 Hi), Rmult_0_r, Rplus_0_l.
  rewrite (@E_sum W E HE d (fun a w => (F w * y w a) * g1 i a (idx k w))). apply sum_upto_zero. intros a Ha.
  rewrite (Hu (fun w => F w * y w a) (g1 i a)) by (apply known_mult; auto). rewrite H1 by auto. ring.
Qed.
Lemma h_bound w i : (i < d)%nat -> Rabs (h w i) <= coef_bound * (1 + sum_upto d (fun a => Rabs (y w a))).
Proof.
  intros Hi. rewrite Hh by auto. eapply Rle_trans; [apply Rabs_triang|].
  set (c0 := rsum (map (fun t => Rabs (g0 i t)) (tuples mb N))). set (c1 := fun a => rsum (map (fun t => Rabs (g1 i a t)) (tuples mb N))).
  assert (P1 : forall a, 0 <= c1 a) by (intros; apply rsum_abs_nonneg).
  assert (B : c0 + sum_upto d c1 <= coef_bound).
  { apply (@sum_upto_term d (fun i => rsum (map (fun t => Rabs (g0 i t)) (tuples mb N)) + sum_upto d (fun a => rsum (map (fun t => Rabs (g1 i a t)) (tuples mb N))))); auto.
    intros j _. apply Rplus_le_le_0_compat; [apply rsum_abs_nonneg|apply sum_upto_nonneg; intros; apply rsum_abs_nonneg]. }
  assert (B0 : Rabs (g0 i (idx k w)) <= c0) by (apply (rsum_abs_term (g0 i)); apply Hidx).
  set (u := sum_upto d (fun a => Rabs (y w a))). assert (Hu : 0 <= u) by (apply sum_upto_nonneg; intros; apply Rabs_pos).
  assert (B1 : Rabs (sum_upto d (fun a => y w a * g1 i a (idx k w))) <= sum_upto d c1 * u).
  { eapply Rle_trans; [apply abs_sum|]. unfold u. rewrite <- (@sum_upto_scale d (sum_upto d c1) (fun a => Rabs (y w a))). apply sum_upto_le. intros a Ha. rewrite Rabs_mult, Rmult_comm. apply Rmult_le_compat_r; [apply Rabs_pos|].
    eapply Rle_trans; [apply (rsum_abs_term (g1 i a)); apply Hidx|]. apply (@sum_upto_term d c1 a); auto. }
  assert (0 <= c0) by apply rsum_abs_nonneg. assert (0 <= sum_upto d c1) by (apply sum_upto_nonneg; auto). nra.
Qed.
Lemma independent_unbiased : unbiased_step E d (coef_bound * coef_bound * (1 + INR d)) y h (z k).
Proof.
  destruct HI as (HE & HE1 & Hpos & Hst). destruct (Hst k Hk) as [Hu Hz].
  assert (K1 : forall a b, known a b (fun _ => 1)) by (intros; apply known_const).
  split; [|split; [|split; [|split; [|split]]]].
  - intros i Hi. split.
    + rewrite (@E_ext W E HE _ (fun w => 1 * h w i)) by (intros; ring). apply (E_known_h (K1 k k) Hi).
    + rewrite (@E_ext W E HE _ (fun w => 1 * z k w i)) by (intros; ring). apply (Hz _ (K1 _ _) i i Hi Hi).
  - intros i j Hi Hj. apply (E_known_h (Hy Hi) Hj).
  - intros i j Hi Hj. apply (Hz (fun w => y w i) (@known_mono k k (S k) k _ (Nat.le_succ_diag_r k) (le_n k) (Hy Hi)) j j Hj Hj).
  - intros i j Hi Hj. apply (Hz _ (known_h Hi) j j Hj Hj).
  - intros i j Hi Hj. rewrite (@E_ext W E HE _ (fun w => 1 * (z k w i * z k w j))) by (intros; ring). rewrite (proj2 (Hz _ (K1 _ _) i j Hi Hj)), HE1. ring.
  - intros i j Hi Hj. set (S0 := coef_bound * coef_bound * (1 + INR d)).
    assert (KY : known n n (fun w => S0 * (1 + sum_upto d (fun a => y w a * y w a)))).
    { apply known_scale. apply known_plus; [apply K1|]. apply (@known_sum n n d (fun a w => y w a * y w a)). intros a Ha. apply known_mult; apply (@known_mono k k); auto; lia. }
    assert (KH : known n n (fun w => h w i * h w j)) by (apply known_mult; apply (@known_mono (S k) k); try apply known_h; auto; lia).
    assert (EY : E (fun w => S0 * (1 + sum_upto d (fun a => y w a * y w a))) = S0 * (1 + sum_upto d (fun a => E (fun w => y w a * y w a)))).
    { rewrite (@E_scale W E HE S0 (fun w => 1 + sum_upto d (fun a => y w a * y w a))). f_equal. rewrite (@E_plus W E HE (fun _ => 1) (fun w => sum_upto d (fun a => y w a * y w a))), HE1. f_equal. apply (@E_sum W E HE d (fun a w => y w a * y w a)). }
    assert (PW : forall w, Rabs (h w i * h w j) <= S0 * (1 + sum_upto d (fun a => y w a * y w a))).
    { intros w. rewrite Rabs_mult. pose proof (h_bound w Hi) as Bi. pose proof (h_bound w Hj) as Bj. set (u := 1 + sum_upto d (fun a => Rabs (y w a))) in *.
      apply Rle_trans with (coef_bound * u * (coef_bound * u)); [apply Rmult_le_compat; auto; apply Rabs_pos|].
      pose proof (one_plus_sq d (y w)) as O. fold u in O. unfold norm2 in O. unfold S0.
      replace (coef_bound * u * (coef_bound * u)) with (coef_bound * coef_bound * (u * u)) by ring. rewrite !Rmult_assoc. rewrite <- !Rmult_assoc. rewrite (Rmult_assoc (coef_bound * coef_bound) u u), (Rmult_assoc (coef_bound * coef_bound) (1 + INR d)).
      apply Rmult_le_compat_l; [nra|exact O]. }
    rewrite <- EY. apply Rabs_le. split.
    + assert (0 <= E (fun w => S0 * (1 + sum_upto d (fun a => y w a * y w a)) + h w i * h w j)) as P.
      { apply Hpos; [apply known_plus; auto|]. intros w. pose proof (PW w) as Q. pose proof (Rle_abs (- (h w i * h w j))) as Q2. rewrite Rabs_Ropp in Q2. lra. }
      rewrite (@E_plus W E HE (fun w => S0 * (1 + sum_upto d (fun a => y w a * y w a))) (fun w => h w i * h w j)) in P. lra.
    + assert (0 <= E (fun w => S0 * (1 + sum_upto d (fun a => y w a * y w a)) + (-1) * (h w i * h w j))) as P.
      { apply Hpos; [apply known_plus; auto; now apply known_scale|]. intros w. pose proof (PW w) as Q. pose proof (Rle_abs (h w i * h w j)) as Q2. lra. }
      rewrite (@E_plus W E HE (fun w => S0 * (1 + sum_upto d (fun a => y w a * y w a))) (fun w => (-1) * (h w i * h w j))), (@E_scale W E HE (-1) (fun w => h w i * h w j)) in P. lra.
Qed.
End Known.
