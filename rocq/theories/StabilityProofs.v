(** Proofs for C90: the mean square of one step, limits of recursive inequalities. *)
From Coq Require Import Reals Lra Psatz.
From Verif Require Import Base ListUtil Pytree PytreeSpec Io TreeUtil TreeUtilSpec TreeUtilProofs IntegratorSpec PotentialSpec UnbiasedProofs ExpectSpec ExpectProofs GaussianLimit GaussianMatrix MinibatchSpec MinibatchProofs MinibatchVariance ConcaveSpec ConcaveProofs StabilitySpec.
Open Scope R_scope.
Set Implicit Arguments.

Lemma dot_norm2 d u : dot d u u = norm2 d u. Proof. reflexivity. Qed.
Section Step.
Variables (W : Type) (E : (W -> R) -> R).
Hypothesis HE : expectation E.
Variables (d : nat) (e T S1 S2 : R).
Hypothesis He : 0 <= e.
Hypothesis HT : 0 <= T.
Variables y g h z y' : W -> nat -> R.
Hypothesis HU : unbiased_gradient E d S1 S2 y g h z.
Hypothesis Hy : forall w i, (i < d)%nat -> y' w i = y w i - e * (g w i + h w i) + sqrt (2 * T * e) * z w i.
Lemma square_step : E (fun w => norm2 d (y' w)) = E (fun w => norm2 d (y w)) - 2 * e * E (fun w => dot d (y w) (g w)) + e * e * E (fun w => norm2 d (g w)) + e * e * E (fun w => norm2 d (h w)) + 2 * T * e * INR d.
Proof.
  destruct HU as (H1 & H2 & H3 & H4 & H5 & H6 & _). set (q := sqrt (2 * T * e)) in *. assert (Q : q * q = 2 * T * e) by (apply sqrt_sqrt; apply Rmult_le_pos; lra).
  rewrite (@E_ext W E HE (fun w => norm2 d (y' w)) (fun w => dot d (y w) (y w) + ((- 2 * e) * dot d (y w) (g w) + (e * e * dot d (g w) (g w) + (e * e * dot d (h w) (h w) + (q * q * dot d (z w) (z w)
     + ((- 2 * e) * dot d (y w) (h w) + (2 * e * e * dot d (g w) (h w) + (2 * q * dot d (y w) (z w) + ((- 2 * e * q) * dot d (g w) (z w) + (- 2 * e * q) * dot d (h w) (z w))))))))))).
  2:{ intros w. unfold norm2, dot. rewrite <- !sum_upto_scale, <- !sum_upto_plus. apply sum_upto_ext. intros i Hi. rewrite (Hy w Hi). ring. }
  rewrite !(E_plus HE), !(E_scale HE). rewrite H1, H2, H3, H4, H5, H6, Q. unfold dot, norm2. ring.
Qed.
Lemma square_bound m L : m * E (fun w => norm2 d (y w)) <= E (fun w => dot d (y w) (g w)) -> E (fun w => norm2 d (g w)) <= L * L * E (fun w => norm2 d (y w)) ->
  E (fun w => norm2 d (y' w)) <= (1 - 2 * e * m + e * e * (L * L + S1)) * E (fun w => norm2 d (y w)) + e * e * S2 + 2 * T * e * INR d.
Proof.
  intros A1 A2. rewrite square_step. destruct HU as (_ & _ & _ & _ & _ & _ & HS).
  change (fun w => dot d (h w) (h w)) with (fun w => norm2 d (h w)) in HS. change (fun w => dot d (y w) (y w)) with (fun w => norm2 d (y w)) in HS.
  set (V := E (fun w => norm2 d (y w))) in *. set (Y := E (fun w => dot d (y w) (g w))) in *. set (X := E (fun w => norm2 d (g w))) in *. set (H := E (fun w => norm2 d (h w))) in *.
  assert (e * (m * V) <= e * Y) by (apply Rmult_le_compat_l; auto). assert (PE : 0 <= e * e) by apply Rle_0_sqr.
  assert (e * e * X <= e * e * (L * L * V)) by (apply Rmult_le_compat_l; auto). assert (e * e * H <= e * e * (S1 * V + S2)) by (apply Rmult_le_compat_l; auto). lra.
Qed.
End Step.
(** V (n+1) <= (1 - 2 e m + e^2 p) V n + e^2 S + 2 e c: V ends up below c / m *)
Lemma recursion_vanishing (eps : nat -> R) m p S c V0 : (forall n, 0 < eps n) -> vanishing eps -> divergent eps -> 0 < m -> 0 <= p -> 0 <= S -> 0 <= c -> forall delta, 0 < delta ->
  exists n0, forall n, (n0 <= n)%nat -> forall V : nat -> R, V 0%nat <= V0 -> (forall k, (k < n)%nat -> 0 <= V k) ->
  (forall k, (k < n)%nat -> V (Datatypes.S k) <= (1 - 2 * eps k * m + eps k * eps k * p) * V k + eps k * eps k * S + 2 * eps k * c) -> V n <= c / m + delta.
Proof.
  intros Ep Ev Ed Hm Hp0 HS Hc delta Hdelta. set (lim := c / m). assert (Hlim : 0 <= lim) by (apply Rmult_le_pos; [exact Hc|left; apply Rinv_0_lt_compat; exact Hm]).
  set (p' := p + m * m). assert (Hm2 : 0 <= m * m) by apply Rle_0_sqr. assert (Hp : 0 <= p') by (unfold p'; lra).
  assert (HQ : 0 <= p' * lim + S) by (apply Rplus_le_le_0_compat; [apply Rmult_le_pos; auto|auto]).
  destruct (@z_limit eps Ep Ev Ed (2 * m) p' 0 (p' * lim + S) (Rmax 0 (V0 - lim)) ltac:(lra) HQ ltac:(lra) (Rmax_l _ _) delta Hdelta) as [n0 H0]. exists n0. intros n Hn V HV0 HVp Hrec.
  set (w := fun n => Rmax 0 (V n - lim)). assert (B : Rabs (w n) <= z eps (2 * m) p' 0 (p' * lim + S) (Rmax 0 (V0 - lim)) n).
  { apply z_bound with (n := n); auto; try lra.
    - rewrite Rabs_pos_eq by apply Rmax_l. unfold w. apply Rle_max_compat_l. lra.
    - intros k Hk. rewrite !(Rabs_pos_eq (w _)) by apply Rmax_l. specialize (Hrec k Hk). specialize (HVp k Hk). pose proof (Ep k) as Pk. set (q := 1 - eps k * (2 * m) + eps k * eps k * p').
      assert (E2 : 0 <= eps k * eps k) by apply Rle_0_sqr.
      assert (Hq : 0 <= q).
      { replace q with ((1 - eps k * m) * (1 - eps k * m) + eps k * eps k * p) by (unfold q, p'; ring). apply Rplus_le_le_0_compat; [apply Rle_0_sqr|apply Rmult_le_pos; auto]. }
      rewrite (Rabs_pos_eq q Hq), Rmult_0_r, Rplus_0_r.
      assert (W0 : 0 <= w k) by apply Rmax_l. assert (W1 : V k - lim <= w k) by apply Rmax_r.
      assert (PE : 0 <= eps k * eps k * (p' * lim + S)) by (apply Rmult_le_pos; auto).
      assert (LM : lim * m = c) by (unfold lim; field; lra).
      assert (QW : 0 <= q * w k) by (apply Rmult_le_pos; auto). assert (QV : q * (V k - lim) <= q * w k) by (apply Rmult_le_compat_l; auto).
      assert (EM : 0 <= eps k * eps k * (m * m) * V k) by (apply Rmult_le_pos; auto; apply Rmult_le_pos; auto).
      unfold w at 1. apply Rmax_lub; [lra|]. unfold q in *. unfold p' in *. rewrite <- LM in Hrec.
      eapply Rle_trans; [apply Rplus_le_compat_r; exact Hrec|]. eapply Rle_trans; [|apply Rplus_le_compat_r; exact QV].
      match goal with |- ?a <= ?b => assert (D : b - a = eps k * eps k * (m * m) * V k) by ring end. lra. }
  specialize (H0 n Hn). pose proof (Rle_abs (w n)) as A1. assert (A2 : V n - lim <= w n) by apply Rmax_r. lra.
Qed.
(** constant step size *)
Lemma recursion_constant (q b : R) : 0 <= q < 1 -> 0 <= b -> forall (V : nat -> R) n, (forall k, (k < n)%nat -> V (Datatypes.S k) <= q * V k + b) -> V n <= q ^ n * V 0%nat + b / (1 - q).
Proof.
  intros Hq Hb V. assert (B : 0 <= b / (1 - q)) by (apply Rmult_le_pos; [exact Hb|left; apply Rinv_0_lt_compat; lra]).
  induction n as [|n IH]; intros H; [cbn [pow]; lra|]. eapply Rle_trans; [apply H; lia|]. assert (I : V n <= q ^ n * V 0%nat + b / (1 - q)) by (apply IH; intros k Hk; apply H; lia).
  apply Rle_trans with (q * (q ^ n * V 0%nat + b / (1 - q)) + b); [apply Rplus_le_compat_r, Rmult_le_compat_l; lra|]. right. cbn [pow]. field. lra.
Qed.

(** ** functions of the position *)
Section Functions.
Variable s : vtree.
Lemma lip_const c : lipschitz s (fun _ => c).
Proof. exists 0. split; [lra|]. intros x y _ _. rewrite Rmult_0_l. right. ring. Qed.
Lemma lip_coord i : (i < dim s)%nat -> lipschitz s (fun x => el x i).
Proof. intros Hi. exists 1. split; [lra|]. intros x y _ _. rewrite Rmult_1_l. apply (@sum_upto_term (dim s) (fun i => (el x i - el y i) * (el x i - el y i))); [intros; apply Rle_0_sqr|exact Hi]. Qed.
Lemma lip_scale c a : lipschitz s a -> lipschitz s (fun x => c * a x).
Proof.
  intros (C & HC & H). exists (c * c * C). split; [apply Rmult_le_pos; [apply Rle_0_sqr|exact HC]|]. intros x y Hx Hy. replace ((c * a x - c * a y) * (c * a x - c * a y)) with (c * c * ((a x - a y) * (a x - a y))) by ring.
  rewrite (Rmult_assoc (c * c) C). apply Rmult_le_compat_l; [apply Rle_0_sqr|apply H; auto].
Qed.
Lemma lip_plus a b : lipschitz s a -> lipschitz s b -> lipschitz s (fun x => a x + b x).
Proof.
  intros (C & HC & H) (C' & HC' & H'). exists (2 * C + 2 * C'). split; [lra|]. intros x y Hx Hy. specialize (H x y Hx Hy). specialize (H' x y Hx Hy).
  pose proof (Rle_0_sqr ((a x - a y) - (b x - b y))) as Q. unfold Rsqr in Q. lra.
Qed.
Lemma lip_ext a b : (forall x, like s x -> a x = b x) -> lipschitz s a -> lipschitz s b.
Proof. intros E (C & HC & H). exists C. split; [exact HC|]. intros x y Hx Hy. rewrite <- !E by auto. auto. Qed.
Lemma lip_gradient (g : vtree -> nat -> R) L i : (forall x y, like s x -> like s y -> norm2 (dim s) (fun i => g x i - g y i) <= L * L * distance2 s x y) -> (i < dim s)%nat -> lipschitz s (fun x => g x i).
Proof. intros H Hi. exists (L * L). split; [apply Rle_0_sqr|]. intros x y Hx Hy. eapply Rle_trans; [|apply H; auto]. apply (@sum_upto_term (dim s) (fun i => (g x i - g y i) * (g x i - g y i))); [intros; apply Rle_0_sqr|exact Hi]. Qed.
Lemma sq_const c : square_fn s (fun _ => c).
Proof. apply (@sq_ext s (fun _ => c * 1)); [intros; ring|]. apply (@sq_prod s (fun _ => c) (fun _ => 1)); apply lip_const. Qed.
Lemma sq_scale c f : square_fn s f -> square_fn s (fun x => c * f x).
Proof.
  intros H. induction H as [a b Ha Hb|f g _ IF _ IG|f g E _ IF].
  - apply (@sq_ext s (fun x => (c * a x) * b x)); [intros; ring|]. apply (@sq_prod s (fun x => c * a x) b); auto. now apply lip_scale.
  - apply (@sq_ext s (fun x => c * f x + c * g x)); [intros; ring|]. now apply (@sq_plus s (fun x => c * f x)).
  - apply (@sq_ext s (fun x => c * f x)); [intros x Hx; now rewrite E|]. exact IF.
Qed.
Lemma sq_sum n (f : nat -> vtree -> R) : (forall i, (i < n)%nat -> square_fn s (f i)) -> square_fn s (fun x => sum_upto n (fun i => f i x)).
Proof.
  induction n as [|n IH]; intros H; [apply (sq_const 0)|]. apply (@sq_ext s (fun x => sum_upto n (fun i => f i x) + f n x)); [intros; now rewrite sum_upto_S|].
  apply (@sq_plus s (fun x => sum_upto n (fun i => f i x))); [apply IH; intros; apply H; lia|apply H; lia].
Qed.
Lemma sq_dot (u v : vtree -> nat -> R) : (forall i, (i < dim s)%nat -> lipschitz s (fun x => u x i)) -> (forall i, (i < dim s)%nat -> lipschitz s (fun x => v x i)) -> square_fn s (fun x => dot (dim s) (u x) (v x)).
Proof. intros Hu Hv. apply (@sq_sum (dim s) (fun i x => u x i * v x i)). intros i Hi. apply (@sq_prod s (fun x => u x i) (fun x => v x i)); auto. Qed.
Lemma sq_average A (L : list A) (f : A -> vtree -> R) : (forall t, In t L -> square_fn s (f t)) -> square_fn s (fun x => average (map (fun t => f t x) L)).
Proof.
  intros H. apply (@sq_ext s (fun x => / INR (length L) * rsum (map (fun t => f t x) L))); [intros; unfold average, Rdiv; rewrite map_length; ring|]. apply sq_scale.
  induction L as [|t L IH]; [apply (sq_const 0)|]. apply (@sq_ext s (fun x => f t x + rsum (map (fun t => f t x) L))).
  - intros x _. cbn [map]. rewrite rsum_cons. reflexivity.
  - apply (@sq_plus s (f t)); [apply H; now left|]. apply IH. intros u Hu. apply H. now right.
Qed.
End Functions.
(** the expectation commutes with averages *)
Lemma E_average W (E : (W -> R) -> R) (HE : expectation E) A (L : list A) (f : A -> W -> R) : E (fun w => average (map (fun t => f t w) L)) = average (map (fun t => E (f t)) L).
Proof.
  unfold average. rewrite !map_length. rewrite (@E_ext W E HE _ (fun w => / INR (length L) * rsum (map (fun t => f t w) L))) by (intros w; rewrite map_length; unfold Rdiv; ring).
  rewrite (E_scale HE). unfold Rdiv. rewrite (Rmult_comm (rsum _)). f_equal. induction L as [|t L IH].
  - cbn. rewrite (@E_ext W E HE (fun _ => rsum []) (fun _ => 0 * 1)) by (intros; unfold rsum; cbn; ring). rewrite (@E_scale W E HE 0 (fun _ => 1)). unfold rsum. cbn. ring.
  - cbn [map]. rewrite rsum_cons, <- IH. rewrite (@E_ext W E HE _ (fun w => f t w + rsum (map (fun t => f t w) L))) by (intros w; now rewrite rsum_cons). apply (E_plus HE (f t)).
Qed.
(** the variance of a sum *)
Lemma pop_cov_split N (a b : nat -> R) : (0 < N)%nat -> pop_cov N (fun k => a k + b k) (fun k => a k + b k) <= 2 * pop_cov N a a + 2 * (sum_upto N (fun k => b k * b k) / INR N).
Proof.
  intros HN. assert (PN : 0 < INR N) by (now apply lt_0_INR). unfold pop_cov. set (ma := pop_mean N a). set (mb := pop_mean N b).
  assert (M : pop_mean N (fun k => a k + b k) = ma + mb) by (unfold pop_mean, ma, mb, pop_mean; rewrite sum_upto_plus; field; lra). rewrite M.
  assert (B : sum_upto N (fun k => (b k - mb) * (b k - mb)) <= sum_upto N (fun k => b k * b k)).
  { rewrite (@sum_upto_ext N (fun k => (b k - mb) * (b k - mb)) (fun k => b k * b k + ((- 2 * mb) * b k + mb * mb * 1))) by (intros; ring). rewrite !sum_upto_plus, (@sum_upto_scale N (- 2 * mb) b), (@sum_upto_scale N (mb * mb) (fun _ => 1)).
    assert (S1 : sum_upto N (fun _ => 1) = INR N) by (clear; induction N as [|n IH]; [reflexivity|]; rewrite sum_upto_S, IH, S_INR; ring). assert (S2 : sum_upto N b = INR N * mb) by (unfold mb, pop_mean; field; lra). rewrite S1, S2.
    pose proof (Rle_0_sqr mb) as Q. unfold Rsqr in Q. assert (0 <= INR N * (mb * mb)) by (apply Rmult_le_pos; lra). lra. }
  assert (C : sum_upto N (fun k => (a k + b k - (ma + mb)) * (a k + b k - (ma + mb))) <= 2 * sum_upto N (fun k => (a k - ma) * (a k - ma)) + 2 * sum_upto N (fun k => (b k - mb) * (b k - mb))).
  { rewrite <- !sum_upto_scale, <- sum_upto_plus. apply sum_upto_le. intros k _. pose proof (Rle_0_sqr ((a k - ma) - (b k - mb))) as Q. unfold Rsqr in Q. lra. }
  unfold Rdiv. rewrite <- !Rmult_assoc, <- Rmult_plus_distr_r. apply Rmult_le_compat_r; [left; apply Rinv_0_lt_compat; exact PN|lra].
Qed.
