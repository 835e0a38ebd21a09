(** C89: SGLD on a strongly log concave model forgets its start. *)
From Coq Require Import Reals Lra Psatz ZArith String.
From Verif Require Import Base ListUtil NumpyLoader LoaderSpec NumpyLoaderProofs NumpyLoaderApi DeviceData DeviceDataProofs.
From Verif Require Import Pytree PytreeSpec PytreeProofs Io IoSpec IoProofs TreeUtil TreeUtilSpec TreeUtilProofs Integrator IntegratorSpec IntegratorBasics PropertiesIntegrator AliasData.
From Verif Require Import DataCore DataSpec Potential PotentialSpec PotentialProofs UnbiasedProofs VarianceProofs PropertiesPotential LeapfrogVolume EndToEndSpec EndToEndProofs PropertiesEndToEnd PropertiesDeviceAlias.
From Verif Require Import ExpectSpec ExpectProofs GaussianLimit GaussianMatrix GaussianSpec GaussianProofs PropertiesGaussian SghmcGaussian MinibatchSpec MinibatchProofs PropertiesMinibatchGaussian ConcaveSpec ConcaveProofs.
Open Scope R_scope.
Set Implicit Arguments.

Section C89.
Variable s : vtree.
Hypothesis Hs : wfv s.
Variable obs : Type.
(** the user's model: log prior, (batched) log likelihood l, temperature; the potential function of potential.py for it; JAX's gradients.  The likelihood may
    have a state, but its value does not depend on it *)
Variables (prior : vtree -> R) (likelihood : lik_fn obs vtree vtree) (has_state : bool) (Tp : R) (strategy : pot_strategy).
Variable pot : nat -> vtree -> mbatch obs -> option vtree -> option (list bool) -> res (R * list R * option vtree).
Hypothesis Hpot : minibatch_potential prior likelihood has_state Tp strategy = Ok pot.
Variable l : vtree -> orow obs -> R.
Hypothesis Hl : evaluates_with likelihood (fun _ => l).
Hypothesis Hk : keeps_state likelihood has_state.
Variable jgrad : (vtree -> R) -> vtree -> vtree.
Hypothesis Hj : exact_gradients s jgrad.
Hypothesis HTp : 0 < Tp.
(** the data set of N observations and the batch size *)
Variables (data : list (string * list obs)) (N mb : nat).
Hypothesis Hd : data <> [].
Hypothesis HN : forall ka, In ka data -> length (snd ka) = N.
Hypothesis Hmb : (0 < mb)%nat.
(** a batched likelihood is not used with batches of one (C41_batch_of_one_refuted) *)
Hypothesis Hone : is_batched likelihood = true -> mb <> 1%nat.
(** the log likelihood of every observation is concave and the log prior strongly concave; their gradients are Lipschitz continuous *)
Variables (dl : vtree -> orow obs -> nat -> R) (dp : vtree -> nat -> R) (m Ll Lp : R).
Hypothesis Hdl : forall k x, (k < N)%nat -> like s x -> partials s (fun y => l y (row data k)) x (dl x (row data k)).
Hypothesis Hdp : forall x, like s x -> partials s prior x (dp x).
Hypothesis Hlc : forall k, (k < N)%nat -> concave_gradient s (fun x => dl x (row data k)) 0.
Hypothesis Hpc : concave_gradient s dp m.
Hypothesis HLl : 0 <= Ll.
Hypothesis HLp : 0 <= Lp.
Hypothesis Hll : forall k, (k < N)%nat -> lipschitz_gradient s (fun x => dl x (row data k)) Ll.
Hypothesis Hpl : lipschitz_gradient s dp Lp.
Notation uvalue := (user_value has_state pot N).
Notation ulikelihoods := (user_likelihoods has_state pot N).
Notation umodel := (user_model has_state pot N).
Notation ugrad := (user_grad has_state pot N jgrad).
(** moduli of the potential *)
Notation m' := (m / Tp).
Notation L' := ((INR N * Ll + Lp) / Tp).

(** the gradient of the potential of a batch *)
(** auxiliary definition of a statement or a proof; models no code of /repo *)
Definition pgrad (t : list nat) (z : vtree) (i : nat) : R := (- INR N * (sum_upto (length t) (fun j => dl z (row data (nth j t 0%nat)) i) / INR (length t)) - dp z i) / Tp.
(** it is strongly monotone and Lipschitz *)
Lemma pgrad_bounds x y t : like s x -> like s y -> (0 < length t)%nat -> Forall (fun i => (i < N)%nat) t ->
  let u := fun i => el x i - el y i in let g := fun i => pgrad t x i - pgrad t y i in
  m' * norm2 (dim s) u <= sum_upto (dim s) (fun i => g i * u i) /\ norm2 (dim s) g <= L' * L' * norm2 (dim s) u.
Proof using HTp Hlc Hpc HLl HLp Hll Hpl.
  intros Hx Hy Hn Ft u g. set (n := length t) in *.
  assert (NT : forall j, (j < n)%nat -> (nth j t 0 < N)%nat) by (intros j Hj'; rewrite Forall_forall in Ft; apply Ft, nth_In; exact Hj').
  set (D := fun j i => dl x (row data (nth j t 0%nat)) i - dl y (row data (nth j t 0%nat)) i). set (P := fun i => dp x i - dp y i).
  assert (PM : 0 < INR n) by (apply lt_0_INR; exact Hn). pose proof (pos_INR N) as PN.
  assert (G : forall i, (i < dim s)%nat -> g i = / Tp * ((- (INR N / INR n)) * sum_upto n (fun j => D j i) + (- 1) * P i)).
  { intros i Hi. unfold g, pgrad, D, P. fold n.
    rewrite (@sum_upto_ext n (fun j => dl x (row data (nth j t 0%nat)) i - dl y (row data (nth j t 0%nat)) i) (fun j => dl x (row data (nth j t 0%nat)) i + (-1) * dl y (row data (nth j t 0%nat)) i)) by (intros; ring).
    rewrite sum_upto_plus, (@sum_upto_scale n (-1) (fun j => dl y (row data (nth j t 0%nat)) i)). field. split; apply Rgt_not_eq; assumption. }
  assert (U : norm2 (dim s) u = distance2 s x y) by reflexivity.
  assert (UN := norm2_nonneg (dim s) u). split.
  - rewrite (@sum_upto_ext (dim s) (fun i => g i * u i) (fun i => / Tp * ((- (INR N / INR n)) * sum_upto n (fun j => D j i * u i) + (- 1) * (P i * u i)))).
    2:{ intros i Hi. rewrite (G i Hi). rewrite (@sum_upto_ext n (fun j => D j i * u i) (fun j => u i * D j i)) by (intros; ring). rewrite (@sum_upto_scale n (u i) (fun j => D j i)). ring. }
    rewrite (@sum_upto_scale (dim s) (/ Tp) (fun i => (- (INR N / INR n)) * sum_upto n (fun j => D j i * u i) + (- 1) * (P i * u i))). rewrite sum_upto_plus.
    rewrite (@sum_upto_scale (dim s) (- (INR N / INR n)) (fun i => sum_upto n (fun j => D j i * u i))), (@sum_upto_scale (dim s) (-1) (fun i => P i * u i)), (@sum_upto_swap (dim s) n).
    pose proof (Hpc Hx Hy) as C1. rewrite <- U in C1. change (sum_upto (dim s) (fun i => (dp x i - dp y i) * (el x i - el y i))) with (sum_upto (dim s) (fun i => P i * u i)) in C1.
    assert (C2 : sum_upto n (fun j => sum_upto (dim s) (fun i => D j i * u i)) <= 0).
    { replace 0 with (sum_upto n (fun _ => 0 * 0)) by (rewrite (@sum_upto_scale n 0 (fun _ => 0)); ring). apply sum_upto_le. intros j Hj'. pose proof (Hlc (NT j Hj') Hx Hy) as C2. rewrite Rmult_0_l. unfold D, u. rewrite Ropp_0, Rmult_0_l in C2. exact C2. }
    replace (m / Tp * norm2 (dim s) u) with (/ Tp * (m * norm2 (dim s) u)) by (unfold Rdiv; ring). apply Rmult_le_compat_l; [left; apply Rinv_0_lt_compat; exact HTp|].
    assert (C3 : 0 <= INR N / INR n * - sum_upto n (fun j => sum_upto (dim s) (fun i => D j i * u i))) by (apply Rmult_le_pos; [apply Rmult_le_pos; [exact PN|left; apply Rinv_0_lt_compat; exact PM]|clear -C2; lra]). clear -C1 C3. lra.
  - rewrite (@norm2_ext (dim s) g (fun i => / Tp * ((- (INR N / INR n)) * sum_upto n (fun j => D j i) + (- 1) * P i))) by (exact G).
    rewrite (@norm2_scale (dim s) (/ Tp) (fun i => (- (INR N / INR n)) * sum_upto n (fun j => D j i) + (- 1) * P i)).
    replace (L' * L' * norm2 (dim s) u) with (/ Tp * / Tp * ((INR N * Ll + Lp) * (INR N * Ll + Lp) * norm2 (dim s) u)) by (unfold Rdiv; ring).
    apply Rmult_le_compat_l; [apply Rle_0_sqr|].
    apply (@minkowski (dim s) (fun i => (- (INR N / INR n)) * sum_upto n (fun j => D j i)) (fun i => (-1) * P i)); [apply Rmult_le_pos; [exact PN|exact HLl]|exact HLp|exact UN| |].
    + rewrite (@norm2_scale (dim s) (- (INR N / INR n)) (fun i => sum_upto n (fun j => D j i))).
      pose proof (@minkowski_sum (dim s) n D Ll (norm2 (dim s) u) HLl UN) as M. 
      assert (M1 : norm2 (dim s) (fun i => sum_upto n (fun j => D j i)) <= INR n * Ll * (INR n * Ll) * norm2 (dim s) u) by (apply M; intros j Hj'; apply (Hll (NT j Hj') Hx Hy)).
      replace (INR N * Ll * (INR N * Ll) * norm2 (dim s) u) with (- (INR N / INR n) * - (INR N / INR n) * (INR n * Ll * (INR n * Ll) * norm2 (dim s) u)) by (field; apply Rgt_not_eq; exact PM).
      apply Rmult_le_compat_l; [|exact M1]. apply Rle_0_sqr.
    + rewrite (@norm2_scale (dim s) (-1) P). replace (-1 * -1 * norm2 (dim s) P) with (norm2 (dim s) P) by ring. apply (Hpl Hx Hy).
Qed.
Lemma ugrad_pgrad t z mz i : In t (tuples mb N) -> like s z -> (i < dim s)%nat -> el (ugrad z (batch_at data t) mz) i = pgrad t z i.
Proof using Hs Hpot Hl Hk Hj Hd HN Hmb Hone Hdl Hdp.
  intros Ht Hz Hi. apply tuples_spec in Ht. destruct Ht as [Lt Ft]. unfold batch_at.
  rewrite (@user_grad_is obs prior likelihood has_state Tp strategy pot Hpot (fun _ => l) Hl Hk data N Hd HN t (repeat true (length t)) Ft (repeat_length _ _) ltac:(rewrite Lt; exact Hmb) ltac:(rewrite Lt; exact Hone) s Hs jgrad Hj (fun _ => dl) dp z mz Hz).
  - unfold posterior_grad. rewrite (proj2 (tree_of_ok _ Hs)) by exact Hi. reflexivity.
  - split; [apply Hdp; exact Hz|]. intros j Hj'. apply Hdl; assumption.
  - exact Hi.
Qed.
Lemma batch_gradient x y mx my t : like s x -> like s y -> In t (tuples mb N) ->
  let u := fun i => el x i - el y i in let g := fun i => el (ugrad x (batch_at data t) mx) i - el (ugrad y (batch_at data t) my) i in
  m' * norm2 (dim s) u <= sum_upto (dim s) (fun i => g i * u i) /\ norm2 (dim s) g <= L' * L' * norm2 (dim s) u.
Proof using Hs Hpot Hl Hk Hj Hd HN Hmb Hone Hdl Hdp HTp Hlc Hpc HLl HLp Hll Hpl.
  intros Hx Hy Ht u g. destruct (proj1 (tuples_spec _ _ _) Ht) as [Lt Ft].
  destruct (@pgrad_bounds x y t Hx Hy ltac:(rewrite Lt; exact Hmb) Ft) as [B1 B2].
  assert (G : forall i, (i < dim s)%nat -> g i = pgrad t x i - pgrad t y i) by (intros i Hi; unfold g; rewrite !ugrad_pgrad by assumption; reflexivity).
  rewrite (@sum_upto_ext (dim s) (fun i => g i * u i) (fun i => (pgrad t x i - pgrad t y i) * u i)) by (intros i Hi; rewrite (G i Hi); reflexivity).
  rewrite (@norm2_ext (dim s) g (fun i => pgrad t x i - pgrad t y i)) by exact G. split; assumption.
Qed.

(** two runs with the same batches, the same key, the same step sizes and temperature from two samples and model states *)
Section Runs.
Variables (Data : Type) (get_data : Data -> Data * mbatch obs) (d0 : Data) (normal : key -> list nat -> list R).
Variables (eps : nat -> R) (T : R) (x0 y0 mx my : vtree) (key0 : key).
(** auxiliary definition of a statement or a proof; models no code of /repo *)
Definition runs_ok : Prop := normal_ok normal /\ like s x0 /\ like s y0 /\ forall k, exists t, length t = mb /\ Forall (fun i => (i < N)%nat) t /\ batch_no get_data d0 k = batch_at data t.
Hypothesis Hok : runs_ok.
Notation xs := (sgld_state normal get_data uvalue ulikelihoods umodel ugrad eps T (lv_init x0 (Some key0) None d0 mx)).
Notation ys := (sgld_state normal get_data uvalue ulikelihoods umodel ugrad eps T (lv_init y0 (Some key0) None d0 my)).
Lemma distance_step n : 0 <= eps n -> distance2 s (l_pos (xs (S n))) (l_pos (ys (S n))) <= (1 - 2 * eps n * m' + eps n * eps n * (L' * L')) * distance2 s (l_pos (xs n)) (l_pos (ys n)).
Proof.
  intros He. destruct Hok as (Hn & Hx & Hy & Hb).
  assert (Hg : forall t b m, like s t -> like s (ugrad t b m)) by (intros t b mm H; apply Hj; exact H).
  pose proof (@at_inv s Hs Data (mbatch obs) vtree get_data uvalue ulikelihoods umodel ugrad Hg T x0 mx key0 Hx eps unit (fun _ => normal) (fun _ => d0) n tt Hn) as IX.
  pose proof (@at_inv s Hs Data (mbatch obs) vtree get_data uvalue ulikelihoods umodel ugrad Hg T y0 my key0 Hy eps unit (fun _ => normal) (fun _ => d0) n tt Hn) as IY.
  unfold at_ in IX, IY. destruct IX as (X1 & X2 & X3). destruct IY as (Y1 & Y2 & Y3).
  destruct (Hb n) as (t & Lt & Ft & Bt).
  assert (XS : xs (S n) = fst (lv_update normal get_data uvalue ulikelihoods umodel ugrad None (eps n) T (xs n))) by (unfold sgld_state; rewrite seq_S, fold_left_app; reflexivity).
  assert (YS : ys (S n) = fst (lv_update normal get_data uvalue ulikelihoods umodel ugrad None (eps n) T (ys n))) by (unfold sgld_state; rewrite seq_S, fold_left_app; reflexivity).
  pose proof (@C37_sgld_step s Hs normal Hn Data (mbatch obs) vtree unit get_data uvalue ulikelihoods umodel ugrad Hg (eps n) T (xs n) X1) as SX. cbv zeta in SX.
  pose proof (@C37_sgld_step s Hs normal Hn Data (mbatch obs) vtree unit get_data uvalue ulikelihoods umodel ugrad Hg (eps n) T (ys n) Y1) as SY. cbv zeta in SY.
  rewrite <- XS in SX. rewrite <- YS in SY. unfold batch_no in Bt. rewrite X2 in SX. rewrite Y2 in SY. destruct (get_data (drawn get_data d0 n)) as [dd b]. cbn [snd] in Bt. subst b.
  destruct SX as (_ & SX & _). destruct SY as (_ & SY & _).
  destruct (@batch_gradient (l_pos (xs n)) (l_pos (ys n)) (l_model (xs n)) (l_model (ys n)) t X1 Y1 ltac:(apply tuples_spec; auto)) as [B1 B2].
  pose proof (@step_distance (dim s) _ _ (eps n) m' L' He B1 B2) as ST. change (distance2 s (l_pos (xs n)) (l_pos (ys n))) with (norm2 (dim s) (fun i => el (l_pos (xs n)) i - el (l_pos (ys n)) i)).
  eapply Rle_trans; [|exact ST]. right. unfold distance2, norm2. apply sum_upto_ext. intros i Hi. rewrite SX, SY by exact Hi. rewrite X3, Y3. ring.
Qed.
(** the distance after n iterations *)
Theorem C89_distance : forall n, (forall k, (k < n)%nat -> 0 <= eps k) ->
  distance2 s (l_pos (xs n)) (l_pos (ys n)) <= prod_upto n (fun k => Rabs (1 - 2 * eps k * m' + eps k * eps k * (L' * L'))) * distance2 s x0 y0.
Proof.
  induction n as [|n IH]; intros He; [cbn [prod_upto]; rewrite Rmult_1_l; right; reflexivity|].
  eapply Rle_trans; [apply distance_step; apply He; lia|]. cbn [prod_upto].
  eapply Rle_trans; [apply Rmult_le_compat_r; [apply distance2_nonneg|apply Rle_abs]|].
  rewrite (Rmult_comm (prod_upto n _) (Rabs _)), (Rmult_assoc (Rabs _) (prod_upto n _)). apply Rmult_le_compat_l; [apply Rabs_pos|]. apply IH. intros k Hk'. apply He. lia.
Qed.
End Runs.
(** step sizes that vanish but do not sum up to a finite number: the distance tends to 0, uniformly over the batches, the noise, the keys and the model states *)
Theorem C89_vanishing_steps : 0 < m -> forall eps, (forall n, 0 < eps n) -> vanishing eps -> divergent eps -> forall r delta, 0 <= r -> 0 < delta ->
  exists n0, forall n, (n0 <= n)%nat -> forall Data (get_data : Data -> Data * mbatch obs) d0 normal T x0 y0 mx my key0, runs_ok get_data d0 normal x0 y0 -> distance2 s x0 y0 <= r ->
    distance2 s (l_pos (sgld_state normal get_data uvalue ulikelihoods umodel ugrad eps T (lv_init x0 (Some key0) None d0 mx) n))
                (l_pos (sgld_state normal get_data uvalue ulikelihoods umodel ugrad eps T (lv_init y0 (Some key0) None d0 my) n)) <= delta.
Proof.
  intros Hm eps Ep Ev Ed r delta Hr Hdelta.
  assert (Hm' : 0 < 2 * m') by (apply Rmult_lt_0_compat; [lra|]; apply Rdiv_lt_0_compat; auto).
  destruct (@z_limit eps Ep Ev Ed (2 * m') (L' * L') 0 0 r Hm' ltac:(lra) ltac:(lra) Hr delta Hdelta) as [n0 H0]. exists n0.
  intros n Hn Data get_data d0 normal T x0 y0 mx my key0 Hok Hr0.
  set (w := fun n => distance2 s (l_pos (sgld_state normal get_data uvalue ulikelihoods umodel ugrad eps T (lv_init x0 (Some key0) None d0 mx) n)) (l_pos (sgld_state normal get_data uvalue ulikelihoods umodel ugrad eps T (lv_init y0 (Some key0) None d0 my) n))).
  change (w n <= delta). eapply Rle_trans; [|apply (H0 n Hn)]. eapply Rle_trans; [apply Rle_abs|]. apply z_bound with (n := n); auto; try lra.
  - rewrite Rabs_pos_eq by apply distance2_nonneg. exact Hr0.
  - intros k Hk'. rewrite !(Rabs_pos_eq (w _)) by apply distance2_nonneg. pose proof (@distance_step Data get_data d0 normal eps T x0 y0 mx my key0 Hok k (Rlt_le _ _ (Ep k))) as D.
    fold (w k) (w (S k)) in D. pose proof (distance2_nonneg s (l_pos (sgld_state normal get_data uvalue ulikelihoods umodel ugrad eps T (lv_init x0 (Some key0) None d0 mx) k)) (l_pos (sgld_state normal get_data uvalue ulikelihoods umodel ugrad eps T (lv_init y0 (Some key0) None d0 my) k))) as WN. fold (w k) in WN.
    replace (1 - eps k * (2 * m') + eps k * eps k * (L' * L')) with (1 - 2 * eps k * m' + eps k * eps k * (L' * L')) by ring.
    assert ((1 - 2 * eps k * m' + eps k * eps k * (L' * L')) * w k <= Rabs (1 - 2 * eps k * m' + eps k * eps k * (L' * L')) * w k) by (apply Rmult_le_compat_r; [exact WN|apply Rle_abs]). lra.
Qed.
(** a constant step size below 2 m' / L'^2: the distance decreases geometrically *)
Theorem C89_constant_step : forall e, 0 < e -> e * (L' * L') < 2 * m' -> let q := Rmax 0 (1 - 2 * e * m' + e * e * (L' * L')) in
  0 <= q < 1 /\ forall n Data (get_data : Data -> Data * mbatch obs) d0 normal T x0 y0 mx my key0, runs_ok get_data d0 normal x0 y0 ->
    distance2 s (l_pos (sgld_state normal get_data uvalue ulikelihoods umodel ugrad (fun _ => e) T (lv_init x0 (Some key0) None d0 mx) n))
                (l_pos (sgld_state normal get_data uvalue ulikelihoods umodel ugrad (fun _ => e) T (lv_init y0 (Some key0) None d0 my) n)) <= q ^ n * distance2 s x0 y0.
Proof.
  intros e He HeL q. assert (Q : 0 <= q < 1).
  { split; [apply Rmax_l|]. unfold q. apply Rmax_lub_lt; [lra|]. assert (e * (e * (L' * L')) < e * (2 * m')) by (apply Rmult_lt_compat_l; auto). lra. }
  split; [exact Q|]. intros n Data get_data d0 normal T x0 y0 mx my key0 Hok. induction n as [|n IH]; [cbn [pow]; rewrite Rmult_1_l; right; reflexivity|].
  eapply Rle_trans; [apply (@distance_step Data get_data d0 normal (fun _ => e) T x0 y0 mx my key0 Hok n (Rlt_le _ _ He))|]. cbv beta.
  cbn [pow]. rewrite (Rmult_assoc q (q ^ n)). eapply Rle_trans; [apply Rmult_le_compat_r; [apply distance2_nonneg|apply (Rmax_r 0)]|]. apply Rmult_le_compat_l; [apply Q|]. exact IH.
Qed.
(** the loaders of the library produce such batches *)
Theorem C89_device_batches : forall (G K : Type) (lo : loader G obs) (ca : nat) (split : K -> K * K) (randint : K -> nat -> nat -> list nat) (dkey : K) normal x0 y0, make_loader data = Ok lo -> N = l_count lo ->
  check_random DeviceKind (Z.of_nat (l_count lo)) (Z.of_nat ca) (Z.of_nat mb) = Ok tt ->
  (forall k n m, length (randint k n m) = n /\ ((0 < m)%nat -> Forall (fun i => (i < m)%nat) (randint k n m))) -> normal_ok normal -> like s x0 -> like s y0 ->
  runs_ok (device_source split randint data N mb) dkey normal x0 y0.
Proof.
  intros G K lo ca split randint dkey normal x0 y0 Hlo HNlo Hacc Hrand Hn Hx Hy. split; [exact Hn|]. split; [exact Hx|]. split; [exact Hy|]. intros k.
  exists (batch_no (device_indices split randint N mb) dkey k). destruct (@dev_sizes G obs data lo ca mb Hlo Hacc) as (S1 & _).
  assert (LL : length (batch_no (device_indices split randint N mb) dkey k) = mb) by (unfold batch_no, device_indices; cbn [snd]; apply Hrand).
  split; [exact LL|]. split; [unfold batch_no, device_indices; cbn [snd]; apply Hrand; lia|].
  pose proof (@dev_batch_no G K obs split randint Hrand likelihood data lo ca mb Hlo Hacc Hone dkey k) as D. rewrite <- HNlo in D. rewrite D. unfold batch_at. f_equal. f_equal. symmetry. exact LL.
Qed.
Theorem C89_host_batches : forall (G : Type) (choice_repl : G -> nat -> nat -> G * list nat) (choice_perm : G -> nat -> G * list nat) (rng_of_seed : nat -> G) (cid : nat) normal x0 y0,
  (0 < N)%nat -> repl_oracle choice_repl -> normal_ok normal -> like s x0 -> like s y0 ->
  runs_ok (stream_source choice_repl choice_perm rng_of_seed data N mb cid) 0%nat normal x0 y0.
Proof.
  intros G choice_repl choice_perm rng_of_seed cid normal x0 y0 HN0 Hrepl Hn Hx Hy. split; [exact Hn|]. split; [exact Hx|]. split; [exact Hy|]. intros k.
  destruct (@drawn_indices_ok G choice_repl rng_of_seed Hrepl N mb cid k HN0) as [O1 O2]. exists (drawn_indices choice_repl rng_of_seed N mb cid k). split; [exact O1|]. split; [exact O2|].
  rewrite stream_no. unfold batch_at. f_equal. f_equal. symmetry. exact O1.
Qed.
End C89.

(** ** Logistic regression: the observations 0 and 1 stand for the labels -1 and 1, log likelihood - ln (1 + exp (- label * x)), log prior - x^2/2 *)
(** auxiliary definitions of an example; model no code of /repo *)
Definition logi_label (r : orow nat) : R := 2 * ex_obs r - 1.
(** auxiliary definition of a statement or a proof; models no code of /repo *)
Definition logi_l (x : vtree) (r : orow nat) : R := - ln (1 + exp (- logi_label r * el x 0)).
(** auxiliary definition of a statement or a proof; models no code of /repo *)
Definition logi_lik : lik_fn nat vtree vtree := Single (fun st x r => (logi_l x r, st)).
(** auxiliary definition of a statement or a proof; models no code of /repo *)
Definition logi_dl (x : vtree) (r : orow nat) (i : nat) : R := logi_label r * / (1 + exp (logi_label r * el x 0)).
Lemma logistic_lipschitz a b : a <= b -> 0 <= / (1 + exp a) - / (1 + exp b) <= b - a.
Proof.
  intros H. pose proof (exp_pos a) as Pa. pose proof (exp_pos b) as Pb.
  assert (Hab : exp a <= exp b) by (destruct H as [H|H]; [left; apply exp_increasing; exact H|subst; right; reflexivity]).
  replace (/ (1 + exp a) - / (1 + exp b)) with ((exp b - exp a) * / ((1 + exp a) * (1 + exp b))) by (field; split; lra).
  assert (PP : 0 < / ((1 + exp a) * (1 + exp b))) by (apply Rinv_0_lt_compat; apply Rmult_lt_0_compat; lra). split; [apply Rmult_le_pos; lra|].
  assert (EE : exp b - exp a <= exp b * (b - a)).
  { replace (exp a) with (exp b * exp (- (b - a))) by (rewrite <- exp_plus; f_equal; ring). pose proof (one_minus_exp (b - a)) as O. assert (exp b * (1 - (b - a)) <= exp b * exp (- (b - a))) by (apply Rmult_le_compat_l; lra). lra. }
  apply Rle_trans with (exp b * (b - a) * / ((1 + exp a) * (1 + exp b))); [apply Rmult_le_compat_r; lra|].
  replace (b - a) with ((b - a) * 1) at 2 by ring. replace (exp b * (b - a) * / ((1 + exp a) * (1 + exp b))) with ((b - a) * (exp b * / ((1 + exp a) * (1 + exp b)))) by ring. apply Rmult_le_compat_l; [lra|].
  apply Rmult_le_reg_r with ((1 + exp a) * (1 + exp b)); [apply Rmult_lt_0_compat; lra|]. rewrite Rmult_assoc, Rinv_l by (apply Rgt_not_eq; apply Rmult_lt_0_compat; lra). rewrite Rmult_1_l, Rmult_1_r. pose proof (Rmult_le_pos (exp a) (exp b) ltac:(lra) ltac:(lra)). lra.
Qed.
(** the gradient of the log likelihood is monotone and Lipschitz with constant 1 *)
Lemma logistic_pair (y u v : R) : y = 1 \/ y = -1 -> let g := y * / (1 + exp (y * u)) - y * / (1 + exp (y * v)) in g * (u - v) <= 0 /\ g * g <= 1 * 1 * ((u - v) * (u - v)).
Proof.
  intros Hy g. destruct (Rle_dec (y * u) (y * v)) as [H|H].
  - pose proof (logistic_lipschitz H) as [L1 L2]. set (d := / (1 + exp (y * u)) - / (1 + exp (y * v))) in *. assert (Eg : g = y * d) by (unfold g, d; ring).
    assert (Y : y * y = 1) by (destruct Hy; subst; ring). split.
    + rewrite Eg. replace (y * d * (u - v)) with (- (d * (y * v - y * u))) by ring. assert (0 <= d * (y * v - y * u)) by (apply Rmult_le_pos; lra). lra.
    + rewrite Eg. replace (y * d * (y * d)) with (y * y * (d * d)) by ring. replace ((u - v) * (u - v)) with ((y * y) * ((u - v) * (u - v))) by (rewrite Y; ring). rewrite Y.
      replace (1 * 1 * (1 * ((u - v) * (u - v)))) with ((y * v - y * u) * (y * v - y * u)) by (transitivity (y * y * ((u - v) * (u - v))); [ring|rewrite Y; ring]). rewrite Rmult_1_l. apply Rmult_le_compat; lra.
  - assert (H' : y * v <= y * u) by lra. pose proof (logistic_lipschitz H') as [L1 L2]. set (d := / (1 + exp (y * v)) - / (1 + exp (y * u))) in *. assert (Eg : g = - (y * d)) by (unfold g, d; ring).
    assert (Y : y * y = 1) by (destruct Hy; subst; ring). split.
    + rewrite Eg. replace (- (y * d) * (u - v)) with (- (d * (y * u - y * v))) by ring. assert (0 <= d * (y * u - y * v)) by (apply Rmult_le_pos; lra). lra.
    + rewrite Eg. replace (- (y * d) * - (y * d)) with (y * y * (d * d)) by ring. rewrite Y.
      replace (1 * 1 * ((u - v) * (u - v))) with ((y * u - y * v) * (y * u - y * v)) by (transitivity (y * y * ((u - v) * (u - v))); [ring|rewrite Y; ring]). rewrite Rmult_1_l. apply Rmult_le_compat; lra.
Qed.
Lemma logistic_derivative y t : derivable_pt_lim (fun t => - ln (1 + exp (- y * t))) t (y * / (1 + exp (y * t))).
Proof.
  pose proof (exp_pos (- y * t)) as P. pose proof (exp_pos (y * t)) as P2.
  replace (y * / (1 + exp (y * t))) with (- (/ (1 + exp (- y * t)) * (0 + exp (- y * t) * (- y * 1)))).
  2:{ assert (EE : exp (- y * t) * exp (y * t) = 1) by (rewrite <- exp_plus, <- exp_0; f_equal; ring). apply Rmult_eq_reg_r with ((1 + exp (- y * t)) * (1 + exp (y * t))); [|apply Rgt_not_eq; apply Rmult_lt_0_compat; lra].
      transitivity (y * (exp (- y * t) * (1 + exp (y * t)))); [field; lra|]. transitivity (y * (1 + exp (- y * t))); [|field; lra]. f_equal. rewrite Rmult_plus_distr_l, EE. ring. }
  apply (derivable_pt_lim_opp (fun t => ln (1 + exp (- y * t)))).
  apply (derivable_pt_lim_comp (fun t => 1 + exp (- y * t)) ln).
  - apply (derivable_pt_lim_plus (fct_cte 1) (fun t => exp (- y * t))); [apply derivable_pt_lim_const|]. apply (derivable_pt_lim_comp (fun t => - y * t) exp); [apply (derivable_pt_lim_scal id (- y)), derivable_pt_lim_id|apply derivable_pt_lim_exp].
  - apply derivable_pt_lim_ln. lra.
Qed.
(** two runs of SGLD for logistic regression on three observations with batches of two, from samples at distance up to 10, with the default exponent of the
    polynomial step size: after sufficiently many iterations they are as close together as one likes, whatever the batches and the noise are *)
Example C89_nonvacuous : let s := Leaf (mkArr [] [0]) in let data := [("y"%string, [0%nat; 1%nat; 1%nat])] in let pot := potential_function ex_prior logi_lik false 1 in
  let eps := fun n : nat => 1 * Rpower (1 + INR n) (- (33 / 100)) in
  forall delta, 0 < delta -> exists n0, forall n, (n0 <= n)%nat -> forall (idx : nat -> nat * nat) (normal : key -> list nat -> list R) T u v key0,
    normal_ok normal -> (forall k, (fst (idx k) < 3)%nat /\ (snd (idx k) < 3)%nat) -> Rabs (u - v) <= 10 ->
    let get_data := fun k : nat => (S k, batch_at data [fst (idx k); snd (idx k)]) in
    let x := fun u => el (l_pos (sgld_state normal get_data (user_value false pot 3) (user_likelihoods false pot 3) (user_model false pot 3) (user_grad false pot 3 (derive_grad s))
      eps T (lv_init (Leaf (mkArr [] [u])) (Some key0) None 0%nat (Leaf (mkArr [] [1]))) n)) 0 in
    Rabs (x u - x v) <= delta.
Proof.
  intros s data pot eps delta Hdelta.
  assert (Hs : wfv s) by (constructor; [reflexivity|constructor]).
  assert (D : dim s = 1%nat) by reflexivity.
  assert (SUM1 : forall f, sum_upto (dim s) f = f 0%nat) by (intros f; rewrite D; unfold sum_upto; cbn; lra).
  assert (LAB : forall k, (k < 3)%nat -> logi_label (row data k) = 1 \/ logi_label (row data k) = -1).
  { intros k Hk. destruct k as [|[|[|k]]]; [right|left|left|lia]; unfold logi_label; cbn; lra. }
  assert (EL : forall x c t, (c < dim s)%nat -> el (at_coordinate s x c t) 0 = t).
  { intros x c t Hc. unfold at_coordinate. rewrite (proj2 (tree_of_ok _ Hs)) by (rewrite D; lia). rewrite D in Hc. replace c with 0%nat by lia. reflexivity. }
  destruct (@C89_vanishing_steps s Hs nat ex_prior logi_lik false 1 PMap pot eq_refl logi_l) with (jgrad := derive_grad s) (data := data) (N := 3%nat) (mb := 2%nat)
    (dl := logi_dl) (dp := fun x (_ : nat) => - el x 0) (m := 1) (Ll := 1) (Lp := 1) (eps := eps) (r := 100) (delta := delta * delta) as [n0 H]; try lra; try lia; auto.
  { intros st x r. reflexivity. }
  { discriminate. }
  { apply derive_grad_exact. exact Hs. }
  { discriminate. }
  { intros ka [<-|[]]. reflexivity. }
  { intros k x Hk Hx c Hc. apply (derivable_pt_lim_ext (fun t => - ln (1 + exp (- logi_label (row data k) * t)))); [intros t; unfold logi_l; now rewrite EL|]. unfold logi_dl. replace c with 0%nat by (rewrite D in Hc; lia). apply logistic_derivative. }
  { intros x Hx c Hc. apply (derivable_pt_lim_ext (fun t => (- / 2) * (t * t))); [intros t; unfold ex_prior; rewrite EL by exact Hc; field|]. replace c with 0%nat by (rewrite D in Hc; lia).
    replace (- el x 0) with ((- / 2) * (1 * el x 0 + el x 0 * 1)) by field. apply (derivable_pt_lim_scal (fun t => t * t)). apply (derivable_pt_lim_mult id id); apply derivable_pt_lim_id. }
  { intros k Hk x y _ _. unfold distance2. rewrite !SUM1. unfold logi_dl. destruct (@logistic_pair (logi_label (row data k)) (el x 0) (el y 0) (LAB k Hk)) as [P _]. cbv zeta in P. lra. }
  { intros x y _ _. unfold distance2. rewrite !SUM1. lra. }
  { intros k Hk x y _ _. unfold distance2. rewrite !SUM1. unfold logi_dl. destruct (@logistic_pair (logi_label (row data k)) (el x 0) (el y 0) (LAB k Hk)) as [_ P]. cbv zeta in P. lra. }
  { intros x y _ _. unfold distance2. rewrite !SUM1. lra. }
  { intros n. apply (poly_pos 1 (33 / 100)). lra. }
  { apply poly_vanishing; lra. }
  { apply poly_divergent; lra. }
  { apply Rmult_lt_0_compat; exact Hdelta. }
  exists n0. intros n Hn idx normal T u v key0 Hnorm Hidx Huv get_data x.
  assert (K := H n Hn nat get_data 0%nat normal T (Leaf (mkArr [] [u])) (Leaf (mkArr [] [v])) (Leaf (mkArr [] [1])) (Leaf (mkArr [] [1])) key0).
  assert (LK : forall a, like s (Leaf (mkArr [] [a]))) by (intros a; split; [repeat constructor|split; reflexivity]).
  assert (K' : (x u - x v) * (x u - x v) <= delta * delta).
  { assert (E1 : forall a b, distance2 s a b = (el a 0 - el b 0) * (el a 0 - el b 0)) by (intros; unfold distance2; now rewrite SUM1).
    rewrite !E1 in K. apply K.
    - split; [exact Hnorm|]. split; [apply LK|]. split; [apply LK|]. intros k. exists [fst (idx k); snd (idx k)]. split; [reflexivity|]. split; [constructor; [apply Hidx|constructor; [apply Hidx|constructor]]|].
      unfold batch_no. rewrite (@drawn_count nat (fun n => n) _ get_data 0%nat k) by reflexivity. reflexivity.
    - cbn. change ((u - v) * (u - v) <= 100). pose proof (Rabs_pos (u - v)) as P. replace ((u - v) * (u - v)) with (Rabs (u - v) * Rabs (u - v)) by (rewrite <- Rabs_mult; apply Rabs_pos_eq, Rle_0_sqr). replace 100 with (10 * 10) by lra. apply Rmult_le_compat; lra. }
  apply Rsqr_incr_0_var; [|lra]. rewrite <- Rsqr_abs. exact K'.
Qed.
Print Assumptions C89_distance. Print Assumptions C89_vanishing_steps. Print Assumptions C89_constant_step. Print Assumptions C89_device_batches. Print Assumptions C89_host_batches. Print Assumptions C89_nonvacuous.
