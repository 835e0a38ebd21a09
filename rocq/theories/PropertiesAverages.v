(** C91: the averages of the samples of SGLD converge to the posterior mean (law of large numbers). *)
From Coq Require Import Reals Lra Psatz ZArith String.
From Verif Require Import Base ListUtil NumpyLoader LoaderSpec NumpyLoaderProofs NumpyLoaderApi DeviceData DeviceDataProofs.
From Verif Require Import Pytree PytreeSpec PytreeProofs Io IoSpec IoProofs TreeUtil TreeUtilSpec TreeUtilProofs Integrator IntegratorSpec IntegratorBasics PropertiesIntegrator AliasData.
From Verif Require Import DataCore DataSpec Potential PotentialSpec PotentialProofs UnbiasedProofs VarianceProofs PropertiesPotential LeapfrogVolume EndToEndSpec EndToEndProofs PropertiesEndToEnd PropertiesDeviceAlias.
From Verif Require Import ExpectSpec ExpectProofs GaussianLimit GaussianMatrix GaussianSpec GaussianProofs PropertiesGaussian SghmcGaussian MinibatchSpec MinibatchProofs MinibatchVariance PropertiesMinibatchGaussian StabilityProofs AverageProofs.
Open Scope R_scope.
Set Implicit Arguments.

Section C91.
Variable s : vtree.
Hypothesis Hs : wfv s.
Variable obs : Type.
(** the setting of C87: a user's model with Gaussian likelihood and prior *)
Variables (prior : vtree -> R) (likelihood : lik_fn obs vtree vtree) (has_state : bool) (Tp : R) (strategy : pot_strategy).
Variable pot : nat -> vtree -> mbatch obs -> option vtree -> option (list bool) -> res (R * list R * option vtree).
Hypothesis Hpot : minibatch_potential prior likelihood has_state Tp strategy = Ok pot.
Variable l : option vtree -> vtree -> orow obs -> R.
Hypothesis Hl : evaluates_with likelihood l.
Hypothesis Hk : keeps_state likelihood has_state.
Variable jgrad : (vtree -> R) -> vtree -> vtree.
Hypothesis Hj : exact_gradients s jgrad.
Hypothesis HTp : 0 < Tp.
Variables (data : list (string * list obs)) (N mb : nat).
Hypothesis Hd : data <> [].
Hypothesis HN : forall ka, In ka data -> length (snd ka) = N.
Hypothesis HN0 : (0 < N)%nat.
Hypothesis Hmb : (0 < mb)%nat.
Hypothesis Hone : is_batched likelihood = true -> mb <> 1%nat.
Variables (c0 : option vtree -> orow obs -> R) (b0 : orow obs -> nat -> R) (H0 : orow obs -> nat -> nat -> R) (cp : R) (bp : nat -> R) (Hp : nat -> nat -> R).
Hypothesis Hlq : forall st k, (k < N)%nat -> quadratic s (fun x => l st x (row data k)) (c0 st (row data k)) (b0 (row data k)) (H0 (row data k)).
Hypothesis Hpq : quadratic s prior cp bp Hp.
(** precision matrix A, covariance matrix B and mean mu of the posterior *)
Variables (A B : nat -> nat -> R) (mu : nat -> R) (lam : R).
Hypothesis HA : forall i j, (i < dim s)%nat -> (j < dim s)%nat -> A i j = (sum_upto N (fun k => H0 (row data k) i j) + Hp i j) / Tp.
Hypothesis Hpd : positive_definite (dim s) A lam.
Hypothesis HB : inverse_matrix (dim s) A B.
Hypothesis Hmu : forall i, (i < dim s)%nat -> matvec (dim s) A mu i = (sum_upto N (fun k => b0 (row data k) i) + bp i) / Tp.
Variables (T : R) (x0 model0 : vtree) (key0 : key).
Hypothesis HT : 0 <= T.
Hypothesis Hx : like s x0.
Notation uvalue := (user_value has_state pot N).
Notation ulikelihoods := (user_likelihoods has_state pot N).
Notation umodel := (user_model has_state pot N).
Notation ugrad := (user_grad has_state pot N jgrad).
Notation ebound := (error_bound s Tp data N mb b0 H0 mu).
Notation cf0 := (coef0 s Tp data N mb b0 H0 mu).
Notation cf1 := (coef1 Tp data N mb H0).

(** P holds for the samples of every run with these step sizes, x k: the sample after k iterations; for every source of batches with independent, uniformly distributed index lists *)
(** auxiliary definition of a statement or a proof; models no code of /repo *)
Definition for_runs (eps : nat -> R) (n : nat) (P : forall W, ((W -> R) -> R) -> (nat -> W -> nat -> R) -> Prop) : Prop :=
  forall W (E : (W -> R) -> R) (normal : W -> key -> list nat -> list R) Data (get_data : W -> Data -> Data * mbatch obs) (d0 : W -> Data) (idx : nat -> W -> list nat),
    (forall w, normal_ok (normal w)) -> (forall k w, length (idx k w) = mb /\ Forall (fun i => (i < N)%nat) (idx k w)) ->
    (forall k w, batch_no (get_data w) (d0 w) k = batch_at data (idx k w)) ->
    independent_run idx (fun k w => xi (normal w) (Sub (chain key0 k) 1) s) (dim s) E N mb n ->
    P W E (fun k w i => el (l_pos (sgld_state (normal w) (get_data w) uvalue ulikelihoods umodel ugrad eps T (lv_init x0 (Some key0) None (d0 w) model0) k)) i).

Section Core.
Variables (e0 Z : R).
Hypothesis Pe : 0 <= e0.
Hypothesis PZ : 0 <= Z.
Notation W2 := (fnorm (dim s) (fun i j => (el x0 i - mu i) * (el x0 j - mu j) - T * B i j)).
(** auxiliary definition of a statement or a proof; models no code of /repo *)
Definition vbound : R := Z + sum_upto (dim s) (fun i => Rabs (T * B i i)).
Lemma zeros : (forall i, (i < dim s)%nat -> average (map (cf0 i) (tuples mb N)) = 0) /\ forall i a, (i < dim s)%nat -> (a < dim s)%nat -> average (map (cf1 i a) (tuples mb N)) = 0.
Proof.
  assert (Z1 : forall i a, average (map (cf1 i a) (tuples mb N)) = 0).
  { intros i a. unfold coef1. rewrite (average_scale (excess N mb (fun k => H0 (row data k) i a))), average_excess by assumption. ring. }
  split; [|intros; apply Z1]. intros i Hi. unfold coef0. rewrite (average_plus (fun t => (- / Tp) * excess N mb (fun k => b0 (row data k) i) t) (fun t => sum_upto (dim s) (fun b => mu b * cf1 i b t))).
  rewrite (average_scale (excess N mb (fun k => b0 (row data k) i))), average_excess by assumption. rewrite (average_sum (dim s) (fun b t => mu b * cf1 i b t)).
  rewrite (@sum_upto_zero (dim s)); [ring|]. intros b Hb. rewrite (average_scale (cf1 i b)), Z1. ring.
Qed.
Lemma average_core : exists K, 0 <= K /\ forall eps, (forall k, 0 < eps k <= e0) -> (forall k, z eps (2 * lam) (frob (dim s) A) (cov_P (dim s) ebound) (cov_Q (dim s) A T ebound B) W2 k <= Z) -> forall r, (forall k, 0 <= r k) -> (forall k, r k <= r (Datatypes.S k)) -> forall n, 0 < sum_upto n (fun k => r k * eps k) ->
  for_runs eps n (fun W E x => forall i, (i < dim s)%nat ->
    let a := sum_upto n (fun k => r k * eps k) in let rho := r (n - 1)%nat / a in
    E (fun w => (sum_upto n (fun k => r k * eps k * x k w i) / a - mu i) * (sum_upto n (fun k => r k * eps k * x k w i) / a - mu i)) <= K * (rho * rho + rho)).
Proof.
  set (Sb := ebound * (1 + INR (dim s) * vbound)).
  pose proof (error_bound_nonneg s Tp data N mb b0 H0 mu) as PE. 
  assert (PV : 0 <= vbound) by (apply Rplus_le_le_0_compat; [exact PZ|apply sum_upto_nonneg; intros; apply Rabs_pos]).
  assert (PS : 0 <= Sb) by (apply Rmult_le_pos; [exact PE|]; pose proof (Rmult_le_pos _ _ (pos_INR (dim s)) PV); lra).
  set (ab := avg_bound (dim s) B T Sb vbound e0).
  assert (Pab : forall i, 0 <= ab i).
  { intros i. unfold ab, avg_bound. apply Rmult_le_pos; [apply Rmult_le_pos; [apply norm2_nonneg|apply pos_INR]|]. pose proof (Rmult_le_pos _ _ Pe PS). lra. }
  exists (sum_upto (dim s) ab). split; [apply sum_upto_nonneg; auto|].
  intros eps He HZ r Hr Hmon n Ha W E normal Data get_data d0 idx Hnorm Hidx Hbat HI i Hi a rho.
  assert (Hg : forall t b m, like s t -> like s (ugrad t b m)) by (intros t b m H; apply Hj; exact H).
  assert (Hin : forall k w, In (idx k w) (tuples mb N)) by (intros; apply tuples_spec; apply Hidx).
  set (dat := fun (w : W) (k : nat) => batch_at data (idx k w)).
  set (y := dev sequence_source uvalue ulikelihoods umodel ugrad mu T x0 model0 key0 eps normal dat).
  set (h := grad_error s sequence_source uvalue ulikelihoods umodel ugrad A mu T x0 model0 key0 eps normal dat).
  assert (EQ : forall k w, l_pos (sgld_state (normal w) (get_data w) uvalue ulikelihoods umodel ugrad eps T (lv_init x0 (Some key0) None (d0 w) model0) k) = l_pos (at_ sequence_source uvalue ulikelihoods umodel ugrad T x0 model0 key0 eps normal dat k w)).
  { intros k w. unfold at_. apply sgld_sequence. intros k'. unfold dat. now rewrite Hbat. }
  destruct (@minibatch_run s Hs obs prior likelihood has_state Tp strategy pot Hpot l Hl Hk jgrad Hj HTp data N mb Hd HN HN0 Hmb Hone c0 b0 H0 cp bp Hp Hlq Hpq A mu HA Hmu T x0 model0 key0 Hx eps W E normal idx n Hnorm Hin HI) as (Hh & Ky & HU).
  fold dat y h in Hh, Ky, HU. pose proof HU as (HE & HE1 & _ & Hst).
  set (zz := fun k w => xi (normal w) (Sub (chain key0 k) 1) s) in *.
  destruct zeros as [Z0 Z1].
  assert (HV : forall k j, (k <= n)%nat -> (j < dim s)%nat -> E (fun w => y k w j * y k w j) <= vbound).
  { intros k j Hkn Hjd. set (m := fun k => fnorm (dim s) (fun i j => E (fun w => y k w i * y k w j) - T * B i j)).
    assert (B1 : Rabs (m k) <= z eps (2 * lam) (frob (dim s) A) (cov_P (dim s) ebound) (cov_Q (dim s) A T ebound B) W2 k).
    { apply z_bound with (n := n); auto.
      - intros q. apply He.
      - unfold cov_P. pose proof (pos_INR (dim s)). apply Rmult_le_pos; auto; apply Rmult_le_pos; auto.
      - unfold m. rewrite Rabs_pos_eq by apply fnorm_nonneg. right. apply fnorm_ext. intros p q Hp' Hq. f_equal. rewrite (@E_ext W E HE _ (fun _ => (el x0 p - mu p) * (el x0 q - mu q))) by reflexivity. now apply E_const.
      - intros q Hq. rewrite (Rabs_pos_eq (m (Datatypes.S q))), (Rabs_pos_eq (m q)) by apply fnorm_nonneg. unfold m.
        apply (@cov_contracts W E HE (dim s) A (eps q) T ebound (Rlt_le _ _ (proj1 (He q))) HT (y q) (h q) (step_noise s key0 normal q) (y (Datatypes.S q))) with (lam := lam); auto.
        intros w p Hp'. apply dev_step; auto. }
    rewrite Rabs_pos_eq in B1 by apply fnorm_nonneg. pose proof (@fnorm_entry (dim s) (fun i j => E (fun w => y k w i * y k w j) - T * B i j) j j Hjd Hjd) as B2. fold (m k) in B2.
    pose proof (HZ k) as B3. pose proof (@sum_upto_term (dim s) (fun i => Rabs (T * B i i)) j ltac:(intros; apply Rabs_pos) Hjd) as B4. cbv beta in B4. unfold vbound.
    pose proof (Rle_abs (E (fun w => y k w j * y k w j) - T * B j j)) as B5. pose proof (Rle_abs (T * B j j)) as B6. lra. }
  assert (KH : forall k j, (j < dim s)%nat -> known idx zz (dim s) (Datatypes.S k) k (fun w => h k w j)) by (intros k j Hjd; apply (@known_h W idx zz (dim s) k (y k) (h k) cf0 cf1); auto).
  assert (HH : forall k F j, (k < n)%nat -> known idx zz (dim s) k k F -> (j < dim s)%nat -> E (fun w => F w * h k w j) = 0).
  { intros k F j Hkn HF Hjd. apply (@E_known_h W idx zz (dim s) E N mb n HI k (y k) (h k) cf0 cf1); auto. }
  assert (HSb : forall k j, (k < n)%nat -> (j < dim s)%nat -> E (fun w => h k w j * h k w j) <= Sb).
  { intros k j Hkn Hjd. destruct (Hst k Hkn) as (_ & _ & _ & _ & _ & B1). eapply Rle_trans; [apply Rle_abs|]. eapply Rle_trans; [apply (B1 j j Hjd Hjd)|]. unfold Sb. apply Rmult_le_compat_l; [exact PE|]. apply Rplus_le_compat_l.
    apply Rle_trans with (sum_upto (dim s) (fun _ => vbound)); [apply sum_upto_le; intros p Hp'; apply HV; auto; lia|]. rewrite sum_const. lra. }
  assert (HST : forall k w j, (j < dim s)%nat -> y (Datatypes.S k) w j = y k w j - eps k * (matvec (dim s) A (y k w) j + h k w j) + sqrt (2 * T * eps k) * zz k w j) by (intros k w j Hjd; apply dev_step; auto).
  destruct n as [|m]; [unfold sum_upto in Ha; cbn in Ha; lra|].
  pose proof (@average_square W idx zz (dim s) E N mb (Datatypes.S m) HI y h A B eps T Sb vbound e0 Ky KH HH HT HV HSb PS PV (fun k => conj (Rlt_le _ _ (proj1 (He k))) (proj2 (He k))) HST HB r Hr Hmon m i (le_n _) Hi) as F.
  fold ab in F. fold a in F. set (P := fun w => sum_upto (Datatypes.S m) (fun k => r k * eps k * y k w i)) in *.
  rewrite (@E_ext W E HE _ (fun w => (/ a * / a) * (P w * P w))).
  2:{ intros w. assert (PP : P w = sum_upto (Datatypes.S m) (fun k => r k * eps k * el (l_pos (sgld_state (normal w) (get_data w) uvalue ulikelihoods umodel ugrad eps T (lv_init x0 (Some key0) None (d0 w) model0) k)) i) - a * mu i).
      { unfold P. rewrite (@sum_upto_ext (Datatypes.S m) _ (fun k => r k * eps k * el (l_pos (sgld_state (normal w) (get_data w) uvalue ulikelihoods umodel ugrad eps T (lv_init x0 (Some key0) None (d0 w) model0) k)) i + (- mu i) * (r k * eps k))) by (intros k _; unfold y, dev; rewrite EQ; ring).
        rewrite sum_upto_plus, sum_upto_scale. unfold a. ring. }
      rewrite PP. field. unfold a. lra. }
  rewrite (@E_scale W E HE (/ a * / a) (fun w => P w * P w)).
  assert (Pa : 0 < / a) by (apply Rinv_0_lt_compat; exact Ha).
  apply Rle_trans with (/ a * / a * (ab i * (r m * r m + r m * a))); [apply Rmult_le_compat_l; [apply Rlt_le, Rmult_lt_0_compat; auto|exact F]|].
  replace (/ a * / a * (ab i * (r m * r m + r m * a))) with (ab i * (rho * rho + rho)).
  2:{ unfold rho. replace (Datatypes.S m - 1)%nat with m by lia. field. unfold a. lra. }
  apply Rmult_le_compat_r; [|apply (@sum_upto_term (dim s) ab); auto]. assert (0 <= rho) by (unfold rho; apply Rmult_le_pos; [apply Hr|lra]). pose proof (Rle_0_sqr rho) as Q. unfold Rsqr in Q. lra.
Qed.
End Core.
(** the bound of the second moments, for step sizes that vanish but do not sum up to a finite number *)
Lemma upper_bounded (f : nat -> R) n0 c : (forall n, (n0 <= n)%nat -> f n <= c) -> exists Z, forall n, f n <= Z.
Proof.
  intros H. induction n0 as [|n0 IH] in c, H |- *; [exists c; intros n; apply H; lia|]. apply (IH (Rmax c (f n0))). intros n Hn. destruct (Nat.eq_dec n n0) as [->|Hne]; [apply Rmax_r|]. eapply Rle_trans; [apply H; lia|apply Rmax_l].
Qed.
Lemma moments_bounded eps : (forall n, 0 < eps n) -> vanishing eps -> divergent eps ->
  exists Z, forall k, z eps (2 * lam) (frob (dim s) A) (cov_P (dim s) ebound) (cov_Q (dim s) A T ebound B) (fnorm (dim s) (fun i j => (el x0 i - mu i) * (el x0 j - mu j) - T * B i j)) k <= Z.
Proof.
  intros Ep Ev Ed. pose proof (error_bound_nonneg s Tp data N mb b0 H0 mu) as PE. destruct Hpd as (_ & Hlam & _). pose proof (pos_INR (dim s)) as PD.
  assert (PP : 0 <= cov_P (dim s) ebound) by (unfold cov_P; apply Rmult_le_pos; auto; apply Rmult_le_pos; auto).
  assert (PQ : 0 <= cov_Q (dim s) A T ebound B) by (unfold cov_Q; pose proof (fnorm_nonneg (dim s) A); pose proof (fnorm_nonneg (dim s) (fun i j => T * B i j)); apply Rplus_le_le_0_compat; [apply Rmult_le_pos; auto|]; apply Rmult_le_pos; auto; apply Rmult_le_pos; auto; apply Rplus_le_le_0_compat; [lra|]; apply Rmult_le_pos; auto).
  destruct (@z_limit eps Ep Ev Ed (2 * lam) (frob (dim s) A) (cov_P (dim s) ebound) (cov_Q (dim s) A T ebound B) (fnorm (dim s) (fun i j => (el x0 i - mu i) * (el x0 j - mu j) - T * B i j)) ltac:(lra) PQ PP (fnorm_nonneg _ _) 1 ltac:(lra)) as [n0 H].
  exact (@upper_bounded _ n0 1 H).
Qed.
(** weights r k * eps k with a nondecreasing factor r: the mean square error of the weighted average is at most K (rho^2 + rho), where rho is the last factor over the sum of the weights *)
Theorem C91_average : forall eps, (forall n, 0 < eps n) -> vanishing eps -> divergent eps ->
  exists K, 0 <= K /\ forall r, (forall k, 0 <= r k) -> (forall k, r k <= r (Datatypes.S k)) -> forall n, 0 < sum_upto n (fun k => r k * eps k) ->
  for_runs eps n (fun W E x => forall i, (i < dim s)%nat ->
    let a := sum_upto n (fun k => r k * eps k) in let rho := r (n - 1)%nat / a in
    E (fun w => (sum_upto n (fun k => r k * eps k * x k w i) / a - mu i) * (sum_upto n (fun k => r k * eps k * x k w i) / a - mu i)) <= K * (rho * rho + rho)).
Proof.
  intros eps Ep Ev Ed. destruct (moments_bounded Ep Ev Ed) as [Z HZ].
  assert (BE : exists e0, forall k, 0 < eps k <= e0).
  { destruct (Ev 1 ltac:(lra)) as [n0 H]. destruct (@upper_bounded eps n0 1 H) as [e0 He0]. exists e0. intros k. split; [apply Ep|apply He0]. }
  destruct BE as [e0 He].
  assert (Pe : 0 <= e0) by (destruct (He 0%nat); lra). assert (PZ : 0 <= Z) by (eapply Rle_trans; [|apply (HZ 0%nat)]; cbn; apply fnorm_nonneg).
  destruct (@average_core e0 Z Pe PZ) as (K & HK & H). exists K. split; [exact HK|]. exact (H eps He HZ).
Qed.
(** a bound K (rho^2 + rho) can be made small *)
Lemma small_rho K delta : 0 <= K -> 0 < delta -> exists q, 0 < q /\ forall rho, 0 <= rho <= q -> K * (rho * rho + rho) <= delta.
Proof.
  intros HK Hd'. exists (Rmin 1 (delta / (2 * K + 1))). assert (P : 0 < delta / (2 * K + 1)) by (apply Rdiv_lt_0_compat; lra). split; [apply Rmin_glb_lt; lra|]. intros rho [R1 R2].
  assert (R3 : rho <= 1) by (eapply Rle_trans; [exact R2|apply Rmin_l]). assert (R4 : rho <= delta / (2 * K + 1)) by (eapply Rle_trans; [exact R2|apply Rmin_r]).
  assert (rho * rho <= 1 * rho) by (apply Rmult_le_compat_r; auto). apply Rle_trans with (K * (2 * rho)); [apply Rmult_le_compat_l; lra|].
  apply (Rmult_le_compat_r (2 * K + 1)) in R4; [|lra]. replace (delta / (2 * K + 1) * (2 * K + 1)) with delta in R4 by (field; lra). lra.
Qed.
(** the average weighted with the step sizes *)
Theorem C91_weighted_average : forall eps, (forall n, 0 < eps n) -> vanishing eps -> divergent eps -> forall delta, 0 < delta -> exists n0, forall n, (n0 <= n)%nat ->
  for_runs eps n (fun W E x => forall i, (i < dim s)%nat ->
    E (fun w => (sum_upto n (fun k => eps k * x k w i) / sum_upto n eps - mu i) * (sum_upto n (fun k => eps k * x k w i) / sum_upto n eps - mu i)) <= delta).
Proof.
  intros eps Ep Ev Ed delta Hdelta. destruct (C91_average Ep Ev Ed) as (K & HK & H). destruct (@small_rho K delta HK Hdelta) as (q & Hq & Hs'). destruct (Ed (/ q)) as [n0 Hn0]. exists n0.
  intros n Hn W E normal Data get_data d0 idx Hnorm Hidx Hbat HI i Hi. specialize (Hn0 n Hn). assert (Pq : 0 < / q) by (now apply Rinv_0_lt_compat).
  assert (S1 : sum_upto n (fun k => 1 * eps k) = sum_upto n eps) by (apply sum_upto_ext; intros; ring).
  pose proof (H (fun _ => 1) ltac:(intros; lra) ltac:(intros; lra) n ltac:(cbv beta; rewrite S1; lra) W E normal Data get_data d0 idx Hnorm Hidx Hbat HI i Hi) as F. cbv zeta beta in F. rewrite S1 in F. destruct HI as (HE & _).
  rewrite (@E_ext W E HE _ (fun w => (sum_upto n (fun k => 1 * eps k * el (l_pos (sgld_state (normal w) (get_data w) uvalue ulikelihoods umodel ugrad eps T (lv_init x0 (Some key0) None (d0 w) model0) k)) i) / sum_upto n eps - mu i) * (sum_upto n (fun k => 1 * eps k * el (l_pos (sgld_state (normal w) (get_data w) uvalue ulikelihoods umodel ugrad eps T (lv_init x0 (Some key0) None (d0 w) model0) k)) i) / sum_upto n eps - mu i))).
  - eapply Rle_trans; [exact F|]. apply Hs'. split; [apply Rlt_le, Rdiv_lt_0_compat; lra|]. unfold Rdiv. rewrite Rmult_1_l, <- (Rinv_inv q). apply Rinv_le_contravar; auto.
  - intros w. rewrite (@sum_upto_ext n (fun k => 1 * eps k * el (l_pos (sgld_state (normal w) (get_data w) uvalue ulikelihoods umodel ugrad eps T (lv_init x0 (Some key0) None (d0 w) model0) k)) i) (fun k => eps k * el (l_pos (sgld_state (normal w) (get_data w) uvalue ulikelihoods umodel ugrad eps T (lv_init x0 (Some key0) None (d0 w) model0) k)) i)) by (intros; ring). reflexivity.
Qed.
(** the plain average of the samples b, ..., n - 1 after a burn in, for nonincreasing step sizes with n * eps n -> infinity *)
Theorem C91_plain_average : forall eps, (forall n, 0 < eps n) -> (forall n, eps (Datatypes.S n) <= eps n) -> vanishing eps -> (forall M, exists n0, forall n, (n0 <= n)%nat -> M <= INR n * eps n) -> divergent eps ->
  forall b delta, 0 < delta -> exists n0, forall n, (n0 <= n)%nat ->
  for_runs eps n (fun W E x => forall i, (i < dim s)%nat ->
    let mean := fun w => sum_upto (n - b) (fun j => x (b + j)%nat w i) / INR (n - b) in E (fun w => (mean w - mu i) * (mean w - mu i)) <= delta).
Proof.
  intros eps Ep Em Ev Eg Ed b delta Hdelta. destruct (C91_average Ep Ev Ed) as (K & HK & H). destruct (@small_rho K delta HK Hdelta) as (q & Hq & Hs'). destruct (Eg (2 * / q)) as [n1 Hn1]. exists (2 * b + n1 + 2)%nat.
  intros n Hn W E normal Data get_data d0 idx Hnorm Hidx Hbat HI i Hi mean. assert (Pq : 0 < / q) by (now apply Rinv_0_lt_compat).
  set (r := fun k => if (b <=? k)%nat then / eps k else 0). assert (Pr : forall k, 0 < / eps k) by (intros; apply Rinv_0_lt_compat, Ep).
  assert (R0 : forall k, 0 <= r k) by (intros k; unfold r; destruct (b <=? k)%nat; [left; apply Pr|lra]).
  assert (R1 : forall k, r k <= r (Datatypes.S k)).
  { intros k. unfold r. destruct (b <=? k)%nat eqn:E1.
    - apply Nat.leb_le in E1. rewrite (proj2 (Nat.leb_le b (Datatypes.S k))) by lia. apply Rinv_le_contravar; [apply Ep|apply Em].
    - destruct (b <=? Datatypes.S k)%nat; [left; apply Pr|lra]. }
  assert (SW : forall u : nat -> R, sum_upto n (fun k => r k * eps k * u k) = sum_upto (n - b) (fun j => u (b + j)%nat)).
  { intros u. replace n with (b + (n - b))%nat at 1 by lia. rewrite sum_upto_app. rewrite (@sum_upto_zero b) by (intros k Hkb; unfold r; rewrite (proj2 (Nat.leb_gt b k)) by lia; ring). rewrite Rplus_0_l. apply sum_upto_ext. intros j _. unfold r. rewrite (proj2 (Nat.leb_le b (b + j))) by lia. pose proof (Ep (b + j)%nat). field. lra. }
  assert (SA : sum_upto n (fun k => r k * eps k) = INR (n - b)).
  { rewrite (@sum_upto_ext n _ (fun k => r k * eps k * 1)) by (intros; ring). rewrite (SW (fun _ => 1)), sum_const. ring. }
  assert (PI : 0 < INR (n - b)) by (apply lt_0_INR; lia).
  pose proof (H r R0 R1 n ltac:(rewrite SA; exact PI) W E normal Data get_data d0 idx Hnorm Hidx Hbat HI i Hi) as F. cbv zeta beta in F. rewrite SA in F. destruct HI as (HE & _).
  rewrite (@E_ext W E HE _ (fun w => (sum_upto n (fun k => r k * eps k * el (l_pos (sgld_state (normal w) (get_data w) uvalue ulikelihoods umodel ugrad eps T (lv_init x0 (Some key0) None (d0 w) model0) k)) i) / INR (n - b) - mu i) * (sum_upto n (fun k => r k * eps k * el (l_pos (sgld_state (normal w) (get_data w) uvalue ulikelihoods umodel ugrad eps T (lv_init x0 (Some key0) None (d0 w) model0) k)) i) / INR (n - b) - mu i))).
  2:{ intros w. rewrite (SW (fun k => el (l_pos (sgld_state (normal w) (get_data w) uvalue ulikelihoods umodel ugrad eps T (lv_init x0 (Some key0) None (d0 w) model0) k)) i)). reflexivity. }
  eapply Rle_trans; [exact F|]. apply Hs'. split; [apply Rmult_le_pos; [apply R0|left; now apply Rinv_0_lt_compat]|].
  unfold r. rewrite (proj2 (Nat.leb_le b (n - 1))) by lia. unfold Rdiv. rewrite <- Rinv_mult, <- (Rinv_inv q). apply Rinv_le_contravar; [exact Pq|].
  specialize (Hn1 (n - 1)%nat ltac:(lia)). assert (L : INR (n - 1) <= 2 * INR (n - b)) by (change 2 with (INR 2); rewrite <- mult_INR; apply le_INR; lia).
  pose proof (Ep (n - 1)%nat) as P1. apply (Rmult_le_compat_r (eps (n - 1)%nat)) in L; [|lra]. lra.
Qed.
(** the step sizes of scheduler.polynomial_step_size (C28) with 0 < gamma < 1 *)
Lemma poly_decreasing a b g : 0 < a -> 0 < b -> 0 < g -> forall n, a * Rpower (b + INR (Datatypes.S n)) (- g) <= a * Rpower (b + INR n) (- g).
Proof.
  intros Ha Hb Hg n. apply Rmult_le_compat_l; [lra|]. rewrite !Rpower_Ropp. pose proof (pos_INR n). apply Rinv_le_contravar; [apply exp_pos|]. apply Rle_Rpower_l; [lra|]. rewrite S_INR. lra.
Qed.
Lemma poly_growth a b g : 0 < a -> 0 < b -> 0 < g < 1 -> forall M, exists n0, forall n, (n0 <= n)%nat -> M <= INR n * (a * Rpower (b + INR n) (- g)).
Proof.
  intros Ha Hb Hg M. set (c := a * Rpower (b + 1) (- g)). assert (Pc : 0 < c) by (apply Rmult_lt_0_compat; [lra|apply exp_pos]).
  destruct (INR_unbounded (Rpower (Rabs M / c + 1) (/ (1 - g)))) as [n0 Hn0]. exists (Datatypes.S n0). intros n Hn. assert (L : INR n0 <= INR n) by (apply le_INR; lia). assert (P1 : 1 <= INR n) by (change 1 with (INR 1); apply le_INR; lia).
  assert (B1 : Rpower (b + 1) (- g) * Rpower (INR n) (- g) <= Rpower (b + INR n) (- g)).
  { rewrite Rpower_mult_distr by lra. rewrite !Rpower_Ropp. apply Rinv_le_contravar; [apply exp_pos|]. apply Rle_Rpower_l; [lra|]. split; [lra|]. assert (b * 1 <= b * INR n) by (apply Rmult_le_compat_l; lra). lra. }
  assert (PM : 0 <= Rabs M / c) by (apply Rmult_le_pos; [apply Rabs_pos|left; now apply Rinv_0_lt_compat]).
  assert (B2 : Rabs M / c + 1 <= Rpower (INR n) (1 - g)).
  { replace (Rabs M / c + 1) with (Rpower (Rpower (Rabs M / c + 1) (/ (1 - g))) (1 - g)) by (rewrite Rpower_mult; replace (/ (1 - g) * (1 - g)) with 1 by (field; lra); apply Rpower_1; lra).
    apply Rle_Rpower_l; [lra|]. split; [apply exp_pos|lra]. }
  assert (B3 : Rpower (INR n) (1 - g) = INR n * Rpower (INR n) (- g)) by (unfold Rminus; rewrite Rpower_plus, Rpower_1 by lra; reflexivity).
  rewrite B3 in B2. apply Rle_trans with (Rabs M); [apply Rle_abs|]. apply Rle_trans with (c * (Rabs M / c + 1)); [replace (c * (Rabs M / c + 1)) with (Rabs M + c) by (field; lra); lra|].
  apply Rle_trans with (c * (INR n * Rpower (INR n) (- g))); [apply Rmult_le_compat_l; lra|]. replace (c * (INR n * Rpower (INR n) (- g))) with (INR n * (a * (Rpower (b + 1) (- g) * Rpower (INR n) (- g)))) by (unfold c; ring).
  apply Rmult_le_compat_l; [lra|]. apply Rmult_le_compat_l; lra.
Qed.
Theorem C91_polynomial : forall a b g, 0 < a -> 0 < b -> 0 < g < 1 -> forall eps, (forall n, eps n = a * Rpower (b + INR n) (- g)) -> forall burn_in delta, 0 < delta -> exists n0, forall n, (n0 <= n)%nat ->
  for_runs eps n (fun W E x => forall i, (i < dim s)%nat ->
    let mean := fun w => sum_upto (n - burn_in) (fun j => x (burn_in + j)%nat w i) / INR (n - burn_in) in E (fun w => (mean w - mu i) * (mean w - mu i)) <= delta).
Proof.
  intros a b g Ha Hb Hg eps Heps burn_in delta Hdelta. apply C91_plain_average; auto.
  - intros n. rewrite Heps. now apply poly_pos.
  - intros n. rewrite !Heps. apply poly_decreasing; lra.
  - intros d' Hd'. destruct (@poly_vanishing a b g Ha Hb ltac:(lra) d' Hd') as [n0 H]. exists n0. intros n Hn. rewrite Heps. now apply H.
  - intros M. destruct (@poly_growth a b g Ha Hb Hg M) as [n0 H]. exists n0. intros n Hn. rewrite Heps. now apply H.
  - intros M. destruct (@poly_divergent a b g Ha Hb ltac:(lra) M) as [n0 H]. exists n0. intros n Hn. rewrite (@sum_upto_ext n eps (fun n => a * Rpower (b + INR n) (- g))) by (intros; apply Heps). now apply H.
Qed.
(** small step sizes: one bound of the second moments for all of them *)
Lemma small_steps : exists e1 Z, 0 < e1 /\ 0 <= Z /\ forall eps, (forall k, 0 < eps k <= e1) ->
  forall k, z eps (2 * lam) (frob (dim s) A) (cov_P (dim s) ebound) (cov_Q (dim s) A T ebound B) (fnorm (dim s) (fun i j => (el x0 i - mu i) * (el x0 j - mu j) - T * B i j)) k <= Z.
Proof.
  pose proof (error_bound_nonneg s Tp data N mb b0 H0 mu) as PE. pose proof Hpd as (_ & Hlam & _). pose proof (pos_INR (dim s)) as PD. pose proof (frob_nonneg (dim s) A) as PF.
  assert (PP : 0 <= cov_P (dim s) ebound) by (unfold cov_P; apply Rmult_le_pos; auto; apply Rmult_le_pos; auto).
  assert (PQ : 0 <= cov_Q (dim s) A T ebound B) by (unfold cov_Q; pose proof (fnorm_nonneg (dim s) A); pose proof (fnorm_nonneg (dim s) (fun i j => T * B i j)); apply Rplus_le_le_0_compat; [apply Rmult_le_pos; auto|]; apply Rmult_le_pos; auto; apply Rmult_le_pos; auto; apply Rplus_le_le_0_compat; [lra|]; apply Rmult_le_pos; auto).
  set (p := frob (dim s) A + cov_P (dim s) ebound). set (e1 := Rmin (/ (2 * lam)) (lam / (p + 1))). assert (Pp : 0 <= p) by (unfold p; lra).
  assert (L1 : 0 < / (2 * lam)) by (apply Rinv_0_lt_compat; lra). assert (L2 : 0 < lam / (p + 1)) by (apply Rdiv_lt_0_compat; lra).
  assert (Pe1 : 0 < e1) by (now apply Rmin_glb_lt). set (Q := cov_Q (dim s) A T ebound B) in *.
  set (W2 := fnorm (dim s) (fun i j => (el x0 i - mu i) * (el x0 j - mu j) - T * B i j)). assert (PW : 0 <= W2) by apply fnorm_nonneg.
  set (c := e1 * Q / lam). assert (Pc : 0 <= c) by (unfold c; apply Rmult_le_pos; [apply Rmult_le_pos; lra|left; now apply Rinv_0_lt_compat]).
  exists e1, (W2 + c). split; [exact Pe1|]. split; [lra|]. intros eps Heps.
  set (zf := z eps (2 * lam) (frob (dim s) A) (cov_P (dim s) ebound) Q W2).
  assert (Zb : forall k, 0 <= zf k <= W2 + c).
  { induction k as [|k [IH1 IH2]]; [unfold zf; cbn [z]; lra|]. unfold zf. cbn [z]. fold zf. fold (zf k). destruct (Heps k) as [He He1]. set (e := eps k) in *.
    assert (E1 : e <= / (2 * lam)) by (eapply Rle_trans; [exact He1|apply Rmin_l]). assert (E2 : e <= lam / (p + 1)) by (eapply Rle_trans; [exact He1|apply Rmin_r]).
    assert (Pel : 0 < e * lam) by (apply Rmult_lt_0_compat; auto).
    assert (E3 : e * (2 * lam) <= 1) by (apply (Rmult_le_compat_r (2 * lam)) in E1; [|lra]; rewrite Rinv_l in E1 by lra; exact E1).
    assert (E4 : e * p <= lam) by (apply (Rmult_le_compat_r (p + 1)) in E2; [|lra]; unfold Rdiv in E2; rewrite Rmult_assoc, Rinv_l, Rmult_1_r in E2 by lra; lra).
    assert (PEF : 0 <= e * e * frob (dim s) A) by (apply Rmult_le_pos; [apply Rle_0_sqr|exact PF]). assert (PEP : 0 <= e * e * cov_P (dim s) ebound) by (apply Rmult_le_pos; [apply Rle_0_sqr|exact PP]). assert (PEQ : 0 <= e * e * Q) by (apply Rmult_le_pos; [apply Rle_0_sqr|exact PQ]).
    assert (R1 : 0 <= Rabs (1 - e * (2 * lam) + e * e * frob (dim s) A) + e * e * cov_P (dim s) ebound <= 1 - e * lam).
    { rewrite Rabs_pos_eq by lra. apply (Rmult_le_compat_l e) in E4; [|lra]. unfold p in *. lra. }
    split; [apply Rplus_le_le_0_compat; [apply Rmult_le_pos; lra|exact PEQ]|].
    apply Rle_trans with ((1 - e * lam) * (W2 + c) + e * e * Q); [apply Rplus_le_compat_r; apply Rmult_le_compat; lra|].
    assert (C1 : e * e * Q <= e * lam * c). { unfold c. replace (e * lam * (e1 * Q / lam)) with (e * e1 * Q) by (field; lra). apply Rmult_le_compat_r; [exact PQ|]. apply Rmult_le_compat_l; lra. }
    assert (0 <= e * lam * W2) by (apply Rmult_le_pos; lra). lra. }
  intros k. apply Zb.
Qed.
(** nonincreasing step sizes between a bound lo > 0 and a threshold: the mean square error of the plain average of the samples b, ..., n - 1 is at most K / (n - b); K depends on the
    bounds of the step sizes only *)
Theorem C91_bounded_steps : exists e1, 0 < e1 /\ forall lo, 0 < lo -> exists K, 0 <= K /\ forall eps, (forall k, lo <= eps k <= e1) -> (forall k, eps (Datatypes.S k) <= eps k) -> forall b n, (b < n)%nat ->
  for_runs eps n (fun W E x => forall i, (i < dim s)%nat ->
    let mean := fun w => sum_upto (n - b) (fun j => x (b + j)%nat w i) / INR (n - b) in E (fun w => (mean w - mu i) * (mean w - mu i)) <= K / INR (n - b)).
Proof.
  destruct small_steps as (e1 & Z & He1 & HZ & H1). exists e1. split; [exact He1|]. intros lo Hlo. destruct (@average_core e1 Z (Rlt_le _ _ He1) HZ) as (K & HK & H).
  assert (Pil : 0 < / lo) by (now apply Rinv_0_lt_compat). assert (Pll : 0 <= / lo * / lo) by (apply Rmult_le_pos; lra).
  exists (K * (/ lo * / lo + / lo)). split; [apply Rmult_le_pos; lra|]. intros eps Heps Em b n Hbn W E normal Data get_data d0 idx Hnorm Hidx Hbat HI i Hi mean.
  assert (Ep : forall k, 0 < eps k <= e1) by (intros k; destruct (Heps k); lra).
  set (r := fun k => if (b <=? k)%nat then / eps k else 0). assert (Pr : forall k, 0 < / eps k) by (intros; apply Rinv_0_lt_compat, Ep).
  assert (R0 : forall k, 0 <= r k) by (intros k; unfold r; destruct (b <=? k)%nat; [left; apply Pr|lra]).
  assert (R1 : forall k, r k <= r (Datatypes.S k)).
  { intros k. unfold r. destruct (b <=? k)%nat eqn:E1.
    - apply Nat.leb_le in E1. rewrite (proj2 (Nat.leb_le b (Datatypes.S k))) by lia. apply Rinv_le_contravar; [apply Ep|apply Em].
    - destruct (b <=? Datatypes.S k)%nat; [left; apply Pr|lra]. }
  assert (SW : forall u : nat -> R, sum_upto n (fun k => r k * eps k * u k) = sum_upto (n - b) (fun j => u (b + j)%nat)).
  { intros u. replace n with (b + (n - b))%nat at 1 by lia. rewrite sum_upto_app. rewrite (@sum_upto_zero b) by (intros k Hkb; unfold r; rewrite (proj2 (Nat.leb_gt b k)) by lia; ring). rewrite Rplus_0_l. apply sum_upto_ext. intros j _. unfold r. rewrite (proj2 (Nat.leb_le b (b + j))) by lia. pose proof (Ep (b + j)%nat). field. lra. }
  assert (SA : sum_upto n (fun k => r k * eps k) = INR (n - b)).
  { rewrite (@sum_upto_ext n _ (fun k => r k * eps k * 1)) by (intros; ring). rewrite (SW (fun _ => 1)), sum_const. ring. }
  assert (PI : 1 <= INR (n - b)) by (change 1 with (INR 1); apply le_INR; lia).
  pose proof (H eps Ep (H1 eps Ep) r R0 R1 n ltac:(rewrite SA; lra) W E normal Data get_data d0 idx Hnorm Hidx Hbat HI i Hi) as F. cbv zeta beta in F. rewrite SA in F. destruct HI as (HE & _).
  rewrite (@E_ext W E HE _ (fun w => (sum_upto n (fun k => r k * eps k * el (l_pos (sgld_state (normal w) (get_data w) uvalue ulikelihoods umodel ugrad eps T (lv_init x0 (Some key0) None (d0 w) model0) k)) i) / INR (n - b) - mu i) * (sum_upto n (fun k => r k * eps k * el (l_pos (sgld_state (normal w) (get_data w) uvalue ulikelihoods umodel ugrad eps T (lv_init x0 (Some key0) None (d0 w) model0) k)) i) / INR (n - b) - mu i))).
  2:{ intros w. rewrite (SW (fun k => el (l_pos (sgld_state (normal w) (get_data w) uvalue ulikelihoods umodel ugrad eps T (lv_init x0 (Some key0) None (d0 w) model0) k)) i)). reflexivity. }
  eapply Rle_trans; [exact F|]. assert (PII : 0 < / INR (n - b) <= 1) by (split; [apply Rinv_0_lt_compat; lra|rewrite <- Rinv_1; apply Rinv_le_contravar; lra]).
  unfold Rdiv. rewrite (Rmult_assoc K (/ lo * / lo + / lo) (/ INR (n - b))). apply Rmult_le_compat_l; [exact HK|].
  assert (R2 : 0 <= r (n - 1)%nat <= / lo). { split; [apply R0|]. unfold r. destruct (b <=? n - 1)%nat; [|lra]. apply Rinv_le_contravar; [exact Hlo|apply Heps]. }
  set (q := r (n - 1)%nat) in *. set (v := / INR (n - b)) in *.
  assert (B1 : q * q <= / lo * / lo) by (apply Rmult_le_compat; lra). assert (B2 : v * v <= v * 1) by (apply Rmult_le_compat_l; lra). assert (B0 : 0 <= q * q) by apply Rle_0_sqr.
  replace (q * v * (q * v) + q * v) with (q * q * (v * v) + q * v) by ring. replace ((/ lo * / lo + / lo) * v) with (/ lo * / lo * v + / lo * v) by ring.
  apply Rplus_le_compat; [|apply Rmult_le_compat_r; lra]. apply Rmult_le_compat; [exact B0|apply Rle_0_sqr|exact B1|lra].
Qed.
(** a small constant step size: the mean square error of the plain average of n samples is at most K / n *)
Theorem C91_constant_step : exists e1, 0 < e1 /\ forall e, 0 < e <= e1 -> exists K, 0 <= K /\ forall n, (0 < n)%nat ->
  for_runs (fun _ => e) n (fun W E x => forall i, (i < dim s)%nat ->
    let mean := fun w => sum_upto n (fun j => x j w i) / INR n in E (fun w => (mean w - mu i) * (mean w - mu i)) <= K / INR n).
Proof.
  destruct C91_bounded_steps as (e1 & He1 & H). exists e1. split; [exact He1|]. intros e He. destruct (H e (proj1 He)) as (K & HK & HB'). exists K. split; [exact HK|]. intros n Hn.
  pose proof (HB' (fun _ => e) ltac:(intros; lra) ltac:(intros; lra) 0%nat n Hn) as F. rewrite Nat.sub_0_r in F. exact F.
Qed.
End C91.
(** ** the hypotheses can be met: the model of C87_nonvacuous; the mean of the samples after the iterations 1, ..., n - 1 tends to the posterior mean 41/3 *)
Example C91_nonvacuous : let s := Leaf (mkArr [] [0]) in let data := [("y"%string, [20%nat; 21%nat])] in let pot := potential_function ex_prior ex_lik true 1 in
  let get_data := fun w n => (Datatypes.S n, batch_at data (coin_idx n w)) in
  forall delta, 0 < delta -> exists n0, forall n, (n0 <= n)%nat ->
    let x := fun k w => el (l_pos (sgld_state (coin_normal w) (get_data w) (user_value true pot 2) (user_likelihoods true pot 2) (user_model true pot 2) (user_grad true pot 2 (derive_grad s))
      (fun n => 0.5 * Rpower (1 + INR n) (- (0.33))) 1 (lv_init (Leaf (mkArr [] [7])) (Some (PRNGKey 0)) None 0%nat (Leaf (mkArr [] [1]))) k)) 0 in
    let mean := fun w => sum_upto (n - 1) (fun j => x (1 + j)%nat w) / INR (n - 1) in
    coins n (fun w => (mean w - 41 / 3) * (mean w - 41 / 3)) <= delta.
Proof.
  intros s data pot get_data delta Hdelta.
  assert (Hs : wfv s) by (constructor; [reflexivity|constructor]).
  assert (D : dim s = 1%nat) by reflexivity.
  assert (Q : forall y : R, quadratic s (fun x => - (y - el x 0) * (y - el x 0) / 2) (- y * y / 2) (fun _ => y) (fun _ _ => 1)) by (intros y; split; [reflexivity|]; intros x _; rewrite D; unfold sum_upto; cbn; field).
  destruct (@C91_polynomial s Hs nat ex_prior ex_lik true 1 PMap pot eq_refl ex_l) with (jgrad := derive_grad s) (data := data) (N := 2%nat) (mb := 1%nat)
    (c0 := fun (_ : option vtree) r => - ex_obs r * ex_obs r / 2) (b0 := fun r (_ : nat) => ex_obs r) (H0 := fun (_ : orow nat) (_ _ : nat) => 1) (cp := 0) (bp := fun _ : nat => 0) (Hp := fun _ _ : nat => 1)
    (A := fun _ _ : nat => 3) (B := fun _ _ : nat => 1 / 3) (mu := fun _ : nat => 41 / 3) (lam := 3) (T := 1) (x0 := Leaf (mkArr [] [7])) (model0 := Leaf (mkArr [] [1])) (key0 := PRNGKey 0)
    (eps := fun n => 0.5 * Rpower (1 + INR n) (- (0.33))) (a := 0.5) (b := 1) (g := 0.33) (burn_in := 1%nat) (delta := delta) as (n0 & H); try lra; try lia; auto.
  { intros st x r. reflexivity. }
  { intros _ m x r. exists (ex_double m). split; [reflexivity|]. destruct m; reflexivity. }
  { apply derive_grad_exact. exact Hs. }
  { discriminate. }
  { intros ka [<-|[]]. reflexivity. }
  { intros st k _. apply Q. }
  { destruct (Q 0) as [Q1 Q2]. split; [exact Q1|]. intros x Hx. unfold ex_prior. specialize (Q2 x Hx). cbv beta in Q2. transitivity (- (0 - el x 0) * (0 - el x 0) / 2); [field|]. rewrite Q2. f_equal. f_equal. field. }
  { intros i j _ _. unfold sum_upto. cbn. field. }
  { split; [auto|]. split; [lra|]. intros v. rewrite D. unfold norm2, matvec, sum_upto. cbn. right. ring. }
  { intros i j Hi Hj. rewrite D in *. assert (i = O) by lia. assert (j = O) by lia. subst. unfold sum_upto, unit_matrix. cbn. lra. }
  { intros i _. rewrite D. unfold matvec, sum_upto. cbn. field. }
  { split; [repeat constructor|split; reflexivity]. }
  exists n0. intros n Hn x mean.
  apply (H n Hn (list (bool * bool)) (coins n) coin_normal nat get_data (fun _ => 0%nat) coin_idx) with (i := 0%nat).
  - intros w k sh. apply repeat_length.
  - intros k w. unfold coin_idx. split; [reflexivity|]. constructor; [destruct (fst _); lia|constructor].
  - intros k w. unfold batch_no. rewrite (@drawn_count nat (fun n => n) _ (get_data w) 0%nat k) by reflexivity. reflexivity.
  - apply coin_independent.
  - rewrite D. lia.
Qed.
Print Assumptions C91_average. Print Assumptions C91_weighted_average. Print Assumptions C91_plain_average. Print Assumptions C91_polynomial. Print Assumptions C91_bounded_steps. Print Assumptions C91_constant_step. Print Assumptions C91_nonvacuous.
