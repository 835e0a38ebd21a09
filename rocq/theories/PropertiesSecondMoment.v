(** C94: the averages of the products of the samples of SGLD converge to the second moments of the posterior. *)
From Coq Require Import Reals Lra Psatz ZArith String.
From Verif Require Import Base ListUtil NumpyLoader LoaderSpec NumpyLoaderProofs NumpyLoaderApi DeviceData DeviceDataProofs.
From Verif Require Import Pytree PytreeSpec PytreeProofs Io IoSpec IoProofs TreeUtil TreeUtilSpec TreeUtilProofs Integrator IntegratorSpec IntegratorBasics PropertiesIntegrator AliasData.
From Verif Require Import DataCore DataSpec Potential PotentialSpec PotentialProofs UnbiasedProofs VarianceProofs PropertiesPotential LeapfrogVolume EndToEndSpec EndToEndProofs PropertiesEndToEnd PropertiesDeviceAlias.
From Verif Require Import ExpectSpec ExpectProofs GaussianLimit GaussianMatrix GaussianSpec GaussianProofs PropertiesGaussian SghmcGaussian MinibatchSpec MinibatchProofs MinibatchVariance PropertiesMinibatchGaussian StabilityProofs AverageProofs SecondMomentProofs PropertiesAverages.
Open Scope R_scope.
Set Implicit Arguments.

Lemma eventually_bounded (f : nat -> R) n0 c : (forall n, (n0 <= n)%nat -> f n <= c) -> exists Z, forall n, f n <= Z.
Proof.
  intros H. induction n0 as [|n0 IH] in c, H |- *; [exists c; intros n; apply H; lia|]. apply (IH (Rmax c (f n0))). intros n Hn. destruct (Nat.eq_dec n n0) as [->|Hne]; [apply Rmax_r|]. eapply Rle_trans; [apply H; lia|apply Rmax_l].
Qed.
Lemma power_growth a b g : 0 < a -> 0 < b -> 0 < g < 1 -> forall M, exists n0, forall n, (n0 <= n)%nat -> M <= INR n * (a * Rpower (b + INR n) (- g)).
Proof.
  intros Ha Hb Hg M. set (c := a * Rpower (b + 1) (- g)). assert (Pc : 0 < c) by (apply Rmult_lt_0_compat; [lra|apply exp_pos]).
  destruct (INR_unbounded (Rpower (Rabs M / c + 1) (/ (1 - g)))) as [n0 Hn0]. exists (Datatypes.S n0). intros n Hn. assert (L : INR n0 <= INR n) by (apply le_INR; lia). assert (P1 : 1 <= INR n) by (change 1 with (INR 1); apply le_INR; lia).
  assert (B1 : Rpower (b + 1) (- g) * Rpower (INR n) (- g) <= Rpower (b + INR n) (- g)).
  { rewrite Rpower_mult_distr by lra. rewrite !Rpower_Ropp. apply Rinv_le_contravar; [apply exp_pos|]. apply Rle_Rpower_l; [lra|]. split; [lra|]. assert (b * 1 <= b * INR n) by (apply Rmult_le_compat_l; lra). lra. }
  assert (PM : 0 <= Rabs M / c) by (apply Rmult_le_pos; [apply Rabs_pos|left; now apply Rinv_0_lt_compat]).
  assert (B2 : Rabs M / c + 1 <= Rpower (INR n) (1 - g)).
  { replace (Rabs M / c + 1) with (Rpower (Rpower (Rabs M / c + 1) (/ (1 - g))) (1 - g)) by (rewrite Rpower_mult; replace (/ (1 - g) * (1 - g)) with 1 by (field; lra); apply Rpower_1; lra).
    apply Rle_Rpower_l; [lra|]. split; [apply exp_pos|lra]. }
  assert (B3 : Rpower (INR n) (1 - g) = INR n * Rpower (INR n) (- g)) by (unfold Rminus; rewrite Rpower_plus, Rpower_1 by lra; reflexivity).
  rewrite B3 in B2. apply Rle_trans with (Rabs M); [apply Rle_abs|]. apply Rle_trans with (c * (Rabs M / c + 1)); [replace (c * (Rabs M / c + 1)) with (Rabs M + c) by (field; lra); lra|].
  apply Rle_trans with (c * (INR n * Rpower (INR n) (- g))); [apply Rmult_le_compat_l; lra|]. replace (c * (INR n * Rpower (INR n) (- g))) with (INR n * (a * (Rpower (b + 1) (- g) * Rpower (INR n) (- g)))) by (unfold c; ring).
  apply Rmult_le_compat_l; [lra|]. apply Rmult_le_compat_l; lra.
Qed.
Section C94.
Variable s : vtree.
Hypothesis Hs : wfv s.
Variable obs : Type.
(** the setting of C87: a user's model with Gaussian likelihood and prior *)
Variables (prior : vtree -> R) (likelihood : lik_fn obs vtree vtree) (has_state : bool) (Tp : R) (strategy : pot_strategy).
Variable pot : nat -> vtree -> mbatch obs -> option vtree -> option (list bool) -> res (R * list R * option vtree).
Hypothesis Hpot : minibatch_potential prior likelihood has_state Tp strategy = Ok pot.
Variable l : option vtree -> vtree -> orow obs -> R.
Hypothesis Hl : evaluates_with likelihood l.
Hypothesis Hk : keeps_state likelihood has_state.
Variable jgrad : (vtree -> R) -> vtree -> vtree.
Hypothesis Hj : exact_gradients s jgrad.
Hypothesis HTp : 0 < Tp.
Variables (data : list (string * list obs)) (N mb : nat).
Hypothesis Hd : data <> [].
Hypothesis HN : forall ka, In ka data -> length (snd ka) = N.
Hypothesis HN0 : (0 < N)%nat.
Hypothesis Hmb : (0 < mb)%nat.
Hypothesis Hone : is_batched likelihood = true -> mb <> 1%nat.
Variables (c0 : option vtree -> orow obs -> R) (b0 : orow obs -> nat -> R) (H0 : orow obs -> nat -> nat -> R) (cp : R) (bp : nat -> R) (Hp : nat -> nat -> R).
Hypothesis Hlq : forall st k, (k < N)%nat -> quadratic s (fun x => l st x (row data k)) (c0 st (row data k)) (b0 (row data k)) (H0 (row data k)).
Hypothesis Hpq : quadratic s prior cp bp Hp.
(** precision matrix A, covariance matrix B and mean mu of the posterior *)
Variables (A B : nat -> nat -> R) (mu : nat -> R) (lam : R).
Hypothesis HA : forall i j, (i < dim s)%nat -> (j < dim s)%nat -> A i j = (sum_upto N (fun k => H0 (row data k) i j) + Hp i j) / Tp.
Hypothesis Hpd : positive_definite (dim s) A lam.
Hypothesis HB : inverse_matrix (dim s) A B.
Hypothesis Hmu : forall i, (i < dim s)%nat -> matvec (dim s) A mu i = (sum_upto N (fun k => b0 (row data k) i) + bp i) / Tp.
Variables (T : R) (x0 model0 : vtree) (key0 : key).
Hypothesis HT : 0 <= T.
Hypothesis Hx : like s x0.
Notation uvalue := (user_value has_state pot N).
Notation ulikelihoods := (user_likelihoods has_state pot N).
Notation umodel := (user_model has_state pot N).
Notation ugrad := (user_grad has_state pot N jgrad).
Notation ebound := (error_bound s Tp data N mb b0 H0 mu).
Notation cf0 := (coef0 s Tp data N mb b0 H0 mu).
Notation cf1 := (coef1 Tp data N mb H0).

(** as in C91: P holds for the samples x k of every run with these step sizes, independent, uniformly distributed index lists and noise whose fourth moments are at most kappa (3 for normal numbers) *)
(** auxiliary definition of a statement or a proof; models no code of /repo *)
Definition for_runs4 (kappa : R) (eps : nat -> R) (n : nat) (P : forall W, ((W -> R) -> R) -> (nat -> W -> nat -> R) -> Prop) : Prop :=
  forall W (E : (W -> R) -> R) (normal : W -> key -> list nat -> list R) Data (get_data : W -> Data -> Data * mbatch obs) (d0 : W -> Data) (idx : nat -> W -> list nat),
    (forall w, normal_ok (normal w)) -> (forall k w, length (idx k w) = mb /\ Forall (fun i => (i < N)%nat) (idx k w)) ->
    (forall k w, batch_no (get_data w) (d0 w) k = batch_at data (idx k w)) ->
    independent_run idx (fun k w => xi (normal w) (Sub (chain key0 k) 1) s) (dim s) E N mb n ->
    (forall k i, (k < n)%nat -> (i < dim s)%nat -> let z := fun w => xi (normal w) (Sub (chain key0 k) 1) s i in E (fun w => z w * z w * (z w * z w)) <= kappa) ->
    P W E (fun k w i => el (l_pos (sgld_state (normal w) (get_data w) uvalue ulikelihoods umodel ugrad eps T (lv_init x0 (Some key0) None (d0 w) model0) k)) i).

(** the majorant of the fourth moments *)
(** auxiliary definition of a statement or a proof; models no code of /repo *)
Fixpoint majorant (eps : nat -> R) (c f m0 : R) (k : nat) : R := match k with O => m0 | Datatypes.S k' => coef4 (dim s) A lam c (eps k') * majorant eps c f m0 k' + eps k' * f end.
(** auxiliary definition of a statement or a proof; models no code of /repo *)
Definition hbound : R := INR (dim s) * ebound.
Notation W2 := (fnorm (dim s) (fun i j => (el x0 i - mu i) * (el x0 j - mu j) - T * B i j)).
Notation start := (norm2 (dim s) (fun i => el x0 i - mu i)).
Lemma coef4_pos c e : 0 <= c -> 0 <= coef4 (dim s) A lam c e.
Proof.
  intros Hc. unfold coef4. assert (P : 0 <= rate (dim s) A lam e) by apply Rabs_pos. assert (0 <= c * c) by apply Rle_0_sqr. assert (0 <= e * e) by apply Rle_0_sqr. assert (0 <= e * e * (e * e)) by apply Rle_0_sqr. assert (0 <= 16 * rate (dim s) A lam e * (e * e)) by (apply Rmult_le_pos; auto; lra).
  apply Rplus_le_le_0_compat; [apply Rplus_le_le_0_compat; [now apply Rmult_le_pos|now apply Rmult_le_pos]|]. apply Rmult_le_pos; lra.
Qed.
Section Core.
Variables (e0 Z kappa G : R).
Hypothesis Pe : 0 <= e0.
Hypothesis PZ : 0 <= Z.
(** auxiliary definition of a statement or a proof; models no code of /repo *)
Definition moment_bound : R := INR (dim s) * (Z + sum_upto (dim s) (fun i => Rabs (T * B i i))).
Notation FF := (force4 (dim s) A lam T hbound moment_bound e0 kappa).
Lemma second_core : exists K, 0 <= K /\ forall eps, (forall k, 0 < eps k <= e0) -> (forall k, z eps (2 * lam) (frob (dim s) A) (cov_P (dim s) ebound) (cov_Q (dim s) A T ebound B) W2 k <= Z) ->
  (forall k, majorant eps hbound FF (start * start) k <= G) -> forall r, (forall k, 0 <= r k) -> (forall k, r k <= r (Datatypes.S k)) -> forall n, 0 < sum_upto n (fun k => r k * eps k) ->
  for_runs4 kappa eps n (fun W E x => forall i j, (i < dim s)%nat -> (j < dim s)%nat ->
    let a := sum_upto n (fun k => r k * eps k) in let rho := r (n - 1)%nat / a in let beta := sum_upto n (fun k => r k * (eps k * eps k)) / a in
    let square := fun w => sum_upto n (fun k => r k * eps k * ((x k w i - mu i) * (x k w j - mu j))) / a in
    let product := fun w => sum_upto n (fun k => r k * eps k * (x k w i * x k w j)) / a in
    E (fun w => (square w - T * B i j) * (square w - T * B i j)) <= K * (rho * rho + rho + beta * beta) /\
    E (fun w => (product w - (mu i * mu j + T * B i j)) * (product w - (mu i * mu j + T * B i j))) <= K * (rho * rho + rho + beta * beta)).
Proof.
  pose proof (error_bound_nonneg s Tp data N mb b0 H0 mu) as PE. pose proof Hpd as (_ & Plam & _).
  assert (PV : 0 <= Z + sum_upto (dim s) (fun i => Rabs (T * B i i))) by (apply Rplus_le_le_0_compat; [exact PZ|apply sum_upto_nonneg; intros; apply Rabs_pos]).
  assert (PH : 0 <= hbound) by (apply Rmult_le_pos; [apply pos_INR|exact PE]).
  destruct (@average_core s Hs obs prior likelihood has_state Tp strategy pot Hpot l Hl Hk jgrad Hj HTp data N mb Hd HN HN0 Hmb Hone c0 b0 H0 cp bp Hp Hlq Hpq A B mu lam HA Hpd HB Hmu T x0 model0 key0 HT Hx e0 Z Pe PZ) as (K1 & PK1 & HA1).
  set (db := diff_bound (dim s) A lam T hbound moment_bound e0 kappa G). set (rb := rest_bound (dim s) A hbound G).
  set (K2 := / (4 * (lam * lam)) * (INR (dim s) * INR (dim s) * (12 * Rabs G + 3 * Rabs db + 3 * Rabs rb))).
  assert (PK2 : 0 <= K2).
  { unfold K2. pose proof (Rabs_pos G). pose proof (Rabs_pos db). pose proof (Rabs_pos rb). apply Rmult_le_pos; [left; apply Rinv_0_lt_compat; assert (0 < lam * lam) by (now apply Rmult_lt_0_compat); lra|]. apply Rmult_le_pos; [apply Rle_0_sqr|lra]. }
  set (mm := sum_upto (dim s) (fun i => mu i * mu i)). assert (Pmm : 0 <= mm) by (apply sum_upto_nonneg; intros; apply Rle_0_sqr).
  exists (3 * K2 + 6 * mm * K1). assert (Pmk : 0 <= mm * K1) by (now apply Rmult_le_pos). split; [lra|].
  intros eps He HZ HG r Hr Hmon n Ha W E normal Data get_data d0 idx Hnorm Hidx Hbat HI Hz4 i j Hi Hjd a rho beta square product.
  assert (Hg : forall t b m, like s t -> like s (ugrad t b m)) by (intros t b m H; apply Hj; exact H).
  assert (Hin : forall k w, In (idx k w) (tuples mb N)) by (intros; apply tuples_spec; apply Hidx).
  set (dat := fun (w : W) (k : nat) => batch_at data (idx k w)).
  set (y := dev sequence_source uvalue ulikelihoods umodel ugrad mu T x0 model0 key0 eps normal dat).
  set (h := grad_error s sequence_source uvalue ulikelihoods umodel ugrad A mu T x0 model0 key0 eps normal dat).
  assert (EQ : forall k w, l_pos (sgld_state (normal w) (get_data w) uvalue ulikelihoods umodel ugrad eps T (lv_init x0 (Some key0) None (d0 w) model0) k) = l_pos (at_ sequence_source uvalue ulikelihoods umodel ugrad T x0 model0 key0 eps normal dat k w)).
  { intros k w. unfold at_. apply sgld_sequence. intros k'. unfold dat. now rewrite Hbat. }
  destruct (@minibatch_run s Hs obs prior likelihood has_state Tp strategy pot Hpot l Hl Hk jgrad Hj HTp data N mb Hd HN HN0 Hmb Hone c0 b0 H0 cp bp Hp Hlq Hpq A mu HA Hmu T x0 model0 key0 Hx eps W E normal idx n Hnorm Hin HI) as (Hh & Ky & HU).
  fold dat y h in Hh, Ky, HU. pose proof HU as (HE & HE1 & _ & Hst).
  set (zz := fun k w => xi (normal w) (Sub (chain key0 k) 1) s) in *.
  destruct (@zeros s obs Tp data N mb HN0 Hmb b0 H0 mu) as [Z0 Z1].
  assert (HV : forall k j, (k <= n)%nat -> (j < dim s)%nat -> E (fun w => y k w j * y k w j) <= Z + sum_upto (dim s) (fun i => Rabs (T * B i i))).
  { intros k q Hkn Hq. set (m := fun k => fnorm (dim s) (fun i j => E (fun w => y k w i * y k w j) - T * B i j)).
    assert (B1 : Rabs (m k) <= z eps (2 * lam) (frob (dim s) A) (cov_P (dim s) ebound) (cov_Q (dim s) A T ebound B) W2 k).
    { apply z_bound with (n := n); auto.
      - intros p. apply He.
      - unfold cov_P. pose proof (pos_INR (dim s)). apply Rmult_le_pos; auto; apply Rmult_le_pos; auto.
      - unfold m. rewrite Rabs_pos_eq by apply fnorm_nonneg. right. apply fnorm_ext. intros p p' Hp' Hq'. f_equal. rewrite (@E_ext W E HE _ (fun _ => (el x0 p - mu p) * (el x0 p' - mu p'))) by reflexivity. now apply E_const.
      - intros p Hp'. rewrite (Rabs_pos_eq (m (Datatypes.S p))), (Rabs_pos_eq (m p)) by apply fnorm_nonneg. unfold m.
        apply (@cov_contracts W E HE (dim s) A (eps p) T ebound (Rlt_le _ _ (proj1 (He p))) HT (y p) (h p) (step_noise s key0 normal p) (y (Datatypes.S p))) with (lam := lam); auto.
        intros w p' Hp''. apply dev_step; auto. }
    rewrite Rabs_pos_eq in B1 by apply fnorm_nonneg. pose proof (@fnorm_entry (dim s) (fun i j => E (fun w => y k w i * y k w j) - T * B i j) q q Hq Hq) as B2. fold (m k) in B2.
    pose proof (HZ k) as B3. pose proof (@sum_upto_term (dim s) (fun i => Rabs (T * B i i)) q ltac:(intros; apply Rabs_pos) Hq) as B4. cbv beta in B4.
    pose proof (Rle_abs (E (fun w => y k w q * y k w q) - T * B q q)) as B5. pose proof (Rle_abs (T * B q q)) as B6. lra. }
  assert (HV2 : forall k, (k <= n)%nat -> E (fun w => norm2 (dim s) (y k w)) <= moment_bound).
  { intros k Hkn. unfold norm2. rewrite (@E_sum W E HE (dim s) (fun i w => y k w i * y k w i)). unfold moment_bound. rewrite <- sum_const. apply sum_upto_le. intros p Hp'. now apply HV. }
  assert (KH : forall k j, (j < dim s)%nat -> known idx zz (dim s) (Datatypes.S k) k (fun w => h k w j)) by (intros k q Hq; apply (@known_h W idx zz (dim s) k (y k) (h k) cf0 cf1); auto).
  assert (HH : forall k F j, (k < n)%nat -> known idx zz (dim s) k k F -> (j < dim s)%nat -> E (fun w => F w * h k w j) = 0).
  { intros k F q Hkn HF Hq. apply (@E_known_h W idx zz (dim s) E N mb n HI k (y k) (h k) cf0 cf1); auto. }
  assert (HB' : forall k w, norm2 (dim s) (h k w) <= hbound * (1 + norm2 (dim s) (y k w))).
  { intros k w. unfold hbound. rewrite Rmult_assoc, <- sum_const. apply sum_upto_le. intros p Hp'. pose proof (@h_bound W idx (dim s) N mb Hin k (y k) (h k) cf0 cf1 (Hh k) w p Hp') as B1.
    set (cb := coef_bound (dim s) N mb cf0 cf1) in *. set (u := 1 + sum_upto (dim s) (fun a => Rabs (y k w a))) in *. pose proof (one_plus_sq (dim s) (y k w)) as B2. fold u in B2.
    assert (P0 : 0 <= Rabs (h k w p)) by apply Rabs_pos. replace (h k w p * h k w p) with (Rabs (h k w p) * Rabs (h k w p)) by (rewrite <- Rabs_mult; apply Rabs_pos_eq, Rle_0_sqr). eapply Rle_trans; [apply (Rmult_le_compat _ _ _ _ P0 P0 B1 B1)|].
    replace (cb * u * (cb * u)) with (cb * cb * (u * u)) by ring. unfold error_bound. fold cb. cbv zeta. apply (Rmult_le_compat_l (cb * cb)) in B2; [|apply Rle_0_sqr]. lra. }
  assert (HST : forall k w j, (j < dim s)%nat -> y (Datatypes.S k) w j = y k w j - eps k * (matvec (dim s) A (y k w) j + h k w j) + sqrt (2 * T * eps k) * zz k w j) by (intros k w q Hq; apply dev_step; auto).
  assert (He' : forall k, 0 <= eps k <= e0) by (intros k; destruct (He k); lra).
  assert (HV4 : forall k, (k <= n)%nat -> E (fun w => norm2 (dim s) (y k w) * norm2 (dim s) (y k w)) <= G).
  { assert (M : forall k, (k <= n)%nat -> E (fun w => norm2 (dim s) (y k w) * norm2 (dim s) (y k w)) <= majorant eps hbound FF (start * start) k).
    { induction k as [|k IH]; intros Hkn.
      - cbn [majorant]. right. rewrite (@E_ext W E HE _ (fun _ => start * start)) by reflexivity. now apply E_const.
      - cbn [majorant]. eapply Rle_trans; [apply (@fourth_step W idx zz (dim s) E N mb n HI y h A lam eps T hbound moment_bound e0 kappa Ky KH HH HB' PH HT HV2 He' HST Hpd Hz4 k); lia|].
        apply Rplus_le_compat_r. apply Rmult_le_compat_l; [now apply coef4_pos|]. apply IH. lia. }
    intros k Hkn. eapply Rle_trans; [now apply M|apply HG]. }
  destruct n as [|m]; [unfold sum_upto in Ha; cbn in Ha; lra|].
  pose proof (@second_square W idx zz (dim s) E N mb (Datatypes.S m) HI y h A B lam eps T hbound moment_bound e0 kappa Ky KH HH HB' PH HT HV2 He' HST Hpd HB Hz4 G r HV4 Hr Hmon m i j (le_n _) Hi Hjd) as F. cbv zeta in F. fold a in F.
  assert (Ha0 : 0 < a) by exact Ha. assert (Pa : 0 < / a) by (now apply Rinv_0_lt_compat).
  assert (Es : forall w, square w - T * B i j = / a * sum_upto (Datatypes.S m) (fun k => r k * eps k * (y k w i * y k w j - T * B i j))).
  { intros w. unfold square. rewrite (@sum_upto_ext (Datatypes.S m) (fun k => r k * eps k * (y k w i * y k w j - T * B i j)) (fun k => r k * eps k * ((el (l_pos (sgld_state (normal w) (get_data w) uvalue ulikelihoods umodel ugrad eps T (lv_init x0 (Some key0) None (d0 w) model0) k)) i - mu i) * (el (l_pos (sgld_state (normal w) (get_data w) uvalue ulikelihoods umodel ugrad eps T (lv_init x0 (Some key0) None (d0 w) model0) k)) j - mu j)) + (- (T * B i j)) * (r k * eps k))) by (intros k _; unfold y, dev; rewrite EQ; ring).
    rewrite sum_upto_plus, sum_upto_scale. fold a. field. lra. }
  assert (Fs : E (fun w => (square w - T * B i j) * (square w - T * B i j)) <= K2 * (rho * rho + rho + beta * beta)).
  { set (D := fun w => sum_upto (Datatypes.S m) (fun k => r k * eps k * (y k w i * y k w j - T * B i j))) in *. rewrite (@E_ext W E HE _ (fun w => / a * / a * (D w * D w))) by (intros w; rewrite Es; unfold D; ring). rewrite (@E_scale W E HE (/ a * / a) (fun w => D w * D w)).
    eapply Rle_trans; [apply Rmult_le_compat_l; [apply Rle_0_sqr|exact F]|]. unfold second_bound. fold db rb. set (bb := sum_upto (Datatypes.S m) (fun k => r k * (eps k * eps k))) in *.
    replace (/ a * / a * (/ (4 * (lam * lam)) * (INR (dim s) * INR (dim s) * (12 * G * (r m * r m) + 3 * db * (r m * a) + 3 * rb * (bb * bb))))) with (/ (4 * (lam * lam)) * (INR (dim s) * INR (dim s) * (12 * G * (rho * rho) + 3 * db * rho + 3 * rb * (beta * beta)))).
    2:{ unfold rho, beta. fold bb. replace (Datatypes.S m - 1)%nat with m by lia. field. split; lra. }
    unfold K2. rewrite !Rmult_assoc. apply Rmult_le_compat_l; [left; apply Rinv_0_lt_compat; assert (0 < lam * lam) by (now apply Rmult_lt_0_compat); lra|]. apply Rmult_le_compat_l; [apply pos_INR|]. apply Rmult_le_compat_l; [apply pos_INR|].
    assert (R0 : 0 <= rho) by (unfold rho; apply Rmult_le_pos; [apply Hr|lra]). assert (R1 : 0 <= rho * rho) by apply Rle_0_sqr. assert (R2 : 0 <= beta * beta) by apply Rle_0_sqr.
    assert (X : forall c t, 0 <= t -> c * t <= Rabs c * t) by (clear; intros c t Ht; apply Rmult_le_compat_r; [exact Ht|apply Rle_abs]). pose proof (X G _ R1) as X1. pose proof (X db _ R0) as X2. pose proof (X rb _ R2) as X3.
    pose proof (Rabs_pos G) as Y1. pose proof (Rabs_pos db) as Y2. pose proof (Rabs_pos rb) as Y3. set (g := Rabs G) in *. set (u := Rabs db) in *. set (v := Rabs rb) in *. set (r2 := rho * rho) in *. set (b2 := beta * beta) in *.
    assert (0 <= g * rho) by (now apply Rmult_le_pos). assert (0 <= g * b2) by (now apply Rmult_le_pos). assert (0 <= u * r2) by (now apply Rmult_le_pos). assert (0 <= u * b2) by (now apply Rmult_le_pos). assert (0 <= v * r2) by (now apply Rmult_le_pos). assert (0 <= v * rho) by (now apply Rmult_le_pos). lra. }
  assert (R0 : 0 <= rho) by (unfold rho; apply Rmult_le_pos; [apply Hr|lra]). assert (R1 : 0 <= rho * rho) by apply Rle_0_sqr. assert (R2 : 0 <= beta * beta) by apply Rle_0_sqr. set (qq := rho * rho + rho + beta * beta) in *. assert (Pq : 0 <= qq) by (unfold qq; lra).
  split; [eapply Rle_trans; [exact Fs|]; apply Rmult_le_compat_r; lra|].
  assert (mean : forall p, (p < dim s)%nat -> E (fun w => (sum_upto (Datatypes.S m) (fun k => r k * eps k * y k w p) / a) * (sum_upto (Datatypes.S m) (fun k => r k * eps k * y k w p) / a)) <= K1 * qq).
  { intros p Hp'. pose proof (HA1 eps He HZ r Hr Hmon (Datatypes.S m) Ha W E normal Data get_data d0 idx Hnorm Hidx Hbat HI p Hp') as F1. cbv zeta in F1. fold a rho in F1. apply Rle_trans with (K1 * (rho * rho + rho)); [|apply Rmult_le_compat_l; [exact PK1|unfold qq; lra]]. eapply Rle_trans; [|exact F1]. right. apply (@E_ext W E HE). intros w.
    rewrite (@sum_upto_ext (Datatypes.S m) (fun k => r k * eps k * y k w p) (fun k => r k * eps k * el (l_pos (sgld_state (normal w) (get_data w) uvalue ulikelihoods umodel ugrad eps T (lv_init x0 (Some key0) None (d0 w) model0) k)) p + (- mu p) * (r k * eps k))) by (intros k _; unfold y, dev; rewrite EQ; ring).
    rewrite sum_upto_plus, sum_upto_scale. fold a. field. lra. }
  set (bar := fun p w => sum_upto (Datatypes.S m) (fun k => r k * eps k * y k w p) / a) in *. set (D := fun w => square w - T * B i j) in *.
  assert (Ep : forall w, product w - (mu i * mu j + T * B i j) = D w + (mu i * bar j w + mu j * bar i w)).
  { intros w. unfold D, bar, product, square. rewrite (@sum_upto_ext (Datatypes.S m) (fun k => r k * eps k * (el _ i * el _ j)) (fun k => r k * eps k * ((el (l_pos (sgld_state (normal w) (get_data w) uvalue ulikelihoods umodel ugrad eps T (lv_init x0 (Some key0) None (d0 w) model0) k)) i - mu i) * (el (l_pos (sgld_state (normal w) (get_data w) uvalue ulikelihoods umodel ugrad eps T (lv_init x0 (Some key0) None (d0 w) model0) k)) j - mu j)) + (mu i * (r k * eps k * y k w j) + (mu j * (r k * eps k * y k w i) + (mu i * mu j) * (r k * eps k))))) by (intros k _; unfold y, dev; rewrite EQ; ring).
    rewrite !sum_upto_plus, !sum_upto_scale. fold a. field. lra. }
  assert (KB : forall p, (p < dim s)%nat -> known idx zz (dim s) (Datatypes.S m) (Datatypes.S m) (bar p)).
  { intros p Hp'. apply (@known_ext _ idx zz (dim s) (Datatypes.S m) (Datatypes.S m) (fun w => / a * sum_upto (Datatypes.S m) (fun k => r k * eps k * y k w p))); [intros w; unfold bar; field; lra|]. apply known_scale. apply (@known_sum W idx zz (dim s) (Datatypes.S m) (Datatypes.S m) (Datatypes.S m) (fun k w => r k * eps k * y k w p)). intros k Hk'. apply known_scale. apply (@known_mono W idx zz (dim s) k k); try lia. now apply Ky. }
  assert (KD : known idx zz (dim s) (Datatypes.S m) (Datatypes.S m) D).
  { apply (@known_ext _ idx zz (dim s) (Datatypes.S m) (Datatypes.S m) (fun w => / a * sum_upto (Datatypes.S m) (fun k => r k * eps k * (y k w i * y k w j + (fun _ => - (T * B i j)) w)))); [intros w; unfold D; rewrite Es; reflexivity|]. apply known_scale. apply (@known_sum W idx zz (dim s) (Datatypes.S m) (Datatypes.S m) (Datatypes.S m) (fun k w => r k * eps k * (y k w i * y k w j + (fun _ => - (T * B i j)) w))). intros k Hk'. apply known_scale. apply known_plus; [|apply known_const]. apply known_mult; apply (@known_mono W idx zz (dim s) k k); try lia; now apply Ky. }
  apply Rle_trans with (E (fun w => 3 * (D w * D w) + (3 * (mu i * mu i) * (bar j w * bar j w) + 3 * (mu j * mu j) * (bar i w * bar i w)))).
  - apply (@E_mono W idx zz (dim s) E N mb (Datatypes.S m) HI).
    + apply (@known_ext _ idx zz (dim s) (Datatypes.S m) (Datatypes.S m) (fun w => (D w + (mu i * bar j w + mu j * bar i w)) * (D w + (mu i * bar j w + mu j * bar i w)))); [intros w; now rewrite Ep|]. apply known_mult; (apply known_plus; [exact KD|apply known_plus; apply known_scale; now apply KB]).
    + repeat apply known_plus; apply known_scale, known_mult; auto.
    + intros w. rewrite Ep. set (u := D w). set (v := mu i * bar j w). set (q := mu j * bar i w). replace (3 * (mu i * mu i) * (bar j w * bar j w)) with (3 * (v * v)) by (unfold v; ring). replace (3 * (mu j * mu j) * (bar i w * bar i w)) with (3 * (q * q)) by (unfold q; ring).
      clear. pose proof (Rle_0_sqr (u - v)) as H1. pose proof (Rle_0_sqr (u - q)) as H2. pose proof (Rle_0_sqr (v - q)) as H3. unfold Rsqr in *. lra.
  - rewrite (@E_plus W E HE (fun w => 3 * (D w * D w))), (@E_plus W E HE (fun w => 3 * (mu i * mu i) * (bar j w * bar j w))), (@E_scale W E HE 3 (fun w => D w * D w)), (@E_scale W E HE _ (fun w => bar j w * bar j w)), (@E_scale W E HE _ (fun w => bar i w * bar i w)).
    pose proof (mean i Hi) as M1. pose proof (mean j Hjd) as M2. change (E (fun w => bar i w * bar i w) <= K1 * qq) in M1. change (E (fun w => bar j w * bar j w) <= K1 * qq) in M2. change (E (fun w => D w * D w) <= K2 * qq) in Fs.
    assert (Pi : 0 <= mu i * mu i) by apply Rle_0_sqr. assert (Pj : 0 <= mu j * mu j) by apply Rle_0_sqr. assert (Ii : mu i * mu i <= mm) by (apply (@sum_upto_term (dim s) (fun i => mu i * mu i)); auto; intros; apply Rle_0_sqr). assert (Ij : mu j * mu j <= mm) by (apply (@sum_upto_term (dim s) (fun i => mu i * mu i)); auto; intros; apply Rle_0_sqr).
    assert (Pkq : 0 <= K1 * qq) by (now apply Rmult_le_pos). apply (Rmult_le_compat_l (3 * (mu i * mu i))) in M2; [|lra]. apply (Rmult_le_compat_l (3 * (mu j * mu j))) in M1; [|lra]. apply (Rmult_le_compat_r (K1 * qq)) in Ii; [|exact Pkq]. apply (Rmult_le_compat_r (K1 * qq)) in Ij; [|exact Pkq]. lra.
Qed.
End Core.
(** the majorant stays bounded *)
Lemma small_coef c : 0 <= c -> exists e1, 0 < e1 /\ forall e, 0 <= e <= e1 -> coef4 (dim s) A lam c e <= 1 - e * lam /\ e * lam <= 1.
Proof.
  intros Hc. pose proof Hpd as (_ & Pl & _). pose proof (frob_nonneg (dim s) A) as PF. set (F := frob (dim s) A) in *. set (p := F + 16 * c + 48 * (c * c)). assert (Pcc : 0 <= c * c) by apply Rle_0_sqr. assert (Pp : 0 <= p) by (unfold p; lra).
  assert (L1 : 0 < / (2 * lam)) by (apply Rinv_0_lt_compat; lra). assert (L2 : 0 < lam / (p + 1)) by (apply Rdiv_lt_0_compat; lra).
  exists (Rmin 1 (Rmin (/ (2 * lam)) (lam / (p + 1)))). split; [repeat apply Rmin_glb_lt; lra|]. intros e [He1 He2].
  assert (E0 : e <= 1) by (eapply Rle_trans; [exact He2|apply Rmin_l]). assert (He3 : e <= Rmin (/ (2 * lam)) (lam / (p + 1))) by (eapply Rle_trans; [exact He2|apply Rmin_r]).
  assert (E1 : e <= / (2 * lam)) by (eapply Rle_trans; [exact He3|apply Rmin_l]). assert (E2 : e <= lam / (p + 1)) by (eapply Rle_trans; [exact He3|apply Rmin_r]).
  assert (E3 : e * (2 * lam) <= 1) by (apply (Rmult_le_compat_r (2 * lam)) in E1; [|lra]; rewrite Rinv_l in E1 by lra; exact E1).
  assert (E4 : e * p <= lam) by (apply (Rmult_le_compat_r (p + 1)) in E2; [|lra]; unfold Rdiv in E2; rewrite Rmult_assoc, Rinv_l, Rmult_1_r in E2 by lra; lra).
  assert (Pee : 0 <= e * e) by apply Rle_0_sqr. assert (PeF : 0 <= e * e * F) by (now apply Rmult_le_pos). assert (Pel : 0 <= e * lam) by (apply Rmult_le_pos; lra). split; [|lra].
  assert (E5 : e * e * p <= e * lam) by (rewrite Rmult_assoc; now apply Rmult_le_compat_l). assert (E6 : e * e <= 1) by (rewrite <- (Rmult_1_l 1); apply Rmult_le_compat; auto).
  assert (Pec : 0 <= e * e * c) by (now apply Rmult_le_pos). assert (Pecc : 0 <= e * e * (c * c)) by (now apply Rmult_le_pos).
  unfold coef4, rate. fold F. assert (Er : Rabs (1 - e * (2 * lam) + e * e * F) = 1 - e * (2 * lam) + e * e * F) by (apply Rabs_pos_eq; lra). rewrite Er. set (r := 1 - e * (2 * lam) + e * e * F) in *. assert (Pr : 0 <= r <= 1) by (unfold r, p in *; lra).
  assert (Q1 : r * r <= r * 1) by (apply Rmult_le_compat_l; lra). assert (Q2 : r * (e * e * c) <= 1 * (e * e * c)) by (apply Rmult_le_compat_r; lra). assert (Q3 : e * e * (e * e * (c * c)) <= 1 * (e * e * (c * c))) by (apply Rmult_le_compat_r; lra).
  unfold p in E5. unfold r in *. lra.
Qed.
Lemma majorant_step c f G e g : 0 <= c -> 0 <= e -> coef4 (dim s) A lam c e <= 1 - e * lam -> 0 <= G -> f <= lam * G -> g <= G -> coef4 (dim s) A lam c e * g + e * f <= G.
Proof.
  intros Hc He H1 PG Hf Hg. pose proof (@coef4_pos c e Hc) as P. assert (Q1 : coef4 (dim s) A lam c e * g <= coef4 (dim s) A lam c e * G) by (now apply Rmult_le_compat_l). assert (Q2 : coef4 (dim s) A lam c e * G <= (1 - e * lam) * G) by (now apply Rmult_le_compat_r).
  assert (Q3 : e * f <= e * (lam * G)) by (now apply Rmult_le_compat_l). lra.
Qed.
Lemma majorant_bounded eps c f m0 : 0 <= c -> (forall k, 0 < eps k) -> vanishing eps -> exists G, forall k, majorant eps c f m0 k <= G.
Proof.
  intros Hc Ep Ev. pose proof Hpd as (_ & Pl & _). destruct (small_coef Hc) as (e1 & Pe1 & H1). destruct (Ev e1 Pe1) as [n0 Hn0]. set (G := Rabs (majorant eps c f m0 n0) + Rabs f / lam). assert (Pil : 0 < / lam) by (now apply Rinv_0_lt_compat).
  assert (P1 : 0 <= Rabs f / lam) by (apply Rmult_le_pos; [apply Rabs_pos|lra]). pose proof (Rabs_pos (majorant eps c f m0 n0)) as P2. assert (PG : 0 <= G) by (unfold G; lra).
  assert (Hf : f <= lam * G). { apply Rle_trans with (lam * (Rabs f / lam)); [replace (lam * (Rabs f / lam)) with (Rabs f) by (field; lra); apply Rle_abs|]. apply Rmult_le_compat_l; [lra|unfold G; lra]. }
  apply (@eventually_bounded (majorant eps c f m0) n0 G). intros n Hn. induction Hn as [|n Hn IH]; [pose proof (Rle_abs (majorant eps c f m0 n0)); unfold G; lra|]. cbn [majorant]. destruct (H1 (eps n)) as [H2 _]; [split; [left; apply Ep|now apply Hn0]|]. apply majorant_step; auto. left. apply Ep.
Qed.
(** weights r k * eps k with a nondecreasing factor r: the mean square errors of the weighted averages of the centred products and of the products are at most K (rho^2 + rho + beta^2),
    where rho is the last factor over the sum of the weights and beta the average of the step sizes *)
Theorem C94_average : forall kappa eps, (forall n, 0 < eps n) -> vanishing eps -> divergent eps ->
  exists K, 0 <= K /\ forall r, (forall k, 0 <= r k) -> (forall k, r k <= r (Datatypes.S k)) -> forall n, 0 < sum_upto n (fun k => r k * eps k) ->
  for_runs4 kappa eps n (fun W E x => forall i j, (i < dim s)%nat -> (j < dim s)%nat ->
    let a := sum_upto n (fun k => r k * eps k) in let rho := r (n - 1)%nat / a in let beta := sum_upto n (fun k => r k * (eps k * eps k)) / a in
    let square := fun w => sum_upto n (fun k => r k * eps k * ((x k w i - mu i) * (x k w j - mu j))) / a in
    let product := fun w => sum_upto n (fun k => r k * eps k * (x k w i * x k w j)) / a in
    E (fun w => (square w - T * B i j) * (square w - T * B i j)) <= K * (rho * rho + rho + beta * beta) /\
    E (fun w => (product w - (mu i * mu j + T * B i j)) * (product w - (mu i * mu j + T * B i j))) <= K * (rho * rho + rho + beta * beta)).
Proof.
  intros kappa eps Ep Ev Ed. destruct (@moments_bounded s obs likelihood Tp l data N mb HN0 Hmb Hone c0 b0 H0 bp Hp Hlq A B mu lam HA Hpd Hmu T x0 HT eps Ep Ev Ed) as [Z HZ].
  assert (BE : exists e0, forall k, 0 < eps k <= e0).
  { destruct (Ev 1 ltac:(lra)) as [n0 H]. destruct (@eventually_bounded eps n0 1 H) as [e0 He0]. exists e0. intros k. split; [apply Ep|apply He0]. }
  destruct BE as [e0 He]. assert (PZ : 0 <= Z) by (eapply Rle_trans; [|apply (HZ 0%nat)]; cbn; apply fnorm_nonneg). assert (Pe : 0 <= e0) by (destruct (He 0%nat); lra).
  assert (PH : 0 <= hbound) by (apply Rmult_le_pos; [apply pos_INR|apply error_bound_nonneg]).
  destruct (@majorant_bounded eps hbound (force4 (dim s) A lam T hbound (moment_bound Z) e0 kappa) (start * start) PH Ep Ev) as [G HG].
  destruct (@second_core e0 Z kappa G Pe PZ) as (K & HK & H). exists K. split; [exact HK|]. exact (H eps He HZ HG).
Qed.
Lemma small_bound K delta : 0 <= K -> 0 < delta -> exists q, 0 < q /\ forall rho beta, 0 <= rho <= q -> 0 <= beta <= q -> K * (rho * rho + rho + beta * beta) <= delta.
Proof.
  intros HK Hd'. exists (Rmin 1 (delta / (3 * K + 1))). assert (P : 0 < delta / (3 * K + 1)) by (apply Rdiv_lt_0_compat; lra). split; [apply Rmin_glb_lt; lra|]. intros rho beta [R1 R2] [B1 B2]. pose proof (Rmin_l 1 (delta / (3 * K + 1))) as M1. pose proof (Rmin_r 1 (delta / (3 * K + 1))) as M2. set (q := Rmin 1 (delta / (3 * K + 1))) in *.
  assert (rho * rho <= 1 * rho) by (apply Rmult_le_compat_r; lra). assert (beta * beta <= 1 * beta) by (apply Rmult_le_compat_r; lra). apply Rle_trans with (K * (3 * q)); [apply Rmult_le_compat_l; lra|].
  apply (Rmult_le_compat_r (3 * K + 1)) in M2; [|lra]. replace (delta / (3 * K + 1) * (3 * K + 1)) with delta in M2 by (field; lra). lra.
Qed.
(** the weighted average of vanishing step sizes vanishes *)
Lemma cesaro eps v : (forall k, 0 <= eps k) -> vanishing eps -> (forall k, 0 <= v k) -> divergent v -> forall q, 0 < q -> exists n0, forall n, (n0 <= n)%nat -> sum_upto n (fun k => v k * eps k) <= q * sum_upto n v.
Proof.
  intros Pe Ev Pv Dv q Hq. destruct (Ev (q / 2) ltac:(lra)) as [n1 H1]. set (C := sum_upto n1 (fun k => v k * eps k)). destruct (Dv (2 * C / q)) as [n2 H2]. exists (n1 + n2)%nat. intros n Hn. specialize (H2 n ltac:(lia)).
  apply (Rmult_le_compat_r q) in H2; [|lra]. replace (2 * C / q * q) with (2 * C) in H2 by (field; lra).
  replace n with (n1 + (n - n1))%nat in * by lia. rewrite !sum_upto_app in *. fold C. set (V1 := sum_upto n1 v) in *. assert (P1 : 0 <= V1) by (apply sum_upto_nonneg; auto). set (V2 := sum_upto (n1 + (n - n1) - n1) v) in *.
  assert (B1 : sum_upto (n - n1) (fun i => v (n1 + i)%nat * eps (n1 + i)%nat) <= q / 2 * sum_upto (n - n1) (fun i => v (n1 + i)%nat)).
  { rewrite <- sum_upto_scale. apply sum_upto_le. intros i _. rewrite (Rmult_comm (q / 2)). apply Rmult_le_compat_l; [apply Pv|]. apply H1. lia. }
  set (T2 := sum_upto (n - n1) (fun i => v (n1 + i)%nat)) in *. assert (P2 : 0 <= q * V1) by (apply Rmult_le_pos; lra). lra.
Qed.
(** the averages weighted with the step sizes *)
Theorem C94_weighted_average : forall kappa eps, (forall n, 0 < eps n) -> vanishing eps -> divergent eps -> forall delta, 0 < delta -> exists n0, forall n, (n0 <= n)%nat ->
  for_runs4 kappa eps n (fun W E x => forall i j, (i < dim s)%nat -> (j < dim s)%nat ->
    let product := fun w => sum_upto n (fun k => eps k * (x k w i * x k w j)) / sum_upto n eps in
    E (fun w => (product w - (mu i * mu j + T * B i j)) * (product w - (mu i * mu j + T * B i j))) <= delta).
Proof.
  intros kappa eps Ep Ev Ed delta Hdelta. destruct (C94_average kappa Ep Ev Ed) as (K & HK & H). destruct (@small_bound K delta HK Hdelta) as (q & Hq & Hs'). destruct (Ed (/ q)) as [n1 Hn1].
  destruct (@cesaro eps eps (fun k => Rlt_le _ _ (Ep k)) Ev (fun k => Rlt_le _ _ (Ep k)) Ed q Hq) as [n2 Hn2]. exists (n1 + n2)%nat.
  intros n Hn W E normal Data get_data d0 idx Hnorm Hidx Hbat HI Hz4 i j Hi Hjd product. specialize (Hn1 n ltac:(lia)). specialize (Hn2 n ltac:(lia)). assert (Pq : 0 < / q) by (now apply Rinv_0_lt_compat).
  assert (S1 : sum_upto n (fun k => 1 * eps k) = sum_upto n eps) by (apply sum_upto_ext; intros; ring). assert (S2 : sum_upto n (fun k => 1 * (eps k * eps k)) = sum_upto n (fun k => eps k * eps k)) by (apply sum_upto_ext; intros; ring).
  pose proof (H (fun _ => 1) ltac:(intros; lra) ltac:(intros; lra) n ltac:(cbv beta; rewrite S1; lra) W E normal Data get_data d0 idx Hnorm Hidx Hbat HI Hz4 i j Hi Hjd) as [_ F]. cbv zeta beta in F. rewrite S1, S2 in F. destruct HI as (HE & _).
  assert (Ex : forall w, sum_upto n (fun k => 1 * eps k * (el (l_pos (sgld_state (normal w) (get_data w) uvalue ulikelihoods umodel ugrad eps T (lv_init x0 (Some key0) None (d0 w) model0) k)) i * el (l_pos (sgld_state (normal w) (get_data w) uvalue ulikelihoods umodel ugrad eps T (lv_init x0 (Some key0) None (d0 w) model0) k)) j)) / sum_upto n eps = product w).
  { intros w. unfold product. f_equal. apply sum_upto_ext. intros; ring. }
  rewrite (@E_ext W E HE _ (fun w => (product w - (mu i * mu j + T * B i j)) * (product w - (mu i * mu j + T * B i j)))) in F by (intros w; now rewrite Ex).
  eapply Rle_trans; [exact F|]. assert (Ps : 0 < / sum_upto n eps) by (apply Rinv_0_lt_compat; lra). apply Hs'; split.
  - apply Rmult_le_pos; lra.
  - unfold Rdiv. rewrite Rmult_1_l, <- (Rinv_inv q). apply Rinv_le_contravar; auto.
  - apply Rmult_le_pos; [apply sum_upto_nonneg; intros; apply Rle_0_sqr|lra].
  - apply (Rmult_le_compat_r (/ sum_upto n eps)) in Hn2; [|lra]. rewrite Rmult_assoc, Rinv_r, Rmult_1_r in Hn2 by lra. exact Hn2.
Qed.
(** plain averages: the factor r k is 1 / eps k after the burn in *)
Lemma plain_bound kappa K eps b n (KB : R) : (forall k, 0 < eps k) -> (forall k, eps (Datatypes.S k) <= eps k) -> (b < n)%nat ->
  (forall r, (forall k, 0 <= r k) -> (forall k, r k <= r (Datatypes.S k)) -> forall n, 0 < sum_upto n (fun k => r k * eps k) ->
  for_runs4 kappa eps n (fun W E x => forall i j, (i < dim s)%nat -> (j < dim s)%nat ->
    let a := sum_upto n (fun k => r k * eps k) in let rho := r (n - 1)%nat / a in let beta := sum_upto n (fun k => r k * (eps k * eps k)) / a in
    let square := fun w => sum_upto n (fun k => r k * eps k * ((x k w i - mu i) * (x k w j - mu j))) / a in
    let product := fun w => sum_upto n (fun k => r k * eps k * (x k w i * x k w j)) / a in
    E (fun w => (square w - T * B i j) * (square w - T * B i j)) <= K * (rho * rho + rho + beta * beta) /\
    E (fun w => (product w - (mu i * mu j + T * B i j)) * (product w - (mu i * mu j + T * B i j))) <= K * (rho * rho + rho + beta * beta))) ->
  (let rho := / eps (n - 1)%nat / INR (n - b) in let beta := sum_upto (n - b) (fun j => eps (b + j)%nat) / INR (n - b) in K * (rho * rho + rho + beta * beta) <= KB) ->
  for_runs4 kappa eps n (fun W E x => forall i j, (i < dim s)%nat -> (j < dim s)%nat ->
    let product := fun w => sum_upto (n - b) (fun k => x (b + k)%nat w i * x (b + k)%nat w j) / INR (n - b) in
    E (fun w => (product w - (mu i * mu j + T * B i j)) * (product w - (mu i * mu j + T * B i j))) <= KB).
Proof.
  intros Ep Em Hbn H HKB W E normal Data get_data d0 idx Hnorm Hidx Hbat HI Hz4 i j Hi Hjd product.
  set (r := fun k => if (b <=? k)%nat then / eps k else 0). assert (Pr : forall k, 0 < / eps k) by (intros; apply Rinv_0_lt_compat, Ep).
  assert (R0 : forall k, 0 <= r k) by (intros k; unfold r; destruct (b <=? k)%nat; [left; apply Pr|lra]).
  assert (R1 : forall k, r k <= r (Datatypes.S k)).
  { intros k. unfold r. destruct (b <=? k)%nat eqn:E1.
    - apply Nat.leb_le in E1. rewrite (proj2 (Nat.leb_le b (Datatypes.S k))) by lia. apply Rinv_le_contravar; [apply Ep|apply Em].
    - destruct (b <=? Datatypes.S k)%nat; [left; apply Pr|lra]. }
  assert (SW : forall u : nat -> R, sum_upto n (fun k => r k * eps k * u k) = sum_upto (n - b) (fun j => u (b + j)%nat)).
  { intros u. replace n with (b + (n - b))%nat at 1 by lia. rewrite sum_upto_app. rewrite (@sum_upto_zero b) by (intros k Hkb; unfold r; rewrite (proj2 (Nat.leb_gt b k)) by lia; ring). rewrite Rplus_0_l. apply sum_upto_ext. intros q _. unfold r. rewrite (proj2 (Nat.leb_le b (b + q))) by lia. pose proof (Ep (b + q)%nat). field. lra. }
  assert (SA : sum_upto n (fun k => r k * eps k) = INR (n - b)).
  { rewrite (@sum_upto_ext n _ (fun k => r k * eps k * 1)) by (intros; ring). rewrite (SW (fun _ => 1)), sum_const. ring. }
  assert (SB : sum_upto n (fun k => r k * (eps k * eps k)) = sum_upto (n - b) (fun j => eps (b + j)%nat)).
  { rewrite (@sum_upto_ext n _ (fun k => r k * eps k * eps k)) by (intros; ring). apply (SW eps). }
  assert (PI : 0 < INR (n - b)) by (apply lt_0_INR; lia).
  pose proof (H r R0 R1 n ltac:(rewrite SA; exact PI) W E normal Data get_data d0 idx Hnorm Hidx Hbat HI Hz4 i j Hi Hjd) as [_ F]. cbv zeta beta in F. rewrite SA, SB in F. destruct HI as (HE & _).
  rewrite (@E_ext W E HE _ (fun w => (product w - (mu i * mu j + T * B i j)) * (product w - (mu i * mu j + T * B i j)))) in F.
  2:{ intros w. rewrite (SW (fun k => el (l_pos (sgld_state (normal w) (get_data w) uvalue ulikelihoods umodel ugrad eps T (lv_init x0 (Some key0) None (d0 w) model0) k)) i * el (l_pos (sgld_state (normal w) (get_data w) uvalue ulikelihoods umodel ugrad eps T (lv_init x0 (Some key0) None (d0 w) model0) k)) j)). reflexivity. }
  eapply Rle_trans; [exact F|]. unfold r. rewrite (proj2 (Nat.leb_le b (n - 1))) by lia. exact HKB.
Qed.
(** the plain averages over the samples b, ..., n - 1 after a burn in, for nonincreasing step sizes with n * eps n -> infinity *)
Theorem C94_plain_average : forall kappa eps, (forall n, 0 < eps n) -> (forall n, eps (Datatypes.S n) <= eps n) -> vanishing eps -> (forall M, exists n0, forall n, (n0 <= n)%nat -> M <= INR n * eps n) -> divergent eps ->
  forall b delta, 0 < delta -> exists n0, forall n, (n0 <= n)%nat ->
  for_runs4 kappa eps n (fun W E x => forall i j, (i < dim s)%nat -> (j < dim s)%nat ->
    let product := fun w => sum_upto (n - b) (fun k => x (b + k)%nat w i * x (b + k)%nat w j) / INR (n - b) in
    E (fun w => (product w - (mu i * mu j + T * B i j)) * (product w - (mu i * mu j + T * B i j))) <= delta).
Proof.
  intros kappa eps Ep Em Ev Eg Ed b delta Hdelta. destruct (C94_average kappa Ep Ev Ed) as (K & HK & H). destruct (@small_bound K delta HK Hdelta) as (q & Hq & Hs'). destruct (Eg (2 * / q)) as [n1 Hn1].
  assert (Ev' : vanishing (fun j => eps (b + j)%nat)) by (intros p Hp'; destruct (Ev p Hp') as [n0 Hn0]; exists n0; intros n Hn; apply Hn0; lia).
  assert (Dv : divergent (fun _ => 1)) by (intros M; destruct (INR_unbounded M) as [n0 Hn0]; exists n0; intros n Hn; rewrite sum_const, Rmult_1_r; apply le_INR in Hn; lra).
  destruct (@cesaro (fun j => eps (b + j)%nat) (fun _ => 1) (fun k => Rlt_le _ _ (Ep _)) Ev' ltac:(intros; lra) Dv q Hq) as [n2 Hn2].
  exists (2 * b + n1 + n2 + 2)%nat. intros n Hn. apply (@plain_bound kappa K eps b n delta Ep Em ltac:(lia) H). assert (Pq : 0 < / q) by (now apply Rinv_0_lt_compat). assert (PI : 0 < INR (n - b)) by (apply lt_0_INR; lia). assert (Pi : 0 < / INR (n - b)) by (now apply Rinv_0_lt_compat).
  apply Hs'; split.
  - apply Rmult_le_pos; [left; apply Rinv_0_lt_compat, Ep|lra].
  - unfold Rdiv. rewrite <- Rinv_mult, <- (Rinv_inv q). apply Rinv_le_contravar; [exact Pq|].
    specialize (Hn1 (n - 1)%nat ltac:(lia)). assert (L : INR (n - 1) <= 2 * INR (n - b)) by (change 2 with (INR 2); rewrite <- mult_INR; apply le_INR; lia).
    pose proof (Ep (n - 1)%nat) as P1. apply (Rmult_le_compat_r (eps (n - 1)%nat)) in L; [|lra]. lra.
  - apply Rmult_le_pos; [apply sum_upto_nonneg; intros; left; apply Ep|lra].
  - specialize (Hn2 (n - b)%nat ltac:(lia)). rewrite sum_const, Rmult_1_r in Hn2. rewrite (@sum_upto_ext (n - b) (fun k => 1 * eps (b + k)%nat) (fun j => eps (b + j)%nat)) in Hn2 by (intros; ring). apply (Rmult_le_compat_r (/ INR (n - b))) in Hn2; [|lra]. rewrite Rmult_assoc, Rinv_r, Rmult_1_r in Hn2 by lra. exact Hn2.
Qed.
(** the step sizes of scheduler.polynomial_step_size (C28) with 0 < gamma < 1 *)
Theorem C94_polynomial : forall kappa a b g, 0 < a -> 0 < b -> 0 < g < 1 -> forall eps, (forall n, eps n = a * Rpower (b + INR n) (- g)) -> forall burn_in delta, 0 < delta -> exists n0, forall n, (n0 <= n)%nat ->
  for_runs4 kappa eps n (fun W E x => forall i j, (i < dim s)%nat -> (j < dim s)%nat ->
    let product := fun w => sum_upto (n - burn_in) (fun k => x (burn_in + k)%nat w i * x (burn_in + k)%nat w j) / INR (n - burn_in) in
    E (fun w => (product w - (mu i * mu j + T * B i j)) * (product w - (mu i * mu j + T * B i j))) <= delta).
Proof.
  intros kappa a b g Ha Hb Hg eps Heps burn_in delta Hdelta. apply C94_plain_average; auto.
  - intros n. rewrite Heps. now apply poly_pos.
  - intros n. rewrite !Heps. apply poly_decreasing; lra.
  - intros d' Hd'. destruct (@poly_vanishing a b g Ha Hb ltac:(lra) d' Hd') as [n0 H]. exists n0. intros n Hn. rewrite Heps. now apply H.
  - intros M. destruct (@power_growth a b g Ha Hb Hg M) as [n0 H]. exists n0. intros n Hn. rewrite Heps. now apply H.
  - intros M. destruct (@poly_divergent a b g Ha Hb ltac:(lra) M) as [n0 H]. exists n0. intros n Hn. rewrite (@sum_upto_ext n eps (fun n => a * Rpower (b + INR n) (- g))) by (intros; apply Heps). now apply H.
Qed.
(** a small constant step size e: the mean square error of the plain averages is at most K ((1 / (n e))^2 + 1 / (n e) + e^2), with the same K for all n and all e below a threshold: the bias is of the order of e *)
Theorem C94_constant_step : forall kappa, exists e1 K, 0 < e1 /\ 0 <= K /\ forall e, 0 < e <= e1 -> forall n, (0 < n)%nat ->
  for_runs4 kappa (fun _ => e) n (fun W E x => forall i j, (i < dim s)%nat -> (j < dim s)%nat ->
    let product := fun w => sum_upto n (fun k => x k w i * x k w j) / INR n in let u := / (INR n * e) in
    E (fun w => (product w - (mu i * mu j + T * B i j)) * (product w - (mu i * mu j + T * B i j))) <= K * (u * u + u + e * e)).
Proof.
  intros kappa. pose proof Hpd as (_ & Pl & _). assert (PH : 0 <= hbound) by (apply Rmult_le_pos; [apply pos_INR|apply error_bound_nonneg]).
  destruct (@small_steps s obs Tp data N mb b0 H0 A B mu lam Hpd T x0 HT) as (e1 & Z & Pe1 & PZ & HZ). destruct (small_coef PH) as (e2 & Pe2 & H2). set (e0 := Rmin e1 e2). assert (Pe0 : 0 < e0) by (now apply Rmin_glb_lt).
  set (f := force4 (dim s) A lam T hbound (moment_bound Z) e0 kappa). set (G := start * start + Rabs f / lam). assert (Pil : 0 < / lam) by (now apply Rinv_0_lt_compat). assert (P1 : 0 <= Rabs f / lam) by (apply Rmult_le_pos; [apply Rabs_pos|lra]). assert (P2 : 0 <= start * start) by apply Rle_0_sqr.
  assert (PG : 0 <= G) by (unfold G; lra). assert (Hf : f <= lam * G). { apply Rle_trans with (lam * (Rabs f / lam)); [replace (lam * (Rabs f / lam)) with (Rabs f) by (field; lra); apply Rle_abs|]. apply Rmult_le_compat_l; [lra|unfold G; lra]. }
  destruct (@second_core e0 Z kappa G (Rlt_le _ _ Pe0) PZ) as (K & HK & H). exists e0, K. split; [exact Pe0|]. split; [exact HK|]. intros e [He1 He2] n Hn.
  assert (M1 : e <= e1) by (eapply Rle_trans; [exact He2|apply Rmin_l]). assert (M2 : e <= e2) by (eapply Rle_trans; [exact He2|apply Rmin_r]).
  assert (HG : forall k, majorant (fun _ => e) hbound f (start * start) k <= G).
  { induction k as [|k IH]; [cbn [majorant]; unfold G; lra|]. cbn [majorant]. apply majorant_step; auto; [lra|]. apply H2. lra. }
  pose proof (@plain_bound kappa K (fun _ => e) 0 n (K * (/ (INR n * e) * / (INR n * e) + / (INR n * e) + e * e)) ltac:(intros; lra) ltac:(intros; lra) Hn (H (fun _ => e) ltac:(intros; lra) (HZ (fun _ => e) ltac:(intros; lra)) HG)) as F. rewrite Nat.sub_0_r in F.
  assert (Hcond : let rho := / e / INR n in let beta := sum_upto n (fun _ => e) / INR n in K * (rho * rho + rho + beta * beta) <= K * (/ (INR n * e) * / (INR n * e) + / (INR n * e) + e * e)).
  { intros rho beta. assert (PI : 0 < INR n) by (now apply lt_0_INR). replace rho with (/ (INR n * e)) by (unfold rho; field; lra). replace beta with e by (unfold beta; rewrite sum_const; field; lra). right. reflexivity. }
  specialize (F Hcond). intros W E normal Data get_data d0 idx Hnorm Hidx Hbat HI Hz4 i j Hi Hjd product u. exact (F W E normal Data get_data d0 idx Hnorm Hidx Hbat HI Hz4 i j Hi Hjd).
Qed.
End C94.
(** two observations, every number of steps, two coins per step: the averages of the squares of the samples converge to the second moment of the posterior *)
Example C94_nonvacuous : let s := Leaf (mkArr [] [0]) in let data := [("y"%string, [20%nat; 21%nat])] in let pot := potential_function ex_prior ex_lik true 1 in
  let get_data := fun w n => (Datatypes.S n, batch_at data (coin_idx n w)) in
  forall delta, 0 < delta -> exists n0, forall n, (n0 <= n)%nat ->
    let x := fun k w => el (l_pos (sgld_state (coin_normal w) (get_data w) (user_value true pot 2) (user_likelihoods true pot 2) (user_model true pot 2) (user_grad true pot 2 (derive_grad s))
      (fun n => 0.5 * Rpower (1 + INR n) (- (0.33))) 1 (lv_init (Leaf (mkArr [] [7])) (Some (PRNGKey 0)) None 0%nat (Leaf (mkArr [] [1]))) k)) 0 in
    let square := fun w => sum_upto (n - 1) (fun j => x (1 + j)%nat w * x (1 + j)%nat w) / INR (n - 1) in
    coins n (fun w => (square w - (41 / 3 * (41 / 3) + 1 * (1 / 3))) * (square w - (41 / 3 * (41 / 3) + 1 * (1 / 3)))) <= delta.
Proof.
  intros s data pot get_data delta Hdelta.
  assert (Hs : wfv s) by (constructor; [reflexivity|constructor]).
  assert (D : dim s = 1%nat) by reflexivity.
  assert (Q : forall y : R, quadratic s (fun x => - (y - el x 0) * (y - el x 0) / 2) (- y * y / 2) (fun _ => y) (fun _ _ => 1)) by (intros y; split; [reflexivity|]; intros x _; rewrite D; unfold sum_upto; cbn; field).
  destruct (@C94_polynomial s Hs nat ex_prior ex_lik true 1 PMap pot eq_refl ex_l) with (jgrad := derive_grad s) (kappa := 1) (data := data) (N := 2%nat) (mb := 1%nat)
    (c0 := fun (_ : option vtree) r => - ex_obs r * ex_obs r / 2) (b0 := fun r (_ : nat) => ex_obs r) (H0 := fun (_ : orow nat) (_ _ : nat) => 1) (cp := 0) (bp := fun _ : nat => 0) (Hp := fun _ _ : nat => 1)
    (A := fun _ _ : nat => 3) (B := fun _ _ : nat => 1 / 3) (mu := fun _ : nat => 41 / 3) (lam := 3) (T := 1) (x0 := Leaf (mkArr [] [7])) (model0 := Leaf (mkArr [] [1])) (key0 := PRNGKey 0)
    (eps := fun n => 0.5 * Rpower (1 + INR n) (- (0.33))) (a := 0.5) (b := 1) (g := 0.33) (burn_in := 1%nat) (delta := delta) as (n0 & H); try lra; try lia; auto.
  { intros st x r. reflexivity. }
  { intros _ m x r. exists (ex_double m). split; [reflexivity|]. destruct m; reflexivity. }
  { apply derive_grad_exact. exact Hs. }
  { discriminate. }
  { intros ka [<-|[]]. reflexivity. }
  { intros st k _. apply Q. }
  { destruct (Q 0) as [Q1 Q2]. split; [exact Q1|]. intros x Hx. unfold ex_prior. specialize (Q2 x Hx). cbv beta in Q2. transitivity (- (0 - el x 0) * (0 - el x 0) / 2); [field|]. rewrite Q2. f_equal. f_equal. field. }
  { intros i j _ _. unfold sum_upto. cbn. field. }
  { split; [auto|]. split; [lra|]. intros v. rewrite D. unfold norm2, matvec, sum_upto. cbn. right. ring. }
  { intros i j Hi Hj. rewrite D in *. assert (i = O) by lia. assert (j = O) by lia. subst. unfold sum_upto, unit_matrix. cbn. lra. }
  { intros i _. rewrite D. unfold matvec, sum_upto. cbn. field. }
  { split; [repeat constructor|split; reflexivity]. }
  exists n0. intros n Hn x square.
  apply (H n Hn (list (bool * bool)) (coins n) coin_normal nat get_data (fun _ => 0%nat) coin_idx) with (i := 0%nat) (j := 0%nat).
  - intros w k sh. apply repeat_length.
  - intros k w. unfold coin_idx. split; [reflexivity|]. constructor; [destruct (fst _); lia|constructor].
  - intros k w. unfold batch_no. rewrite (@drawn_count nat (fun n => n) _ (get_data w) 0%nat k) by reflexivity. reflexivity.
  - apply coin_independent.
  - intros k i _ Hi. rewrite D in Hi. assert (i = O) by lia. subst i. cbv zeta. rewrite (@coins_ext n _ (fun _ => 1)); [rewrite coins_one; lra|]. intros w _. unfold s. rewrite coin_noise. unfold sign. destruct (snd _); ring.
  - rewrite D. lia.
  - rewrite D. lia.
Qed.
Print Assumptions C94_average. Print Assumptions C94_weighted_average. Print Assumptions C94_plain_average. Print Assumptions C94_polynomial. Print Assumptions C94_constant_step. Print Assumptions C94_nonvacuous.
