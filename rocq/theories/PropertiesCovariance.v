(** C95: the covariance of the samples of SGLD as a user computes it, for bounded step sizes and through alias.sgld. *)
From Coq Require Import Reals Lra Psatz ZArith String.
From Verif Require Import Base ListUtil NumpyLoader LoaderSpec NumpyLoaderProofs NumpyLoaderApi Requests Hub HubSpec HubProofs HubFinal PropertiesHub GenInstance DeviceData DeviceDataProofs.
From Verif Require Import Pytree PytreeSpec PytreeProofs Io IoSpec IoProofs TreeUtil TreeUtilSpec TreeUtilProofs Integrator IntegratorSpec IntegratorBasics PropertiesIntegrator
  Xreal Scheduler SchedulerSpec PropertiesScheduler Solver SolverSpec Adaption Alias PropertiesAlias AliasSgld AliasRun AliasHmc AliasData.
From Verif Require Import DataCore DataSpec Potential PotentialSpec PotentialProofs UnbiasedProofs VarianceProofs PropertiesPotential LeapfrogVolume EndToEndSpec EndToEndProofs PropertiesEndToEnd PropertiesDeviceAlias.
From Verif Require Import ExpectSpec ExpectProofs GaussianLimit GaussianMatrix GaussianSpec GaussianProofs PropertiesGaussian SghmcGaussian MinibatchSpec MinibatchProofs MinibatchVariance PropertiesMinibatchGaussian StabilityProofs AverageProofs PropertiesAverages AverageAlias PropertiesAliasAverage SecondMomentProofs PropertiesSecondMoment.
Open Scope R_scope.
Set Implicit Arguments.

(** the average, and the average of the products of the deviations from the averages, of m numbers *)
(** auxiliary definition of a statement or a proof; models no code of /repo *)
Definition sample_mean (m : nat) (u : nat -> R) : R := sum_upto m u / INR m.
(** numpy.cov(samples, bias=True) *)
(** auxiliary definition of a statement or a proof; models no code of /repo *)
Definition sample_covariance (m : nat) (u v : nat -> R) : R := sum_upto m (fun k => (u k - sample_mean m u) * (v k - sample_mean m v)) / INR m.
Lemma sample_covariance_products m u v : (0 < m)%nat -> sample_covariance m u v = sample_mean m (fun k => u k * v k) - sample_mean m u * sample_mean m v.
Proof.
  intros Hm. assert (P : 0 < INR m) by (now apply lt_0_INR). unfold sample_covariance. set (a := sample_mean m u). set (b := sample_mean m v).
  rewrite (@sum_upto_ext m _ (fun k => u k * v k + (- b * u k + (- a * v k + a * b)))) by (intros; ring). rewrite !sum_upto_plus, !sum_upto_scale, sum_const. unfold a, b, sample_mean. field. lra.
Qed.
(** the bound v = u^2 + u + f^2 with u = 1 / (number of samples * smallest step size) and f the largest step size *)
(** auxiliary definition of a statement or a proof; models no code of /repo *)
Definition error_scale (m lo f : R) : R := / (m * lo) * / (m * lo) + / (m * lo) + f * f.


Lemma sample_mean_ext m u v : (forall k, (k < m)%nat -> u k = v k) -> sample_mean m u = sample_mean m v.
Proof. intros H. unfold sample_mean. f_equal. now apply sum_upto_ext. Qed.
Lemma sample_covariance_ext m u u' v v' : (forall k, (k < m)%nat -> u k = u' k) -> (forall k, (k < m)%nat -> v k = v' k) -> sample_covariance m u v = sample_covariance m u' v'.
Proof. intros H1 H2. unfold sample_covariance. rewrite (@sample_mean_ext m u u' H1), (@sample_mean_ext m v v' H2). f_equal. apply sum_upto_ext. intros k Hk. now rewrite H1, H2. Qed.
Section C95.
Variable s : vtree.
Hypothesis Hs : wfv s.
Variable obs : Type.
(** the setting of C87: a user's model with Gaussian likelihood and prior *)
Variables (prior : vtree -> R) (likelihood : lik_fn obs vtree vtree) (has_state : bool) (Tp : R) (strategy : pot_strategy).
Variable pot : nat -> vtree -> mbatch obs -> option vtree -> option (list bool) -> res (R * list R * option vtree).
Hypothesis Hpot : minibatch_potential prior likelihood has_state Tp strategy = Ok pot.
Variable l : option vtree -> vtree -> orow obs -> R.
Hypothesis Hl : evaluates_with likelihood l.
Hypothesis Hk : keeps_state likelihood has_state.
Variable jgrad : (vtree -> R) -> vtree -> vtree.
Hypothesis Hj : exact_gradients s jgrad.
Hypothesis HTp : 0 < Tp.
Variables (data : list (string * list obs)) (N mb : nat).
Hypothesis Hd : data <> [].
Hypothesis HN : forall ka, In ka data -> length (snd ka) = N.
Hypothesis HN0 : (0 < N)%nat.
Hypothesis Hmb : (0 < mb)%nat.
Hypothesis Hone : is_batched likelihood = true -> mb <> 1%nat.
Variables (c0 : option vtree -> orow obs -> R) (b0 : orow obs -> nat -> R) (H0 : orow obs -> nat -> nat -> R) (cp : R) (bp : nat -> R) (Hp : nat -> nat -> R).
Hypothesis Hlq : forall st k, (k < N)%nat -> quadratic s (fun x => l st x (row data k)) (c0 st (row data k)) (b0 (row data k)) (H0 (row data k)).
Hypothesis Hpq : quadratic s prior cp bp Hp.
(** precision matrix A, covariance matrix B and mean mu of the posterior *)
Variables (A B : nat -> nat -> R) (mu : nat -> R) (lam : R).
Hypothesis HA : forall i j, (i < dim s)%nat -> (j < dim s)%nat -> A i j = (sum_upto N (fun k => H0 (row data k) i j) + Hp i j) / Tp.
Hypothesis Hpd : positive_definite (dim s) A lam.
Hypothesis HB : inverse_matrix (dim s) A B.
Hypothesis Hmu : forall i, (i < dim s)%nat -> matvec (dim s) A mu i = (sum_upto N (fun k => b0 (row data k) i) + bp i) / Tp.
Variables (T : R) (x0 model0 : vtree) (key0 : key).
Hypothesis HT : 0 <= T.
Hypothesis Hx : like s x0.
Notation uvalue := (user_value has_state pot N).
Notation ulikelihoods := (user_likelihoods has_state pot N).
Notation umodel := (user_model has_state pot N).
Notation ugrad := (user_grad has_state pot N jgrad).
Notation ebound := (error_bound s Tp data N mb b0 H0 mu).
Notation cf0 := (coef0 s Tp data N mb b0 H0 mu).
Notation cf1 := (coef1 Tp data N mb H0).


Notation runs := (@for_runs4 s obs has_state pot jgrad data N mb T x0 model0 key0).
Section Run.
Variables (eps : nat -> R) (n : nat) (W : Type) (E : (W -> R) -> R) (normal : W -> key -> list nat -> list R) (Data : Type) (get_data : W -> Data -> Data * mbatch obs) (d0 : W -> Data) (idx : nat -> W -> list nat).
Hypothesis Hnorm : forall w, normal_ok (normal w).
Hypothesis Hidx : forall k w, length (idx k w) = mb /\ Forall (fun i => (i < N)%nat) (idx k w).
Hypothesis Hbat : forall k w, batch_no (get_data w) (d0 w) k = batch_at data (idx k w).
Notation zz := (fun k w => xi (normal w) (Sub (chain key0 k) 1) s).
Hypothesis HI : independent_run idx zz (dim s) E N mb n.
Notation x := (fun k w i => el (l_pos (sgld_state (normal w) (get_data w) uvalue ulikelihoods umodel ugrad eps T (lv_init x0 (Some key0) None (d0 w) model0) k)) i).
Lemma sample_known k i : (i < dim s)%nat -> known idx zz (dim s) k k (fun w => x k w i).
Proof.
  intros Hi. assert (Hin : forall k w, In (idx k w) (tuples mb N)) by (intros; apply tuples_spec; apply Hidx).
  destruct (@minibatch_run s Hs obs prior likelihood has_state Tp strategy pot Hpot l Hl Hk jgrad Hj HTp data N mb Hd HN HN0 Hmb Hone c0 b0 H0 cp bp Hp Hlq Hpq A mu HA Hmu T x0 model0 key0 Hx eps W E normal idx n Hnorm Hin HI) as (_ & Ky & _).
  apply (@known_ext _ idx zz (dim s) k k (fun w => dev sequence_source uvalue ulikelihoods umodel ugrad mu T x0 model0 key0 eps normal (fun w k => batch_at data (idx k w)) k w i + (fun _ => mu i) w)).
  - intros w. unfold dev, at_. match goal with |- el ?p i - mu i + mu i = el ?q i => replace q with p; [ring|] end. symmetry. apply sgld_sequence. intros k'. now rewrite Hbat.
  - apply known_plus; [now apply Ky|apply known_const].
Qed.
Lemma average_known b m (u : nat -> W -> R) : (b + m <= n)%nat -> (forall k, known idx zz (dim s) k k (u k)) -> known idx zz (dim s) n n (fun w => sample_mean m (fun k => u (b + k)%nat w)).
Proof.
  intros Hb Hu. apply (@known_ext _ idx zz (dim s) n n (fun w => / INR m * sum_upto m (fun k => u (b + k)%nat w))); [intros w; unfold sample_mean, Rdiv; ring|]. apply known_scale. apply (@known_sum W idx zz (dim s) n n m (fun k w => u (b + k)%nat w)). intros k Hk'. apply (@known_mono W idx zz (dim s) (b + k) (b + k)); try lia. apply Hu.
Qed.
(** a variable with a small mean square has a small expectation *)
Lemma small_mean X K q : known idx zz (dim s) n n X -> 0 < q -> E (fun w => X w * X w) <= K * (q * q) -> Rabs (E X) <= (K + 1) / 2 * q.
Proof.
  intros HX Hq HE. pose proof HI as (HE0 & HE1 & _). assert (Pq : 0 < / q) by (now apply Rinv_0_lt_compat).
  assert (B1 : forall sg, sg * sg = 1 -> sg * E X <= (K + 1) / 2 * q).
  { intros sg Hsg. rewrite <- (@E_scale W E HE0 sg X). eapply Rle_trans; [apply (@E_mono W idx zz (dim s) E N mb n HI (fun w => sg * X w) (fun w => (/ (2 * q)) * (X w * X w) + (fun _ => q / 2) w))|].
    - now apply known_scale.
    - apply known_plus; [now apply known_scale, known_mult|apply known_const].
    - intros w. assert (BS : 0 <= (sg * X w - q) * (sg * X w - q)) by apply Rle_0_sqr. replace ((sg * X w - q) * (sg * X w - q)) with (sg * sg * (X w * X w) - 2 * q * (sg * X w) + q * q) in BS by ring. rewrite Hsg in BS.
      apply (Rmult_le_reg_l (2 * q)); [lra|]. replace (2 * q * (/ (2 * q) * (X w * X w) + q / 2)) with (X w * X w + q * q) by (field; lra). lra.
    - rewrite (@E_plus W E HE0 (fun w => / (2 * q) * (X w * X w)) (fun _ => q / 2)), (@E_scale W E HE0 (/ (2 * q)) (fun w => X w * X w)). rewrite (@E_const W E (q / 2) HE0 HE1).
      apply (Rmult_le_compat_l (/ (2 * q))) in HE; [|left; apply Rinv_0_lt_compat; lra]. replace (/ (2 * q) * (K * (q * q))) with (K * q / 2) in HE by (field; lra). lra. }
  apply Rabs_le. pose proof (B1 1 ltac:(ring)). pose proof (B1 (-1) ltac:(ring)). lra.
Qed.
(** the expectation of the sample covariance, from the mean square errors of the averages *)
Lemma covariance_bias b m K v i j : (b + m <= n)%nat -> (0 < m)%nat -> (i < dim s)%nat -> (j < dim s)%nat -> 0 < v -> 0 <= K ->
  (forall p, (p < dim s)%nat -> E (fun w => (sample_mean m (fun k => x (b + k)%nat w p) - mu p) * (sample_mean m (fun k => x (b + k)%nat w p) - mu p)) <= K * v) ->
  E (fun w => (sample_mean m (fun k => x (b + k)%nat w i * x (b + k)%nat w j) - (mu i * mu j + T * B i j)) * (sample_mean m (fun k => x (b + k)%nat w i * x (b + k)%nat w j) - (mu i * mu j + T * B i j))) <= K * v ->
  Rabs (E (fun w => sample_covariance m (fun k => x (b + k)%nat w i) (fun k => x (b + k)%nat w j)) - T * B i j) <= (K + 1) * (1 + Rabs (mu i) + Rabs (mu j)) * (sqrt v + v).
Proof.
  intros Hbm Hm Hi Hjd Hv HK HM HP. pose proof HI as (HE0 & HE1 & _). set (q := sqrt v). assert (Pq : 0 < q) by (now apply sqrt_lt_R0). assert (Q2 : q * q = v) by (apply sqrt_sqrt; lra).
  set (a := fun p w => sample_mean m (fun k => x (b + k)%nat w p) - mu p). set (c := fun w => sample_mean m (fun k => x (b + k)%nat w i * x (b + k)%nat w j) - (mu i * mu j + T * B i j)).
  assert (Ka : forall p, (p < dim s)%nat -> known idx zz (dim s) n n (a p)).
  { intros p Hp'. apply (@known_ext _ idx zz (dim s) n n (fun w => sample_mean m (fun k => x (b + k)%nat w p) + (fun _ => - mu p) w)); [intros w; unfold a; ring|]. apply known_plus; [|apply known_const]. apply (@average_known b m (fun k w => x k w p)); [exact Hbm|]. intros k. now apply sample_known. }
  assert (Kc : known idx zz (dim s) n n c).
  { apply (@known_ext _ idx zz (dim s) n n (fun w => sample_mean m (fun k => x (b + k)%nat w i * x (b + k)%nat w j) + (fun _ => - (mu i * mu j + T * B i j)) w)); [intros w; unfold c; ring|]. apply known_plus; [|apply known_const]. apply (@average_known b m (fun k w => x k w i * x k w j)); [exact Hbm|]. intros k. apply known_mult; now apply sample_known. }
  assert (EC : E (fun w => sample_covariance m (fun k => x (b + k)%nat w i) (fun k => x (b + k)%nat w j)) = E c + ((-1) * E (fun w => a i w * a j w) + ((- mu i) * E (a j) + ((- mu j) * E (a i) + T * B i j)))).
  { rewrite (@E_ext W E HE0 _ (fun w => c w + ((-1) * (a i w * a j w) + ((- mu i) * a j w + ((- mu j) * a i w + T * B i j))))) by (intros w; rewrite sample_covariance_products by exact Hm; unfold a, c; ring).
    rewrite (@E_plus W E HE0 c), (@E_plus W E HE0 (fun w => (-1) * (a i w * a j w))), (@E_plus W E HE0 (fun w => (- mu i) * a j w)), (@E_plus W E HE0 (fun w => (- mu j) * a i w)).
    rewrite (@E_scale W E HE0 (-1) (fun w => a i w * a j w)), (@E_scale W E HE0 (- mu i) (a j)), (@E_scale W E HE0 (- mu j) (a i)), (@E_const W E (T * B i j) HE0 HE1). reflexivity. }
  rewrite EC. pose proof (@small_mean c K q Kc Pq ltac:(rewrite Q2; exact HP)) as B1. pose proof (@small_mean (a i) K q (Ka i Hi) Pq ltac:(rewrite Q2; exact (HM i Hi))) as B2. pose proof (@small_mean (a j) K q (Ka j Hjd) Pq ltac:(rewrite Q2; exact (HM j Hjd))) as B3.
  assert (B4 : Rabs (E (fun w => a i w * a j w)) <= K * v).
  { assert (BB : forall sg, sg * sg = 1 -> sg * E (fun w => a i w * a j w) <= K * v).
    { intros sg Hsg. rewrite <- (@E_scale W E HE0 sg (fun w => a i w * a j w)). eapply Rle_trans; [apply (@E_mono W idx zz (dim s) E N mb n HI _ (fun w => (/ 2) * (a i w * a i w) + (/ 2) * (a j w * a j w)))|].
      - apply known_scale, known_mult; now apply Ka.
      - apply known_plus; apply known_scale, known_mult; now apply Ka.
      - intros w. assert (BS : 0 <= (sg * a i w - a j w) * (sg * a i w - a j w)) by apply Rle_0_sqr. replace ((sg * a i w - a j w) * (sg * a i w - a j w)) with (sg * sg * (a i w * a i w) - 2 * (sg * (a i w * a j w)) + a j w * a j w) in BS by ring. rewrite Hsg in BS. lra.
      - rewrite (@E_plus W E HE0 (fun w => / 2 * (a i w * a i w))), (@E_scale W E HE0 (/ 2) (fun w => a i w * a i w)), (@E_scale W E HE0 (/ 2) (fun w => a j w * a j w)). pose proof (HM i Hi) as M1. pose proof (HM j Hjd) as M2. change (E (fun w => a i w * a i w) <= K * v) in M1. change (E (fun w => a j w * a j w) <= K * v) in M2. lra. }
    apply Rabs_le. pose proof (BB 1 ltac:(ring)). pose proof (BB (-1) ltac:(ring)). lra. }
  replace (E c + (-1 * E (fun w => a i w * a j w) + (- mu i * E (a j) + (- mu j * E (a i) + T * B i j))) - T * B i j) with (E c + (- E (fun w => a i w * a j w) + (- (mu i * E (a j)) + - (mu j * E (a i))))) by ring.
  eapply Rle_trans; [apply Rabs_triang|]. eapply Rle_trans; [apply Rplus_le_compat_l, Rabs_triang|]. eapply Rle_trans; [apply Rplus_le_compat_l, Rplus_le_compat_l, Rabs_triang|]. rewrite !Rabs_Ropp, !Rabs_mult.
  pose proof (Rabs_pos (mu i)) as P1. pose proof (Rabs_pos (mu j)) as P2. apply (Rmult_le_compat_l (Rabs (mu i))) in B3; [|exact P1]. apply (Rmult_le_compat_l (Rabs (mu j))) in B2; [|exact P2].
  set (mi := Rabs (mu i)) in *. set (mj := Rabs (mu j)) in *. assert (0 <= K * q) by (apply Rmult_le_pos; lra). assert (0 <= K * v) by (apply Rmult_le_pos; lra).
  assert (0 <= mi * (K * q)) by (now apply Rmult_le_pos). assert (0 <= mj * (K * q)) by (now apply Rmult_le_pos). assert (0 <= mi * (K * v)) by (now apply Rmult_le_pos). assert (0 <= mj * (K * v)) by (now apply Rmult_le_pos).
  assert (0 <= mi * q) by (apply Rmult_le_pos; lra). assert (0 <= mj * q) by (apply Rmult_le_pos; lra). assert (0 <= mi * v) by (apply Rmult_le_pos; lra). assert (0 <= mj * v) by (apply Rmult_le_pos; lra). lra.
Qed.
End Run.

(** the weights 1 / eps k after the burn in *)
Lemma plain_weights eps b n : (forall k, 0 < eps k) -> (forall k, eps (Datatypes.S k) <= eps k) -> (b < n)%nat -> exists r, (forall k, 0 <= r k) /\ (forall k, r k <= r (Datatypes.S k)) /\
  (forall u : nat -> R, sum_upto n (fun k => r k * eps k * u k) = sum_upto (n - b) (fun j => u (b + j)%nat)) /\ r (n - 1)%nat = / eps (n - 1)%nat.
Proof.
  intros Ep Em Hbn. set (r := fun k => if (b <=? k)%nat then / eps k else 0). assert (Pr : forall k, 0 < / eps k) by (intros; apply Rinv_0_lt_compat, Ep). exists r. split; [|split; [|split]].
  - intros k; unfold r; destruct (b <=? k)%nat; [left; apply Pr|lra].
  - intros k. unfold r. destruct (b <=? k)%nat eqn:E1.
    + apply Nat.leb_le in E1. rewrite (proj2 (Nat.leb_le b (Datatypes.S k))) by lia. apply Rinv_le_contravar; [apply Ep|apply Em].
    + destruct (b <=? Datatypes.S k)%nat; [left; apply Pr|lra].
  - intros u. replace n with (b + (n - b))%nat at 1 by lia. rewrite sum_upto_app. rewrite (@sum_upto_zero b) by (intros k Hkb; unfold r; rewrite (proj2 (Nat.leb_gt b k)) by lia; ring). rewrite Rplus_0_l. apply sum_upto_ext. intros q _. unfold r. rewrite (proj2 (Nat.leb_le b (b + q))) by lia. pose proof (Ep (b + q)%nat). field. lra.
  - unfold r. now rewrite (proj2 (Nat.leb_le b (n - 1))) by lia.
Qed.
(** nonincreasing step sizes below a threshold: the mean square errors of the average and of the average of the products of the samples b, ..., n - 1, and the bias of their covariance;
    K does not depend on the step sizes, b and n *)
Theorem C95_bounded_steps : forall kappa, exists e1 K, 0 < e1 /\ 0 <= K /\ forall eps, (forall k, 0 < eps k <= e1) -> (forall k, eps (Datatypes.S k) <= eps k) -> forall b n, (b < n)%nat ->
  runs kappa eps n (fun W E x => forall i j, (i < dim s)%nat -> (j < dim s)%nat ->
    let m := (n - b)%nat in let v := error_scale (INR m) (eps (n - 1)%nat) (eps b) in
    let mean := fun w => sample_mean m (fun k => x (b + k)%nat w i) in
    let product := fun w => sample_mean m (fun k => x (b + k)%nat w i * x (b + k)%nat w j) in
    let covariance := fun w => sample_covariance m (fun k => x (b + k)%nat w i) (fun k => x (b + k)%nat w j) in
    E (fun w => (mean w - mu i) * (mean w - mu i)) <= K * v /\
    E (fun w => (product w - (mu i * mu j + T * B i j)) * (product w - (mu i * mu j + T * B i j))) <= K * v /\
    Rabs (E covariance - T * B i j) <= K * (sqrt v + v)).
Proof.
  intros kappa. pose proof Hpd as (_ & Pl & _). set (hb := @hbound s obs Tp data N mb b0 H0 mu). assert (PH : 0 <= hb) by (apply Rmult_le_pos; [apply pos_INR|apply error_bound_nonneg]).
  destruct (@small_steps s obs Tp data N mb b0 H0 A B mu lam Hpd T x0 HT) as (e1 & Z & Pe1 & PZ & HZ). destruct (@small_coef s A lam Hpd hb PH) as (e2 & Pe2 & H2). set (e0 := Rmin e1 e2). assert (Pe0 : 0 < e0) by (now apply Rmin_glb_lt).
  set (f := force4 (dim s) A lam T hb (@moment_bound s B T Z) e0 kappa). set (st := norm2 (dim s) (fun i => el x0 i - mu i)). set (G := st * st + Rabs f / lam). assert (Pil : 0 < / lam) by (now apply Rinv_0_lt_compat). assert (P1 : 0 <= Rabs f / lam) by (apply Rmult_le_pos; [apply Rabs_pos|lra]). assert (P2 : 0 <= st * st) by apply Rle_0_sqr.
  assert (PG : 0 <= G) by (unfold G; lra). assert (Hf : f <= lam * G). { apply Rle_trans with (lam * (Rabs f / lam)); [replace (lam * (Rabs f / lam)) with (Rabs f) by (field; lra); apply Rle_abs|]. apply Rmult_le_compat_l; [lra|unfold G; lra]. }
  destruct (@second_core s Hs obs prior likelihood has_state Tp strategy pot Hpot l Hl Hk jgrad Hj HTp data N mb Hd HN HN0 Hmb Hone c0 b0 H0 cp bp Hp Hlq Hpq A B mu lam HA Hpd HB Hmu T x0 model0 key0 HT Hx e0 Z kappa G (Rlt_le _ _ Pe0) PZ) as (K2 & PK2 & HP).
  destruct (@average_core s Hs obs prior likelihood has_state Tp strategy pot Hpot l Hl Hk jgrad Hj HTp data N mb Hd HN HN0 Hmb Hone c0 b0 H0 cp bp Hp Hlq Hpq A B mu lam HA Hpd HB Hmu T x0 model0 key0 HT Hx e0 Z (Rlt_le _ _ Pe0) PZ) as (K1 & PK1 & HM).
  set (mm := sum_upto (dim s) (fun i => Rabs (mu i))). assert (Pmm : 0 <= mm) by (apply sum_upto_nonneg; intros; apply Rabs_pos). set (K3 := K1 + K2).
  exists e0, ((K3 + 1) * (1 + 2 * mm)). assert (PK3 : 0 <= K3) by (unfold K3; lra). assert (PKm : 0 <= (K3 + 1) * mm) by (apply Rmult_le_pos; lra). split; [exact Pe0|]. split; [lra|].
  intros eps He Em b n Hbn W E normal Data get_data d0 idx Hnorm Hidx Hbat HI Hz4 i j Hi Hjd m v mean product covariance.
  assert (M1 : forall k, 0 < eps k <= e1) by (intros k; destruct (He k) as [Q1 Q2]; split; [exact Q1|]; eapply Rle_trans; [exact Q2|apply Rmin_l]). assert (M2 : forall k, 0 <= eps k <= e2) by (intros k; destruct (He k) as [Q1 Q2]; split; [lra|]; eapply Rle_trans; [exact Q2|apply Rmin_r]).
  assert (HG : forall k, @majorant s A lam eps hb f (st * st) k <= G).
  { induction k as [|k IH]; [cbn [majorant]; unfold G; lra|]. cbn [majorant]. apply majorant_step; auto; [apply M2|]. apply H2. apply M2. }
  destruct (@plain_weights eps b n (fun k => proj1 (He k)) Em Hbn) as (r & R0 & R1 & SW & RL).
  assert (SA : sum_upto n (fun k => r k * eps k) = INR m) by (rewrite (@sum_upto_ext n _ (fun k => r k * eps k * 1)) by (intros; ring); rewrite (SW (fun _ => 1)), sum_const; unfold m; ring).
  assert (SB : sum_upto n (fun k => r k * (eps k * eps k)) = sum_upto m (fun k => eps (b + k)%nat)) by (rewrite (@sum_upto_ext n _ (fun k => r k * eps k * eps k)) by (intros; ring); apply (SW eps)).
  assert (PI : 0 < INR m) by (apply lt_0_INR; unfold m; lia). assert (PIi : 0 < / INR m) by (now apply Rinv_0_lt_compat).
  assert (Pa : 0 < sum_upto n (fun k => r k * eps k)) by (rewrite SA; exact PI). pose proof (proj1 (He (n - 1)%nat)) as Pl1. pose proof (proj1 (He b)) as Pb.
  set (beta := sum_upto m (fun k => eps (b + k)%nat) / INR m). set (u := / (INR m * eps (n - 1)%nat)). assert (Pu : 0 < u) by (apply Rinv_0_lt_compat; now apply Rmult_lt_0_compat).
  assert (Bb : 0 <= beta <= eps b).
  { unfold beta. split; [apply Rmult_le_pos; [apply sum_upto_nonneg; intros; left; apply He|lra]|]. apply Rmult_le_reg_r with (INR m); [exact PI|]. unfold Rdiv. rewrite Rmult_assoc, Rinv_l, Rmult_1_r by lra. rewrite (Rmult_comm (eps b)), <- sum_const. apply sum_upto_le. intros k _. induction k as [|k IH]; [rewrite Nat.add_0_r; lra|]. eapply Rle_trans; [|exact IH]. rewrite Nat.add_succ_r. apply Em. }
  assert (Bv : u * u + u + beta * beta <= v). { unfold v, error_scale. fold u. apply Rplus_le_compat_l. apply Rmult_le_compat; lra. }
  assert (Pbb : 0 <= beta * beta) by apply Rle_0_sqr. assert (Puu : 0 < u * u) by (now apply Rmult_lt_0_compat). assert (Pv : 0 < v) by lra.
  assert (Eu : r (n - 1)%nat / INR m = u) by (rewrite RL; unfold u; field; lra).
  assert (FM : forall p, (p < dim s)%nat -> let mean := fun w => sample_mean m (fun k => el (l_pos (sgld_state (normal w) (get_data w) uvalue ulikelihoods umodel ugrad eps T (lv_init x0 (Some key0) None (d0 w) model0) (b + k)%nat)) p) in E (fun w => (mean w - mu p) * (mean w - mu p)) <= K3 * v).
  { intros p Hp' mean'. pose proof (HM eps He (HZ eps M1) r R0 R1 n Pa W E normal Data get_data d0 idx Hnorm Hidx Hbat HI p Hp') as F. cbv zeta beta in F. rewrite SA, Eu in F. pose proof HI as (HE & _).
    match type of F with E ?g <= _ => assert (EG : E g = E (fun w => (mean' w - mu p) * (mean' w - mu p))) end.
    { apply (E_ext HE). intros w. unfold mean', sample_mean. rewrite (SW (fun k => el (l_pos (sgld_state (normal w) (get_data w) uvalue ulikelihoods umodel ugrad eps T (lv_init x0 (Some key0) None (d0 w) model0) k)) p)). reflexivity. }
    rewrite EG in F. eapply Rle_trans; [exact F|]. apply Rmult_le_compat; try lra. unfold K3. lra. }
  assert (FP : E (fun w => (product w - (mu i * mu j + T * B i j)) * (product w - (mu i * mu j + T * B i j))) <= K3 * v).
  { pose proof (HP eps He (HZ eps M1) HG r R0 R1 n Pa W E normal Data get_data d0 idx Hnorm Hidx Hbat HI Hz4 i j Hi Hjd) as [_ F]. cbv zeta beta in F. rewrite SA, SB, Eu in F. fold beta in F. pose proof HI as (HE & _).
    match type of F with E ?g <= _ => assert (EG : E g = E (fun w => (product w - (mu i * mu j + T * B i j)) * (product w - (mu i * mu j + T * B i j)))) end.
    { apply (E_ext HE). intros w. unfold product, sample_mean. rewrite (SW (fun k => el (l_pos (sgld_state (normal w) (get_data w) uvalue ulikelihoods umodel ugrad eps T (lv_init x0 (Some key0) None (d0 w) model0) k)) i * el (l_pos (sgld_state (normal w) (get_data w) uvalue ulikelihoods umodel ugrad eps T (lv_init x0 (Some key0) None (d0 w) model0) k)) j)). reflexivity. }
    rewrite EG in F. eapply Rle_trans; [exact F|]. apply Rmult_le_compat; try lra. unfold K3. lra. }
  assert (LK : K3 * v <= (K3 + 1) * (1 + 2 * mm) * v) by (apply Rmult_le_compat_r; lra).
  split; [eapply Rle_trans; [apply (FM i Hi)|exact LK]|]. split; [eapply Rle_trans; [exact FP|exact LK]|].
  pose proof (@covariance_bias eps n W E normal Data get_data d0 idx Hnorm Hidx Hbat HI b m K3 v i j ltac:(unfold m; lia) ltac:(unfold m; lia) Hi Hjd Pv PK3 FM FP) as F.
  eapply Rle_trans; [exact F|]. assert (Psv : 0 <= sqrt v + v) by (pose proof (sqrt_pos v); lra). apply Rmult_le_compat_r; [exact Psv|]. apply Rmult_le_compat_l; [lra|].
  pose proof (@sum_upto_term (dim s) (fun i => Rabs (mu i)) i ltac:(intros; apply Rabs_pos) Hi) as T1. pose proof (@sum_upto_term (dim s) (fun i => Rabs (mu i)) j ltac:(intros; apply Rabs_pos) Hjd) as T2. cbv beta in T1, T2. fold mm in T1, T2. lra.
Qed.
End C95.

Section C95_alias.
Variable s : vtree.
Hypothesis Hs : wfv s.
Variable obs : Type.
(** the setting of C91: a user's model with Gaussian likelihood and prior *)
Variables (prior : vtree -> R) (likelihood : lik_fn obs vtree vtree) (has_state : bool) (Tp : R) (strategy : pot_strategy).
Variable pot : nat -> vtree -> mbatch obs -> option vtree -> option (list bool) -> res (R * list R * option vtree).
Hypothesis Hpot : minibatch_potential prior likelihood has_state Tp strategy = Ok pot.
Variable l : option vtree -> vtree -> orow obs -> R.
Hypothesis Hl : evaluates_with likelihood l.
Hypothesis Hk : keeps_state likelihood has_state.
Variable jgrad : (vtree -> R) -> vtree -> vtree.
Hypothesis Hj : exact_gradients s jgrad.
Hypothesis HTp : 0 < Tp.
Variables (data : list (string * list obs)) (N mb : nat).
Hypothesis Hd : data <> [].
Hypothesis HN : forall ka, In ka data -> length (snd ka) = N.
Hypothesis HN0 : (0 < N)%nat.
Hypothesis Hmb : (0 < mb)%nat.
Hypothesis Hone : is_batched likelihood = true -> mb <> 1%nat.
Variables (c0 : option vtree -> orow obs -> R) (b0 : orow obs -> nat -> R) (H0 : orow obs -> nat -> nat -> R) (cp : R) (bp : nat -> R) (Hp : nat -> nat -> R).
Hypothesis Hlq : forall st k, (k < N)%nat -> quadratic s (fun x => l st x (row data k)) (c0 st (row data k)) (b0 (row data k)) (H0 (row data k)).
Hypothesis Hpq : quadratic s prior cp bp Hp.
(** precision matrix A, covariance matrix B and mean mu of the posterior *)
Variables (A B : nat -> nat -> R) (mu : nat -> R) (lam : R).
Hypothesis HA : forall i j, (i < dim s)%nat -> (j < dim s)%nat -> A i j = (sum_upto N (fun k => H0 (row data k) i j) + Hp i j) / Tp.
Hypothesis Hpd : positive_definite (dim s) A lam.
Hypothesis HB : inverse_matrix (dim s) A B.
Hypothesis Hmu : forall i, (i < dim s)%nat -> matvec (dim s) A mu i = (sum_upto N (fun k => b0 (row data k) i) + bp i) / Tp.
Notation uvalue := (user_value has_state pot N).
Notation ulikelihoods := (user_likelihoods has_state pot N).
Notation umodel := (user_model has_state pot N).
Notation ugrad := (user_grad has_state pot N jgrad).
(** the initial sample of the chain and the initial state of the model *)
Variables (x0 model0 : vtree).
Hypothesis Hx : like s x0.
(** jax.random.choice of the thinning; zeros_like *)
Variables (Key : Type) (choice : Key -> list xr -> nat -> list nat) (tk : Key) (zl : arr -> arr).
Hypothesis Hc : choice_ok choice.

(** the answer of the run function of alias.sgld *)
Notation answer normal source a its h starts :=
  (snd (al_run choice tk a zl (sgld_solver normal source uvalue ulikelihoods umodel ugrad false) (fst (run (mstep zl) (mc_new false) h))
     (map (fun xd => sgld_init false 0 0 (snd xd) model0 (fst xd)) starts) its)).
(** With step sizes falling from f to l' <= f below a threshold e1, every chain of alias.sgld that returns all samples after burn-in returns m samples whose average and average
    products have a mean square error of at most K v with v = (1/(m l'))^2 + 1/(m l') + f^2, and whose covariance has a bias of at most K (sqrt v + v); K depends on the model only.
    Here for every source of batches with independent, uniformly distributed index lists. *)
Theorem C95_source : forall kappa, exists e1 K, 0 < e1 /\ 0 <= K /\ forall f l', 0 < l' < f -> f <= e1 ->
  forall a its, al_first a = Fin f -> al_last a = Fin l' -> al_adaptive a = None -> al_hot a = None -> (2 <= its)%nat -> (al_burn_in a < its)%nat ->
  let m := (its - al_burn_in a)%nat in al_accepted a = Some m ->
  forall W (E : (W -> R) -> R) (normal : W -> key -> list nat -> list R) Data (source : W -> Data -> Data * mbatch obs) (idx : nat -> W -> list nat),
  (forall w, normal_ok (normal w)) -> (forall k w, length (idx k w) = mb /\ Forall (fun i => (i < N)%nat) (idx k w)) ->
  independent_run idx (fun k w => xi (normal w) (Sub (chain (PRNGKey 0) k) 1) s) (dim s) E N mb (Datatypes.S its) ->
  (forall k i, (k < Datatypes.S its)%nat -> (i < dim s)%nat -> let z := fun w => xi (normal w) (Sub (chain (PRNGKey 0) k) 1) s i in E (fun w => z w * z w * (z w * z w)) <= kappa) ->
  forall c (starts : W -> list (vtree * Data)) (h : W -> list (mop arr)), (forall w, Forall (fun xd => like s (fst xd)) (starts w)) ->
    (forall w, exists d, nth_error (starts w) c = Some (x0, d) /\ forall k, batch_no (source w) d k = batch_at data (idx k w)) ->
    (forall w, exists results r, answer (normal w) (source w) a its (h w) (starts w) = Some (Ok results) /\ length results = length (starts w) /\ nth_error results c = Some r /\ fst r = m) /\
    forall r : W -> result arr, (forall w, exists results, answer (normal w) (source w) a its (h w) (starts w) = Some (Ok results) /\ nth_error results c = Some (r w)) ->
      forall i j, (i < dim s)%nat -> (j < dim s)%nat -> let v := error_scale (INR m) l' f in
        let mean := fun w => sample_mean m (fun k => returned (r w) k i) in
        let product := fun w => sample_mean m (fun k => returned (r w) k i * returned (r w) k j) in
        let covariance := fun w => sample_covariance m (fun k => returned (r w) k i) (fun k => returned (r w) k j) in
        E (fun w => (mean w - mu i) * (mean w - mu i)) <= K * v /\
        E (fun w => (product w - (mu i * mu j + B i j)) * (product w - (mu i * mu j + B i j))) <= K * v /\
        Rabs (E covariance - B i j) <= K * (sqrt v + v).
Proof.
  intros kappa. destruct (@C95_bounded_steps s Hs obs prior likelihood has_state Tp strategy pot Hpot l Hl Hk jgrad Hj HTp data N mb Hd HN HN0 Hmb Hone c0 b0 H0 cp bp Hp Hlq Hpq A B mu lam HA Hpd HB Hmu 1 x0 model0 (PRNGKey 0) ltac:(lra) Hx kappa) as (e1 & K & He1 & HK & HM).
  exists e1, K. split; [exact He1|]. split; [exact HK|]. intros f l' Hfl Hfe.
  intros a its Af Al Aa Ah Hits Hburn m Hacc W E normal Data source idx Hnorm Hidx HI Hz4 c starts h Hlk Hcx.
  destruct (@alias_main_schedule Key choice tk a its f l' Aa Af Al Hfl Hits) as (eps & (F1 & F2 & F3 & F4) & HS).
  set (eps' := fun k => if (k <? its)%nat then eps k else l').
  assert (EE : forall k, (k < its)%nat -> eps' k = eps k) by (intros k Hkk; unfold eps'; now rewrite (proj2 (Nat.ltb_lt k its))).
  assert (EM : forall i j, (i <= j)%nat -> eps j <= eps i) by (intros i0 j0 Hij; destruct (Nat.eq_dec i0 j0) as [->|]; [lra|left; apply F4; lia]).
  assert (EB : forall k, l' <= eps' k <= e1).
  { intros k. unfold eps'. destruct (k <? its)%nat eqn:Ek; [|lra]. apply Nat.ltb_lt in Ek. split; [rewrite <- F2; apply EM; lia|]. eapply Rle_trans; [|exact Hfe]. rewrite <- F1. apply EM. lia. }
  assert (ED : forall k, eps' (Datatypes.S k) <= eps' k).
  { intros k. unfold eps' at 1. destruct (Datatypes.S k <? its)%nat eqn:Ek; [|apply EB]. apply Nat.ltb_lt in Ek. rewrite EE by lia. apply EM. lia. }
  assert (Hg : forall t b m, like s t -> like s (ugrad t b m)) by (intros t b m0 H; apply Hj; exact H).
  assert (Hmo : forall t b m, same_structure (umodel t b m) m) by (intros t b m0; eapply user_model_structure; eauto).
  set (seqs := fun (w : W) (k : nat) => batch_at data (idx k w)).
  assert (RUN : forall w, exists results, answer (normal w) (source w) a its (h w) (starts w) = Some (Ok results) /\ length results = length (starts w) /\
     exists r, nth_error results c = Some r /\ fst r = m /\ forall k j, (k < m)%nat ->
       returned r k j = el (l_pos (sgld_state (normal w) sequence_source uvalue ulikelihoods umodel ugrad eps' 1 (lv_init x0 (Some (PRNGKey 0)) None (seqs w) model0) (Datatypes.S (al_burn_in a + k)))) j).
  { intros w. destruct (@C51_steps s (normal w) _ _ (source w) uvalue ulikelihoods umodel ugrad Hs (Hnorm w) Hg Hmo Key choice tk zl Hc false 0 0 model0 ltac:(discriminate) a f l' m its eps Af Al Aa Hacc Ah Hfl Hits ltac:(unfold m; lia) HS (h w) (starts w) (Hlk w)) as (rs & R1 & R2).
    exists rs. split; [exact R1|]. split; [clear -R2; induction R2; cbn; congruence|]. destruct (Hcx w) as (d & Ec & Hb).
    destruct (Forall2_nth_error_l _ R2 Ec) as (r & Er & (theta & model & L & Tr & (L1 & L2 & L3) & Hr1 & Hr2)). cbn [fst snd] in *.
    exists r. split; [exact Er|]. split; [exact Hr1|]. intros k j Hkm.
    assert (EL : L = seq (al_burn_in a) m) by (apply increasing_all; auto; intros i0 Hi0; specialize (L3 i0 Hi0); unfold m; lia).
    rewrite (@returned_position _ _ _ _ _ _ _ _ r k (al_burn_in a + k)%nat j Hr2); [|rewrite EL; now apply seq_at].
    f_equal. apply (@trajectory_state s Hs (normal w) (Hnorm w) _ _ sequence_source uvalue ulikelihoods umodel ugrad Hg 0 0 (seqs w) model0 x0 its eps eps' theta model Hx EE); [|unfold m in Hkm; lia].
    eapply sgld_convert; [|exact Tr]. intros k'. rewrite sequence_no. apply Hb. }
  split. { intros w. destruct (RUN w) as (rs & R1 & RL & r & R2 & R3 & _). exists rs, r. auto. }
  intros r Hr i j Hi Hjd v mean product covariance. assert (EP : forall k, 0 < eps' k <= e1) by (intros k; destruct (EB k); lra).
  pose proof (HM eps' EP ED (Datatypes.S (al_burn_in a)) (Datatypes.S its) ltac:(lia) W E normal (nat -> mbatch obs) (fun _ => sequence_source) seqs idx Hnorm Hidx) as F.
  specialize (F ltac:(intros; apply sequence_no) HI Hz4 i j Hi Hjd). cbv zeta beta in F. replace (Datatypes.S its - Datatypes.S (al_burn_in a))%nat with m in F by (unfold m; lia). replace (Datatypes.S its - 1)%nat with its in F by lia.
  replace (eps' its) with l' in F by (unfold eps'; now rewrite Nat.ltb_irrefl).
  assert (PI : 0 < INR m) by (apply lt_0_INR; unfold m; lia). set (e2 := eps' (Datatypes.S (al_burn_in a))) in *. assert (E2 : 0 < e2 <= f).
  { split; [apply EP|]. unfold e2, eps'. destruct (_ <? its)%nat eqn:Ek; [|lra]. apply Nat.ltb_lt in Ek. rewrite <- F1. apply EM. lia. }
  assert (Vv : 0 <= error_scale (INR m) l' e2 <= v).
  { unfold v, error_scale. assert (0 < / (INR m * l')) by (apply Rinv_0_lt_compat, Rmult_lt_0_compat; lra). assert (0 <= / (INR m * l') * / (INR m * l')) by apply Rle_0_sqr. assert (0 <= e2 * e2) by apply Rle_0_sqr. assert (e2 * e2 <= f * f) by (apply Rmult_le_compat; lra). lra. }
  assert (Vs : sqrt (error_scale (INR m) l' e2) <= sqrt v) by (apply sqrt_le_1_alt, Vv).
  assert (RE : forall w k p, (k < m)%nat -> returned (r w) k p = el (l_pos (sgld_state (normal w) sequence_source uvalue ulikelihoods umodel ugrad eps' 1 (lv_init x0 (Some (PRNGKey 0)) None (seqs w) model0) (Datatypes.S (al_burn_in a) + k)%nat)) p).
  { intros w k p Hkm. destruct (Hr w) as (rs' & Q1 & Q2). destruct (RUN w) as (rs & R1 & _ & r0 & R2 & R3 & R4). rewrite R1 in Q1. injection Q1 as <-. rewrite R2 in Q2. injection Q2 as Q2. rewrite <- Q2. now apply R4. }
  assert (HX := proj1 HI). destruct F as (G1 & G2 & G3). split; [|split].
  - rewrite (E_ext HX _ (fun w => (mean w - mu i) * (mean w - mu i))) in G1. 2:{ intros w. unfold mean. now rewrite <- (@sample_mean_ext m _ _ (fun k Hk => RE w k i Hk)). }
    eapply Rle_trans; [exact G1|]. apply Rmult_le_compat_l; [exact HK|apply Vv].
  - replace (mu i * mu j + B i j) with (mu i * mu j + 1 * B i j) by ring. rewrite (E_ext HX _ (fun w => (product w - (mu i * mu j + 1 * B i j)) * (product w - (mu i * mu j + 1 * B i j)))) in G2.
    2:{ intros w. unfold product. rewrite (@sample_mean_ext m (fun k => returned (r w) k i * returned (r w) k j) (fun k => el (l_pos (sgld_state (normal w) sequence_source uvalue ulikelihoods umodel ugrad eps' 1 (lv_init x0 (Some (PRNGKey 0)) None (seqs w) model0) (Datatypes.S (al_burn_in a) + k)%nat)) i * el (l_pos (sgld_state (normal w) sequence_source uvalue ulikelihoods umodel ugrad eps' 1 (lv_init x0 (Some (PRNGKey 0)) None (seqs w) model0) (Datatypes.S (al_burn_in a) + k)%nat)) j)); [reflexivity|]. intros k Hkm. now rewrite !RE. }
    eapply Rle_trans; [exact G2|]. apply Rmult_le_compat_l; [exact HK|apply Vv].
  - rewrite (E_ext HX _ covariance) in G3. 2:{ intros w. unfold covariance. symmetry. apply sample_covariance_ext; intros k Hkm; now apply RE. }
    replace (B i j) with (1 * B i j) by ring. eapply Rle_trans; [exact G3|]. apply Rmult_le_compat_l; [exact HK|]. destruct Vv. lra.
Qed.
(** ... on a NumpyDataLoader: the chain with number c uses the loader chain cid0 + c, whatever else the program does *)
Theorem C95_host : forall (G : Type) (choice_perm : G -> nat -> G * list nat) (rng_of_seed : nat -> G), perm_oracle choice_perm ->
  forall kappa, exists e1 K, 0 < e1 /\ 0 <= K /\ forall f l', 0 < l' < f -> f <= e1 ->
  forall a its, al_first a = Fin f -> al_last a = Fin l' -> al_adaptive a = None -> al_hot a = None -> (2 <= its)%nat -> (al_burn_in a < its)%nat ->
  let m := (its - al_burn_in a)%nat in al_accepted a = Some m ->
  forall W (E : (W -> R) -> R) (normal : W -> key -> list nat -> list R) (choice_repl : W -> G -> nat -> nat -> G * list nat), (forall w, normal_ok (normal w)) -> (forall w, repl_oracle (choice_repl w)) ->
  forall c cid0, independent_run (fun k w => drawn_indices (choice_repl w) rng_of_seed N mb (cid0 + c) k) (fun k w => xi (normal w) (Sub (chain (PRNGKey 0) k) 1) s) (dim s) E N mb (Datatypes.S its) ->
  (forall k i, (k < Datatypes.S its)%nat -> (i < dim s)%nat -> let z := fun w => xi (normal w) (Sub (chain (PRNGKey 0) k) 1) s i in E (fun w => z w * z w * (z w * z w)) <= kappa) ->
  forall datas (hD : W -> hub G obs) ai i ca k0 (starts : W -> list (vtree * lsource (G := G) (obs := obs))) (h : W -> list (mop arr)),
    (forall w, alias_started (choice_repl w) choice_perm rng_of_seed datas (hD w) ai i ca mb cid0 k0 (length (starts w)) data N) ->
    (forall w c' x d, nth_error (starts w) c' = Some (x, d) -> like s x /\ chain_source (choice_repl w) choice_perm rng_of_seed (hD w) ai i cid0 k0 c' d) ->
    (forall w, exists d, nth_error (starts w) c = Some (x0, d)) ->
    let source := fun w => loader_source (choice_repl w) choice_perm rng_of_seed in
    (forall w, exists results r, answer (normal w) (source w) a its (h w) (starts w) = Some (Ok results) /\ length results = length (starts w) /\ nth_error results c = Some r /\ fst r = m) /\
    forall r : W -> result arr, (forall w, exists results, answer (normal w) (source w) a its (h w) (starts w) = Some (Ok results) /\ nth_error results c = Some (r w)) ->
      forall i j, (i < dim s)%nat -> (j < dim s)%nat -> let v := error_scale (INR m) l' f in
        let mean := fun w => sample_mean m (fun k => returned (r w) k i) in
        let product := fun w => sample_mean m (fun k => returned (r w) k i * returned (r w) k j) in
        let covariance := fun w => sample_covariance m (fun k => returned (r w) k i) (fun k => returned (r w) k j) in
        E (fun w => (mean w - mu i) * (mean w - mu i)) <= K * v /\
        E (fun w => (product w - (mu i * mu j + B i j)) * (product w - (mu i * mu j + B i j))) <= K * v /\
        Rabs (E covariance - B i j) <= K * (sqrt v + v).
Proof.
  intros G choice_perm rng_of_seed Hperm kappa. destruct (C95_source kappa) as (e1 & K & He1 & HK & HE). exists e1, K. split; [exact He1|]. split; [exact HK|]. intros f l' Hfl Hfe. pose proof (HE f l' Hfl Hfe) as HM.
  intros a its Af Al Aa Ah Hits Hburn m Hacc W E normal choice_repl Hnorm Hrepl c cid0 HI Hz4 datas hD ai i ca k0 starts h Hst Hch Hcx source.
  assert (OK := fun k w => @drawn_indices_ok G (choice_repl w) rng_of_seed (Hrepl w) N mb (cid0 + c) k HN0).
  apply (HM a its Af Al Aa Ah Hits Hburn Hacc W E normal _ source (fun k w => drawn_indices (choice_repl w) rng_of_seed N mb (cid0 + c) k) Hnorm OK HI Hz4 c starts h).
  - intros w. apply Forall_forall. intros [x d] Hin. apply In_nth_error in Hin. destruct Hin as [c' Hc']. apply (Hch w _ _ _ Hc').
  - intros w. destruct (Hcx w) as (d & Ec). exists d. split; [exact Ec|]. intros k. destruct (Hch w _ _ _ Ec) as [_ Hsrc]. assert (Hlt : (c < length (starts w))%nat) by (apply nth_error_Some; congruence).
    unfold source. rewrite (@source_batches G obs (choice_repl w) choice_perm rng_of_seed Hperm (Hrepl w) datas (hD w) ai i ca mb cid0 k0 _ data N c d (Hst w) Hlt Hsrc).
    rewrite stream_no. unfold batch_at. f_equal. f_equal. symmetry. apply OK.
Qed.
(** ... on a DeviceNumpyDataLoader: all chains start with the key of the seed *)
Theorem C95_device : forall (G K : Type) (lo : loader G obs) (ca : nat) (split : K -> K * K) (dkey : K), make_loader data = Ok lo -> N = l_count lo ->
  check_random DeviceKind (Z.of_nat (l_count lo)) (Z.of_nat ca) (Z.of_nat mb) = Ok tt ->
  forall kappa, exists e1 K', 0 < e1 /\ 0 <= K' /\ forall f l', 0 < l' < f -> f <= e1 ->
  forall a its, al_first a = Fin f -> al_last a = Fin l' -> al_adaptive a = None -> al_hot a = None -> (2 <= its)%nat -> (al_burn_in a < its)%nat ->
  let m := (its - al_burn_in a)%nat in al_accepted a = Some m ->
  forall W (E : (W -> R) -> R) (normal : W -> key -> list nat -> list R) (randint : W -> K -> nat -> nat -> list nat),
    (forall w, normal_ok (normal w)) -> (forall w k n m, length (randint w k n m) = n /\ ((0 < m)%nat -> Forall (fun i => (i < m)%nat) (randint w k n m))) ->
    independent_run (fun k w => batch_no (device_indices split (randint w) N mb) dkey k) (fun k w => xi (normal w) (Sub (chain (PRNGKey 0) k) 1) s) (dim s) E N mb (Datatypes.S its) ->
  (forall k i, (k < Datatypes.S its)%nat -> (i < dim s)%nat -> let z := fun w => xi (normal w) (Sub (chain (PRNGKey 0) k) 1) s i in E (fun w => z w * z w * (z w * z w)) <= kappa) ->
  forall c (samples : list vtree) (h : W -> list (mop arr)), Forall (like s) samples -> nth_error samples c = Some x0 ->
    let starts := map (fun x => (x, dkey)) samples in let source := fun w => device_source split (randint w) data N mb in
    (forall w, exists results r, answer (normal w) (source w) a its (h w) starts = Some (Ok results) /\ length results = length samples /\ nth_error results c = Some r /\ fst r = m) /\
    forall r : W -> result arr, (forall w, exists results, answer (normal w) (source w) a its (h w) starts = Some (Ok results) /\ nth_error results c = Some (r w)) ->
      forall i j, (i < dim s)%nat -> (j < dim s)%nat -> let v := error_scale (INR m) l' f in
        let mean := fun w => sample_mean m (fun k => returned (r w) k i) in
        let product := fun w => sample_mean m (fun k => returned (r w) k i * returned (r w) k j) in
        let covariance := fun w => sample_covariance m (fun k => returned (r w) k i) (fun k => returned (r w) k j) in
        E (fun w => (mean w - mu i) * (mean w - mu i)) <= K' * v /\
        E (fun w => (product w - (mu i * mu j + B i j)) * (product w - (mu i * mu j + B i j))) <= K' * v /\
        Rabs (E covariance - B i j) <= K' * (sqrt v + v).
Proof.
  intros G K lo ca split dkey Hlo HNlo Hacc' kappa. destruct (C95_source kappa) as (e1 & K' & He1 & HK & HE). exists e1, K'. split; [exact He1|]. split; [exact HK|]. intros f l' Hfl Hfe. pose proof (HE f l' Hfl Hfe) as HM.
  intros a its Af Al Aa Ah Hits Hburn m Hacc W E normal randint Hnorm Hrand HI Hz4 c samples h Hlk Hcx starts source.
  destruct (HM a its Af Al Aa Ah Hits Hburn Hacc W E normal K source (fun k w => batch_no (device_indices split (randint w) N mb) dkey k) Hnorm) with (c := c) (starts := fun _ : W => starts) (h := h) as (P1 & P2); [| | | | |split; [|exact P2]].
  - intros k w. unfold batch_no, device_indices. cbn [snd]. split; apply Hrand. exact HN0.
  - exact HI.
  - exact Hz4.
  - intros w. unfold starts. apply Forall_map. exact Hlk.
  - intros w. exists dkey. split; [unfold starts; now rewrite (map_nth_error _ _ _ Hcx)|]. intros k.
    pose proof (@dev_batch_no G K obs split (randint w) (Hrand w) likelihood data lo ca mb Hlo Hacc' Hone dkey k) as D. rewrite <- HNlo in D. unfold source. rewrite D. unfold batch_at. f_equal. f_equal.
    symmetry. unfold batch_no, device_indices. cbn [snd]. apply Hrand.
  - intros w. destruct (P1 w) as (rs & r & Q1 & Q2 & Q3). exists rs, r. split; [exact Q1|]. split; [|exact Q3]. rewrite Q2. unfold starts. apply map_length.
Qed.
End C95_alias.
Print Assumptions C95_bounded_steps. Print Assumptions C95_source. Print Assumptions C95_host. Print Assumptions C95_device.
(** ** the hypotheses can be met: the model of C92_nonvacuous (posterior variance 1/3) *)
Example C95_nonvacuous : let s := Leaf (mkArr [] [0]) in let pot := potential_function ex_prior ex_lik true 1 in let zl := fun x => mkArr (ashape x) (map (fun _ => 0) (adata x)) in
  exists e1 K, 0 < e1 /\ 0 <= K /\ forall f l', 0 < l' < f -> f <= e1 -> forall b its, (2 <= its)%nat -> (b < its)%nat -> let m := (its - b)%nat in
  let answer := fun w => snd (al_run first_choice tt (mkAlias (Fin f) (Fin l') None b (Some m) true false None) zl
    (sgld_solver (coin_normal w) (loader_source (coin_repl w) rot_perm (fun c => c)) (user_value true pot 2) (user_likelihoods true pot 2) (user_model true pot 2) (user_grad true pot 2 (derive_grad s)) false)
    (mc_new false) [sgld_init false 0 0 (coin_chain w) (Leaf (mkArr [] [1])) (Leaf (mkArr [] [7]))] its) in
  (forall w, exists r, answer w = Some (Ok [r])) /\
  forall r, (forall w, answer w = Some (Ok [r w])) -> let v := error_scale (INR m) l' f in let variance := fun w => sample_covariance m (fun k => returned (r w) k 0) (fun k => returned (r w) k 0) in
    Rabs (coins (Datatypes.S its) variance - 1 / 3) <= K * (sqrt v + v).
Proof.
  intros s pot zl.
  assert (Hs : wfv s) by (constructor; [reflexivity|constructor]).
  assert (D : dim s = 1%nat) by reflexivity.
  assert (Q : forall y : R, quadratic s (fun x => - (y - el x 0) * (y - el x 0) / 2) (- y * y / 2) (fun _ => y) (fun _ _ => 1)) by (intros y; split; [reflexivity|]; intros x _; rewrite D; unfold sum_upto; cbn; field).
  assert (Hx : like s (Leaf (mkArr [] [7]))) by (split; [repeat constructor|split; reflexivity]).
  destruct (@C95_host s Hs nat ex_prior ex_lik true 1 PMap pot eq_refl ex_l) with (jgrad := derive_grad s) (data := coin_data) (N := 2%nat) (mb := 1%nat)
    (c0 := fun (_ : option vtree) r => - ex_obs r * ex_obs r / 2) (b0 := fun r (_ : nat) => ex_obs r) (H0 := fun (_ : orow nat) (_ _ : nat) => 1) (cp := 0) (bp := fun _ : nat => 0) (Hp := fun _ _ : nat => 1)
    (A := fun _ _ : nat => 3) (B := fun _ _ : nat => 1 / 3) (mu := fun _ : nat => 41 / 3) (lam := 3) (x0 := Leaf (mkArr [] [7])) (model0 := Leaf (mkArr [] [1]))
    (Key := unit) (choice := first_choice) (tk := tt) (zl := zl) (G := nat) (choice_perm := rot_perm) (rng_of_seed := fun c : nat => c) (kappa := 1) as (e1 & K & He1 & HK & H); try lra; try lia; auto using first_choice_ok, rot_perm_oracle.
  { intros st x r. reflexivity. }
  { intros _ m x r. exists (ex_double m). split; [reflexivity|]. destruct m; reflexivity. }
  { apply derive_grad_exact. exact Hs. }
  { discriminate. }
  { intros ka [<-|[]]. reflexivity. }
  { intros st k _. apply Q. }
  { destruct (Q 0) as [Q1 Q2]. split; [exact Q1|]. intros x Hx'. unfold ex_prior. specialize (Q2 x Hx'). cbv beta in Q2. transitivity (- (0 - el x 0) * (0 - el x 0) / 2); [field|]. rewrite Q2. f_equal. f_equal. field. }
  { intros i j _ _. unfold sum_upto. cbn. field. }
  { split; [auto|]. split; [lra|]. intros v. rewrite D. unfold norm2, matvec, sum_upto. cbn. right. ring. }
  { intros i j Hi Hj. rewrite D in *. assert (i = O) by lia. assert (j = O) by lia. subst. unfold sum_upto, unit_matrix. cbn. lra. }
  { intros i _. rewrite D. unfold matvec, sum_upto. cbn. field. }
  exists e1, K. split; [exact He1|]. split; [exact HK|]. intros f l' Hf1 Hf2 b its Hits Hb m answer. pose proof (H f l' Hf1 Hf2) as HM.
  destruct (HM (mkAlias (Fin f) (Fin l') None b (Some m) true false None) its eq_refl eq_refl eq_refl eq_refl Hits Hb eq_refl (list (bool * bool)) (coins (Datatypes.S its)) coin_normal coin_repl) with
    (c := 0%nat) (cid0 := 0%nat) (datas := [coin_data]) (hD := coin_hub) (ai := 0%nat) (i := 0%nat) (ca := 1%nat) (k0 := 0%nat) (starts := fun w => [(Leaf (mkArr [] [7]), coin_chain w)]) (h := fun _ : list (bool * bool) => @nil (mop arr)) as (R1 & R2).
  - intros w k sh. apply repeat_length.
  - apply coin_repl_oracle.
  - cbn [plus]. destruct (coin_independent (Datatypes.S its)) as (I1 & I2 & I3 & I4).
    assert (KN : forall a c F, known (fun k w => drawn_indices (coin_repl w) (fun c => c) 2 1 0 k) (fun k w => xi (coin_normal w) (Sub (chain (PRNGKey 0) k) 1) s) (dim s) a c F -> known coin_idx (fun k w => xi (coin_normal w) (Sub (chain (PRNGKey 0) k) 1) s) 1 a c F).
    { intros a c F HF. induction HF as [c1|k g Hk|k i Hk Hi|F1 F2 _ IF1 _ IF2|F1 F2 _ IF1 _ IF2|F1 F2 HE _ IF].
      - apply known_const.
      - apply (@known_ext _ coin_idx _ 1 a c (fun w => g (coin_idx k w))); [intros w; now rewrite coin_drawn|]. now apply known_idx.
      - apply (@known_noise _ coin_idx (fun k w => xi (coin_normal w) (Sub (chain (PRNGKey 0) k) 1) s) 1 a c k i); auto.
      - now apply known_plus.
      - now apply known_mult.
      - eapply known_ext; eauto. }
    split; [exact I1|]. split; [exact I2|]. split; [intros F HF; apply I3, KN, HF|]. intros k Hk. destruct (I4 k Hk) as [J1 J2]. split.
    + intros F g HF. rewrite <- (J1 F g (KN _ _ _ HF)). apply (E_ext I1). intros w. now rewrite coin_drawn.
    + intros F HF i j Hi Hj. apply J2; auto.
  - intros k i _ Hi. rewrite D in Hi. assert (i = O) by lia. subst i. cbv zeta. rewrite (@coins_ext (Datatypes.S its) _ (fun _ => 1)); [rewrite coins_one; lra|]. intros w _. unfold s. rewrite coin_noise. unfold sign. destruct (snd _); ring.
  - apply coin_started.
  - intros w [|c'] x d E; [injection E as <- <-|destruct c'; discriminate]. split; [exact Hx|]. split; [reflexivity|]. split; [reflexivity|]. split.
    + intros j. split; [intros op []|]. split; [intros []|reflexivity].
    + exists []. split; [split; [intros op []|split; [intros []|reflexivity]]|reflexivity].
  - intros w. exists (coin_chain w). reflexivity.
  - assert (LEN : forall w, exists r, answer w = Some (Ok [r])).
    { intros w. destruct (R1 w) as ([|r [|]] & r' & Q1 & Q2 & Q3 & _); try discriminate. exists r. exact Q1. }
    split; [exact LEN|]. intros r Hr. apply (R2 r) with (i := 0%nat) (j := 0%nat); [|rewrite D; lia|rewrite D; lia]. intros w. exists [r w]. split; [apply Hr|reflexivity].
Qed.
Print Assumptions C95_nonvacuous.
