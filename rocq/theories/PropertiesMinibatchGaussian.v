(** C87: SGLD with random batches on a user's Gaussian model. *)
From Coq Require Import Reals Lra Psatz ZArith String.
From Verif Require Import Base ListUtil NumpyLoader LoaderSpec NumpyLoaderProofs NumpyLoaderApi DeviceData DeviceDataProofs.
From Verif Require Import Pytree PytreeSpec PytreeProofs Io IoSpec IoProofs TreeUtil TreeUtilSpec TreeUtilProofs Integrator IntegratorSpec IntegratorBasics PropertiesIntegrator AliasData.
From Verif Require Import DataCore DataSpec Potential PotentialSpec PotentialProofs UnbiasedProofs VarianceProofs PropertiesPotential LeapfrogVolume EndToEndSpec EndToEndProofs PropertiesEndToEnd PropertiesDeviceAlias.
From Verif Require Import ExpectSpec ExpectProofs GaussianLimit GaussianMatrix GaussianSpec GaussianProofs PropertiesGaussian SghmcGaussian MinibatchSpec MinibatchProofs MinibatchVariance.
Open Scope R_scope.
Set Implicit Arguments.

(** a source that is the sequence of its batches *)
(** auxiliary definition of a statement or a proof; models no code of /repo *)
Definition sequence_source {B} (d : nat -> B) : (nat -> B) * B := (fun k => d (S k), d 0%nat).
Lemma sequence_no B (d : nat -> B) k : batch_no sequence_source d k = d k.
Proof.
  unfold batch_no. assert (H : forall j, drawn sequence_source d k j = d (k + j)%nat).
  { induction k as [|k IH]; [reflexivity|]. intros j. cbn [drawn]. unfold sequence_source at 1. cbn [fst]. rewrite IH. f_equal. lia. }
  unfold sequence_source at 1. cbn [snd]. rewrite H. f_equal. lia.
Qed.
Lemma drawn_first D B (g : D -> D * B) d k : drawn g d (S k) = drawn g (fst (g d)) k.
Proof. induction k as [|k IH]; [reflexivity|]. cbn [drawn] in *. now rewrite IH. Qed.
(** the run depends on the source of batches only through the batches *)
Lemma sgld_sequence D B Model normal (g : D -> D * B) pv pl pm (pg : vtree -> B -> Model -> vtree) eps T x0 key0 model0 d (d' : nat -> B) n :
  (forall k, d' k = batch_no g d k) ->
  l_pos (sgld_state normal g pv pl pm pg eps T (lv_init x0 (Some key0) None d model0) n) = l_pos (sgld_state normal sequence_source pv pl pm pg eps T (lv_init x0 (Some key0) None d' model0) n).
Proof.
  intros Hd.
  set (a := sgld_state normal g pv pl pm pg eps T (lv_init x0 (Some key0) None d model0)). set (a' := sgld_state normal sequence_source pv pl pm pg eps T (lv_init x0 (Some key0) None d' model0)).
  assert (INV : l_pos (a n) = l_pos (a' n) /\ l_model (a n) = l_model (a' n) /\ l_key (a n) = l_key (a' n) /\ forall k, l_data (a' n) k = batch_no g (l_data (a n)) k).
  { induction n as [|n (I1 & I2 & I3 & I4)]; [cbn; auto|].
    assert (S1 : a (S n) = fst (lv_update normal g pv pl pm pg None (eps n) T (a n))) by (unfold a, sgld_state; rewrite seq_S, fold_left_app; reflexivity).
    assert (S2 : a' (S n) = fst (lv_update normal sequence_source pv pl pm pg None (eps n) T (a' n))) by (unfold a', sgld_state; rewrite seq_S, fold_left_app; reflexivity).
    rewrite S1, S2. clear S1 S2. unfold lv_update. rewrite <- I1, <- I2, <- I3. pose proof (I4 0%nat) as B0. unfold batch_no in B0. cbn [drawn] in B0.
    assert (DD : forall k, l_data (a' n) (S k) = batch_no g (fst (g (l_data (a n)))) k) by (intros k; rewrite I4; unfold batch_no; now rewrite drawn_first).
    unfold sequence_source. rewrite B0. destruct (g (l_data (a n))) as [dd b]. cbn [fst snd] in *. destruct (random_tree normal (Sub (l_key (a n)) 1) (l_pos (a n))) as [noise used]. cbn. auto. }
  apply INV.
Qed.

Section C87.
Variable s : vtree.
Hypothesis Hs : wfv s.
Variable obs : Type.
(** the user's model: log prior, (batched) log likelihood l, temperature; the potential function of potential.py for it; JAX's gradients *)
Variables (prior : vtree -> R) (likelihood : lik_fn obs vtree vtree) (has_state : bool) (Tp : R) (strategy : pot_strategy).
Variable pot : nat -> vtree -> mbatch obs -> option vtree -> option (list bool) -> res (R * list R * option vtree).
Hypothesis Hpot : minibatch_potential prior likelihood has_state Tp strategy = Ok pot.
Variable l : option vtree -> vtree -> orow obs -> R.
Hypothesis Hl : evaluates_with likelihood l.
Hypothesis Hk : keeps_state likelihood has_state.
Variable jgrad : (vtree -> R) -> vtree -> vtree.
Hypothesis Hj : exact_gradients s jgrad.
Hypothesis HTp : 0 < Tp.
(** the data set of N observations and the batch size *)
Variables (data : list (string * list obs)) (N mb : nat).
Hypothesis Hd : data <> [].
Hypothesis HN : forall ka, In ka data -> length (snd ka) = N.
Hypothesis HN0 : (0 < N)%nat.
Hypothesis Hmb : (0 < mb)%nat.
(** a batched likelihood is not used with batches of one (C41_batch_of_one_refuted) *)
Hypothesis Hone : is_batched likelihood = true -> mb <> 1%nat.
(** Gaussian: the log likelihood of every observation and the log prior are quadratic functions *)
Variables (c0 : option vtree -> orow obs -> R) (b0 : orow obs -> nat -> R) (H0 : orow obs -> nat -> nat -> R) (cp : R) (bp : nat -> R) (Hp : nat -> nat -> R).
Hypothesis Hlq : forall st k, (k < N)%nat -> quadratic s (fun x => l st x (row data k)) (c0 st (row data k)) (b0 (row data k)) (H0 (row data k)).
Hypothesis Hpq : quadratic s prior cp bp Hp.
(** the precision matrix of the posterior, its inverse and the mean *)
Variables (A B : nat -> nat -> R) (mu : nat -> R) (lam : R).
Hypothesis HA : forall i j, (i < dim s)%nat -> (j < dim s)%nat -> A i j = (sum_upto N (fun k => H0 (row data k) i j) + Hp i j) / Tp.
Hypothesis Hpd : positive_definite (dim s) A lam.
Hypothesis HB : inverse_matrix (dim s) A B.
Hypothesis Hmu : forall i, (i < dim s)%nat -> matvec (dim s) A mu i = (sum_upto N (fun k => b0 (row data k) i) + bp i) / Tp.
(** the temperature of the sampler, the start *)
Variables (T : R) (x0 model0 : vtree) (key0 : key).
Hypothesis HT : 0 <= T.
Hypothesis Hx : like s x0.
Variable eps : nat -> R.
Notation uvalue := (user_value has_state pot N).
Notation ulikelihoods := (user_likelihoods has_state pot N).
Notation umodel := (user_model has_state pot N).
Notation ugrad := (user_grad has_state pot N jgrad).

(** auxiliary definition of a statement or a proof; models no code of /repo *)
Definition dlq (st : option vtree) (x : vtree) (r : orow obs) (i : nat) : R := b0 r i - sum_upto (dim s) (fun j => H0 r i j * el x j).
(** auxiliary definition of a statement or a proof; models no code of /repo *)
Definition dpq (x : vtree) (i : nat) : R := bp i - sum_upto (dim s) (fun j => Hp i j * el x j).
Lemma quadratic_smooth x m : like s x -> smooth_at prior has_state N data l s dlq dpq x m.
Proof.
  intros Hlx. split; [apply (quadratic_partials Hs Hpq Hlx)|]. intros k Hkn. apply (quadratic_partials Hs (Hlq (state_of has_state m) Hkn) Hlx).
Qed.
(** coefficients of the error of the gradient *)
(** auxiliary definition of a statement or a proof; models no code of /repo *)
Definition coef1 (i a : nat) (t : list nat) : R := / Tp * excess N mb (fun k => H0 (row data k) i a) t.
(** auxiliary definition of a statement or a proof; models no code of /repo *)
Definition coef0 (i : nat) (t : list nat) : R := (- / Tp) * excess N mb (fun k => b0 (row data k) i) t + sum_upto (dim s) (fun a => mu a * coef1 i a t).
Lemma error_affine x m t i : like s x -> In t (tuples mb N) -> (i < dim s)%nat ->
  el (ugrad x (batch_at data t) m) i - matvec (dim s) A (fun j => el x j - mu j) i = coef0 i t + sum_upto (dim s) (fun a => (el x a - mu a) * coef1 i a t).
Proof.
  intros Hlx Ht Hi. apply tuples_spec in Ht. destruct Ht as [Lt Ft]. unfold batch_at.
  rewrite (@user_grad_is obs prior likelihood has_state Tp strategy pot Hpot l Hl Hk data N Hd HN t (repeat true (length t)) Ft (repeat_length _ _) ltac:(lia) ltac:(rewrite Lt; exact Hone) s Hs jgrad Hj dlq dpq x m Hlx (quadratic_smooth m Hlx) i Hi).
  unfold posterior_grad. rewrite (proj2 (tree_of_ok _ Hs)) by auto. rewrite Lt.
  assert (M1 : matvec (dim s) A (fun j => el x j - mu j) i = sum_upto (dim s) (fun a => A i a * el x a) - (sum_upto N (fun k => b0 (row data k) i) + bp i) / Tp).
  { rewrite <- (Hmu Hi). unfold matvec. rewrite (@sum_upto_ext (dim s) (fun j => A i j * (el x j - mu j)) (fun j => A i j * el x j + (-1) * (A i j * mu j))) by (intros; ring). rewrite sum_upto_plus, (@sum_upto_scale (dim s) (-1) (fun j => A i j * mu j)). ring. }
  rewrite M1. assert (C : coef0 i t + sum_upto (dim s) (fun a => (el x a - mu a) * coef1 i a t) = - / Tp * excess N mb (fun k => b0 (row data k) i) t + sum_upto (dim s) (fun a => el x a * coef1 i a t)).
  { unfold coef0. rewrite Rplus_assoc. f_equal. rewrite <- sum_upto_plus. apply sum_upto_ext. intros; ring. }
  rewrite C. clear C M1.
  assert (PI : 0 < INR mb) by (apply lt_0_INR; auto).
  assert (D : sum_upto mb (fun j => dlq (state_of has_state m) x (row data (nth j t 0%nat)) i) = sum_upto mb (fun j => b0 (row data (nth j t 0%nat)) i) - sum_upto (dim s) (fun a => el x a * sum_upto mb (fun j => H0 (row data (nth j t 0%nat)) i a))).
  { unfold dlq. rewrite (@sum_upto_ext mb _ (fun j => b0 (row data (nth j t 0%nat)) i + (-1) * sum_upto (dim s) (fun a => H0 (row data (nth j t 0%nat)) i a * el x a))) by (intros; ring).
    rewrite sum_upto_plus, (@sum_upto_scale mb (-1) (fun j => sum_upto (dim s) (fun a => H0 (row data (nth j t 0%nat)) i a * el x a))), (@sum_upto_swap mb (dim s)).
    rewrite (@sum_upto_ext (dim s) (fun a => sum_upto mb (fun j => H0 (row data (nth j t 0%nat)) i a * el x a)) (fun a => el x a * sum_upto mb (fun j => H0 (row data (nth j t 0%nat)) i a))); [ring|].
    intros a _. rewrite <- sum_upto_scale. apply sum_upto_ext. intros; ring. }
  rewrite D. unfold dpq, excess, coef1, excess.
  rewrite (@sum_upto_ext (dim s) (fun a => A i a * el x a) (fun a => / Tp * (el x a * sum_upto N (fun k => H0 (row data k) i a)) + / Tp * (Hp i a * el x a))) by (intros a Ha; rewrite HA by auto; field; lra).
  rewrite sum_upto_plus, (@sum_upto_scale (dim s) (/ Tp) (fun a => el x a * sum_upto N (fun k => H0 (row data k) i a))), (@sum_upto_scale (dim s) (/ Tp) (fun a => Hp i a * el x a)).
  rewrite (@sum_upto_ext (dim s) (fun a => el x a * (/ Tp * (INR N * (sum_upto mb (fun j => H0 (row data (nth j t 0%nat)) i a) / INR mb) - sum_upto N (fun k => H0 (row data k) i a))))
     (fun a => (INR N / INR mb / Tp) * (el x a * sum_upto mb (fun j => H0 (row data (nth j t 0%nat)) i a)) + (- / Tp) * (el x a * sum_upto N (fun k => H0 (row data k) i a)))) by (intros; field; lra).
  rewrite sum_upto_plus, (@sum_upto_scale (dim s) (INR N / INR mb / Tp) (fun a => el x a * sum_upto mb (fun j => H0 (row data (nth j t 0%nat)) i a))), (@sum_upto_scale (dim s) (- / Tp) (fun a => el x a * sum_upto N (fun k => H0 (row data k) i a))).
  field. lra.
Qed.
(** auxiliary definition of a statement or a proof; models no code of /repo *)
Definition error_bound : R := let c := coef_bound (dim s) N mb coef0 coef1 in c * c * (1 + INR (dim s)).
Lemma error_bound_nonneg : 0 <= error_bound.
Proof. unfold error_bound. pose proof (pos_INR (dim s)). cbv zeta. apply Rmult_le_pos; [nra|lra]. Qed.

(** a run on independent batches, as a run on the sequence of its batches: the error of the gradient is affine in the deviation, which is known before the step; the run is unbiased *)
Lemma minibatch_run : forall W (E : (W -> R) -> R) (normal : W -> key -> list nat -> list R) (idx : nat -> W -> list nat) n,
  (forall w, normal_ok (normal w)) -> (forall k w, In (idx k w) (tuples mb N)) ->
  independent_run idx (fun k w => xi (normal w) (Sub (chain key0 k) 1) s) (dim s) E N mb n ->
  let dat := fun (w : W) (k : nat) => batch_at data (idx k w) in
  let y := dev sequence_source uvalue ulikelihoods umodel ugrad mu T x0 model0 key0 eps normal dat in
  (forall k w i, (i < dim s)%nat -> grad_error s sequence_source uvalue ulikelihoods umodel ugrad A mu T x0 model0 key0 eps normal dat k w i = coef0 i (idx k w) + sum_upto (dim s) (fun a => y k w a * coef1 i a (idx k w))) /\
  (forall k i, (i < dim s)%nat -> known idx (fun k w => xi (normal w) (Sub (chain key0 k) 1) s) (dim s) k k (fun w => y k w i)) /\
  unbiased_run s sequence_source uvalue ulikelihoods umodel ugrad A mu T error_bound x0 model0 key0 eps E normal dat n.
Proof.
  intros W E normal idx n Hnorm Hin HI dat.
  assert (Hg : forall t b m, like s t -> like s (ugrad t b m)) by (intros t b m H; apply Hj; exact H).
  intros y. set (h := grad_error s sequence_source uvalue ulikelihoods umodel ugrad A mu T x0 model0 key0 eps normal dat).
  assert (Hh : forall k w i, (i < dim s)%nat -> h k w i = coef0 i (idx k w) + sum_upto (dim s) (fun a => y k w a * coef1 i a (idx k w))).
  { intros k w a Ha. unfold h, grad_error. rewrite sequence_no. unfold dat at 2. unfold y, dev at 2.
    apply (@error_affine (l_pos (at_ sequence_source uvalue ulikelihoods umodel ugrad T x0 model0 key0 eps normal dat k w)) (l_model (at_ sequence_source uvalue ulikelihoods umodel ugrad T x0 model0 key0 eps normal dat k w)) (idx k w) a); auto.
    apply (@at_inv s Hs (nat -> mbatch obs) (mbatch obs) vtree sequence_source uvalue ulikelihoods umodel ugrad Hg T x0 model0 key0 Hx eps W normal dat k w (Hnorm w)). }
  assert (Hy : forall k i, (i < dim s)%nat -> known idx (fun k w => xi (normal w) (Sub (chain key0 k) 1) s) (dim s) k k (fun w => y k w i)).
  { induction k as [|k IH]; intros a Ha; [apply (@known_const _ _ _ _ 0 0 (el x0 a - mu a))|].
    set (z := fun (k : nat) (w : W) => xi (normal w) (Sub (chain key0 k) 1) s) in *.
    assert (KY : forall b, (b < dim s)%nat -> known idx z (dim s) (S k) (S k) (fun w => y k w b)) by (intros b Hb; apply (@known_mono W idx z (dim s) k k); auto).
    assert (KH : known idx z (dim s) (S k) (S k) (fun w => h k w a)).
    { apply (@known_mono W idx z (dim s) (S k) k); auto. apply (@known_h W idx z (dim s) k (y k) (h k) coef0 coef1); auto. }
    apply (@known_ext _ idx z (dim s) (S k) (S k) (fun w => y k w a + ((- eps k) * (matvec (dim s) A (y k w) a + h k w a) + sqrt (2 * T * eps k) * z k w a))).
    { intros w. unfold y at 3. rewrite (@dev_step s Hs (nat -> mbatch obs) (mbatch obs) vtree sequence_source uvalue ulikelihoods umodel ugrad Hg A mu T x0 model0 key0 Hx eps W normal dat k w a (Hnorm w) Ha). unfold y, h, z, step_noise. ring. }
    apply known_plus; [apply KY; auto|]. apply known_plus.
    - apply known_scale. apply known_plus; [|exact KH]. apply (@known_sum W idx z (dim s) (S k) (S k) (dim s) (fun b w => A a b * y k w b)). intros b Hb. apply known_scale. apply KY; auto.
    - apply known_scale. apply (@known_noise _ idx z (dim s) (S k) (S k) k a); auto. }
  split; [exact Hh|]. split; [exact Hy|].
  pose proof HI as HI'. destruct HI' as (HE & HE1 & _ & _). split; [exact HE|]. split; [exact HE1|]. split; [exact Hnorm|].
  intros k Hkn. change error_bound with (coef_bound (dim s) N mb coef0 coef1 * coef_bound (dim s) N mb coef0 coef1 * (1 + INR (dim s))).
  apply (@independent_unbiased W idx (fun k w => xi (normal w) (Sub (chain key0 k) 1) s) (dim s) E N mb n HI Hin k (y k) (h k) coef0 coef1 Hkn (Hy k) (Hh k)).
  - intros a Ha. unfold coef0. rewrite (average_plus (fun t => (- / Tp) * excess N mb (fun k => b0 (row data k) a) t) (fun t => sum_upto (dim s) (fun b => mu b * coef1 a b t))).
    rewrite (average_scale (excess N mb (fun k => b0 (row data k) a))), average_excess by auto. rewrite (average_sum (dim s) (fun b t => mu b * coef1 a b t)).
    rewrite (@sum_upto_zero (dim s)); [ring|]. intros b Hb. rewrite (average_scale (coef1 a b)). unfold coef1. rewrite (average_scale (excess N mb (fun k => H0 (row data k) a b))), average_excess by auto. ring.
  - intros a b Ha Hb. unfold coef1. rewrite (average_scale (excess N mb (fun k => H0 (row data k) a b))), average_excess by auto. ring.
Qed.
(** with step sizes that vanish but do not sum up to a finite number, the mean of the samples tends to the posterior mean and their covariance to T times the posterior covariance,
    for every source of batches with independent, uniformly distributed index lists *)
Theorem C87_vanishing_steps : (forall n, 0 < eps n) -> vanishing eps -> divergent eps -> forall delta, 0 < delta ->
  exists n0, forall n, (n0 <= n)%nat -> forall W (E : (W -> R) -> R) (normal : W -> key -> list nat -> list R) Data (get_data : W -> Data -> Data * mbatch obs) (d0 : W -> Data) (idx : nat -> W -> list nat),
    (forall w, normal_ok (normal w)) -> (forall k w, length (idx k w) = mb /\ Forall (fun i => (i < N)%nat) (idx k w)) ->
    (forall k w, batch_no (get_data w) (d0 w) k = batch_at data (idx k w)) ->
    independent_run idx (fun k w => xi (normal w) (Sub (chain key0 k) 1) s) (dim s) E N mb n ->
    let x := fun w i => el (l_pos (sgld_state (normal w) (get_data w) uvalue ulikelihoods umodel ugrad eps T (lv_init x0 (Some key0) None (d0 w) model0) n)) i in
    forall i j, (i < dim s)%nat -> (j < dim s)%nat ->
      Rabs (E (fun w => x w i) - mu i) <= delta /\ Rabs (E (fun w => (x w i - mu i) * (x w j - mu j)) - T * B i j) <= delta.
Proof.
  intros Ep Ev Ed delta Hdelta.
  assert (Hg : forall t b m, like s t -> like s (ugrad t b m)) by (intros t b m H; apply Hj; exact H).
  destruct (@C77_vanishing_steps s Hs (nat -> mbatch obs) (mbatch obs) vtree sequence_source uvalue ulikelihoods umodel ugrad Hg A B mu lam T error_bound x0 model0 key0 Hpd HB HT error_bound_nonneg Hx eps Ep Ev Ed delta Hdelta) as [n0 H].
  exists n0. intros n Hn W E normal Data get_data d0 idx Hnorm Hidx Hbat HI x i j Hi Hj'.
  assert (Hin : forall k w, In (idx k w) (tuples mb N)) by (intros; apply tuples_spec; apply Hidx).
  set (dat := fun (w : W) (k : nat) => batch_at data (idx k w)).
  assert (EQ : forall w, l_pos (sgld_state (normal w) (get_data w) uvalue ulikelihoods umodel ugrad eps T (lv_init x0 (Some key0) None (d0 w) model0) n) = l_pos (at_ sequence_source uvalue ulikelihoods umodel ugrad T x0 model0 key0 eps normal dat n w)).
  { intros w. unfold at_. apply sgld_sequence. intros k. unfold dat. now rewrite Hbat. }
  pose proof (proj2 (proj2 (@minibatch_run W E normal idx n Hnorm Hin HI))) as HU. cbv zeta in HU. fold dat in HU.
  destruct (H n Hn W E normal dat HU i j Hi Hj') as [R1 R2]. destruct HU as (HE & _). split.
  - rewrite (@E_ext W E HE (fun w => x w i) (fun w => el (l_pos (at_ sequence_source uvalue ulikelihoods umodel ugrad T x0 model0 key0 eps normal dat n w)) i)) by (intros w; unfold x; now rewrite EQ). exact R1.
  - rewrite (@E_ext W E HE (fun w => (x w i - mu i) * (x w j - mu j)) (fun w => dev sequence_source uvalue ulikelihoods umodel ugrad mu T x0 model0 key0 eps normal dat n w i * dev sequence_source uvalue ulikelihoods umodel ugrad mu T x0 model0 key0 eps normal dat n w j)) by (intros w; unfold x, dev; now rewrite EQ). exact R2.
Qed.

(** ... on a DeviceNumpyDataLoader, with the indices that jax.random.randint draws *)
Theorem C87_device : forall (G K : Type) (lo : loader G obs) (ca : nat) (split : K -> K * K) (dkey : K), make_loader data = Ok lo -> N = l_count lo ->
  check_random DeviceKind (Z.of_nat (l_count lo)) (Z.of_nat ca) (Z.of_nat mb) = Ok tt ->
  (forall n, 0 < eps n) -> vanishing eps -> divergent eps -> forall delta, 0 < delta ->
  exists n0, forall n, (n0 <= n)%nat -> forall W (E : (W -> R) -> R) (normal : W -> key -> list nat -> list R) (randint : W -> K -> nat -> nat -> list nat),
    (forall w, normal_ok (normal w)) -> (forall w k n m, length (randint w k n m) = n /\ ((0 < m)%nat -> Forall (fun i => (i < m)%nat) (randint w k n m))) ->
    independent_run (fun k w => batch_no (device_indices split (randint w) N mb) dkey k) (fun k w => xi (normal w) (Sub (chain key0 k) 1) s) (dim s) E N mb n ->
    let x := fun w i => el (l_pos (sgld_state (normal w) (device_source split (randint w) data N mb) uvalue ulikelihoods umodel ugrad eps T (lv_init x0 (Some key0) None dkey model0) n)) i in
    forall i j, (i < dim s)%nat -> (j < dim s)%nat ->
      Rabs (E (fun w => x w i) - mu i) <= delta /\ Rabs (E (fun w => (x w i - mu i) * (x w j - mu j)) - T * B i j) <= delta.
Proof.
  intros G K lo ca split dkey Hlo HNlo Hacc Ep Ev Ed delta Hdelta. destruct (C87_vanishing_steps Ep Ev Ed Hdelta) as [n0 H].
  exists n0. intros n Hn W E normal randint Hnorm Hrand HI x i j Hi Hj'.
  apply (H n Hn W E normal K (fun w => device_source split (randint w) data N mb) (fun _ => dkey) (fun k w => batch_no (device_indices split (randint w) N mb) dkey k) Hnorm); auto.
  - intros k w. unfold batch_no, device_indices. cbn [snd]. split; apply Hrand. exact HN0.
  - intros k w. pose proof (@dev_batch_no G K obs split (randint w) (Hrand w) likelihood data lo ca mb Hlo Hacc Hone dkey k) as D. rewrite <- HNlo in D. rewrite D. unfold batch_at. f_equal. f_equal.
    symmetry. unfold batch_no, device_indices. cbn [snd]. apply Hrand.
Qed.
(** ... on a NumpyDataLoader, with the indices that numpy's generator of the chain with id cid draws *)
Theorem C87_host : forall (G : Type) (choice_perm : G -> nat -> G * list nat) (rng_of_seed : nat -> G) (cid : nat),
  (forall n, 0 < eps n) -> vanishing eps -> divergent eps -> forall delta, 0 < delta ->
  exists n0, forall n, (n0 <= n)%nat -> forall W (E : (W -> R) -> R) (normal : W -> key -> list nat -> list R) (choice_repl : W -> G -> nat -> nat -> G * list nat),
    (forall w, normal_ok (normal w)) -> (forall w, repl_oracle (choice_repl w)) ->
    independent_run (fun k w => drawn_indices (choice_repl w) rng_of_seed N mb cid k) (fun k w => xi (normal w) (Sub (chain key0 k) 1) s) (dim s) E N mb n ->
    let x := fun w i => el (l_pos (sgld_state (normal w) (stream_source (choice_repl w) choice_perm rng_of_seed data N mb cid) uvalue ulikelihoods umodel ugrad eps T (lv_init x0 (Some key0) None 0%nat model0) n)) i in
    forall i j, (i < dim s)%nat -> (j < dim s)%nat ->
      Rabs (E (fun w => x w i) - mu i) <= delta /\ Rabs (E (fun w => (x w i - mu i) * (x w j - mu j)) - T * B i j) <= delta.
Proof.
  intros G choice_perm rng_of_seed cid Ep Ev Ed delta Hdelta. destruct (C87_vanishing_steps Ep Ev Ed Hdelta) as [n0 H].
  exists n0. intros n Hn W E normal choice_repl Hnorm Hrepl HI x i j Hi Hj'.
  assert (OK := fun k w => @drawn_indices_ok G (choice_repl w) rng_of_seed (Hrepl w) N mb cid k HN0).
  apply (H n Hn W E normal nat (fun w => stream_source (choice_repl w) choice_perm rng_of_seed data N mb cid) (fun _ => 0%nat) (fun k w => drawn_indices (choice_repl w) rng_of_seed N mb cid k) Hnorm); auto.
  intros k w. rewrite stream_no. unfold batch_at. f_equal. f_equal. symmetry. apply OK.
Qed.
(** the step sizes of scheduler.polynomial_step_size (C28) with 0 < gamma <= 1 qualify *)
Theorem C87_polynomial : forall a b g, 0 < a -> 0 < b -> 0 < g <= 1 -> (forall n, eps n = a * Rpower (b + INR n) (- g)) -> forall delta, 0 < delta ->
  exists n0, forall n, (n0 <= n)%nat -> forall W (E : (W -> R) -> R) (normal : W -> key -> list nat -> list R) Data (get_data : W -> Data -> Data * mbatch obs) (d0 : W -> Data) (idx : nat -> W -> list nat),
    (forall w, normal_ok (normal w)) -> (forall k w, length (idx k w) = mb /\ Forall (fun i => (i < N)%nat) (idx k w)) ->
    (forall k w, batch_no (get_data w) (d0 w) k = batch_at data (idx k w)) ->
    independent_run idx (fun k w => xi (normal w) (Sub (chain key0 k) 1) s) (dim s) E N mb n ->
    let x := fun w i => el (l_pos (sgld_state (normal w) (get_data w) uvalue ulikelihoods umodel ugrad eps T (lv_init x0 (Some key0) None (d0 w) model0) n)) i in
    forall i j, (i < dim s)%nat -> (j < dim s)%nat ->
      Rabs (E (fun w => x w i) - mu i) <= delta /\ Rabs (E (fun w => (x w i - mu i) * (x w j - mu j)) - T * B i j) <= delta.
Proof.
  intros a b g Ha Hb Hg He. apply C87_vanishing_steps.
  - intros n. rewrite He. apply (poly_pos b g Ha).
  - pose proof (poly_vanishing Ha Hb Hg) as V. intros d Hd'. destruct (V d Hd') as [m Hm]. exists m. intros n Hn. rewrite He. apply Hm. exact Hn.
  - pose proof (poly_divergent Ha Hb Hg) as V. intros d. destruct (V d) as [m Hm]. exists m. intros n Hn. rewrite (@sum_upto_ext n eps (fun n => a * Rpower (b + INR n) (- g))) by (intros; apply He). apply Hm. exact Hn.
Qed.

(** ** C88: one parameter, constant step size *)
Section Constant.
Variable e : R.
Hypothesis Heps : forall n, eps n = e.
Hypothesis He : 0 < e.
Hypothesis Hdim : dim s = 1%nat.
(** for observation k: the derivative of its log likelihood at the posterior mean, and its precision; the noise of the batches *)
Notation resid := (fun k => b0 (row data k) 0%nat - H0 (row data k) 0%nat 0%nat * mu 0%nat).
Notation prec := (fun k => H0 (row data k) 0%nat 0%nat).
(** auxiliary definition of a statement or a proof; models no code of /repo *)
Definition batch_noise (f g : nat -> R) : R := INR N * INR N / (INR mb * (Tp * Tp)) * pop_cov N f g.
(** recursions of mean and variance *)
(** auxiliary definition of a statement or a proof; models no code of /repo *)
Definition const_mean (n : nat) : R := (1 - e * A 0%nat 0%nat) ^ n * (el x0 0 - mu 0%nat).
(** auxiliary definition of a statement or a proof; models no code of /repo *)
Fixpoint const_var (n : nat) : R :=
  match n with
  | O => (el x0 0 - mu 0%nat) * (el x0 0 - mu 0%nat)
  | Datatypes.S m => ((1 - e * A 0%nat 0%nat) * (1 - e * A 0%nat 0%nat) + e * e * batch_noise prec prec) * const_var m + 2 * T * e + e * e * batch_noise resid resid - 2 * (e * e) * batch_noise resid prec * const_mean m
  end.
Lemma coef0_is t : coef0 0 t = (- / Tp) * excess N mb resid t.
Proof.
  unfold coef0, coef1. rewrite Hdim. unfold sum_upto at 1. cbn [seq map fold_right]. unfold excess.
  rewrite (@sum_upto_ext mb (fun j => b0 (row data (nth j t 0%nat)) 0%nat - H0 (row data (nth j t 0%nat)) 0%nat 0%nat * mu 0%nat) (fun j => b0 (row data (nth j t 0%nat)) 0%nat + (- mu 0%nat) * H0 (row data (nth j t 0%nat)) 0%nat 0%nat)) by (intros; ring).
  rewrite (@sum_upto_ext N (fun k => b0 (row data k) 0%nat - H0 (row data k) 0%nat 0%nat * mu 0%nat) (fun k => b0 (row data k) 0%nat + (- mu 0%nat) * H0 (row data k) 0%nat 0%nat)) by (intros; ring).
  rewrite !sum_upto_plus, (@sum_upto_scale mb (- mu 0%nat) (fun j => H0 (row data (nth j t 0%nat)) 0%nat 0%nat)), (@sum_upto_scale N (- mu 0%nat) (fun k => H0 (row data k) 0%nat 0%nat)).
  assert (0 < INR mb) by (apply lt_0_INR; exact Hmb). field. lra.
Qed.
Lemma average_coefs : average (map (fun t => coef0 0 t * coef0 0 t) (tuples mb N)) = batch_noise resid resid /\
  average (map (fun t => coef0 0 t * coef1 0 0 t) (tuples mb N)) = - batch_noise resid prec /\ average (map (fun t => coef1 0 0 t * coef1 0 0 t) (tuples mb N)) = batch_noise prec prec.
Proof.
  assert (P : 0 < INR mb) by (apply lt_0_INR; exact Hmb).
  assert (Q : forall f g c d, average (map (fun t => (c * excess N mb f t) * (d * excess N mb g t)) (tuples mb N)) = c * d * (Tp * Tp) * batch_noise f g).
  { intros f g c d. rewrite (@average_ext _ _ (fun t => c * d * (excess N mb f t * excess N mb g t))) by (intros; ring). rewrite average_scale, average_excess_product by auto. unfold batch_noise. field. lra. }
  split; [|split].
  - rewrite (@average_ext _ _ (fun t => ((- / Tp) * excess N mb resid t) * ((- / Tp) * excess N mb resid t))) by (intros; rewrite coef0_is; ring). rewrite Q. field. lra.
  - rewrite (@average_ext _ _ (fun t => ((- / Tp) * excess N mb resid t) * (/ Tp * excess N mb prec t))) by (intros; rewrite coef0_is; unfold coef1; ring). rewrite Q. field. lra.
  - unfold coef1. rewrite Q. field. lra.
Qed.
Lemma const_moments : forall W (E : (W -> R) -> R) (normal : W -> key -> list nat -> list R) (idx : nat -> W -> list nat) n,
  (forall w, normal_ok (normal w)) -> (forall k w, In (idx k w) (tuples mb N)) ->
  independent_run idx (fun k w => xi (normal w) (Sub (chain key0 k) 1) s) (dim s) E N mb n ->
  let y := dev sequence_source uvalue ulikelihoods umodel ugrad mu T x0 model0 key0 eps normal (fun (w : W) (k : nat) => batch_at data (idx k w)) in
  forall k, (k <= n)%nat -> E (fun w => y k w 0%nat) = const_mean k /\ E (fun w => y k w 0%nat * y k w 0%nat) = const_var k.
Proof.
  intros W E normal idx n Hnorm Hin HI y. pose proof (@minibatch_run W E normal idx n Hnorm Hin HI) as MR. cbv zeta in MR. fold y in MR. destruct MR as (Hh & Hy & HU).
  set (dat := fun (w : W) (k : nat) => batch_at data (idx k w)) in *. set (h := grad_error s sequence_source uvalue ulikelihoods umodel ugrad A mu T x0 model0 key0 eps normal dat) in *.
  assert (Hg : forall t b m, like s t -> like s (ugrad t b m)) by (intros t b m H; apply Hj; exact H).
  pose proof HI as HI'. destruct HI' as (HE & HE1 & _ & Hst). pose proof average_coefs as (V1 & V2 & V3).
  assert (D0 : (0 < dim s)%nat) by (rewrite Hdim; lia).
  induction k as [|k IH]; intros Hk'.
  - split; [rewrite (@E_ext W E HE _ (fun _ => el x0 0 - mu 0%nat)) by reflexivity|rewrite (@E_ext W E HE _ (fun _ => (el x0 0 - mu 0%nat) * (el x0 0 - mu 0%nat))) by reflexivity]; rewrite E_const by auto; unfold const_mean; cbn; ring.
  - destruct (IH ltac:(lia)) as [IH1 IH2]. destruct (Hst k ltac:(lia)) as [Hu _].
    assert (HU' : unbiased_run s sequence_source uvalue ulikelihoods umodel ugrad A mu T error_bound x0 model0 key0 eps E normal dat (Datatypes.S k)).
    { destruct HU as (U1 & U2 & U3 & U4). split; [exact U1|]. split; [exact U2|]. split; [exact U3|]. intros m Hm. apply U4. lia. }
    destruct (@C77_moments s Hs (nat -> mbatch obs) (mbatch obs) vtree sequence_source uvalue ulikelihoods umodel ugrad Hg A mu lam T error_bound x0 model0 key0 Hpd HT Hx eps W E normal dat k HU' ltac:(rewrite Heps; lra)) as [M1 M2].
    specialize (M1 0%nat D0). specialize (M2 0%nat 0%nat D0 D0). cbv zeta in M2. fold y in M1, M2. rewrite Hdim in M1, M2. rewrite !Heps in *.
    unfold sum_upto in M1, M2. cbn [seq map fold_right] in M1, M2.
    assert (HH : E (fun w => h k w 0%nat * h k w 0%nat) = batch_noise resid resid - 2 * batch_noise resid prec * const_mean k + batch_noise prec prec * const_var k).
    { rewrite (@E_ext W E HE _ (fun w => 1 * ((fun t => coef0 0 t * coef0 0 t) (idx k w)) + (2 * (y k w 0%nat * ((fun t => coef0 0 t * coef1 0 0 t) (idx k w))) + (y k w 0%nat * y k w 0%nat) * ((fun t => coef1 0 0 t * coef1 0 0 t) (idx k w))))).
      2:{ intros w. rewrite Hh by auto. rewrite Hdim. unfold sum_upto. cbn [seq map fold_right]. ring. }
      rewrite (@E_plus W E HE), (@E_plus W E HE), (@E_scale W E HE 2).
      rewrite (Hu (fun _ => 1) (fun t => coef0 0 t * coef0 0 t)) by apply known_const.
      rewrite (Hu (fun w => y k w 0%nat) (fun t => coef0 0 t * coef1 0 0 t)) by (apply Hy; auto).
      rewrite (Hu (fun w => y k w 0%nat * y k w 0%nat) (fun t => coef1 0 0 t * coef1 0 0 t)) by (apply known_mult; apply Hy; auto).
      rewrite V1, V2, V3, HE1, IH1, IH2. ring. }
    split.
    + rewrite M1, IH1. unfold const_mean. cbn [pow]. ring.
    + rewrite M2. fold h. rewrite HH, IH2. cbn [const_var]. unfold unit_matrix. cbn [Nat.eqb]. ring.
Qed.
Lemma const_mean_limit : Rabs (1 - e * A 0%nat 0%nat) < 1 -> vanishing (fun n => Rabs (const_mean n)).
Proof.
  intros Hq d Hd0. set (m0 := el x0 0 - mu 0%nat). destruct (pow_lt_1_zero _ Hq (d / (1 + Rabs m0))) as [n0 Hn0]; [apply Rdiv_lt_0_compat; [lra|pose proof (Rabs_pos m0); lra]|].
  exists n0. intros n Hn. specialize (Hn0 n Hn). unfold const_mean. fold m0. rewrite Rabs_mult. pose proof (Rabs_pos m0). pose proof (Rabs_pos ((1 - e * A 0%nat 0%nat) ^ n)).
  apply Rle_trans with (d / (1 + Rabs m0) * (1 + Rabs m0)); [apply Rmult_le_compat; lra|right; field; lra].
Qed.
Lemma pos_a : 0 < A 0%nat 0%nat.
Proof.
  destruct Hpd as (_ & Hlam & Hco). specialize (Hco (fun _ => 1)). rewrite Hdim in Hco. unfold norm2, matvec, sum_upto in Hco. cbn in Hco. lra.
Qed.
Lemma noise_nonneg f : 0 <= batch_noise f f.
Proof.
  assert (P : 0 < INR mb) by (apply lt_0_INR; exact Hmb). assert (PN' : 0 < INR N) by (apply lt_0_INR; exact HN0). unfold batch_noise, pop_cov.
  apply Rmult_le_pos; [apply Rmult_le_pos; [nra|left; apply Rinv_0_lt_compat; apply Rmult_lt_0_compat; [exact P|apply Rmult_lt_0_compat; exact HTp]]|]. apply Rmult_le_pos; [|left; apply Rinv_0_lt_compat; lra]. apply sum_upto_nonneg. intros k _. apply Rle_0_sqr.
Qed.
(** below the stability limit the mean is right and the variance converges to an explicit value: above T / a, by a bias that shrinks with the step size *)
Theorem C88_constant_step : let a := A 0%nat 0%nat in e * (a * a + batch_noise prec prec) < 2 * a ->
  let v := (2 * T + e * batch_noise resid resid) / (2 * a - e * (a * a + batch_noise prec prec)) in
  T / a <= v /\ (0 < T -> T / a < v) /\ forall delta, 0 < delta ->
  exists n0, forall n, (n0 <= n)%nat -> forall W (E : (W -> R) -> R) (normal : W -> key -> list nat -> list R) Data (get_data : W -> Data -> Data * mbatch obs) (d0 : W -> Data) (idx : nat -> W -> list nat),
    (forall w, normal_ok (normal w)) -> (forall k w, length (idx k w) = mb /\ Forall (fun i => (i < N)%nat) (idx k w)) ->
    (forall k w, batch_no (get_data w) (d0 w) k = batch_at data (idx k w)) ->
    independent_run idx (fun k w => xi (normal w) (Sub (chain key0 k) 1) s) (dim s) E N mb n ->
    let x := fun w => el (l_pos (sgld_state (normal w) (get_data w) uvalue ulikelihoods umodel ugrad eps T (lv_init x0 (Some key0) None (d0 w) model0) n)) 0 in
    Rabs (E x - mu 0%nat) <= delta /\ Rabs (E (fun w => (x w - mu 0%nat) * (x w - mu 0%nat)) - v) <= delta.
Proof.
  intros a Hst v. pose proof pos_a as Pa. fold a in Pa. pose proof (noise_nonneg prec) as PV. pose proof (noise_nonneg resid) as PR.
  set (q := (1 - e * a) * (1 - e * a) + e * e * batch_noise prec prec).
  assert (Pden : 0 < 2 * a - e * (a * a + batch_noise prec prec)) by lra.
  assert (PEV : 0 <= e * e * batch_noise prec prec) by (apply Rmult_le_pos; [apply Rmult_le_pos; lra|exact PV]).
  assert (Hq1 : q < 1) by (assert (0 < e * (2 * a - e * (a * a + batch_noise prec prec))) by (apply Rmult_lt_0_compat; assumption); unfold q; lra).
  assert (Hq0 : 0 <= q) by (unfold q; pose proof (Rle_0_sqr (1 - e * a)) as Hsq; unfold Rsqr in Hsq; lra).
  assert (Hm : Rabs (1 - e * a) < 1) by (assert (Hp2 : (1 - e * a) * (1 - e * a) < 1) by (unfold q in Hq1; lra); clear - Hp2; set (p := 1 - e * a) in *; apply Rabs_def1; nra).
  assert (VB : v - T / a = e * (a * batch_noise resid resid + T * (a * a + batch_noise prec prec)) / (a * (2 * a - e * (a * a + batch_noise prec prec)))) by (unfold v; field; lra).
  split; [|split].
  { assert (0 <= v - T / a); [|lra]. rewrite VB. apply Rmult_le_pos; [|left; apply Rinv_0_lt_compat; apply Rmult_lt_0_compat; assumption]. apply Rmult_le_pos; [lra|]. apply Rplus_le_le_0_compat; apply Rmult_le_pos; try lra. pose proof (Rle_0_sqr a) as Hsq; unfold Rsqr in Hsq; lra. }
  { intros PT. assert (0 < v - T / a); [|lra]. rewrite VB. apply Rdiv_lt_0_compat; [|apply Rmult_lt_0_compat; assumption]. apply Rmult_lt_0_compat; [lra|]. assert (0 < a * a) by (apply Rmult_lt_0_compat; assumption). assert (0 < T * (a * a + batch_noise prec prec)) by (apply Rmult_lt_0_compat; lra). assert (0 <= a * batch_noise resid resid) by (apply Rmult_le_pos; lra). lra. }
  intros delta Hdelta. pose proof (const_mean_limit Hm) as L1.
  set (K := 2 * (e * e) * batch_noise resid prec).
  assert (L2 : vanishing (fun n => Rabs (const_var n - v))).
  { apply (@contraction_limit _ (fun _ => 1 - q) (fun n => Rabs K / (1 - q) * Rabs (const_mean n)) 0).
    - intros n _. split; [lra|]. cbn [const_var]. fold a. fold q.
      replace (q * const_var n + 2 * T * e + e * e * batch_noise resid resid - 2 * (e * e) * batch_noise resid prec * const_mean n - v) with (q * (const_var n - v) + - (K * const_mean n)).
      2:{ unfold K. assert (VE : (1 - q) * v = 2 * T * e + e * e * batch_noise resid resid) by (unfold q, v; field; lra). lra. }
      eapply Rle_trans; [apply Rabs_triang|]. rewrite Rabs_Ropp, !Rabs_mult, (Rabs_pos_eq q) by auto. right. field. lra.
    - intros d Hd0. destruct (L1 (d / (1 + Rabs K / (1 - q)))) as [m Hm']. { assert (0 <= Rabs K / (1 - q)) by (apply Rmult_le_pos; [apply Rabs_pos|left; apply Rinv_0_lt_compat; lra]). apply Rdiv_lt_0_compat; lra. }
      exists m. intros n Hn. specialize (Hm' n Hn). set (k := Rabs K / (1 - q)) in *. assert (0 <= k) by (apply Rmult_le_pos; [apply Rabs_pos|left; apply Rinv_0_lt_compat; lra]).
      apply Rle_trans with ((1 + k) * (d / (1 + k))); [|right; field; lra]. apply Rmult_le_compat; try lra. apply Rabs_pos.
    - intros M. destruct (archimed_cor1 ((1 - q) / (1 + Rabs M))) as (m & Hm1 & Hm2). { pose proof (Rabs_pos M). apply Rdiv_lt_0_compat; lra. }
      exists m. intros n Hn. rewrite sum_const. pose proof (Rabs_pos M). apply le_INR in Hn. assert (Pm : 0 < INR m) by (apply lt_0_INR; lia).
      assert (1 + Rabs M < INR m * (1 - q)). { apply (Rmult_lt_compat_l (INR m * (1 + Rabs M))) in Hm1; [|apply Rmult_lt_0_compat; lra]. replace (INR m * (1 + Rabs M) * / INR m) with (1 + Rabs M) in Hm1 by (field; lra). replace (INR m * (1 + Rabs M) * ((1 - q) / (1 + Rabs M))) with (INR m * (1 - q)) in Hm1 by (field; lra). exact Hm1. }
      pose proof (Rle_abs M). assert (INR m * (1 - q) <= INR n * (1 - q)) by (apply Rmult_le_compat_r; lra). lra. }
  destruct (L1 delta Hdelta) as [n1 H1]. destruct (L2 delta Hdelta) as [n2 H2']. exists (n1 + n2)%nat. intros n Hn W E normal Data get_data d0 idx Hnorm Hidx Hbat HI x.
  assert (Hin : forall k w, In (idx k w) (tuples mb N)) by (intros; apply tuples_spec; apply Hidx).
  destruct (@const_moments W E normal idx n Hnorm Hin HI n (le_n n)) as [M1 M2].
  set (dat := fun (w : W) (k : nat) => batch_at data (idx k w)) in *.
  assert (EQ : forall w, x w - mu 0%nat = dev sequence_source uvalue ulikelihoods umodel ugrad mu T x0 model0 key0 eps normal dat n w 0%nat).
  { intros w. unfold x, dev, at_. f_equal. f_equal. apply sgld_sequence. intros k. unfold dat. now rewrite Hbat. }
  destruct HI as (HE & HE1 & _). specialize (H1 n ltac:(lia)). specialize (H2' n ltac:(lia)). split.
  - replace (E x - mu 0%nat) with (const_mean n); [exact H1|]. rewrite <- M1. rewrite (@E_ext W E HE (fun w => dev _ _ _ _ _ _ _ _ _ _ _ _ _ _ _ _) (fun w => x w + (fun _ => - mu 0%nat) w)) by (intros w; rewrite <- EQ; ring).
    rewrite (@E_plus W E HE x (fun _ => - mu 0%nat)), (@E_const W E (- mu 0%nat) HE HE1). ring.
  - rewrite (@E_ext W E HE _ (fun w => dev sequence_source uvalue ulikelihoods umodel ugrad mu T x0 model0 key0 eps normal dat n w 0%nat * dev sequence_source uvalue ulikelihoods umodel ugrad mu T x0 model0 key0 eps normal dat n w 0%nat)) by (intros w; now rewrite EQ).
    rewrite M2. exact H2'.
Qed.
(** above the stability limit, the noise of the batches makes the variance diverge, even for a step size for which SGLD with exact gradients is stable (e a < 2) *)
Theorem C88_unstable : let a := A 0%nat 0%nat in 0 < T -> e * a < 2 -> 2 * a <= e * (a * a + batch_noise prec prec) -> forall M,
  exists n0, forall n, (n0 <= n)%nat -> forall W (E : (W -> R) -> R) (normal : W -> key -> list nat -> list R) Data (get_data : W -> Data -> Data * mbatch obs) (d0 : W -> Data) (idx : nat -> W -> list nat),
    (forall w, normal_ok (normal w)) -> (forall k w, length (idx k w) = mb /\ Forall (fun i => (i < N)%nat) (idx k w)) ->
    (forall k w, batch_no (get_data w) (d0 w) k = batch_at data (idx k w)) ->
    independent_run idx (fun k w => xi (normal w) (Sub (chain key0 k) 1) s) (dim s) E N mb n ->
    let x := fun w => el (l_pos (sgld_state (normal w) (get_data w) uvalue ulikelihoods umodel ugrad eps T (lv_init x0 (Some key0) None (d0 w) model0) n)) 0 in
    M <= E (fun w => (x w - mu 0%nat) * (x w - mu 0%nat)).
Proof.
  intros a PT Hst1 Hst2 M. pose proof pos_a as Pa. fold a in Pa. pose proof (noise_nonneg prec) as PV. pose proof (noise_nonneg resid) as PR.
  set (q := (1 - e * a) * (1 - e * a) + e * e * batch_noise prec prec). assert (Hq1 : 1 <= q) by (assert (0 <= e * (e * (a * a + batch_noise prec prec) - 2 * a)) by (apply Rmult_le_pos; lra); unfold q; lra).
  assert (Hm : Rabs (1 - e * a) < 1) by (assert (0 < e * a) by (apply Rmult_lt_0_compat; assumption); apply Rabs_def1; lra). pose proof (const_mean_limit Hm) as L1. set (K := 2 * (e * e) * batch_noise resid prec).
  assert (Pte : 0 < T * e) by (apply Rmult_lt_0_compat; assumption).
  destruct (L1 (T * e / (1 + Rabs K))) as [n1 H1]. { pose proof (Rabs_pos K). apply Rdiv_lt_0_compat; lra. }
  assert (Gr : forall n, (n1 <= n)%nat -> 0 <= const_var n -> const_var n + T * e <= const_var (Datatypes.S n)).
  { intros n Hn Hc. specialize (H1 n Hn). cbn [const_var]. fold a. fold q. fold K. assert (B0' : Rabs (K * const_mean n) <= T * e).
    { rewrite Rabs_mult. pose proof (Rabs_pos K). apply Rle_trans with ((1 + Rabs K) * (T * e / (1 + Rabs K))); [|right; field; lra]. apply Rmult_le_compat; try lra; apply Rabs_pos. }
    pose proof (Rle_abs (K * const_mean n)). assert (0 <= e * e * batch_noise resid resid) by (apply Rmult_le_pos; [apply Rmult_le_pos; lra|exact PR]). assert (0 <= (q - 1) * const_var n) by (apply Rmult_le_pos; lra). lra. }
  destruct (archimed_cor1 (T * e / (1 + Rabs M))) as (n2 & Hn2 & Pn2). { pose proof (Rabs_pos M). apply Rdiv_lt_0_compat; lra. }
  exists (n1 + n2)%nat. intros n Hn W E normal Data get_data d0 idx Hnorm Hidx Hbat HI x.
  assert (Hin : forall k w, In (idx k w) (tuples mb N)) by (intros; apply tuples_spec; apply Hidx).
  pose proof (@const_moments W E normal idx n Hnorm Hin HI) as MM. pose proof (@minibatch_run W E normal idx n Hnorm Hin HI) as MR. cbv zeta in MM, MR.
  set (dat := fun (w : W) (k : nat) => batch_at data (idx k w)) in *. destruct MR as (_ & Hy & _).
  assert (EQ : forall w, x w - mu 0%nat = dev sequence_source uvalue ulikelihoods umodel ugrad mu T x0 model0 key0 eps normal dat n w 0%nat).
  { intros w. unfold x, dev, at_. f_equal. f_equal. apply sgld_sequence. intros k. unfold dat. now rewrite Hbat. }
  destruct HI as (HE & HE1 & Hpos & _).
  assert (PC : forall k, (k <= n)%nat -> 0 <= const_var k).
  { intros k Hk'. rewrite <- (proj2 (MM k Hk')). apply Hpos; [|intros w; apply Rle_0_sqr]. assert (D0 : (0 < dim s)%nat) by (rewrite Hdim; lia). apply known_mult; (eapply known_mono; [exact Hk'|exact Hk'|]); apply Hy; exact D0. }
  assert (GG : forall m, (n1 + m <= n)%nat -> INR m * (T * e) <= const_var (n1 + m)).
  { induction m as [|m IH]; intros Hm'; [rewrite Nat.add_0_r; cbn; rewrite Rmult_0_l; apply PC; lia|]. rewrite S_INR, Nat.add_succ_r. specialize (IH ltac:(lia)). pose proof (Gr (n1 + m)%nat ltac:(lia) (PC (n1 + m)%nat ltac:(lia))). lra. }
  rewrite (@E_ext W E HE _ (fun w => dev sequence_source uvalue ulikelihoods umodel ugrad mu T x0 model0 key0 eps normal dat n w 0%nat * dev sequence_source uvalue ulikelihoods umodel ugrad mu T x0 model0 key0 eps normal dat n w 0%nat)) by (intros w; now rewrite EQ).
  rewrite (proj2 (MM n (le_n n))). specialize (GG (n - n1)%nat ltac:(lia)). replace (n1 + (n - n1))%nat with n in GG by lia. eapply Rle_trans; [|exact GG].
  assert (NN : INR n2 <= INR (n - n1)) by (apply le_INR; lia). assert (Pm : 0 < INR n2) by (apply lt_0_INR; lia). pose proof (Rabs_pos M).
  assert (1 + Rabs M < INR n2 * (T * e)). { apply (Rmult_lt_compat_l (INR n2 * (1 + Rabs M))) in Hn2; [|apply Rmult_lt_0_compat; lra]. replace (INR n2 * (1 + Rabs M) * / INR n2) with (1 + Rabs M) in Hn2 by (field; lra). replace (INR n2 * (1 + Rabs M) * (T * e / (1 + Rabs M))) with (INR n2 * (T * e)) in Hn2 by (field; lra). exact Hn2. }
  pose proof (Rle_abs M). assert (INR n2 * (T * e) <= INR (n - n1) * (T * e)) by (apply Rmult_le_compat_r; lra). lra.
Qed.
End Constant.
End C87.

(** ** the hypotheses can be met for every number of steps: two coins per step, one for the observation, one for the noise *)
(** auxiliary definition of a statement or a proof; models no code of /repo *)
Fixpoint coins (n : nat) (X : list (bool * bool) -> R) : R :=
  match n with O => X [] | S m => coins m (fun w => (X (w ++ [(true, true)]) + X (w ++ [(true, false)]) + X (w ++ [(false, true)]) + X (w ++ [(false, false)])) / 4) end.
Lemma coins_ext n X Y : (forall w, length w = n -> X w = Y w) -> coins n X = coins n Y.
Proof. revert X Y. induction n as [|n IH]; intros X Y H; [apply H; reflexivity|]. cbn [coins]. apply IH. intros w Hw. rewrite !H by (rewrite app_length; cbn; lia). reflexivity. Qed.
Lemma coins_plus n X Y : coins n (fun w => X w + Y w) = coins n X + coins n Y.
Proof. revert X Y. induction n as [|n IH]; intros X Y; [reflexivity|]. cbn [coins]. rewrite <- IH. apply coins_ext. intros w _. field. Qed.
Lemma coins_scale n a X : coins n (fun w => a * X w) = a * coins n X.
Proof. revert X. induction n as [|n IH]; intros X; [reflexivity|]. cbn [coins]. rewrite <- IH. apply coins_ext. intros w _. field. Qed.
Lemma coins_nonneg n X : (forall w, 0 <= X w) -> 0 <= coins n X.
Proof. revert X. induction n as [|n IH]; intros X H; [apply H|]. cbn [coins]. apply IH. intros w. pose proof (H (w ++ [(true, true)])). pose proof (H (w ++ [(true, false)])). pose proof (H (w ++ [(false, true)])). pose proof (H (w ++ [(false, false)])). lra. Qed.
Lemma coins_one n : coins n (fun _ => 1) = 1.
Proof. induction n as [|n IH]; [reflexivity|]. cbn [coins]. transitivity (coins n (fun _ => 1)); [|exact IH]. apply coins_ext. intros. field. Qed.
(** a variable that depends on the first k coins only *)
Lemma coins_prefix n k X : (k <= n)%nat -> (forall w, X w = X (firstn k w)) -> coins n X = coins k X.
Proof.
  intros Hk HX. revert X HX. induction n as [|n IH]; intros X HX; [assert (k = O) by lia; now subst|]. destruct (Nat.eq_dec k (S n)) as [->|Hne]; [reflexivity|].
  rewrite <- IH by (auto; lia). cbn [coins]. apply coins_ext. intros w Hw.
  assert (P : forall c, X (w ++ [c]) = X w) by (intros c; rewrite (HX (w ++ [c])), (HX w); f_equal; rewrite firstn_app; replace (k - length w)%nat with O by lia; cbn; apply app_nil_r).
  rewrite !P. field.
Qed.
(** auxiliary definition of a statement or a proof; models no code of /repo *)
Fixpoint depth (k : key) : nat := match k with PRNGKey _ => O | Sub k' _ => S (depth k') end.
(** auxiliary definition of a statement or a proof; models no code of /repo *)
Definition sign (b : bool) : R := if b then 1 else -1.
(** auxiliary definition of a statement or a proof; models no code of /repo *)
Definition coin_idx (k : nat) (w : list (bool * bool)) : list nat := [if fst (nth k w (true, true)) then 1%nat else 0%nat].
(** auxiliary definition of a statement or a proof; models no code of /repo *)
Definition coin_normal (w : list (bool * bool)) (k : key) (sh : list nat) : list R := repeat (sign (snd (nth (depth k - 2) w (true, true)))) (size sh).
Lemma depth_chain k : depth (chain (PRNGKey 0) k) = k.
Proof. induction k as [|k IH]; [reflexivity|]. cbn [chain depth]. now rewrite IH. Qed.
Lemma coin_noise k w : xi (coin_normal w) (Sub (chain (PRNGKey 0) k) 1) (Leaf (mkArr [] [0])) 0 = sign (snd (nth k w (true, true))).
Proof. unfold xi. cbn. unfold coin_normal. cbn [depth]. rewrite depth_chain. cbn. now rewrite ?Nat.sub_0_r. Qed.
Lemma firstn_nth A (w : list A) a j d : (j < a)%nat -> nth j (firstn a w) d = nth j w d.
Proof. revert w j. induction a as [|a IH]; intros [|x w] [|j] H; cbn; auto; try lia. apply IH. lia. Qed.
Section Coins.
Notation z := (fun k w => xi (coin_normal w) (Sub (chain (PRNGKey 0) k) 1) (Leaf (mkArr [] [0]))).
(** what is known after a batches and b <= a steps depends on the observations of a steps and the noise of b steps *)
Lemma coin_known a b F : known coin_idx z 1 a b F -> forall w w', (forall k, (k < a)%nat -> fst (nth k w (true, true)) = fst (nth k w' (true, true))) ->
  (forall k, (k < b)%nat -> snd (nth k w (true, true)) = snd (nth k w' (true, true))) -> F w = F w'.
Proof.
  intros HF w w' H1 H2. induction HF as [c|k g Hk|k i Hk Hi|F G _ IF _ IG|F G _ IF _ IG|F G HE _ IF].
  - reflexivity.
  - unfold coin_idx. now rewrite H1.
  - assert (i = O) by lia. subst i. now rewrite !coin_noise, H2.
  - now rewrite IF, IG.
  - now rewrite IF, IG.
  - now rewrite <- !HE.
Qed.
Lemma coin_independent n : independent_run coin_idx z 1 (coins n) 2 1 n.
Proof.
  split; [split; [intros X Y H; apply coins_ext; intros; apply H|split; [apply coins_plus|apply coins_scale]]|]. split; [apply coins_one|]. split; [intros F _ HF; now apply coins_nonneg|].
  intros k Hk. split.
  - intros F g HF.
    assert (PF : forall w, F w = F (firstn k w)) by (intros w; apply (coin_known HF); intros j Hj; now rewrite firstn_nth).
    rewrite (@coins_prefix n (S k) (fun w => F w * g (coin_idx k w))); [|lia|].
    2:{ intros w. unfold coin_idx. rewrite firstn_nth by lia. f_equal. apply (coin_known HF); intros j Hj; rewrite firstn_nth; auto; lia. }
    rewrite (@coins_prefix n k F) by (auto; lia). cbn [coins].
    rewrite Rmult_comm, <- coins_scale. apply coins_ext. intros w Hw.
    assert (P : forall c, F (w ++ [c]) = F w) by (intros c; rewrite (PF (w ++ [c])), (PF w); f_equal; rewrite firstn_app; replace (k - length w)%nat with O by lia; cbn; apply app_nil_r).
    rewrite !P. unfold coin_idx. rewrite !app_nth2 by lia. rewrite Hw, Nat.sub_diag. cbn. unfold average, rsum. cbn. field.
  - intros F HF i j Hi Hj. assert (i = O) by lia. assert (j = O) by lia. subst i j.
    assert (P : forall w c, length w = k -> F (w ++ [(c, true)]) = F (w ++ [(c, false)])).
    { intros w c Hw. apply (coin_known HF); intros m Hm.
      - destruct (Nat.eq_dec m k) as [->|Hne]; [rewrite !app_nth2 by lia; rewrite Hw, Nat.sub_diag; reflexivity|]. rewrite !app_nth1 by lia. reflexivity.
      - rewrite !app_nth1 by lia. reflexivity. }
    assert (Q : forall w, F w = F (firstn (S k) w)) by (intros w; apply (coin_known HF); intros m Hm; rewrite firstn_nth; auto; lia).
    split.
    + rewrite (@coins_prefix n (S k)); [|lia|].
      2:{ intros w. rewrite !coin_noise, firstn_nth by lia. now rewrite <- Q. }
      cbn [coins]. rewrite (@coins_ext k _ (fun w => 0 * 1)); [rewrite (coins_scale k 0 (fun _ => 1)); ring|].
      intros w Hw. rewrite !coin_noise, !app_nth2 by lia. rewrite Hw, Nat.sub_diag. cbn [nth snd sign]. rewrite !(P w) by auto. field.
    + rewrite (@coins_ext n _ F); [unfold unit_matrix; cbn; ring|]. intros w _. rewrite !coin_noise. unfold sign. destruct (snd (nth k w (true, true))); ring.
Qed.
End Coins.
(** a user's model of one parameter x with prior N(0, 1) and two observations 20 and 21 of variance one: posterior mean 41/3, posterior variance 1/3 *)
Example C87_nonvacuous : let s := Leaf (mkArr [] [0]) in let data := [("y"%string, [20%nat; 21%nat])] in let pot := potential_function ex_prior ex_lik true 1 in
  let get_data := fun w n => (S n, batch_at data (coin_idx n w)) in
  forall delta, 0 < delta -> exists n0, forall n, (n0 <= n)%nat ->
    let x := fun w => el (l_pos (sgld_state (coin_normal w) (get_data w) (user_value true pot 2) (user_likelihoods true pot 2) (user_model true pot 2) (user_grad true pot 2 (derive_grad s))
      (fun n => 0.5 * Rpower (1 + INR n) (- (0.33))) 1 (lv_init (Leaf (mkArr [] [7])) (Some (PRNGKey 0)) None 0%nat (Leaf (mkArr [] [1]))) n)) 0 in
    Rabs (coins n (fun w => x w) - 41 / 3) <= delta /\ Rabs (coins n (fun w => (x w - 41 / 3) * (x w - 41 / 3)) - 1 * (1 / 3)) <= delta.
Proof.
  intros s data pot get_data delta Hdelta.
  assert (Hs : wfv s) by (constructor; [reflexivity|constructor]).
  assert (D : dim s = 1%nat) by reflexivity.
  assert (Q : forall y : R, quadratic s (fun x => - (y - el x 0) * (y - el x 0) / 2) (- y * y / 2) (fun _ => y) (fun _ _ => 1)) by (intros y; split; [reflexivity|]; intros x _; rewrite D; unfold sum_upto; cbn; field).
  destruct (@C87_polynomial s Hs nat ex_prior ex_lik true 1 PMap pot eq_refl ex_l) with (jgrad := derive_grad s) (data := data) (N := 2%nat) (mb := 1%nat)
    (c0 := fun (_ : option vtree) r => - ex_obs r * ex_obs r / 2) (b0 := fun r (_ : nat) => ex_obs r) (H0 := fun (_ : orow nat) (_ _ : nat) => 1) (cp := 0) (bp := fun _ : nat => 0) (Hp := fun _ _ : nat => 1)
    (A := fun _ _ : nat => 3) (B := fun _ _ : nat => 1 / 3) (mu := fun _ : nat => 41 / 3) (lam := 3) (T := 1) (x0 := Leaf (mkArr [] [7])) (model0 := Leaf (mkArr [] [1])) (key0 := PRNGKey 0)
    (eps := fun n => 0.5 * Rpower (1 + INR n) (- (0.33))) (a := 0.5) (b := 1) (g := 0.33) (delta := delta) as (n0 & H); try lra; try lia; auto.
  { intros st x r. reflexivity. }
  { intros _ m x r. exists (ex_double m). split; [reflexivity|]. destruct m; reflexivity. }
  { apply derive_grad_exact. exact Hs. }
  { discriminate. }
  { intros ka [<-|[]]. reflexivity. }
  { intros st k _. apply Q. }
  { destruct (Q 0) as [Q1 Q2]. split; [exact Q1|]. intros x Hx. unfold ex_prior. specialize (Q2 x Hx). cbv beta in Q2. transitivity (- (0 - el x 0) * (0 - el x 0) / 2); [field|]. rewrite Q2. f_equal. f_equal. field. }
  { intros i j _ _. unfold sum_upto. cbn. field. }
  { split; [auto|]. split; [lra|]. intros v. rewrite D. unfold norm2, matvec, sum_upto. cbn. right. ring. }
  { intros i j Hi Hj. rewrite D in *. assert (i = O) by lia. assert (j = O) by lia. subst. unfold sum_upto, unit_matrix. cbn. lra. }
  { intros i _. rewrite D. unfold matvec, sum_upto. cbn. field. }
  { split; [repeat constructor|split; reflexivity]. }
  exists n0. intros n Hn x.
  apply (H n Hn (list (bool * bool)) (coins n) coin_normal nat get_data (fun _ => 0%nat) coin_idx).
  - intros w k sh. apply repeat_length.
  - intros k w. unfold coin_idx. split; [reflexivity|]. constructor; [destruct (fst _); lia|constructor].
  - intros k w. unfold batch_no. rewrite (@drawn_count nat (fun n => n) _ (get_data w) 0%nat k) by reflexivity. reflexivity.
  - apply coin_independent.
  - rewrite D. lia.
  - rewrite D. lia.
Qed.
(** the same model with the constant step size 1/10: the variance tends to 7/17 instead of 1/3 *)
Example C88_nonvacuous_stable : let s := Leaf (mkArr [] [0]) in let data := [("y"%string, [20%nat; 21%nat])] in let pot := potential_function ex_prior ex_lik true 1 in
  let get_data := fun w n => (S n, batch_at data (coin_idx n w)) in
  forall delta, 0 < delta -> exists n0, forall n, (n0 <= n)%nat ->
    let x := fun w => el (l_pos (sgld_state (coin_normal w) (get_data w) (user_value true pot 2) (user_likelihoods true pot 2) (user_model true pot 2) (user_grad true pot 2 (derive_grad s))
      (fun _ => 1 / 10) 1 (lv_init (Leaf (mkArr [] [7])) (Some (PRNGKey 0)) None 0%nat (Leaf (mkArr [] [1]))) n)) 0 in
    Rabs (coins n x - 41 / 3) <= delta /\ Rabs (coins n (fun w => (x w - 41 / 3) * (x w - 41 / 3)) - 7 / 17) <= delta.
Proof.
  intros s data pot get_data delta Hdelta.
  assert (Hs : wfv s) by (constructor; [reflexivity|constructor]).
  assert (D : dim s = 1%nat) by reflexivity.
  assert (Q : forall y : R, quadratic s (fun x => - (y - el x 0) * (y - el x 0) / 2) (- y * y / 2) (fun _ => y) (fun _ _ => 1)) by (intros y; split; [reflexivity|]; intros x _; rewrite D; unfold sum_upto; cbn; field).
  assert (V1 : batch_noise 1 2 1 (fun _ => 1) (fun _ => 1) = 0) by (unfold batch_noise, pop_cov, pop_mean, sum_upto; cbn; field).
  assert (V2 : batch_noise 1 2 1 (fun k => ex_obs (row data k) - 1 * (41 / 3)) (fun k => ex_obs (row data k) - 1 * (41 / 3)) = 1).
  { unfold batch_noise, pop_cov, pop_mean, sum_upto. cbn. field. }
  destruct (@C88_constant_step s Hs nat ex_prior ex_lik true 1 PMap pot eq_refl ex_l) with (jgrad := derive_grad s) (data := data) (N := 2%nat) (mb := 1%nat)
    (c0 := fun (_ : option vtree) r => - ex_obs r * ex_obs r / 2) (b0 := fun r (_ : nat) => ex_obs r) (H0 := fun (_ : orow nat) (_ _ : nat) => 1) (cp := 0) (bp := fun _ : nat => 0) (Hp := fun _ _ : nat => 1)
    (A := fun _ _ : nat => 3) (mu := fun _ : nat => 41 / 3) (lam := 3) (T := 1) (x0 := Leaf (mkArr [] [7])) (model0 := Leaf (mkArr [] [1])) (key0 := PRNGKey 0)
    (eps := fun _ : nat => 1 / 10) (e := 1 / 10) as (_ & _ & H); try lra; try lia; auto.
  { intros st x r. reflexivity. }
  { intros _ m x r. exists (ex_double m). split; [reflexivity|]. destruct m; reflexivity. }
  { apply derive_grad_exact. exact Hs. }
  { discriminate. }
  { intros ka [<-|[]]. reflexivity. }
  { intros st k _. apply Q. }
  { destruct (Q 0) as [Q1 Q2]. split; [exact Q1|]. intros x Hx. unfold ex_prior. specialize (Q2 x Hx). cbv beta in Q2. transitivity (- (0 - el x 0) * (0 - el x 0) / 2); [field|]. rewrite Q2. f_equal. f_equal. field. }
  { intros i j _ _. unfold sum_upto. cbn. field. }
  { split; [auto|]. split; [lra|]. intros v. rewrite D. unfold norm2, matvec, sum_upto. cbn. right. ring. }
  { intros i _. rewrite D. unfold matvec, sum_upto. cbn. field. }
  { split; [repeat constructor|split; reflexivity]. }
  destruct (H delta Hdelta) as [n0 Hn0]. exists n0. intros n Hn x.
  replace (7 / 17) with ((2 * 1 + 1 / 10 * 1) / (2 * 3 - 1 / 10 * (3 * 3 + 0))) by field. rewrite V1, V2 in Hn0.
  apply (Hn0 n Hn (list (bool * bool)) (coins n) coin_normal nat get_data (fun _ => 0%nat) coin_idx).
  - intros w k sh. apply repeat_length.
  - intros k w. unfold coin_idx. split; [reflexivity|]. constructor; [destruct (fst _); lia|constructor].
  - intros k w. unfold batch_no. rewrite (@drawn_count nat (fun n => n) _ (get_data w) 0%nat k) by reflexivity. reflexivity.
  - apply coin_independent.
Qed.
(** auxiliary definitions of an example; model no code of /repo: observations 0 and 2 with the log likelihood - (y x)^2 / 2 *)
Definition ex2_l (st : option vtree) (x : vtree) (r : orow nat) : R := - (ex_obs r * el x 0) * (ex_obs r * el x 0) / 2.
(** auxiliary definition of a statement or a proof; models no code of /repo *)
Definition ex2_lik : lik_fn nat vtree vtree := Single (fun st x r => (ex2_l st x r, option_map ex_double st)).
(** the posterior has precision 5, the step size 3/10 is stable for exact gradients, but with batches of one observation the variance diverges *)
Example C88_nonvacuous_unstable : let s := Leaf (mkArr [] [0]) in let data := [("y"%string, [0%nat; 2%nat])] in let pot := potential_function ex_prior ex2_lik true 1 in
  let get_data := fun w n => (S n, batch_at data (coin_idx n w)) in
  forall M, exists n0, forall n, (n0 <= n)%nat ->
    let x := fun w => el (l_pos (sgld_state (coin_normal w) (get_data w) (user_value true pot 2) (user_likelihoods true pot 2) (user_model true pot 2) (user_grad true pot 2 (derive_grad s))
      (fun _ => 3 / 10) 1 (lv_init (Leaf (mkArr [] [7])) (Some (PRNGKey 0)) None 0%nat (Leaf (mkArr [] [1]))) n)) 0 in
    M <= coins n (fun w => (x w - 0) * (x w - 0)).
Proof.
  intros s data pot get_data M.
  assert (Hs : wfv s) by (constructor; [reflexivity|constructor]).
  assert (D : dim s = 1%nat) by reflexivity.
  assert (Q : forall y : R, quadratic s (fun x => - (y * el x 0) * (y * el x 0) / 2) 0 (fun _ => 0) (fun _ _ => y * y)) by (intros y; split; [reflexivity|]; intros x _; rewrite D; unfold sum_upto; cbn; field).
  assert (V1 : batch_noise 1 2 1 (fun k => ex_obs (row data k) * ex_obs (row data k)) (fun k => ex_obs (row data k) * ex_obs (row data k)) = 16) by (unfold batch_noise, pop_cov, pop_mean, sum_upto; cbn; field).
  destruct (@C88_unstable s Hs nat ex_prior ex2_lik true 1 PMap pot eq_refl ex2_l) with (jgrad := derive_grad s) (data := data) (N := 2%nat) (mb := 1%nat)
    (c0 := fun (_ : option vtree) (_ : orow nat) => 0) (b0 := fun (_ : orow nat) (_ : nat) => 0) (H0 := fun (r : orow nat) (_ _ : nat) => ex_obs r * ex_obs r) (cp := 0) (bp := fun _ : nat => 0) (Hp := fun _ _ : nat => 1)
    (A := fun _ _ : nat => 5) (mu := fun _ : nat => 0) (lam := 5) (T := 1) (x0 := Leaf (mkArr [] [7])) (model0 := Leaf (mkArr [] [1])) (key0 := PRNGKey 0)
    (eps := fun _ : nat => 3 / 10) (e := 3 / 10) (M := M) as (n0 & Hn0); try lra; try lia; auto.
  { intros st x r. reflexivity. }
  { intros _ m x r. exists (ex_double m). split; [reflexivity|]. destruct m; reflexivity. }
  { apply derive_grad_exact. exact Hs. }
  { discriminate. }
  { intros ka [<-|[]]. reflexivity. }
  { intros st k _. apply Q. }
  { destruct (Q 1) as [Q1 Q2]. split; [reflexivity|]. intros x Hx. unfold ex_prior. rewrite D. unfold sum_upto. cbn. field. }
  { intros i j _ _. unfold sum_upto. cbn. field. }
  { split; [auto|]. split; [lra|]. intros v. rewrite D. unfold norm2, matvec, sum_upto. cbn. right. ring. }
  { intros i _. rewrite D. unfold matvec, sum_upto. cbn. field. }
  { split; [repeat constructor|split; reflexivity]. }
  exists n0. intros n Hn x.
  apply (Hn0 n Hn (list (bool * bool)) (coins n) coin_normal nat get_data (fun _ => 0%nat) coin_idx).
  - intros w k sh. apply repeat_length.
  - intros k w. unfold coin_idx. split; [reflexivity|]. constructor; [destruct (fst _); lia|constructor].
  - intros k w. unfold batch_no. rewrite (@drawn_count nat (fun n => n) _ (get_data w) 0%nat k) by reflexivity. reflexivity.
  - apply coin_independent.
Qed.
Print Assumptions C88_constant_step. Print Assumptions C88_unstable. Print Assumptions C88_nonvacuous_stable. Print Assumptions C88_nonvacuous_unstable.
Print Assumptions C87_vanishing_steps. Print Assumptions C87_device. Print Assumptions C87_host. Print Assumptions C87_polynomial. Print Assumptions C87_nonvacuous.
