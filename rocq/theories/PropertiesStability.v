(** C90: SGLD on a strongly log concave model stays near the posterior mode. *)
From Coq Require Import Reals Lra Psatz ZArith String.
From Verif Require Import Base ListUtil NumpyLoader LoaderSpec NumpyLoaderProofs NumpyLoaderApi DeviceData DeviceDataProofs.
From Verif Require Import Pytree PytreeSpec PytreeProofs Io IoSpec IoProofs TreeUtil TreeUtilSpec TreeUtilProofs Integrator IntegratorSpec IntegratorBasics PropertiesIntegrator AliasData.
From Verif Require Import DataCore DataSpec Potential PotentialSpec PotentialProofs UnbiasedProofs VarianceProofs PropertiesPotential LeapfrogVolume EndToEndSpec EndToEndProofs PropertiesEndToEnd PropertiesDeviceAlias.
From Verif Require Import ExpectSpec ExpectProofs GaussianLimit GaussianMatrix GaussianSpec GaussianProofs PropertiesGaussian SghmcGaussian MinibatchSpec MinibatchProofs MinibatchVariance PropertiesMinibatchGaussian ConcaveSpec ConcaveProofs PropertiesContraction StabilitySpec StabilityProofs.
Open Scope R_scope.
Set Implicit Arguments.

Section C90.
Variable s : vtree.
Hypothesis Hs : wfv s.
Variable obs : Type.
(** the user's model: log prior, (batched) log likelihood l, temperature; the potential function of potential.py for it; JAX's gradients.  The likelihood may
    have a state, but its value does not depend on it *)
Variables (prior : vtree -> R) (likelihood : lik_fn obs vtree vtree) (has_state : bool) (Tp : R) (strategy : pot_strategy).
Variable pot : nat -> vtree -> mbatch obs -> option vtree -> option (list bool) -> res (R * list R * option vtree).
Hypothesis Hpot : minibatch_potential prior likelihood has_state Tp strategy = Ok pot.
Variable l : vtree -> orow obs -> R.
Hypothesis Hl : evaluates_with likelihood (fun _ => l).
Hypothesis Hk : keeps_state likelihood has_state.
Variable jgrad : (vtree -> R) -> vtree -> vtree.
Hypothesis Hj : exact_gradients s jgrad.
Hypothesis HTp : 0 < Tp.
(** the data set of N observations and the batch size *)
Variables (data : list (string * list obs)) (N mb : nat).
Hypothesis Hd : data <> [].
Hypothesis HN : forall ka, In ka data -> length (snd ka) = N.
Hypothesis Hmb : (0 < mb)%nat.
(** a batched likelihood is not used with batches of one (C41_batch_of_one_refuted) *)
Hypothesis Hone : is_batched likelihood = true -> mb <> 1%nat.
(** the log likelihood of every observation is concave and the log prior strongly concave; their gradients are Lipschitz continuous *)
Variables (dl : vtree -> orow obs -> nat -> R) (dp : vtree -> nat -> R) (m Ll Lp : R).
Hypothesis Hdl : forall k x, (k < N)%nat -> like s x -> partials s (fun y => l y (row data k)) x (dl x (row data k)).
Hypothesis Hdp : forall x, like s x -> partials s prior x (dp x).
Hypothesis Hlc : forall k, (k < N)%nat -> concave_gradient s (fun x => dl x (row data k)) 0.
Hypothesis Hpc : concave_gradient s dp m.
Hypothesis HLl : 0 <= Ll.
Hypothesis HLp : 0 <= Lp.
Hypothesis Hll : forall k, (k < N)%nat -> lipschitz_gradient s (fun x => dl x (row data k)) Ll.
Hypothesis Hpl : lipschitz_gradient s dp Lp.
Notation uvalue := (user_value has_state pot N).
Notation ulikelihoods := (user_likelihoods has_state pot N).
Notation umodel := (user_model has_state pot N).
Notation ugrad := (user_grad has_state pot N jgrad).
(** moduli of the potential *)
Notation m' := (m / Tp).
Notation L' := ((INR N * Ll + Lp) / Tp).

(** the gradient of the potential of the whole data set *)
(** auxiliary definition of a statement or a proof; models no code of /repo *)
Definition full_gradient (x : vtree) (i : nat) : R := (- sum_upto N (fun k => dl x (row data k) i) - dp x i) / Tp.
Hypothesis HN0 : (0 < N)%nat.
(** the mode of the posterior *)
Variable mode : vtree.
Hypothesis Hmode : like s mode /\ forall i, (i < dim s)%nat -> full_gradient mode i = 0.
Notation pgrad t := (@pgrad obs Tp data N dl dp t).
Lemma full_pgrad x i : full_gradient x i = pgrad (seq 0 N) x i.
Proof using HN0.
  unfold full_gradient, PropertiesContraction.pgrad. rewrite seq_length. rewrite (@sum_upto_ext N (fun j => dl x (row data (nth j (seq 0 N) 0%nat)) i) (fun k => dl x (row data k) i)) by (intros j Hj'; now rewrite seq_nth).
  assert (0 < INR N) by (apply lt_0_INR; exact HN0). f_equal. f_equal. field. apply Rgt_not_eq; assumption.
Qed.
Lemma full_bounds x y : like s x -> like s y -> let u := fun i => el x i - el y i in let g := fun i => full_gradient x i - full_gradient y i in
  m' * norm2 (dim s) u <= sum_upto (dim s) (fun i => g i * u i) /\ norm2 (dim s) g <= L' * L' * norm2 (dim s) u.
Proof using HTp Hlc Hpc HLl HLp Hll Hpl HN0.
  intros Hx Hy u g. destruct (@pgrad_bounds s obs Tp HTp data N dl dp m Ll Lp Hlc Hpc HLl HLp Hll Hpl x y (seq 0 N) Hx Hy) as [B1 B2].
  { rewrite seq_length. exact HN0. } { apply Forall_forall. intros j Hj'. apply in_seq in Hj'. apply Hj'. }
  rewrite (@sum_upto_ext (dim s) (fun i => g i * u i) (fun i => (pgrad (seq 0 N) x i - pgrad (seq 0 N) y i) * u i)) by (intros i Hi; unfold g; rewrite !full_pgrad; reflexivity).
  rewrite (@norm2_ext (dim s) g (fun i => pgrad (seq 0 N) x i - pgrad (seq 0 N) y i)) by (intros i Hi; unfold g; rewrite !full_pgrad; reflexivity). split; assumption.
Qed.
Lemma mode_bounds x : like s x -> let u := fun i => el x i - el mode i in
  m' * norm2 (dim s) u <= dot (dim s) u (full_gradient x) /\ norm2 (dim s) (full_gradient x) <= L' * L' * norm2 (dim s) u.
Proof using HTp Hlc Hpc HLl HLp Hll Hpl HN0 Hmode.
  intros Hx u. destruct Hmode as [Hm1 Hm2]. destruct (full_bounds Hx Hm1) as [B1 B2]. split.
  - eapply Rle_trans; [exact B1|]. right. apply sum_upto_ext. intros i Hi. rewrite (Hm2 i Hi). unfold u. ring.
  - eapply Rle_trans; [|exact B2]. right. apply norm2_ext. intros i Hi. rewrite (Hm2 i Hi). ring.
Qed.

(** the error of the gradient of a batch *)
(** auxiliary definition of a statement or a proof; models no code of /repo *)
Definition herr (t : list nat) (x : vtree) (i : nat) : R := pgrad t x i - full_gradient x i.
Lemma herr_excess t x i : In t (tuples mb N) -> herr t x i = (- / Tp) * excess N mb (fun k => dl x (row data k) i) t.
Proof using HTp Hmb.
  intros Ht. apply tuples_spec in Ht. destruct Ht as [Lt _]. unfold herr, full_gradient, PropertiesContraction.pgrad, excess. rewrite Lt. field. split; apply Rgt_not_eq; [apply lt_0_INR; exact Hmb|exact HTp].
Qed.
Lemma herr_mean x i : average (map (fun t => herr t x i) (tuples mb N)) = 0.
Proof using HTp Hmb HN0.
  rewrite (@average_ext _ (fun t => herr t x i) (fun t => (- / Tp) * excess N mb (fun k => dl x (row data k) i) t)) by (intros t Ht; now apply herr_excess).
  rewrite (average_scale (excess N mb (fun k => dl x (row data k) i))), average_excess by assumption. ring.
Qed.
(** the population variance of the gradients of the log likelihoods at the mode *)
(** auxiliary definition of a statement or a proof; models no code of /repo *)
Definition spread : R := sum_upto (dim s) (fun i => pop_cov N (fun k => dl mode (row data k) i) (fun k => dl mode (row data k) i)).
(** auxiliary definition of a statement or a proof; models no code of /repo *)
Definition batch_factor : R := 2 * (INR N * INR N / INR mb) / (Tp * Tp).
Lemma batch_factor_nonneg : 0 <= batch_factor.
Proof using HTp Hmb.
  unfold batch_factor. apply Rmult_le_pos; [|left; apply Rinv_0_lt_compat; apply Rmult_lt_0_compat; exact HTp]. apply Rmult_le_pos; [left; apply Rlt_0_2|]. apply Rmult_le_pos; [apply Rmult_le_pos; apply pos_INR|left; apply Rinv_0_lt_compat; apply lt_0_INR; exact Hmb].
Qed.
Lemma spread_nonneg : 0 <= spread.
Proof using HN0. apply sum_upto_nonneg. intros i _. apply Rmult_le_pos; [apply sum_upto_nonneg; intros; apply Rle_0_sqr|left; apply Rinv_0_lt_compat; apply lt_0_INR; exact HN0]. Qed.
(** it grows at most linearly with the distance from the mode and is of the order 1 / sqrt mb *)
Theorem C90_noise_bound : forall x, like s x ->
  average (map (fun t => sum_upto (dim s) (fun i => herr t x i * herr t x i)) (tuples mb N)) <= batch_factor * (Ll * Ll * distance2 s x mode + spread).
Proof using HTp Hmb HN0 Hll Hmode.
  intros x Hx. destruct Hmode as [Hm1 _]. rewrite (@average_sum _ (dim s) (fun i t => herr t x i * herr t x i)).
  set (c := INR N * INR N / INR mb). assert (Pm : 0 < INR mb) by (apply lt_0_INR; exact Hmb). assert (PN : 0 < INR N) by (apply lt_0_INR; exact HN0).
  assert (Pc : 0 <= c / (Tp * Tp)).
  { apply Rmult_le_pos; [apply Rmult_le_pos; [apply Rmult_le_pos; apply pos_INR|left; apply Rinv_0_lt_compat; exact Pm]|left; apply Rinv_0_lt_compat; apply Rmult_lt_0_compat; exact HTp]. }
  set (a := fun i k => dl mode (row data k) i). set (b := fun i k => dl x (row data k) i - dl mode (row data k) i).
  assert (EV : forall i, average (map (fun t => herr t x i * herr t x i) (tuples mb N)) = c / (Tp * Tp) * pop_cov N (fun k => a i k + b i k) (fun k => a i k + b i k)).
  { intros i. rewrite (@average_ext _ (fun t => herr t x i * herr t x i) (fun t => (/ Tp * / Tp) * (excess N mb (fun k => a i k + b i k) t * excess N mb (fun k => a i k + b i k) t))).
    - rewrite (@average_scale _ (fun t => excess N mb (fun k => a i k + b i k) t * excess N mb (fun k => a i k + b i k) t)), (@average_excess_product N mb HN0 Hmb (fun k => a i k + b i k) (fun k => a i k + b i k)). fold c. field. apply Rgt_not_eq. exact HTp.
    - intros t Ht. rewrite (@herr_excess t x i Ht). replace (excess N mb (fun k => dl x (row data k) i) t) with (excess N mb (fun k => a i k + b i k) t); [ring|].
      unfold excess. f_equal; [f_equal; f_equal|]; apply sum_upto_ext; intros k _; unfold a, b; ring. }
  rewrite (@sum_upto_ext (dim s) _ (fun i => c / (Tp * Tp) * pop_cov N (fun k => a i k + b i k) (fun k => a i k + b i k))) by (intros i Hi; apply EV).
  rewrite (@sum_upto_scale (dim s) (c / (Tp * Tp)) (fun i => pop_cov N (fun k => a i k + b i k) (fun k => a i k + b i k))).
  replace (batch_factor * (Ll * Ll * distance2 s x mode + spread)) with (c / (Tp * Tp) * (2 * spread + 2 * (Ll * Ll * distance2 s x mode))) by (unfold batch_factor, c; field; split; apply Rgt_not_eq; [exact Pm|exact HTp]).
  apply Rmult_le_compat_l; [exact Pc|].
  eapply Rle_trans; [apply sum_upto_le; intros i Hi; apply (@pop_cov_split N (a i) (b i) HN0)|]. rewrite sum_upto_plus, (@sum_upto_scale (dim s) 2 (fun i => pop_cov N (a i) (a i))), (@sum_upto_scale (dim s) 2 (fun i => sum_upto N (fun k => b i k * b i k) / INR N)).
  apply Rplus_le_compat; [right; reflexivity|]. apply Rmult_le_compat_l; [left; apply Rlt_0_2|].
  unfold Rdiv. rewrite (@sum_upto_ext (dim s) _ (fun i => / INR N * sum_upto N (fun k => b i k * b i k))) by (intros; ring). rewrite (@sum_upto_scale (dim s) (/ INR N) (fun i => sum_upto N (fun k => b i k * b i k))), (@sum_upto_swap (dim s) N).
  apply Rmult_le_reg_l with (INR N); [exact PN|]. rewrite <- Rmult_assoc, Rinv_r, Rmult_1_l by (apply Rgt_not_eq; exact PN).
  eapply Rle_trans; [apply sum_upto_le; intros k Hk'; apply (Hll Hk' Hx Hm1)|]. right.
  clear. induction N as [|n IH]; [unfold sum_upto; cbn; ring|]. rewrite sum_upto_S, IH, S_INR. ring.
Qed.

(** the temperature of the sampler, the start, the step sizes *)
Variables (T : R) (x0 model0 : vtree) (key0 : key) (eps : nat -> R).
Hypothesis HT : 0 <= T.
Hypothesis Hx : like s x0.
Notation S1 := (batch_factor * (Ll * Ll)).
Notation S2 := (batch_factor * spread).
(** what is random: the normal numbers and the batches *)
Section Run.
Variables (W : Type) (E : (W -> R) -> R) (normal : W -> key -> list nat -> list R) (Data : Type) (get_data : W -> Data -> Data * mbatch obs) (d0 : W -> Data) (idx : nat -> W -> list nat).
Hypothesis Hnorm : forall w, normal_ok (normal w).
Hypothesis Hidx : forall k w, length (idx k w) = mb /\ Forall (fun i => (i < N)%nat) (idx k w).
Hypothesis Hbat : forall k w, batch_no (get_data w) (d0 w) k = batch_at data (idx k w).
(** auxiliary definition of a statement or a proof; models no code of /repo *)
Definition pos (n : nat) (w : W) : vtree := l_pos (sgld_state (normal w) (get_data w) uvalue ulikelihoods umodel ugrad eps T (lv_init x0 (Some key0) None (d0 w) model0) n).
(** auxiliary definition of a statement or a proof; models no code of /repo *)
Definition off (x : vtree) (i : nat) : R := el x i - el mode i.
(** the noise of the n-th step *)
(** auxiliary definition of a statement or a proof; models no code of /repo *)
Definition injected (n : nat) (w : W) (i : nat) : R := xi (normal w) (Sub (chain key0 n) 1) s i.
Lemma pos_like n w : like s (pos n w).
Proof using Hs Hj Hx Hnorm.
  apply (@at_inv s Hs Data (mbatch obs) vtree (get_data w) uvalue ulikelihoods umodel ugrad ltac:(intros t b mm H; apply Hj; exact H) T x0 model0 key0 Hx eps unit (fun _ => normal w) (fun _ => d0 w) n tt (Hnorm w)).
Qed.
Lemma off_step n w i : (i < dim s)%nat ->
  off (pos (Datatypes.S n) w) i = off (pos n w) i - eps n * (full_gradient (pos n w) i + herr (idx n w) (pos n w) i) + sqrt (2 * T * eps n) * injected n w i.
Proof using Hs Hpot Hl Hk Hj Hd HN Hmb Hone Hdl Hdp Hx Hnorm Hidx Hbat.
  intros Hi. pose proof (Hnorm w) as Hn.
  assert (Hg : forall t b mm, like s t -> like s (ugrad t b mm)) by (intros t b mm H; apply Hj; exact H).
  set (st := sgld_state (normal w) (get_data w) uvalue ulikelihoods umodel ugrad eps T (lv_init x0 (Some key0) None (d0 w) model0)).
  pose proof (@at_inv s Hs Data (mbatch obs) vtree (get_data w) uvalue ulikelihoods umodel ugrad Hg T x0 model0 key0 Hx eps unit (fun _ => normal w) (fun _ => d0 w) n tt Hn) as (I1 & I2 & I3).
  change (at_ (get_data w) uvalue ulikelihoods umodel ugrad T x0 model0 key0 eps (fun _ : unit => normal w) (fun _ : unit => d0 w) n tt) with (st n) in *.
  assert (XS : st (Datatypes.S n) = fst (lv_update (normal w) (get_data w) uvalue ulikelihoods umodel ugrad None (eps n) T (st n))) by (unfold st, sgld_state; rewrite seq_S, fold_left_app; reflexivity).
  pose proof (@C37_sgld_step s Hs (normal w) Hn Data (mbatch obs) vtree unit (get_data w) uvalue ulikelihoods umodel ugrad Hg (eps n) T (st n) I1) as SX. cbv zeta in SX.
  pose proof (Hbat n w) as B. unfold batch_no in B. rewrite <- I2 in B.
  unfold off, pos. fold st. rewrite XS. destruct (get_data w (l_data (st n))) as [dd b]. cbn [snd] in B. subst b. destruct SX as (_ & SX & _). rewrite SX by exact Hi. unfold herr, injected. rewrite I3.
  rewrite (@ugrad_pgrad s Hs obs prior likelihood has_state Tp strategy pot Hpot l Hl Hk jgrad Hj data N mb Hd HN Hmb Hone dl dp Hdl Hdp (idx n w) (l_pos (st n)) (l_model (st n)) i); [ring| |exact I1|exact Hi].
  apply tuples_spec. apply Hidx.
Qed.
Lemma off_lip i : (i < dim s)%nat -> lipschitz s (fun x => off x i).
Proof using. intros Hi. apply (@lip_plus s (fun x => el x i) (fun _ => - el mode i)); [apply lip_coord; exact Hi|apply lip_const]. Qed.
Lemma full_lip i : (i < dim s)%nat -> lipschitz s (fun x => full_gradient x i).
Proof using HTp Hlc Hpc HLl HLp Hll Hpl HN0. intros Hi. apply (@lip_gradient s full_gradient L' i); [|exact Hi]. intros x y H1 H2. apply (full_bounds H1 H2). Qed.
Lemma herr_lip t i : In t (tuples mb N) -> (i < dim s)%nat -> lipschitz s (fun x => herr t x i).
Proof using HTp Hlc Hpc HLl HLp Hll Hpl HN0 Hmb.
  intros Ht Hi. apply tuples_spec in Ht. destruct Ht as [Lt Ft]. apply (@lip_ext s (fun x => pgrad t x i + (-1) * full_gradient x i)); [intros; unfold herr; ring|].
  apply lip_plus; [|apply lip_scale, full_lip; exact Hi]. apply (@lip_gradient s (fun x => pgrad t x) L' i); [|exact Hi]. intros x y H1 H2.
  apply (@pgrad_bounds s obs Tp HTp data N dl dp m Ll Lp Hlc Hpc HLl HLp Hll Hpl x y t H1 H2); [rewrite Lt; exact Hmb|exact Ft].
Qed.
Lemma E_sum_upto (HE : expectation E) n (f : nat -> W -> R) : E (fun w => sum_upto n (fun i => f i w)) = sum_upto n (fun i => E (f i)).
Proof using. apply (E_sum HE). Qed.
(** independence makes the steps unbiased *)
Lemma steps_unbiased n k : independent_steps E s N mb n pos idx injected -> (k < n)%nat ->
  unbiased_gradient E (dim s) S1 S2 (fun w => off (pos k w)) (fun w => full_gradient (pos k w)) (fun w => herr (idx k w) (pos k w)) (injected k).
Proof using Hs Hj Hx Hnorm HTp Hlc Hpc HLl HLp Hll Hpl HN0 Hmb Hmode.
  intros (HE & H1 & HI) Hk'. destruct (HI k Hk') as (I1 & I2 & I3 & I4). clear HI.
  assert (HZ : forall u : vtree -> nat -> R, (forall i, (i < dim s)%nat -> lipschitz s (fun x => u x i)) -> E (fun w => dot (dim s) (u (pos k w)) (herr (idx k w) (pos k w))) = 0).
  { intros u Hu. rewrite (I2 (fun t x => dot (dim s) (u x) (herr t x))).
    - rewrite <- (@E_average W E HE). rewrite (@E_ext W E HE _ (fun _ => 0 * 1)); [rewrite (@E_scale W E HE 0 (fun _ => 1)); ring|]. intros w.
      unfold dot. rewrite (@average_sum _ (dim s) (fun i t => u (pos k w) i * herr t (pos k w) i)). rewrite (@sum_upto_ext (dim s) _ (fun i => 0 * u (pos k w) i)); [rewrite (@sum_upto_scale (dim s) 0 (u (pos k w))); ring|].
      intros i Hi. rewrite (@average_scale _ (fun t => herr t (pos k w) i)), herr_mean. ring.
    - intros t Ht. apply (@sq_dot s u (herr t)); [exact Hu|]. intros i Hi. now apply herr_lip. }
  assert (ZZ : forall u : list nat -> vtree -> nat -> R, (forall t i, In t (tuples mb N) -> (i < dim s)%nat -> lipschitz s (fun x => u t x i)) -> E (fun w => dot (dim s) (u (idx k w) (pos k w)) (injected k w)) = 0).
  { intros u Hu. unfold dot. rewrite (@E_sum_upto HE (dim s) (fun i w => u (idx k w) (pos k w) i * injected k w i)). rewrite (@sum_upto_ext (dim s) _ (fun i => 0 * 1)); [rewrite (@sum_upto_scale (dim s) 0 (fun _ => 1)); ring|].
    intros i Hi. rewrite (I3 (fun t x => u t x i) i); [ring| |exact Hi]. intros t Ht. now apply Hu. }
  assert (OL := off_lip). assert (FL := full_lip).
  split; [|split; [|split; [|split; [|split; [|split]]]]].
  - apply (HZ off). exact OL.
  - apply (HZ full_gradient). exact FL.
  - apply (ZZ (fun _ => off)). intros t i _. apply OL.
  - apply (ZZ (fun _ => full_gradient)). intros t i _. apply FL.
  - apply (ZZ herr). exact herr_lip.
  - unfold dot. rewrite (@E_sum_upto HE (dim s) (fun i w => injected k w i * injected k w i)). rewrite (@sum_upto_ext (dim s) _ (fun i => 1)) by (intros i Hi; apply I4; exact Hi).
    generalize (dim s). intros d. induction d as [|d IH]; [reflexivity|]. rewrite sum_upto_S, IH, S_INR. reflexivity.
  - rewrite (I2 (fun t x => dot (dim s) (herr t x) (herr t x))) by (intros t Ht; apply (@sq_dot s (herr t) (herr t)); intros i Hi; now apply herr_lip).
    rewrite <- (@E_average W E HE).
    assert (P : 0 <= E (fun w => S1 * dot (dim s) (off (pos k w)) (off (pos k w)) + S2 + (-1) * average (map (fun t => dot (dim s) (herr t (pos k w)) (herr t (pos k w))) (tuples mb N)))).
    { apply (I1 (fun x => S1 * dot (dim s) (off x) (off x) + S2 + (-1) * average (map (fun t => dot (dim s) (herr t x) (herr t x)) (tuples mb N)))).
      - apply (@sq_plus s (fun x => S1 * dot (dim s) (off x) (off x) + S2)); [apply (@sq_plus s (fun x => S1 * dot (dim s) (off x) (off x))); [apply sq_scale; apply sq_dot; auto|apply sq_const]|].
        apply sq_scale. apply (@sq_average s _ (tuples mb N) (fun t x => dot (dim s) (herr t x) (herr t x))). intros t Ht. apply sq_dot; intros i Hi; now apply herr_lip.
      - intros x Hlx. pose proof (C90_noise_bound Hlx) as B. unfold dot at 2. change (dot (dim s) (off x) (off x)) with (distance2 s x mode). lra. }
    set (s1 := S1) in *. set (s2 := S2) in *.
    rewrite (@E_plus W E HE (fun w => s1 * dot (dim s) (off (pos k w)) (off (pos k w)) + s2)), (@E_plus W E HE (fun w => s1 * dot (dim s) (off (pos k w)) (off (pos k w)))) in P.
    rewrite (@E_scale W E HE s1 (fun w => dot (dim s) (off (pos k w)) (off (pos k w)))), (@E_const W E s2 HE H1), (@E_scale W E HE (-1) (fun w => average (map (fun t => dot (dim s) (herr t (pos k w)) (herr t (pos k w))) (tuples mb N)))) in P. lra.
Qed.
(** one iteration *)
Lemma mean_square_step n k : independent_steps E s N mb n pos idx injected -> (k < n)%nat -> 0 <= eps k ->
  0 <= E (fun w => norm2 (dim s) (off (pos k w))) /\
  E (fun w => norm2 (dim s) (off (pos (Datatypes.S k) w))) <= (1 - 2 * eps k * m' + eps k * eps k * (L' * L' + S1)) * E (fun w => norm2 (dim s) (off (pos k w))) + eps k * eps k * S2 + 2 * T * eps k * INR (dim s).
Proof.
  intros HI Hk' He. pose proof (@steps_unbiased n k HI Hk') as HU. destruct HI as (HE & _ & HI). destruct (HI k Hk') as (I1 & _). clear HI.
  assert (OL := off_lip). assert (FL := full_lip).
  assert (QO : square_fn s (fun x => dot (dim s) (off x) (off x))) by (apply sq_dot; auto).
  assert (QF : square_fn s (fun x => dot (dim s) (off x) (full_gradient x))) by (apply sq_dot; auto).
  assert (QG : square_fn s (fun x => dot (dim s) (full_gradient x) (full_gradient x))) by (apply sq_dot; auto).
  split; [apply (I1 (fun x => dot (dim s) (off x) (off x)) QO); intros x _; apply norm2_nonneg|].
  apply (@square_bound W E HE (dim s) (eps k) T S1 S2 He HT (fun w => off (pos k w)) (fun w => full_gradient (pos k w)) (fun w => herr (idx k w) (pos k w)) (injected k) (fun w => off (pos (Datatypes.S k) w)) HU).
  - intros w i Hi. apply off_step. exact Hi.
  - assert (P : 0 <= E (fun w => dot (dim s) (off (pos k w)) (full_gradient (pos k w)) + (- m') * dot (dim s) (off (pos k w)) (off (pos k w)))).
    { apply (I1 (fun x => dot (dim s) (off x) (full_gradient x) + (- m') * dot (dim s) (off x) (off x))).
      - apply (@sq_plus s (fun x => dot (dim s) (off x) (full_gradient x))); [exact QF|apply sq_scale; exact QO].
      - intros x Hlx. destruct (mode_bounds Hlx) as [B _]. change (m' * dot (dim s) (off x) (off x) <= dot (dim s) (off x) (full_gradient x)) in B. lra. }
    rewrite (@E_plus W E HE (fun w => dot (dim s) (off (pos k w)) (full_gradient (pos k w)))), (@E_scale W E HE (- m') (fun w => dot (dim s) (off (pos k w)) (off (pos k w)))) in P.
    change (fun w => norm2 (dim s) (off (pos k w))) with (fun w => dot (dim s) (off (pos k w)) (off (pos k w))). lra.
  - assert (P : 0 <= E (fun w => (L' * L') * dot (dim s) (off (pos k w)) (off (pos k w)) + (-1) * dot (dim s) (full_gradient (pos k w)) (full_gradient (pos k w)))).
    { apply (I1 (fun x => (L' * L') * dot (dim s) (off x) (off x) + (-1) * dot (dim s) (full_gradient x) (full_gradient x))).
      - apply (@sq_plus s (fun x => (L' * L') * dot (dim s) (off x) (off x))); apply sq_scale; assumption.
      - intros x Hlx. destruct (mode_bounds Hlx) as [_ B]. change (dot (dim s) (full_gradient x) (full_gradient x) <= L' * L' * dot (dim s) (off x) (off x)) in B. lra. }
    rewrite (@E_plus W E HE (fun w => (L' * L') * dot (dim s) (off (pos k w)) (off (pos k w)))), (@E_scale W E HE (L' * L') (fun w => dot (dim s) (off (pos k w)) (off (pos k w)))), (@E_scale W E HE (-1) (fun w => dot (dim s) (full_gradient (pos k w)) (full_gradient (pos k w)))) in P.
    change (fun w => norm2 (dim s) (off (pos k w))) with (fun w => dot (dim s) (off (pos k w)) (off (pos k w))). change (fun w => norm2 (dim s) (full_gradient (pos k w))) with (fun w => dot (dim s) (full_gradient (pos k w)) (full_gradient (pos k w))). lra.
Qed.
(** constant step size: the mean square distance from the mode is bounded, for every number of iterations *)
Theorem C90_constant_step : forall e, (forall k, eps k = e) -> 0 < e -> e * (L' * L' + S1) < 2 * m' -> forall n, independent_steps E s N mb n pos idx injected ->
  let q := Rmax 0 (1 - 2 * e * m' + e * e * (L' * L' + S1)) in q < 1 /\
  E (fun w => distance2 s (pos n w) mode) <= q ^ n * distance2 s x0 mode + (2 * T * e * INR (dim s) + e * e * S2) / (1 - q).
Proof.
  intros e Heps He Hst n HU q. assert (Q : 0 <= q < 1).
  { split; [apply Rmax_l|]. unfold q. apply Rmax_lub_lt; [lra|]. assert (e * (e * (L' * L' + S1)) < e * (2 * m')) by (apply Rmult_lt_compat_l; auto). lra. }
  split; [apply Q|]. set (V := fun n => E (fun w => norm2 (dim s) (off (pos n w)))). change (V n <= q ^ n * distance2 s x0 mode + (2 * T * e * INR (dim s) + e * e * S2) / (1 - q)).
  assert (V0 : V 0%nat = distance2 s x0 mode).
  { destruct HU as (HE & H1 & _). unfold V. rewrite (@E_ext W E HE _ (fun _ => distance2 s x0 mode)) by reflexivity. now apply E_const. }
  rewrite <- V0. apply recursion_constant; [exact Q| |].
  - pose proof (pos_INR (dim s)) as PI. apply Rplus_le_le_0_compat; [|apply Rmult_le_pos; [apply Rle_0_sqr|apply Rmult_le_pos; [apply batch_factor_nonneg|apply spread_nonneg]]]. apply Rmult_le_pos; [|exact PI]. apply Rmult_le_pos; lra.
  - intros k Hk'. destruct (@mean_square_step n k HU Hk') as [P1 P2]; [rewrite Heps; lra|]. rewrite !Heps in P2. fold (V k) (V (Datatypes.S k)) in *.
    assert ((1 - 2 * e * m' + e * e * (L' * L' + S1)) * V k <= q * V k) by (apply Rmult_le_compat_r; [exact P1|apply Rmax_r]). lra.
Qed.
End Run.
(** step sizes that vanish but do not sum up to a finite number: the mean square distance from the mode is finally at most d T / m', up to an arbitrary delta *)
Theorem C90_vanishing_steps : 0 < m -> (forall n, 0 < eps n) -> vanishing eps -> divergent eps -> forall delta, 0 < delta ->
  exists n0, forall n, (n0 <= n)%nat -> forall W (E : (W -> R) -> R) (normal : W -> key -> list nat -> list R) Data (get_data : W -> Data -> Data * mbatch obs) (d0 : W -> Data) (idx : nat -> W -> list nat),
    (forall w, normal_ok (normal w)) -> (forall k w, length (idx k w) = mb /\ Forall (fun i => (i < N)%nat) (idx k w)) ->
    (forall k w, batch_no (get_data w) (d0 w) k = batch_at data (idx k w)) ->
    let x := fun k w => l_pos (sgld_state (normal w) (get_data w) uvalue ulikelihoods umodel ugrad eps T (lv_init x0 (Some key0) None (d0 w) model0) k) in
    independent_steps E s N mb n x idx (fun k w => xi (normal w) (Sub (chain key0 k) 1) s) ->
    E (fun w => distance2 s (x n w) mode) <= T * INR (dim s) / m' + delta.
Proof.
  intros Hm Ep Ev Ed delta Hdelta. assert (Hm' : 0 < m') by (apply Rdiv_lt_0_compat; auto). pose proof batch_factor_nonneg as BF. pose proof spread_nonneg as SP.
  assert (P1 : 0 <= S1) by (apply Rmult_le_pos; [exact BF|apply Rle_0_sqr]). assert (P2 : 0 <= S2) by (apply Rmult_le_pos; auto).
  assert (HL2 : 0 <= L' * L' + S1) by (apply Rplus_le_le_0_compat; [apply Rle_0_sqr|exact P1]).
  destruct (@recursion_vanishing eps m' (L' * L' + S1) S2 (T * INR (dim s)) (distance2 s x0 mode) Ep Ev Ed Hm' HL2 P2 ltac:(apply Rmult_le_pos; [exact HT|apply pos_INR]) delta Hdelta) as [n0 H0].
  exists n0. intros n Hn W E normal Data get_data d0 idx Hnorm Hidx Hbat x HI.
  apply (H0 n Hn (fun n => E (fun w => norm2 (dim s) (off (x n w))))).
  - destruct HI as (HE & H1 & _). rewrite (@E_ext W E HE _ (fun _ => distance2 s x0 mode)) by reflexivity. right. now apply E_const.
  - intros k Hk'. apply (@mean_square_step W E normal Data get_data d0 idx Hnorm Hidx Hbat n k HI Hk'). left. apply Ep.
  - intros k Hk'. destruct (@mean_square_step W E normal Data get_data d0 idx Hnorm Hidx Hbat n k HI Hk' (Rlt_le _ _ (Ep k))) as [_ P]. eapply Rle_trans; [exact P|]. right. unfold x, pos. ring.
Qed.
End C90.
(** ** the hypotheses can be met: logistic regression with the labels -1 and 1 (C89), batches of one observation, two coins per step *)
Lemma coins_step n k (H : list (bool * bool) -> bool * bool -> R) : (k < n)%nat ->
  coins n (fun w => H (firstn k w) (nth k w (true, true))) = coins k (fun w => (H w (true, true) + H w (true, false) + H w (false, true) + H w (false, false)) / 4).
Proof.
  intros Hk. rewrite (@coins_prefix n (S k) (fun w => H (firstn k w) (nth k w (true, true)))); [|lia|].
  - cbn [coins]. apply coins_ext. intros w Hw. assert (F : forall c, firstn k (w ++ [c]) = w) by (intros c; rewrite firstn_app, Hw, Nat.sub_diag; cbn [firstn]; rewrite app_nil_r; apply firstn_all2; lia).
    rewrite !F, !app_nth2 by lia. rewrite Hw, Nat.sub_diag. reflexivity.
  - intros w. rewrite firstn_firstn, Nat.min_l by lia. now rewrite firstn_nth by lia.
Qed.
Example C90_nonvacuous : let s := Leaf (mkArr [] [0]) in let data := [("y"%string, [0%nat; 1%nat])] in let pot := potential_function ex_prior logi_lik false 1 in
  let eps := fun n : nat => 1 * Rpower (1 + INR n) (- (33 / 100)) in
  let get_data := fun w n => (S n, batch_at data (coin_idx n w)) in
  forall delta, 0 < delta -> exists n0, forall n, (n0 <= n)%nat ->
    let x := fun w => el (l_pos (sgld_state (coin_normal w) (get_data w) (user_value false pot 2) (user_likelihoods false pot 2) (user_model false pot 2) (user_grad false pot 2 (derive_grad s))
      eps 1 (lv_init (Leaf (mkArr [] [7])) (Some (PRNGKey 0)) None 0%nat (Leaf (mkArr [] [1]))) n)) 0 in
    coins n (fun w => x w * x w) <= 1 + delta.
Proof.
  intros s data pot eps get_data delta Hdelta.
  assert (Hs : wfv s) by (constructor; [reflexivity|constructor]).
  assert (D : dim s = 1%nat) by reflexivity.
  assert (SUM1 : forall f, sum_upto (dim s) f = f 0%nat) by (intros f; rewrite D; unfold sum_upto; cbn; lra).
  assert (LAB : forall k, (k < 2)%nat -> logi_label (row data k) = 1 \/ logi_label (row data k) = -1).
  { intros k Hk. destruct k as [|[|k]]; [right|left|lia]; unfold logi_label; cbn; lra. }
  assert (EL : forall x c t, (c < dim s)%nat -> el (at_coordinate s x c t) 0 = t).
  { intros x c t Hc. unfold at_coordinate. rewrite (proj2 (tree_of_ok _ Hs)) by (rewrite D; lia). rewrite D in Hc. replace c with 0%nat by lia. reflexivity. }
  set (dp := fun (x : vtree) (_ : nat) => - el x 0). set (mode := Leaf (mkArr [] [0])).
  assert (A1 : evaluates_with logi_lik (fun _ => logi_l)) by (intros st x r; reflexivity).
  assert (A2 : keeps_state logi_lik false) by discriminate.
  assert (A3 : exact_gradients s (derive_grad s)) by (apply derive_grad_exact; exact Hs).
  assert (A4 : data <> []) by discriminate.
  assert (A5 : forall ka, In ka data -> length (snd ka) = 2%nat) by (intros ka [<-|[]]; reflexivity).
  assert (A6 : is_batched logi_lik = true -> 1%nat <> 1%nat) by discriminate.
  assert (A7 : forall k x, (k < 2)%nat -> like s x -> partials s (fun y => logi_l y (row data k)) x (logi_dl x (row data k))).
  { intros k x Hk Hx c Hc. apply (derivable_pt_lim_ext (fun t => - ln (1 + exp (- logi_label (row data k) * t)))); [intros t; unfold logi_l; now rewrite EL|]. unfold logi_dl. replace c with 0%nat by (rewrite D in Hc; lia). apply logistic_derivative. }
  assert (A8 : forall x, like s x -> partials s ex_prior x (dp x)).
  { intros x Hx c Hc. apply (derivable_pt_lim_ext (fun t => (- / 2) * (t * t))); [intros t; unfold ex_prior; rewrite EL by exact Hc; field|]. replace c with 0%nat by (rewrite D in Hc; lia).
    unfold dp. replace (- el x 0) with ((- / 2) * (1 * el x 0 + el x 0 * 1)) by field. apply (derivable_pt_lim_scal (fun t => t * t)). apply (derivable_pt_lim_mult id id); apply derivable_pt_lim_id. }
  assert (A9 : forall k, (k < 2)%nat -> concave_gradient s (fun x => logi_dl x (row data k)) 0).
  { intros k Hk x y _ _. unfold distance2. rewrite !SUM1. unfold logi_dl. destruct (@logistic_pair (logi_label (row data k)) (el x 0) (el y 0) (LAB k Hk)) as [P _]. cbv zeta in P. lra. }
  assert (A10 : concave_gradient s dp 1) by (intros x y _ _; unfold distance2, dp; rewrite !SUM1; lra).
  assert (A11 : forall k, (k < 2)%nat -> lipschitz_gradient s (fun x => logi_dl x (row data k)) 1).
  { intros k Hk x y _ _. unfold distance2. rewrite !SUM1. unfold logi_dl. destruct (@logistic_pair (logi_label (row data k)) (el x 0) (el y 0) (LAB k Hk)) as [_ P]. cbv zeta in P. lra. }
  assert (A12 : lipschitz_gradient s dp 1) by (intros x y _ _; unfold distance2, dp; rewrite !SUM1; lra).
  assert (L0 : forall a, like s (Leaf (mkArr [] [a]))) by (intros a; split; [repeat constructor|split; reflexivity]).
  set (fg := full_gradient 1 data 2 logi_dl dp).
  assert (A13 : like s mode /\ forall i, (i < dim s)%nat -> fg mode i = 0).
  { split; [apply L0|]. intros i Hi. unfold fg, full_gradient, logi_dl, dp, mode, sum_upto, logi_label. cbn. replace (2 * 0 - 1) with (-1) by ring. replace (2 * 1 - 1) with 1 by ring. rewrite !Rmult_0_r, exp_0. field. }
  assert (XL : forall x, like s x -> x = Leaf (mkArr [] [el x 0])).
  { intros x Hx. apply (@like_ext s _ _ Hs Hx (L0 _)). intros i Hi. assert (i = O) by (rewrite D in Hi; lia). subst i. reflexivity. }
  assert (TU : forall t, In t (tuples 1 2) -> t = [0%nat] \/ t = [1%nat]) by (intros t Ht; cbn in Ht; destruct Ht as [<- | [<- | []]]; auto).
  destruct (@C90_vanishing_steps s Hs nat ex_prior logi_lik false 1 PMap pot eq_refl logi_l A1 A2 (derive_grad s) A3 ltac:(lra) data 2 1 A4 A5 ltac:(lia) A6 logi_dl dp 1 1 1 A7 A8 A9 A10 ltac:(lra) ltac:(lra) A11 A12 ltac:(lia) mode A13
     1 (Leaf (mkArr [] [7])) (Leaf (mkArr [] [1])) (PRNGKey 0) eps) with (delta := delta) as [n0 H]; auto; try lra.
  { intros n. apply (poly_pos 1 (33 / 100)). lra. }
  { apply poly_vanishing; lra. }
  { apply poly_divergent; lra. }
  exists n0. intros n Hn xx.
  assert (Hnorm : forall w, normal_ok (coin_normal w)) by (intros w k sh; apply repeat_length).
  assert (Hidx : forall k w, length (coin_idx k w) = 1%nat /\ Forall (fun i => (i < 2)%nat) (coin_idx k w)) by (intros k w; unfold coin_idx; split; [reflexivity|]; constructor; [destruct (fst _); lia|constructor]).
  assert (Hbat : forall k w, batch_no (get_data w) 0%nat k = batch_at data (coin_idx k w)) by (intros k w; unfold batch_no; rewrite (@drawn_count nat (fun n => n) _ (get_data w) 0%nat k) by reflexivity; reflexivity).
  pose proof (H n Hn (list (bool * bool)) (coins n) coin_normal nat get_data (fun _ => 0%nat) coin_idx Hnorm Hidx Hbat) as K. cbv zeta in K.
  set (x := fun k w => l_pos (sgld_state (coin_normal w) (get_data w) (user_value false pot 2) (user_likelihoods false pot 2) (user_model false pot 2) (user_grad false pot 2 (derive_grad s)) eps 1 (lv_init (Leaf (mkArr [] [7])) (Some (PRNGKey 0)) None 0%nat (Leaf (mkArr [] [1]))) k)) in *.
  change (independent_steps (coins n) s 2 1 n x coin_idx (fun k w => xi (coin_normal w) (Sub (chain (PRNGKey 0) k) 1) s) -> coins n (fun w => distance2 s (x n w) mode) <= 1 * INR (dim s) / (1 / 1) + delta) in K.
  assert (XK : forall k w, like s (x k w)).
  { intros k w. apply (@pos_like s Hs nat false pot (derive_grad s) A3 2 1 (Leaf (mkArr [] [7])) (Leaf (mkArr [] [1])) (PRNGKey 0) eps (L0 7) (list (bool * bool)) coin_normal nat get_data (fun _ => 0%nat) Hnorm). }
  assert (ST : forall k w, el (x (Datatypes.S k) w) 0 = el (x k w) 0 - eps k * (fg (x k w) 0%nat + herr 1 data 2 logi_dl dp (coin_idx k w) (x k w) 0) + sqrt (2 * 1 * eps k) * sign (snd (nth k w (true, true)))).
  { intros k w. rewrite <- coin_noise.
    pose proof (@off_step s Hs nat ex_prior logi_lik false 1 PMap pot eq_refl logi_l A1 A2 (derive_grad s) A3 data 2 1 A4 A5 ltac:(lia) A6 logi_dl dp A7 A8 mode 1 (Leaf (mkArr [] [7])) (Leaf (mkArr [] [1])) (PRNGKey 0) eps (L0 7) (list (bool * bool)) coin_normal nat get_data (fun _ => 0%nat) coin_idx Hnorm Hidx Hbat k w 0%nat ltac:(rewrite D; lia)) as O.
    unfold off in O. change (el mode 0) with 0 in O. rewrite !Rminus_0_r in O. exact O. }
  assert (XP : forall k w, x k w = x k (firstn k w)).
  { induction k as [|k IH]; intros w; [reflexivity|]. rewrite (XL _ (XK (Datatypes.S k) w)), (XL _ (XK (Datatypes.S k) (firstn (Datatypes.S k) w))). rewrite !ST. unfold coin_idx. rewrite !firstn_nth by lia.
    rewrite (IH w), (IH (firstn (Datatypes.S k) w)), firstn_firstn, Nat.min_l by lia. reflexivity. }
  assert (EX : expectation (coins n)) by (split; [intros X Y HXY; apply coins_ext; intros; apply HXY|split; [apply coins_plus|apply coins_scale]]).
  assert (ID : independent_steps (coins n) s 2 1 n x coin_idx (fun k w => xi (coin_normal w) (Sub (chain (PRNGKey 0) k) 1) s)).
  { split; [exact EX|]. split; [apply coins_one|]. intros k Hk. split; [|split; [|split]].
    - intros f _ Hf. apply coins_nonneg. intros w. apply Hf. apply XK.
    - intros F HF. rewrite (@coins_ext n _ (fun w => F [if fst (nth k w (true, true)) then 1%nat else 0%nat] (x k (firstn k w)))) by (intros w _; unfold coin_idx; rewrite <- XP; reflexivity).
      rewrite (@coins_step n k (fun v c => F [if fst c then 1%nat else 0%nat] (x k v)) Hk). cbn [fst].
      assert (PF : forall t, coins n (fun w => F t (x k w)) = coins k (fun w => F t (x k w))) by (intros t; apply coins_prefix; [lia|]; intros w; now rewrite <- XP).
      change (tuples 1 2) with [[0%nat]; [1%nat]]. cbn [map]. rewrite !PF. unfold average, rsum. cbn.
      transitivity (coins k (fun w => / 2 * F [0%nat] (x k w) + / 2 * F [1%nat] (x k w))); [apply coins_ext; intros; field|]. rewrite coins_plus, !coins_scale. field.
    - intros F i HF Hi. assert (i = O) by (rewrite D in Hi; lia). subst i.
      rewrite (@coins_ext n _ (fun w => F [if fst (nth k w (true, true)) then 1%nat else 0%nat] (x k (firstn k w)) * sign (snd (nth k w (true, true))))) by (intros w _; unfold s; rewrite coin_noise; unfold coin_idx; rewrite <- XP; reflexivity).
      rewrite (@coins_step n k (fun v c => F [if fst c then 1%nat else 0%nat] (x k v) * sign (snd c)) Hk). cbn [fst snd sign].
      rewrite (@coins_ext k _ (fun w => 0 * 1)); [rewrite (coins_scale k 0 (fun _ => 1)); ring|]. intros w _. field.
    - intros i Hi. assert (i = O) by (rewrite D in Hi; lia). subst i. rewrite (@coins_ext n _ (fun _ => 1)); [apply coins_one|]. intros w _. unfold s. rewrite coin_noise. unfold sign. destruct (snd _); ring. }
  specialize (K ID). rewrite D in K. cbn [INR] in K. eapply Rle_trans; [|eapply Rle_trans; [exact K|right; field]]. right. apply coins_ext. intros w _. unfold distance2. rewrite SUM1. change (el mode 0) with 0. unfold xx, x. ring.
Qed.
Print Assumptions C90_noise_bound. Print Assumptions C90_constant_step. Print Assumptions C90_vanishing_steps. Print Assumptions C90_nonvacuous.
