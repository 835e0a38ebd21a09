(** C77: SGLD on a Gaussian posterior. *)
From Coq Require Import Reals Lra.
From Verif Require Import Base ListUtil Pytree PytreeSpec Io TreeUtil TreeUtilSpec TreeUtilProofs Integrator IntegratorSpec IntegratorBasics LangevinProofs PropertiesIntegrator ExpectSpec ExpectProofs GaussianLimit GaussianMatrix GaussianSpec GaussianProofs.
Open Scope R_scope.
Set Implicit Arguments.

(** the n-th state of a run of langevin_diffusion without adaption at temperature T *)
(** integrator.py:859-922, called by solver.py:214-215 *)
Definition sgld_state {Data Batch Model} (normal : key -> list nat -> list R) (get_data : Data -> Data * Batch) pot_value pot_likelihoods pot_model (pot_grad : vtree -> Batch -> Model -> vtree)
  (eps : nat -> R) (T : R) (st0 : lv_st Data Model unit) (n : nat) : lv_st Data Model unit :=
  fold_left (fun a k => fst (lv_update normal get_data pot_value pot_likelihoods pot_model pot_grad None (eps k) T a)) (seq 0 n) st0.

Section C77.
Variable s : vtree.
Hypothesis Hs : wfv s.
Variables (Data Batch Model : Type).
Variable get_data : Data -> Data * Batch.
Variable pot_value : vtree -> Batch -> Model -> R.
Variable pot_likelihoods : vtree -> Batch -> Model -> list R.
Variable pot_model : vtree -> Batch -> Model -> Model.
Variable pot_grad : vtree -> Batch -> Model -> vtree.
Hypothesis Hg : forall t b m, like s t -> like s (pot_grad t b m).
Variables (A B : nat -> nat -> R) (mu : nat -> R) (lam T S : R) (x0 : vtree) (model0 : Model) (key0 : key).
Hypothesis HA : positive_definite (dim s) A lam.
Hypothesis HB : inverse_matrix (dim s) A B.
Hypothesis HT : 0 <= T.
Hypothesis HS : 0 <= S.
Hypothesis Hx : like s x0.
Variable eps : nat -> R.

(** what is random: the normal numbers and the batches *)
Section Run.
Variables (W : Type) (E : (W -> R) -> R) (normal : W -> key -> list nat -> list R) (data : W -> Data).
(** auxiliary definition of a statement or a proof; models no code of /repo *)
Definition at_ (n : nat) (w : W) : lv_st Data Model unit :=
  sgld_state (normal w) get_data pot_value pot_likelihoods pot_model pot_grad eps T (lv_init x0 (Some key0) None (data w) model0) n.
(** deviation of the n-th position from mu; error of the n-th gradient A (x - mu) + error; noise of the n-th step *)
(** auxiliary definition of a statement or a proof; models no code of /repo *)
Definition dev (n : nat) (w : W) (i : nat) : R := el (l_pos (at_ n w)) i - mu i.
(** auxiliary definition of a statement or a proof; models no code of /repo *)
Definition grad_error (n : nat) (w : W) (i : nat) : R :=
  el (pot_grad (l_pos (at_ n w)) (batch_no get_data (data w) n) (l_model (at_ n w))) i - matvec (dim s) A (dev n w) i.
(** auxiliary definition of a statement or a proof; models no code of /repo *)
Definition step_noise (n : nat) (w : W) (i : nat) : R := xi (normal w) (Sub (chain key0 n) 1) s i.
(** an expectation for which the first n steps are unbiased *)
(** auxiliary definition of a statement or a proof; models no code of /repo *)
Definition unbiased_run (n : nat) : Prop :=
  expectation E /\ E (fun _ => 1) = 1 /\ (forall w, normal_ok (normal w)) /\
  forall k, (k < n)%nat -> unbiased_step E (dim s) S (dev k) (grad_error k) (step_noise k).

Lemma at_S n w : at_ (Datatypes.S n) w = fst (lv_update (normal w) get_data pot_value pot_likelihoods pot_model pot_grad None (eps n) T (at_ n w)).
Proof. unfold at_, sgld_state. rewrite seq_S, fold_left_app. reflexivity. Qed.
Lemma at_inv n w : normal_ok (normal w) -> like s (l_pos (at_ n w)) /\ l_data (at_ n w) = drawn get_data (data w) n /\ l_key (at_ n w) = chain key0 n.
Proof.
  intros Hn. pose proof (@lv_run s Hs (normal w) Hn Data Batch Model unit get_data pot_value pot_likelihoods pot_model pot_grad Hg None I (lv_init x0 (Some key0) None (data w) model0) Hx (map (fun k => (eps k, T)) (seq 0 n))) as H. cbv zeta in H.
  rewrite map_length, seq_length in H. unfold at_, sgld_state. assert (E1 : forall l (a : lv_st Data Model unit), fold_left (fun a p => fst (lv_update (normal w) get_data pot_value pot_likelihoods pot_model pot_grad None (fst p) (snd p) a)) (map (fun k => (eps k, T)) l) a
    = fold_left (fun a k => fst (lv_update (normal w) get_data pot_value pot_likelihoods pot_model pot_grad None (eps k) T a)) l a) by (induction l as [|k l IH]; intros a; [reflexivity|]; cbn [map fold_left fst snd]; apply IH).
  rewrite E1 in H. exact H.
Qed.
Lemma dev_step n w i : normal_ok (normal w) -> (i < dim s)%nat -> dev (Datatypes.S n) w i = dev n w i - eps n * (matvec (dim s) A (dev n w) i + grad_error n w i) + sqrt (2 * T * eps n) * step_noise n w i.
Proof.
  intros Hn Hi. destruct (@at_inv n w Hn) as (I1 & I2 & I3). unfold dev at 1. rewrite at_S.
  pose proof (@C37_sgld_step s Hs (normal w) Hn Data Batch Model unit get_data pot_value pot_likelihoods pot_model pot_grad Hg (eps n) T (at_ n w) I1) as H. cbv zeta in H.
  unfold grad_error, batch_no. rewrite <- I2. destruct (get_data (l_data (at_ n w))) as [dd b]. destruct H as (_ & H & _). rewrite H by auto. rewrite I3. unfold step_noise, dev. cbn [snd]. ring.
Qed.
(** the exact recursions of the mean and of the second moments *)
Theorem C77_moments : forall n, unbiased_run (Datatypes.S n) -> 0 <= eps n ->
  (forall i, (i < dim s)%nat -> E (fun w => dev (Datatypes.S n) w i) = E (fun w => dev n w i) - eps n * sum_upto (dim s) (fun k => A i k * E (fun w => dev n w k))) /\
  forall i j, (i < dim s)%nat -> (j < dim s)%nat ->
    let C := fun i j => E (fun w => dev n w i * dev n w j) in
    let AC := fun i j => sum_upto (dim s) (fun k => A i k * C k j) in
    E (fun w => dev (Datatypes.S n) w i * dev (Datatypes.S n) w j) =
      C i j - eps n * AC i j - eps n * sum_upto (dim s) (fun k => C i k * A k j) + eps n * eps n * sum_upto (dim s) (fun k => AC i k * A k j)
      + 2 * T * eps n * unit_matrix i j + eps n * eps n * E (fun w => grad_error n w i * grad_error n w j).
Proof.
  intros n (HE & _ & Hn & Hst) He. specialize (Hst n (Nat.lt_succ_diag_r n)). split.
  - intros i Hi. apply (@mean_step W E HE (dim s) A (eps n) T S (dev n) (grad_error n) (step_noise n) (dev (Datatypes.S n)) Hst); auto. intros w k Hk. apply dev_step; auto.
  - intros i j Hi Hj C AC. rewrite (@cov_step W E HE (dim s) A (eps n) T S He HT (dev n) (grad_error n) (step_noise n) (dev (Datatypes.S n)) Hst) by (auto; intros; apply dev_step; auto).
    unfold congr. fold C. assert (Hsym := proj1 HA).
    rewrite (@sum_upto_ext (dim s) (fun k => A j k * _) (fun k => C i k * A k j + (- eps n) * (AC i k * A k j))).
    + rewrite sum_upto_plus, sum_upto_scale. unfold AC, C. ring.
    + intros k Hk. rewrite (Hsym j k) by auto. change (sum_upto (dim s) (fun k0 => A i k0 * E (fun w => dev n w k0 * dev n w k))) with (AC i k). unfold C. ring.
Qed.
End Run.

Lemma E_const W (E : (W -> R) -> R) c : expectation E -> E (fun _ => 1) = 1 -> E (fun _ => c) = c.
Proof. intros HE H1. rewrite (@E_ext W E HE _ (fun _ => c * 1)) by (intros; ring). rewrite (@E_scale W E HE c (fun _ => 1)), H1. ring. Qed.

(** with step sizes that vanish but do not sum up to a finite number, the mean tends to mu and the covariance to T A^-1,
    uniformly over everything random that is unbiased *)
Theorem C77_vanishing_steps : (forall n, 0 < eps n) -> vanishing eps -> divergent eps -> forall delta, 0 < delta ->
  exists N, forall n, (N <= n)%nat -> forall W (E : (W -> R) -> R) normal data, unbiased_run E normal data n ->
  forall i j, (i < dim s)%nat -> (j < dim s)%nat ->
    Rabs (E (fun w => el (l_pos (at_ normal data n w)) i) - mu i) <= delta /\
    Rabs (E (fun w => dev normal data n w i * dev normal data n w j) - T * B i j) <= delta.
Proof.
  intros Hp Hv Hd delta Hdelta. destruct HA as (Hsym & Hlam & Hco).
  set (d := dim s) in *. set (y0 := fun i => el x0 i - mu i).
  set (W1 := norm2 d y0). set (W2 := fnorm d (fun i j => y0 i * y0 j - T * B i j)).
  destruct (@z_limit eps Hp Hv Hd (2 * lam) (frob d A) 0 0 W1 ltac:(lra) ltac:(lra) ltac:(lra) (norm2_nonneg d y0) (delta * delta) ltac:(nra)) as [N1 H1].
  assert (PP : 0 <= cov_P d S) by (unfold cov_P; pose proof (pos_INR d); apply Rmult_le_pos; auto; apply Rmult_le_pos; auto).
  assert (PQ : 0 <= cov_Q d A T S B) by (unfold cov_Q; pose proof (pos_INR d); pose proof (fnorm_nonneg d A); pose proof (fnorm_nonneg d (fun i j => T * B i j)); apply Rplus_le_le_0_compat; [apply Rmult_le_pos; auto|]; apply Rmult_le_pos; auto; apply Rmult_le_pos; auto; nra).
  destruct (@z_limit eps Hp Hv Hd (2 * lam) (frob d A) (cov_P d S) (cov_Q d A T S B) W2 ltac:(lra) PQ PP (fnorm_nonneg d _) delta Hdelta) as [N2 H2].
  exists (N1 + N2)%nat. intros n Hn W E normal data (HE & H1E & Hnorm & Hst) i j Hi Hj.
  assert (D0 : forall w k, dev normal data 0 w k = y0 k) by reflexivity.
  split.
  - set (m := fun k => norm2 d (fun i => E (fun w => dev normal data k w i))).
    assert (B1 : Rabs (m n) <= z eps (2 * lam) (frob d A) 0 0 W1 n).
    { apply z_bound with (n := n); auto; try lra.
      - unfold m. rewrite Rabs_pos_eq by apply norm2_nonneg. right. apply norm2_ext. intros k Hk. rewrite (@E_ext W E HE _ (fun _ => y0 k)) by (intros; apply D0). now apply E_const.
      - intros k Hk. rewrite (Rabs_pos_eq (m (Datatypes.S k))), (Rabs_pos_eq (m k)) by apply norm2_nonneg. unfold m. rewrite !Rmult_0_r, !Rplus_0_r.
        apply (@mean_contracts W E HE d A (eps k) T S (Rlt_le _ _ (Hp k)) (dev normal data k) (grad_error normal data k) (step_noise normal k) (dev normal data (Datatypes.S k))); [apply Hst; exact Hk| |exact HA].
        intros w a Ha. apply dev_step; auto. }
    assert (E1 : E (fun w => el (l_pos (at_ normal data n w)) i) - mu i = E (fun w => dev normal data n w i)).
    { unfold dev. rewrite (@E_ext W E HE (fun w => el (l_pos (at_ normal data n w)) i - mu i) (fun w => el (l_pos (at_ normal data n w)) i + (fun _ => - mu i) w)) by (intros; ring).
      rewrite (@E_plus W E HE (fun w => el (l_pos (at_ normal data n w)) i) (fun _ => - mu i)), (@E_const W E (- mu i) HE H1E). ring. }
    rewrite E1. specialize (H1 n ltac:(lia)). rewrite Rabs_pos_eq in B1 by apply norm2_nonneg.
    assert (B2 : E (fun w => dev normal data n w i) * E (fun w => dev normal data n w i) <= m n) by (apply (@sum_upto_term d (fun i => E (fun w => dev normal data n w i) * E (fun w => dev normal data n w i))); auto; intros; nra).
    apply Rsqr_incr_0_var; [|lra]. rewrite <- Rsqr_abs. unfold Rsqr. lra.
  - set (m := fun k => fnorm d (fun i j => E (fun w => dev normal data k w i * dev normal data k w j) - T * B i j)).
    assert (B1 : Rabs (m n) <= z eps (2 * lam) (frob d A) (cov_P d S) (cov_Q d A T S B) W2 n).
    { apply z_bound with (n := n); auto.
      - unfold m. rewrite Rabs_pos_eq by apply fnorm_nonneg. right. apply fnorm_ext. intros a b Ha Hb. f_equal. rewrite (@E_ext W E HE _ (fun _ => y0 a * y0 b)) by (intros; now rewrite !D0). now apply E_const.
      - intros k Hk. rewrite (Rabs_pos_eq (m (Datatypes.S k))), (Rabs_pos_eq (m k)) by apply fnorm_nonneg. unfold m.
        apply (@cov_contracts W E HE d A (eps k) T S (Rlt_le _ _ (Hp k)) HT (dev normal data k) (grad_error normal data k) (step_noise normal k) (dev normal data (Datatypes.S k))); auto.
        intros w a Ha. apply dev_step; auto. }
    rewrite Rabs_pos_eq in B1 by apply fnorm_nonneg. specialize (H2 n ltac:(lia)).
    eapply Rle_trans; [apply (@fnorm_entry d (fun i j => E (fun w => dev normal data n w i * dev normal data n w j) - T * B i j) i j Hi Hj)|]. fold (m n). lra.
Qed.
End C77.
(** the step sizes of scheduler.polynomial_step_size (C28) with 0 < gamma <= 1 *)
Theorem C77_polynomial : forall s Data Batch Model (get_data : Data -> Data * Batch) pot_value pot_likelihoods pot_model (pot_grad : vtree -> Batch -> Model -> vtree) A B mu lam T S x0 model0 key0,
  wfv s -> (forall t b m, like s t -> like s (pot_grad t b m)) -> positive_definite (dim s) A lam -> inverse_matrix (dim s) A B -> 0 <= T -> 0 <= S -> like s x0 ->
  forall a b g, 0 < a -> 0 < b -> 0 < g <= 1 -> forall delta, 0 < delta ->
  let eps := fun n : nat => a * Rpower (b + INR n) (- g) in
  exists N, forall n, (N <= n)%nat -> forall W (E : (W -> R) -> R) normal data,
  unbiased_run s get_data pot_value pot_likelihoods pot_model pot_grad A mu T S x0 model0 key0 eps E normal data n ->
  forall i j, (i < dim s)%nat -> (j < dim s)%nat ->
    let x := fun w i => el (l_pos (at_ get_data pot_value pot_likelihoods pot_model pot_grad T x0 model0 key0 eps normal data n w)) i in
    Rabs (E (fun w => x w i) - mu i) <= delta /\ Rabs (E (fun w => (x w i - mu i) * (x w j - mu j)) - T * B i j) <= delta.
Proof.
  intros s Data Batch Model get_data pv pl pm pg A B mu lam T S x0 model0 key0 Hs Hg HA HB HT HS Hx a b g Ha Hb Hgm delta Hd eps.
  exact (@C77_vanishing_steps s Hs Data Batch Model get_data pv pl pm pg Hg A B mu lam T S x0 model0 key0 HA HB HT HS Hx eps (poly_pos b g Ha) (poly_vanishing Ha Hb Hgm) (poly_divergent Ha Hb Hgm) delta Hd).
Qed.

(** a constant step size e leaves a bias even with exact gradients: for one parameter with precision lam the variance tends to T / (lam (1 - e lam / 2)) > T / lam *)
Theorem C77_constant_step_bias : forall s Data Batch Model (get_data : Data -> Data * Batch) pot_value pot_likelihoods pot_model (pot_grad : vtree -> Batch -> Model -> vtree) mu lam T S x0 model0 key0 e,
  wfv s -> dim s = 1%nat -> (forall t b m, like s t -> like s (pot_grad t b m)) -> 0 < lam -> 0 < T -> like s x0 -> 0 < e -> e * lam < 2 ->
  let v := T / (lam * (1 - e * lam / 2)) in
  T / lam < v /\ forall delta, 0 < delta -> exists N, forall n, (N <= n)%nat -> forall W (E : (W -> R) -> R) normal data,
  unbiased_run s get_data pot_value pot_likelihoods pot_model pot_grad (fun _ _ => lam) mu T S x0 model0 key0 (fun _ => e) E normal data n ->
  (forall k w i, grad_error s get_data pot_value pot_likelihoods pot_model pot_grad (fun _ _ => lam) mu T x0 model0 key0 (fun _ => e) normal data k w i = 0) ->
    let x := fun w => el (l_pos (at_ get_data pot_value pot_likelihoods pot_model pot_grad T x0 model0 key0 (fun _ => e) normal data n w)) 0 in
    Rabs (E (fun w => (x w - mu 0%nat) * (x w - mu 0%nat)) - v) <= delta.
Proof.
  intros s Data Batch Model get_data pv pl pm pg mu lam T S x0 model0 key0 e Hs Hdim Hg Hl HT Hx He Hel v.
  assert (Pl : 0 < lam * (1 - e * lam / 2)) by (apply Rmult_lt_0_compat; lra).
  split.
  { unfold v, Rdiv. apply Rmult_lt_compat_l; auto. apply Rinv_lt_contravar; [apply Rmult_lt_0_compat; auto|]. assert (0 < lam * (e * lam / 2)) by (apply Rmult_lt_0_compat; nra). lra. }
  intros delta Hd. set (q := (1 - e * lam) * (1 - e * lam)). set (w0 := (el x0 0 - mu 0%nat) * (el x0 0 - mu 0%nat) - v).
  assert (Hq : Rabs q < 1) by (assert (Hpl : 0 < e * lam) by (apply Rmult_lt_0_compat; auto); assert (Hsq : forall p, 0 < p -> p < 2 -> Rabs ((1 - p) * (1 - p)) < 1) by (clear; intros p H1 H2; rewrite Rabs_pos_eq by apply Rle_0_sqr; assert (0 < p * (2 - p)) by (apply Rmult_lt_0_compat; lra); lra); apply Hsq; auto).
  destruct (pow_lt_1_zero q Hq (delta / (1 + Rabs w0))) as [N HN]; [apply Rdiv_lt_0_compat; [lra|pose proof (Rabs_pos w0); lra]|].
  exists N. intros n Hn W E normal data Hun Hge x.
  assert (HA : positive_definite (dim s) (fun _ _ => lam) lam).
  { rewrite Hdim. split; [auto|]. split; [exact Hl|]. intros u. unfold norm2, matvec. rewrite !sum_upto_S. unfold sum_upto. cbn. right. ring. }
  assert (Rec : forall k, (k <= n)%nat -> E (fun w => let y := dev get_data pv pl pm pg mu T x0 model0 key0 (fun _ => e) normal data k w 0 in y * y) - v = q ^ k * w0).
  { induction k as [|k IH]; intros Hk.
    - cbn [pow]. destruct Hun as (HE & H1 & _). rewrite (@E_ext W E HE _ (fun _ => (el x0 0 - mu 0%nat) * (el x0 0 - mu 0%nat))) by reflexivity. rewrite (E_const _ HE H1). unfold w0. ring.
    - assert (Hun' : unbiased_run s get_data pv pl pm pg (fun _ _ => lam) mu T S x0 model0 key0 (fun _ => e) E normal data (Datatypes.S k)).
      { destruct Hun as (U1 & U2 & U3 & U4). split; [exact U1|]. split; [exact U2|]. split; [exact U3|]. intros l Hlk. apply U4. lia. }
      destruct (@C77_moments s Hs Data Batch Model get_data pv pl pm pg Hg (fun _ _ => lam) mu lam T S x0 model0 key0 HA (Rlt_le _ _ HT) Hx (fun _ => e) W E normal data k Hun' (Rlt_le _ _ He)) as [_ M].
      specialize (M 0%nat 0%nat ltac:(rewrite Hdim; lia) ltac:(rewrite Hdim; lia)). cbv zeta in M. rewrite Hdim in M. rewrite !sum_upto_S in M. unfold sum_upto in M. cbn [seq map fold_right] in M.
      cbv zeta. rewrite M. destruct Hun as (HE & _). rewrite (@E_ext W E HE (fun w => grad_error _ _ _ _ _ _ _ _ _ _ _ _ _ _ _ _ _ _ * _) (fun _ => 0)) by (intros w; rewrite Hge; ring). rewrite (E_zero HE).
      specialize (IH ltac:(lia)). cbv zeta in IH. set (c := E _) in *. cbn [pow]. replace (q * q ^ k * w0) with (q * (c - v)) by (rewrite IH; ring). unfold unit_matrix, q, v. cbn. field. lra. }
  specialize (Rec n (le_n n)). cbv zeta in Rec. change (Rabs (E (fun w => dev get_data pv pl pm pg mu T x0 model0 key0 (fun _ => e) normal data n w 0 * dev get_data pv pl pm pg mu T x0 model0 key0 (fun _ => e) normal data n w 0) - v) <= delta).
  rewrite Rec, Rabs_mult. specialize (HN n Hn). pose proof (Rabs_pos w0). pose proof (Rabs_pos (q ^ n)).
  apply Rle_trans with (delta / (1 + Rabs w0) * (1 + Rabs w0)); [apply Rmult_le_compat; lra|right; field; lra].
Qed.

(** the hypotheses can be met: coins for the noise and for the error of the gradient of two steps *)
Example C77_nonvacuous :
  let Wt := (bool * bool * bool * bool)%type in
  let avg := fun f : bool -> R => (f true + f false) / 2 in
  let E := fun X : Wt -> R => avg (fun a => avg (fun b => avg (fun c => avg (fun d => X (a, b, c, d))))) in
  let sign := fun b : bool => if b then 1 else -1 in
  let s := Leaf (mkArr [] [0]) in
  let normal := fun (w : Wt) (k : key) (sh : list nat) => let '(a, b, _, _) := w in repeat (match k with Sub (Sub (PRNGKey _) _) _ => sign a | _ => sign b end) (size sh) in
  let get_data := fun d : Wt * nat => ((fst d, S (snd d)), let '(_, _, c, e) := fst d in if (snd d =? 0)%nat then sign c else sign e) in
  let pot_grad := fun (t : vtree) (b : R) (_ : unit) => emap (fun x => x + b) t in
  forall eps : nat -> R, unbiased_run s get_data (fun _ _ _ => 0) (fun _ _ _ => []) (fun _ _ m => m) pot_grad (fun _ _ => 1) (fun _ => 0) 1 1 (Leaf (mkArr [] [3])) tt (PRNGKey 0) eps E normal (fun w => (w, O)) 2
  /\ positive_definite (dim s) (fun _ _ => 1) 1 /\ inverse_matrix (dim s) (fun _ _ => 1) (fun _ _ => 1).
Proof.
  intros Wt avg E sign s normal get_data pot_grad eps. split; [|split].
  - split; [split; [intros X Y HXY; unfold E, avg; now rewrite !HXY|split; intros; unfold E, avg; field]|]. split; [unfold E, avg; field|].
    split; [intros [[[a b] c] d] k sh; apply repeat_length|].
    assert (D0 : forall w, dev get_data (fun _ _ _ => 0) (fun _ _ _ => []) (fun _ _ m => m) pot_grad (fun _ => 0) 1 (Leaf (mkArr [] [3])) tt (PRNGKey 0) eps normal (fun w => (w, O)) 0 w 0 = 3) by (intros w; unfold dev, el; cbn; ring).
    assert (G : forall k w, (k < 2)%nat -> grad_error s get_data (fun _ _ _ => 0) (fun _ _ _ => []) (fun _ _ m => m) pot_grad (fun _ _ => 1) (fun _ => 0) 1 (Leaf (mkArr [] [3])) tt (PRNGKey 0) eps normal (fun w => (w, O)) k w 0
      = let '(_, _, c, e) := w in if (k =? 0)%nat then sign c else sign e).
    { intros [|[|k]] [[[a b] c] d] Hk; [| |lia]; unfold grad_error, matvec, sum_upto, dev, el; cbn; unfold el; cbn; ring. }
    assert (Z : forall k w, (k < 2)%nat -> step_noise s (PRNGKey 0) normal k w 0 = let '(a, b, _, _) := w in if (k =? 0)%nat then sign a else sign b).
    { intros [|[|k]] [[[a b] c] d] Hk; [| |lia]; reflexivity. }
    assert (D1 : forall w, dev get_data (fun _ _ _ => 0) (fun _ _ _ => []) (fun _ _ m => m) pot_grad (fun _ => 0) 1 (Leaf (mkArr [] [3])) tt (PRNGKey 0) eps normal (fun w => (w, O)) 1 w 0
      = let '(a, _, c, _) := w in 3 - eps O * (3 + sign c) + sqrt (2 * 1 * eps O) * sign a).
    { intros [[[a b] c] d]. unfold dev, el; cbn. ring. }
    intros k Hk. assert (K : exists y : Wt -> R, (forall w, dev get_data (fun _ _ _ => 0) (fun _ _ _ => []) (fun _ _ m => m) pot_grad (fun _ => 0) 1 (Leaf (mkArr [] [3])) tt (PRNGKey 0) eps normal (fun w => (w, O)) k w 0 = y w) /\
      (exists f : bool -> bool -> R, forall w, y w = if (k =? 0)%nat then f true true else let '(a, _, c, _) := w in f a c)).
    { destruct k as [|[|k]]; [| |lia].
      - exists (fun _ => 3). split; [exact D0|]. exists (fun _ _ => 3). reflexivity.
      - eexists. split; [exact D1|]. exists (fun a c => 3 - eps O * (3 + sign c) + sqrt (2 * 1 * eps O) * sign a). intros [[[a b] c] d]. reflexivity. }
    destruct K as (y & Y1 & f & Y2). pose proof (fun w => G k w Hk) as Gk. pose proof (fun w => Z k w Hk) as Zk.
    assert (One : forall i, (i < dim s)%nat -> i = O) by (intros i Hi; unfold dim in Hi; cbn in Hi; lia).
    assert (EE : forall X Y : Wt -> R, (forall w, X w = Y w) -> E X = E Y) by (intros X Y H; unfold E, avg; now rewrite !H).
    assert (K2 : k = O \/ k = 1%nat) by lia.
    split; [intros i Hi; rewrite (One i Hi); split|split; [|split; [|split; [|split]]]]; try (intros i j Hi Hj; rewrite (One i Hi), (One j Hj); cbv beta).
    + erewrite EE by (intros w; apply Gk). unfold E, avg, sign. destruct K2 as [-> | ->]; cbn; field.
    + erewrite EE by (intros w; apply Zk). unfold E, avg, sign. destruct K2 as [-> | ->]; cbn; field.
    + erewrite EE by (intros w; rewrite Y1, Y2, Gk; reflexivity). unfold E, avg, sign. destruct K2 as [-> | ->]; cbn; field.
    + erewrite EE by (intros w; rewrite Y1, Y2, Zk; reflexivity). unfold E, avg, sign. destruct K2 as [-> | ->]; cbn; field.
    + erewrite EE by (intros w; rewrite Gk, Zk; reflexivity). unfold E, avg, sign. destruct K2 as [-> | ->]; cbn; field.
    + erewrite EE by (intros w; rewrite Zk; reflexivity). unfold E, avg, sign, unit_matrix. destruct K2 as [-> | ->]; cbn; field.
    + erewrite EE by (intros w; rewrite Gk; reflexivity). replace (sum_upto (dim s) _) with (E (fun w => y w * y w)).
      2:{ unfold sum_upto, dim. cbn. rewrite Rplus_0_r. apply EE. intros w. now rewrite Y1. }
      replace (E _) with 1 at 1 by (unfold E, avg, sign; destruct K2 as [-> | ->]; cbn; field). rewrite Rabs_R1.
      assert (0 <= E (fun w => y w * y w)); [|lra]. unfold E, avg. repeat match goal with |- context [?u * ?u] => let H := fresh in pose proof (Rle_0_sqr u) as H; unfold Rsqr in H; generalize dependent (u * u); intros end. lra.
  - unfold positive_definite, norm2, matvec, sum_upto, dim. cbn. split; [auto|]. split; [lra|]. intros v. right. ring.
  - intros i j Hi Hj. unfold dim in *. cbn in *. assert (i = O) by lia. assert (j = O) by lia. subst. unfold sum_upto, unit_matrix. cbn. lra.
Qed.
Print Assumptions C77_moments. Print Assumptions C77_vanishing_steps. Print Assumptions C77_polynomial. Print Assumptions C77_constant_step_bias. Print Assumptions C77_nonvacuous.
