(** C98: averages of the positions of SGHMC (integrator.friction_leapfrog, alias.sghmc) on a Gaussian posterior.
    Reading guide: as in C85 (PropertiesSghmcGaussian.v); [at_ n w] is the state after n integrations for the random numbers w; [mean_sghmc b n w i] averages coordinate i of the positions after the integrations b + 1, ..., b + n (b is the burn in).
    [returned r k j] is coordinate j of the parameters in row k of the samples that the alias returns for a chain (AverageAlias.v). *)
From Coq Require Import Reals Lra Lia Psatz ZArith String.
From Verif Require Import Base ListUtil Pytree PytreeSpec PytreeProofs Io IoSpec IoProofs IoFinal TreeUtil TreeUtilSpec TreeUtilProofs Integrator IntegratorSpec IntegratorBasics LeapfrogFinal
  Xreal Scheduler SchedulerSpec SchedulerProofs StepSizeProofs PropertiesScheduler Solver SolverSpec SolverProofs SolverFinal PropertiesSolver Adaption Alias PropertiesAlias AliasSgld AliasRun AliasHmc AverageAlias.
From Verif Require Import ExpectSpec ExpectProofs GaussianLimit RiemannProofs SghmcGaussian PropertiesSghmcGaussian SghmcResponse.
From Verif Require Import MinibatchSpec PropertiesMinibatchGaussian.
From Verif Require PropertiesHub PropertiesObaboAlias PropertiesObaboAverage PropertiesSecondMoment.
Open Scope R_scope.
Set Implicit Arguments.

(** average of coordinate i of the positions after the integrations b + 1, ..., b + n *)
(** auxiliary definition of a statement or a proof; models no code of /repo *)
Definition mean_sghmc {Data Batch Model} (get_data : Data -> Data * Batch) pot_value pot_model (pot_grad : vtree -> Batch -> Model -> vtree) L friction mass x0 (model0 : Model) key0 eps
  {W} (normal : W -> key -> list nat -> list R) (data : W -> Data) (b n : nat) (w : W) (i : nat) : R :=
  / INR n * sum_upto n (fun k => el (f_pos (at_ get_data pot_value pot_model pot_grad L friction mass x0 model0 key0 eps normal data (S (b + k)) w)) i).

(** ** one coordinate: the factor and the noise of an integration for small steps *)
Section Small.
Variables (lam k sig rm : R) (L : nat).
Hypothesis Hlam : 0 < lam.
Hypothesis HL : (2 <= L)%nat.
Hypothesis Hrm : 0 < rm.
Hypothesis Hsig : 0 <= sig.
Lemma small : exists h c G, 0 < h /\ 0 < c /\ 0 <= G /\ forall e, 0 <= e <= h ->
  2 * c * (e * e) <= 1 /\ cA lam k (e / rm) L * cA lam k (e / rm) L <= 1 - 2 * c * (e * e) /\ Rabs (cA lam k (e / rm) L) <= 1 - c * (e * e) /\
  0 <= gain lam k sig (e / rm) L <= 2 * c * (e * e) * G.
Proof.
  assert (HI : 2 <= INR L) by (replace 2 with (INR 2) by (cbn; lra); now apply le_INR). destruct (square_expansion lam k L) as (f & [F Hf] & Sq). destruct (gain_expansion lam k sig L) as (q & [Q Hq] & Ga).
  set (r := lam * INR L * (INR L - 1)). assert (Pr : 0 < r) by (unfold r; apply Rmult_lt_0_compat; [apply Rmult_lt_0_compat|]; lra).
  assert (PF : 0 <= F) by (specialize (Hf 0 ltac:(lra)); pose proof (Rabs_pos (f 0)); lra). assert (PQ : 0 <= Q) by (specialize (Hq 0 ltac:(lra)); pose proof (Rabs_pos (q 0)); lra).
  set (g0 := Rmin 1 (r / (2 * (1 + F)))). assert (Pg : 0 < g0) by (apply Rmin_glb_lt; [lra|apply Rdiv_lt_0_compat; lra]).
  exists (g0 * rm), (r / (4 * (rm * rm))), (2 * (INR L * INR L + Q) / r). assert (Prm : 0 < rm * rm) by (apply Rmult_lt_0_compat; lra).
  split; [apply Rmult_lt_0_compat; lra|]. split; [apply Rdiv_lt_0_compat; lra|]. split; [apply Rmult_le_pos; [assert (0 <= INR L * INR L) by (apply Rmult_le_pos; lra); lra|left; apply Rinv_0_lt_compat; lra]|].
  intros e [E0 E1]. set (g := e / rm). assert (Eg : e = g * rm) by (unfold g; field; lra).
  assert (G0 : 0 <= g) by (apply Rmult_le_pos; [lra|left; apply Rinv_0_lt_compat; lra]). assert (G1 : g <= g0) by (apply (Rmult_le_reg_r rm); [lra|]; lra).
  assert (H1 : g <= 1) by (eapply Rle_trans; [exact G1|apply Rmin_l]). assert (H3 : g <= r / (2 * (1 + F))) by (eapply Rle_trans; [exact G1|apply Rmin_r]).
  assert (H4 : g * (1 + F) <= r / 2). { apply (Rmult_le_compat_r (1 + F)) in H3; [|lra]. replace (r / (2 * (1 + F)) * (1 + F)) with (r / 2) in H3 by (field; lra). exact H3. }
  specialize (Hf g ltac:(lra)). specialize (Hq g ltac:(lra)). specialize (Sq g). specialize (Ga g). fold r in Sq. set (A := cA lam k g L) in *.
  assert (Fh : Rabs (g * f g) <= r / 2). { rewrite Rabs_mult, (Rabs_right g) by lra. eapply Rle_trans; [apply Rmult_le_compat_l; [lra|exact Hf]|]. rewrite Rmult_plus_distr_l, Rmult_1_r in H4. lra. }
  assert (F1 : - (r / 2) <= g * f g) by (pose proof (Rle_abs (- (g * f g))) as X; rewrite Rabs_Ropp in X; lra).
  assert (Pgg : 0 <= g * g) by (apply Rmult_le_pos; lra). assert (C1 : 2 * (r / (4 * (rm * rm))) * (e * e) = g * g * (r / 2)) by (rewrite Eg; field; lra).
  assert (S1 : g * g * (r / 2) <= g * g * (r + g * f g)) by (apply Rmult_le_compat_l; lra). pose proof (Rle_0_sqr A) as PA. unfold Rsqr in PA.
  rewrite C1. assert (C2 : r / (4 * (rm * rm)) * (e * e) = g * g * (r / 2) / 2) by (rewrite <- C1; field; lra). rewrite C2. set (x := g * g * (r / 2)) in *.
  assert (X1 : A * A <= 1 - x) by lra. assert (Px : 0 <= x) by (apply Rmult_le_pos; lra). split; [lra|]. split; [exact X1|]. split.
  - apply Rsqr_incr_0_var; [|lra]. rewrite <- Rsqr_abs. unfold Rsqr. assert (0 <= x * x) by (apply Rmult_le_pos; lra). replace ((1 - x / 2) * (1 - x / 2)) with (1 - x + x * x / 4) by field. lra.
  - split.
    + unfold gain. apply Rplus_le_le_0_compat; [apply Rle_0_sqr|]. apply Rmult_le_pos; [apply Rmult_le_pos; lra|]. rewrite <- (Rmult_0_r (INR L)), <- sum_upto_const. apply sum_upto_le. intros j _. apply Rle_0_sqr.
    + rewrite Ga. replace (x * (2 * (INR L * INR L + Q) / r)) with (g * g * (INR L * INR L + Q)) by (unfold x; field; lra). apply Rmult_le_compat_l; [lra|]. apply Rplus_le_compat_l. eapply Rle_trans; [apply Rle_abs|]. rewrite Rabs_mult, (Rabs_right g) by lra.
      rewrite <- (Rmult_1_l Q). apply Rmult_le_compat; try apply Rabs_pos; lra.
Qed.
End Small.

Section C98.
Variable s : vtree.
Hypothesis Hs : wfv s.
Section Steps.
Variables (Data Batch Model : Type).
Variable get_data : Data -> Data * Batch.
Variable pot_value : vtree -> Batch -> Model -> R.
Variable pot_model : vtree -> Batch -> Model -> Model.
Variable pot_grad : vtree -> Batch -> Model -> vtree.
Hypothesis Hg : forall t b m, like s t -> like s (pot_grad t b m).
Variables (L : nat) (friction : fric) (mass : option vtree).
Hypothesis HL : (2 <= L)%nat.
Hypothesis Hfr : match friction with FScalar _ => True | FTree t => like s t end.
Hypothesis Hmass : match mass with Some m => like s m /\ forall i, (i < dim s)%nat -> 0 < el m i | None => True end.
Variables (x0 : vtree) (model0 : Model) (key0 : key).
Hypothesis Hx : like s x0.
Variables (lam mu : nat -> R).
Hypothesis Hgauss : forall t b m i, like s t -> (i < dim s)%nat -> el (pot_grad t b m) i = lam i * (el t i - mu i).
Hypothesis Hlam : forall i, (i < dim s)%nat -> 0 < lam i.
Notation mean := (mean_sghmc get_data pot_value pot_model pot_grad L friction mass x0 model0 key0).
Notation VV eps i := (V L friction mass x0 eps lam mu i).
Notation aa eps i := (fun n : nat => cA (lam i) (fric_at friction i / root_mass mass i) (eps n / root_mass mass i) L).

(** the mean square error of the average, from the factors and the variances *)
Lemma mean_total eps i b n : (forall k, 0 <= eps k) -> (i < dim s)%nat -> (0 < n)%nat -> forall W (E : (W -> R) -> R) normal data, standard_noise s L key0 E normal (b + n) ->
  E (fun w => (mean eps normal data b n w i - mu i) * (mean eps normal data b n w i - mu i)) = total (aa eps i) (VV eps i) (S b) n / (INR n * INR n).
Proof.
  intros He Hi Hn W E normal data Hz. pose proof Hz as (HE & H1 & Hnk & HZ). destruct (HZ i Hi) as [Z1 Z2]. set (N := (b + n)%nat) in *.
  set (Y := fun t w => el (f_pos (at_ get_data pot_value pot_model pot_grad L friction mass x0 model0 key0 eps normal data t w)) i - mu i). set (z := fun t w => noise s key0 normal t w i).
  assert (COMB : forall j, exists c, forall w, Y j w = comb z (M L friction mass x0 eps lam mu i j) c (j * S L) w).
  { intros j. destruct (@as_comb s Hs Data Batch Model get_data pot_value pot_model pot_grad Hg L friction mass Hfr Hmass x0 model0 key0 Hx eps lam mu W normal data i Hgauss He Hnk Hi j) as (c & C & _). exists c. exact C. }
  assert (SM : forall j, (j <= N)%nat -> standard_noise s L key0 E normal j) by (intros j Hj; remember (N - j)%nat as d eqn:Ed; revert j Hj Ed; induction d as [|d IH]; intros j Hj Ed; [replace j with N by lia; exact Hz|]; apply (@standard_mono s L key0 W E normal j), IH; lia).
  assert (HV : forall j, (j <= N)%nat -> E (fun w => Y j w * Y j w) = VV eps i j).
  { intros j Hj. exact (proj2 (@moments s Hs Data Batch Model get_data pot_value pot_model pot_grad Hg L friction mass Hfr Hmass x0 model0 key0 Hx eps lam mu W E normal data j i Hgauss He (SM j Hj) Hi)). }
  assert (HO : forall j t, (j <= t)%nat -> (t < N)%nat -> E (fun w => Y j w * Y (S t) w) = aa eps i t * E (fun w => Y j w * Y t w)).
  { intros j t Hj Ht. destruct (COMB j) as (c & C). set (tau := fric_at friction i * sqrt (2 * eps t) / root_mass mass i). set (k := fric_at friction i / root_mass mass i). set (g := eps t / root_mass mass i).
    assert (ST : forall w, Y (S t) w = cA (lam i) k g L * Y t w + cB (lam i) k g L * z (t * S L)%nat w + tau * sum_upto L (fun l => cB (lam i) k g (L - 1 - l) * z (t * S L + 1 + l)%nat w)).
    { intros w. exact (@integration_gauss s Hs Data Batch Model get_data pot_value pot_model pot_grad Hg L friction mass Hfr Hmass x0 model0 key0 Hx eps (normal w) (Hnk w) (data w) lam mu t i Hgauss Hi). }
    assert (OZ : forall u, (t * S L <= u)%nat -> (u < S t * S L)%nat -> E (fun w => Y j w * z u w) = 0).
    { intros u U1 U2. rewrite (E_ext HE _ (fun w => comb z (M L friction mass x0 eps lam mu i j) c (j * S L) w * z u w)) by (intros w; now rewrite C).
      apply (@E_comb_z W E z (N * S L) HE); auto; nia. }
    rewrite (E_ext HE _ (fun w => cA (lam i) k g L * (Y j w * Y t w) + (cB (lam i) k g L * (Y j w * z (t * S L)%nat w) + tau * sum_upto L (fun l => cB (lam i) k g (L - 1 - l) * (Y j w * z (t * S L + 1 + l)%nat w))))).
    2: { intros w. rewrite ST. rewrite (@sum_upto_ext L (fun l => cB (lam i) k g (L - 1 - l) * (Y j w * z (t * S L + 1 + l)%nat w)) (fun l => Y j w * (cB (lam i) k g (L - 1 - l) * z (t * S L + 1 + l)%nat w))) by (intros; ring). rewrite (@sum_upto_scale L (Y j w) (fun l => cB (lam i) k g (L - 1 - l) * z (t * S L + 1 + l)%nat w)). ring. }
    rewrite (E_plus HE (fun w => cA (lam i) k g L * (Y j w * Y t w)) (fun w => cB (lam i) k g L * (Y j w * z (t * S L)%nat w) + tau * sum_upto L (fun l => cB (lam i) k g (L - 1 - l) * (Y j w * z (t * S L + 1 + l)%nat w)))).
    rewrite (E_plus HE (fun w => cB (lam i) k g L * (Y j w * z (t * S L)%nat w)) (fun w => tau * sum_upto L (fun l => cB (lam i) k g (L - 1 - l) * (Y j w * z (t * S L + 1 + l)%nat w)))).
    rewrite (E_scale HE (cA (lam i) k g L) (fun w => Y j w * Y t w)), (E_scale HE (cB (lam i) k g L) (fun w => Y j w * z (t * S L)%nat w)), (E_scale HE tau (fun w => sum_upto L (fun l => cB (lam i) k g (L - 1 - l) * (Y j w * z (t * S L + 1 + l)%nat w)))).
    rewrite (E_sum HE L (fun l w => cB (lam i) k g (L - 1 - l) * (Y j w * z (t * S L + 1 + l)%nat w))). rewrite OZ by lia.
    rewrite (@sum_upto_ext L (fun l => E (fun w => cB (lam i) k g (L - 1 - l) * (Y j w * z (t * S L + 1 + l)%nat w))) (fun _ => 0)); [rewrite sum_upto_const; unfold k, g; ring|].
    intros l Hl. rewrite (E_scale HE (cB (lam i) k g (L - 1 - l)) (fun w => Y j w * z (t * S L + 1 + l)%nat w)). rewrite OZ by lia. ring. }
  assert (Hin : 0 < INR n) by (apply lt_0_INR; lia).
  rewrite <- (@E_total W E Y (aa eps i) (VV eps i) N HE HV HO (S b) n) by lia.
  assert (MY : forall w, mean eps normal data b n w i - mu i = / INR n * sum_upto n (fun k => Y (S b + k)%nat w)).
  { intros w. unfold mean_sghmc, Y. rewrite (@sum_upto_minus n (fun k => el (f_pos (at_ get_data pot_value pot_model pot_grad L friction mass x0 model0 key0 eps normal data (S b + k) w)) i) (fun _ => mu i)), sum_upto_const. rewrite Rmult_minus_distr_l. f_equal. field. lra. }
  rewrite (E_ext HE _ (fun w => / (INR n * INR n) * (sum_upto n (fun k => Y (S b + k)%nat w) * sum_upto n (fun k => Y (S b + k)%nat w)))) by (intros w; rewrite MY; field; lra).
  rewrite (E_scale HE (/ (INR n * INR n)) (fun w => sum_upto n (fun k => Y (S b + k)%nat w) * sum_upto n (fun k => Y (S b + k)%nat w))). unfold Rdiv. apply Rmult_comm.
Qed.
(** variances under small steps *)
Lemma variances eps i h c G : (forall e, 0 <= e <= h ->
  2 * c * (e * e) <= 1 /\ cA (lam i) (fric_at friction i / root_mass mass i) (e / root_mass mass i) L * cA (lam i) (fric_at friction i / root_mass mass i) (e / root_mass mass i) L <= 1 - 2 * c * (e * e) /\ Rabs (cA (lam i) (fric_at friction i / root_mass mass i) (e / root_mass mass i) L) <= 1 - c * (e * e) /\
  0 <= gain (lam i) (fric_at friction i / root_mass mass i) (2 * fric_at friction i * fric_at friction i / root_mass mass i) (e / root_mass mass i) L <= 2 * c * (e * e) * G) -> 0 < c -> 0 <= G ->
  forall N1, (forall n, (N1 <= n)%nat -> 0 <= eps n <= h) -> 0 <= VV eps i N1 -> forall n, (N1 <= n)%nat -> 0 <= VV eps i n <= VV eps i N1 + G.
Proof.
  intros H Pc PG N1 He V0 n Hn. induction Hn as [|n Hn IH]; [lra|]. destruct (H _ (He n Hn)) as (X1 & X2 & _ & G1 & G2). cbn [V]. cbv zeta.
  set (A := cA (lam i) (fric_at friction i / root_mass mass i) (eps n / root_mass mass i) L) in *. set (g := gain _ _ _ _ _) in *. set (v := V L friction mass x0 eps lam mu i n) in *. set (x := 2 * c * (eps n * eps n)) in *.
  pose proof (Rle_0_sqr A) as PA. unfold Rsqr in PA. split; [apply Rplus_le_le_0_compat; [apply Rmult_le_pos; lra|lra]|].
  assert (Px : 0 <= x) by (destruct (He n Hn); unfold x; repeat apply Rmult_le_pos; lra).
  apply Rle_trans with ((1 - x) * (VV eps i N1 + G) + x * G); [apply Rplus_le_compat; [apply Rmult_le_compat; lra|lra]|].
  assert (0 <= x * VV eps i N1) by (apply Rmult_le_pos; lra). replace ((1 - x) * (VV eps i N1 + G) + x * G) with (VV eps i N1 + G - x * VV eps i N1) by ring. lra.
Qed.
Lemma V_nonneg eps i n : (forall k, 0 <= eps k) -> (i < dim s)%nat -> 0 <= VV eps i n.
Proof.
  intros He Hi. destruct (@root_pos s mass Hmass i Hi) as [Hr _]. induction n as [|n IH]; cbn [V]; [apply Rle_0_sqr|]. cbv zeta. apply Rplus_le_le_0_compat; [apply Rmult_le_pos; [apply Rle_0_sqr|exact IH]|].
  assert (P : 0 <= / root_mass mass i) by (left; now apply Rinv_0_lt_compat). unfold gain. apply Rplus_le_le_0_compat; [apply Rle_0_sqr|]. apply Rmult_le_pos; [apply Rmult_le_pos; apply Rmult_le_pos; auto|].
  - rewrite Rmult_assoc. apply Rmult_le_pos; [lra|apply Rle_0_sqr].
  - rewrite <- (Rmult_0_r (INR L)), <- sum_upto_const. apply sum_upto_le. intros j _. apply Rle_0_sqr.
Qed.
Lemma small_i i : (i < dim s)%nat -> exists h c G, 0 < h /\ 0 < c /\ 0 <= G /\ forall e, 0 <= e <= h ->
  2 * c * (e * e) <= 1 /\ cA (lam i) (fric_at friction i / root_mass mass i) (e / root_mass mass i) L * cA (lam i) (fric_at friction i / root_mass mass i) (e / root_mass mass i) L <= 1 - 2 * c * (e * e) /\ Rabs (cA (lam i) (fric_at friction i / root_mass mass i) (e / root_mass mass i) L) <= 1 - c * (e * e) /\
  0 <= gain (lam i) (fric_at friction i / root_mass mass i) (2 * fric_at friction i * fric_at friction i / root_mass mass i) (e / root_mass mass i) L <= 2 * c * (e * e) * G.
Proof.
  intros Hi. destruct (@root_pos s mass Hmass i Hi) as [Hr _]. apply small; auto. apply Rmult_le_pos; [rewrite Rmult_assoc; apply Rmult_le_pos; [lra|apply Rle_0_sqr]|left; now apply Rinv_0_lt_compat].
Qed.

(** step sizes between two bounds, the upper one small enough (it depends on the posterior, friction, mass and number of inner steps): the mean square error of the averages is at most K / n;
    K does not depend on the step sizes between the bounds, the burn-in b, the number n of averaged samples, the random numbers and the batches *)
Theorem C98_bounded_steps : exists e1, 0 < e1 /\ forall lo, 0 < lo <= e1 -> exists K, 0 <= K /\ forall eps, (forall n, lo <= eps n <= e1) ->
  forall b n, (0 < n)%nat -> forall W (E : (W -> R) -> R) normal data, standard_noise s L key0 E normal (b + n) -> forall i, (i < dim s)%nat ->
  E (fun w => (mean eps normal data b n w i - mu i) * (mean eps normal data b n w i - mu i)) <= K / INR n.
Proof.
  assert (A : forall m, (m <= dim s)%nat -> exists e1, 0 < e1 /\ forall lo hi, 0 < lo <= hi -> hi <= e1 -> exists K, 0 <= K /\ forall eps, (forall n, lo <= eps n <= hi) ->
    forall b n, (0 < n)%nat -> forall W (E : (W -> R) -> R) normal data, standard_noise s L key0 E normal (b + n) -> forall i, (i < m)%nat ->
    E (fun w => (mean eps normal data b n w i - mu i) * (mean eps normal data b n w i - mu i)) <= K / INR n).
  { induction m as [|m IH]; intros Hm; [exists 1; split; [lra|]; intros; exists 0; split; [lra|]; intros; lia|]. destruct IH as (e1 & P1 & H1); [lia|].
    destruct (@small_i m ltac:(lia)) as (h & c & G & Ph & Pc & PG & HS). exists (Rmin e1 h). split; [now apply Rmin_glb_lt|]. intros lo hi Hlo Hhi. pose proof (Rmin_l e1 h) as M1. pose proof (Rmin_r e1 h) as M2.
    destruct (H1 lo hi Hlo ltac:(lra)) as (K & PK & HK). set (v := (el x0 m - mu m) * (el x0 m - mu m) + G). set (r := 1 - c * (lo * lo)).
    assert (Px : 0 < c * (lo * lo)) by (repeat apply Rmult_lt_0_compat; lra). destruct (HS lo ltac:(lra)) as (X1 & _).
    assert (Pr : 0 <= r < 1) by (unfold r; lra). assert (Pv : 0 <= v) by (unfold v; apply Rplus_le_le_0_compat; [apply Rle_0_sqr|lra]).
    assert (PK2 : 0 <= v * ((1 + r) / (1 - r))) by (apply Rmult_le_pos; [lra|]; apply Rmult_le_pos; [lra|left; apply Rinv_0_lt_compat; lra]).
    exists (K + v * ((1 + r) / (1 - r))). split; [lra|]. intros eps He b n Hn W E normal data Hz i Hi. assert (Hin : 0 < INR n) by (apply lt_0_INR; lia). assert (P : 0 < / INR n) by (now apply Rinv_0_lt_compat). unfold Rdiv at 1. rewrite Rmult_plus_distr_r.
    destruct (Nat.eq_dec i m) as [-> |Ne].
    2: { specialize (HK eps He b n Hn W E normal data Hz i ltac:(lia)). unfold Rdiv in HK. assert (0 <= v * ((1 + r) / (1 - r)) * / INR n) by (apply Rmult_le_pos; lra). lra. }
    assert (He0 : forall k, 0 <= eps k) by (intros k; specialize (He k); lra).
    rewrite (@mean_total eps m b n He0 ltac:(lia) Hn W E normal data Hz).
    assert (VB : forall k, 0 <= VV eps m k <= v). { intros k. apply (@variances eps m h c G HS Pc PG 0%nat); [intros k' _; specialize (He k'); lra|apply V_nonneg; auto; lia|lia]. }
    assert (AB : forall k, Rabs (aa eps m k) <= r). { intros k. specialize (He k). destruct (HS (eps k) ltac:(lra)) as (_ & _ & X & _). eapply Rle_trans; [exact X|]. unfold r. assert (lo * lo <= eps k * eps k) by (apply Rmult_le_compat; lra). assert (c * (lo * lo) <= c * (eps k * eps k)) by (apply Rmult_le_compat_l; lra). lra. }
    pose proof (@total_bound (aa eps m) (VV eps m) (S b) r v Pr AB VB n) as T.
    assert (T2 : total (aa eps m) (VV eps m) (S b) n / (INR n * INR n) <= v * ((1 + r) / (1 - r)) * / INR n).
    { apply (Rmult_le_reg_r (INR n * INR n)); [apply Rmult_lt_0_compat; lra|]. replace (total (aa eps m) (VV eps m) (S b) n / (INR n * INR n) * (INR n * INR n)) with (total (aa eps m) (VV eps m) (S b) n) by (field; lra).
      replace (v * ((1 + r) / (1 - r)) * / INR n * (INR n * INR n)) with (INR n * (v * ((1 + r) / (1 - r)))) by (field; lra). exact T. }
    assert (0 <= K * / INR n) by (apply Rmult_le_pos; lra). lra. }
  destruct (A (dim s) (le_n _)) as (e1 & P1 & H1). exists e1. split; [exact P1|]. intros lo Hlo. exact (H1 lo e1 Hlo (Rle_refl _)).
Qed.

(** vanishing step sizes that fall slower than 1 / sqrt n: the averages converge, in contrast to the variance of the samples (C85) *)
Theorem C98_vanishing_steps : forall eps, (forall n, 0 < eps n) -> (forall n, eps (S n) <= eps n) -> vanishing eps -> (forall A, exists n0, forall n, (n0 <= n)%nat -> A <= INR n * (eps n * eps n)) ->
  forall b delta, 0 < delta -> exists n0, forall n, (n0 <= n)%nat -> forall W (E : (W -> R) -> R) normal data, standard_noise s L key0 E normal (b + n) -> forall i, (i < dim s)%nat ->
  E (fun w => (mean eps normal data b n w i - mu i) * (mean eps normal data b n w i - mu i)) <= delta.
Proof.
  intros eps He Hd Hv Hgr b delta Hdl.
  assert (A : forall m, (m <= dim s)%nat -> exists n0, forall n, (n0 <= n)%nat -> forall W (E : (W -> R) -> R) normal data, standard_noise s L key0 E normal (b + n) -> forall i, (i < m)%nat ->
    E (fun w => (mean eps normal data b n w i - mu i) * (mean eps normal data b n w i - mu i)) <= delta).
  { induction m as [|m IH]; intros Hm; [exists 0%nat; intros; lia|]. destruct IH as (n1 & H1); [lia|]. destruct (@small_i m ltac:(lia)) as (h & c & G & Ph & Pc & PG & HS).
    destruct (Hv h Ph) as [N1 HN1]. assert (He0 : forall k, 0 <= eps k) by (intros k; specialize (He k); lra).
    destruct (@total_vanishes (aa eps m) (VV eps m) (S b) eps c (VV eps m N1 + G) N1 Pc He Hd) with (delta := delta) as (n2 & P2 & H2); auto.
    { intros n Hn. specialize (HN1 n Hn). specialize (He n). destruct (HS (eps n) ltac:(lra)) as (X1 & _ & X & _). split; [|exact X]. assert (0 < c * (eps n * eps n)) by (repeat apply Rmult_lt_0_compat; lra). lra. }
    { intros n Hn. apply (@variances eps m h c G HS Pc PG N1); [intros k Hk; specialize (HN1 k Hk); specialize (He k); lra|apply V_nonneg; auto; lia|exact Hn]. }
    exists (n1 + n2)%nat. intros n Hn W E normal data Hz i Hi. destruct (Nat.eq_dec i m) as [-> |Ne]; [|apply (H1 n ltac:(lia) W E normal data Hz); lia].
    rewrite (@mean_total eps m b n He0 ltac:(lia) ltac:(lia) W E normal data Hz). specialize (H2 n ltac:(lia)). assert (Hin : 0 < INR n) by (apply lt_0_INR; lia). assert (P : 0 < INR n * INR n) by (apply Rmult_lt_0_compat; lra).
    apply (Rmult_le_reg_r (INR n * INR n)); [exact P|]. replace (total (aa eps m) (VV eps m) (S b) n / (INR n * INR n) * (INR n * INR n)) with (total (aa eps m) (VV eps m) (S b) n) by (field; lra). exact H2. }
  exact (A (dim s) (le_n _)).
Qed.
(** the step sizes of scheduler.polynomial_step_size with 0 < gamma < 1/2 *)
Theorem C98_polynomial : forall a0 b0 g, 0 < a0 -> 0 < b0 -> 0 < g < 1 / 2 -> let eps := fun n : nat => a0 * Rpower (b0 + INR n) (- g) in
  forall b delta, 0 < delta -> exists n0, forall n, (n0 <= n)%nat -> forall W (E : (W -> R) -> R) normal data, standard_noise s L key0 E normal (b + n) -> forall i, (i < dim s)%nat ->
  E (fun w => (mean eps normal data b n w i - mu i) * (mean eps normal data b n w i - mu i)) <= delta.
Proof.
  intros a0 b0 g Ha Hb Hgm eps. apply C98_vanishing_steps.
  - exact (poly_pos b0 g Ha).
  - exact (@PropertiesObaboAverage.power_decreasing a0 b0 g Ha Hb (proj1 Hgm)).
  - exact (@poly_vanishing a0 b0 g Ha Hb ltac:(lra)).
  - intros A. destruct (@PropertiesSecondMoment.power_growth (a0 * a0) b0 (2 * g) ltac:(apply Rmult_lt_0_compat; lra) Hb ltac:(lra) A) as [n0 H]. exists n0. intros n Hn. specialize (H n Hn). unfold eps.
    replace (- (2 * g)) with (- g + - g) in H by ring. rewrite Rpower_plus in H. replace (a0 * Rpower (b0 + INR n) (- g) * (a0 * Rpower (b0 + INR n) (- g))) with (a0 * a0 * (Rpower (b0 + INR n) (- g) * Rpower (b0 + INR n) (- g))) by ring. exact H.
Qed.
End Steps.

(** ** The alias *)
Section Alias.
Variables (Data Batch : Type).
Variable get_data : Data -> Data * Batch.
Variable pot_value : vtree -> Batch -> vtree -> R.
Variable pot_model : vtree -> Batch -> vtree -> vtree.
Variable pot_grad : vtree -> Batch -> vtree -> vtree.
Hypothesis Hg : forall t b m, like s t -> like s (pot_grad t b m).
Hypothesis Hm : forall t b m, same_structure (pot_model t b m) m.
Variables (L : nat) (friction : fric) (mass : option vtree).
Hypothesis HL : (2 <= L)%nat.
Hypothesis Hfr : match friction with FScalar _ => True | FTree t => like s t end.
Hypothesis Hmass : match mass with Some m => like s m /\ forall i, (i < dim s)%nat -> 0 < el m i | None => True end.
(** the initial sample of the chain and the initial state of the model *)
Variables (x0 model0 : vtree).
Hypothesis Hx : like s x0.
Variables (lam mu : nat -> R).
Hypothesis Hgauss : forall t b m i, like s t -> (i < dim s)%nat -> el (pot_grad t b m) i = lam i * (el t i - mu i).
Hypothesis Hlam : forall i, (i < dim s)%nat -> 0 < lam i.
(** jax.random.choice of the thinning; zeros_like *)
Variables (Key : Type) (choice : Key -> list xr -> nat -> list nat) (tk : Key) (zl : arr -> arr).
Hypothesis Hc : choice_ok choice.
(** the answer of the run function of alias.sghmc *)
Notation answer normal a its h starts :=
  (snd (al_run choice tk a zl (sghmc_solver normal get_data pot_value pot_model pot_grad L mass friction) (fst (run (mstep zl) (mc_new false) h))
     (map (fun xd => sghmc_init Batch (snd xd) model0 (fst xd)) starts) its)).
(** With step sizes falling from f to l' < f below a threshold e1, every chain of alias.sghmc that returns all samples after burn-in returns
    samples whose mean has mean square error at most K / (number of samples); K does not depend on the number of iterations and the burn-in. *)
Theorem C98_alias : exists e1, 0 < e1 /\ forall f l', 0 < l' < f -> f <= e1 -> exists K, 0 <= K /\
  forall a its, al_first a = Fin f -> al_last a = Fin l' -> al_adaptive a = None -> al_hot a = None -> (2 <= its)%nat -> (al_burn_in a < its)%nat ->
  let m := (its - al_burn_in a)%nat in al_accepted a = Some m ->
  forall W (E : (W -> R) -> R) (normal : W -> key -> list nat -> list R), standard_noise s L (PRNGKey 0) E normal its ->
  forall c (starts : W -> list (vtree * Data)) (d : W -> Data) (h : W -> list (mop arr)), (forall w, Forall (fun xd => like s (fst xd)) (starts w)) ->
    (forall w, nth_error (starts w) c = Some (x0, d w)) ->
    (forall w, exists results r, answer (normal w) a its (h w) (starts w) = Some (Ok results) /\ length results = length (starts w) /\ nth_error results c = Some r /\ fst r = m) /\
    forall r : W -> result arr, (forall w, exists results, answer (normal w) a its (h w) (starts w) = Some (Ok results) /\ nth_error results c = Some (r w)) ->
      forall j, (j < dim s)%nat -> let mean := fun w => sum_upto m (fun k => returned (r w) k j) / INR m in
        E (fun w => (mean w - mu j) * (mean w - mu j)) <= K / INR m.
Proof.
  destruct (@C98_bounded_steps Data Batch vtree get_data pot_value pot_model pot_grad Hg L friction mass HL Hfr Hmass x0 model0 (PRNGKey 0) Hx lam mu Hgauss Hlam) as (e1 & He1 & HB).
  exists e1. split; [exact He1|]. intros f l' Hfl Hfe. destruct (HB l' ltac:(lra)) as (K & HK & HM).
  exists K. split; [exact HK|]. intros a its Af Al Aa Ah Hits Hburn m Hacc W E normal HZ c starts d h Hlk Hcx. pose proof HZ as (HE & H1 & Hnorm & _).
  destruct (@alias_main_schedule Key choice tk a its f l' Aa Af Al Hfl Hits) as (eps & (F1 & F2 & F3 & F4) & HS).
  set (eps' := fun k => if (k <? its)%nat then eps k else l').
  assert (EE : forall k, (k < its)%nat -> eps k = eps' k) by (intros k Hkk; unfold eps'; now rewrite (proj2 (Nat.ltb_lt k its))).
  assert (EM : forall i j, (i <= j)%nat -> (j < its)%nat -> eps j <= eps i) by (intros i0 j0 Hij Hj; destruct (Nat.eq_dec i0 j0) as [-> |]; [lra|left; apply F4; lia]).
  assert (EB : forall k, l' <= eps' k <= e1).
  { intros k. unfold eps'. destruct (k <? its)%nat eqn:Ek; [|lra]. apply Nat.ltb_lt in Ek. split; [rewrite <- F2; apply EM; lia|]. apply Rle_trans with f; [|exact Hfe]. rewrite <- F1. apply EM; lia. }
  set (pos := fun w n => f_pos (at_ get_data pot_value pot_model pot_grad L friction mass x0 model0 (PRNGKey 0) eps' normal d n w)).
  assert (RUN : forall w, exists results, answer (normal w) a its (h w) (starts w) = Some (Ok results) /\ length results = length (starts w) /\
     exists r, nth_error results c = Some r /\ fst r = m /\ forall k j, (k < m)%nat -> returned r k j = el (pos w (Datatypes.S (al_burn_in a + k))) j).
  { intros w. set (upd := fun e (T : R) st => fst (fl_integrate (Noise := unit) (normal w) get_data pot_value pot_model pot_grad L friction mass None e None st)). set (get := fun st : fl_st Data vtree unit => hmc_sample (f_pot st) (f_model st) (f_pos st)).
    destruct (@PropertiesObaboAlias.plain_run_steps _ upd get) with (Key := Key) (choice := choice) (tk := tk) (z := zl) (a := a) (f := f) (l := l') (n := m) (its := its) (eps := eps) (h := h w) (states := map (fun xd => sghmc_init Batch (snd xd) model0 (fst xd)) (starts w)) as (rs & R1 & R2); auto.
    { intros e T st. apply fl_keeps; auto. }
    { unfold m. lia. }
    exists rs. split; [exact R1|]. split; [transitivity (length (map (fun xd => sghmc_init Batch (snd xd) model0 (fst xd)) (starts w))); [clear -R2; induction R2; cbn; congruence|apply map_length]|].
    assert (Ec : nth_error (map (fun xd => sghmc_init Batch (snd xd) model0 (fst xd)) (starts w)) c = Some (sghmc_init Batch (d w) model0 x0)) by (rewrite (map_nth_error _ _ _ (Hcx w)); reflexivity).
    destruct (PropertiesHub.Forall2_nth_error_l _ R2 Ec) as (r & Er & (L0 & L1 & L2 & L3 & Hr1 & Hr2)).
    exists r. split; [exact Er|]. split; [exact Hr1|]. intros k j Hkm.
    assert (EL : L0 = seq (al_burn_in a) m) by (apply increasing_all; auto; intros i0 Hi0; specialize (L3 i0 Hi0); unfold m; lia).
    unfold get in Hr2. rewrite (@PropertiesObaboAlias.hmc_position nat _ _ _ L0 r k (al_burn_in a + k)%nat j Hr2); [|rewrite EL; now apply seq_at].
    f_equal. f_equal. unfold pos, at_, sghmc_state. rewrite (@PropertiesObaboAlias.iterates_ext _ upd eps eps') by (intros; apply EE; unfold m in Hkm; lia). rewrite PropertiesObaboAlias.iterates_fold. reflexivity. }
  split. { intros w. destruct (RUN w) as (rs & R1 & RL & r & R2 & R3 & _). exists rs, r. auto. }
  intros r Hr j Hj mean.
  assert (HZ' : standard_noise s L (PRNGKey 0) E normal (al_burn_in a + m)) by (replace (al_burn_in a + m)%nat with its by (unfold m; lia); exact HZ).
  pose proof (HM eps' EB (al_burn_in a) m ltac:(unfold m; lia) W E normal d HZ' j Hj) as F.
  match type of F with E ?g <= _ => replace (E (fun w => (mean w - mu j) * (mean w - mu j))) with (E g); [exact F|] end.
  apply (E_ext HE). intros w. destruct (Hr w) as (rs' & Q1 & Q2). destruct (RUN w) as (rs & R1 & _ & r0 & R2 & R3 & R4). rewrite R1 in Q1. injection Q1 as <-. rewrite R2 in Q2. injection Q2 as Q2.
  unfold mean. rewrite <- Q2. rewrite (@sum_upto_ext m (fun k => returned r0 k j) _ (fun k Hk => R4 k j Hk)). unfold mean_sghmc, pos, Rdiv. now rewrite (Rmult_comm (/ INR m)).
Qed.
End Alias.
End C98.
Print Assumptions C98_bounded_steps. Print Assumptions C98_vanishing_steps. Print Assumptions C98_polynomial. Print Assumptions C98_alias.

(** ** the hypotheses can be met for every number of integrations: a coin for every random vector *)
Lemma coin_mean N t : (t < N)%nat -> coins N (fun w => sign (snd (nth t w (true, true)))) = 0.
Proof.
  intros H. rewrite (@coins_prefix N (S t)); [|lia|intros w; now rewrite firstn_nth by lia]. cbn [coins]. rewrite (@coins_ext t _ (fun w => 0 * 1)); [rewrite coins_scale; ring|].
  intros w Hw. rewrite !app_nth2 by lia. rewrite Hw, Nat.sub_diag. cbn. field.
Qed.
Lemma coin_pair N t u : (t < u < N)%nat -> coins N (fun w => sign (snd (nth t w (true, true))) * sign (snd (nth u w (true, true)))) = 0.
Proof.
  intros H. rewrite (@coins_prefix N (S u)); [|lia|intros w; now rewrite !firstn_nth by lia]. cbn [coins]. rewrite (@coins_ext u _ (fun w => 0 * 1)); [rewrite coins_scale; ring|].
  intros w Hw. rewrite !(@app_nth2 _ w _ _ u) by lia. rewrite !(@app_nth1 _ w _ _ t) by lia. rewrite Hw, Nat.sub_diag. cbn. field.
Qed.
Lemma coin_standard L n : standard_noise (Leaf (mkArr [] [0])) L (PRNGKey 0) (coins (n * S L)) coin_normal n.
Proof.
  split; [split; [intros X Y H; apply coins_ext; intros; apply H|split; [apply coins_plus|apply coins_scale]]|]. split; [apply coins_one|]. split; [intros w k sh; apply repeat_length|].
  intros i Hi. assert (i = O) by (unfold dim in Hi; cbn in Hi; lia). subst i. clear Hi. set (N := (n * S L)%nat). split.
  - intros t Ht. rewrite (@coins_ext _ _ (fun w => sign (snd (nth t w (true, true))))) by (intros; apply coin_noise). now apply coin_mean.
  - intros t u Ht Hu. rewrite (@coins_ext _ _ (fun w => sign (snd (nth t w (true, true))) * sign (snd (nth u w (true, true))))) by (intros; unfold noise; now rewrite !coin_noise).
    destruct (Nat.eqb_spec t u) as [-> |Ne].
    + rewrite (@coins_ext _ _ (fun _ => 1)); [apply coins_one|]. intros w _. unfold sign. destruct (snd (nth u w (true, true))); ring.
    + destruct (Nat.lt_total t u) as [Lt|[Eq|Lt]]; [apply coin_pair; lia|contradiction|].
      rewrite (@coins_ext _ _ (fun w => sign (snd (nth u w (true, true))) * sign (snd (nth t w (true, true))))) by (intros; ring). apply coin_pair; lia.
Qed.
(** one variable, target with curvature 2 and mean 1, friction 3, two leapfrog steps per iteration, start at 3 *)
Example C98_nonvacuous : let s := Leaf (mkArr [] [0]) in let grad := fun t (b : unit) (m : vtree) => emap (fun x => 2 * (x - 1)) t in let zl := fun x => mkArr (ashape x) (map (fun _ => 0) (adata x)) in
  (exists e1, 0 < e1 /\ forall f l', 0 < l' < f -> f <= e1 -> exists K, 0 <= K /\ forall b its, (2 <= its)%nat -> (b < its)%nat -> let m := (its - b)%nat in
  let answer := fun w => snd (al_run first_choice tt (mkAlias (Fin f) (Fin l') None b (Some m) true false None) zl
    (sghmc_solver (coin_normal w) (fun d : unit => (d, tt)) (fun t _ _ => (el t 0 - 1) * (el t 0 - 1)) (fun _ _ m => m) grad 2 None (FScalar 3))
    (mc_new false) [sghmc_init unit tt (Leaf (mkArr [] [1])) (Leaf (mkArr [] [3]))] its) in
  (forall w, exists r, answer w = Some (Ok [r])) /\
  forall r, (forall w, answer w = Some (Ok [r w])) -> let mean := fun w => sum_upto m (fun k => returned (r w) k 0) / INR m in coins (its * 3) (fun w => (mean w - 1) * (mean w - 1)) <= K / INR m) /\
  forall b delta, 0 < delta -> exists n0, forall n, (n0 <= n)%nat ->
    let mean := fun w => mean_sghmc (fun d : unit => (d, tt)) (fun t _ _ => (el t 0 - 1) * (el t 0 - 1)) (fun _ _ m => m) grad 2 (FScalar 3) None (Leaf (mkArr [] [3])) (Leaf (mkArr [] [1])) (PRNGKey 0)
      (fun n => 1 * Rpower (1 + INR n) (- (1 / 3))) coin_normal (fun _ => tt) b n w 0 in coins ((b + n) * 3) (fun w => (mean w - 1) * (mean w - 1)) <= delta.
Proof.
  intros s grad zl.
  assert (Ws : wfv s) by (constructor; [reflexivity|constructor]). assert (Lg : forall t (b : unit) m, like s t -> like s (grad t b m)) by (intros t b m H; now apply like_emap).
  assert (Lx : like s (Leaf (mkArr [] [3]))) by (split; [constructor; [reflexivity|constructor]|split; reflexivity]).
  assert (Gr : forall t (b : unit) m i, like s t -> (i < dim s)%nat -> el (grad t b m) i = 2 * (el t i - 1)) by (intros t b m i H Hi; apply (el_emap (s := s)); auto).
  assert (I0 : (0 < dim s)%nat) by (unfold dim; cbn; lia). split.
  - destruct (@C98_alias s Ws unit unit (fun d : unit => (d, tt)) (fun t _ _ => (el t 0 - 1) * (el t 0 - 1)) (fun _ _ m => m) grad Lg ltac:(reflexivity) 2 (FScalar 3) None ltac:(lia) I I (Leaf (mkArr [] [3])) (Leaf (mkArr [] [1])) Lx (fun _ => 2) (fun _ => 1) Gr ltac:(intros; lra) unit first_choice tt zl first_choice_ok) as (e1 & He1 & HA).
    exists e1. split; [exact He1|]. intros f l' Hfl Hfe. destruct (HA f l' Hfl Hfe) as (K & HK & HM).
    exists K. split; [exact HK|]. intros b its Hits Hb m answer.
    destruct (HM (mkAlias (Fin f) (Fin l') None b (Some m) true false None) its eq_refl eq_refl eq_refl eq_refl Hits Hb eq_refl _ (coins (its * 3)) coin_normal (@coin_standard 2 its) 0%nat
      (fun _ => [(Leaf (mkArr [] [3]), tt)]) (fun _ => tt) (fun _ => @nil (mop arr))) as [R1 R2].
    + intros w. constructor; [exact Lx|constructor].
    + reflexivity.
    + split.
      * intros w. destruct (R1 w) as ([|r [|]] & r' & Q1 & Q2 & Q3 & _); try discriminate. exists r. exact Q1.
      * intros r Hr mean. apply (R2 r) with (j := 0%nat); [|exact I0]. intros w. exists [r w]. split; [apply Hr|reflexivity].
  - intros b delta Hd. destruct (@C98_polynomial s Ws unit unit vtree (fun d : unit => (d, tt)) (fun t _ _ => (el t 0 - 1) * (el t 0 - 1)) (fun _ _ m => m) grad Lg 2 (FScalar 3) None ltac:(lia) I I (Leaf (mkArr [] [3])) (Leaf (mkArr [] [1])) (PRNGKey 0) Lx (fun _ => 2) (fun _ => 1) Gr ltac:(intros; lra) 1 1 (1 / 3) ltac:(lra) ltac:(lra) ltac:(lra) b delta Hd) as [n0 H].
    exists n0. intros n Hn. exact (H n Hn _ (coins ((b + n) * 3)) coin_normal (fun _ => tt) (@coin_standard 2 (b + n)) 0%nat I0).
Qed.
Print Assumptions C98_nonvacuous.
