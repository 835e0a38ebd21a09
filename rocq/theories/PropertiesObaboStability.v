(** C100: the stability limit of OBABO (integrator.obabo, alias.obabo) on a Gaussian posterior.
    Reading guide: as in C86 (PropertiesObaboGaussian.v): [at_ n w] is the state after n integrations with step sizes eps 0, eps 1, ... for the random numbers w; [standard_noise]: the random vectors of the run
    have mean 0, variance 1 and are uncorrelated; [root_mass] is the square root of the mass of a coordinate.  C86_constant_step treats the step sizes h with h^2 lam < 4 m; here are all the others. *)
From Coq Require Import Reals Lra Lia Psatz ZArith String.
From Verif Require Import Base ListUtil Pytree PytreeSpec PytreeProofs Io IoSpec IoProofs IoFinal TreeUtil TreeUtilSpec TreeUtilProofs Integrator IntegratorSpec IntegratorBasics ObaboProofs PropertiesIntegrator
  Xreal Scheduler SchedulerSpec SchedulerProofs StepSizeProofs PropertiesScheduler Solver SolverSpec SolverProofs SolverFinal PropertiesSolver Adaption Alias PropertiesAlias AliasSgld AliasRun AliasHmc AverageAlias.
From Verif Require Import ObaboAverageVary PropertiesObaboAverage ObaboResponse MinibatchSpec PropertiesObaboAlias.
From Verif Require PropertiesHub.
From Verif Require Import Base ListUtil Pytree PytreeSpec Io TreeUtil TreeUtilSpec TreeUtilProofs Integrator IntegratorSpec IntegratorBasics ObaboProofs ExpectSpec ExpectProofs GaussianLimit SghmcGaussian ObaboGaussian AliasHmc RiemannProofs ObaboAverageProofs.
From Verif Require Import PropertiesObaboGaussian PropertiesMinibatchGaussian.
Open Scope R_scope.
Set Implicit Arguments.

(** ** Moments of one coordinate: with k >= 1 one inner step maps (u, -v, w) >= 0 to (u', -v', w') >= 0 and u does not decrease *)
(** difference of two moment triples *)
(** auxiliary definition of a statement or a proof; models no code of /repo *)
Definition tri_sub (D F : tri) : tri := Tri (t_u D - t_u F) (t_v D - t_v F) (t_w D - t_w F).
Lemma tri_step_sub k a b2 D F : tri_step k a b2 (tri_sub D F) = tri_sub (tri_step k a b2 D) (tri_step k a 0 F).
Proof. unfold tri_sub, tri_step, tri_O, tri_A, tri_B. cbn [t_u t_v t_w]. f_equal; ring. Qed.
(** auxiliary definition of a statement or a proof; models no code of /repo *)
Definition cone (D : tri) : Prop := 0 <= t_u D /\ t_v D <= 0 /\ 0 <= t_w D.
Lemma cone_step k a b2 D : 1 <= k -> 0 < a -> 0 <= b2 -> cone D ->
  cone (tri_step k a b2 D) /\ (2 * k * k - 1) * (2 * k * k - 1) * t_u D + 4 * k * k * b2 <= t_u (tri_step k a b2 D).
Proof.
  intros Hk Ha Hb (U & V & Wp). set (C := 2 * k * k - 1). assert (HC : 1 <= C) by (unfold C; nra). set (v := - a * t_v D). set (w := a * a * t_w D + b2).
  assert (Pv : 0 <= v) by (unfold v; nra). assert (Pw : 0 <= w) by (unfold w; nra). assert (b2 <= w) by (unfold w; nra).
  assert (Eu : t_u (tri_step k a b2 D) = C * C * t_u D + 4 * k * C * v + 4 * k * k * w) by (unfold tri_step, tri_O, tri_A, tri_B, C, v, w; cbn [t_u t_v t_w]; ring).
  assert (Ev : t_v (tri_step k a b2 D) = - (a * (k * (C - 1) * C * t_u D + (C * C + 2 * k * k * (C - 1)) * v + 2 * k * C * w))) by (unfold tri_step, tri_O, tri_A, tri_B, C, v, w; cbn [t_u t_v t_w]; ring).
  assert (Ew : t_w (tri_step k a b2 D) = a * a * (k * (C - 1) * (k * (C - 1)) * t_u D + 2 * (k * (C - 1)) * C * v + C * C * w) + b2) by (unfold tri_step, tri_O, tri_A, tri_B, C, v, w; cbn [t_u t_v t_w]; ring).
  clearbody C v w.
  assert (P1 : 0 <= k * (C - 1)) by (apply Rmult_le_pos; lra). assert (P2 : 0 <= k * k) by nra. assert (P3 : 0 <= C * C) by nra. assert (P4 : 0 <= k * C) by (apply Rmult_le_pos; lra).
  split; [split; [|split]|].
  - rewrite Eu. replace (4 * k * C * v) with (4 * (k * C * v)) by ring. replace (4 * k * k * w) with (4 * (k * k * w)) by ring. pose proof (Rmult_le_pos _ _ P3 U). pose proof (Rmult_le_pos _ _ P4 Pv). pose proof (Rmult_le_pos _ _ P2 Pw). lra.
  - rewrite Ev. assert (0 <= k * (C - 1) * C * t_u D) by (repeat apply Rmult_le_pos; lra). assert (0 <= (C * C + 2 * k * k * (C - 1)) * v). { apply Rmult_le_pos; [|exact Pv]. assert (0 <= k * k * (C - 1)) by (apply Rmult_le_pos; lra). lra. }
    assert (0 <= 2 * k * C * w) by (repeat apply Rmult_le_pos; lra). assert (0 <= a * (k * (C - 1) * C * t_u D + (C * C + 2 * k * k * (C - 1)) * v + 2 * k * C * w)) by (apply Rmult_le_pos; lra). lra.
  - rewrite Ew. assert (0 <= k * (C - 1) * (k * (C - 1)) * t_u D) by (apply Rmult_le_pos; [apply Rmult_le_pos|]; lra). assert (0 <= 2 * (k * (C - 1)) * C * v) by (repeat apply Rmult_le_pos; lra). assert (0 <= C * C * w) by (apply Rmult_le_pos; lra).
    assert (0 <= a * a * (k * (C - 1) * (k * (C - 1)) * t_u D + 2 * (k * (C - 1)) * C * v + C * C * w)); [|lra]. apply Rmult_le_pos; [nra|lra].
  - rewrite Eu. assert (0 <= 4 * k * C * v) by (repeat apply Rmult_le_pos; lra). assert (4 * k * k * b2 <= 4 * k * k * w) by (apply Rmult_le_compat_l; [nra|lra]). lra.
Qed.

Section C100.
Variable s : vtree.
Hypothesis Hs : wfv s.
Variables (Data Batch Model : Type).
Variable get_data : Data -> Data * Batch.
Variable pot_value : vtree -> Batch -> Model -> R.
Variable pot_model : vtree -> Batch -> Model -> Model.
Variable pot_grad : vtree -> Batch -> Model -> vtree.
Hypothesis Hg : forall t b m, like s t -> like s (pot_grad t b m).
Variables (steps : nat) (friction : R) (mass : option vtree) (T : R).
Hypothesis Hsteps : (0 < steps)%nat.
Hypothesis Hmass : match mass with Some m => like s m /\ forall i, (i < dim s)%nat -> 0 < el m i | None => True end.
Variables (x0 : vtree) (model0 : Model) (key0 : key).
Hypothesis Hx : like s x0.
Variable eps : nat -> R.
Variables (lam mu : nat -> R).
Hypothesis Hgauss : forall t b m i, like s t -> (i < dim s)%nat -> el (pot_grad t b m) i = lam i * (el t i - mu i).
Hypothesis Hlam : forall i, (i < dim s)%nat -> 0 < lam i.
Hypothesis Hfric : 0 <= friction.
Hypothesis HT : 0 <= T.
Hypothesis Heps : forall n, 0 <= eps n.
Notation at_ := (at_ get_data pot_value pot_model pot_grad steps friction mass T x0 model0 key0 eps).
Notation standard_noise := (standard_noise s steps key0).
Notation freq := (freq mass lam).
Notation estep := (estep steps eps).
Notation damp := (damp steps friction eps).
Notation Dn := (Dn steps friction mass x0 eps lam mu).

Lemma kk i t : (i < dim s)%nat -> 4 * ((estep t * freq i / 2) * (estep t * freq i / 2)) = estep t * estep t * lam i / (root_mass mass i * root_mass mass i).
Proof using Hmass Hlam.
  intros Hi. destruct (root_pos s mass Hmass Hi) as [Hr _]. assert (Sq : sqrt (lam i) * sqrt (lam i) = lam i) by (apply sqrt_sqrt; left; auto). rewrite <- Sq. unfold PropertiesObaboGaussian.freq. field. lra.
Qed.
Lemma k_ge_1 i t : (i < dim s)%nat -> 4 * (root_mass mass i * root_mass mass i) <= estep t * estep t * lam i -> 1 <= estep t * freq i / 2.
Proof using All.
  intros Hi H. pose proof (kk t Hi) as K. destruct (root_pos s mass Hmass Hi) as [Hr _]. set (m := root_mass mass i) in *.
  assert (4 <= estep t * estep t * lam i / (m * m)). { apply (Rmult_le_reg_r (m * m)); [nra|]. unfold Rdiv. rewrite Rmult_assoc, Rinv_l by nra. lra. }
  assert (0 < freq i) by (apply (freq_pos s mass Hmass lam Hlam Hi)). assert (0 <= estep t) by apply Heps. assert (0 <= estep t * freq i) by (apply Rmult_le_pos; lra). set (k := estep t * freq i / 2) in *. assert (0 <= k) by (unfold k; lra). nra.
Qed.
Lemma damp_bounds t : 0 < damp t /\ 0 <= 1 - damp t * damp t.
Proof using Hfric Heps.
  split; [apply exp_pos|]. rewrite damp_sq. specialize (Heps (t / steps)%nat). assert (exp (- friction * eps (t / steps)) <= 1); [|lra]. rewrite <- exp_0. assert (0 <= friction * eps (t / steps)) by now apply Rmult_le_pos.
  destruct (Req_dec (friction * eps (t / steps)) 0) as [Z|Z]; [right; f_equal; lra|]. left. apply exp_increasing. lra.
Qed.
(** what one inner step adds to the variance *)
(** auxiliary definition of a statement or a proof; models no code of /repo *)
Definition added (i : nat) (e : R) : R := e * e * T * (1 - exp (- friction * e)) / (root_mass mass i * root_mass mass i).
Lemma added_eq i t : (i < dim s)%nat -> let k := estep t * freq i / 2 in 4 * k * k * ((1 - damp t * damp t) * T) = lam i * added i (estep t).
Proof using Hmass Hlam.
  intros Hi k. replace (4 * k * k) with (4 * (k * k)) by ring. unfold k. rewrite (kk t Hi), damp_sq. unfold added, PropertiesObaboGaussian.estep. destruct (root_pos s mass Hmass Hi) as [Hr _]. field. lra.
Qed.

(** the variance of coordinate i in scaled moments, and the square of its mean *)
Lemma diff_cone i : (i < dim s)%nat -> forall t, (forall u, (u < t)%nat -> 4 * (root_mass mass i * root_mass mass i) <= estep u * estep u * lam i) ->
  cone (tri_sub (Dn T i t) (Dn 0 i t)) /\ cone (Dn 0 i t).
Proof using All.
  intros Hi. induction t as [|t IH]; intros H.
  - cbn [PropertiesObaboGaussian.Dn]. unfold cone, tri_sub. cbn [t_u t_v t_w]. set (y := sqrt (lam i) * (el x0 i - mu i)). pose proof (Rle_0_sqr y) as P. unfold Rsqr in P. repeat split; lra.
  - destruct IH as [I1 I2]; [intros u Hu; apply H; lia|]. assert (K : 1 <= estep t * freq i / 2) by (apply k_ge_1; [exact Hi|apply H; lia]). destruct (damp_bounds t) as [D1 D2]. cbn [PropertiesObaboGaussian.Dn]. rewrite Rmult_0_r.
    assert (B : 0 <= (1 - damp t * damp t) * T) by now apply Rmult_le_pos. split; [rewrite <- tri_step_sub; apply (cone_step K D1 B I1)|apply (cone_step K D1 (Rle_refl 0) I2)].
Qed.
Lemma diff_step i : (i < dim s)%nat -> forall t, (forall u, (u <= t)%nat -> 4 * (root_mass mass i * root_mass mass i) <= estep u * estep u * lam i) ->
  let C := estep t * estep t * lam i / (2 * (root_mass mass i * root_mass mass i)) - 1 in
  C * C * (t_u (Dn T i t) - t_u (Dn 0 i t)) + lam i * added i (estep t) <= t_u (Dn T i (S t)) - t_u (Dn 0 i (S t)) /\ C * C * t_u (Dn 0 i t) <= t_u (Dn 0 i (S t)) /\ 1 <= C.
Proof using All.
  intros Hi t H C. destruct (@diff_cone i Hi t) as [I1 I2]; [intros u Hu; apply H; lia|]. assert (K : 1 <= estep t * freq i / 2) by (apply k_ge_1; [exact Hi|apply H; lia]). destruct (damp_bounds t) as [D1 D2].
  assert (B : 0 <= (1 - damp t * damp t) * T) by now apply Rmult_le_pos. destruct (cone_step K D1 B I1) as [_ S1]. destruct (cone_step K D1 (Rle_refl 0) I2) as [_ S2].
  assert (EC : 2 * (estep t * freq i / 2) * (estep t * freq i / 2) - 1 = C). { unfold C. pose proof (kk t Hi) as Q. destruct (root_pos s mass Hmass Hi) as [Hr _]. set (k := estep t * freq i / 2) in *. replace (2 * k * k) with (4 * (k * k) / 2) by field. rewrite Q. field. lra. }
  rewrite EC in S1, S2. rewrite (added_eq t Hi) in S1. rewrite tri_step_sub in S1. cbn [PropertiesObaboGaussian.Dn]. rewrite Rmult_0_r. unfold tri_sub in S1. cbn [t_u] in S1.
  split; [exact S1|]. split; [lra|]. rewrite <- EC. clear - K. nra.
Qed.

(** variance and squared distance of the mean from mu, after n integrations *)
Lemma variance_is W (E : (W -> R) -> R) normal data n : standard_noise E normal n -> forall i, (i < dim s)%nat ->
  let x := fun w => el (o_pos (at_ normal data n w)) i in
  E (fun w => (x w - E x) * (x w - E x)) = / lam i * (t_u (Dn T i (n * steps)) - t_u (Dn 0 i (n * steps))) /\ (E x - mu i) * (E x - mu i) = / lam i * t_u (Dn 0 i (n * steps)).
Proof using Hs Hg Hmass Hsteps Hgauss Hx Hlam Hfric HT Heps.
  intros Hz i Hi x. destruct (@unscaled s Hs Data Batch Model get_data pot_value pot_model pot_grad Hg steps friction mass T Hsteps Hmass x0 model0 key0 Hx eps lam mu Hgauss Hlam W E normal data n Hfric HT Heps Hz i Hi) as (U1 & _ & _ & U4 & _). cbv zeta in U1, U4. change (E (fun w => (x w - mu i) * (x w - mu i)) = / lam i * t_u (Dn T i (n * steps))) in U1.
  split; [|exact U4]. destruct Hz as ((X & P & Sc) & H1 & _). rewrite Rmult_minus_distr_l. fold x in U4. rewrite <- U4, <- U1. set (m := E x).
  rewrite (X (fun w => (x w - m) * (x w - m)) (fun w => (x w - mu i) * (x w - mu i) + ((- 2 * (m - mu i)) * x w + ((m - mu i) * (m + mu i)) * (fun _ => 1) w))) by (intros w; ring).
  rewrite P, (P (fun w => (- 2 * (m - mu i)) * x w)), !Sc, H1. change (E x) with m. ring.
Qed.
Lemma regroup n f : sum_upto (n * steps) (fun t => f (t / steps)%nat) = INR steps * sum_upto n f.
Proof using Hsteps.
  clear - Hsteps. induction n as [|n IH]; [unfold sum_upto; cbn; ring|]. replace (S n * steps)%nat with (n * steps + steps)%nat by lia. rewrite sum_upto_app, IH, sum_upto_S.
  rewrite (@sum_upto_ext steps (fun j => f ((n * steps + j) / steps)%nat) (fun _ => f n)); [rewrite sum_upto_const; ring|]. intros j Hj. f_equal. symmetry. apply (Nat.div_unique (n * steps + j) steps n j); lia.
Qed.
Lemma estep_large i n : (forall k, (k < n)%nat -> 4 * (root_mass mass i * root_mass mass i) <= eps k * eps k * lam i) -> forall u, (u < n * steps)%nat -> 4 * (root_mass mass i * root_mass mass i) <= estep u * estep u * lam i.
Proof using Hsteps. clear - Hsteps. intros H u Hu. apply H. apply Nat.div_lt_upper_bound; lia. Qed.

(** however the step sizes change: while eps^2 lam >= 4 m, every one of the [steps] inner steps of integration k adds at least eps_k^2 T (1 - exp(- friction eps_k)) / m to the variance, and the mean does not approach mu *)
Theorem C100_too_large : forall n W (E : (W -> R) -> R) normal data, standard_noise E normal n -> forall i, (i < dim s)%nat -> (forall k, (k < n)%nat -> 4 * (root_mass mass i * root_mass mass i) <= eps k * eps k * lam i) ->
  let x := fun w => el (o_pos (at_ normal data n w)) i in
  INR steps * sum_upto n (fun k => eps k * eps k * T * (1 - exp (- friction * eps k)) / (root_mass mass i * root_mass mass i)) <= E (fun w => (x w - E x) * (x w - E x)) /\ Rabs (el x0 i - mu i) <= Rabs (E x - mu i).
Proof using Hs Hg Hmass Hsteps Hgauss Hx Hlam Hfric HT Heps.
  intros n W E normal data Hz i Hi HL x. pose proof (Hlam Hi) as Hl. assert (V : E (fun w => (x w - E x) * (x w - E x)) = / lam i * (t_u (Dn T i (n * steps)) - t_u (Dn 0 i (n * steps)))) by exact (proj1 (@variance_is W E normal data n Hz i Hi)).
  assert (M : (E x - mu i) * (E x - mu i) = / lam i * t_u (Dn 0 i (n * steps))) by exact (proj2 (@variance_is W E normal data n Hz i Hi)). rewrite V.
  assert (A : forall t, (t <= n * steps)%nat -> lam i * sum_upto t (fun u => added i (estep u)) <= t_u (Dn T i t) - t_u (Dn 0 i t) /\ lam i * ((el x0 i - mu i) * (el x0 i - mu i)) <= t_u (Dn 0 i t)).
  { induction t as [|t IH]; intros Ht.
    - cbn [PropertiesObaboGaussian.Dn t_u]. unfold sum_upto. cbn. assert (Sq : sqrt (lam i) * sqrt (lam i) = lam i) by (apply sqrt_sqrt; lra). set (sq := sqrt (lam i)) in *. split; [lra|]. rewrite <- Sq. right. ring.
    - destruct IH as [I1 I2]; [lia|]. destruct (@diff_cone i Hi t) as [(P1 & _) (P2 & _)]; [intros u Hu; apply (@estep_large i n HL); lia|]. destruct (@diff_step i Hi t) as (D1 & D2 & D3); [intros u Hu; apply (@estep_large i n HL); lia|]. cbn [tri_sub t_u] in P1.
      set (C := estep t * estep t * lam i / (2 * (root_mass mass i * root_mass mass i)) - 1) in *. rewrite sum_upto_S, Rmult_plus_distr_l. assert (1 <= C * C) by nra. set (d := t_u (Dn T i t) - t_u (Dn 0 i t)) in *. set (f := t_u (Dn 0 i t)) in *.
      assert (d <= C * C * d) by (rewrite <- (Rmult_1_l d) at 1; apply Rmult_le_compat_r; lra). assert (f <= C * C * f) by (rewrite <- (Rmult_1_l f) at 1; apply Rmult_le_compat_r; lra). split; lra. }
  destruct (A (n * steps)%nat (le_n _)) as [A1 A2]. split.
  - rewrite <- (regroup n (fun k => eps k * eps k * T * (1 - exp (- friction * eps k)) / (root_mass mass i * root_mass mass i))). apply (Rmult_le_reg_l (lam i)); [exact Hl|]. rewrite <- (Rmult_assoc (lam i) (/ lam i)), Rinv_r, Rmult_1_l by lra. exact A1.
  - apply Rsqr_le_abs_0. unfold Rsqr. rewrite M. apply (Rmult_le_reg_l (lam i)); [exact Hl|]. rewrite <- (Rmult_assoc (lam i) (/ lam i)), Rinv_r, Rmult_1_l by lra. exact A2.
Qed.

Section Constant.
Variable h : R.
Hypothesis Hh : forall n, eps n = h.
Hypothesis Hhp : 0 < h.
(** a constant step size with h^2 lam >= 4 m: the variance grows at least linearly, so it passes every bound *)
Theorem C100_variance_unbounded : 0 < friction -> 0 < T -> forall i, (i < dim s)%nat -> 4 * (root_mass mass i * root_mass mass i) <= h * h * lam i ->
  forall M, exists N, forall n, (N <= n)%nat -> forall W (E : (W -> R) -> R) normal data, standard_noise E normal n ->
    let x := fun w => el (o_pos (at_ normal data n w)) i in M < E (fun w => (x w - E x) * (x w - E x)).
Proof using Hs Hg Hmass Hsteps Hgauss Hx Hlam Hfric HT Heps Hh Hhp.
  intros Pf PT i Hi HL M. destruct (root_pos s mass Hmass Hi) as [Hr _]. set (m := root_mass mass i) in *.
  set (c := h * h * T * (1 - exp (- friction * h)) / (m * m)).
  assert (Pc : 0 < c). { unfold c. assert (exp (- friction * h) < 1) by (rewrite <- exp_0; apply exp_increasing; nra). apply Rdiv_lt_0_compat; [|nra]. apply Rmult_lt_0_compat; [apply Rmult_lt_0_compat; [nra|exact PT]|lra]. }
  destruct (INR_unbounded (M / c)) as [N HN]. exists N. intros n Hn W E normal data Hz x.
  destruct (@C100_too_large n W E normal data Hz i Hi) as [A _]; [intros k _; rewrite Hh; exact HL|]. fold x in A. fold m in A.
  eapply Rlt_le_trans; [|exact A]. rewrite (@sum_upto_ext n _ (fun _ => c)) by (intros k _; rewrite Hh; reflexivity). rewrite sum_upto_const.
  assert (I1 : 1 <= INR steps) by (replace 1 with (INR 1) by reflexivity; apply le_INR; lia). apply le_INR in Hn. assert (M < INR n * c). { apply (Rmult_lt_reg_r (/ c)); [now apply Rinv_0_lt_compat|]. rewrite Rmult_assoc, Rinv_r by lra. unfold Rdiv in HN. lra. }
  assert (0 <= INR n * c) by (apply Rmult_le_pos; [apply pos_INR|lra]). assert (1 * (INR n * c) <= INR steps * (INR n * c)) by (apply Rmult_le_compat_r; lra). lra.
Qed.
(** with h^2 lam > 4 m distance of the mean from mu and standard deviation grow at least geometrically, by the factor h^2 lam / (2 m) - 1 > 1 in every inner step *)
Theorem C100_geometric : forall i, (i < dim s)%nat -> 4 * (root_mass mass i * root_mass mass i) <= h * h * lam i -> let C := h * h * lam i / (2 * (root_mass mass i * root_mass mass i)) - 1 in
  forall n W (E : (W -> R) -> R) normal data, standard_noise E normal n -> let x := fun w => el (o_pos (at_ normal data n w)) i in
    C ^ (n * steps) * Rabs (el x0 i - mu i) <= Rabs (E x - mu i) /\
    ((0 < n)%nat -> (C * C) ^ (n * steps - 1) * (h * h * T * (1 - exp (- friction * h)) / (root_mass mass i * root_mass mass i)) <= E (fun w => (x w - E x) * (x w - E x))).
Proof using Hs Hg Hmass Hsteps Hgauss Hx Hlam Hfric HT Heps Hh Hhp.
  intros i Hi HL C n W E normal data Hz x. pose proof (Hlam Hi) as Hl. assert (V : E (fun w => (x w - E x) * (x w - E x)) = / lam i * (t_u (Dn T i (n * steps)) - t_u (Dn 0 i (n * steps)))) by exact (proj1 (@variance_is W E normal data n Hz i Hi)).
  assert (M : (E x - mu i) * (E x - mu i) = / lam i * t_u (Dn 0 i (n * steps))) by exact (proj2 (@variance_is W E normal data n Hz i Hi)). rewrite V.
  assert (HL' : forall u, 4 * (root_mass mass i * root_mass mass i) <= estep u * estep u * lam i) by (intros u; unfold PropertiesObaboGaussian.estep; rewrite Hh; exact HL).
  assert (St : forall t, C * C * (t_u (Dn T i t) - t_u (Dn 0 i t)) + lam i * added i h <= t_u (Dn T i (S t)) - t_u (Dn 0 i (S t)) /\ C * C * t_u (Dn 0 i t) <= t_u (Dn 0 i (S t)) /\ 1 <= C).
  { intros t. pose proof (@diff_step i Hi t (fun u _ => HL' u)) as D. unfold PropertiesObaboGaussian.estep in D. rewrite Hh in D. exact D. }
  assert (HC : 1 <= C) by apply (St 0%nat). assert (PC : 0 <= C * C) by nra.
  assert (A : forall t, (C * C) ^ t * (lam i * ((el x0 i - mu i) * (el x0 i - mu i))) <= t_u (Dn 0 i t)).
  { induction t as [|t IH]; [cbn [PropertiesObaboGaussian.Dn t_u pow]; assert (Sq : sqrt (lam i) * sqrt (lam i) = lam i) by (apply sqrt_sqrt; lra); set (sq := sqrt (lam i)) in *; rewrite <- Sq; right; ring|]. destruct (St t) as (_ & S2 & _). cbn [pow]. rewrite Rmult_assoc. eapply Rle_trans; [apply Rmult_le_compat_l; [exact PC|exact IH]|exact S2]. }
  assert (B : forall t, (C * C) ^ t * (lam i * added i h) <= t_u (Dn T i (S t)) - t_u (Dn 0 i (S t))).
  { induction t as [|t IH].
    - destruct (St 0%nat) as (S1 & _ & _). cbn [pow]. replace (t_u (Dn T i 0) - t_u (Dn 0 i 0)) with 0 in S1 by (cbn [PropertiesObaboGaussian.Dn t_u]; ring). lra.
    - destruct (St (S t)) as (S1 & _ & _). assert (P : 0 <= lam i * added i h). { unfold added. destruct (damp_bounds 0%nat) as [_ Q]. rewrite damp_sq, Hh in Q. destruct (root_pos s mass Hmass Hi) as [Hr _]. apply Rmult_le_pos; [lra|]. apply Rmult_le_pos; [|left; apply Rinv_0_lt_compat; nra]. apply Rmult_le_pos; [|exact Q]. apply Rmult_le_pos; [nra|exact HT]. }
      cbn [pow]. rewrite Rmult_assoc. eapply Rle_trans; [apply Rmult_le_compat_l; [exact PC|exact IH]|]. lra. }
  split.
  - assert (PP : 0 <= C ^ (n * steps)) by (apply pow_le; lra). rewrite <- (Rabs_pos_eq _ PP), <- Rabs_mult. apply Rsqr_le_abs_0. unfold Rsqr. rewrite M. apply (Rmult_le_reg_l (lam i)); [exact Hl|]. rewrite <- (Rmult_assoc (lam i) (/ lam i)), Rinv_r, Rmult_1_l by lra.
    eapply Rle_trans; [|apply A]. rewrite Rpow_mult_distr. right. ring.
  - intros Hn. assert (Hns : (0 < n * steps)%nat) by nia. specialize (B (n * steps - 1)%nat). replace (S (n * steps - 1)) with (n * steps)%nat in B by lia. apply (Rmult_le_reg_l (lam i)); [exact Hl|]. rewrite <- (Rmult_assoc (lam i) (/ lam i)), Rinv_r, Rmult_1_l by lra.
    eapply Rle_trans; [|exact B]. unfold added. right. ring.
Qed.
(** with h^2 lam < 4 m variance and mean of this coordinate stay bounded, whatever the step size does to the other coordinates *)
Theorem C100_stable_bounded : 0 < friction -> forall i, (i < dim s)%nat -> h * h * lam i < 4 * (root_mass mass i * root_mass mass i) ->
  exists B, forall n W (E : (W -> R) -> R) normal data, standard_noise E normal n -> let x := fun w => el (o_pos (at_ normal data n w)) i in
    E (fun w => (x w - E x) * (x w - E x)) <= B /\ Rabs (E x - mu i) <= B.
Proof using Hs Hg Hmass Hsteps Hgauss Hx Hlam Hfric HT Heps Hh Hhp.
  intros Pf i Hi HL. pose proof (Hlam Hi) as Hl. destruct (root_pos s mass Hmass Hi) as [Hr _]. pose proof (freq_pos s mass Hmass lam Hlam Hi) as Fp.
  set (k := h * freq i / 2). set (a := exp (- (friction / 2) * h)).
  assert (Q : 4 * (k * k) = h * h * lam i / (root_mass mass i * root_mass mass i)). { pose proof (kk 0 Hi) as K. unfold PropertiesObaboGaussian.estep in K. rewrite Hh in K. exact K. }
  assert (Hk : 0 < k < 1). { assert (0 < k) by (unfold k; assert (0 < h * freq i) by (now apply Rmult_lt_0_compat); lra). split; [auto|]. assert (4 * (k * k) < 4); [|nra]. rewrite Q. set (m := root_mass mass i) in *. apply (Rmult_lt_reg_r (m * m)); [nra|]. unfold Rdiv. rewrite Rmult_assoc, Rinv_l by nra. lra. }
  assert (Ha : 0 < a < 1). { split; [apply exp_pos|]. unfold a. rewrite <- exp_0. apply exp_increasing. assert (0 < friction * h) by now apply Rmult_lt_0_compat. lra. }
  assert (St : forall Tm n, Dn Tm i (S n) = tri_step k a ((1 - a * a) * Tm) (Dn Tm i n)). { intros Tm n. cbn [PropertiesObaboGaussian.Dn]. unfold PropertiesObaboGaussian.damp, PropertiesObaboGaussian.estep. rewrite Hh. reflexivity. }
  destruct (@dist2_bounded k a T (Dn T i) Hk Ha (St T)) as (B1 & P1 & H1). destruct (@dist2_bounded k a 0 (Dn 0 i) Hk Ha (St 0)) as (B2 & P2 & H2).
  assert (Pi : 0 < / lam i) by now apply Rinv_0_lt_compat.
  exists (1 + / lam i * (B1 + B2)). assert (G1 : 0 <= / lam i * B1) by (apply Rmult_le_pos; lra). assert (G2 : 0 <= / lam i * B2) by (apply Rmult_le_pos; lra). intros n W E normal data Hz x. assert (V : E (fun w => (x w - E x) * (x w - E x)) = / lam i * (t_u (Dn T i (n * steps)) - t_u (Dn 0 i (n * steps)))) by exact (proj1 (@variance_is W E normal data n Hz i Hi)).
  assert (M : (E x - mu i) * (E x - mu i) = / lam i * t_u (Dn 0 i (n * steps))) by exact (proj2 (@variance_is W E normal data n Hz i Hi)).
  destruct (H1 (n * steps)%nat) as [H1a _]. destruct (H2 (n * steps)%nat) as [H2a _].
  assert (G3 : / lam i * t_u (Dn T i (n * steps)) <= / lam i * B1) by (apply Rmult_le_compat_l; lra). assert (G4 : / lam i * t_u (Dn 0 i (n * steps)) <= / lam i * B2) by (apply Rmult_le_compat_l; lra).
  pose proof (Rle_0_sqr (E x - mu i)) as G5. unfold Rsqr in G5. rewrite M in G5. split; [rewrite V; clear - G1 G2 G3 G4 G5; lra|]. apply (@sq_small); [clear - G1 G2; lra|]. rewrite M. rewrite (Rmult_plus_distr_l (/ lam i)). clear - G1 G2 G4. set (q1 := / lam i * B1) in *. set (q := / lam i * B2) in *. set (X := / lam i * _) in *. clearbody q1 q X. pose proof (Rle_0_sqr (q1 + q)) as Z. unfold Rsqr in Z. replace ((1 + (q1 + q)) * (1 + (q1 + q))) with (1 + 2 * (q1 + q) + (q1 + q) * (q1 + q)) by ring. lra.
Qed.
End Constant.
End C100.

(** ** What alias.obabo returns *)
Lemma standard_noise_less s steps key0 W (E : (W -> R) -> R) normal n N : (n <= N)%nat -> standard_noise s steps key0 E normal N -> standard_noise s steps key0 E normal n.
Proof.
  intros Hn (HE & H1 & H2 & H3). split; [exact HE|]. split; [exact H1|]. split; [exact H2|]. intros i Hi. destruct (H3 i Hi) as [Z1 Z2]. assert (n * steps <= N * steps)%nat by (apply Nat.mul_le_mono_r; exact Hn). split; [intros t Ht; apply Z1; lia|intros t u Ht Hu; apply Z2; lia].
Qed.
Section Alias.
Variable s : vtree.
Hypothesis Hs : wfv s.
Variables (Data Batch : Type).
Variable get_data : Data -> Data * Batch.
Variable pot_value : vtree -> Batch -> vtree -> R.
Variable pot_model : vtree -> Batch -> vtree -> vtree.
Variable pot_grad : vtree -> Batch -> vtree -> vtree.
Hypothesis Hg : forall t b m, like s t -> like s (pot_grad t b m).
Hypothesis Hm : forall t b m, same_structure (pot_model t b m) m.
Variables (steps : nat) (friction : R) (mass : option vtree).
Hypothesis Hsteps : (0 < steps)%nat.
Hypothesis Hmass : match mass with Some m => like s m /\ forall i, (i < dim s)%nat -> 0 < el m i | None => True end.
Hypothesis Hf : 0 <= friction.
(** the initial sample of the chain and the initial state of the model *)
Variables (x0 model0 : vtree).
Hypothesis Hx : like s x0.
Variables (lam mu : nat -> R).
Hypothesis Hgauss : forall t b m i, like s t -> (i < dim s)%nat -> el (pot_grad t b m) i = lam i * (el t i - mu i).
Hypothesis Hlam : forall i, (i < dim s)%nat -> 0 < lam i.
(** jax.random.choice of the thinning; zeros_like *)
Variables (Key : Type) (choice : Key -> list xr -> nat -> list nat) (tk : Key) (zl : arr -> arr).
Hypothesis Hc : choice_ok choice.
(** the answer of the run function of alias.obabo *)
Notation answer normal a its h starts :=
  (snd (al_run choice tk a zl (obabo_solver normal get_data pot_value pot_model pot_grad steps mass friction) (fst (run (mstep zl) (mc_new false) h))
     (map (fun xd => obabo_init (snd xd) model0 (fst xd)) starts) its)).
(** With step sizes falling from f to l' < f, where even the last step size is above the stability limit of coordinate j, the call still completes without an error,
    but the variance of the coordinate grows from returned sample to returned sample and its mean is never closer to mu than the initial sample. *)
Theorem C100_alias : forall f l', 0 < l' < f -> forall a its, al_first a = Fin f -> al_last a = Fin l' -> al_adaptive a = None -> al_hot a = None -> (2 <= its)%nat -> (al_burn_in a < its)%nat ->
  let m := (its - al_burn_in a)%nat in al_accepted a = Some m ->
  forall W (E : (W -> R) -> R) (normal : W -> key -> list nat -> list R), standard_noise s steps (PRNGKey 0) E normal its ->
  forall c (starts : W -> list (vtree * Data)) (d : W -> Data) (h : W -> list (mop arr)), (forall w, Forall (fun xd => like s (fst xd)) (starts w)) ->
    (forall w, nth_error (starts w) c = Some (x0, d w)) ->
    (forall w, exists results r, answer (normal w) a its (h w) (starts w) = Some (Ok results) /\ length results = length (starts w) /\ nth_error results c = Some r /\ fst r = m) /\
    forall r : W -> result arr, (forall w, exists results, answer (normal w) a its (h w) (starts w) = Some (Ok results) /\ nth_error results c = Some (r w)) ->
      forall j, (j < dim s)%nat -> 4 * (root_mass mass j * root_mass mass j) <= l' * l' * lam j ->
      forall k, (k < m)%nat -> let x := fun w => returned (r w) k j in
        INR steps * INR (S (al_burn_in a + k)) * (l' * l' * (1 - exp (- friction * l')) / (root_mass mass j * root_mass mass j)) <= E (fun w => (x w - E x) * (x w - E x)) /\
        Rabs (el x0 j - mu j) <= Rabs (E x - mu j).
Proof.
  intros f l' Hfl a its Af Al Aa Ah Hits Hburn m Hacc W E normal HZ c starts d h Hlk Hcx. pose proof HZ as (HE & H1 & Hnorm & _).
  destruct (@alias_main_schedule Key choice tk a its f l' Aa Af Al Hfl Hits) as (eps & (F1 & F2 & F3 & F4) & HS).
  set (eps' := fun k => if (k <? its)%nat then eps k else l').
  assert (EE : forall k, (k < its)%nat -> eps k = eps' k) by (intros k Hkk; unfold eps'; now rewrite (proj2 (Nat.ltb_lt k its))).
  assert (EM : forall i j, (i <= j)%nat -> eps j <= eps i) by (intros i0 j0 Hij; destruct (Nat.eq_dec i0 j0) as [-> |]; [lra|left; apply F4; lia]).
  assert (EB : forall k, l' <= eps' k). { intros k. unfold eps'. destruct (k <? its)%nat eqn:Ek; [|lra]. apply Nat.ltb_lt in Ek. rewrite <- F2. apply EM. lia. }
  set (pos := fun w n => o_pos (at_ get_data pot_value pot_model pot_grad steps friction mass 1 x0 model0 (PRNGKey 0) eps' normal d n w)).
  assert (RUN : forall w, exists results, answer (normal w) a its (h w) (starts w) = Some (Ok results) /\ length results = length (starts w) /\
     exists r, nth_error results c = Some r /\ fst r = m /\ forall k j, (k < m)%nat -> returned r k j = el (pos w (Datatypes.S (al_burn_in a + k))) j).
  { intros w. set (upd := fun e T st => fst (ob_integrate (normal w) get_data pot_value pot_model pot_grad steps friction mass e T None st)). set (get := fun st : ob_st Data vtree => hmc_sample (o_pot st) (o_model st) (o_pos st)).
    destruct (@plain_run_steps _ upd get) with (Key := Key) (choice := choice) (tk := tk) (z := zl) (a := a) (f := f) (l := l') (n := m) (its := its) (eps := eps) (h := h w) (states := map (fun xd => obabo_init (snd xd) model0 (fst xd)) (starts w)) as (rs & R1 & R2); auto.
    { intros e T st. apply ob_keeps; auto. }
    { unfold m. lia. }
    exists rs. split; [exact R1|]. split; [transitivity (length (map (fun xd => obabo_init (snd xd) model0 (fst xd)) (starts w))); [clear -R2; induction R2; cbn; congruence|apply map_length]|].
    assert (Ec : nth_error (map (fun xd => obabo_init (snd xd) model0 (fst xd)) (starts w)) c = Some (obabo_init (d w) model0 x0)) by (rewrite (map_nth_error _ _ _ (Hcx w)); reflexivity).
    destruct (PropertiesHub.Forall2_nth_error_l _ R2 Ec) as (r & Er & (L & L1 & L2 & L3 & Hr1 & Hr2)).
    exists r. split; [exact Er|]. split; [exact Hr1|]. intros k j Hkm.
    assert (EL : L = seq (al_burn_in a) m) by (apply increasing_all; auto; intros i0 Hi0; specialize (L3 i0 Hi0); unfold m; lia).
    unfold get in Hr2. rewrite (@hmc_position nat _ _ _ L r k (al_burn_in a + k)%nat j Hr2); [|rewrite EL; now apply seq_at].
    f_equal. f_equal. unfold pos, at_, obabo_state. rewrite (@iterates_ext _ upd eps eps') by (intros; apply EE; unfold m in Hkm; lia). rewrite iterates_fold. reflexivity. }
  split. { intros w. destruct (RUN w) as (rs & R1 & RL & r & R2 & R3 & _). exists rs, r. auto. }
  intros r Hr j Hj HL k Hk x. set (n := Datatypes.S (al_burn_in a + k)).
  assert (EX : forall w, el (pos w n) j = x w).
  { intros w. destruct (Hr w) as (rs' & Q1 & Q2). destruct (RUN w) as (rs & R1 & _ & r0 & R2 & R3 & R4). rewrite R1 in Q1. injection Q1 as <-. rewrite R2 in Q2. injection Q2 as Q2. unfold x. rewrite <- Q2. symmetry. now apply R4. }
  assert (Mn : E (fun w => el (pos w n) j) = E x) by (apply (E_ext HE); exact EX).
  assert (HL' : forall k', 4 * (root_mass mass j * root_mass mass j) <= eps' k' * eps' k' * lam j).
  { intros k'. specialize (EB k'). pose proof (Hlam Hj). assert (l' * l' <= eps' k' * eps' k') by nra. assert (l' * l' * lam j <= eps' k' * eps' k' * lam j) by (apply Rmult_le_compat_r; lra). lra. }
  destruct (@C100_too_large s Hs Data Batch vtree get_data pot_value pot_model pot_grad Hg steps friction mass 1 Hsteps Hmass x0 model0 (PRNGKey 0) Hx eps' lam mu Hgauss Hlam Hf ltac:(lra) ltac:(intros k'; specialize (EB k'); lra)
    n W E normal d ltac:(apply (@standard_noise_less s steps (PRNGKey 0) W E normal n its); [unfold n, m in *; lia|exact HZ]) j Hj ltac:(intros; apply HL')) as [A B].
  change (Rabs (el x0 j - mu j) <= Rabs (E (fun w => el (pos w n) j) - mu j)) in B. rewrite Mn in B. split; [|exact B].
  eapply Rle_trans; [|eapply Rle_trans; [exact A|]].
  - rewrite Rmult_assoc. apply Rmult_le_compat_l; [apply pos_INR|]. rewrite <- sum_upto_const. apply sum_upto_le. intros k' _. specialize (EB k'). destruct (root_pos s mass Hmass Hj) as [Hr0 _]. set (rm := root_mass mass j) in *.
    unfold Rdiv. apply Rmult_le_compat_r; [left; apply Rinv_0_lt_compat; nra|]. rewrite Rmult_1_r.
    assert (M : forall u v, u <= v -> exp u <= exp v) by (intros u v [H| ->]; [left; now apply exp_increasing|lra]).
    assert (friction * l' <= friction * eps' k') by (apply Rmult_le_compat_l; lra). assert (0 <= friction * l') by (apply Rmult_le_pos; lra).
    apply Rmult_le_compat; [nra| |nra|].
    + pose proof (M (- friction * l') 0 ltac:(lra)) as M1. rewrite exp_0 in M1. lra.
    + pose proof (M (- friction * eps' k') (- friction * l') ltac:(lra)). lra.
  - right. apply (E_ext HE). intros w. change (fun w0 => el (o_pos (at_ get_data pot_value pot_model pot_grad steps friction mass 1 x0 model0 (PRNGKey 0) eps' normal d n w0)) j) with (fun w0 => el (pos w0 n) j). rewrite Mn. fold (pos w n). now rewrite EX.
Qed.
End Alias.

(** ** The hypotheses can be met for every number of integrations: two coins per inner step, one for each of its two random vectors *)
(** auxiliary definition of a statement or a proof; models no code of /repo *)
Definition toss (t : nat) (w : list (bool * bool)) : R := let c := nth (t / 2) w (true, true) in sign (match (t mod 2)%nat with O => fst c | _ => snd c end).
(** auxiliary definition of a statement or a proof; models no code of /repo *)
Definition toss_normal (w : list (bool * bool)) (k : key) (sh : list nat) : list R :=
  repeat (match k with Sub (Sub c j) _ => let p := nth (depth c) w (true, true) in sign (match j with 1%nat => fst p | _ => snd p end) | _ => 0 end) (size sh).
Lemma toss_noise t w i : (i < dim (Leaf (mkArr [] [0%R])))%nat -> noise (Leaf (mkArr [] [0])) (PRNGKey 0) toss_normal t w i = toss t w.
Proof.
  intros Hi. assert (i = O) by (unfold dim in Hi; cbn in Hi; lia). subst i. pose proof (Nat.mod_upper_bound t 2 ltac:(lia)) as Hm. unfold noise, toss, xi, toss_normal. cbn [Nat.add]. destruct (t mod 2)%nat as [|[|r]]; [| |lia]; cbn; rewrite depth_chain; reflexivity.
Qed.
Lemma coins_last n k X : (k < n)%nat -> (forall w, X w = X (firstn (S k) w)) -> (forall w, length w = k -> X (w ++ [(true, true)]) + X (w ++ [(true, false)]) + X (w ++ [(false, true)]) + X (w ++ [(false, false)]) = 0) -> coins n X = 0.
Proof.
  intros Hk HX H. rewrite (@coins_prefix n (S k) X) by (auto; lia). cbn [coins]. rewrite (@coins_ext k _ (fun _ => 0 * 1)); [rewrite (coins_scale k 0 (fun _ => 1)); ring|]. intros w Hw. rewrite H by auto. field.
Qed.
Lemma toss_prefix t k w : (t / 2 <= k)%nat -> toss t (firstn (S k) w) = toss t w.
Proof. intros H. unfold toss. rewrite firstn_nth by lia. reflexivity. Qed.
Lemma toss_before t w c : (t / 2 < length w)%nat -> toss t (w ++ [c]) = toss t w.
Proof. intros H. unfold toss. rewrite app_nth1 by exact H. reflexivity. Qed.
Lemma toss_at t w c : length w = (t / 2)%nat -> toss t (w ++ [c]) = sign (match (t mod 2)%nat with O => fst c | _ => snd c end).
Proof. intros H. unfold toss. rewrite app_nth2 by lia. rewrite H, Nat.sub_diag. reflexivity. Qed.
Lemma toss_square t w : toss t w * toss t w = 1.
Proof. unfold toss, sign. destruct (t mod 2)%nat; [destruct (fst _)|destruct (snd _)]; ring. Qed.
Lemma toss_uncorrelated N t u : (t < u)%nat -> (u < 2 * N)%nat -> coins N (fun w => toss t w * toss u w) = 0.
Proof.
  intros Htu Hu. assert (D : (t / 2 <= u / 2)%nat) by (apply Nat.div_le_mono; lia). assert (K : (u / 2 < N)%nat) by (apply Nat.div_lt_upper_bound; lia).
  apply (@coins_last N (u / 2)); [exact K|intros w; now rewrite !toss_prefix by lia|]. intros w Hw. rewrite !(@toss_at u) by exact Hw.
  destruct (Nat.eq_dec (t / 2) (u / 2)) as [E|E].
  - rewrite !(@toss_at t) by congruence. pose proof (Nat.div_mod t 2 ltac:(lia)). pose proof (Nat.div_mod u 2 ltac:(lia)). pose proof (Nat.mod_upper_bound t 2 ltac:(lia)). pose proof (Nat.mod_upper_bound u 2 ltac:(lia)).
    replace (t mod 2)%nat with 0%nat by lia. replace (u mod 2)%nat with 1%nat by lia. cbn. ring.
  - rewrite !(@toss_before t) by lia. destruct (u mod 2)%nat; cbn; ring.
Qed.
Lemma toss_standard steps n : (0 < steps)%nat -> standard_noise (Leaf (mkArr [] [0])) steps (PRNGKey 0) (coins (n * steps)) toss_normal n.
Proof.
  intros Hst. split; [split; [intros X Y H; apply coins_ext; intros; apply H|split; [apply coins_plus|apply coins_scale]]|]. split; [apply coins_one|]. split; [intros w k sh; apply repeat_length|].
  intros i Hi. split.
  - intros t Ht. rewrite (@coins_ext _ _ (toss t)) by (intros; now apply toss_noise). apply (@coins_last _ (t / 2)); [apply Nat.div_lt_upper_bound; lia|intros w; now rewrite toss_prefix by lia|]. intros w Hw. rewrite !toss_at by exact Hw. destruct (t mod 2)%nat; cbn; ring.
  - intros t u Ht Hu. rewrite (@coins_ext _ _ (fun w => toss t w * toss u w)) by (intros; now rewrite !toss_noise by auto). destruct (Nat.eqb_spec t u) as [->|Hne].
    + rewrite (@coins_ext _ _ (fun _ => 1)) by (intros; apply toss_square). apply coins_one.
    + destruct (Nat.lt_ge_cases t u); [now apply toss_uncorrelated|]. rewrite (@coins_ext _ _ (fun w => toss u w * toss t w)) by (intros; ring). apply toss_uncorrelated; lia.
Qed.
(** a potential with lam = 2 and mu = 1, no mass, friction 1, temperature 1, three inner steps, start 3: with h = 2 variance and mean pass every bound, with h = 1 they do not *)
Example C100_nonvacuous : let s := Leaf (mkArr [] [0]) in
  let at_ := fun h => at_ (fun d : unit => (d, tt)) (fun _ _ _ => 0) (fun _ _ (m : unit) => m) (fun t (_ _ : unit) => emap (fun x => 2 * (x - 1)) t) 3 1 None 1 (Leaf (mkArr [] [3])) tt (PRNGKey 0) (fun _ => h) toss_normal (fun _ => tt) in
  let x := fun h n w => el (o_pos (at_ h n w)) 0 in let mean := fun h n => coins (n * 3) (x h n) in let variance := fun h n => coins (n * 3) (fun w => (x h n w - mean h n) * (x h n w - mean h n)) in
  (forall M, exists N, forall n, (N <= n)%nat -> M < variance 2 n) /\ (forall n, 3 ^ (n * 3) * 2 <= Rabs (mean 2 n - 1)) /\ exists B, forall n, variance 1 n <= B /\ Rabs (mean 1 n - 1) <= B.
Proof.
  intros s at_ x mean variance.
  assert (Hs : wfv s) by (constructor; [reflexivity|constructor]).
  assert (Hx : like s (Leaf (mkArr [] [3]))) by (split; [constructor; [reflexivity|constructor]|split; reflexivity]).
  assert (Hg : forall t (b m : unit), like s t -> like s (emap (fun x => 2 * (x - 1)) t)) by (intros; now apply like_emap).
  assert (He : forall t (b m : unit) i, like s t -> (i < dim s)%nat -> el (emap (fun x => 2 * (x - 1)) t) i = 2 * (el t i - 1)) by (intros; now apply (el_emap (s := s))).
  assert (Hi : (0 < dim s)%nat) by (unfold dim; cbn; lia).
  split; [|split].
  - intros M. destruct (@C100_variance_unbounded s Hs unit unit unit (fun d => (d, tt)) (fun _ _ _ => 0) (fun _ _ m => m) (fun t _ _ => emap (fun x => 2 * (x - 1)) t) Hg 3 1 None 1 ltac:(lia) I (Leaf (mkArr [] [3])) tt (PRNGKey 0) Hx (fun _ => 2) (fun _ => 2) (fun _ => 1) He ltac:(intros; lra) ltac:(lra) ltac:(lra) ltac:(intros; lra) 2 (fun _ => eq_refl) ltac:(lra) ltac:(lra) ltac:(lra) 0%nat Hi ltac:(cbn; lra) M) as [N HN].
    exists N. intros n Hn. exact (HN n Hn _ _ toss_normal (fun _ => tt) (@toss_standard 3 n ltac:(lia))).
  - intros n. destruct (@C100_geometric s Hs unit unit unit (fun d => (d, tt)) (fun _ _ _ => 0) (fun _ _ m => m) (fun t _ _ => emap (fun x => 2 * (x - 1)) t) Hg 3 1 None 1 ltac:(lia) I (Leaf (mkArr [] [3])) tt (PRNGKey 0) Hx (fun _ => 2) (fun _ => 2) (fun _ => 1) He ltac:(intros; lra) ltac:(lra) ltac:(lra) ltac:(intros; lra) 2 (fun _ => eq_refl) ltac:(lra) 0%nat Hi ltac:(cbn; lra) n _ _ toss_normal (fun _ => tt) (@toss_standard 3 n ltac:(lia))) as [A _].
    change (el (Leaf (mkArr [] [3])) 0) with 3 in A. cbn [root_mass] in A. replace (2 * 2 * 2 / (2 * (1 * 1)) - 1) with 3 in A by field. rewrite (Rabs_pos_eq (3 - 1)) in A by lra. replace (3 - 1) with 2 in A by ring. exact A.
  - destruct (@C100_stable_bounded s Hs unit unit unit (fun d => (d, tt)) (fun _ _ _ => 0) (fun _ _ m => m) (fun t _ _ => emap (fun x => 2 * (x - 1)) t) Hg 3 1 None 1 ltac:(lia) I (Leaf (mkArr [] [3])) tt (PRNGKey 0) Hx (fun _ => 1) (fun _ => 2) (fun _ => 1) He ltac:(intros; lra) ltac:(lra) ltac:(lra) ltac:(intros; lra) 1 (fun _ => eq_refl) ltac:(lra) ltac:(lra) 0%nat Hi ltac:(cbn; lra)) as [B HB].
    exists B. intros n. exact (HB n _ _ toss_normal (fun _ => tt) (@toss_standard 3 n ltac:(lia))).
Qed.
Print Assumptions C100_too_large. Print Assumptions C100_variance_unbounded. Print Assumptions C100_geometric. Print Assumptions C100_stable_bounded. Print Assumptions C100_nonvacuous.

(** alias.obabo with step sizes falling from f to 2, on a potential with lam = 2 and mu = 1: variance of the returned samples at least 12 (1 - exp(-2)) (b + k + 1) *)
Example C100_alias_nonvacuous : let s := Leaf (mkArr [] [0]) in let grad := fun t (b : unit) (m : vtree) => emap (fun x => 2 * (x - 1)) t in let zl := fun x => mkArr (ashape x) (map (fun _ => 0) (adata x)) in
  forall f, 2 < f -> forall b its, (2 <= its)%nat -> (b < its)%nat -> let m := (its - b)%nat in
  let answer := fun w => snd (al_run first_choice tt (mkAlias (Fin f) (Fin 2) None b (Some m) true false None) zl
    (obabo_solver (toss_normal w) (fun d : unit => (d, tt)) (fun t _ _ => (el t 0 - 1) * (el t 0 - 1)) (fun _ _ m => m) grad 3 None 1)
    (mc_new false) [obabo_init tt (Leaf (mkArr [] [1])) (Leaf (mkArr [] [3]))] its) in
  (forall w, exists r, answer w = Some (Ok [r])) /\
  forall r, (forall w, answer w = Some (Ok [r w])) -> forall k, (k < m)%nat -> let E := coins (its * 3) in let x := fun w => returned (r w) k 0 in
    12 * (1 - exp (-2)) * INR (S (b + k)) <= E (fun w => (x w - E x) * (x w - E x)) /\ 2 <= Rabs (E x - 1).
Proof.
  intros s grad zl f Hf b its Hits Hb m answer.
  assert (Ws : wfv s) by (constructor; [reflexivity|constructor]). assert (Lg : forall t (b : unit) m, like s t -> like s (grad t b m)) by (intros; now apply like_emap).
  assert (Lx : like s (Leaf (mkArr [] [3]))) by (split; [constructor; [reflexivity|constructor]|split; reflexivity]).
  assert (Gr : forall t (b : unit) m i, like s t -> (i < dim s)%nat -> el (grad t b m) i = 2 * (el t i - 1)) by (intros; now apply (el_emap (s := s))).
  assert (I0 : (0 < dim s)%nat) by (unfold dim; cbn; lia).
  destruct (@C100_alias s Ws unit unit (fun d : unit => (d, tt)) (fun t _ _ => (el t 0 - 1) * (el t 0 - 1)) (fun _ _ m => m) grad Lg ltac:(reflexivity) 3 1 None ltac:(lia) I ltac:(lra) (Leaf (mkArr [] [3])) (Leaf (mkArr [] [1])) Lx (fun _ => 2) (fun _ => 1) Gr ltac:(intros; lra) unit first_choice tt zl first_choice_ok f 2 ltac:(lra)
    (mkAlias (Fin f) (Fin 2) None b (Some m) true false None) its eq_refl eq_refl eq_refl eq_refl Hits Hb eq_refl _ (coins (its * 3)) toss_normal (@toss_standard 3 its ltac:(lia)) 0%nat
    (fun _ => [(Leaf (mkArr [] [3]), tt)]) (fun _ => tt) (fun _ => @nil (mop arr))) as [R1 R2].
  - intros w. constructor; [exact Lx|constructor].
  - reflexivity.
  - split.
    + intros w. destruct (R1 w) as ([|r [|]] & r' & Q1 & Q2 & Q3 & _); try discriminate. exists r. exact Q1.
    + intros r Hr k Hk E x. destruct (R2 r) with (j := 0%nat) (k := k) as [A B]; [|exact I0|cbn; lra|exact Hk|].
      { intros w. exists [r w]. split; [apply Hr|reflexivity]. }
      fold x in A, B. fold E in A, B. change (el (Leaf (mkArr [] [3])) 0) with 3 in B. rewrite (Rabs_pos_eq (3 - 1)) in B by lra. split; [|lra].
      eapply Rle_trans; [|exact A]. cbn [root_mass al_burn_in]. replace (- (1) * 2) with (-2) by ring. replace (INR 3) with 3 by (cbn; ring). right. field.
Qed.
Print Assumptions C100_alias. Print Assumptions C100_alias_nonvacuous.
