(** C97: the mean of the samples that alias.obabo returns, on a Gaussian posterior.
    Reading guide: as in C96 (PropertiesObaboAverage.v).  [returned r k j] is coordinate j of the parameters in row k of the samples that the alias returns for a chain (AverageAlias.v). *)
From Coq Require Import Reals Lra Lia Psatz ZArith String.
From Verif Require Import Base ListUtil Pytree PytreeSpec PytreeProofs Io IoSpec IoProofs IoFinal TreeUtil TreeUtilSpec TreeUtilProofs Integrator IntegratorSpec IntegratorBasics ObaboProofs PropertiesIntegrator
  Xreal Scheduler SchedulerSpec SchedulerProofs StepSizeProofs PropertiesScheduler Solver SolverSpec SolverProofs SolverFinal PropertiesSolver Adaption Alias PropertiesAlias AliasSgld AliasRun AliasHmc AverageAlias.
From Verif Require Import ExpectSpec ExpectProofs GaussianLimit SghmcGaussian ObaboGaussian RiemannProofs ObaboAverageProofs ObaboAverageVary PropertiesObaboGaussian PropertiesObaboAverage ObaboResponse.
From Verif Require Import MinibatchSpec PropertiesMinibatchGaussian.
From Verif Require PropertiesHub.
Open Scope R_scope.
Set Implicit Arguments.

(** ** The run of an alias with the step sizes chosen before everything else *)
Section Run.
Variables (St : Type) (upd : R -> R -> St -> St) (get : St -> vtree).
Hypothesis Hkeep : forall e T st, same_structure (get (upd e T st)) (get st).
Lemma plain_run_steps Key (choice : Key -> list xr -> nat -> list nat) tk (z : arr -> arr) : choice_ok choice ->
  forall a f l n its eps, al_first a = Fin f -> al_last a = Fin l -> al_adaptive a = None -> al_accepted a = Some n -> al_hot a = None -> 0 < l < f -> (2 <= its)%nat -> (al_burn_in a + n <= its)%nat ->
  main_steps choice tk a its eps -> forall h states,
  exists results, snd (al_run choice tk a z (plain_solver upd get) (fst (run (mstep z) (mc_new false) h)) states its) = Some (Ok results) /\
    Forall2 (fun st r => exists L, length L = n /\ increasing L /\ (forall i, In i L -> (al_burn_in a <= i < its)%nat) /\
      fst r = n /\ exactly_samples (map (fun i => get (iterates upd eps st (S i))) L) (snd r)) states results.
Proof.
  intros Hc a f l n its eps Hf Hl Ha Hacc Hhot H1 H2 H3 HM h states.
  assert (HK : keeps_structure (plain_solver upd get)). { intros s [|sch q]; [reflexivity|]. apply Hkeep. }
  destruct (@C51_accepted_samples Key choice Hc tk arr z (plain_solver upd get) HK a) with (n := n) (its := its) (h := h) (states := states) as (rs & R1 & R2); auto.
  { now rewrite Hhot. }
  { unfold good_steps. rewrite Ha. exists f, l. auto. }
  exists rs. split; [exact R1|]. eapply Forall2_impl; [|exact R2]. clear R1 R2. intros st r (L & L1 & L2 & L3 & (main & helpers & sts & xs & (sc & I1) & I2 & I3 & I4 & I5)).
  assert (EH : helpers = []). { unfold al_helpers in I2. rewrite Hhot in I2. cbn in I2. congruence. } subst helpers.
  destruct I3 as (J1 & J2 & J3 & J4). exists L. split; auto. split; auto. split; auto. split; [congruence|].
  assert (IT : forall i, (i <= its)%nat -> nth_error sts i = Some (iterates upd eps st i)).
  { induction i as [|i IH]; intros Hi; [exact J3|]. specialize (IH ltac:(lia)).
    destruct (J4 i _ ltac:(lia) IH) as (s' & x & U1 & U2 & _). cbn [map] in U1.
    specialize (HM main sc I1 (firstn i xs)). rewrite firstn_length, J2, Nat.min_l in HM by lia. specialize (HM ltac:(lia)). cbv zeta in HM. destruct HM as [M1 M2].
    etransitivity; [exact U2|]. apply (f_equal fst) in U1. cbn [fst] in U1. rewrite <- U1. cbn [plain_solver sgmc so_update fst iterates]. rewrite M1, M2. reflexivity. }
  rewrite <- (@samples_map _ (plain_solver upd get) sts _ L); auto. intros i Hi. eexists. split; [apply IT|reflexivity]. specialize (L3 i Hi). lia.
Qed.
Lemma iterates_fold eps st n : iterates upd eps st n = fold_left (fun a k => upd (eps k) 1 a) (seq 0 n) st.
Proof. induction n as [|n IH]; [reflexivity|]. cbn [iterates]. rewrite seq_S, fold_left_app, IH. reflexivity. Qed.
Lemma iterates_ext eps eps' st n : (forall k, (k < n)%nat -> eps k = eps' k) -> iterates upd eps st n = iterates upd eps' st n.
Proof. induction n as [|n IH]; intros H; [reflexivity|]. cbn [iterates]. rewrite IH by (intros; apply H; lia). now rewrite H by lia. Qed.
End Run.
(** the rows of what is returned are the positions of the saved samples *)
Lemma hmc_position (U : Type) (e : U -> R) (mo x : U -> vtree) (L : list U) (r : result arr) k u c :
  exactly_samples (map (fun i => hmc_sample (e i) (mo i) (x i)) L) (snd r) -> nth_error L k = Some u -> returned r k c = el (x u) c.
Proof.
  intros HE Hk. assert (E := exactly_row k HE (map_nth_error _ _ _ Hk)). unfold returned. destruct (snd r) as [y|k0 ch]; [discriminate|].
  unfold hmc_sample in E. cbn [tree_map] in E. injection E as -> E. pose proof (@dget_map _ _ (tree_map (fun rows => nth k rows (mkArr [] []))) "variables"%string ["energy"; "model_state"; "variables"]%string ch) as D.
  rewrite E in D. cbn in D |- *. revert D. match goal with |- context [dget ?a ?b] => destruct (dget a b) as [t|] end; cbn [option_map]; [|discriminate].
  intros D. injection D as D. now rewrite <- D.
Qed.

Section C97.
Variable s : vtree.
Hypothesis Hs : wfv s.
Section Steps.
Variables (Data Batch Model : Type).
Variable get_data : Data -> Data * Batch.
Variable pot_value : vtree -> Batch -> Model -> R.
Variable pot_model : vtree -> Batch -> Model -> Model.
Variable pot_grad : vtree -> Batch -> Model -> vtree.
Hypothesis Hg : forall t b m, like s t -> like s (pot_grad t b m).
Variables (steps : nat) (friction : R) (mass : option vtree) (T : R).
Hypothesis Hsteps : (0 < steps)%nat.
Hypothesis Hmass : match mass with Some m => like s m /\ forall i, (i < dim s)%nat -> 0 < el m i | None => True end.
Variables (x0 : vtree) (model0 : Model) (key0 : key).
Hypothesis Hx : like s x0.
Variables (lam mu : nat -> R).
Hypothesis Hgauss : forall t b m i, like s t -> (i < dim s)%nat -> el (pot_grad t b m) i = lam i * (el t i - mu i).
Hypothesis Hlam : forall i, (i < dim s)%nat -> 0 < lam i.
Hypothesis Hf : 0 < friction.
Hypothesis HT : 0 <= T.
Variables lo hi : R.
Hypothesis Hlo : 0 < lo <= hi.
Hypothesis Hst : forall i, (i < dim s)%nat -> hi * hi * lam i < 4 * (root_mass mass i * root_mass mass i).
Notation mean_position := (mean_position get_data pot_value pot_model pot_grad steps friction mass T x0 model0 key0).

Lemma coordinate_vary i : (i < dim s)%nat -> exists K, 0 <= K /\ forall eps, (forall n, lo <= eps n <= hi) -> (forall n, eps (S n) <= eps n) ->
  forall b n, (0 < n)%nat -> forall W (E : (W -> R) -> R) normal data, standard_noise s steps key0 E normal (b + n) ->
  E (fun w => (mean_position eps normal data b n w i - mu i) * (mean_position eps normal data b n w i - mu i)) <= K / INR n.
Proof.
  intros Hi. pose proof (@freq_pos s mass Hmass lam Hlam i Hi) as Fp. set (F := freq mass lam i) in *. pose proof (Hlam Hi) as Hl. assert (Sp : 0 < sqrt (lam i)) by now apply sqrt_lt_R0. assert (Sq : sqrt (lam i) * sqrt (lam i) = lam i) by (apply sqrt_sqrt; lra).
  pose proof (@k_range s mass Hmass lam Hlam hi ltac:(lra) Hst i Hi) as Kr. fold F in Kr.
  set (kmin := lo * F / 2). set (kmax := hi * F / 2). set (amin := exp (- (friction / 2) * hi)). set (amax := exp (- (friction / 2) * lo)).
  assert (A1 : 0 < amax < 1) by (apply (@a_range friction lo ltac:(lra) Hf)).
  assert (PK : 0 < kmin) by (unfold kmin; assert (0 < lo * F) by (apply Rmult_lt_0_compat; lra); lra).
  set (y0 := sqrt (lam i) * (el x0 i - mu i)). set (de := decay kmin kmax amax). set (ro := root kmin kmax amax). set (tp := top kmax amin T).
  set (K := (y0 * y0 + tp * (2 * (de / (1 - de) + INR steps))) / ((1 - ro) * (1 - ro)) / lam i).
  assert (MAIN : forall eps, (forall n, lo <= eps n <= hi) -> (forall n, eps (S n) <= eps n) -> 0 <= de < 1 /\ 0 <= ro < 1 /\ 0 <= tp /\
    forall b n, (0 < n)%nat -> forall W (E : (W -> R) -> R) normal data, standard_noise s steps key0 E normal (b + n) ->
      E (fun w => (mean_position eps normal data b n w i - mu i) * (mean_position eps normal data b n w i - mu i)) <= K / INR n).
  { intros eps Heps Hdec.
    assert (EM : forall p q, (p <= q)%nat -> eps q <= eps p) by (intros p q H; induction H; [lra|]; specialize (Hdec m); lra).
    set (k := fun t => estep steps eps t * F / 2). set (a := fun t => damp steps friction eps t). set (bb := fun t => sqrt ((1 - exp (- friction * eps (t / steps)%nat)) * T)).
    assert (Hk : forall t, 0 < kmin <= k t /\ k t <= kmax < 1).
    { intros t. unfold k, estep. destruct (Heps (t / steps)%nat) as [E1 E2]. assert (lo * F <= eps (t / steps)%nat * F) by (apply Rmult_le_compat_r; lra). assert (eps (t / steps)%nat * F <= hi * F) by (apply Rmult_le_compat_r; lra). unfold kmin, kmax in *. lra. }
    assert (Hd : forall t, k (S t) <= k t).
    { intros t. unfold k, estep. assert (eps (S t / steps)%nat <= eps (t / steps)%nat) by (apply EM, Nat.div_le_mono; lia). assert (eps (S t / steps)%nat * F <= eps (t / steps)%nat * F) by (apply Rmult_le_compat_r; lra). lra. }
    assert (Ha : forall t, 0 < amin <= a t /\ a t <= amax < 1).
    { intros t. unfold a, damp, estep. destruct (Heps (t / steps)%nat) as [E1 E2]. assert (M : forall x y, x <= y -> exp x <= exp y) by (intros x y [H| ->]; [left; now apply exp_increasing|lra]).
      split; split; [apply exp_pos| | |lra]; apply M.
      - assert (friction / 2 * eps (t / steps)%nat <= friction / 2 * hi) by (apply Rmult_le_compat_l; lra). lra.
      - assert (friction / 2 * lo <= friction / 2 * eps (t / steps)%nat) by (apply Rmult_le_compat_l; lra). lra. }
    assert (Hb : forall t, 0 <= bb t * bb t <= T).
    { intros t. unfold bb. destruct (Heps (t / steps)%nat) as [E1 E2]. assert (P : exp (- friction * eps (t / steps)%nat) < 1) by (rewrite <- exp_0; apply exp_increasing; assert (0 < friction * eps (t / steps)%nat) by (apply Rmult_lt_0_compat; lra); lra). pose proof (exp_pos (- friction * eps (t / steps)%nat)) as P2.
      rewrite sqrt_sqrt by (apply Rmult_le_pos; lra). split; [apply Rmult_le_pos; lra|]. rewrite <- (Rmult_1_l T) at 2. apply Rmult_le_compat_r; lra. }
    destruct (@rate_decay k a kmin kmax amin amax Hk Ha 0%nat) as [_ D0]. destruct (@root_range k a kmin kmax amin amax Hk Ha) as [R0 _]. pose proof (@top_nonneg k a bb kmin kmax amin amax T Hk Ha Hb) as T0.
    fold de in D0. fold ro in R0. fold tp in T0. split; [exact D0|]. split; [exact R0|]. split; [exact T0|].
    intros m n Hn W E normal data Hz. pose proof Hz as (HE & H1 & Hnk & HZ). destruct (HZ i Hi) as [Z1 Z2].
    set (z := fun t w => noise s key0 normal t w i). set (y := sY get_data pot_value pot_model pot_grad steps friction mass T x0 model0 key0 eps lam mu normal data i). set (q := sQ get_data pot_value pot_model pot_grad steps friction mass T x0 model0 key0 eps normal data i).
    assert (FV : follows_vary k a bb z y q).
    { apply (@run_follows_vary s Hs Data Batch Model get_data pot_value pot_model pot_grad Hg steps friction mass T Hsteps Hmass x0 model0 key0 Hx lam mu Hgauss Hlam eps i Hi W normal data Hnk). }
    set (tt := fun j => (S (m + j) * steps)%nat). assert (Htt : forall j, (tt j < tt (S j))%nat) by (intros j; unfold tt; nia).
    assert (I0 : forall w, y 0%nat w = fst (y0, 0) /\ q 0%nat w = snd (y0, 0)).
    { intros w. cbn [fst snd]. unfold y, q, sY, sQ. assert (E0 : inner get_data pot_value pot_model pot_grad steps friction mass T x0 model0 key0 eps (normal w) (data w) 0 = ob_init x0 (Some key0) (data w) model0) by (rewrite <- (Nat.mul_0_l steps), inner_run by exact Hsteps; reflexivity).
      rewrite E0. split; [reflexivity|]. cbn [ob_init o_mom]. rewrite (el_emap Hs) by auto. unfold Rdiv. ring. }
    assert (T1 : tt (n - 1)%nat = ((m + n) * steps)%nat) by (unfold tt; f_equal; lia).
    pose proof (@path_sum k a bb kmin kmax amin amax T Hk Hd Ha Hb W z y q (y0, 0) I0 FV tt Htt E n HE H1) as PS. rewrite T1 in PS. specialize (PS Z1 Z2 ltac:(unfold tt; nia) Hn).
    fold de ro tp in PS. assert (SZ : size2 k 0 (y0, 0) = y0 * y0) by (unfold size2; cbn [fst snd]; unfold Rdiv; ring). rewrite SZ in PS.
    assert (Hin : 1 <= INR n) by (replace 1 with (INR 1) by reflexivity; apply le_INR; lia).
    assert (LN : INR (S ((m + n) * steps) - tt 0%nat) <= INR n * INR steps) by (rewrite <- mult_INR; apply le_INR; unfold tt; nia).
    assert (MY : forall w, mean_position eps normal data m n w i - mu i = / (INR n * sqrt (lam i)) * sum_upto n (fun j => y (tt j) w)).
    { intros w. unfold PropertiesObaboAverage.mean_position. rewrite (@sum_upto_ext n (fun j => y (tt j) w) (fun j => sqrt (lam i) * (el (o_pos (at_ get_data pot_value pot_model pot_grad steps friction mass T x0 model0 key0 eps normal data (S (m + j)) w)) i + - mu i))).
      - rewrite (@sum_upto_scale n (sqrt (lam i)) (fun j => el (o_pos (at_ get_data pot_value pot_model pot_grad steps friction mass T x0 model0 key0 eps normal data (S (m + j)) w)) i + - mu i)), (@sum_upto_plus n (fun j => el (o_pos (at_ get_data pot_value pot_model pot_grad steps friction mass T x0 model0 key0 eps normal data (S (m + j)) w)) i) (fun _ => - mu i)), sum_upto_const. field. split; lra.
      - intros j _. unfold y, sY, tt. rewrite inner_run by exact Hsteps. reflexivity. }
    rewrite (proj1 HE _ (fun w => (/ (INR n * INR n * lam i)) * (sum_upto n (fun j => y (tt j) w) * sum_upto n (fun j => y (tt j) w)))).
    2: { intros w. rewrite MY. clear - Sq Sp Hin. set (sq := sqrt (lam i)) in *. rewrite <- Sq. field. split; lra. }
    rewrite (proj2 (proj2 HE) (/ (INR n * INR n * lam i)) (fun w => sum_upto n (fun j => y (tt j) w) * sum_upto n (fun j => y (tt j) w))).
    assert (P1 : 0 < (1 - ro) * (1 - ro)) by (apply Rmult_lt_0_compat; lra). assert (PD : 0 <= de / (1 - de)) by (apply Rmult_le_pos; [lra|left; apply Rinv_0_lt_compat; lra]). pose proof (pos_INR steps) as PS0. pose proof (Rle_0_sqr y0) as Py. unfold Rsqr in Py.
    replace (K / INR n) with (/ (INR n * INR n * lam i) * (INR n * (y0 * y0 + tp * (2 * (de / (1 - de) + INR steps))) / ((1 - ro) * (1 - ro)))) by (unfold K; field; split; [lra|split; lra]).
    apply Rmult_le_compat_l; [left; apply Rinv_0_lt_compat; repeat apply Rmult_lt_0_compat; lra|]. eapply Rle_trans; [exact PS|]. unfold Rdiv at 1 3. apply Rmult_le_compat_r; [left; now apply Rinv_0_lt_compat|].
    rewrite (Rmult_plus_distr_l (INR n) (y0 * y0)). apply Rplus_le_compat; [rewrite <- (Rmult_1_l (y0 * y0)) at 1; apply Rmult_le_compat_r; lra|].
    replace (INR n * (tp * (2 * (de / (1 - de) + INR steps)))) with (tp * (2 * (INR n * (de / (1 - de)) + INR n * INR steps))) by ring. apply Rmult_le_compat_l; [exact T0|]. apply Rmult_le_compat_l; [lra|]. apply Rplus_le_compat; [|exact LN].
    rewrite <- (Rmult_1_l (de / (1 - de))) at 1. apply Rmult_le_compat_r; lra. }
  exists K. split; [|intros eps He Hd; apply (MAIN eps He Hd)].
  destruct (MAIN (fun _ => lo) ltac:(intros; lra) ltac:(intros; lra)) as (D0 & R0 & T0 & _).
  assert (P1 : 0 < (1 - ro) * (1 - ro)) by (apply Rmult_lt_0_compat; lra). assert (PD : 0 <= de / (1 - de)) by (apply Rmult_le_pos; [lra|left; apply Rinv_0_lt_compat; lra]). pose proof (pos_INR steps) as PS0. pose proof (Rle_0_sqr y0) as Py. unfold Rsqr in Py.
  unfold K. apply Rmult_le_pos; [|left; now apply Rinv_0_lt_compat]. apply Rmult_le_pos; [|left; now apply Rinv_0_lt_compat]. apply Rplus_le_le_0_compat; [exact Py|]. apply Rmult_le_pos; [exact T0|lra].
Qed.
(** step sizes that do not increase and stay between two positive bounds: the mean squared error of the averages is at most K / n;
    K does not depend on the step sizes between the bounds, the burn-in b, the number n of averaged samples, the random numbers and the batches *)
Theorem C97_bounded_steps : exists K, 0 <= K /\ forall eps, (forall n, lo <= eps n <= hi) -> (forall n, eps (S n) <= eps n) ->
  forall b n, (0 < n)%nat -> forall W (E : (W -> R) -> R) normal data, standard_noise s steps key0 E normal (b + n) -> forall i, (i < dim s)%nat ->
  E (fun w => (mean_position eps normal data b n w i - mu i) * (mean_position eps normal data b n w i - mu i)) <= K / INR n.
Proof.
  assert (A : forall m, (m <= dim s)%nat -> exists K, 0 <= K /\ forall eps, (forall n, lo <= eps n <= hi) -> (forall n, eps (S n) <= eps n) ->
    forall b n, (0 < n)%nat -> forall W (E : (W -> R) -> R) normal data, standard_noise s steps key0 E normal (b + n) -> forall i, (i < m)%nat ->
    E (fun w => (mean_position eps normal data b n w i - mu i) * (mean_position eps normal data b n w i - mu i)) <= K / INR n).
  { induction m as [|m IH]; intros Hm; [exists 0; split; [lra|]; intros; lia|]. destruct IH as (K & PK & HK); [lia|]. destruct (@coordinate_vary m ltac:(lia)) as (K2 & PK2 & HK2).
    exists (K + K2). split; [lra|]. intros eps He Hd b n Hn W E normal data Hz i Hi. assert (P : 0 < / INR n) by (apply Rinv_0_lt_compat, lt_0_INR, Hn). unfold Rdiv. rewrite Rmult_plus_distr_r.
    destruct (Nat.eq_dec i m) as [-> |Ne].
    - specialize (HK2 eps He Hd b n Hn W E normal data Hz). unfold Rdiv in HK2. assert (0 <= K * / INR n) by (apply Rmult_le_pos; lra). lra.
    - specialize (HK eps He Hd b n Hn W E normal data Hz i ltac:(lia)). unfold Rdiv in HK. assert (0 <= K2 * / INR n) by (apply Rmult_le_pos; lra). lra. }
  exact (A (dim s) (le_n _)).
Qed.
End Steps.

(** ** The alias *)
Section Alias.
Variables (Data Batch : Type).
Variable get_data : Data -> Data * Batch.
Variable pot_value : vtree -> Batch -> vtree -> R.
Variable pot_model : vtree -> Batch -> vtree -> vtree.
Variable pot_grad : vtree -> Batch -> vtree -> vtree.
Hypothesis Hg : forall t b m, like s t -> like s (pot_grad t b m).
Hypothesis Hm : forall t b m, same_structure (pot_model t b m) m.
Variables (steps : nat) (friction : R) (mass : option vtree).
Hypothesis Hsteps : (0 < steps)%nat.
Hypothesis Hmass : match mass with Some m => like s m /\ forall i, (i < dim s)%nat -> 0 < el m i | None => True end.
Hypothesis Hf : 0 < friction.
(** the initial sample of the chain and the initial state of the model *)
Variables (x0 model0 : vtree).
Hypothesis Hx : like s x0.
Variables (lam mu : nat -> R).
Hypothesis Hgauss : forall t b m i, like s t -> (i < dim s)%nat -> el (pot_grad t b m) i = lam i * (el t i - mu i).
Hypothesis Hlam : forall i, (i < dim s)%nat -> 0 < lam i.
(** jax.random.choice of the thinning; zeros_like *)
Variables (Key : Type) (choice : Key -> list xr -> nat -> list nat) (tk : Key) (zl : arr -> arr).
Hypothesis Hc : choice_ok choice.
(** the answer of the run function of alias.obabo *)
Notation answer normal a its h starts :=
  (snd (al_run choice tk a zl (obabo_solver normal get_data pot_value pot_model pot_grad steps mass friction) (fst (run (mstep zl) (mc_new false) h))
     (map (fun xd => obabo_init (snd xd) model0 (fst xd)) starts) its)).
(** With step sizes falling from f to l' < f, f below the stability limit of every coordinate, every chain of alias.obabo that returns all samples after burn-in returns
    samples whose mean has mean square error at most K / (number of samples); K does not depend on the number of iterations and the burn-in. *)
Theorem C97_alias : forall f l', 0 < l' < f -> (forall i, (i < dim s)%nat -> f * f * lam i < 4 * (root_mass mass i * root_mass mass i)) -> exists K, 0 <= K /\
  forall a its, al_first a = Fin f -> al_last a = Fin l' -> al_adaptive a = None -> al_hot a = None -> (2 <= its)%nat -> (al_burn_in a < its)%nat ->
  let m := (its - al_burn_in a)%nat in al_accepted a = Some m ->
  forall W (E : (W -> R) -> R) (normal : W -> key -> list nat -> list R), standard_noise s steps (PRNGKey 0) E normal its ->
  forall c (starts : W -> list (vtree * Data)) (d : W -> Data) (h : W -> list (mop arr)), (forall w, Forall (fun xd => like s (fst xd)) (starts w)) ->
    (forall w, nth_error (starts w) c = Some (x0, d w)) ->
    (forall w, exists results r, answer (normal w) a its (h w) (starts w) = Some (Ok results) /\ length results = length (starts w) /\ nth_error results c = Some r /\ fst r = m) /\
    forall r : W -> result arr, (forall w, exists results, answer (normal w) a its (h w) (starts w) = Some (Ok results) /\ nth_error results c = Some (r w)) ->
      forall j, (j < dim s)%nat -> let mean := fun w => sum_upto m (fun k => returned (r w) k j) / INR m in
        E (fun w => (mean w - mu j) * (mean w - mu j)) <= K / INR m.
Proof.
  intros f l' Hfl Hst.
  destruct (@C97_bounded_steps Data Batch vtree get_data pot_value pot_model pot_grad Hg steps friction mass 1 Hsteps Hmass x0 model0 (PRNGKey 0) Hx lam mu Hgauss Hlam Hf ltac:(lra) l' f ltac:(lra) Hst) as (K & HK & HM).
  exists K. split; [exact HK|]. intros a its Af Al Aa Ah Hits Hburn m Hacc W E normal HZ c starts d h Hlk Hcx. pose proof HZ as (HE & H1 & Hnorm & _).
  destruct (@alias_main_schedule Key choice tk a its f l' Aa Af Al Hfl Hits) as (eps & (F1 & F2 & F3 & F4) & HS).
  set (eps' := fun k => if (k <? its)%nat then eps k else l').
  assert (EE : forall k, (k < its)%nat -> eps k = eps' k) by (intros k Hkk; unfold eps'; now rewrite (proj2 (Nat.ltb_lt k its))).
  assert (EM : forall i j, (i <= j)%nat -> eps j <= eps i) by (intros i0 j0 Hij; destruct (Nat.eq_dec i0 j0) as [-> |]; [lra|left; apply F4; lia]).
  assert (EB : forall k, l' <= eps' k <= f).
  { intros k. unfold eps'. destruct (k <? its)%nat eqn:Ek; [|lra]. apply Nat.ltb_lt in Ek. split; [rewrite <- F2; apply EM; lia|]. rewrite <- F1. apply EM. lia. }
  assert (ED : forall k, eps' (Datatypes.S k) <= eps' k).
  { intros k. unfold eps' at 1. destruct (Datatypes.S k <? its)%nat eqn:Ek; [|apply EB]. apply Nat.ltb_lt in Ek. rewrite <- EE by lia. apply EM. lia. }
  set (pos := fun w n => o_pos (at_ get_data pot_value pot_model pot_grad steps friction mass 1 x0 model0 (PRNGKey 0) eps' normal d n w)).
  assert (RUN : forall w, exists results, answer (normal w) a its (h w) (starts w) = Some (Ok results) /\ length results = length (starts w) /\
     exists r, nth_error results c = Some r /\ fst r = m /\ forall k j, (k < m)%nat -> returned r k j = el (pos w (Datatypes.S (al_burn_in a + k))) j).
  { intros w. set (upd := fun e T st => fst (ob_integrate (normal w) get_data pot_value pot_model pot_grad steps friction mass e T None st)). set (get := fun st : ob_st Data vtree => hmc_sample (o_pot st) (o_model st) (o_pos st)).
    destruct (@plain_run_steps _ upd get) with (Key := Key) (choice := choice) (tk := tk) (z := zl) (a := a) (f := f) (l := l') (n := m) (its := its) (eps := eps) (h := h w) (states := map (fun xd => obabo_init (snd xd) model0 (fst xd)) (starts w)) as (rs & R1 & R2); auto.
    { intros e T st. apply ob_keeps; auto. }
    { unfold m. lia. }
    exists rs. split; [exact R1|]. split; [transitivity (length (map (fun xd => obabo_init (snd xd) model0 (fst xd)) (starts w))); [clear -R2; induction R2; cbn; congruence|apply map_length]|].
    assert (Ec : nth_error (map (fun xd => obabo_init (snd xd) model0 (fst xd)) (starts w)) c = Some (obabo_init (d w) model0 x0)) by (rewrite (map_nth_error _ _ _ (Hcx w)); reflexivity).
    destruct (PropertiesHub.Forall2_nth_error_l _ R2 Ec) as (r & Er & (L & L1 & L2 & L3 & Hr1 & Hr2)).
    exists r. split; [exact Er|]. split; [exact Hr1|]. intros k j Hkm.
    assert (EL : L = seq (al_burn_in a) m) by (apply increasing_all; auto; intros i0 Hi0; specialize (L3 i0 Hi0); unfold m; lia).
    unfold get in Hr2. rewrite (@hmc_position nat _ _ _ L r k (al_burn_in a + k)%nat j Hr2); [|rewrite EL; now apply seq_at].
    f_equal. f_equal. unfold pos, at_, obabo_state. rewrite (@iterates_ext _ upd eps eps') by (intros; apply EE; unfold m in Hkm; lia). rewrite iterates_fold. reflexivity. }
  split. { intros w. destruct (RUN w) as (rs & R1 & RL & r & R2 & R3 & _). exists rs, r. auto. }
  intros r Hr j Hj mean.
  assert (HZ' : standard_noise s steps (PRNGKey 0) E normal (al_burn_in a + m)) by (replace (al_burn_in a + m)%nat with its by (unfold m; lia); exact HZ).
  pose proof (HM eps' EB ED (al_burn_in a) m ltac:(unfold m; lia) W E normal d HZ' j Hj) as F.
  match type of F with E ?g <= _ => replace (E (fun w => (mean w - mu j) * (mean w - mu j))) with (E g); [exact F|] end.
  apply (E_ext HE). intros w. destruct (Hr w) as (rs' & Q1 & Q2). destruct (RUN w) as (rs & R1 & _ & r0 & R2 & R3 & R4). rewrite R1 in Q1. injection Q1 as <-. rewrite R2 in Q2. injection Q2 as Q2.
  unfold mean. rewrite <- Q2. rewrite (@sum_upto_ext m (fun k => returned r0 k j) _ (fun k Hk => R4 k j Hk)). unfold mean_position, pos, Rdiv. now rewrite (Rmult_comm (/ INR m)).
Qed.
End Alias.
End C97.
Print Assumptions C97_bounded_steps. Print Assumptions C97_alias.

(** The hypotheses are met: one variable, target with curvature 2 and mean 1, two leapfrog steps per iteration, uncorrelated coins of mean 0 and variance 1, start at 3. *)
Example C97_nonvacuous : let s := Leaf (mkArr [] [0]) in let grad := fun t (b : unit) (m : vtree) => emap (fun x => 2 * (x - 1)) t in let zl := fun x => mkArr (ashape x) (map (fun _ => 0) (adata x)) in
  forall f l', 0 < l' < f -> f <= 1 -> exists K, 0 <= K /\ forall b its, (2 <= its)%nat -> (b < its)%nat -> let m := (its - b)%nat in
  let answer := fun w => snd (al_run first_choice tt (mkAlias (Fin f) (Fin l') None b (Some m) true false None) zl
    (obabo_solver (pair_normal w) (fun d : unit => (d, tt)) (fun t _ _ => (el t 0 - 1) * (el t 0 - 1)) (fun _ _ m => m) grad 2 None 1)
    (mc_new false) [obabo_init tt (Leaf (mkArr [] [1])) (Leaf (mkArr [] [3]))] its) in
  (forall w, exists r, answer w = Some (Ok [r])) /\
  forall r, (forall w, answer w = Some (Ok [r w])) -> let mean := fun w => sum_upto m (fun k => returned (r w) k 0) / INR m in coins (its * 2) (fun w => (mean w - 1) * (mean w - 1)) <= K / INR m.
Proof.
  intros s grad zl f l' Hfl Hf1.
  assert (Ws : wfv s) by (constructor; [reflexivity|constructor]). assert (Lg : forall t (b : unit) m, like s t -> like s (grad t b m)) by (intros t b m H; now apply like_emap).
  assert (Lx : like s (Leaf (mkArr [] [3]))) by (split; [constructor; [reflexivity|constructor]|split; reflexivity]).
  assert (Gr : forall t (b : unit) m i, like s t -> (i < dim s)%nat -> el (grad t b m) i = 2 * (el t i - 1)) by (intros t b m i H Hi; apply (el_emap (s := s)); auto).
  assert (I0 : (0 < dim s)%nat) by (unfold dim; cbn; lia).
  destruct (@C97_alias s Ws unit unit (fun d : unit => (d, tt)) (fun t _ _ => (el t 0 - 1) * (el t 0 - 1)) (fun _ _ m => m) grad Lg ltac:(reflexivity) 2 1 None ltac:(lia) I ltac:(lra) (Leaf (mkArr [] [3])) (Leaf (mkArr [] [1])) Lx (fun _ => 2) (fun _ => 1) Gr ltac:(intros; lra) unit first_choice tt zl first_choice_ok f l' Hfl) as (K & HK & HM).
  { intros i _. unfold root_mass. nra. }
  exists K. split; [exact HK|]. intros b its Hits Hb m answer.
  destruct (HM (mkAlias (Fin f) (Fin l') None b (Some m) true false None) its eq_refl eq_refl eq_refl eq_refl Hits Hb eq_refl _ (coins (its * 2)) pair_normal (@pair_standard 2 its ltac:(lia)) 0%nat
    (fun _ => [(Leaf (mkArr [] [3]), tt)]) (fun _ => tt) (fun _ => @nil (mop arr))) as [R1 R2].
  - intros w. constructor; [exact Lx|constructor].
  - reflexivity.
  - split.
    + intros w. destruct (R1 w) as ([|r [|]] & r' & Q1 & Q2 & Q3 & _); try discriminate. exists r. exact Q1.
    + intros r Hr mean. apply (R2 r) with (j := 0%nat); [|exact I0]. intros w. exists [r w]. split; [apply Hr|reflexivity].
Qed.
Print Assumptions C97_nonvacuous.
