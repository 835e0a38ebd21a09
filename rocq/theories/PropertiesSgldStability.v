(** C101: the stability limit of alias.sgld on a Gaussian posterior.
    Reading guide: [answer] is what the run function of alias.sgld returns; [returned r k j] is coordinate j of the variables in row k of the samples of a chain (AverageAlias.v);
    [along s u v] is the component of the vector v in the direction u; [white s E normal n]: the random vectors of the first n steps have mean 0, variance 1 and are uncorrelated. *)
From Coq Require Import Reals Lra Lia Psatz ZArith String.
From Verif Require Import Base ListUtil Pytree PytreeSpec PytreeProofs Io IoSpec IoProofs IoFinal TreeUtil TreeUtilSpec TreeUtilProofs Integrator IntegratorSpec IntegratorBasics ObaboProofs PropertiesIntegrator
  Xreal Scheduler SchedulerSpec SchedulerProofs StepSizeProofs PropertiesScheduler Solver SolverSpec SolverProofs SolverFinal PropertiesSolver Adaption Alias PropertiesAlias AliasSgld AliasRun AliasHmc AverageAlias.
From Verif Require Import ExpectSpec ExpectProofs GaussianLimit GaussianMatrix SghmcGaussian ObaboGaussian RiemannProofs PropertiesSghmcGaussian.
From Verif Require Import PropertiesPooled PropertiesMinibatchGaussian.
From Verif Require PropertiesObaboGaussian PropertiesObaboAlias PropertiesObaboStability PropertiesHub AliasData.
Open Scope R_scope.
Set Implicit Arguments.

(** ** Specification *)
(** auxiliary definition of a statement or a proof; models no code of /repo *)
Definition along (s : vtree) (u v : nat -> R) : R := sum_upto (dim s) (fun i => u i * v i).
(** a direction of length one in which the posterior has precision lam: u A = lam u *)
(** auxiliary definition of a statement or a proof; models no code of /repo *)
Definition principal_axis (s : vtree) (A : nat -> nat -> R) (u : nat -> R) (lam : R) : Prop :=
  along s u u = 1 /\ forall j, (j < dim s)%nat -> sum_upto (dim s) (fun i => u i * A i j) = lam * u j.
(** auxiliary definition of a statement or a proof; models no code of /repo *)
Definition white (s : vtree) W (E : (W -> R) -> R) (normal : W -> key -> list nat -> list R) (n : nat) : Prop :=
  let z := fun t w i => xi (normal w) (Sub (chain (PRNGKey 0) t) 1) s i in
  expectation E /\ E (fun _ => 1) = 1 /\ (forall w, normal_ok (normal w)) /\ (forall t i, (t < n)%nat -> (i < dim s)%nat -> E (fun w => z t w i) = 0) /\
  forall t t' i j, (t < n)%nat -> (t' < n)%nat -> (i < dim s)%nat -> (j < dim s)%nat -> E (fun w => z t w i * z t' w j) = if (t =? t')%nat then unit_matrix i j else 0.

(** ** One direction: q' = (1 - e lam) q + sqrt(2 e) noise *)
Section Line.
Variables (W : Type) (E : (W -> R) -> R) (z : nat -> W -> R) (N : nat).
Hypothesis HE : expectation E.
Hypothesis H1 : E (fun _ => 1) = 1.
Hypothesis Hz1 : forall t, (t < N)%nat -> E (z t) = 0.
Hypothesis Hz2 : forall t u, (t < N)%nat -> (u < N)%nat -> E (fun w => z t w * z u w) = if (t =? u)%nat then 1 else 0.
Variables (q0 lam : R) (eps : nat -> R).
Hypothesis Heps : forall t, (t < N)%nat -> 0 < eps t.
(** auxiliary definition of a statement or a proof; models no code of /repo *)
Fixpoint line (t : nat) (w : W) : R := match t with O => q0 | S t' => (1 - eps t' * lam) * line t' w + sqrt (2 * eps t') * z t' w end.
Lemma line_moments t : (t <= N)%nat -> lin z t (line t) /\ ((t < N)%nat -> E (line (S t)) = (1 - eps t * lam) * E (line t) /\
  variance E (line (S t)) = (1 - eps t * lam) * (1 - eps t * lam) * variance E (line t) + 2 * eps t).
Proof using HE H1 Hz1 Hz2 Heps.
  intros Ht. assert (L : lin z t (line t)).
  { clear - Ht. induction t as [|t IH]; [apply (lin_const z 0 q0)|]. cbn [line]. apply lin_z, IH. lia. }
  split; [exact L|]. intros Hlt. pose proof (lin_orth HE H1 Hz1 Hz2 L Hlt) as OR. set (q := line t) in *. set (b := sqrt (2 * eps t)). assert (B : b * b = 2 * eps t) by (apply sqrt_sqrt; specialize (Heps Hlt); lra).
  assert (M : E (line (S t)) = (1 - eps t * lam) * E q). { cbn [line]. fold q b. rewrite (E_lin2 HE q (z t)), (Hz1 Hlt). ring. }
  split; [exact M|]. unfold variance. rewrite M. set (m := E q). cbn [line]. fold q b. set (a := 1 - eps t * lam).
  rewrite (E_ext HE _ (fun w => (a * (fun w => q w - m) w + b * z t w) * (a * (fun w => q w - m) w + b * z t w))) by (intros; ring).
  rewrite (E_quad HE (fun w => q w - m) (z t) (fun w => q w - m) (z t)). pose proof (Hz2 Hlt Hlt) as ZZ. rewrite Nat.eqb_refl in ZZ. rewrite ZZ.
  assert (O1 : E (fun w => (q w - m) * z t w) = 0). { rewrite (E_ext HE _ (fun w => 1 * (q w * z t w) + (- m) * z t w)) by (intros; ring). rewrite (E_lin2 HE (fun w => q w * z t w) (z t)), OR, (Hz1 Hlt). ring. }
  rewrite (E_comm HE (z t) (fun w => q w - m)), O1. rewrite <- B. ring.
Qed.
Lemma line_start : E (line 0) = q0 /\ variance E (line 0) = 0.
Proof using HE H1.
  assert (C : forall c, E (fun _ => c) = c). { intros c. rewrite (E_ext HE (fun _ => c) (fun w => c * (fun _ => 1) w)) by (intros; ring). rewrite (E_scale HE c (fun _ => 1)), H1. ring. }
  cbn [line]. unfold variance. rewrite !C. split; [reflexivity|]. ring.
Qed.
(** above the limit *)
Lemma line_grows lo : 0 <= lo -> (forall t, (t < N)%nat -> lo <= eps t) -> 2 <= lo * lam -> forall t, (t <= N)%nat -> 2 * lo * INR t <= variance E (line t) /\ Rabs q0 <= Rabs (E (line t)).
Proof using HE H1 Hz1 Hz2 Heps.
  intros Plo Hlo HL. destruct line_start as [S1 S2]. induction t as [|t IH]; intros Ht; [rewrite S1, S2; cbn; lra|].
  destruct IH as [I1 I2]; [lia|]. destruct (@line_moments t ltac:(lia)) as [_ M]. destruct (M ltac:(lia)) as [M1 M2]. rewrite M1, M2, S_INR, Rabs_mult. specialize (Hlo t ltac:(lia)).
  assert (Pl : 0 < lam) by nra. assert (C : 2 <= eps t * lam). { assert (lo * lam <= eps t * lam) by (apply Rmult_le_compat_r; lra). lra. }
  pose proof (pos_INR t). assert (PV : 0 <= variance E (line t)) by (assert (0 <= lo * INR t) by (now apply Rmult_le_pos); lra).
  set (a := 1 - eps t * lam). assert (A1 : 1 <= a * a) by (unfold a; nra). split.
  - assert (1 * variance E (line t) <= a * a * variance E (line t)) by (now apply Rmult_le_compat_r). lra.
  - assert (1 <= Rabs a) by (unfold a; rewrite Rabs_left1; lra). pose proof (Rabs_pos (E (line t))). assert (1 * Rabs (E (line t)) <= Rabs a * Rabs (E (line t))) by (now apply Rmult_le_compat_r). lra.
Qed.
(** below the limit *)
Lemma line_bounded hi : 0 < lam -> (forall t, (t < N)%nat -> eps t <= hi) -> hi * lam < 2 -> forall t, (t <= N)%nat -> 0 <= variance E (line t) <= 2 / (lam * (2 - hi * lam)) /\ Rabs (E (line t)) <= Rabs q0.
Proof using HE H1 Hz1 Hz2 Heps.
  intros Pl Hhi HL. set (V := 2 / (lam * (2 - hi * lam))). assert (PD : 0 < lam * (2 - hi * lam)) by (apply Rmult_lt_0_compat; lra). assert (PV : 0 < V) by (apply Rdiv_lt_0_compat; lra).
  destruct line_start as [S1 S2]. induction t as [|t IH]; intros Ht; [rewrite S1, S2; lra|].
  destruct IH as [I1 I2]; [lia|]. destruct (@line_moments t ltac:(lia)) as [_ M]. destruct (M ltac:(lia)) as [M1 M2]. rewrite M1, M2, Rabs_mult. specialize (Hhi t ltac:(lia)). pose proof (Heps (t := t) ltac:(lia)) as Pe.
  set (e := eps t) in *. set (v := variance E (line t)) in *. assert (L0 : e * lam <= hi * lam) by (apply Rmult_le_compat_r; lra). assert (L1 : 0 < e * lam) by (now apply Rmult_lt_0_compat).
  split; [split|].
  - assert (0 <= (1 - e * lam) * (1 - e * lam)) by exact (Rle_0_sqr (1 - e * lam)). assert (0 <= (1 - e * lam) * (1 - e * lam) * v) by (apply Rmult_le_pos; lra). lra.
  - assert (X1 : (1 - e * lam) * (1 - e * lam) <= 1 - e * (lam * (2 - hi * lam))). { replace ((1 - e * lam) * (1 - e * lam)) with (1 - e * lam * (2 - e * lam)) by ring. assert (e * lam * (2 - hi * lam) <= e * lam * (2 - e * lam)) by (apply Rmult_le_compat_l; lra). lra. }
    assert (X0 : 0 <= (1 - e * lam) * (1 - e * lam)) by exact (Rle_0_sqr (1 - e * lam)). assert (X2 : (1 - e * lam) * (1 - e * lam) * v <= (1 - e * lam) * (1 - e * lam) * V) by (apply Rmult_le_compat_l; lra).
    assert (X3 : (1 - e * lam) * (1 - e * lam) * V <= (1 - e * (lam * (2 - hi * lam))) * V) by (apply Rmult_le_compat_r; lra).
    assert (X4 : (1 - e * (lam * (2 - hi * lam))) * V = V - 2 * e) by (unfold V; field; lra). lra.
  - assert (Rabs (1 - e * lam) <= 1) by (apply Rabs_le; lra). pose proof (Rabs_pos (E (line t))). assert (Rabs (1 - e * lam) * Rabs (E (line t)) <= 1 * Rabs (E (line t))) by (now apply Rmult_le_compat_r). lra.
Qed.
End Line.

Section C101.
Variable s : vtree.
Hypothesis Hs : wfv s.
(** jax.random.choice of the thinning; zeros_like *)
Variables (Key : Type) (choice : Key -> list xr -> nat -> list nat) (tk : Key) (zl : arr -> arr).
Hypothesis Hc : choice_ok choice.
Variables (Data Batch : Type) (get_data : Data -> Data * Batch) (pot_value : vtree -> Batch -> vtree -> R) (pot_likelihoods : vtree -> Batch -> vtree -> list R) (pot_model : vtree -> Batch -> vtree -> vtree) (pot_grad : vtree -> Batch -> vtree -> vtree).
Hypothesis Hg : forall t b m, like s t -> like s (pot_grad t b m).
Hypothesis Hm : forall t b m, same_structure (pot_model t b m) m.
(** exact gradients of a Gaussian posterior with mean mu and precision matrix A *)
Variables (A : nat -> nat -> R) (mu : nat -> R).
Hypothesis Hgauss : forall t b m i, like s t -> (i < dim s)%nat -> el (pot_grad t b m) i = matvec (dim s) A (fun j => el t j - mu j) i.
Variables (x0 model0 : vtree).
Hypothesis Hx : like s x0.
Notation answer normal a its h starts :=
  (snd (al_run choice tk a zl (sgld_solver normal get_data pot_value pot_likelihoods pot_model pot_grad false) (fst (run (mstep zl) (mc_new false) h)) (map (fun xd => sgld_init false 0 0 (snd xd) model0 (fst xd)) starts) its)).
Notation noise_along u normal := (fun t w => along s u (fun i => xi (normal w) (Sub (chain (PRNGKey 0) t) 1) s i)).

Lemma axis_step u lam normal d its eps theta model : principal_axis s A u lam -> sgld_trajectory s normal get_data pot_model pot_grad false 0 0 d model0 x0 its eps theta model ->
  forall n, (n <= its)%nat -> along s u (fun j => el (theta n) j - mu j) = line (fun t (_ : unit) => along s u (fun i => xi normal (Sub (chain (PRNGKey 0) t) 1) s i)) (along s u (fun j => el x0 j - mu j)) lam eps n tt.
Proof using All.
  intros [_ HA] [[T1 _] T2 _ T4]. induction n as [|n IH]; intros Hn; [cbn [line]; rewrite T1; reflexivity|]. cbn [line]. rewrite <- IH by lia. unfold along at 1.
  rewrite (@sum_upto_ext (dim s) _ (fun i => u i * (el (theta n) i - mu i) + (- eps n * (u i * matvec (dim s) A (fun j => el (theta n) j - mu j) i) + sqrt (2 * eps n) * (u i * xi normal (Sub (chain (PRNGKey 0) n) 1) s i)))).
  2: { intros i Hi. rewrite (T4 n i ltac:(lia) Hi). cbv zeta. rewrite Hgauss by (auto; apply T2; lia). rewrite sqrt_1. ring. }
  rewrite sum_upto_plus, (@sum_upto_plus (dim s) (fun i => - eps n * (u i * matvec (dim s) A (fun j => el (theta n) j - mu j) i))), (@sum_upto_scale (dim s) (- eps n) (fun i => u i * matvec (dim s) A (fun j => el (theta n) j - mu j) i)), (@sum_upto_scale (dim s) (sqrt (2 * eps n)) (fun i => u i * xi normal (Sub (chain (PRNGKey 0) n) 1) s i)).
  assert (X : sum_upto (dim s) (fun i => u i * matvec (dim s) A (fun j => el (theta n) j - mu j) i) = lam * along s u (fun j => el (theta n) j - mu j)).
  { unfold matvec. rewrite (@sum_upto_ext (dim s) _ (fun i => sum_upto (dim s) (fun j => u i * A i j * (el (theta n) j - mu j)))).
    2: { intros i Hi. rewrite <- sum_upto_scale. apply sum_upto_ext. intros; ring. }
    rewrite sum_upto_swap. unfold along. rewrite <- sum_upto_scale. apply sum_upto_ext. intros j Hj. rewrite <- Rmult_assoc, <- (HA j Hj).
    rewrite (@sum_upto_ext (dim s) _ (fun i => (el (theta n) j - mu j) * (u i * A i j))) by (intros; ring). rewrite sum_upto_scale. ring. }
  rewrite X. unfold along. ring.
Qed.
Lemma white_along W (E : (W -> R) -> R) normal n u : white s E normal n -> along s u u = 1 -> let z := noise_along u normal in
  (forall t, (t < n)%nat -> E (z t) = 0) /\ forall t t', (t < n)%nat -> (t' < n)%nat -> E (fun w => z t w * z t' w) = if (t =? t')%nat then 1 else 0.
Proof using All.
  intros (HE & H1 & Hn & Z1 & Z2) Hu z. split.
  - intros t Ht. unfold z, along. rewrite (@E_sum W E HE (dim s) (fun i w => u i * xi (normal w) (Sub (chain (PRNGKey 0) t) 1) s i)). apply sum_upto_zero. intros i Hi. rewrite (E_scale HE (u i) (fun w => xi (normal w) (Sub (chain (PRNGKey 0) t) 1) s i)), Z1 by auto. ring.
  - intros t t' Ht Ht'. set (x := fun t w i => xi (normal w) (Sub (chain (PRNGKey 0) t) 1) s i).
    rewrite (E_ext HE _ (fun w => sum_upto (dim s) (fun i => sum_upto (dim s) (fun j => u i * u j * (x t w i * x t' w j))))).
    2: { intros w. unfold z, along. fold (x t w) (x t' w). rewrite Rmult_comm, <- sum_upto_scale. apply sum_upto_ext. intros i Hi. rewrite Rmult_comm, <- sum_upto_scale. apply sum_upto_ext. intros j Hj. unfold x. ring. }
    rewrite (@E_sum W E HE (dim s) (fun i w => sum_upto (dim s) (fun j => u i * u j * (x t w i * x t' w j)))).
    rewrite (@sum_upto_ext (dim s) _ (fun i => if (t =? t')%nat then u i * u i else 0)).
    + destruct (t =? t')%nat; [exact Hu|apply sum_upto_zero; reflexivity].
    + intros i Hi. rewrite (@E_sum W E HE (dim s) (fun j w => u i * u j * (x t w i * x t' w j))).
      rewrite (@sum_upto_ext (dim s) _ (fun j => u i * u j * if (t =? t')%nat then unit_matrix i j else 0)).
      2: { intros j Hj. rewrite (E_scale HE (u i * u j) (fun w => x t w i * x t' w j)). unfold x. now rewrite Z2 by auto. }
      destruct (t =? t')%nat; [|apply sum_upto_zero; intros; ring]. rewrite (@sum_upto_ext (dim s) _ (fun j => if (i =? j)%nat then u i * u j else 0)) by (intros j Hj; unfold unit_matrix; destruct (i =? j)%nat; ring). now rewrite (@sum_upto_delta (dim s) (fun j => u i * u j)) by exact Hi.
Qed.

(** With step sizes falling from f to l' < f the call completes without an error.  In every principal direction with precision lam of the posterior:
    if even the last step size satisfies l' lam >= 2, the variance of the returned samples grows from row to row and their mean is never closer to mu than the initial sample;
    if the first step size satisfies f lam < 2, variance and mean are bounded for every number of iterations. *)
Theorem C101_alias : forall a f l' its, al_first a = Fin f -> al_last a = Fin l' -> al_adaptive a = None -> al_hot a = None -> 0 < l' < f -> (2 <= its)%nat -> (al_burn_in a < its)%nat ->
  let m := (its - al_burn_in a)%nat in al_accepted a = Some m ->
  forall W (E : (W -> R) -> R) (normal : W -> key -> list nat -> list R), white s E normal its ->
  forall c (starts : W -> list (vtree * Data)) (d : W -> Data) (h : W -> list (mop arr)), (forall w, Forall (fun xd => like s (fst xd)) (starts w)) -> (forall w, nth_error (starts w) c = Some (x0, d w)) ->
    (forall w, exists results r, answer (normal w) a its (h w) (starts w) = Some (Ok results) /\ length results = length (starts w) /\ nth_error results c = Some r /\ fst r = m) /\
    forall r : W -> result arr, (forall w, exists results, answer (normal w) a its (h w) (starts w) = Some (Ok results) /\ nth_error results c = Some (r w)) ->
      forall u lam, principal_axis s A u lam -> forall k, (k < m)%nat -> let x := fun w => along s u (returned (r w) k) in
        let distance := Rabs (E x - along s u mu) in let start := Rabs (along s u (el x0) - along s u mu) in
        (2 <= l' * lam -> 2 * l' * INR (S (al_burn_in a + k)) <= variance E x /\ start <= distance) /\
        (0 < lam -> f * lam < 2 -> 0 <= variance E x <= 2 / (lam * (2 - f * lam)) /\ distance <= start).
Proof using Hs Hc Hg Hm Hgauss Hx.
  intros a f l' its Af Al Aa Ah Hfl Hits Hburn m Hacc W E normal HW c starts d h Hlk Hcx. pose proof HW as (HE & H1 & Hnorm & _).
  destruct (@alias_main_schedule Key choice tk a its f l' Aa Af Al Hfl Hits) as (eps & (F1 & F2 & F3 & F4) & HS).
  assert (EB : forall k, (k < its)%nat -> l' <= eps k <= f).
  { intros k Hk. split.
    - destruct (Nat.eq_dec k (its - 1)) as [-> |]; [lra|]. rewrite <- F2. left. apply F4; lia.
    - destruct (Nat.eq_dec k 0) as [-> |]; [lra|]. rewrite <- F1. left. apply F4; lia. }
  assert (RUN : forall w, exists results, answer (normal w) a its (h w) (starts w) = Some (Ok results) /\ length results = length (starts w) /\ exists r theta model, nth_error results c = Some r /\ fst r = m /\
     sgld_trajectory s (normal w) get_data pot_model pot_grad false 0 0 (d w) model0 x0 its eps theta model /\ forall k j, (k < m)%nat -> returned r k j = el (theta (S (al_burn_in a + k))) j).
  { intros w. destruct (@C51_steps s (normal w) _ _ get_data pot_value pot_likelihoods pot_model pot_grad Hs (Hnorm w) Hg Hm Key choice tk zl Hc false 0 0 model0 ltac:(discriminate) a f l' m its eps Af Al Aa Hacc Ah Hfl Hits ltac:(unfold m; lia) HS (h w) (starts w) (Hlk w)) as (rs & R1 & R2).
    exists rs. split; [exact R1|]. split; [clear -R2; induction R2; cbn; congruence|].
    destruct (PropertiesHub.Forall2_nth_error_l _ R2 (Hcx w)) as (r & Er & (theta & model & L & Tr & (L1 & L2 & L3) & Hr1 & Hr2)). cbn [fst snd] in *. exists r, theta, model. split; [exact Er|]. split; [exact Hr1|]. split; [exact Tr|]. intros k j Hk.
    assert (EL : L = seq (al_burn_in a) m) by (apply increasing_all; auto; intros i0 Hi0; specialize (L3 i0 Hi0); unfold m; lia).
    rewrite (@returned_position _ _ _ _ _ _ _ _ r k (al_burn_in a + k)%nat j Hr2); [reflexivity|]. rewrite EL. now apply seq_at. }
  split. { intros w. destruct (RUN w) as (rs & R1 & RL & r & th & mo & R2 & R3 & _). exists rs, r. auto. }
  intros r Hr u lam HU k Hk x distance start. set (n := S (al_burn_in a + k)). set (z := noise_along u normal). destruct (@white_along W E normal its u HW (proj1 HU)) as [Z1 Z2]. fold z in Z1, Z2.
  assert (Sub1 : forall v, along s u (fun j => v j - mu j) = along s u v - along s u mu). { intros v. unfold along. rewrite (@sum_upto_ext (dim s) _ (fun i => u i * v i + (-1) * (u i * mu i))) by (intros; ring). rewrite sum_upto_plus, sum_upto_scale. ring. }
  set (q0 := along s u (fun j => el x0 j - mu j)). assert (Q0 : q0 = along s u (el x0) - along s u mu) by apply Sub1.
  assert (EX : forall w, x w = line z q0 lam eps n w + along s u mu).
  { intros w. destruct (Hr w) as (rs' & P1 & P2). destruct (RUN w) as (rs & R1 & _ & r0 & th & mo & R2 & R3 & Tr & R4). rewrite R1 in P1. injection P1 as <-. rewrite R2 in P2. injection P2 as P2.
    pose proof (@axis_step u lam (normal w) (d w) its eps th mo HU Tr n ltac:(unfold n, m in *; lia)) as AS. fold q0 in AS. rewrite Sub1 in AS.
    assert (LW : forall t, line (fun t (_ : unit) => along s u (fun i => xi (normal w) (Sub (chain (PRNGKey 0) t) 1) s i)) q0 lam eps t tt = line z q0 lam eps t w) by (induction t as [|t IH]; [reflexivity|]; cbn [line]; rewrite IH; reflexivity).
    rewrite LW in AS. rewrite <- AS. unfold x. rewrite <- P2. unfold along. rewrite (@sum_upto_ext (dim s) (fun i => u i * returned r0 k i) (fun i => u i * el (th n) i)) by (intros; rewrite R4 by auto; reflexivity). ring. }
  assert (VX : variance E x = variance E (line z q0 lam eps n)) by (exact (@variance_shift W E HE H1 (line z q0 lam eps n) x (along s u mu) EX)).
  assert (DX : distance = Rabs (E (line z q0 lam eps n))).
  { unfold distance. f_equal. rewrite (E_ext HE x _ EX). rewrite (E_ext HE _ (fun w => line z q0 lam eps n w + (along s u mu) * (fun _ => 1) w)) by (intros; ring). rewrite (E_plus HE (line z q0 lam eps n)), (E_scale HE (along s u mu) (fun _ => 1)), H1. ring. }
  rewrite VX, DX. unfold start. rewrite <- Q0. assert (Pe : forall t, (t < its)%nat -> 0 < eps t) by (intros t Ht; specialize (EB t Ht); lra). assert (Hn : (n <= its)%nat) by (unfold n, m in *; lia).
  split.
  - intros HL. apply (@line_grows W E z its HE H1 Z1 Z2 q0 lam eps Pe l' ltac:(lra) (fun t Ht => proj1 (EB t Ht)) HL n Hn).
  - intros Pl HL. apply (@line_bounded W E z its HE H1 Z1 Z2 q0 lam eps Pe f Pl (fun t Ht => proj2 (EB t Ht)) HL n Hn).
Qed.
End C101.
Print Assumptions C101_alias.

(** ** The hypotheses can be met: one variable, precision 2, mean 1, start 3, random signs as random numbers *)
Lemma toss_white its : white (Leaf (mkArr [] [0])) (coins (its * 1)) PropertiesObaboStability.toss_normal its.
Proof.
  destruct (@PropertiesObaboStability.toss_standard 1 its ltac:(lia)) as (HE & H1 & Hn & HZ). split; [exact HE|]. split; [exact H1|]. split; [exact Hn|].
  assert (Q : forall t w i, PropertiesObaboGaussian.noise (Leaf (mkArr [] [0])) (PRNGKey 0) PropertiesObaboStability.toss_normal (2 * t) w i = xi (PropertiesObaboStability.toss_normal w) (Sub (chain (PRNGKey 0) t) 1) (Leaf (mkArr [] [0])) i).
  { intros t w i. unfold PropertiesObaboGaussian.noise. replace (2 * t / 2)%nat with t by (symmetry; rewrite Nat.mul_comm; apply Nat.div_mul; lia). replace ((2 * t) mod 2)%nat with 0%nat by (symmetry; rewrite Nat.mul_comm; apply Nat.mod_mul; lia). reflexivity. }
  split.
  - intros t i Ht Hi. destruct (HZ i Hi) as [Z1 _]. rewrite <- (Z1 (2 * t)%nat ltac:(lia)). apply (E_ext HE). intros w. now rewrite Q.
  - intros t t' i j Ht Ht' Hi Hj. assert (Hij : (i = 0 /\ j = 0)%nat) by (unfold dim in Hi, Hj; cbn in Hi, Hj; lia). destruct Hij as [-> ->]. destruct (HZ 0%nat Hi) as [_ Z2].
    specialize (Z2 (2 * t)%nat (2 * t')%nat ltac:(lia) ltac:(lia)). replace (2 * t =? 2 * t')%nat with (t =? t')%nat in Z2 by (destruct (Nat.eqb_spec t t'), (Nat.eqb_spec (2 * t) (2 * t')); auto; lia).
    change (unit_matrix 0 0) with 1. rewrite <- Z2. apply (E_ext HE). intros w. now rewrite !Q.
Qed.
(** step sizes falling from f to l': with 1 <= l' the variance of row k is at least 2 (b + k + 1) l', with f = 1 / 2 it is at most 1 in every row *)
Example C101_nonvacuous : let s := Leaf (mkArr [] [0]) in let grad := fun t (b : unit) (m : vtree) => emap (fun x => 2 * (x - 1)) t in let zl := fun x => mkArr (ashape x) (map (fun _ => 0) (adata x)) in
  forall f l', 0 < l' < f -> forall b its, (2 <= its)%nat -> (b < its)%nat -> let m := (its - b)%nat in
  let answer := fun w => snd (al_run first_choice tt (mkAlias (Fin f) (Fin l') None b (Some m) true false None) zl
    (sgld_solver (PropertiesObaboStability.toss_normal w) (fun d : unit => (d, tt)) (fun t _ _ => (el t 0 - 1) * (el t 0 - 1)) (fun _ _ _ => []) (fun _ _ m => m) grad false)
    (mc_new false) [sgld_init false 0 0 tt (Leaf (mkArr [] [1])) (Leaf (mkArr [] [3]))] its) in
  (forall w, exists r, answer w = Some (Ok [r])) /\
  forall r, (forall w, answer w = Some (Ok [r w])) -> forall k, (k < m)%nat -> let x := fun w => returned (r w) k 0 in
    (1 <= l' -> 2 * l' * INR (S (b + k)) <= variance (coins (its * 1)) x) /\ (f = 1 / 2 -> 0 <= variance (coins (its * 1)) x <= 1).
Proof.
  intros s grad zl f l' Hfl b its Hits Hb m answer.
  assert (Ws : wfv s) by (constructor; [reflexivity|constructor]). assert (Lg : forall t (b : unit) m, like s t -> like s (grad t b m)) by (intros; now apply like_emap).
  assert (Lx : like s (Leaf (mkArr [] [3]))) by (split; [constructor; [reflexivity|constructor]|split; reflexivity]). assert (D1 : dim s = 1%nat) by reflexivity.
  assert (Gr : forall t (b : unit) m i, like s t -> (i < dim s)%nat -> el (grad t b m) i = matvec (dim s) (fun _ _ => 2) (fun j => el t j - 1) i).
  { intros t b0 m0 i H Hi. unfold grad. rewrite (el_emap (s := s)) by auto. rewrite D1 in *. assert (i = O) by lia. subst i. unfold matvec, sum_upto. cbn. ring. }
  destruct (@C101_alias s Ws unit first_choice tt zl first_choice_ok unit unit (fun d : unit => (d, tt)) (fun t _ _ => (el t 0 - 1) * (el t 0 - 1)) (fun _ _ _ => []) (fun _ _ m => m) grad Lg ltac:(reflexivity) (fun _ _ => 2) (fun _ => 1) Gr (Leaf (mkArr [] [3])) (Leaf (mkArr [] [1])) Lx
    (mkAlias (Fin f) (Fin l') None b (Some m) true false None) f l' its eq_refl eq_refl eq_refl eq_refl Hfl Hits Hb eq_refl _ (coins (its * 1)) PropertiesObaboStability.toss_normal (toss_white its) 0%nat
    (fun _ => [(Leaf (mkArr [] [3]), tt)]) (fun _ => tt) (fun _ => @nil (mop arr))) as [R1 R2].
  - intros w. constructor; [exact Lx|constructor].
  - reflexivity.
  - split.
    + intros w. destruct (R1 w) as ([|r [|]] & r' & Q1 & Q2 & Q3 & _); try discriminate. exists r. exact Q1.
    + intros r Hr k Hk x. destruct (R2 r) with (u := fun _ : nat => 1) (lam := 2) (k := k) as [A B]; [| |exact Hk|].
      { intros w. exists [r w]. split; [apply Hr|reflexivity]. }
      { split; [unfold along; rewrite D1; unfold sum_upto; cbn; ring|]. intros j Hj. rewrite D1. unfold sum_upto. cbn. ring. }
      assert (EV : variance (coins (its * 1)) (fun w => along s (fun _ => 1) (returned (r w) k)) = variance (coins (its * 1)) x).
      { destruct (toss_white its) as (HE & H1 & _). apply (@variance_shift _ _ HE H1 x (fun w => along s (fun _ => 1) (returned (r w) k)) 0). intros w. unfold along, x. rewrite D1. unfold sum_upto. cbn. ring. }
      rewrite EV in A, B. cbn [al_burn_in] in A. split; [intros Hl; apply A; lra|]. intros ->. destruct (B ltac:(lra) ltac:(lra)) as [B1 _]. replace (2 / (2 * (2 - 1 / 2 * 2))) with 1 in B1 by field. exact B1.
Qed.
Print Assumptions C101_nonvacuous.
