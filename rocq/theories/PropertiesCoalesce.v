(** C93: the chains of alias.sgld on a device loader converge to one another. *)
From Coq Require Import Reals Lra ZArith String.
From Verif Require Import Base ListUtil NumpyLoader LoaderSpec NumpyLoaderProofs NumpyLoaderApi Requests Hub HubSpec HubProofs HubFinal PropertiesHub GenInstance DeviceData DeviceDataProofs.
From Verif Require Import Pytree PytreeSpec PytreeProofs Io IoSpec IoProofs TreeUtil TreeUtilSpec TreeUtilProofs Integrator IntegratorSpec IntegratorBasics PropertiesIntegrator
  Xreal Scheduler SchedulerSpec PropertiesScheduler Solver SolverSpec Adaption Alias PropertiesAlias AliasSgld AliasRun AliasHmc AliasData.
From Verif Require Import DataCore DataSpec Potential PotentialSpec PotentialProofs UnbiasedProofs VarianceProofs PropertiesPotential LeapfrogVolume EndToEndSpec EndToEndProofs PropertiesEndToEnd PropertiesDeviceAlias.
From Verif Require Import ExpectSpec GaussianLimit GaussianMatrix PropertiesGaussian MinibatchProofs PropertiesMinibatchGaussian ConcaveSpec ConcaveProofs PropertiesContraction AverageAlias.
Open Scope R_scope.
Set Implicit Arguments.

Section C93.
Variable s : vtree.
Hypothesis Hs : wfv s.
Variable obs : Type.
(** the user's model: log prior, (batched) log likelihood l, temperature; the potential function of potential.py for it; JAX's gradients.  The likelihood may
    have a state, but its value does not depend on it *)
Variables (prior : vtree -> R) (likelihood : lik_fn obs vtree vtree) (has_state : bool) (Tp : R) (strategy : pot_strategy).
Variable pot : nat -> vtree -> mbatch obs -> option vtree -> option (list bool) -> res (R * list R * option vtree).
Hypothesis Hpot : minibatch_potential prior likelihood has_state Tp strategy = Ok pot.
Variable l : vtree -> orow obs -> R.
Hypothesis Hl : evaluates_with likelihood (fun _ => l).
Hypothesis Hk : keeps_state likelihood has_state.
Variable jgrad : (vtree -> R) -> vtree -> vtree.
Hypothesis Hj : exact_gradients s jgrad.
Hypothesis HTp : 0 < Tp.
(** the data set of N observations and the batch size *)
Variables (data : list (string * list obs)) (N mb : nat).
Hypothesis Hd : data <> [].
Hypothesis HN : forall ka, In ka data -> length (snd ka) = N.
Hypothesis Hmb : (0 < mb)%nat.
(** a batched likelihood is not used with batches of one (C41_batch_of_one_refuted) *)
Hypothesis Hone : is_batched likelihood = true -> mb <> 1%nat.
(** the log likelihood of every observation is concave and the log prior strongly concave; their gradients are Lipschitz continuous *)
Variables (dl : vtree -> orow obs -> nat -> R) (dp : vtree -> nat -> R) (mo Ll Lp : R).
Hypothesis Hdl : forall k x, (k < N)%nat -> like s x -> partials s (fun y => l y (row data k)) x (dl x (row data k)).
Hypothesis Hdp : forall x, like s x -> partials s prior x (dp x).
Hypothesis Hlc : forall k, (k < N)%nat -> concave_gradient s (fun x => dl x (row data k)) 0.
Hypothesis Hpc : concave_gradient s dp mo.
Hypothesis HLl : 0 <= Ll.
Hypothesis HLp : 0 <= Lp.
Hypothesis Hll : forall k, (k < N)%nat -> lipschitz_gradient s (fun x => dl x (row data k)) Ll.
Hypothesis Hpl : lipschitz_gradient s dp Lp.
Notation uvalue := (user_value has_state pot N).
Notation ulikelihoods := (user_likelihoods has_state pot N).
Notation umodel := (user_model has_state pot N).
Notation ugrad := (user_grad has_state pot N jgrad).
(** moduli of the potential *)
Notation m' := (mo / Tp).
Notation L' := ((INR N * Ll + Lp) / Tp).

Hypothesis Hmo : 0 < mo.
(** jax.random.choice of the thinning; zeros_like *)
Variables (Key : Type) (choice : Key -> list xr -> nat -> list nat) (tk : Key) (zl : arr -> arr).
Hypothesis Hc : choice_ok choice.
(** a call of the run function of alias.sgld that returns all m samples after burn-in *)
Variables (a : alias_args) (f l' : R) (its : nat) (model0 : vtree).
Hypothesis Hf : al_first a = Fin f.
Hypothesis Hl' : al_last a = Fin l'.
Hypothesis Ha : al_adaptive a = None.
Hypothesis Hhot : al_hot a = None.
Hypothesis Hfl : 0 < l' < f.
Hypothesis Hits : (2 <= its)%nat.
Hypothesis Hburn : (al_burn_in a < its)%nat.
Notation m := (its - al_burn_in a)%nat.
Hypothesis Hacc : al_accepted a = Some m.
(** the largest step size is below the stability threshold *)
Hypothesis Hst : f * (L' * L') < 2 * m'.
(** auxiliary definition of a statement or a proof; models no code of /repo *)
Definition coalesce_rate : R := Rmax 0 (1 - l' * (2 * m' - f * (L' * L'))).
Lemma coalesce_rate_lt : 0 <= coalesce_rate < 1.
Proof.
  unfold coalesce_rate. split; [apply Rmax_l|]. apply Rmax_lub_lt; [lra|]. assert (0 < l' * (2 * m' - f * (L' * L'))) by (apply Rmult_lt_0_compat; lra). lra.
Qed.
(** all chains draw the same batches and the same noise, because they start with the same data state and the same key: they forget where they came from *)
Theorem C93_coalesce : forall normal Data (source : Data -> Data * mbatch obs) (d0 : Data), normal_ok normal ->
  (forall k, exists t, length t = mb /\ Forall (fun i => (i < N)%nat) t /\ batch_no source d0 k = batch_at data t) ->
  forall (samples : list vtree) (h : list (mop arr)), Forall (like s) samples ->
  exists results, snd (al_run choice tk a zl (sgld_solver normal source uvalue ulikelihoods umodel ugrad false) (fst (run (mstep zl) (mc_new false) h))
      (map (fun xd => sgld_init false 0 0 (snd xd) model0 (fst xd)) (map (fun x => (x, d0)) samples)) its) = Some (Ok results) /\ length results = length samples /\
    forall c1 c2 x1 x2 r1 r2, nth_error samples c1 = Some x1 -> nth_error samples c2 = Some x2 -> nth_error results c1 = Some r1 -> nth_error results c2 = Some r2 ->
    forall k, (k < m)%nat -> sum_upto (dim s) (fun j => (returned r1 k j - returned r2 k j) * (returned r1 k j - returned r2 k j)) <= coalesce_rate ^ (al_burn_in a + k + 1) * distance2 s x1 x2.
Proof.
  intros normal Data source d0 Hn Hb samples h Hlk.
  destruct (@alias_main_schedule Key choice tk a its f l' Ha Hf Hl' Hfl Hits) as (eps & (F1 & F2 & F3 & F4) & HS).
  assert (Hg : forall t b m, like s t -> like s (ugrad t b m)) by (intros t b m0 H; apply Hj; exact H).
  assert (Hmod : forall t b m, same_structure (umodel t b m) m) by (intros t b m0; eapply user_model_structure; eauto).
  destruct (@C51_steps s normal _ _ source uvalue ulikelihoods umodel ugrad Hs Hn Hg Hmod Key choice tk zl Hc false 0 0 model0 ltac:(discriminate) a f l' m its eps Hf Hl' Ha Hacc Hhot Hfl Hits ltac:(lia) HS h (map (fun x => (x, d0)) samples)) as (rs & R1 & R2).
  { apply Forall_map. exact Hlk. }
  exists rs. split; [exact R1|]. split; [rewrite <- (map_length (fun x => (x, d0)) samples); clear -R2; induction R2; cbn; congruence|].
  assert (CH : forall c x r, nth_error samples c = Some x -> nth_error rs c = Some r -> like s x /\ forall k j, (k < m)%nat ->
     returned r k j = el (l_pos (sgld_state normal source uvalue ulikelihoods umodel ugrad eps 1 (lv_init x (Some (PRNGKey 0)) None d0 model0) (al_burn_in a + k + 1))) j).
  { intros c x r Ec Er. assert (Lx : like s x) by (rewrite Forall_forall in Hlk; apply Hlk; eapply nth_error_In; eauto). split; [exact Lx|]. intros k j Hkm.
    destruct (Forall2_nth_error_l _ R2 (map_nth_error (fun x => (x, d0)) _ _ Ec)) as (r' & Er' & (theta & model & L & Tr & (L1 & L2 & L3) & Hr1 & Hr2)). assert (EQ : Some r' = Some r) by (transitivity (nth_error rs c); [symmetry; exact Er'|exact Er]). injection EQ as EQ. subst r'. cbn [fst snd] in *.
    assert (EL : L = seq (al_burn_in a) m) by (apply increasing_all; auto; intros i0 Hi0; specialize (L3 i0 Hi0); lia).
    rewrite (@returned_position _ _ _ _ _ _ _ _ r k (al_burn_in a + k)%nat j Hr2); [|rewrite EL; now apply seq_at]. rewrite Nat.add_1_r. f_equal.
    apply (@trajectory_state s Hs normal Hn _ _ source uvalue ulikelihoods umodel ugrad Hg 0 0 d0 model0 x its eps eps theta model Lx ltac:(auto) Tr). lia. }
  intros c1 c2 x1 x2 r1 r2 E1 E2 E3 E4 k Hkm. destruct (CH c1 x1 r1 E1 E3) as [X1 P1]. destruct (CH c2 x2 r2 E2 E4) as [X2 P2].
  rewrite (@sum_upto_ext (dim s) _ (fun j => (el (l_pos (sgld_state normal source uvalue ulikelihoods umodel ugrad eps 1 (lv_init x1 (Some (PRNGKey 0)) None d0 model0) (al_burn_in a + k + 1))) j -
     el (l_pos (sgld_state normal source uvalue ulikelihoods umodel ugrad eps 1 (lv_init x2 (Some (PRNGKey 0)) None d0 model0) (al_burn_in a + k + 1))) j) * (el (l_pos (sgld_state normal source uvalue ulikelihoods umodel ugrad eps 1 (lv_init x1 (Some (PRNGKey 0)) None d0 model0) (al_burn_in a + k + 1))) j -
     el (l_pos (sgld_state normal source uvalue ulikelihoods umodel ugrad eps 1 (lv_init x2 (Some (PRNGKey 0)) None d0 model0) (al_burn_in a + k + 1))) j))) by (intros j _; rewrite P1, P2 by exact Hkm; reflexivity).
  assert (OK : runs_ok s data N mb source d0 normal x1 x2) by (split; [exact Hn|split; [exact X1|split; [exact X2|exact Hb]]]).
  assert (ND : (al_burn_in a + k + 1 <= its)%nat) by lia. revert ND. generalize (al_burn_in a + k + 1)%nat as n. clear k Hkm.
  induction n as [|n IH]; intros Hn'; [cbn [pow]; rewrite Rmult_1_l; right; reflexivity|]. specialize (IH ltac:(lia)). cbn [pow]. rewrite (Rmult_assoc coalesce_rate (coalesce_rate ^ n)).
  pose proof (@distance_step s Hs obs prior likelihood has_state Tp strategy pot Hpot l Hl Hk jgrad Hj HTp data N mb Hd HN Hmb Hone dl dp mo Ll Lp Hdl Hdp Hlc Hpc HLl HLp Hll Hpl Data source d0 normal eps 1 x1 x2 model0 model0 (PRNGKey 0) OK n (Rlt_le _ _ (F3 n))) as DS.
  eapply Rle_trans; [exact DS|]. eapply Rle_trans; [|apply Rmult_le_compat_l; [apply coalesce_rate_lt|exact IH]]. apply Rmult_le_compat_r; [apply distance2_nonneg|].
  eapply Rle_trans; [|apply Rmax_r].
  assert (B1 : l' <= eps n) by (rewrite <- F2; destruct (Nat.eq_dec n (its - 1)) as [->|]; [lra|left; apply F4; lia]).
  assert (B2 : eps n <= f) by (rewrite <- F1; destruct (Nat.eq_dec n 0) as [->|]; [lra|left; apply F4; lia]).
  assert (LL : 0 <= L' * L') by apply Rle_0_sqr. assert (B3 : eps n * (L' * L') <= f * (L' * L')) by (apply Rmult_le_compat_r; auto).
  assert (B4 : l' * (2 * m' - f * (L' * L')) <= eps n * (2 * m' - eps n * (L' * L'))) by (apply Rmult_le_compat; lra). lra.
Qed.
(** ... on a DeviceNumpyDataLoader *)
Theorem C93_device : forall (G K : Type) (lo : loader G obs) (ca : nat) (split : K -> K * K) (randint : K -> nat -> nat -> list nat) (dkey : K) normal, make_loader data = Ok lo -> N = l_count lo ->
  check_random DeviceKind (Z.of_nat (l_count lo)) (Z.of_nat ca) (Z.of_nat mb) = Ok tt ->
  (forall k n m, length (randint k n m) = n /\ ((0 < m)%nat -> Forall (fun i => (i < m)%nat) (randint k n m))) -> normal_ok normal ->
  forall (samples : list vtree) (h : list (mop arr)), Forall (like s) samples ->
  exists results, snd (al_run choice tk a zl (sgld_solver normal (device_source split randint data N mb) uvalue ulikelihoods umodel ugrad false) (fst (run (mstep zl) (mc_new false) h))
      (map (fun xd => sgld_init false 0 0 (snd xd) model0 (fst xd)) (map (fun x => (x, dkey)) samples)) its) = Some (Ok results) /\ length results = length samples /\
    forall c1 c2 x1 x2 r1 r2, nth_error samples c1 = Some x1 -> nth_error samples c2 = Some x2 -> nth_error results c1 = Some r1 -> nth_error results c2 = Some r2 ->
    forall k, (k < m)%nat -> sum_upto (dim s) (fun j => (returned r1 k j - returned r2 k j) * (returned r1 k j - returned r2 k j)) <= coalesce_rate ^ (al_burn_in a + k + 1) * distance2 s x1 x2.
Proof.
  intros G K lo ca split randint dkey normal Hlo HNlo Hacc' Hrand Hn samples h Hlk. apply C93_coalesce; auto.
  intros k. pose proof (@dev_batch_no G K obs split randint Hrand likelihood data lo ca mb Hlo Hacc' Hone dkey k) as D. rewrite <- HNlo in D. destruct (@dev_sizes G obs data lo ca mb Hlo Hacc') as (S1 & _).
  exists (batch_no (device_indices split randint N mb) dkey k). assert (LL : length (batch_no (device_indices split randint N mb) dkey k) = mb) by (unfold batch_no, device_indices; cbn [snd]; apply Hrand).
  split; [exact LL|]. split; [unfold batch_no, device_indices; cbn [snd]; apply Hrand; lia|]. rewrite D. unfold batch_at. f_equal. f_equal. symmetry. exact LL.
Qed.
End C93.
Print Assumptions C93_coalesce. Print Assumptions C93_device.
(** ** the hypotheses can be met: the model of C91_nonvacuous on a device loader, two chains from 0 and 10, any noise; the distance of the samples in row k is at most 10 * 0.98^((k+1)/2) *)
Example C93_nonvacuous : let s := Leaf (mkArr [] [0]) in let pot := potential_function ex_prior ex_lik true 1 in let zl := fun x => mkArr (ashape x) (map (fun _ => 0) (adata x)) in
  let split := fun k : nat => (2 * k + 1, 2 * k + 2)%nat in let randint := fun (k n m : nat) => map (fun j => ((k + j) mod m)%nat) (seq 0 n) in let data := [("y"%string, [20%nat; 21%nat])] in
  forall its normal, (2 <= its)%nat -> normal_ok normal -> exists r1 r2, snd (al_run first_choice tt (mkAlias (Fin 0.2) (Fin 0.1) None 0 (Some its) true false None) zl
      (sgld_solver normal (device_source split randint data 2 1) (user_value true pot 2) (user_likelihoods true pot 2) (user_model true pot 2) (user_grad true pot 2 (derive_grad s)) false)
      (mc_new false) [sgld_init false 0 0 7%nat (Leaf (mkArr [] [1])) (Leaf (mkArr [] [0])); sgld_init false 0 0 7%nat (Leaf (mkArr [] [1])) (Leaf (mkArr [] [10]))] its) = Some (Ok [r1; r2]) /\
    forall k, (k < its)%nat -> (returned r1 k 0 - returned r2 k 0) * (returned r1 k 0 - returned r2 k 0) <= (0.98) ^ (k + 1) * 100.
Proof.
  intros s pot zl split randint data its normal Hits Hn.
  assert (Hs : wfv s) by (constructor; [reflexivity|constructor]).
  assert (D : dim s = 1%nat) by reflexivity.
  assert (SUM1 : forall f, sum_upto (dim s) f = f 0%nat) by (intros f; rewrite D; unfold sum_upto; cbn; lra).
  assert (LK : forall v, like s (Leaf (mkArr [] [v]))) by (intros v; split; [repeat constructor|split; reflexivity]).
  assert (SM : forall x m, smooth_at ex_prior true 2 data ex_l s ex_dl ex_dp x m) by (intros; apply ex_smooth; [exact Hs|rewrite D; lia]).
  destruct (make_loader (G := unit) data) as [lo|e] eqn:Elo; [|discriminate].
  assert (EN : 2%nat = l_count lo) by (injection Elo as <-; reflexivity).
  set (a := mkAlias (Fin 0.2) (Fin 0.1) None 0 (Some its) true false None).
  destruct (@C93_device s Hs nat ex_prior ex_lik true 1 PMap pot eq_refl (ex_l None)) with (jgrad := derive_grad s) (data := data) (N := 2%nat) (mb := 1%nat) (dl := ex_dl None) (dp := ex_dp) (mo := 1) (Ll := 1) (Lp := 1)
    (choice := first_choice) (tk := tt) (zl := zl) (a := a) (f := 0.2) (l' := 0.1) (its := its) (model0 := Leaf (mkArr [] [1])) (lo := lo) (ca := 1%nat) (split := split) (randint := randint) (dkey := 7%nat) (normal := normal)
    (samples := [Leaf (mkArr [] [0]); Leaf (mkArr [] [10])]) (h := @nil (mop arr)) as (rs & R1 & R2 & R3); try lra; try lia; auto using first_choice_ok.
  { intros st x r. reflexivity. }
  { intros _ m x r. exists (ex_double m). split; [reflexivity|]. destruct m; reflexivity. }
  { apply derive_grad_exact. exact Hs. }
  { discriminate. }
  { intros ka [<-|[]]. reflexivity. }
  { intros k x Hk Hx. apply (proj2 (SM x (Leaf (mkArr [] [1]))) k Hk). }
  { intros x Hx. apply (proj1 (SM x (Leaf (mkArr [] [1])))). }
  { intros k Hk x y _ _. unfold distance2. rewrite !SUM1. unfold ex_dl. cbn [Nat.eqb]. pose proof (Rle_0_sqr (el x 0 - el y 0)) as P. unfold Rsqr in P. lra. }
  { intros x y _ _. unfold distance2. rewrite !SUM1. unfold ex_dp. cbn [Nat.eqb]. lra. }
  { intros k Hk x y _ _. unfold distance2. rewrite !SUM1. unfold ex_dl. cbn [Nat.eqb]. lra. }
  { intros x y _ _. unfold distance2. rewrite !SUM1. unfold ex_dp. cbn [Nat.eqb]. lra. }
  { unfold a. cbn [al_burn_in]. lia. }
  { unfold a. cbn. f_equal. lia. }
  { cbn. lra. }
  { rewrite <- EN. reflexivity. }
  { intros k n q. unfold randint. split; [now rewrite map_length, seq_length|]. intros Hq. apply Forall_forall. intros i Hi. apply in_map_iff in Hi. destruct Hi as (j & <- & _). apply Nat.mod_upper_bound. clear -Hq. lia. }
  destruct rs as [|r1 [|r2 [|]]]; try discriminate. exists r1, r2. split; [exact R1|]. intros k Hk.
  pose proof (R3 0%nat 1%nat _ _ r1 r2 eq_refl eq_refl eq_refl eq_refl k ltac:(unfold a; cbn [al_burn_in]; lia)) as F. unfold distance2 in F. rewrite !SUM1 in F. unfold a in F. cbn [al_burn_in plus] in F.
  assert (ER : coalesce_rate 1 2 1 1 1 0.2 0.1 = 0.98). { unfold coalesce_rate. replace (1 - 0.1 * (2 * (1 / 1) - 0.2 * ((INR 2 * 1 + 1) / 1 * ((INR 2 * 1 + 1) / 1)))) with 0.98 by (cbn; lra). apply Rmax_right. lra. }
  rewrite ER in F. eapply Rle_trans; [exact F|]. right. f_equal. cbn. unfold el. cbn. ring.
Qed.
Print Assumptions C93_nonvacuous.
