(** alias.sghmc with adapt_noise_model=True (alias.py:506-514): the gradient noise estimated by adaption.fisher_information reduces the injected noise. *)
From Coq Require Import Reals Lra ZArith String.
From Verif Require Import Base ListUtil Pytree PytreeSpec PytreeProofs Io IoSpec IoProofs IoFinal TreeUtil TreeUtilSpec TreeUtilProofs Integrator IntegratorSpec IntegratorBasics ObaboProofs LeapfrogFinal PropertiesIntegrator
  Xreal Scheduler SchedulerSpec SchedulerProofs StepSizeProofs PropertiesScheduler Solver SolverSpec SolverProofs SolverFinal PropertiesSolver Adaption AdaptionProofs PropertiesAdaption Alias PropertiesAlias AliasSgld AliasRun AliasHmc.
Open Scope R_scope.
Set Implicit Arguments.
Local Notation chain := IntegratorSpec.chain.

(** ** Model *)
Section Model.
Variable normal : key -> list nat -> list R.
Variables (Data Batch : Type).
Variable get_data : Data -> Data * Batch.
Variables (pot_value : vtree -> Batch -> vtree -> R) (pot_model : vtree -> Batch -> vtree -> vtree) (pot_grad : vtree -> Batch -> vtree -> vtree).
(** adaption.py:413-418: gradient of the log likelihood of observation j of the batch *)
Variable grad_obs : vtree -> Batch -> vtree -> nat -> vtree.
(** adaption.py:406-408: the observation count and the batch size of the data *)
Variables (N n : nat).
Variable svd : mat -> mat * vec.
Variable diagonal : bool.
(** fisher_information with the decorator (adaption.py:371-457, 122-224): the state is only the template of the sample; get flattens its arguments, computes the noise and
    unravels its first component cb_diff_sqrt.  (A value that is not finite is replaced by 0 here; the theorems exclude this case.) *)
Definition fisher_get (template x gradient friction : vtree) (b : Batch) (eps : R) (m : vtree) : tensor :=
  let g := fun j => ravel (grad_obs x b m j) in
  let v := if diagonal then map real (fst (fisher_diag g N n (ravel gradient) (ravel friction) eps)) else fst (fisher_full svd g N n (ravel gradient) (ravel friction) eps) in
  Tens1 (ok_or template (unravel template v)).
(** alias.py:506-508: init (adaption.py:387-388 with 131-161) and update (:390-392) *)
Definition fisher_noise : (vtree -> vtree) * (vtree -> vtree -> vtree -> vtree -> Batch -> R -> vtree) * (vtree -> vtree -> vtree -> vtree -> Batch -> R -> vtree -> tensor) :=
  (fun sample => sample, fun st _ _ _ _ _ => st, fisher_get).
Variable steps : nat.
Variable mass : option vtree.
(** alias.py:512-514, 533 with adapt_noise_model *)
Definition noise_solver (friction : fric) : solver arr :=
  sgmc (fun st sch => fst (fl_integrate normal get_data pot_value pot_model pot_grad steps friction mass (Some fisher_noise) (real (sch_step sch)) None st))
       (fun st : fl_st Data vtree vtree => hmc_sample (f_pot st) (f_model st) (f_pos st)).
(** run_fn, alias.py:536-539 *)
Definition noise_init (data : Data) (model sample : vtree) : fl_st Data vtree vtree := fl_init (Some fisher_noise) sample None data model.
End Model.

(** ** Specification *)
Section Spec.
Variable s : vtree.
Variable normal : key -> list nat -> list R.
Variables (Data Batch : Type).
Variable get_data : Data -> Data * Batch.
Variables (pot_model : vtree -> Batch -> vtree -> vtree) (pot_grad : vtree -> Batch -> vtree -> vtree).
Variable grad_obs : vtree -> Batch -> vtree -> nat -> vtree.
Variables (N n steps : nat).
Variable mass : option vtree.
(** the noise estimate in coordinate c for the step size e: half the step size times the mean square deviation of the gradients of the observations of the batch from
    the gradient of the potential divided by the number of observations.  (C47: this is not the sample covariance, since the potential is minus the log likelihood.) *)
Definition noise_estimate (e : R) (x : vtree) (b : Batch) (m : vtree) (c : nat) : R :=
  e / 2 * (sum_upto n (fun j => (el (grad_obs x b m j) c - el (pot_grad x b m) c / INR N) * (el (grad_obs x b m j) c - el (pot_grad x b m) c / INR N)) / (INR n - 1)).
(** the trajectory of sghmc (AliasHmc.v) where the root of the injected noise in coordinate c is [root e x b m c] *)
Record noise_trajectory (root : R -> vtree -> Batch -> vtree -> nat -> R) (friction : fric) (data0 : Data) (model0 x0 : vtree) (its : nat) (eps : nat -> R) (x : nat -> nat -> vtree) (model : nat -> vtree) (p : nat -> nat -> nat -> R) : Prop := mkNoTraj {
  nt_start : x 0%nat 0%nat = x0 /\ model 0%nat = model0;
  nt_like : forall i k, (i < its)%nat -> (k <= steps)%nat -> like s (x i k);
  nt_next : forall i, (i < its)%nat -> x (S i) 0%nat = x i steps;
  nt_resample : forall i c, (i < its)%nat -> (c < dim s)%nat -> p i 0%nat c = root_mass mass c * xi normal (Sub (chain (PRNGKey 0) (i * S steps)) 1) s c;
  nt_step : forall i k, (i < its)%nat -> (k < steps)%nat ->
    let t := (i * steps + k)%nat in
    let B := batch_no get_data data0 t in
    model (S t) = pot_model (x i (S k)) B (model t) /\
    forall c, (c < dim s)%nat ->
      el (x i (S k)) c = el (x i k) c + eps i * (inverse_mass mass c * p i k c) /\
      p i (S k) c = p i k c - eps i * friction_at friction c * (inverse_mass mass c * p i k c) - eps i * el (pot_grad (x i (S k)) B (model t)) c
                    + sqrt (2 * eps i) * (root (eps i) (x i (S k)) B (model t) c * xi normal (Sub (chain (PRNGKey 0) (i * S steps + 1 + k)) 1) s c)
}.
End Spec.

(** ** Proofs *)
Section Proofs.
Variable s : vtree.
Hypothesis Hs : wfv s.
Variable normal : key -> list nat -> list R.
Hypothesis Hn : normal_ok normal.
Variables (Data Batch : Type).
Variable get_data : Data -> Data * Batch.
Variables (pot_value : vtree -> Batch -> vtree -> R) (pot_model : vtree -> Batch -> vtree -> vtree) (pot_grad : vtree -> Batch -> vtree -> vtree).
Hypothesis Hg : forall t b m, like s t -> like s (pot_grad t b m).
Hypothesis Hm : forall t b m, same_structure (pot_model t b m) m.
Variable grad_obs : vtree -> Batch -> vtree -> nat -> vtree.
Hypothesis Hgo : forall t b m j, like s t -> like s (grad_obs t b m j).
Variables (N n : nat).
Hypothesis Hn2 : (2 <= n)%nat.
Variable svd : mat -> mat * vec.
Variable diagonal : bool.
Variable steps : nat.
Hypothesis Hsteps : (0 < steps)%nat.
Variable mass : option vtree.
Hypothesis Hmass : forall m, mass = Some m -> like s m.
Variable friction : fric.
Hypothesis Hfr : forall t, friction = FTree t -> like s t.
Notation NM := (Some (fisher_noise grad_obs N n svd diagonal)).

Lemma no_keeps eps mo (st : fl_st Data vtree vtree) : let st' := fst (fl_integrate normal get_data pot_value pot_model pot_grad steps friction mass NM eps mo st) in
  same_structure (hmc_sample (f_pot st') (f_model st') (f_pos st')) (hmc_sample (f_pot st) (f_model st) (f_pos st)).
Proof.
  cbv zeta. unfold fl_integrate. set (M := fl_mass mass mo (f_pos st)). set (FR := fl_friction friction (f_pos st)). clearbody M FR.
  destruct (random_tree normal (Sub (f_key st) 1) (f_mom st)) as [noise used].
  match goal with |- context [scan ?f ?n ?a] => set (g := f); set (st1 := a); destruct (scan g n st1) as [st2 u2] eqn:E end. cbn [fst].
  assert (H : (fun st' : fl_st Data vtree vtree => same_structure (hmc_sample (f_pot st') (f_model st') (f_pos st')) (hmc_sample (f_pot st) (f_model st) (f_pos st))) (fst (scan g steps st1))).
  - apply scan_inv; [reflexivity|]. intros a k Ha. eapply structure_trans; [|exact Ha]. unfold g, fl_body.
    destruct (get_data (f_data a)) as [d b]. destruct (random_tree normal (Sub (f_key a) 1) (f_mom a)) as [no us].
    destruct (f_extra a); cbn [fisher_noise];  cbn [fst f_pot f_model f_pos]; apply hmc_sample_structure; try apply Hm; apply tadd_structure.
  - cbv beta in H. rewrite E in H. exact H.
Qed.

Variable root : R -> vtree -> Batch -> vtree -> nat -> R.
Variables (data0 : Data) (model0 x0 : vtree).
Hypothesis Hx : like s x0.
Variable eps : nat -> R.
Notation M := (ob_mass mass None x0).
Notation FR := (fl_friction friction x0).
(** the noise factors of the steps of the run *)
Hypothesis Hroot : forall i x k m, like s x -> let b := batch_no get_data data0 k in exists t, fisher_get grad_obs N n svd diagonal x0 x (pot_grad x b m) FR b (eps i) m = Tens1 t /\ like s t /\
  forall c, (c < dim s)%nat -> el t c = root (eps i) x b m c.
Notation upd := (fun e (T : R) st => fst (fl_integrate normal get_data pot_value pot_model pot_grad steps friction mass NM e None st)).
Notation body := (fun e => fl_body normal get_data pot_value pot_model pot_grad NM e FR M).
(** auxiliary definition of a statement or a proof; models no code of /repo *)
Definition no_resampled (st : fl_st Data vtree vtree) : fl_st Data vtree vtree :=
  mkFlSt (f_pos st) (tmat (m_sqrt M) (fst (random_tree normal (Sub (f_key st) 1) (f_mom st)))) (f_model st) 0 (f_data st) (Sub (f_key st) 0) (f_extra st).
(** the state in iteration i after k leapfrog steps *)
Fixpoint no_inner (e : R) (st : fl_st Data vtree vtree) (k : nat) := match k with O => no_resampled st | S k' => fst (body e (no_inner e st k') 0%nat) end.
(** auxiliary definition of a statement or a proof; models no code of /repo *)
Fixpoint no_outer (i : nat) : fl_st Data vtree vtree := match i with O => noise_init grad_obs N n svd diagonal data0 model0 x0 | S i' => no_inner (eps i') (no_outer i') steps end.
Lemma no_body_eq i (st : fl_st Data vtree vtree) k : like s (f_pos st) -> like s (f_mom st) -> f_extra st = Some x0 -> (exists j, f_data st = drawn get_data data0 j) -> let e := eps i in let st' := fst (body e st k) in
  like s (f_pos st') /\ like s (f_mom st') /\ f_extra st' = Some x0 /\ f_data st' = fst (get_data (f_data st)) /\ f_key st' = Sub (f_key st) 0 /\
  f_model st' = pot_model (f_pos st') (snd (get_data (f_data st))) (f_model st) /\ f_pot st' = pot_value (f_pos st') (snd (get_data (f_data st))) (f_model st) /\
  forall c, (c < dim s)%nat ->
    el (f_pos st') c = el (f_pos st) c + e * (inverse_mass mass c * el (f_mom st) c) /\
    el (f_mom st') c = el (f_mom st) c - e * friction_at friction c * (inverse_mass mass c * el (f_mom st) c) - e * el (pot_grad (f_pos st') (snd (get_data (f_data st))) (f_model st)) c
      + sqrt (2 * e) * (root e (f_pos st') (snd (get_data (f_data st))) (f_model st) c * xi normal (Sub (f_key st) 1) s c).
Proof.
  intros H1 H2 H3 (jd & H4) e. destruct (@mass_fits s mass Hmass x0 Hx) as [F1 F2]. pose proof (@FR_like s friction Hfr x0 Hx) as LF. unfold fl_body. rewrite H3.
  destruct (@random_tree_ok s normal (Sub (f_key st) 1) (f_mom st) Hn H2) as (R1 & R2 & _).
  pose proof (fun x m => @Hroot i x jd m) as HR. unfold batch_no in HR. rewrite <- H4 in HR.
  destruct (get_data (f_data st)) as [d b]. destruct (random_tree normal (Sub (f_key st) 1) (f_mom st)) as [no us]. cbn [fisher_noise fst snd f_pos f_mom f_data f_key f_model f_pot f_extra] in *. cbv zeta.
  assert (LM : like s (tmat (m_inv M) (f_mom st))) by auto with like.
  assert (LP : like s (tadd (f_pos st) (tree_scale e (tmat (m_inv M) (f_mom st))))) by auto with like.
  set (pos := tadd (f_pos st) (tree_scale e (tmat (m_inv M) (f_mom st)))) in *.
  pose proof (Hg b (f_model st) LP) as LG.
  destruct (HR pos (f_model st) LP) as (t & ET & LT & RT). fold e in ET, RT. rewrite ET.
  assert (FT : tens_fits (Tens1 t) s) by (destruct LT as [W SS]; split; auto).
  assert (LN : like s (tmat (Tens1 t) no)) by auto with like.
  split; [exact LP|]. split; [auto 10 with like|]. split; auto. split; auto. split; auto. split; auto. split; auto.
  intros c Hc. assert (EM : el (tmat (m_inv M) (f_mom st)) c = inverse_mass mass c * el (f_mom st) c) by (rewrite (el_mat Hs) by auto; now apply (@mass_inv s Hs mass Hmass)).
  split; [unfold pos; rewrite (el_add Hs), (el_scale' Hs) by auto with like; now rewrite EM|].
  rewrite (@el_add s Hs) by auto 10 with like. rewrite (@el_add s Hs) by auto 10 with like. rewrite (@el_add s Hs) by auto 10 with like.
  rewrite (@el_mul s Hs) by auto 10 with like. rewrite !(el_scale' Hs) by auto 10 with like.
  rewrite EM. rewrite (el_mat Hs) by auto. rewrite diag_mulv by auto. rewrite R2, RT by auto. rewrite (@FR_el s Hs friction Hfr x0 Hx) by auto. lra.
Qed.
Lemma no_inner_inv i (st : fl_st Data vtree vtree) k : like s (f_pos st) -> like s (f_mom st) -> f_extra st = Some x0 -> (exists j, f_data st = drawn get_data data0 j) ->
  like s (f_pos (no_inner (eps i) st k)) /\ like s (f_mom (no_inner (eps i) st k)) /\ f_extra (no_inner (eps i) st k) = Some x0 /\ f_data (no_inner (eps i) st k) = drawn get_data (f_data st) k /\ f_key (no_inner (eps i) st k) = chain (f_key st) (S k).
Proof.
  intros H1 H2 H3 H4. induction k as [|k (I1 & I2 & I5 & I3 & I4)].
  - cbn [no_inner no_resampled f_pos f_mom f_data f_key]. destruct (@random_tree_ok s normal (Sub (f_key st) 1) (f_mom st) Hn H2) as (R1 & _). destruct (@mass_fits s mass Hmass x0 Hx). auto 10 with like.
  - cbn [no_inner]. destruct (@no_body_eq i (no_inner (eps i) st k) 0%nat I1 I2 I5) as (J1 & J2 & J5 & J3 & J4 & _); [destruct H4 as (j & H4); exists (j + k)%nat; rewrite I3, H4; apply drawn_add|]. split; [exact J1|]. split; [exact J2|]. split; [exact J5|]. rewrite J3, J4, I3, I4. split; reflexivity.
Qed.
Lemma no_outer_inv i : like s (f_pos (no_outer i)) /\ like s (f_mom (no_outer i)) /\ f_extra (no_outer i) = Some x0 /\ f_data (no_outer i) = drawn get_data data0 (i * steps) /\ f_key (no_outer i) = chain (PRNGKey 0) (i * S steps).
Proof.
  induction i as [|i (I1 & I2 & I5 & I3 & I4)]; [cbn; auto|]. cbn [no_outer].
  destruct (@no_inner_inv i (no_outer i) steps I1 I2 I5 (ex_intro _ _ I3)) as (J1 & J2 & J5 & J3 & J4). split; auto. split; auto. split; auto. rewrite J3, J4, I3, I4, drawn_add, chain_add.
  split; f_equal; lia.
Qed.
Lemma no_iterates i : iterates upd eps (noise_init grad_obs N n svd diagonal data0 model0 x0) i = no_outer i.
Proof.
  induction i as [|i IH]; [reflexivity|]. cbn [iterates no_outer]. rewrite IH. destruct (no_outer_inv i) as (I1 & I2 & _). set (st := no_outer i) in *. clearbody st. unfold fl_integrate.
  change (fl_mass mass None (f_pos st)) with (ob_mass mass None (f_pos st)). rewrite (ob_mass_same mass None Hs I1 Hx).
  assert (EF : fl_friction friction (f_pos st) = FR) by (unfold fl_friction; destruct friction; auto; apply (emap_const (s := s)); auto). rewrite EF.
  change (no_inner (eps i) st steps) with (no_inner (eps i) st (0 + steps)). rewrite <- (@scan_sequence _ (body (eps i)) (no_inner (eps i) st) 0 steps).
  - cbn [no_inner]. unfold no_resampled. destruct (random_tree normal (Sub (f_key st) 1) (f_mom st)) as [no us]. cbn [fst].
    match goal with |- context [scan ?g ?n ?a] => destruct (scan g n a) end. reflexivity.
  - intros k Hk. reflexivity.
Qed.
(** auxiliary definition of a statement or a proof; models no code of /repo *)
Definition no_models (t : nat) : vtree := f_model (no_inner (eps (t / steps)%nat) (no_outer (t / steps)) (t mod steps)).
Lemma no_models_ok i k : (k <= steps)%nat -> no_models (i * steps + k) = f_model (no_inner (eps i) (no_outer i) k).
Proof.
  intros Hk. unfold no_models. destruct (Nat.eq_dec k steps) as [->|Hne].
  - replace (i * steps + steps)%nat with (0 + S i * steps)%nat by lia. rewrite Nat.div_add, Nat.mod_add by lia. rewrite Nat.div_small, Nat.mod_small by lia. reflexivity.
  - rewrite (Nat.add_comm (i * steps)), Nat.div_add, Nat.mod_add by lia. rewrite Nat.div_small, Nat.mod_small by lia. reflexivity.
Qed.
Lemma noise_path its : exists x model p, noise_trajectory s normal get_data pot_model pot_grad steps mass root friction data0 model0 x0 its eps x model p /\
  forall i, (i < its)%nat -> let st := iterates upd eps (noise_init grad_obs N n svd diagonal data0 model0 x0) (S i) in hmc_sample (f_pot st) (f_model st) (f_pos st) = sghmc_saved get_data pot_value steps data0 x model i.
Proof.
  exists (fun i k => f_pos (no_inner (eps i) (no_outer i) k)), no_models, (fun i k => el (f_mom (no_inner (eps i) (no_outer i) k))).
  assert (INV : forall i k, like s (f_pos (no_inner (eps i) (no_outer i) k)) /\ like s (f_mom (no_inner (eps i) (no_outer i) k)) /\ f_extra (no_inner (eps i) (no_outer i) k) = Some x0 /\ f_data (no_inner (eps i) (no_outer i) k) = drawn get_data data0 (i * steps + k) /\
     f_key (no_inner (eps i) (no_outer i) k) = chain (PRNGKey 0) (i * S steps + 1 + k)).
  { intros i k. destruct (no_outer_inv i) as (I1 & I2 & I5 & I3 & I4). destruct (@no_inner_inv i (no_outer i) k I1 I2 I5 (ex_intro _ _ I3)) as (J1 & J2 & J5 & J3 & J4). split; auto. split; auto. split; auto. rewrite J3, J4, I3, I4, drawn_add, chain_add. split; f_equal. lia. }
  split; [split|].
  - split; [reflexivity|]. unfold no_models. rewrite Nat.div_0_l, Nat.mod_0_l by lia. reflexivity.
  - intros i k _ _. apply INV.
  - intros i _. reflexivity.
  - intros i c _ Hc. destruct (no_outer_inv i) as (I1 & I2 & I5 & I3 & I4). cbn [no_inner no_resampled f_mom]. destruct (@random_tree_ok s normal (Sub (f_key (no_outer i)) 1) (f_mom (no_outer i)) Hn I2) as (R1 & R2 & _).
    destruct (@mass_fits s mass Hmass x0 Hx) as [F1 F2]. rewrite (el_mat Hs) by auto. rewrite (@mass_sqrt s Hs mass Hmass) by auto. rewrite R2 by auto. now rewrite I4.
  - intros i k _ Hk t B. destruct (INV i k) as (I1 & I2 & I5 & I3 & I4).
    destruct (@no_body_eq i (no_inner (eps i) (no_outer i) k) 0%nat I1 I2 I5 (ex_intro _ _ I3)) as (J1 & J2 & _ & J3 & J4 & J5 & J6 & J7).
    assert (EB : snd (get_data (f_data (no_inner (eps i) (no_outer i) k))) = B) by (rewrite I3; reflexivity). rewrite EB in *.
    unfold t. replace (S (i * steps + k)) with (i * steps + S k)%nat by lia. rewrite !no_models_ok by lia. split; [exact J5|].
    intros c Hc. destruct (J7 c Hc) as [K1 K2]. split; [exact K1|]. rewrite <- I4. exact K2.
  - intros i Hi st. unfold st. rewrite no_iterates. cbn [no_outer]. unfold sghmc_saved. set (t := (S i * steps - 1)%nat).
    assert (E1 : S t = (i * steps + steps)%nat) by (unfold t; nia). assert (E2 : t = (i * steps + (steps - 1))%nat) by (unfold t; nia). rewrite E1. rewrite no_models_ok by lia. rewrite E2. rewrite no_models_ok by lia.
    destruct (INV i (steps - 1)%nat) as (I1 & I2 & I5 & I3 & I4). destruct (@no_body_eq i (no_inner (eps i) (no_outer i) (steps - 1)) 0%nat I1 I2 I5 (ex_intro _ _ I3)) as (_ & _ & _ & _ & _ & _ & J6 & _).
    assert (ES : no_inner (eps i) (no_outer i) steps = no_inner (eps i) (no_outer i) (S (steps - 1))) by (f_equal; lia).
    f_equal. unfold batch_no. rewrite <- I3, ES. exact J6.
Qed.
End Proofs.

(** ** The noise factors *)
Section Factors.
Variable s : vtree.
Hypothesis Hs : wfv s.
Variable Batch : Type.
Variable pot_grad : vtree -> Batch -> vtree -> vtree.
Hypothesis Hg : forall t b m, like s t -> like s (pot_grad t b m).
Variable grad_obs : vtree -> Batch -> vtree -> nat -> vtree.
Hypothesis Hgo : forall t b m j, like s t -> like s (grad_obs t b m j).
Variables (N n : nat).
Hypothesis Hn2 : (2 <= n)%nat.
Variable svd : mat -> mat * vec.
Variable friction : fric.
Hypothesis Hfr : forall t, friction = FTree t -> like s t.
Notation estimate := (noise_estimate pot_grad grad_obs N n).

Lemma estimate_monotone e f x b m c : 0 <= e <= f -> 0 <= estimate e x b m c <= estimate f x b m c.
Proof.
  intros H. unfold noise_estimate. set (q := sum_upto n _ / (INR n - 1)). assert (1 < INR n) by (apply (lt_INR 1); lia).
  assert (0 <= q). { unfold q. apply Rmult_le_pos; [|left; apply Rinv_0_lt_compat; lra].
    clear. induction n as [|k IH]; [unfold sum_upto; cbn; lra|]. rewrite sum_upto_S. match goal with |- 0 <= _ + ?a * ?a => pose proof (Rle_0_sqr a) as Q; unfold Rsqr in Q end. lra. }
  split; [apply Rmult_le_pos; lra|]. apply Rmult_le_compat_r; lra.
Qed.
Lemma diagonal_root x0 e x b m : like s x0 -> like s x -> 0 < e -> (forall c, (c < dim s)%nat -> estimate e x b m c < friction_at friction c) ->
  exists t, fisher_get grad_obs N n svd true x0 x (pot_grad x b m) (fl_friction friction x0) b e m = Tens1 t /\ like s t /\
    forall c, (c < dim s)%nat -> el t c = sqrt (friction_at friction c - estimate e x b m c).
Proof.
  intros Hx0 Hx He Hb. unfold fisher_get. set (g := fun j => ravel (grad_obs x b m j)). set (G := ravel (pot_grad x b m)). set (F := ravel (fl_friction friction x0)).
  assert (Lg : forall i, (i < n)%nat -> length (g i) = dim s) by (intros i _; apply (like_dim Hs); auto).
  assert (LG : length G = dim s) by (apply (like_dim Hs); auto).
  assert (LF : length F = dim s) by (apply (like_dim Hs); apply (@FR_like s friction Hfr x0 Hx0)).
  assert (EB : forall j, (j < dim s)%nat -> nth j (fi_b g N n G e) NaN = Fin (estimate e x b m j)).
  { intros j Hj. rewrite (@fi_b_nth g N n G e (dim s) Lg LG Hn2 j Hj). f_equal. unfold noise_estimate. fold G. f_equal. assert (1 < INR n) by (apply (lt_INR 1); lia).
    unfold Rdiv at 1. rewrite Rmult_1_l, Rmult_comm. reflexivity. }
  pose proof (@fisher_positive g N n G e (dim s) Lg LG Hn2 F LF (fun j => estimate e x b m j) EB) as FP. cbv zeta in FP.
  assert (EF : forall j, (j < dim s)%nat -> nth j F 0 = friction_at friction j) by (intros j Hj; apply (@FR_el s Hs friction Hfr x0 Hx0); exact Hj).
  assert (PB : forall j, (j < dim s)%nat -> 0 <= estimate e x b m j < nth j F 0).
  { intros j Hj. rewrite EF by auto. split; [|auto]. apply (estimate_monotone (f := e)). lra. }
  specialize (FP PB). set (v := fst (fisher_diag g N n G F e)) in *.
  assert (LV : length v = dim s).
  { unfold v, fisher_diag. cbn [fst]. rewrite !map_length. rewrite len_zip; [exact LF|]. rewrite LF. symmetry. apply (@fi_b_len g N n G e (dim s)); auto. }
  destruct (@unravel_like s Hs x0 (map real v) Hx0) as (u & -> & U1 & U2); [rewrite map_length; exact LV|].
  exists u. split; [reflexivity|]. split; [exact U1|]. intros c Hc. unfold el. rewrite U2. rewrite (@nth_map_in _ _ real v c NaN) by lia. rewrite (proj1 (FP c Hc)). cbn [real]. now rewrite EF.
Qed.

(** the matrix friction - estimate *)
Definition noise_matrix (s : vtree) (e : R) (x : vtree) (b : Batch) (m : vtree) : mat :=
  map (fun i => map (fun j => (if (i =? j)%nat then friction_at friction i else 0) -
    e / 2 * (sum_upto n (fun k => (el (grad_obs x b m k) i - el (pot_grad x b m) i / INR N) * (el (grad_obs x b m k) j - el (pot_grad x b m) j / INR N)) / (INR n - 1))) (seq 0 (dim s))) (seq 0 (dim s)).
Lemma mat_ext d (A B : mat) : square d A -> square d B -> (forall i j, (i < d)%nat -> (j < d)%nat -> entry A i j = entry B i j) -> A = B.
Proof.
  intros SA SB H. assert (LA := proj1 SA). assert (LB := proj1 SB). apply (nth_ext _ _ [] []); [congruence|]. intros i Hi. rewrite LA in Hi.
  apply (nth_ext _ _ 0 0); [rewrite (square_row SA), (square_row SB) by auto; reflexivity|]. intros j Hj. rewrite (square_row SA) in Hj by auto. apply (H i j Hi Hj).
Qed.
Hypothesis Hsvd : forall A, square (dim s) A -> square (dim s) (fst (svd A)) /\ length (snd (svd A)) = dim s.
Lemma full_root x0 e x b m : like s x0 -> like s x ->
  exists t, fisher_get grad_obs N n svd false x0 x (pot_grad x b m) (fl_friction friction x0) b e m = Tens1 t /\ like s t /\
    forall c, (c < dim s)%nat -> el t c = sum_upto (dim s) (fun j => entry (fst (svd (noise_matrix s e x b m))) c j * sqrt (nth j (snd (svd (noise_matrix s e x b m))) 0)).
Proof.
  intros Hx0 Hx. unfold fisher_get. set (g := fun j => ravel (grad_obs x b m j)). set (G := ravel (pot_grad x b m)). set (F := ravel (fl_friction friction x0)).
  assert (Lg : forall i, (i < n)%nat -> length (g i) = dim s) by (intros i _; apply (like_dim Hs); auto).
  assert (LG : length G = dim s) by (apply (like_dim Hs); auto).
  assert (LF : length F = dim s) by (apply (like_dim Hs); apply (@FR_like s friction Hfr x0 Hx0)).
  assert (EF : forall j, (j < dim s)%nat -> nth j F 0 = friction_at friction j) by (intros j Hj; apply (@FR_el s Hs friction Hfr x0 Hx0); exact Hj).
  assert (SD : square (dim s) (mdiag F)).
  { unfold mdiag. rewrite LF. split; [now rewrite map_length, seq_length|]. apply Forall_forall. intros r Hr. apply in_map_iff in Hr. destruct Hr as (i & <- & _). now rewrite map_length, seq_length. }
  assert (SB : square (dim s) (fi_b_full g N n G e)).
  { destruct (@msum_entry g n G (dim s) Lg LG Hn2 (fun k => outer (deviation g N G k) (deviation g N G k))) as [Q _]; [intros k Hk; apply square_outer; apply (@len_dev g N n G (dim s)); auto|].
    unfold fi_b_full. rewrite LG. destruct Q as [Q1 Q2]. split; [now rewrite map_length|]. apply Forall_map. eapply Forall_impl; [|exact Q2]. intros r Hr. cbv beta. now rewrite map_length. }
  set (A := zip_with vsub (mdiag F) (fi_b_full g N n G e)).
  assert (SA : square (dim s) A).
  { destruct SD as [D1 D2], SB as [B1 B2]. split; [unfold A; rewrite len_zip; congruence|]. unfold A. clear A.
    assert (LL : length (mdiag F) = length (fi_b_full g N n G e)) by congruence. revert D2 B2 LL. generalize (mdiag F), (fi_b_full g N n G e). clear.
    induction l as [|r l IH]; intros [|q l0] D B LL; try discriminate; constructor; inversion D; inversion B; subst; auto. unfold vsub. rewrite len_zip; congruence. }
  assert (EA : A = noise_matrix s e x b m).
  { apply (@mat_ext (dim s)); auto.
    - unfold noise_matrix. split; [now rewrite map_length, seq_length|]. apply Forall_forall. intros r Hr. apply in_map_iff in Hr. destruct Hr as (i & <- & _). now rewrite map_length, seq_length.
    - intros i j Hi Hj. unfold A, entry at 1. rewrite (zip_with_nth vsub _ _ [] [] []) by (destruct SD as [SD1 _], SB as [SB1 _]; congruence || lia).
      rewrite nth_vsub by (rewrite ?(square_row SD), ?(square_row SB); auto; lia).
      change (nth j (nth i (fi_b_full g N n G e) []) 0) with (entry (fi_b_full g N n G e) i j). rewrite (@fi_full_entry g N n G e (dim s)) by auto.
      unfold mdiag, noise_matrix, entry. rewrite LF. rewrite !(@nth_map_in _ _ _ _ _ 0%nat) by (rewrite seq_length; auto). rewrite !seq_nth by auto. cbn [plus].
      rewrite (EF i) by auto.
      f_equal. f_equal. unfold Rdiv at 1. rewrite Rmult_1_l, Rmult_comm. reflexivity. }
  destruct (Hsvd SA) as [SU SS].
  assert (EFU : fst (fisher_full svd g N n G F e) = map (fun r => dot r (map sqrt (snd (svd A)))) (fst (svd A))).
  { unfold fisher_full. fold A. destruct (svd A) as [U S]. destruct (svd (fi_b_full g N n G e)). reflexivity. }
  rewrite EFU. destruct (@unravel_like s Hs x0 (map (fun r => dot r (map sqrt (snd (svd A)))) (fst (svd A))) Hx0) as (u & -> & U1 & U2); [rewrite map_length; apply SU|].
  exists u. split; [reflexivity|]. split; [exact U1|]. intros c Hc. unfold el. rewrite U2. rewrite (@nth_map_in _ _ _ _ _ []) by (destruct SU as [-> _]; exact Hc).
  rewrite dot_sum by (rewrite map_length, (square_row SU), SS; auto). rewrite (square_row SU) by auto. rewrite <- EA. apply sum_upto_ext. intros j Hj.
  rewrite (@nth_map_in _ _ _ _ _ 0) by lia. reflexivity.
Qed.
End Factors.

(** ** C72: alias.sghmc with adapt_noise_model=True and diagonal_noise=True (the default) *)
(** If the friction exceeds the noise estimate for the first (largest) step size everywhere on the batches of the chain, the injected noise has variance 2 eps (friction - estimate): the friction minus
    the estimated gradient noise, as in the SGHMC paper.  (C47_small_friction_refuted: otherwise the noise is infinite.) *)
Theorem C72_diagonal : forall s normal Data Batch (get_data : Data -> Data * Batch) pot_value pot_model pot_grad, wfv s -> normal_ok normal ->
  (forall t b m, like s t -> like s (pot_grad t b m)) -> (forall t b m, same_structure (pot_model t b m) m) ->
  forall grad_obs N nb svd, (forall t b m j, like s t -> like s (grad_obs t b m j)) -> (2 <= nb)%nat ->
  forall Key (choice : Key -> list xr -> nat -> list nat) tk (z : arr -> arr), choice_ok choice ->
  forall steps friction mass model0, (0 < steps)%nat -> (forall t, friction = FTree t -> like s t) -> (forall m, mass = Some m -> like s m) ->
  forall a f l n its, al_first a = Fin f -> al_last a = Fin l -> al_adaptive a = None -> al_accepted a = Some n -> al_hot a = None -> 0 < l < f -> (2 <= its)%nat -> (al_burn_in a + n <= its)%nat ->
  exists eps, falling its f l eps /\
  forall h starts, Forall (fun xd => like s (fst xd) /\ forall x k m c, like s x -> (c < dim s)%nat -> noise_estimate pot_grad grad_obs N nb f x (batch_no get_data (snd xd) k) m c < friction_at friction c) starts ->
  exists results, snd (al_run choice tk a z (noise_solver normal get_data pot_value pot_model pot_grad grad_obs N nb svd true steps mass friction) (fst (run (mstep z) (mc_new false) h))
      (map (fun xd => noise_init grad_obs N nb svd true (snd xd) model0 (fst xd)) starts) its) = Some (Ok results) /\
    Forall2 (fun xd r => exists x model p L,
      noise_trajectory s normal get_data pot_model pot_grad steps mass (fun e x b m c => sqrt (friction_at friction c - noise_estimate pot_grad grad_obs N nb e x b m c)) friction (snd xd) model0 (fst xd) its eps x model p /\
      length L = n /\ increasing L /\ (forall i, In i L -> (al_burn_in a <= i < its)%nat) /\
      fst r = n /\ exactly_samples (map (sghmc_saved get_data pot_value steps (snd xd) x model) L) (snd r)) starts results.
Proof.
  intros s normal Data Batch get_data pv pm pg Hs Hn Hg Hm go N nb svd Hgo Hnb Key choice tk z Hc steps friction mass model0 Hst Hfr Hma a f l n its Hf Hl Ha Hacc Hhot H1 H2 H3.
  set (upd := fun e (T : R) st => fst (fl_integrate normal get_data pv pm pg steps friction mass (Some (fisher_noise go N nb svd true)) e None st)).
  set (get := fun st : fl_st Data vtree vtree => hmc_sample (f_pot st) (f_model st) (f_pos st)).
  destruct (@plain_run _ upd get) with (choice := choice) (tk := tk) (z := z) (a := a) (f := f) (l := l) (n := n) (its := its) as (eps & HE & HR); auto.
  { intros e T st. apply no_keeps; auto. }
  exists eps. split; auto. intros h starts Hx. destruct (HR h (map (fun xd => noise_init go N nb svd true (snd xd) model0 (fst xd)) starts)) as (rs & R1 & R2).
  exists rs. split; [exact R1|]. clear R1. revert rs R2. induction Hx as [|[x0 data0] starts [Hx Hest] HF IH]; intros rs R2; inversion R2 as [|? r ? rs' R3 R4]; subst; constructor; auto.
  cbn [fst snd] in *. destruct R3 as (L & L1 & L2 & L3 & L4 & L5).
  destruct (@noise_path s Hs normal Hn Data Batch get_data pv pm pg Hg Hm go Hgo N nb Hnb svd true steps Hst mass Hma friction Hfr
    (fun e x b m c => sqrt (friction_at friction c - noise_estimate pg go N nb e x b m c)) data0 model0 x0 Hx eps) with (its := its) as (x & model & p & T1 & T2).
  { intros i y k m Hy b. destruct HE as (E0 & _ & EP & EM). assert (eps i <= f) by (destruct i as [|i]; [lra|]; rewrite <- E0; left; apply EM; lia). apply diagonal_root; auto.
    intros c Hc'. eapply Rle_lt_trans; [|apply (Hest y k m c); auto]. apply (@estimate_monotone s Batch pg Hg go Hgo N nb Hnb friction Hfr). split; [left; apply EP|auto]. }
  exists x, model, p, L. split; auto. split; auto. split; auto. split; auto. split; auto.
  erewrite map_ext_in; [exact L5|]. intros i Hi. symmetry. apply T2. apply L3. exact Hi.
Qed.
Print Assumptions C72_diagonal.
(** diagonal_noise=False: the same recursion, but every coordinate of the noise is scaled with a number, the product of a row of the left singular vectors and the roots of the
    singular values (the code multiplies a matrix and a vector), and not mixed by a root of the matrix friction - estimate (C47_dense_refuted). *)
Theorem C72_full : forall s normal Data Batch (get_data : Data -> Data * Batch) pot_value pot_model pot_grad, wfv s -> normal_ok normal ->
  (forall t b m, like s t -> like s (pot_grad t b m)) -> (forall t b m, same_structure (pot_model t b m) m) ->
  forall grad_obs N nb svd, (forall t b m j, like s t -> like s (grad_obs t b m j)) -> (2 <= nb)%nat ->
  (forall A, square (dim s) A -> square (dim s) (fst (svd A)) /\ length (snd (svd A)) = dim s) ->
  forall Key (choice : Key -> list xr -> nat -> list nat) tk (z : arr -> arr), choice_ok choice ->
  forall steps friction mass model0, (0 < steps)%nat -> (forall t, friction = FTree t -> like s t) -> (forall m, mass = Some m -> like s m) ->
  forall a f l n its, al_first a = Fin f -> al_last a = Fin l -> al_adaptive a = None -> al_accepted a = Some n -> al_hot a = None -> 0 < l < f -> (2 <= its)%nat -> (al_burn_in a + n <= its)%nat ->
  exists eps, falling its f l eps /\
  forall h starts, Forall (fun xd => like s (fst xd)) starts ->
  exists results, snd (al_run choice tk a z (noise_solver normal get_data pot_value pot_model pot_grad grad_obs N nb svd false steps mass friction) (fst (run (mstep z) (mc_new false) h))
      (map (fun xd => noise_init grad_obs N nb svd false (snd xd) model0 (fst xd)) starts) its) = Some (Ok results) /\
    Forall2 (fun xd r => exists x model p L,
      noise_trajectory s normal get_data pot_model pot_grad steps mass
        (fun e x b m c => let US := svd (noise_matrix pot_grad grad_obs N nb friction s e x b m) in sum_upto (dim s) (fun j => entry (fst US) c j * sqrt (nth j (snd US) 0))) friction (snd xd) model0 (fst xd) its eps x model p /\
      length L = n /\ increasing L /\ (forall i, In i L -> (al_burn_in a <= i < its)%nat) /\
      fst r = n /\ exactly_samples (map (sghmc_saved get_data pot_value steps (snd xd) x model) L) (snd r)) starts results.
Proof.
  intros s normal Data Batch get_data pv pm pg Hs Hn Hg Hm go N nb svd Hgo Hnb Hsvd Key choice tk z Hc steps friction mass model0 Hst Hfr Hma a f l n its Hf Hl Ha Hacc Hhot H1 H2 H3.
  set (upd := fun e (T : R) st => fst (fl_integrate normal get_data pv pm pg steps friction mass (Some (fisher_noise go N nb svd false)) e None st)).
  set (get := fun st : fl_st Data vtree vtree => hmc_sample (f_pot st) (f_model st) (f_pos st)).
  destruct (@plain_run _ upd get) with (choice := choice) (tk := tk) (z := z) (a := a) (f := f) (l := l) (n := n) (its := its) as (eps & HE & HR); auto.
  { intros e T st. apply no_keeps; auto. }
  exists eps. split; auto. intros h starts Hx. destruct (HR h (map (fun xd => noise_init go N nb svd false (snd xd) model0 (fst xd)) starts)) as (rs & R1 & R2).
  exists rs. split; [exact R1|]. clear R1. revert rs R2. induction Hx as [|[x0 data0] starts Hx HF IH]; intros rs R2; inversion R2 as [|? r ? rs' R3 R4]; subst; constructor; auto.
  cbn [fst snd] in *. destruct R3 as (L & L1 & L2 & L3 & L4 & L5).
  destruct (@noise_path s Hs normal Hn Data Batch get_data pv pm pg Hg Hm go Hgo N nb Hnb svd false steps Hst mass Hma friction Hfr
    (fun e x b m c => sum_upto (dim s) (fun j => entry (fst (svd (noise_matrix pg go N nb friction s e x b m))) c j * sqrt (nth j (snd (svd (noise_matrix pg go N nb friction s e x b m))) 0))) data0 model0 x0 Hx eps) with (its := its) as (x & model & p & T1 & T2).
  { intros i y k m Hy b. apply full_root; auto. }
  exists x, model, p, L. split; auto. split; auto. split; auto. split; auto. split; auto.
  erewrite map_ext_in; [exact L5|]. intros i Hi. symmetry. apply T2. apply L3. exact Hi.
Qed.
Print Assumptions C72_full.
