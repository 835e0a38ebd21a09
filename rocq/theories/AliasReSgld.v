(** C67: alias.re_sgld from the initial samples to the returned samples. *)
From Coq Require Import Reals Lra ZArith String.
From Verif Require Import Base ListUtil Pytree PytreeSpec PytreeProofs Io IoSpec IoProofs IoFinal TreeUtil TreeUtilSpec TreeUtilProofs Integrator IntegratorSpec IntegratorBasics LangevinProofs PropertiesIntegrator
  Xreal Scheduler SchedulerSpec SchedulerProofs StepSizeProofs PropertiesScheduler Solver SolverSpec SolverProofs SolverFinal PropertiesSolver Mh MhIntegrators MhProofs Adaption Alias PropertiesAlias AliasSgld.
Open Scope R_scope.
Set Implicit Arguments.

(** ** Model: solver.parallel_tempering(integrator.langevin_diffusion(potential_fn, random_data)), alias.py:172-176, 196 *)
Section Model.
Variable normal : key -> list nat -> list R.
Variable uniform : key -> R.
Variables (Data Batch : Type).
Variable get_data : Data -> Data * Batch.
Variables (pot_value : vtree -> Batch -> vtree -> R) (pot_likelihoods : vtree -> Batch -> vtree -> list R)
  (pot_model : vtree -> Batch -> vtree -> vtree) (pot_grad : vtree -> Batch -> vtree -> vtree).
Notation lstate := (lv_st Data vtree (Adaption.ad_state rms_st)).
(** the update of the integrator without adaption *)
Definition re_update (st : lstate) (sch : schedule) : lstate :=
  fst (lv_update normal get_data pot_value pot_likelihoods pot_model pot_grad None (real (sch_step sch)) (real (sch_temperature sch)) st).
(** the default sa_schedule is 1 / n, solver.py:221 *)
Definition re_sgld_solver : solver arr :=
  parallel_tempering split2 uniform re_update (@sgld_sample Data) (fun c => Fin (l_var c)) (fun c => Fin (l_pot c)) (fun n => Fin (1 / INR n)).
(** init_resgld_fn, alias.py:200-203 with the default arguments of init, solver.py:248-260; the data access is initialised for the normal chain and for the hot chain *)
Definition re_sgld_init (model0 : vtree) (x0 : (vtree * Data) * (vtree * Data)) : pt_state key lstate :=
  pt_init split3 (fun (xd : vtree * Data) k => lv_init (fst xd) (Some k) None (snd xd) model0) (fst x0) (snd x0) (Fin 0) (PRNGKey 0) (Fin 1).
End Model.

(** ** Specification *)
Section Spec.
Variable s : vtree.
Variable normal : key -> list nat -> list R.
Variable uniform : key -> R.
Variables (Data Batch : Type).
Variable get_data : Data -> Data * Batch.
Variables (pot_value : vtree -> Batch -> vtree -> R) (pot_likelihoods : vtree -> Batch -> vtree -> list R)
  (pot_model : vtree -> Batch -> vtree -> vtree) (pot_grad : vtree -> Batch -> vtree -> vtree).

(** replicas: [false] is the one started with the first sample of the pair, [true] with the second *)
Definition of_pair {A} (p : A * A) (j : bool) : A := if j then snd p else fst p.
(** Two replicas theta false, theta true.  [cold i] is the replica at temperature one in iteration i; the other one is at temperature tau.
    [exchange u s r r'] says how the uniform number u and the swapping rate s decide about the replica that is at temperature one next. *)
Record re_sgld_trajectory (exchange : R -> R -> bool -> bool -> Prop) (tau : R) (model0 : vtree) (x0 : (vtree * Data) * (vtree * Data)) (its : nat) (eps : nat -> R)
  (theta model : bool -> nat -> vtree) (cold : nat -> bool) : Prop := mkReTraj {
  re_start : cold 0%nat = false /\ forall j, theta j 0%nat = fst (of_pair x0 j) /\ model j 0%nat = model0;
  re_like : forall j i, (i <= its)%nat -> like s (theta j i);
  re_model : forall j i, (i < its)%nat -> model j (S i) = pot_model (theta j i) (batch_no get_data (snd (of_pair x0 j)) i) (model j i);
  (** Langevin step at the temperature of the replica; every replica has its own stream of random numbers and of batches *)
  re_step : forall j i c, (i < its)%nat -> (c < dim s)%nat ->
    let T := if Bool.eqb j (cold i) then 1 else tau in
    let k := Sub (PRNGKey 0) (if j then 2 else 1)%nat in
    el (theta j (S i)) c = el (theta j i) c - eps i * el (pot_grad (theta j i) (batch_no get_data (snd (of_pair x0 j)) i) (model j i)) c
      + sqrt (2 * T * eps i) * xi normal (Sub (chain k i) 1) s c;
  (** the exchange: swapping rate with the potentials U of the replicas and the mean variance of the replica at temperature one so far *)
  re_swap : forall i, (i < its)%nat ->
    let U j := pot_value (theta j i) (batch_no get_data (snd (of_pair x0 j)) i) (model j i) in
    let var k := population_variance (pot_likelihoods (theta (cold k) k) (batch_no get_data (snd (of_pair x0 (cold k))) k) (model (cold k) k)) in
    let d := 1 - 1 / tau in
    let rate := exp (d * (U (cold i) - U (negb (cold i)) - d * (sum_upto (S i) var / INR (S i)))) in
    let u := uniform (Sub (chain (Sub (PRNGKey 0) 0) i) 1) in
    exchange u rate (cold i) (cold (S i))
}.
(** Algorithm 1 of arXiv 2008.05367: the replicas are exchanged if the uniform number is below the rate *)
Definition documented_exchange (u rate : R) (r r' : bool) : Prop := (u < rate -> r' = negb r) /\ (rate <= u -> r' = r).
(** what the code does *)
Definition implemented_exchange (u rate : R) (r r' : bool) : Prop := (u < rate -> r' = r) /\ (rate <= u -> r' = negb r).
(** what is saved for iteration i: the replica that is at temperature one after the exchange *)
Definition re_saved (x0 : (vtree * Data) * (vtree * Data)) (theta model : bool -> nat -> vtree) (cold : nat -> bool) (i : nat) : vtree :=
  let j := cold (S i) in
  Node (KDict ["likelihood"; "model_state"; "variables"]%string)
    [Leaf (mkArr [] [- pot_value (theta j i) (batch_no get_data (snd (of_pair x0 j)) i) (model j i)]); model j (S i); theta j (S i)].
End Spec.

(** The property: every pair of replicas follows the recursion with the advertised step sizes and temperatures, and the returned samples are those of the replica at temperature one
    after n iterations after burn-in *)
Definition re_sgld_claim (exchange : R -> R -> bool -> bool -> Prop) : Prop :=
  forall s normal uniform Data Batch (get_data : Data -> Data * Batch) pot_value pot_likelihoods pot_model pot_grad, wfv s -> normal_ok normal -> (forall k, 0 <= uniform k < 1) ->
  (forall t b m, like s t -> like s (pot_grad t b m)) -> (forall t b m, same_structure (pot_model t b m) m) ->
  forall Key (choice : Key -> list xr -> nat -> list nat) tk (z : arr -> arr), choice_ok choice ->
  forall a f l n its tau model0, al_first a = Fin f -> al_last a = Fin l -> al_adaptive a = None -> al_accepted a = Some n -> al_hot a = Some (Fin tau) -> 0 < tau ->
  0 < l < f -> (2 <= its)%nat -> (al_burn_in a + n <= its)%nat ->
  exists eps, falling its f l eps /\
  forall h starts, Forall (fun x0 => like s (fst (fst x0)) /\ like s (fst (snd x0))) starts ->
  exists results, snd (al_run choice tk a z (re_sgld_solver normal uniform get_data pot_value pot_likelihoods pot_model pot_grad) (fst (run (mstep z) (mc_new false) h))
      (map (re_sgld_init model0) starts) its) = Some (Ok results) /\
    Forall2 (fun x0 r => exists theta model cold L,
      re_sgld_trajectory s normal uniform get_data pot_value pot_likelihoods pot_model pot_grad exchange tau model0 x0 its eps theta model cold /\
      length L = n /\ increasing L /\ (forall i, In i L -> (al_burn_in a <= i < its)%nat) /\
      fst r = n /\ exactly_samples (map (re_saved get_data pot_value x0 theta model cold) L) (snd r)) starts results.

(** ** Proofs *)
(** a run only depends on the solver up to a simulation *)
Section Sim.
Variables (V : Type) (so1 so2 : solver V) (h : so_state so1 -> so_state so2).
Hypothesis Hs : so_schedules so1 = so_schedules so2.
Hypothesis Hu : forall s schs, so_update so2 (h s) schs = (h (fst (so_update so1 s schs)), snd (so_update so1 s schs)).
Hypothesis Hg : forall s, so_get so2 (h s) = so_get so1 s.
Variables (ss te : specific xr unit) (bi th : specific bool Z) (pb : bool) (W : Type) (sa : saving V W).
Lemma sim_init w s n ks : mcmc_init (ss := ss) (te := te) (bi := bi) (th := th) pb so2 sa w (h s) n ks = mcmc_init pb so1 sa w s n ks.
Proof. unfold mcmc_init. now rewrite Hg. Qed.
(** auxiliary definition of a statement or a proof; models no code of /repo *)
Definition lift3 A B (c : so_state so1 * A * B) : so_state so2 * A * B := let '(s, x, y) := c in (h s, x, y).
(** auxiliary definition of a statement or a proof; models no code of /repo *)
Definition lift_res A B (r : W * res (so_state so1 * A * B)) : W * res (so_state so2 * A * B) := match r with (w, Ok c) => (w, Ok (lift3 c)) | (w, Exc e) => (w, Exc e) end.
Lemma sim_step w c : mcmc_step (ss := ss) (te := te) (bi := bi) (th := th) so2 sa w (lift3 c) = lift_res (mcmc_step so1 sa w c).
Proof.
  destruct c as [[s scs] st]. cbn [lift3]. unfold mcmc_step. rewrite Hu. destruct (so_update so1 s _) as [s' x]. cbn [fst snd]. rewrite Hg.
  destruct (sa_save sa w st _ (so_get so1 s')) as [w' [st'|e]]; reflexivity.
Qed.
Lemma sim_loop : forall n w c, mcmc_loop (ss := ss) (te := te) (bi := bi) (th := th) so2 sa n w (lift3 c) = lift_res (mcmc_loop so1 sa n w c).
Proof.
  induction n as [|n IH]; intros w c; [reflexivity|]. cbn [mcmc_loop]. rewrite sim_step. destruct (mcmc_step so1 sa w c) as [w' [c'|e]]; cbn [lift_res]; [apply IH|reflexivity].
Qed.
Lemma sim_scan w n c : mcmc_scan (ss := ss) (te := te) (bi := bi) (th := th) so2 sa w n (lift3 c) = mcmc_scan so1 sa w n c.
Proof.
  unfold mcmc_scan. rewrite sim_loop, Hs. destruct c as [[s scs] st]. cbn [lift3 fst snd]. destruct (length scs =? so_schedules so2)%nat; [|reflexivity].
  destruct (mcmc_loop so1 sa n w (s, scs, st)) as [w' [[[s' scs'] st']|e]]; reflexivity.
Qed.
Lemma sim_chain w s n ks : mcmc_chain (ss := ss) (te := te) (bi := bi) (th := th) pb so2 sa w (h s) n ks = mcmc_chain pb so1 sa w s n ks.
Proof.
  unfold mcmc_chain. rewrite sim_init. destruct (mcmc_init pb so1 sa w s n ks) as [w1 [[scs st]|e]]; [|reflexivity].
  change (h s, scs, st) with (lift3 (s, scs, st)). now rewrite sim_scan.
Qed.
Lemma sim_map : forall states w n ks, mcmc_map (ss := ss) (te := te) (bi := bi) (th := th) pb so2 sa w (map h states) n ks = mcmc_map pb so1 sa w states n ks.
Proof.
  induction states as [|s states IH]; intros w n ks; [reflexivity|]. cbn [map mcmc_map]. rewrite sim_chain. destruct (mcmc_chain pb so1 sa w s n ks) as [w1 [[y|e]|]]; [|reflexivity|reflexivity]. now rewrite IH.
Qed.
End Sim.
Lemma sim_al_run V (so1 so2 : solver V) (h : so_state so1 -> so_state so2) Key (choice : Key -> list xr -> nat -> list nat) tk a z m states its :
  so_schedules so1 = so_schedules so2 -> (forall s schs, so_update so2 (h s) schs = (h (fst (so_update so1 s schs)), snd (so_update so1 s schs))) -> (forall s, so_get so2 (h s) = so_get so1 s) ->
  al_run choice tk a z so2 m (map h states) its = al_run choice tk a z so1 m states its.
Proof.
  intros H1 H2 H3. unfold al_run, run_collector, run_no_save. destruct (al_save_to_numpy a); rewrite (@sim_map _ so1 so2 h H1 H2 H3); reflexivity.
Qed.

(** the schedule of the helper chain: the same step sizes, temperature tau *)
Lemma alias_helper_schedule Key (choice : Key -> list xr -> nat -> list nat) tk a its f l tau eps : al_adaptive a = None -> al_first a = Fin f -> al_last a = Fin l -> al_hot a = Some (Fin tau) ->
  0 < l < f -> (2 <= its)%nat ->
  (forall main sc, sched_init (al_step a) al_temp (al_burn a) (al_thin choice tk a) (al_progress_bar a) its (no_kw (al_step a) al_temp (al_burn a) (al_thin choice tk a)) = Ok (main, sc) ->
    forall xs, (length xs < its)%nat -> let sch := sched_get _ _ _ _ (after _ _ _ _ main xs) in sch_step sch = Fin (eps (length xs)) /\ sch_temperature sch = Fin 1) ->
  forall main sc helpers, sched_init (al_step a) al_temp (al_burn a) (al_thin choice tk a) (al_progress_bar a) its (no_kw (al_step a) al_temp (al_burn a) (al_thin choice tk a)) = Ok (main, sc) ->
    map_res (fun kw => let* r := sched_init (al_step a) al_temp (al_burn a) (al_thin choice tk a) (al_progress_bar a) its kw in Ok (fst r)) (al_helpers choice tk a) = Ok helpers ->
    exists hot, helpers = [hot] /\ forall xs, (length xs < its)%nat -> let sch := sched_get _ _ _ _ (after _ _ _ _ hot xs) in sch_step sch = Fin (eps (length xs)) /\ sch_temperature sch = Fin tau.
Proof.
  intros Ha Hf Hl Hh H1 H2 HM main sc helpers Em Eh. unfold al_helpers in Eh. rewrite Hh in Eh. cbn [map_res] in Eh.
  match type of Eh with context [sched_init _ _ _ _ _ _ ?k] => set (kw := k) in * end.
  destruct (sched_init (al_step a) al_temp (al_burn a) (al_thin choice tk a) (al_progress_bar a) its kw) as [[hot sc']|] eqn:E; [|discriminate]. cbn [bind fst] in Eh. injection Eh as <-.
  exists hot. split; [reflexivity|]. intros xs Hx. specialize (HM main sc Em xs Hx). cbv zeta in HM |- *.
  destruct (@C24_schedule_of_iteration _ _ _ _ _ _ _ _ _ Em) as (s0 & t0 & b0 & nb & h0 & nh & I1 & I2 & _ & _ & _ & I3).
  destruct (@C24_schedule_of_iteration _ _ _ _ _ _ _ _ _ E) as (s1 & t1 & b1 & nb1 & h1 & nh1 & K1 & K2 & _ & _ & _ & K3).
  rewrite I3 in HM. rewrite K3. cbn [sch_step sch_temperature] in *.
  assert (Es : s0 = s1). { cbn [kw no_kw kw_step] in I1, K1. rewrite I1 in K1. now injection K1. }
  subst s1. split; [apply HM|]. cbn in K2. injection K2 as <-. rewrite evolve_static by reflexivity. reflexivity.
Qed.

Section Proof.
Variable s : vtree.
Hypothesis Hs : wfv s.
Variable normal : key -> list nat -> list R.
Hypothesis Hn : normal_ok normal.
Variable uniform : key -> R.
Hypothesis Hu : forall k, 0 <= uniform k < 1.
Variables (Data Batch : Type).
Variable get_data : Data -> Data * Batch.
Variables (pot_value : vtree -> Batch -> vtree -> R) (pot_likelihoods : vtree -> Batch -> vtree -> list R)
  (pot_model : vtree -> Batch -> vtree -> vtree) (pot_grad : vtree -> Batch -> vtree -> vtree).
Hypothesis Hg : forall t b m, like s t -> like s (pot_grad t b m).
Hypothesis Hm : forall t b m, same_structure (pot_model t b m) m.
Notation lstate := (lv_st Data vtree (Adaption.ad_state rms_st)).
Notation solver := (re_sgld_solver normal uniform get_data pot_value pot_likelihoods pot_model pot_grad).
Notation lupd := (re_update normal get_data pot_value pot_likelihoods pot_model pot_grad).
Notation upd := (pt_update split2 uniform lupd (fun c => Fin (l_var c)) (fun c => Fin (l_pot c)) (fun n => Fin (1 / INR n))).

Lemma lupd_structure st sch : same_structure (sgld_sample (lupd st sch)) (sgld_sample st).
Proof.
  unfold re_update, lv_update. destruct (get_data (l_data st)) as [d b]. destruct (random_tree _ _ _) as [noise used].
  unfold sgld_sample. cbn [fst l_pos l_model l_pot]. match goal with |- context [tadd (l_pos st) ?us] => pose proof (tadd_structure (l_pos st) us) as H1 end.
  pose proof (Hm (l_pos st) b (l_model st)) as H2. unfold same_structure in *. cbn. cbn in H1, H2. now rewrite H1, H2.
Qed.
(** both chains have the same structure *)
Definition alike (st : pt_state key lstate) : Prop := same_structure (sgld_sample (pt_normal st)) (sgld_sample (pt_hot st)).
Lemma alike_update st n h : alike st -> alike (upd st n h) /\ same_structure (sgld_sample (pt_normal (upd st n h))) (sgld_sample (pt_normal st)).
Proof.
  intros H. pose proof (lupd_structure (pt_normal st) n) as H1. pose proof (lupd_structure (pt_hot st) h) as H2. unfold alike in *.
  destruct (@pt_pair _ _ split2 uniform lupd (fun c => Fin (l_var c)) (fun c => Fin (l_pot c)) (fun n => Fin (1 / INR n)) st n h) as ([E|E] & _); cbv zeta in E; injection E as -> ->; unfold same_structure in *; split; congruence.
Qed.
(** the solver on such pairs *)
Definition guarded : Solver.solver arr :=
  @mkSolver arr (sig alike) 2%nat
    (fun st schs => match schs with n :: h :: _ => (exist _ (upd (proj1_sig st) n h) (proj1 (@alike_update (proj1_sig st) n h (proj2_sig st))), None) | _ => (st, None) end)
    (fun st => sgld_sample (pt_normal (proj1_sig st))).
Lemma guarded_keeps : keeps_structure guarded.
Proof. intros [st H] [|n [|h q]]; try reflexivity. cbn. exact (proj2 (alike_update n h H)). Qed.
Lemma guarded_sim Key (choice : Key -> list xr -> nat -> list nat) tk a z m (states : list (so_state guarded)) its :
  al_run choice tk a z solver m (map (@proj1_sig _ _) states) its = al_run choice tk a z guarded m states its.
Proof.
  apply (@sim_al_run _ guarded solver (@proj1_sig _ _)); try reflexivity. intros [st H] [|n [|h q]]; reflexivity.
Qed.
Lemma init_alike model0 x0 : like s (fst (fst x0)) -> like s (fst (snd x0)) -> alike (re_sgld_init model0 x0).
Proof.
  intros H1 H2. unfold alike, re_sgld_init, pt_init, sgld_sample. cbn. destruct H1 as (_ & H1 & _), H2 as (_ & H2 & _).
  unfold same_structure in *. cbn. congruence.
Qed.

Notation log_s st n h := (pt_log_s (fun ch : lstate => Fin (l_pot ch)) (sch_temperature n) (sch_temperature h) (pt_new_ssq (fun ch => Fin (l_var ch)) (fun number => Fin (1 / INR number)) st (lupd (pt_normal st) n)) (pt_F st) (lupd (pt_normal st) n) (lupd (pt_hot st) h)).
(** auxiliary definition of a statement or a proof; models no code of /repo *)
Definition stays (st : pt_state key lstate) (n h : schedule) : bool := xltb (xlog (uniform (Sub (pt_key st) 1))) (log_s st n h).
Lemma upd_fields st n h : pt_normal (upd st n h) = (if stays st n h then lupd (pt_normal st) n else lupd (pt_hot st) h) /\
  pt_hot (upd st n h) = (if stays st n h then lupd (pt_hot st) h else lupd (pt_normal st) n) /\
  pt_step (upd st n h) = S (pt_step st) /\ pt_F (upd st n h) = pt_F st /\ pt_key (upd st n h) = Sub (pt_key st) 0 /\
  pt_ssq (upd st n h) = pt_new_ssq (fun c => Fin (l_var c)) (fun n => Fin (1 / INR n)) st (lupd (pt_normal st) n).
Proof. unfold stays, pt_update. cbn [split2]. destruct (xltb _ _); cbn; auto 10. Qed.

Section Path.
Variables (model0 : vtree) (x0 : (vtree * Data) * (vtree * Data)) (tau : R) (its : nat) (eps : nat -> R).
Variable X : nat -> pt_state key lstate.
Variables ns hs : nat -> schedule.
Hypothesis Htau : 0 < tau.
Hypothesis Hx : like s (fst (fst x0)) /\ like s (fst (snd x0)).
Hypothesis X0 : X 0%nat = re_sgld_init model0 x0.
Hypothesis XS : forall i, (i < its)%nat -> X (S i) = upd (X i) (ns i) (hs i).
Hypothesis Hns : forall i, (i < its)%nat -> sch_step (ns i) = Fin (eps i) /\ sch_temperature (ns i) = Fin 1.
Hypothesis Hhs : forall i, (i < its)%nat -> sch_step (hs i) = Fin (eps i) /\ sch_temperature (hs i) = Fin tau.
(** auxiliary definition of a statement or a proof; models no code of /repo *)
Fixpoint cold (i : nat) : bool := match i with O => false | S i' => if stays (X i') (ns i') (hs i') then cold i' else negb (cold i') end.
(** auxiliary definition of a statement or a proof; models no code of /repo *)
Definition rep (j : bool) (i : nat) : lstate := if Bool.eqb j (cold i) then pt_normal (X i) else pt_hot (X i).
Notation T j i := (if Bool.eqb j (cold i) then 1 else tau).
Notation k0 j := (Sub (PRNGKey 0) (if j then 2 else 1)%nat).
Lemma rep_cold i : rep (cold i) i = pt_normal (X i).
Proof. unfold rep. now rewrite Bool.eqb_reflx. Qed.
Lemma rep_hot i : rep (negb (cold i)) i = pt_hot (X i).
Proof. unfold rep. destruct (cold i); reflexivity. Qed.
Lemma rep_step j i : (i < its)%nat -> rep j (S i) = fst (lv_update normal get_data pot_value pot_likelihoods pot_model pot_grad None (eps i) (T j i) (rep j i)).
Proof.
  intros Hi. destruct (Hns Hi) as [N1 N2]. destruct (Hhs Hi) as [H1 H2]. unfold rep at 1. rewrite XS by auto. destruct (upd_fields (X i) (ns i) (hs i)) as (E1 & E2 & _). rewrite E1, E2. cbn [cold].
  unfold rep. unfold re_update. rewrite N1, N2, H1, H2. cbn [real]. destruct (stays (X i) (ns i) (hs i)), j, (cold i); reflexivity.
Qed.
Lemma rep_inv j i : (i <= its)%nat -> like s (l_pos (rep j i)) /\ l_data (rep j i) = drawn get_data (snd (of_pair x0 j)) i /\ l_key (rep j i) = chain (k0 j) i.
Proof.
  induction i as [|i IH]; intros Hi.
  - unfold rep. rewrite X0. unfold re_sgld_init, pt_init. cbn. destruct Hx, j; cbn; auto.
  - destruct IH as (L & D & K); [lia|]. rewrite rep_step by lia.
    destruct (@lv_common s Hs normal Hn Data Batch vtree (Adaption.ad_state rms_st) get_data pot_value pot_likelihoods pot_model pot_grad Hg None I (eps i) (T j i) _ L) as (P1 & P2 & _ & _ & _ & P3 & _).
    cbn [drawn chain]. rewrite <- D, <- K. auto.
Qed.
Notation theta := (fun j i => l_pos (rep j i)).
Notation model := (fun j i => l_model (rep j i)).
Lemma rep_parts j i : (i < its)%nat ->
  l_pot (rep j (S i)) = pot_value (theta j i) (batch_no get_data (snd (of_pair x0 j)) i) (model j i) /\
  l_model (rep j (S i)) = pot_model (theta j i) (batch_no get_data (snd (of_pair x0 j)) i) (model j i) /\
  l_var (rep j (S i)) = population_variance (pot_likelihoods (theta j i) (batch_no get_data (snd (of_pair x0 j)) i) (model j i)).
Proof.
  intros Hi. destruct (@rep_inv j i ltac:(lia)) as (L & D & K). rewrite rep_step by auto.
  destruct (@lv_common s Hs normal Hn Data Batch vtree (Adaption.ad_state rms_st) get_data pot_value pot_likelihoods pot_model pot_grad Hg None I (eps i) (T j i) _ L) as (_ & _ & P1 & P2 & P3 & _).
  cbv zeta in P1, P2, P3. rewrite P1, P2, P3. unfold batch_no. rewrite D. auto.
Qed.
Notation var k := (population_variance (pot_likelihoods (theta (cold k) k) (batch_no get_data (snd (of_pair x0 (cold k))) k) (model (cold k) k))).
(** the updated chains before the exchange *)
Lemma new_normal i : (i < its)%nat -> lupd (pt_normal (X i)) (ns i) = rep (cold i) (S i).
Proof. intros Hi. rewrite rep_step, rep_cold, Bool.eqb_reflx by auto. destruct (Hns Hi) as [N1 N2]. unfold re_update. now rewrite N1, N2. Qed.
Lemma new_hot i : (i < its)%nat -> lupd (pt_hot (X i)) (hs i) = rep (negb (cold i)) (S i).
Proof. intros Hi. rewrite rep_step, rep_hot by auto. destruct (Hhs Hi) as [N1 N2]. unfold re_update. rewrite N1, N2. destruct (cold i); reflexivity. Qed.
Lemma solver_inv i : (i <= its)%nat -> pt_step (X i) = i /\ pt_F (X i) = Fin 1 /\ pt_key (X i) = chain (Sub (PRNGKey 0) 0) i /\ pt_ssq (X i) = Fin (sum_upto i (fun k => var k) / INR i).
Proof.
  induction i as [|i IH]; intros Hi.
  - rewrite X0. unfold re_sgld_init, pt_init. cbn. repeat split. f_equal. unfold sum_upto. cbn. lra.
  - destruct IH as (I1 & I2 & I3 & I4); [lia|]. rewrite XS by lia. destruct (upd_fields (X i) (ns i) (hs i)) as (_ & _ & -> & -> & -> & ->).
    rewrite I1, I2. split; auto. split; auto. split; [cbn [chain]; now rewrite I3|].
    unfold pt_new_ssq. rewrite I1, I4, new_normal by lia. destruct (@rep_parts (cold i) i ltac:(lia)) as (_ & _ & ->).
    rewrite sum_upto_S. unfold xsub. cbn [xopp xadd xmul]. f_equal. set (v := var i). set (q := sum_upto i _). destruct i as [|i]; [cbn; lra|].
    rewrite !S_INR. pose proof (pos_INR i). field. lra.
Qed.
Lemma path : re_sgld_trajectory s normal uniform get_data pot_value pot_likelihoods pot_model pot_grad implemented_exchange tau model0 x0 its eps theta model cold /\
  forall i, (i < its)%nat -> sgld_sample (pt_normal (X (S i))) = re_saved get_data pot_value x0 theta model cold i.
Proof.
  split; [split|].
  - split; [reflexivity|]. intros j. unfold rep. rewrite X0. unfold re_sgld_init, pt_init. cbn. destruct j; auto.
  - intros j i Hi. apply rep_inv; auto.
  - intros j i Hi. apply rep_parts; auto.
  - intros j i c Hi Hc. cbv zeta. destruct (@rep_inv j i ltac:(lia)) as (L & D & K). rewrite rep_step by auto.
    destruct (@lv_plain s Hs normal Hn Data Batch vtree (Adaption.ad_state rms_st) get_data pot_value pot_likelihoods pot_model pot_grad Hg None I (eps i) (T j i) _ L (or_introl eq_refl)) as (_ & P2 & _).
    cbv zeta in P2. rewrite P2 by auto. rewrite K. unfold batch_no. rewrite D. reflexivity.
  - intros i Hi. cbv zeta. destruct (@solver_inv i ltac:(lia)) as (I1 & I2 & I3 & _). destruct (@solver_inv (S i) ltac:(lia)) as (_ & _ & _ & I4).
    rewrite XS in I4 by auto. destruct (upd_fields (X i) (ns i) (hs i)) as (_ & _ & _ & _ & _ & Eq). rewrite Eq in I4. clear Eq.
    destruct (Hns Hi) as [_ N2]. destruct (Hhs Hi) as [_ H2]. destruct (@rep_parts (cold i) i Hi) as (P1 & _). destruct (@rep_parts (negb (cold i)) i Hi) as (P2 & _).
    set (V := fun k => var k) in *. set (ssq := sum_upto (S i) V / INR (S i)) in *. 
    assert (El : log_s (X i) (ns i) (hs i) = Fin ((1 - 1 / tau) * (l_pot (rep (cold i) (S i)) - l_pot (rep (negb (cold i)) (S i)) - (1 - 1 / tau) * ssq))).
    { unfold pt_log_s. rewrite I4, N2, H2, I2, new_normal, new_hot by auto. rewrite !xdiv_fin by lra. unfold xsub. cbn [xopp xadd xmul]. rewrite xdiv_fin by lra. cbn [xopp xadd xmul]. f_equal. field. lra. }
    rewrite P1, P2 in El. cbv beta in El.
    set (rate := (1 - 1 / tau) * _) in El.
    assert (Hl : stays (X i) (ns i) (hs i) = true <-> uniform (Sub (chain (Sub (PRNGKey 0) 0) i) 1) < exp rate).
    { unfold stays. rewrite El, I3, xltb_true. apply log_lt. apply Hu. }
    unfold implemented_exchange. cbn [cold]. split; intros Hd.
    + apply Hl in Hd. now rewrite Hd.
    + destruct (stays (X i) (ns i) (hs i)) eqn:Es; [|reflexivity]. apply proj1 in Hl. specialize (Hl eq_refl). subst rate V ssq. cbv beta in *. lra.
  - intros i Hi. rewrite <- rep_cold. unfold re_saved, sgld_sample. destruct (@rep_parts (cold (S i)) i Hi) as (-> & -> & _). cbv beta zeta.
    reflexivity.
Qed.
End Path.
End Proof.

(** re_sgld with the exchange as implemented *)
Theorem C67_re_sgld_partial : re_sgld_claim implemented_exchange.
Proof.
  intros s normal uniform Data Batch get_data pv pl pm pg Hs Hn Hu Hg Hm Key choice tk z Hc a f l n its tau model0 Hf Hl Ha Hacc Hhot Htau H1 H2 H3.
  destruct (@alias_main_schedule Key choice tk a its f l Ha Hf Hl H1 H2) as (eps & HE & HM). exists eps. split; auto.
  intros h starts Hx. set (g := guarded normal uniform get_data pv pl pm pg Hm).
  assert (HK : keeps_structure g) by apply guarded_keeps.
  assert (Hlift : exists states : list (so_state g), map (@proj1_sig _ _) states = map (re_sgld_init model0) starts).
  { clear -Hx. induction Hx as [|x0 starts [L1 L2] _ [states IH]]; [exists []; reflexivity|]. exists (exist _ (re_sgld_init model0 x0) (init_alike model0 x0 L1 L2) :: states). cbn. now rewrite IH. }
  destruct Hlift as (states & Est). rewrite <- Est.
  destruct (@C51_accepted_samples Key choice Hc tk arr z g HK a) with (n := n) (its := its) (h := h) (states := states) as (rs & R1 & R2); auto.
  { now rewrite Hhot. }
  { unfold good_steps. rewrite Ha. exists f, l. auto. }
  exists rs. split; [rewrite <- R1; f_equal; apply guarded_sim|]. clear R1.
  revert starts Hx Est. induction R2 as [|st r states rs R3 R4 IH]; intros [|x0 starts] Hx Est; try discriminate; constructor.
  2:{ apply IH; [now inversion Hx|]. now injection Est. }
  cbn [map] in Est. injection Est as Est _. inversion Hx as [|? ? Hx0 _]; subst. clear IH R4 Hx.
  destruct R3 as (L & L1 & L2 & L3 & (main & helpers & sts & xs & (sc & I1) & I2 & I3 & I4 & I5)).
  destruct (@alias_helper_schedule Key choice tk a its f l tau eps Ha Hf Hl Hhot H1 H2 HM main sc helpers I1 I2) as (hot & -> & HH).
  destruct I3 as (J1 & J2 & J3 & J4). specialize (HM main sc I1).
  set (X := fun i => match nth_error sts i with Some q => proj1_sig q | None => proj1_sig st end).
  set (ns := fun i => sched_get _ _ _ _ (after _ _ _ _ main (firstn i xs))). set (hs := fun i => sched_get _ _ _ _ (after _ _ _ _ hot (firstn i xs))).
  destruct (@path s Hs normal Hn uniform Hu Data Batch get_data pv pl pm pg Hg Hm model0 x0 tau its eps X ns hs Htau Hx0) as (T1 & T2).
  - unfold X. rewrite J3. exact Est.
  - intros i Hi. unfold X. assert (exists q, nth_error sts i = Some q) as (q & Eq). { destruct (nth_error sts i) eqn:E; eauto. apply nth_error_None in E. lia. }
    rewrite Eq. destruct (J4 i q Hi Eq) as (s' & x & U1 & U2 & _). rewrite U2. cbn [map] in U1. apply (f_equal (fun p => proj1_sig (fst p))) in U1. symmetry. exact U1.
  - intros i Hi. specialize (HM (firstn i xs)). rewrite firstn_length, J2, Nat.min_l in HM by lia. exact (HM Hi).
  - intros i Hi. specialize (HH (firstn i xs)). rewrite firstn_length, J2, Nat.min_l in HH by lia. exact (HH Hi).
  - eexists _, _, _, L. split; [exact T1|]. split; [exact L1|]. split; [exact L2|]. split; [exact L3|]. split; [congruence|].
    rewrite <- (@samples_map _ g sts _ L); auto. intros i Hi. specialize (L3 i Hi). destruct (nth_error sts (S i)) as [q|] eqn:Eq; [|apply nth_error_None in Eq; lia].
    exists q. split; [reflexivity|]. rewrite <- T2 by lia. unfold X. rewrite Eq. reflexivity.
Qed.

Lemma exactly_first V (a b : tree V) l l' t : exactly_samples (a :: l) t -> exactly_samples (b :: l') t -> leaves a = leaves b.
Proof.
  intros [A1 A2] [B1 B2]. inversion A1 as [|? ? SA _]; subst. inversion B1 as [|? ? SB _]; subst. apply structure_leaves in SA, SB. apply nth_error_ext. intros j.
  destruct (Nat.lt_ge_cases j (length (leaves t))) as [Hj|Hj].
  - specialize (A2 j Hj). specialize (B2 j Hj). rewrite A2 in B2. injection B2 as B2. unfold column in B2. cbn [map flat_map] in B2.
    destruct (nth_error (leaves a) j) eqn:Ea; [|apply nth_error_None in Ea; lia]. destruct (nth_error (leaves b) j) eqn:Eb; [|apply nth_error_None in Eb; lia]. now injection B2 as ->.
  - replace (nth_error (leaves a) j) with (@None V) by (symmetry; apply nth_error_None; lia). symmetry. apply nth_error_None. lia.
Qed.
Lemma first_two L : length L = 2%nat -> increasing L -> (forall i, In i L -> (0 <= i < 2)%nat) -> L = [0; 1]%nat.
Proof.
  intros H1 H2 H3. destruct L as [|i [|j [|]]]; try discriminate. assert (i < j)%nat by (apply (H2 0 1)%nat; auto).
  pose proof (H3 i (or_introl eq_refl)). pose proof (H3 j (or_intror (or_introl eq_refl))). f_equal; [lia|f_equal; lia].
Qed.
Lemma nth_repeat0 m i : nth i (repeat 0 m) 0 = 0. Proof. revert i. induction m; destruct i; cbn; auto. Qed.
(** auxiliary definition of a statement or a proof; models no code of /repo *)
Definition re_example (exchange : R -> R -> bool -> bool -> Prop) (theta : bool -> nat -> vtree) model cold (eps : nat -> R) : Prop :=
  re_sgld_trajectory (tree_ab 0 0) (fun _ sh => repeat 0 (size sh)) (fun _ => 1/2) (fun d : unit => (d, d)) (fun _ _ _ => 0) (fun _ _ _ => []) (fun _ _ m => m) (fun _ _ _ => tree_ab 0 0)
    exchange 10 (Leaf (mkArr [] [0])) ((tree_ab 1 2, tt), (tree_ab 3 4, tt)) 2 eps theta model cold.
Lemma re_example_first ex theta model cold eps : re_example ex theta model cold eps -> (forall j, el (theta j 1%nat) 0%nat = if j then 3 else 1) /\ (forall j, model j 1%nat = Leaf (mkArr [] [0])) /\ ex (1/2) (exp 0) false (cold 1%nat).
Proof.
  intros [[Hc H0] H1 H2 H3 H4]. split; [|split].
  - intros j. pose proof (H3 j 0%nat 0%nat ltac:(lia) ltac:(cbn; lia)) as E. cbv zeta in E. rewrite E. destruct (H0 j) as [-> _].
    unfold xi. cbn. destruct j; cbn; unfold el; cbn; rewrite ?nth_repeat0; lra.
  - intros j. rewrite H2 by lia. apply H0.
  - specialize (H4 0%nat ltac:(lia)). cbv zeta in H4. rewrite Hc in H4. replace (exp 0) with (exp ((1 - 1 / 10) * (0 - 0 - (1 - 1 / 10) * (sum_upto 1 (fun _ => population_variance []) / INR 1)))); [exact H4|].
    f_equal. unfold sum_upto, population_variance, sum_upto. cbn. replace (TreeUtil.rsum []) with 0 by reflexivity. unfold Rdiv. ring.
Qed.
(** with the documented exchange the property is false: a constant potential (rate one, so that the replicas should be exchanged in every iteration), no noise *)
Theorem C67_re_sgld_refuted : ~ re_sgld_claim documented_exchange.
Proof.
  intros H. pose proof C67_re_sgld_partial as H'.
  set (a := mkAlias (Fin 0.5) (Fin 0.1) None 0 (Some 2%nat) true false (Some (Fin 10))).
  assert (Hz : forall (t : vtree) (b : unit) (m : vtree), like (tree_ab 0 0) t -> like (tree_ab 0 0) (tree_ab 0 0)) by (intros; split; [apply tree_ab_wf|repeat split]).
  assert (HN : normal_ok (fun _ sh => repeat 0 (size sh))) by (intros k sh; apply repeat_length).
  specialize (H (tree_ab 0 0) (fun _ sh => repeat 0 (size sh)) (fun _ => 1/2) unit unit (fun d => (d, d)) (fun _ _ _ => 0) (fun _ _ _ => []) (fun _ _ m => m) (fun _ _ _ => tree_ab 0 0) (tree_ab_wf 0 0) HN
    ltac:(intros; lra) Hz ltac:(intros; reflexivity) unit first_choice tt (fun x => x) first_choice_ok a 0.5 0.1 2%nat 2%nat 10 (Leaf (mkArr [] [0])) eq_refl eq_refl eq_refl eq_refl eq_refl ltac:(lra) ltac:(lra) ltac:(lia) ltac:(cbn; lia)).
  specialize (H' (tree_ab 0 0) (fun _ sh => repeat 0 (size sh)) (fun _ => 1/2) unit unit (fun d => (d, d)) (fun _ _ _ => 0) (fun _ _ _ => []) (fun _ _ m => m) (fun _ _ _ => tree_ab 0 0) (tree_ab_wf 0 0) HN
    ltac:(intros; lra) Hz ltac:(intros; reflexivity) unit first_choice tt (fun x => x) first_choice_ok a 0.5 0.1 2%nat 2%nat 10 (Leaf (mkArr [] [0])) eq_refl eq_refl eq_refl eq_refl eq_refl ltac:(lra) ltac:(lra) ltac:(lia) ltac:(cbn; lia)).
  destruct H as (e1 & _ & H). destruct H' as (e2 & _ & H').
  set (x0 := ((tree_ab 1 2, tt), (tree_ab 3 4, tt))) in *.
  assert (HF : Forall (fun x0 : (vtree * unit) * (vtree * unit) => like (tree_ab 0 0) (fst (fst x0)) /\ like (tree_ab 0 0) (fst (snd x0))) [x0]).
  { constructor; [|constructor]. split; (split; [apply tree_ab_wf|repeat split]). }
  destruct (H [] [x0] HF) as (r1 & R1 & F1). destruct (H' [] [x0] HF) as (r2 & R2 & F2). rewrite R1 in R2. injection R2 as <-.
  inversion F1 as [|? r ? rs (th1 & mo1 & c1 & L1 & T1 & LL1 & I1 & B1 & _ & E1) F1']; subst. inversion F2 as [|? ? ? ? (th2 & mo2 & c2 & L2 & T2 & LL2 & I2 & B2 & _ & E2) F2']; subst.
  rewrite (first_two LL1 I1 B1) in E1. rewrite (first_two LL2 I2 B2) in E2. cbn [map] in E1, E2. pose proof (exactly_first E1 E2) as E.
  destruct (re_example_first T1) as (A1 & A2 & A3). destruct (re_example_first T2) as (C1 & C2 & C3). rewrite exp_0 in *.
  assert (D1 : c1 1%nat = true) by (apply A3; lra). assert (D2 : c2 1%nat = false) by (apply C3; lra).
  unfold re_saved in E. rewrite D1, D2, A2, C2 in E. cbn in E. rewrite !app_nil_r in E. injection E as E.
  specialize (A1 true). specialize (C1 false). unfold el, ravel in A1, C1. rewrite E in A1. rewrite A1 in C1. lra.
Qed.
(** The hypotheses of the partial theorem are met by the same example. *)
Example C67_nonvacuous : exists r theta model cold eps, re_example implemented_exchange theta model cold eps /\ falling 2 0.5 0.1 eps /\
  snd (al_run first_choice tt (mkAlias (Fin 0.5) (Fin 0.1) None 0 (Some 2%nat) true false (Some (Fin 10))) (fun x => x)
    (re_sgld_solver (fun _ sh => repeat 0 (size sh)) (fun _ => 1/2) (fun d : unit => (d, d)) (fun _ _ _ => 0) (fun _ _ _ => []) (fun _ _ m => m) (fun _ _ _ => tree_ab 0 0)) (mc_new false)
    [re_sgld_init (Leaf (mkArr [] [0])) ((tree_ab 1 2, tt), (tree_ab 3 4, tt))] 2) = Some (Ok [r]) /\
  cold 1%nat = false /\ el (theta true 1%nat) 0%nat = 3.
Proof.
  pose proof C67_re_sgld_partial as H.
  assert (Hz : forall (t : vtree) (b : unit) (m : vtree), like (tree_ab 0 0) t -> like (tree_ab 0 0) (tree_ab 0 0)) by (intros; split; [apply tree_ab_wf|repeat split]).
  assert (HN : normal_ok (fun _ sh => repeat 0 (size sh))) by (intros k sh; apply repeat_length).
  specialize (H (tree_ab 0 0) (fun _ sh => repeat 0 (size sh)) (fun _ => 1/2) unit unit (fun d => (d, d)) (fun _ _ _ => 0) (fun _ _ _ => []) (fun _ _ m => m) (fun _ _ _ => tree_ab 0 0) (tree_ab_wf 0 0) HN
    ltac:(intros; lra) Hz ltac:(intros; reflexivity) unit first_choice tt (fun x => x) first_choice_ok (mkAlias (Fin 0.5) (Fin 0.1) None 0 (Some 2%nat) true false (Some (Fin 10))) 0.5 0.1 2%nat 2%nat 10
    (Leaf (mkArr [] [0])) eq_refl eq_refl eq_refl eq_refl eq_refl ltac:(lra) ltac:(lra) ltac:(lia) ltac:(cbn; lia)).
  destruct H as (eps & He & H).
  destruct (H [] [((tree_ab 1 2, tt), (tree_ab 3 4, tt))]) as (rs & R & F). { constructor; [|constructor]. split; (split; [apply tree_ab_wf|repeat split]). }
  inversion F as [|? r ? rs' (th & mo & c & L & T & _) F']; subst. inversion F'; subst. exists r, th, mo, c, eps. split; [exact T|]. split; [exact He|]. split; [exact R|].
  destruct (re_example_first T) as (A1 & A2 & A3). rewrite exp_0 in A3. split; [apply A3; lra|apply (A1 true)].
Qed.
Print Assumptions C67_re_sgld_partial. Print Assumptions C67_re_sgld_refuted.
