(** The composition of the models of scheduler, integrator, adaption, solver and saving to alias.sgld. *)
From Coq Require Import Reals Lra ZArith String.
From Verif Require Import Base ListUtil Pytree PytreeSpec PytreeProofs Io IoSpec IoProofs IoFinal TreeUtil TreeUtilSpec TreeUtilProofs Integrator IntegratorSpec IntegratorBasics LangevinProofs PropertiesIntegrator
  Xreal Scheduler SchedulerSpec SchedulerProofs StepSizeProofs PropertiesScheduler Solver SolverSpec SolverProofs SolverFinal PropertiesSolver Adaption AdaptionSpec AdaptionProofs PropertiesAdaption Alias PropertiesAlias.
Open Scope R_scope.
Set Implicit Arguments.

Lemma tadd_structure a b : same_structure (tadd a b) a.
Proof.
  unfold tadd, tree_add, tree_op2. destruct (same_structb a b) eqn:E.
  - apply same_structb_spec in E. destruct (tree_map2_ok pair E) as (t & -> & S & L). cbn [bind]. unfold tree_mapM. destruct (mapM _ (leaves t)) as [ls|] eqn:Em; [|reflexivity]. cbn [bind].
    assert (HL : length ls = length (leaves t)). { clear -Em. revert ls Em. induction (leaves t) as [|x l IH]; intros ls Em; cbn in Em; [inversion Em; reflexivity|]. destruct (arr_op2 _ _ _); [|discriminate]. cbn in Em. destruct (mapM _ l); [|discriminate]. inversion Em; subst. cbn. now rewrite (IH _ eq_refl). }
    destruct (@unflatten_ok _ _ t ls HL) as (t' & -> & _ & S'). cbn [ok_or]. eapply structure_trans; eauto.
  - assert (N : ~ same_structure a b) by (intros H; apply same_structb_spec in H; congruence). apply (tree_map2_mismatch pair) in N. rewrite N. reflexivity.
Qed.

Section Sgld.
Variable s : vtree.
Hypothesis Hs : wfv s.
Variable normal : key -> list nat -> list R.
Hypothesis Hn : normal_ok normal.
Variables (Data Batch : Type).
Variable get_data : Data -> Data * Batch.
Variables (pot_value : vtree -> Batch -> vtree -> R) (pot_likelihoods : vtree -> Batch -> vtree -> list R)
  (pot_model : vtree -> Batch -> vtree -> vtree) (pot_grad : vtree -> Batch -> vtree -> vtree).
Hypothesis Hg : forall t b m, like s t -> like s (pot_grad t b m).
(** the likelihood returns a model state of the same structure *)
Hypothesis Hm : forall t b m, same_structure (pot_model t b m) m.
Notation state := (lv_st Data vtree (Adaption.ad_state rms_st)).
Notation solver_of rms := (sgld_solver normal get_data pot_value pot_likelihoods pot_model pot_grad rms).
Lemma sgld_keeps rms : keeps_structure (solver_of rms).
Proof.
  intros st schedules. destruct schedules as [|sch l]; [reflexivity|]. cbn [sgld_solver sgmc so_update so_get fst]. unfold lv_update.
  destruct (get_data (l_data st)) as [d b]. destruct (random_tree _ _ _) as [noise used].
  match goal with |- context [let '(x, y) := ?e in _] => destruct e as [us ad] end. unfold sgld_sample. cbn [fst l_pos l_model l_pot].
  pose proof (tadd_structure (l_pos st) us) as H1. pose proof (Hm (l_pos st) b (l_model st)) as H2. unfold same_structure in *. cbn in *. now rewrite H1, H2.
Qed.

(** the recursion of (preconditioned) SGLD in a run of its iterations started at x0 *)
Record sgld_trajectory (rms : bool) (alpha lmbd : R) (data0 : Data) (model0 x0 : vtree) (its : nat) (eps : nat -> R) (theta model : nat -> vtree) : Prop := mkTraj {
  tr_start : theta 0%nat = x0 /\ model 0%nat = model0;
  tr_like : forall i, (i <= its)%nat -> like s (theta i);
  tr_model : forall i, (i < its)%nat -> model (S i) = pot_model (theta i) (batch_no get_data data0 i) (model i);
  tr_step : forall i c, (i < its)%nat -> (c < dim s)%nat ->
    let g k := pot_grad (theta k) (batch_no get_data data0 k) (model k) in
    let G := if rms then 1 / (lmbd + sqrt (weighted_square alpha (fun k => el (g k) c) (S i))) else 1 in
    el (theta (S i)) c = el (theta i) c - eps i * (G * el (g i) c) + sqrt (2 * eps i) * (sqrt G * xi normal (Sub (chain (PRNGKey 0) i) 1) s c)
}.
(** what is saved for iteration i: note that the likelihood is the one of the position before the step *)
Definition saved_sample (data0 : Data) (theta model : nat -> vtree) (i : nat) : vtree :=
  Node (KDict ["likelihood"; "model_state"; "variables"]%string)
    [Leaf (mkArr [] [- pot_value (theta i) (batch_no get_data data0 i) (model i)]); model (S i); theta (S i)].

Lemma sgld_path rms alpha lmbd data0 model0 x0 its (eps : nat -> R) (sts : list state) : like s x0 -> (rms = true -> 0 <= alpha <= 1 /\ 0 < lmbd) ->
  length sts = S its -> nth_error sts 0 = Some (sgld_init rms alpha lmbd data0 model0 x0) ->
  (forall i st, (i < its)%nat -> nth_error sts i = Some st -> exists sch, sch_step sch = Fin (eps i) /\ sch_temperature sch = Fin 1 /\ nth_error sts (S i) = Some (fst (so_update (solver_of rms) st [sch]))) ->
  exists theta model, sgld_trajectory rms alpha lmbd data0 model0 x0 its eps theta model /\
    forall i, (i < its)%nat -> exists st, nth_error sts (S i) = Some st /\ sgld_sample st = saved_sample data0 theta model i.
Proof.
  intros Hx Hr HL H0 Hstep.
  set (theta := fun i => match nth_error sts i with Some st => l_pos st | None => x0 end).
  set (model := fun i => match nth_error sts i with Some st => l_model st | None => model0 end).
  set (g := fun k => pot_grad (theta k) (batch_no get_data data0 k) (model k)).
  set (hist := fun i => map (fun k => (theta k, g k)) (seq 0 i)).
  exists theta, model.
  assert (INV : forall i, (i <= its)%nat -> exists st, nth_error sts i = Some st /\ like s (l_pos st) /\ l_data st = drawn get_data data0 i /\ l_key st = chain (PRNGKey 0) i /\
     l_adapt st = (if rms then Some (rms_run alpha lmbd x0 (hist i)) else None) /\ Forall (fun xg => like s (snd xg)) (hist i)).
  { induction i as [|i IH]; intros Hi.
    - exists (sgld_init rms alpha lmbd data0 model0 x0). split; auto. split; [exact Hx|]. split; auto. split; auto. split; [unfold sgld_init; destruct rms; reflexivity|constructor].
    - destruct IH as (st & E & L & D & K & A & F); [lia|]. destruct (Hstep i st ltac:(lia) E) as (sch & S1 & S2 & E'). cbn [sgld_solver sgmc so_update fst] in E'. rewrite S1, S2 in E'. cbn [real] in E'.
      eexists. split; [exact E'|].
      assert (Gi : pot_grad (l_pos st) (snd (get_data (l_data st))) (l_model st) = g i).
      { unfold g, theta, model, batch_no. rewrite E, D. reflexivity. }
      assert (Hh : hist (S i) = hist i ++ [(l_pos st, pot_grad (l_pos st) (snd (get_data (l_data st))) (l_model st))]).
      { unfold hist. rewrite seq_S, map_app. cbn [map plus]. rewrite Gi. replace (theta i) with (l_pos st) by (unfold theta; now rewrite E). reflexivity. }
      assert (F' : Forall (fun xg => like s (snd xg)) (hist (S i))) by (rewrite Hh; apply Forall_app; split; [exact F|constructor; [apply Hg; exact L|constructor]]).
      destruct rms.
      + destruct (Hr eq_refl) as [Ha Hl].
        destruct (@C44_psgld_step s normal Data Batch vtree get_data pot_value pot_likelihoods pot_model pot_grad Hs Hn Hg alpha lmbd x0 (hist i) (eps i) 1 st Ha Hl Hx F L A) as (P1 & P0 & _).
        rewrite <- Hh in P1. split.
        * exact P0.
        * split; [|split; [|split; [exact P1|exact F']]].
          -- unfold lv_update. cbn [drawn]. rewrite <- D. destruct (get_data (l_data st)). destruct (random_tree _ _ _). match goal with |- context [let '(x, y) := ?e in _] => destruct e end. reflexivity.
          -- unfold lv_update. cbn [chain]. rewrite <- K. destruct (get_data (l_data st)). destruct (random_tree _ _ _). match goal with |- context [let '(x, y) := ?e in _] => destruct e end. reflexivity.
      + destruct (@lv_plain s Hs normal Hn Data Batch vtree (Adaption.ad_state rms_st) get_data pot_value pot_likelihoods pot_model pot_grad Hg None I (eps i) 1 st L (or_introl eq_refl)) as (P1 & _ & P3).
        split; [exact P1|]. destruct (@lv_common s Hs normal Hn Data Batch vtree (Adaption.ad_state rms_st) get_data pot_value pot_likelihoods pot_model pot_grad Hg None I (eps i) 1 st L) as (_ & P4 & _ & _ & _ & P5 & _).
        cbn [drawn chain]. rewrite <- D, <- K. auto. }
  (* the fields *)
  assert (STEP : forall i, (i < its)%nat -> exists st, nth_error sts i = Some st /\ nth_error sts (S i) = Some (fst (lv_update normal get_data pot_value pot_likelihoods pot_model pot_grad (@sgld_adaption Batch rms) (eps i) 1 st))).
  { intros i Hi. destruct (INV i ltac:(lia)) as (st & E & _). exists st. split; auto. destruct (Hstep i st Hi E) as (sch & S1 & S2 & E'). cbn [sgld_solver sgmc so_update fst] in E'. rewrite S1, S2 in E'. exact E'. }
  assert (MOD : forall ad e T (st : state), l_model (fst (lv_update normal get_data pot_value pot_likelihoods pot_model pot_grad ad e T st)) = pot_model (l_pos st) (snd (get_data (l_data st))) (l_model st) /\
     l_pot (fst (lv_update normal get_data pot_value pot_likelihoods pot_model pot_grad ad e T st)) = pot_value (l_pos st) (snd (get_data (l_data st))) (l_model st)).
  { intros ad e T st. unfold lv_update. destruct (get_data (l_data st)). destruct (random_tree _ _ _). match goal with |- context [let '(x, y) := ?e in _] => destruct e end. auto. }
  split.
  - split.
    + unfold theta, model. rewrite H0. auto.
    + intros i Hi. destruct (INV i Hi) as (st & E & L & _). unfold theta. now rewrite E.
    + intros i Hi. destruct (STEP i Hi) as (st & E & E'). destruct (INV i ltac:(lia)) as (st2 & E2 & _ & D & _). rewrite E in E2. injection E2 as <-.
      unfold model, theta, batch_no. rewrite E, E'. rewrite (proj1 (MOD _ _ _ _)), D. reflexivity.
    + intros i c Hi Hc g' G. destruct (STEP i Hi) as (st & E & E'). destruct (INV i ltac:(lia)) as (st2 & E2 & L & D & K & A & F). rewrite E in E2. injection E2 as <-.
      assert (Gi : pot_grad (l_pos st) (snd (get_data (l_data st))) (l_model st) = g i).
      { unfold g, theta, model, batch_no. rewrite E, D. reflexivity. }
      assert (Ti : theta i = l_pos st) by (unfold theta; now rewrite E).
      assert (TS : theta (S i) = l_pos (fst (lv_update normal get_data pot_value pot_likelihoods pot_model pot_grad (@sgld_adaption Batch rms) (eps i) 1 st))) by (unfold theta at 1; now rewrite E').
      change g' with g. rewrite TS, Ti. subst G. destruct rms.
      * destruct (Hr eq_refl) as [Ha Hl].
        destruct (@C44_psgld_step s normal Data Batch vtree get_data pot_value pot_likelihoods pot_model pot_grad Hs Hn Hg alpha lmbd x0 (hist i) (eps i) 1 st Ha Hl Hx F L A) as (_ & _ & P2).
        specialize (P2 c Hc). cbv zeta in P2. rewrite Gi in P2.
        assert (EW : weighted_square alpha (fun k => nth_el (map snd (hist i ++ [(l_pos st, g i)])) k c) (length (hist i ++ [(l_pos st, g i)])) = weighted_square alpha (fun k => el (g k) c) (S i)).
        { assert (LH : length (hist i) = i) by (unfold hist; now rewrite map_length, seq_length).
          rewrite app_length, LH. cbn [length]. rewrite Nat.add_1_r. unfold weighted_square. do 2 f_equal. apply sum_upto_ext. intros k Hk. f_equal.
          assert (EE : nth_el (map snd (hist i ++ [(l_pos st, g i)])) k c = el (g k) c); [|now rewrite EE].
          replace (hist i ++ [(l_pos st, g i)]) with (hist (S i)) by (unfold hist; rewrite seq_S, map_app; cbn [map plus]; now rewrite Ti).
          unfold nth_el, el, hist. rewrite map_map. cbn [snd]. rewrite (@nth_map_in _ _ _ _ _ O) by (rewrite seq_length; lia). now rewrite seq_nth by lia. }
        rewrite EW in P2. replace (2 * eps i) with (2 * 1 * eps i) by ring. rewrite <- K. exact P2.
      * destruct (@lv_plain s Hs normal Hn Data Batch vtree (Adaption.ad_state rms_st) get_data pot_value pot_likelihoods pot_model pot_grad Hg None I (eps i) 1 st L (or_introl eq_refl)) as (_ & P2 & _).
        cbv zeta in P2. cbn [sgld_adaption]. rewrite P2 by auto. rewrite Gi, sqrt_1, <- K. replace (2 * 1 * eps i) with (2 * eps i) by ring. ring.
  - intros i Hi. destruct (STEP i Hi) as (st & E & E'). destruct (INV i ltac:(lia)) as (st2 & E2 & _ & D & _). rewrite E in E2. injection E2 as <-.
    assert (Ti : theta i = l_pos st) by (unfold theta; now rewrite E). assert (Mi : model i = l_model st) by (unfold model; now rewrite E).
    assert (TS : theta (S i) = l_pos (fst (lv_update normal get_data pot_value pot_likelihoods pot_model pot_grad (@sgld_adaption Batch rms) (eps i) 1 st))) by (unfold theta; now rewrite E').
    assert (MS : model (S i) = l_model (fst (lv_update normal get_data pot_value pot_likelihoods pot_model pot_grad (@sgld_adaption Batch rms) (eps i) 1 st))) by (unfold model; now rewrite E').
    eexists. split; [exact E'|]. unfold sgld_sample, saved_sample. rewrite Ti, Mi, TS, MS. rewrite (proj2 (MOD _ _ _ _)). unfold batch_no. rewrite D. reflexivity.
Qed.

(** step sizes f = eps 0 > eps 1 > ... > eps (its-1) = l > 0 *)
Definition falling (its : nat) (f l : R) (eps : nat -> R) : Prop :=
  eps 0%nat = f /\ eps (its - 1)%nat = l /\ (forall i, 0 < eps i) /\ (forall i j, (i < j)%nat -> eps j < eps i).
End Sgld.

(** the main schedule of an alias: falling step sizes, temperature one *)
Lemma alias_main_schedule Key (choice : Key -> list xr -> nat -> list nat) tk a its f l : al_adaptive a = None -> al_first a = Fin f -> al_last a = Fin l -> 0 < l < f -> (2 <= its)%nat ->
  exists eps, falling its f l eps /\ forall main sc, sched_init (al_step a) al_temp (al_burn a) (al_thin choice tk a) (al_progress_bar a) its (no_kw (al_step a) al_temp (al_burn a) (al_thin choice tk a)) = Ok (main, sc) ->
    forall xs, (length xs < its)%nat -> let sch := sched_get _ _ _ _ (after _ _ _ _ main xs) in sch_step sch = Fin (eps (length xs)) /\ sch_temperature sch = Fin 1.
Proof.
  intros Ha Hf Hl H1 H2. destruct (@C29_first_last_partial its 0.33 f l) as (v & E & V0 & V1 & V2 & V3); [lra|auto|auto|]. exists v. split; [split; auto|].
  intros main sc Hi xs Hx. destruct (@C24_schedule_of_iteration _ _ _ _ _ _ _ _ _ Hi) as (s0 & t0 & b0 & nb & h0 & nh & I1 & I2 & _ & _ & _ & I3).
  cbv zeta. rewrite I3. cbn [sch_step sch_temperature]. split.
  - assert (Es : al_step a = polynomial_step_size_first_last (Fin f) (Fin l) (Fin 0.33)) by (unfold al_step; rewrite Ha, Hf, Hl; reflexivity).
    clear I3 Hi main. cbn [no_kw kw_step] in I1. revert s0 I1. rewrite Es. intros s0 I1. cbn [polynomial_step_size_first_last sp_init sp_nokw kwarg] in I1. rewrite E in I1. cbn [bind] in I1. injection I1 as <-.
    rewrite evolve_static by reflexivity. cbn [polynomial_step_size_first_last sp_get]. apply (clamp_get_map (fun i => Fin (v i))). exact Hx.
  - cbn in I2. injection I2 as <-. rewrite evolve_static by reflexivity. reflexivity.
Qed.
Lemma samples_map V (so : solver V) (sts : list (so_state so)) (f : nat -> tree V) L : (forall i, In i L -> exists st, nth_error sts (S i) = Some st /\ so_get so st = f i) -> samples_at so sts L = map f L.
Proof.
  unfold samples_at. induction L as [|i L IH]; intros H; [reflexivity|]. cbn [flat_map map]. destruct (H i (or_introl eq_refl)) as (st & -> & ->). cbn [app]. f_equal. apply IH. intros j Hj. apply H. now right.
Qed.

(** alias.sgld with accepted_samples = n: every chain follows the recursion of (p)SGLD with the advertised step sizes, and the returned samples are those of n iterations
    after burn-in, each chain from its own initial position - for every choice function of random_thinning, every history of the MemoryCollector, any number of chains.
    A chain is started with its position and its data state (the init function of the data access is called once per chain). *)
Theorem C51_sgld : forall s normal Data Batch (get_data : Data -> Data * Batch) pot_value pot_likelihoods pot_model pot_grad, wfv s -> normal_ok normal ->
  (forall t b m, like s t -> like s (pot_grad t b m)) -> (forall t b m, same_structure (pot_model t b m) m) ->
  forall Key (choice : Key -> list xr -> nat -> list nat) tk (z : arr -> arr), choice_ok choice ->
  forall rms alpha lmbd model0, (rms = true -> 0 <= alpha <= 1 /\ 0 < lmbd) ->
  forall a f l n its, al_first a = Fin f -> al_last a = Fin l -> al_adaptive a = None -> al_accepted a = Some n -> al_hot a = None -> 0 < l < f -> (2 <= its)%nat -> (al_burn_in a + n <= its)%nat ->
  exists eps, falling its f l eps /\
  forall h starts, Forall (fun xd => like s (fst xd)) starts ->
  exists results, snd (al_run choice tk a z (sgld_solver normal get_data pot_value pot_likelihoods pot_model pot_grad rms) (fst (run (mstep z) (mc_new false) h))
      (map (fun xd => sgld_init rms alpha lmbd (snd xd) model0 (fst xd)) starts) its) = Some (Ok results) /\
    Forall2 (fun xd r => let x0 := fst xd in let data0 := snd xd in exists theta model L, sgld_trajectory s normal get_data pot_model pot_grad rms alpha lmbd data0 model0 x0 its eps theta model /\
      length L = n /\ increasing L /\ (forall i, In i L -> (al_burn_in a <= i < its)%nat) /\
      fst r = n /\ exactly_samples (map (saved_sample get_data pot_value data0 theta model) L) (snd r)) starts results.
Proof.
  intros s normal Data Batch get_data pv pl pm pg Hs Hn Hg Hm Key choice tk z Hc rms al la model0 Hr a f l n its Hf Hl Ha Hacc Hhot H1 H2 H3.
  destruct (@alias_main_schedule Key choice tk a its f l Ha Hf Hl H1 H2) as (eps & HE & HM). exists eps. split; auto.
  intros h starts Hx. set (so := sgld_solver normal get_data pv pl pm pg rms).
  assert (HK : keeps_structure so) by (apply sgld_keeps; exact Hm).
  destruct (@C51_accepted_samples Key choice Hc tk arr z so HK a) with (n := n) (its := its) (h := h) (states := map (fun xd => sgld_init (Data := Data) rms al la (snd xd) model0 (fst xd)) starts) as (rs & R1 & R2); auto.
  { now rewrite Hhot. }
  { unfold good_steps. rewrite Ha. exists f, l. auto. }
  exists rs. split; [exact R1|]. clear R1. revert rs R2. induction Hx as [|[x0 data0] starts Hx HF IH]; intros rs R2; inversion R2 as [|? r ? rs' R3 R4]; subst; constructor; auto.
  cbn [fst snd] in *. clear IH R4 R2. destruct R3 as (L & L1 & L2 & L3 & (main & helpers & sts & xs & (sc & I1) & I2 & I3 & I4 & I5)).
  assert (EH : helpers = []). { unfold al_helpers in I2. rewrite Hhot in I2. cbn in I2. congruence. } subst helpers.
  destruct I3 as (J1 & J2 & J3 & J4).
  destruct (@sgld_path s Hs normal Hn Data Batch get_data pv pl pm pg Hg Hm rms al la data0 model0 x0 its eps sts Hx Hr J1 J3) as (theta & model & T1 & T2).
  { intros i st Hi Ei. destruct (J4 i st Hi Ei) as (s' & x & U1 & U2 & _). cbn [map] in U1.
    specialize (HM main sc I1 (firstn i xs)). rewrite firstn_length, J2, Nat.min_l in HM by lia. specialize (HM Hi). cbv zeta in HM. destruct HM as [M1 M2].
    eexists. split; [exact M1|]. split; [exact M2|]. etransitivity; [exact U2|]. fold so. rewrite U1. reflexivity. }
  exists theta, model, L. split; [exact T1|]. split; [exact L1|]. split; auto. split; auto. split; [congruence|].
  rewrite <- (@samples_map _ so sts _ L); auto. intros i Hi. apply T2. apply L3. exact Hi.
Qed.
Print Assumptions C51_sgld.
(** The hypotheses are met: f(x) = 1/2 |x|^2, two chains, burn-in 1, three of five iterations. *)
Example C51_nonvacuous : let s := tree_ab 0 0 in let a := mkAlias (Fin 0.5) (Fin 0.1) None 1 (Some 3%nat) true false None in
  exists results, snd (al_run first_choice tt a (fun x => mkArr (ashape x) (map (fun _ => 0) (adata x)))
      (sgld_solver (fun _ sh => repeat 0 (size sh)) (fun d : nat => (S d, d)) (fun x b m => tdot x x / 2) (fun x b m => []) (fun x b m => m) (fun x b m => x) true)
      (mc_new false) (map (fun xd => sgld_init true (9/10) (1/100) (snd xd) (Leaf (mkArr [] [0])) (fst xd)) [(tree_ab 1 2, 0%nat); (tree_ab 3 4, 7%nat)]) 5) = Some (Ok results) /\
    Forall2 (fun (x0 : vtree * nat) (r : result arr) => fst r = 3%nat) [(tree_ab 1 2, 0%nat); (tree_ab 3 4, 7%nat)] results.
Proof.
  intros s a.
  destruct (@C51_sgld s (fun _ sh => repeat 0 (size sh)) nat nat (fun d => (S d, d)) (fun x b m => tdot x x / 2) (fun x b m => []) (fun x b m => m) (fun x b m => x)) with
    (choice := first_choice) (tk := tt) (z := fun x => mkArr (ashape x) (map (fun _ => 0) (adata x))) (rms := true) (alpha := 9/10) (lmbd := 1/100) (model0 := Leaf (mkArr [] [0]))
    (a := a) (f := 0.5) (l := 0.1) (n := 3%nat) (its := 5%nat) as (eps & _ & H); try reflexivity; try lra; try (intros _; lra); try (cbn; lia); auto using tree_ab_wf, first_choice_ok.
  - apply tree_ab_wf.
  - intros k sh. apply repeat_length.
  - destruct (H [] [(tree_ab 1 2, 0%nat); (tree_ab 3 4, 7%nat)]) as (rs & R1 & R2); [repeat constructor|]. exists rs. split; [exact R1|].
    eapply Forall2_impl; [|exact R2]. intros x0 r (th & mo & L & _ & _ & _ & _ & E & _). exact E.
Qed.
