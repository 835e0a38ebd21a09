(** C32, C33, C53: mcmc. *)
From Coq Require Import Reals ZArith String.
From Verif Require Import Base ListUtil Pytree PytreeSpec PytreeProofs Io IoSpec IoProofs IoFinal Xreal Scheduler SchedulerSpec SchedulerProofs PropertiesScheduler Solver SolverSpec SolverProofs SolverFinal.
Open Scope nat_scope.
Set Implicit Arguments.

(** the schedulers of a run: main scheduler, announced number of samples, helper schedulers *)
Definition schedulers_ok {V} ss te bi th pb (so : solver V) iterations (schedulers : list (sched_kw ss te bi th)) main sc helpers : Prop :=
  sched_init ss te bi th pb iterations (no_kw ss te bi th) = Ok (main, sc) /\ (0 <= sc)%Z /\
  map_res (fun kw => let* r := sched_init ss te bi th pb iterations kw in Ok (fst r)) schedulers = Ok helpers /\
  so_schedules so = S (length schedulers).

(** ** C32 *)
Theorem C32_returned_samples : forall V (zeros_like : V -> V) ss te bi th pb (so : solver V) iterations (schedulers : list (sched_kw ss te bi th)) main sc helpers,
  keeps_structure so -> schedulers_ok pb so iterations schedulers main sc helpers ->
  forall states, exists results, run_no_save zeros_like pb so StMap states iterations schedulers = Some (Ok results) /\
    Forall2 (fun s0 r => exists sts xs,
      iterates so (main :: helpers) s0 iterations sts xs /\
      fst r = length (kept_its ss te bi th main xs) /\
      holds_samples zeros_like (so_get so s0) (Z.to_nat sc) (map leaves (samples_at so sts (kept_its ss te bi th main xs))) (snd r)) states results.
Proof.
  intros V z ss te bi th pb so its kws main sc helpers HK (H1 & H2 & H3 & H4) states.
  destruct (@final_map_collector _ z _ _ _ _ pb so its kws _ _ _ HK H1 H2 H3 H4 false states [] ) as (rs & h' & E & _).
  { rewrite Forall_forall. intros s _ Hd. discriminate. }
  exists rs. split; auto. cbn [run_no_save] in E.
  destruct (mcmc_map pb so (no_saving z) tt states its kws) as [[] o] eqn:Em. cbn [snd] in E. subst o. apply final_map_no_save in Em.
  induction Em as [|s r states rs Hc Hcs IH]; constructor; auto.
  destruct (final_chain z pb s its kws HK H1 H2 H3 H4) as (sts & xs & n & t & I1 & I2 & I3 & I4). rewrite Hc in I2. inversion I2; subst r.
  exists sts, xs. auto.
Qed.

Lemma samples_length V ss te bi th (so : solver V) (inits : list (sched_state ss te bi th)) s0 n sts xs main : iterates so inits s0 n sts xs ->
  length (samples_at so sts (kept_its ss te bi th main xs)) = length (kept_its ss te bi th main xs).
Proof.
  intros (L1 & L2 & _). assert (Hall : forall i, In i (kept_its ss te bi th main xs) -> S i < length sts).
  { intros i Hi. unfold kept_its in Hi. apply filter_In in Hi. destruct Hi as [Hi _]. apply in_seq in Hi. lia. }
  revert Hall. generalize (kept_its ss te bi th main xs). induction l as [|i l IH]; intros Hall; auto.
  unfold samples_at in *. cbn [flat_map]. rewrite app_length, IH by (intros; apply Hall; simpl; auto).
  destruct (nth_error sts (S i)) eqn:En; auto. apply nth_error_None in En. specialize (Hall i (or_introl eq_refl)). lia.
Qed.
Lemma iterates_structure V ss te bi th (so : solver V) (inits : list (sched_state ss te bi th)) s0 n sts xs : keeps_structure so ->
  iterates so inits s0 n sts xs -> forall i s, nth_error sts i = Some s -> same_structure (so_get so s) (so_get so s0).
Proof.
  intros HK (L1 & L2 & L3 & L4). induction i as [|i IH]; intros s Hs.
  - rewrite L3 in Hs. inversion Hs. reflexivity.
  - assert (Hi : S i < length sts) by (apply nth_error_Some; congruence).
    destruct (nth_error sts i) as [s1|] eqn:E1; [|apply nth_error_None in E1; lia].
    destruct (L4 i s1) as (s2 & x & E2 & E3 & _); [lia|auto|]. rewrite Hs in E3. inversion E3; subst s2.
    eapply structure_trans; [|apply (IH s1); reflexivity]. match type of E2 with so_update _ _ ?l = _ => pose proof (HK s1 l) as Hk end. rewrite E2 in Hk. exact Hk.
Qed.

(** burn-in and no thinning: the samples are exactly those of the iterations burn_in .. iterations-1 *)
Theorem C32_burn_in : forall V (zeros_like : V -> V) ss te pb (so : solver V) b iterations (schedulers : list (sched_kw ss te (initial_burn_in b) accept_all)) main sc helpers,
  keeps_structure so -> schedulers_ok pb so iterations schedulers main sc helpers ->
  forall states, exists results, run_no_save zeros_like pb so StMap states iterations schedulers = Some (Ok results) /\
    Forall2 (fun s0 r => exists sts xs, iterates so (main :: helpers) s0 iterations sts xs /\
      fst r = iterations - b /\ exactly_samples (samples_at so sts (seq b (iterations - b))) (snd r)) states results.
Proof.
  intros V z ss te pb so b its kws main sc helpers HK H states. pose proof H as (H1 & H2 & _).
  destruct (C32_returned_samples z HK H states) as (rs & E & HF). exists rs. split; auto. clear E.
  destruct (final_burn_in_default _ _ _ _ _ _ _ H1) as [Hsc Hk]. 
  induction HF as [|s0 r states rs (sts & xs & I1 & I2 & I3) HF IH]; constructor; auto. exists sts, xs. split; auto.
  pose proof (samples_length main I1) as HL.
  assert (HX : length xs = its) by apply I1. rewrite (Hk xs HX) in *. rewrite seq_length in I2. split; auto.
  assert (HSS : Forall (fun s => same_structure (snd r) s) (samples_at so sts (seq b (its - b)))).
  { rewrite Forall_forall. intros s Hs. unfold samples_at in Hs. apply in_flat_map in Hs. destruct Hs as (i & _ & Hs).
    destruct (nth_error sts (S i)) as [s1|] eqn:E1; [|contradiction]. destruct Hs as [<-|[]]. destruct I3 as [I3 _].
    eapply structure_trans; [exact I3|]. apply structure_sym. eapply iterates_structure; eauto. }
  split; auto. intros j Hj. destruct I3 as [I3 I4].
  destruct (nth_error (leaves (so_get so s0)) j) as [leaf|] eqn:El.
  - rewrite (I4 j leaf El). rewrite seq_length in HL. rewrite firstn_all2 by (rewrite map_length; lia).
    rewrite map_length, HL. replace (Z.to_nat sc - (its - b)) with 0 by lia. simpl. now rewrite app_nil_r.
  - apply nth_error_None in El. apply structure_leaves in I3. lia.
Qed.

(** a burn-in that is longer than the run is not possible *)
Theorem C32_long_burn_in : forall V (zeros_like : V -> V) ss te pb (so : solver V) b iterations main sc, iterations < b ->
  sched_init ss te (initial_burn_in b) accept_all pb iterations (no_kw _ _ _ _) = Ok (main, sc) ->
  forall s states, exists e, run_no_save zeros_like pb so StMap (s :: states) iterations (@nil (sched_kw ss te (initial_burn_in b) accept_all)) = Some (Exc e).
Proof.
  intros V z ss te pb so b its main sc Hb H s states. destruct (C27_long_burn_in _ _ _ _ _ _ _ Hb H) as [Hsc _]. exists TypeError.
  cbn [run_no_save mcmc_map]. unfold mcmc_chain, mcmc_init. rewrite H. cbn [map_res no_saving sa_init]. destruct (Z.ltb_spec sc 0); [reflexivity|lia].
Qed.

(** the states and statistics of a run are determined *)
Theorem C32_deterministic : forall V ss te bi th (so : solver V) (inits : list (sched_state ss te bi th)) s0 n sts xs sts' xs',
  iterates so inits s0 n sts xs -> iterates so inits s0 n sts' xs' -> sts = sts' /\ xs = xs'.
Proof. intros. eapply iterates_unique; eauto. Qed.

(** example: a counter that is increased by the iteration, burn-in 1, three iterations *)
Definition counter : solver nat := sgmc (fun s sch => S s) (fun s => Leaf s).
Example C32_nonvacuous : exists main sc,
  keeps_structure counter /\
  schedulers_ok (ss := constant_temperature (Fin 1)) (te := constant_temperature (Fin 1)) (bi := initial_burn_in 1) (th := accept_all) true counter 3 [] main sc [] /\
  run_no_save (fun _ => 0) true counter StMap [10; 20] 3 (@nil (sched_kw (constant_temperature (Fin 1)) (constant_temperature (Fin 1)) (initial_burn_in 1) accept_all))
  = Some (Ok [(2, Leaf [12; 13]); (2, Leaf [22; 23])]).
Proof.
  eexists _, _. split; [intros s l; destruct l; reflexivity|]. split.
  - split; [reflexivity|]. split; [vm_compute; discriminate|]. split; reflexivity.
  - vm_compute. reflexivity.
Qed.

(** ** C33 *)
(** strategy 'map': results in the order of the initial states, each the result of running this state alone *)
Theorem C33_chains_alone : forall V (zeros_like : V -> V) ss te bi th pb (so : solver V) iterations (schedulers : list (sched_kw ss te bi th)) states results,
  run_no_save zeros_like pb so StMap states iterations schedulers = Some (Ok results) <->
  Forall2 (fun s r => run_no_save zeros_like pb so StMap [s] iterations schedulers = Some (Ok [r])) states results.
Proof.
  intros V z ss te bi th pb so its kws states results. cbn [run_no_save].
  assert (H1 : forall s r, snd (mcmc_map pb so (no_saving z) tt [s] its kws) = Some (Ok [r]) <-> mcmc_chain pb so (no_saving z) tt s its kws = (tt, Some (Ok r))).
  { intros s r. cbn [mcmc_map]. destruct (mcmc_chain pb so (no_saving z) tt s its kws) as [[] [[y|e]|]]; cbn; split; intros H; inversion H; auto. }
  assert (H2 : snd (mcmc_map pb so (no_saving z) tt states its kws) = Some (Ok results) <-> mcmc_map pb so (no_saving z) tt states its kws = (tt, Some (Ok results))).
  { destruct (mcmc_map pb so (no_saving z) tt states its kws) as [[] o]; cbn; split; intros H; inversion H; auto. }
  rewrite H2, final_map_no_save. split; intros H; clear H2; induction H as [|s r l l0 Hx Hl IH]; constructor; auto; now apply H1.
Qed.
(** with a MemoryCollector that was used before in any way (h): the same results *)
Theorem C33_collector : forall V (zeros_like : V -> V) ss te bi th pb (so : solver V) iterations (schedulers : list (sched_kw ss te bi th)) main sc helpers,
  keeps_structure so -> schedulers_ok pb so iterations schedulers main sc helpers ->
  forall dir states h, Forall (fun s => dir = true -> exists ks, dict_keys (so_get so s) = Ok ks) states ->
  let m := fst (run (mstep zeros_like) (mc_new dir) h) in
  exists results, run_no_save zeros_like pb so StMap states iterations schedulers = Some (Ok results) /\
    snd (run_collector zeros_like pb so StMap m states iterations schedulers) = Some (Ok results).
Proof.
  intros V z ss te bi th pb so its kws main sc helpers HK (H1 & H2 & H3 & H4) dir states h Hn m.
  destruct (@final_map_collector _ z _ _ _ _ pb so its kws _ _ _ HK H1 H2 H3 H4 dir states h Hn) as (rs & h' & E & E2). exists rs. split; auto. subst m. now rewrite E2.
Qed.
(** an unknown strategy *)
Theorem C33_unknown_strategy : forall V (zeros_like : V -> V) ss te bi th pb (so : solver V) iterations (schedulers : list (sched_kw ss te bi th)) main sc helpers,
  schedulers_ok pb so iterations schedulers main sc helpers ->
  forall states, states <> [] -> run_no_save zeros_like pb so StOther states iterations schedulers = Some (Exc NotImplementedError).
Proof. intros V z ss te bi th pb so its kws main sc helpers (H1 & H2 & H3 & H4) states Hne. eapply final_unknown; eauto. Qed.
Example C33_nonvacuous :
  snd (run_collector (fun _ => 0) true counter StMap (mc_new true) [10; 20] 3 (@nil (sched_kw (constant_temperature (Fin 1)) (constant_temperature (Fin 1)) (initial_burn_in 1) accept_all)))
  = Some (Ok [(2, Leaf [12; 13]); (2, Leaf [22; 23])]).
Proof. vm_compute. reflexivity. Qed.

(** ** C53 *)
Theorem C53_vmap_no_save : forall V (zeros_like : V -> V) ss te bi th pb (so : solver V) iterations (schedulers : list (sched_kw ss te bi th)) main sc helpers,
  keeps_structure so -> schedulers_ok pb so iterations schedulers main sc helpers ->
  forall states, states <> [] ->
  run_no_save zeros_like pb so StVmap states iterations schedulers = run_no_save zeros_like pb so StMap states iterations schedulers.
Proof. intros V z ss te bi th pb so its kws main sc helpers HK (H1 & H2 & H3 & H4) states Hne. eapply final_vmap_no_save; eauto. Qed.
(** with a collector (io.save) the callback is executed in every iteration: the collector holds the first samples, kept or not,
    while the counter counts the kept ones *)
Theorem C53_vmap_collector_refuted : forall V (zeros_like : V -> V) ss te bi th pb (so : solver V) iterations (schedulers : list (sched_kw ss te bi th)) main sc helpers,
  keeps_structure so -> schedulers_ok pb so iterations schedulers main sc helpers ->
  forall dir h s0, (dir = true -> exists ks, dict_keys (so_get so s0) = Ok ks) ->
  exists sts xs n t, iterates so (main :: helpers) s0 iterations sts xs /\
    snd (run_collector zeros_like pb so StVmap (fst (run (mstep zeros_like) (mc_new dir) h)) [s0] iterations schedulers) = Some (Ok [(n, t)]) /\
    n = length (samples_at so sts (kept_its ss te bi th main xs)) /\
    holds_samples zeros_like (so_get so s0) (Z.to_nat sc) (map leaves (samples_at so sts (seq 0 iterations))) t.
Proof. intros V z ss te bi th pb so its kws main sc helpers HK (H1 & H2 & H3 & H4) dir h s0 Hn. eapply final_vmap_collector; eauto. Qed.
(** two chains, burn-in 1, three iterations: the samples of the burn-in are returned *)
Theorem C53_vmap_collector_example_refuted :
  let kws := @nil (sched_kw (constant_temperature (Fin 1)) (constant_temperature (Fin 1)) (initial_burn_in 1) accept_all) in
  run_no_save (fun _ => 0) true counter StVmap [10; 20] 3 kws = Some (Ok [(2, Leaf [12; 13]); (2, Leaf [22; 23])]) /\
  snd (run_collector (fun _ => 0) true counter StVmap (mc_new false) [10; 20] 3 kws) = Some (Ok [(2, Leaf [11; 12]); (2, Leaf [21; 22])]).
Proof. split; vm_compute; reflexivity. Qed.

Print Assumptions C32_returned_samples.
Print Assumptions C32_burn_in.
Print Assumptions C32_long_burn_in.
Print Assumptions C32_deterministic.
Print Assumptions C33_chains_alone.
Print Assumptions C33_collector.
Print Assumptions C33_unknown_strategy.
Print Assumptions C53_vmap_no_save.
Print Assumptions C53_vmap_collector_refuted.
Print Assumptions C53_vmap_collector_example_refuted.
