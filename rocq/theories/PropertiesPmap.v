(** C75: mcmc with strategy "pmap". *)
From Coq Require Import Reals ZArith String.
From Verif Require Import Base ListUtil Pytree PytreeSpec Io IoSpec Xreal Scheduler SchedulerSpec Solver SolverSpec SolverProofs SolverFinal PropertiesSolver SolverPmap.
Open Scope nat_scope.
Set Implicit Arguments.

(** io.save with a MemoryCollector that was used before in any way (h): whatever the order in which the devices execute their iterations (who), the results are those of the strategy "map" without collector *)
Theorem C75_collector : forall V (zeros_like : V -> V) ss te bi th pb (so : solver V) iterations (schedulers : list (sched_kw ss te bi th)) main sc helpers,
  keeps_structure so -> schedulers_ok pb so iterations schedulers main sc helpers ->
  forall dir h devices who states, states <> [] -> length states <= devices ->
  Forall (fun s => dir = true -> exists ks, dict_keys (so_get so s) = Ok ks) states ->
  interleaving (length states) iterations who ->
  let m := fst (run (mstep zeros_like) (mc_new dir) h) in
  exists results, run_no_save zeros_like pb so StMap states iterations schedulers = Some (Ok results) /\
    snd (mcmc_pmap pb so (collector_saving zeros_like) devices who m states iterations schedulers) = Some (Ok results).
Proof. intros V z ss te bi th pb so its kws main sc helpers HK (H1 & H2 & H3 & H4) dir h devices who states Hne Hd Hn Hw m. eapply final_pmap_collector; eauto. Qed.

(** io.no_save *)
Theorem C75_no_save : forall V (zeros_like : V -> V) ss te bi th pb (so : solver V) iterations (schedulers : list (sched_kw ss te bi th)) main sc helpers,
  keeps_structure so -> schedulers_ok pb so iterations schedulers main sc helpers ->
  forall devices who states, states <> [] -> length states <= devices -> interleaving (length states) iterations who ->
  snd (mcmc_pmap pb so (no_saving zeros_like) devices who tt states iterations schedulers) = run_no_save zeros_like pb so StMap states iterations schedulers.
Proof. intros V z ss te bi th pb so its kws main sc helpers HK (H1 & H2 & H3 & H4) devices who states Hne Hd Hw. eapply final_pmap_no_save; eauto. Qed.

(** too few devices *)
Theorem C75_too_few_devices : forall V (zeros_like : V -> V) ss te bi th pb (so : solver V) iterations (schedulers : list (sched_kw ss te bi th)) main sc helpers,
  schedulers_ok pb so iterations schedulers main sc helpers ->
  forall devices who states, devices < length states ->
  snd (mcmc_pmap pb so (no_saving zeros_like) devices who tt states iterations schedulers) = Some (Exc ValueError).
Proof.
  intros V z ss te bi th pb so its kws main sc helpers (H1 & H2 & H3 & H4) devices who states Hd. unfold mcmc_pmap.
  assert (Hi : forall s, mcmc_init pb so (no_saving z) tt s its kws = (tt, Ok (main :: helpers, ns_init z (so_get so s) (Z.to_nat sc)))).
  { intros s. unfold mcmc_init. rewrite H1, H3. cbn [no_saving sa_init]. destruct (Z.ltb_spec sc 0); [lia|reflexivity]. }
  assert (Ha : mcmc_init_all pb so (no_saving z) tt states its kws = (tt, Ok (map (fun s => (s, main :: helpers, ns_init z (so_get so s) (Z.to_nat sc))) states))).
  { clear Hd. induction states as [|s r IH]; auto. cbn [mcmc_init_all]. rewrite Hi, IH. reflexivity. }
  rewrite Ha. destruct states as [|s r]; [reflexivity|]. cbn [map]. replace (devices <? _) with true; [reflexivity|]. symmetry. apply Nat.ltb_lt. cbn [length] in *. rewrite map_length. exact Hd.
Qed.

(** two devices, three iterations, interleaved: as in C32 *)
Example C75_nonvacuous : interleaving 2 3 [1; 0; 1; 1; 0; 0] /\
  snd (mcmc_pmap true counter (collector_saving (fun _ => 0)) 2 [1; 0; 1; 1; 0; 0] (mc_new true) [10; 20] 3
    (@nil (sched_kw (constant_temperature (Fin 1)) (constant_temperature (Fin 1)) (initial_burn_in 1) accept_all)))
  = Some (Ok [(2, Leaf [12; 13]); (2, Leaf [22; 23])]).
Proof.
  split; [|vm_compute; reflexivity]. split; [repeat constructor|]. intros [|[|j]] Hj; [reflexivity|reflexivity|lia].
Qed.
Print Assumptions C75_collector. Print Assumptions C75_no_save. Print Assumptions C75_too_few_devices.
