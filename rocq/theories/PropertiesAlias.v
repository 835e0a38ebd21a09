(** C51: the alias solvers return the requested samples. *)
From Coq Require Import Reals Lra ZArith String.
From Verif Require Import Base ListUtil Pytree PytreeSpec PytreeProofs Io IoSpec IoProofs IoFinal TreeUtil TreeUtilSpec Integrator Xreal Scheduler SchedulerSpec SchedulerProofs StepSizeProofs PropertiesScheduler Solver SolverSpec SolverProofs SolverFinal PropertiesSolver Alias.
Open Scope nat_scope.
Set Implicit Arguments.

(** a strictly increasing list of iterations *)
Definition increasing (l : list nat) : Prop := forall i j x y, i < j -> nth_error l i = Some x -> nth_error l j = Some y -> x < y.
Lemma increasing_filter f : forall n b, increasing (filter f (seq b n)).
Proof.
  assert (H : forall n b i j x y, i < j -> nth_error (filter f (seq b n)) i = Some x -> nth_error (filter f (seq b n)) j = Some y -> x < y).
  { induction n as [|n IH]; intros b i j x y Hij Hx Hy; [destruct i; discriminate|]. cbn [seq filter] in *. destruct (f b); [|eauto].
    destruct j as [|j]; [lia|]. cbn in Hy. destruct i as [|i]; cbn in Hx.
    - inversion Hx; subst. apply nth_error_In, filter_In in Hy. destruct Hy as [Hy _]. apply in_seq in Hy. lia.
    - eapply (IH (S b) i j); eauto. lia. }
  intros n b. exact (H n b).
Qed.
Lemma Forall2_impl A B (P Q : A -> B -> Prop) l l' : (forall x y, P x y -> Q x y) -> Forall2 P l l' -> Forall2 Q l l'.
Proof. intros H. induction 1; constructor; auto. Qed.
(** as many rows as samples: nothing but the samples *)
Lemma holds_exactly V (z : V -> V) s0 K (ss : list (tree V)) t : holds_samples z s0 K (map leaves ss) t -> length ss = K -> Forall (fun s => same_structure s s0) ss -> exactly_samples ss t.
Proof.
  intros [I3 I4] HK HS. split.
  - rewrite Forall_forall in *. intros s Hs. eapply structure_trans; [exact I3|]. apply structure_sym. auto.
  - intros j Hj. destruct (nth_error (leaves s0) j) as [leaf|] eqn:El.
    + rewrite (I4 j leaf El). rewrite firstn_all2 by (rewrite map_length; lia). rewrite map_length, HK, Nat.sub_diag. cbn [repeat]. now rewrite app_nil_r.
    + apply nth_error_None in El. apply structure_leaves in I3. lia.
Qed.

Section C51.
Variable Key : Type.
Variable choice : Key -> list xr -> nat -> list nat.
Hypothesis Hchoice : choice_ok choice.
Variable tk : Key.
Variables (V : Type) (zeros_like : V -> V) (so : solver V).
Hypothesis HK : keeps_structure so.
Variable a : alias_args.
(** the solver takes one schedule, or two if there is a helper chain *)
Hypothesis Harity : so_schedules so = match al_hot a with Some _ => 2 | None => 1 end.
Notation step := (al_step a). Notation temp := al_temp. Notation burn := (al_burn a). Notation thin := (al_thin choice tk a).
Notation arun m states its := (al_run choice tk a zeros_like so m states its).

(** the samples returned for the initial state s0 are those after the iterations L of the solver, run with the schedules of this alias *)
Definition returns (its : nat) (L : list nat) (s0 : so_state so) (r : result V) : Prop :=
  exists main helpers sts xs,
    (exists sc, sched_init step temp burn thin (al_progress_bar a) its (no_kw step temp burn thin) = Ok (main, sc)) /\
    (map_res (fun kw => let* r := sched_init step temp burn thin (al_progress_bar a) its kw in Ok (fst r)) (al_helpers choice tk a) = Ok helpers) /\
    iterates so (main :: helpers) s0 its sts xs /\ fst r = length L /\ exactly_samples (samples_at so sts L) (snd r).

(** all states of a MemoryCollector without directory that are reached by use *)
Notation used h := (fst (run (mstep zeros_like) (mc_new false) h)).

Lemma helpers_init its main sc : sched_init step temp burn thin (al_progress_bar a) its (no_kw step temp burn thin) = Ok (main, sc) ->
  exists helpers, map_res (fun kw => let* r := sched_init step temp burn thin (al_progress_bar a) its kw in Ok (fst r)) (al_helpers choice tk a) = Ok helpers.
Proof.
  intros H. unfold al_helpers. destruct (al_hot a) as [tau|]; [|exists []; reflexivity]. cbn [map_res].
  unfold sched_init in *. cbn [kw_step kw_temp kw_burn kw_thin no_kw] in *.
  destruct (sp_init thin its (sp_nokw thin)) as [t|]; cbn [bind] in *; [|discriminate].
  destruct (sp_init burn its (sp_nokw burn)) as [b|]; cbn [bind] in *; [|discriminate].
  destruct (sp_init step its (sp_nokw step)) as [s|]; cbn [bind] in *; [|discriminate].
  cbn. eexists. reflexivity.
Qed.
(** everything in one *)
Lemma alias_returns its main sc K : sched_init step temp burn thin (al_progress_bar a) its (no_kw step temp burn thin) = Ok (main, sc) -> sc = Z.of_nat K ->
  (forall xs, length xs = its -> length (kept_its _ _ _ _ main xs) = K) ->
  forall h states, exists results, snd (arun (used h) states its) = Some (Ok results) /\
    Forall2 (fun s0 r => exists xs, length xs = its /\ returns its (kept_its _ _ _ _ main xs) s0 r) states results.
Proof.
  intros H Hsc Hk h states. destruct (@helpers_init its main sc H) as (helpers & Hh).
  assert (OK : schedulers_ok (al_progress_bar a) so its (al_helpers choice tk a) main sc helpers).
  { split; [exact H|]. split; [lia|]. split; [exact Hh|]. rewrite Harity. unfold al_helpers. destruct (al_hot a); reflexivity. }
  destruct (C32_returned_samples zeros_like HK OK states) as (rs & E & HF). exists rs. split.
  - unfold al_run. destruct (al_save_to_numpy a); [|exact E].
    destruct (C33_collector zeros_like HK OK (dir := false) (states := states) h) as (rs' & E1 & E2); [apply Forall_forall; intros s _ Hd; discriminate|]. cbv zeta in E2. rewrite E in E1. congruence.
  - clear E. induction HF as [|s0 r states rs (sts & xs & I1 & I2 & I3) HF IH]; constructor; auto. exists xs. assert (HX : length xs = its) by apply I1. split; auto.
    exists main, helpers, sts, xs. split; [eauto|]. split; [exact Hh|]. split; [exact I1|]. split; [exact I2|].
    eapply holds_exactly; [exact I3| |].
    + rewrite (samples_length main I1), Hk by auto. lia.
    + apply Forall_forall. intros s Hs. unfold samples_at in Hs. apply in_flat_map in Hs. destruct Hs as (i & _ & Hs).
      destruct (nth_error sts (S i)) as [s1|] eqn:E1; [|contradiction]. destruct Hs as [<-|[]]. eapply iterates_structure; eauto.
Qed.

(** the schedules of the alias functions with 0 < last < first *)
Definition good_steps (its : nat) : Prop :=
  match al_adaptive a with
  | Some _ => True
  | None => exists f l, al_first a = Fin f /\ al_last a = Fin l /\ (0 < l < f)%R /\ 2 <= its
  end.
Lemma step_init its : good_steps its -> exists s, sp_init step its (sp_nokw step) = Ok s.
Proof.
  unfold good_steps, al_step. destruct (al_adaptive a) as [p|]; [intros _; cbn; eauto|]. intros (f & l & -> & -> & Hl & Hi).
  destruct (@positive_first_last its f l 0.33%R) as (s & E & _); auto; [lra|]. eauto.
Qed.

(** accepted_samples = n: exactly n samples, from n different iterations after burn-in, in their order - for any choice function, collector history, number of chains *)
Theorem C51_accepted_samples : forall n its, al_adaptive a = None -> al_accepted a = Some n -> good_steps its -> al_burn_in a + n <= its ->
  forall h states, exists results, snd (arun (used h) states its) = Some (Ok results) /\
    Forall2 (fun s0 r => exists L, length L = n /\ increasing L /\ (forall i, In i L -> al_burn_in a <= i < its) /\ returns its L s0 r) states results.
Proof.
  intros n its Ha Hn Hg Hle h states.
  assert (Et : thin = random_thinning Key choice step burn n tk) by (unfold al_thin; now rewrite Ha, Hn).
  assert (Hpos : positive_steps step its).
  { unfold good_steps, al_step in *. rewrite Ha in *. destruct Hg as (f & l & -> & -> & Hl & Hi). apply positive_first_last; auto. lra. }
  destruct (@C26_thinning Key choice Hchoice step temp (al_progress_bar a) unit step n tk (al_burn_in a) its Hpos) as [H1 _]; [apply step_init; auto|cbn; eauto|].
  fold burn in H1. cbv zeta in H1. rewrite <- Et in H1. destruct (H1 ltac:(lia)) as (main & L & E & HL & ND & HB & HP).
  destruct (@alias_returns its main _ n E) with (h := h) (states := states) as (rs & R1 & R2).
  - lia.
  - intros xs HX. rewrite (Permutation_length (HP xs HX)). exact HL.
  - exists rs. split; auto. eapply Forall2_impl; [|exact R2]. intros s0 r (xs & HX & R). exists (kept_its step temp burn thin main xs).
    split; [rewrite (Permutation_length (HP xs HX)); auto|]. split; [apply increasing_filter|]. split; auto.
    intros i Hi. apply HB. eapply Permutation_in; [apply (HP xs HX)|]. exact Hi.
Qed.
(** too few iterations: an exception, before the collector is touched *)
Theorem C51_too_few_iterations : forall n its, al_adaptive a = None -> al_accepted a = Some n -> good_steps its -> its - al_burn_in a < n ->
  forall m s states, arun m (s :: states) its = (m, Some (Exc AssertionError)).
Proof.
  intros n its Ha Hn Hg Hlt m s states.
  assert (Et : thin = random_thinning Key choice step burn n tk) by (unfold al_thin; now rewrite Ha, Hn).
  assert (Hpos : positive_steps step its).
  { unfold good_steps, al_step in *. rewrite Ha in *. destruct Hg as (f & l & -> & -> & Hl & Hi). apply positive_first_last; auto. lra. }
  destruct (@C26_thinning Key choice Hchoice step temp (al_progress_bar a) unit step n tk (al_burn_in a) its Hpos) as [_ H1]; [apply step_init; auto|cbn; eauto|].
  fold burn in H1. cbv zeta in H1. rewrite <- Et in H1. specialize (H1 Hlt).
  unfold al_run. cbn [run_no_save run_collector mcmc_map]. unfold mcmc_chain, mcmc_init. rewrite H1. destruct (al_save_to_numpy a); reflexivity.
Qed.
(** no thinning (accepted_samples = None, amagold and sggmc; adaptive or not): all iterations after burn-in *)
Theorem C51_no_thinning : forall its, al_accepted a = None -> good_steps its -> al_burn_in a <= its ->
  forall h states, exists results, snd (arun (used h) states its) = Some (Ok results) /\
    Forall2 (fun s0 r => returns its (seq (al_burn_in a) (its - al_burn_in a)) s0 r) states results.
Proof.
  intros its Hn Hg Hle h states.
  assert (Et : thin = accept_all) by (unfold al_thin; rewrite Hn; destruct (al_adaptive a); reflexivity).
  destruct (@step_init its Hg) as (s & Es).
  assert (E : exists main, sched_init step temp burn thin (al_progress_bar a) its (no_kw step temp burn thin) = Ok (main, (Z.of_nat its - Z.of_nat (al_burn_in a))%Z)).
  { rewrite Et. unfold sched_init. cbn [no_kw kw_step kw_temp kw_burn kw_thin accept_all al_burn initial_burn_in sp_init sp_nokw kwarg bind fst snd]. rewrite Es.
    cbn [bind al_temp constant_temperature sp_init]. eexists. do 2 f_equal. lia. }
  destruct E as (main & E).
  assert (HKP : forall xs, length xs = its -> kept_its step temp burn thin main xs = seq (al_burn_in a) (its - al_burn_in a)).
  { clear -Et E. revert main E. rewrite Et. intros main E. exact (proj2 (@C25_kept_iterations _ _ _ _ _ _ _ E)). }
  destruct (@alias_returns its main _ (its - al_burn_in a) E) with (h := h) (states := states) as (rs & R1 & R2).
  - lia.
  - intros xs HX. rewrite (HKP xs HX). apply seq_length.
  - exists rs. split; auto. eapply Forall2_impl; [|exact R2]. intros s0 r (xs & HX & R). now rewrite (HKP xs HX) in R.
Qed.
End C51.
(** thinning and adaptive step size together are refused when the solver is constructed *)
Theorem C51_adaptive_thinning : forall a p n, al_adaptive a = Some p -> al_accepted a = Some n -> al_build a = Exc AssertionError.
Proof. intros a p n H1 H2. unfold al_build. now rewrite H1, H2. Qed.

(** the step sizes of a run: value of the step size schedule at iteration i when the solver reports the statistics xs *)
Definition step_at (a : alias_args) (its : nat) (xs : list stats) : res xr :=
  let* s := sp_init (al_step a) its (sp_nokw (al_step a)) in Ok (sp_get (al_step a) (evolve (al_step a) (fst s) 0 xs) (length xs) no_stats).
(** defaults of sgld, re_sgld, sghmc, obabo: finite positive step sizes, from first to last, for any number of iterations >= 2 *)
Theorem C51_default_steps : forall a, In a [sgld_defaults; re_sgld_defaults; sghmc_defaults; obabo_defaults] -> forall its, 2 <= its ->
  exists v : nat -> R, v 0 = 0.05%R /\ v (its - 1) = 0.001%R /\ (forall i, (0 < v i)%R) /\ (forall i j, i < j -> (v j < v i)%R) /\
  forall xs, length xs < its -> step_at a its xs = Ok (Fin (v (length xs))).
Proof.
  intros a Ha its Hi.
  assert (Es : al_step a = polynomial_step_size_first_last (Fin 0.05) (Fin 0.001) (Fin 0.33)) by (cbn in Ha; destruct Ha as [<-|[<-|[<-|[<-|[]]]]]; reflexivity).
  destruct (@C29_first_last_partial its 0.33 0.05 0.001) as (v & E & H0 & H1 & H2 & H3); [lra|lra|auto|]. exists v. split; auto. split; auto. split; auto. split; auto.
  intros xs Hx. unfold step_at. rewrite Es. cbn [polynomial_step_size_first_last sp_init sp_nokw kwarg]. rewrite E. cbn [bind fst].
  rewrite evolve_static by reflexivity. cbn [polynomial_step_size_first_last sp_get]. f_equal. apply (clamp_get_map (fun i => Fin (v i))). exact Hx.
Qed.
(** defaults of amagold and sggmc: every step size is NaN *)
Theorem C51_default_steps_refuted : forall a, In a [amagold_defaults; sggmc_defaults] -> forall its, 2 <= its -> forall xs, length xs < its -> step_at a its xs = Ok NaN.
Proof.
  intros a Ha its Hi xs Hx.
  assert (Es : al_step a = polynomial_step_size_first_last (Fin 0.001) (Fin 0.001) (Fin 0.33)) by (cbn in Ha; destruct Ha as [<-|[<-|[]]]; reflexivity).
  unfold step_at. rewrite Es. cbn [polynomial_step_size_first_last sp_init sp_nokw kwarg]. rewrite C29_equal_refuted by (lra || auto). cbn [bind fst].
  rewrite evolve_static by reflexivity. cbn [polynomial_step_size_first_last sp_get]. f_equal. unfold clamp_get. rewrite repeat_length.
  apply nth_repeat.
Qed.
(** sgld, sghmc, obabo with any positive burn-in and otherwise default arguments, also of the run function: an exception.  (1000 samples are to be selected from
    1000 iterations) *)
Theorem C51_default_burn_in_refuted : forall Key (choice : Key -> list xr -> nat -> list nat) tk V (z : V -> V) (so : solver V), choice_ok choice ->
  forall d b, In d [sgld_defaults; sghmc_defaults; obabo_defaults] -> 0 < b ->
  let a := mkAlias (al_first d) (al_last d) (al_adaptive d) b (al_accepted d) (al_save_to_numpy d) (al_progress_bar d) (al_hot d) in
  forall m s states, al_run choice tk a z so m (s :: states) default_iterations = (m, Some (Exc AssertionError)).
Proof.
  intros Key choice tk V z so Hc d b Hd Hb a m s states.
  apply (@C51_too_few_iterations Key choice Hc tk V z so a) with (n := 1000); cbn in Hd; destruct Hd as [<-|[<-|[<-|[]]]]; try reflexivity;
    try (exists 0.05%R, 0.001%R; split; [reflexivity|]; split; [reflexivity|]; split; [lra|unfold default_iterations; lia]); unfold default_iterations, a; cbn [al_burn_in]; lia.
Qed.
(** with burn_in = 0 the defaults work: 1000 (100) samples *)
Theorem C51_defaults : forall Key (choice : Key -> list xr -> nat -> list nat) tk V (z : V -> V) (so : solver V), choice_ok choice -> keeps_structure so ->
  forall d n, In (d, n) [(sgld_defaults, 1000); (sghmc_defaults, 1000); (obabo_defaults, 1000); (re_sgld_defaults, 100)] -> so_schedules so = match al_hot d with Some _ => 2 | None => 1 end ->
  forall h states, exists results, snd (al_run choice tk d z so (fst (run (mstep z) (mc_new false) h)) states default_iterations) = Some (Ok results) /\
    Forall2 (fun s0 r => exists L, length L = n /\ increasing L /\ (forall i, In i L -> 0 <= i < default_iterations) /\ returns choice tk so d default_iterations L s0 r) states results.
Proof.
  intros Key choice tk V z so Hc HK d n Hd Ha h states.
  assert (HA : al_adaptive d = None /\ al_accepted d = Some n /\ good_steps d default_iterations /\ al_burn_in d = 0 /\ n <= 1000).
  { cbn in Hd. destruct Hd as [H|[H|[H|[H|[]]]]]; injection H as <- <-; (split; [reflexivity|]; split; [reflexivity|]; split; [|split; [reflexivity|lia]]);
      exists 0.05%R, 0.001%R; (split; [reflexivity|]; split; [reflexivity|]; split; [lra|unfold default_iterations; lia]). }
  destruct HA as (A1 & A2 & A3 & A4 & A5).
  destruct (@C51_accepted_samples Key choice Hc tk V z so HK d Ha n default_iterations A1 A2 A3) with (h := h) (states := states) as (rs & R1 & R2); [rewrite A4; unfold default_iterations; lia|].
  rewrite A4 in R2. exists rs. auto.
Qed.
Print Assumptions C51_accepted_samples. Print Assumptions C51_no_thinning. Print Assumptions C51_default_steps.
