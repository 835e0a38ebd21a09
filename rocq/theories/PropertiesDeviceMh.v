(** C79: alias.amagold and alias.sggmc on a DeviceNumpyDataLoader, with the potentials built by minibatch_potential and full_potential from the user's log likelihood and log prior. *)
From Coq Require Import Reals Lra ZArith String.
From Verif Require Import Base ListUtil NumpyLoader LoaderSpec NumpyLoaderProofs NumpyLoaderApi DeviceData DeviceDataProofs.
From Verif Require Import Pytree PytreeSpec PytreeProofs Io IoSpec IoProofs TreeUtil TreeUtilSpec TreeUtilProofs Integrator IntegratorSpec IntegratorBasics PropertiesIntegrator
  Xreal Scheduler SchedulerSpec PropertiesScheduler Solver SolverSpec Mh MhIntegrators Adaption Alias PropertiesAlias AliasSgld AliasRun AliasHmc AliasData AliasMh AliasMhRun AliasAmagold AliasSggmc.
From Verif Require Import DataCore DataSpec DataFinal Potential PotentialSpec PotentialProofs UnbiasedProofs PropertiesPotential LeapfrogVolume EndToEndSpec EndToEndProofs PropertiesEndToEnd
  MhUserSpec MhUserProofs PropertiesMhUser PropertiesDeviceAlias.
Open Scope R_scope.
Set Implicit Arguments.

(** ** Model: the full potential on a device loader; the data state is the offset (core.py:931-938) *)
Section Map.
Variable obs : Type.
Variables (data : list (string * list obs)) (N bs : nat) (prior : vtree -> R) (has_state : bool) (T : R).
Variable ev : nat -> vtree -> mbatch obs -> list bool -> option vtree -> res R * option vtree.
(** sum_batched_evaluations, potential.py:273-291, for the data state line and the model state m *)
Definition device_full (x : vtree) (line : nat) (m : vtree) := dev_map data N (ev N x) bs line (state_of has_state m).
(** its value, potential.py:287-291.  (An exception would end the program; 0 stands for it.) *)
Definition device_full_value (x : vtree) (line : nat) (m : vtree) : R :=
  match device_full x line m with Ok r => match full_value prior T x (fst (snd r)) with Ok v => v | Exc _ => 0 end | Exc _ => 0 end.
(** the new data state, potential.py:280-283, 291 *)
Definition device_full_next (x : vtree) (line : nat) (m : vtree) : nat := match device_full x line m with Ok r => fst r | Exc _ => line end.
(** the new model state, potential.py:280-283, 291; the new state None replaces the old state None *)
Definition device_full_model (x : vtree) (line : nat) (m : vtree) : vtree := match device_full x line m with Ok (_, (_, Some m')) => m' | _ => m end.
End Map.

Section Full.
Variable obs : Type.
Variables (prior : vtree -> R) (likelihood : lik_fn obs vtree vtree) (has_state : bool) (T : R).
Variable l : option vtree -> vtree -> orow obs -> R.
Hypothesis Hl : evaluates_with likelihood l.
Hypothesis Hk : keeps_state likelihood has_state.
Notation ev := (batch_evaluation likelihood has_state).
Variables (data : list (string * list obs)) (N : nat).
Hypothesis Hd : data <> [].
Hypothesis HN : forall ka, In ka data -> length (snd ka) = N.
Hypothesis Hpos : (0 < N)%nat.
(** batches of one observation, in order *)
Lemma dev_batch_one i : (i < N)%nat -> dev_batch data N 1 i = Ok (((i + 1) mod N)%nat, pass_batch data N 1 i).
Proof.
  intros Hi. unfold dev_batch. cbn [seq map jindex]. unfold jindex. cbn -[Nat.modulo tree_take]. rewrite !(Nat.mod_small i) by exact Hi.
  rewrite (tree_take_ok data HN) by (constructor; [exact Hi|constructor]). cbn [bind].
  unfold pass_batch, pass_indices, map_mask. cbn [seq map repeat]. rewrite !Nat.mul_1_r, !Nat.add_0_r, (Nat.mod_small i) by exact Hi.
  replace (i <? N)%nat with true by (symmetry; apply Nat.ltb_lt; exact Hi). reflexivity.
Qed.
Lemma dev_scan_one C Res (fn : mbatch obs -> list bool -> C -> Res * C) : forall n it c, (it + n <= N)%nat ->
  dev_scan data N fn 1 n it (it mod N) c = Ok (((it + n) mod N)%nat, scan_spec (fun i c => fn (pass_batch data N 1 i) (map_mask N 1 i) c) (seq it n) c).
Proof.
  induction n as [|n IH]; intros it c Hle; cbn [dev_scan seq scan_spec]; [now rewrite Nat.add_0_r|].
  rewrite (Nat.mod_small it) by lia. rewrite dev_batch_one by lia. cbn [bind fst snd]. destruct (fn (pass_batch data N 1 it) (map_mask N 1 it) c) as [r c1].
  replace (it + 1)%nat with (S it) by lia. rewrite (IH (S it) c1) by lia. cbn [bind fst snd]. replace (S it + n)%nat with (it + S n)%nat by lia.
  destruct (scan_spec _ (seq (S it) n) c1); reflexivity.
Qed.
Lemma device_full_is x m : device_full data N 1 has_state ev x 0 m =
  Ok (0%nat, scan_spec (fun i c => ev N x (pass_batch data N 1 i) (map_mask N 1 i) c) (seq 0 (ceil_div N 1)) (state_of has_state m)).
Proof.
  assert (E1 : ceil_div N 1 = N). { destruct (ceil_div_spec N (ltac:(lia) : (0 < 1)%nat)) as [C1 C2]. lia. }
  unfold device_full, dev_map. replace (num_iterations N 1) with N by (unfold num_iterations; auto).
  pose proof (@dev_scan_one _ _ (ev N x) N 0 (state_of has_state m) ltac:(lia)) as E. rewrite Nat.mod_0_l in E by lia. rewrite E. cbn [plus].
  rewrite Nat.mod_same by lia. rewrite E1. reflexivity.
Qed.
Lemma device_full_ok x m : device_full_next data N 1 has_state ev x 0 m = 0%nat /\
  device_full_value data N 1 prior has_state T ev x 0 m = full_posterior prior likelihood has_state T N 1 data l x m /\
  device_full_model data N 1 has_state ev x 0 m = pass_end likelihood has_state N 1 data x m.
Proof.
  unfold device_full_next, device_full_value, device_full_model. rewrite device_full_is. cbn [fst snd].
  pose proof (@pass_full obs prior likelihood has_state T l Hl Hk data N 1 Hd HN ltac:(lia) Hpos x m) as E. rewrite E. split; [reflexivity|]. split; [reflexivity|].
  pose proof (@pass_scan obs prior likelihood has_state l Hl Hk data N 1 Hd HN ltac:(lia) Hpos x m (ceil_div N 1) 0) as E2. unfold pass_state at 1 in E2. cbn [seq fold_left] in E2. rewrite E2.
  cbn [plus]. unfold pass_end, state_of. destruct has_state eqn:EH; [reflexivity|].
  clear. unfold pass_state, next_state. generalize (seq 0 (ceil_div N 1)). intros q. revert m. induction q as [|i q IH]; intros m; [reflexivity|]. cbn [fold_left]. apply IH.
Qed.
Lemma device_full_structure bs x line m : same_structure (device_full_model data N bs has_state ev x line m) m.
Proof.
  unfold device_full_model, device_full, dev_map.
  assert (H : forall n it li m1, same_structure m1 m -> match dev_scan data N (ev N x) bs n it li (state_of has_state m1) with
      Ok r => exists m2, snd (snd r) = state_of has_state m2 /\ same_structure m2 m | Exc _ => True end).
  { induction n as [|n IH]; intros it li m1 H1; cbn [dev_scan]; [exists m1; auto|].
    destruct (dev_batch data N bs li) as [lb|e]; [|exact I]. cbn [bind].
    destruct (@ev_structure obs likelihood has_state l Hl Hk N x (snd lb) (map_mask N bs it) m1) as (m2 & E & S2). destruct (ev N x (snd lb) _ _) as [r c1]. cbn [snd] in E. subst c1.
    assert (S3 : same_structure m2 m) by (unfold same_structure in *; congruence).
    specialize (IH (S it) (fst lb) m2 S3). destruct (dev_scan data N (ev N x) bs n (S it) (fst lb) (state_of has_state m2)) as [[li' [rs c2]]|e]; [|exact I]. exact IH. }
  specialize (H (num_iterations N bs) 0%nat line m eq_refl). destruct (dev_scan _ _ _ _ _ _ _ _) as [[li [rs c]]|e]; [|reflexivity].
  destruct H as (m2 & E & S2). cbn [snd] in E. subst c. unfold state_of. destruct has_state; [exact S2|reflexivity].
Qed.
End Full.

(** The run functions return, for every initial sample, samples of the AMAGOLD (SGGMC) chain for the posterior of the user's model: the minibatches are drawn by
    [device_indices] from PRNGKey(0) in every chain; the potential of the acceptance step is the one of ALL observations, each evaluated once, in batches of
    one observation (whatever batch_size is). *)
Theorem C79_amagold : forall (G K obs : Type) (split : K -> K * K) (randint : K -> nat -> nat -> list nat),
  (forall k n m, length (randint k n m) = n /\ ((0 < m)%nat -> Forall (fun i => (i < m)%nat) (randint k n m))) ->
  forall (key0 : K) (s : vtree) (normal : key -> list nat -> list R) (uniform : key -> R), wfv s -> normal_ok normal -> (forall k, 0 <= uniform k < 1) ->
  forall (prior : vtree -> R) (likelihood : lik_fn obs vtree vtree) (has_state : bool) (T : R) (strategy strategy' : pot_strategy) pot ev,
  minibatch_potential prior likelihood has_state T strategy = Ok pot -> full_potential likelihood has_state strategy' = Ok ev ->
  forall l, evaluates_with likelihood l -> keeps_state likelihood has_state -> forall jgrad, exact_gradients s jgrad ->
  forall (data : list (string * list obs)) (lo : loader G obs) ca mb bs, make_loader data = Ok lo -> let N := l_count lo in
  check_random DeviceKind (Z.of_nat N) (Z.of_nat ca) (Z.of_nat mb) = Ok tt -> dev_full N ca mb = Ok bs ->
  (is_batched likelihood = true -> mb <> 1%nat) ->
  forall Key (choice : Key -> list xr -> nat -> list nat) (tk : Key) (z : arr -> arr), choice_ok choice ->
  forall (steps : nat) (friction : R) (mass : option vtree) (model0 : vtree), (0 < steps)%nat -> (forall m, mass = Some m -> like s m) ->
  forall a its, good_args a its ->
  forall dl dp, (forall x m, like s x -> smooth_at prior has_state N data l s dl dp x m) ->
  forall line, dev_init N 0 = Ok line -> forall h (starts : list vtree), Forall (like s) starts ->
  let full := fun x line m => (Fin (device_full_value data N bs prior has_state T ev x line m), (device_full_next data N bs has_state ev x line m, device_full_model data N bs has_state ev x line m)) in
  exists results, snd (al_run choice tk a z
      (amagold_solver normal uniform (device_source split randint data N mb) (user_model has_state pot N) (user_grad has_state pot N jgrad) full steps friction mass)
      (fst (run (mstep z) (mc_new false) h)) (map (fun x => amagold_init normal full line mass key0 model0 x) starts) its) = Some (Ok results) /\
    Forall2 (fun x0 r => exists eps acc theta mom U E model L,
      amagold_trajectory s normal uniform (device_indices split randint N mb) (next_state likelihood has_state data) (posterior_grad has_state T N data s dl dp)
        (fun x (_ : unit) m => full_posterior prior likelihood has_state T N 1 data l x m) (fun _ u _ => u) (fun x (_ : unit) m => pass_end likelihood has_state N 1 data x m) tt
        steps friction mass key0 model0 x0 its eps acc theta mom U E model (fun _ => tt) /\
      step_sizes a its acc eps /\ (forall i, 0 < eps i) /\ selected a its L /\ fst r = length L /\ exactly_samples (map (amagold_saved eps acc theta E model) L) (snd r)) starts results.
Proof.
  intros G K obs split randint Hrand key0 s normal uniform Hs Hn Hu prior likelihood has_state T strategy strategy' pot ev Hpot Hev l Hl Hk jgrad Hj data lo ca mb bs Hlo N Hacc Hfull Hone Key choice tk z Hc
    steps friction mass model0 Hst Hma a its Hga dl dp Hsm line Hline h starts HF full.
  pose proof (@ev_eq obs likelihood has_state strategy' ev Hev) as Eev. subst ev.
  destruct (@dev_sizes _ _ _ _ _ _ Hlo Hacc) as (S1 & S2 & S3). fold N in S1, S3.
  assert (Ebs : bs = 1%nat).
  { destruct (@final_check_random DeviceKind (Z.of_nat N) (Z.of_nat ca) (Z.of_nat mb) ltac:(discriminate)) as [[H _] _]. destruct (H Hacc) as (_ & _ & _ & Hca). specialize (Hca eq_refl).
    unfold dev_full in Hfull. destruct (N <? mb)%nat; [discriminate|]. destruct (ca =? 0)%nat; [discriminate|]. injection Hfull as <-. lia. }
  subst bs. assert (El : line = 0%nat). { unfold dev_init in Hline. destruct (N <=? 0)%nat; [discriminate|]. congruence. } subst line.
  destruct (@C66_amagold s normal uniform _ _ _ (device_source split randint data N mb) (user_model has_state pot N) (user_grad has_state pot N jgrad)
    (device_full_value data N 1 prior has_state T (batch_evaluation likelihood has_state)) (device_full_next data N 1 has_state (batch_evaluation likelihood has_state)) (device_full_model data N 1 has_state (batch_evaluation likelihood has_state)) Hs Hn Hu) with
    (choice := choice) (tk := tk) (z := z) (steps := steps) (friction := friction) (mass := mass) (model0 := model0) (a := a) (its := its) (h := h)
    (starts := map (fun x : vtree => (x, (key0, 0%nat))) starts) as (rs & R1 & R2); auto.
  { intros t b m Ht. apply Hj. exact Ht. }
  { intros t b m. eapply user_model_structure; eauto. }
  { intros x fd m. eapply device_full_structure; eauto. }
  { apply Forall_map. exact HF. }
  rewrite map_map in R1. cbn [fst snd] in R1. exists rs. split; [exact R1|]. clear R1.
  revert rs R2. induction HF as [|x0 starts Hx HF IH]; intros rs R2; inversion R2 as [|? r ? rs' R3 R4]; subst; constructor; auto.
  cbn [fst snd] in *. destruct R3 as (eps & acc & theta & mom & U & E & model & fs & L & Tr & R3).
  exists eps, acc, theta, mom, U, E, model, L. split; [|exact R3].
  eapply amagold_convert with (g1 := device_source split randint data N mb) (d1 := key0) (P := fun line => line = 0%nat) (pv1 := user_value has_state pot N) (pv2 := posterior_value prior has_state T N data l); [| | | | |exact Tr].
  - intros x m k. eapply dev_same_value; eauto.
  - intros x m k. eapply dev_same_model; eauto.
  - intros x m k c Hx' Hc'. eapply dev_same_grad; eauto.
  - intros x f m ->. apply device_full_ok; auto. lia.
  - reflexivity.
Qed.
Print Assumptions C79_amagold.

Theorem C79_sggmc : forall (G K obs : Type) (split : K -> K * K) (randint : K -> nat -> nat -> list nat),
  (forall k n m, length (randint k n m) = n /\ ((0 < m)%nat -> Forall (fun i => (i < m)%nat) (randint k n m))) ->
  forall (key0 : K) (s : vtree) (normal : key -> list nat -> list R) (uniform : key -> R), wfv s -> normal_ok normal -> (forall k, 0 <= uniform k < 1) ->
  forall (prior : vtree -> R) (likelihood : lik_fn obs vtree vtree) (has_state : bool) (T : R) (strategy strategy' : pot_strategy) pot ev,
  minibatch_potential prior likelihood has_state T strategy = Ok pot -> full_potential likelihood has_state strategy' = Ok ev ->
  forall l, evaluates_with likelihood l -> keeps_state likelihood has_state -> forall jgrad, exact_gradients s jgrad ->
  forall (data : list (string * list obs)) (lo : loader G obs) ca mb bs, make_loader data = Ok lo -> let N := l_count lo in
  check_random DeviceKind (Z.of_nat N) (Z.of_nat ca) (Z.of_nat mb) = Ok tt -> dev_full N ca mb = Ok bs ->
  (is_batched likelihood = true -> mb <> 1%nat) ->
  forall Key (choice : Key -> list xr -> nat -> list nat) (tk : Key) (z : arr -> arr), choice_ok choice ->
  forall (steps : nat) (friction : R) (mass : option vtree) (model0 : vtree), (0 < steps)%nat -> (forall m, mass = Some m -> like s m) ->
  forall a its, good_args a its ->
  forall dl dp, (forall x m, like s x -> smooth_at prior has_state N data l s dl dp x m) ->
  forall line, dev_init N 0 = Ok line -> forall h (starts : list vtree), Forall (like s) starts ->
  let full := fun x line m => (Fin (device_full_value data N bs prior has_state T ev x line m), (device_full_next data N bs has_state ev x line m, device_full_model data N bs has_state ev x line m)) in
  exists results, snd (al_run choice tk a z
      (sggmc_solver normal uniform (device_source split randint data N mb) (user_value has_state pot N) (user_model has_state pot N) (user_grad has_state pot N jgrad) full steps friction mass)
      (fst (run (mstep z) (mc_new false) h)) (map (fun x => sggmc_init full line key0 model0 x) starts) its) = Some (Ok results) /\
    Forall2 (fun x0 r => exists eps acc theta mom U E dK model L,
      sggmc_trajectory s normal uniform (device_indices split randint N mb) (posterior_value prior has_state T N data l) (next_state likelihood has_state data) (posterior_grad has_state T N data s dl dp)
        (fun x (_ : unit) m => full_posterior prior likelihood has_state T N 1 data l x m) (fun _ u _ => u) (fun x (_ : unit) m => pass_end likelihood has_state N 1 data x m) tt
        steps friction mass key0 model0 x0 its eps acc theta mom U E dK model (fun _ => tt) /\
      step_sizes a its acc eps /\ (forall i, 0 < eps i) /\ selected a its L /\ fst r = length L /\ exactly_samples (map (sggmc_saved eps acc theta U E dK model) L) (snd r)) starts results.
Proof.
  intros G K obs split randint Hrand key0 s normal uniform Hs Hn Hu prior likelihood has_state T strategy strategy' pot ev Hpot Hev l Hl Hk jgrad Hj data lo ca mb bs Hlo N Hacc Hfull Hone Key choice tk z Hc
    steps friction mass model0 Hst Hma a its Hga dl dp Hsm line Hline h starts HF full.
  pose proof (@ev_eq obs likelihood has_state strategy' ev Hev) as Eev. subst ev.
  destruct (@dev_sizes _ _ _ _ _ _ Hlo Hacc) as (S1 & S2 & S3). fold N in S1, S3.
  assert (Ebs : bs = 1%nat).
  { destruct (@final_check_random DeviceKind (Z.of_nat N) (Z.of_nat ca) (Z.of_nat mb) ltac:(discriminate)) as [[H _] _]. destruct (H Hacc) as (_ & _ & _ & Hca). specialize (Hca eq_refl).
    unfold dev_full in Hfull. destruct (N <? mb)%nat; [discriminate|]. destruct (ca =? 0)%nat; [discriminate|]. injection Hfull as <-. lia. }
  subst bs. assert (El : line = 0%nat). { unfold dev_init in Hline. destruct (N <=? 0)%nat; [discriminate|]. congruence. } subst line.
  destruct (@C66_sggmc s normal uniform _ _ _ (device_source split randint data N mb) (user_value has_state pot N) (user_model has_state pot N) (user_grad has_state pot N jgrad)
    (device_full_value data N 1 prior has_state T (batch_evaluation likelihood has_state)) (device_full_next data N 1 has_state (batch_evaluation likelihood has_state)) (device_full_model data N 1 has_state (batch_evaluation likelihood has_state)) Hs Hn Hu) with
    (choice := choice) (tk := tk) (z := z) (steps := steps) (friction := friction) (mass := mass) (model0 := model0) (a := a) (its := its) (h := h)
    (starts := map (fun x : vtree => (x, (key0, 0%nat))) starts) as (rs & R1 & R2); auto.
  { intros t b m Ht. apply Hj. exact Ht. }
  { intros t b m. eapply user_model_structure; eauto. }
  { intros x fd m. eapply device_full_structure; eauto. }
  { apply Forall_map. exact HF. }
  rewrite map_map in R1. cbn [fst snd] in R1. exists rs. split; [exact R1|]. clear R1.
  revert rs R2. induction HF as [|x0 starts Hx HF IH]; intros rs R2; inversion R2 as [|? r ? rs' R3 R4]; subst; constructor; auto.
  cbn [fst snd] in *. destruct R3 as (eps & acc & theta & mom & U & E & dK & model & fs & L & Tr & R3).
  exists eps, acc, theta, mom, U, E, dK, model, L. split; [|exact R3].
  eapply sggmc_convert with (g1 := device_source split randint data N mb) (d1 := key0) (P := fun line => line = 0%nat); [| | | | |exact Hst|exact Tr].
  - intros x m k. eapply dev_same_value; eauto.
  - intros x m k. eapply dev_same_model; eauto.
  - intros x m k c Hx' Hc'. eapply dev_same_grad; eauto.
  - intros x f m ->. apply device_full_ok; auto. lia.
  - reflexivity.
Qed.
Print Assumptions C79_sggmc.

(** ** The hypotheses are met: three observations, minibatches of two, two chains, a model with a state, adaptive step size *)
Example C79_nonvacuous : let s := tree_ab 0 0 in
  let z := fun x => mkArr (ashape x) (map (fun _ => 0) (adata x)) in let starts := [tree_ab 1 2; tree_ab 3 4] in
  let model0 := Leaf (mkArr [] [1]) in let normal := fun (_ : key) sh => repeat 0 (size sh) in let uniform := fun _ : key => 1 / 2 in
  let split := fun k : nat => (2 * k + 1, 2 * k + 2)%nat in let randint := fun (k n m : nat) => map (fun j => ((k + j) mod m)%nat) (seq 0 n) in
  let data := [("y"%string, [20%nat; 21%nat; 22%nat])] in
  let pot := potential_function ex_prior ex_lik true 1 in let ev := batch_evaluation ex_lik true in
  let full := fun x line m => (Fin (device_full_value data 3 1 ex_prior true 1 ev x line m), (device_full_next data 3 1 true ev x line m, device_full_model data 3 1 true ev x line m)) in
  let a := mkAlias (Fin 0.5) (Fin 0.1) (Some (Scheduler.mkAd 0 0.1 3 0.75 0.05 0.25)) 1 None true false None in
  (exists results, snd (al_run first_choice tt a z
      (amagold_solver normal uniform (device_source split randint data 3 2) (user_model true pot 3) (user_grad true pot 3 (derive_grad s)) full 2 1 (Some (tree_ab 1 4)))
      (mc_new false) (map (fun x => amagold_init normal full 0%nat (Some (tree_ab 1 4)) 0%nat model0 x) starts) 5) = Some (Ok results) /\ length results = 2%nat) /\
  (exists results, snd (al_run first_choice tt a z
      (sggmc_solver normal uniform (device_source split randint data 3 2) (user_value true pot 3) (user_model true pot 3) (user_grad true pot 3 (derive_grad s)) full 2 1 (Some (tree_ab 1 4)))
      (mc_new false) (map (fun x => sggmc_init full 0%nat 0%nat model0 x) starts) 5) = Some (Ok results) /\ length results = 2%nat).
Proof.
  intros s z starts model0 normal uniform split randint data pot ev full a.
  assert (LK : forall u v, like s (tree_ab u v)) by (intros u v; split; [apply tree_ab_wf|split; reflexivity]).
  assert (GA : good_args a 5).
  { unfold good_args; cbn [al_hot al_adaptive al_accepted al_burn_in al_first al_last ad_initial a]; (split; [reflexivity|split]); try lia. split; [lra|reflexivity]. }
  assert (HS : Forall (like s) starts) by (repeat constructor; apply LK).
  assert (HR : forall k n m, length (randint k n m) = n /\ ((0 < m)%nat -> Forall (fun i => (i < m)%nat) (randint k n m))).
  { intros k n m; unfold randint; split; [now rewrite map_length, seq_length|]; intros Hm; apply Forall_forall; intros i Hi; apply in_map_iff in Hi; destruct Hi as (j & <- & _); apply Nat.mod_upper_bound; lia. }
  assert (HL : evaluates_with ex_lik ex_l) by (intros st x r; reflexivity).
  assert (HK : keeps_state ex_lik true) by (intros _ m x r; exists (ex_double m); split; [reflexivity|]; destruct m; reflexivity).
  assert (HG : exact_gradients s (derive_grad s)) by (apply derive_grad_exact; apply tree_ab_wf).
  assert (HSM : forall x m, like s x -> smooth_at ex_prior true 3 data ex_l s ex_dl ex_dp x m) by (intros x m _; apply ex_smooth; [apply tree_ab_wf|cbn; lia]).
  assert (HU : forall k : key, 0 <= uniform k < 1) by (intros; unfold uniform; lra).
  assert (HM : forall m, Some (tree_ab 1 4) = Some m -> like s m) by (intros m [= <-]; apply LK).
  assert (HN : normal_ok normal) by (intros k sh; apply repeat_length).
  destruct (make_loader (G := unit) data) as [lo|e] eqn:Elo; [|discriminate].
  assert (EN : l_count lo = 3%nat) by (injection Elo as <-; reflexivity).
  split.
  - pose proof (@C79_amagold unit nat nat split randint HR 0%nat s normal uniform (tree_ab_wf _ _) HN HU ex_prior ex_lik true 1 PMap PMap pot ev eq_refl eq_refl ex_l HL HK
      (derive_grad s) HG data lo 1%nat 2%nat 1%nat Elo) as H. cbv zeta in H. rewrite EN in H.
    destruct (H eq_refl eq_refl ltac:(discriminate) unit first_choice tt z first_choice_ok 2%nat 1 (Some (tree_ab 1 4)) model0 ltac:(lia) HM a 5%nat GA ex_dl ex_dp HSM 0%nat eq_refl (@nil (mop arr)) starts HS) as (rs & R1 & R2).
    exists rs. split; [exact R1|]. clear R1. inversion R2 as [|? ? ? ? _ R3]; subst. inversion R3 as [|? ? ? ? _ R4]; subst. inversion R4; subst. reflexivity.
  - pose proof (@C79_sggmc unit nat nat split randint HR 0%nat s normal uniform (tree_ab_wf _ _) HN HU ex_prior ex_lik true 1 PMap PMap pot ev eq_refl eq_refl ex_l HL HK
      (derive_grad s) HG data lo 1%nat 2%nat 1%nat Elo) as H. cbv zeta in H. rewrite EN in H.
    destruct (H eq_refl eq_refl ltac:(discriminate) unit first_choice tt z first_choice_ok 2%nat 1 (Some (tree_ab 1 4)) model0 ltac:(lia) HM a 5%nat GA ex_dl ex_dp HSM 0%nat eq_refl (@nil (mop arr)) starts HS) as (rs & R1 & R2).
    exists rs. split; [exact R1|]. clear R1. inversion R2 as [|? ? ? ? _ R3]; subst. inversion R3 as [|? ? ? ? _ R4]; subst. inversion R4; subst. reflexivity.
Qed.
