(** C73: alias.amagold and alias.sggmc on a host data loader, with the potentials built by minibatch_potential and full_potential from the user's log likelihood and log prior. *)
From Coq Require Import Reals Lra ZArith String.
From Verif Require Import Base ListUtil NumpyLoader LoaderSpec NumpyLoaderProofs NumpyLoaderApi Requests Hub HubSpec HubProofs HubFinal PropertiesHub GenInstance.
From Verif Require Import Pytree PytreeSpec PytreeProofs Io IoSpec IoProofs TreeUtil TreeUtilSpec TreeUtilProofs Integrator IntegratorSpec IntegratorBasics PropertiesIntegrator
  Xreal Scheduler SchedulerSpec PropertiesScheduler Solver SolverSpec Mh MhIntegrators Adaption Alias PropertiesAlias AliasSgld AliasRun AliasHmc AliasData AliasMh AliasMhRun AliasAmagold AliasSggmc.
From Verif Require Import DataCore DataSpec Potential PotentialSpec PotentialProofs UnbiasedProofs PropertiesPotential LeapfrogVolume EndToEndSpec EndToEndProofs SourceReads MhUserSpec MhUserProofs.
Open Scope R_scope.
Set Implicit Arguments.

(** ** Trajectories on two sources with the same batches *)
Section Convert.
Variable s : vtree.
Variable normal : key -> list nat -> list R.
Variable uniform : key -> R.
Variables (D1 D2 B1 B2 F1 : Type).
Variables (g1 : D1 -> D1 * B1) (g2 : D2 -> D2 * B2) (d1 : D1) (d2 : D2).
Variables (pv1 : vtree -> B1 -> vtree -> R) (pv2 : vtree -> B2 -> vtree -> R).
Variables (pm1 pg1 : vtree -> B1 -> vtree -> vtree) (pm2 pg2 : vtree -> B2 -> vtree -> vtree).
Hypothesis HV : forall x m k, pv1 x (batch_no g1 d1 k) m = pv2 x (batch_no g2 d2 k) m.
Hypothesis HM : forall x m k, pm1 x (batch_no g1 d1 k) m = pm2 x (batch_no g2 d2 k) m.
Hypothesis HG : forall x m k c, like s x -> (c < dim s)%nat -> el (pg1 x (batch_no g1 d1 k) m) c = el (pg2 x (batch_no g2 d2 k) m) c.
Variables (fv1 : vtree -> F1 -> vtree -> R) (fn1 : vtree -> F1 -> vtree -> F1) (fm1 : vtree -> F1 -> vtree -> vtree).
Variables (fv2 : vtree -> vtree -> R) (fm2 : vtree -> vtree -> vtree).
Variable P : F1 -> Prop.
Hypothesis HP : forall x fd m, P fd -> P (fn1 x fd m) /\ fv1 x fd m = fv2 x m /\ fm1 x fd m = fm2 x m.
Variable if1 : F1.
Hypothesis H0 : P if1.
Notation unit_value := (fun x (_ : unit) m => fv2 x m).
Notation unit_model := (fun x (_ : unit) m => fm2 x m).
Notation unit_next := (fun (_ : vtree) (u : unit) (_ : vtree) => u).
Variables (steps : nat) (friction : R) (mass : option vtree) (model0 x0 : vtree) (its : nat) (eps acc : nat -> R) (theta : nat -> vtree) (mom : nat -> nat -> R) (U E : nat -> R) (model : nat -> vtree) (full : nat -> F1).
Lemma amagold_convert : amagold_trajectory s normal uniform g1 pm1 pg1 fv1 fn1 fm1 if1 steps friction mass d1 model0 x0 its eps acc theta mom U E model full ->
  amagold_trajectory s normal uniform g2 pm2 pg2 unit_value unit_next unit_model tt steps friction mass d2 model0 x0 its eps acc theta mom U E model (fun _ => tt).
Proof.
  intros [(S1 & S2 & S3 & S4 & S5 & S6) A2 A3].
  assert (PF : forall i, (i <= its)%nat -> P (full i)).
  { induction i as [|i IH]; intros Hi; [rewrite S5; apply HP; exact H0|]. destruct (A3 i ltac:(lia)) as (y & q & mm & x' & dE & _ & _ & -> & _). apply HP. apply IH. lia. }
  destruct (HP x0 model0 H0) as (_ & V0 & M0).
  split; [split; [exact S1|]; split; [congruence|]; split; [exact S3|]; split; [congruence|]; split; [reflexivity|exact S6]|exact A2|].
  intros i Hi. destruct (A3 i Hi) as (y & q & mm & x' & dE & (W1 & W2 & W3 & W4 & W5) & R1 & R2 & R3 & R4). destruct (HP x' (mm steps) (PF i ltac:(lia))) as (_ & Vi & Mi). cbv zeta in R1, R2, R3, R4.
  exists y, q, mm, x', dE. split.
  - split; [exact W1|]. split; [exact W2|]. split; [|split].
    + intros k Hk. destruct (W3 k Hk) as [Y1 Y2]. split; auto. rewrite <- HM. exact Y2.
    + intros c Hc. destruct (W4 c Hc) as (V1 & V2 & V3 & V4 & V5). split; auto. split; auto. split; [|split; auto]. intros k Hk. rewrite <- HG; auto. apply (W3 k Hk).
    + rewrite W5. apply sum_upto_ext. intros k Hk. f_equal. apply sum_upto_ext. intros c Hc. rewrite HG; auto. apply (W3 k Hk).
  - cbv zeta. rewrite Vi in R1, R3. rewrite Mi in R3. auto.
Qed.
Variable dK : nat -> R.
Lemma sggmc_convert : (0 < steps)%nat -> sggmc_trajectory s normal uniform g1 pv1 pm1 pg1 fv1 fn1 fm1 if1 steps friction mass d1 model0 x0 its eps acc theta mom U E dK model full ->
  sggmc_trajectory s normal uniform g2 pv2 pm2 pg2 unit_value unit_next unit_model tt steps friction mass d2 model0 x0 its eps acc theta mom U E dK model (fun _ => tt).
Proof.
  intros Hst [(S1 & S2 & S3 & S4 & S5 & S6) A2 A3].
  assert (PF : forall i, (i <= its)%nat -> P (full i)).
  { induction i as [|i IH]; intros Hi; [rewrite S5; apply HP; exact H0|]. destruct (A3 i ltac:(lia)) as (y & p' & r & h & e & mm & Ks & Ke & V & _ & _ & _ & -> & _). apply HP. apply IH. lia. }
  destruct (HP x0 model0 H0) as (_ & V0 & M0).
  split; [split; [exact S1|]; split; [congruence|]; split; [exact S3|]; split; [congruence|]; split; [reflexivity|exact S6]|exact A2|].
  intros i Hi. destruct (A3 i Hi) as (y & p' & r & h & e & mm & Ks & Ke & V & (W1 & W2 & W3 & W4 & W5 & W6 & W7) & R1 & R2 & R3 & R4 & R5).
  destruct (HP (y steps) (mm (2 * steps)%nat) (PF i ltac:(lia))) as (_ & Vi & Mi). cbv zeta in R1, R2, R3, R4, R5, W7.
  assert (LY : forall k, (k <= steps)%nat -> like s (y k)) by (intros [|k] Hk; [rewrite W1; apply A2; lia|apply (W4 k ltac:(lia))]).
  exists y, p', r, h, e, mm, Ks, Ke, V. split.
  - split; [exact W1|]. split; [exact W2|]. split; [exact W3|]. split; [|split; [exact W5|split; [exact W6|]]].
    + intros k Hk. destruct (W4 k Hk) as (Y1 & Y2 & Y3 & Y4). split; auto. rewrite <- !HM. split; auto. split; auto. intros c Hc.
      destruct (Y4 c Hc) as (V1 & V2 & V3 & V4 & V5). rewrite <- !HG by (auto; apply LY; lia). auto 6.
    + cbv zeta. rewrite <- !HV. exact W7.
  - cbv zeta. rewrite Vi in R2, R4. rewrite Mi in R4. auto.
Qed.
End Convert.

(** ** What the user's program gives to the solvers *)
Section Final.
Variables (G obs : Type).
Variable choice_repl : G -> nat -> nat -> G * list nat.
Variable choice_perm : G -> nat -> G * list nat.
Variable rng_of_seed : nat -> G.
Hypothesis Hperm : perm_oracle choice_perm.
Hypothesis Hrepl : repl_oracle choice_repl.
Variable s : vtree.
Hypothesis Hs : wfv s.
(** the user's model: log prior, (batched) log likelihood l, temperature; the potentials of potential.py for it; JAX's gradients *)
Variables (prior : vtree -> R) (likelihood : lik_fn obs vtree vtree) (has_state : bool) (T : R) (strategy strategy' : pot_strategy).
Variable pot : nat -> vtree -> mbatch obs -> option vtree -> option (list bool) -> res (R * list R * option vtree).
Hypothesis Hpot : minibatch_potential prior likelihood has_state T strategy = Ok pot.
Variable ev : nat -> vtree -> mbatch obs -> list bool -> option vtree -> res R * option vtree.
Hypothesis Hev : full_potential likelihood has_state strategy' = Ok ev.
Variable l : option vtree -> vtree -> orow obs -> R.
Hypothesis Hl : evaluates_with likelihood l.
Hypothesis Hk : keeps_state likelihood has_state.
Variable jgrad : (vtree -> R) -> vtree -> vtree.
Hypothesis Hj : exact_gradients s jgrad.
Variables (N mb : nat).
Hypothesis Hone : is_batched likelihood = true -> mb <> 1%nat.
Notation source := (loader_source choice_repl choice_perm rng_of_seed).
Notation fvalue := (user_full_value choice_repl choice_perm rng_of_seed N mb prior has_state T ev).
Notation fnext := (user_full_next choice_repl choice_perm rng_of_seed N mb has_state ev).
Notation fmodel := (user_full_model choice_repl choice_perm rng_of_seed N mb has_state ev).
Notation indices := (index_source choice_repl rng_of_seed N mb).
Section Chain.
Variables (datas : list (list (string * list obs))) (data : list (string * list obs)) (cid : nat) (d fd : lsource (G := G) (obs := obs)).
Hypothesis HS : mh_sources choice_repl choice_perm rng_of_seed datas data N mb cid d fd.
Lemma sources_data : (0 < mb <= N)%nat /\ data <> [] /\ forall ka, In ka data -> length (snd ka) = N.
Proof.
  destruct HS as [(hE & ai & k & i & ca & Ho & _) _]. destruct (opened_data Hperm Hrepl Ho) as (_ & (O1 & O2) & O3 & O4). cbn in O1, O2. split; [lia|]. split; auto. apply O3. lia.
Qed.
Lemma sources_batch k : batch_no source d k = (map (fun ka => (fst ka, select (snd ka) (batch_no (indices cid) 0%nat k))) data, repeat true mb).
Proof.
  destruct HS as [(hE & ai & k' & i & ca & Ho & Hsi) _]. rewrite (opened_batches Hperm Hrepl Ho Hsi), index_no. reflexivity.
Qed.
Lemma sources_index k : length (batch_no (indices cid) 0%nat k) = mb /\ Forall (fun i => (i < N)%nat) (batch_no (indices cid) 0%nat k).
Proof. rewrite index_no. destruct sources_data as [HM _]. apply drawn_indices_ok; auto. lia. Qed.
Lemma sources_value x m k : user_value has_state pot N x (batch_no source d k) m = posterior_value prior has_state T N data l x (batch_no (indices cid) 0%nat k) m.
Proof. destruct sources_data as (HM & Hd & HN). destruct (sources_index k) as [I1 I2]. rewrite sources_batch. eapply user_value_is; eauto; rewrite ?repeat_length, ?I1; auto; lia. Qed.
Lemma sources_model x m k : user_model has_state pot N x (batch_no source d k) m = next_state likelihood has_state data x (batch_no (indices cid) 0%nat k) m.
Proof. destruct sources_data as (HM & Hd & HN). destruct (sources_index k) as [I1 I2]. rewrite sources_batch. eapply user_model_is; eauto; rewrite ?repeat_length, ?I1; auto; lia. Qed.
Lemma sources_grad dl dp x m k c : like s x -> smooth_at prior has_state N data l s dl dp x m -> (c < dim s)%nat ->
  el (user_grad has_state pot N jgrad x (batch_no source d k) m) c = el (posterior_grad has_state T N data s dl dp x (batch_no (indices cid) 0%nat k) m) c.
Proof. intros Hx Hsm Hc. destruct sources_data as (HM & Hd & HN). destruct (sources_index k) as [I1 I2]. rewrite sources_batch. eapply user_grad_is; eauto; rewrite ?repeat_length, ?I1; auto; lia. Qed.
(** the data state after some passes *)
Definition after_passes (f : lsource (G := G) (obs := obs)) : Prop := exists e, f = drawn source fd (e * ceil_div N mb).
Lemma ev_eq : ev = batch_evaluation likelihood has_state.
Proof. clear - Hev. unfold full_potential in Hev. destruct strategy'; [| |discriminate|]; destruct (minibatch_potential _ _ _ _ _); cbn [bind] in Hev; inversion Hev; reflexivity. Qed.
Lemma sources_full x f m : after_passes f -> after_passes (fnext x f m) /\ fvalue x f m = full_posterior prior likelihood has_state T N mb data l x m /\ fmodel x f m = pass_end likelihood has_state N mb data x m.
Proof.
  intros [e ->]. destruct sources_data as (HM & _). destruct HS as [_ (hE & ai & k & i & cid' & ca & Ho & Hsi)]. rewrite ev_eq.
  destruct (@user_full_is G obs choice_repl choice_perm rng_of_seed Hperm Hrepl prior likelihood has_state T l Hl Hk datas data N mb hE ai k i cid' ca fd (proj1 HM) Ho Hsi e x m) as (E1 & E2 & E3).
  split; [exists (S e); exact E2|]. auto.
Qed.
Lemma passes_start : after_passes fd. Proof. exists 0%nat. reflexivity. Qed.
End Chain.
End Final.

(** the starting points of the chains: initial sample, id of the chain in the loader, the data states *)
Notation chain_start G obs := (vtree * (nat * (lsource (G := G) (obs := obs) * lsource (G := G) (obs := obs))))%type.

(** ** C73 *)
Theorem C73_amagold : forall (G obs : Type) (choice_repl : G -> nat -> nat -> G * list nat) (choice_perm : G -> nat -> G * list nat) (rng_of_seed : nat -> G), perm_oracle choice_perm -> repl_oracle choice_repl ->
  forall (s : vtree) (normal : key -> list nat -> list R) (uniform : key -> R), wfv s -> normal_ok normal -> (forall k, 0 <= uniform k < 1) ->
  forall (prior : vtree -> R) (likelihood : lik_fn obs vtree vtree) (has_state : bool) (T : R) (strategy strategy' : pot_strategy) pot ev,
  minibatch_potential prior likelihood has_state T strategy = Ok pot -> full_potential likelihood has_state strategy' = Ok ev ->
  forall l, evaluates_with likelihood l -> keeps_state likelihood has_state -> forall jgrad, exact_gradients s jgrad ->
  forall N mb, (is_batched likelihood = true -> mb <> 1%nat) ->
  forall Key (choice : Key -> list xr -> nat -> list nat) (tk : Key) (z : arr -> arr), choice_ok choice ->
  forall (steps : nat) (friction : R) (mass : option vtree) (model0 : vtree), (0 < steps)%nat -> (forall m, mass = Some m -> like s m) ->
  forall a its, good_args a its ->
  forall (datas : list (list (string * list obs))) (data : list (string * list obs)) dl dp, (forall x m, like s x -> smooth_at prior has_state N data l s dl dp x m) ->
  forall h (starts : list (chain_start G obs)),
  Forall (fun xc => like s (fst xc) /\ mh_sources choice_repl choice_perm rng_of_seed datas data N mb (fst (snd xc)) (fst (snd (snd xc))) (snd (snd (snd xc)))) starts ->
  let value := user_full_value choice_repl choice_perm rng_of_seed N mb prior has_state T ev in
  let next := user_full_next choice_repl choice_perm rng_of_seed N mb has_state ev in
  let model' := user_full_model choice_repl choice_perm rng_of_seed N mb has_state ev in
  let full := fun x fd m => (Fin (value x fd m), (next x fd m, model' x fd m)) in
  exists results, snd (al_run choice tk a z
      (amagold_solver normal uniform (loader_source choice_repl choice_perm rng_of_seed) (user_model has_state pot N) (user_grad has_state pot N jgrad) full steps friction mass)
      (fst (run (mstep z) (mc_new false) h)) (map (fun xc => amagold_init normal full (snd (snd (snd xc))) mass (fst (snd (snd xc))) model0 (fst xc)) starts) its) = Some (Ok results) /\
    Forall2 (fun xc r => exists eps acc theta mom U E model L,
      amagold_trajectory s normal uniform (index_source choice_repl rng_of_seed N mb (fst (snd xc))) (next_state likelihood has_state data) (posterior_grad has_state T N data s dl dp)
        (fun x (_ : unit) m => full_posterior prior likelihood has_state T N mb data l x m) (fun _ u _ => u) (fun x (_ : unit) m => pass_end likelihood has_state N mb data x m) tt
        steps friction mass 0%nat model0 (fst xc) its eps acc theta mom U E model (fun _ => tt) /\
      step_sizes a its acc eps /\ (forall i, 0 < eps i) /\ selected a its L /\ fst r = length L /\ exactly_samples (map (amagold_saved eps acc theta E model) L) (snd r)) starts results.
Proof.
  intros G obs choice_repl choice_perm rng_of_seed Hperm Hrepl s normal uniform Hs Hn Hu prior likelihood has_state T strategy strategy' pot ev Hpot Hev l Hl Hk jgrad Hj N mb Hone Key choice tk z Hc
    steps friction mass model0 Hst Hma a its Hga datas data dl dp Hsm h starts HF value next model' full.
  destruct (@C66_amagold s normal uniform _ _ _ (loader_source choice_repl choice_perm rng_of_seed) (user_model has_state pot N) (user_grad has_state pot N jgrad) value next model' Hs Hn Hu) with
    (choice := choice) (tk := tk) (z := z) (steps := steps) (friction := friction) (mass := mass) (model0 := model0) (a := a) (its := its) (h := h)
    (starts := map (fun xc : chain_start G obs => (fst xc, snd (snd xc))) starts) as (rs & R1 & R2); auto.
  { intros t b m Ht. apply Hj. exact Ht. }
  { intros t b m. eapply user_model_structure; eauto. }
  { intros x fd m. unfold model'. rewrite (ev_eq likelihood has_state strategy' Hev). eapply user_full_structure; eauto. }
  { apply Forall_map. eapply Forall_impl; [|exact HF]. intros xc [Hx _]. exact Hx. }
  rewrite map_map in R1. cbn [fst snd] in R1. exists rs. split; [exact R1|]. clear R1.
  revert rs R2. induction HF as [|[x0 [cid [d fd]]] starts [Hx HS] HF IH]; intros rs R2; inversion R2 as [|? r ? rs' R3 R4]; subst; constructor; auto.
  cbn [fst snd] in *. destruct R3 as (eps & acc & theta & mom & U & E & model & fs & L & Tr & R3).
  exists eps, acc, theta, mom, U, E, model, L. split; [|exact R3].
  eapply amagold_convert with (g1 := loader_source choice_repl choice_perm rng_of_seed) (d1 := d) (P := after_passes choice_repl choice_perm rng_of_seed N mb fd) (pv1 := user_value has_state pot N) (pv2 := posterior_value prior has_state T N data l); [| | | | |exact Tr].
  - intros x m k. eapply sources_value; eauto.
  - intros x m k. eapply sources_model; eauto.
  - intros x m k c Hx' Hc'. eapply sources_grad; eauto.
  - intros x f m Hf. eapply sources_full; eauto.
  - apply passes_start.
Qed.
Print Assumptions C73_amagold.

Theorem C73_sggmc : forall (G obs : Type) (choice_repl : G -> nat -> nat -> G * list nat) (choice_perm : G -> nat -> G * list nat) (rng_of_seed : nat -> G), perm_oracle choice_perm -> repl_oracle choice_repl ->
  forall (s : vtree) (normal : key -> list nat -> list R) (uniform : key -> R), wfv s -> normal_ok normal -> (forall k, 0 <= uniform k < 1) ->
  forall (prior : vtree -> R) (likelihood : lik_fn obs vtree vtree) (has_state : bool) (T : R) (strategy strategy' : pot_strategy) pot ev,
  minibatch_potential prior likelihood has_state T strategy = Ok pot -> full_potential likelihood has_state strategy' = Ok ev ->
  forall l, evaluates_with likelihood l -> keeps_state likelihood has_state -> forall jgrad, exact_gradients s jgrad ->
  forall N mb, (is_batched likelihood = true -> mb <> 1%nat) ->
  forall Key (choice : Key -> list xr -> nat -> list nat) (tk : Key) (z : arr -> arr), choice_ok choice ->
  forall (steps : nat) (friction : R) (mass : option vtree) (model0 : vtree), (0 < steps)%nat -> (forall m, mass = Some m -> like s m) ->
  forall a its, good_args a its ->
  forall (datas : list (list (string * list obs))) (data : list (string * list obs)) dl dp, (forall x m, like s x -> smooth_at prior has_state N data l s dl dp x m) ->
  forall h (starts : list (chain_start G obs)),
  Forall (fun xc => like s (fst xc) /\ mh_sources choice_repl choice_perm rng_of_seed datas data N mb (fst (snd xc)) (fst (snd (snd xc))) (snd (snd (snd xc)))) starts ->
  let value := user_full_value choice_repl choice_perm rng_of_seed N mb prior has_state T ev in
  let next := user_full_next choice_repl choice_perm rng_of_seed N mb has_state ev in
  let model' := user_full_model choice_repl choice_perm rng_of_seed N mb has_state ev in
  let full := fun x fd m => (Fin (value x fd m), (next x fd m, model' x fd m)) in
  exists results, snd (al_run choice tk a z
      (sggmc_solver normal uniform (loader_source choice_repl choice_perm rng_of_seed) (user_value has_state pot N) (user_model has_state pot N) (user_grad has_state pot N jgrad) full steps friction mass)
      (fst (run (mstep z) (mc_new false) h)) (map (fun xc => sggmc_init full (snd (snd (snd xc))) (fst (snd (snd xc))) model0 (fst xc)) starts) its) = Some (Ok results) /\
    Forall2 (fun xc r => exists eps acc theta mom U E dK model L,
      sggmc_trajectory s normal uniform (index_source choice_repl rng_of_seed N mb (fst (snd xc))) (posterior_value prior has_state T N data l) (next_state likelihood has_state data) (posterior_grad has_state T N data s dl dp)
        (fun x (_ : unit) m => full_posterior prior likelihood has_state T N mb data l x m) (fun _ u _ => u) (fun x (_ : unit) m => pass_end likelihood has_state N mb data x m) tt
        steps friction mass 0%nat model0 (fst xc) its eps acc theta mom U E dK model (fun _ => tt) /\
      step_sizes a its acc eps /\ (forall i, 0 < eps i) /\ selected a its L /\ fst r = length L /\ exactly_samples (map (sggmc_saved eps acc theta U E dK model) L) (snd r)) starts results.
Proof.
  intros G obs choice_repl choice_perm rng_of_seed Hperm Hrepl s normal uniform Hs Hn Hu prior likelihood has_state T strategy strategy' pot ev Hpot Hev l Hl Hk jgrad Hj N mb Hone Key choice tk z Hc
    steps friction mass model0 Hst Hma a its Hga datas data dl dp Hsm h starts HF value next model' full.
  destruct (@C66_sggmc s normal uniform _ _ _ (loader_source choice_repl choice_perm rng_of_seed) (user_value has_state pot N) (user_model has_state pot N) (user_grad has_state pot N jgrad) value next model' Hs Hn Hu) with
    (choice := choice) (tk := tk) (z := z) (steps := steps) (friction := friction) (mass := mass) (model0 := model0) (a := a) (its := its) (h := h)
    (starts := map (fun xc : chain_start G obs => (fst xc, snd (snd xc))) starts) as (rs & R1 & R2); auto.
  { intros t b m Ht. apply Hj. exact Ht. }
  { intros t b m. eapply user_model_structure; eauto. }
  { intros x fd m. unfold model'. rewrite (ev_eq likelihood has_state strategy' Hev). eapply user_full_structure; eauto. }
  { apply Forall_map. eapply Forall_impl; [|exact HF]. intros xc [Hx _]. exact Hx. }
  rewrite map_map in R1. cbn [fst snd] in R1. exists rs. split; [exact R1|]. clear R1.
  revert rs R2. induction HF as [|[x0 [cid [d fd]]] starts [Hx HS] HF IH]; intros rs R2; inversion R2 as [|? r ? rs' R3 R4]; subst; constructor; auto.
  cbn [fst snd] in *. destruct R3 as (eps & acc & theta & mom & U & E & dK & model & fs & L & Tr & R3).
  exists eps, acc, theta, mom, U, E, dK, model, L. split; [|exact R3].
  eapply sggmc_convert with (g1 := loader_source choice_repl choice_perm rng_of_seed) (d1 := d) (P := after_passes choice_repl choice_perm rng_of_seed N mb fd); [| | | | |exact Hst|exact Tr].
  - intros x m k. eapply sources_value; eauto.
  - intros x m k. eapply sources_model; eauto.
  - intros x m k c Hx' Hc'. eapply sources_grad; eauto.
  - intros x f m Hf. eapply sources_full; eauto.
  - apply passes_start.
Qed.
Print Assumptions C73_sggmc.
