(** C71: alias.sgld, alias.obabo, alias.sghmc on a data loader, with a potential built by minibatch_potential from the user's log likelihood and log prior. *)
From Coq Require Import Reals Lra ZArith String.
From Verif Require Import Base ListUtil NumpyLoader LoaderSpec NumpyLoaderProofs NumpyLoaderApi Requests Hub HubSpec HubProofs HubFinal PropertiesHub GenInstance.
From Verif Require Import Pytree PytreeSpec PytreeProofs Io IoSpec IoProofs TreeUtil TreeUtilSpec TreeUtilProofs Integrator IntegratorSpec IntegratorBasics PropertiesIntegrator
  Xreal Scheduler SchedulerSpec PropertiesScheduler Solver SolverSpec Adaption Alias PropertiesAlias AliasSgld AliasRun AliasHmc AliasData.
From Verif Require Import DataCore DataSpec Potential PotentialSpec PotentialProofs UnbiasedProofs PropertiesPotential LeapfrogVolume EndToEndSpec EndToEndProofs.
From Coquelicot Require Derive.
Open Scope R_scope.
Set Implicit Arguments.

Section Final.
Variables (G obs : Type).
Variable choice_repl : G -> nat -> nat -> G * list nat.
Variable choice_perm : G -> nat -> G * list nat.
Variable rng_of_seed : nat -> G.
Hypothesis Hperm : perm_oracle choice_perm.
Hypothesis Hrepl : repl_oracle choice_repl.
Variable s : vtree.
Hypothesis Hs : wfv s.
Variable normal : key -> list nat -> list R.
Hypothesis Hn : normal_ok normal.
(** the user's model: log prior, (batched) log likelihood l, temperature; the potential function of potential.py for it; JAX's gradients *)
Variables (prior : vtree -> R) (likelihood : lik_fn obs vtree vtree) (has_state : bool) (T : R) (strategy : pot_strategy).
Variable pot : nat -> vtree -> mbatch obs -> option vtree -> option (list bool) -> res (R * list R * option vtree).
Hypothesis Hpot : minibatch_potential prior likelihood has_state T strategy = Ok pot.
Variable l : option vtree -> vtree -> orow obs -> R.
Hypothesis Hl : evaluates_with likelihood l.
Hypothesis Hk : keeps_state likelihood has_state.
Variable jgrad : (vtree -> R) -> vtree -> vtree.
Hypothesis Hj : exact_gradients s jgrad.
(** number of observations and batch size; a batched likelihood is not used with batches of one (C41_batch_of_one_refuted) *)
Variables (N mb : nat).
Hypothesis Hone : is_batched likelihood = true -> mb <> 1%nat.
Variables (Key : Type) (choice : Key -> list xr -> nat -> list nat) (tk : Key) (z : arr -> arr).
Hypothesis Hc : choice_ok choice.
(** schedule arguments of the alias, number n of accepted samples, iterations *)
Variables (a : alias_args) (f l' : R) (n its : nat).
Hypothesis Hf : al_first a = Fin f.
Hypothesis Hl' : al_last a = Fin l'.
Hypothesis Ha : al_adaptive a = None.
Hypothesis Hacc : al_accepted a = Some n.
Hypothesis Hhot : al_hot a = None.
Hypothesis Hfl : 0 < l' < f.
Hypothesis Hits : (2 <= its)%nat.
Hypothesis Hburn : (al_burn_in a + n <= its)%nat.
Notation source := (loader_source choice_repl choice_perm rng_of_seed).
Notation indices := (index_source choice_repl rng_of_seed N mb).
Notation chosen := (chosen a n its).
Notation value data := (posterior_value prior has_state T N data l).
Notation gradient data dl dp := (posterior_grad has_state T N data s dl dp).
Notation next data := (next_state likelihood has_state data).
Notation smooth data dl dp := (smooth_at prior has_state N data l s dl dp).
Notation uvalue := (user_value has_state pot N).
Notation ulikelihoods := (user_likelihoods has_state pot N).
Notation umodel := (user_model has_state pot N).
Notation ugrad := (user_grad has_state pot N jgrad).

Lemma grad_like t b m : like s t -> like s (ugrad t b m).
Proof. intros H. apply Hj. exact H. Qed.

Lemma model_structure t b m : same_structure (umodel t b m) m.
Proof. eapply user_model_structure; eauto. Qed.
Section Chain.
Variable data : list (string * list obs).
Hypothesis Hmb : (0 < mb <= N)%nat.
Hypothesis Hd : data <> [].
Hypothesis HN : forall ka, In ka data -> length (snd ka) = N.
Variable cid : nat.
Notation stream := (stream_source choice_repl choice_perm rng_of_seed data N mb cid).
Lemma same_value x m k : uvalue x (batch_no stream 0%nat k) m = value data x (batch_no (indices cid) 0%nat k) m.
Proof.
  rewrite stream_no, index_no. destruct (@drawn_indices_ok G choice_repl rng_of_seed Hrepl N mb cid k ltac:(lia)) as [I1 I2].
  eapply user_value_is; eauto; rewrite ?repeat_length, ?I1; auto; lia.
Qed.
Lemma same_model x m k : umodel x (batch_no stream 0%nat k) m = next data x (batch_no (indices cid) 0%nat k) m.
Proof.
  rewrite stream_no, index_no. destruct (@drawn_indices_ok G choice_repl rng_of_seed Hrepl N mb cid k ltac:(lia)) as [I1 I2].
  eapply user_model_is; eauto; rewrite ?repeat_length, ?I1; auto; lia.
Qed.
Lemma same_grad dl dp x m k c : like s x -> smooth data dl dp x m -> (c < dim s)%nat ->
  el (ugrad x (batch_no stream 0%nat k) m) c = el (gradient data dl dp x (batch_no (indices cid) 0%nat k) m) c.
Proof.
  intros Hx Hsm Hc'. rewrite stream_no, index_no. destruct (@drawn_indices_ok G choice_repl rng_of_seed Hrepl N mb cid k ltac:(lia)) as [I1 I2].
  eapply user_grad_is; eauto; rewrite ?repeat_length, ?I1; auto; lia.
Qed.
End Chain.

(** The run function of alias.sgld returns, for every initial sample, n samples of the SGLD recursion for the posterior of the user's model: in iteration i the
    gradient of the potential on the mb observations drawn in this iteration is used (wherever along the chain log likelihood and log prior are differentiable
    with derivatives dl, dp); saved are the sample, minus the stochastic potential and the model state. *)
Theorem C71_sgld : forall rms alpha lmbd model0, (rms = true -> 0 <= alpha <= 1 /\ 0 < lmbd) -> exists eps, falling its f l' eps /\
  forall datas hD ai i ca cid0 k0 data, forall starts, alias_started choice_repl choice_perm rng_of_seed datas hD ai i ca mb cid0 k0 (length starts) data N ->
  (forall c x d, nth_error starts c = Some (x, d) -> like s x /\ chain_source choice_repl choice_perm rng_of_seed hD ai i cid0 k0 c d) ->
  forall h, exists results, snd (al_run choice tk a z (sgld_solver normal source uvalue ulikelihoods umodel ugrad rms) (fst (run (mstep z) (mc_new false) h))
      (map (fun xd => sgld_init rms alpha lmbd (snd xd) model0 (fst xd)) starts) its) = Some (Ok results) /\
    Forall2 (fun cx r => let cid := (cid0 + fst cx)%nat in exists theta model L, chosen L /\
      fst r = n /\ exactly_samples (map (saved_sample (indices cid) (value data) 0%nat theta model) L) (snd r) /\
      theta 0%nat = fst (snd cx) /\ model 0%nat = model0 /\ (forall i, (i < its)%nat -> model (S i) = next data (theta i) (drawn_indices choice_repl rng_of_seed N mb cid i) (model i)) /\
      forall dl dp, (forall i, (i < its)%nat -> smooth data dl dp (theta i) (model i)) ->
        sgld_trajectory s normal (indices cid) (next data) (gradient data dl dp) rms alpha lmbd 0%nat model0 (fst (snd cx)) its eps theta model)
      (combine (seq 0 (length starts)) starts) results.
Proof.
  intros rms alpha lmbd model0 Hr.
  destruct (@C64_sgld G obs choice_repl choice_perm rng_of_seed Hperm Hrepl s Hs normal Hn uvalue ulikelihoods umodel ugrad grad_like model_structure
    Key choice tk z Hc a f l' n its Hf Hl' Ha Hacc Hhot Hfl Hits Hburn rms alpha lmbd model0 Hr) as (eps & E1 & E2).
  exists eps. split; auto. intros datas hD ai i ca cid0 k0 data starts Hst Hx h.
  destruct (E2 datas hD ai i ca mb cid0 k0 data N starts Hst Hx h) as (rs & R1 & R2). exists rs. split; [exact R1|].
  destruct starts as [|st0 starts']; [inversion R2; subst; constructor|].
  destruct (@started_data G obs choice_repl choice_perm rng_of_seed Hperm Hrepl datas hD ai i ca mb cid0 k0 (length (st0 :: starts')) data N ltac:(cbn; lia) Hst) as (Hmb & Hd & HN).
  eapply Forall2_impl; [|exact R2]. clear R1 R2. intros cx r (theta & model & L & Tr & L1 & L2 & L3). cbv zeta.
  exists theta, model, L. split; [exact L1|]. split; [exact L2|]. split.
  { erewrite map_ext; [exact L3|]. intros j. symmetry. apply sgld_saved_batches. intros x m k. apply same_value; auto. }
  destruct Tr as [[T1 T1'] T2 T3 T4] eqn:ET. split; [exact T1|]. split; [exact T1'|]. split.
  { intros j Hj'. rewrite (T3 j Hj'), same_model by auto. now rewrite index_no. }
  intros dl dp Hsm. eapply (@sgld_batches) with (pv1 := uvalue) (pv2 := value data) (ok := smooth data dl dp); [| | | |exact Tr].
  - intros x m k. apply same_value; auto.
  - intros x m k. apply same_model; auto.
  - intros x m k c Hx' Hok Hc'. apply same_grad; auto.
  - exact Hsm.
Qed.
Theorem C71_obabo : forall steps friction mass model0, (0 < steps)%nat -> (forall m, mass = Some m -> like s m) -> exists eps, falling its f l' eps /\
  forall datas hD ai i ca cid0 k0 data, forall starts, alias_started choice_repl choice_perm rng_of_seed datas hD ai i ca mb cid0 k0 (length starts) data N ->
  (forall c x d, nth_error starts c = Some (x, d) -> like s x /\ chain_source choice_repl choice_perm rng_of_seed hD ai i cid0 k0 c d) ->
  forall h, exists results, snd (al_run choice tk a z (obabo_solver normal source uvalue umodel ugrad steps mass friction) (fst (run (mstep z) (mc_new false) h))
      (map (fun xd => obabo_init (snd xd) model0 (fst xd)) starts) its) = Some (Ok results) /\
    Forall2 (fun cx r => let cid := (cid0 + fst cx)%nat in exists x model p r' h' e L, chosen L /\
      fst r = n /\ exactly_samples (map (obabo_saved (indices cid) (value data) steps 0%nat x model) L) (snd r) /\ x 0%nat = fst (snd cx) /\
      forall dl dp, (forall t, (t < its * steps)%nat -> smooth data dl dp (x t) (model (2 * t)%nat) /\ smooth data dl dp (x (S t)) (model (2 * t + 1)%nat)) ->
        obabo_trajectory s normal (indices cid) (next data) (gradient data dl dp) steps mass friction 0%nat model0 (fst (snd cx)) its eps x model p r' h' e)
      (combine (seq 0 (length starts)) starts) results.
Proof.
  intros steps friction mass model0 Hst' Hma.
  destruct (@C64_obabo G obs choice_repl choice_perm rng_of_seed Hperm Hrepl s Hs normal Hn uvalue umodel ugrad grad_like model_structure
    Key choice tk z Hc a f l' n its Hf Hl' Ha Hacc Hhot Hfl Hits Hburn steps friction mass model0 Hst' Hma) as (eps & E1 & E2).
  exists eps. split; auto. intros datas hD ai i ca cid0 k0 data starts Hst Hx h.
  destruct (E2 datas hD ai i ca mb cid0 k0 data N starts Hst Hx h) as (rs & R1 & R2). exists rs. split; [exact R1|].
  destruct starts as [|st0 starts']; [inversion R2; subst; constructor|].
  destruct (@started_data G obs choice_repl choice_perm rng_of_seed Hperm Hrepl datas hD ai i ca mb cid0 k0 (length (st0 :: starts')) data N ltac:(cbn; lia) Hst) as (Hmb & Hd & HN).
  eapply Forall2_impl; [|exact R2]. clear R1 R2. intros cx r (x & model & p & r' & h' & e & L & Tr & L1 & L2 & L3). cbv zeta.
  exists x, model, p, r', h', e, L. split; [exact L1|]. split; [exact L2|]. split.
  { erewrite map_ext; [exact L3|]. intros j. symmetry. apply obabo_saved_batches. intros x' m k. apply same_value; auto. }
  split; [apply Tr|].
  intros dl dp Hsm. eapply (@obabo_batches) with (pv1 := uvalue) (pv2 := value data) (ok := smooth data dl dp); [| | | |exact Tr].
  - intros x' m k. apply same_value; auto.
  - intros x' m k. apply same_model; auto.
  - intros x' m k c Hx' Hok Hc'. apply same_grad; auto.
  - exact Hsm.
Qed.
Theorem C71_sghmc : forall steps friction mass model0, (0 < steps)%nat -> (forall t, friction = FTree t -> like s t) -> (forall m, mass = Some m -> like s m) -> exists eps, falling its f l' eps /\
  forall datas hD ai i ca cid0 k0 data, forall starts, alias_started choice_repl choice_perm rng_of_seed datas hD ai i ca mb cid0 k0 (length starts) data N ->
  (forall c x d, nth_error starts c = Some (x, d) -> like s x /\ chain_source choice_repl choice_perm rng_of_seed hD ai i cid0 k0 c d) ->
  forall h, exists results, snd (al_run choice tk a z (sghmc_solver normal source uvalue umodel ugrad steps mass friction) (fst (run (mstep z) (mc_new false) h))
      (map (fun xd => sghmc_init (mbatch obs) (snd xd) model0 (fst xd)) starts) its) = Some (Ok results) /\
    Forall2 (fun cx r => let cid := (cid0 + fst cx)%nat in exists x model p L, chosen L /\
      fst r = n /\ exactly_samples (map (sghmc_saved (indices cid) (value data) steps 0%nat x model) L) (snd r) /\ x 0%nat 0%nat = fst (snd cx) /\
      forall dl dp, (forall i k, (i < its)%nat -> (k < steps)%nat -> smooth data dl dp (x i (S k)) (model (i * steps + k)%nat)) ->
        sghmc_trajectory s normal (indices cid) (next data) (gradient data dl dp) steps mass friction 0%nat model0 (fst (snd cx)) its eps x model p)
      (combine (seq 0 (length starts)) starts) results.
Proof.
  intros steps friction mass model0 Hst' Hfr Hma.
  destruct (@C64_sghmc G obs choice_repl choice_perm rng_of_seed Hperm Hrepl s Hs normal Hn uvalue umodel ugrad grad_like model_structure
    Key choice tk z Hc a f l' n its Hf Hl' Ha Hacc Hhot Hfl Hits Hburn steps friction mass model0 Hst' Hfr Hma) as (eps & E1 & E2).
  exists eps. split; auto. intros datas hD ai i ca cid0 k0 data starts Hst Hx h.
  destruct (E2 datas hD ai i ca mb cid0 k0 data N starts Hst Hx h) as (rs & R1 & R2). exists rs. split; [exact R1|].
  destruct starts as [|st0 starts']; [inversion R2; subst; constructor|].
  destruct (@started_data G obs choice_repl choice_perm rng_of_seed Hperm Hrepl datas hD ai i ca mb cid0 k0 (length (st0 :: starts')) data N ltac:(cbn; lia) Hst) as (Hmb & Hd & HN).
  eapply Forall2_impl; [|exact R2]. clear R1 R2. intros cx r (x & model & p & L & Tr & L1 & L2 & L3). cbv zeta.
  exists x, model, p, L. split; [exact L1|]. split; [exact L2|]. split.
  { erewrite map_ext; [exact L3|]. intros j. symmetry. apply sghmc_saved_batches. intros x' m k. apply same_value; auto. }
  split; [apply Tr|].
  intros dl dp Hsm. eapply (@sghmc_batches) with (ok := smooth data dl dp); [| | |exact Tr].
  - intros x' m k. apply same_model; auto.
  - intros x' m k c Hx' Hok Hc'. apply same_grad; auto.
  - exact Hsm.
Qed.
End Final.
Print Assumptions C71_sgld.
Print Assumptions C71_obabo.
Print Assumptions C71_sghmc.

(** ** The hypotheses are met: the program of C64's example (two loaders, other data states in use, minibatches of one of two observations), a Gaussian model with a
    state that is scaled in every evaluation; gradients exist: [Derive] of Coquelicot. *)
Definition derive_grad (s : vtree) (f : vtree -> R) (x : vtree) : vtree := tree_of s (fun c => Derive.Derive (fun t => f (at_coordinate s x c t)) (el x c)).
Lemma derive_grad_exact s : wfv s -> exact_gradients s (derive_grad s).
Proof.
  intros Hs f x Hx. destruct (tree_of_ok (fun c => Derive.Derive (fun t => f (at_coordinate s x c t)) (el x c)) Hs) as [H1 H2]. split; [exact H1|].
  intros d Hd c Hc. unfold derive_grad. rewrite H2 by exact Hc. apply Derive.is_derive_unique. apply Derive.is_derive_Reals. apply Hd. exact Hc.
Qed.
(** auxiliary definitions of the example; model no code of /repo *)
Definition ex_obs (r : orow nat) : R := match r with (_, Some y) :: _ => INR y | _ => 0 end.
(** auxiliary definition of a statement or a proof; models no code of /repo *)
Definition ex_l (st : option vtree) (x : vtree) (r : orow nat) : R := - (ex_obs r - el x 0) * (ex_obs r - el x 0) / 2.
(** auxiliary definition of a statement or a proof; models no code of /repo *)
Definition ex_double (m : vtree) : vtree := match m with Leaf a => Leaf (mkArr (ashape a) (map (Rmult 2) (adata a))) | _ => m end.
(** auxiliary definition of a statement or a proof; models no code of /repo *)
Definition ex_lik : lik_fn nat vtree vtree := Single (fun st x r => (ex_l st x r, option_map ex_double st)).
(** auxiliary definition of a statement or a proof; models no code of /repo *)
Definition ex_prior (x : vtree) : R := - el x 0 * el x 0 / 2.
(** auxiliary definition of a statement or a proof; models no code of /repo *)
Definition ex_dl (st : option vtree) (x : vtree) (r : orow nat) (c : nat) : R := if (c =? 0)%nat then ex_obs r - el x 0 else 0.
(** auxiliary definition of a statement or a proof; models no code of /repo *)
Definition ex_dp (x : vtree) (c : nat) : R := if (c =? 0)%nat then - el x 0 else 0.
Lemma quadratic_derivative y x : derivable_pt_lim (fun t => - (y - t) * (y - t) / 2) x (y - x).
Proof.
  intros eps He. exists (mkposreal eps He). cbn [pos]. intros h Hh Hlt.
  replace ((- (y - (x + h)) * (y - (x + h)) / 2 - - (y - x) * (y - x) / 2) / h - (y - x)) with (- (h / 2)) by (field; exact Hh).
  rewrite Rabs_Ropp. unfold Rdiv. rewrite Rabs_mult, (Rabs_pos_eq (/ 2)) by lra. pose proof (Rabs_pos h). lra.
Qed.
Lemma ex_smooth s N data x m : wfv s -> (0 < dim s)%nat -> smooth_at ex_prior true N data ex_l s ex_dl ex_dp x m.
Proof.
  intros Hs H0.
  assert (E : forall c t, (c < dim s)%nat -> el (at_coordinate s x c t) 0 = if (c =? 0)%nat then t else el x 0).
  { intros c t Hc. unfold at_coordinate. rewrite (proj2 (tree_of_ok _ Hs)) by exact H0. destruct c; reflexivity. }
  split; [|intros j _]; intros c Hc; unfold ex_prior, ex_dp, ex_l, ex_dl.
  - apply (derivable_pt_lim_ext (fun t => - (if (c =? 0)%nat then t else el x 0) * (if (c =? 0)%nat then t else el x 0) / 2)); [intros t; now rewrite E|].
    destruct (Nat.eqb_spec c 0) as [-> |Hne].
    + replace (- el x 0) with (0 - el x 0) by ring. apply (derivable_pt_lim_ext (fun t => - (0 - t) * (0 - t) / 2)); [intros t; field|]. apply quadratic_derivative.
    + apply (derivable_pt_lim_const (- el x 0 * el x 0 / 2)).
  - set (y := ex_obs _). apply (derivable_pt_lim_ext (fun t => - (y - (if (c =? 0)%nat then t else el x 0)) * (y - (if (c =? 0)%nat then t else el x 0)) / 2)); [intros t; now rewrite E|].
    destruct (Nat.eqb_spec c 0) as [-> |Hne].
    + apply quadratic_derivative.
    + apply (derivable_pt_lim_const (- (y - el x 0) * (y - el x 0) / 2)).
Qed.
Example C71_nonvacuous : let s := tree_ab 0 0 in let a := mkAlias (Fin 0.5) (Fin 0.1) None 1 (Some 3%nat) true false None in
  let z := fun x => mkArr (ashape x) (map (fun _ => 0) (adata x)) in let starts := [(tree_ab 1 2, ex_source0); (tree_ab 3 4, ex_source1)] in
  let model0 := Leaf (mkArr [] [1]) in let normal := fun (_ : key) sh => repeat 0 (size sh) in
  let pot := potential_function ex_prior ex_lik true 1 in let data := [("y"%string, [20%nat; 21%nat])] in
  exists eps, falling 5 0.5 0.1 eps /\ exists results, snd (al_run first_choice tt a z
      (sgld_solver normal (loader_source lin_repl rot_perm (fun s => s)) (user_value true pot 2) (user_likelihoods true pot 2) (user_model true pot 2) (user_grad true pot 2 (derive_grad s)) true)
      (mc_new false) (map (fun xd => sgld_init true 0.9 1 (snd xd) model0 (fst xd)) starts) 5) = Some (Ok results) /\
    Forall2 (fun (x0 : nat * (vtree * lsource (G := nat) (obs := nat))) (r : result arr) => fst r = 3%nat /\
      exists theta model, sgld_trajectory s normal (index_source lin_repl (fun s => s) 2 1 (1 + fst x0)) (next_state ex_lik true data) (posterior_grad true 1 2 data s ex_dl ex_dp)
        true 0.9 1 0%nat model0 (fst (snd x0)) 5 eps theta model) (combine (seq 0 2) starts) results.
Proof.
  intros s a z starts model0 normal pot data.
  assert (LK : forall u v, like s (tree_ab u v)) by (intros u v; split; [apply tree_ab_wf|split; reflexivity]).
  destruct (@C71_sgld nat nat lin_repl rot_perm (fun s => s) rot_perm_oracle lin_repl_oracle s (tree_ab_wf _ _) normal (fun k sh => repeat_length _ _)
    ex_prior ex_lik true 1 PMap pot eq_refl ex_l) with (jgrad := derive_grad s) (N := 2%nat) (mb := 1%nat)
      (choice := first_choice) (tk := tt) (z := z) (rms := true) (alpha := 0.9) (lmbd := 1) (model0 := model0)
      (a := a) (f := 0.5) (l' := 0.1) (n := 3%nat) (its := 5%nat) as (eps & EF & H); try reflexivity; try lra; try (cbn; lia); auto using first_choice_ok.
  { intros st x r. reflexivity. }
  { intros _ m x r. exists (ex_double m). split; [reflexivity|]. destruct m; reflexivity. }
  { apply derive_grad_exact. apply tree_ab_wf. }

  exists eps. split; [exact EF|].
  destruct (H _ _ _ _ _ _ _ _ starts ex_started) with (h := @nil (mop arr)) as (rs & R1 & R2).
  { intros [|[|c]] x d E; [injection E as <- <-|injection E as <- <-|destruct c; discriminate]; (split; [apply LK|]); apply ex_chains. }
  exists rs. split; [exact R1|]. eapply Forall2_impl; [|exact R2]. intros x0 r (th & mo & L & _ & E & _ & _ & _ & _ & Tr). split; [exact E|]. exists th, mo.
  apply Tr. intros i Hi. apply ex_smooth; [apply tree_ab_wf|cbn; lia].
Qed.
