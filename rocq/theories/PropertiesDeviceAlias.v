(** C78: alias.sgld, alias.obabo, alias.sghmc on a DeviceNumpyDataLoader, with a potential built by minibatch_potential from the user's log likelihood and log prior. *)
From Coq Require Import Reals Lra ZArith String.
From Verif Require Import Base ListUtil NumpyLoader LoaderSpec NumpyLoaderProofs NumpyLoaderApi DeviceData DeviceDataProofs.
From Verif Require Import Pytree PytreeSpec PytreeProofs Io IoSpec IoProofs TreeUtil TreeUtilSpec TreeUtilProofs Integrator IntegratorSpec IntegratorBasics PropertiesIntegrator
  Xreal Scheduler SchedulerSpec PropertiesScheduler Solver SolverSpec Adaption Alias PropertiesAlias AliasSgld AliasRun AliasHmc AliasData.
From Verif Require Import DataCore DataSpec Potential PotentialSpec PotentialProofs UnbiasedProofs PropertiesPotential LeapfrogVolume EndToEndSpec EndToEndProofs PropertiesEndToEnd.
Open Scope R_scope.
Set Implicit Arguments.

(** ** Model: batch_fn of random_reference_data for a device loader, core.py:838-863 with numpy_loader.py:128-141; its state is a key.
    (An exception would end the program; the empty batch stands for it.) *)
Definition device_source {K obs} (split : K -> K * K) (randint : K -> nat -> nat -> list nat) (data : list (string * list obs)) (N mb : nat) (k : K) : K * mbatch obs :=
  match dev_random_batch data N split randint mb k with Ok r => r | Exc _ => (k, ([], [])) end.
(** ** Specification: the index lists; every call splits the key, keeps the first half and draws mb indices with the second half *)
Definition device_indices {K} (split : K -> K * K) (randint : K -> nat -> nat -> list nat) (N mb : nat) (k : K) : K * list nat :=
  (fst (split k), randint (snd (split k)) mb N).

Lemma dev_sizes G obs (data : list (string * list obs)) (lo : loader G obs) ca mb : make_loader data = Ok lo ->
  check_random DeviceKind (Z.of_nat (l_count lo)) (Z.of_nat ca) (Z.of_nat mb) = Ok tt ->
  (0 < mb <= l_count lo)%nat /\ data <> [] /\ forall ka, In ka data -> length (snd ka) = l_count lo.
Proof.
  intros Hlo Hacc'.
  destruct (@final_check_random DeviceKind (Z.of_nat (l_count lo)) (Z.of_nat ca) (Z.of_nat mb) ltac:(discriminate)) as [[H _] _]. destruct (H Hacc') as (H1 & H2 & H3 & _).
  destruct (make_loader_ok _ Hlo) as [(DO1 & DO2 & DO3) _]. split; [lia|]. split; [apply (loader_nonempty _ _ Hlo); lia|]. auto.
Qed.

Section Final.
Variables (G K obs : Type).
Variable split : K -> K * K.
Variable randint : K -> nat -> nat -> list nat.
(** jax.random.randint(key, (n,), 0, m): n integers, all from 0 .. m - 1 *)
Hypothesis Hrand : forall k n m, length (randint k n m) = n /\ ((0 < m)%nat -> Forall (fun i => (i < m)%nat) (randint k n m)).
(** random.PRNGKey(0), the initial data state of every chain, numpy_loader.py:122-125 *)
Variable key0 : K.
Variable s : vtree.
Hypothesis Hs : wfv s.
Variable normal : key -> list nat -> list R.
Hypothesis Hn : normal_ok normal.
(** the user's model: log prior, (batched) log likelihood l, temperature; the potential function of potential.py for it; JAX's gradients *)
Variables (prior : vtree -> R) (likelihood : lik_fn obs vtree vtree) (has_state : bool) (T : R) (strategy : pot_strategy).
Variable pot : nat -> vtree -> mbatch obs -> option vtree -> option (list bool) -> res (R * list R * option vtree).
Hypothesis Hpot : minibatch_potential prior likelihood has_state T strategy = Ok pot.
Variable l : option vtree -> vtree -> orow obs -> R.
Hypothesis Hl : evaluates_with likelihood l.
Hypothesis Hk : keeps_state likelihood has_state.
Variable jgrad : (vtree -> R) -> vtree -> vtree.
Hypothesis Hj : exact_gradients s jgrad.
(** the data loader, and cache_size = ca, batch_size = mb of the alias, with which random_reference_data does not raise *)
Variables (data : list (string * list obs)) (lo : loader G obs) (ca mb : nat).
Hypothesis Hlo : make_loader data = Ok lo.
Notation N := (l_count lo).
Hypothesis Hacc' : check_random DeviceKind (Z.of_nat N) (Z.of_nat ca) (Z.of_nat mb) = Ok tt.
(** a batched likelihood is not used with batches of one (C41_batch_of_one_refuted) *)
Hypothesis Hone : is_batched likelihood = true -> mb <> 1%nat.
Notation source := (device_source split randint data N mb).
Notation indices := (device_indices split randint N mb).
Notation value := (posterior_value prior has_state T N data l).
Notation gradient dl dp := (posterior_grad has_state T N data s dl dp).
Notation next := (next_state likelihood has_state data).
Notation smooth dl dp := (smooth_at prior has_state N data l s dl dp).
Notation uvalue := (user_value has_state pot N).
Notation ulikelihoods := (user_likelihoods has_state pot N).
Notation umodel := (user_model has_state pot N).
Notation ugrad := (user_grad has_state pot N jgrad).
Lemma dev_grad_like t b m : like s t -> like s (ugrad t b m).
Proof. intros H. apply Hj. exact H. Qed.
Lemma dev_model_structure t b m : same_structure (umodel t b m) m.
Proof. eapply user_model_structure; eauto. Qed.
Notation sizes := (@dev_sizes _ _ _ _ _ _ Hlo Hacc').
Lemma dev_source_step k : source k = (fst (indices k), (map (fun ka => (fst ka, select (snd ka) (snd (indices k)))) data, repeat true mb)).
Proof.
  destruct sizes as (S1 & S2 & S3). unfold device_source, device_indices, dev_random_batch. destruct (split k) as [k' sub]. cbn [fst snd].
  rewrite (tree_take_ok data S3) by (apply Hrand; lia). reflexivity.
Qed.
Lemma dev_drawn k0 j : drawn source k0 j = drawn indices k0 j.
Proof. induction j as [|j IH]; [reflexivity|]. cbn [drawn]. rewrite IH, dev_source_step. reflexivity. Qed.
Lemma dev_batch_no k0 j : batch_no source k0 j = (map (fun ka => (fst ka, select (snd ka) (batch_no indices k0 j))) data, repeat true mb).
Proof. unfold batch_no. rewrite dev_drawn, dev_source_step. reflexivity. Qed.
Lemma dev_indices_ok k0 j : length (batch_no indices k0 j) = mb /\ Forall (fun i => (i < N)%nat) (batch_no indices k0 j).
Proof. destruct sizes as (S1 & _). unfold batch_no, device_indices. cbn [snd]. split; apply Hrand. lia. Qed.
Lemma dev_same_value k0 x m k : uvalue x (batch_no source k0 k) m = value x (batch_no indices k0 k) m.
Proof.
  rewrite dev_batch_no. destruct (dev_indices_ok k0 k) as [I1 I2]. destruct sizes as (S1 & S2 & S3).
  eapply user_value_is; eauto; rewrite ?repeat_length, ?I1; auto; lia.
Qed.
Lemma dev_same_model k0 x m k : umodel x (batch_no source k0 k) m = next x (batch_no indices k0 k) m.
Proof.
  rewrite dev_batch_no. destruct (dev_indices_ok k0 k) as [I1 I2]. destruct sizes as (S1 & S2 & S3).
  eapply user_model_is; eauto; rewrite ?repeat_length, ?I1; auto; lia.
Qed.
Lemma dev_same_grad k0 dl dp x m k c : like s x -> smooth dl dp x m -> (c < dim s)%nat ->
  el (ugrad x (batch_no source k0 k) m) c = el (gradient dl dp x (batch_no indices k0 k) m) c.
Proof.
  intros Hx Hsm Hc'. rewrite dev_batch_no. destruct (dev_indices_ok k0 k) as [I1 I2]. destruct sizes as (S1 & S2 & S3).
  eapply user_grad_is; eauto; rewrite ?repeat_length, ?I1; auto; lia.
Qed.
Variables (Key : Type) (choice : Key -> list xr -> nat -> list nat) (tk : Key) (z : arr -> arr).
Hypothesis Hc : choice_ok choice.
(** schedule arguments of the alias, number n of accepted samples, iterations *)
Variables (a : alias_args) (f l' : R) (n its : nat).
Hypothesis Hf : al_first a = Fin f.
Hypothesis Hl' : al_last a = Fin l'.
Hypothesis Ha : al_adaptive a = None.
Hypothesis Hacc : al_accepted a = Some n.
Hypothesis Hhot : al_hot a = None.
Hypothesis Hfl : 0 < l' < f.
Hypothesis Hits : (2 <= its)%nat.
Hypothesis Hburn : (al_burn_in a + n <= its)%nat.
Notation chosen := (chosen a n its).
Lemma dev_run (P : vtree -> result arr -> Prop) starts rs :
  Forall2 (fun xd r => snd xd = key0 -> P (fst xd) r) (map (fun x : vtree => (x, key0)) starts) rs -> Forall2 P starts rs.
Proof. revert rs. induction starts as [|x xs IH]; intros rs H; inversion H as [|? ? ? ? H1 H2]; subst; constructor; auto. Qed.
Lemma dev_likes starts : Forall (like s) starts -> Forall (fun xd : vtree * K => like s (fst xd)) (map (fun x => (x, key0)) starts).
Proof. intros H. apply Forall_map. exact H. Qed.

(** The run function of alias.sgld returns, for every initial sample, n samples of the SGLD recursion for the posterior of the user's model; the minibatches of
    ALL chains are drawn with the index lists that [device_indices] draws from PRNGKey(0): the same lists in every chain. *)
Theorem C78_sgld : forall rms alpha lmbd model0, (rms = true -> 0 <= alpha <= 1 /\ 0 < lmbd) -> exists eps, falling its f l' eps /\
  forall starts, Forall (like s) starts ->
  forall h, exists results, snd (al_run choice tk a z (sgld_solver normal source uvalue ulikelihoods umodel ugrad rms) (fst (run (mstep z) (mc_new false) h))
      (map (fun x => sgld_init rms alpha lmbd key0 model0 x) starts) its) = Some (Ok results) /\
    Forall2 (fun x0 r => exists theta model L, chosen L /\
      fst r = n /\ exactly_samples (map (saved_sample indices value key0 theta model) L) (snd r) /\
      theta 0%nat = x0 /\ model 0%nat = model0 /\ (forall i, (i < its)%nat -> model (S i) = next (theta i) (batch_no indices key0 i) (model i)) /\
      forall dl dp, (forall i, (i < its)%nat -> smooth dl dp (theta i) (model i)) ->
        sgld_trajectory s normal indices next (gradient dl dp) rms alpha lmbd key0 model0 x0 its eps theta model)
      starts results.
Proof.
  intros rms alpha lmbd model0 Hr.
  destruct (@C51_sgld s normal _ _ source uvalue ulikelihoods umodel ugrad Hs Hn dev_grad_like dev_model_structure
    Key choice tk z Hc rms alpha lmbd model0 Hr a f l' n its Hf Hl' Ha Hacc Hhot Hfl Hits Hburn) as (eps & E1 & E2).
  exists eps. split; auto. intros starts Hx h.
  destruct (E2 h _ (dev_likes Hx)) as (rs & R1 & R2). rewrite map_map in R1. exists rs. split; [exact R1|].
  apply dev_run. eapply Forall2_impl; [|exact R2]. clear R1 R2. intros [x0 d0] r (theta & model & L & Tr & L1 & L2 & L3 & L4 & L5). cbn [fst snd] in *. intros ->.
  exists theta, model, L. split; [split; auto|]. split; [exact L4|]. split.
  { erewrite map_ext; [exact L5|]. intros j. symmetry. apply sgld_saved_batches. intros x m k. apply dev_same_value. }
  destruct Tr as [[T1 T1'] T2 T3 T4] eqn:ET. split; [exact T1|]. split; [exact T1'|]. split.
  { intros j Hj'. rewrite (T3 j Hj'). apply dev_same_model. }
  intros dl dp Hsm. eapply (@sgld_batches) with (pv1 := uvalue) (pv2 := value) (ok := smooth dl dp); [| | | |exact Tr].
  - intros x m k. apply dev_same_value.
  - intros x m k. apply dev_same_model.
  - intros x m k c Hx' Hok Hc'. apply dev_same_grad; auto.
  - exact Hsm.
Qed.
Theorem C78_obabo : forall steps friction mass model0, (0 < steps)%nat -> (forall m, mass = Some m -> like s m) -> exists eps, falling its f l' eps /\
  forall starts, Forall (like s) starts ->
  forall h, exists results, snd (al_run choice tk a z (obabo_solver normal source uvalue umodel ugrad steps mass friction) (fst (run (mstep z) (mc_new false) h))
      (map (fun x => obabo_init key0 model0 x) starts) its) = Some (Ok results) /\
    Forall2 (fun x0 r => exists x model p r' h' e L, chosen L /\
      fst r = n /\ exactly_samples (map (obabo_saved indices value steps key0 x model) L) (snd r) /\ x 0%nat = x0 /\
      forall dl dp, (forall t, (t < its * steps)%nat -> smooth dl dp (x t) (model (2 * t)%nat) /\ smooth dl dp (x (S t)) (model (2 * t + 1)%nat)) ->
        obabo_trajectory s normal indices next (gradient dl dp) steps mass friction key0 model0 x0 its eps x model p r' h' e)
      starts results.
Proof.
  intros steps friction mass model0 Hst' Hma.
  destruct (@C63_obabo s normal _ _ source uvalue umodel ugrad Hs Hn dev_grad_like dev_model_structure
    Key choice tk z Hc steps friction mass model0 Hst' Hma a f l' n its Hf Hl' Ha Hacc Hhot Hfl Hits Hburn) as (eps & E1 & E2).
  exists eps. split; auto. intros starts Hx h.
  destruct (E2 h _ (dev_likes Hx)) as (rs & R1 & R2). rewrite map_map in R1. exists rs. split; [exact R1|].
  apply dev_run. eapply Forall2_impl; [|exact R2]. clear R1 R2. intros [x0 d0] r (x & model & p & r' & h' & e & L & Tr & L1 & L2 & L3 & L4 & L5). cbn [fst snd] in *. intros ->.
  exists x, model, p, r', h', e, L. split; [split; auto|]. split; [exact L4|]. split.
  { erewrite map_ext; [exact L5|]. intros j. symmetry. apply obabo_saved_batches. intros x' m k. apply dev_same_value. }
  split; [apply Tr|].
  intros dl dp Hsm. eapply (@obabo_batches) with (pv1 := uvalue) (pv2 := value) (ok := smooth dl dp); [| | | |exact Tr].
  - intros x' m k. apply dev_same_value.
  - intros x' m k. apply dev_same_model.
  - intros x' m k c Hx' Hok Hc'. apply dev_same_grad; auto.
  - exact Hsm.
Qed.
Theorem C78_sghmc : forall steps friction mass model0, (0 < steps)%nat -> (forall t, friction = FTree t -> like s t) -> (forall m, mass = Some m -> like s m) -> exists eps, falling its f l' eps /\
  forall starts, Forall (like s) starts ->
  forall h, exists results, snd (al_run choice tk a z (sghmc_solver normal source uvalue umodel ugrad steps mass friction) (fst (run (mstep z) (mc_new false) h))
      (map (fun x => sghmc_init (mbatch obs) key0 model0 x) starts) its) = Some (Ok results) /\
    Forall2 (fun x0 r => exists x model p L, chosen L /\
      fst r = n /\ exactly_samples (map (sghmc_saved indices value steps key0 x model) L) (snd r) /\ x 0%nat 0%nat = x0 /\
      forall dl dp, (forall i k, (i < its)%nat -> (k < steps)%nat -> smooth dl dp (x i (S k)) (model (i * steps + k)%nat)) ->
        sghmc_trajectory s normal indices next (gradient dl dp) steps mass friction key0 model0 x0 its eps x model p)
      starts results.
Proof.
  intros steps friction mass model0 Hst' Hfr Hma.
  destruct (@C63_sghmc s normal _ _ source uvalue umodel ugrad Hs Hn dev_grad_like dev_model_structure
    Key choice tk z Hc steps friction mass model0 Hst' Hfr Hma a f l' n its Hf Hl' Ha Hacc Hhot Hfl Hits Hburn) as (eps & E1 & E2).
  exists eps. split; auto. intros starts Hx h.
  destruct (E2 h _ (dev_likes Hx)) as (rs & R1 & R2). rewrite map_map in R1. exists rs. split; [exact R1|].
  apply dev_run. eapply Forall2_impl; [|exact R2]. clear R1 R2. intros [x0 d0] r (x & model & p & L & Tr & L1 & L2 & L3 & L4 & L5). cbn [fst snd] in *. intros ->.
  exists x, model, p, L. split; [split; auto|]. split; [exact L4|]. split.
  { erewrite map_ext; [exact L5|]. intros j. symmetry. apply sghmc_saved_batches. intros x' m k. apply dev_same_value. }
  split; [apply Tr|].
  intros dl dp Hsm. eapply (@sghmc_batches) with (ok := smooth dl dp); [| | |exact Tr].
  - intros x' m k. apply dev_same_model.
  - intros x' m k c Hx' Hok Hc'. apply dev_same_grad; auto.
  - exact Hsm.
Qed.
End Final.
Print Assumptions C78_sgld.
Print Assumptions C78_obabo.
Print Assumptions C78_sghmc.

(** With the default cache_size = 512 no alias can be constructed on a device loader: ValueError, for every data set and batch size (core.py:513-514). *)
Theorem C78_default_cache_refuted : forall N mb, check_random DeviceKind N 512 mb = Exc ValueError.
Proof. intros N mb. unfold check_random. destruct (N <? mb)%Z; [reflexivity|]. destruct ((512 <=? 0)%Z || (mb <=? 0)%Z)%bool; reflexivity. Qed.
Print Assumptions C78_default_cache_refuted.

(** ** The hypotheses are met: three observations, minibatches of two, two chains of a Gaussian model with a state *)
Example C78_nonvacuous : let s := tree_ab 0 0 in let a := mkAlias (Fin 0.5) (Fin 0.1) None 1 (Some 3%nat) true false None in
  let z := fun x => mkArr (ashape x) (map (fun _ => 0) (adata x)) in let starts := [tree_ab 1 2; tree_ab 3 4] in
  let model0 := Leaf (mkArr [] [1]) in let normal := fun (_ : key) sh => repeat 0 (size sh) in
  let split := fun k : nat => (2 * k + 1, 2 * k + 2)%nat in let randint := fun (k n m : nat) => map (fun j => ((k + j) mod m)%nat) (seq 0 n) in
  let pot := potential_function ex_prior ex_lik true 1 in let data := [("y"%string, [20%nat; 21%nat; 22%nat])] in
  (* the first two index lists *)
  batch_no (device_indices split randint 3 2) 0%nat 0 = [2; 0]%nat /\ batch_no (device_indices split randint 3 2) 0%nat 1 = [1; 2]%nat /\
  exists eps, falling 5 0.5 0.1 eps /\ exists results, snd (al_run first_choice tt a z
      (sgld_solver normal (device_source split randint data 3 2) (user_value true pot 3) (user_likelihoods true pot 3) (user_model true pot 3) (user_grad true pot 3 (derive_grad s)) true)
      (mc_new false) (map (fun x => sgld_init true 0.9 1 0%nat model0 x) starts) 5) = Some (Ok results) /\
    Forall2 (fun (x0 : vtree) (r : result arr) => fst r = 3%nat /\
      exists theta model, sgld_trajectory s normal (device_indices split randint 3 2) (next_state ex_lik true data) (posterior_grad true 1 3 data s ex_dl ex_dp)
        true 0.9 1 0%nat model0 x0 5 eps theta model) starts results.
Proof.
  intros s a z starts model0 normal split randint pot data. split; [reflexivity|]. split; [reflexivity|].
  assert (LK : forall u v, like s (tree_ab u v)) by (intros u v; split; [apply tree_ab_wf|split; reflexivity]).
  destruct (make_loader (G := unit) data) as [lo|e] eqn:Elo; [|discriminate].
  assert (EN : l_count lo = 3%nat) by (injection Elo as <-; reflexivity).
  pose proof (@C78_sgld unit nat nat split randint) as H. specialize (H ltac:(intros k n m; unfold randint; split; [now rewrite map_length, seq_length|]; intros Hm; apply Forall_forall; intros i Hi; apply in_map_iff in Hi; destruct Hi as (j & <- & _); apply Nat.mod_upper_bound; lia)).
  specialize (H 0%nat s (tree_ab_wf _ _) normal (fun k sh => repeat_length _ _) ex_prior ex_lik true 1 PMap pot eq_refl ex_l).
  specialize (H ltac:(intros st x r; reflexivity) ltac:(intros _ m x r; exists (ex_double m); split; [reflexivity|]; destruct m; reflexivity) (derive_grad s) ltac:(apply derive_grad_exact; apply tree_ab_wf)).
  specialize (H data lo 1%nat 2%nat Elo). rewrite EN in H.
  destruct (H eq_refl ltac:(discriminate) unit first_choice tt z first_choice_ok a 0.5 0.1 3%nat 5%nat eq_refl eq_refl eq_refl eq_refl eq_refl ltac:(lra) ltac:(lia) ltac:(cbn; lia)
    true 0.9 1 model0 ltac:(intros _; lra)) as (eps & EF & H').
  exists eps. split; [exact EF|]. destruct (H' starts) with (h := @nil (mop arr)) as (rs & R1 & R2); [repeat constructor; apply LK|].
  exists rs. split; [exact R1|]. eapply Forall2_impl; [|exact R2]. intros x0 r (th & mo & L & _ & E & _ & _ & _ & _ & Tr). split; [exact E|]. exists th, mo.
  apply Tr. intros i Hi. apply ex_smooth; [apply tree_ab_wf|cbn; lia].
Qed.
