(** C72: alias.sghmc with adapt_noise_model=True on a data loader, with a potential built by minibatch_potential from the user's log likelihood and log prior. *)
From Coq Require Import Reals Lra ZArith String.
From Verif Require Import Base ListUtil NumpyLoader LoaderSpec NumpyLoaderProofs NumpyLoaderApi Requests Hub HubSpec HubProofs HubFinal PropertiesHub GenInstance.
From Verif Require Import Pytree PytreeSpec PytreeProofs Io IoSpec IoProofs TreeUtil TreeUtilSpec TreeUtilProofs Integrator IntegratorSpec IntegratorBasics PropertiesIntegrator
  Xreal Scheduler SchedulerSpec PropertiesScheduler Solver SolverSpec Adaption Alias PropertiesAlias AliasSgld AliasRun AliasHmc AliasData AliasNoise.
From Verif Require Import DataCore DataSpec Potential PotentialSpec PotentialProofs UnbiasedProofs PropertiesPotential LeapfrogVolume EndToEndSpec EndToEndProofs PropertiesEndToEnd.
Open Scope R_scope.
Set Implicit Arguments.

(** the gradient of the log likelihood of observation j of the batch: jax.grad of potential_at_obs, adaption.py:413-418 *)
Definition user_grad_obs {obs} (has_state : bool) (pot : nat -> vtree -> mbatch obs -> option vtree -> option (list bool) -> res (R * list R * option vtree)) (N : nat)
    (jgrad : (vtree -> R) -> vtree -> vtree) (x : vtree) (b : mbatch obs) (m : vtree) (j : nat) : vtree :=
  jgrad (fun y => nth j (user_likelihoods has_state pot N y b m) 0) x.
(** the gradient of the log likelihood of observation number (idx j) of the data set *)
Definition likelihood_grad {obs} (has_state : bool) (data : list (string * list obs)) (s : vtree) (dl : option vtree -> vtree -> orow obs -> nat -> R) (x : vtree) (idx : list nat) (m : vtree) (j : nat) : vtree :=
  tree_of s (dl (state_of has_state m) x (row data (nth j idx 0%nat))).

Section Likelihoods.
Variable obs : Type.
Variables (prior : vtree -> R) (likelihood : lik_fn obs vtree vtree) (has_state : bool) (T : R).
Variable strategy : pot_strategy.
Variable pot : nat -> vtree -> mbatch obs -> option vtree -> option (list bool) -> res (R * list R * option vtree).
Hypothesis Hpot : minibatch_potential prior likelihood has_state T strategy = Ok pot.
Variable l : option vtree -> vtree -> orow obs -> R.
Hypothesis Hl : evaluates_with likelihood l.
Hypothesis Hk : keeps_state likelihood has_state.
Variable data : list (string * list obs).
Variable N : nat.
Hypothesis Hd : data <> [].
Hypothesis HN : forall ka, In ka data -> length (snd ka) = N.
Variables (idx : list nat) (mask : list bool).
Hypothesis Hi : Forall (fun i => (i < N)%nat) idx.
Hypothesis Hm : length mask = length idx.
Hypothesis Hpos : (0 < length idx)%nat.
Hypothesis Hone : is_batched likelihood = true -> length idx <> 1%nat.
Notation b := (map (fun ka => (fst ka, select (snd ka) idx)) data, mask).
Lemma user_likelihoods_are x m j : (j < length idx)%nat -> nth j (user_likelihoods has_state pot N x b m) 0 = l (state_of has_state m) x (row data (nth j idx 0%nat)).
Proof.
  intros Hj. unfold user_likelihoods. rewrite (@pot_fixed obs prior likelihood has_state T strategy pot Hpot l Hl Hk).
  destruct (batch_at_of Hd HN mask Hi Hm) as [B1 B2].
  destruct (@minibatch_value _ _ _ (fix_state likelihood (state_of has_state m)) (l (state_of has_state m)) has_state (@fix_evaluates obs prior likelihood has_state T strategy pot Hpot l Hl Hk _) prior T N x b _ (state_of has_state m)
    (@fix_fits obs prior likelihood has_state T strategy pot Hpot l Hl Hk m) B1 Hpos) as (st & E).
  { unfold fix_state. destruct likelihood; exact Hone. }
  rewrite E. rewrite (@AdaptionProofs.nth_map_in _ _ _ _ _ 0%nat) by (rewrite seq_length; exact Hj). rewrite seq_nth by exact Hj. cbn [plus fst]. now rewrite B2.
Qed.
Variable s : vtree.
Hypothesis Hs : wfv s.
Variable jgrad : (vtree -> R) -> vtree -> vtree.
Hypothesis Hj : exact_gradients s jgrad.
Lemma user_grad_obs_is dl dp x m j c : like s x -> smooth_at prior has_state N data l s dl dp x m -> (j < length idx)%nat -> (c < dim s)%nat ->
  el (user_grad_obs has_state pot N jgrad x b m j) c = el (likelihood_grad has_state data s dl x idx m j) c.
Proof.
  intros Hx [_ S2] Hjl Hc. unfold user_grad_obs, likelihood_grad. rewrite (proj2 (tree_of_ok _ Hs)) by auto.
  destruct (Hj (fun y => nth j (user_likelihoods has_state pot N y b m) 0) Hx) as [_ H]. apply H; auto. clear c Hc H. intros c Hc.
  apply (derivable_pt_lim_ext (fun t => l (state_of has_state m) (at_coordinate s x c t) (row data (nth j idx 0%nat)))).
  { intros t. now rewrite user_likelihoods_are. }
  apply S2; auto. rewrite Forall_forall in Hi. apply Hi. now apply nth_In.
Qed.
End Likelihoods.

(** ** Noise trajectories on another source *)
Lemma noise_batches (s : vtree) normal D1 D2 B1 B2 (g1 : D1 -> D1 * B1) (g2 : D2 -> D2 * B2) d1 d2 pm1 pg1 pm2 pg2 (root1 : R -> vtree -> B1 -> vtree -> nat -> R) (root2 : R -> vtree -> B2 -> vtree -> nat -> R) :
  (forall x m k, pm1 x (batch_no g1 d1 k) m = pm2 x (batch_no g2 d2 k) m) ->
  (forall x m k c, like s x -> (c < dim s)%nat -> el (pg1 x (batch_no g1 d1 k) m) c = el (pg2 x (batch_no g2 d2 k) m) c) ->
  (forall e x m k c, like s x -> (c < dim s)%nat -> root1 e x (batch_no g1 d1 k) m c = root2 e x (batch_no g2 d2 k) m c) ->
  forall steps mass friction model0 x0 its eps x model p,
  noise_trajectory s normal g1 pm1 pg1 steps mass root1 friction d1 model0 x0 its eps x model p -> noise_trajectory s normal g2 pm2 pg2 steps mass root2 friction d2 model0 x0 its eps x model p.
Proof.
  intros Hmo Hgr Hro steps mass friction model0 x0 its eps x model p [T1 T2 T3 T4 T5]. split; auto. intros i k Hi Hk. specialize (T5 i k Hi Hk). cbv zeta in *. rewrite <- Hmo.
  destruct T5 as [M T5]. split; [exact M|]. intros c Hc. rewrite <- Hgr, <- Hro by (auto; apply T2; lia). apply T5. exact Hc.
Qed.

(** The run function returns, for every initial sample, n samples of the SGHMC recursion for the posterior of the user's model; the noise injected in step k of iteration i has variance
    2 eps_i (friction - estimate), where the estimate is computed from the gradients of the log likelihoods of the observations drawn in this step.  Assumed: log likelihood and
    log prior are differentiable with derivatives dl and dp, and the friction exceeds the estimate for the first step size at all positions and on all batches. *)
Theorem C72_user : forall (G obs : Type) (choice_repl : G -> nat -> nat -> G * list nat) (choice_perm : G -> nat -> G * list nat) (rng_of_seed : nat -> G), perm_oracle choice_perm -> repl_oracle choice_repl ->
  forall s normal, wfv s -> normal_ok normal ->
  forall prior (likelihood : lik_fn obs vtree vtree) has_state T strategy pot, minibatch_potential prior likelihood has_state T strategy = Ok pot ->
  forall l, evaluates_with likelihood l -> keeps_state likelihood has_state ->
  forall jgrad, exact_gradients s jgrad ->
  forall N mb, (2 <= mb)%nat ->
  forall Key (choice : Key -> list xr -> nat -> list nat) tk (z : arr -> arr), choice_ok choice ->
  forall a f l' n its, al_first a = Fin f -> al_last a = Fin l' -> al_adaptive a = None -> al_accepted a = Some n -> al_hot a = None -> 0 < l' < f -> (2 <= its)%nat -> (al_burn_in a + n <= its)%nat ->
  forall steps friction mass model0 svd, (0 < steps)%nat -> (forall t, friction = FTree t -> like s t) -> (forall m, mass = Some m -> like s m) ->
  exists eps, falling its f l' eps /\
  forall datas hD ai i ca cid0 k0 data starts, alias_started choice_repl choice_perm rng_of_seed datas hD ai i ca mb cid0 k0 (length starts) data N ->
  (forall c x d, nth_error starts c = Some (x, d) -> like s x /\ chain_source choice_repl choice_perm rng_of_seed hD ai i cid0 k0 c d) ->
  forall dl dp, (forall x m, like s x -> smooth_at prior has_state N data l s dl dp x m) ->
  let gradient := posterior_grad has_state T N data s dl dp in
  let estimate := noise_estimate gradient (likelihood_grad has_state data s dl) N mb in
  (forall x idx m c, like s x -> length idx = mb -> Forall (fun i => (i < N)%nat) idx -> (c < dim s)%nat -> estimate f x idx m c < friction_at friction c) ->
  forall h, exists results, snd (al_run choice tk a z
      (noise_solver normal (loader_source choice_repl choice_perm rng_of_seed) (user_value has_state pot N) (user_model has_state pot N) (user_grad has_state pot N jgrad) (user_grad_obs has_state pot N jgrad) N mb svd true steps mass friction)
      (fst (run (mstep z) (mc_new false) h))
      (map (fun xd => noise_init (user_grad_obs has_state pot N jgrad) N mb svd true (snd xd) model0 (fst xd)) starts) its) = Some (Ok results) /\
    Forall2 (fun cx r => let indices := index_source choice_repl rng_of_seed N mb (cid0 + fst cx) in exists x model p L, chosen a n its L /\
      fst r = n /\ exactly_samples (map (sghmc_saved indices (posterior_value prior has_state T N data l) steps 0%nat x model) L) (snd r) /\
      noise_trajectory s normal indices (next_state likelihood has_state data) gradient steps mass (fun e x idx m c => sqrt (friction_at friction c - estimate e x idx m c)) friction 0%nat model0 (fst (snd cx)) its eps x model p)
      (combine (seq 0 (length starts)) starts) results.
Proof.
  intros G obs choice_repl choice_perm rng_of_seed Hperm Hrepl s normal Hs Hn prior likelihood has_state T strategy pot Hpot l Hl Hk jgrad Hj N mb Hmb2 Key choice tk z Hc a f l' n its Hf Hl' Ha Hacc Hhot Hfl Hits Hburn
    steps friction mass model0 svd Hst' Hfr Hma.
  destruct (@C72_diagonal s normal _ _ (loader_source choice_repl choice_perm rng_of_seed) (user_value has_state pot N) (user_model has_state pot N) (user_grad has_state pot N jgrad) Hs Hn) with
    (grad_obs := user_grad_obs has_state pot N jgrad) (N := N) (nb := mb) (svd := svd) (choice := choice) (tk := tk) (z := z) (steps := steps) (friction := friction) (mass := mass) (model0 := model0)
    (a := a) (f := f) (l := l') (n := n) (its := its) as (eps & E1 & E2); auto.
  { intros t b m Ht. apply Hj. exact Ht. }
  { intros t b m. eapply user_model_structure; eauto. }
  { intros t b m j Ht. apply Hj. exact Ht. }
  exists eps. split; auto. intros datas hD ai i ca cid0 k0 data starts Hst Hx dl dp Hsm gradient estimate Hest h.
  assert (HB : forall c x d, nth_error starts c = Some (x, d) -> (forall ka, In ka data -> length (snd ka) = N) /\ data <> [] /\ (0 < N)%nat /\
     forall k, batch_no (loader_source choice_repl choice_perm rng_of_seed) d k = (map (fun ka => (fst ka, select (snd ka) (batch_no (index_source choice_repl rng_of_seed N mb (cid0 + c)) 0%nat k))) data, repeat true mb)).
  { intros c x d Ec. destruct (Hx _ _ _ Ec) as [_ Hsrc]. assert (Hlt : (c < length starts)%nat) by (apply nth_error_Some; congruence).
    destruct (@started_data G obs choice_repl choice_perm rng_of_seed Hperm Hrepl datas hD ai i ca mb cid0 k0 (length starts) data N ltac:(lia) Hst) as (Hmb & Hd & HN). split; auto. split; auto. split; [lia|].
    intros k. rewrite (@source_batches G obs choice_repl choice_perm rng_of_seed Hperm Hrepl datas hD ai i ca mb cid0 k0 _ data N c d Hst Hlt Hsrc). rewrite stream_no, index_no. reflexivity. }
  assert (HI : forall c k, (0 < N)%nat -> length (batch_no (index_source choice_repl rng_of_seed N mb (cid0 + c)) 0%nat k) = mb /\ Forall (fun i => (i < N)%nat) (batch_no (index_source choice_repl rng_of_seed N mb (cid0 + c)) 0%nat k)).
  { intros c k H0. rewrite index_no. apply drawn_indices_ok; auto. }
  assert (HE : forall c x d, nth_error starts c = Some (x, d) -> forall e y m k c', like s y -> (c' < dim s)%nat ->
     let b := batch_no (loader_source choice_repl choice_perm rng_of_seed) d k in let idx := batch_no (index_source choice_repl rng_of_seed N mb (cid0 + c)) 0%nat k in
     el (user_grad has_state pot N jgrad y b m) c' = el (gradient y idx m) c' /\
     noise_estimate (user_grad has_state pot N jgrad) (user_grad_obs has_state pot N jgrad) N mb e y b m c' = estimate e y idx m c').
  { intros c x d Ec e y m k c' Hy Hc'. cbv zeta. destruct (HB _ _ _ Ec) as (HN & Hd & H0 & ->). destruct (HI c k H0) as [I1 I2].
    set (idx := batch_no (index_source choice_repl rng_of_seed N mb (cid0 + c)) 0%nat k) in *.
    assert (EG : el (user_grad has_state pot N jgrad y (map (fun ka => (fst ka, select (snd ka) idx)) data, repeat true mb) m) c' = el (gradient y idx m) c').
    { eapply user_grad_is; eauto; rewrite ?repeat_length, ?I1; auto; lia. }
    split; [exact EG|]. unfold estimate, noise_estimate. rewrite EG. f_equal. f_equal. apply sum_upto_ext. intros j Hjm.
    assert (EO : el (user_grad_obs has_state pot N jgrad y (map (fun ka => (fst ka, select (snd ka) idx)) data, repeat true mb) m j) c' = el (likelihood_grad has_state data s dl y idx m j) c').
    { eapply user_grad_obs_is; eauto; rewrite ?repeat_length, ?I1; auto; lia. }
    rewrite EO. reflexivity. }
  destruct (E2 h starts) as (rs & R1 & R2).
  { apply Forall_forall. intros [x d] Hin. apply In_nth_error in Hin. destruct Hin as [c Hc']. split; [apply (Hx _ _ _ Hc')|]. cbn [snd]. intros y k m c' Hy Hcc.
    rewrite (proj2 (HE _ _ _ Hc' f y m k c' Hy Hcc)). destruct (HB _ _ _ Hc') as (_ & _ & H0 & _). destruct (HI c k H0). apply Hest; auto. }
  exists rs. split; [exact R1|]. eapply Forall2_seq; [exact R2|]. intros c [x0 d] r Ec (x & model & p & L & Tr & L1 & L2 & L3 & L4 & L5). cbn [fst snd plus] in *. cbv zeta.
  destruct (HB _ _ _ Ec) as (HN & Hd & H0 & HBt).
  exists x, model, p, L. split; [split; auto|]. split; [exact L4|]. split.
  - erewrite map_ext; [exact L5|]. intros j. symmetry. apply sghmc_saved_batches. intros x' m k. rewrite HBt. destruct (HI c k H0) as [I1 I2].
    eapply user_value_is; eauto; rewrite ?repeat_length, ?I1; auto; lia.
  - eapply noise_batches; [| | |exact Tr].
    + intros x' m k. cbv beta. rewrite HBt. destruct (HI c k H0) as [I1 I2]. eapply user_model_is; eauto; rewrite ?repeat_length, ?I1; auto; lia.
    + intros x' m k c' Hx' Hc'. apply (HE _ _ _ Ec 1 x' m k c'); auto.
    + intros e x' m k c' Hx' Hc'. cbv beta. rewrite (proj2 (HE _ _ _ Ec e x' m k c' Hx' Hc')). reflexivity.
Qed.
Print Assumptions C72_user.

(** ** The hypotheses are met: log likelihood y_i x_0 (its gradients are 20 and 21), flat prior, minibatches of two of two observations, friction 1000 *)
Definition exn_hub : hub nat nat := fst (run ex_step (hub_init (map (fun d => match make_loader d with Ok l => l | Exc _ => mkLoader 0 [] [] end) ex_datas))
  (ex_pre ++ [HRandom 1 2 2 false; HBatch 0; HInit 2 false false None; HInit 2 false false None])).
(** auxiliary definition of a statement or a proof; models no code of /repo *)
Definition exn_source0 : lsource (G := nat) (obs := nat) := mkLS exn_hub 2 (fun n => [HBatch 1; HBatch 0]) 0.
(** auxiliary definition of a statement or a proof; models no code of /repo *)
Definition exn_source1 : lsource (G := nat) (obs := nat) := mkLS (fst (run ex_step exn_hub (flat_map (fun _ => [HBatch 1; HBatch 0; HBatch 2]) (seq 0 5)))) 3 (fun n => [HBatch 2]) 0.
Lemma exn_started : alias_started lin_repl rot_perm (fun s => s) ex_datas exn_hub 2 1 2 2 1 2 2 [("y"%string, [20; 21]%nat)] 2.
Proof.
  exists (map (fun d => match make_loader d with Ok l => l | Exc _ => mkLoader 0 [] [] end) ex_datas), ex_pre.
  do 3 eexists. exists [HBatch 0]. do 4 eexists.
  split; [repeat constructor|]. split; [vm_compute; reflexivity|]. split; [vm_compute; reflexivity|].
  split; [vm_compute; reflexivity|]. split; [reflexivity|]. split; [reflexivity|]. split; [reflexivity|]. split; [vm_compute; reflexivity|]. split; [reflexivity|]. vm_compute. reflexivity.
Qed.
Lemma exn_chains : chain_source lin_repl rot_perm (fun s => s) exn_hub 2 1 1 2 0 exn_source0 /\ chain_source lin_repl rot_perm (fun s => s) exn_hub 2 1 1 2 1 exn_source1.
Proof.
  split; (split; [reflexivity|]); (split; [reflexivity|]); split.
  - intros j. split; [|split; [|reflexivity]]; cbn; [intros op [E|[E|[]]]; discriminate|intros [E|[E|[]]]; discriminate].
  - exists []. split; [|unfold exn_source0; cbn [ls_hub run fst]; generalize exn_hub; reflexivity]. split; [intros op []|]. split; [intros []|reflexivity].
  - intros j. split; [|split; [|reflexivity]]; cbn; [intros op [E|[]]; discriminate|intros [E|[]]; discriminate].
  - exists (flat_map (fun _ => [HBatch 1; HBatch 0; HBatch 2]) (seq 0 5)). split; [|unfold exn_source1; cbn [ls_hub]; generalize exn_hub; reflexivity]. split; [|split; [|reflexivity]].
    + intros op Hin. apply in_flat_map in Hin. destruct Hin as (x & _ & [E|[E|[E|[]]]]); discriminate.
    + intros Hin. apply in_flat_map in Hin. destruct Hin as (x & _ & [E|[E|[E|[]]]]); discriminate.
Qed.
(** auxiliary definitions of the example; model no code of /repo *)
Definition exn_l (st : option vtree) (x : vtree) (r : orow nat) : R := ex_obs r * el x 0.
(** auxiliary definition of a statement or a proof; models no code of /repo *)
Definition exn_lik : lik_fn nat vtree vtree := Single (fun st x r => (exn_l st x r, option_map ex_double st)).
(** auxiliary definition of a statement or a proof; models no code of /repo *)
Definition exn_dl (st : option vtree) (x : vtree) (r : orow nat) (c : nat) : R := if (c =? 0)%nat then ex_obs r else 0.
Lemma exn_smooth s N data x m : wfv s -> (0 < dim s)%nat -> smooth_at (fun _ => 0) true N data exn_l s exn_dl (fun _ _ => 0) x m.
Proof.
  intros Hs H0.
  assert (E : forall c t, (c < dim s)%nat -> el (at_coordinate s x c t) 0 = if (c =? 0)%nat then t else el x 0).
  { intros c t Hc. unfold at_coordinate. rewrite (proj2 (tree_of_ok _ Hs)) by exact H0. destruct c; reflexivity. }
  split; [|intros j _]; intros c Hc; unfold exn_l, exn_dl.
  - apply (derivable_pt_lim_const 0).
  - set (y := ex_obs _). apply (derivable_pt_lim_ext (fun t => y * (if (c =? 0)%nat then t else el x 0))); [intros t; now rewrite E|].
    destruct (Nat.eqb_spec c 0) as [-> |Hne].
    + replace y with (y * 1) at 1 by ring. apply (@derivable_pt_lim_scal (fun t => t)). apply derivable_pt_lim_id.
    + apply (derivable_pt_lim_const (y * el x 0)).
Qed.
Example C72_nonvacuous : let s := tree_ab 0 0 in let a := mkAlias (Fin 0.5) (Fin 0.1) None 1 (Some 3%nat) true false None in
  let z := fun x => mkArr (ashape x) (map (fun _ => 0) (adata x)) in let starts := [(tree_ab 1 2, exn_source0); (tree_ab 3 4, exn_source1)] in
  let model0 := Leaf (mkArr [] [1]) in let normal := fun (_ : key) sh => repeat 0 (size sh) in
  let pot := potential_function (fun _ => 0) exn_lik true 1 in let data := [("y"%string, [20%nat; 21%nat])] in let svd := fun _ : mat => (@nil vec, @nil R) in
  exists results, snd (al_run first_choice tt a z
      (noise_solver normal (loader_source lin_repl rot_perm (fun s => s)) (user_value true pot 2) (user_model true pot 2) (user_grad true pot 2 (derive_grad s)) (user_grad_obs true pot 2 (derive_grad s)) 2 2 svd true 3 (Some (tree_ab 1 4)) (FScalar 1000))
      (mc_new false) (map (fun xd => noise_init (user_grad_obs true pot 2 (derive_grad s)) 2 2 svd true (snd xd) model0 (fst xd)) starts) 5) = Some (Ok results) /\
    Forall2 (fun (x0 : nat * (vtree * lsource (G := nat) (obs := nat))) (r : result arr) => fst r = 3%nat) (combine (seq 0 2) starts) results.
Proof.
  intros s a z starts model0 normal pot data svd.
  assert (LK : forall u v, like s (tree_ab u v)) by (intros u v; split; [apply tree_ab_wf|split; reflexivity]).
  destruct (@C72_user nat nat lin_repl rot_perm (fun s => s) rot_perm_oracle lin_repl_oracle s normal (tree_ab_wf _ _) (fun k sh => repeat_length _ _)
    (fun _ => 0) exn_lik true 1 PMap pot eq_refl exn_l) with (jgrad := derive_grad s) (N := 2%nat) (mb := 2%nat)
      (choice := first_choice) (tk := tt) (z := z) (model0 := model0) (steps := 3%nat) (friction := FScalar 1000) (mass := Some (tree_ab 1 4)) (svd := svd)
      (a := a) (f := 0.5) (l' := 0.1) (n := 3%nat) (its := 5%nat) as (eps & EF & H); try reflexivity; try lra; try (cbn; lia); auto using first_choice_ok.
  { intros st x r. reflexivity. }
  { intros _ m x r. exists (ex_double m). split; [reflexivity|]. destruct m; reflexivity. }
  { apply derive_grad_exact. apply tree_ab_wf. }
  { intros t E. discriminate. }
  { intros m [= <-]. apply LK. }
  destruct (H _ _ _ _ _ _ _ _ starts exn_started) with (h := @nil (mop arr)) (dl := exn_dl) (dp := fun (_ : vtree) (_ : nat) => 0) as (rs & R1 & R2).
  { intros [|[|c]] x d E; [injection E as <- <-|injection E as <- <-|destruct c; discriminate]; (split; [apply LK|]); apply exn_chains. }
  { intros x m _. apply exn_smooth; [apply tree_ab_wf|cbn; lia]. }
  { intros x idx m c Hx HL HI Hc. cbn [friction_at]. destruct idx as [|i0 [|i1 [|]]]; try discriminate. inversion HI as [|? ? I0 HI']; subst. inversion HI' as [|? ? I1 _]; subst.
    unfold noise_estimate, likelihood_grad, posterior_grad, sum_upto. cbn [seq map length nth]. rewrite !(proj2 (tree_of_ok _ (tree_ab_wf 0 0))) by exact Hc.
    assert (D : forall i, (i < 2)%nat -> 0 <= exn_dl (state_of true m) x (row data i) c <= 21).
    { intros i Hi. unfold exn_dl. destruct (c =? 0)%nat; [|lra]. destruct i as [|[|i]]; [| |lia]; cbn; lra. }
    unfold rsum. cbn [fold_left fold_right]. pose proof (D i0 I0) as D0. pose proof (D i1 I1) as D1. clear D. subst data.
    set (u := exn_dl (state_of true m) x (row [("y"%string, [20%nat; 21%nat])] i0) c) in *. set (v := exn_dl (state_of true m) x (row [("y"%string, [20%nat; 21%nat])] i1) c) in *. clearbody u v.
    change (INR 2) with 2. replace 0.5 with (1 / 2) by lra. replace (2 - 1) with 1 by lra. match goal with |- ?e < _ => replace e with (1 / 4 * ((u + (u + v) / 2) ^ 2 + (v + (u + v) / 2) ^ 2)) by (unfold pow; field; lra) end.
    assert (A : 0 <= u + (u + v) / 2 <= 42) by lra. assert (B : 0 <= v + (u + v) / 2 <= 42) by lra. revert A B. generalize (u + (u + v) / 2) (v + (u + v) / 2). intros p q A B. nra. }
  exists rs. split; [exact R1|]. change (seq 0 2) with (seq 0 (length starts)). clear R1. revert R2. generalize (combine (seq 0 (length starts)) starts). intros cs Q.
  induction Q as [|c0 r0 cs0 rs0 Q0 _ IH]; constructor; [|exact IH]. destruct Q0 as (x & mo & p & L & _ & E & _). exact E.
Qed.
