(** C81: alias.re_sgld on a DeviceNumpyDataLoader, with the potential built by minibatch_potential from the user's log likelihood and log prior. *)
From Coq Require Import Reals Lra ZArith String.
From Verif Require Import Base ListUtil NumpyLoader LoaderSpec NumpyLoaderProofs NumpyLoaderApi DeviceData DeviceDataProofs.
From Verif Require Import Pytree PytreeSpec PytreeProofs Io IoSpec IoProofs TreeUtil TreeUtilSpec TreeUtilProofs Integrator IntegratorSpec IntegratorBasics PropertiesIntegrator
  Xreal Scheduler SchedulerSpec PropertiesScheduler Solver SolverSpec Mh MhIntegrators Adaption Alias PropertiesAlias AliasSgld AliasRun AliasHmc AliasData AliasReSgld.
From Verif Require Import DataCore DataSpec Potential PotentialSpec PotentialProofs UnbiasedProofs PropertiesPotential LeapfrogVolume EndToEndSpec EndToEndProofs PropertiesEndToEnd PropertiesNoise
  PropertiesReSgldUser PropertiesDeviceAlias.
Open Scope R_scope.
Set Implicit Arguments.

(** ** Specification *)
(** jax.random.randint(key, (n,), 0, m): n integers, all from 0 .. m - 1 *)
Definition randint_ok {K} (randint : K -> nat -> nat -> list nat) : Prop := forall k n m, length (randint k n m) = n /\ ((0 < m)%nat -> Forall (fun i => (i < m)%nat) (randint k n m)).
(** auxiliary definition of a statement or a proof; models no code of /repo: the start of a pair of replicas, both with the data key of random.PRNGKey(0), numpy_loader.py:122-125 *)
Definition keyed {K} (key0 : K) (x0 : vtree * vtree) : (vtree * K) * (vtree * K) := ((fst x0, key0), (snd x0, key0)).

(** the property for an exchange rule. Both replicas of every pair, and all pairs, draw their minibatches with the index lists [device_indices] draws from the SAME key key0. *)
Definition re_sgld_device_claim (exchange : R -> R -> bool -> bool -> Prop) : Prop :=
  forall (G K obs : Type) (split : K -> K * K) (randint : K -> nat -> nat -> list nat) (key0 : K), randint_ok randint ->
  forall (s : vtree) (normal : key -> list nat -> list R) (uniform : key -> R), wfv s -> normal_ok normal -> (forall k, 0 <= uniform k < 1) ->
  forall (prior : vtree -> R) (likelihood : lik_fn obs vtree vtree) (has_state : bool) (T : R) (strategy : pot_strategy) pot, minibatch_potential prior likelihood has_state T strategy = Ok pot ->
  forall l, evaluates_with likelihood l -> keeps_state likelihood has_state -> forall jgrad, exact_gradients s jgrad ->
  forall (data : list (string * list obs)) (lo : loader G obs) ca mb, make_loader data = Ok lo ->
  check_random DeviceKind (Z.of_nat (l_count lo)) (Z.of_nat ca) (Z.of_nat mb) = Ok tt -> (is_batched likelihood = true -> mb <> 1%nat) ->
  forall Key (choice : Key -> list xr -> nat -> list nat) (tk : Key) (z : arr -> arr), choice_ok choice ->
  forall a f l' n its tau model0, al_first a = Fin f -> al_last a = Fin l' -> al_adaptive a = None -> al_accepted a = Some n -> al_hot a = Some (Fin tau) -> 0 < tau ->
  0 < l' < f -> (2 <= its)%nat -> (al_burn_in a + n <= its)%nat ->
  let N := l_count lo in let indices := device_indices split randint N mb in
  exists eps, falling its f l' eps /\
  forall starts, Forall (fun x0 => like s (fst x0) /\ like s (snd x0)) starts ->
  forall h, exists results,
    snd (al_run choice tk a z (re_sgld_solver normal uniform (device_source split randint data N mb) (user_value has_state pot N) (user_likelihoods has_state pot N) (user_model has_state pot N) (user_grad has_state pot N jgrad))
      (fst (run (mstep z) (mc_new false) h)) (map (fun x0 => re_sgld_init model0 (keyed key0 x0)) starts) its) = Some (Ok results) /\
    Forall2 (fun x0 r => exists theta model cold L, length L = n /\ increasing L /\ (forall i, In i L -> (al_burn_in a <= i < its)%nat) /\ fst r = n /\
        exactly_samples (map (re_saved indices (posterior_value prior has_state T N data l) (keyed key0 x0) theta model cold) L) (snd r) /\
        forall dl dp, (forall j i, (i < its)%nat -> smooth_at prior has_state N data l s dl dp (theta j i) (model j i)) ->
          re_sgld_trajectory s normal uniform indices (posterior_value prior has_state T N data l) (posterior_likelihoods has_state data l)
            (next_state likelihood has_state data) (posterior_grad has_state T N data s dl dp) exchange tau model0 (keyed key0 x0) its eps theta model cold)
      starts results.

Lemma keyed_run K (key0 : K) (P : vtree * vtree -> result arr -> Prop) (Q : (vtree * K) * (vtree * K) -> result arr -> Prop) starts rs :
  (forall x0 r, Q (keyed key0 x0) r -> P x0 r) -> Forall2 Q (map (keyed key0) starts) rs -> Forall2 P starts rs.
Proof. intros HQ. revert rs. induction starts as [|x xs IH]; intros rs H; inversion H as [|? ? ? ? H1 H2]; subst; constructor; auto. Qed.

Theorem C81_device_partial : re_sgld_device_claim implemented_exchange.
Proof.
  intros G K obs split randint key0 Hrand s normal uniform Hs Hn Hu prior likelihood has_state T strategy pot Hpot l Hl Hk jgrad Hj data lo ca mb Hlo Hchk Hone Key choice tk z Hc
    a f l' n its tau model0 Hf Hl' Ha Hacc Hhot Htau Hfl Hits Hburn N indices.
  destruct (@C67_re_sgld_partial s normal uniform _ _ (device_source split randint data N mb) (user_value has_state pot N) (user_likelihoods has_state pot N) (user_model has_state pot N) (user_grad has_state pot N jgrad) Hs Hn Hu)
    with (choice := choice) (tk := tk) (z := z) (a := a) (f := f) (l := l') (n := n) (its := its) (tau := tau) (model0 := model0) as (eps & E1 & E2); auto.
  { intros t b m Ht. apply Hj. exact Ht. }
  { intros t b m. eapply user_model_structure; eauto. }
  exists eps. split; auto. intros starts Hx h.
  destruct (E2 h (map (keyed key0) starts)) as (rs & R1 & R2).
  { apply Forall_map. eapply Forall_impl; [|exact Hx]. intros x0 [A B]. split; assumption. }
  rewrite map_map in R1. exists rs. split; [exact R1|]. eapply keyed_run; [|exact R2]. clear R1 R2 E2.
  intros x0 r (theta & model & cold & L & Tr & L1 & L2 & L3 & L4 & L5).
  destruct (@dev_sizes _ _ _ _ _ _ Hlo Hchk) as (S1 & S2 & S3).
  assert (HB : forall j k, batch_no (device_source split randint data N mb) (snd (of_pair (keyed key0 x0) j)) k =
     (map (fun ka => (fst ka, select (snd ka) (batch_no indices (snd (of_pair (keyed key0 x0) j)) k))) data, repeat true mb)).
  { intros j k. eapply dev_batch_no; eauto. }
  assert (HI : forall j k, length (batch_no indices (snd (of_pair (keyed key0 x0) j)) k) = mb /\ Forall (fun i => (i < N)%nat) (batch_no indices (snd (of_pair (keyed key0 x0) j)) k)).
  { intros j k. eapply dev_indices_ok; eauto. }
  assert (HV : forall j x m k, user_value has_state pot N x (batch_no (device_source split randint data N mb) (snd (of_pair (keyed key0 x0) j)) k) m =
     posterior_value prior has_state T N data l x (batch_no indices (snd (of_pair (keyed key0 x0) j)) k) m).
  { intros j x m k. rewrite HB. destruct (HI j k) as [I1 I2]. eapply user_value_is; eauto; rewrite ?repeat_length, ?I1; auto; lia. }
  exists theta, model, cold, L. split; [exact L1|]. split; [exact L2|]. split; [exact L3|]. split; [exact L4|]. split.
  - erewrite map_ext; [exact L5|]. intros k. symmetry. apply re_saved_batches. exact HV.
  - intros dl dp Hsm. eapply re_batches with (ok := smooth_at prior has_state N data l s dl dp); [|exact HV| | | |exact Hsm|exact Tr].
    + intros [|]; reflexivity.
    + intros j x m k. rewrite HB. destruct (HI j k) as [I1 I2]. eapply user_likelihoods_is; eauto; rewrite ?repeat_length, ?I1; auto; lia.
    + intros j x m k. rewrite HB. destruct (HI j k) as [I1 I2]. eapply user_model_is; eauto; rewrite ?repeat_length, ?I1; auto; lia.
    + intros j x m k c' Hx' Hok Hc'. rewrite HB. destruct (HI j k) as [I1 I2]. eapply user_grad_is; eauto; rewrite ?repeat_length, ?I1; auto; lia.
Qed.
Print Assumptions C81_device_partial.

(** ** The hypotheses are met: three observations, minibatches of two, two pairs of replicas of a Gaussian model with a state *)
(** auxiliary definition of a statement or a proof; models no code of /repo *)
Definition exd_split (k : nat) : nat * nat := (2 * k + 1, 2 * k + 2)%nat.
(** auxiliary definition of a statement or a proof; models no code of /repo *)
Definition exd_randint (k n m : nat) : list nat := map (fun j => ((k + j) mod m)%nat) (seq 0 n).
Lemma exd_randint_ok : randint_ok exd_randint.
Proof.
  intros k n m. unfold exd_randint. split; [now rewrite map_length, seq_length|]. intros Hm. apply Forall_forall. intros i Hi. apply in_map_iff in Hi. destruct Hi as (j & <- & _).
  apply Nat.mod_upper_bound. lia.
Qed.
Example C81_nonvacuous : let s := tree_ab 0 0 in let a := mkAlias (Fin 0.5) (Fin 0.1) None 1 (Some 3%nat) true false (Some (Fin 10)) in
  let z := fun x => mkArr (ashape x) (map (fun _ => 0) (adata x)) in let starts := [(tree_ab 1 2, tree_ab 3 4); (tree_ab 5 6, tree_ab 7 8)] in
  let model0 := Leaf (mkArr [] [1]) in let normal := fun (_ : key) sh => repeat 0 (size sh) in let uniform := fun _ : key => 1 / 2 in
  let pot := potential_function ex_prior ex_lik true 1 in let data := [("y"%string, [20%nat; 21%nat; 22%nat])] in let indices := device_indices exd_split exd_randint 3 2 in
  batch_no indices 0%nat 0 = [2; 0]%nat /\ batch_no indices 0%nat 1 = [1; 2]%nat /\
  exists eps, falling 5 0.5 0.1 eps /\ exists results, snd (al_run first_choice tt a z
      (re_sgld_solver normal uniform (device_source exd_split exd_randint data 3 2) (user_value true pot 3) (user_likelihoods true pot 3) (user_model true pot 3) (user_grad true pot 3 (derive_grad s)))
      (mc_new false) (map (fun x0 => re_sgld_init model0 (keyed 0%nat x0)) starts) 5) = Some (Ok results) /\
    Forall2 (fun x0 (r : result arr) => fst r = 3%nat /\ exists theta model cold,
      re_sgld_trajectory s normal uniform indices (posterior_value ex_prior true 1 3 data ex_l) (posterior_likelihoods true data ex_l) (next_state ex_lik true data) (posterior_grad true 1 3 data s ex_dl ex_dp)
        implemented_exchange 10 model0 (keyed 0%nat x0) 5 eps theta model cold) starts results.
Proof.
  intros s a z starts model0 normal uniform pot data indices. split; [reflexivity|]. split; [reflexivity|].
  assert (LK : forall u v, like s (tree_ab u v)) by (intros u v; split; [apply tree_ab_wf|split; reflexivity]).
  destruct (make_loader (G := unit) data) as [lo|e] eqn:Elo; [|discriminate].
  assert (EN : l_count lo = 3%nat) by (injection Elo as <-; reflexivity).
  pose proof (@C81_device_partial unit nat nat exd_split exd_randint 0%nat exd_randint_ok s normal uniform (tree_ab_wf _ _) (fun k sh => repeat_length _ _) ltac:(intros; unfold uniform; lra)
    ex_prior ex_lik true 1 PMap pot eq_refl ex_l) as H.
  specialize (H ltac:(intros st x r; reflexivity) ltac:(intros _ m x r; exists (ex_double m); split; [reflexivity|]; destruct m; reflexivity) (derive_grad s) ltac:(apply derive_grad_exact; apply tree_ab_wf)).
  specialize (H data lo 1%nat 2%nat Elo). rewrite EN in H.
  destruct (H eq_refl ltac:(discriminate) unit first_choice tt z first_choice_ok a 0.5 0.1 3%nat 5%nat 10 model0 eq_refl eq_refl eq_refl eq_refl eq_refl ltac:(lra) ltac:(lra) ltac:(lia) ltac:(cbn; lia)) as (eps & EF & H').
  exists eps. split; [exact EF|]. destruct (H' starts) with (h := @nil (mop arr)) as (rs & R1 & R2); [repeat constructor; apply LK|].
  exists rs. split; [exact R1|]. eapply Forall2_impl; [|exact R2]. intros x0 r (th & mo & cold & L & _ & _ & _ & E & _ & Tr). split; [exact E|]. exists th, mo, cold.
  apply Tr. intros j i Hi. apply ex_smooth; [apply tree_ab_wf|cbn; lia].
Qed.

(** ** With the documented exchange the property is false: a likelihood that does not depend on the sample *)
(** auxiliary definition of a statement or a proof; models no code of /repo *)
Definition flat_device (exchange : R -> R -> bool -> bool -> Prop) (theta : bool -> nat -> vtree) model cold (eps : nat -> R) : Prop :=
  re_sgld_trajectory (tree_ab 0 0) (fun _ sh => repeat 0 (size sh)) (fun _ => 1/2) (device_indices exd_split exd_randint 2 2) (posterior_value (fun _ => 0) false 1 2 [("y"%string, [20%nat; 21%nat])] (fun _ _ _ => 0))
    (posterior_likelihoods false [("y"%string, [20%nat; 21%nat])] (fun _ _ _ => 0)) (next_state flat_lik false [("y"%string, [20%nat; 21%nat])])
    (posterior_grad false 1 2 [("y"%string, [20%nat; 21%nat])] (tree_ab 0 0) (fun _ _ _ _ => 0) (fun _ _ => 0))
    exchange 10 (Leaf (mkArr [] [0])) (keyed 0%nat (tree_ab 1 2, tree_ab 3 4)) 2 eps theta model cold.
Lemma flat_device_first ex theta model cold eps : flat_device ex theta model cold eps -> (forall j, el (theta j 1%nat) 0%nat = if j then 3 else 1) /\ (forall j, model j 1%nat = Leaf (mkArr [] [0])) /\ ex (1/2) 1 false (cold 1%nat).
Proof.
  intros [[Hc H0] H1 H2 H3 H4]. split; [|split].
  - intros j. pose proof (H3 j 0%nat 0%nat ltac:(lia) ltac:(cbn; lia)) as E. cbv zeta in E. rewrite E. destruct (H0 j) as [-> _].
    unfold posterior_grad. rewrite (proj2 (tree_of_ok _ (tree_ab_wf 0 0))) by (cbn; lia). rewrite sum_upto_zero by reflexivity.
    unfold xi. cbn. destruct j; cbn; unfold el; cbn; rewrite ?nth_repeat0; lra.
  - intros j. rewrite H2 by lia. apply H0.
  - specialize (H4 0%nat ltac:(lia)). cbv beta zeta in H4. rewrite Hc in H4. rewrite !flat_value in H4. unfold posterior_likelihoods in H4. unfold sum_upto in H4. cbn [seq map] in H4. rewrite variance_const in H4.
    match type of H4 with ex _ ?e _ _ => replace e with 1 in H4; [exact H4|] end. rewrite <- exp_0. f_equal. unfold TreeUtil.rsum. cbn. field.
Qed.
Theorem C81_device_refuted : ~ re_sgld_device_claim documented_exchange.
Proof.
  intros H. pose proof C81_device_partial as H'. set (s := tree_ab 0 0).
  set (a := mkAlias (Fin 0.5) (Fin 0.1) None 0 (Some 2%nat) true false (Some (Fin 10))).
  assert (LK : forall u v, like s (tree_ab u v)) by (intros u v; split; [apply tree_ab_wf|split; reflexivity]).
  set (normal := fun (_ : key) sh => repeat 0 (size sh)). set (uniform := fun _ : key => 1 / 2). set (model0 := Leaf (mkArr [] [0])).
  assert (HN : normal_ok normal) by (intros k sh; apply repeat_length).
  assert (HU : forall k : key, 0 <= uniform k < 1) by (intros; unfold uniform; lra).
  assert (HL : evaluates_with flat_lik (fun _ _ _ => 0)) by (intros st x r; reflexivity).
  assert (HK : keeps_state flat_lik false) by (intros E; discriminate).
  assert (HG : exact_gradients s (derive_grad s)) by (apply derive_grad_exact; apply tree_ab_wf).
  set (pot := potential_function (fun _ => 0) flat_lik false 1).
  set (data := [("y"%string, [20%nat; 21%nat])]).
  destruct (make_loader (G := unit) data) as [lo|e] eqn:Elo; [|discriminate].
  assert (EN : l_count lo = 2%nat) by (injection Elo as <-; reflexivity).
  specialize (H unit nat nat exd_split exd_randint 0%nat exd_randint_ok s normal uniform (tree_ab_wf _ _) HN HU (fun _ => 0) flat_lik false 1 PMap pot eq_refl (fun _ _ _ => 0) HL HK (derive_grad s) HG data lo 1%nat 2%nat Elo).
  specialize (H' unit nat nat exd_split exd_randint 0%nat exd_randint_ok s normal uniform (tree_ab_wf _ _) HN HU (fun _ => 0) flat_lik false 1 PMap pot eq_refl (fun _ _ _ => 0) HL HK (derive_grad s) HG data lo 1%nat 2%nat Elo).
  rewrite EN in H, H'.
  specialize (H eq_refl ltac:(discriminate) unit first_choice tt (fun x => x) first_choice_ok a 0.5 0.1 2%nat 2%nat 10 model0 eq_refl eq_refl eq_refl eq_refl eq_refl ltac:(lra) ltac:(lra) ltac:(lia) ltac:(cbn; lia)).
  specialize (H' eq_refl ltac:(discriminate) unit first_choice tt (fun x => x) first_choice_ok a 0.5 0.1 2%nat 2%nat 10 model0 eq_refl eq_refl eq_refl eq_refl eq_refl ltac:(lra) ltac:(lra) ltac:(lia) ltac:(cbn; lia)).
  destruct H as (e1 & _ & H). destruct H' as (e2 & _ & H').
  assert (HX : Forall (fun x0 => like s (fst x0) /\ like s (snd x0)) [(tree_ab 1 2, tree_ab 3 4)]) by (repeat constructor; apply LK).
  specialize (H _ HX (@nil (mop arr))). specialize (H' _ HX (@nil (mop arr))).
  destruct H as (r1 & R1 & F1). destruct H' as (r2 & R2 & F2). rewrite R1 in R2. injection R2 as <-. clear R1.
  inversion F1 as [|? r ? rs (th1 & mo1 & c1 & L1 & LL1 & I1 & B1 & _ & E1 & T1) F1']; subst. inversion F2 as [|? ? ? ? (th2 & mo2 & c2 & L2 & LL2 & I2 & B2 & _ & E2 & T2) F2']; subst.
  rewrite (first_two LL1 I1 B1) in E1. rewrite (first_two LL2 I2 B2) in E2. cbn [map] in E1, E2. pose proof (exactly_first E1 E2) as E.
  assert (SM : forall x m, smooth_at (fun _ : vtree => 0) false 2 [("y"%string, [20%nat; 21%nat])] (fun _ _ _ => 0) s (fun _ _ _ _ => 0) (fun _ _ => 0) x m).
  { intros x m. split; [|intros j _]; intros c Hc; apply (derivable_pt_lim_const 0). }
  specialize (T1 (fun _ _ _ _ => 0) (fun _ _ => 0) (fun j i _ => SM _ _)). specialize (T2 (fun _ _ _ _ => 0) (fun _ _ => 0) (fun j i _ => SM _ _)).
  destruct (flat_device_first T1) as (A1 & A2 & A3). destruct (flat_device_first T2) as (C1 & C2 & C3).
  assert (D1 : c1 1%nat = true) by (apply A3; lra). assert (D2 : c2 1%nat = false) by (apply C3; lra).
  unfold re_saved in E. rewrite D1, D2, A2, C2 in E. unfold data in E. rewrite !flat_value in E. cbn in E. rewrite !app_nil_r in E. injection E as E.
  specialize (A1 true). specialize (C1 false). unfold el, ravel in A1, C1. rewrite E in A1. rewrite A1 in C1. lra.
Qed.
Print Assumptions C81_device_refuted.
