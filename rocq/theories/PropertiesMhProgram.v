(** C73: the data states that alias.amagold and alias.sggmc give to their chains; a stateless model; a concrete program. *)
From Coq Require Import Reals Lra ZArith String.
From Verif Require Import Base ListUtil NumpyLoader LoaderSpec NumpyLoaderProofs NumpyLoaderApi Requests Hub HubSpec HubProofs HubFinal PropertiesHub GenInstance.
From Verif Require Import Pytree PytreeSpec PytreeProofs Io IoSpec IoProofs TreeUtil TreeUtilSpec TreeUtilProofs Integrator IntegratorSpec IntegratorBasics PropertiesIntegrator
  Xreal Scheduler SchedulerSpec PropertiesScheduler Solver SolverSpec Mh MhIntegrators Adaption Alias PropertiesAlias AliasSgld AliasRun AliasHmc AliasData AliasMh AliasMhRun AliasAmagold AliasSggmc.
From Verif Require Import Potential PotentialSpec PotentialProofs UnbiasedProofs PropertiesPotential LeapfrogVolume EndToEndSpec EndToEndProofs PropertiesEndToEnd PropertiesNoise SourceReads MhUserSpec MhUserProofs PropertiesMhUser MhProgram.
Open Scope nat_scope.
Set Implicit Arguments.

(** alias.amagold / alias.sggmc call random_reference_data and full_reference_data on loader i; the program may do anything before (h0) and after (h1).  Then the chains 0, ..., n - 1 are
    initialised and no operation fails.  Chain c reads its minibatches on chain cid0 + 2 c + 1 of the loader (whose generator is seeded with this id), cid0: number of chains the loader had. *)
Theorem C73_program : forall (G obs : Type) (choice_repl : G -> nat -> nat -> G * list nat) (choice_perm : G -> nat -> G * list nat) (rng_of_seed : nat -> G),
  let step := @Hub.hstep G obs choice_repl choice_perm rng_of_seed in
  forall datas ls0 h0 hA o0 i ca mb hB ar hB' af h1 hC o1 data l0 lo,
  Forall2 (fun d l => make_loader d = Ok l) datas ls0 -> run step (hub_init ls0) h0 = (hA, o0) ->
  step hA (HRandom i ca mb false) = (hB, HoAccess (Ok ar)) -> step hB (HFull i ca mb) = (hB', HoAccess (Ok af)) -> run step hB' h1 = (hC, o1) ->
  nth_error datas i = Some data -> nth_error ls0 i = Some l0 -> nth_error (hb_loaders hC) i = Some lo ->
  let k0 := length (hb_clients hC) in let cid0 := length (l_chains lo) in
  forall passes n, Forall succeeds (snd (run step hC (mh_program af ar k0 passes n))) ->
  forall c d fd, c < n ->
  source_since choice_repl choice_perm rng_of_seed (fst (run step hC (mh_program af ar k0 passes (S c)))) ar i (k0 + 2 * c + 1) (cid0 + 2 * c + 1) d ->
  source_since choice_repl choice_perm rng_of_seed (fst (run step hC (mh_program af ar k0 passes c ++ [HInit af false false None]))) af i (k0 + 2 * c) (cid0 + 2 * c) fd ->
  mh_sources choice_repl choice_perm rng_of_seed datas data (l_count l0) mb (cid0 + 2 * c + 1) d fd.
Proof. intros. eapply program_sources; eauto. Qed.
Print Assumptions C73_program.

Open Scope R_scope.
(** without a model state the full potential is the potential of the posterior *)
Theorem C73_stateless : forall obs (prior : vtree -> R) (likelihood : lik_fn obs vtree vtree) T N mb (data : list (string * list obs)) l x m,
  full_posterior prior likelihood false T N mb data l x m = (- sum_upto N (fun i => l None x (DataSpec.row data i)) - prior x) / T /\ pass_end likelihood false N mb data x m = m.
Proof.
  intros. split; [reflexivity|]. unfold pass_end, pass_state. generalize (seq 0 (ceil_div N mb)). intros L. induction L as [|i L IH]; [reflexivity|]. cbn [fold_left]. exact IH.
Qed.
Print Assumptions C73_stateless.

(** ** The hypotheses of C73 are met: two data sets and other data states, minibatches of two of two observations, two chains *)
Open Scope nat_scope.
(** auxiliary definition of a statement or a proof; models no code of /repo *)
Definition exm_loaders := map (fun d => match make_loader d with Ok l => l | Exc _ => @mkLoader nat nat 0 [] [] end) ex_datas.
(** auxiliary definition of a statement or a proof; models no code of /repo *)
Definition exm_hub : hub nat nat := fst (run ex_step (hub_init exm_loaders) (ex_pre ++ [HRandom 1 2 2 false; HFull 1 2 2; HBatch 0])).
(** auxiliary definition of a statement or a proof; models no code of /repo *)
Definition exm_after (h : list (hop nat)) : hub nat nat := fst (run ex_step exm_hub h).
(** the data states of chain c: full data and minibatches; meanwhile the program reads other data states *)
Definition exm_full (c : nat) : lsource (G := nat) (obs := nat) := mkLS (exm_after (mh_program 3 2 2 1 c ++ [HInit 3 false false None])) (2 + 2 * c) (fun n => [HBatch 1; HBatch 0]) 0.
(** auxiliary definition of a statement or a proof; models no code of /repo *)
Definition exm_mini (c : nat) : lsource (G := nat) (obs := nat) := mkLS (exm_after (mh_program 3 2 2 1 (S c))) (2 + 2 * c + 1) (fun n => [HBatch (2 + 2 * c); HBatch 0]) 0.
Lemma exm_sources c : c < 2 -> mh_sources lin_repl rot_perm (fun s => s) ex_datas [("y"%string, [20; 21])] 2 2 (1 + 2 * c + 1) (exm_mini c) (exm_full c).
Proof.
  intros Hc.
  assert (E : exists hA o0 hB hB' o1 lo l0, run ex_step (hub_init exm_loaders) ex_pre = (hA, o0) /\ ex_step hA (HRandom 1 2 2 false) = (hB, HoAccess (Ok 2)) /\ ex_step hB (HFull 1 2 2) = (hB', HoAccess (Ok 3)) /\
    run ex_step hB' [HBatch 0] = (exm_hub, o1) /\ nth_error (hb_loaders exm_hub) 1 = Some lo /\ length (l_chains lo) = 1 /\ nth_error exm_loaders 1 = Some l0 /\ l_count l0 = 2).
  { do 7 eexists. split; [vm_compute; reflexivity|]. split; [vm_compute; reflexivity|]. split; [vm_compute; reflexivity|]. split; [vm_compute; reflexivity|]. split; [vm_compute; reflexivity|]. split; [reflexivity|]. split; [reflexivity|]. reflexivity. }
  assert (K0 : length (hb_clients exm_hub) = 2) by (vm_compute; reflexivity).
  assert (OK : Forall succeeds (snd (run ex_step exm_hub (mh_program 3 2 2 1 2)))) by (vm_compute; repeat constructor).
  destruct E as (hA & o0 & hB & hB' & o1 & lo & l0 & E1 & E2 & E3 & E4 & E5 & E6 & E7 & E8).
  pose proof (@C73_program nat nat lin_repl rot_perm (fun s => s) ex_datas exm_loaders ex_pre hA o0 1 2 2 hB 2 hB' 3 [HBatch 0] exm_hub o1 [("y"%string, [20; 21])] l0 lo) as Q. cbv zeta in Q.
  rewrite K0, E6, E8 in Q. unfold exm_mini, exm_full, exm_after. revert OK E5 Q E4. generalize exm_hub. intros hC OK E5 Q E4.
  apply (Q ltac:(repeat constructor) E1 E2 E3 E4 eq_refl E7 E5 1 2 OK c _ _ Hc).
  - split; [reflexivity|]. split; [reflexivity|]. split.
    + intros j. split; [intros op [A|[A|[]]]; discriminate|]. split; [intros [A|[A|[]]]; discriminate|]. destruct c as [|[|c]]; [reflexivity|reflexivity|lia].
    + exists []. split; [split; [intros op []|split; [intros []|reflexivity]]|reflexivity].
  - split; [reflexivity|]. split; [reflexivity|]. split.
    + intros j. split; [intros op [A|[A|[]]]; discriminate|]. split; [intros [A|[A|[]]]; discriminate|]. destruct c as [|[|c]]; [reflexivity|reflexivity|lia].
    + exists []. split; [split; [intros op []|split; [intros []|reflexivity]]|reflexivity].
Qed.

Open Scope R_scope.
Example C73_nonvacuous : let s := tree_ab 0 0 in
  let z := fun x => mkArr (ashape x) (map (fun _ => 0) (adata x)) in
  let starts := [(tree_ab 1 2, (2%nat, (exm_mini 0, exm_full 0))); (tree_ab 3 4, (4%nat, (exm_mini 1, exm_full 1)))] in
  let model0 := Leaf (mkArr [] [1]) in let normal := fun (_ : key) sh => repeat 0 (size sh) in let uniform := fun _ : key => 1 / 2 in
  let pot := potential_function (fun _ => 0) exn_lik true 1 in let ev := batch_evaluation exn_lik true in
  let value := user_full_value lin_repl rot_perm (fun s => s) 2 2 (fun _ => 0) true 1 ev in let next := user_full_next lin_repl rot_perm (fun s => s) 2 2 true ev in
  let model' := user_full_model lin_repl rot_perm (fun s => s) 2 2 true ev in let full := fun x fd m => (Fin (value x fd m), (next x fd m, model' x fd m)) in
  let a := mkAlias (Fin 0.5) (Fin 0.1) (Some (Scheduler.mkAd 0 0.1 3 0.75 0.05 0.25)) 1 None true false None in
  (exists results, snd (al_run first_choice tt a z
      (amagold_solver normal uniform (loader_source lin_repl rot_perm (fun s => s)) (user_model true pot 2) (user_grad true pot 2 (derive_grad s)) full 2 1 (Some (tree_ab 1 4)))
      (mc_new false) (map (fun xc => amagold_init normal full (snd (snd (snd xc))) (Some (tree_ab 1 4)) (fst (snd (snd xc))) model0 (fst xc)) starts) 5) = Some (Ok results) /\
    length results = 2%nat) /\
  (exists results, snd (al_run first_choice tt a z
      (sggmc_solver normal uniform (loader_source lin_repl rot_perm (fun s => s)) (user_value true pot 2) (user_model true pot 2) (user_grad true pot 2 (derive_grad s)) full 2 1 (Some (tree_ab 1 4)))
      (mc_new false) (map (fun xc => sggmc_init full (snd (snd (snd xc))) (fst (snd (snd xc))) model0 (fst xc)) starts) 5) = Some (Ok results) /\
    length results = 2%nat).
Proof.
  intros s z starts model0 normal uniform pot ev value next model' full a.
  assert (LK : forall u v, like s (tree_ab u v)) by (intros u v; split; [apply tree_ab_wf|split; reflexivity]).
  assert (GA : good_args a 5).
  { unfold good_args; cbn [al_hot al_adaptive al_accepted al_burn_in al_first al_last ad_initial a]; (split; [reflexivity|split]); try lia. split; [lra|reflexivity]. }
  assert (HS : Forall (fun xc : chain_start nat nat => like s (fst xc) /\ mh_sources lin_repl rot_perm (fun s => s) ex_datas [("y"%string, [20%nat; 21%nat])] 2 2 (fst (snd xc)) (fst (snd (snd xc))) (snd (snd (snd xc)))) starts).
  { constructor; [split; [apply LK|apply (@exm_sources 0%nat); lia]|]. constructor; [split; [apply LK|apply (@exm_sources 1%nat); lia]|constructor]. }
  assert (HL : evaluates_with exn_lik exn_l) by (intros st x r; reflexivity).
  assert (HK : keeps_state exn_lik true) by (intros _ m x r; exists (ex_double m); split; [reflexivity|]; destruct m; reflexivity).
  assert (HG : exact_gradients s (derive_grad s)) by (apply derive_grad_exact; apply tree_ab_wf).
  assert (HSM : forall x m, like s x -> smooth_at (fun _ => 0) true 2 [("y"%string, [20%nat; 21%nat])] exn_l s exn_dl (fun _ _ => 0) x m) by (intros x m _; apply exn_smooth; [apply tree_ab_wf|cbn; lia]).
  assert (HU : forall k : key, 0 <= uniform k < 1) by (intros; unfold uniform; lra).
  assert (HM : forall m, Some (tree_ab 1 4) = Some m -> like s m) by (intros m [= <-]; apply LK).
  assert (HN : normal_ok normal) by (intros k sh; apply repeat_length).
  split.
  - destruct (@C73_amagold nat nat lin_repl rot_perm (fun s => s) rot_perm_oracle lin_repl_oracle s normal uniform (tree_ab_wf _ _) HN HU (fun _ => 0) exn_lik true 1 PMap PMap pot ev eq_refl eq_refl exn_l HL HK
      (derive_grad s) HG 2%nat 2%nat ltac:(discriminate) unit first_choice tt z first_choice_ok 2%nat 1 (Some (tree_ab 1 4)) model0 ltac:(lia) HM a 5%nat GA ex_datas _ exn_dl (fun _ _ => 0) HSM (@nil (mop arr)) starts HS) as (rs & R1 & R2).
    exists rs. split; [exact R1|]. clear R1. inversion R2 as [|? ? ? ? _ R3]; subst. inversion R3 as [|? ? ? ? _ R4]; subst. inversion R4; subst. reflexivity.
  - destruct (@C73_sggmc nat nat lin_repl rot_perm (fun s => s) rot_perm_oracle lin_repl_oracle s normal uniform (tree_ab_wf _ _) HN HU (fun _ => 0) exn_lik true 1 PMap PMap pot ev eq_refl eq_refl exn_l HL HK
      (derive_grad s) HG 2%nat 2%nat ltac:(discriminate) unit first_choice tt z first_choice_ok 2%nat 1 (Some (tree_ab 1 4)) model0 ltac:(lia) HM a 5%nat GA ex_datas _ exn_dl (fun _ _ => 0) HSM (@nil (mop arr)) starts HS) as (rs & R1 & R2).
    exists rs. split; [exact R1|]. clear R1. inversion R2 as [|? ? ? ? _ R3]; subst. inversion R3 as [|? ? ? ? _ R4]; subst. inversion R4; subst. reflexivity.
Qed.
