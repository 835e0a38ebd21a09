(** Model of jax_sgmc/alias.py:30-619.

    All six functions assemble a step size schedule, a burn-in, an optional thinning, a saving strategy and a solver, and return a function
    that initialises the chains and calls mcmc with strategy "map".  The solver is a parameter here (its state after initialisation is given);
    [sgld_solver] below is the solver of alias.sgld.  The data loader, the cache and the batch size are not modelled here
    (see NumpyLoader.v, DeviceData.v), neither is printing. *)
From Coq Require Import Reals ZArith String.
From Verif Require Import Base Pytree Io TreeUtil Integrator Xreal Scheduler Solver Adaption.
Open Scope R_scope.
Set Implicit Arguments.

(** arguments that have an influence on the schedule and on saving *)
(** the arguments in alias.py:30-42, 122-132, 210-228, 330-348, 451-465, 542-554 *)
Record alias_args := mkAlias {
  al_first : xr; al_last : xr;              (* first_step_size, last_step_size *)
  al_adaptive : option ad_params;           (* adaptive_step_size with its constants (amagold, sggmc) *)
  al_burn_in : nat;
  al_accepted : option nat;                 (* accepted_samples *)
  al_save_to_numpy : bool;
  al_progress_bar : bool;
  al_hot : option xr                        (* temperature of the helper chain (re_sgld) *)
}.
(** default values: sgld alias.py:30-42, re_sgld :122-132 (progress bar deleted, :168 and :189), amagold :210-228, sggmc :330-348, sghmc :451-465, obabo :542-554 *)
Definition sgld_defaults : alias_args := mkAlias (Fin 0.05) (Fin 0.001) None 0 (Some 1000%nat) true true None.
(** default arguments, alias.py:122-132 *)
Definition re_sgld_defaults : alias_args := mkAlias (Fin 0.05) (Fin 0.001) None 0 (Some 100%nat) true false (Some (Fin 1000)).
(** default arguments, alias.py:210-228 *)
Definition amagold_defaults : alias_args := mkAlias (Fin 0.001) (Fin 0.001) None 0 None true true None.
(** default arguments, alias.py:330-348 *)
Definition sggmc_defaults : alias_args := mkAlias (Fin 0.001) (Fin 0.001) None 0 None true true None.
(** default arguments, alias.py:451-465 *)
Definition sghmc_defaults : alias_args := mkAlias (Fin 0.05) (Fin 0.001) None 0 (Some 1000%nat) true true None.
(** default arguments, alias.py:542-554 *)
Definition obabo_defaults : alias_args := mkAlias (Fin 0.05) (Fin 0.001) None 0 (Some 1000%nat) true true None.
(** run_fn(..., iterations = 1000), alias.py:110, 200, 322, 445, 536, 615 *)
Definition default_iterations : nat := 1000.

Section Alias.
Variable Key : Type.
Variable choice : Key -> list xr -> nat -> list nat.
Variable thinning_key : Key.                (* default key of random_thinning *)
Variable a : alias_args.

(** alias.py:90-91 (and 178-179, 288-302, 411-425, 516-517, 595-596); gamma is the default of scheduler.py:496 *)
Definition al_step : specific xr unit :=
  match al_adaptive a with
  | Some p => adaptive_step_size (Scheduler.mkAd (al_burn_in a) (ad_initial p) (ad_t0 p) (ad_kappa p) (ad_speed p) (ad_target p))
  | None => polynomial_step_size_first_last (al_first a) (al_last a) (Fin 0.33)
  end.
(** alias.py:92, 518, 597 *)
Definition al_burn : specific bool Z := initial_burn_in (al_burn_in a).
(** alias.py:93-94 (and 181-182, 296, 303-307, 419, 426-430, 519-520, 598-599) *)
Definition al_thin : specific bool Z :=
  match al_adaptive a, al_accepted a with
  | None, Some n => random_thinning Key choice al_step al_burn n thinning_key
  | _, _ => accept_all
  end.
(** temperature of the main chain: the default of init_scheduler, and constant_temperature(1.0) in re_sgld, alias.py:183 *)
Definition al_temp : specific xr unit := constant_temperature (Fin 1).
(** construction: the assertion of amagold and sggmc, alias.py:297-298, 420-421 *)
Definition al_build : res unit :=
  match al_adaptive a, al_accepted a with Some _, Some _ => Exc AssertionError | _, _ => Ok tt end.
(** schedulers=[{'temperature': {'tau': temperature}}], alias.py:200-207 *)
Definition al_helpers : list (sched_kw al_step al_temp al_burn al_thin) :=
  match al_hot a with
  | Some tau => [mkKw al_step al_temp al_burn al_thin (sp_nokw al_step) (Some tau : sp_kw al_temp) (sp_nokw al_burn) (sp_nokw al_thin)]
  | None => []
  end.
(** run_fn: [m] is the MemoryCollector of the closure (unused if save_to_numpy is False) *)
(** alias.py:101-108, 110-119 *)
Definition al_run {V} (zeros_like : V -> V) (so : solver V) (m : mcollector V) (states : list (so_state so)) (iterations : nat)
  : mcollector V * option (res (list (result V))) :=
  if al_save_to_numpy a then run_collector zeros_like (al_progress_bar a) so StMap m states iterations al_helpers
  else (m, run_no_save zeros_like (al_progress_bar a) so StMap states iterations al_helpers).
End Alias.

(** ** The solver of alias.sgld: solver.sgmc(integrator.langevin_diffusion(potential_fn, random_data, adaption)), alias.py:87-88, 107.
    The integrator works with real numbers: a step size that is not a number is not modelled ([real] is then 0). *)
Definition real (x : xr) : R := match x with Fin r => r | _ => 0 end.
Section Sgld.
Variable normal : key -> list nat -> list R.
Variables (Data Batch : Type).
Variable get_data : Data -> Data * Batch.
Variables (pot_value : vtree -> Batch -> vtree -> R) (pot_likelihoods : vtree -> Batch -> vtree -> list R)
  (pot_model : vtree -> Batch -> vtree -> vtree) (pot_grad : vtree -> Batch -> vtree -> vtree).
Notation state := (lv_st Data vtree (Adaption.ad_state rms_st)).
(** alias.py:82-85 *)
Definition sgld_adaption (rms_prop : bool) : option ((Adaption.ad_state rms_st -> vtree -> vtree -> Batch -> Adaption.ad_state rms_st) * (Adaption.ad_state rms_st -> vtree -> vtree -> Batch -> manifold)) :=
  if rms_prop then Some ((fun s x g _ => rms_update s x g), (fun s x g _ => rms_get s x g)) else None.
(** get_fn, integrator.py:851-855: a dictionary (jax sorts the keys) *)
Definition sgld_sample (st : state) : vtree :=
  Node (KDict ["likelihood"; "model_state"; "variables"]%string) [Leaf (mkArr [] [- l_pot st]); l_model st; l_pos st].
(** alias.py:87-88, 107 *)
Definition sgld_solver (rms_prop : bool) : solver arr :=
  sgmc (fun st sch => fst (lv_update normal get_data pot_value pot_likelihoods pot_model pot_grad (sgld_adaption rms_prop) (real (sch_step sch)) (real (sch_temperature sch)) st)) sgld_sample.
(** run_fn, alias.py:110-119: alpha and lmbd are given to the adaption, the key is the default *)
Definition sgld_init (rms_prop : bool) (alpha lmbd : R) (data : Data) (model : vtree) (sample : vtree) : state :=
  lv_init sample None (if rms_prop then Some (rms_init sample alpha lmbd) else None) data model.
End Sgld.

(** ** The solvers of alias.obabo and alias.sghmc: solver.sgmc of integrator.obabo (alias.py:590-593, 610) and of integrator.friction_leapfrog (alias.py:512-514, 531).
    The noise model of sghmc (adapt_noise_model) is modelled in AliasNoise.v; here it is the default None. *)
Section Hmc.
Variable normal : key -> list nat -> list R.
Variables (Data Batch : Type).
Variable get_data : Data -> Data * Batch.
Variables (pot_value : vtree -> Batch -> vtree -> R) (pot_model : vtree -> Batch -> vtree -> vtree) (pot_grad : vtree -> Batch -> vtree -> vtree).
Variable steps : nat.
Variable mass : option vtree.
(** get_fn, integrator.py:340-344 and 759-763: a dictionary (jax sorts the keys) *)
Definition hmc_sample (potential : R) (model positions : vtree) : vtree :=
  Node (KDict ["energy"; "model_state"; "variables"]%string) [Leaf (mkArr [] [potential]); model; positions].
(** alias.py:590-593, 612 *)
Definition obabo_solver (friction : R) : solver arr :=
  sgmc (fun st sch => fst (ob_integrate normal get_data pot_value pot_model pot_grad steps friction mass (real (sch_step sch)) (real (sch_temperature sch)) None st))
       (fun st : ob_st Data vtree => hmc_sample (o_pot st) (o_model st) (o_pos st)).
(** run_fn, alias.py:615-618: the key is the default *)
Definition obabo_init (data : Data) (model sample : vtree) : ob_st Data vtree := ob_init sample None data model.
(** alias.py:512-514, 533 (noise_model = None) *)
Definition sghmc_solver (friction : fric) : solver arr :=
  sgmc (fun st sch => fst (fl_integrate (Noise := unit) normal get_data pot_value pot_model pot_grad steps friction mass None (real (sch_step sch)) None st))
       (fun st : fl_st Data vtree unit => hmc_sample (f_pot st) (f_model st) (f_pos st)).
(** run_fn, alias.py:536-539 *)
Definition sghmc_init (data : Data) (model sample : vtree) : fl_st Data vtree unit := fl_init (Batch := Batch) None sample None data model.
End Hmc.
