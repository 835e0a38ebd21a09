(** Runs of the solvers of jax_sgmc/solver.py:188-577 with the integrators of jax_sgmc/integrator.py, together with the keys that are
    given to [random.normal] and [random.uniform].

    Simplifications: as in Mh.v, Integrator.v, MhIntegrators.v.  The log of the keys is kept beside the functions of Mh.v; that it
    is complete is proved (theorems [*_log_complete] in PropertiesKeys.v: the run depends on random numbers only through the
    logged keys). *)
From Coq Require Import String Reals.
From Verif Require Import Base Pytree Io TreeUtil Xreal Scheduler Solver Integrator Mh MhIntegrators DeviceData.
Open Scope R_scope.
Set Implicit Arguments.

(** repeated update with the given inputs (schedules), solver.py:94-123 and 153-160 *)
Fixpoint run_log {S A} (step : S -> A -> S * list key) (s : S) (inputs : list A) : S * list key :=
  match inputs with
  | [] => (s, [])
  | a :: r => let (s1, l1) := step s a in let (s2, l2) := run_log step s1 r in (s2, l1 ++ l2)
  end.

Section Runs.
Variables (Data Batch Model : Type).
Variable normal : key -> list nat -> list R.
Variable uniform : key -> R.
Variable get_data : Data -> Data * Batch.
Variable pot_value : vtree -> Batch -> Model -> R.
Variable pot_likelihoods : vtree -> Batch -> Model -> list R.
Variable pot_model : vtree -> Batch -> Model -> Model.
Variable pot_grad : vtree -> Batch -> Model -> vtree.

(** update of langevin_diffusion with the schedule, integrator.py:859-866; only finite step sizes and temperatures *)
Section Lang.
Variable Adapt : Type.
Variable adaption : option ((Adapt -> vtree -> vtree -> Batch -> Adapt) * (Adapt -> vtree -> vtree -> Batch -> manifold)).
(** integrator.py:860-922 *)
Definition langevin_step (st : lv_st Data Model Adapt) (sch : schedule) : lv_st Data Model Adapt * list key :=
  match sch_step sch, sch_temperature sch with
  | Fin eps, Fin T => lv_update normal get_data pot_value pot_likelihoods pot_model pot_grad adaption eps T st
  | _, _ => (st, [])
  end.
End Lang.

(** parallel_tempering with langevin_diffusion, alias.py:175-197 *)
Section Pt.
Notation lst := (lv_st Data Model unit).
Variables (variance potential : lst -> xr) (sa_schedule : nat -> xr).
(** solver.py:270-271 *)
Definition pt_lang_update : lst -> schedule -> lst := fun c sch => fst (langevin_step (@None _) c sch).
(** update of the solver, solver.py:264-294, and the keys it uses *)
Definition pt_step_log (st : pt_state key lst) (schs : schedule * schedule) : pt_state key lst * list key :=
  (pt_update split2 uniform pt_lang_update variance potential sa_schedule st (fst schs) (snd schs),
   snd (langevin_step (@None _) (pt_normal st) (fst schs)) ++ snd (langevin_step (@None _) (pt_hot st) (snd schs)) ++ [snd (split2 (pt_key st))]).
(** init of the solver, solver.py:248-260 *)
Definition pt_lang_init (data : Data) (model : Model) (normal_sample tempered_sample : vtree) (ssq F : xr) (k : key) : pt_state key lst :=
  pt_init split3 (fun s k => lv_init s (Some k) None data model) normal_sample tempered_sample ssq k F.
End Pt.

Variables (steps : nat) (friction : R) (const_mass : option vtree).
Variables (Full MassState : Type).
Variable full_potential : vtree -> Full -> Model -> xr * (Full * Model).
Variable init_full : Full.
Variable mass_adaption : option ((vtree -> MassState) * (MassState -> vtree -> MassState) * (MassState -> mass_matrix)).

(** amagold with reversible_leapfrog, alias.py:277-286 *)
Notation am := (am_state key vtree vtree Model Data Full MassState).
(** integrator.py:509-553 *)
Definition leapfrog_keys (l : lf_state key vtree vtree Model Data) (sch : schedule) (mass : option mass_matrix) : list key :=
  match sch_step sch with
  | Fin eps => snd (rl_integrate normal get_data pot_model pot_grad steps friction const_mass eps mass (rl_of l))
  | _ => []
  end.
(** solver.py:365-424 *)
Definition amagold_step (st : am) (sch : schedule) : am * list key :=
  (fst (am_update split2 uniform tree_scale full_potential mass_adaption
          (leapfrog_update normal get_data pot_model pot_grad steps friction const_mass) st sch),
   leapfrog_keys (am_integrator st) sch (mass_get mass_adaption (am_mass st)) ++ [snd (split2 (am_key st))]).
(** solver.py:325-362 *)
Definition amagold_init (data : Data) (sample : vtree) (k : key) (model : Model) : am * list key :=
  (am_init split2 full_potential init_full mass_adaption (fun p k m md => leapfrog_init normal const_mass data p k m md) sample k model,
   snd (rl_init normal const_mass sample (Some (fst (split2 k))) data (snd (snd (full_potential sample init_full model)))
          (mass_get mass_adaption (mass_init mass_adaption sample)))).

(** sggmc with obabo, alias.py:396-409 *)
Notation sg := (sg_state key vtree vtree Model Data Full MassState).
(** integrator.py:318-338 *)
Definition obabo_keys (b : ob_state key vtree vtree Model Data) (sch : schedule) (mass : option mass_matrix) : list key :=
  match sch_step sch, sch_temperature sch with
  | Fin eps, Fin T => snd (ob_integrate normal get_data pot_value pot_model pot_grad steps friction const_mass eps T mass (st_of b))
  | _, _ => []
  end.
(** solver.py:501-567 *)
Definition sggmc_step (st : sg) (sch : schedule) : sg * list key :=
  (fst (sg_update split2 uniform full_potential mass_adaption
          (obabo_update normal get_data pot_value pot_model pot_grad steps friction const_mass) st sch),
   obabo_keys (sg_integrator st) sch (mass_get mass_adaption (sg_mass st)) ++ [snd (split2 (sg_key st))]).
(** solver.py:462-498 *)
Definition sggmc_init (data : Data) (sample : vtree) (k : key) (model : Model) : sg :=
  sg_init split2 full_potential init_full mass_adaption (fun p k md => obabo_init data p k md) sample k model.
End Runs.

(** sgld on a DeviceNumpyDataLoader: the state of the data is a key, numpy_loader.py:122-141 and core.py:847-858; the tree of the
    reference data has N observations.  [tree_take] does not fail for indices in range (C30), it returns no observations here
    otherwise. *)
Section SgldDevice.
Variables (obs Model Adapt : Type).
Variable data : list (String.string * list obs).
Variables N mb : nat.
Variable randint : key -> nat -> nat -> list nat.
(** core.py:847-858 *)
Definition device_get_data (k : key) : key * list (String.string * list obs) :=
  match DeviceData.dev_random_batch data N split2 randint mb k with Ok (k', (b, _)) => (k', b) | Exc _ => (fst (split2 k), []) end.
Variable normal : key -> list nat -> list R.
Variable pot_value : vtree -> list (String.string * list obs) -> Model -> R.
Variable pot_likelihoods : vtree -> list (String.string * list obs) -> Model -> list R.
Variable pot_model : vtree -> list (String.string * list obs) -> Model -> Model.
Variable pot_grad : vtree -> list (String.string * list obs) -> Model -> vtree.
Variable adaption : option ((Adapt -> vtree -> vtree -> list (String.string * list obs) -> Adapt) * (Adapt -> vtree -> vtree -> list (String.string * list obs) -> manifold)).
(** update and the keys given to [random.normal] and [random.randint] *)
(** integrator.py:860-922 with core.py:847-858 *)
Definition sgld_device_step (st : lv_st key Model Adapt) (et : R * R) : lv_st key Model Adapt * list key :=
  let (st', l) := lv_update normal device_get_data pot_value pot_likelihoods pot_model pot_grad adaption (fst et) (snd et) st in
  (st', l ++ [snd (split2 (l_data st))]).
(** init with batch_kwargs key=kd; default PRNGKey(0), numpy_loader.py:125 *)
Definition sgld_device_init (sample : vtree) (k kd : option key) (a : option Adapt) (model : Model) : lv_st key Model Adapt :=
  lv_init sample k a (match kd with Some kd => kd | None => PRNGKey 0 end) model.
End SgldDevice.
(** default key of random_thinning, scheduler.py:622-629 *)
Definition thinning_key (k : option key) : key := match k with Some k => k | None => PRNGKey 0 end.
