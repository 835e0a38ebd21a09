(** The solvers of jax_sgmc/solver.py:301-577 with the integrators of jax_sgmc/integrator.py: amagold with reversible_leapfrog
    and sggmc with obabo, as they are combined in alias.py:277-286 and 396-409.

    Simplifications: as in Mh.v and Integrator.v.  The integrators compute with finite numbers: a schedule whose step size or
    temperature is not finite leaves the state unchanged here (the theorems assume finite values). *)
From Coq Require Import Reals.
From Verif Require Import Base Pytree Io TreeUtil Xreal Scheduler Solver Integrator Mh.
Open Scope R_scope.
Set Implicit Arguments.

(** [random.split(key)], [random.split(key, 3)] *)
(** jax.random.split (solver.py:283) *)
Definition split2 (k : key) : key * key := (Sub k 0, Sub k 1).
(** jax.random.split (solver.py:254) *)
Definition split3 (k : key) : key * key * key := (Sub k 0, Sub k 1, Sub k 2).
(** conversion between the numbers of Mh.v and Integrator.v; no code of /repo *)
Definition fin_or (d : R) (x : xr) : R := match x with Fin r => r | _ => d end.

Section Adapters.
Variables (Data Batch Model : Type).
(** integrator.LeapfrogState, seen by the solver and by the integrator; the stored energy is not read by [integrate] (integrator.py:526-533) *)
Definition lf_of (r : rl_st Data Model) : lf_state key vtree vtree Model Data :=
  mkLf (r_pos r) (r_mom r) (r_model r) (Fin (r_pot r)) (r_data r) (r_key r).
(** integrator.py:35-52 *)
Definition rl_of (l : lf_state key vtree vtree Model Data) : rl_st Data Model :=
  mkRlSt (lf_positions l) (lf_momentum l) (lf_model l) 0 (lf_data l) (lf_key l).
(** integrator.ObaboState *)
(** integrator.py:55-75 *)
Definition ob_of (o : ob_st Data Model) : ob_state key vtree vtree Model Data :=
  mkOb (o_pos o) (o_mom o) (o_model o) (Fin (o_pot o)) (o_data o) (o_key o) (Fin (o_start o)) (Fin (o_end o)).
(** integrator.py:55-75 *)
Definition st_of (b : ob_state key vtree vtree Model Data) : ob_st Data Model :=
  mkObSt (ob_positions b) (ob_momentum b) (ob_model b) (fin_or 0 (ob_potential b)) (ob_data b) (ob_key b) (fin_or 0 (ob_kin_start b)) (fin_or 0 (ob_kin_end b)).

Variable normal : key -> list nat -> list R.
Variable get_data : Data -> Data * Batch.
Variable pot_value : vtree -> Batch -> Model -> R.
Variable pot_model : vtree -> Batch -> Model -> Model.
Variable pot_grad : vtree -> Batch -> Model -> vtree.
Variables (steps : nat) (friction : R) (const_mass : option vtree).
(** update function of reversible_leapfrog as called in solver.py:371-378 *)
Definition leapfrog_update (l : lf_state key vtree vtree Model Data) (sch : schedule) (mass : option mass_matrix) : lf_state key vtree vtree Model Data :=
  match sch_step sch with
  | Fin eps => lf_of (fst (rl_integrate normal get_data pot_model pot_grad steps friction const_mass eps mass (rl_of l)))
  | _ => l
  end.
(** init function, as called in solver.py:352 *)
Definition leapfrog_init (data : Data) (sample : vtree) (k : key) (mass : option mass_matrix) (model : Model) : lf_state key vtree vtree Model Data :=
  lf_of (fst (rl_init normal const_mass sample (Some k) data model mass)).
(** update function of obabo as called in solver.py:505-513 *)
Definition obabo_update (b : ob_state key vtree vtree Model Data) (sch : schedule) (mass : option mass_matrix) : ob_state key vtree vtree Model Data :=
  match sch_step sch, sch_temperature sch with
  | Fin eps, Fin T => ob_of (fst (ob_integrate normal get_data pot_value pot_model pot_grad steps friction const_mass eps T mass (st_of b)))
  | _, _ => b
  end.
(** init function, as called in solver.py:484 *)
Definition obabo_init (data : Data) (sample : vtree) (k : key) (model : Model) : ob_state key vtree vtree Model Data :=
  ob_of (Integrator.ob_init sample (Some k) data model).
End Adapters.
