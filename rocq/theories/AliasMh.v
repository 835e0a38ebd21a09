(** The solvers of alias.amagold and alias.sggmc, jax_sgmc/alias.py:277-326 and 396-449: solver.amagold with integrator.reversible_leapfrog and solver.sggmc with
    integrator.obabo, without mass adaption.

    Simplifications: as in Mh.v and MhIntegrators.v.  The full potential is a function of the position, the state of the full data map and the model state.  The saved numbers
    are real numbers ([real] is 0 for the others). *)
From Coq Require Import Reals String.
From Verif Require Import Base Pytree Io TreeUtil Integrator Xreal Scheduler Solver Mh MhIntegrators Alias.
Open Scope R_scope.
Set Implicit Arguments.

Section Mh.
Variable normal : key -> list nat -> list R.
Variable uniform : key -> R.
Variables (Data Batch Full : Type).
Variable get_data : Data -> Data * Batch.
Variables (pot_value : vtree -> Batch -> vtree -> R) (pot_model : vtree -> Batch -> vtree -> vtree) (pot_grad : vtree -> Batch -> vtree -> vtree).
Variable full_potential : vtree -> Full -> vtree -> xr * (Full * vtree).
Variable init_full : Full.
Variables (steps : nat) (friction : R) (mass : option vtree).
(** jnp arrays without dimensions (solver.py:426-430) *)
Definition number (x : xr) : vtree := Leaf (mkArr [] [real x]).
(** no mass adaption *)
(** alias.py:210-328 never passes a mass adaption *)
Definition no_adaption : option ((vtree -> unit) * (unit -> vtree -> unit) * (unit -> mass_matrix)) := None.

(** get_fn of reversible_leapfrog, integrator.py:555-558, extended by get of amagold, solver.py:426-430 (jax sorts the keys) *)
Definition lf_get (l : lf_state key vtree vtree vtree Data) : vtree := hmc_sample (real (lf_potential l)) (lf_model l) (lf_positions l).
(** solver.py:426-430 *)
Definition am_extend (t : vtree) (r : xr * xr) : vtree :=
  match t with
  | Node _ [e; m; x] => Node (KDict ["acceptance_ratio"; "energy"; "model_state"; "step_size"; "variables"]%string) [number (fst r); e; m; number (snd r); x]
  | _ => t
  end.
(** alias.py:280-286 *)
Definition amagold_solver : solver arr :=
  amagold split2 uniform tree_scale full_potential no_adaption (leapfrog_update normal get_data pot_model pot_grad steps friction mass) lf_get am_extend.
(** run_fn, alias.py:322-326: the key is the default *)
Definition amagold_init (data : Data) (model sample : vtree) : am_state key vtree vtree vtree Data Full unit :=
  am_init split2 full_potential init_full no_adaption (leapfrog_init normal mass data) sample (PRNGKey 0) model.

(** get_fn of obabo, integrator.py:340-344, extended by get of sggmc, solver.py:569-575 *)
Definition ob_get (b : ob_state key vtree vtree vtree Data) : vtree := hmc_sample (real (ob_potential b)) (ob_model b) (ob_positions b).
(** solver.py:569-575 *)
Definition sg_extend (t : vtree) (r : xr * xr * xr) (potential : xr) : vtree :=
  match t with
  | Node _ [e; m; x] => Node (KDict ["acceptance_ratio"; "energy"; "kinetic_energy"; "model_state"; "potential"; "step_size"; "variables"]%string)
      [number (fst (fst r)); e; number (snd r); m; number potential; number (snd (fst r)); x]
  | _ => t
  end.
(** alias.py:399-409 *)
Definition sggmc_solver : solver arr :=
  sggmc split2 uniform full_potential no_adaption (obabo_update normal get_data pot_value pot_model pot_grad steps friction mass) ob_get sg_extend.
(** run_fn, alias.py:445-449 *)
Definition sggmc_init (data : Data) (model sample : vtree) : sg_state key vtree vtree vtree Data Full unit :=
  sg_init split2 full_potential init_full no_adaption (MhIntegrators.obabo_init data) sample (PRNGKey 0) model.
End Mh.
