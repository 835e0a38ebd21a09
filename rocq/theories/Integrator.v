(** Model of jax_sgmc/integrator.py:60-924: obabo, reversible_leapfrog, friction_leapfrog, langevin_diffusion.

    Simplifications: numbers are reals ([jnp.sqrt] of a negative number is 0 instead of NaN); keys are symbolic, [random.split]
    gives the children of a key and [random.normal] is an arbitrary function of the key and the shape; the value, the gradient
    and the side results of the potential are arbitrary functions ([jax.grad] is not modelled); [lax.scan] is a loop; the tree
    operations, which raise for trees of different shape, return their argument then (the theorems assume fitting shapes);
    named_call, jit are identities.  Besides the new state every function returns the keys given to [random.normal]. *)
From Coq Require Import Reals.
From Verif Require Import Base Pytree Io TreeUtil.
Open Scope R_scope.
Set Implicit Arguments.

(** jax.random: [random.split(k, n) = [Sub k 0; ...; Sub k (n-1)]] *)
(** integrator.py:131 and the other calls of random.split *)
Inductive key := PRNGKey (seed : nat) | Sub (k : key) (i : nat).

(** the exception of a tree operation is not modelled in the integrators (the theorems assume equal structures); no code of /repo *)
Definition ok_or {A} (d : A) (r : res A) : A := match r with Ok x => x | Exc _ => d end.
(** tree_util.py:89-103 *)
Definition tadd (a b : vtree) : vtree := ok_or a (tree_add a b).
(** tree_util.py:58-70 *)
Definition tmul (a b : vtree) : vtree := ok_or b (tree_multiply a b).
(** tree_util.py:38-56 *)
Definition tmat (m : tensor) (v : vtree) : vtree := ok_or v (tensor_matmul m v).
(** tree_util.py:119-129 *)
Definition tdot (a b : vtree) : R := ok_or 0 (tree_dot a b).
(** elementwise jnp function; no code of /repo *)
Definition amap (f : R -> R) (x : arr) : arr := mkArr (ashape x) (map f (adata x)).
(** [tree_map(f, t)] with an elementwise f *)
(** integrator.py:108-113 *)
Definition emap (f : R -> R) (t : vtree) : vtree := tree_map (amap f) t.

(** adaption.MassMatrix *)
(** adaption.py:67-77 *)
Record mass_matrix := mkMass { m_inv : tensor; m_sqrt : tensor }.
(** init_mass, integrator.py:99-116 *)
Definition init_mass (mass : vtree) : mass_matrix := mkMass (Tens1 (emap Rinv mass)) (Tens1 (emap sqrt mass)).
(** [init_mass(tree_map(ones_like, t))] *)
(** integrator.py:325, 491, 520, 726 *)
Definition unit_mass (t : vtree) : mass_matrix := init_mass (emap (fun _ => 1) t).

(** loop of [lax.scan] over [arange(n)], collecting the used keys *)
(** lax.scan in integrator.py:318-338, 509-553, 715-757 *)
Definition scan {S} (f : S -> nat -> S * list key) (n : nat) (s : S) : S * list key :=
  fold_left (fun acc i => let (s', l) := f (fst acc) i in (s', snd acc ++ l)) (seq 0 n) (s, []).

Section Integrators.
Variable normal : key -> list nat -> list R.
(** random_tree, integrator.py:119-135 *)
Definition random_tree (k : key) (a : vtree) : vtree * list key :=
  let shapes := map ashape (leaves a) in
  let splits := map (Sub k) (seq 0 (length shapes)) in
  let noise_leaves := zip_with (fun s sh => mkArr sh (normal s sh)) splits shapes in
  (ok_or a (unflatten a noise_leaves), splits).

Variables (Data Batch Model : Type).
(** [batch_fn]: the second component of random_reference_data *)
Variable get_data : Data -> Data * Batch.
(** value, per-observation likelihoods, new model state and gradient of the stochastic potential *)
Variable pot_value : vtree -> Batch -> Model -> R.
Variable pot_likelihoods : vtree -> Batch -> Model -> list R.
Variable pot_model : vtree -> Batch -> Model -> Model.
Variable pot_grad : vtree -> Batch -> Model -> vtree.

(** _position_update, integrator.py:181-184 and 383-388 *)
Definition position_update (scale : R) (mass : mass_matrix) (position momentum : vtree) : vtree :=
  tadd position (tree_scale scale (tmat (m_inv mass) momentum)).
(** _kinetic_energy, integrator.py:177-179 *)
Definition kinetic_energy (mass : mass_matrix) (momentum : vtree) : R :=
  1 / 2 * tdot momentum (tmat (m_inv mass) momentum).

(** ** obabo, integrator.py:138-346 *)
Record ob_st := mkObSt {
  o_pos : vtree; o_mom : vtree; o_model : Model; o_pot : R; o_data : Data; o_key : key; o_start : R; o_end : R
}.
Section Obabo.
Variable steps : nat.
Variable friction : R.
Variable const_mass : option vtree.
(** _momentum_update, integrator.py:187-189 *)
Definition ob_momentum_update (scale : R) (gradient momentum : vtree) : vtree := tadd (tree_scale (-1 * scale) gradient) momentum.
(** _momentum_resampling, integrator.py:192-200 *)
Definition ob_resample (eps T : R) (mass : mass_matrix) (momentum : vtree) (split : key) : vtree * list key :=
  let (noise, used) := random_tree split momentum in
  let scaled_noise := tmat (m_sqrt mass) noise in
  let permanence := exp (- friction * eps) in
  let momentum_noise := tree_scale (sqrt ((1 - permanence) * T)) scaled_noise in
  let decayed := tree_scale (sqrt permanence) momentum in
  (tadd decayed momentum_noise, used).
(** _leapfrog_steps, integrator.py:203-273 *)
Definition ob_step (eps T : R) (mass : mass_matrix) (st : ob_st) (_ : nat) : ob_st * list key :=
  let k := Sub (o_key st) 0 in let split1 := Sub (o_key st) 1 in let split2 := Sub (o_key st) 2 in
  let (refreshed, used1) := ob_resample eps T mass (o_mom st) split1 in
  let start_energy := o_start st + kinetic_energy mass refreshed in
  let (data1, batch1) := get_data (o_data st) in
  let pot_before := pot_value (o_pos st) batch1 (o_model st) in
  let model1 := pot_model (o_pos st) batch1 (o_model st) in
  let grad1 := pot_grad (o_pos st) batch1 (o_model st) in
  let first := ob_momentum_update (1 / 2 * eps) grad1 refreshed in
  let pos := position_update eps mass (o_pos st) first in
  let (data2, batch2) := get_data data1 in
  let pot_after := pot_value pos batch2 model1 in
  let model2 := pot_model pos batch2 model1 in
  let grad2 := pot_grad pos batch2 model1 in
  let second := ob_momentum_update (1 / 2 * eps) grad2 first in
  let (final, used2) := ob_resample eps T mass second split2 in
  let end_energy := o_end st + kinetic_energy mass second in
  (mkObSt pos final model2 (1 / 2 * (pot_before + pot_after)) data2 k start_energy end_energy, used1 ++ used2).
(** init_fn, integrator.py:275-315 *)
Definition ob_init (sample : vtree) (k : option key) (data : Data) (model : Model) : ob_st :=
  mkObSt sample (emap (fun _ => 0) sample) model 0 data (match k with Some k => k | None => PRNGKey 0 end) 0 0.
(** the default mass, integrator.py:323-330 *)
Definition ob_mass (mass : option mass_matrix) (pos : vtree) : mass_matrix :=
  match mass with Some m => m | None => match const_mass with Some c => init_mass c | None => unit_mass pos end end.
(** integrate, integrator.py:317-338 *)
Definition ob_integrate (eps T : R) (mass : option mass_matrix) (st : ob_st) : ob_st * list key :=
  scan (ob_step eps T (ob_mass mass (o_pos st))) steps st.
End Obabo.

(** ** reversible_leapfrog, integrator.py:349-560 *)
Record rl_st := mkRlSt { r_pos : vtree; r_mom : vtree; r_model : Model; r_pot : R; r_data : Data; r_key : key }.
Section Reversible.
Variable steps : nat.
Variable friction : R.
Variable const_mass : option vtree.
(** _cov_scaled_noise, integrator.py:390-393 *)
Definition cov_scaled_noise (split : key) (mass : mass_matrix) (t : vtree) : vtree * list key :=
  let (noise, used) := random_tree split t in (tmat (m_sqrt mass) noise, used).
(** _energy, integrator.py:395-400 *)
Definition rl_energy (old new : vtree) (mass : mass_matrix) (gradient : vtree) (scale : R) : R :=
  scale * tdot (tadd old new) (tmat (m_inv mass) gradient).
(** _body_fun, integrator.py:402-458 *)
Definition rl_body (eps : R) (mass : mass_matrix) (st : rl_st) (step : nat) : rl_st * list key :=
  let positions := if (step =? 0)%nat then r_pos st else position_update eps mass (r_pos st) (r_mom st) in
  let k := Sub (r_key st) 0 in let split := Sub (r_key st) 1 in
  let (noise, used) := cov_scaled_noise split mass (r_mom st) in
  let scaled_noise := tree_scale (sqrt (4 * friction * eps)) noise in
  let (data, batch) := get_data (r_data st) in
  let gradient := pot_grad positions batch (r_model st) in
  let model := pot_model positions batch (r_model st) in
  let decayed := tree_scale (1 - eps * friction) (r_mom st) in
  let neg_gradient := tree_scale (-1 * eps) gradient in
  let unscaled := tadd (tadd decayed neg_gradient) scaled_noise in
  let updated := tree_scale (1 / (1 + eps * friction)) unscaled in
  let energy := rl_energy (r_mom st) updated mass gradient (1 / 2 * eps) in
  (mkRlSt positions updated model (energy + r_pot st) data k, used).
(** the default mass, integrator.py:515-520 and 488-493 *)
Definition rl_mass (mass : option mass_matrix) (pos : vtree) : mass_matrix :=
  match mass with Some m => m | None => match const_mass with Some c => init_mass c | None => unit_mass pos end end.
(** init_fn, integrator.py:460-507 *)
Definition rl_init (sample : vtree) (k : option key) (data : Data) (model : Model) (mass : option mass_matrix) : rl_st * list key :=
  let k0 := match k with Some k => k | None => PRNGKey 0 end in
  let (momentum, used) := cov_scaled_noise (Sub k0 1) (rl_mass mass sample) sample in
  (mkRlSt sample momentum model 0 data (Sub k0 0), used).
(** integrate, integrator.py:509-553 *)
Definition rl_integrate (eps : R) (mass : option mass_matrix) (st : rl_st) : rl_st * list key :=
  let m := rl_mass mass (r_pos st) in
  let positions := position_update (1 / 2 * eps) m (r_pos st) (r_mom st) in
  let st1 := mkRlSt positions (r_mom st) (r_model st) 0 (r_data st) (r_key st) in
  let (st2, used) := scan (rl_body eps m) steps st1 in
  let positions2 := position_update (1 / 2 * eps) m (r_pos st2) (r_mom st2) in
  (mkRlSt positions2 (r_mom st2) (r_model st2) (r_pot st2) (r_data st2) (r_key st2), used).
End Reversible.

(** ** friction_leapfrog, integrator.py:563-765 *)
Inductive fric := FScalar (f : R) | FTree (t : vtree).
Section Friction.
Variable Noise : Type.
(** integrator.py:35-52 *)
Record fl_st := mkFlSt { f_pos : vtree; f_mom : vtree; f_model : Model; f_pot : R; f_data : Data; f_key : key; f_extra : option Noise }.
Variable steps : nat.
Variable friction : fric.
Variable const_mass : option vtree.
(** noise model: init, update, get (returning cb_diff_sqrt) *)
Variable noise_model : option ((vtree -> Noise) * (Noise -> vtree -> vtree -> vtree -> Batch -> R -> Noise) *
                               (Noise -> vtree -> vtree -> vtree -> Batch -> R -> Model -> tensor)).
(** _body_fun, integrator.py:603-666 *)
Definition fl_body (eps : R) (fr : vtree) (mass : mass_matrix) (st : fl_st) (_ : nat) : fl_st * list key :=
  let scaled_momentum := tmat (m_inv mass) (f_mom st) in
  let pos := tadd (f_pos st) (tree_scale eps scaled_momentum) in
  let decay := tmul (tree_scale (- eps) fr) scaled_momentum in
  let mom1 := tadd (f_mom st) decay in
  let (data, batch) := get_data (f_data st) in
  let pot := pot_value pos batch (f_model st) in
  let model := pot_model pos batch (f_model st) in
  let gradient := pot_grad pos batch (f_model st) in
  let mom2 := tadd mom1 (tree_scale (- eps) gradient) in
  let k := Sub (f_key st) 0 in
  let (noise, used) := random_tree (Sub (f_key st) 1) (f_mom st) in
  let '(extra, scaled_noise) :=
    match noise_model, f_extra st with
    | Some (_, update, get), Some ns =>
        let ns' := update ns pos gradient fr batch eps in
        (Some ns', tree_scale (sqrt (2 * eps)) (tmat (get ns' pos gradient fr batch eps (f_model st)) noise))
    | _, _ => (None, tmul fr (tree_scale (sqrt (2 * eps)) noise))
    end in
  (mkFlSt pos (tadd mom2 scaled_noise) model pot data k extra, used).
(** init_fn, integrator.py:668-713 *)
Definition fl_init (sample : vtree) (k : option key) (data : Data) (model : Model) : fl_st :=
  mkFlSt sample sample model 0 data (match k with Some k => k | None => PRNGKey 0 end)
         (match noise_model with Some (init, _, _) => Some (init sample) | None => None end).
(** the default mass, integrator.py:721-726 *)
Definition fl_mass (mass : option mass_matrix) (pos : vtree) : mass_matrix :=
  match mass with Some m => m | None => match const_mass with Some c => init_mass c | None => unit_mass pos end end.
(** integrator.py:728-733 *)
Definition fl_friction (pos : vtree) : vtree := match friction with FScalar f => emap (fun _ => f) pos | FTree t => t end.
(** integrate, integrator.py:715-757 *)
Definition fl_integrate (eps : R) (mass : option mass_matrix) (st : fl_st) : fl_st * list key :=
  let m := fl_mass mass (f_pos st) in
  let fr := fl_friction (f_pos st) in
  let k := Sub (f_key st) 0 in
  let (noise, used) := random_tree (Sub (f_key st) 1) (f_mom st) in
  let momentum := tmat (m_sqrt m) noise in
  let st1 := mkFlSt (f_pos st) momentum (f_model st) 0 (f_data st) k (f_extra st) in
  let (st2, used2) := scan (fl_body eps fr m) steps st1 in
  (st2, used ++ used2).
End Friction.

(** ** langevin_diffusion, integrator.py:767-924 *)
(** adaption.Manifold; gamma is a vector *)
(** adaption.py:53-65 *)
Record manifold := mkManifold { g_inv : tensor; sqrt_g_inv : tensor; g_gamma : vtree }.
(** [jnp.var] *)
(** jnp.mean, used by jnp.var (integrator.py:880) *)
Definition mean (l : list R) : R := rsum l / INR (length l).
(** jnp.var (integrator.py:880) *)
Definition variance (l : list R) : R := mean (map (fun x => (x - mean l) * (x - mean l)) l).
Section Langevin.
Variable Adapt : Type.
Variable adaption : option ((Adapt -> vtree -> vtree -> Batch -> Adapt) * (Adapt -> vtree -> vtree -> Batch -> manifold)).
(** integrator.py:78-96 *)
Record lv_st := mkLvSt { l_pos : vtree; l_model : Model; l_key : key; l_adapt : option Adapt; l_data : Data; l_pot : R; l_var : R }.
(** init_fn, integrator.py:803-846 *)
Definition lv_init (sample : vtree) (k : option key) (adapt_state : option Adapt) (data : Data) (model : Model) : lv_st :=
  mkLvSt sample model (match k with Some k => k | None => PRNGKey 0 end) adapt_state data 0 1.
(** update_fn, integrator.py:859-922 *)
Definition lv_update (eps T : R) (st : lv_st) : lv_st * list key :=
  let k := Sub (l_key st) 0 in
  let (data, batch) := get_data (l_data st) in
  let (noise, used) := random_tree (Sub (l_key st) 1) (l_pos st) in
  let potential := pot_value (l_pos st) batch (l_model st) in
  let model := pot_model (l_pos st) batch (l_model st) in
  let gradient := pot_grad (l_pos st) batch (l_model st) in
  let var := variance (pot_likelihoods (l_pos st) batch (l_model st)) in
  let scaled_gradient := tree_scale (- eps) gradient in
  let scaled_noise := tree_scale (sqrt (2 * T * eps)) noise in
  let '(update_step, adapt') :=
    match adaption, l_adapt st with
    | Some (adapt_update, adapt_get), Some a =>
        let a' := adapt_update a (l_pos st) gradient batch in
        let m := adapt_get a' (l_pos st) gradient batch in
        (tadd (tadd (tree_scale eps (g_gamma m)) (tmat (g_inv m) scaled_gradient)) (tmat (sqrt_g_inv m) scaled_noise), Some a')
    | _, _ => (tadd scaled_gradient scaled_noise, None)
    end in
  (mkLvSt (tadd (l_pos st) update_step) model k adapt' data potential var, used).
End Langevin.
End Integrators.
