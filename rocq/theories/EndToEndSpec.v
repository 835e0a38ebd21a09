(** Vocabulary of C71: alias.sgld, alias.obabo, alias.sghmc from the point of view of a user who provides a data set, a log likelihood of one observation and
    a log prior.  [user_*] model what the integrators get: the value, the likelihoods, the new model state and the gradient of the potential function
    of potential.py; [posterior_*] and [next_state] are the specification. *)
From Coq Require Import Reals String.
From Verif Require Import Base Pytree PytreeSpec Io TreeUtil TreeUtilSpec Integrator IntegratorSpec NumpyLoader LoaderSpec DataCore DataSpec Potential PotentialSpec LeapfrogVolume.
Open Scope R_scope.
Set Implicit Arguments.

(** ** Derivatives of functions of a pytree *)
Section Gradient.
Variable s : vtree.
(** x with coordinate c replaced by t *)
Definition at_coordinate (x : vtree) (c : nat) (t : R) : vtree := tree_of s (fun i => if (i =? c)%nat then t else el x i).
(** d c is the partial derivative of f at x in coordinate c *)
Definition partials (f : vtree -> R) (x : vtree) (d : nat -> R) : Prop :=
  forall c, (c < dim s)%nat -> derivable_pt_lim (fun t => f (at_coordinate x c t)) (el x c) (d c).
(** jax.value_and_grad, integrator.py:166, 593, 792: a pytree like the argument, with the partial derivatives wherever these exist *)
Definition exact_gradients (jgrad : (vtree -> R) -> vtree -> vtree) : Prop :=
  forall f x, like s x -> like s (jgrad f x) /\ forall d, partials f x d -> forall c, (c < dim s)%nat -> el (jgrad f x) c = d c.
End Gradient.

(** ** What the user provides *)
Section User.
Variable obs : Type.
Variables (prior : vtree -> R) (likelihood : lik_fn obs vtree vtree) (has_state : bool) (T : R).
(** the state of the model that the likelihood sees; without has_state it sees none *)
Definition state_of (m : vtree) : option vtree := if has_state then Some m else None.
(** the log likelihood of an observation r for the model state st and the sample x is l st x r; a batched likelihood returns a vector (or a column) with the
    log likelihoods of all observations of the batch *)
Definition evaluates_with (l : option vtree -> vtree -> orow obs -> R) : Prop :=
  match likelihood with
  | Single f => forall st x r, fst (f st x r) = l st x r
  | Batched f => forall st x d n, d <> [] -> (forall ka, In ka d -> length (snd ka) = n) ->
      (fst (fst (f st x d)) = [n] \/ fst (fst (f st x d)) = [n; 1%nat]) /\ snd (fst (f st x d)) = map (fun j => l st x (row d j)) (seq 0 n)
  end.
(** a likelihood with a state returns a new state with the same structure *)
Definition keeps_state : Prop :=
  has_state = true -> match likelihood with
  | Single f => forall m x r, exists m', snd (f (Some m) x r) = Some m' /\ same_structure m' m
  | Batched f => forall m x d, exists m', snd (f (Some m) x d) = Some m' /\ same_structure m' m
  end.

(** ** Model: the arguments of the integrators *)
Variable pot : nat -> vtree -> mbatch obs -> option vtree -> option (list bool) -> res (R * list R * option vtree).
Variable N : nat.
(** potential_fn(sample, mini_batch, state=model_state), potential.py:188-216; the integrators pass no mask.  (An exception would end the program; 0 stands for it.) *)
Definition user_value (x : vtree) (b : mbatch obs) (m : vtree) : R :=
  match pot N x b (state_of m) None with Ok (v, _, _) => v | Exc _ => 0 end.
(** potential.py:188-216 *)
Definition user_likelihoods (x : vtree) (b : mbatch obs) (m : vtree) : list R :=
  match pot N x b (state_of m) None with Ok (_, lks, _) => lks | Exc _ => [] end.
(** potential.py:171-179, 188-216; the new state None replaces the old state None *)
Definition user_model (x : vtree) (b : mbatch obs) (m : vtree) : vtree :=
  match pot N x b (state_of m) None with Ok (_, _, Some m') => m' | _ => m end.
(** jax.value_and_grad(potential_fn, argnums=0, has_aux=True), integrator.py:166, 593, 792 *)
Definition user_grad (jgrad : (vtree -> R) -> vtree -> vtree) (x : vtree) (b : mbatch obs) (m : vtree) : vtree :=
  jgrad (fun y => user_value y b m) x.

(** ** Specification: on a list of indices of observations of the data set *)
Variable data : list (string * list obs).
Variable l : option vtree -> vtree -> orow obs -> R.
(** the stochastic potential: minus the rescaled log likelihoods of the drawn observations and the log prior, divided by the temperature *)
Definition posterior_value (x : vtree) (idx : list nat) (m : vtree) : R :=
  (- INR N * (sum_upto (length idx) (fun j => l (state_of m) x (row data (nth j idx 0%nat))) / INR (length idx)) - prior x) / T.
(** its gradient for given partial derivatives dl of the log likelihood and dp of the log prior *)
Definition posterior_grad (s : vtree) (dl : option vtree -> vtree -> orow obs -> nat -> R) (dp : vtree -> nat -> R) (x : vtree) (idx : list nat) (m : vtree) : vtree :=
  tree_of s (fun c => (- INR N * (sum_upto (length idx) (fun j => dl (state_of m) x (row data (nth j idx 0%nat)) c) / INR (length idx)) - dp x c) / T).
(** the new model state: for a batched likelihood the one it returns, else the one returned for the first observation of the batch *)
Definition next_state (x : vtree) (idx : list nat) (m : vtree) : vtree :=
  if has_state then
    match match likelihood with
          | Single f => snd (f (Some m) x (row data (nth 0 idx 0%nat)))
          | Batched f => snd (f (Some m) x (map (fun ka => (fst ka, select (snd ka) idx)) data))
          end with Some m' => m' | None => m end
  else m.
(** dl and dp are the partial derivatives at x for the model state m *)
Definition smooth_at (s : vtree) (dl : option vtree -> vtree -> orow obs -> nat -> R) (dp : vtree -> nat -> R) (x m : vtree) : Prop :=
  partials s prior x (dp x) /\ forall j, (j < N)%nat -> partials s (fun y => l (state_of m) y (row data j)) x (dl (state_of m) x (row data j)).
End User.

(** the index lists drawn by the chain with id cid: mb indices with replacement, the generator is seeded with the id *)
Definition drawn_indices {G} (choice_repl : G -> nat -> nat -> G * list nat) (rng_of_seed : nat -> G) (N mb cid k : nat) : list nat :=
  snd (choice_repl (Nat.iter k (fun g => fst (choice_repl g N mb)) (rng_of_seed cid)) N mb).
(** as a source of batches *)
Definition index_source {G} (choice_repl : G -> nat -> nat -> G * list nat) (rng_of_seed : nat -> G) (N mb cid n : nat) : nat * list nat :=
  (S n, drawn_indices choice_repl rng_of_seed N mb cid n).
