(** Model of jax_sgmc/potential.py:94-293: minibatch_potential and full_potential.

    Simplifications: numbers are reals; a single-observation likelihood returns a scalar (arrays with one element are squeezed to
    it); a batched likelihood returns an array of any shape; lax.map, vmap and pmap evaluate all observations of the batch with the
    same state and stack the results (that pmap needs a device per observation is not modelled); the state of the model is a value
    or None; stop_gradient, named_call are identities. *)
From Coq Require Import String Reals.
From Verif Require Import Base Pytree Io TreeUtil Integrator DataCore DataSpec.
Open Scope R_scope.
Set Implicit Arguments.

(** argument strategy, potential.py:94-99, 219-226 *)
Inductive pot_strategy := PMap | PVmap | PPmap | POther.

Section Potential.
Variables (obs Sample State : Type).
(** one observation: the entries of all arrays *)
(** potential.py:128-137 *)
Definition orow : Type := list (string * option obs).
(** argument likelihood, with is_batched=False or True: the arguments are the state (None without has_state), the sample and the
    observation(s); a batched likelihood returns an array (shape and elements) *)
(** argument likelihood, potential.py:94-158 *)
Inductive lik_fn :=
| Single (f : option State -> Sample -> orow -> R * option State)
| Batched (f : option State -> Sample -> list (string * list obs) -> (list nat * list R) * option State).
(** argument is_batched, potential.py:94-99 *)
Definition is_batched (l : lik_fn) : bool := match l with Single _ => false | Batched _ => true end.
Variables (prior : Sample -> R) (likelihood : lik_fn) (has_state : bool) (temperature : R).

(** [jnp.squeeze] of an array: dimensions of size 1 are removed *)
(** potential.py:137 *)
Definition squeeze (shape : list nat) : list nat := filter (fun d => negb (d =? 1)%nat) shape.
(** stateful_likelihood, potential.py:128-138 *)
Definition call_state (state : option State) : option State := if has_state then state else None.
(** batched_likelihood, potential.py:139-156: shape and elements of the likelihoods, new states of the observations (one for a batched
    likelihood) *)
Definition batched_likelihood (state : option State) (sample : Sample) (b : mbatch obs) : (list nat * list R) * list (option State) :=
  match likelihood with
  | Single f => let rs := map (fun j => f (call_state state) sample (row (fst b) j)) (seq 0 (length (snd b))) in
                (([length (snd b)], map fst rs), map (fun r => call_state (snd r)) rs)
  | Batched f => let (lks, s) := f (call_state state) sample (fst b) in ((squeeze (fst lks), snd lks), [call_state s])
  end.
(** the new state, potential.py:171-179: of the first observation; [tree_map] of the missing new state and a state raises *)
Definition new_state (state : option State) (states : list (option State)) : res (option State) :=
  if is_batched likelihood then Ok (match states with s :: _ => s | [] => None end)
  else match state with
       | None => Ok None
       | Some _ => match states with Some s :: _ => Ok (Some s) | _ => Exc ValueError end
       end.
(** [jnp.mean(x, axis=0)] for a vector; a scalar has no axis 0 *)
(** potential.py:183 *)
Definition mean_axis0 (x : list nat * list R) : res R :=
  match fst x with [] => Exc ValueError | [_] => Ok (mean (snd x)) | _ => Exc TypeError end.
(** [jnp.dot(x, mask)] for a vector or scalar x *)
(** potential.py:185 *)
Definition dot_mask (x : list nat * list R) (mask : list bool) : res R :=
  let m := map (fun v : bool => if v then 1 else 0) mask in
  match fst x with
  | [] => match snd x, m with [v], [w] => Ok (v * w) | _, _ => Exc TypeError end
  | [n] => if (n =? length mask)%nat then Ok (rsum (zip_with Rmult (snd x) m)) else Exc TypeError
  | _ => Exc TypeError
  end.
(** batch_potential, potential.py:159-186; N: observation_count, the batch size is the number of rows of the batch *)
Definition batch_potential (N : nat) (state : option State) (sample : Sample) (b : mbatch obs) (mask : option (list bool)) : res (R * list R * option State) :=
  let n := INR (length (snd b)) in
  let (lks, states) := batched_likelihood state sample b in
  let* st := new_state state states in
  let* v := match mask with
            | None => let* m := mean_axis0 lks in Ok (- INR N * m)
            | Some mk => let* d := dot_mask lks mk in Ok (- INR N / n * d)
            end in
  Ok (v, snd lks, st).
(** potential_function, potential.py:188-216: value, likelihoods of the observations, new state *)
Definition potential_function (N : nat) (sample : Sample) (b : mbatch obs) (state : option State) (mask : option (list bool)) : res (R * list R * option State) :=
  let* r := batch_potential N state sample b mask in
  let '(v, lks, st) := r in Ok ((v - prior sample) / temperature, lks, st).
(** minibatch_potential, potential.py:139-156: with is_batched the strategy is not looked at *)
Definition minibatch_potential (strategy : pot_strategy) : res (nat -> Sample -> mbatch obs -> option State -> option (list bool) -> res (R * list R * option State)) :=
  if is_batched likelihood then Ok potential_function
  else match strategy with POther => Exc NotImplementedError | _ => Ok potential_function end.
End Potential.

(** ** full_potential, potential.py:219-293 *)
Section Full.
Variables (obs Sample State : Type).
Variables (prior : Sample -> R) (likelihood : lik_fn obs Sample State) (has_state : bool) (temperature : R).
(** batch_evaluation, potential.py:264-271; the function mapped over the data.  An exception at tracing is its result here, the
    state is kept then. *)
Definition batch_evaluation (N : nat) (sample : Sample) (b : mbatch obs) (mask : list bool) (state : option State) : res R * option State :=
  match potential_function (fun _ => 0) likelihood has_state 1 N sample b state (Some mask) with
  | Ok (v, _, st) => (Ok (v * INR (length (snd b)) / INR N), st)
  | Exc e => (Exc e, state)
  end.
(** sum_batched_evaluations, potential.py:273-291, from the results of the map *)
Definition full_value (sample : Sample) (results : list (res R)) : res R :=
  let* rs := mapM (fun x => x) results in Ok ((rsum rs - prior sample) / temperature).
(** construction, potential.py:254-262 *)
Definition full_potential (strategy : pot_strategy) : res (nat -> Sample -> mbatch obs -> list bool -> option State -> res R * option State) :=
  match strategy with
  | PPmap => Exc AssertionError
  | _ => let* _ := minibatch_potential (fun _ => 0) likelihood has_state 1 strategy in Ok batch_evaluation
  end.
End Full.
