(** Sizes that the code computes with floating point divisions. *)
From Coq Require Import ZArith Reals Lra Lia.
From Flocq Require Import Core.

(** IEEE-754 rounding to nearest, ties to even, with gradual underflow.  Overflow is not modelled (all values below 2^53). *)
(** binary64: Python's float; int / int is correctly rounded (CPython long_true_divide). *)
(** no code of /repo *)
Definition round64 (x : R) : R := round radix2 (FLT_exp (-1074) 53) ZnearestE x.

(** binary32: jax's default float.  *)
(** no code of /repo *)
Definition round32 (x : R) : R := round radix2 (FLT_exp (-149) 24) ZnearestE x.

(** Python's [a / b] of two integers. *)
(** used in numpy_loader.py:276, core.py:558-559 *)
Definition py_div (a b : Z) : R := round64 (IZR a / IZR b).

(** jax's [a / b] of two int32 arrays: both are converted to float32 first (jax.numpy.true_divide). *)
(** used in scheduler.py:355 *)
Definition jnp_div (a b : Z) : R := round32 (round32 (IZR a) / round32 (IZR b)).

(** jax_sgmc/data/numpy_loader.py:276, 433, math.ceil(self._observation_count / mb_size): number of batches of an epoch
    (shuffle_in_epochs and its initial state). *)
Definition epoch_draws (observation_count mb_size : Z) : Z := Zceil (py_div observation_count mb_size).

(** jax_sgmc/data/numpy_loader.py:392-394, the size of the index buffer of _shuffle_indices:
    math.floor(self._observation_count / chain['mb_size']) + 2. *)
Definition shuffle_buffer_draws (observation_count mb_size : Z) : Z := Zfloor (py_div observation_count mb_size) + 2.

(** jax_sgmc/data/core.py:558-559, int(onp.ceil(observation_count / batch_size)): batches of a pass over the full data.
    onp.ceil returns a float, which is exact (a ceiling of a binary64 number is a binary64 number). *)
Definition full_num_iterations (observation_count batch_size : Z) : Z := Zceil (py_div observation_count batch_size).

(** jax_sgmc/scheduler.py:355, jnp.int_(jnp.floor(iterations / steps)): [iterations] and [steps] come from the state of
    the progress bar, which is carried through lax.scan, so both are int32 arrays. *)
Definition progress_period (iterations steps : Z) : Z := Zfloor (jnp_div iterations steps).
