(** Model of the unbatched functions of full_data_mapper, jax_sgmc/data/core.py:1062-1108: a function
    of one observation and a carry is turned into a function of a batch.
    Simplifications: as in FullMapper.v; information=False; the carry is a pytree of arrays of which
    only the tree is modelled; the call is made outside of jit (tracing errors are raised after the
    callback that takes a cache state from the pool has been executed). *)
From Verif Require Import Base Pytree NumpyLoader Requests DataCore DataSpec FullMapper.
From Coq Require String.
Set Implicit Arguments.

Section Unbatched.
Context {G obs A R : Type}.
Variable choice_repl : G -> nat -> nat -> G * list nat.
Variable choice_perm : G -> nat -> G * list nat.
Variables ca mb : nat.
(** a function of one observation (the entries of all arrays) and the carry *)
(** core.py:309-329 *)
Definition single : Type := list (String.string * option obs) -> tree A -> R * tree A.

(** the two definitions of [batched_fun], core.py:1079-1103.  mb_size = 1: squeeze the batch, expand
    the result.  Otherwise [vmap(fun, in_axes=(0, None))]; of the states the first is kept. *)
Definition unbatched (g : single) : mapped obs (tree A) (list R) :=
  fun b _ c =>
    if mb =? 1 then let (r, c') := g (row (fst b) 0) c in ([r], c')
    else (map (fun j => fst (g (row (fst b) j) c)) (seq 0 mb), snd (g (row (fst b) 0) c)).

(** [take_along_axis(x, indices=0, axis=0)] requires indices with as many dimensions as x: it raises
    ValueError for every leaf of the vmapped states (these have at least one dimension) *)
(** core.py:1083-1107 *)
Definition take_first_raises (carry : tree A) : bool := negb (mb =? 1) && negb (length (leaves carry) =? 0).

(** the call [mapper_fn(g, carry, masking, batched=False)] up to the scan: the cache state is taken
    from the pool first (core.py:1067), then the errors are raised (core.py:1073-1075 and 1099-1102);
    the cache state of a call that fails is not put back: the entry that it leaves in m_run is never
    executed *)
Definition call_unbatched (m : mapper G obs (tree A) (list R)) (masking : bool) (g : single) (carry : tree A)
  : mapper G obs (tree A) (list R) * res nat :=
  let (m', r) := m_start choice_repl choice_perm ca mb m (unbatched g) carry in
  (m', let* j := r in
       if masking then Exc ValueError else if take_first_raises carry then Exc ValueError else Ok j).

(** core.py:617-627: concatenate and truncate *)
Definition unmasked_result (N : nat) (v : list (list R) * tree A) : list R * tree A := (slice (concat (fst v)) 0 N, snd v).
End Unbatched.
