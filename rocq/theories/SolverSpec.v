(** Specification vocabulary for mcmc (C32, C33, C53). *)
From Coq Require Import Reals ZArith.
From Verif Require Import Base Pytree PytreeSpec Xreal Scheduler SchedulerSpec Solver.
Open Scope nat_scope.
Set Implicit Arguments.

Section S.
Variable V : Type.
Variables (ss te : specific xr unit) (bi th : specific bool Z).
Variable so : solver V.
(** [sts] are the n+1 states and [xs] the n statistics of a run of n iterations: the state of iteration i+1 is the update of the
    state of iteration i with the schedules of iteration i, one for every initial scheduler state *)
Definition iterates (inits : list (sched_state ss te bi th)) (s0 : so_state so) (n : nat) (sts : list (so_state so)) (xs : list stats) : Prop :=
  length sts = S n /\ length xs = n /\ nth_error sts 0 = Some s0 /\
  forall i s, i < n -> nth_error sts i = Some s ->
    exists s' x, so_update so s (map (fun c => sched_get ss te bi th (after ss te bi th c (firstn i xs))) inits) = (s', x) /\
      nth_error sts (S i) = Some s' /\ nth_error xs i = Some (match x with Some y => y | None => no_stats end).
(** the samples after the updates of the iterations [its] *)
Definition samples_at (sts : list (so_state so)) (its : list nat) : list (tree V) :=
  flat_map (fun i => match nth_error sts (S i) with Some s => [so_get so s] | None => [] end) its.
(** the samples of the solver keep their structure *)
Definition keeps_structure : Prop :=
  forall s schedules, same_structure (so_get so (fst (so_update so s schedules))) (so_get so s).
End S.
