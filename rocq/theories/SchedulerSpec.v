(** Specification vocabulary for the scheduler (C24-C31). *)
From Coq Require Import Reals ZArith.
From Verif Require Import Base Xreal Scheduler.
Open Scope R_scope.

(** state of a specific scheduler after the updates with the statistics xs, the first of them at iteration i *)
Fixpoint evolve {F X} (sp : specific F X) (s : sp_state sp) (i : nat) (xs : list stats) : sp_state sp :=
  match xs with [] => s | x :: r => evolve sp (sp_update sp s i x) (S i) r end.

Section S.
Variables (ss te : specific xr unit) (bi th : specific bool Z) (pb : bool).
(** scheduler state after the updates xs *)
Definition after (st : sched_state ss te bi th) (xs : list stats) : sched_state ss te bi th :=
  fold_left (sched_update ss te bi th) xs st.
(** a sample is kept at the next iteration, solver.py:104 *)
Definition keeps (st : sched_state ss te bi th) : bool :=
  sch_burn_in (sched_get ss te bi th st) && sch_accept (sched_get ss te bi th st).
(** the iterations, among the first length xs, at which a sample is kept; xs are the statistics of the iterations *)
Definition kept_its (st : sched_state ss te bi th) (xs : list stats) : list nat :=
  filter (fun i => keeps (after st (firstn i xs))) (seq 0 (length xs)).
End S.

(** random choice without replacement: k different positions with nonzero probability, provided there are enough *)
Definition choice_ok {Key} (choice : Key -> list xr -> nat -> list nat) : Prop :=
  forall key p k, (k <= count_nonzero p)%nat ->
    length (choice key p k) = k /\ NoDup (choice key p k) /\
    forall i, In i (choice key p k) -> exists x, nth_error p i = Some x /\ xnonzero x = true.

(** the step size schedule is positive and finite at every iteration when it gets no statistics *)
Definition positive_steps {X} (ss : specific xr X) (iterations : nat) : Prop :=
  exists s0, sp_init ss iterations (sp_nokw ss) = Ok s0 /\
    forall i, (i < iterations)%nat -> exists r, 0 < r /\
      sp_get ss (evolve ss (fst s0) 0 (repeat no_stats i)) i no_stats = Fin r.
