(** Vocabulary of the statements about the distribution after several Metropolis-Hastings steps. *)
From Coq Require Import Reals.
From Verif Require Import Base TreeUtil Xreal Scheduler Solver Mh Integrator IntegratorSpec VolumeSpec.
Open Scope R_scope.
Set Implicit Arguments.

(** v is the mean of the function f of the state after n steps from state st: in each step an independent uniform number u in [0, 1) decides about the acceptance;
    [step u i st] is the state after step i *)
Fixpoint mean_of_chain {State} (step : R -> nat -> State -> State) (f : State -> R) (i n : nat) (st : State) (v : R) : Prop :=
  match n with
  | O => v = f st
  | S n' => exists g, (forall u, 0 <= u < 1 -> mean_of_chain step f (S i) n' (step u i st) (g u)) /\ uniform_mean g v
  end.
(** d' gives the same batches as d, except that the batches of step k are given in reversed order (every step uses [len] batches, there are [total] batches) *)
Definition step_reversed {Data Batch} (get_data : Data -> Data * Batch) (len total k : nat) (d d' : Data) : Prop :=
  (forall j, (j < len)%nat -> batch_no get_data d' (k * len + j) = batch_no get_data d (k * len + (len - 1 - j))) /\
  forall j, (j < total)%nat -> (j < k * len \/ k * len + len <= j)%nat -> batch_no get_data d' j = batch_no get_data d j.
