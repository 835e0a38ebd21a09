(** Specification for C77: SGLD on a Gaussian posterior. *)
From Coq Require Import Reals.
From Verif Require Import Base TreeUtilSpec ExpectSpec GaussianMatrix.
Open Scope R_scope.
Set Implicit Arguments.

(** B is the inverse of the d x d matrix A *)
(** auxiliary definition of a statement or a proof; models no code of /repo *)
Definition inverse_matrix (d : nat) (A B : nat -> nat -> R) : Prop :=
  forall i j, (i < d)%nat -> (j < d)%nat ->
    sum_upto d (fun k => A i k * B k j) = unit_matrix i j /\ sum_upto d (fun k => B i k * A k j) = unit_matrix i j.
(** A is symmetric and positive definite: v^T A v >= lam |v|^2 with lam > 0 *)
(** auxiliary definition of a statement or a proof; models no code of /repo *)
Definition positive_definite (d : nat) (A : nat -> nat -> R) (lam : R) : Prop :=
  (forall i j, (i < d)%nat -> (j < d)%nat -> A i j = A j i) /\ 0 < lam /\
  forall v, lam * norm2 d v <= sum_upto d (fun i => v i * matvec d A v i).
(** one step: given the past (the deviation y from the mean), the error h of the gradient is unbiased and has a variance that grows at most quadratically
    in y, the noise z is standard normal to second order, and the three are uncorrelated *)
(** auxiliary definition of a statement or a proof; models no code of /repo *)
Definition unbiased_step {W : Type} (E : (W -> R) -> R) (d : nat) (S : R) (y h z : W -> nat -> R) : Prop :=
  (forall i, (i < d)%nat -> E (fun w => h w i) = 0 /\ E (fun w => z w i) = 0) /\
  second_moments E d y h (fun _ _ => 0) /\ second_moments E d y z (fun _ _ => 0) /\ second_moments E d h z (fun _ _ => 0) /\
  second_moments E d z z unit_matrix /\
  forall i j, (i < d)%nat -> (j < d)%nat -> Rabs (E (fun w => h w i * h w j)) <= S * (1 + sum_upto d (fun k => E (fun w => y w k * y w k))).
