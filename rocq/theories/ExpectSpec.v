(** Expectation as a linear functional on random variables; used for statements about covariances. *)
From Coq Require Import Reals.
From Verif Require Import Base TreeUtilSpec.
Open Scope R_scope.
Set Implicit Arguments.

(** E is an expectation: linear *)
Definition expectation {W : Type} (E : (W -> R) -> R) : Prop :=
  (forall X Y, (forall w, X w = Y w) -> E X = E Y) /\
  (forall X Y, E (fun w => X w + Y w) = E X + E Y) /\ (forall a X, E (fun w => a * X w) = a * E X).
(** x and y have the second moments C i j = E[x_i y_j], i, j < n *)
Definition second_moments {W : Type} (E : (W -> R) -> R) (n : nat) (x y : W -> nat -> R) (C : nat -> nat -> R) : Prop :=
  forall i j, (i < n)%nat -> (j < n)%nat -> E (fun w => x w i * y w j) = C i j.
(** identity matrix; S S^T *)
Definition unit_matrix (i j : nat) : R := if (i =? j)%nat then 1 else 0.
Definition outer (n : nat) (S : nat -> nat -> R) (i j : nat) : R := sum_upto n (fun k => S i k * S j k).
