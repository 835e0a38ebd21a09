(** Vocabulary of the statements about detailed balance. *)
From Coq Require Import Reals.
From Verif Require Import Base Pytree TreeUtil TreeUtilSpec Integrator IntegratorSpec.
Open Scope R_scope.
Set Implicit Arguments.

(** M is a diagonal mass: inverse and square root belong to the same positive numbers *)
Definition diagonal (s : vtree) (M : mass_matrix) : Prop :=
  exists vi sq, m_inv M = Tens1 vi /\ m_sqrt M = Tens1 sq /\ like s vi /\ like s sq /\ forall i, (i < dim s)%nat -> el vi i * (el sq i * el sq i) = 1.
(** kinetic energy p^T M^-1 p / 2 of a vector p *)
Definition kinetic (s : vtree) (M : mass_matrix) (p : vtree) : R := sum_upto (dim s) (fun i => el p i * mulv (m_inv M) (dim s) (el p) i) / 2.
(** density of the normal random vector that is drawn with key k, up to the constant (2 pi)^(-d/2) *)
Definition gauss (normal : key -> list nat -> list R) (k : key) (s : vtree) : R := exp (- sum_upto (dim s) (fun i => xi normal k s i * xi normal k s i / 2)).
Definition prod_upto (n : nat) (f : nat -> R) : R := fold_right Rmult 1 (map f (seq 0 n)).
(** -p *)
Definition opposite (s p q : vtree) : Prop := like s q /\ forall i, (i < dim s)%nat -> el q i = - el p i.
