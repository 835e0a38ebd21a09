(** Specification for C87: independent batches and independent noise; quadratic log densities. *)
From Coq Require Import Reals.
From Verif Require Import Base Pytree PytreeSpec Io TreeUtil TreeUtilSpec IntegratorSpec Potential PotentialSpec ExpectSpec.
Open Scope R_scope.
Set Implicit Arguments.

Section Known.
(** the index list of the k-th batch and the noise (d numbers) of the k-th step *)
Variables (W : Type) (idx : nat -> W -> list nat) (z : nat -> W -> nat -> R) (d : nat).
(** what is known after a batches and the noise of b steps: polynomials in these noises whose coefficients are functions of the index lists of these batches *)
(** auxiliary definition of a statement or a proof; models no code of /repo *)
Inductive known (a b : nat) : (W -> R) -> Prop :=
| known_const c : known a b (fun _ => c)
| known_idx k (g : list nat -> R) : (k < a)%nat -> known a b (fun w => g (idx k w))
| known_noise k i : (k < b)%nat -> (i < d)%nat -> known a b (fun w => z k w i)
| known_plus F G : known a b F -> known a b G -> known a b (fun w => F w + G w)
| known_mult F G : known a b F -> known a b G -> known a b (fun w => F w * G w)
| known_ext F G : (forall w, F w = G w) -> known a b F -> known a b G.
(** E is an expectation for which, in each of n steps, the index list is uniformly distributed over all lists of mb of N observations (drawn with replacement) and
    independent of everything before, and the noise is centred, has unit covariance and is independent of everything before and of the index list of the step *)
(** auxiliary definition of a statement or a proof; models no code of /repo *)
Definition independent_run (E : (W -> R) -> R) (N mb n : nat) : Prop :=
  expectation E /\ E (fun _ => 1) = 1 /\ (forall F, known n n F -> (forall w, 0 <= F w) -> 0 <= E F) /\
  forall k, (k < n)%nat ->
    (forall F g, known k k F -> E (fun w => F w * g (idx k w)) = E F * average (map g (tuples mb N))) /\
    (forall F, known (Datatypes.S k) k F -> forall i j, (i < d)%nat -> (j < d)%nat ->
       E (fun w => F w * z k w i) = 0 /\ E (fun w => F w * (z k w i * z k w j)) = E F * unit_matrix i j).
End Known.

(** f is the quadratic function c + b . x - x . H x / 2 with a symmetric matrix H: the logarithm of a Gaussian density with precision matrix H *)
(** auxiliary definition of a statement or a proof; models no code of /repo *)
Definition quadratic (s : vtree) (f : vtree -> R) (c : R) (b : nat -> R) (H : nat -> nat -> R) : Prop :=
  (forall i j, (i < dim s)%nat -> (j < dim s)%nat -> H i j = H j i) /\
  forall x, like s x -> f x = c + sum_upto (dim s) (fun i => b i * el x i) - sum_upto (dim s) (fun i => el x i * sum_upto (dim s) (fun j => H i j * el x j)) / 2.

(** mean and covariance of f and g over the N observations *)
(** auxiliary definition of a statement or a proof; models no code of /repo *)
Definition pop_mean (N : nat) (f : nat -> R) : R := sum_upto N f / INR N.
(** auxiliary definition of a statement or a proof; models no code of /repo *)
Definition pop_cov (N : nat) (f g : nat -> R) : R := sum_upto N (fun k => (f k - pop_mean N f) * (g k - pop_mean N g)) / INR N.

