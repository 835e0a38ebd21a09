(** Specification for C90: independent batches and noise for a model that need not be Gaussian. *)
From Coq Require Import Reals.
From Verif Require Import Base Pytree PytreeSpec Io TreeUtil TreeUtilSpec IntegratorSpec PotentialSpec ExpectSpec ConcaveSpec.
Open Scope R_scope.
Set Implicit Arguments.

(** scalar product of vectors with d numbers *)
(** auxiliary definition of a statement or a proof; models no code of /repo *)
Definition dot (d : nat) (u v : nat -> R) : R := sum_upto d (fun i => u i * v i).
(** functions of the position: Lipschitz continuous functions, and sums of products of two such functions *)
(** auxiliary definition of a statement or a proof; models no code of /repo *)
Definition lipschitz (s : vtree) (a : vtree -> R) : Prop := exists C, 0 <= C /\ forall x y, like s x -> like s y -> (a x - a y) * (a x - a y) <= C * distance2 s x y.
(** auxiliary definition of a statement or a proof; models no code of /repo *)
Inductive square_fn (s : vtree) : (vtree -> R) -> Prop :=
| sq_prod a b : lipschitz s a -> lipschitz s b -> square_fn s (fun x => a x * b x)
| sq_plus f g : square_fn s f -> square_fn s g -> square_fn s (fun x => f x + g x)
| sq_ext f g : (forall x, like s x -> f x = g x) -> square_fn s f -> square_fn s g.
(** E is an expectation (for functions of these kinds of the position x k after k steps) for which in each of n steps the list idx k of the indices of the batch is uniformly
    distributed over all lists of mb of N observations and independent of the position, and the noise z k is centred, has unit variances and is uncorrelated
    with the functions of the position and the batch *)
(** auxiliary definition of a statement or a proof; models no code of /repo *)
Definition independent_steps {W : Type} (E : (W -> R) -> R) (s : vtree) (N mb n : nat) (x : nat -> W -> vtree) (idx : nat -> W -> list nat) (z : nat -> W -> nat -> R) : Prop :=
  expectation E /\ E (fun _ => 1) = 1 /\ forall k, (k < n)%nat ->
    (forall f, square_fn s f -> (forall x, like s x -> 0 <= f x) -> 0 <= E (fun w => f (x k w))) /\
    (forall F, (forall t, In t (tuples mb N) -> square_fn s (F t)) -> E (fun w => F (idx k w) (x k w)) = average (map (fun t => E (fun w => F t (x k w))) (tuples mb N))) /\
    (forall F i, (forall t, In t (tuples mb N) -> lipschitz s (F t)) -> (i < dim s)%nat -> E (fun w => F (idx k w) (x k w) * z k w i) = 0) /\
    (forall i, (i < dim s)%nat -> E (fun w => z k w i * z k w i) = 1).
(** one step from the deviation y with the gradient g of the whole posterior, the error h of the gradient of the batch and the noise z *)
(** auxiliary definition of a statement or a proof; models no code of /repo *)
Definition unbiased_gradient {W : Type} (E : (W -> R) -> R) (d : nat) (S1 S2 : R) (y g h z : W -> nat -> R) : Prop :=
  E (fun w => dot d (y w) (h w)) = 0 /\ E (fun w => dot d (g w) (h w)) = 0 /\
  E (fun w => dot d (y w) (z w)) = 0 /\ E (fun w => dot d (g w) (z w)) = 0 /\ E (fun w => dot d (h w) (z w)) = 0 /\
  E (fun w => dot d (z w) (z w)) = INR d /\
  E (fun w => dot d (h w) (h w)) <= S1 * E (fun w => dot d (y w) (y w)) + S2.
