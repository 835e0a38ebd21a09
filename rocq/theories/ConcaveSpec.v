(** Specification for C89: log concave models. *)
From Coq Require Import Reals.
From Verif Require Import Base Pytree PytreeSpec Io TreeUtil TreeUtilSpec IntegratorSpec.
Open Scope R_scope.
Set Implicit Arguments.

(** squared euclidean distance of two pytrees like s *)
(** auxiliary definition of a statement or a proof; models no code of /repo *)
Definition distance2 (s x y : vtree) : R := sum_upto (dim s) (fun i => (el x i - el y i) * (el x i - el y i)).
(** the gradient g of a function belongs to a concave function, with modulus m: (g x - g y) . (x - y) <= - m |x - y|^2; m > 0: strongly concave *)
(** auxiliary definition of a statement or a proof; models no code of /repo *)
Definition concave_gradient (s : vtree) (g : vtree -> nat -> R) (m : R) : Prop :=
  forall x y, like s x -> like s y -> sum_upto (dim s) (fun i => (g x i - g y i) * (el x i - el y i)) <= - m * distance2 s x y.
(** the gradient g is Lipschitz continuous with constant L: |g x - g y| <= L |x - y| *)
(** auxiliary definition of a statement or a proof; models no code of /repo *)
Definition lipschitz_gradient (s : vtree) (g : vtree -> nat -> R) (L : R) : Prop :=
  forall x y, like s x -> like s y -> sum_upto (dim s) (fun i => (g x i - g y i) * (g x i - g y i)) <= L * L * distance2 s x y.
(** product of the numbers f 0, ..., f (n-1) *)
(** auxiliary definition of a statement or a proof; models no code of /repo *)
Fixpoint prod_upto (n : nat) (f : nat -> R) : R := match n with O => 1 | S n' => prod_upto n' f * f n' end.
