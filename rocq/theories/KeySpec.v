(** Vocabulary of the statements about random keys (C40, C52). *)
From Verif Require Import Base Integrator.
Set Implicit Arguments.

(** x is k or was derived from k by any number of splits *)
Inductive below (k : key) : key -> Prop :=
| below_refl : below k k
| below_sub x i : below k x -> below k (Sub x i).
(** two different keys, none of which was derived from the other *)
Definition independent (a b : key) : Prop := ~ below a b /\ ~ below b a.
Definition pairwise_independent (l : list key) : Prop :=
  forall i j a b, i <> j -> nth_error l i = Some a -> nth_error l j = Some b -> independent a b.
