(** Vocabulary of the statements about pytrees of arrays. *)
From Coq Require Import Reals.
From Verif Require Import Base Pytree PytreeSpec TreeUtil.
Open Scope R_scope.
Set Implicit Arguments.

(** an array has as many elements as its shape says *)
Definition wf_arr (x : arr) : Prop := length (adata x) = size (ashape x).
Definition wfv (t : vtree) : Prop := Forall wf_arr (leaves t).
(** the same tree structure and the same shapes at corresponding leaves *)
Definition same_shape (a b : vtree) : Prop := same_structure a b /\ map ashape (leaves a) = map ashape (leaves b).
(** number of elements *)
Definition dim (t : vtree) : nat := length (ravel t).
(** i-th element of a pytree seen as a vector *)
Definition el (t : vtree) (i : nat) : R := nth i (ravel t) 0.
(** entry of a matrix given by rows *)
Definition entry (m : list (list R)) (i j : nat) : R := nth j (nth i m []) 0.
(** a matrix with n rows and n columns *)
Definition square (n : nat) (m : list (list R)) : Prop := length m = n /\ Forall (fun r => length r = n) m.
(** finite sums *)
Definition sum_upto (n : nat) (f : nat -> R) : R := fold_right Rplus 0 (map f (seq 0 n)).
(** the elements of the matrix that a tensor of dimension 0, 1, 2 stands for *)
Definition tens_entry (m : tensor) (i j : nat) : R :=
  match m with
  | Tens0 a => if (i =? j)%nat then a else 0
  | Tens1 t => if (i =? j)%nat then el t i else 0
  | Tens2 m => entry m i j
  | TensN _ => 0
  end.
(** the tensor fits to vectors like v *)
Definition tens_fits (m : tensor) (v : vtree) : Prop :=
  match m with Tens0 _ => True | Tens1 t => same_shape t v /\ wfv t | Tens2 m => square (dim v) m | TensN _ => False end.
