(** Vocabulary of the statements about the adaption strategies (C44 - C47). *)
From Coq Require Import Reals.
From Verif Require Import Base Pytree Io TreeUtil TreeUtilSpec Xreal Adaption.
Open Scope R_scope.
Set Implicit Arguments.

(** exponentially weighted mean of the squares of a sequence of n numbers, started with 1 *)
Definition weighted_square (alpha : R) (g : nat -> R) (n : nat) : R := alpha ^ n + (1 - alpha) * sum_upto n (fun k => alpha ^ (n - 1 - k) * (g k * g k)).
(** mean of n numbers; sum of the products of the deviations of two sequences from their means *)
Definition seq_mean (n : nat) (f : nat -> R) : R := sum_upto n f / INR n.
Definition cross_dev (n : nat) (f g : nat -> R) : R := sum_upto n (fun k => (f k - seq_mean n f) * (g k - seq_mean n g)).
(** element i of the k-th tree of a history *)
Definition nth_el (h : list vtree) (k i : nat) : R := nth i (ravel (nth k h (Leaf (mkArr [] [])))) 0.
(** entries of a vector or matrix of extended numbers *)
Definition xentry (m : list (list xr)) (i j : nat) : xr := nth j (nth i m []) NaN.
(** eigenvalues and orthonormal eigenvectors (the columns of the matrix) of a symmetric matrix *)
Definition eigen_decomposition (n : nat) (a : list (list R)) (wv : list R * list (list R)) : Prop :=
  let (w, v) := wv in
  length w = n /\ square n v /\
  (forall i j, (i < n)%nat -> (j < n)%nat -> sum_upto n (fun k => entry v k i * entry v k j) = if (i =? j)%nat then 1 else 0) /\
  (forall i j, (i < n)%nat -> (j < n)%nat -> sum_upto n (fun k => entry v i k * entry v j k) = if (i =? j)%nat then 1 else 0) /\
  (forall i j, (i < n)%nat -> (j < n)%nat -> entry a i j = sum_upto n (fun k => entry v i k * nth k w 0 * entry v j k)).
Definition eigh_ok (eigh : list (list R) -> list R * list (list R)) : Prop :=
  forall n a, square n a -> (forall i j, (i < n)%nat -> (j < n)%nat -> entry a i j = entry a j i) -> eigen_decomposition n a (eigh a).
(** the gradient of the stochastic potential (- N * mean of the log likelihoods of the n observations - log prior) / temperature *)
Definition potential_gradient (N n : nat) (T : R) (grad_at : nat -> list R) (prior_grad : list R) (j : nat) : R :=
  (- INR N * seq_mean n (fun i => nth j (grad_at i) 0) - nth j prior_grad 0) / T.
(** unbiased sample covariance *)
Definition sample_cov (n : nat) (f g : nat -> R) : R := cross_dev n f g / (INR n - 1).

(** histories: a run of a strategy is its init followed by one update per element of the history *)
Definition rms_run (alpha lmbd : R) (x0 : vtree) (h : list (vtree * vtree)) : ad_state rms_st :=
  fold_left (fun st xg => rms_update st (fst xg) (snd xg)) h (rms_init x0 alpha lmbd).
Definition mm_run (eigh : list (list R) -> list R * list (list R)) (diagonal : bool) (burn_in : nat) (x0 : vtree) (cov : option vtree) (h : list vtree) : ad_state mm_st :=
  fold_left (mm_update eigh burn_in) h (mm_init diagonal x0 cov).
