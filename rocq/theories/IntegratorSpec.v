(** Vocabulary of the statements about the integrators. *)
From Coq Require Import Reals.
From Verif Require Import Base Pytree PytreeSpec Io TreeUtil TreeUtilSpec Integrator.
Open Scope R_scope.
Set Implicit Arguments.

(** t is a pytree of arrays with the structure and shapes of s *)
Definition like (s t : vtree) : Prop := wfv t /\ same_shape t s.
(** [random.normal] returns an array of the requested shape *)
Definition normal_ok (normal : key -> list nat -> list R) : Prop := forall k sh, length (normal k sh) = size sh.
(** the random vector that is drawn for a tree like t with key k: leaf j is drawn with the j-th split of k *)
Definition xi (normal : key -> list nat -> list R) (k : key) (t : vtree) (i : nat) : R :=
  nth i (flat_map (fun jsh => normal (Sub k (fst jsh)) (snd jsh)) (combine (seq 0 (length (leaves t))) (map ashape (leaves t)))) 0.
(** product of the matrix given by a tensor with a vector of n elements *)
Definition mulv (m : tensor) (n : nat) (v : nat -> R) (i : nat) : R := sum_upto n (fun j => tens_entry m i j * v j).
(** variance of the elements of a list: the mean of the squared deviations from the mean *)
Definition population_variance (l : list R) : R :=
  let n := length l in
  let m := sum_upto n (fun i => nth i l 0) / INR n in
  sum_upto n (fun i => (nth i l 0 - m)^2) / INR n.
(** n-th key of the chain k, split(k)[0], split(split(k)[0])[0], ... *)
Fixpoint chain (k : key) (n : nat) : key := match n with O => k | S n' => Sub (chain k n') 0 end.
(** state of the data source after n batches, and the n-th batch *)
Fixpoint drawn {Data Batch} (get_data : Data -> Data * Batch) (d : Data) (n : nat) : Data :=
  match n with O => d | S n' => fst (get_data (drawn get_data d n')) end.
Definition batch_no {Data Batch} (get_data : Data -> Data * Batch) (d : Data) (n : nat) : Batch := snd (get_data (drawn get_data d n)).
