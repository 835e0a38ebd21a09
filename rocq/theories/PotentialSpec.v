(** Vocabulary of the statements about the potentials (C41, C42, C43). *)
From Coq Require Import String Reals.
From Verif Require Import Base Pytree Io TreeUtil TreeUtilSpec Integrator DataCore DataSpec LoaderSpec Potential.
Open Scope R_scope.
Set Implicit Arguments.

Section Spec.
Variables (obs Sample State : Type).
(** the log likelihood of one observation is l; a batched likelihood returns a vector (or a column) with the log likelihoods of all
    observations of the batch *)
Definition evaluates (likelihood : lik_fn obs Sample State) (l : Sample -> orow obs -> R) : Prop :=
  match likelihood with
  | Single f => forall s x r, fst (f s x r) = l x r
  | Batched f => forall s x d n, d <> [] -> (forall ka, In ka d -> length (snd ka) = n) ->
      (fst (fst (f s x d)) = [n] \/ fst (fst (f s x d)) = [n; 1%nat]) /\ snd (fst (f s x d)) = map (fun j => l x (row d j)) (seq 0 n)
  end.
(** the state is used as documented: none without has_state; a stateful likelihood returns a new state *)
Definition state_fits (likelihood : lik_fn obs Sample State) (has_state : bool) (state : option State) : Prop :=
  match likelihood with
  | Single f => if has_state then forall s x r, snd (f (Some s) x r) <> None else state = None
  | Batched f => True
  end.
(** b is a batch of n observations *)
Definition batch_of (b : mbatch obs) (n : nat) : Prop :=
  length (snd b) = n /\ fst b <> [] /\ forall ka, In ka (fst b) -> length (snd ka) = n.
(** the posterior potential of a data set of N observations *)
Definition posterior_potential (prior : Sample -> R) (l : Sample -> orow obs -> R) (temperature : R) (data : list (string * list obs)) (N : nat) (x : Sample) : R :=
  (- sum_upto N (fun j => l x (row data j)) - prior x) / temperature.
End Spec.

(** all index tuples of length n below N: the equally likely results of drawing n of N observations with replacement *)
Fixpoint tuples (n N : nat) : list (list nat) :=
  match n with O => [[]] | S n' => flat_map (fun i => map (cons i) (tuples n' N)) (seq 0 N) end.
(** the batch of the observations with the given indices *)
Definition batch_at {obs} (data : list (string * list obs)) (idx : list nat) : mbatch obs :=
  (map (fun ka => (fst ka, select (snd ka) idx)) data, repeat true (length idx)).
(** the values of a stochastic potential on some batches *)
Definition values {obs Sample State} (pot : nat -> Sample -> mbatch obs -> option State -> option (list bool) -> res (R * list R * option State))
    (N : nat) (x : Sample) (state : option State) (bs : list (mbatch obs)) (vs : list R) : Prop :=
  Forall2 (fun b v => exists lks new, pot N x b state None = Ok (v, lks, new)) bs vs.
Definition average (vs : list R) : R := rsum vs / INR (length vs).
