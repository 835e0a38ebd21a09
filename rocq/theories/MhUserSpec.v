(** Vocabulary of C73: alias.amagold and alias.sggmc from the point of view of a user who provides a data set (in a host data loader), a log likelihood and a log prior.
    [hub_scan], [user_full_*] model what the solvers get from potential.full_potential and data.full_reference_data; [pass_indices], [pass_state], [full_posterior] are the specification. *)
From Coq Require Import Reals String.
From Verif Require Import Base Pytree PytreeSpec Io TreeUtil TreeUtilSpec Integrator IntegratorSpec NumpyLoader LoaderSpec DataCore DataSpec Hub HubSpec Potential PotentialSpec AliasData EndToEndSpec SourceReads.
Open Scope R_scope.
Set Implicit Arguments.

(** ** Model: full data map on a data state of a program *)
Section Map.
Context {G obs : Type}.
Variable choice_repl : G -> nat -> nat -> G * list nat.
Variable choice_perm : G -> nat -> G * list nat.
Variable rng_of_seed : nat -> G.
Notation source := (@loader_source G obs choice_repl choice_perm rng_of_seed).
Variables (N mb : nat).
(** batch_scan with masking=True, core.py:562-615, as DataCore.scan_body: n iterations from iteration it; the data state d is read once in every iteration *)
Fixpoint hub_scan {C Res} (fn : mbatch obs -> list bool -> C -> Res * C) (n it : nat) (d : lsource (G := G) (obs := obs)) (c : C) : lsource (G := G) (obs := obs) * (list Res * C) :=
  match n with
  | O => (d, ([], c))
  | S n' => let (d1, b) := source d in
            let (r, c1) := fn b (map_mask N mb it) c in
            let '(d2, (rs, c2)) := hub_scan fn n' (S it) d1 c1 in (d2, (r :: rs, c2))
  end.
Variables (prior : vtree -> R) (has_state : bool) (T : R).
Variable ev : nat -> vtree -> mbatch obs -> list bool -> option vtree -> res R * option vtree.
(** sum_batched_evaluations, potential.py:273-291, for the data state fd and the model state m *)
Definition user_full (x : vtree) (fd : lsource (G := G) (obs := obs)) (m : vtree) := hub_scan (ev N x) (num_iterations N mb) 0 fd (state_of has_state m).
(** its value, potential.py:287-291.  (An exception would end the program; 0 stands for it.) *)
Definition user_full_value (x : vtree) (fd : lsource (G := G) (obs := obs)) (m : vtree) : R :=
  match full_value prior T x (fst (snd (user_full x fd m))) with Ok v => v | Exc _ => 0 end.
(** the new data state, potential.py:280-283, 291 *)
Definition user_full_next (x : vtree) (fd : lsource (G := G) (obs := obs)) (m : vtree) : lsource (G := G) (obs := obs) := fst (user_full x fd m).
(** the new model state, potential.py:280-283, 291; the new state None replaces the old state None *)
Definition user_full_model (x : vtree) (fd : lsource (G := G) (obs := obs)) (m : vtree) : vtree :=
  match snd (snd (user_full x fd m)) with Some m' => m' | None => m end.
End Map.

(** ** Specification *)
Section Spec.
Variable obs : Type.
Variables (prior : vtree -> R) (likelihood : lik_fn obs vtree vtree) (has_state : bool) (T : R).
Variables (N mb : nat) (data : list (string * list obs)) (l : option vtree -> vtree -> orow obs -> R).
(** the k-th batch of a pass over the data in their order: observations k mb, k mb + 1, ...; the last batch is filled with the first observations *)
Definition pass_indices (k : nat) : list nat := map (fun j => ((k * mb + j) mod N)%nat) (seq 0 mb).
(** the model state after k batches of the pass *)
Definition pass_state (x : vtree) (k : nat) (m : vtree) : vtree := fold_left (fun m i => next_state likelihood has_state data x (pass_indices i) m) (seq 0 k) m.
(** the full potential: minus the log likelihoods of all N observations and the log prior, divided by the temperature; observation i sees the model state of its batch *)
Definition full_posterior (x : vtree) (m : vtree) : R :=
  (- sum_upto N (fun i => l (state_of has_state (pass_state x (i / mb) m)) x (row data i)) - prior x) / T.
(** the model state after the pass *)
Definition pass_end (x : vtree) (m : vtree) : vtree := pass_state x (ceil_div N mb) m.
End Spec.

(** the data states of a chain of alias.amagold or alias.sggmc in a program: d reads minibatches of mb observations drawn with replacement (random_reference_data), with the generator
    seeded by the id cid of its chain in the loader; fd reads the data in their order (full_reference_data).  The program may do anything else before, after and in between. *)
Definition mh_sources {G obs} (choice_repl : G -> nat -> nat -> G * list nat) (choice_perm : G -> nat -> G * list nat) (rng_of_seed : nat -> G)
    (datas : list (list (string * list obs))) (data : list (string * list obs)) (N mb cid : nat) (d fd : lsource (G := G) (obs := obs)) : Prop :=
  let step := @Hub.hstep G obs choice_repl choice_perm rng_of_seed in
  (exists hE ai k i ca, opened step datas rng_of_seed hE ai k i cid ca data N (RDraw mb (rng_of_seed cid)) /\ source_since choice_repl choice_perm rng_of_seed hE ai i k cid d) /\
  (exists hE ai k i cid' ca, opened step datas rng_of_seed hE ai k i cid' ca data N (ROrd mb) /\ source_since choice_repl choice_perm rng_of_seed hE ai i k cid' fd).
