(** Specification of the index streams of NumpyDataLoader, independent of the chain state
    machine: the k-th batch of a chain as a closed formula. *)
From Verif Require Import Base NumpyLoader.
From Coq Require String.
Set Implicit Arguments.

(** the entries of a batch whose mask is True, in order *)
Definition valid {A} (b : list A * list bool) : list A :=
  map fst (filter snd (combine (fst b) (snd b))).

Section Spec.
Context {G : Type}.
Variable choice_repl : G -> nat -> nat -> G * list nat.
Variable choice_perm : G -> nat -> G * list nat.

(** What is assumed about numpy's generator (numpy documentation of Generator.choice):
    drawing n of n without replacement gives a permutation, drawing k with replacement gives
    k values in range. *)
Definition perm_oracle : Prop := forall g n, Permutation (snd (choice_perm g n)) (seq 0 n).
Definition repl_oracle : Prop := forall g n k,
  length (snd (choice_repl g n k)) = k /\ (0 < n -> Forall (fun i => i < n) (snd (choice_repl g n k))).

(** e-th permutation that the generator [g] produces *)
Definition nth_perm (g : G) (N e : nat) : list nat :=
  snd (choice_perm (Nat.iter e (fun x => fst (choice_perm x N)) g) N).

(** i-th element of the concatenation of all these permutations (each has length N) *)
Definition perm_stream (g : G) (N i : nat) : nat := nth (i mod N) (nth_perm g N (i / N)) 0.

(** how a chain was registered *)
Inductive reg :=
| ROrd (mb : nat)
| RDraw (mb : nat) (g : G)
| RShuffle (mb : nat) (g : G)
| REpochs (mb : nat) (g : G).

Definition reg_mb (r : reg) : nat :=
  match r with ROrd mb | RDraw mb _ | RShuffle mb _ | REpochs mb _ => mb end.

(** the k-th batch (indices, mask) of a chain on N observations *)
Definition spec_batch (N : nat) (r : reg) (k : nat) : list nat * list bool :=
  match r with
  | ROrd mb =>
      let base := (k mod ceil_div N mb) * mb in
      (map (fun j => (base + j) mod N) (seq 0 mb), map (fun j => base + j <? N) (seq 0 mb))
  | RDraw mb g =>
      (snd (choice_repl (Nat.iter k (fun x => fst (choice_repl x N mb)) g) N mb), repeat true mb)
  | RShuffle mb g =>
      (map (fun j => perm_stream g N (k * mb + j)) (seq 0 mb), repeat true mb)
  | REpochs mb g =>
      let e := k / ceil_div N mb in
      let base := (k mod ceil_div N mb) * mb in
      (map (fun j => if base + j <? N then nth (base + j) (nth_perm g N e) 0 else 0) (seq 0 mb),
       map (fun j => base + j <? N) (seq 0 mb))
  end.

End Spec.
Arguments reg : clear implicits.

(** ** What a client of the loader observes *)

(** the observations with the given indices (out-of-range indices would be dropped; the
    theorems show that this never happens because every batch has full length) *)
Definition select {A} (a : list A) (idx : list nat) : list A :=
  flat_map (fun i => match nth_error a i with Some x => [x] | None => [] end) idx.

Section Client.
Context {G obs : Type}.
Variable choice_repl : G -> nat -> nat -> G * list nat.
Variable choice_perm : G -> nat -> G * list nat.

(** the n-th answer to get_batches of a chain with registration [r] and cache size [cache] *)
Definition chain_output (data : list (String.string * list obs)) (N : nat) (r : reg G)
    (cache n : nat) : res (list (String.string * list (list obs)) * list (list bool)) :=
  if cache =? 0 then Exc ValueError
  else
    let bs := map (spec_batch choice_repl choice_perm N r) (seq (n * cache) cache) in
    Ok (map (fun ka => (fst ka, map (fun b => select (snd ka) (fst b)) bs)) data, map snd bs).

(** the stream of (batch, mask) that the successive answers contain for the i-th array *)
Definition batches_of {K A B : Type} (i : nat) (outs : list (res (list (K * list A) * list B)))
  : list (A * B) :=
  flat_map (fun o => match o with
                     | Ok (d, m) => match nth_error d i with
                                    | Some (_, rows) => combine rows m
                                    | None => [] end
                     | Exc _ => [] end) outs.

(** the answers to get_batches(cid) in a run *)
Fixpoint gets {L : Type} (cid : nat) (ops : list (lop L)) (outs : list (lout obs))
  : list (res (batches obs)) :=
  match ops, outs with
  | GetBatches c :: ops', OBatch r :: outs' =>
      if c =? cid then r :: gets cid ops' outs' else gets cid ops' outs'
  | _ :: ops', _ :: outs' => gets cid ops' outs'
  | _, _ => []
  end.

(** number of get_batches(cid) calls *)
Fixpoint num_gets {L : Type} (cid : nat) (ops : list (lop L)) : nat :=
  match ops with
  | [] => 0
  | GetBatches c :: ops' => (if c =? cid then 1 else 0) + num_gets cid ops'
  | _ :: ops' => num_gets cid ops'
  end.

(** the history never loads a checkpoint into chain cid *)
Definition no_load {L : Type} (cid : nat) (ops : list (lop L)) : Prop :=
  forall ck, ~ In (LoadState cid ck) ops.

(** checkpoints that save_state can produce: the saved entry 'type' of the random variant is
    'random' (numpy_loader.py:202-204) *)
Definition ckpt_wf (ck : ckpt G) : Prop :=
  match ck with CkRandom g d => c_type d = Random | CkOrdered _ => True end.
(** only such checkpoints are loaded in the history *)
Definition loads_wf (ops : list (lop G)) : Prop :=
  forall cid ck, In (LoadState cid ck) ops -> ckpt_wf ck.

Variable rng_of_seed : nat -> G.

(** the stream that belongs to the arguments of register_random_pipeline *)
Definition reg_random (mb : nat) (in_epochs shuffle : bool) (seed : nat) : reg G :=
  if in_epochs then REpochs mb (rng_of_seed seed)
  else if shuffle then RShuffle mb (rng_of_seed seed) else RDraw mb (rng_of_seed seed).

(** a successful registration call of either kind, with the stream it must produce *)
Inductive registered (l : loader G obs) (ca : nat) (r : reg G) (l' : loader G obs) (cid : nat) : Prop :=
| RegdOrd mb : r = ROrd mb -> register_ordered l ca mb = (l', Ok cid) -> registered l ca r l' cid
| RegdRand mb ie sh sd :
    r = reg_random mb ie sh (match sd with Some s => s | None => cid end) ->
    register_random rng_of_seed l ca mb ie sh sd = (l', Ok cid) -> registered l ca r l' cid.

(** client-side view of one chain: the list of (batch, mask) pairs of array i that the
    get_batches(cid) calls of history h return *)
Definition client_batches (i cid : nat) (l : loader G obs) (h : list (lop G)) : list (list obs * list bool) :=
  batches_of i (gets cid h (snd (run (lstep choice_repl choice_perm rng_of_seed) l h))).
End Client.

(** the mask pattern of a padded pass of N observations in batches of mb: only the last batch of
    each pass is padded, at its end *)
Definition padded_mask (N mb k : nat) : list bool :=
  let C := ceil_div N mb in
  if k mod C =? C - 1 then repeat true (N - (C - 1) * mb) ++ repeat false (C * mb - N)
  else repeat true mb.
