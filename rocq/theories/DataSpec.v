(** Specification vocabulary for the data access functions of data/core.py. *)
From Verif Require Import Base NumpyLoader Requests LoaderSpec DataCore.
From Coq Require String.
Set Implicit Arguments.

Section Spec.
Context {G obs : Type}.
Variable choice_repl : G -> nat -> nat -> G * list nat.
Variable choice_perm : G -> nat -> G * list nat.

(** the n-th batch of a chain, over all arrays of the data set *)
Definition access_batch (data : list (String.string * list obs)) (N : nat) (r : reg G) (n : nat) : mbatch obs :=
  let b := spec_batch choice_repl choice_perm N r n in
  (map (fun ka => (fst ka, select (snd ka) (fst b))) data, snd b).

(** the answers to the batch calls of access k in a run *)
Fixpoint wouts (k : nat) (h : list (wop G)) (outs : list (wout obs)) : list (res (mbatch obs)) :=
  match h, outs with
  | WBatch k' :: h', WoBatch r :: outs' => if k' =? k then r :: wouts k h' outs' else wouts k h' outs'
  | _ :: h', _ :: outs' => wouts k h' outs'
  | _, _ => []
  end.

Fixpoint num_batches (k : nat) (h : list (wop G)) : nat :=
  match h with
  | [] => 0
  | WBatch k' :: h' => (if k' =? k then 1 else 0) + num_batches k h'
  | _ :: h' => num_batches k h'
  end.

(** nobody uses chain cid directly through the loader *)
Definition hands_off (cid : nat) (h : list (wop G)) : Prop :=
  forall op, In (WLoader op) h ->
    (forall c, op = GetBatches c -> c <> cid) /\ (forall c ck, op = LoadState c ck -> c <> cid).

(** nobody draws batches through access k *)
Definition not_used (k : nat) (h : list (wop G)) : Prop := ~ In (WBatch k) h.

(** a successful creation of a data access: which stream it must deliver and with which cache *)
Inductive accesses (w : world G obs) (rng_of_seed : nat -> G) : wop G -> reg G -> nat -> Prop :=
| AccRandom ca mb ie sh sd st :
    accesses w rng_of_seed (WRandom ca mb ie sh sd st)
      (reg_random rng_of_seed mb ie sh (match sd with Some s => s | None => length (l_chains (w_loader w)) end)) ca
| AccFull ca mb : accesses w rng_of_seed (WFull ca mb) (ROrd mb) ca.

(** per-array view of a batch *)
Definition array_batch (i : nat) (r : res (mbatch obs)) : option (list obs * list bool) :=
  match r with
  | Ok (d, m) => match nth_error d i with Some (_, a) => Some (a, m) | None => None end
  | Exc _ => None
  end.

(** ** mapping over the full data set *)

(** left-to-right fold that also collects the results: the meaning of lax.scan *)
Fixpoint scan_spec {X C R} (f : X -> C -> R * C) (xs : list X) (c : C) : list R * C :=
  match xs with
  | [] => ([], c)
  | x :: xs' => let (r, c1) := f x c in let (rs, c2) := scan_spec f xs' c1 in (r :: rs, c2)
  end.

(** one observation: the j-th entry of every array (None does not occur for j < N) *)
Definition row (data : list (String.string * list obs)) (j : nat) : list (String.string * option obs) :=
  map (fun ka => (fst ka, nth_error (snd ka) j)) data.

(** [bs] is one pass over the data in batches of mb: entry j of batch i is observation i*mb+j, for
    all arrays; the padding of the last batch is masked (and wraps around) *)
Definition is_pass (data : list (String.string * list obs)) (N mb : nat) (bs : list (mbatch obs)) : Prop :=
  length bs = ceil_div N mb /\
  forall i, i < ceil_div N mb -> exists b, nth_error bs i = Some b /\
    snd b = map (fun j => i * mb + j <? N) (seq 0 mb) /\
    map fst (fst b) = map fst data /\ (forall ka, In ka (fst b) -> length (snd ka) = mb) /\
    (forall j, j < mb -> row (fst b) j = row data ((i * mb + j) mod N)).

(** a function that treats the observations of a batch one by one *)
Definition pointwise {R C} (g : list (String.string * option obs) -> R) (mb : nat)
    (b : mbatch obs) (c : C) : list R * C := (map (fun j => g (row (fst b) j)) (seq 0 mb), c).

(** a reduction over the valid observations of a batch *)
Definition reduction {C} (op : C -> list (String.string * option obs) -> C) (mb : nat)
    (b : mbatch obs) (mask : list bool) (c : C) : unit * C :=
  (tt, fold_left (fun c j => if nth j mask false then op c (row (fst b) j) else c) (seq 0 mb) c).
End Spec.
