(** Specification vocabulary for arrays and batches of arrays (C60). *)
From Coq Require Import String.
From Verif Require Import Base NumpyLoader LoaderSpec DataCore ArrayData.
Set Implicit Arguments.

(** an array has as many elements as its shape says *)
Definition is_array {V} (a : nd V) : Prop := length (nd_data a) = prod (nd_shape a).

(** the history never restores a checkpoint of a loader chain *)
Definition no_loads {G} (h : list (wop G)) : Prop := forall cid ck, ~ In (WLoader (LoadState cid ck)) h.

Section Spec.
Context {G V : Type}.
Variable choice_repl : G -> nat -> nat -> G * list nat.
Variable choice_perm : G -> nat -> G * list nat.
Variable rng_of_seed : nat -> G.
Variable x64 : bool.
Variable cast : dtype -> V -> V.

(** creating a data access when the loader has [n] chains: the stream it must deliver, its batch
    size and cache size *)
Inductive creates (n : nat) : wop G -> reg G -> nat -> nat -> Prop :=
| CrRandom ca mb ie sh sd st :
    creates n (WRandom ca mb ie sh sd st)
      (reg_random rng_of_seed mb ie sh (match sd with Some s => s | None => n end)) mb ca
| CrFull ca mb : creates n (WFull ca mb) (ROrd mb) mb ca.

(** the answers to the batch calls of access k in a run *)
Fixpoint abatch_answers (k : nat) (h : list (wop G)) (outs : list (awout V)) : list (res (abatch V)) :=
  match h, outs with
  | WBatch k' :: h', AwBatch r :: outs' =>
      if k' =? k then r :: abatch_answers k h' outs' else abatch_answers k h' outs'
  | _ :: h', _ :: outs' => abatch_answers k h' outs'
  | _, _ => []
  end.

(** the array a[idx]: one observation after the other, converted to the dtype jax uses *)
Definition batch_array (a : nd V) (idx : list nat) : nd V :=
  let d := canonical x64 (nd_dtype a) in
  mkNd d (length idx :: tl (nd_shape a)) (map (cast d) (flat_map (nd_obs a) idx)).

(** batch i of stream r on N observations *)
Definition expected_batch (data : list (string * nd V)) (N : nat) (r : reg G) (i : nat) : abatch V :=
  let (idx, mask) := spec_batch choice_repl choice_perm N r i in
  mkAB (map (fun ka => (fst ka, batch_array (snd ka) idx)) data) N (length idx)
       (mkNd DBool [length mask] mask).
End Spec.
