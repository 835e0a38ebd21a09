(** Specification vocabulary for the sample collection (C19-C22). *)
From Coq Require Import String.
From Verif Require Import Base Pytree PytreeSpec Io.
Set Implicit Arguments.

(** the j-th leaf of every sample; a sample is given by the list of its leaves *)
Definition column {V} (j : nat) (vss : list (list V)) : list V :=
  flat_map (fun vs => match nth_error vs j with Some v => [v] | None => [] end) vss.

(** t holds the first K samples of vss, one per row, followed by zeros up to row K *)
Definition holds_samples {V} (zeros_like : V -> V) (sample : tree V) (K : nat) (vss : list (list V)) (t : tree (list V)) : Prop :=
  same_structure t sample /\
  forall j leaf, nth_error (leaves sample) j = Some leaf ->
    nth_error (leaves t) j = Some (column j (firstn K vss) ++ repeat (zeros_like leaf) (K - length vss)).

(** t holds exactly the samples vss, one per row *)
Definition exactly_samples {V} (ss : list (tree V)) (t : tree (list V)) : Prop :=
  Forall (fun s => same_structure t s) ss /\
  forall j, j < length (leaves t) -> nth_error (leaves t) j = Some (column j (map leaves ss)).

(** the samples that were kept, in order *)
Definition kept {V} (calls : list (bool * tree V)) : list (tree V) := map snd (filter fst calls).

(** the values saved for chain c during a history, in order *)
Definition saves_of {V} (c : nat) (h : list (mop V)) : list (list V) :=
  flat_map (fun o => match o with MSave c' vs => if c' =? c then [vs] else [] | _ => [] end) h.

(** JSON collector: the samples saved for chain c during a history *)
Definition jsaves_of {V} (c : nat) (h : list (jop V)) : list (tree V) :=
  flat_map (fun o => match o with JSave c' s => if c' =? c then [s] else [] | _ => [] end) h.
(** number of registered chains *)
Definition jchains {V} (h : list (jop V)) : nat :=
  length (filter (fun o => match o with JRegister => true | _ => false end) h).

(** the save calls of the chain with saving state i *)
Definition calls_of {V} (i : nat) (h : list (svop V)) : list (bool * tree V) :=
  flat_map (fun o => match o with SvSave i' keep s => if i' =? i then [(keep, s)] else [] | _ => [] end) h.
