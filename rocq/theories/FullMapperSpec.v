(** Specification vocabulary for full_data_mapper. *)
From Verif Require Import Base NumpyLoader Requests LoaderSpec DataCore DataSpec FullMapper.
From Coq Require String.
Set Implicit Arguments.

Section Spec.
Context {G obs C R : Type}.

(** the arguments of the successful starts of a run, in order: the j-th entry belongs to call j *)
Fixpoint started (h : list (mop G obs C R)) (outs : list (mout obs C R)) : list (mapped obs C R * C) :=
  match h, outs with
  | MStart fn c :: h', MoStart (Ok _) :: outs' => (fn, c) :: started h' outs'
  | _ :: h', _ :: outs' => started h' outs'
  | _, _ => []
  end.

(** the chains used by the map calls that are currently executed *)
Definition active_chains (m : mapper G obs C R) : list nat :=
  flat_map (fun o => match o with Some rn => [cs_chain (rn_state rn)] | None => [] end) (m_run m).

(** other programs use the loader directly only for chains registered by themselves: never for a
    chain created by the mapper.  Stated on the run: an operation is [polite] if it does not get
    batches of, or load a state into, a chain the mapper holds. *)
Definition held_chains (m : mapper G obs C R) : list nat :=
  (match m_pool m with Some p => map (@cs_chain obs) p | None => [] end) ++ active_chains m.
Definition polite (m : mapper G obs C R) (o : mop G obs C R) : Prop :=
  match o with
  | MOther (WLoader (GetBatches c)) => ~ In c (held_chains m)
  | MOther (WLoader (LoadState c _)) => ~ In c (held_chains m)
  | MOther (WBatch k) => True
  | _ => True
  end.
Fixpoint all_polite (step : mapper G obs C R -> mop G obs C R -> mapper G obs C R * mout obs C R)
    (m : mapper G obs C R) (h : list (mop G obs C R)) : Prop :=
  match h with
  | [] => True
  | o :: h' => polite m o /\ all_polite step (fst (step m o)) h'
  end.
End Spec.
