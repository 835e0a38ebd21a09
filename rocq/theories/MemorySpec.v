(** Specification vocabulary for the memory of NumpyDataLoader (C68): the same operations on a loader without references - a loader is a value, a checkpoint is a value. *)
From Verif Require Import Base NumpyLoader MemoryLoader.
From Coq Require String.
Set Implicit Arguments.
Section Spec.
Context {G obs : Type}.
Variable choice_repl : G -> nat -> nat -> G * list nat.
Variable choice_perm : G -> nat -> G * list nat.
Variable rng_of_seed : nat -> G.
(** loader and the contents of the checkpoints; writes to arrays of the user do not exist for this loader *)
Definition value_state := (loader G obs * list (option (ckpt G)))%type.
Definition value_step (s : value_state) (o : mop obs) : value_state * mout obs :=
  let (l, cks) := s in
  match o with
  | MNew _ | MWrite _ _ _ => (s, UNone)
  | MRegRandom ca mb ie sh sd => let (l', r) := register_random rng_of_seed l ca mb ie sh sd in ((l', cks), UReg r)
  | MRegOrdered ca mb => let (l', r) := register_ordered l ca mb in ((l', cks), UReg r)
  | MGet cid => let (l', r) := get_batches choice_repl choice_perm l cid in ((l', cks), UBatch r)
  | MSave cid => match save_state l cid with Ok ck => ((l, cks ++ [Some ck]), USaved (Ok (length cks))) | Exc e => (s, USaved (Exc e)) end
  | MShallow d | MDeep d => match nth_error cks d with Some ck => ((l, cks ++ [ck]), USaved (Ok (length cks))) | None => (s, USaved (Exc IndexError)) end
  | MLoad cid d => match nth_error cks d with
                   | None => (s, ULoaded (Exc IndexError))
                   | Some ck => let '((l', ck'), r) := load_state l cid ck in ((l', upd cks d ck'), ULoaded r)
                   end
  end.
(** no dictionary is copied with dict() *)
Definition no_shallow (h : list (mop obs)) : Prop := forall d, ~ In (MShallow d) h.
(** all writes go to arrays not in A *)
Definition writes_outside (A : list nat) (h : list (mop obs)) : Prop := forall a i v, In (MWrite a i v) h -> ~ In a A.
End Spec.
