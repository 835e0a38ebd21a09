(** Model of jax_sgmc/data/tensorflow_loader.py (class TensorflowDataLoader) and of the random data
    access of jax_sgmc/data/core.py on top of it.

    The tensorflow pipeline operations are modelled from their documentation:
    - the data set is a sequence of N elements, element i is a dictionary {name : column i};
    - [repeat()] is the endless repetition of the data set: element i of the stream is i mod N;
    - [shuffle(B)] keeps a buffer of B elements; every request hands out an arbitrary element of
      the buffer and replaces it by the next element of its input;
    - [batch(m)] stacks m successive elements (the stream is endless, so every batch is full);
    - [iter]/[next] deliver successive elements.
    The choice of the buffer element is an arbitrary function [pick] of the chain and of the
    position in the stream, i.e. every behaviour of tensorflow's generator is covered.

    Simplifications: sizes are positive naturals (tensorflow rejects zero sizes; the data access
    functions of core.py reject them before); dtypes and the conversion to jax arrays are not
    modelled; device_count = 1. *)
From Coq Require String.
From Verif Require Import Base Requests DataCore.
Set Implicit Arguments.

Section Tf.
Context {obs : Type}.
Notation string := String.string.
Variable pick : nat -> nat -> nat.

(** one iterator of [self._pipelines] (tensorflow_loader.py:108-118) *)
Record tchain := mkTc {
  tc_buf : list nat;    (* shuffle buffer: indices of observations *)
  tc_taken : nat;       (* number of elements taken from the repeated data set *)
  tc_ca : nat;          (* argument of the second batch *)
  tc_mb : nat }.        (* argument of the first batch *)

(** the loader object (tensorflow_loader.py:63-82) *)
Record tloader := mkTl {
  tl_columns : list (string * (nat -> obs));   (* self._pipeline *)
  tl_count : nat;                              (* self._observation_count *)
  tl_exclude : list string;                    (* self._exclude_keys *)
  tl_buffer : nat;                             (* self._shuffle_cache *)
  tl_chains : list tchain }.                   (* self._pipelines *)

(** tensorflow_loader.py:63-82 *)
Definition tl_new columns N exclude B : tloader := mkTl columns N exclude B [].

(** [register_random_pipeline], tensorflow_loader.py:84-120; [extra] tells whether additional
    keyword arguments are passed (the assertion in lines 100-101).  The buffer is filled here; in
    tensorflow it is filled by the first [next], which is not observable. *)
Definition tf_register (l : tloader) (ca mb : nat) (extra : bool) : tloader * res nat :=
  if extra then (l, Exc AssertionError)
  else
    let new_chain_id := length (tl_chains l) in
    let B := tl_buffer l in
    let c := mkTc (map (fun i => i mod tl_count l) (seq 0 B)) B ca mb in
    (mkTl (tl_columns l) (tl_count l) (tl_exclude l) (tl_buffer l) (tl_chains l ++ [c]),
     Ok new_chain_id).

(** [register_ordered_pipeline], tensorflow_loader.py:122-137 *)
Definition tf_register_ordered (l : tloader) (ca mb : nat) : tloader * res nat :=
  (l, Exc NotImplementedError).

(** one element of [repeat().shuffle(B)] *)
(** tensorflow_loader.py:107-108 *)
Definition tf_draw (N id : nat) (c : tchain) : tchain * nat :=
  let i := pick id (tc_taken c) mod length (tc_buf c) in
  (mkTc (upd (tc_buf c) i (tc_taken c mod N)) (S (tc_taken c)) (tc_ca c) (tc_mb c),
   nth i (tc_buf c) 0).

(** [next(iterator)]: ca batches of mb elements (lines 112-113, 155) *)
Definition tf_next (N id : nat) (c : tchain) : tchain * list (list nat) :=
  iter_out (iter_out (tf_draw N id) (tc_mb c)) (tc_ca c) c.

(** [for key in self._exclude_keys: del numpy_batch[key]], lines 156-158 *)
Definition del_key {V} (k : string) (d : list (string * V)) : res (list (string * V)) :=
  if existsb (fun kv => String.eqb (fst kv) k) d
  then Ok (filter (fun kv => negb (String.eqb (fst kv) k)) d)
  else Exc KeyError.
(** tensorflow_loader.py:155-157 *)
Fixpoint del_keys {V} (ks : list string) (d : list (string * V)) : res (list (string * V)) :=
  match ks with
  | [] => Ok d
  | k :: ks' => let* d' := del_key k d in del_keys ks' d'
  end.

Notation tbatches := (list (string * list (list obs))).

(** [get_batches], tensorflow_loader.py:139-160; the second component of the result is always None
    (line 160) and is left out. *)
Definition tf_get (l : tloader) (id : nat) : tloader * res tbatches :=
  match nth_error (tl_chains l) id with
  | None => (l, Exc IndexError)
  | Some c =>
      let (c', idx) := tf_next (tl_count l) id c in
      let numpy_batch := map (fun kf => (fst kf, map (map (snd kf)) idx)) (tl_columns l) in
      (mkTl (tl_columns l) (tl_count l) (tl_exclude l) (tl_buffer l) (upd (tl_chains l) id c'),
       del_keys (tl_exclude l) numpy_batch)
  end.

(** ** Random data access on a tensorflow loader, core.py *)
Notation requests := (rstate tloader tbatches).

(** [_data_state_helper] with [get_data], core.py:681-733: a missing mask is replaced by ones
    (lines 688-691) *)
Definition tf_refresh (r : requests) (mb : nat) (cs : cstate obs) (strict : bool)
  : requests * res (cstate obs) :=
  if cs_line cs =? cs_count cs then
    match request tf_get r (cs_chain cs) (cs_token cs) 1 strict with
    | (r', Ok (data, tok)) =>
        (r', Ok (mkC data (cs_count cs) 0 (cs_chain cs) (repeat (repeat true mb) (cs_count cs)) tok))
    | (r', Exc e) => (r', Exc e)
    end
  else (r, Ok cs).

(** [batch_fn], core.py:736-790 *)
Definition tf_batch_fn (r : requests) (mb : nat) (cs : cstate obs) (strict : bool)
  : requests * res (cstate obs * mbatch obs) :=
  let (r', o) := tf_refresh r mb cs strict in
  (r', let* cs1 := o in
       let line := cs_line cs1 mod cs_count cs1 in
       let* mini_batch := tree_index (cs_data cs1) line in
       let* mask := jindex (cs_valid cs1) line in
       Ok (mkC (cs_data cs1) (cs_count cs1) (line + 1) (cs_chain cs1) (cs_valid cs1) (cs_token cs1),
           (mini_batch, mask))).

(** a data access: state, batch size and verify_calls (closure variables of the batch function) *)
(** core.py:736-791, 812-835 *)
Record tclient := mkTcl { tcl_state : cstate obs; tcl_mb : nat; tcl_strict : bool }.
(** core.py:406-413, 794-835 *)
Record tworld := mkTw { tw_req : requests; tw_clients : list tclient }.

(** assignment of the state of the loader (core.py:411) *)
Definition tf_with_loader (r : requests) (l : tloader) : requests :=
  mkR (r_cached r) (r_current r) (r_fresh r) l.
(** core.py:408-413 *)
Definition tw_init (l : tloader) : tworld := mkTw (requests_init l) [].

(** [random_reference_data(loader, ca, mb, strict)] (core.py:499-513) and the returned
    [init_fn(extra kwargs)] (core.py:812-830) *)
Definition tf_random_init (w : tworld) (ca mb : nat) (extra strict : bool) : tworld * res nat :=
  let l := r_loader (tw_req w) in
  if tl_count l <? mb then (w, Exc ValueError)
  else if (ca =? 0) || (mb =? 0) then (w, Exc ValueError)
  else match tf_register l ca mb extra with
       | (l', Exc e) => (mkTw (tf_with_loader (tw_req w) l') (tw_clients w), Exc e)
       | (l', Ok cid) =>
           match tf_get l' cid with
           | (l'', Exc e) => (mkTw (tf_with_loader (tw_req w) l'') (tw_clients w), Exc e)
           | (l'', Ok data) =>
               let k := length (tw_clients w) in
               (mkTw (tf_with_loader (tw_req w) l'')
                     (tw_clients w ++
                      [mkTcl (mkC data ca 0 cid (repeat (repeat true mb) ca) (TInit k)) mb strict]),
                Ok k)
           end
       end.

(** [full_reference_data(loader, ca, mb)] and its [init_fn()], core.py:541-560, 886-904 *)
Definition tf_full_init (w : tworld) (ca mb : nat) : tworld * res nat :=
  let l := r_loader (tw_req w) in
  if tl_count l <? mb then (w, Exc ValueError)
  else if mb =? 0 then (w, Exc ZeroDivisionError)
  else let (l', o) := tf_register_ordered l ca mb in
       (mkTw (tf_with_loader (tw_req w) l') (tw_clients w), o).

(** one call of the batch function of access k *)
(** core.py:736-791 *)
Definition tf_client_batch (w : tworld) (k : nat) : tworld * res (mbatch obs) :=
  match nth_error (tw_clients w) k with
  | None => (w, Exc KeyError)
  | Some cl =>
      match tf_batch_fn (tw_req w) (tcl_mb cl) (tcl_state cl) (tcl_strict cl) with
      | (r', Exc e) => (mkTw r' (tw_clients w), Exc e)
      | (r', Ok (cs', b)) =>
          (mkTw r' (upd (tw_clients w) k (mkTcl cs' (tcl_mb cl) (tcl_strict cl))), Ok b)
      end
  end.

(** what a program can do with the loader, directly or through core.py *)
Inductive top :=
| TRandom (ca mb : nat) (extra strict : bool)
| TFull (ca mb : nat)
| TBatch (k : nat)
| TRegister (ca mb : nat) (extra : bool)
| TGet (c : nat).

(** results of core.py:477-628 and tensorflow_loader.py:138-159 *)
Inductive tout := ToInit (r : res nat) | ToBatch (r : res (mbatch obs)) | ToGet (r : res tbatches).

(** core.py:477-628, tensorflow_loader.py:84-159 *)
Definition tstep (w : tworld) (o : top) : tworld * tout :=
  match o with
  | TRandom ca mb ex st => let (w', r) := tf_random_init w ca mb ex st in (w', ToInit r)
  | TFull ca mb => let (w', r) := tf_full_init w ca mb in (w', ToInit r)
  | TBatch k => let (w', r) := tf_client_batch w k in (w', ToBatch r)
  | TRegister ca mb ex =>
      let (l', r) := tf_register (r_loader (tw_req w)) ca mb ex in
      (mkTw (tf_with_loader (tw_req w) l') (tw_clients w), ToInit r)
  | TGet c =>
      let (l', r) := tf_get (r_loader (tw_req w)) c in
      (mkTw (tf_with_loader (tw_req w) l') (tw_clients w), ToGet r)
  end.
End Tf.
Arguments tloader : clear implicits.
Arguments tworld : clear implicits.
Arguments tout : clear implicits.
