(** Array-level model of the numpy host loader and of the data access functions: dtypes, shapes and
    the flat contents of every array.  DataCore.v models the same functions with an array as the
    list of its observations; ArrayProofs.v shows that this is an abstraction of the present model.

    Sources: numpy_loader.py:41-86 (construction, formats), 314-355 (get_batches);
    core.py:86-109 (initializer_batch), 210-238 (batch_format), 642-660 (tree_index),
    664-789 (_hcb_wrapper), 812-830 / 886-904 (init functions).

    Simplifications: array elements are values of a type [V]; [cast d v] is the conversion of an
    element to dtype d; dictionaries are association lists in insertion order; the dtypes are the
    numeric dtypes listed below; one data loader; device_count = 1. *)
From Coq Require Import String.
From Verif Require Import Base NumpyLoader Requests DataCore.
Set Implicit Arguments.

(** numpy dtypes (no code; used for `leaf.dtype`, core.py:103-106, 229-232) *)
Inductive dtype := DBool | DInt8 | DInt16 | DInt32 | DInt64 | DUInt8 | DUInt16 | DUInt32 | DUInt64
| DFloat16 | DFloat32 | DFloat64 | DComplex64 | DComplex128.

(** [jax.dtypes.canonicalize_dtype]: without x64 support the 64 bit types are replaced *)
(** jax.dtypes.canonicalize_dtype, core.py:700 *)
Definition canonical (x64 : bool) (d : dtype) : dtype :=
  if x64 then d else
  match d with
  | DInt64 => DInt32 | DUInt64 => DUInt32 | DFloat64 => DFloat32 | DComplex128 => DComplex64
  | _ => d
  end.

(** an array: dtype, shape, contents in row-major order *)
(** numpy and jax arrays (no code) *)
Record nd (V : Type) := mkNd { nd_dtype : dtype; nd_shape : list nat; nd_data : list V }.
Arguments mkNd {V}.

(** number of elements of a shape (no code) *)
Definition prod (s : list nat) : nat := fold_right Nat.mul 1 s.

(** dtype and shape without contents: [jax.ShapeDtypeStruct] *)
(** jax.ShapeDtypeStruct (core.py:229-232, numpy_loader.py:75-78) *)
Definition struct := (dtype * list nat)%type.
(** core.py:632-639 *)
Definition nd_struct {V} (a : nd V) : struct := (nd_dtype a, nd_shape a).

(** comparison of dtypes (no code) *)
Definition dtype_eq_dec (a b : dtype) : {a = b} + {a <> b}. Proof. decide equality. Defined.
(** comparison of jax.ShapeDtypeStruct (no code; done by host_callback, core.py:698-712) *)
Definition struct_eq_dec (a b : struct) : {a = b} + {a <> b}.
Proof. repeat decide equality. Defined.
(** pytree of jax.ShapeDtypeStruct (numpy_loader.py:70-78) *)
Definition format := list (string * struct).
(** comparison of pytrees of jax.ShapeDtypeStruct (no code; done by host_callback, core.py:698-712) *)
Definition format_eq_dec (a b : format) : {a = b} + {a <> b}.
Proof. apply list_eq_dec. intros x y. decide equality; [apply struct_eq_dec|apply string_dec]. Defined.

(** observation i of an array: the sub-array [a[i, ...]], as the list of its elements *)
(** no code; describes the numpy indexing in numpy_loader.py:332-339 *)
Definition nd_obs {V} (a : nd V) (i : nat) : list V :=
  let p := prod (tl (nd_shape a)) in slice (nd_data a) (i * p) ((i + 1) * p).

(** numpy [a[idx]] with an integer array [idx] given by its shape and its entries: the shape of idx
    replaces the leading axis; IndexError if an entry is out of range or [a] is 0-dimensional. *)
(** numpy_loader.py:332-339 *)
Definition np_take {V} (a : nd V) (ishape : list nat) (idx : list nat) : res (nd V) :=
  match nd_shape a with
  | [] => Exc IndexError
  | n :: sh =>
      if forallb (fun i => i <? n) idx
      then Ok (mkNd (nd_dtype a) (ishape ++ sh) (flat_map (nd_obs a) idx))
      else Exc IndexError
  end.

(** [onp.array(rows)] of a list of index vectors: ValueError if their lengths differ *)
(** numpy_loader.py:330-339 *)
Definition np_stack {A} (rows : list (list A)) : res (list nat * list A) :=
  match rows with
  | [] => Ok ([0], [])
  | r0 :: _ =>
      if forallb (fun r => length r =? length r0) rows
      then Ok ([length rows; length r0], concat rows)
      else Exc ValueError
  end.

(** jax [a[i]] / [a[i, ::]] on the leading axis (core.py:653-659): clamped index; indexing a
    0-dimensional array or an empty axis is an error *)
Definition jax_index {V} (a : nd V) (i : nat) : res (nd V) :=
  match nd_shape a with
  | [] => Exc IndexError
  | 0 :: _ => Exc IndexError
  | n :: sh => Ok (mkNd (nd_dtype a) sh (nd_obs a (Nat.min i (n - 1))))
  end.

(** [tree_index], core.py:642-660 *)
Fixpoint nd_tree_index {V} (t : list (string * nd V)) (i : nat) : res (list (string * nd V)) :=
  match t with
  | [] => Ok []
  | (k, a) :: t' => let* x := jax_index a i in let* xs := nd_tree_index t' i in Ok ((k, x) :: xs)
  end.

(** core.py:632-639 *)
Definition format_of {V} (t : list (string * nd V)) : format := map (fun ka => (fst ka, nd_struct (snd ka))) t.

Section Arrays.
Context {G V : Type}.
Variable choice_repl : G -> nat -> nat -> G * list nat.
Variable choice_perm : G -> nat -> G * list nat.
Variable rng_of_seed : nat -> G.
Variable x64 : bool.                 (* jax_enable_x64 *)
Variable cast : dtype -> V -> V.
Variable zero : V.

(** [jnp.array(a)] of a numpy array: canonical dtype, converted elements *)
(** numpy_loader.py:335-340 *)
Definition jnp_array (a : nd V) : nd V :=
  let d := canonical x64 (nd_dtype a) in mkNd d (nd_shape a) (map (cast d) (nd_data a)).

(** the loader: number of observations, named numpy arrays, chains *)
(** numpy_loader.py:41-62, 177-184 *)
Record aloader := mkAL { al_count : nat; al_data : list (string * nd V); al_chains : list (chain G) }.

(** [len(array)]: TypeError for a 0-dimensional array *)
(** numpy_loader.py:47 *)
Definition nd_len (a : nd V) : res nat := match nd_shape a with [] => Exc TypeError | n :: _ => Ok n end.

(** [NumpyBase.__init__] with on_device=False, numpy_loader.py:41-63 *)
Fixpoint nd_lens (data : list (string * nd V)) : res (list nat) :=
  match data with
  | [] => Ok []
  | (_, a) :: r => let* n := nd_len a in let* ns := nd_lens r in Ok (n :: ns)
  end.
(** numpy_loader.py:41-62 *)
Definition make_aloader (data : list (string * nd V)) : res aloader :=
  let* counts := nd_lens data in
  match counts with
  | [] => Ok (mkAL 0 data [])
  | n0 :: _ => if existsb (fun n => negb (n =? n0)) counts then Exc ValueError else Ok (mkAL n0 data [])
  end.

(** [_format], numpy_loader.py:70-78: dtype and shape of one observation *)
Definition obs_format (l : aloader) : format :=
  map (fun ka => (fst ka, (nd_dtype (snd ka), tl (nd_shape (snd ka))))) (al_data l).

(** [batch_format], core.py:210-238, without the mini-batch information *)
Definition batch_format (l : aloader) (ca mb : nat) : format :=
  map (fun kf => (fst kf, (fst (snd kf), ca :: mb :: snd (snd kf)))) (obs_format l).

(** [initializer_batch(mb_size)], core.py:86-109; [None] is the default argument.  jnp.zeros
    canonicalises the dtype. *)
Definition initializer_batch (l : aloader) (mb : option nat) : list (string * nd V) :=
  map (fun kf => let sh := match mb with None => snd (snd kf) | Some m => m :: snd (snd kf) end in
                 (fst kf, mkNd (canonical x64 (fst (snd kf))) sh (repeat zero (prod sh))))
      (obs_format l).

(** the loop of [get_batches] over the arrays, numpy_loader.py:331-339 *)
Fixpoint slice_arrays (data : list (string * nd V)) (ishape idx : list nat) : res (list (string * nd V)) :=
  match data with
  | [] => Ok []
  | (k, a) :: rest =>
      let* x := np_take a ishape idx in
      let* xs := slice_arrays rest ishape idx in Ok ((k, jnp_array x) :: xs)
  end.

(** result of get_batches, numpy_loader.py:314-340 *)
Definition abatches := (list (string * nd V) * nd bool)%type.

(** [get_batches], numpy_loader.py:314-340 with [_get_indices], 342-355: the chain is updated in
    place before the index vectors are stacked. *)
Definition a_get_batches (l : aloader) (cid : nat) : aloader * res abatches :=
  match nth_error (al_chains l) cid with
  | None => (l, Exc IndexError)
  | Some c =>
      match get_indices choice_repl choice_perm (al_count l) c with
      | Exc e => (l, Exc e)
      | Ok (c', bs) =>
          (mkAL (al_count l) (al_data l) (upd (al_chains l) cid c'),
           let* ii := np_stack (map fst bs) in
           let* mm := np_stack (map snd bs) in
           let* d := slice_arrays (al_data l) (fst ii) (snd ii) in
           Ok (d, mkNd DBool (fst mm) (snd mm)))
      end
  end.

(** registration and checkpoints do not touch the arrays: the functions of NumpyLoader.v on a
    loader without arrays *)
(** numpy_loader.py:186-312 *)
Definition bare (l : aloader) : loader G unit := mkLoader (al_count l) [] (al_chains l).
(** numpy_loader.py:186-312 *)
Definition rechain (l : aloader) (b : loader G unit) : aloader := mkAL (al_count l) (al_data l) (l_chains b).

(** results of the methods in numpy_loader.py:186-340 *)
Inductive alout := AId (r : res nat) | ABatch (r : res abatches) | AUnit (r : res unit).
(** the methods of the loader, numpy_loader.py:186-340 *)
Definition alstep (l : aloader) (o : lop G) : aloader * alout :=
  match o with
  | RegRandom ca mb ie sh sd =>
      let (b, r) := register_random rng_of_seed (bare l) ca mb ie sh sd in (rechain l b, AId r)
  | RegOrdered ca mb => let (b, r) := register_ordered (bare l) ca mb in (rechain l b, AId r)
  | GetBatches cid => let (l', r) := a_get_batches l cid in (l', ABatch r)
  | LoadState cid ck => let '((b, _), r) := load_state (bare l) cid (Some ck) in (rechain l b, AUnit r)
  end.

(** ** data access *)
Notation requests := (rstate aloader abatches).

(** [CacheState], core.py:240-263 *)
Record acstate := mkAC {
  ac_data : list (string * nd V); ac_count : nat; ac_line : nat; ac_chain : nat;
  ac_valid : nd bool; ac_token : token }.

(** closure variables of one access: verify_calls, the announced format (core.py:674-676) with the
    shape of the mask, and the mini-batch information (observation count, batch size) *)
Record access := mkAcc {
  acc_state : acstate; acc_strict : bool; acc_format : format; acc_mask : list nat; acc_info : nat * nat }.

(** a mini-batch with its information (core.py:778-789): observation count, batch size, mask *)
Record abatch := mkAB { ab_data : list (string * nd V); ab_count : nat; ab_size : nat; ab_mask : nd bool }.

(** the format passed to the callback, core.py:700-709 *)
Definition canonical_format (f : format) : format :=
  map (fun ks => (fst ks, (canonical x64 (fst (snd ks)), snd (snd ks)))) f.

(** [jxp.io_callback(get_data, result_shape_dtypes, ...)], core.py:678-690, 700-714: the runtime
    compares the returned arrays with the announced format and raises if they differ. *)
Definition callback (acc : access) (r : requests) : requests * res (abatches * token) :=
  let cs := acc_state acc in
  match request a_get_batches r (ac_chain cs) (ac_token cs) 1 (acc_strict acc) with
  | (r', Exc e) => (r', Exc e)
  | (r', Ok ((data, mask), tok)) =>
      if format_eq_dec (format_of data) (canonical_format (acc_format acc))
      then if struct_eq_dec (nd_struct mask) (DBool, acc_mask acc)
           then (r', Ok ((data, mask), tok)) else (r', Exc RuntimeError)
      else (r', Exc RuntimeError)
  end.

(** [_data_state_helper], core.py:694-733.  lax.cond traces both branches and raises TypeError if
    their results have different formats: the state that is passed in must have the announced
    format. *)
Definition a_refresh (acc : access) (r : requests) : requests * res acstate :=
  let cs := acc_state acc in
  if format_eq_dec (format_of (ac_data cs)) (canonical_format (acc_format acc)) then
    if struct_eq_dec (nd_struct (ac_valid cs)) (DBool, acc_mask acc) then
      if ac_line cs =? ac_count cs then
        match callback acc r with
        | (r', Ok ((data, mask), tok)) => (r', Ok (mkAC data (ac_count cs) 0 (ac_chain cs) mask tok))
        | (r', Exc e) => (r', Exc e)
        end
      else (r, Ok cs)
    else (r, Exc TypeError)
  else (r, Exc TypeError).

(** [batch_fn], core.py:736-790 *)
Definition a_batch_fn (acc : access) (r : requests) : requests * res (acstate * abatch) :=
  let (r', o) := a_refresh acc r in
  (r', let* cs1 := o in
       let line := ac_line cs1 mod ac_count cs1 in
       let* mini_batch := nd_tree_index (ac_data cs1) line in
       let* mask := jax_index (ac_valid cs1) line in
       Ok (mkAC (ac_data cs1) (ac_count cs1) (line + 1) (ac_chain cs1) (ac_valid cs1) (ac_token cs1),
           mkAB mini_batch (fst (acc_info acc)) (snd (acc_info acc)) mask)).

(** core.py:406-413 and 794-835: the requests and the accesses *)
Record aworld := mkAW { aw_req : requests; aw_accesses : list access }.
(** self._host_data_loaders (core.py:411) *)
Definition aw_loader (w : aworld) : aloader := r_loader (aw_req w).
(** assignment of the state of the loader (core.py:411) *)
Definition a_with_loader (r : requests) (l : aloader) : requests :=
  mkR (r_cached r) (r_current r) (r_fresh r) l.
(** core.py:408-413 *)
Definition aw_init (l : aloader) : aworld := mkAW (requests_init l) [].

(** core.py:818-830 and 889-904: load the first cache; the announced format is the one computed by
    [_hcb_wrapper] (core.py:674-676), the arrays never change, so it may be computed here. *)
Definition a_init_cache (w : aworld) (l : aloader) (ca mb cid : nat) (strict : bool) : aworld * res nat :=
  match a_get_batches l cid with
  | (l', Exc e) => (mkAW (a_with_loader (aw_req w) l') (aw_accesses w), Exc e)
  | (l', Ok (data, mask)) =>
      let k := length (aw_accesses w) in
      (mkAW (a_with_loader (aw_req w) l')
            (aw_accesses w ++ [mkAcc (mkAC data ca 0 cid mask (TInit k)) strict
                                     (batch_format l ca mb) [ca; mb] (al_count l, mb)]),
       Ok k)
  end.

(** [random_reference_data] + [init_fn], core.py:499-520, 812-830 *)
Definition a_random_init (w : aworld) (ca mb : nat) (in_epochs shuffle : bool) (seed : option nat)
    (strict : bool) : aworld * res nat :=
  let l := aw_loader w in
  if al_count l <? mb then (w, Exc ValueError)
  else if (ca =? 0) || (mb =? 0) then (w, Exc ValueError)
  else match register_random rng_of_seed (bare l) ca mb in_epochs shuffle seed with
       | (b, Exc e) => (mkAW (a_with_loader (aw_req w) (rechain l b)) (aw_accesses w), Exc e)
       | (b, Ok cid) => a_init_cache w (rechain l b) ca mb cid strict
       end.

(** [full_reference_data] + [init_fn], core.py:541-560, 886-904 *)
Definition a_full_init (w : aworld) (ca mb : nat) : aworld * res nat :=
  let l := aw_loader w in
  if al_count l <? mb then (w, Exc ValueError)
  else if mb =? 0 then (w, Exc ZeroDivisionError)
  else match register_ordered (bare l) ca mb with
       | (b, Exc e) => (mkAW (a_with_loader (aw_req w) (rechain l b)) (aw_accesses w), Exc e)
       | (b, Ok cid) => a_init_cache w (rechain l b) ca mb cid true
       end.

(** one call of the batch function of access k *)
(** core.py:736-791 *)
Definition a_access_batch (w : aworld) (k : nat) : aworld * res abatch :=
  match nth_error (aw_accesses w) k with
  | None => (w, Exc KeyError)
  | Some acc =>
      match a_batch_fn acc (aw_req w) with
      | (r', Exc e) => (mkAW r' (aw_accesses w), Exc e)
      | (r', Ok (cs', b)) =>
          (mkAW r' (upd (aw_accesses w) k
             (mkAcc cs' (acc_strict acc) (acc_format acc) (acc_mask acc) (acc_info acc))), Ok b)
      end
  end.

(** results of the functions in core.py:477-628 *)
Inductive awout := AwInit (r : res nat) | AwBatch (r : res abatch) | AwLoader (o : alout).
(** the functions in core.py:477-628 *)
Definition awstep (w : aworld) (o : wop G) : aworld * awout :=
  match o with
  | WRandom ca mb ie sh sd st => let (w', r) := a_random_init w ca mb ie sh sd st in (w', AwInit r)
  | WFull ca mb => let (w', r) := a_full_init w ca mb in (w', AwInit r)
  | WBatch k => let (w', r) := a_access_batch w k in (w', AwBatch r)
  | WLoader op => let (l', r) := alstep (aw_loader w) op in
                  (mkAW (a_with_loader (aw_req w) l') (aw_accesses w), AwLoader r)
  end.


(** ** DeviceNumpyDataLoader *)

(** construction with on_device=True: every array is converted by jnp.array, numpy_loader.py:45-50 *)
Definition make_device (data : list (string * nd V)) : res aloader :=
  make_aloader (map (fun ka => (fst ka, jnp_array (snd ka))) data).

(** [tree_index] with an index vector, core.py:642-660: clamped indices; indexing a 0-dimensional
    array or an empty axis is an error *)
Definition jax_take (a : nd V) (idx : list nat) : res (nd V) :=
  match nd_shape a with
  | [] | 0 :: _ => Exc IndexError
  | n :: sh => Ok (mkNd (nd_dtype a) (length idx :: sh) (flat_map (fun i => nd_obs a (Nat.min i (n - 1))) idx))
  end.
(** core.py:642-660, numpy_loader.py:136 *)
Fixpoint jax_tree_take (t : list (string * nd V)) (idx : list nat) : res (list (string * nd V)) :=
  match t with
  | [] => Ok []
  | (k, a) :: t' => let* x := jax_take a idx in let* xs := jax_tree_take t' idx in Ok ((k, x) :: xs)
  end.

(** [get_random_data], numpy_loader.py:128-141; random.split and random.randint are parameters *)
Section Device.
Context {K : Type}.
Variable split : K -> K * K.
Variable randint : K -> nat -> nat -> list nat.     (* key, count, maxval *)
(** numpy_loader.py:128-141 *)
Definition a_device_batch (l : aloader) (mb : nat) (key : K) : res (K * abatch) :=
  let (key', sub) := split key in
  let* sel := jax_tree_take (al_data l) (randint sub mb (al_count l)) in
  Ok (key', mkAB sel (al_count l) mb (mkNd DBool [mb] (repeat true mb))).
End Device.

End Arrays.
Arguments aloader : clear implicits.
Arguments abatches : clear implicits.
Arguments abatch : clear implicits.
Arguments aworld : clear implicits.
Arguments awout : clear implicits.
Arguments alout : clear implicits.
Arguments acstate : clear implicits.
Arguments access : clear implicits.
