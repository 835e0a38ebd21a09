(** Model of jax_sgmc/data/core.py: jit-compatible data access (random_reference_data,
    full_reference_data, full_data_mapper) on top of the numpy host loader and of _Requests.

    Simplifications: one data loader (one callback_uuid); device_count = 1 (d > 1 replicas are
    treated in RequestsSpec.v); arrays are lists, dtypes are not modelled; a jitted function runs
    its operations in program order and several programs may be interleaved arbitrarily. *)
From Verif Require Import Base NumpyLoader Requests.
From Coq Require String.
Set Implicit Arguments.

(** jax indexing [a[i]] of the leading axis: out-of-range indices are clamped, an empty axis is an
    error. *)
(** core.py:642-660 *)
Definition jindex {A} (l : list A) (i : nat) : res A :=
  match nth_error l (Nat.min i (length l - 1)) with Some x => Ok x | None => Exc IndexError end.

(** [tree_index], core.py:642-660, for a batch given as a list of named arrays *)
Fixpoint tree_index {K A} (t : list (K * list A)) (i : nat) : res (list (K * A)) :=
  match t with
  | [] => Ok []
  | (k, rows) :: t' => let* r := jindex rows i in let* rest := tree_index t' i in Ok ((k, r) :: rest)
  end.

Section Core.
Context {G obs : Type}.
Variable choice_repl : G -> nat -> nat -> G * list nat.
Variable choice_perm : G -> nat -> G * list nat.
Variable rng_of_seed : nat -> G.
Notation get_batches := (NumpyLoader.get_batches choice_repl choice_perm (obs := obs)).
Notation lstep := (NumpyLoader.lstep choice_repl choice_perm rng_of_seed (obs := obs)).
Notation requests := (rstate (loader G obs) (batches obs)).

(** [CacheState], core.py:240-263 *)
Record cstate := mkC {
  cs_data : list (String.string * list (list obs));   (* cached_batches *)
  cs_count : nat;                                     (* cached_batches_count *)
  cs_line : nat;                                      (* current_line *)
  cs_chain : nat;                                     (* chain_id *)
  cs_valid : list (list bool);                        (* valid *)
  cs_token : token }.

(** a batch with its mask: what the batch function returns with information=True *)
(** core.py:49-61, 736-791 *)
Definition mbatch := (list (String.string * list obs) * list bool)%type.

(** [_data_state_helper] with [_new_cache_fn] / [_old_cache_fn], core.py:694-733 *)
Definition refresh (r : requests) (cs : cstate) (strict : bool) : requests * res cstate :=
  if cs_line cs =? cs_count cs then
    match request get_batches r (cs_chain cs) (cs_token cs) 1 strict with
    | (r', Ok ((data, masks), tok)) => (r', Ok (mkC data (cs_count cs) 0 (cs_chain cs) masks tok))
    | (r', Exc e) => (r', Exc e)
    end
  else (r, Ok cs).

(** [batch_fn] of [_hcb_wrapper], core.py:736-790 *)
Definition batch_fn (r : requests) (cs : cstate) (strict : bool) : requests * res (cstate * mbatch) :=
  let (r', o) := refresh r cs strict in
  (r', let* cs1 := o in
       let line := cs_line cs1 mod cs_count cs1 in
       let* mini_batch := tree_index (cs_data cs1) line in
       let* mask := jindex (cs_valid cs1) line in
       Ok (mkC (cs_data cs1) (cs_count cs1) (line + 1) (cs_chain cs1) (cs_valid cs1) (cs_token cs1),
           (mini_batch, mask))).

(** a data access: the threaded state and the closure variable verify_calls *)
(** core.py:736-791, 812-835 *)
Record client := mkClient { cl_state : cstate; cl_strict : bool }.

(** core.py:406-413, 794-835 *)
Record world := mkW {
  w_req : requests;
  w_clients : list client }.

(** self._host_data_loaders (core.py:411) *)
Definition w_loader (w : world) : loader G obs := r_loader (w_req w).
(** assignment of the state of the loader (core.py:411) *)
Definition with_loader (r : requests) (l : loader G obs) : requests :=
  mkR (r_cached r) (r_current r) (r_fresh r) l.

(** core.py:408-413 *)
Definition w_init (l : loader G obs) : world := mkW (requests_init l) [].

(** second half of both init functions, core.py:818-830 and 889-904: load the first cache and
    create the state with a new token (TInit k for the k-th state created) *)
Definition init_cache (w : world) (l : loader G obs) (ca cid : nat) (strict : bool) : world * res nat :=
  match get_batches l cid with
  | (l', Exc e) => (mkW (with_loader (w_req w) l') (w_clients w), Exc e)
  | (l', Ok (data, masks)) =>
      let k := length (w_clients w) in
      (mkW (with_loader (w_req w) l')
           (w_clients w ++ [mkClient (mkC data ca 0 cid masks (TInit k)) strict]),
       Ok k)
  end.

(** [random_reference_data(loader, ca, mb, strict)] (core.py:499-520) followed by
    [init_fn(in_epochs, shuffle, seed)] (core.py:812-830) *)
Definition random_init (w : world) (ca mb : nat) (in_epochs shuffle : bool) (seed : option nat)
    (strict : bool) : world * res nat :=
  let l := w_loader w in
  if l_count l <? mb then (w, Exc ValueError)
  else if (ca =? 0) || (mb =? 0) then (w, Exc ValueError)
  else match register_random rng_of_seed l ca mb in_epochs shuffle seed with
       | (l', Exc e) => (mkW (with_loader (w_req w) l') (w_clients w), Exc e)
       | (l', Ok cid) => init_cache w l' ca cid strict
       end.

(** [full_reference_data(loader, ca, mb)] (core.py:541-560) followed by [init_fn()]
    (core.py:886-904); verify_calls=True (line 882); mb = 0 raises ZeroDivisionError in
    [num_iterations] (line 558). *)
Definition full_init (w : world) (ca mb : nat) : world * res nat :=
  let l := w_loader w in
  if l_count l <? mb then (w, Exc ValueError)
  else if mb =? 0 then (w, Exc ZeroDivisionError)
  else match register_ordered l ca mb with
       | (l', Exc e) => (mkW (with_loader (w_req w) l') (w_clients w), Exc e)
       | (l', Ok cid) => init_cache w l' ca cid true
       end.

(** one call of the batch function of access k, threading its state (core.py:736-790) *)
Definition client_batch (w : world) (k : nat) : world * res mbatch :=
  match nth_error (w_clients w) k with
  | None => (w, Exc KeyError)
  | Some cl =>
      match batch_fn (w_req w) (cl_state cl) (cl_strict cl) with
      | (r', Exc e) => (mkW r' (w_clients w), Exc e)
      | (r', Ok (cs', b)) => (mkW r' (upd (w_clients w) k (mkClient cs' (cl_strict cl))), Ok b)
      end
  end.

(** Everything a program can do with one loader: create accesses, draw batches through them, or
    use the loader directly. *)
(** the functions of core.py:477-628 *)
Inductive wop :=
| WRandom (ca mb : nat) (in_epochs shuffle : bool) (seed : option nat) (strict : bool)
| WFull (ca mb : nat)
| WBatch (k : nat)
| WLoader (op : lop G).

(** their results, core.py:477-628 *)
Inductive wout := WoInit (r : res nat) | WoBatch (r : res mbatch) | WoLoader (o : lout obs).

(** core.py:477-628 *)
Definition wstep (w : world) (o : wop) : world * wout :=
  match o with
  | WRandom ca mb ie sh sd st => let (w', r) := random_init w ca mb ie sh sd st in (w', WoInit r)
  | WFull ca mb => let (w', r) := full_init w ca mb in (w', WoInit r)
  | WBatch k => let (w', r) := client_batch w k in (w', WoBatch r)
  | WLoader op => let (l', r) := lstep (w_loader w) op in
                  (mkW (with_loader (w_req w) l') (w_clients w), WoLoader r)
  end.

(** ** Mapping over the full data set: [batch_scan], core.py:589-627 *)
Section Scan.
Context {C R : Type}.
(** the mapped function: batch (with the mask of the mini batch information), mask of the map,
    carry -> results, carry.  With masking=False the function does not receive the mask. *)
Variable fn : mbatch -> list bool -> C -> R * C.
Variable k N mb : nat.

(** the mask computed by [_uninitialized_body_fn], core.py:569-570 *)
Definition map_mask (it : nat) : list bool := map (fun j => it * mb + j <? N) (seq 0 mb).

(** [lax.scan] over the iterations it, it+1, ..., it+n-1 (core.py:562-587, 609-612); [env i] are
    the operations other programs perform before iteration i. *)
Fixpoint scan_body (env : nat -> list wop) (n it : nat) (w : world) (carry : C)
  : world * res (list R * C) :=
  match n with
  | 0 => (w, Ok ([], carry))
  | S n' =>
      let (w1, _) := run wstep w (env it) in
      match client_batch w1 k with
      | (w2, Exc e) => (w2, Exc e)
      | (w2, Ok b) =>
          let (res, carry') := fn b (map_mask it) carry in
          let (w3, o) := scan_body env n' (S it) w2 carry' in
          (w3, let* rc := o in Ok (res :: fst rc, snd rc))
      end
  end.
End Scan.

(** [num_iterations], core.py:557-558 *)
Definition num_iterations (N mb : nat) : nat := ceil_div N mb.

(** masking=True: the stacked results and the carry (core.py:614-615) *)
Definition map_masked {C R} (fn : mbatch -> list bool -> C -> R * C) (k N mb : nat)
    (env : nat -> list wop) (w : world) (carry : C) : world * res (list R * C) :=
  scan_body fn k N mb env (num_iterations N mb) 0 w carry.

(** masking=False: results are concatenated along the first axis and truncated (core.py:617-625) *)
Definition map_unmasked {C R} (fn : mbatch -> C -> list R * C) (k N mb : nat)
    (env : nat -> list wop) (w : world) (carry : C) : world * res (list R * C) :=
  let (w', o) := scan_body (fun b _ c => fn b c) k N mb env (num_iterations N mb) 0 w carry in
  (w', let* rc := o in Ok (slice (concat (fst rc)) 0 N, snd rc)).

End Core.
Arguments cstate : clear implicits.
Arguments client : clear implicits.
Arguments world : clear implicits.
Arguments wop : clear implicits.
Arguments wout : clear implicits.
Arguments mbatch : clear implicits.
Arguments WBatch {G}.
Arguments WFull {G}.
Arguments WRandom {G}.
Arguments WoInit {obs}.
