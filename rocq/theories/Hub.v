(** Model of jax_sgmc/data/core.py for programs that use several data loaders, several data accesses
    per loader, several data states per access, and that release accesses.

    Differences to DataCore.v (one loader, one state per access): [random_reference_data] /
    [full_reference_data] (creation of the access, its callback_uuid and its entry in
    [_host_data_loaders]), the init function (which may be called any number of times) and [release]
    are separate operations.  As there: device_count = 1, uuids are distinct tokens, a call that
    raises leaves the data state of the caller unchanged. *)
From Verif Require Import Base NumpyLoader Requests DataCore.
From Coq Require String.
Set Implicit Arguments.

Section Hub.
Context {G obs : Type}.
Variable choice_repl : G -> nat -> nat -> G * list nat.
Variable choice_perm : G -> nat -> G * list nat.
Variable rng_of_seed : nat -> G.
Notation get_batches := (NumpyLoader.get_batches choice_repl choice_perm (obs := obs)).
Notation lstep := (NumpyLoader.lstep choice_repl choice_perm rng_of_seed (obs := obs)).
Notation loaders := (list (loader G obs)).

(** what one call of random_reference_data / full_reference_data leaves behind; the callback_uuid is
    the position in the list of accesses *)
(** core.py:794-835, 865-909 *)
Record access := mkAcc {
  ac_loader : nat;                    (* the closure variable data_loader (position in the list of loaders) *)
  ac_ca : nat; ac_mb : nat;           (* cached_batches_count, mb_size *)
  ac_random : bool;                   (* random (core.py:794-836) or ordered (core.py:865-909) *)
  ac_strict : bool;                   (* verify_calls *)
  ac_live : bool;                     (* callback_uuid in _host_data_loaders, core.py:810, 884 *)
  ac_current : list (nat * token) }.  (* _requests[callback_uuid], core.py:422-426 *)

(** a data state (CacheState, core.py:240-263) threaded by the user program *)
Record hclient := mkHC { hc_access : nat; hc_state : cstate obs }.

(** core.py:406-413 and the loaders of the program *)
Record hub := mkHub {
  hb_loaders : loaders;
  hb_accesses : list access;
  hb_cached : list (token * (nat * batches obs * token));   (* _cached_requests *)
  hb_fresh : nat;
  hb_clients : list hclient }.
(** core.py:408-413 *)
Definition hub_init (ls : loaders) : hub := mkHub ls [] [] 0 [].

(** [self._host_data_loaders[callback_uuid.as_uuid].get_batches(chain_id)], core.py:452; KeyError
    after release *)
Definition reg_get (a : access) (ls : loaders) (chain : nat) : loaders * res (batches obs) :=
  if ac_live a then
    match nth_error ls (ac_loader a) with
    | Some l => let (l', o) := get_batches l chain in (upd ls (ac_loader a) l', o)
    | None => (ls, Exc KeyError)
    end
  else (ls, Exc KeyError).

(** [_Requests.__call__] for access number ai *)
(** core.py:415-463 *)
Definition hub_request (h : hub) (ai : nat) (a : access) (chain : nat) (tok : token)
  : hub * res (batches obs * token) :=
  let (r', o) := request (reg_get a) (mkR (hb_cached h) (ac_current a) (hb_fresh h) (hb_loaders h))
                   chain tok 1 (ac_strict a) in
  (mkHub (r_loader r')
     (upd (hb_accesses h) ai (mkAcc (ac_loader a) (ac_ca a) (ac_mb a) (ac_random a) (ac_strict a) (ac_live a) (r_current r')))
     (r_cached r') (r_fresh r') (hb_clients h), o).

(** [_data_state_helper] with [_new_cache_fn] / [_old_cache_fn], core.py:694-733 *)
Definition hub_refresh (h : hub) (ai : nat) (a : access) (cs : cstate obs) : hub * res (cstate obs) :=
  if cs_line cs =? cs_count cs then
    match hub_request h ai a (cs_chain cs) (cs_token cs) with
    | (h', Ok ((data, masks), tok)) => (h', Ok (mkC data (cs_count cs) 0 (cs_chain cs) masks tok))
    | (h', Exc e) => (h', Exc e)
    end
  else (h, Ok cs).

(** [batch_fn], core.py:736-790, called with the data state number k, which is replaced by the new
    data state *)
Definition hub_batch (h : hub) (k : nat) : hub * res (mbatch obs) :=
  match nth_error (hb_clients h) k with
  | None => (h, Exc KeyError)
  | Some c =>
      match nth_error (hb_accesses h) (hc_access c) with
      | None => (h, Exc KeyError)
      | Some a =>
          let (h', o) := hub_refresh h (hc_access c) a (hc_state c) in
          match (let* cs1 := o in
                 let line := cs_line cs1 mod cs_count cs1 in
                 let* mini_batch := tree_index (cs_data cs1) line in
                 let* mask := jindex (cs_valid cs1) line in
                 Ok (mkC (cs_data cs1) (cs_count cs1) (line + 1) (cs_chain cs1) (cs_valid cs1) (cs_token cs1),
                     (mini_batch, mask))) with
          | Ok (cs', b) =>
              (mkHub (hb_loaders h') (hb_accesses h') (hb_cached h') (hb_fresh h')
                 (upd (hb_clients h') k (mkHC (hc_access c) cs')), Ok b)
          | Exc e => (h', Exc e)
          end
      end
  end.

(** effect of a call on a loader; no code of its own (core.py:455) *)
Definition set_loader (h : hub) (i : nat) (l : loader G obs) : hub :=
  mkHub (upd (hb_loaders h) i l) (hb_accesses h) (hb_cached h) (hb_fresh h) (hb_clients h).
(** core.py:805-810, 879-884 *)
Definition new_access (h : hub) (a : access) : hub :=
  mkHub (hb_loaders h) (hb_accesses h ++ [a]) (hb_cached h) (hb_fresh h) (hb_clients h).

(** [random_reference_data], core.py:477-520, 794-810 *)
Definition hub_random (h : hub) (i ca mb : nat) (strict : bool) : hub * res nat :=
  match nth_error (hb_loaders h) i with
  | None => (h, Exc TypeError)
  | Some l =>
      if l_count l <? mb then (h, Exc ValueError)
      else if (ca =? 0) || (mb =? 0) then (h, Exc ValueError)
      else (new_access h (mkAcc i ca mb true strict true []), Ok (length (hb_accesses h)))
  end.
(** [full_reference_data], core.py:522-560, 865-884 *)
Definition hub_full (h : hub) (i ca mb : nat) : hub * res nat :=
  match nth_error (hb_loaders h) i with
  | None => (h, Exc TypeError)
  | Some l =>
      if l_count l <? mb then (h, Exc ValueError)
      else if mb =? 0 then (h, Exc ZeroDivisionError)
      else (new_access h (mkAcc i ca mb false true true []), Ok (length (hb_accesses h)))
  end.

(** the end of both init functions, core.py:818-830, 892-904 *)
Definition hub_first_cache (h : hub) (ai : nat) (a : access) (cid : nat) : hub * res nat :=
  match reg_get a (hb_loaders h) cid with
  | (ls, Exc e) => (mkHub ls (hb_accesses h) (hb_cached h) (hb_fresh h) (hb_clients h), Exc e)
  | (ls, Ok (data, masks)) =>
      let k := length (hb_clients h) in
      (mkHub ls (hb_accesses h) (hb_cached h) (hb_fresh h)
         (hb_clients h ++ [mkHC ai (mkC data (ac_ca a) 0 cid masks (TInit k))]), Ok k)
  end.
(** the init functions, core.py:812-830 and 886-904.  The random one registers the pipeline with the
    data loader of its closure, the ordered one with the registered data loader (KeyError after
    release); the keyword arguments are ignored by register_ordered_pipeline. *)
Definition hub_new_state (h : hub) (ai : nat) (in_epochs shuffle : bool) (seed : option nat) : hub * res nat :=
  match nth_error (hb_accesses h) ai with
  | None => (h, Exc TypeError)
  | Some a =>
      match nth_error (hb_loaders h) (ac_loader a) with
      | None => (h, Exc TypeError)
      | Some l =>
          if ac_random a then
            match register_random rng_of_seed l (ac_ca a) (ac_mb a) in_epochs shuffle seed with
            | (l', Exc e) => (set_loader h (ac_loader a) l', Exc e)
            | (l', Ok cid) => hub_first_cache (set_loader h (ac_loader a) l') ai a cid
            end
          else if ac_live a then
            match register_ordered l (ac_ca a) (ac_mb a) with
            | (l', Exc e) => (set_loader h (ac_loader a) l', Exc e)
            | (l', Ok cid) => hub_first_cache (set_loader h (ac_loader a) l') ai a cid
            end
          else (h, Exc KeyError)
      end
  end.

(** [release], core.py:832-833, 906-907: [del _host_data_loaders[callback_uuid]] *)
Definition hub_release (h : hub) (ai : nat) : hub * res unit :=
  match nth_error (hb_accesses h) ai with
  | None => (h, Exc TypeError)
  | Some a =>
      if ac_live a then
        (mkHub (hb_loaders h)
           (upd (hb_accesses h) ai (mkAcc (ac_loader a) (ac_ca a) (ac_mb a) (ac_random a) (ac_strict a) false (ac_current a)))
           (hb_cached h) (hb_fresh h) (hb_clients h), Ok tt)
      else (h, Exc KeyError)
  end.

(** core.py:477-628, 832-835, 906-909 *)
Inductive hop :=
| HRandom (i ca mb : nat) (strict : bool)
| HFull (i ca mb : nat)
| HInit (ai : nat) (in_epochs shuffle : bool) (seed : option nat)
| HBatch (k : nat)
| HRelease (ai : nat)
| HLoader (i : nat) (op : lop G).
(** results of core.py:477-628, 832-835, 906-909 *)
Inductive hout :=
| HoAccess (r : res nat) | HoState (r : res nat) | HoBatch (r : res (mbatch obs)) | HoRelease (r : res unit)
| HoLoader (r : option (lout obs)).

(** core.py:477-628, 832-835, 906-909 *)
Definition hstep (h : hub) (o : hop) : hub * hout :=
  match o with
  | HRandom i ca mb st => let (h', r) := hub_random h i ca mb st in (h', HoAccess r)
  | HFull i ca mb => let (h', r) := hub_full h i ca mb in (h', HoAccess r)
  | HInit ai ie sh sd => let (h', r) := hub_new_state h ai ie sh sd in (h', HoState r)
  | HBatch k => let (h', r) := hub_batch h k in (h', HoBatch r)
  | HRelease ai => let (h', r) := hub_release h ai in (h', HoRelease r)
  | HLoader i op =>
      match nth_error (hb_loaders h) i with
      | None => (h, HoLoader None)
      | Some l => let (l', r) := lstep l op in (set_loader h i l', HoLoader (Some r))
      end
  end.
End Hub.
Arguments hub : clear implicits.
Arguments hop : clear implicits.
Arguments hout : clear implicits.
Arguments hclient : clear implicits.
Arguments hub_init {G obs}.
