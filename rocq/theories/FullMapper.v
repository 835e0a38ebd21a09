(** Model of full_data_mapper and _FullDataHelper, jax_sgmc/data/core.py:964-1114, for host data
    loaders: a pool of unused cache states shared by any number of concurrently running maps.

    Simplifications: as in DataCore.v; a map call is decomposed into its atomic host interactions
    (get state, one batch per scan iteration, free state), which may be interleaved arbitrarily with
    those of other map calls and with every other use of the loader.  The function is called with
    the batch, the mask and the carry (masking=True, information=True). *)
From Verif Require Import Base NumpyLoader Requests DataCore.
From Coq Require String.
Set Implicit Arguments.

Section Mapper.
Context {G obs C R : Type}.
Variable choice_repl : G -> nat -> nat -> G * list nat.
Variable choice_perm : G -> nat -> G * list nat.
Variable rng_of_seed : nat -> G.
Variables ca mb : nat.          (* cached_batches_count, mb_size of the mapper *)
Notation get_batches := (NumpyLoader.get_batches choice_repl choice_perm (obs := obs)).
Notation requests := (rstate (loader G obs) (batches obs)).
Notation batch_fn := (DataCore.batch_fn choice_repl choice_perm).
Notation wstep := (DataCore.wstep choice_repl choice_perm rng_of_seed (obs := obs)).

(** core.py:287-329 *)
Definition mapped := mbatch obs -> list bool -> C -> R * C.

(** [_new_cache_state] = [init_fn()] of the host variant, core.py:886-904, 1002-1005 *)
Definition new_cache_state (rq : requests) (tok : nat) : requests * res (cstate obs) :=
  match register_ordered (r_loader rq) ca mb with
  | (l, Exc e) => (with_loader rq l, Exc e)
  | (l, Ok cid) =>
      match get_batches l cid with
      | (l', Exc e) => (with_loader rq l', Exc e)
      | (l', Ok (data, masks)) => (with_loader rq l', Ok (mkC data ca 0 cid masks (TInit tok)))
      end
  end.

(** a map call that is being executed: [batch_scan] (core.py:589-612) at iteration [rn_it] *)
Record running := mkRun {
  rn_fn : mapped;
  rn_state : cstate obs;
  rn_it : nat;
  rn_carry : C;
  rn_results : list R }.

(** core.py:964-1019 *)
Record mapper := mkM {
  m_world : world G obs;
  m_pool : option (list (cstate obs));        (* _unused_states; None after cleanup *)
  m_tok : nat;                                (* tokens of cache states created so far *)
  m_run : list (option running) }.            (* the map calls, None when finished *)

(** [full_data_mapper(loader, ca, mb)]: construction of [_FullDataHelper], core.py:967-978, with
    the checks of full_reference_data (core.py:541-545, 557-558) *)
Definition make_mapper (w : world G obs) : res mapper :=
  if l_count (w_loader w) <? mb then Exc ValueError
  else if mb =? 0 then Exc ZeroDivisionError
  else match new_cache_state (w_req w) 0 with
       | (rq, Ok cs) => Ok (mkM (mkW rq (w_clients w)) (Some [cs]) 1 [])
       | (_, Exc e) => Exc e
       end.

(** [get_cache_state], core.py:987-994 ([pop] takes the last element), and start of the scan *)
Definition m_start (m : mapper) (fn : mapped) (carry : C) : mapper * res nat :=
  match m_pool m with
  | None => (m, Exc TypeError)                                   (* len(None) *)
  | Some pool =>
      match rev pool with
      | [] =>
          match new_cache_state (w_req (m_world m)) (m_tok m) with
          | (rq, Exc e) => (mkM (mkW rq (w_clients (m_world m))) (Some pool) (S (m_tok m)) (m_run m), Exc e)
          | (rq, Ok cs) =>
              (mkM (mkW rq (w_clients (m_world m))) (Some pool) (S (m_tok m))
                   (m_run m ++ [Some (mkRun fn cs 0 carry [])]), Ok (length (m_run m)))
          end
      | cs :: rest =>
          (mkM (m_world m) (Some (rev rest)) (m_tok m)
               (m_run m ++ [Some (mkRun fn cs 0 carry [])]), Ok (length (m_run m)))
      end
  end.

(** the data loader is deregistered by [cleanup] (core.py:1007-1009, 907): a request then raises KeyError
    at core.py:452 *)
Definition batch_or_keyerror (m : mapper) (cs : cstate obs) : requests * res (cstate obs * mbatch obs) :=
  match m_pool m with
  | None => if cs_line cs =? cs_count cs then (w_req (m_world m), Exc KeyError)
            else batch_fn (w_req (m_world m)) cs true
  | Some _ => batch_fn (w_req (m_world m)) cs true
  end.

(** one iteration of the scan of call j, core.py:562-587 *)
Definition m_iter (m : mapper) (j : nat) : mapper * res unit :=
  match nth_error (m_run m) j with
  | Some (Some rn) =>
      let N := l_count (w_loader (m_world m)) in
      if num_iterations N mb <=? rn_it rn then (m, Exc RuntimeError)  (* scan is over; not a call *)
      else
        match batch_or_keyerror m (rn_state rn) with
        | (rq, Exc e) => (mkM (mkW rq (w_clients (m_world m))) (m_pool m) (m_tok m) (m_run m), Exc e)
        | (rq, Ok (cs', b)) =>
            let (res, carry') := rn_fn rn b (map_mask N mb (rn_it rn)) (rn_carry rn) in
            (mkM (mkW rq (w_clients (m_world m))) (m_pool m) (m_tok m)
               (upd (m_run m) j (Some (mkRun (rn_fn rn) cs' (S (rn_it rn)) carry' (rn_results rn ++ [res])))),
             Ok tt)
        end
  | _ => (m, Exc RuntimeError)
  end.

(** end of the scan: [free_cache_state] (core.py:996-1000, 1104-1108) and return of the results *)
Definition m_finish (m : mapper) (j : nat) : mapper * res (list R * C) :=
  match nth_error (m_run m) j with
  | Some (Some rn) =>
      if num_iterations (l_count (w_loader (m_world m))) mb <=? rn_it rn then
        match m_pool m with
        | None => (mkM (m_world m) None (m_tok m) (upd (m_run m) j None), Exc AttributeError)
        | Some pool =>
            (mkM (m_world m) (Some (pool ++ [rn_state rn])) (m_tok m) (upd (m_run m) j None),
             Ok (rn_results rn, rn_carry rn))
        end
      else (m, Exc RuntimeError)
  | _ => (m, Exc RuntimeError)
  end.

(** core.py:1021-1117 *)
Inductive mop :=
| MStart (fn : mapped) (carry : C)
| MIter (j : nat)
| MFinish (j : nat)
| MRelease                                   (* cleanup, core.py:1007-1009 *)
| MOther (o : wop G).                        (* any other use of the loader *)

(** core.py:1021-1117 *)
Inductive mout := MoStart (r : res nat) | MoIter (r : res unit) | MoFinish (r : res (list R * C))
| MoUnit | MoOther (o : wout obs).

(** core.py:1021-1117 *)
Definition mstep (m : mapper) (o : mop) : mapper * mout :=
  match o with
  | MStart fn c => let (m', r) := m_start m fn c in (m', MoStart r)
  | MIter j => let (m', r) := m_iter m j in (m', MoIter r)
  | MFinish j => let (m', r) := m_finish m j in (m', MoFinish r)
  | MRelease => (mkM (m_world m) None (m_tok m) (m_run m), MoUnit)
  | MOther o => let (w', r) := wstep (m_world m) o in
                (mkM w' (m_pool m) (m_tok m) (m_run m), MoOther r)
  end.
End Mapper.
Arguments running : clear implicits.
Arguments mapper : clear implicits.
Arguments mop : clear implicits.
Arguments mout : clear implicits.
Arguments mapped : clear implicits.
Arguments MIter {G obs C R}.
Arguments MFinish {G obs C R}.
Arguments MRelease {G obs C R}.
Arguments MStart {G obs C R}.
Arguments MOther {G obs C R}.
Arguments MoStart {obs C R}.
Arguments MoFinish {obs C R}.
Arguments MoIter {obs C R}.
