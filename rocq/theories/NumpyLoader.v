(** Model of jax_sgmc/data/numpy_loader.py, class NumpyDataLoader (host loader).

    Simplifications:
    - [G] is the type of numpy random generators; [choice_repl g n k] is
      [rng.choice(arange(n), size=k, replace=True)] and [choice_perm g n] is
      [rng.choice(arange(n), size=n, replace=False)]; both return the new generator state.
    - sizes are naturals (python ints; negative sizes are not modelled).
    - dtype conversion of the data (jnp.array) is not modelled; an observation is an element
      of an abstract type. *)
From Verif Require Import Base.
From Coq Require String.
Set Implicit Arguments.

(** chain['type'], numpy_loader.py:270, 305, 344 *)
Inductive ctype := Random | Ordered.

Section Loader.
Context {G : Type}.
Variable choice_repl : G -> nat -> nat -> G * list nat.
Variable choice_perm : G -> nat -> G * list nat.
(** [onp.random.default_rng(onp.random.SeedSequence(seed).spawn(1)[0])], numpy_loader.py:259-261 *)
Variable rng_of_seed : nat -> G.

(** The dictionary that describes a chain, numpy_loader.py:266-275 (random) and
    303-307 (ordered; the keys which an ordered chain does not have are filled with
    defaults, [_get_indices] never reads them for an ordered chain). *)
Record chain := mkChain {
  c_type : ctype;
  c_rng : option G;
  c_offset : option nat;
  c_in_epochs : bool;
  c_shuffle : bool;
  c_remaining : nat;
  c_draws : nat;
  c_indices : option (list nat);
  c_mb : nat;
  c_cache : nat }.

(** numpy_loader.py:266-275 *)
Definition new_random_chain (N cache mb : nat) (in_epochs shuffle : bool) (seed : nat) : chain :=
  mkChain Random (Some (rng_of_seed seed)) None in_epochs shuffle 0 (ceil_div N mb) None mb cache.

(** numpy_loader.py:303-307 *)
Definition new_ordered_chain (cache mb : nat) : chain :=
  mkChain Ordered None (Some 0) false false 0 0 None mb cache.

(** numpy_loader.py:342-355 *)
Definition batch := (list nat * list bool)%type.

(** [_ordered_indices], numpy_loader.py:357-370.  [onp.mod(idcs, 0)] for N = 0 is not
    reachable with mb >= 1. *)
Definition ordered_indices (N : nat) (c : chain) : res (chain * batch) :=
  match c_offset c with
  | None => Exc TypeError
  | Some off =>
      let idcs := map (fun i => i + off) (seq 0 (c_mb c)) in
      let mask := map (fun i => i + off <? N) (seq 0 (c_mb c)) in
      let off' := if N <=? off + c_mb c then 0 else off + c_mb c in
      Ok (mkChain (c_type c) (c_rng c) (Some off') (c_in_epochs c) (c_shuffle c)
            (c_remaining c) (c_draws c) (c_indices c) (c_mb c) (c_cache c),
          (map (fun i => i mod N) idcs, mask))
  end.

(** [_draw_indices], numpy_loader.py:382-389 *)
Definition draw_indices (N : nat) (c : chain) : res (chain * batch) :=
  match c_rng c with
  | None => Exc AttributeError
  | Some g =>
      let (g', sel) := choice_repl g N (c_mb c) in
      Ok (mkChain (c_type c) (Some g') (c_offset c) (c_in_epochs c) (c_shuffle c)
            (c_remaining c) (c_draws c) (c_indices c) (c_mb c) (c_cache c),
          (sel, repeat true (c_mb c)))
  end.

(** refresh part of [_shuffle_indices], numpy_loader.py:396-418 *)
Definition shuffle_refresh (N : nat) (c : chain) (g : G) : chain :=
  let ceil_draws := N / c_mb c + 2 in
  let (g', new_indices) := choice_perm g N in
  let draws0 := match c_indices c with None => 0 | Some _ => c_draws c end in
  let buf0 := match c_indices c with
              | None => repeat 0 (ceil_draws * c_mb c)
              | Some b => b end in
  let update_idxs := map (fun i => (i + draws0 * c_mb c + c_remaining c)
                                     mod (ceil_draws * c_mb c)) (seq 0 N) in
  mkChain (c_type c) (Some g') (c_offset c) (c_in_epochs c) (c_shuffle c)
    (c_remaining c + N) draws0 (Some (scatter buf0 update_idxs new_indices))
    (c_mb c) (c_cache c).

(** [_shuffle_indices], numpy_loader.py:391-430 *)
Definition shuffle_indices (N : nat) (c : chain) : res (chain * batch) :=
  let floor_draws := N / c_mb c in
  let ceil_draws := floor_draws + 2 in
  let* c1 := (if c_remaining c <? c_mb c then
                match c_rng c with
                | None => Exc AttributeError
                | Some g => Ok (shuffle_refresh N c g)
                end
              else Ok c) in
  match c_indices c1 with
  | None => Exc TypeError
  | Some buf =>
      let mask := repeat true (c_mb c1) in
      let selections_idxs := map (fun i => (i + c_draws c1 * c_mb c1)
                                             mod (c_mb c1 * ceil_draws)) (seq 0 (c_mb c1)) in
      let* selections := gather buf selections_idxs in
      Ok (mkChain (c_type c1) (c_rng c1) (c_offset c1) (c_in_epochs c1) (c_shuffle c1)
            (c_remaining c1 - c_mb c1) ((c_draws c1 + 1) mod ceil_draws) (Some buf)
            (c_mb c1) (c_cache c1),
          (selections, mask))
  end.

(** [_shuffle_in_epochs], numpy_loader.py:432-460 *)
Definition shuffle_in_epochs (N : nat) (c : chain) : res (chain * batch) :=
  let ceil_draws := ceil_div N (c_mb c) in
  let* c1 :=
    (if c_draws c =? ceil_draws then
       match c_rng c with
       | None => Exc AttributeError
       | Some g =>
           let (g', new_indices) := choice_perm g N in
           let buf0 := match c_indices c with
                       | None => repeat 0 (ceil_draws * c_mb c)
                       | Some b => b end in
           Ok (mkChain (c_type c) (Some g') (c_offset c) (c_in_epochs c) (c_shuffle c)
                 (c_remaining c) 0 (Some (new_indices ++ skipn N buf0))
                 (c_mb c) (c_cache c))
       end
     else Ok c) in
  match c_indices c1 with
  | None => Exc TypeError
  | Some buf =>
      let start_idx := c_mb c1 * c_draws c1 in
      let end_idx := c_mb c1 * (c_draws c1 + 1) in
      let mask := map (fun i => i <? N) (seq start_idx (end_idx - start_idx)) in
      Ok (mkChain (c_type c1) (c_rng c1) (c_offset c1) (c_in_epochs c1) (c_shuffle c1)
            (c_remaining c1) (c_draws c1 + 1) (Some buf) (c_mb c1) (c_cache c1),
          (slice buf start_idx end_idx, mask))
  end.

(** selection of the index function, numpy_loader.py:343-351 *)
Definition index_fn (N : nat) (c : chain) : res (chain * batch) :=
  match c_type c with
  | Ordered => ordered_indices N c
  | Random => if c_in_epochs c then shuffle_in_epochs N c
              else if c_shuffle c then shuffle_indices N c
              else draw_indices N c
  end.

(** [_get_indices], numpy_loader.py:342-355.  A cache of size 0 makes the unpacking of
    [list(zip( *[] ))] fail with ValueError. *)
Definition get_indices (N : nat) (c : chain) : res (chain * list batch) :=
  if c_cache c =? 0 then Exc ValueError
  else iter_res (index_fn N) (c_cache c) c.

(** ** The loader *)
Context {obs : Type}.

(** the state of a loader: number of observations, named data arrays, chains *)
(** numpy_loader.py:41-62, 177-184 *)
Record loader := mkLoader {
  l_count : nat;
  l_data : list (String.string * list obs);
  l_chains : list chain }.

(** [NumpyBase.__init__], numpy_loader.py:41-63 with [_chains = []] (line 184) *)
Definition make_loader (data : list (String.string * list obs)) : res loader :=
  match data with
  | [] => Ok (mkLoader 0 [] [])
  | (_, a0) :: _ =>
      if existsb (fun na => negb (length (snd na) =? length a0)) data
      then Exc ValueError
      else Ok (mkLoader (length a0) data [])
  end.

(** [register_random_pipeline], numpy_loader.py:231-282; [seed = None] is the default
    [seed = chain_id].  [mb_size = 0] makes [observation_count / mb_size] raise
    ZeroDivisionError (line 272) before the chain is stored. *)
Definition register_random (l : loader) (cache mb : nat) (in_epochs shuffle : bool)
    (seed : option nat) : loader * res nat :=
  if l_count l <? mb then (l, Exc ValueError)
  else if negb shuffle && in_epochs then (l, Exc ValueError)
  else if mb =? 0 then (l, Exc ZeroDivisionError)
  else
    let chain_id := length (l_chains l) in
    let s := match seed with Some s => s | None => chain_id end in
    (mkLoader (l_count l) (l_data l)
       (l_chains l ++ [new_random_chain (l_count l) cache mb in_epochs shuffle s]),
     Ok chain_id).

(** [register_ordered_pipeline], numpy_loader.py:284-312 *)
Definition register_ordered (l : loader) (cache mb : nat) : loader * res nat :=
  if mb <=? l_count l then
    (mkLoader (l_count l) (l_data l) (l_chains l ++ [new_ordered_chain cache mb]),
     Ok (length (l_chains l)))
  else (l, Exc AssertionError).

(** Slicing of the data, numpy_loader.py:331-340: every array is indexed with the
    (cache, mb) index array. *)
Fixpoint slice_rows (a : list obs) (rows : list (list nat)) : res (list (list obs)) :=
  match rows with
  | [] => Ok []
  | r :: rs => let* x := gather a r in let* xs := slice_rows a rs in Ok (x :: xs)
  end.

(** numpy_loader.py:332-339 *)
Fixpoint slice_data (data : list (String.string * list obs)) (rows : list (list nat))
  : res (list (String.string * list (list obs))) :=
  match data with
  | [] => Ok []
  | (k, a) :: rest =>
      let* x := slice_rows a rows in
      let* xs := slice_data rest rows in Ok ((k, x) :: xs)
  end.

(** result of get_batches, numpy_loader.py:314-340 *)
Definition batches := (list (String.string * list (list obs)) * list (list bool))%type.

(** [get_batches], numpy_loader.py:314-340 *)
Definition get_batches (l : loader) (cid : nat) : loader * res batches :=
  match nth_error (l_chains l) cid with
  | None => (l, Exc IndexError)
  | Some c =>
      match get_indices (l_count l) c with
      | Exc e => (l, Exc e)
      | Ok (c', bs) =>
          let l' := mkLoader (l_count l) (l_data l) (upd (l_chains l) cid c') in
          match slice_data (l_data l) (map fst bs) with
          | Exc e => (l', Exc e)
          | Ok d => (l', Ok (d, map snd bs))
          end
      end
  end.

(** A checkpoint returned by [save_state], numpy_loader.py:201-206: a one-entry dict; the
    random variant carries the generator state and a deep copy of all other entries. *)
Inductive ckpt := CkRandom (g : G) (c : chain) | CkOrdered (off : option nat).

(** [save_state], numpy_loader.py:186-208 *)
Definition save_state (l : loader) (cid : nat) : res ckpt :=
  match nth_error (l_chains l) cid with
  | None => Exc IndexError
  | Some c =>
      match c_type c with
      | Random => match c_rng c with
                  | Some g => Ok (CkRandom g c)
                  | None => Exc AttributeError end
      | Ordered => Ok (CkOrdered (c_offset c))
      end
  end.

(** [load_state], numpy_loader.py:210-229.  The checkpoint is the caller's dictionary: it is
    emptied by [data.popitem()] (line 220), so the function returns the dictionary's new
    content too; [None] is the empty dictionary, on which popitem raises KeyError. *)
Definition load_state (l : loader) (cid : nat) (data : option ckpt)
  : (loader * option ckpt) * res unit :=
  match data with
  | None => ((l, None), Exc KeyError)
  | Some ck =>
      match nth_error (l_chains l) cid with
      | None => ((l, None), Exc IndexError)
      | Some c =>
          match ck with
          | CkRandom g d =>
              match c_rng c with
              | None => ((l, None), Exc AttributeError)
              | Some _ =>
                  let c' := mkChain (c_type d) (Some g) (c_offset d) (c_in_epochs d)
                              (c_shuffle d) (c_remaining d) (c_draws d) (c_indices d)
                              (c_mb d) (c_cache d) in
                  ((mkLoader (l_count l) (l_data l) (upd (l_chains l) cid c'), None), Ok tt)
              end
          | CkOrdered off =>
              let c' := mkChain (c_type c) (c_rng c) off (c_in_epochs c)
                          (c_shuffle c) (c_remaining c) (c_draws c) (c_indices c)
                          (c_mb c) (c_cache c) in
              ((mkLoader (l_count l) (l_data l) (upd (l_chains l) cid c'), None), Ok tt)
          end
      end
  end.

(** Public operations on a loader. *)
(** the methods of numpy_loader.py:186-340 *)
Inductive lop :=
| RegRandom (cache mb : nat) (in_epochs shuffle : bool) (seed : option nat)
| RegOrdered (cache mb : nat)
| GetBatches (cid : nat)
| LoadState (cid : nat) (data : ckpt).   (** with a checkpoint that still has its entry *)

(** results of numpy_loader.py:186-340 *)
Inductive lout := OId (r : res nat) | OBatch (r : res batches) | OUnit (r : res unit).

(** numpy_loader.py:186-340 *)
Definition lstep (l : loader) (o : lop) : loader * lout :=
  match o with
  | RegRandom ca mb ie sh sd => let (l', r) := register_random l ca mb ie sh sd in (l', OId r)
  | RegOrdered ca mb => let (l', r) := register_ordered l ca mb in (l', OId r)
  | GetBatches cid => let (l', r) := get_batches l cid in (l', OBatch r)
  | LoadState cid ck => let '((l', _), r) := load_state l cid (Some ck) in (l', OUnit r)
  end.

End Loader.

Arguments chain : clear implicits.
Arguments loader : clear implicits.
Arguments ckpt : clear implicits.
Arguments lop : clear implicits.
Arguments lout : clear implicits.
Arguments batches obs : clear implicits.
Arguments mkLoader {G obs}.
Arguments get_batches {G} _ _ {obs}.
Arguments lstep {G} _ _ _ {obs}.
Arguments register_random {G} _ {obs}.
Arguments register_ordered {G obs}.
