(** Model of the memory of NumpyDataLoader: which arrays and dictionaries are shared (numpy_loader.py:41-63, 186-229, 266-275, 391-460).

    Host memory holds the data arrays, the arrays random_indices of the chains and the dictionaries returned by save_state.  The functions of NumpyLoader.v compute
    the new content of random_indices; here it is written in place, as [chain['random_indices'][...] = new_indices] does (lines 418, 449), and the array is allocated when it
    was None (lines 402-406, 443-447).

    Simplifications: the batches are jax arrays (jnp.array, line 335), which cannot be modified; a write of the user with an index out of range does nothing (it raises before the library is
    involved); [deepcopy] copies everything, [dict(ckpt)] only the outer dictionary. *)
From Verif Require Import Base NumpyLoader.
From Coq Require String.
Set Implicit Arguments.

Section Memory.
Context {G obs : Type}.
Variable choice_repl : G -> nat -> nat -> G * list nat.
Variable choice_perm : G -> nat -> G * list nat.
Variable rng_of_seed : nat -> G.
Notation chain := (chain G). Notation loader := (loader G obs).

(** a chain dictionary whose entry random_indices is None or a reference; the field c_indices of the first component is not used *)
(** numpy_loader.py:231-312 *)
Definition mchain := (chain * option nat)%type.
(** content of a checkpoint dictionary: the state of the generator is a copy, random_indices a reference *)
(** numpy_loader.py:186-208 *)
Inductive mckpt := MRandom (g : G) (c : mchain) | MOrdered (off : option nat).
(** numpy_loader.py:41-62, 177-208 *)
Record memory := mkMem {
  m_arrays : list (list obs);
  m_buffers : list (list nat);
  m_dicts : list (option mckpt);            (** None: the emptied dictionary *)
  m_count : nat;                            (** _observation_count *)
  m_names : list (String.string * nat);     (** _reference_data *)
  m_chains : list mchain
}.

(** dereferencing *)
(** no code of /repo *)
Definition with_indices (c : chain) (i : option (list nat)) : chain :=
  mkChain (c_type c) (c_rng c) (c_offset c) (c_in_epochs c) (c_shuffle c) (c_remaining c) (c_draws c) i (c_mb c) (c_cache c).
(** python references; no code of /repo *)
Definition deref (buffers : list (list nat)) (mc : mchain) : chain :=
  with_indices (fst mc) (option_map (fun a => nth a buffers []) (snd mc)).
(** python references; no code of /repo *)
Definition view (m : memory) : loader :=
  mkLoader (m_count m) (map (fun na => (fst na, nth (snd na) (m_arrays m) [])) (m_names m)) (map (deref (m_buffers m)) (m_chains m)).
(** storing a chain in the dictionary [mc]: in place if the array exists, a new array otherwise *)
(** numpy_loader.py:382-480 (in-place assignment to chain['random_indices']) *)
Definition store (buffers : list (list nat)) (mc : mchain) (c : chain) : list (list nat) * mchain :=
  match snd mc, c_indices c with
  | Some a, Some b => (upd buffers a b, (with_indices c None, Some a))
  | None, Some b => (buffers ++ [b], (with_indices c None, Some (length buffers)))
  | _, None => (buffers, (with_indices c None, None))
  end.
(** a copy of a chain dictionary ([deepcopy], lines 202-203) *)
Definition deep (buffers : list (list nat)) (mc : mchain) : list (list nat) * mchain :=
  match snd mc with
  | Some a => (buffers ++ [nth a buffers []], (fst mc, Some (length buffers)))
  | None => (buffers, mc)
  end.

(** [NumpyBase.__init__], numpy_loader.py:41-63: with copy the arrays are copied, without copy they are referenced; [args] are the arguments name=array *)
Definition mem_make (copy : bool) (arrays : list (list obs)) (args : list (String.string * nat)) : res memory :=
  let* l := make_loader (G := G) (map (fun na => (fst na, nth (snd na) arrays [])) args) in
  if copy then
    Ok (mkMem (arrays ++ map (fun na => nth (snd na) arrays []) args) [] [] (l_count l) (combine (map fst args) (seq (length arrays) (length args))) [])
  else Ok (mkMem arrays [] [] (l_count l) args []).

(** the methods of numpy_loader.py:186-340 and actions of the user *)
Inductive mop :=
| MNew (a : list obs)                                             (** the user creates an array *)
| MWrite (a i : nat) (v : obs)                                    (** the user writes into an array *)
| MRegRandom (cache mb : nat) (in_epochs shuffle : bool) (seed : option nat)
| MRegOrdered (cache mb : nat)
| MGet (cid : nat)
| MSave (cid : nat)                                               (** d = save_state(cid) *)
| MShallow (d : nat)                                              (** d' = dict(d) *)
| MDeep (d : nat)                                                 (** d' = deepcopy(d) *)
| MLoad (cid d : nat).                                            (** load_state(cid, d) *)
(** results of numpy_loader.py:186-340 *)
Inductive mout := UNone | UReg (r : res nat) | UBatch (r : res (batches obs)) | USaved (r : res nat) | ULoaded (r : res unit).

(** no code of /repo *)
Definition set_chains m cs := mkMem (m_arrays m) (m_buffers m) (m_dicts m) (m_count m) (m_names m) cs.
(** numpy_loader.py:186-340 *)
Definition mem_step (m : memory) (o : mop) : memory * mout :=
  match o with
  | MNew a => (mkMem (m_arrays m ++ [a]) (m_buffers m) (m_dicts m) (m_count m) (m_names m) (m_chains m), UNone)
  | MWrite a i v => (mkMem (upd (m_arrays m) a (upd (nth a (m_arrays m) []) i v)) (m_buffers m) (m_dicts m) (m_count m) (m_names m) (m_chains m), UNone)
  | MRegRandom ca mb ie sh sd =>
      (* lines 252-282: random_indices is None *)
      let (l', r) := register_random rng_of_seed (view m) ca mb ie sh sd in
      (set_chains m (m_chains m ++ map (fun c => (c, None)) (skipn (length (m_chains m)) (l_chains l'))), UReg r)
  | MRegOrdered ca mb =>
      let (l', r) := register_ordered (view m) ca mb in
      (set_chains m (m_chains m ++ map (fun c => (c, None)) (skipn (length (m_chains m)) (l_chains l'))), UReg r)
  | MGet cid =>
      let (l', r) := get_batches choice_repl choice_perm (view m) cid in
      match nth_error (m_chains m) cid, nth_error (l_chains l') cid with
      | Some mc, Some c =>
          let (buffers, mc') := store (m_buffers m) mc c in
          (mkMem (m_arrays m) buffers (m_dicts m) (m_count m) (m_names m) (upd (m_chains m) cid mc'), UBatch r)
      | _, _ => (m, UBatch r)
      end
  | MSave cid =>
      match nth_error (m_chains m) cid with
      | None => (m, USaved (Exc IndexError))
      | Some mc =>
          match c_type (fst mc), c_rng (fst mc) with
          | Random, Some g =>
              let (buffers, mc') := deep (m_buffers m) mc in
              (mkMem (m_arrays m) buffers (m_dicts m ++ [Some (MRandom g mc')]) (m_count m) (m_names m) (m_chains m), USaved (Ok (length (m_dicts m))))
          | Random, None => (m, USaved (Exc AttributeError))
          | Ordered, _ => (mkMem (m_arrays m) (m_buffers m) (m_dicts m ++ [Some (MOrdered (c_offset (fst mc)))]) (m_count m) (m_names m) (m_chains m), USaved (Ok (length (m_dicts m))))
          end
      end
  | MShallow d =>
      match nth_error (m_dicts m) d with
      | None => (m, USaved (Exc IndexError))
      | Some x => (mkMem (m_arrays m) (m_buffers m) (m_dicts m ++ [x]) (m_count m) (m_names m) (m_chains m), USaved (Ok (length (m_dicts m))))
      end
  | MDeep d =>
      match nth_error (m_dicts m) d with
      | None => (m, USaved (Exc IndexError))
      | Some (Some (MRandom g mc)) =>
          let (buffers, mc') := deep (m_buffers m) mc in
          (mkMem (m_arrays m) buffers (m_dicts m ++ [Some (MRandom g mc')]) (m_count m) (m_names m) (m_chains m), USaved (Ok (length (m_dicts m))))
      | Some x => (mkMem (m_arrays m) (m_buffers m) (m_dicts m ++ [x]) (m_count m) (m_names m) (m_chains m), USaved (Ok (length (m_dicts m))))
      end
  | MLoad cid d =>
      (* lines 220-229: popitem empties the dictionary, the entries are stored by reference *)
      match nth_error (m_dicts m) d with
      | None => (m, ULoaded (Exc IndexError))
      | Some None => (m, ULoaded (Exc KeyError))
      | Some (Some ck) =>
          let dicts := upd (m_dicts m) d None in
          let m' := mkMem (m_arrays m) (m_buffers m) dicts (m_count m) (m_names m) (m_chains m) in
          match nth_error (m_chains m) cid with
          | None => (m', ULoaded (Exc IndexError))
          | Some mc =>
              match ck with
              | MRandom g (c, a) =>
                  match c_rng (fst mc) with
                  | None => (m', ULoaded (Exc AttributeError))
                  | Some _ =>
                      let c' := mkChain (c_type c) (Some g) (c_offset c) (c_in_epochs c) (c_shuffle c) (c_remaining c) (c_draws c) None (c_mb c) (c_cache c) in
                      (set_chains m' (upd (m_chains m) cid (c', a)), ULoaded (Ok tt))
                  end
              | MOrdered off =>
                  let c := fst mc in
                  let c' := mkChain (c_type c) (c_rng c) off (c_in_epochs c) (c_shuffle c) (c_remaining c) (c_draws c) None (c_mb c) (c_cache c) in
                  (set_chains m' (upd (m_chains m) cid (c', snd mc)), ULoaded (Ok tt))
              end
          end
      end
  end.
End Memory.
Arguments memory : clear implicits.
Arguments mop : clear implicits.
Arguments mout : clear implicits.
