(** Model of HDF5Collector, jax_sgmc/io.py:378-500, and of the construction of HDF5Loader from such a file,
    jax_sgmc/data/hdf5_loader.py:46-62.

    Simplifications: an h5py file is the list of its datasets; a dataset is a path and the list of its rows
    (new datasets are filled with zeros); groups are implied by the paths. *)
From Coq Require Import String Ascii.
From Verif Require Import Base Pytree PytreeSpec Io IoSpec.
Set Implicit Arguments.

(** components of an HDF5 path: empty components and "." are ignored *)
(** behaviour of h5py (io.py:448-455, 469-470) *)
Fixpoint split_slash (l : list ascii) : list (list ascii) :=
  match l with
  | [] => [[]]
  | c :: r => if Ascii.eqb c "/" then [] :: split_slash r
              else match split_slash r with [] => [[c]] | w :: ws => (c :: w) :: ws end
  end.
(** behaviour of h5py (io.py:448-455, 469-470) *)
Definition h5_path (name : string) : list string :=
  filter (fun s => negb (String.eqb s "" || String.eqb s "."))
         (map string_of_list_ascii (split_slash (list_ascii_of_string name))).

(** comparison of HDF5 paths; no code of /repo *)
Fixpoint is_prefix (a b : list string) : bool :=
  match a, b with
  | [], _ => true
  | _, [] => false
  | x :: a', y :: b' => String.eqb x y && is_prefix a' b'
  end.
(** comparison of HDF5 paths; no code of /repo *)
Definition path_eqb (a b : list string) : bool := is_prefix a b && is_prefix b a.

Section H5.
Context {V : Type}.
Variable zeros_like : V -> V.
(** the h5py file object, io.py:411-417 *)
Definition h5file := list (list string * list V).

(** [file.create_dataset(name, shape)]: ValueError if the name exists, is a group or lies below a dataset *)
(** behaviour of h5py (io.py:452-455) *)
Definition h5_create (f : h5file) (name : string) (rows : list V) : res h5file :=
  let p := h5_path name in
  match p with
  | [] => Exc ValueError
  | _ => if existsb (fun d => is_prefix p (fst d) || is_prefix (fst d) p) f then Exc ValueError else Ok (f ++ [(p, rows)])
  end.
(** behaviour of h5py (io.py:470) *)
Fixpoint h5_find (f : h5file) (p : list string) : option (list V) :=
  match f with [] => None | (q, rows) :: r => if path_eqb p q then Some rows else h5_find r p end.
(** [file[name]] *)
(** behaviour of h5py (io.py:470) *)
Definition h5_get (f : h5file) (name : string) : res (list V) :=
  match h5_find f (h5_path name) with Some rows => Ok rows | None => Exc KeyError end.
(** [file[name][i] = value] *)
(** behaviour of h5py (io.py:470) *)
Fixpoint h5_write (f : h5file) (p : list string) (rows : list V) : h5file :=
  match f with [] => [] | (q, old) :: r => if path_eqb p q then (q, rows) :: r else (q, old) :: h5_write r p rows end.
(** io.py:470 *)
Definition h5_set (f : h5file) (name : string) (i : nat) (v : V) : res h5file :=
  let* rows := h5_get f name in
  let* rows' := np_set rows i v in Ok (h5_write f (h5_path name) rows').

(** self._sample_count, self._leaf_names, io.py:414-417 *)
Record h5_chain := mkHc { hc_count : nat; hc_names : list string }.
(** io.py:411-417 *)
Record h5_coll := mkH { h_file : h5file; h_chains : list h5_chain }.

(** io.py:443 *)
Definition chain_dir (c : nat) : string := append "/chain~" (dec c).

(** creation of the datasets, io.py:441-455; datasets created before an exception remain *)
Fixpoint h5_create_all (f : h5file) (nl : list (string * V)) (k : nat) : h5file * res unit :=
  match nl with
  | [] => (f, Ok tt)
  | (n, l) :: r => match h5_create f n (repeat (zeros_like l) k) with
                   | Exc e => (f, Exc e)
                   | Ok f' => h5_create_all f' r k
                   end
  end.
(** [register_chain], io.py:422-459 *)
Definition hc_register (h : h5_coll) (sample : tree V) (k : nat) : h5_coll * res nat :=
  let c := length (h_chains h) in
  match dict_keys sample with
  | Exc e => (h, Exc e)
  | Ok ks =>
      let names := map (fun kt => join "/" (chain_dir c :: kt)) ks in
      match h5_create_all (h_file h) (combine names (leaves sample)) k with
      | (f, Exc e) => (mkH f (h_chains h), Exc e)
      | (f, Ok _) => (mkH f (h_chains h ++ [mkHc 0 names]), Ok c)
      end
  end.
(** [save], io.py:461-471; values written before an exception remain *)
Fixpoint h5_set_all (f : h5file) (nv : list (string * V)) (i : nat) : h5file * res unit :=
  match nv with
  | [] => (f, Ok tt)
  | (n, v) :: r => match h5_set f n i v with
                   | Exc e => (f, Exc e)
                   | Ok f' => h5_set_all f' r i
                   end
  end.
(** io.py:461-471 *)
Definition hc_save (h : h5_coll) (c : nat) (values : list V) : h5_coll * res unit :=
  match nth_error (h_chains h) c with
  | None => (h, Exc IndexError)
  | Some ch =>
      match h5_set_all (h_file h) (combine (hc_names ch) values) (hc_count ch) with
      | (f, Exc e) => (mkH f (h_chains h), Exc e)
      | (f, Ok _) => (mkH f (upd (h_chains h) c (mkHc (S (hc_count ch)) (hc_names ch))), Ok tt)
      end
  end.

(** [finalize] and [finished] do nothing, io.py:473-500 *)
Inductive hop := HRegister (sample : tree V) (k : nat) | HSave (c : nat) (values : list V) | HFinalize (c : nat) | HFinished (c : nat).
(** results of the methods in io.py:422-500 *)
Inductive hout := HoId (r : res nat) | HoUnit (r : res unit).
(** the methods in io.py:422-500 *)
Definition hstep (h : h5_coll) (o : hop) : h5_coll * hout :=
  match o with
  | HRegister s k => let (h', r) := hc_register h s k in (h', HoId r)
  | HSave c vs => let (h', r) := hc_save h c vs in (h', HoUnit r)
  | HFinalize c => (h, HoUnit (Ok tt))
  | HFinished c => (h, HoUnit (Ok tt))
  end.
(** io.py:411-417 *)
Definition hc_new : h5_coll := mkH [] [].

(** [HDF5Loader(file, subdir, sample)], hdf5_loader.py:46-62: the reference data in the structure of the sample
    and the number of observations *)
Definition h5_open (f : h5file) (subdir : string) (sample : tree V) : res (nat * tree (list V)) :=
  let* ks := dict_keys sample in
  let* data := mapM (h5_get f) (map (fun kt => join "/" (subdir :: kt)) ks) in
  match data with
  | [] => Exc IndexError                                     (* observations_counts[0] *)
  | d :: _ => let* t := unflatten sample data in Ok (length d, t)
  end.
End H5.
Arguments hop : clear implicits.
Arguments h5_coll : clear implicits.
Arguments h5file : clear implicits.

(** values saved for chain c *)
(** specification, no code of /repo *)
Definition hsaves_of {V} (c : nat) (h : list (hop V)) : list (list V) :=
  flat_map (fun o => match o with HSave c' vs => if c' =? c then [vs] else [] | _ => [] end) h.

(** subtree below dictionary nodes *)
(** specification, no code of /repo *)
Fixpoint subtree {A} (p : list string) (t : tree A) : option (tree A) :=
  match p with
  | [] => Some t
  | k :: p' => match t with
               | Node (KDict keys) ch => match dget k (combine keys ch) with Some x => subtree p' x | None => None end
               | _ => None
               end
  end.
(** components that HDF5 takes literally *)
(** specification, no code of /repo *)
Definition h5_ok (s : string) : Prop := ~ In "/"%char (list_ascii_of_string s) /\ s <> ""%string /\ s <> "."%string.
