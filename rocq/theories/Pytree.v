(** Model of the pytree <-> dictionary conversion, jax_sgmc/io.py:63-238, and of the parts of
    jax.tree_util it uses.

    Simplifications: dictionary keys and field names are strings; a dict is represented by its
    entries sorted by key (python compares dicts without regard to insertion order and jax flattens
    them in sorted order); haiku FlatMapping behaves as a dict; custom pytree nodes are nodes with a
    tag. *)
From Coq Require Import String Ascii DecimalString.
From Verif Require Import Base.
Set Implicit Arguments.

(** ** jax.tree_util *)
(** node types of a pytree; KDict and KNamed carry their keys / field names *)
(** jax.tree_util node types; no code of /repo *)
Inductive kind :=
| KNone | KDict (keys : list string) | KList | KTuple | KNamed (fields : list string) | KCustom (tag : nat).

(** jax pytrees; no code of /repo *)
Inductive tree (A : Type) : Type :=
| Leaf (a : A)
| Node (k : kind) (ch : list (tree A)).
Arguments Leaf {A}. Arguments Node {A}.

(** [tree_leaves] *)
(** jax.tree_util.tree_leaves (io.py:445) *)
Fixpoint leaves {A} (t : tree A) : list A :=
  match t with Leaf a => [a] | Node _ ch => flat_map leaves ch end.

(** [tree_map] *)
(** jax.tree_util.tree_map (io.py:337) *)
Fixpoint tree_map {A B} (f : A -> B) (t : tree A) : tree B :=
  match t with Leaf a => Leaf (f a) | Node k ch => Node k (map (tree_map f) ch) end.

(** put the given values at the places of the leaves, returning the unused values *)
(** jax.tree_util.tree_unflatten; no code of /repo *)
Fixpoint fill {A B} (t : tree A) (bs : list B) : res (tree B * list B) :=
  match t with
  | Leaf _ => match bs with [] => Exc ValueError | b :: r => Ok (Leaf b, r) end
  | Node k ch =>
      let* cr := (fix fills (ts : list (tree A)) (bs : list B) : res (list (tree B) * list B) :=
                    match ts with
                    | [] => Ok ([], bs)
                    | x :: xs => let* xr := fill x bs in
                                 let* xsr := fills xs (snd xr) in Ok (fst xr :: fst xsr, snd xsr)
                    end) ch bs in
      Ok (Node k (fst cr), snd cr)
  end.
(** [tree_unflatten(tree_structure(t), bs)]: ValueError for a wrong number of leaves *)
(** jax.tree_util.tree_unflatten (io.py:188-219) *)
Definition unflatten {A B} (t : tree A) (bs : list B) : res (tree B) :=
  let* r := fill t bs in match snd r with [] => Ok (fst r) | _ => Exc ValueError end.

(** [treedef_is_leaf]: the structure has one node *)
(** jax.tree_util.treedef_is_leaf (io.py:115-145) *)
Definition treedef_is_leaf {A} (t : tree A) : bool :=
  match t with Leaf _ => true | Node _ [] => true | _ => false end.

(** unflattening with arbitrary objects as leaves yields a tree in which they are subtrees *)
(** jax.tree_util.tree_unflatten (io.py:115-145) *)
Fixpoint graft {A} (t : tree (tree A)) : tree A :=
  match t with Leaf x => x | Node k ch => Node k (map graft ch) end.

(** ** dictionaries *)
(** python string order (code points) *)
(** python's order of strings; no code of /repo *)
Fixpoint sltb (a b : string) : bool :=
  match a, b with
  | _, EmptyString => false
  | EmptyString, String _ _ => true
  | String x a', String y b' =>
      if nat_of_ascii x <? nat_of_ascii y then true
      else if nat_of_ascii x =? nat_of_ascii y then sltb a' b' else false
  end.

(** [d[k] = v] on a dictionary with sorted entries *)
(** python dictionary as jax flattens it (sorted keys); no code of /repo *)
Fixpoint dset {V} (k : string) (v : V) (d : list (string * V)) : list (string * V) :=
  match d with
  | [] => [(k, v)]
  | kv :: r => if sltb k (fst kv) then (k, v) :: d
               else if String.eqb k (fst kv) then (k, v) :: r else kv :: dset k v r
  end.
(** dictionary comprehension over key-value pairs *)
(** io.py:98-145 *)
Definition dict_of {V} (kvs : list (string * V)) : list (string * V) :=
  fold_left (fun d kv => dset (fst kv) (snd kv) d) kvs [].
(** io.py:98-145 *)
Definition mk_dict {A} (kvs : list (string * tree A)) : tree A :=
  let d := dict_of kvs in Node (KDict (map fst d)) (map snd d).
(** [d.get(k)] *)
(** python's dict.get (io.py:211-217) *)
Fixpoint dget {V} (k : string) (d : list (string * V)) : option V :=
  match d with [] => None | (k', v) :: r => if String.eqb k k' then Some v else dget k r end.

(** ** io.py *)
Definition dec (n : nat) : string := NilZero.string_of_uint (Nat.to_uint n).
(** io.py:226, 233 *)
Definition list_element (i : nat) : string := append "list_element_" (dec i).
(** io.py:98-101 *)
Definition unknown_leaf (i : nat) : string := append "unknown~pytree~leaf~" (dec i).

(** the names that the dictionize rules give to the n children of a node, io.py:220-238 *)
Definition child_names (k : kind) (n : nat) : list string :=
  match k with
  | KDict keys => keys
  | KNamed fields => fields
  | _ => map list_element (seq 0 n)
  end.

(** [pytree_to_dict] with [_dictionize], io.py:103-145 *)
Fixpoint to_dict {A} (t : tree A) : tree A :=
  match t with
  | Leaf a => Leaf a
  | Node k ch =>
      match ch with
      | [] => t                                             (* treedef_is_leaf, io.py:140-141 *)
      | _ =>
          match leaves t with
          | [] => mk_dict []                                (* no leaves, io.py:107-108 *)
          | ls =>
              match k with
              | KCustom _ =>                                (* _default_dictionize, io.py:98-101 *)
                  mk_dict (combine (map unknown_leaf (seq 0 (length ls))) (map Leaf ls))
              | _ => mk_dict (combine (child_names k (length ch)) (map to_dict ch))
              end
          end
      end
  end.

(** [_recurse] of [pytree_dict_keys], io.py:177-184 *)
Fixpoint key_recurse (t : tree nat) (path : list string) (key_list : list (option (list string)))
  : res (list (option (list string))) :=
  match t with
  | Node KNone _ => Ok key_list
  | Leaf i => Ok (upd key_list i (Some path))
  | Node (KDict keys) ch =>
      (fix go (keys : list string) (ch : list (tree nat)) (kl : list (option (list string))) {struct ch} :=
         match keys, ch with
         | k :: keys', c :: ch' => let* kl' := key_recurse c (path ++ [k]) kl in go keys' ch' kl'
         | _, _ => Ok kl
         end) keys ch key_list
  | Node _ _ => Exc AttributeError                           (* no attribute 'items' *)
  end.

(** io.py:188-219 *)
Fixpoint all_some {X} (l : list (option X)) : res (list X) :=
  match l with
  | [] => Ok []
  | Some x :: r => let* xs := all_some r in Ok (x :: xs)
  | None :: _ => Exc TypeError                               (* tuple(None) *)
  end.

(** [pytree_dict_keys], io.py:147-186 *)
Definition dict_keys {A} (t : tree A) : res (list (list string)) :=
  let node := to_dict t in
  let n := length (leaves node) in
  let* idx_tree := unflatten node (seq 0 n) in
  let* kl := key_recurse idx_tree [] (repeat None n) in
  all_some kl.

(** [_recurse_get], io.py:211-216; a missing key yields None *)
Fixpoint path_get {A} (d : tree A) (path : list string) : res (tree A) :=
  match path with
  | [] => Ok d
  | k :: p => match d with
              | Node (KDict keys) ch =>
                  match dget k (combine keys ch) with
                  | Some x => path_get x p
                  | None => path_get (Node KNone []) p
                  end
              | _ => Exc AttributeError
              end
  end.
(** python's list comprehension (io.py:188-219) *)
Fixpoint mapM {X Y} (f : X -> res Y) (l : list X) : res (list Y) :=
  match l with [] => Ok [] | x :: r => let* y := f x in let* ys := mapM f r in Ok (y :: ys) end.

(** [dict_to_pytree], io.py:188-218 *)
Definition dict_to_pytree {A} (d : tree A) (target : tree A) : res (tree A) :=
  let* keys := dict_keys target in
  let* new_leaves := mapM (path_get d) keys in
  let* t := unflatten target new_leaves in
  Ok (graft t).

(** [sep.join(parts)] *)
(** python's str.join (io.py:443, 560) *)
Fixpoint join (sep : string) (parts : list string) : string :=
  match parts with
  | [] => EmptyString
  | [p] => p
  | p :: ps => append p (append sep (join sep ps))
  end.
