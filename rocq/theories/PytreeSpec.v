(** Specification vocabulary for the pytree <-> dictionary conversion. *)
From Coq Require Import String.
From Verif Require Import Base Pytree.
Set Implicit Arguments.

Fixpoint strictly_sorted (l : list string) : Prop :=
  match l with
  | a :: ((b :: _) as t) => sltb a b = true /\ strictly_sorted t
  | _ => True
  end.

(** well-formed pytrees: as many names as children, dict entries sorted by key (normal form), field names
    different *)
Fixpoint wf {A} (t : tree A) : Prop :=
  match t with
  | Leaf _ => True
  | Node k ch =>
      match k with
      | KNone => ch = []
      | KDict keys => length keys = length ch /\ strictly_sorted keys
      | KNamed fields => length fields = length ch /\ NoDup fields
      | _ => True
      end /\ fold_right and True (map wf ch)
  end.

(** no empty list, tuple, namedtuple or custom node ({} and None are allowed) *)
Fixpoint no_empty {A} (t : tree A) : Prop :=
  match t with
  | Leaf _ => True
  | Node k ch => (ch = [] -> k = KNone \/ exists keys, k = KDict keys) /\ fold_right and True (map no_empty ch)
  end.

(** trees for which the names are in the order of the children: lists and tuples of at most 10 elements,
    namedtuples with alphabetical fields, custom nodes with at most 10 leaves *)
Fixpoint order_ok {A} (t : tree A) : Prop :=
  match t with
  | Leaf _ => True
  | Node k ch =>
      match k with
      | KNone | KDict _ => True
      | KList | KTuple => length ch <= 10
      | KNamed fields => strictly_sorted fields
      | KCustom _ => length (flat_map leaves ch) <= 10
      end /\ fold_right and True (map order_ok ch)
  end.

(** every leaf in tree order together with the name of its position *)
Fixpoint positions {A} (t : tree A) : list (list string * A) :=
  match t with
  | Leaf a => [([], a)]
  | Node (KCustom _) ch =>
      let ls := flat_map leaves ch in
      combine (map (fun i => [unknown_leaf i]) (seq 0 (length ls))) ls
  | Node k ch =>
      (fix go (names : list string) (ch : list (tree A)) {struct ch} : list (list string * A) :=
         match names, ch with
         | n :: names', c :: ch' => map (fun pa => (n :: fst pa, snd pa)) (positions c) ++ go names' ch'
         | _, _ => []
         end) (child_names k (length ch)) ch
  end.

(** two trees have the same structure *)
Definition same_structure {A B} (t : tree A) (u : tree B) : Prop :=
  tree_map (fun _ => tt) t = tree_map (fun _ => tt) u.
