(** Model of jax_sgmc/util/tree_util.py:15-133 and jax_sgmc/util/list_map.py:7-150: pytrees of arrays as vectors.

    Simplifications: array elements are real numbers; arrays are given by their shape and their elements in row-major order; the
    broadcasting of arrays of different shape is not modelled (Exc TypeError) as the functions ask for equal shapes. *)
From Coq Require Import Reals.
From Verif Require Import Base Pytree Io.
Open Scope R_scope.
Set Implicit Arguments.

(** jnp.ndarray *)
Record arr := mkArr { ashape : list nat; adata : list R }.
Definition size (shape : list nat) : nat := fold_right Nat.mul 1%nat shape.
Notation vtree := (tree arr).

Definition shape_eqb (s s' : list nat) : bool := if list_eq_dec Nat.eq_dec s s' then true else false.
(** elementwise operation on two arrays *)
Definition arr_op2 (g : R -> R -> R) (x y : arr) : res arr :=
  if shape_eqb (ashape x) (ashape y) then Ok (mkArr (ashape x) (zip_with g (adata x) (adata y))) else Exc TypeError.
(** apply a function that may raise to the leaves *)
Definition tree_mapM {A B} (f : A -> res B) (t : tree A) : res (tree B) := let* ls := mapM f (leaves t) in unflatten t ls.
(** [tree_map(op, a, b)] *)
Definition tree_op2 (g : R -> R -> R) (a b : vtree) : res vtree :=
  let* t := tree_map2 pair a b in tree_mapM (fun xy => arr_op2 g (fst xy) (snd xy)) t.

(** tree_util.py:58-69 *)
Definition tree_multiply : vtree -> vtree -> res vtree := tree_op2 Rmult.
(** tree_util.py:72-86 *)
Definition tree_scale (alpha : R) (t : vtree) : vtree := tree_map (fun x => mkArr (ashape x) (map (Rmult alpha) (adata x))) t.
(** tree_util.py:89-102 *)
Definition tree_add : vtree -> vtree -> res vtree := tree_op2 Rplus.

(** [sum] of python *)
Definition rsum (l : list R) : R := fold_left Rplus l 0.
(** [jnp.sum(jnp.multiply(a, b))] *)
Definition arr_dot (x y : arr) : res R := let* z := arr_op2 Rmult x y in Ok (rsum (adata z)).
(** tree_util.py:119-133; zip stops at the shorter list of leaves *)
Definition tree_dot (a b : vtree) : res R :=
  let* l := mapM (fun xy => arr_dot (fst xy) (snd xy)) (combine (leaves a) (leaves b)) in Ok (rsum l).

(** jax.flatten_util.ravel_pytree *)
Definition ravel (t : vtree) : list R := flat_map adata (leaves t).
(** the returned [unravel_fn]: TypeError for a wrong number of elements *)
Fixpoint split_as (shapes : list (list nat)) (v : list R) : list arr :=
  match shapes with [] => [] | s :: r => mkArr s (firstn (size s) v) :: split_as r (skipn (size s) v) end.
Definition unravel (t : vtree) (v : list R) : res vtree :=
  if (length v =? length (ravel t))%nat then unflatten t (split_as (map ashape (leaves t)) v) else Exc TypeError.

(** [jnp.matmul] of a matrix, given by its rows, and a vector *)
Definition dot (v w : list R) : R := rsum (zip_with Rmult v w).
Definition matvec (m : list (list R)) (v : list R) : res (list R) :=
  if forallb (fun row => (length row =? length v)%nat) m then Ok (map (fun row => dot row v) m) else Exc TypeError.
(** tree_util.py:105-117 *)
Definition tree_matmul (m : list (list R)) (t : vtree) : res vtree := let* w := matvec m (ravel t) in unravel t w.

(** tree_util.py:26-36: the constructor gives the dimension *)
Inductive tensor := Tens0 (alpha : R) | Tens1 (t : vtree) | Tens2 (m : list (list R)) | TensN (ndim : nat).
(** tree_util.py:38-56 *)
Definition tensor_matmul (m : tensor) (v : vtree) : res vtree :=
  match m with
  | Tens0 a => Ok (tree_scale a v)
  | Tens1 t => tree_multiply t v
  | Tens2 m => tree_matmul m v
  | TensN _ => Exc NotImplementedError
  end.

(** ** list_map.py *)
(** [jnp.stack(l, axis=0)]: ValueError for an empty list or different shapes *)
Definition stack (l : list arr) : res arr :=
  match l with
  | [] => Exc ValueError
  | x :: _ => if forallb (fun y => shape_eqb (ashape y) (ashape x)) l
              then Ok (mkArr (length l :: ashape x) (flat_map adata l)) else Exc ValueError
  end.
(** [x[i]]: IndexError for scalars; indices beyond the first dimension do not occur *)
Definition row (i : nat) (x : arr) : res arr :=
  match ashape x with
  | [] => Exc IndexError
  | _ :: s => Ok (mkArr s (firstn (size s) (skipn (i * size s) (adata x))))
  end.
(** [zip( *lists )] *)
Fixpoint heads {A} (ls : list (list A)) : option (list A * list (list A)) :=
  match ls with
  | [] => Some ([], [])
  | [] :: _ => None
  | (x :: l) :: r => match heads r with Some (hs, ts) => Some (x :: hs, l :: ts) | None => None end
  end.
Fixpoint transpose {A} (fuel : nat) (ls : list (list A)) : list (list A) :=
  match fuel with
  | O => []
  | S fuel' => match ls with [] => [] | _ => match heads ls with None => [] | Some (hs, ts) => hs :: transpose fuel' ts end end
  end.
Definition pyzip {A} (ls : list (list A)) : list (list A) := transpose (match ls with [] => O | l :: _ => length l end) ls.
(** list_map.py:49-56 *)
Definition list_to_leaves (ts : list vtree) : res vtree :=
  match ts with
  | [] => Exc IndexError                                     (* pytrees[0] *)
  | t :: _ => let* superleaves := mapM stack (pyzip (map leaves ts)) in unflatten t superleaves
  end.
(** list_map.py:85-90 *)
Definition leaves_to_list (t : vtree) : res (list vtree) :=
  match leaves t with
  | [] => Exc IndexError                                     (* leaves[0] *)
  | l :: _ =>
      match ashape l with
      | [] => Exc IndexError                                 (* shape[0] *)
      | n :: _ => mapM (fun i => let* ls := mapM (row i) (leaves t) in unflatten t ls) (seq 0 n)
      end
  end.
(** [jax.vmap(fun, 0, 0)]: all leaves must have the same first dimension n (ValueError otherwise); the result is the tree
    whose leaves are stacked from the results for the n slices.  For n = 0 jax determines the structure by abstract
    evaluation, which is not modelled (the functions below never call it with n = 0). *)
Definition lead (x : arr) : res nat := match ashape x with [] => Exc ValueError | n :: _ => Ok n end.
Definition vmap (f : vtree -> res vtree) (t : vtree) : res vtree :=
  match leaves t with
  | [] => Exc ValueError
  | l :: _ =>
      let* n := lead l in
      let* ns := mapM lead (leaves t) in
      if forallb (Nat.eqb n) ns then
        let* slices := mapM (fun i => tree_mapM (row i) t) (seq 0 n) in
        let* rs := mapM f slices in
        match rs with
        | [] => Exc ValueError
        | r0 :: rest => let* st := fold_left (fun acc r => let* a := acc in tree_map2 (fun xs x => xs ++ [x]) a r) rest (Ok (tree_map (fun x => [x]) r0)) in
                        tree_mapM stack st
        end
      else Exc ValueError
  end.
(** list_map.py:93-128 *)
Definition list_vmap (f : vtree -> res vtree) (ts : list vtree) : res (list vtree) :=
  let* single_tree := list_to_leaves ts in
  let* single_result := vmap f single_tree in
  leaves_to_list single_result.
