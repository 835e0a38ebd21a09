(** C48, C49: pytree utilities. *)
From Coq Require Import String.
From Coq Require Import Reals Lra.
From Verif Require Import Base ListUtil Pytree PytreeSpec PytreeProofs Io IoProofs TreeUtil TreeUtilSpec TreeUtilProofs ListMapProofs.
Open Scope R_scope.
Set Implicit Arguments.

(** ** C49 *)
Theorem C49_add : forall a b, wfv a -> wfv b -> same_shape a b ->
  exists c, tree_add a b = Ok c /\ same_shape c a /\ wfv c /\ dim c = dim a /\ forall i, (i < dim a)%nat -> el c i = el a i + el b i.
Proof.
  intros a b Ha Hb S. destruct (tree_op2_ok Rplus Ha Hb S) as (c & E & W & Sc & Hr). exists c. split; [exact E|]. split; auto. split; auto.
  split; [now apply same_shape_dim|]. intros i Hi. unfold el. rewrite Hr. apply zip_with_nth; auto. now apply same_shape_dim.
Qed.
Theorem C49_multiply : forall a b, wfv a -> wfv b -> same_shape a b ->
  exists c, tree_multiply a b = Ok c /\ same_shape c a /\ wfv c /\ dim c = dim a /\ forall i, (i < dim a)%nat -> el c i = el a i * el b i.
Proof.
  intros a b Ha Hb S. destruct (tree_op2_ok Rmult Ha Hb S) as (c & E & W & Sc & Hr). exists c. split; [exact E|]. split; auto. split; auto.
  split; [now apply same_shape_dim|]. intros i Hi. unfold el. rewrite Hr. apply zip_with_nth; auto. now apply same_shape_dim.
Qed.
(** trees of different structure are rejected *)
Theorem C49_mismatch : forall a b, ~ same_structure a b -> tree_add a b = Exc ValueError /\ tree_multiply a b = Exc ValueError.
Proof. intros a b H. unfold tree_add, tree_multiply, tree_op2. now rewrite (tree_map2_mismatch pair H). Qed.
Theorem C49_scale : forall alpha a, wfv a -> same_shape (tree_scale alpha a) a /\ wfv (tree_scale alpha a) /\
  forall i, (i < dim a)%nat -> el (tree_scale alpha a) i = alpha * el a i.
Proof. intros alpha a Ha. destruct (tree_scale_ok alpha a) as (S & E & W). split; auto. split; auto. intros i Hi. now apply el_scale. Qed.
Theorem C49_dot : forall a b, wfv a -> wfv b -> same_shape a b -> tree_dot a b = Ok (sum_upto (dim a) (fun i => el a i * el b i)).
Proof. intros a b Ha Hb S. rewrite tree_dot_ok by assumption. now rewrite dot_sum by (now apply same_shape_dim). Qed.
(** a pytree and its vector determine each other *)
Theorem C49_ravel : forall t, wfv t -> unravel t (ravel t) = Ok t /\
  (forall v, length v = dim t -> exists u, unravel t v = Ok u /\ ravel u = v /\ same_shape u t /\ wfv u) /\
  (forall v, length v <> dim t -> unravel t v = Exc TypeError) /\
  (forall u, wfv u -> same_shape u t -> ravel u = ravel t -> u = t).
Proof.
  intros t Ht. split; [now apply unravel_ravel|]. split; [intros; now apply unravel_ok|]. split.
  - intros v Hv. unfold unravel. fold (dim t). destruct (Nat.eqb_spec (length v) (dim t)); [contradiction|reflexivity].
  - intros u Hu S E. now apply vtree_ext.
Qed.
(** scalar, diagonal and full tensors all multiply as the matrix they stand for *)
Theorem C49_tensor : forall m v, wfv v -> tens_fits m v -> exists w, tensor_matmul m v = Ok w /\ same_shape w v /\ wfv w /\
  forall i, (i < dim v)%nat -> el w i = sum_upto (dim v) (fun j => tens_entry m i j * el v j).
Proof. exact tensor_matmul_ok. Qed.
Theorem C49_tensor_other : forall n v, tensor_matmul (TensN n) v = Exc NotImplementedError.
Proof. reflexivity. Qed.
Definition ex_tree : vtree := Node (KDict ["b"; "w"]%string) [Leaf (mkArr [] [5]); Leaf (mkArr [2; 2]%nat [1; 2; 3; 4])].
Definition ex_mat : list (list R) := [[2;0;0;0;0];[0;1;0;0;1];[0;0;1;0;0];[0;0;0;1;0];[0;0;0;0;3]].
Example C49_nonvacuous : wfv ex_tree /\ same_shape ex_tree ex_tree /\ dim ex_tree = 5%nat /\ tens_fits (Tens2 ex_mat) ex_tree.
Proof. repeat split; try (repeat constructor); reflexivity. Qed.

(** ** C48 *)
(** trees of one shape *)
Definition uniform_shape (ts : list vtree) : Prop := Forall wfv ts /\ forall a b, In a ts -> In b ts -> same_shape a b.
Lemma uniform_alike t0 ts : uniform_shape (t0 :: ts) -> alike t0 (t0 :: ts).
Proof. intros [W S]. apply Forall_forall. intros t Ht. split; [apply S; auto; now left|]. rewrite Forall_forall in W. auto. Qed.
(** stacking a list of trees and splitting it again is the identity *)
Theorem C48_roundtrip : forall ts, ts <> [] -> uniform_shape ts -> Forall (fun t => leaves t <> []) ts ->
  exists u, list_to_leaves ts = Ok u /\ leaves_to_list u = Ok ts.
Proof. intros [|t0 ts] Hne Hu Hl; [contradiction|]. inversion Hl; subst. apply roundtrip; auto. now apply uniform_alike. Qed.
(** list_vmap(f)(t1, ..., tn) = [f(t1), ..., f(tn)] *)
Theorem C48_list_vmap_partial : forall (f : vtree -> res vtree) ts rs, ts <> [] -> uniform_shape ts -> Forall (fun t => leaves t <> []) ts ->
  mapM f ts = Ok rs -> uniform_shape rs -> Forall (fun t => leaves t <> []) rs ->
  list_vmap f ts = Ok rs.
Proof.
  intros f [|t0 ts] rs Hne Hu Hl Hf Hur Hlr; [contradiction|]. destruct rs as [|r0 rs]; [apply mapM_len in Hf; discriminate|].
  inversion Hl; inversion Hlr; subst. apply final_list_vmap; auto using uniform_alike.
Qed.
Theorem C48_empty : forall f, list_vmap f [] = Exc IndexError.
Proof. reflexivity. Qed.
(** fewer leaves than the first tree are rejected *)
Lemma mapM_len_le : forall n (lss : list (list arr)) l, In l lss -> (length (transpose n lss) <= length l)%nat.
Proof.
  induction n as [|n IH]; intros lss l Hl; cbn [transpose]; [cbn; lia|]. destruct lss as [|a lss]; [cbn; lia|].
  destruct (heads (a :: lss)) as [[hs ts]|] eqn:E; [|cbn; lia]. cbn [length].
  assert (G : exists x l', l = x :: l' /\ In l' ts).
  { clear IH. revert hs ts E Hl. generalize (a :: lss). intros L. induction L as [|b L IHL]; intros hs ts E Hl; [inversion Hl|].
    cbn [heads] in E. destruct b as [|x b]; [discriminate|]. destruct (heads L) as [[h t]|]; [|discriminate]. inversion E; subst.
    destruct Hl as [<-|Hl]; [exists x, b; split; auto; now left|]. destruct (IHL h t eq_refl Hl) as (y & l' & -> & Hin). exists y, l'. split; auto. now right. }
  destruct G as (x & l' & -> & Hin). specialize (IH ts l' Hin). cbn. lia.
Qed.
Lemma fill_short A B (t : tree A) : forall (bs : list B), (length bs < length (leaves t))%nat -> exists e, fill t bs = Exc e.
Proof.
  induction t as [a|k ch IH] using tree_ind'; intros bs H; cbn [leaves] in H.
  - destruct bs; [|cbn in H; lia]. cbn. eauto.
  - rewrite fill_node. enough (G : exists e, fills ch bs = Exc e) by (destruct G as (e & ->); cbn; eauto).
    revert bs H. induction IH as [|x ch Hx HF IHl]; intros bs H; cbn [flat_map] in H; [cbn in H; lia|]. rewrite app_length in H. cbn [fills].
    destruct (Nat.lt_ge_cases (length bs) (length (leaves x))) as [Hlt|Hge].
    + destruct (Hx bs Hlt) as (e & ->). cbn. eauto.
    + destruct (@fill_ok A B x (firstn (length (leaves x)) bs) (skipn (length (leaves x)) bs)) as (t' & E & _ & _); [now rewrite firstn_length_le|].
      rewrite firstn_skipn in E. rewrite E. cbn [bind snd].
      destruct (IHl (skipn (length (leaves x)) bs)) as (e & ->); [rewrite skipn_length; lia|]. cbn. eauto.
Qed.
Theorem C48_fewer_leaves : forall f t ts s, In s ts -> (length (leaves s) < length (leaves t))%nat -> exists e, list_vmap f (t :: ts) = Exc e.
Proof.
  intros f t ts s Hs Hlt. unfold list_vmap, list_to_leaves.
  destruct (mapM stack (pyzip (map leaves (t :: ts)))) as [SL|e] eqn:E; [|cbn; eauto]. cbn [bind].
  assert (Hlen : (length SL <= length (leaves s))%nat).
  { rewrite (mapM_len _ _ E). apply mapM_len_le. cbn. right. now apply in_map. }
  destruct (@fill_short arr arr t SL) as (e & Ee); [lia|]. unfold unflatten. rewrite Ee. cbn. eauto.
Qed.
(** What fails: trees of a different structure are not rejected: with as many leaves the structure of the first tree is used for all *)
Theorem C48_mismatch_refuted :
  let a := Node (KDict ["a"; "b"]%string) [Leaf (mkArr [] [1]); Leaf (mkArr [] [2])] in
  let b := Node (KDict ["c"; "d"]%string) [Leaf (mkArr [] [3]); Leaf (mkArr [] [4])] in
  let b' := Node (KDict ["a"; "b"]%string) [Leaf (mkArr [] [3]); Leaf (mkArr [] [4])] in
  (* leaves beyond those of the first tree are dropped *)
  let c := Node (KDict ["a"; "b"; "c"]%string) [Leaf (mkArr [] [3]); Leaf (mkArr [] [4]); Leaf (mkArr [] [5])] in
  ~ same_structure a b /\ list_vmap (fun t => Ok t) [a; b] = Ok [a; b'] /\ list_vmap (fun t => Ok t) [a; c] = Ok [a; b'].
Proof. split; [|split]; [discriminate|reflexivity|reflexivity]. Qed.
(** A result without leaves raises *)
Theorem C48_no_leaves : forall ts u, ts <> [] -> Forall (fun t => leaves t = []) ts -> list_to_leaves ts = Ok u -> leaves_to_list u = Exc IndexError.
Proof.
  intros [|t ts] u Hne Hl H; [contradiction|]. inversion Hl as [|? ? Ht _]; subst. unfold list_to_leaves, pyzip in H. cbn [map] in H. rewrite Ht in H. cbn in H.
  destruct (@unflatten_ok _ arr t []) as (v & E & Lv & _); [now rewrite Ht|]. assert (u = v) by congruence. subst v. unfold leaves_to_list. now rewrite Lv.
Qed.
Example C48_nonvacuous : list_vmap (fun t => Ok (tree_scale 2 t)) [ex_tree; ex_tree] = Ok [tree_scale 2 ex_tree; tree_scale 2 ex_tree].
Proof.
  assert (W : wfv ex_tree) by (repeat constructor). destruct (tree_scale_ok 2 ex_tree) as (S & _ & W').
  apply C48_list_vmap_partial; try discriminate; try reflexivity.
  - split; [repeat constructor; auto|]. intros a b [<-|[<-|[]]] [<-|[<-|[]]]; apply same_shape_refl.
  - repeat constructor; discriminate.
  - split; [repeat constructor; auto|]. intros a b [<-|[<-|[]]] [<-|[<-|[]]]; apply same_shape_refl.
  - repeat constructor; discriminate.
Qed.

Print Assumptions C48_list_vmap_partial.
Print Assumptions C48_mismatch_refuted.
Print Assumptions C49_tensor.
