(** Model of jax_sgmc/data/hdf5_loader.py: HDF5Loader, a NumpyDataLoader whose observations are read
    from the datasets of an h5py file through sorted, de-duplicated indices.

    Simplifications: a dataset is the list of its rows; the pytree structure of the sample is the list
    of its leaf names (tree_unflatten of the leaves in this order, C23 treats the names). *)
From Verif Require Import Base NumpyLoader DataCore.
From Coq Require String.
Set Implicit Arguments.

(** [onp.unique(idx, return_inverse=True)] (hdf5_loader.py:83-84): the sorted distinct values and for
    each entry of idx its position among them *)
Fixpoint insert_unique (x : nat) (l : list nat) : list nat :=
  match l with
  | [] => [x]
  | y :: l' => if x <? y then x :: l else if x =? y then l else y :: insert_unique x l'
  end.
(** behaviour of onp.unique (hdf5_loader.py:82-83) *)
Definition np_unique (l : list nat) : list nat := fold_right insert_unique [] l.
(** behaviour of onp.unique (hdf5_loader.py:82-83) *)
Fixpoint position (x : nat) (l : list nat) : nat :=
  match l with [] => 0 | y :: l' => if x =? y then 0 else S (position x l') end.
(** hdf5_loader.py:82-83 *)
Definition np_unique_inverse (l : list nat) : list nat * list nat :=
  (np_unique l, map (fun x => position x (np_unique l)) l).

(** h5py accepts only strictly increasing index lists (TypeError otherwise); indices must be in range *)
(** behaviour of h5py (hdf5_loader.py:88-89) *)
Fixpoint increasing (l : list nat) : bool :=
  match l with
  | x :: ((y :: _) as t) => (x <? y) && increasing t
  | _ => true
  end.
(** behaviour of h5py (hdf5_loader.py:88-89) *)
Definition h5_read {A} (dataset : list A) (idx : list nat) : res (list A) :=
  if increasing idx then gather dataset idx else Exc TypeError.

(** [unique[restore_idx]] on a jax array, hdf5_loader.py:92-94 *)
Fixpoint jtake {A} (l : list A) (idx : list nat) : res (list A) :=
  match idx with
  | [] => Ok []
  | i :: is => let* x := jindex l i in let* xs := jtake l is in Ok (x :: xs)
  end.

(** one batch of one leaf, hdf5_loader.py:88-94 *)
Definition h5_batch {A} (dataset : list A) (idx : list nat) : res (list A) :=
  let (u, restore) := np_unique_inverse idx in
  let* unique := h5_read dataset u in jtake unique restore.

Section H5.
Context {G obs : Type}.
Variable choice_repl : G -> nat -> nat -> G * list nat.
Variable choice_perm : G -> nat -> G * list nat.
Variable rng_of_seed : nat -> G.

(** hdf5_loader.py:88-92 *)
Fixpoint h5_rows (a : list obs) (rows : list (list nat)) : res (list (list obs)) :=
  match rows with
  | [] => Ok []
  | r :: rs => let* x := h5_batch a r in let* xs := h5_rows a rs in Ok (x :: xs)
  end.
(** hdf5_loader.py:85-98 *)
Fixpoint h5_data (data : list (String.string * list obs)) (rows : list (list nat))
  : res (list (String.string * list (list obs))) :=
  match data with
  | [] => Ok []
  | (k, a) :: rest => let* x := h5_rows a rows in let* xs := h5_data rest rows in Ok ((k, x) :: xs)
  end.

(** [HDF5Loader.get_batches], hdf5_loader.py:65-100; [_get_indices] is inherited *)
Definition h5_get_batches (l : loader G obs) (cid : nat) : loader G obs * res (batches obs) :=
  match nth_error (l_chains l) cid with
  | None => (l, Exc IndexError)
  | Some c =>
      match get_indices choice_repl choice_perm (l_count l) c with
      | Exc e => (l, Exc e)
      | Ok (c', bs) =>
          let l' := mkLoader (l_count l) (l_data l) (upd (l_chains l) cid c') in
          match h5_data (l_data l) (map fst bs) with
          | Exc e => (l', Exc e)
          | Ok d => (l', Ok (d, map snd bs))
          end
      end
  end.

(** operations; load_state raises NotImplementedError, hdf5_loader.py:105-106 *)
Definition h5_step (l : loader G obs) (o : lop G) : loader G obs * lout obs :=
  match o with
  | RegRandom ca mb ie sh sd => let (l', r) := register_random rng_of_seed l ca mb ie sh sd in (l', OId r)
  | RegOrdered ca mb => let (l', r) := register_ordered l ca mb in (l', OId r)
  | GetBatches cid => let (l', r) := h5_get_batches l cid in (l', OBatch r)
  | LoadState cid ck => (l, OUnit (Exc NotImplementedError))
  end.

(** *** proofs *)
Lemma in_insert x l y : In y (insert_unique x l) <-> y = x \/ In y l.
Proof.
  induction l as [|z l IH]; simpl; [intuition|].
  destruct (Nat.ltb_spec x z); [simpl; intuition|]. destruct (Nat.eqb_spec x z) as [->|]; [simpl; intuition|].
  simpl. rewrite IH. intuition.
Qed.
Lemma in_unique l y : In y (np_unique l) <-> In y l.
Proof. induction l; simpl; [tauto|]. rewrite in_insert, IHl. intuition. Qed.

Lemma increasing_cons x l : increasing (x :: l) = true <-> (match l with [] => True | y :: _ => x < y end) /\ increasing l = true.
Proof.
  destruct l as [|y l]; [simpl; tauto|]. cbn [increasing]. rewrite Bool.andb_true_iff, Nat.ltb_lt. tauto.
Qed.
Lemma insert_head x l : match insert_unique x l with [] => False | z :: _ => z = x \/ (exists y t, l = y :: t /\ z = y /\ y <= x) end.
Proof.
  destruct l as [|y l]; simpl; auto. destruct (Nat.ltb_spec x y); auto.
  destruct (Nat.eqb_spec x y); simpl; right; eexists; eexists; repeat split; lia.
Qed.
Lemma insert_increasing x l : increasing l = true -> increasing (insert_unique x l) = true.
Proof.
  induction l as [|y l IH]; intros H; simpl; auto.
  destruct (Nat.ltb_spec x y); [apply increasing_cons; auto|].
  destruct (Nat.eqb_spec x y) as [->|Hn]; auto.
  apply increasing_cons in H. destruct H as [H1 H2]. apply increasing_cons. split; auto.
  pose proof (insert_head x l) as Hh. destruct (insert_unique x l) as [|z t]; [tauto|].
  destruct Hh as [->|(y' & t' & E & -> & _)]; [lia|]. subst l. exact H1.
Qed.
Lemma unique_increasing l : increasing (np_unique l) = true.
Proof. induction l; simpl; auto. now apply insert_increasing. Qed.

Lemma position_nth x l : In x l -> position x l < length l /\ nth_error l (position x l) = Some x.
Proof.
  induction l as [|y l IH]; simpl; [tauto|]. intros H. destruct (Nat.eqb_spec x y) as [->|Hn]; simpl; [split; auto; lia|].
  destruct H as [->|H]; [congruence|]. destruct (IH H). split; [lia|auto].
Qed.

Lemma gather_ok A (a : list A) idx : Forall (fun i => i < length a) idx ->
  exists xs, gather a idx = Ok xs /\ length xs = length idx /\
    forall k i, nth_error idx k = Some i -> nth_error xs k = nth_error a i.
Proof.
  induction idx as [|i idx IH]; intros H; simpl.
  - exists []. repeat split; auto. intros [|k] i H'; discriminate.
  - inversion H; subst. destruct (nth_error a i) as [x|] eqn:E; [|apply nth_error_None in E; lia].
    destruct (IH H3) as (xs & -> & Hl & Hn). exists (x :: xs). simpl. repeat split; auto.
    intros [|k] j Hj; simpl in *; [congruence|auto].
Qed.
Lemma gather_fail A (a : list A) idx : Exists (fun i => length a <= i) idx -> gather a idx = Exc IndexError.
Proof.
  induction idx as [|i idx IH]; intros H; inversion H; subst; simpl.
  - destruct (nth_error a i) eqn:E; auto. assert (i < length a) by (apply nth_error_Some; congruence). lia.
  - destruct (nth_error a i); auto. rewrite IH by auto. reflexivity.
Qed.

Lemma h5_batch_ok A (a : list A) idx : h5_batch a idx = gather a idx.
Proof.
  unfold h5_batch, np_unique_inverse, h5_read. rewrite unique_increasing.
  destruct (Forall_Exists_dec (fun i => i < length a) (fun x => lt_dec x (length a)) idx) as [Hall|Hex].
  - assert (Hu : Forall (fun i => i < length a) (np_unique idx)).
    { rewrite Forall_forall in *. intros x Hx. apply Hall. now apply in_unique. }
    destruct (gather_ok a Hu) as (us & -> & Hl & Hn). simpl.
    assert (Hg : forall l, (forall x, In x l -> In x idx) -> jtake us (map (fun x => position x (np_unique idx)) l) = gather a l).
    { induction l as [|x l IH]; intros Hs; simpl; auto.
      assert (Hin : In x (np_unique idx)) by (apply in_unique, Hs; simpl; auto).
      destruct (position_nth _ _ Hin) as [Hp Hx]. unfold jindex.
      rewrite Nat.min_l by lia. rewrite (Hn _ _ Hx).
      destruct (nth_error a x); [|simpl; reflexivity]. simpl. rewrite IH by (intros; apply Hs; simpl; auto). reflexivity. }
    apply Hg. auto.
  - assert (Hex' : Exists (fun i => length a <= i) idx) by (eapply Exists_impl; [|exact Hex]; simpl; intros; lia).
    rewrite (gather_fail a Hex'). rewrite gather_fail; auto.
    apply Exists_exists in Hex'. destruct Hex' as (x & Hx & Hlt). apply Exists_exists. exists x. split; auto.
    now apply in_unique.
Qed.

Lemma h5_rows_ok a rows : h5_rows a rows = slice_rows a rows.
Proof. induction rows as [|r rs IH]; simpl; auto. rewrite h5_batch_ok, IH. reflexivity. Qed.
Lemma h5_data_ok data rows : h5_data data rows = slice_data data rows.
Proof. induction data as [|[k a] rest IH]; simpl; auto. rewrite h5_rows_ok, IH. reflexivity. Qed.
Lemma h5_get_ok l cid : h5_get_batches l cid = NumpyLoader.get_batches choice_repl choice_perm l cid.
Proof.
  unfold h5_get_batches, NumpyLoader.get_batches. destruct (nth_error (l_chains l) cid); auto.
  destruct (get_indices choice_repl choice_perm (l_count l) c) as [[c' bs]|e]; auto. now rewrite h5_data_ok.
Qed.
Lemma h5_run_ok h : (forall cid ck, ~ In (LoadState cid ck) h) -> forall l,
  run h5_step l h = run (NumpyLoader.lstep choice_repl choice_perm rng_of_seed) l h.
Proof.
  induction h as [|o h IH]; intros Hn l; cbn [run]; auto.
  assert (E : h5_step l o = NumpyLoader.lstep choice_repl choice_perm rng_of_seed l o).
  { destruct o; simpl; auto; [now rewrite h5_get_ok|]. exfalso. eapply Hn. left. reflexivity. }
  rewrite E. destruct (NumpyLoader.lstep choice_repl choice_perm rng_of_seed l o) as [l1 o1].
  rewrite IH; auto. intros cid ck Hin. eapply Hn. right. exact Hin.
Qed.
End H5.
