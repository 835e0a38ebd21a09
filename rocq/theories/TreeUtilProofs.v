From Coq Require Import Reals Lra.
From Verif Require Import Base ListUtil Pytree PytreeSpec PytreeProofs Io IoProofs TreeUtil TreeUtilSpec.
Open Scope R_scope.
Set Implicit Arguments.

Lemma shape_eqb_refl s : shape_eqb s s = true.
Proof. unfold shape_eqb. destruct (list_eq_dec _ s s); congruence. Qed.
Lemma shape_eqb_true s s' : shape_eqb s s' = true <-> s = s'.
Proof. unfold shape_eqb. destruct (list_eq_dec _ s s'); split; congruence. Qed.
Lemma same_shape_refl a : same_shape a a. Proof. split; reflexivity. Qed.
Lemma same_shape_sym a b : same_shape a b -> same_shape b a.
Proof. intros [H1 H2]. split; [now symmetry|now symmetry]. Qed.
Lemma same_shape_trans a b c : same_shape a b -> same_shape b c -> same_shape a c.
Proof. intros [H1 H2] [H3 H4]. split; [unfold same_structure in *; congruence|congruence]. Qed.

Lemma ravel_leaves_len (ls : list arr) : Forall wf_arr ls -> length (flat_map adata ls) = list_sum (map size (map ashape ls)).
Proof. induction 1 as [|x l Hx H IH]; cbn; auto. rewrite app_length, IH, Hx. reflexivity. Qed.
Lemma same_shape_dim a b : wfv a -> wfv b -> same_shape a b -> dim a = dim b.
Proof. intros Ha Hb [_ H]. unfold dim, ravel. rewrite !ravel_leaves_len by assumption. now rewrite H. Qed.
Lemma leaves_ext (l m : list arr) : Forall wf_arr l -> Forall wf_arr m -> map ashape l = map ashape m -> flat_map adata l = flat_map adata m -> l = m.
Proof.
  revert m. induction l as [|x l IH]; intros [|y m] Hl Hm Hs Hd; cbn in *; try discriminate; auto.
  inversion Hl; inversion Hm; subst. inversion Hs as [[Hsx Hsl]].
  assert (Hlen : length (adata x) = length (adata y)) by (unfold wf_arr in *; congruence).
  apply app_eq_app in Hd as [r [[E1 E2]|[E1 E2]]].
  - assert (r = []) by (rewrite E1, app_length in Hlen; apply length_zero_iff_nil; lia). subst r. rewrite app_nil_r in E1. cbn in E2.
    f_equal; [destruct x, y; cbn in *; congruence|apply IH; auto].
  - assert (r = []) by (rewrite E1, app_length in Hlen; apply length_zero_iff_nil; lia). subst r. rewrite app_nil_r in E1. cbn in E2.
    f_equal; [destruct x, y; cbn in *; congruence|apply IH; auto].
Qed.
(** two trees of the same shape are equal iff the vectors are *)
Lemma vtree_ext a b : wfv a -> wfv b -> same_shape a b -> ravel a = ravel b -> a = b.
Proof. intros Ha Hb [S H] E. apply tree_ext; [exact S|]. apply leaves_ext; auto. Qed.
Lemma nth_ext_R (l m : list R) : length l = length m -> (forall i, (i < length l)%nat -> nth i l 0 = nth i m 0) -> l = m.
Proof. intros H E. apply nth_ext with 0 0; auto. Qed.
Lemma vtree_ext_el a b : wfv a -> wfv b -> same_shape a b -> (forall i, (i < dim a)%nat -> el a i = el b i) -> a = b.
Proof. intros Ha Hb S E. apply vtree_ext; auto. apply nth_ext_R; [now apply same_shape_dim|]. exact E. Qed.

Lemma zip_with_app A B C (f : A -> B -> C) l1 : forall l2 m1 m2, length l1 = length m1 ->
  zip_with f (l1 ++ l2) (m1 ++ m2) = zip_with f l1 m1 ++ zip_with f l2 m2.
Proof. induction l1 as [|x l1 IH]; intros l2 [|y m1] m2 H; cbn in *; try discriminate; auto. now rewrite IH by lia. Qed.
Lemma zip_with_pair A B C (f : A -> B -> C) l m : map (fun xy => f (fst xy) (snd xy)) (zip_with pair l m) = zip_with f l m.
Proof. revert m. induction l as [|x l IH]; intros [|y m]; cbn; auto. now rewrite IH. Qed.
Lemma zip_with_nth A B C (f : A -> B -> C) (l : list A) : forall (m : list B) i da db dc, (i < length l)%nat -> length l = length m ->
  nth i (zip_with f l m) dc = f (nth i l da) (nth i m db).
Proof. induction l as [|x l IH]; intros [|y m] [|i] da db dc H E; cbn in *; try lia; auto. apply IH; lia. Qed.

Lemma mapM_op2 g (l m : list arr) : Forall wf_arr l -> Forall wf_arr m -> map ashape l = map ashape m ->
  exists r, mapM (fun xy => arr_op2 g (fst xy) (snd xy)) (zip_with pair l m) = Ok r /\ Forall wf_arr r /\ map ashape r = map ashape l /\
            flat_map adata r = zip_with g (flat_map adata l) (flat_map adata m) /\ length r = length l.
Proof.
  revert m. induction l as [|x l IH]; intros [|y m] Hl Hm Hs; cbn in *; try discriminate; [exists []; auto|].
  inversion Hl; inversion Hm; subst. inversion Hs as [[Hsx Hsl]].
  destruct (IH m) as (r & Er & Hr & Sr & Dr & Lr); auto.
  unfold arr_op2 at 1. rewrite Hsx, shape_eqb_refl. cbn. rewrite Er. cbn. eexists. split; [reflexivity|]. cbn.
  assert (Hlen : length (adata x) = length (adata y)) by (unfold wf_arr in *; congruence).
  split; [constructor; auto; unfold wf_arr in *; cbn; rewrite zip_with_length by exact Hlen; rewrite <- Hsx; assumption|].
  split; [congruence|]. split; [rewrite Dr, zip_with_app; auto|]. now rewrite Lr.
Qed.
Lemma mapM_len A B (f : A -> res B) l r : mapM f l = Ok r -> length r = length l.
Proof. revert r. induction l as [|x l IH]; intros r H; cbn in *; [inversion H; auto|]. destruct (f x); [cbn in H|discriminate].
  destruct (mapM f l) as [ys|]; [cbn in H|discriminate]. inversion H; subst. cbn. now rewrite (IH ys). Qed.

Lemma tree_op2_ok g a b : wfv a -> wfv b -> same_shape a b ->
  exists c, tree_op2 g a b = Ok c /\ wfv c /\ same_shape c a /\ ravel c = zip_with g (ravel a) (ravel b).
Proof.
  intros Ha Hb [S Hs]. unfold tree_op2. destruct (@tree_map2_ok _ _ _ pair a b S) as (t & -> & St & Lt). cbn [bind].
  unfold tree_mapM. rewrite Lt. destruct (mapM_op2 g Ha Hb Hs) as (r & -> & Wr & Sr & Dr & Lr). cbn [bind].
  destruct (@unflatten_ok _ _ t r) as (c & -> & Lc & Sc).
  { rewrite Lt, zip_with_length; auto. now apply structure_leaves. }
  exists c. split; auto. unfold wfv, ravel, same_shape. rewrite Lc. repeat split; auto. unfold same_structure in *. congruence.
Qed.
Lemma leaves_tree_map A B (f : A -> B) (t : tree A) : leaves (tree_map f t) = map f (leaves t).
Proof.
  induction t as [a|k ch IH] using tree_ind'; cbn; auto. induction IH as [|x l Hx H IHl]; cbn; auto. now rewrite map_app, Hx, IHl.
Qed.
Lemma same_structure_tree_map A B (f : A -> B) (t : tree A) : same_structure (tree_map f t) t.
Proof.
  unfold same_structure. induction t as [a|k ch IH] using tree_ind'; cbn; auto. f_equal. rewrite map_map. induction IH; cbn; auto. f_equal; auto.
Qed.
Lemma tree_scale_ok alpha a : same_shape (tree_scale alpha a) a /\ ravel (tree_scale alpha a) = map (Rmult alpha) (ravel a) /\ (wfv a -> wfv (tree_scale alpha a)).
Proof.
  unfold tree_scale, same_shape, ravel, wfv. rewrite leaves_tree_map. repeat split.
  - apply same_structure_tree_map.
  - rewrite map_map. now apply map_ext.
  - induction (leaves a) as [|x l IH]; cbn; auto. now rewrite map_app, IH.
  - intros H. induction H as [|x l Hx H IH]; cbn; constructor; auto. unfold wf_arr in *. cbn. now rewrite map_length.
Qed.

(** sums *)
Lemma rsum_acc l : forall acc, fold_left Rplus l acc = acc + fold_left Rplus l 0.
Proof. induction l as [|x l IH]; intros acc; cbn; [lra|]. rewrite IH, (IH (0 + x)). lra. Qed.
Lemma rsum_cons x l : rsum (x :: l) = x + rsum l.
Proof. unfold rsum. cbn. rewrite rsum_acc. lra. Qed.
Lemma rsum_app l m : rsum (l ++ m) = rsum l + rsum m.
Proof. induction l as [|x l IH]; cbn [app]; [unfold rsum; cbn; lra|]. rewrite !rsum_cons, IH. lra. Qed.
Lemma rsum_nil : rsum [] = 0. Proof. reflexivity. Qed.
Lemma sum_upto_S n f : sum_upto (S n) f = sum_upto n f + f n.
Proof. unfold sum_upto. rewrite seq_S, map_app. cbn. induction (map f (seq 0 n)) as [|x l IH]; cbn; [lra|]. rewrite IH. lra. Qed.
Lemma sum_upto_ext n f g : (forall i, (i < n)%nat -> f i = g i) -> sum_upto n f = sum_upto n g.
Proof. intros H. unfold sum_upto. f_equal. apply map_ext_in. intros i Hi. apply H. apply in_seq in Hi. lia. Qed.
Lemma sum_upto_plus n f g : sum_upto n (fun i => f i + g i) = sum_upto n f + sum_upto n g.
Proof. induction n as [|n IH]; [unfold sum_upto; cbn; lra|]. rewrite !sum_upto_S, IH. lra. Qed.
Lemma sum_upto_scale n a f : sum_upto n (fun i => a * f i) = a * sum_upto n f.
Proof. induction n as [|n IH]; [unfold sum_upto; cbn; lra|]. rewrite !sum_upto_S, IH. lra. Qed.
Lemma sum_upto_zero n f : (forall i, (i < n)%nat -> f i = 0) -> sum_upto n f = 0.
Proof. induction n as [|n IH]; intros H; [unfold sum_upto; cbn; lra|]. rewrite sum_upto_S, IH, H; [lra|lia|intros; apply H; lia]. Qed.
Lemma sum_upto_shift n f : sum_upto (S n) f = f 0%nat + sum_upto n (fun i => f (S i)).
Proof. unfold sum_upto. cbn. now rewrite <- seq_shift, map_map. Qed.
Lemma sum_upto_delta n f k : (k < n)%nat -> sum_upto n (fun i => (if (k =? i)%nat then f i else 0)) = f k.
Proof.
  induction n as [|n IH]; intros H; [lia|]. rewrite sum_upto_S. destruct (Nat.eqb_spec k n) as [->|Hn].
  - rewrite sum_upto_zero; [lra|]. intros i Hi. destruct (Nat.eqb_spec n i); [lia|auto].
  - rewrite IH by lia. lra.
Qed.
Lemma sum_upto_swap n m f : sum_upto n (fun i => sum_upto m (f i)) = sum_upto m (fun j => sum_upto n (fun i => f i j)).
Proof.
  induction n as [|n IH]; [symmetry; apply sum_upto_zero; reflexivity|].
  rewrite sum_upto_S, IH. rewrite <- sum_upto_plus. apply sum_upto_ext. intros j _. now rewrite sum_upto_S.
Qed.
Lemma dot_sum v : forall w, length v = length w -> dot v w = sum_upto (length v) (fun i => nth i v 0 * nth i w 0).
Proof.
  unfold dot. induction v as [|x v IH]; intros [|y w] H; cbn [length] in *; try discriminate; [reflexivity|].
  rewrite sum_upto_shift. cbn [zip_with nth]. rewrite rsum_cons, IH by lia. reflexivity.
Qed.
Lemma dot_app v1 v2 w1 w2 : length v1 = length w1 -> dot (v1 ++ v2) (w1 ++ w2) = dot v1 w1 + dot v2 w2.
Proof. intros H. unfold dot. rewrite zip_with_app by assumption. apply rsum_app. Qed.
Arguments dot : simpl never.
Arguments rsum : simpl never.
Lemma combine_zip A B (l : list A) (m : list B) : combine l m = zip_with pair l m.
Proof. revert m. induction l as [|x l IH]; intros [|y m]; cbn; auto. now rewrite IH. Qed.
Lemma tree_dot_ok a b : wfv a -> wfv b -> same_shape a b -> tree_dot a b = Ok (dot (ravel a) (ravel b)).
Proof.
  intros Ha Hb [_ Hs]. unfold tree_dot, ravel, wfv in *. revert Ha Hb Hs. generalize (leaves b) as m. generalize (leaves a) as l. clear a b.
  assert (H : forall l m, Forall wf_arr l -> Forall wf_arr m -> map ashape l = map ashape m ->
     exists rs, mapM (fun xy => arr_dot (fst xy) (snd xy)) (combine l m) = Ok rs /\ rsum rs = dot (flat_map adata l) (flat_map adata m)).
  { induction l as [|x l IH]; intros [|y m] Hl Hm Hs; cbn in *; try discriminate; [exists []; auto|].
    inversion Hl; inversion Hm; subst. inversion Hs as [[Hsx Hsl]]. destruct (IH m) as (rs & E & D); auto.
    unfold arr_dot at 1, arr_op2. rewrite Hsx, shape_eqb_refl. cbn. rewrite E. cbn. eexists. split; [reflexivity|].
    rewrite rsum_cons, D, dot_app; [reflexivity|]. unfold wf_arr in *; congruence. }
  intros l m Hl Hm Hs. destruct (H l m Hl Hm Hs) as (rs & -> & D). cbn. now rewrite D.
Qed.

(** ravel and unravel *)
Lemma split_as_ok shapes : forall v, length v = list_sum (map size shapes) ->
  map ashape (split_as shapes v) = shapes /\ flat_map adata (split_as shapes v) = v /\ Forall wf_arr (split_as shapes v).
Proof.
  induction shapes as [|s shapes IH]; intros v H; cbn [split_as map flat_map list_sum ashape adata] in *.
  - destruct v; [auto|discriminate H].
  - change (list_sum (size s :: map size shapes)) with (size s + list_sum (map size shapes))%nat in H.
    destruct (IH (skipn (size s) v)) as (H1 & H2 & H3); [rewrite skipn_length; lia|].
    rewrite H1, H2, firstn_skipn. repeat split; auto. constructor; auto. unfold wf_arr. cbn [adata ashape]. rewrite firstn_length. lia.
Qed.
Lemma unravel_ok t v : wfv t -> length v = dim t ->
  exists u, unravel t v = Ok u /\ ravel u = v /\ same_shape u t /\ wfv u.
Proof.
  intros Ht Hv. unfold unravel. unfold dim in Hv. rewrite Hv, Nat.eqb_refl. unfold ravel in Hv. rewrite ravel_leaves_len in Hv by assumption.
  destruct (split_as_ok (map ashape (leaves t)) v Hv) as (H1 & H2 & H3).
  destruct (@unflatten_ok _ _ t (split_as (map ashape (leaves t)) v)) as (u & -> & Lu & Su).
  { rewrite <- (map_length ashape), H1, map_length. reflexivity. }
  exists u. unfold ravel, same_shape, wfv. rewrite Lu. auto.
Qed.
Lemma unravel_ravel t : wfv t -> unravel t (ravel t) = Ok t.
Proof.
  intros Ht. destruct (@unravel_ok t (ravel t) Ht eq_refl) as (u & -> & E & S & W). f_equal. apply vtree_ext; auto.
Qed.
Lemma matvec_ok n m v : square n m -> length v = n -> matvec m v = Ok (map (fun row => dot row v) m).
Proof.
  intros [H1 H2] Hv. unfold matvec. replace (forallb _ m) with true; auto. symmetry. apply forallb_forall. intros r Hr.
  rewrite Forall_forall in H2. rewrite (H2 r Hr), Hv. apply Nat.eqb_refl.
Qed.
Lemma el_scale alpha a i : (i < dim a)%nat -> el (tree_scale alpha a) i = alpha * el a i.
Proof.
  intros H. unfold el. destruct (tree_scale_ok alpha a) as (_ & -> & _).
  rewrite nth_indep with (d' := alpha * 0) by (rewrite map_length; exact H). now rewrite map_nth.
Qed.
Lemma tensor_matmul_ok m v : wfv v -> tens_fits m v -> exists w, tensor_matmul m v = Ok w /\ same_shape w v /\ wfv w /\
  forall i, (i < dim v)%nat -> el w i = sum_upto (dim v) (fun j => tens_entry m i j * el v j).
Proof.
  intros Hv Hm. destruct m as [a|t|m|n]; cbn [tensor_matmul tens_fits tens_entry] in *.
  - exists (tree_scale a v). destruct (tree_scale_ok a v) as (S & E & W). repeat split; try (apply S); auto.
    intros i Hi. rewrite el_scale by assumption. symmetry.
    erewrite sum_upto_ext; [apply (@sum_upto_delta (dim v) (fun j => a * el v j) i); exact Hi|]. intros j Hj. cbn. destruct (i =? j)%nat; lra.
  - destruct Hm as [S Ht]. destruct (tree_op2_ok Rmult Ht Hv S) as (c & E & W & Sc & R). exists c. unfold tree_multiply. rewrite E.
    split; auto. split; [eapply same_shape_trans; eauto|]. split; auto. intros i Hi.
    assert (D : dim t = dim v) by (apply same_shape_dim; auto). unfold dim in D.
    unfold el at 1. rewrite R, (zip_with_nth Rmult (ravel t) (ravel v) 0 0 0); [| unfold dim in *; lia | exact D].
    symmetry. erewrite sum_upto_ext; [apply (@sum_upto_delta (dim v) (fun j => el t i * el v j) i); exact Hi|]. intros j Hj. cbn. destruct (i =? j)%nat; lra.
  - unfold tree_matmul. rewrite (@matvec_ok (dim v) m (ravel v) Hm eq_refl). cbn [bind].
    destruct (@unravel_ok v (map (fun row => dot row (ravel v)) m) Hv) as (u & -> & E & S & W).
    { rewrite map_length. apply Hm. }
    exists u. split; auto. split; auto. split; auto. intros i Hi. unfold el at 1. rewrite E. destruct Hm as [H1 H2].
    rewrite nth_indep with (d' := dot [] (ravel v)) by (rewrite map_length; lia). rewrite (map_nth (fun row => dot row (ravel v))).
    rewrite Forall_forall in H2. assert (Hr : length (nth i m []) = dim v) by (apply H2, nth_In; lia).
    rewrite dot_sum by exact Hr. rewrite Hr. apply sum_upto_ext. intros j Hj. reflexivity.
  - contradiction.
Qed.
