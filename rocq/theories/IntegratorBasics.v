From Coq Require Import Reals Lra.
From Verif Require Import Base ListUtil Pytree PytreeSpec PytreeProofs Io IoProofs TreeUtil TreeUtilSpec TreeUtilProofs Integrator IntegratorSpec.
Open Scope R_scope.
Set Implicit Arguments.

Lemma like_refl s : wfv s -> like s s. Proof. intros H. split; auto. apply same_shape_refl. Qed.
Lemma like_dim s t : wfv s -> like s t -> dim t = dim s.
Proof. intros Hs [W S]. now apply same_shape_dim. Qed.
Lemma like_trans s t u : like s t -> like t u -> like s u.
Proof. intros [W S] [W' S']. split; auto. eapply same_shape_trans; eauto. Qed.
Lemma like_ext s a b : wfv s -> like s a -> like s b -> (forall i, (i < dim s)%nat -> el a i = el b i) -> a = b.
Proof.
  intros Hs [Wa Sa] [Wb Sb] H. apply vtree_ext_el; auto.
  - eapply same_shape_trans; [exact Sa|]. now apply same_shape_sym.
  - rewrite (same_shape_dim Wa Hs Sa). exact H.
Qed.
Section S.
Variable s : vtree.
Hypothesis Hs : wfv s.
Lemma like_add a b : like s a -> like s b -> like s (tadd a b).
Proof.
  intros [Wa Sa] [Wb Sb]. assert (S : same_shape a b) by (eapply same_shape_trans; [exact Sa|now apply same_shape_sym]).
  unfold tadd, tree_add. destruct (tree_op2_ok Rplus Wa Wb S) as (c & -> & W & Sc & _). cbn. split; auto. eapply same_shape_trans; eauto.
Qed.
Lemma el_add a b i : like s a -> like s b -> (i < dim s)%nat -> el (tadd a b) i = el a i + el b i.
Proof.
  intros [Wa Sa] [Wb Sb] Hi. assert (S : same_shape a b) by (eapply same_shape_trans; [exact Sa|now apply same_shape_sym]).
  unfold tadd, tree_add. destruct (tree_op2_ok Rplus Wa Wb S) as (c & -> & W & Sc & Hr). cbn [ok_or]. unfold el. rewrite Hr.
  apply zip_with_nth; [fold (dim a); now rewrite (same_shape_dim Wa Hs Sa)|]. now apply same_shape_dim.
Qed.
Lemma like_mul a b : like s a -> like s b -> like s (tmul a b).
Proof.
  intros [Wa Sa] [Wb Sb]. assert (S : same_shape a b) by (eapply same_shape_trans; [exact Sa|now apply same_shape_sym]).
  unfold tmul, tree_multiply. destruct (tree_op2_ok Rmult Wa Wb S) as (c & -> & W & Sc & _). cbn. split; auto. eapply same_shape_trans; eauto.
Qed.
Lemma el_mul a b i : like s a -> like s b -> (i < dim s)%nat -> el (tmul a b) i = el a i * el b i.
Proof.
  intros [Wa Sa] [Wb Sb] Hi. assert (S : same_shape a b) by (eapply same_shape_trans; [exact Sa|now apply same_shape_sym]).
  unfold tmul, tree_multiply. destruct (tree_op2_ok Rmult Wa Wb S) as (c & -> & W & Sc & Hr). cbn [ok_or]. unfold el. rewrite Hr.
  apply zip_with_nth; [fold (dim a); now rewrite (same_shape_dim Wa Hs Sa)|]. now apply same_shape_dim.
Qed.
Lemma like_scale x a : like s a -> like s (tree_scale x a).
Proof. intros [Wa Sa]. destruct (tree_scale_ok x a) as (S & _ & W). split; auto. eapply same_shape_trans; eauto. Qed.
Lemma el_scale' x a i : like s a -> (i < dim s)%nat -> el (tree_scale x a) i = x * el a i.
Proof. intros H Hi. apply el_scale. now rewrite (like_dim Hs H). Qed.
Lemma fits_like m v : tens_fits m s -> like s v -> tens_fits m v.
Proof.
  intros Hm H. pose proof (like_dim Hs H) as D. destruct H as [W S]. destruct m; cbn in *; auto.
  - destruct Hm as [S' W']. split; auto. eapply same_shape_trans; [exact S'|]. now apply same_shape_sym.
  - now rewrite D.
Qed.
Lemma like_mat m v : tens_fits m s -> like s v -> like s (tmat m v).
Proof.
  intros Hm H. destruct (tensor_matmul_ok m (proj1 H) (@fits_like m v Hm H)) as (w & E & S & W & _). unfold tmat. rewrite E. cbn [ok_or]. split; auto.
  eapply same_shape_trans; [exact S|apply H].
Qed.
Lemma el_mat m v i : tens_fits m s -> like s v -> (i < dim s)%nat -> el (tmat m v) i = mulv m (dim s) (el v) i.
Proof.
  intros Hm H Hi. destruct (tensor_matmul_ok m (proj1 H) (@fits_like m v Hm H)) as (w & E & S & W & Hel). unfold tmat. rewrite E. cbn [ok_or].
  rewrite (like_dim Hs H) in Hel. now apply Hel.
Qed.
Lemma mulv_ext m n v w i : (forall j, (j < n)%nat -> v j = w j) -> mulv m n v i = mulv m n w i.
Proof. intros H. apply sum_upto_ext. intros j Hj. now rewrite H. Qed.
Lemma mulv_scale m n a v i : mulv m n (fun j => a * v j) i = a * mulv m n v i.
Proof. unfold mulv. rewrite <- sum_upto_scale. apply sum_upto_ext. intros; ring. Qed.
Lemma mulv_plus m n v w i : mulv m n (fun j => v j + w j) i = mulv m n v i + mulv m n w i.
Proof. unfold mulv. rewrite <- sum_upto_plus. apply sum_upto_ext. intros; ring. Qed.
Lemma tdot_ok a b : like s a -> like s b -> tdot a b = sum_upto (dim s) (fun i => el a i * el b i).
Proof.
  intros H [Wb Sb]. pose proof (like_dim Hs H) as D. destruct H as [Wa Sa].
  assert (S : same_shape a b) by (eapply same_shape_trans; [exact Sa|now apply same_shape_sym]).
  unfold tdot. rewrite (tree_dot_ok Wa Wb S). cbn [ok_or]. rewrite dot_sum by (now apply same_shape_dim). fold (dim a). rewrite D. reflexivity.
Qed.
Lemma like_emap f a : like s a -> like s (emap f a).
Proof.
  intros [W S]. split.
  - unfold wfv, emap. rewrite leaves_tree_map. apply Forall_map. eapply Forall_impl; [|exact W]. intros x Hx. unfold wf_arr, amap in *. cbn. now rewrite map_length.
  - eapply same_shape_trans; [|exact S]. split; [apply same_structure_tree_map|]. unfold emap. rewrite leaves_tree_map, map_map. reflexivity.
Qed.
Lemma ravel_emap f a : ravel (emap f a) = map f (ravel a).
Proof. unfold ravel, emap. rewrite leaves_tree_map. induction (leaves a) as [|x l IH]; cbn; auto. now rewrite map_app, IH. Qed.
Lemma el_emap f a i : like s a -> (i < dim s)%nat -> el (emap f a) i = f (el a i).
Proof.
  intros H Hi. unfold el. rewrite ravel_emap. rewrite nth_indep with (d' := f 0) by (rewrite map_length; fold (dim a); now rewrite (like_dim Hs H)).
  apply map_nth.
Qed.
Lemma noise_leaves normal k shapes : forall a, normal_ok normal ->
  let ls := zip_with (fun s sh => mkArr sh (normal s sh)) (map (Sub k) (seq a (length shapes))) shapes in
  Forall wf_arr ls /\ map ashape ls = shapes /\ flat_map adata ls = flat_map (fun jsh => normal (Sub k (fst jsh)) (snd jsh)) (combine (seq a (length shapes)) shapes).
Proof.
  induction shapes as [|sh shapes IH]; intros a Hn; cbn; auto. destruct (IH (S a) Hn) as (H1 & H2 & H3). split; [constructor; auto; apply Hn|].
  split; [now rewrite H2|]. now rewrite H3.
Qed.
Lemma random_tree_ok normal k a : normal_ok normal -> like s a ->
  like s (fst (random_tree normal k a)) /\ (forall i, (i < dim s)%nat -> el (fst (random_tree normal k a)) i = xi normal k s i) /\
  snd (random_tree normal k a) = map (Sub k) (seq 0 (length (leaves s))).
Proof.
  intros Hn [W [S1 S2]]. unfold random_tree. cbn [fst snd].
  destruct (@noise_leaves normal k (map ashape (leaves a)) 0 Hn) as (H1 & H2 & H3).
  set (ls := zip_with _ _ _) in *. destruct (@unflatten_ok _ _ a ls) as (u & Eu & Lu & Su).
  { rewrite <- (map_length ashape ls), H2, map_length. reflexivity. }
  rewrite Eu. cbn [ok_or]. repeat split.
  - unfold wfv. now rewrite Lu.
  - unfold same_structure in *. congruence.
  - rewrite Lu, H2. exact S2.
  - intros i Hi. unfold el, xi. f_equal. unfold ravel. rewrite Lu, H3. rewrite map_length, (structure_leaves S1), S2. reflexivity.
  - rewrite map_length, (structure_leaves S1). reflexivity.
Qed.
End S.
Lemma xi_same s t normal k i : same_shape t s -> xi normal k t i = xi normal k s i.
Proof. intros [S1 S2]. unfold xi. now rewrite S2, (structure_leaves S1). Qed.
Lemma sqrt_mass_fits s mass : like s mass -> tens_fits (Tens1 (emap sqrt mass)) s.
Proof. intros H. destruct (@like_emap s sqrt mass H) as [W S]. split; auto. Qed.
Lemma inv_mass_fits s mass : like s mass -> tens_fits (Tens1 (emap Rinv mass)) s.
Proof. intros H. destruct (@like_emap s Rinv mass H) as [W S]. split; auto. Qed.
Lemma unit_mass_fits s t : like s t -> tens_fits (m_inv (unit_mass t)) s /\ tens_fits (m_sqrt (unit_mass t)) s.
Proof. intros H. split; [apply inv_mass_fits|apply sqrt_mass_fits]; now apply like_emap. Qed.

(** the loop *)
Lemma fold_scan_aux A (f : A -> nat -> A * list key) : forall l (s : A) acc,
  fold_left (fun acc i => let (s', l) := f (fst acc) i in (s', snd acc ++ l)) l (s, acc) =
  let r := fold_left (fun acc i => let (s', l) := f (fst acc) i in (s', snd acc ++ l)) l (s, []) in (fst r, acc ++ snd r).
Proof.
  induction l as [|i l IH]; intros s acc; cbn [fold_left fst snd]; [cbn; now rewrite app_nil_r|].
  destruct (f s i) as [s' u]. rewrite IH, (IH s' ([] ++ u)). cbn. now rewrite app_assoc.
Qed.
Lemma scan_S A (f : A -> nat -> A * list key) n s :
  scan f (S n) s = let r := scan f n s in let q := f (fst r) n in (fst q, snd r ++ snd q).
Proof.
  unfold scan. rewrite seq_S, fold_left_app. cbn [fold_left Nat.add]. destruct (fold_left _ (seq 0 n) (s, [])) as [s1 u]. cbn [fst snd].
  destruct (f s1 n). reflexivity.
Qed.
