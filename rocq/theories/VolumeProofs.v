(** Palindromic compositions of drifts and kicks are volume preserving involutions. *)
From Coq Require Import Reals Lra FunctionalExtensionality.
From Verif Require Import Base ListUtil Pytree PytreeSpec Io TreeUtil TreeUtilSpec TreeUtilProofs Integrator IntegratorSpec IntegratorBasics VolumeSpec.
Open Scope R_scope.
Set Implicit Arguments.

Local Arguments Nat.ltb : simpl never.
Local Arguments Nat.eqb : simpl never.
Local Arguments Nat.sub : simpl never.
(** ** sanity of the specification: inverse maps preserve the volume *)
Theorem preserves_volume_inverse d m f : preserves_volume d m f -> exists g, preserves_volume d m g /\ (forall z, g (f z) = z) /\ (forall z, f (g z) = z).
Proof.
  induction 1 as [S f HS Hc Hf|S HS|p Hp Hin Hout|f g _ (f' & F1 & F2 & F3) _ (g' & G1 & G2 & G3)|f g _ (f' & F1 & F2 & F3) E].
  - exists (fun z c => if S c then z c + (fun c z => - f c z) c z else z c). split; [|split].
    + apply (@pv_shear d m S (fun c z => - f c z)); auto.
      * intros c Sc z e He. destruct (Hc c Sc z e He) as (del & Hd & H). exists del. split; auto. intros z' Hz. replace (- f c z' - - f c z) with (- (f c z' - f c z)) by ring. rewrite Rabs_Ropp. auto.
      * intros c z z' Sc Hz. f_equal. eapply Hf; eauto.
    + intros z. extensionality c. destruct (S c) eqn:Sc; auto. rewrite (@Hf c (fun c0 => if S c0 then z c0 + f c0 z else z c0) z Sc); [ring|]. intros c' _ ->. reflexivity.
    + intros z. extensionality c. destruct (S c) eqn:Sc; auto. rewrite (@Hf c (fun c0 => if S c0 then z c0 + - f c0 z else z c0) z Sc); [ring|]. intros c' _ ->. reflexivity.
  - exists (fun z c => if S c then - z c else z c). split; [now apply pv_flip|]. split; intros z; extensionality c; destruct (S c); ring.
  - exists (fun z c => z (p c)). split; [now apply pv_exchange|]. split; intros z; extensionality c; now rewrite Hp.
  - exists (fun z => f' (g' z)). split; [now apply pv_compose|]. split; intros z; [now rewrite G2, F2|now rewrite F3, G3].
  - exists f'. split; auto. assert (f = g) as <- by (extensionality z; extensionality c; apply E). auto.
Qed.

Section Map.
Variables (d m : nat).
Variables (vi a sg : nat -> R).
(** operations: x += h v p; n_j += a p; p += u s n_j + c g_k(x), u is 0 or 1 *)
Inductive op := Drift (h : R) | Nsh (j : nat) | Push (j : nat) (u : R) (c : R) (k : nat).
Variable g : nat -> (nat -> R) -> nat -> R.
Definition pos_of (z : phase) : nat -> R := fun i => z (CPos i).
Definition op_set (o : op) (c : coord) : bool :=
  match o, c with
  | Drift _, CPos i => (i <? d)%nat
  | Nsh j, CNoise j' i => (j' =? j)%nat && (i <? d)%nat
  | Push _ _ _ _, CMom i => (i <? d)%nat
  | _, _ => false
  end.
Definition op_fun (g : nat -> (nat -> R) -> nat -> R) (o : op) (c : coord) (z : phase) : R :=
  match o, c with
  | Drift h, CPos i => h * vi i * z (CMom i)
  | Nsh _, CNoise _ i => a i * z (CMom i)
  | Push j u e k, CMom i => u * sg i * z (CNoise j i) + e * g k (pos_of z) i
  | _, _ => 0
  end.
Definition do (g : nat -> (nat -> R) -> nat -> R) (o : op) (z : phase) : phase := fun c => if op_set o c then z c + op_fun g o c z else z c.
Definition runs (g : nat -> (nat -> R) -> nat -> R) (l : list op) (z : phase) : phase := fold_left (fun z o => do g o z) l z.
Definition op_ok (o : op) : Prop := match o with Drift _ => True | Nsh j => (j < m)%nat | Push j _ _ _ => (j < m)%nat end.
(** negate the momentum, reverse the order of the random vectors *)
Definition is_mom (c : coord) : bool := match c with CMom i => (i <? d)%nat | _ => false end.
Definition swap (c : coord) : coord := match c with CNoise j i => if (j <? m)%nat && (i <? d)%nat then CNoise (m - 1 - j) i else c | _ => c end.
Definition refl (z : phase) : phase := fun c => if is_mom c then - z (swap c) else z (swap c).
Definition whole (g : nat -> (nat -> R) -> nat -> R) (l : list op) (z : phase) : phase := refl (runs g l z).
Definition mirror (o : op) : op := match o with Drift h => Drift h | Nsh j => Nsh (m - 1 - j) | Push j u c k => Push (m - 1 - j) u c (m - 1 - k) end.

Lemma swap_swap c : swap (swap c) = c.
Proof.
  destruct c as [i|i|j i]; auto. unfold swap at 2. destruct ((j <? m)%nat && (i <? d)%nat) eqn:E; unfold swap; [|now rewrite E].
  apply andb_true_iff in E. destruct E as [E1 E2]. apply Nat.ltb_lt in E1. rewrite E2.
  assert (E3 : (m - 1 - j <? m)%nat = true) by (apply Nat.ltb_lt; lia). rewrite E3. cbn [andb]. f_equal. lia.
Qed.
Lemma refl_refl z : refl (refl z) = z.
Proof. extensionality c. unfold refl. rewrite swap_swap. destruct c as [i|i|j i]; cbn; [reflexivity|destruct (i <? d)%nat; ring|]. destruct ((j <? m)%nat && (i <? d)%nat); reflexivity. Qed.
Lemma refl_volume : preserves_volume d m refl.
Proof.
  apply (@pv_ext d m (fun z => (fun y : phase => (fun c => if is_mom c then - y c else y c)) ((fun (y : phase) c => y (swap c)) z))).
  - apply (@pv_compose d m (fun (y : phase) c => y (swap c)) (fun (y : phase) c => if is_mom c then - y c else y c)).
    + apply pv_exchange; [apply swap_swap| |].
      * intros [i|i|j i]; cbn; auto. intros [H1 H2]. apply Nat.ltb_lt in H1 as H1', H2 as H2'. rewrite H1', H2'. cbn. lia.
      * intros [i|i|j i] H; cbn in *; auto. destruct (Nat.ltb_spec j m), (Nat.ltb_spec i d); cbn; auto. exfalso. auto.
    + apply pv_flip. intros [i|i|j i]; cbn; try discriminate. apply Nat.ltb_lt.
  - intros z c. reflexivity.
Qed.
Lemma do_volume o : op_ok o -> (forall k i, (i < d)%nat -> continuous d m (fun z => g k (pos_of z) i)) ->
  (forall k i x y, (forall j, (j < d)%nat -> x j = y j) -> g k x i = g k y i) -> preserves_volume d m (do g o).
Proof.
  intros Ho Hc He. apply (@pv_shear d m (op_set o) (op_fun g o)).
  - intros [i|i|j i]; destruct o as [h|j'|j' u e k]; cbn; try discriminate; try apply Nat.ltb_lt.
    intros H. apply andb_true_iff in H. destruct H as [H1 H2]. apply Nat.eqb_eq in H1. apply Nat.ltb_lt in H2. subst. auto.
  - assert (Lin : forall b c0, inside d m c0 -> continuous d m (fun z => b * z c0)).
    { intros b c0 Hin z e Hp. exists (e / (Rabs b + 1)). assert (0 <= Rabs b) by apply Rabs_pos. split; [apply Rdiv_lt_0_compat; lra|].
      intros z' Hz. specialize (Hz c0 Hin). rewrite <- Rmult_minus_distr_l, Rabs_mult.
      apply Rle_lt_trans with ((Rabs b) * (e / (Rabs b + 1))); [apply Rmult_le_compat_l; lra|].
      apply Rlt_le_trans with ((Rabs b + 1) * (e / (Rabs b + 1))); [|right; field; lra]. apply Rmult_lt_compat_r; [apply Rdiv_lt_0_compat; lra|lra]. }
    assert (Sum : forall f h, continuous d m f -> continuous d m h -> continuous d m (fun z => f z + h z)).
    { intros f h Hf Hh z e Hp. destruct (Hf z (e / 2) ltac:(lra)) as (d1 & P1 & Q1). destruct (Hh z (e / 2) ltac:(lra)) as (d2 & P2 & Q2).
      exists (Rmin d1 d2). split; [now apply Rmin_glb_lt|]. intros z' Hz.
      assert (Rabs (f z' - f z) < e / 2) by (apply Q1; intros c Hi; eapply Rlt_le_trans; [apply Hz, Hi|apply Rmin_l]).
      assert (Rabs (h z' - h z) < e / 2) by (apply Q2; intros c Hi; eapply Rlt_le_trans; [apply Hz, Hi|apply Rmin_r]).
      replace (f z' + h z' - (f z + h z)) with ((f z' - f z) + (h z' - h z)) by ring. eapply Rle_lt_trans; [apply Rabs_triang|]. lra. }
    assert (Sca : forall b f, continuous d m f -> continuous d m (fun z => b * f z)).
    { intros b f Hf z e Hp. assert (0 <= Rabs b) by apply Rabs_pos. destruct (Hf z (e / (Rabs b + 1))) as (d1 & P1 & Q1); [apply Rdiv_lt_0_compat; lra|].
      exists d1. split; auto. intros z' Hz. specialize (Q1 z' Hz). rewrite <- Rmult_minus_distr_l, Rabs_mult.
      apply Rle_lt_trans with ((Rabs b) * (e / (Rabs b + 1))); [apply Rmult_le_compat_l; lra|].
      apply Rlt_le_trans with ((Rabs b + 1) * (e / (Rabs b + 1))); [|right; field; lra]. apply Rmult_lt_compat_r; [apply Rdiv_lt_0_compat; lra|lra]. }
    intros [i|i|j i]; destruct o as [h|j'|j' u e k]; cbn; try discriminate; intros H.
    + apply Nat.ltb_lt in H. apply (Lin (h * vi i) (CMom i)). exact H.
    + apply Nat.ltb_lt in H. apply Sum; [apply (Lin (u * sg i) (CNoise j' i)); split; auto|]. apply Sca. auto.
    + apply andb_true_iff in H. destruct H as [H1 H2]. apply Nat.ltb_lt in H2. apply (Lin (a i) (CMom i)). exact H2.
  - intros c z z' H Hz. destruct c as [i|i|j i]; destruct o as [h|j'|j' u e k]; cbn in *; try discriminate.
    + rewrite (Hz (CMom i)); auto. now apply Nat.ltb_lt in H.
    + apply Nat.ltb_lt in H. rewrite (Hz (CNoise j' i)) by (cbn; auto). rewrite (He k i (pos_of z) (pos_of z')); auto. intros q Hq. apply (Hz (CPos q)); auto.
    + apply andb_true_iff in H. destruct H as [H1 H2]. apply Nat.ltb_lt in H2. rewrite (Hz (CMom i)); auto.
Qed.
Lemma runs_volume l : Forall op_ok l -> (forall k i, (i < d)%nat -> continuous d m (fun z => g k (pos_of z) i)) ->
  (forall k i x y, (forall j, (j < d)%nat -> x j = y j) -> g k x i = g k y i) -> preserves_volume d m (runs g l).
Proof.
  intros Hl Hc He. induction l as [|o l IH].
  - apply (@pv_ext d m (fun z c => if (fun _ => false) c then - z c else z c)); [apply (@pv_flip d m (fun _ => false)); discriminate|reflexivity].
  - inversion Hl; subst. apply (@pv_compose d m (do g o) (runs g l)); [now apply do_volume|now apply IH].
Qed.
Lemma whole_volume l : Forall op_ok l -> (forall k i, (i < d)%nat -> continuous d m (fun z => g k (pos_of z) i)) ->
  (forall k i x y, (forall j, (j < d)%nat -> x j = y j) -> g k x i = g k y i) -> preserves_volume d m (whole g l).
Proof. intros. apply (@pv_compose d m (runs g l) refl); [now apply runs_volume|apply refl_volume]. Qed.

(** ** the involution *)
Definition idx_ok (o : op) : Prop := match o with Drift _ => True | Nsh j => (j < m)%nat | Push j _ _ k => (j < m)%nat /\ (k < m)%nat end.
Variable g' : nat -> (nat -> R) -> nat -> R.
Hypothesis Hrev : forall k, (k < m)%nat -> g' (m - 1 - k)%nat = g k.
Lemma do_back o z : idx_ok o -> do g' (mirror o) (refl (do g o z)) = refl z.
Proof.
  intros Ho. extensionality c. destruct o as [h|j|j u e k]; cbn in Ho.
  - destruct c as [i|i|j i]; unfold do, refl; cbn; try reflexivity.
    + destruct (Nat.ltb_spec i d); auto. ring.
    + destruct ((j <? m)%nat && (i <? d)%nat); reflexivity.
  - destruct c as [i|i|j' i]; unfold do, refl; cbn; try reflexivity.
    destruct (Nat.ltb_spec j' m) as [Hj|Hj], (Nat.ltb_spec i d) as [Hi|Hi]; cbn.
    + destruct (Nat.eqb_spec j' (m - 1 - j)) as [->|Hne]; cbn.
      * replace (m - 1 - (m - 1 - j))%nat with j by lia. rewrite Nat.eqb_refl. cbn. destruct (Nat.ltb_spec i d); [|lia]. ring.
      * destruct (Nat.eqb_spec (m - 1 - j') j); [lia|]. reflexivity.
    + rewrite andb_false_r. destruct (Nat.ltb_spec i d); [lia|]. rewrite andb_false_r. reflexivity.
    + destruct (Nat.eqb_spec j' (m - 1 - j)); [lia|]. cbn. destruct (Nat.eqb_spec j' j); [lia|]. reflexivity.
    + rewrite andb_false_r. destruct (Nat.ltb_spec i d); [lia|]. rewrite andb_false_r. reflexivity.
  - destruct Ho as [Hj Hk]. destruct c as [i|i|j' i]; unfold do, refl; cbn; try reflexivity.
    + destruct (Nat.ltb_spec i d) as [Hi|Hi]; cbn; auto.
      assert (Hlt : (m - 1 - j <? m)%nat = true) by (apply Nat.ltb_lt; lia). rewrite Hlt. cbn. destruct (Nat.ltb_spec i d); [|lia]. cbn.
      replace (m - 1 - (m - 1 - j))%nat with j by lia. rewrite Hrev by auto.
      match goal with |- - (z (CMom i) + (_ + e * g k ?x i)) + (_ + e * g k ?y i) = _ => change y with x end. ring.
    + destruct ((j' <? m)%nat && (i <? d)%nat); reflexivity.
Qed.
Lemma runs_app h l1 l2 z : runs h (l1 ++ l2) z = runs h l2 (runs h l1 z).
Proof. apply fold_left_app. Qed.
Lemma runs_back l : Forall idx_ok l -> forall z, runs g' (rev (map mirror l)) (refl (runs g l z)) = refl z.
Proof.
  induction l as [|o l IH]; intros Hl z; [reflexivity|]. inversion Hl; subst. cbn [map rev]. rewrite runs_app.
  change (runs g (o :: l) z) with (runs g l (do g o z)). rewrite IH by auto. cbn. now apply do_back.
Qed.
Lemma whole_involution l : Forall idx_ok l -> rev (map mirror l) = l -> forall z, whole g' l (whole g l z) = z.
Proof. intros Hl Hp z. unfold whole. rewrite <- Hp at 1. rewrite runs_back by auto. apply refl_refl. Qed.
End Map.
Lemma rev_flat_map A B (f : A -> list B) l : rev (flat_map f l) = flat_map (fun x => rev (f x)) (rev l).
Proof. induction l as [|x l IH]; cbn; auto. rewrite rev_app_distr, IH, flat_map_app. cbn. now rewrite app_nil_r. Qed.
Lemma rev_seq n : rev (seq 0 n) = map (fun j => n - 1 - j)%nat (seq 0 n).
Proof.
  apply nth_ext with (d := 0%nat) (d' := 0%nat); [now rewrite rev_length, map_length|]. intros i Hi. rewrite rev_length, seq_length in Hi.
  rewrite rev_nth by now rewrite seq_length. rewrite seq_length, seq_nth by lia. rewrite nth_map_seq by auto. lia.
Qed.
Lemma palindrome A (h : A -> A) (f : nat -> list A) n : (forall j, (j < n)%nat -> rev (map h (f (n - 1 - j)%nat)) = f j) -> rev (map h (flat_map f (seq 0 n))) = flat_map f (seq 0 n).
Proof.
  intros H. rewrite (flat_map_concat_map f), concat_map, map_map, <- flat_map_concat_map, rev_flat_map, rev_seq.
  rewrite !flat_map_concat_map, map_map. f_equal. apply map_ext_in. intros j Hj. apply in_seq in Hj. apply H. lia.
Qed.
