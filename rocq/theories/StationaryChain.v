(** Several Metropolis-Hastings steps with reversible, volume preserving proposals leave the density invariant. *)
From Coq Require Import Reals Lra Lia List Permutation FunctionalExtensionality.
From Verif Require Import Base VolumeSpec VolumeProofs Stationary RiemannSpec RiemannProofs RiemannLimit RiemannIntegral RiemannBounds.
Open Scope R_scope.
Set Implicit Arguments.
Local Arguments Nat.ltb : simpl never.
Local Arguments Nat.mul : simpl never.

(** ** more random vectors *)
Lemma inside_mono d m m' c : (m <= m')%nat -> inside d m c -> inside d m' c.
Proof. destruct c; cbn; intuition lia. Qed.
Lemma inside_dec d m c : {inside d m c} + {~ inside d m c}.
Proof. destruct c as [i|i|j i]; cbn; [apply lt_dec|apply lt_dec|]. destruct (lt_dec j m), (lt_dec i d); intuition. Qed.
Lemma continuous_mono d m m' f : (m <= m')%nat -> continuous d m f -> continuous d m' f.
Proof. intros Hm H z e He. destruct (H z e He) as (del & Hd & H1). exists del. split; auto. intros z' Hz. apply H1. intros c Hc. apply Hz. now apply (@inside_mono d m m'). Qed.
Lemma pv_mono d m m' F : (m <= m')%nat -> preserves_volume d m F -> preserves_volume d m' F.
Proof.
  intros Hm. induction 1 as [S f HS Hc Hf|S HS|p Hp Hin Hout|f g _ IH1 _ IH2|f g _ IH E].
  - apply pv_shear.
    + intros c Sc. now apply (@inside_mono d m m'), HS.
    + intros c Sc. now apply (@continuous_mono d m m'), Hc.
    + intros c z z' Sc Hz. apply Hf; auto. intros c' Hc'. apply Hz. now apply (@inside_mono d m m').
  - apply pv_flip. intros c Sc. now apply (@inside_mono d m m'), HS.
  - apply pv_exchange; auto.
    + intros c Hc. destruct (inside_dec d m c) as [Hi|Hi]; [apply (@inside_mono d m m'); auto|now rewrite Hout].
    + intros c Hc. apply Hout. intros Hi. apply Hc. now apply (@inside_mono d m m').
  - now apply pv_compose.
  - eapply pv_ext; eauto.
Qed.
Lemma cont_inv d m f : (forall z, 0 < f z) -> continuous d m f -> continuous d m (fun z => / f z).
Proof.
  intros Hp Hf z e He. assert (Hc : continuity_pt Rinv (f z)) by (apply (continuity_pt_inv id (f z)); [apply derivable_continuous_pt, derivable_pt_id|unfold id; specialize (Hp z); lra]).
  destruct (Hc e He) as (a & Ha & H). destruct (Hf z a Ha) as (del & Hd & H2). exists del. split; auto. intros z' Hz. specialize (H2 z' Hz).
  destruct (Req_dec (f z') (f z)) as [->|Hn]; [rewrite Rminus_diag_eq, Rabs_R0 by reflexivity; exact He|]. apply H. split; [split; [exact Logic.I|auto]|]. exact H2.
Qed.

(** ** several steps *)
Record stage (Data : Type) := mkStage { s_map : Data -> phase -> phase; s_rev : Data -> Data }.
Section Chain.
Variables (d m : nat) (Data : Type) (ds : list Data).
Variable W : phase -> R.
Notation cont := (continuous d m).
Notation itg := (riemann_integrable d m).
Notation I := (riemann_integral d m).
Notation HI := (riemann_integral_is_integral d m).
Hypothesis Wp : forall z, 0 < W z.
Hypothesis Wc : cont W.
Hypothesis Wf : forall z, W (flip d z) = W z.
Hypothesis Wi : forall g B, cont g -> (forall z, Rabs (g z) <= B) -> itg (fun z => W z * g z).
(** auxiliary definition of a statement or a proof; models no code of /repo *)
Definition accept (Phi : phase -> phase) (z : phase) : R := Rmin (W z) (W (Phi z)) / W z.
(** mean of f after the steps; the momentum is the negated one both in the proposal of the map and in the rejected state *)
Fixpoint mean_after (f : phase -> R) (l : list (stage Data)) (x : Data) (z : phase) : R :=
  match l with
  | [] => f z
  | st :: r => accept (s_map st x) z * mean_after f r x (flip d (s_map st x z)) + (1 - accept (s_map st x) z) * mean_after f r x (flip d z)
  end.
(** auxiliary definition of a statement or a proof; models no code of /repo *)
Fixpoint good_stages (l : list (stage Data)) : Prop :=
  match l with
  | [] => True
  | st :: r => (forall x, In x ds -> preserves_volume d m (s_map st x)) /\ Permutation (map (s_rev st) ds) ds /\
      (forall x z, In x ds -> s_map st (s_rev st x) (s_map st x z) = z) /\
      (forall st' x, In st' r -> In x ds -> s_map st' (s_rev st x) = s_map st' x) /\ good_stages r
  end.
Lemma accept_range Phi z : 0 < accept Phi z <= 1.
Proof.
  unfold accept. pose proof (Wp z) as H1. pose proof (Wp (Phi z)) as H2. split; [apply Rdiv_lt_0_compat; auto; now apply Rmin_pos|].
  apply (Rmult_le_reg_r (W z)); auto. unfold Rdiv. rewrite Rmult_assoc, Rinv_l, Rmult_1_r, Rmult_1_l by lra. apply Rmin_l.
Qed.
Lemma accept_cont Phi : preserves_volume d m Phi -> cont (accept Phi).
Proof.
  intros H. unfold accept, Rdiv. apply (@cont_mult d m (fun z => Rmin (W z) (W (Phi z))) (fun z => / W z)); [|now apply cont_inv].
  apply (@cont_min d m W (fun z => W (Phi z))); auto. apply (@cont_comp d m W Phi); auto. now apply pv_cmap.
Qed.
Lemma accept_W Phi z : W z * accept Phi z = Rmin (W z) (W (Phi z)).
Proof. unfold accept. specialize (Wp z). field. lra. Qed.
Lemma convex a u v B : 0 < a <= 1 -> Rabs u <= B -> Rabs v <= B -> Rabs (a * u + (1 - a) * v) <= B.
Proof.
  intros Ha Hu Hv. eapply Rle_trans; [apply Rabs_triang|]. rewrite !Rabs_mult, (Rabs_pos_eq a), (Rabs_pos_eq (1 - a)) by lra.
  apply Rle_trans with (a * B + (1 - a) * B); [|right; ring]. apply Rplus_le_compat; apply Rmult_le_compat_l; lra.
Qed.
Variable f : phase -> R.
Variable B : R.
Hypothesis Hf : cont f.
Hypothesis HB : forall z, Rabs (f z) <= B.
Lemma mean_bound l x z : Rabs (mean_after f l x z) <= B.
Proof. revert z. induction l as [|st r IH]; intros z; [apply HB|]. cbn [mean_after]. apply convex; auto using accept_range. Qed.
Lemma flip_cmap' : cmap d m (flip d). Proof. apply pv_cmap, flip_volume. Qed.
Lemma mean_cont l x : good_stages l -> In x ds -> cont (mean_after f l x).
Proof.
  intros Hl Hx. induction l as [|st r IH]; [exact Hf|]. destruct Hl as (H1 & _ & _ & _ & Hr). specialize (IH Hr). cbn [mean_after].
  apply (@cont_plus d m (fun z => accept (s_map st x) z * mean_after f r x (flip d (s_map st x z))) (fun z => (1 - accept (s_map st x) z) * mean_after f r x (flip d z))).
  - apply (@cont_mult d m (accept (s_map st x)) (fun z => mean_after f r x (flip d (s_map st x z)))); [apply accept_cont; auto|].
    apply (@cont_comp d m (fun z => mean_after f r x (flip d z)) (s_map st x)); [|apply pv_cmap; auto]. apply (@cont_comp d m (mean_after f r x) (flip d)); auto using flip_cmap'.
  - apply (@cont_mult d m (fun z => 1 - accept (s_map st x) z) (fun z => mean_after f r x (flip d z))).
    + apply (@cont_minus d m (fun _ => 1) (accept (s_map st x))); [apply cont_const|apply accept_cont; auto].
    + apply (@cont_comp d m (mean_after f r x) (flip d)); auto using flip_cmap'.
Qed.
Lemma mean_same l x y : (forall st, In st l -> s_map st x = s_map st y) -> mean_after f l x = mean_after f l y.
Proof.
  intros H. induction l as [|st r IH]; [reflexivity|]. extensionality z. cbn [mean_after]. rewrite (H st) by now left. rewrite IH; [reflexivity|]. intros; apply H; now right.
Qed.
Theorem mean_stationary l : good_stages l ->
  (forall x, In x ds -> itg (fun z => W z * mean_after f l x z)) /\
  sum_over ds (fun x => I (fun z => W z * mean_after f l x z)) = sum_over ds (fun x => I (fun z => W z * f z)).
Proof.
  intros Hl. assert (Hi : forall l x, good_stages l -> In x ds -> itg (fun z => W z * mean_after f l x z)) by (intros; apply (@Wi _ B); auto using mean_bound, mean_cont).
  split; [intros; now apply Hi|]. induction l as [|st r IH]; [reflexivity|].
  pose proof Hl as (H1 & H2 & H3 & H4 & Hr). rewrite <- (IH Hr).
  set (h := fun x z => mean_after f r x (flip d z)). set (M := fun x z => Rmin (W z) (W (s_map st x z))).
  assert (Hh : forall x, In x ds -> cont (h x)) by (intros x Hx; apply (@cont_comp d m (mean_after f r x) (flip d)); auto using flip_cmap', mean_cont).
  assert (Hrev : forall x, In x ds -> In (s_rev st x) ds) by (intros x Hx; apply (Permutation_in _ H2); now apply in_map).
  assert (HM : forall x y, In x ds -> In y ds -> itg (fun z => M x z * h y z)).
  { intros x y Hx Hy. replace (fun z => M x z * h y z) with (fun z => W z * (accept (s_map st x) z * h y z)) by (extensionality z; unfold M; rewrite <- accept_W; ring).
    apply (@Wi _ B).
    - apply cont_mult; auto. apply accept_cont; auto.
    - intros z. rewrite Rabs_mult. pose proof (accept_range (s_map st x) z). rewrite (Rabs_pos_eq (accept (s_map st x) z)) by lra. pose proof (mean_bound r y (flip d z)). fold (h y z) in *.
      pose proof (Rabs_pos (h y z)). apply Rle_trans with (1 * Rabs (h y z)); [apply Rmult_le_compat_r; lra|lra]. }
  assert (HW : forall x, In x ds -> itg (fun z => W z * h x z) /\ I (fun z => W z * h x z) = I (fun z => W z * mean_after f r x z)).
  { intros x Hx. destruct (@integral_volume _ _ _ _ HI _ _ (flip_volume d m) (Hi r x Hr Hx)) as [L1 I1].
    destruct (@int_ext _ _ _ _ _ (fun z => W z * h x z) HI L1) as [L2 I2]; [intros z; now rewrite Wf|]. split; auto. now rewrite <- I2. }
  assert (E : forall x, In x ds -> I (fun z => W z * mean_after f (st :: r) x z) = I (fun z => M (s_rev st x) z * h (s_rev st x) z) + (I (fun z => W z * mean_after f r x z) + - I (fun z => M x z * h x z))).
  { intros x Hx. assert (Hx' := Hrev x Hx).
    assert (Eh : h (s_rev st x) = h x) by (extensionality z; unfold h; now rewrite (@mean_same r (s_rev st x) x) by (intros; auto)).
    destruct (@integral_volume _ _ _ _ HI _ _ (H1 x Hx) (HM _ x Hx' Hx)) as [L1 I1].
    destruct (@int_ext _ _ _ _ _ (fun z => M x z * h x (s_map st x z)) HI L1) as [L2 I2].
    { intros z. unfold M. rewrite (H3 x z Hx). rewrite Rmin_comm. reflexivity. }
    destruct (@integral_scale _ _ _ _ HI (-1) _ (HM x x Hx Hx)) as [L3 I3]. destruct (HW x Hx) as [L4 I4].
    destruct (@integral_add _ _ _ _ HI _ _ L4 L3) as [L5 I5]. destruct (@integral_add _ _ _ _ HI _ _ L2 L5) as [L6 I6].
    destruct (@int_ext _ _ _ _ _ (fun z => W z * mean_after f (st :: r) x z) HI L6) as [L7 I7].
    { intros z. cbn [mean_after]. fold (h x (s_map st x z)) (h x z). unfold M. rewrite <- accept_W. ring. }
    rewrite <- I7, I6, I5, I3, I4, <- I2, I1, Eh. ring. }
  rewrite (sum_over_ext _ _ _ E), !sum_over_add, sum_over_opp.
  rewrite <- (sum_over_map (fun x => I (fun z => M x z * h x z)) (s_rev st) ds), (sum_over_perm _ H2). ring.
Qed.
End Chain.
