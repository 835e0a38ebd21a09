(** A nonnegative function that is positive at one point has a positive integral. *)
From Coq Require Import Reals Lra Lia List FunctionalExtensionality Classical ZArith.
From Coquelicot Require Import Rcomplements Hierarchy RInt Continuity.
From Verif Require Import Base ListUtil TreeUtilSpec TreeUtilProofs VolumeSpec RiemannSpec RiemannProofs RiemannSums RiemannLimit RiemannIntegral RiemannBounds RiemannAdequacy.
Open Scope R_scope.
Set Implicit Arguments.
Local Arguments Nat.mul : simpl never.
Local Arguments Nat.pow : simpl never.

Lemma tent_range t : 0 <= tent t <= 1.
Proof. unfold tent, Rmax. pose proof (Rabs_pos t). destruct (Rle_dec _ _); lra. Qed.
Lemma tent_pos t : Rabs t < 1 -> 0 < tent t.
Proof. intros H. unfold tent. rewrite Rmax_right; lra. Qed.
Lemma tent_zero t : 1 <= Rabs t -> tent t = 0.
Proof. intros H. unfold tent. apply Rmax_left. lra. Qed.
(** a tent of width [del] around [x] *)
Definition tent_at (x del t : R) : R := tent (/ del * (t + - x)).
Lemma tent_at_cont x del : continuity (tent_at x del).
Proof.
  unfold tent_at. apply (continuity_comp (fun t => / del * (t + - x)) tent); [|apply tent_cont].
  apply (continuity_scal (fun t => t + - x)). apply (continuity_plus (fun t => t) (fun _ => - x)); [apply derivable_continuous, derivable_id|apply continuity_const; intros a b; reflexivity].
Qed.
Lemma tent_at_abs x del t : 0 < del -> Rabs (/ del * (t + - x)) = Rabs (t - x) / del.
Proof. intros Hd. rewrite Rabs_mult, Rabs_pos_eq by (left; now apply Rinv_0_lt_compat). unfold Rdiv, Rminus. ring. Qed.
Lemma tent_at_zero x del t : 0 < del -> del <= Rabs (t - x) -> tent_at x del t = 0.
Proof. intros Hd H. apply tent_zero. rewrite tent_at_abs by auto. apply Rmult_le_reg_r with del; auto. unfold Rdiv. rewrite Rmult_assoc, Rinv_l; lra. Qed.
Lemma tent_at_pos x del t : 0 < del -> Rabs (t - x) < del -> 0 < tent_at x del t.
Proof. intros Hd H. apply tent_pos. rewrite tent_at_abs by auto. apply Rmult_lt_reg_r with del; auto. unfold Rdiv. rewrite Rmult_assoc, Rinv_l; lra. Qed.

Section Dim.
Variables d m : nat.
Notation cs := (coords d m).
Notation itg := (riemann_integrable d m).
Notation I := (riemann_integral d m).
Theorem integral_pos_at f z0 B : itg f -> (forall z, 0 <= f z) -> 0 < f z0 -> (forall c, Rabs (z0 c) <= B) -> 0 < I f.
Proof.
  intros Hf Hn Hp HB. destruct (proj1 Hf z0 (f z0 / 2)) as (del & Hd & Hdel); [lra|].
  set (g := fun c => tent_at (z0 c) del).
  assert (exists M, B + del < INR M) as (M & HM).
  { exists (Z.to_nat (up (B + del))). destruct (archimed (B + del)) as [HA _]. assert (0 < B + del) by (specialize (HB (CPos 0)); pose proof (Rabs_pos (z0 (CPos 0))); lra).
    rewrite INR_IZR_INZ, Z2Nat.id; [exact HA|]. apply le_IZR. lra. }
  assert (Gc : forall c, continuity (g c)) by (intros c; apply tent_at_cont).
  assert (Gv : forall c t, INR M <= Rabs t -> g c t = 0).
  { intros c t Ht. apply tent_at_zero; auto. pose proof (Rabs_triang (t - z0 c) (z0 c)) as HT. replace (t - z0 c + z0 c) with t in HT by ring. specialize (HB c). lra. }
  set (T := fun z : phase => prod_over cs (fun c => g c (z c))). set (v := prod_over cs (fun c => RInt (g c) (- INR M) (INR M))).
  assert (HT : test_function d m T) by (apply (@product_test d m g M); auto).
  assert (Hv : riemann_limit d m T v) by (apply (@product_limit d m g M); auto).
  assert (Hv0 : 0 < v).
  { unfold v. apply prod_over_pos. intros c _. specialize (HB c).
    assert (EX : forall a b, ex_RInt (g c) a b) by (intros a b; apply (ex_RInt_continuous (g c)); intros z _; apply continuity_pt_filterlim; apply Gc).
    assert (P1 : forall a b, a <= b -> 0 <= RInt (g c) a b) by (intros a b Hab; apply RInt_ge_0; auto; intros t _; apply tent_range).
    apply Rabs_le_between in HB.
    assert (P2 : 0 < RInt (g c) (z0 c - del) (z0 c + del)).
    { apply RInt_gt_0; [lra| |].
      - intros t Ht. apply tent_at_pos; auto. apply Rabs_def1; lra.
      - intros t _. apply continuity_pt_filterlim. apply Gc. }
    assert (E1 : RInt (g c) (- INR M) (z0 c - del) + RInt (g c) (z0 c - del) (z0 c + del) = RInt (g c) (- INR M) (z0 c + del)) by exact (RInt_Chasles (g c) _ _ _ (EX _ _) (EX _ _)).
    assert (E2 : RInt (g c) (- INR M) (z0 c + del) + RInt (g c) (z0 c + del) (INR M) = RInt (g c) (- INR M) (INR M)) by exact (RInt_Chasles (g c) _ _ _ (EX _ _) (EX _ _)).
    rewrite <- E2, <- E1. pose proof (P1 (- INR M) (z0 c - del) ltac:(lra)) as Q1. pose proof (P1 (z0 c + del) (INR M) ltac:(lra)) as Q2. lra. }
  destruct (integral_test HT Hv) as [LT IT]. destruct (@integral_scale _ _ _ _ (riemann_integral_is_integral d m) (f z0 / 2) T LT) as [L2 I2].
  apply Rlt_le_trans with (f z0 / 2 * I T).
  - rewrite IT. apply Rmult_lt_0_compat; auto. lra.
  - rewrite <- I2. apply integral_le; auto. intros z. assert (HTz : 0 <= T z <= 1).
    { split; [apply prod_over_nonneg; intros; apply tent_range|]. apply Rle_trans with (prod_over cs (fun _ => 1)); [apply prod_over_le; intros; apply tent_range|]. rewrite prod_over_const, pow1. lra. }
    destruct (classic (exists c, inside d m c /\ del <= Rabs (z c - z0 c))) as [(c & Hc & Hzc)|Hz].
    + replace (T z) with 0; [rewrite Rmult_0_r; auto|]. symmetry. unfold T. apply in_coords in Hc. apply in_split in Hc. destruct Hc as (l1 & l2 & ->).
      rewrite prod_over_app, prod_over_cons. unfold g at 2. rewrite (@tent_at_zero (z0 c) del (z c)) by auto. ring.
    + assert (Hc : Rabs (f z - f z0) < f z0 / 2) by (apply Hdel; intros c Hc; apply Rnot_le_lt; intros H; apply Hz; eauto).
      apply Rabs_def2 in Hc. apply Rle_trans with (f z0 / 2 * 1); [apply Rmult_le_compat_l|]; lra.
Qed.
End Dim.
