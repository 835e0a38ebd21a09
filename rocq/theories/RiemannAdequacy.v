(** The integral of a product of functions of one coordinate is the product of Coquelicot's integrals; positive functions have a positive integral. *)
From Coq Require Import Reals Lra Lia List FunctionalExtensionality Classical ZArith.
From Coquelicot Require Import Rcomplements Hierarchy RInt Continuity.
From Verif Require Import Base ListUtil TreeUtilSpec TreeUtilProofs VolumeSpec RiemannSpec RiemannProofs RiemannSums RiemannLimit RiemannIntegral RiemannBounds.
Open Scope R_scope.
Set Implicit Arguments.
Local Arguments Nat.mul : simpl never.
Local Arguments Nat.pow : simpl never.

Section Line.
Variable h : R -> R.
Hypothesis Hh : continuity h.
Lemma h_cont x : Continuity.continuous h x.
Proof. apply continuity_pt_filterlim. apply Hh. Qed.
Lemma h_ex a b : ex_RInt h a b.
Proof. apply (ex_RInt_continuous h). intros z _. apply h_cont. Qed.
Lemma RInt_cells a w n : RInt h a (a + INR n * w) = sum_upto n (fun i => RInt h (a + INR i * w) (a + INR i * w + w)).
Proof.
  induction n as [|n IH].
  - cbn [INR]. rewrite Rmult_0_l, Rplus_0_r, RInt_point. reflexivity.
  - rewrite sum_upto_S, <- IH. replace (a + INR (S n) * w) with (a + INR n * w + w) by (rewrite S_INR; ring).
    symmetry. apply (RInt_Chasles h); apply h_ex.
Qed.
Lemma RInt_cell t w e : 0 <= w -> (forall t', t <= t' <= t + w -> Rabs (h t' - h t) <= e) -> Rabs (w * h t - RInt h t (t + w)) <= w * e.
Proof.
  intros Hw H. assert (B1 : RInt h t (t + w) <= w * (h t + e)).
  { replace (w * (h t + e)) with (RInt (fun _ => h t + e) t (t + w)) by (rewrite RInt_const; unfold scal; cbn; unfold mult; cbn; ring).
    apply RInt_le; [lra|apply h_ex|apply ex_RInt_const|]. intros x Hx. specialize (H x ltac:(lra)). apply Rabs_le_between in H. lra. }
  assert (B2 : w * (h t - e) <= RInt h t (t + w)).
  { replace (w * (h t - e)) with (RInt (fun _ => h t - e) t (t + w)) by (rewrite RInt_const; unfold scal; cbn; unfold mult; cbn; ring).
    apply RInt_le; [lra|apply ex_RInt_const|apply h_ex|]. intros x Hx. specialize (H x ltac:(lra)). apply Rabs_le_between in H. lra. }
  apply Rabs_le. lra.
Qed.
Lemma line_RInt M k e : (forall t t', Rabs (t' - t) <= / 2 ^ k -> Rabs (h t' - h t) <= e) -> Rabs (line M k h - RInt h (- INR M) (INR M)) <= 2 * INR M * e.
Proof.
  intros H. pose proof (pow2_pos k) as H2. assert (Hw : 0 < / 2 ^ k) by now apply Rinv_0_lt_compat. unfold line.
  replace (RInt h (- INR M) (INR M)) with (RInt h (- INR M) (- INR M + INR (2 * M * 2 ^ k) * / 2 ^ k)).
  - rewrite RInt_cells, <- sum_upto_minus. eapply Rle_trans; [apply sum_upto_abs|].
    apply Rle_trans with (sum_upto (2 * M * 2 ^ k) (fun _ => / 2 ^ k * e)).
    + apply sum_upto_le. intros i _. replace (INR i / 2 ^ k - INR M) with (- INR M + INR i * / 2 ^ k) by (unfold Rdiv; ring). apply RInt_cell; [lra|].
      intros t' Ht. apply H. rewrite Rabs_pos_eq; lra.
    + rewrite sum_upto_const, !mult_INR, INR_pow2. right. cbn [INR]. field. lra.
  - f_equal. rewrite !mult_INR, INR_pow2. cbn [INR]. field. lra.
Qed.
End Line.
Lemma vanishing_uniform M h e : continuity h -> vanishes M h -> 0 < e -> exists del, 0 < del /\ forall t t', Rabs (t' - t) < del -> Rabs (h t' - h t) < e.
Proof.
  intros Hh Hv He. set (f := fun z : phase => h (z (CPos 0))).
  assert (Hc : continuous 1 0 f) by (apply (@cont_continuity 1 0 h); auto; apply cont_coord; cbn; lia).
  destruct (@cont_uniform 1 0 f (INR M + 1) e Hc He) as (del & Hd & H). exists (Rmin del 1). split; [apply Rmin_pos; lra|].
  intros t t' Ht. pose proof (Rmin_l del 1). pose proof (Rmin_r del 1). destruct (Rle_dec (Rabs t) (INR M + 1)) as [Hb|Hb].
  - set (pt := fun s c => match c with CPos _ => s | _ => 0 end : R). apply (H (pt t) (pt t')).
    + intros [i|i|j i] Hi; cbn in *; auto; rewrite Rabs_R0; pose proof (pos_INR M); lra.
    + intros [i|i|j i] Hi; cbn in *; try lra; rewrite Rminus_diag_eq, Rabs_R0 by reflexivity; lra.
  - rewrite (Hv t) by lra. rewrite (Hv t').
    + rewrite Rminus_diag_eq, Rabs_R0 by reflexivity. exact He.
    + pose proof (Rabs_triang t' (t - t')) as T. replace (t' + (t - t')) with t in T by ring. rewrite Rabs_minus_sym in T. lra.
Qed.
Lemma line_limit M h e : continuity h -> vanishes M h -> 0 < e -> exists K, forall M' k, (M <= M')%nat -> (K <= k)%nat -> Rabs (line M' k h - RInt h (- INR M) (INR M)) < e.
Proof.
  intros Hh Hv He. pose proof (pos_INR M) as HM. destruct (@vanishing_uniform M h (e / (2 * INR M + 1)) Hh Hv) as (del & Hd & H); [apply Rdiv_lt_0_compat; lra|].
  destruct (pow2_small Hd) as (K & HK). exists K. intros M' k HM' Hk. rewrite (@line_grow M' M k h) by auto.
  apply Rle_lt_trans with (2 * INR M * (e / (2 * INR M + 1))).
  - apply line_RInt; auto. intros t t' Ht. left. apply H. eapply Rle_lt_trans; [exact Ht|]. now apply HK.
  - replace (2 * INR M * (e / (2 * INR M + 1))) with (e - e / (2 * INR M + 1)) by (field; lra). assert (0 < e / (2 * INR M + 1)) by (apply Rdiv_lt_0_compat; lra). lra.
Qed.
Lemma near_product a b e : 0 < e -> exists del, 0 < del /\ forall a' b', Rabs (a' - a) < del -> Rabs (b' - b) < del -> Rabs (a' * b' - a * b) < e.
Proof.
  intros He. pose proof (Rabs_pos a). pose proof (Rabs_pos b). 
  set (del := Rmin 1 (e / (Rabs a + Rabs b + 2))).
  assert (Hd : 0 < del) by (apply Rmin_pos; [lra|apply Rdiv_lt_0_compat; lra]). exists del. split; auto. intros a' b' H1 H2.
  assert (D1 : del <= 1) by apply Rmin_l. assert (D2 : del <= e / (Rabs a + Rabs b + 2)) by apply Rmin_r.
  replace (a' * b' - a * b) with ((a' - a) * (b' - b) + (a' - a) * b + a * (b' - b)) by ring.
  eapply Rle_lt_trans; [apply Rabs_triang|]. eapply Rle_lt_trans; [apply Rplus_le_compat_r, Rabs_triang|]. rewrite !Rabs_mult.
  assert (E1 : Rabs (a' - a) * Rabs (b' - b) <= del * 1) by (apply Rmult_le_compat; try apply Rabs_pos; lra).
  assert (E2 : Rabs (a' - a) * Rabs b <= del * Rabs b) by (apply Rmult_le_compat_r; lra).
  assert (E3 : Rabs a * Rabs (b' - b) <= Rabs a * del) by (apply Rmult_le_compat_l; lra).
  apply Rle_lt_trans with (del * (Rabs a + Rabs b + 1)); [lra|].
  apply Rlt_le_trans with (del * (Rabs a + Rabs b + 2)); [apply Rmult_lt_compat_l; lra|].
  apply Rle_trans with (e / (Rabs a + Rabs b + 2) * (Rabs a + Rabs b + 2)); [apply Rmult_le_compat_r; lra|]. right. field. lra.
Qed.

Section Dim.
Variables d m : nat.
Notation cont := (VolumeSpec.continuous d m).
Notation inn := (inside d m).
Notation cs := (coords d m).
Notation test := (test_function d m).
Notation limit := (riemann_limit d m).
Notation itg := (riemann_integrable d m).
Notation I := (riemann_integral d m).

Lemma product_test (g : coord -> R -> R) M : (forall c, continuity (g c)) -> (forall c, vanishes M (g c)) -> test (fun z => prod_over cs (fun c => g c (z c))).
Proof.
  intros Hg Hv. split.
  - assert (G : forall l, (forall c, In c l -> inn c) -> cont (fun z => prod_over l (fun c => g c (z c)))).
    { induction l as [|c l IH]; intros Hl; [exact (cont_const d m 1)|]. apply (@cont_mult d m (fun z => g c (z c)) (fun z => prod_over l (fun c => g c (z c)))).
      - apply (@cont_continuity d m (g c) (fun z => z c)); auto. apply cont_coord. apply Hl. now left.
      - apply IH. intros; apply Hl; now right. }
    apply G. intros c. apply in_coords.
  - exists M. intros z c Hc Hz. apply in_coords in Hc. apply in_split in Hc. destruct Hc as (l1 & l2 & ->). rewrite prod_over_app, prod_over_cons, (Hv c _ Hz). ring.
Qed.
(** the integral of a product of functions of one coordinate with bounded support is the product of their integrals *)
Theorem product_limit (g : coord -> R -> R) M : (forall c, continuity (g c)) -> (forall c, vanishes M (g c)) ->
  limit (fun z => prod_over cs (fun c => g c (z c))) (prod_over cs (fun c => RInt (g c) (- INR M) (INR M))).
Proof.
  intros Hg Hv.
  assert (G : forall l e, 0 < e -> exists K, forall M' k, (K <= M')%nat -> (K <= k)%nat -> Rabs (prod_over l (fun c => line M' k (g c)) - prod_over l (fun c => RInt (g c) (- INR M) (INR M))) < e).
  { induction l as [|c l IH]; intros e He.
    - exists 0%nat. intros M' k _ _. cbn. rewrite Rminus_diag_eq, Rabs_R0 by reflexivity. exact He.
    - destruct (@near_product (RInt (g c) (- INR M) (INR M)) (prod_over l (fun c => RInt (g c) (- INR M) (INR M))) e He) as (del & Hd & H).
      destruct (IH del Hd) as (K1 & H1). destruct (@line_limit M (g c) del (Hg c) (Hv c) Hd) as (K2 & H2). exists (Nat.max M (Nat.max K1 K2)).
      intros M' k HM Hk. rewrite !prod_over_cons. apply H; [apply H2; lia|apply H1; lia]. }
  intros e He. destruct (G cs e He) as (K & HK). exists K. intros M' k HM Hk. rewrite rs_product by apply NoDup_coords. now apply HK.
Qed.

(** auxiliary definition of a statement or a proof; models no code of /repo *)
Definition tent (t : R) : R := Rmax 0 (1 - Rabs t).
Lemma tent_cont : continuity tent.
Proof.
  assert (E : tent = (fun t => (1 - Rabs t + Rabs (1 - Rabs t)) / 2)).
  { extensionality t. unfold tent, Rmax. destruct (Rle_dec 0 (1 - Rabs t)); [rewrite (Rabs_pos_eq (1 - Rabs t)) by lra|rewrite (Rabs_left (1 - Rabs t)) by lra]; lra. }
  rewrite E. assert (A : continuity Rabs) by apply Rcontinuity_abs.
  assert (B : continuity (fun t => 1 - Rabs t)) by (apply (continuity_minus (fun _ => 1) Rabs); auto; apply continuity_const; intros x y; reflexivity).
  assert (C : continuity (fun t => / 2 * (1 - Rabs t + Rabs (1 - Rabs t)))).
  { apply (continuity_scal (fun t => 1 - Rabs t + Rabs (1 - Rabs t)) (/ 2)). apply (continuity_plus (fun t => 1 - Rabs t) (fun t => Rabs (1 - Rabs t))); auto. apply (continuity_comp (fun t => 1 - Rabs t) Rabs); auto. }
  replace (fun t => (1 - Rabs t + Rabs (1 - Rabs t)) / 2) with (fun t => / 2 * (1 - Rabs t + Rabs (1 - Rabs t))); auto. extensionality t. unfold Rdiv. ring.
Qed.
Lemma tent_vanishes : vanishes 1 tent.
Proof. intros t Ht. cbn in Ht. unfold tent. apply Rmax_left. lra. Qed.
Theorem integral_pos f : itg f -> (forall z, 0 < f z) -> 0 < I f.
Proof.
  intros Hf Hp. destruct (@cont_bounded d m (fun z => / f z) 1) as (B & HB & Hb).
  { intros z e He. destruct Hf as [Hf _]. 
    assert (Hi : forall x e, 0 < x -> 0 < e -> exists del, 0 < del /\ forall y, Rabs (y - x) < del -> Rabs (/ y - / x) < e).
    { intros x e0 Hx He0. exists (Rmin (x / 2) (e0 * (x * x / 2))). assert (0 < e0 * (x * x / 2)) by (apply Rmult_lt_0_compat; [lra|]; apply Rmult_lt_0_compat; [apply Rmult_lt_0_compat|]; lra).
      split; [apply Rmin_pos; lra|]. intros y Hy. pose proof (Rmin_l (x / 2) (e0 * (x * x / 2))). pose proof (Rmin_r (x / 2) (e0 * (x * x / 2))).
      assert (Hy2 : x / 2 < y) by (apply Rabs_def2 in Hy; lra). replace (/ y - / x) with (- (y - x) * / (y * x)) by (field; lra). rewrite Rabs_mult, Rabs_Ropp.
      assert (Hyx : x * x / 2 < y * x) by (replace (x * x / 2) with (x / 2 * x) by field; apply Rmult_lt_compat_r; lra).
      assert (Hxx : 0 < x * x / 2) by (apply Rmult_lt_0_compat; [apply Rmult_lt_0_compat|]; lra).
      rewrite (Rabs_pos_eq (/ (y * x))) by (left; apply Rinv_0_lt_compat; lra).
      apply Rlt_le_trans with (e0 * (x * x / 2) * / (y * x)); [apply Rmult_lt_compat_r; [apply Rinv_0_lt_compat|]; lra|].
      apply Rle_trans with (e0 * (x * x / 2) * / (x * x / 2)); [|right; field; lra]. apply Rmult_le_compat_l; [lra|]. apply Rinv_le_contravar; lra. }
    destruct (Hi (f z) e (Hp z) He) as (del & Hd & H). destruct (Hf z del Hd) as (del' & Hd' & H'). exists del'. split; auto. }
  set (T := fun z : phase => prod_over cs (fun c => tent (z c))). set (v := prod_over cs (fun _ => RInt tent (- INR 1) (INR 1))).
  assert (HT : test T) by (apply (@product_test (fun _ => tent) 1); intros _; [apply tent_cont|apply tent_vanishes]).
  assert (Hv : limit T v) by (apply (@product_limit (fun _ => tent) 1); intros _; [apply tent_cont|apply tent_vanishes]).
  assert (Hv0 : 0 < v).
  { unfold v. apply prod_over_pos. intros _ _. cbn [INR]. apply RInt_gt_0; [lra| |].
    - intros t Ht. unfold tent. rewrite Rmax_right; [|left]; (assert (Rabs t < 1) by (apply Rabs_def1; lra)); lra.
    - intros t Ht. apply continuity_pt_filterlim. apply tent_cont. }
  destruct (integral_test HT Hv) as [LT IT]. destruct (@integral_scale _ _ _ _ (riemann_integral_is_integral d m) (/ (B + 1)) T LT) as [L2 I2].
  apply Rlt_le_trans with (/ (B + 1) * I T).
  - rewrite IT. apply Rmult_lt_0_compat; auto. apply Rinv_0_lt_compat. lra.
  - rewrite <- I2. apply integral_le; auto. intros z. assert (HTz : 0 <= T z <= 1).
    { assert (forall t, 0 <= tent t <= 1) by (intros t; unfold tent, Rmax; pose proof (Rabs_pos t); destruct (Rle_dec _ _); lra).
      split; [apply prod_over_nonneg; intros; apply H|]. apply Rle_trans with (prod_over cs (fun _ => 1)); [apply prod_over_le; intros; apply H|]. rewrite prod_over_const, pow1. lra. }
    destruct (classic (in_box d m 1 z)) as [Hz|Hz].
    + specialize (Hb z Hz). specialize (Hp z). rewrite Rabs_pos_eq in Hb by (left; now apply Rinv_0_lt_compat).
      apply Rle_trans with (/ (B + 1) * 1); [apply Rmult_le_compat_l; [left; apply Rinv_0_lt_compat|]; lra|]. rewrite Rmult_1_r.
      rewrite <- (Rinv_inv (f z)). apply Rinv_le_contravar; [now apply Rinv_0_lt_compat|lra].
    + assert (exists c, inn c /\ 1 < Rabs (z c)) as (c & Hc & Hzc).
      { apply NNPP. intros Hx. apply Hz. intros c Hc. apply Rnot_lt_le. intros Hlt. apply Hx. eauto. }
      replace (T z) with 0; [rewrite Rmult_0_r; left; apply Hp|]. symmetry. unfold T. apply in_coords in Hc. apply in_split in Hc. destruct Hc as (l1 & l2 & ->).
      rewrite prod_over_app, prod_over_cons, (@tent_vanishes (z c)) by (cbn; lra). ring.
Qed.
End Dim.
