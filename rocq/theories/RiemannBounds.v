(** Sufficient condition for integrability; products of functions of one coordinate. *)
From Coq Require Import Reals Lra Lia List FunctionalExtensionality Classical ZArith.
From Verif Require Import Base ListUtil TreeUtilSpec TreeUtilProofs VolumeSpec RiemannSpec RiemannProofs RiemannSums RiemannLimit RiemannIntegral.
Open Scope R_scope.
Set Implicit Arguments.
Local Arguments Nat.mul : simpl never.
Local Arguments Nat.pow : simpl never.

(** ** products *)
Lemma prod_over_cons c l g : prod_over (c :: l) g = g c * prod_over l g. Proof. reflexivity. Qed.
Lemma prod_over_app l l' g : prod_over (l ++ l') g = prod_over l g * prod_over l' g.
Proof. induction l as [|c l IH]; cbn [app]; [unfold prod_over at 2; cbn; ring|]. rewrite !prod_over_cons, IH. ring. Qed.
Lemma prod_over_ext l g h : (forall c, In c l -> g c = h c) -> prod_over l g = prod_over l h.
Proof. intros H. unfold prod_over. f_equal. now apply map_ext_in. Qed.
Lemma prod_over_nonneg l g : (forall c, In c l -> 0 <= g c) -> 0 <= prod_over l g.
Proof. induction l as [|c l IH]; intros H; [cbn; lra|]. rewrite prod_over_cons. apply Rmult_le_pos; [apply H; now left|apply IH; intros; apply H; now right]. Qed.
Lemma prod_over_le l g h : (forall c, In c l -> 0 <= g c <= h c) -> prod_over l g <= prod_over l h.
Proof.
  induction l as [|c l IH]; intros H; [cbn; lra|]. rewrite !prod_over_cons. assert (Hc : 0 <= g c <= h c) by (apply H; now left).
  apply Rmult_le_compat; try lra; [apply prod_over_nonneg; intros; apply H; now right|apply IH; intros; apply H; now right].
Qed.
Lemma prod_over_const l a : prod_over l (fun _ => a) = a ^ length l.
Proof. induction l as [|c l IH]; [reflexivity|]. rewrite prod_over_cons, IH. reflexivity. Qed.
Lemma prod_over_mult l g h : prod_over l (fun c => g c * h c) = prod_over l g * prod_over l h.
Proof. induction l as [|c l IH]; [cbn; ring|]. rewrite !prod_over_cons, IH. ring. Qed.
Lemma prod_over_pos l g : (forall c, In c l -> 0 < g c) -> 0 < prod_over l g.
Proof. induction l as [|c l IH]; intros H; [cbn; lra|]. rewrite prod_over_cons. apply Rmult_lt_0_compat; [apply H; now left|apply IH; intros; apply H; now right]. Qed.

Lemma rs_factor M k l h f : (forall z c t, In c l -> h (put z c t) = h z) -> forall z, riemann_sum M k l (fun z => h z * f z) z = h z * riemann_sum M k l f z.
Proof.
  induction l as [|c l IH]; intros Hh z; [reflexivity|]. rewrite !rs_cons, <- line_scale. apply line_ext. intros t.
  rewrite IH by (intros; apply Hh; now right). f_equal. apply Hh. now left.
Qed.
Lemma rs_product M k (g : coord -> R -> R) l z : NoDup l -> riemann_sum M k l (fun z => prod_over l (fun c => g c (z c))) z = prod_over l (fun c => line M k (g c)).
Proof.
  revert z. induction l as [|c l IH]; intros z Hn; [reflexivity|]. inversion Hn; subst. rewrite rs_cons, prod_over_cons.
  rewrite (line_ext M k _ (fun t => prod_over l (fun c => line M k (g c)) * g c t)).
  - rewrite line_scale. ring.
  - intros t. rewrite (@rs_factor M k l (fun z => g c (z c)) (fun z => prod_over l (fun c => g c (z c)))).
    + rewrite put_same, IH by auto. ring.
    + intros z' c' t' Hc'. f_equal. apply put_other. intros ->. auto.
Qed.

(** ** sums of 1 / (1 + |t|)^2 *)
Definition q (t : R) : R := / (1 + Rabs t) ^ 2.
(** auxiliary definition of a statement or a proof; models no code of /repo *)
Definition qA (t : R) : R := 2 * t / (1 + Rabs t).
Lemma q_pos t : 0 < q t.
Proof. apply Rinv_0_lt_compat. apply pow_lt. pose proof (Rabs_pos t). lra. Qed.
Lemma q_step t h : 0 < h <= 1 -> (0 <= t \/ t + h <= 0) -> h * q t <= qA (t + h) - qA t.
Proof.
  intros Hh Ht. unfold q, qA. destruct Ht as [Ht|Ht].
  - rewrite !Rabs_pos_eq by lra. replace (2 * (t + h) / (1 + (t + h)) - 2 * t / (1 + t)) with (2 * h / ((1 + t) * (1 + (t + h)))) by (field; lra).
    apply Rle_trans with (h * (2 / ((1 + t) * (1 + (t + h))))); [|right; field; lra]. apply Rmult_le_compat_l; [lra|].
    apply Rle_trans with (2 / ((1 + t) * (2 * (1 + t)))); [right; field; lra|]. apply Rmult_le_compat_l; [lra|]. apply Rinv_le_contravar; [apply Rmult_lt_0_compat; lra|].
    apply Rmult_le_compat_l; lra.
  - rewrite !Rabs_left1 by lra. replace (2 * (t + h) / (1 + - (t + h)) - 2 * t / (1 + - t)) with (2 * h / ((1 + - t) * (1 + - (t + h)))) by (field; lra).
    apply Rle_trans with (h * (2 / ((1 + - t) * (1 + - (t + h))))); [|right; field; lra]. apply Rmult_le_compat_l; [lra|].
    apply Rle_trans with (/ ((1 + - t) * (1 + - (t + h)))).
    + apply Rinv_le_contravar; [apply Rmult_lt_0_compat; lra|]. cbn [pow]. rewrite Rmult_1_r. apply Rmult_le_compat_l; lra.
    + assert (0 < / ((1 + - t) * (1 + - (t + h)))) by (apply Rinv_0_lt_compat, Rmult_lt_0_compat; lra). unfold Rdiv. lra.
Qed.
Lemma qA_bound t : -2 <= qA t <= 2.
Proof.
  unfold qA. pose proof (Rabs_pos t) as H. pose proof (Rle_abs t) as H1. pose proof (Rle_abs (- t)) as H2. rewrite Rabs_Ropp in H2.
  split; apply (Rmult_le_reg_r (1 + Rabs t)); try lra; unfold Rdiv; rewrite Rmult_assoc, Rinv_l, Rmult_1_r by lra; lra.
Qed.
Lemma telescope n (a b : nat -> R) : (forall i, (i < n)%nat -> a i <= b (S i) - b i) -> sum_upto n a <= b n - b 0%nat.
Proof.
  induction n as [|n IH]; intros H; [rewrite sum_upto_0; lra|]. rewrite sum_upto_S. assert (sum_upto n a <= b n - b 0%nat) by (apply IH; intros; apply H; lia).
  specialize (H n ltac:(lia)). lra.
Qed.
Lemma line_q M k : line M k q <= 4.
Proof.
  pose proof (pow2_pos k) as H2. set (g := fun i => qA (INR i / 2 ^ k - INR M)).
  apply Rle_trans with (g (2 * M * 2 ^ k)%nat - g 0%nat); [|unfold g; pose proof (qA_bound (INR (2 * M * 2 ^ k) / 2 ^ k - INR M)); pose proof (qA_bound (INR 0 / 2 ^ k - INR M)); lra].
  apply (@telescope _ (fun i => / 2 ^ k * q (INR i / 2 ^ k - INR M)) g). intros i _. unfold g.
  replace (INR (S i) / 2 ^ k - INR M) with ((INR i / 2 ^ k - INR M) + / 2 ^ k) by (rewrite S_INR; field; lra). apply q_step.
  - split; [now apply Rinv_0_lt_compat|]. rewrite <- Rinv_1. apply Rinv_le_contravar; [lra|]. apply pow_R1_Rle. lra.
  - destruct (le_lt_dec (M * 2 ^ k) i) as [H|H].
    + left. apply le_INR in H. rewrite mult_INR, INR_pow2 in H. apply (Rmult_le_compat_r (/ 2 ^ k)) in H; [|left; now apply Rinv_0_lt_compat].
      rewrite Rmult_assoc, Rinv_r, Rmult_1_r in H by lra. unfold Rdiv. lra.
    + right. assert (H' : (S i <= M * 2 ^ k)%nat) by lia. apply le_INR in H'. rewrite mult_INR, INR_pow2, S_INR in H'. apply (Rmult_le_compat_r (/ 2 ^ k)) in H'; [|left; now apply Rinv_0_lt_compat].
      rewrite Rmult_assoc, Rinv_r, Rmult_1_r in H' by lra. unfold Rdiv. lra.
Qed.
Lemma line_q_nonneg M k : 0 <= line M k q.
Proof. rewrite <- (line_zero M k (fun _ => 0)) by reflexivity. apply line_le. intros t. left. apply q_pos. Qed.

Section Dim.
Variables d m : nat.
Notation cont := (continuous d m).
Notation inn := (inside d m).
Notation cs := (coords d m).
Notation test := (test_function d m).
Notation limit := (riemann_limit d m).
Notation itg := (riemann_integrable d m).
Notation I := (riemann_integral d m).

Lemma decay_bound M k : riemann_sum M k cs (decay cs) (fun _ => 0) <= 4 ^ length cs.
Proof.
  unfold decay. rewrite (@rs_product M k (fun _ => q) cs) by apply NoDup_coords. rewrite <- prod_over_const. apply prod_over_le. intros c _. split; [apply line_q_nonneg|apply line_q].
Qed.
Lemma bnd_decay (C : R) f : 0 <= C -> (forall z, f z <= C * decay cs z) -> bnd d m f.
Proof.
  intros HC H. exists (C * 4 ^ length cs). intros v (p & Hp & Hpf & Hv). apply Rnot_lt_le. intros Hlt.
  destruct (Hv (v - C * 4 ^ length cs) ltac:(lra)) as (K & HK). specialize (HK K K (le_n _) (le_n _)). apply Rabs_def2 in HK.
  assert (riemann_sum K K cs p (fun _ => 0) <= C * 4 ^ length cs); [|lra].
  apply Rle_trans with (riemann_sum K K cs (fun z => C * decay cs z) (fun _ => 0)); [apply rs_le; intros z; specialize (Hpf z); specialize (H z); lra|].
  rewrite rs_scale. apply Rmult_le_compat_l; [exact HC|apply decay_bound].
Qed.
Lemma integrable_decay C f : cont f -> 0 <= C -> (forall z, Rabs (f z) <= C * decay cs z) -> itg f.
Proof. intros Hf HC H. split; auto. apply (@bnd_decay C); auto. Qed.
Lemma integrable_le f g : cont g -> itg f -> (forall z, Rabs (g z) <= Rabs (f z)) -> itg g.
Proof. intros Hg [Hf Bf] H. split; auto. apply (@bnd_mono d m _ (fun z => Rabs (f z))); auto. Qed.

(** ** the integral of a test function is the limit of its Riemann sums *)
Lemma test_part (h : R -> R) f : continuity h -> h 0 = 0 -> test f -> test (fun z => h (f z)).
Proof. intros Hh H0 [Hf (M & HM)]. split; [now apply cont_continuity|]. exists M. intros z c Hc Hz. now rewrite (HM z c Hc Hz). Qed.
Lemma upper_test f v : test f -> nonneg f -> limit f v -> upper d m f = v.
Proof.
  intros Hf H0 Hv. assert (Hb : forall w, below d m f w -> w <= v) by (intros w (p & Hp & Hpf & Hw); apply (limit_le Hw Hv); intros z; apply Hpf).
  destruct (@upper_sup d m f H0) as [U L]; [now exists v|]. apply Rle_antisym; [now apply L|]. apply U. exists f. split; auto. split; auto. intros z. split; [apply H0|lra].
Qed.
Lemma test_pos f : test f -> test (pos f).
Proof. intros [Hf (M & HM)]. split; [now apply pos_cont|]. exists M. intros z c Hc Hz. unfold pos. rewrite (HM z c Hc Hz). apply Rmax_left. lra. Qed.
Lemma test_neg f : test f -> test (neg f).
Proof. intros [Hf (M & HM)]. split; [now apply neg_cont|]. exists M. intros z c Hc Hz. unfold neg. rewrite (HM z c Hc Hz). rewrite Ropp_0. apply Rmax_left. lra. Qed.
Theorem integral_test f v : test f -> limit f v -> itg f /\ I f = v.
Proof.
  intros Hf Hv. destruct (limit_exists (test_pos Hf)) as (a & Ha). destruct (limit_exists (test_neg Hf)) as (b & Hb). split.
  - split; [apply Hf|]. exists (a + b). intros w (p & Hp & Hpf & Hw). apply (limit_le Hw (limit_plus Ha Hb)). intros z. specialize (Hpf z).
    assert (E : pos f z + neg f z = Rabs (f z)) by (unfold pos, neg, Rmax, Rabs; destruct (Rle_dec _ _), (Rle_dec _ _), (Rcase_abs _); lra). lra.
  - rewrite (@I_def d m f), (upper_test (test_pos Hf) (pos_nonneg f) Ha), (upper_test (test_neg Hf) (neg_nonneg f) Hb).
    apply (@limit_unique d m f); auto. pose proof (limit_plus Ha (limit_scale (-1) Hb)) as H. replace f with (fun z => pos f z + -1 * neg f z).
    + replace (a - b) with (a + -1 * b) by ring. exact H.
    + extensionality z. unfold pos, neg, Rmax. destruct (Rle_dec _ _), (Rle_dec _ _); lra.
Qed.
Lemma integral_le f g : itg f -> itg g -> (forall z, f z <= g z) -> I f <= I g.
Proof.
  intros Hf Hg H. destruct (upper_sup (pos_nonneg f) (pos_bnd Hf)) as [_ L1]. destruct (upper_sup (pos_nonneg g) (pos_bnd Hg)) as [U2 _].
  destruct (upper_sup (neg_nonneg f) (neg_bnd Hf)) as [U3 _]. destruct (upper_sup (neg_nonneg g) (neg_bnd Hg)) as [_ L4]. rewrite !I_def.
  assert (A : upper d m (pos f) <= upper d m (pos g)).
  { apply L1. intros v Hv. apply U2. apply (@below_mono d m (pos f)); auto. intros z. unfold pos. specialize (H z). unfold Rmax. destruct (Rle_dec _ _), (Rle_dec _ _); lra. }
  assert (B : upper d m (neg g) <= upper d m (neg f)).
  { apply L4. intros v Hv. apply U3. apply (@below_mono d m (neg g)); auto. intros z. unfold neg. specialize (H z). unfold Rmax. destruct (Rle_dec _ _), (Rle_dec _ _); lra. }
  lra.
Qed.
End Dim.
