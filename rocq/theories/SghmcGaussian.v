(** Real analysis for C85: the linear recursion of SGHMC on a Gaussian posterior.  Models no code of /repo. *)
From Coq Require Import Reals Lra.
From Verif Require Import Base ListUtil TreeUtilSpec TreeUtilProofs ExpectSpec GaussianLimit.
Open Scope R_scope.
Set Implicit Arguments.

(** ** contraction with a vanishing disturbance *)
Lemma contraction_limit (w e g : nat -> R) (N0 : nat) :
  (forall n, (N0 <= n)%nat -> 0 <= e n <= 1 /\ w (S n) <= (1 - e n) * w n + e n * g n) -> vanishing g -> divergent e -> vanishing w.
Proof.
  intros Hc Hg Hd d Hd0. destruct (Hg (d / 2) ltac:(lra)) as [N1 H1]. set (N := Nat.max N0 N1).
  assert (Step : forall m, w (N + m)%nat - d / 2 <= exp (- sum_upto m (fun i => e (N + i)%nat)) * Rmax 0 (w N - d / 2)).
  { induction m as [|m IH].
    - rewrite Nat.add_0_r. unfold sum_upto. cbn. rewrite Ropp_0, exp_0, Rmult_1_l. apply Rmax_r.
    - rewrite Nat.add_succ_r, sum_upto_S. destruct (Hc (N + m)%nat ltac:(unfold N; lia)) as [[E1 E2] Hw]. specialize (H1 (N + m)%nat ltac:(unfold N; lia)).
      rewrite Ropp_plus_distr, exp_plus. set (M := Rmax 0 (w N - d / 2)) in *. assert (PM : 0 <= M) by apply Rmax_l.
      set (X := exp (- sum_upto m (fun i => e (N + i)%nat))) in *. assert (PX : 0 < X) by apply exp_pos.
      pose proof (one_minus_exp (e (N + m)%nat)) as Ho. set (y := exp (- e (N + m)%nat)) in *.
      assert (B1 : w (S (N + m)) - d / 2 <= (1 - e (N + m)%nat) * (w (N + m)%nat - d / 2)) by nra.
      assert (B2 : (1 - e (N + m)%nat) * (w (N + m)%nat - d / 2) <= (1 - e (N + m)%nat) * (X * M)) by (apply Rmult_le_compat_l; lra).
      assert (B3 : (1 - e (N + m)%nat) * (X * M) <= y * (X * M)) by (apply Rmult_le_compat_r; [apply Rmult_le_pos; lra|exact Ho]). lra. }
  set (M := Rmax 0 (w N - d / 2)) in *. assert (PM : 0 <= M) by apply Rmax_l.
  destruct (Hd (sum_upto N e + 2 * M / d)) as [N2 H2]. exists (Nat.max N N2). intros n Hn. replace n with (N + (n - N))%nat by lia. specialize (Step (n - N)%nat).
  specialize (H2 n ltac:(lia)). replace n with (N + (n - N))%nat in H2 by lia. rewrite sum_upto_app in H2. set (S0 := sum_upto (n - N) (fun i => e (N + i)%nat)) in *.
  assert (B : 2 * M / d <= S0) by lra. pose proof (exp_ineq1_le S0) as He. rewrite exp_Ropp in Step. set (X := exp S0) in *.
  assert (PX : 0 < X) by apply exp_pos. assert (D1 : 2 * M <= X * d). { apply (Rmult_le_compat_r d) in B; [|lra]. replace (2 * M / d * d) with (2 * M) in B by (field; lra). nra. }
  assert (D2 : / X * M <= d / 2). { apply (Rmult_le_reg_l X); [exact PX|]. replace (X * (/ X * M)) with M by (field; lra). lra. }
  lra.
Qed.

(** ** bounded functions of the step size *)
(** auxiliary definition of a statement or a proof; models no code of /repo *)
Definition bounded (f : R -> R) : Prop := exists K, forall h, 0 <= h <= 1 -> Rabs (f h) <= K.
Lemma b_const c : bounded (fun _ => c). Proof. exists (Rabs c). intros; lra. Qed.
Lemma b_id : bounded (fun h => h). Proof. exists 1. intros h H. rewrite Rabs_right; lra. Qed.
Lemma b_plus f g : bounded f -> bounded g -> bounded (fun h => f h + g h).
Proof. intros [K H] [L J]. exists (K + L). intros h Hh. eapply Rle_trans; [apply Rabs_triang|]. apply Rplus_le_compat; auto. Qed.
Lemma b_mult f g : bounded f -> bounded g -> bounded (fun h => f h * g h).
Proof. intros [K H] [L J]. exists (K * L). intros h Hh. rewrite Rabs_mult. apply Rmult_le_compat; auto using Rabs_pos. Qed.
Lemma b_opp f : bounded f -> bounded (fun h => - f h).
Proof. intros [K H]. exists K. intros h Hh. rewrite Rabs_Ropp. auto. Qed.
Lemma b_minus f g : bounded f -> bounded g -> bounded (fun h => f h - g h).
Proof. intros F G. apply b_plus; [exact F|apply b_opp; exact G]. Qed.
Ltac bnd := repeat first [assumption | apply b_const | apply b_id | apply b_minus | apply b_plus | apply b_mult | apply b_opp].

Section Inner.
Variables (lam k : R).
(** position and momentum after L inner steps of size g, as combinations of the position and the momentum at the start *)
(** auxiliary definition of a statement or a proof; models no code of /repo *)
Fixpoint coef (g y p : R) (L : nat) : R * R :=
  match L with
  | O => (y, p)
  | S L' => let (a, b) := coef g y p L' in let a' := a + g * b in (a', (1 - g * k) * b - g * lam * a')
  end.
(** auxiliary definition of a statement or a proof; models no code of /repo *)
Definition cA g L := fst (coef g 1 0 L).
(** auxiliary definition of a statement or a proof; models no code of /repo *)
Definition cG g L := snd (coef g 1 0 L).
(** auxiliary definition of a statement or a proof; models no code of /repo *)
Definition cB g L := fst (coef g 0 1 L).
(** auxiliary definition of a statement or a proof; models no code of /repo *)
Definition cD g L := snd (coef g 0 1 L).
Lemma cA_S g L : cA g (S L) = cA g L + g * cG g L. Proof. unfold cA, cG. cbn [coef]. destruct (coef g 1 0 L); reflexivity. Qed.
Lemma cB_S g L : cB g (S L) = cB g L + g * cD g L. Proof. unfold cB, cD. cbn [coef]. destruct (coef g 0 1 L); reflexivity. Qed.
Lemma cG_S g L : cG g (S L) = (1 - g * k) * cG g L - g * lam * cA g (S L). Proof. unfold cA, cG. cbn [coef]. destruct (coef g 1 0 L); reflexivity. Qed.
Lemma cD_S g L : cD g (S L) = (1 - g * k) * cD g L - g * lam * cB g (S L). Proof. unfold cB, cD. cbn [coef]. destruct (coef g 0 1 L); reflexivity. Qed.

Lemma inner_linear g tau (Y P xi : nat -> R) L :
  (forall j, (j < L)%nat -> Y (S j) = Y j + g * P j /\ P (S j) = (1 - g * k) * P j - g * lam * Y (S j) + tau * xi j) ->
  Y L = cA g L * Y 0%nat + cB g L * P 0%nat + tau * sum_upto L (fun j => cB g (L - 1 - j) * xi j) /\
  P L = cG g L * Y 0%nat + cD g L * P 0%nat + tau * sum_upto L (fun j => cD g (L - 1 - j) * xi j).
Proof.
  induction L as [|L IH]; intros H.
  - unfold sum_upto, cA, cB, cG, cD. cbn. lra.
  - destruct (IH ltac:(intros j Hj; apply H; lia)) as [IY IP]. destruct (H L ltac:(lia)) as [HY HP]. rewrite HP, HY, IY, IP. rewrite !sum_upto_S.
    replace (S L - 1 - L)%nat with 0%nat by lia. replace (cB g 0) with 0 by reflexivity. replace (cD g 0) with 1 by reflexivity.
    assert (EB : sum_upto L (fun j => cB g (S L - 1 - j) * xi j) = sum_upto L (fun j => cB g (L - 1 - j) * xi j) + g * sum_upto L (fun j => cD g (L - 1 - j) * xi j)).
    { rewrite <- (@sum_upto_scale L g (fun j => cD g (L - 1 - j) * xi j)), <- sum_upto_plus. apply sum_upto_ext. intros j Hj. replace (S L - 1 - j)%nat with (S (L - 1 - j)) by lia. rewrite cB_S. ring. }
    assert (ED : sum_upto L (fun j => cD g (S L - 1 - j) * xi j) = (1 - g * k) * sum_upto L (fun j => cD g (L - 1 - j) * xi j) - g * lam * sum_upto L (fun j => cB g (S L - 1 - j) * xi j)).
    { replace (sum_upto L (fun j => cD g (S L - 1 - j) * xi j)) with (sum_upto L (fun j => (1 - g * k) * (cD g (L - 1 - j) * xi j) + - (g * lam) * (cB g (S L - 1 - j) * xi j))).
      - rewrite sum_upto_plus, (@sum_upto_scale L (1 - g * k) (fun j => cD g (L - 1 - j) * xi j)), (@sum_upto_scale L (- (g * lam)) (fun j => cB g (S L - 1 - j) * xi j)). ring.
      - apply sum_upto_ext. intros j Hj. replace (S L - 1 - j)%nat with (S (L - 1 - j)) by lia. rewrite cD_S. ring. }
    rewrite cG_S, cD_S, ED, EB, cA_S, cB_S. split; ring.
Qed.
(** variance of the noise that one integration adds to the position *)
(** auxiliary definition of a statement or a proof; models no code of /repo *)
Definition gain (sig g : R) (L : nat) : R := cB g L * cB g L + g * sig * sum_upto L (fun j => cB g j * cB g j).

Lemma expansion L : exists a b c d, bounded a /\ bounded b /\ bounded c /\ bounded d /\ forall h,
  cA h L = 1 - h * h * (lam * INR L * (INR L - 1) / 2) + h * h * h * a h /\ cB h L = h * (INR L + h * b h) /\
  cG h L = h * (- lam * INR L + h * c h) /\ cD h L = 1 + h * d h.
Proof.
  induction L as [|L (a & b & c & d & Ha & Hb & Hc & Hd & IH)].
  - exists (fun _ => 0), (fun _ => 0), (fun _ => 0), (fun _ => 0). repeat split; try apply b_const; unfold cA, cB, cG, cD; cbn; lra.
  - exists (fun h => a h + c h), (fun h => b h + d h),
      (fun h => c h + k * lam * INR L - h * k * c h + lam * (h * (lam * INR (S L) * (INR (S L) - 1) / 2) - h * h * (a h + c h))),
      (fun h => d h - k - h * k * d h - lam * (h * (INR (S L) + h * (b h + d h)))).
    split; [bnd|]. split; [bnd|]. split; [bnd|]. split; [bnd|]. intros h. destruct (IH h) as (A1 & B1 & G1 & D1).
    assert (A2 : cA h (S L) = 1 - h * h * (lam * INR (S L) * (INR (S L) - 1) / 2) + h * h * h * (a h + c h)) by (rewrite cA_S, A1, G1, S_INR; field).
    assert (B2 : cB h (S L) = h * (INR (S L) + h * (b h + d h))) by (rewrite cB_S, B1, D1, S_INR; ring).
    split; [exact A2|]. split; [exact B2|]. split.
    + rewrite cG_S, A2, G1, S_INR. field.
    + rewrite cD_S, B2, D1. ring.
Qed.
Lemma gain_expansion sig L : exists f, bounded f /\ forall h, gain sig h L = h * h * (INR L * INR L + h * f h).
Proof.
  destruct (expansion L) as (a & b & c & d & _ & Hb & _ & _ & EX).
  assert (S : exists q, bounded q /\ forall h, sum_upto L (fun j => cB h j * cB h j) = h * h * q h).
  { clear a b c d Hb EX. induction L as [|L (q & Hq & IH)]; [exists (fun _ => 0); split; [apply b_const|intros h; unfold sum_upto; cbn; ring]|].
    destruct (expansion L) as (a & b & c & d & _ & Hb & _ & _ & EX). exists (fun h => q h + (INR L + h * b h) * (INR L + h * b h)). split; [bnd|]. intros h. rewrite sum_upto_S, IH. destruct (EX h) as (_ & -> & _). ring. }
  destruct S as (q & Hq & S). exists (fun h => 2 * INR L * b h + h * b h * b h + sig * q h). split; [bnd|]. intros h. unfold gain. rewrite S. destruct (EX h) as (_ & -> & _). ring.
Qed.
Lemma square_expansion L : exists f, bounded f /\ forall h, 1 - cA h L * cA h L = h * h * (lam * INR L * (INR L - 1) + h * f h).
Proof.
  destruct (expansion L) as (a & b & c & d & Ha & _ & _ & _ & EX). set (al := lam * INR L * (INR L - 1) / 2) in *.
  exists (fun h => - 2 * a h - h * (al - h * a h) * (al - h * a h)). split; [bnd|]. intros h. destruct (EX h) as (-> & _). replace (lam * INR L * (INR L - 1)) with (2 * al) by (unfold al; field). ring.
Qed.

Section Limit.
Variables (sig : R) (L : nat) (g : nat -> R).
Hypothesis Hlam : 0 < lam.
Hypothesis HL : (2 <= L)%nat.
Hypothesis Hg : forall n, 0 < g n.
Hypothesis Hv : vanishing g.
Hypothesis Hd : divergent (fun n => g n * g n).
(** auxiliary definition of a statement or a proof; models no code of /repo *)
Notation limit := (INR L / ((INR L - 1) * lam)).
Lemma INR_L : 2 <= INR L. Proof using HL. replace 2 with (INR 2) by (cbn; lra). now apply le_INR. Qed.
Lemma small_steps : exists N e K, 0 < e /\ 0 <= K /\ forall n, (N <= n)%nat -> g n * g n * e <= 1 /\ 0 <= cA (g n) L * cA (g n) L <= 1 - g n * g n * e /\
  Rabs (gain sig (g n) L - (1 - cA (g n) L * cA (g n) L) * limit) <= g n * g n * (g n * K).
Proof using Hlam HL Hg Hv.
  pose proof INR_L as HI. destruct (square_expansion L) as (f & [F Hf] & Sq). destruct (gain_expansion sig L) as (q & [Q Hq] & Ga).
  set (r := lam * INR L * (INR L - 1)). assert (Pr : 0 < r) by (unfold r; apply Rmult_lt_0_compat; [apply Rmult_lt_0_compat|]; lra).
  assert (PF : 0 <= F) by (specialize (Hf 0 ltac:(lra)); pose proof (Rabs_pos (f 0)); lra). assert (PQ : 0 <= Q) by (specialize (Hq 0 ltac:(lra)); pose proof (Rabs_pos (q 0)); lra).
  assert (PL : 0 < limit) by (apply Rdiv_lt_0_compat; [lra|apply Rmult_lt_0_compat; lra]).
  destruct (Hv (d := Rmin (Rmin 1 (/ r)) (r / (2 * (1 + F))))) as [N HN].
  { repeat apply Rmin_glb_lt; [lra|apply Rinv_0_lt_compat; lra|apply Rdiv_lt_0_compat; lra]. }
  exists N, (r / 2), (Q + F * limit). split; [lra|]. split; [apply Rplus_le_le_0_compat; [lra|apply Rmult_le_pos; lra]|]. intros n Hn. specialize (HN n Hn). specialize (Hg n) as Pg. set (h := g n) in *.
  pose proof (Rmin_l (Rmin 1 (/ r)) (r / (2 * (1 + F)))) as M1. pose proof (Rmin_r (Rmin 1 (/ r)) (r / (2 * (1 + F)))) as M2. pose proof (Rmin_l 1 (/ r)) as M3. pose proof (Rmin_r 1 (/ r)) as M4.
  assert (H1 : h <= 1) by lra. assert (H2 : h <= / r) by lra. assert (H3 : h <= r / (2 * (1 + F))) by lra.
  assert (H4 : h * (1 + F) <= r / 2). { apply (Rmult_le_compat_r (1 + F)) in H3; [|lra]. replace (r / (2 * (1 + F)) * (1 + F)) with (r / 2) in H3 by (field; lra). exact H3. }
  assert (H5 : h * r <= 1). { apply (Rmult_le_compat_r r) in H2; [|lra]. rewrite Rinv_l in H2 by lra. exact H2. }
  specialize (Hf h ltac:(lra)). specialize (Hq h ltac:(lra)). specialize (Sq h). specialize (Ga h). fold r in Sq.
  assert (Fh : Rabs (h * f h) <= r / 2). { rewrite Rabs_mult, (Rabs_right h) by lra. eapply Rle_trans; [apply Rmult_le_compat_l; [lra|exact Hf]|]. nra. }
  apply Rabs_le_between in Fh || (unfold Rabs in Fh; destruct (Rcase_abs (h * f h)) in Fh). 
  all: split; [nra|]; split; [split; [apply Rle_0_sqr|]; nra|].
  all: rewrite Ga, Sq; replace (h * h * (INR L * INR L + h * q h) - h * h * (r + h * f h) * limit) with (h * h * (h * (q h - f h * limit))) by (unfold r; field; lra).
  all: rewrite Rabs_mult, (Rabs_right (h * h)) by nra; apply Rmult_le_compat_l; [nra|]; rewrite Rabs_mult, (Rabs_right h) by lra; apply Rmult_le_compat_l; [lra|].
  all: replace (q h - f h * limit) with (q h + - (f h * limit)) by ring; eapply Rle_trans; [apply Rabs_triang|]; rewrite Rabs_Ropp, Rabs_mult, (Rabs_right limit) by lra; apply Rplus_le_compat; [exact Hq|apply Rmult_le_compat_r; lra].
Qed.
Lemma divergent_scale e : 0 < e -> divergent (fun n => g n * g n * e).
Proof using Hd.
  intros He A. destruct (Hd (A / e)) as [N HN]. exists N. intros n Hn. specialize (HN n Hn). rewrite (@sum_upto_ext n _ (fun i => e * (g i * g i))) by (intros; ring). rewrite (@sum_upto_scale n e (fun i => g i * g i)).
  apply (Rmult_le_compat_l e) in HN; [|lra]. replace (e * (A / e)) with A in HN by (field; lra). exact HN.
Qed.
(** the variance tends to L / ((L - 1) lam), not to 1 / lam *)
Lemma variance_limit (V : nat -> R) : (forall n, V (S n) = cA (g n) L * cA (g n) L * V n + gain sig (g n) L) -> vanishing (fun n => Rabs (V n - limit)).
Proof using Hlam HL Hg Hv Hd.
  intros HV. destruct small_steps as (N & e & K & He & HK & H). apply (@contraction_limit _ (fun n => g n * g n * e) (fun n => g n * (K / e)) N).
  - intros n Hn. destruct (H n Hn) as (H1 & H2 & H3). pose proof (Hg n) as Pg. split; [nra|]. rewrite HV.
    replace (cA (g n) L * cA (g n) L * V n + gain sig (g n) L - limit) with (cA (g n) L * cA (g n) L * (V n - limit) + (gain sig (g n) L - (1 - cA (g n) L * cA (g n) L) * limit)) by ring.
    eapply Rle_trans; [apply Rabs_triang|]. rewrite Rabs_mult, (Rabs_right (cA (g n) L * cA (g n) L)) by lra. replace (g n * g n * e * (g n * (K / e))) with (g n * g n * (g n * K)) by (field; lra).
    apply Rplus_le_compat; [|exact H3]. apply Rmult_le_compat_r; [apply Rabs_pos|lra].
  - intros d Hd0. destruct (Hv (d := d / (1 + K / e))) as [N1 HN1]. { apply Rdiv_lt_0_compat; [lra|]. assert (0 <= K / e) by (apply Rmult_le_pos; [lra|left; apply Rinv_0_lt_compat; lra]). lra. }
    exists N1. intros n Hn. specialize (HN1 n Hn). assert (P : 0 <= K / e) by (apply Rmult_le_pos; [lra|left; apply Rinv_0_lt_compat; lra]). apply (Rmult_le_compat_r (1 + K / e)) in HN1; [|lra].
    replace (d / (1 + K / e) * (1 + K / e)) with d in HN1 by (field; lra). pose proof (Hg n). nra.
  - apply divergent_scale. exact He.
Qed.
Lemma mean_limit (m : nat -> R) : (forall n, m (S n) = cA (g n) L * m n) -> vanishing (fun n => Rabs (m n)).
Proof using Hlam HL Hg Hv Hd sig.
  intros Hm. destruct small_steps as (N & e & K & He & HK & H).
  assert (Sq : vanishing (fun n => m n * m n)).
  { apply (@contraction_limit _ (fun n => g n * g n * e) (fun _ => 0) N); [|intros d Hd0; exists 0%nat; intros; lra|apply divergent_scale; exact He].
    intros n Hn. destruct (H n Hn) as (H1 & H2 & _). pose proof (Hg n). split; [nra|]. rewrite Hm. replace (cA (g n) L * m n * (cA (g n) L * m n)) with (cA (g n) L * cA (g n) L * (m n * m n)) by ring.
    rewrite Rmult_0_r, Rplus_0_r. apply Rmult_le_compat_r; [apply Rle_0_sqr|lra]. }
  intros d Hd0. destruct (Sq (d * d) ltac:(nra)) as [N1 HN1]. exists N1. intros n Hn. specialize (HN1 n Hn). apply Rsqr_incr_0_var; [|lra]. rewrite <- Rsqr_abs. exact HN1.
Qed.
End Limit.
End Inner.

(** ** second moments of a combination of uncorrelated noise *)
Section Orth.
Variables (W : Type) (E : (W -> R) -> R) (z : nat -> W -> R) (N : nat).
Hypothesis HE : expectation E.
Hypothesis H1 : E (fun _ => 1) = 1.
Hypothesis Hm : forall t, (t < N)%nat -> E (z t) = 0.
Hypothesis Hc : forall t u, (t < N)%nat -> (u < N)%nat -> E (fun w => z t w * z u w) = if (t =? u)%nat then 1 else 0.
(** auxiliary definition of a statement or a proof; models no code of /repo *)
Definition comb (c0 : R) (c : nat -> R) (n : nat) (w : W) : R := c0 + sum_upto n (fun t => c t * z t w).
Lemma E_comb c0 c n : (n <= N)%nat -> E (comb c0 c n) = c0.
Proof using HE H1 Hm Hc.
  destruct HE as (X & P & S). induction n as [|n IH]; intros Hn.
  - rewrite (X _ (fun w => c0 * 1)) by (intros w; unfold comb, sum_upto; cbn; ring). rewrite S, H1. ring.
  - rewrite (X _ (fun w => comb c0 c n w + c n * z n w)) by (intros w; unfold comb; rewrite sum_upto_S; ring). rewrite P, S, Hm, IH by lia. ring.
Qed.
Lemma E_comb_z c0 c n u : (n <= u)%nat -> (u < N)%nat -> E (fun w => comb c0 c n w * z u w) = 0.
Proof using HE H1 Hm Hc.
  destruct HE as (X & P & S). induction n as [|n IH]; intros Hu HN.
  - rewrite (X _ (fun w => c0 * z u w)) by (intros w; unfold comb, sum_upto; cbn; ring). rewrite S, Hm by lia. ring.
  - rewrite (X _ (fun w => comb c0 c n w * z u w + c n * (z n w * z u w))) by (intros w; unfold comb; rewrite sum_upto_S; ring). rewrite P, S, Hc, IH by lia. destruct (Nat.eqb_spec n u); [lia|]. ring.
Qed.
Lemma E_comb_sq c0 c n : (n <= N)%nat -> E (fun w => comb c0 c n w * comb c0 c n w) = c0 * c0 + sum_upto n (fun t => c t * c t).
Proof using HE H1 Hm Hc.
  destruct HE as (X & P & S). induction n as [|n IH]; intros Hn.
  - rewrite (X _ (fun w => c0 * c0 * 1)) by (intros w; unfold comb, sum_upto; cbn; ring). rewrite S, H1. unfold sum_upto; cbn; ring.
  - rewrite (X _ (fun w => comb c0 c n w * comb c0 c n w + (2 * c n * (comb c0 c n w * z n w) + c n * c n * (z n w * z n w)))) by (intros w; unfold comb; rewrite sum_upto_S; ring).
    rewrite P, P, S, S, Hc, E_comb_z, IH, Nat.eqb_refl, sum_upto_S by lia. ring.
Qed.
End Orth.
