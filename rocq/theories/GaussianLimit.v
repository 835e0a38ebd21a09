(** Real analysis for C77: contraction with decreasing step sizes of divergent sum.  Models no code of /repo. *)
From Coq Require Import Reals Lra.
From Verif Require Import Base ListUtil TreeUtilSpec TreeUtilProofs.
Open Scope R_scope.
Set Implicit Arguments.

(** step sizes that tend to 0 and whose sum diverges *)
(** auxiliary definition of a statement or a proof; models no code of /repo *)
Definition vanishing (eps : nat -> R) : Prop := forall d, 0 < d -> exists N, forall n, (N <= n)%nat -> eps n <= d.
(** auxiliary definition of a statement or a proof; models no code of /repo *)
Definition divergent (eps : nat -> R) : Prop := forall A, exists N, forall n, (N <= n)%nat -> A <= sum_upto n eps.

Lemma sum_upto_app n m f : sum_upto (n + m) f = sum_upto n f + sum_upto m (fun i => f (n + i)%nat).
Proof. induction m as [|m IH]; [rewrite Nat.add_0_r; unfold sum_upto at 3; cbn; lra|]. rewrite Nat.add_succ_r, !sum_upto_S, IH. lra. Qed.
Lemma INR_unbounded A : exists n, A < INR n.
Proof.
  destruct (Rle_lt_dec A 0) as [H|H]; [exists 1%nat; cbn; lra|]. destruct (archimed_cor1 (/ A) (Rinv_0_lt_compat _ H)) as (n & Hn & Pn). exists n.
  apply lt_INR in Pn. cbn in Pn. rewrite <- (Rinv_inv A), <- (Rinv_inv (INR n)). apply Rinv_lt_contravar; [|exact Hn]. apply Rmult_lt_0_compat; apply Rinv_0_lt_compat; auto.
Qed.
Lemma one_minus_exp a : 1 - a <= exp (- a).
Proof. pose proof (exp_ineq1_le (- a)). lra. Qed.

Section Contraction.
Variable eps : nat -> R.
Hypothesis Hpos : forall n, 0 < eps n.
Hypothesis Hv : vanishing eps.
Hypothesis Hd : divergent eps.
Variables (r p P2 Q W0 : R).
Hypothesis Hr : 0 < r.
Hypothesis HQ : 0 <= Q.
Hypothesis HP2 : 0 <= P2.
Hypothesis HW : 0 <= W0.
(** auxiliary definition of a statement or a proof; models no code of /repo *)
Fixpoint z (n : nat) : R := match n with O => W0 | S k => (Rabs (1 - eps k * r + eps k * eps k * p) + eps k * eps k * P2) * z k + eps k * eps k * Q end.
Lemma z_nonneg n : 0 <= z n.
Proof. induction n as [|n IH]; cbn [z]; [exact HW|]. pose proof (Rabs_pos (1 - eps n * r + eps n * eps n * p)). pose proof (Hpos n). apply Rplus_le_le_0_compat; apply Rmult_le_pos; auto; try nra. Qed.
Lemma z_bound (w : nat -> R) n : Rabs (w O) <= W0 -> (forall k, (k < n)%nat -> Rabs (w (S k)) <= (Rabs (1 - eps k * r + eps k * eps k * p) + eps k * eps k * P2) * Rabs (w k) + eps k * eps k * Q) ->
  forall k, (k <= n)%nat -> Rabs (w k) <= z k.
Proof.
  intros H0 Hs. induction k as [|k IH]; intros Hk; [exact H0|]. cbn [z]. eapply Rle_trans; [apply Hs; lia|]. apply Rplus_le_compat_r, Rmult_le_compat_l; [apply Rplus_le_le_0_compat; [apply Rabs_pos|pose proof (Hpos k); apply Rmult_le_pos; nra]|]. apply IH. lia.
Qed.
Lemma z_limit d : 0 < d -> exists N, forall n, (N <= n)%nat -> z n <= d.
Proof.
  intros Hd0.
  assert (Hc : exists c, 0 < c /\ c * Rabs p <= r / 4 /\ c * r <= 1 /\ c * Q <= r * d / 4 /\ c * P2 <= r / 4).
  { exists (Rmin (Rmin (r / 4 / (1 + Rabs p)) (r / 4 / (1 + P2))) (Rmin (/ r) (r * d / 4 / (1 + Q)))). pose proof (Rabs_pos p).
    assert (P1 : 0 < r / 4 / (1 + Rabs p)) by (apply Rdiv_lt_0_compat; lra). assert (P4 : 0 < r / 4 / (1 + P2)) by (apply Rdiv_lt_0_compat; lra). assert (Pr : 0 < / r) by (apply Rinv_0_lt_compat; lra). assert (P3 : 0 < r * d / 4 / (1 + Q)) by (apply Rdiv_lt_0_compat; [nra|lra]).
    set (m := Rmin _ _). assert (M1 : m <= Rmin (r / 4 / (1 + Rabs p)) (r / 4 / (1 + P2))) by apply Rmin_l. assert (M2 : m <= Rmin (/ r) (r * d / 4 / (1 + Q))) by apply Rmin_r.
    pose proof (Rmin_l (/ r) (r * d / 4 / (1 + Q))). pose proof (Rmin_r (/ r) (r * d / 4 / (1 + Q))). pose proof (Rmin_l (r / 4 / (1 + Rabs p)) (r / 4 / (1 + P2))). pose proof (Rmin_r (r / 4 / (1 + Rabs p)) (r / 4 / (1 + P2))).
    assert (P : 0 < m) by (unfold m; repeat apply Rmin_glb_lt; auto). split; [exact P|].
    assert (E1 : r / 4 / (1 + Rabs p) * (1 + Rabs p) = r / 4) by (field; lra). assert (E4 : r / 4 / (1 + P2) * (1 + P2) = r / 4) by (field; lra). assert (E2 : / r * r = 1) by (field; lra). assert (E3 : r * d / 4 / (1 + Q) * (1 + Q) = r * d / 4) by (field; lra).
    split; [|split; [|split]].
    - rewrite <- E1. apply Rmult_le_compat; lra.
    - rewrite <- E2. apply Rmult_le_compat_r; lra.
    - rewrite <- E3. apply Rmult_le_compat; lra.
    - rewrite <- E4. apply Rmult_le_compat; lra. }
  destruct Hc as (c & Pc & C1 & C2 & C3 & C4). destruct (Hv Pc) as [N1 H1].
  set (M := z N1). set (a := fun i => eps (N1 + i)%nat * (r / 2)).
  assert (Step : forall k, (N1 <= k)%nat -> z (S k) - d / 2 <= (1 - eps k * (r / 2)) * (z k - d / 2) /\ 0 <= 1 - eps k * (r / 2)).
  { intros k Hk. pose proof (Hpos k) as Pe. pose proof (H1 k Hk) as He. pose proof (z_nonneg k) as Pz. cbn [z].
    assert (Hc4 : eps k * P2 <= r / 4) by (eapply Rle_trans; [apply Rmult_le_compat_r; [lra|exact He]|exact C4]).
    assert (Ha : eps k * Rabs p <= r / 4) by (eapply Rle_trans; [apply Rmult_le_compat_r; [apply Rabs_pos|exact He]|exact C1]).
    assert (Hb : eps k * r <= 1) by (eapply Rle_trans; [apply Rmult_le_compat_r; [lra|exact He]|exact C2]).
    assert (Hq : eps k * Q <= r * d / 4) by (eapply Rle_trans; [apply Rmult_le_compat_r; [lra|exact He]|exact C3]).
    assert (Hp1 : - (eps k * (r / 4)) <= eps k * eps k * p <= eps k * (r / 4)).
    { rewrite Rmult_assoc. assert (Hp : - (eps k * Rabs p) <= eps k * p <= eps k * Rabs p) by (pose proof (Rle_abs p); pose proof (Rle_abs (- p)); rewrite Rabs_Ropp in *; nra). nra. }
    assert (Hc5 : eps k * eps k * P2 <= eps k * (r / 4)) by nra.
    assert (Hab : Rabs (1 - eps k * r + eps k * eps k * p) + eps k * eps k * P2 <= 1 - eps k * (r / 2)) by (assert (Rabs (1 - eps k * r + eps k * eps k * p) <= 1 - eps k * (r * 3 / 4)) by (apply Rabs_le; lra); lra).
    split; [|lra]. pose proof (Rmult_le_compat_r _ _ _ Pz Hab). assert (eps k * (eps k * Q) <= eps k * (r * d / 4)) by (apply Rmult_le_compat_l; lra). lra. }
  assert (Bound : forall j, z (N1 + j)%nat - d / 2 <= exp (- sum_upto j a) * M).
  { induction j as [|j IH].
    - rewrite Nat.add_0_r. unfold sum_upto. cbn. rewrite Ropp_0, exp_0. unfold M. lra.
    - rewrite Nat.add_succ_r. destruct (Step (N1 + j)%nat ltac:(lia)) as [S1 S2]. eapply Rle_trans; [exact S1|].
      rewrite sum_upto_S. replace (- (sum_upto j a + a j)) with (- a j + - sum_upto j a) by ring. rewrite exp_plus, Rmult_assoc.
      eapply Rle_trans; [apply Rmult_le_compat_l; [exact S2|exact IH]|]. apply Rmult_le_compat_r; [apply Rmult_le_pos; [left; apply exp_pos|apply z_nonneg]|]. apply one_minus_exp. }
  destruct (Hd ((2 * M / d) / (r / 2) + sum_upto N1 eps)) as [N2 H2]. exists (N1 + N2)%nat. intros n Hn.
  assert (En : n = (N1 + (n - N1))%nat) by lia. set (j := (n - N1)%nat) in *. rewrite En. clearbody j.
  specialize (Bound j). assert (Sum : 2 * M / d <= sum_upto j a).
  { unfold a. rewrite (@sum_upto_ext j _ (fun i => (r / 2) * eps (N1 + i)%nat)) by (intros; ring). rewrite sum_upto_scale. specialize (H2 (N1 + j)%nat ltac:(lia)). rewrite sum_upto_app in H2.
    assert (H3 : 2 * M / d / (r / 2) <= sum_upto j (fun i => eps (N1 + i)%nat)) by lra. apply (Rmult_le_compat_l (r / 2)) in H3; [|lra]. replace (r / 2 * (2 * M / d / (r / 2))) with (2 * M / d) in H3 by (field; lra). exact H3. }
  assert (PM : 0 <= M) by apply z_nonneg.
  assert (exp (- sum_upto j a) * M <= d / 2); [|lra].
  set (A := sum_upto j a) in *. pose proof (exp_ineq1_le A) as HA. rewrite exp_Ropp. pose proof (exp_pos A).
  assert (HM : M <= exp A * (d / 2)). { apply (Rmult_le_compat_r (d / 2)) in Sum; [|lra]. replace (2 * M / d * (d / 2)) with M in Sum by (field; lra). nra. }
  apply (Rmult_le_compat_l (/ exp A)) in HM; [|left; apply Rinv_0_lt_compat; auto]. rewrite <- Rmult_assoc, Rinv_l, Rmult_1_l in HM by lra. exact HM.
Qed.
End Contraction.

(** polynomial step sizes (scheduler.polynomial_step_size, see C28) *)
Section Poly.
Variables (a b g : R).
Hypothesis Ha : 0 < a.
Hypothesis Hb : 0 < b.
Hypothesis Hg : 0 < g <= 1.
Notation eps := (fun n : nat => a * Rpower (b + INR n) (- g)).
Lemma poly_pos n : 0 < eps n.
Proof. apply Rmult_lt_0_compat; [exact Ha|]. apply exp_pos. Qed.
Lemma poly_vanishing : vanishing eps.
Proof.
  intros d Hd. destruct (INR_unbounded (exp (ln (a / d) / g))) as [N HN]. exists N. intros n Hn.
  assert (Hbn : exp (ln (a / d) / g) <= b + INR n) by (apply le_INR in Hn; lra).
  assert (Pb : 0 < b + INR n) by (pose proof (pos_INR n); lra).
  assert (L : ln (a / d) / g <= ln (b + INR n)). { rewrite <- (ln_exp (ln (a / d) / g)). destruct Hbn as [H|H]; [left; apply ln_increasing; [apply exp_pos|exact H]|right; now rewrite H]. }
  assert (L2 : - g * ln (b + INR n) <= - ln (a / d)). { apply (Rmult_le_compat_l g) in L; [|lra]. replace (g * (ln (a / d) / g)) with (ln (a / d)) in L by (field; lra). lra. }
  unfold Rpower. assert (P : 0 < a / d) by (apply Rdiv_lt_0_compat; lra).
  assert (X : exp (- g * ln (b + INR n)) <= / (a / d)). { replace (/ (a / d)) with (exp (- ln (a / d))) by (rewrite exp_Ropp, exp_ln; auto). destruct L2 as [H|H]; [left; now apply exp_increasing|right; now rewrite H]. }
  apply (Rmult_le_compat_l a) in X; [|lra]. replace (a * / (a / d)) with d in X by (field; lra). exact X.
Qed.
Lemma ln_step x : 0 < x -> ln (x + 1) - ln x <= / x.
Proof.
  intros Hx. assert (P : 0 < / x) by now apply Rinv_0_lt_compat. replace (x + 1) with (x * (1 + / x)) by (field; lra). rewrite ln_mult by lra.
  assert (ln (1 + / x) <= / x); [|lra]. rewrite <- (ln_exp (/ x)) at 2. pose proof (exp_ineq1_le (/ x)) as [H|H]; [left; apply ln_increasing; lra|right; now rewrite H].
Qed.
Lemma poly_sum m : a * (ln (b + 1 + INR m) - ln (b + 1)) <= sum_upto (S m) eps.
Proof.
  induction m as [|m IH].
  - rewrite Rplus_0_r. replace (ln (b + 1) - ln (b + 1)) with 0 by ring. rewrite Rmult_0_r. rewrite sum_upto_S. pose proof (poly_pos 0). unfold sum_upto. cbn [seq map fold_right]. lra.
  - rewrite sum_upto_S. assert (Px : 1 < b + INR (S m)) by (rewrite S_INR; pose proof (pos_INR m); lra).
    assert (E : / (b + INR (S m)) <= Rpower (b + INR (S m)) (- g)).
    { rewrite <- (Rpower_1 (b + INR (S m))) at 1 by lra. rewrite <- Rpower_Ropp. unfold Rpower. assert (0 < ln (b + INR (S m))) by (rewrite <- ln_1; apply ln_increasing; lra).
      assert (- (1) * ln (b + INR (S m)) <= - g * ln (b + INR (S m))) by nra. destruct H0 as [H0|H0]; [left; now apply exp_increasing|right; now rewrite H0]. }
    pose proof (@ln_step (b + INR (S m)) ltac:(lra)) as L. replace (b + 1 + INR (S m)) with (b + INR (S m) + 1) by ring. replace (b + 1 + INR m) with (b + INR (S m)) in IH by (rewrite S_INR; ring).
    assert (a * (ln (b + INR (S m) + 1) - ln (b + INR (S m))) <= a * Rpower (b + INR (S m)) (- g)) by (apply Rmult_le_compat_l; lra). lra.
Qed.
Lemma poly_divergent : divergent eps.
Proof.
  intros A. destruct (INR_unbounded (exp (A / a + ln (b + 1)))) as [N HN]. exists (S N). intros n Hn. destruct n as [|m]; [lia|].
  eapply Rle_trans; [|apply poly_sum]. assert (Hm : INR N <= INR m) by (apply le_INR; lia).
  assert (L : A / a + ln (b + 1) <= ln (b + 1 + INR m)) by (rewrite <- (ln_exp (A / a + ln (b + 1))); left; apply ln_increasing; [apply exp_pos|lra]).
  assert (L2 : A / a <= ln (b + 1 + INR m) - ln (b + 1)) by lra. apply (Rmult_le_compat_l a) in L2; [|lra]. replace (a * (A / a)) with A in L2 by (field; lra). exact L2.
Qed.
End Poly.
