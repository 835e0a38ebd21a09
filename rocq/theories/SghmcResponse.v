(** C98, proofs: mean square of the sum of a process in which the expected next value, against every earlier value, is a factor times the current value. *)
From Coq Require Import Reals Lra Lia Psatz.
From Verif Require Import Base ListUtil TreeUtil TreeUtilSpec TreeUtilProofs ExpectSpec ExpectProofs GaussianLimit RiemannProofs.
Open Scope R_scope.
Set Implicit Arguments.

Section Numbers.
Variables (a V : nat -> R) (b : nat).
(** E[(Y_b + ... + Y_(b+k-1)) Y_(b+k)] *)
(** auxiliary definition of a statement or a proof; models no code of /repo *)
Fixpoint cross (k : nat) : R := match k with O => 0 | S k => a (b + k)%nat * (cross k + V (b + k)%nat) end.
(** E[(Y_b + ... + Y_(b+k-1))^2] *)
(** auxiliary definition of a statement or a proof; models no code of /repo *)
Fixpoint total (k : nat) : R := match k with O => 0 | S k => total k + 2 * cross k + V (b + k)%nat end.

(** factors bounded away from 1 *)
Lemma cross_bound r v : 0 <= r < 1 -> (forall n, Rabs (a n) <= r) -> (forall n, 0 <= V n <= v) -> forall k, Rabs (cross k) <= r * v / (1 - r).
Proof.
  intros Hr Ha HV. assert (Pv : 0 <= v) by (destruct (HV 0%nat); lra). assert (P : 0 <= r * v / (1 - r)) by (apply Rmult_le_pos; [apply Rmult_le_pos; lra|left; apply Rinv_0_lt_compat; lra]).
  induction k as [|k IH]; cbn [cross]; [rewrite Rabs_R0; exact P|]. rewrite Rabs_mult. destruct (HV (b + k)%nat) as [V1 V2].
  apply Rle_trans with (r * (r * v / (1 - r) + v)); [|right; field; lra]. apply Rmult_le_compat; try apply Rabs_pos; [apply Ha|].
  eapply Rle_trans; [apply Rabs_triang|]. rewrite (Rabs_right (V _)) by lra. lra.
Qed.
Lemma total_bound r v : 0 <= r < 1 -> (forall n, Rabs (a n) <= r) -> (forall n, 0 <= V n <= v) -> forall k, total k <= INR k * (v * ((1 + r) / (1 - r))).
Proof.
  intros Hr Ha HV. induction k as [|k IH]; cbn [total]; [cbn; lra|]. rewrite S_INR. pose proof (cross_bound Hr Ha HV k) as C. pose proof (Rle_abs (cross k)). destruct (HV (b + k)%nat) as [V1 V2].
  replace (v * ((1 + r) / (1 - r))) with (2 * (r * v / (1 - r)) + v) in * by (field; lra). lra.
Qed.
(** factors that tend to 1 slowly *)
Section Slow.
Variables (e : nat -> R) (c v : R) (N1 : nat).
Hypothesis Hc : 0 < c.
Hypothesis He : forall n, 0 < e n.
Hypothesis Hd : forall n, e (S n) <= e n.
Hypothesis Ha : forall n, (N1 <= n)%nat -> c * (e n * e n) <= 1 /\ Rabs (a n) <= 1 - c * (e n * e n).
Hypothesis HV : forall n, (N1 <= n)%nat -> 0 <= V n <= v.
Hypothesis Hg : forall A, exists n0, forall n, (n0 <= n)%nat -> A <= INR n * (e n * e n).
Lemma inv_le n m : (n <= m)%nat -> v / (c * (e n * e n)) <= v / (c * (e m * e m)).
Proof using He Hd Hc HV.
  intros H. assert (E : e m <= e n) by (induction H; [lra|]; specialize (Hd m); lra). pose proof (He n). pose proof (He m). destruct (HV (le_n N1)) as [V1 V2].
  assert (e m * e m <= e n * e n) by (apply Rmult_le_compat; lra). assert (0 < e m * e m) by (apply Rmult_lt_0_compat; lra). apply Rmult_le_compat_l; [lra|]. apply Rinv_le_contravar; [apply Rmult_lt_0_compat; lra|]. apply Rmult_le_compat_l; lra.
Qed.
Lemma cross_slow k : (N1 <= k)%nat -> Rabs (cross k) <= Rabs (cross N1) + v / (c * (e (b + k)%nat * e (b + k)%nat)).
Proof using He Hd Hc HV Ha.
  clear Hg.
  destruct (HV (le_n N1)) as [V1 V2]. assert (Pv : 0 <= v) by lra. assert (Px : forall n, 0 < c * (e n * e n)) by (intros n; pose proof (He n); repeat apply Rmult_lt_0_compat; lra).
  intros H. induction H as [|k H IH].
  - assert (0 <= v / (c * (e (b + N1)%nat * e (b + N1)%nat))) by (apply Rmult_le_pos; [lra|left; apply Rinv_0_lt_compat, Px]). lra.
  - cbn [cross]. rewrite Rabs_mult. destruct (@Ha (b + k)%nat ltac:(lia)) as [A1 A2]. destruct (@HV (b + k)%nat ltac:(lia)) as [W1 W2].
    apply Rle_trans with (Rabs (cross N1) + v / (c * (e (b + k)%nat * e (b + k)%nat))); [|apply Rplus_le_compat_l, inv_le; lia]. specialize (Px (b + k)%nat). set (x := c * (e (b + k)%nat * e (b + k)%nat)) in *.
    apply Rle_trans with ((1 - x) * (Rabs (cross N1) + v / x + v)).
    + apply Rmult_le_compat; try apply Rabs_pos; [exact A2|]. eapply Rle_trans; [apply Rabs_triang|]. rewrite (Rabs_right (V _)) by lra. lra.
    + pose proof (Rabs_pos (cross N1)). replace ((1 - x) * (Rabs (cross N1) + v / x + v)) with (Rabs (cross N1) + v / x - x * Rabs (cross N1) - x * v) by (field; lra). assert (0 <= x * Rabs (cross N1)) by (apply Rmult_le_pos; lra). assert (0 <= x * v) by (apply Rmult_le_pos; lra). lra.
Qed.
Lemma total_slow k : (N1 <= k)%nat -> total k <= Rabs (total N1) + INR k * (2 * Rabs (cross N1) + v + 2 * (v / (c * (e (b + k)%nat * e (b + k)%nat)))).
Proof using He Hd Hc HV Ha.
  clear Hg.
  destruct (HV (le_n N1)) as [V1 V2]. assert (Pv : 0 <= v) by lra. assert (Px : forall n, 0 <= v / (c * (e n * e n))) by (intros n; pose proof (He n); apply Rmult_le_pos; [lra|left; apply Rinv_0_lt_compat; repeat apply Rmult_lt_0_compat; lra]). pose proof (Rabs_pos (cross N1)) as P0.
  intros H. induction H as [|k H IH].
  - pose proof (Rle_abs (total N1)). specialize (Px (b + N1)%nat). assert (0 <= INR N1 * (2 * Rabs (cross N1) + v + 2 * (v / (c * (e (b + N1)%nat * e (b + N1)%nat))))) by (apply Rmult_le_pos; [apply pos_INR|lra]). lra.
  - cbn [total]. rewrite S_INR. pose proof (@cross_slow k H) as C. pose proof (Rle_abs (cross k)). destruct (@HV (b + k)%nat ltac:(lia)) as [W1 W2]. pose proof (@inv_le (b + k) (b + S k) ltac:(lia)) as I. pose proof (pos_INR k).
    assert (INR k * (2 * Rabs (cross N1) + v + 2 * (v / (c * (e (b + k)%nat * e (b + k)%nat)))) <= INR k * (2 * Rabs (cross N1) + v + 2 * (v / (c * (e (b + S k)%nat * e (b + S k)%nat))))) by (apply Rmult_le_compat_l; lra). lra.
Qed.
Lemma total_vanishes delta : 0 < delta -> exists n0, (0 < n0)%nat /\ forall n, (n0 <= n)%nat -> total n <= delta * (INR n * INR n).
Proof using He Hd Hc HV Ha Hg.
  intros Hdl. destruct (HV (le_n N1)) as [V1 V2]. assert (Pv : 0 <= v) by lra. set (T0 := Rabs (total N1)). set (C0 := Rabs (cross N1)). assert (P1 : 0 <= T0) by apply Rabs_pos. assert (P2 : 0 <= C0) by apply Rabs_pos.
  destruct (Hg (12 * (v + 1) / (c * delta))) as [n1 H1]. destruct (INR_unbounded (3 * T0 / delta)) as [n2 H2]. destruct (INR_unbounded (3 * (2 * C0 + v) / delta)) as [n3 H3].
  exists (1 + N1 + n1 + n2 + n3 + b)%nat. split; [lia|]. intros n Hn.
  assert (I2 : 3 * T0 / delta <= INR n) by (apply Rlt_le, Rlt_le_trans with (INR n2); [exact H2|apply le_INR; lia]). assert (I3 : 3 * (2 * C0 + v) / delta <= INR n) by (apply Rlt_le, Rlt_le_trans with (INR n3); [exact H3|apply le_INR; lia]).
  assert (I1 : 1 <= INR n) by (replace 1 with (INR 1) by reflexivity; apply le_INR; lia).
  specialize (H1 (b + n)%nat ltac:(lia)). pose proof (@total_slow n ltac:(lia)) as T. fold T0 C0 in T. pose proof (He (b + n)) as Pe. assert (Pq : 0 < e (b + n)%nat * e (b + n)%nat) by (apply Rmult_lt_0_compat; lra). set (q := e (b + n)%nat * e (b + n)%nat) in *.
  assert (J2 : T0 <= delta / 3 * INR n). { apply (Rmult_le_compat_l (delta / 3)) in I2; [|lra]. replace (delta / 3 * (3 * T0 / delta)) with T0 in I2 by (field; lra). exact I2. }
  assert (J3 : 2 * C0 + v <= delta / 3 * INR n). { apply (Rmult_le_compat_l (delta / 3)) in I3; [|lra]. replace (delta / 3 * (3 * (2 * C0 + v) / delta)) with (2 * C0 + v) in I3 by (field; lra). exact I3. }
  assert (J1 : 2 * (v / (c * q)) <= delta / 3 * INR n).
  { assert (B : INR (b + n) <= 2 * INR n) by (rewrite plus_INR; assert (INR b <= INR n) by (apply le_INR; lia); lra). assert (B2 : 12 * (v + 1) / (c * delta) <= 2 * INR n * q) by (eapply Rle_trans; [exact H1|]; apply Rmult_le_compat_r; lra).
    apply (Rmult_le_compat_l (delta / (6 * q))) in B2; [|apply Rmult_le_pos; [lra|left; apply Rinv_0_lt_compat; lra]]. replace (delta / (6 * q) * (2 * INR n * q)) with (delta / 3 * INR n) in B2 by (field; lra). eapply Rle_trans; [|exact B2].
    replace (delta / (6 * q) * (12 * (v + 1) / (c * delta))) with (2 * (v / (c * q)) + 2 * / (c * q)) by (field; split; [lra|split; lra]). assert (0 < / (c * q)) by (apply Rinv_0_lt_compat, Rmult_lt_0_compat; lra). lra. }
  assert (K1 : INR n * (2 * C0 + v + 2 * (v / (c * q))) <= INR n * (2 * (delta / 3 * INR n))) by (apply Rmult_le_compat_l; lra).
  assert (K2 : T0 <= delta / 3 * (INR n * INR n)). { eapply Rle_trans; [exact J2|]. apply Rmult_le_compat_l; [lra|]. rewrite <- (Rmult_1_l (INR n)) at 1. apply Rmult_le_compat_r; lra. }
  replace (delta * (INR n * INR n)) with (delta / 3 * (INR n * INR n) + INR n * (2 * (delta / 3 * INR n))) by field. lra.
Qed.
End Slow.
End Numbers.

Section Process.
Variables (W : Type) (E : (W -> R) -> R) (Y : nat -> W -> R) (a V : nat -> R) (N : nat).
Hypothesis HE : expectation E.
Hypothesis HV : forall n, (n <= N)%nat -> E (fun w => Y n w * Y n w) = V n.
Hypothesis HO : forall j n, (j <= n)%nat -> (n < N)%nat -> E (fun w => Y j w * Y (S n) w) = a n * E (fun w => Y j w * Y n w).
Notation part b k := (fun w => sum_upto k (fun i => Y (b + i)%nat w)).
Lemma E_part b k (X : W -> R) : E (fun w => part b k w * X w) = sum_upto k (fun i => E (fun w => Y (b + i)%nat w * X w)).
Proof using HE.
  rewrite <- (E_sum HE k (fun i w => Y (b + i)%nat w * X w)). apply (E_ext HE). intros w. rewrite (Rmult_comm _ (X w)), <- (@sum_upto_scale k (X w) (fun i => Y (b + i)%nat w)). apply sum_upto_ext. intros i _. ring.
Qed.
Lemma E_cross b k : (b + k <= N)%nat -> E (fun w => part b k w * Y (b + k)%nat w) = cross a V b k.
Proof using HE HV HO.
  induction k as [|k IH]; intros Hk; [cbn [cross]; rewrite E_part; reflexivity|]. cbn [cross]. rewrite <- IH by lia. rewrite <- (@HV (b + k)%nat) by lia. rewrite E_part, sum_upto_S. replace (b + S k)%nat with (S (b + k)) by lia.
  rewrite HO by lia. rewrite Rmult_plus_distr_l. f_equal. rewrite (E_part b k (fun w => Y (b + k)%nat w)). rewrite <- (@sum_upto_scale k (a (b + k)%nat) (fun i => E (fun w => Y (b + i)%nat w * Y (b + k)%nat w))). apply sum_upto_ext. intros i Hi. apply HO; lia.
Qed.
Lemma E_total b k : (b + k <= S N)%nat -> E (fun w => part b k w * part b k w) = total a V b k.
Proof using HE HV HO.
  induction k as [|k IH]; intros Hk; [cbn [total]; rewrite E_part; reflexivity|]. cbn [total]. rewrite <- IH by lia. rewrite <- E_cross by lia. rewrite <- (@HV (b + k)%nat) by lia.
  rewrite <- (E_scale HE 2), <- !(E_plus HE). apply (E_ext HE). intros w. rewrite sum_upto_S. ring.
Qed.
End Process.
