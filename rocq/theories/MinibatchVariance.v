(** Second moments of the error of a batch gradient (for C88).  *)
From Coq Require Import Reals Lra Psatz.
From Verif Require Import Base ListUtil Pytree PytreeSpec Io TreeUtil TreeUtilSpec TreeUtilProofs Integrator IntegratorSpec IntegratorBasics Potential PotentialSpec PotentialProofs UnbiasedProofs VarianceProofs
  MinibatchSpec MinibatchProofs.
Open Scope R_scope.
Set Implicit Arguments.

Section V.
Variables (N mb : nat).
Hypothesis HN : (0 < N)%nat.
Hypothesis Hmb : (0 < mb)%nat.
Lemma PN : 0 < INR N. Proof using HN. apply lt_0_INR. exact HN. Qed.
Lemma Pmb : 0 < INR mb. Proof using Hmb. apply lt_0_INR. exact Hmb. Qed.
Lemma PL : INR (length (tuples mb N)) <> 0.
Proof using HN Hmb. rewrite length_tuples. apply not_0_INR. apply Nat.pow_nonzero. lia. Qed.
Lemma excess_centered f t : excess N mb f t = INR N / INR mb * sum_upto mb (fun j => f (nth j t 0%nat) - pop_mean N f).
Proof using HN Hmb.
  pose proof PN. pose proof Pmb. rewrite (@sum_upto_ext mb (fun j => f (nth j t 0%nat) - pop_mean N f) (fun j => f (nth j t 0%nat) + (fun _ => - pop_mean N f) j)) by (intros; ring).
  rewrite sum_upto_plus, sum_const. unfold excess, pop_mean. field. lra.
Qed.
Lemma centered f : sum_upto N (fun k => f k - pop_mean N f) = 0.
Proof using HN.
  pose proof PN. rewrite (@sum_upto_ext N (fun k => f k - pop_mean N f) (fun k => f k + (fun _ => - pop_mean N f) k)) by (intros; ring).
  rewrite sum_upto_plus, sum_const. unfold pop_mean. field. lra.
Qed.
Lemma average_square u : sum_upto N u = 0 -> average (map (fun t => (sum_upto mb (fun j => u (nth j t 0%nat)))^2) (tuples mb N)) = INR mb * (sum_upto N (fun k => (u k)^2) / INR N).
Proof using HN Hmb.
  intros H0. pose proof PN as HP. pose proof PL as HL. unfold average. rewrite map_length.
  rewrite (@pair_square (tuples mb N) mb u (sum_upto N (fun k => (u k)^2) / INR N) 0).
  - field. split; auto. lra.
  - intros j Hj. assert (T := tuples_single (fun k => (u k)^2) N Hj). cbv beta in T. apply (Rmult_eq_reg_l (INR N)); [|lra]. rewrite T. field. lra.
  - intros i j Hi Hj Hne. rewrite (tuples_pair0 u HN H0 Hi Hj Hne). ring.
Qed.
Lemma average_ext A (f g : A -> R) L : (forall t, In t L -> f t = g t) -> average (map f L) = average (map g L).
Proof. intros H. unfold average. rewrite !map_length. f_equal. f_equal. apply map_ext_in. exact H. Qed.
Lemma average_excess_product f g : average (map (fun t => excess N mb f t * excess N mb g t) (tuples mb N)) = INR N * INR N / INR mb * pop_cov N f g.
Proof using HN Hmb.
  pose proof PN as HP. pose proof Pmb as HM. set (u := fun k => f k - pop_mean N f). set (v := fun k => g k - pop_mean N g).
  assert (Hu : sum_upto N u = 0) by apply centered. assert (Hv : sum_upto N v = 0) by apply centered.
  assert (Huv : sum_upto N (fun k => u k + v k) = 0) by (rewrite sum_upto_plus, Hu, Hv; ring).
  set (Su := fun t : list nat => sum_upto mb (fun j => u (nth j t 0%nat))). set (Sv := fun t : list nat => sum_upto mb (fun j => v (nth j t 0%nat))).
  rewrite (@average_ext _ _ (fun t => (INR N / INR mb) * (INR N / INR mb) / 2 * ((sum_upto mb (fun j => (fun k => u k + v k) (nth j t 0%nat)))^2 + ((-1) * (Su t)^2 + (-1) * (Sv t)^2)))).
  2:{ intros t _. rewrite !excess_centered. fold (Su t). fold (Sv t). cbv beta. rewrite sum_upto_plus. fold (Su t). fold (Sv t). change (sum_upto mb (fun j => f (nth j t 0%nat) - pop_mean N f)) with (Su t). change (sum_upto mb (fun j => g (nth j t 0%nat) - pop_mean N g)) with (Sv t). field. lra. }
  rewrite average_scale. rewrite (average_plus (fun t => (sum_upto mb (fun j => (fun k => u k + v k) (nth j t 0%nat)))^2) (fun t => (-1) * (Su t)^2 + (-1) * (Sv t)^2)).
  rewrite (average_plus (fun t => (-1) * (Su t)^2) (fun t => (-1) * (Sv t)^2)), (average_scale (fun t => (Su t)^2)), (average_scale (fun t => (Sv t)^2)).
  unfold Su, Sv. rewrite (average_square _ Huv), (average_square _ Hu), (average_square _ Hv).
  rewrite (@sum_upto_ext N (fun k => (u k + v k)^2) (fun k => (u k)^2 + ((v k)^2 + 2 * (u k * v k)))) by (intros; ring).
  rewrite sum_upto_plus, sum_upto_plus, sum_upto_scale. unfold pop_cov. change (sum_upto N (fun k => (f k - pop_mean N f) * (g k - pop_mean N g))) with (sum_upto N (fun k => u k * v k)). field. lra.
Qed.
End V.
