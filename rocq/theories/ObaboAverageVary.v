(** Proofs for C96: sums of the scaled positions of OBABO with nonincreasing step sizes.  Models no code of /repo. *)
From Coq Require Import Reals Lra Lia Psatz.
From Verif Require Import Base ListUtil TreeUtilSpec TreeUtilProofs ExpectSpec GaussianLimit SghmcGaussian ObaboGaussian ObaboAverageProofs.
Open Scope R_scope.
Set Implicit Arguments.

(** one inner step with parameters that depend on its number *)
(** auxiliary definition of a statement or a proof; models no code of /repo *)
Definition follows_vary (k a b : nat -> R) (W : Type) (z Y Q : nat -> W -> R) : Prop := forall t w,
  exists q1 q2 q3, q1 = a t * Q t w + b t * z (2 * t)%nat w /\ q2 = q1 - k t * Y t w /\ Y (S t) w = Y t w + 2 * k t * q2 /\ q3 = q2 - k t * Y (S t) w /\ Q (S t) w = a t * q3 + b t * z (S (2 * t)) w.
(** weights of a position and a momentum *)
(** auxiliary definition of a statement or a proof; models no code of /repo *)
Definition wY (k a : R) : R := (1 - a * a) / (2 * (k * k) * (1 + a * a)) + a * a / (1 + a * a).
(** auxiliary definition of a statement or a proof; models no code of /repo *)
Definition wQ (k a : R) : R := a / (k * (1 + a * a)).
Lemma telescoping k a b y q z0 z1 q1 q2 q3 y' q' : k <> 0 -> q1 = a * q + b * z0 -> q2 = q1 - k * y -> y' = y + 2 * k * q2 -> q3 = q2 - k * y' -> q' = a * q3 + b * z1 ->
  y = wY k a * (y - y') + wQ k a * (q - q') + (b / (k * (1 + a * a)) * z0 + a * b / (k * (1 + a * a)) * z1).
Proof. intros Hk -> -> -> -> ->. unfold wY, wQ. assert (P : 1 + a * a <> 0) by (pose proof (Rle_0_sqr a) as Q; unfold Rsqr in Q; lra). field. auto. Qed.

Section L2.
Variables (W : Type) (E : (W -> R) -> R) (z : nat -> W -> R) (N : nat).
Hypothesis HE : expectation E.
Hypothesis H1 : E (fun _ => 1) = 1.
Hypothesis Hm : forall t, (t < N)%nat -> E (z t) = 0.
Hypothesis Hc : forall t u, (t < N)%nat -> (u < N)%nat -> E (fun w => z t w * z u w) = if (t =? u)%nat then 1 else 0.
(** root mean square at most x *)
(** auxiliary definition of a statement or a proof; models no code of /repo *)
Definition L2 (X : W -> R) (x : R) : Prop := lin z N X /\ 0 <= x /\ E (fun w => X w * X w) <= x * x.
Lemma L2_ext X Y x : (forall w, X w = Y w) -> L2 X x -> L2 Y x.
Proof. intros H (L & P & B). split; [now apply (@lin_ext _ _ _ _ Y H)|]. split; [exact P|]. rewrite (proj1 HE _ (fun w => X w * X w)) by (intros w; now rewrite H). exact B. Qed.
Lemma L2_weaken X x y : L2 X x -> x <= y -> L2 X y.
Proof. clear. intros (L & P & B) H. split; [exact L|]. split; [lra|]. eapply Rle_trans; [exact B|]. apply Rmult_le_compat; lra. Qed.
Lemma L2_product X Y x y : L2 X x -> L2 Y y -> E (fun w => X w * Y w) <= x * y.
Proof.
  intros (LX & Px & Bx) (LY & Py & By). apply le_epsilon. intros eps He. set (e := Rmin 1 (eps / (x + y + 1))).
  assert (Pe : 0 < e) by (apply Rmin_glb_lt; [lra|apply Rdiv_lt_0_compat; lra]). assert (E1 : e <= 1) by apply Rmin_l.
  assert (E2 : e * (x + y + 1) <= eps). { pose proof (Rmin_r 1 (eps / (x + y + 1))) as M. fold e in M. apply (Rmult_le_compat_r (x + y + 1)) in M; [|lra]. unfold Rdiv in M. rewrite Rmult_assoc, Rinv_l in M by lra. lra. }
  set (x' := x + e). set (y' := y + e). assert (Px' : 0 < x') by (unfold x'; lra). assert (Py' : 0 < y') by (unfold y'; lra).
  pose proof (@lin_sq W E z N HE H1 Hm Hc N _ (lin_comb y' (- x') LX LY) (le_n _)) as P. cbv beta in P. rewrite (E_quad HE X Y X Y y' (- x') y' (- x')) in P. rewrite (E_comm HE Y X) in P.
  assert (Bx' : E (fun w => X w * X w) <= x' * x') by (eapply Rle_trans; [exact Bx|]; apply Rmult_le_compat; unfold x'; lra).
  assert (By' : E (fun w => Y w * Y w) <= y' * y') by (eapply Rle_trans; [exact By|]; apply Rmult_le_compat; unfold y'; lra).
  assert (Q1 : y' * y' * E (fun w => X w * X w) <= y' * y' * (x' * x')) by (apply Rmult_le_compat_l; [apply Rmult_le_pos; lra|exact Bx']).
  assert (Q2 : x' * x' * E (fun w => Y w * Y w) <= x' * x' * (y' * y')) by (apply Rmult_le_compat_l; [apply Rmult_le_pos; lra|exact By']).
  assert (Q : E (fun w => X w * Y w) <= x' * y').
  { apply (Rmult_le_reg_l (2 * (x' * y'))); [assert (0 < x' * y') by (now apply Rmult_lt_0_compat); lra|]. set (xy := E (fun w => X w * Y w)) in *. lra. }
  assert (x' * y' <= x * y + eps); [|lra]. unfold x', y'. assert (e * e <= e * 1) by (apply Rmult_le_compat_l; lra). lra.
Qed.
Lemma L2_plus X Y x y : L2 X x -> L2 Y y -> L2 (fun w => X w + Y w) (x + y).
Proof.
  intros LX LY. pose proof (L2_product LX LY) as P. destruct LX as (LX & Px & Bx), LY as (LY & Py & By). split; [|split; [lra|]].
  - apply (@lin_ext W z N (fun w => 1 * X w + 1 * Y w)); [intros; ring|now apply lin_comb].
  - rewrite (proj1 HE _ (fun w => (1 * X w + 1 * Y w) * (1 * X w + 1 * Y w))) by (intros; ring). rewrite (E_quad HE X Y X Y 1 1 1 1), (E_comm HE Y X). lra.
Qed.
Lemma L2_scale X x c : L2 X x -> L2 (fun w => c * X w) (Rabs c * x).
Proof.
  intros (LX & Px & Bx). split; [|split].
  - apply (@lin_ext W z N (fun w => c * X w + 0 * X w)); [intros; ring|now apply lin_comb].
  - apply Rmult_le_pos; [apply Rabs_pos|exact Px].
  - destruct HE as (X0 & _ & Sc). rewrite (X0 _ (fun w => (c * c) * (X w * X w))) by (intros; ring). rewrite Sc. replace (Rabs c * x * (Rabs c * x)) with (Rabs c * Rabs c * (x * x)) by ring. rewrite <- Rabs_mult, (Rabs_pos_eq (c * c)) by apply Rle_0_sqr. apply Rmult_le_compat_l; [apply Rle_0_sqr|exact Bx].
Qed.
Lemma L2_zero : L2 (fun _ => 0) 0.
Proof. split; [apply lin_const|]. split; [lra|]. destruct HE as (X0 & _ & Sc). rewrite (Sc 0 (fun _ => 0)). lra. Qed.
Lemma L2_sum n X x : (forall i, (i < n)%nat -> L2 (X i) (x i)) -> L2 (fun w => sum_upto n (fun i => X i w)) (sum_upto n x).
Proof.
  induction n as [|n IH]; intros H; [exact L2_zero|]. rewrite sum_upto_S. apply (@L2_ext (fun w => sum_upto n (fun i => X i w) + X n w)); [intros w; now rewrite sum_upto_S|].
  apply L2_plus; [apply IH; intros; apply H; lia|apply H; lia].
Qed.
Lemma L2_z t : (t < N)%nat -> L2 (z t) 1.
Proof.
  intros Ht. split; [|split; [lra|]].
  - apply (@lin_le W z (S t)); [|lia]. apply (@lin_ext W z (S t) (fun w => 0 * 0 + 1 * z t w)); [intros; ring|]. apply (@lin_z W z t (fun _ => 0) 0 1). apply lin_const.
  - rewrite Hc, Nat.eqb_refl by exact Ht. lra.
Qed.
(** summation by parts with nondecreasing weights *)
Lemma L2_parts (c : nat -> R) Y B m : (forall t, (t <= m)%nat -> 0 <= c t) -> (forall t, (t < m)%nat -> c t <= c (S t)) -> (forall t, (t <= S m)%nat -> L2 (Y t) B) ->
  L2 (fun w => sum_upto (S m) (fun t => c t * (Y t w - Y (S t) w))) (2 * c m * B).
Proof.
  intros Pc Mc HY. assert (A : L2 (fun w => sum_upto (S m) (fun t => c t * (Y t w - Y (S t) w)) + c m * Y (S m) w) (c m * B)).
  { assert (G : forall j, (j <= m)%nat -> L2 (fun w => sum_upto (S j) (fun t => c t * (Y t w - Y (S t) w)) + c j * Y (S j) w) (c j * B)); [|apply (G m); lia].
    induction j as [|j IH]; intros Hj.
    - pose proof (L2_scale (c 0%nat) (HY 0%nat ltac:(lia))) as P. rewrite Rabs_pos_eq in P by (apply Pc; lia). eapply L2_ext; [|exact P]. intros w. unfold sum_upto. cbn. ring.
    - apply (@L2_ext (fun w => (sum_upto (S j) (fun t => c t * (Y t w - Y (S t) w)) + c j * Y (S j) w) + (c (S j) - c j) * Y (S j) w)); [intros w; rewrite (sum_upto_S (S j)); ring|].
      replace (c (S j) * B) with (c j * B + (c (S j) - c j) * B) by ring. apply L2_plus; [apply IH; lia|]. specialize (Mc j ltac:(lia)). pose proof (L2_scale (c (S j) - c j) (HY (S j) ltac:(lia))) as P. rewrite Rabs_pos_eq in P by lra. exact P. }
  pose proof (L2_plus A (L2_scale (- c m) (HY (S m) (le_n _)))) as P. rewrite Rabs_Ropp, Rabs_pos_eq in P by (apply Pc; lia). cbv beta in P. replace (2 * c m * B) with (c m * B + c m * B) by ring.
  eapply L2_ext; [|exact P]. intros w. cbv beta. ring.
Qed.
(** sums of noise *)
Lemma lin_z_sq n X y : lin z n X -> (n < N)%nat -> lin z (S n) (fun w => X w + y * z n w) /\ E (fun w => (X w + y * z n w) * (X w + y * z n w)) = E (fun w => X w * X w) + y * y.
Proof.
  intros LX Hn. split.
  - apply (@lin_ext W z (S n) (fun w => 1 * X w + y * z n w)); [intros; ring|now apply lin_z].
  - pose proof (@lin_orth W E z N HE H1 Hm Hc n X LX Hn) as O. rewrite (proj1 HE _ (fun w => (1 * X w + y * z n w) * (1 * X w + y * z n w))) by (intros; ring).
    rewrite (E_quad HE X (z n) X (z n) 1 y 1 y), (E_comm HE (z n) X), O, Hc, Nat.eqb_refl by exact Hn. ring.
Qed.
Lemma noise_pairs (n0 n1 : nat -> R) V m : (2 * m <= N)%nat -> 0 <= V -> (forall t, (t < m)%nat -> n0 t * n0 t + n1 t * n1 t <= V) ->
  L2 (fun w => sum_upto m (fun t => n0 t * z (2 * t)%nat w + n1 t * z (S (2 * t)) w)) (sqrt (INR m * V)).
Proof.
  intros Hn PV HV. assert (A : lin z (2 * m) (fun w => sum_upto m (fun t => n0 t * z (2 * t)%nat w + n1 t * z (S (2 * t)) w)) /\
    E (fun w => sum_upto m (fun t => n0 t * z (2 * t)%nat w + n1 t * z (S (2 * t)) w) * sum_upto m (fun t => n0 t * z (2 * t)%nat w + n1 t * z (S (2 * t)) w)) <= INR m * V).
  { induction m as [|m IH].
    - split; [exact (lin_const z 0 0)|]. cbn [INR]. rewrite Rmult_0_l. destruct HE as (X0 & _ & Sc). rewrite (X0 _ (fun w => 0 * (fun _ => 0) w)) by (intros; unfold sum_upto; cbn; ring). rewrite (Sc 0 (fun _ => 0)). lra.
    - destruct IH as [I1 I2]; [lia|intros; apply HV; lia|]. destruct (lin_z_sq (n0 m) I1 ltac:(lia)) as [L1 S1]. destruct (lin_z_sq (n1 m) L1 ltac:(lia)) as [L2' S2].
      assert (Eq : forall w, sum_upto m (fun t => n0 t * z (2 * t)%nat w + n1 t * z (S (2 * t)) w) + n0 m * z (2 * m)%nat w + n1 m * z (S (2 * m)) w = sum_upto (S m) (fun t => n0 t * z (2 * t)%nat w + n1 t * z (S (2 * t)) w)) by (intros w; rewrite sum_upto_S; ring).
      split; [replace (2 * S m)%nat with (S (S (2 * m))) by lia; refine (lin_ext _ Eq _); exact L2'|]. rewrite (proj1 HE _ (fun w => (sum_upto m (fun t => n0 t * z (2 * t)%nat w + n1 t * z (S (2 * t)) w) + n0 m * z (2 * m)%nat w + n1 m * z (S (2 * m)) w) * (sum_upto m (fun t => n0 t * z (2 * t)%nat w + n1 t * z (S (2 * t)) w) + n0 m * z (2 * m)%nat w + n1 m * z (S (2 * m)) w))) by (intros w; now rewrite !Eq).
      rewrite S2, S1, S_INR. specialize (HV m ltac:(lia)). lra. }
  destruct A as [A1 A2]. assert (Pm : 0 <= INR m * V) by (apply Rmult_le_pos; [apply pos_INR|exact PV]). split; [now apply (lin_le A1)|]. split; [apply sqrt_pos|]. now rewrite sqrt_sqrt.
Qed.

(** ** the sum of the positions after blocks of p steps *)
Variables (k a b : nat -> R) (Y Q : nat -> W -> R) (p n : nat) (B beta V kap : R).
Hypothesis Hp : (0 < p)%nat.
Hypothesis Hf : follows_vary k a b z Y Q.
Hypothesis HN : (2 * (S n * p) <= N)%nat.
Hypothesis Hk : forall t, 0 < k t <= kap.
Hypothesis Hblock : forall i j, (j < p)%nat -> k (i * p + j)%nat = k (i * p)%nat.
Hypothesis Ha : forall t, 0 <= a t <= 1.
Hypothesis Hb : forall t, 0 <= b t <= beta.
Hypothesis HY : forall t, (t <= S n * p)%nat -> L2 (Y t) B.
Hypothesis HQ : forall t, (t <= S n * p)%nat -> L2 (Q t) B.
Hypothesis HwY : forall t, wY (k t) (a t) <= wY (k (S t)) (a (S t)).
Hypothesis HwQ : forall t, wQ (k t) (a t) <= wQ (k (S t)) (a (S t)).
Hypothesis HV : forall t, (t < S n * p)%nat -> b t * b t / (k t * k t) <= V.
Notation last := (S n * p - 1)%nat.
Lemma weights_pos t : 0 <= wY (k t) (a t) /\ 0 <= wQ (k t) (a t).
Proof.
  specialize (Hk t). specialize (Ha t). pose proof (Rle_0_sqr (a t)) as Q2. unfold Rsqr in Q2. assert (a t * a t <= 1 * 1) by (apply Rmult_le_compat; lra). assert (P : 0 < k t * k t) by (apply Rmult_lt_0_compat; lra). assert (P2 : 0 < 2 * (k t * k t) * (1 + a t * a t)) by (apply Rmult_lt_0_compat; lra).
  assert (P3 : 0 < k t * (1 + a t * a t)) by (apply Rmult_lt_0_compat; lra). unfold wY, wQ, Rdiv. split; [apply Rplus_le_le_0_compat|]; apply Rmult_le_pos; try lra; left; apply Rinv_0_lt_compat; lra.
Qed.
Lemma inner_sum : L2 (fun w => sum_upto (S n * p) (fun t => Y t w)) (2 * wY (k last) (a last) * B + 2 * wQ (k last) (a last) * B + sqrt (INR (S n * p) * V)).
Proof.
  assert (El : (S n * p = S last)%nat) by nia.
  assert (PV : 0 <= V). { pose proof (HV (t := 0%nat) ltac:(nia)) as HV0. specialize (Hk 0%nat). eapply Rle_trans; [|exact HV0]. unfold Rdiv. apply Rmult_le_pos; [apply Rle_0_sqr|]. left. apply Rinv_0_lt_compat, Rmult_lt_0_compat; lra. }
  assert (PY : L2 (fun w => sum_upto (S last) (fun t => wY (k t) (a t) * (Y t w - Y (S t) w))) (2 * wY (k last) (a last) * B)).
  { apply (@L2_parts (fun t => wY (k t) (a t)) Y B last); [intros; apply weights_pos|intros; apply HwY|intros t Ht; apply HY; lia]. }
  assert (PQ : L2 (fun w => sum_upto (S last) (fun t => wQ (k t) (a t) * (Q t w - Q (S t) w))) (2 * wQ (k last) (a last) * B)).
  { apply (@L2_parts (fun t => wQ (k t) (a t)) Q B last); [intros; apply weights_pos|intros; apply HwQ|intros t Ht; apply HQ; lia]. }
  assert (PU : L2 (fun w => sum_upto (S n * p) (fun t => b t / (k t * (1 + a t * a t)) * z (2 * t)%nat w + a t * b t / (k t * (1 + a t * a t)) * z (S (2 * t)) w)) (sqrt (INR (S n * p) * V))).
  { apply noise_pairs; [lia|exact PV|]. intros t Ht. eapply Rle_trans; [|apply (HV Ht)]. specialize (Hk t). specialize (Ha t). pose proof (Rle_0_sqr (a t)) as Q2. unfold Rsqr in Q2. set (A2 := 1 + a t * a t) in *.
    replace (b t / (k t * A2) * (b t / (k t * A2)) + a t * b t / (k t * A2) * (a t * b t / (k t * A2))) with (b t * b t / (k t * k t) * / A2) by (replace (a t * b t / (k t * A2) * (a t * b t / (k t * A2))) with (b t * b t / (k t * k t) * ((A2 - 1) / (A2 * A2))) by (unfold A2; field; unfold A2 in *; lra); field; unfold A2 in *; lra).
    rewrite <- (Rmult_1_r (b t * b t / (k t * k t))) at 2. apply Rmult_le_compat_l; [unfold Rdiv; apply Rmult_le_pos; [apply Rle_0_sqr|left; apply Rinv_0_lt_compat, Rmult_lt_0_compat; lra]|]. rewrite <- Rinv_1. apply Rinv_le_contravar; unfold A2; lra. }
  eapply L2_ext; [|exact (L2_plus (L2_plus PY PQ) PU)]. intros w. cbv beta. rewrite <- El. rewrite <- !sum_upto_plus. apply sum_upto_ext. intros t Ht. destruct (Hf t w) as (q1 & q2 & q3 & E1 & E2 & E3 & E4 & E5). symmetry.
  apply (@telescoping (k t) (a t) (b t) (Y t w) (Q t w) (z (2 * t)%nat w) (z (S (2 * t)) w) q1 q2 q3); auto. specialize (Hk t). lra.
Qed.
Lemma one_move t : (t < S n * p)%nat -> L2 (fun w => Y (S t) w - Y t w) (2 * k t * ((1 + kap) * B + beta)).
Proof.
  intros Ht. pose proof (L2_scale (2 * k t * a t) (HQ (t := t) ltac:(lia))) as A1. pose proof (L2_scale (2 * k t * b t) (L2_z (t := (2 * t)%nat) ltac:(lia))) as A2. pose proof (L2_scale (- (2 * k t * k t)) (HY (t := t) ltac:(lia))) as A3.
  specialize (Hk t). specialize (Ha t). specialize (Hb t). assert (PB : 0 <= B) by (apply (HY (t := 0%nat) ltac:(lia))).
  rewrite Rabs_Ropp in A3. rewrite Rabs_pos_eq in A1 by (apply Rmult_le_pos; lra). rewrite Rabs_pos_eq in A2 by (apply Rmult_le_pos; lra). rewrite Rabs_pos_eq in A3 by (apply Rmult_le_pos; lra).
  apply (@L2_weaken _ (2 * k t * a t * B + 2 * k t * b t * 1 + 2 * k t * k t * B)).
  - eapply L2_ext; [|exact (L2_plus (L2_plus A1 A2) A3)]. intros w. cbv beta. destruct (Hf t w) as (q1 & q2 & q3 & E1 & E2 & E3 & _). rewrite E3, E2, E1. ring.
  - replace (2 * k t * a t * B + 2 * k t * b t * 1 + 2 * k t * k t * B) with (2 * k t * (a t * B + b t + k t * B)) by ring. apply Rmult_le_compat_l; [lra|]. assert (a t * B <= 1 * B) by (apply Rmult_le_compat_r; lra). assert (k t * B <= kap * B) by (apply Rmult_le_compat_r; lra). lra.
Qed.
Lemma moves i j l : (i < S n)%nat -> (j + l <= p)%nat -> L2 (fun w => Y (i * p + (j + l))%nat w - Y (i * p + j)%nat w) (INR l * (2 * k (i * p)%nat * ((1 + kap) * B + beta))).
Proof.
  intros Hi. induction l as [|l IH]; intros Hl.
  - cbn [INR]. rewrite Rmult_0_l. eapply L2_ext; [|exact L2_zero]. intros w. rewrite Nat.add_0_r. ring.
  - rewrite S_INR. replace ((INR l + 1) * (2 * k (i * p)%nat * ((1 + kap) * B + beta))) with (INR l * (2 * k (i * p)%nat * ((1 + kap) * B + beta)) + 2 * k (i * p)%nat * ((1 + kap) * B + beta)) by ring.
    assert (Lt : (i * p + (j + l) < S n * p)%nat) by nia. pose proof (one_move Lt) as O. rewrite Hblock in O by lia. eapply L2_ext; [|exact (L2_plus (IH ltac:(lia)) O)].
    intros w. cbv beta. replace (i * p + (j + S l))%nat with (S (i * p + (j + l))) by lia. ring.
Qed.
Lemma outer_sum : L2 (fun w => sum_upto (S n) (fun i => Y (S i * p)%nat w))
  (/ INR p * (2 * wY (k last) (a last) * B + 2 * wQ (k last) (a last) * B + sqrt (INR (S n * p) * V)) + INR p * (2 * ((1 + kap) * B + beta)) * sum_upto (S n) (fun i => k (i * p)%nat)).
Proof.
  assert (Pp : 0 < INR p) by (apply lt_0_INR; exact Hp). assert (PB : 0 <= B) by (apply (HY (t := 0%nat) ltac:(lia))). assert (Pbe : 0 <= beta) by (specialize (Hb 0%nat); lra). assert (Pkap : 0 < kap) by (specialize (Hk 0%nat); lra). assert (PG : 0 <= (1 + kap) * B + beta) by (assert (0 <= (1 + kap) * B) by (apply Rmult_le_pos; lra); lra).
  assert (D : L2 (fun w => sum_upto (S n) (fun i => sum_upto p (fun j => Y (S i * p)%nat w - Y (i * p + j)%nat w))) (sum_upto (S n) (fun i => INR p * (INR p * (2 * k (i * p)%nat * ((1 + kap) * B + beta)))))).
  { apply (@L2_sum (S n) (fun i w => sum_upto p (fun j => Y (S i * p)%nat w - Y (i * p + j)%nat w))). intros i Hi.
    apply (@L2_weaken _ (sum_upto p (fun j => INR (p - j) * (2 * k (i * p)%nat * ((1 + kap) * B + beta))))).
    - apply (@L2_sum p (fun j w => Y (S i * p)%nat w - Y (i * p + j)%nat w)). intros j Hj. pose proof (@moves i j (p - j) Hi ltac:(lia)) as M. replace (j + (p - j))%nat with p in M by lia. replace (S i * p)%nat with (i * p + p)%nat by lia. exact M.
    - assert (Pk : 0 <= 2 * k (i * p)%nat * ((1 + kap) * B + beta)) by (specialize (Hk (i * p)%nat); apply Rmult_le_pos; lra).
      assert (G : forall m, (m <= p)%nat -> sum_upto m (fun j => INR (p - j) * (2 * k (i * p)%nat * ((1 + kap) * B + beta))) <= INR m * (INR p * (2 * k (i * p)%nat * ((1 + kap) * B + beta)))); [|apply (G p (le_n _))].
      induction m as [|m IH]; intros Hm'; [unfold sum_upto; cbn; lra|]. rewrite sum_upto_S, S_INR. specialize (IH ltac:(lia)). assert (INR (p - m) * (2 * k (i * p)%nat * ((1 + kap) * B + beta)) <= INR p * (2 * k (i * p)%nat * ((1 + kap) * B + beta))) by (apply Rmult_le_compat_r; [exact Pk|apply le_INR; lia]). lra. }
  pose proof (L2_plus (L2_scale (/ INR p) inner_sum) (L2_scale (/ INR p) D)) as P. rewrite Rabs_pos_eq in P by (left; now apply Rinv_0_lt_compat). cbv beta in P.
  replace (/ INR p * sum_upto (S n) (fun i => INR p * (INR p * (2 * k (i * p)%nat * ((1 + kap) * B + beta))))) with (INR p * (2 * ((1 + kap) * B + beta)) * sum_upto (S n) (fun i => k (i * p)%nat)) in P.
  2: { rewrite (@sum_upto_ext (S n) (fun i => INR p * (INR p * (2 * k (i * p)%nat * ((1 + kap) * B + beta)))) (fun i => (INR p * INR p * (2 * ((1 + kap) * B + beta))) * k (i * p)%nat)) by (intros; ring). rewrite (@sum_upto_scale (S n) (INR p * INR p * (2 * ((1 + kap) * B + beta))) (fun i => k (i * p)%nat)). field. lra. }
  eapply L2_ext; [|exact P]. intros w. cbv beta.
  assert (G : forall m, sum_upto (m * p) (fun t => Y t w) + sum_upto m (fun i => sum_upto p (fun j => Y (S i * p)%nat w - Y (i * p + j)%nat w)) = INR p * sum_upto m (fun i => Y (S i * p)%nat w)).
  { induction m as [|m IH]; [unfold sum_upto; cbn; ring|]. rewrite !sum_upto_S. replace (S m * p)%nat with (m * p + p)%nat at 1 by lia. rewrite sum_upto_app.
    assert (K : sum_upto p (fun i => Y (m * p + i)%nat w) + sum_upto p (fun j => Y (S m * p)%nat w - Y (m * p + j)%nat w) = INR p * Y (S m * p)%nat w).
    { generalize (Y (S m * p)%nat w). intros y. assert (G2 : forall q, sum_upto q (fun i => Y (m * p + i)%nat w) + sum_upto q (fun j => y - Y (m * p + j)%nat w) = INR q * y); [|apply G2]. induction q as [|q IHq]; [unfold sum_upto; cbn; ring|]. rewrite !sum_upto_S, S_INR. lra. }
    lra. }
  rewrite <- Rmult_plus_distr_l, G. field. lra.
Qed.
End L2.

(** ** the weights are nondecreasing when the step size decreases *)
(** auxiliary definition of a statement or a proof; models no code of /repo *)
Definition th (x : R) : R := 2 / (1 + exp (- x)).
Lemma th_deriv x : derivable_pt_lim th x (2 * exp (- x) / ((1 + exp (- x)) * (1 + exp (- x)))).
Proof.
  assert (D1 : derivable_pt_lim (fun y => 1 + exp (- y)) x (0 + exp (- x) * (- 1))).
  { apply (derivable_pt_lim_plus (fct_cte 1) (fun y => exp (- y))); [apply derivable_pt_lim_const|]. apply (derivable_pt_lim_comp (fun y => - y) exp); [apply (derivable_pt_lim_opp id), derivable_pt_lim_id|apply derivable_pt_lim_exp]. }
  pose proof (exp_pos (- x)) as P. pose proof (@derivable_pt_lim_div (fct_cte 2) (fun y => 1 + exp (- y)) x 0 (0 + exp (- x) * (- 1)) (derivable_pt_lim_const 2 x) D1 ltac:(cbv beta; lra)) as D. unfold Rsqr in D. cbv beta in D. unfold fct_cte in D at 2.
  replace (2 * exp (- x) / ((1 + exp (- x)) * (1 + exp (- x)))) with ((0 * (1 + exp (- x)) - (0 + exp (- x) * -1) * 2) / ((1 + exp (- x)) * (1 + exp (- x)))) by (field; lra). exact D.
Qed.
Lemma th_slope x y : 0 < x < y -> (th y - 1) * x <= (th x - 1) * y.
Proof.
  intros H. destruct (MVT_cor2 th (fun x => 2 * exp (- x) / ((1 + exp (- x)) * (1 + exp (- x)))) 0 x (proj1 H) (fun c _ => th_deriv c)) as (c1 & E1 & I1).
  destruct (MVT_cor2 th (fun x => 2 * exp (- x) / ((1 + exp (- x)) * (1 + exp (- x)))) x y (proj2 H) (fun c _ => th_deriv c)) as (c2 & E2 & I2).
  assert (T0 : th 0 = 1) by (unfold th; rewrite Ropp_0, exp_0; field). rewrite T0, Rminus_0_r in E1.
  set (v1 := exp (- c1)) in *. set (v2 := exp (- c2)) in *. assert (P2 : 0 < v2) by apply exp_pos. assert (V : v2 <= v1) by (left; apply exp_increasing; lra). assert (V1 : v1 <= 1) by (rewrite <- exp_0; left; apply exp_increasing; lra).
  set (d1 := 2 * v1 / ((1 + v1) * (1 + v1))) in *. set (d2 := 2 * v2 / ((1 + v2) * (1 + v2))) in *.
  assert (D : d2 <= d1).
  { assert (Q : d1 - d2 = 2 * ((v1 - v2) * (1 - v1 * v2)) * / ((1 + v1) * (1 + v1) * ((1 + v2) * (1 + v2)))) by (unfold d1, d2; field; lra).
    assert (0 <= d1 - d2); [|lra]. rewrite Q. apply Rmult_le_pos; [|left; apply Rinv_0_lt_compat; apply Rmult_lt_0_compat; apply Rmult_lt_0_compat; lra]. assert (v1 * v2 <= 1 * 1) by (apply Rmult_le_compat; lra). apply Rmult_le_pos; [lra|]. apply Rmult_le_pos; lra. }
  assert (Q : d2 * (y - x) <= d1 * (y - x)) by (apply Rmult_le_compat_r; lra). rewrite <- E2 in Q. assert (Q2 : (th y - th x) * x <= d1 * (y - x) * x) by (apply Rmult_le_compat_r; lra). replace (d1 * (y - x) * x) with ((y - x) * (d1 * x)) in Q2 by ring. rewrite <- E1 in Q2. lra.
Qed.
Section Weights.
Variables (F gam : R).
Hypothesis HF : 0 < F.
Hypothesis Hgam : 0 < gam.
Notation kk := (fun h : R => h * F / 2).
Notation aa := (fun h : R => exp (- (gam / 2) * h)).
Lemma aa_sq h : aa h * aa h = exp (- (gam * h)). Proof. cbv beta. rewrite <- exp_plus. f_equal. field. Qed.
Lemma weights_monotone h' h : 0 < h' <= h -> wY (kk h) (aa h) <= wY (kk h') (aa h') /\ wQ (kk h) (aa h) <= wQ (kk h') (aa h').
Proof.
  intros [P L]. destruct L as [L| ->]; [|split; lra]. assert (A : aa h <= aa h') by (left; apply exp_increasing; nra). assert (A0 : 0 < aa h) by apply exp_pos. assert (A1 : aa h' <= 1) by (rewrite <- exp_0; left; apply exp_increasing; nra).
  assert (K0 : 0 < kk h') by (cbv beta; assert (0 < h' * F) by (apply Rmult_lt_0_compat; lra); lra). assert (K1 : kk h' <= kk h) by (cbv beta; assert (h' * F <= h * F) by (apply Rmult_le_compat_r; lra); lra).
  split.
  - unfold wY. apply Rplus_le_compat.
    + assert (Fm : forall g, 0 < g -> (1 - aa g * aa g) / (2 * (kk g * kk g) * (1 + aa g * aa g)) = (th (gam * g) - 1) / g * (2 / (F * F) * / g)).
      { intros g Pg. rewrite aa_sq. unfold th. pose proof (exp_pos (- (gam * g))). field. lra. }
      rewrite !Fm by lra. pose proof (@th_slope (gam * h') (gam * h) ltac:(split; [apply Rmult_lt_0_compat; lra|apply Rmult_lt_compat_l; lra])) as Sl.
      assert (N : forall g, 0 < g -> 0 <= th (gam * g) - 1). { intros g Pg. unfold th. assert (e : exp (- (gam * g)) < 1) by (rewrite <- exp_0; apply exp_increasing; assert (0 < gam * g) by (now apply Rmult_lt_0_compat); lra). pose proof (exp_pos (- (gam * g))). set (u := exp (- (gam * g))) in *. replace (2 / (1 + u) - 1) with ((1 - u) * / (1 + u)) by (field; lra). apply Rmult_le_pos; [lra|left; apply Rinv_0_lt_compat; lra]. }
      apply Rmult_le_compat.
      * apply Rmult_le_pos; [apply N; lra|left; apply Rinv_0_lt_compat; lra].
      * apply Rmult_le_pos; [|left; apply Rinv_0_lt_compat; lra]. left. apply Rdiv_lt_0_compat; [lra|now apply Rmult_lt_0_compat].
      * apply (Rmult_le_reg_r (gam * h * h')); [repeat apply Rmult_lt_0_compat; lra|]. replace ((th (gam * h) - 1) / h * (gam * h * h')) with ((th (gam * h) - 1) * (gam * h')) by (field; lra). replace ((th (gam * h') - 1) / h' * (gam * h * h')) with ((th (gam * h') - 1) * (gam * h)) by (field; lra). exact Sl.
      * apply Rmult_le_compat_l; [left; apply Rdiv_lt_0_compat; [lra|now apply Rmult_lt_0_compat]|apply Rinv_le_contravar; lra].
    + assert (U : aa h * aa h <= aa h' * aa h') by (apply Rmult_le_compat; lra). set (u := aa h * aa h) in *. set (v := aa h' * aa h') in *. assert (Pu : 0 < u) by (now apply Rmult_lt_0_compat).
      replace (u / (1 + u)) with (1 - / (1 + u)) by (field; lra). replace (v / (1 + v)) with (1 - / (1 + v)) by (field; lra). assert (/ (1 + v) <= / (1 + u)) by (apply Rinv_le_contravar; lra). lra.
  - unfold wQ. set (x := aa h) in *. set (y := aa h') in *. replace (x / (kk h * (1 + x * x))) with (x / (1 + x * x) * / kk h) by (field; split; [assert (0 < x * x) by (now apply Rmult_lt_0_compat); lra|cbv beta in K0, K1; split; lra]). replace (y / (kk h' * (1 + y * y))) with (y / (1 + y * y) * / kk h') by (field; split; [assert (0 < y * y) by (apply Rmult_lt_0_compat; lra); lra|cbv beta in K0, K1; split; lra]).
    assert (Px : 0 < x * x) by (now apply Rmult_lt_0_compat). assert (Py : 0 < y * y) by (apply Rmult_lt_0_compat; lra). apply Rmult_le_compat.
    + apply Rmult_le_pos; [lra|left; apply Rinv_0_lt_compat; lra].
    + left. apply Rinv_0_lt_compat. cbv beta in K0, K1. lra.
    + assert (Q : y / (1 + y * y) - x / (1 + x * x) = (y - x) * (1 - x * y) * / ((1 + y * y) * (1 + x * x))) by (field; lra). assert (0 <= y / (1 + y * y) - x / (1 + x * x)); [|lra]. rewrite Q. assert (x * y <= 1 * 1) by (apply Rmult_le_compat; lra).
      apply Rmult_le_pos; [apply Rmult_le_pos; lra|left; apply Rinv_0_lt_compat, Rmult_lt_0_compat; lra].
    + apply Rinv_le_contravar; assumption.
Qed.
Lemma weights_bound h : 0 < h -> wY (kk h) (aa h) <= 2 * gam / (F * F * h) + 1 /\ wQ (kk h) (aa h) <= 2 / (F * h).
Proof.
  intros P. assert (A0 : 0 < aa h) by apply exp_pos. assert (A1 : aa h <= 1) by (rewrite <- exp_0; left; apply exp_increasing; nra). assert (U : 0 < aa h * aa h) by (now apply Rmult_lt_0_compat). assert (FF : 0 < F * F) by (now apply Rmult_lt_0_compat).
  split.
  - unfold wY. apply Rplus_le_compat.
    + assert (e : 1 - aa h * aa h <= gam * h) by (rewrite aa_sq; pose proof (exp_ineq1_le (- (gam * h))); lra). set (u := aa h * aa h) in *.
      replace ((1 - u) / (2 * (kk h * kk h) * (1 + u))) with ((1 - u) * (2 / (F * F * (h * h)) * / (1 + u))) by (field; lra). replace (2 * gam / (F * F * h)) with (gam * h * (2 / (F * F * (h * h)) * / 1)) by (field; lra).
      assert (G : 0 < 2 / (F * F * (h * h))) by (apply Rdiv_lt_0_compat; [lra|apply Rmult_lt_0_compat; [lra|now apply Rmult_lt_0_compat]]).
      assert (u <= 1 * 1) by (unfold u; apply Rmult_le_compat; lra). apply Rmult_le_compat; [lra| |exact e|apply Rmult_le_compat_l; [lra|apply Rinv_le_contravar; lra]]. apply Rmult_le_pos; [lra|left; apply Rinv_0_lt_compat; lra].
    + set (u := aa h * aa h) in *. apply (Rmult_le_reg_r (1 + u)); [lra|]. unfold Rdiv. rewrite Rmult_assoc, Rinv_l by lra. lra.
  - unfold wQ. set (x := aa h) in *. replace (x / (kk h * (1 + x * x))) with (2 / (F * h) * (x * / (1 + x * x))) by (field; lra). rewrite <- (Rmult_1_r (2 / (F * h))) at 2. apply Rmult_le_compat_l; [left; apply Rdiv_lt_0_compat; [lra|now apply Rmult_lt_0_compat]|].
    apply (Rmult_le_reg_r (1 + x * x)); [lra|]. rewrite Rmult_assoc, Rinv_l by lra. lra.
Qed.
End Weights.
