(** C83: how the step sizes of a run add up: the conditions of Robbins and Monro for the step size schedules. *)
From Coq Require Import Reals Lra ZArith.
From Verif Require Import Base ListUtil TreeUtil TreeUtilSpec TreeUtilProofs Xreal Scheduler SchedulerSpec SchedulerProofs StepSizeProofs PropertiesScheduler PropertiesThinning GaussianLimit.
Open Scope R_scope.
Set Implicit Arguments.

(** ** Specification *)
(** T is the sum of the p-th powers of all step sizes of a run with so many iterations *)
Definition total {X} (ss : specific xr X) (p iterations : nat) (T : R) : Prop := exists eps, step_sizes ss iterations eps /\ T = sum_upto iterations (fun i => eps i ^ p).
(** longer and longer runs exceed every bound *)
Definition total_diverges {X} (ss : specific xr X) (p : nat) : Prop := forall M, exists N, forall iterations T, (N <= iterations)%nat -> total ss p iterations T -> M <= T.
(** one bound holds for the runs of every length *)
Definition total_bounded {X} (ss : specific xr X) (p : nat) : Prop := exists M, forall iterations T, total ss p iterations T -> T <= M.
(** every run has step sizes *)
Definition has_total {X} (ss : specific xr X) (p : nat) : Prop := forall iterations, exists T, total ss p iterations T.

(** ** Proofs *)
Lemma sum_constant m c : sum_upto m (fun _ => c) = INR m * c.
Proof. induction m as [|m IH]; [unfold sum_upto; cbn; ring|]. rewrite sum_upto_S, IH, S_INR. ring. Qed.
Lemma total_unique X (ss : specific xr X) its e1 e2 : step_sizes ss its e1 -> step_sizes ss its e2 -> forall i, (i < its)%nat -> e1 i = e2 i.
Proof.
  intros (s1 & I1 & H1) (s2 & I2 & H2) i Hi. rewrite I1 in I2. injection I2 as <-. specialize (H1 i Hi). specialize (H2 i Hi). rewrite H1 in H2. injection H2. auto.
Qed.
Lemma poly_steps its a b g : 0 < a -> 0 < b -> 0 <= g -> step_sizes (polynomial_step_size (Fin a) (Fin b) (Fin g)) its (fun i => a * Rpower (b + INR i) (- g)).
Proof.
  intros Ha Hb Hg. exists (map (fun i => Fin (poly_value a b g i)) (seq 0 its), tt). split.
  - cbn [polynomial_step_size sp_init sp_nokw kwarg]. rewrite poly_init_ok by auto. reflexivity.
  - intros i Hi. rewrite evolve_static by reflexivity. cbn [polynomial_step_size sp_get fst]. apply (clamp_get_map (fun i => Fin (poly_value a b g i))). exact Hi.
Qed.
Lemma power_term a x g p : 0 < x -> (a * Rpower x (- g)) ^ p = a ^ p * Rpower x (- (INR p * g)).
Proof.
  intros Hx. rewrite Rpow_mult_distr. f_equal. rewrite <- Rpower_pow by apply exp_pos. rewrite Rpower_mult. f_equal. ring.
Qed.
Lemma poly_total p its a b g T : 0 < a -> 0 < b -> 0 <= g -> total (polynomial_step_size (Fin a) (Fin b) (Fin g)) p its T ->
  T = sum_upto its (fun i => a ^ p * Rpower (b + INR i) (- (INR p * g))).
Proof.
  intros Ha Hb Hg (e & He & ->). apply sum_upto_ext. intros i Hi. rewrite (total_unique He (@poly_steps its a b g Ha Hb Hg) Hi).
  apply power_term. pose proof (pos_INR i). lra.
Qed.
Lemma poly_has p a b g : 0 < a -> 0 < b -> 0 <= g -> has_total (polynomial_step_size (Fin a) (Fin b) (Fin g)) p.
Proof. intros Ha Hb Hg its. eexists. exists (fun i => a * Rpower (b + INR i) (- g)). split; [apply poly_steps; auto|reflexivity]. Qed.

Lemma integral_bound x h : 0 < x -> 0 < h -> h * Rpower (x + 1) (- (h + 1)) <= Rpower x (- h) - Rpower (x + 1) (- h).
Proof.
  intros Hx Hh. set (y := x + 1). assert (Py : 0 < y) by (unfold y; lra).
  assert (L : / y <= ln y - ln x).
  { assert (Q : 0 < x / y) by (apply Rdiv_lt_0_compat; auto). assert (E : ln x = ln y + ln (x / y)). { unfold Rdiv. rewrite <- ln_mult; auto. f_equal. field. lra. }
    pose proof (exp_ineq1_le (ln (x / y))) as H. rewrite exp_ln in H by auto. assert (x / y = 1 - / y) by (unfold y; field; lra). lra. }
  assert (E : Rpower x (- h) = Rpower y (- h) * exp (h * (ln y - ln x))). { unfold Rpower. rewrite <- exp_plus. f_equal. ring. }
  assert (F : Rpower y (- (h + 1)) = Rpower y (- h) * / y). { replace (- (h + 1)) with (- h + - (1)) by ring. rewrite Rpower_plus. f_equal. rewrite (Rpower_Ropp y 1), Rpower_1 by auto. reflexivity. }
  rewrite E, F. pose proof (exp_ineq1_le (h * (ln y - ln x))) as H. assert (P : 0 < Rpower y (- h)) by apply exp_pos.
  assert (h * / y <= h * (ln y - ln x)) by (apply Rmult_le_compat_l; lra).
  assert (Rpower y (- h) * (1 + h * / y) <= Rpower y (- h) * exp (h * (ln y - ln x))) by (apply Rmult_le_compat_l; lra). lra.
Qed.
Lemma sum_bounded A b q : 0 < A -> 0 < b -> 1 < q -> forall n, sum_upto n (fun i => A * Rpower (b + INR i) (- q)) <= A * (Rpower b (- q) + Rpower b (- (q - 1)) / (q - 1)).
Proof.
  intros HA Hb Hq n.
  assert (G : forall n, (q - 1) * sum_upto (S n) (fun i => Rpower (b + INR i) (- q)) <= (q - 1) * Rpower b (- q) + Rpower b (- (q - 1)) - Rpower (b + INR n) (- (q - 1))).
  { intros m. induction m as [|m IH].
    - rewrite sum_upto_S. change (sum_upto 0 _) with 0. cbn [INR]. rewrite !Rplus_0_r. lra.
    - rewrite sum_upto_S, Rmult_plus_distr_l. assert (Pm : 0 < b + INR m) by (pose proof (pos_INR m); lra). pose proof (@integral_bound (b + INR m) (q - 1) Pm ltac:(lra)) as H.
      rewrite S_INR. replace (b + (INR m + 1)) with (b + INR m + 1) by ring. replace (- (q - 1 + 1)) with (- q) in H by ring. lra. }
  rewrite sum_upto_scale. apply Rmult_le_compat_l; [lra|]. apply Rmult_le_reg_l with (q - 1); [lra|].
  replace ((q - 1) * (Rpower b (- q) + Rpower b (- (q - 1)) / (q - 1))) with ((q - 1) * Rpower b (- q) + Rpower b (- (q - 1))) by (field; lra).
  assert (P : forall x z, 0 < Rpower x z) by (intros; apply exp_pos). destruct n as [|n].
  - change (sum_upto 0 _) with 0. pose proof (P b (- q)). pose proof (P b (- (q - 1))). nra.
  - eapply Rle_trans; [apply G|]. pose proof (P (b + INR n) (- (q - 1))). lra.
Qed.
Lemma sum_divergent A b q : 0 < A -> 0 < b -> 0 <= q <= 1 -> forall M, exists N, forall n, (N <= n)%nat -> M <= sum_upto n (fun i => A * Rpower (b + INR i) (- q)).
Proof.
  intros HA Hb Hq. destruct (Req_dec q 0) as [-> |Hz].
  - intros M. destruct (INR_unbounded (M / A)) as [N HN]. exists N. intros n Hn. rewrite (@sum_upto_ext n _ (fun _ => A)).
    + rewrite sum_constant. apply le_INR in Hn. assert (M / A <= INR n) by lra. apply (Rmult_le_compat_r A) in H; [|lra]. replace (M / A * A) with M in H by (field; lra). exact H.
    + intros i _. rewrite Ropp_0, Rpower_O by (pose proof (pos_INR i); lra). ring.
  - apply (@poly_divergent A b q); lra.
Qed.

(** ** Theorems *)
(** the total of the p-th powers is bounded exactly if p * gamma > 1; p = 1: the chain can reach every distance only if gamma <= 1; p = 2: the variance of the injected gradient noise is
    summable only if gamma > 1/2 *)
Theorem C83_polynomial : forall p a b g, (0 < p)%nat -> 0 < a -> 0 < b -> 0 <= g -> let ss := polynomial_step_size (Fin a) (Fin b) (Fin g) in
  has_total ss p /\ (INR p * g <= 1 -> total_diverges ss p) /\ (1 < INR p * g -> total_bounded ss p).
Proof.
  intros p a b g Hp Ha Hb Hg ss. assert (PA : 0 < a ^ p) by (apply pow_lt; auto). assert (Pq : 0 <= INR p * g) by (apply Rmult_le_pos; [apply pos_INR|auto]). split; [apply poly_has; auto|]. split.
  - intros Hq M. destruct (@sum_divergent (a ^ p) b (INR p * g) PA Hb ltac:(lra) M) as [N HN]. exists N. intros its T Hn HT. rewrite (poly_total Ha Hb Hg HT). auto.
  - intros Hq. eexists. intros its T HT. rewrite (poly_total Ha Hb Hg HT). apply sum_bounded; auto.
Qed.
(** Robbins and Monro: the step sizes add up to infinity and their squares do not *)
Definition robbins_monro {X} (ss : specific xr X) : Prop := total_diverges ss 1 /\ total_bounded ss 2.
Lemma not_both X (ss : specific xr X) p : has_total ss p -> total_diverges ss p -> total_bounded ss p -> False.
Proof.
  intros H D [M B]. destruct (D (M + 1)) as [N HN]. destruct (H N) as [T HT]. specialize (HN N T (le_n _) HT). specialize (B N T HT). lra.
Qed.
Theorem C83_robbins_monro : forall a b g, 0 < a -> 0 < b -> 0 <= g -> (robbins_monro (polynomial_step_size (Fin a) (Fin b) (Fin g)) <-> 1 / 2 < g <= 1).
Proof.
  intros a b g Ha Hb Hg. destruct (@C83_polynomial 1 a b g ltac:(lia) Ha Hb Hg) as (T1 & D1 & B1). destruct (@C83_polynomial 2 a b g ltac:(lia) Ha Hb Hg) as (T2 & D2 & B2).
  cbn [INR] in D1, B1, D2, B2. split.
  - intros [R1 R2]. split.
    + destruct (Rlt_le_dec (1 / 2) g) as [|H]; [auto|]. exfalso. apply (not_both T2); auto. apply D2. lra.
    + destruct (Rle_lt_dec g 1) as [|H]; [auto|]. exfalso. apply (not_both T1); auto. apply B1. lra.
  - intros H. split; [apply D1; lra|apply B2; lra].
Qed.
(** gamma = 0.33, the default of polynomial_step_size, and gamma = 0, the default schedule of init_scheduler, are not of this kind: the squares of the step sizes add up to infinity *)
Theorem C83_defaults_refuted : ~ robbins_monro (polynomial_step_size (Fin 1) (Fin 1) (Fin 0.33)) /\ ~ robbins_monro default_step.
Proof. split; unfold default_step; rewrite C83_robbins_monro by lra; lra. Qed.
(** polynomial_step_size_first_last: the totals grow like the number of iterations, for every gamma *)
Theorem C83_first_last : forall f l g p its, 0 < g -> 0 < l < f -> (2 <= its)%nat -> let ss := polynomial_step_size_first_last (Fin f) (Fin l) (Fin g) in
  (exists T, total ss p its T) /\ forall T, total ss p its T -> INR its * l ^ p <= T <= INR its * f ^ p.
Proof.
  intros f l g p its Hg Hl Hi ss. destruct (@C29_first_last_partial its g f l Hg Hl Hi) as (v & V1 & V2 & V3 & V4 & V5).
  assert (Hs : step_sizes ss its v).
  { exists (map (fun i => Fin (v i)) (seq 0 its), tt). split.
    - cbn [ss polynomial_step_size_first_last sp_init sp_nokw kwarg]. rewrite V1. reflexivity.
    - intros i Hit. unfold ss. rewrite evolve_static by reflexivity. cbn [polynomial_step_size_first_last sp_get fst]. apply (clamp_get_map (fun i => Fin (v i))). exact Hit. }
  split; [eexists; exists v; split; [exact Hs|reflexivity]|]. intros T (e & He & ->). rewrite <- !sum_constant.
  assert (Rg : forall i, (i < its)%nat -> l <= e i <= f).
  { intros i Hit. rewrite (total_unique He Hs Hit). split.
    - destruct (Nat.eq_dec i (its - 1)) as [-> |Hn]; [lra|]. specialize (V5 i (its - 1)%nat ltac:(lia)). lra.
    - destruct (Nat.eq_dec i 0) as [-> |Hn]; [lra|]. specialize (V5 0%nat i ltac:(lia)). lra. }
  split; apply sum_le; intros i Hit; apply pow_incr; specialize (Rg i Hit); lra.
Qed.
(** for every gamma the squares of the step sizes of polynomial_step_size_first_last (the schedule of the aliases) add up to infinity *)
Theorem C83_first_last_refuted : forall f l g, 0 < g -> 0 < l < f -> let ss := polynomial_step_size_first_last (Fin f) (Fin l) (Fin g) in
  total_diverges ss 1 /\ total_diverges ss 2 /\ ~ robbins_monro ss.
Proof.
  intros f l g Hg Hl ss.
  assert (D : forall p, total_diverges ss p).
  { intros p M. assert (P : 0 < l ^ p) by (apply pow_lt; lra). destruct (INR_unbounded (M / l ^ p)) as [N HN]. exists (Nat.max 2 N). intros its T Hn HT.
    destruct (@C83_first_last f l g p its Hg Hl ltac:(lia)) as [_ H]. specialize (H T HT). destruct H as [H _]. eapply Rle_trans; [|exact H].
    assert (H' : M / l ^ p <= INR its) by (assert (INR N <= INR its) by (apply le_INR; lia); lra). apply (Rmult_le_compat_r (l ^ p)) in H'; [|lra]. replace (M / l ^ p * l ^ p) with M in H' by (field; lra). exact H'. }
  split; [apply D|]. split; [apply D|]. intros [_ [M B]]. destruct (D 2%nat (M + 1)) as [N HN]. set (its := Nat.max 2 N).
  destruct (@C83_first_last f l g 2 its Hg Hl ltac:(lia)) as [[T HT] _]. specialize (HN its T ltac:(lia) HT). specialize (B its T HT). lra.
Qed.
(** nor is a schedule that keeps one step size *)
Theorem C83_constant_refuted : forall X (ss : specific xr X) c, 0 < c -> (forall its, step_sizes ss its (fun _ => c)) -> total_diverges ss 1 /\ ~ robbins_monro ss.
Proof.
  intros X ss c Hc Hs.
  assert (U : forall p its T, total ss p its T -> T = INR its * c ^ p).
  { intros p its T (e & He & ->). rewrite <- sum_constant. apply sum_upto_ext. intros i Hi. rewrite (total_unique He (Hs its) Hi). reflexivity. }
  assert (D : forall p, total_diverges ss p).
  { intros p M. assert (P : 0 < c ^ p) by (apply pow_lt; lra). destruct (INR_unbounded (M / c ^ p)) as [N HN]. exists N. intros its T Hn HT. rewrite (U _ _ _ HT).
    assert (H' : M / c ^ p <= INR its) by (assert (INR N <= INR its) by (apply le_INR; lia); lra). apply (Rmult_le_compat_r (c ^ p)) in H'; [|lra]. replace (M / c ^ p * c ^ p) with M in H' by (field; lra). exact H'. }
  split; [apply D|]. intros [_ B]. apply (@not_both X ss 2); auto. intros its. eexists. exists (fun _ => c). split; [apply Hs|reflexivity].
Qed.
Example C83_nonvacuous : robbins_monro (polynomial_step_size (Fin 0.1) (Fin 1) (Fin 0.55)) /\
  (exists c, 0 < c /\ forall its, step_sizes default_step its (fun _ => c)) /\
  (exists T, total (polynomial_step_size_first_last (Fin 0.05) (Fin 0.001) (Fin 0.33)) 2 10 T /\ 10 * 0.001 ^ 2 <= T <= 10 * 0.05 ^ 2).
Proof.
  split; [apply C83_robbins_monro; lra|]. split.
  - exists 1. split; [lra|]. intros its. destruct (@poly_steps its 1 1 0 ltac:(lra) ltac:(lra) ltac:(lra)) as (s & I & H). exists s. split; [exact I|]. intros i Hi. unfold default_step. rewrite (H i Hi). f_equal.
    rewrite Ropp_0, Rpower_O by (pose proof (pos_INR i); lra). ring.
  - destruct (@C83_first_last 0.05 0.001 0.33 2 10 ltac:(lra) ltac:(lra) ltac:(lia)) as [[T HT] H]. exists T. split; [exact HT|]. specialize (H T HT). cbn [INR] in H. lra.
Qed.
Print Assumptions C83_polynomial. Print Assumptions C83_robbins_monro. Print Assumptions C83_defaults_refuted. Print Assumptions C83_first_last. Print Assumptions C83_first_last_refuted. Print Assumptions C83_constant_refuted. Print Assumptions C83_nonvacuous.
