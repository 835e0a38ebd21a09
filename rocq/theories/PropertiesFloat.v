(** C69: sizes computed with floating point arithmetic *)
From Coq Require Import ZArith Reals Lra Lia.
From Flocq Require Import Core.
From Verif Require Import Base FloatSizes FloatSizesSpec FloatSizesProofs.
Local Open Scope Z_scope.

Lemma least_batches_div N b : 0 <= N -> 0 < b -> least_batches N b ((N + b - 1) / b).
Proof.
  intros HN Hb. pose proof (Z.div_mod (N + b - 1) b ltac:(lia)) as E. pose proof (Z.mod_pos_bound (N + b - 1) b Hb) as L.
  set (q := (N + b - 1) / b) in *. repeat split; [apply Z.div_pos; lia|nia|intros m Hm Hc; nia].
Qed.
Lemma complete_batches_div N b : 0 <= N -> 0 < b -> complete_batches N b (N / b).
Proof.
  intros HN Hb. pose proof (Z.div_mod N b ltac:(lia)) as E. pose proof (Z.mod_pos_bound N b Hb) as L.
  set (q := N / b) in *. repeat split; [apply Z.div_pos; lia|nia|intros m Hm Hc; nia].
Qed.
Lemma of_nat_ceil_div n m : (0 < m)%nat -> Z.of_nat (ceil_div n m) = (Z.of_nat n + Z.of_nat m - 1) / Z.of_nat m.
Proof. intros H. unfold ceil_div. rewrite Nat2Z.inj_div, Nat2Z.inj_sub, Nat2Z.inj_add by lia. reflexivity. Qed.
Lemma py_floor N b : 0 <= N < 2 ^ 53 -> 0 < b < 2 ^ 53 -> Zfloor (py_div N b) = N / b.
Proof. intros; apply (rnd_floor 53 (-1074)); lia. Qed.
Lemma py_ceil N b : 0 <= N < 2 ^ 53 -> 0 < b < 2 ^ 53 -> Zceil (py_div N b) = (N + b - 1) / b.
Proof. intros; apply (rnd_ceil 53 (-1074)); lia. Qed.
Lemma round32_int n : 0 <= n <= 2 ^ 24 -> round32 (IZR n) = IZR n.
Proof. intros; apply (rnd_int 24 (-149)); lia. Qed.
Lemma jnp_floor N b : 0 <= N < 2 ^ 24 -> 0 < b < 2 ^ 24 -> progress_period N b = N / b.
Proof. intros HN Hb. unfold progress_period, jnp_div. rewrite !round32_int by lia. apply (rnd_floor 24 (-149)); lia. Qed.

(** A pass over the data (an epoch, a full map) has exactly the least number of batches that holds all observations, although the number is the ceiling of a rounded
    quotient; it is the number [ceil_div] of the models of the loaders. *)
Theorem C69_number_of_batches : forall N b, 0 <= N < 2 ^ 53 -> 0 < b < 2 ^ 53 ->
  least_batches N b (epoch_draws N b) /\ least_batches N b (full_num_iterations N b).
Proof. intros N b HN Hb. unfold epoch_draws, full_num_iterations. rewrite py_ceil by assumption. split; apply least_batches_div; lia. Qed.
Theorem C69_number_of_batches_nat : forall N b : nat, Z.of_nat N < 2 ^ 53 -> (0 < b)%nat -> Z.of_nat b < 2 ^ 53 ->
  epoch_draws (Z.of_nat N) (Z.of_nat b) = Z.of_nat (ceil_div N b) /\ full_num_iterations (Z.of_nat N) (Z.of_nat b) = Z.of_nat (ceil_div N b).
Proof. intros N b HN Hb Hb'. unfold epoch_draws, full_num_iterations. rewrite py_ceil, of_nat_ceil_div by lia. split; reflexivity. Qed.
(** The buffer of the shuffled indices has two batches more than there are complete batches in the data. *)
Theorem C69_shuffle_buffer : forall N b, 0 <= N < 2 ^ 53 -> 0 < b < 2 ^ 53 -> complete_batches N b (shuffle_buffer_draws N b - 2).
Proof. intros N b HN Hb. unfold shuffle_buffer_draws. rewrite py_floor by assumption. replace (N / b + 2 - 2) with (N / b) by lia. apply complete_batches_div; lia. Qed.
Theorem C69_shuffle_buffer_nat : forall N b : nat, Z.of_nat N < 2 ^ 53 -> (0 < b)%nat -> Z.of_nat b < 2 ^ 53 ->
  shuffle_buffer_draws (Z.of_nat N) (Z.of_nat b) = Z.of_nat (N / b + 2)%nat.
Proof. intros N b HN Hb Hb'. unfold shuffle_buffer_draws. rewrite py_floor, Nat2Z.inj_add, Nat2Z.inj_div by lia. reflexivity. Qed.
(** The distance of two messages of the progress bar is the exact quotient for less than 2^24 iterations ... *)
Theorem C69_progress_period_partial : forall iterations steps, 0 <= iterations < 2 ^ 24 -> 0 < steps < 2 ^ 24 ->
  complete_batches iterations steps (progress_period iterations steps).
Proof. intros N b HN Hb. rewrite jnp_floor by assumption. apply complete_batches_div; lia. Qed.
Theorem C69_progress_period_nat_partial : forall iterations steps : nat, Z.of_nat iterations < 2 ^ 24 -> (0 < steps)%nat -> Z.of_nat steps < 2 ^ 24 ->
  progress_period (Z.of_nat iterations) (Z.of_nat steps) = Z.of_nat (iterations / steps)%nat.
Proof. intros N b HN Hb Hb'. rewrite jnp_floor, Nat2Z.inj_div by lia. reflexivity. Qed.

(** ... but not for all int32 numbers: single precision. *)
Lemma round_at (prec emin e n : Z) (x : R) : (0 < prec) -> (emin <= e - prec) -> (bpow radix2 (e - 1) <= x < bpow radix2 e)%R ->
  (Rabs (x * bpow radix2 (- (e - prec)) - IZR n) < / 2)%R ->
  round radix2 (FLT_exp emin prec) ZnearestE x = (IZR n * bpow radix2 (e - prec))%R.
Proof.
  intros Hp He Hx Hn. unfold round, scaled_mantissa, cexp.
  rewrite (mag_unique_pos radix2 x e Hx). unfold FLT_exp. rewrite Z.max_l by lia.
  rewrite (Znearest_imp _ _ n Hn). unfold F2R; cbn. reflexivity.
Qed.
Theorem C69_progress_period_refuted : exists iterations, iterations < 2 ^ 31 /\ ~ complete_batches iterations 20 (progress_period iterations 20).
Proof.
  exists 41943059. split; [reflexivity|].
  assert (E : progress_period 41943059 20 = 2097153).
  { unfold progress_period, jnp_div. rewrite (round32_int 20) by lia.
    assert (E1 : round32 (IZR 41943059) = IZR 41943060).
    { unfold round32. rewrite (round_at 24 (-149) 26 10485765); [|lia|lia| |].
      - change (bpow radix2 (26 - 24)) with (IZR 4). rewrite <- mult_IZR. reflexivity.
      - change (bpow radix2 (26 - 1)) with (IZR 33554432). change (bpow radix2 26) with (IZR 67108864). lra.
      - change (bpow radix2 (- (26 - 24))) with (/ 4)%R. apply Rabs_def1; lra. }
    rewrite E1. replace (IZR 41943060 / IZR 20)%R with (IZR 2097153) by lra. rewrite round32_int by lia. apply Zfloor_IZR. }
  rewrite E. intros (_ & H & _). lia.
Qed.
Theorem C69_huge_data_refuted : exists N b, 0 < b /\ 0 <= N /\ ~ least_batches N b (full_num_iterations N b).
Proof.
  exists (2 ^ 54 + 1), 1. split; [lia|split; [lia|]].
  assert (E : full_num_iterations (2 ^ 54 + 1) 1 = 2 ^ 54).
  { unfold full_num_iterations, py_div, round64. replace (IZR (2 ^ 54 + 1) / 1)%R with (IZR 18014398509481985) by (cbn [Z.pow Z.pow_pos Pos.iter Z.mul Z.add Pos.mul Pos.add]; lra).
    rewrite (round_at 53 (-1074) 55 4503599627370496); [|lia|lia| |].
    - change (bpow radix2 (55 - 53)) with (IZR 4). rewrite <- mult_IZR. apply Zceil_IZR.
    - change (bpow radix2 (55 - 1)) with (IZR 18014398509481984). change (bpow radix2 55) with (IZR 36028797018963968). lra.
    - change (bpow radix2 (- (55 - 53))) with (/ 4)%R. apply Rabs_def1; lra. }
  rewrite E. intros (_ & H & _). lia.
Qed.

(** the hypotheses are met, with quotients that are not exact *)
Example C69_nonvacuous : epoch_draws 60001 7 = 8572 /\ full_num_iterations 10 3 = 4 /\ shuffle_buffer_draws 10 3 = 5 /\ progress_period 1999 20 = 99.
Proof.
  unfold epoch_draws, full_num_iterations, shuffle_buffer_draws. rewrite !py_ceil, py_floor, jnp_floor by lia. repeat split; reflexivity.
Qed.

Print Assumptions C69_number_of_batches. Print Assumptions C69_number_of_batches_nat. Print Assumptions C69_shuffle_buffer.
Print Assumptions C69_shuffle_buffer_nat. Print Assumptions C69_progress_period_partial. Print Assumptions C69_progress_period_nat_partial. Print Assumptions C69_progress_period_refuted. Print Assumptions C69_huge_data_refuted.
