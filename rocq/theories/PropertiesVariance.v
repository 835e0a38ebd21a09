(** C80: the variance which re_sgld uses to correct its exchange rate.
    langevin_diffusion records jnp.var of the log likelihoods of the current batch (integrator.py:880, [C37_langevin_step]: the field l_var); parallel_tempering takes the running mean of
    this number for the variance of the stochastic potential (solver.py:275-281, [C67]).  Here: both numbers, computed over all equally likely batches. *)
From Coq Require Import String Reals Lra Permutation.
From Verif Require Import Base ListUtil Pytree Io TreeUtil TreeUtilSpec TreeUtilProofs Integrator IntegratorSpec NumpyLoader LoaderSpec NumpyLoaderProofs DataCore DataSpec Potential PotentialSpec PotentialProofs UnbiasedProofs VarianceProofs PropertiesPotential.
Open Scope R_scope.
Set Implicit Arguments.

(** ** Specification.  Each result r belongs to one batch: the value of the stochastic potential and the log likelihoods of the batch, whose variance is recorded. *)
Definition outcomes {obs Sample State} (pot : nat -> Sample -> mbatch obs -> option State -> option (list bool) -> res (R * list R * option State))
    (N : nat) (x : Sample) (state : option State) (bs : list (mbatch obs)) (rs : list (R * list R)) : Prop :=
  Forall2 (fun b r => exists new, pot N x b state None = Ok (fst r, snd r, new)) bs rs.
(** variance of the stochastic potential over equally likely batches, and the expected value of the recorded variance *)
Definition potential_variance (rs : list (R * list R)) : R := population_variance (map fst rs).
Definition recorded_mean (rs : list (R * list R)) : R := average (map (fun r => population_variance (snd r)) rs).

Lemma sum_nth_map A (g : A -> R) (d : A) l : sum_upto (length l) (fun j => g (nth j l d)) = rsum (map g l).
Proof.
  induction l as [|a l IH]; [reflexivity|]. cbn [length map]. rewrite sum_upto_shift, rsum_cons, <- IH. reflexivity.
Qed.

Section Abstract.
Variables (N mb : nat) (f h : nat -> R) (c T : R).
Hypothesis HN0 : (0 < N)%nat.
Hypothesis Hmb : (0 < mb)%nat.
Hypothesis Hh : forall j, h j = f j - sum_upto N f / INR N.
Let mu := sum_upto N f / INR N.
Let sigma2 := population_variance (map f (seq 0 N)).
Let value (t : list nat) : R := (- INR N * (sum_upto mb (fun j => f (nth j t 0%nat)) / INR mb) - c) / T.
Let logs (t : list nat) : list R := map (fun j => f (nth j t 0%nat)) (seq 0 mb).
Lemma sum_h : sum_upto N h = 0.
Proof using HN0 Hh.
  rewrite (@sum_upto_ext N h (fun j => f j + - mu)) by (intros; rewrite Hh; unfold mu; ring). rewrite sum_upto_plus, sum_const. unfold mu. field. exact (not_0_INR _ (Nat.neq_sym _ _ (Nat.lt_neq _ _ HN0))).
Qed.
Lemma sigma2_h : sigma2 = sum_upto N (fun j => (h j)^2) / INR N.
Proof using HN0 Hh.
  unfold sigma2, population_variance. cbv zeta. rewrite map_length, seq_length.
  assert (E : forall j, (j < N)%nat -> nth j (map f (seq 0 N)) 0 = f j).
  { intros j Hj. rewrite (@nth_indep _ _ j 0 (f 0%nat)) by (rewrite map_length, seq_length; auto). rewrite (map_nth f), seq_nth; auto. }
  rewrite (@sum_upto_ext N (fun i => nth i (map f (seq 0 N)) 0) f) by auto. f_equal. apply sum_upto_ext. intros j Hj. now rewrite E, Hh.
Qed.
Variables (L : list (list nat)) (B : R).
Hypothesis HL : L <> [].
Hypothesis H1 : forall j, (j < mb)%nat -> rsum (map (fun t => h (nth j t 0%nat)) L) = 0.
Hypothesis H2 : forall j, (j < mb)%nat -> rsum (map (fun t => (h (nth j t 0%nat))^2) L) = INR (length L) * sigma2.
Hypothesis H3 : forall i j, (i < mb)%nat -> (j < mb)%nat -> i <> j -> rsum (map (fun t => h (nth i t 0%nat) * h (nth j t 0%nat)) L) = INR (length L) * B.
Let full := (- INR N * mu - c) / T.
Lemma value_h t : value t - full = (- INR N / INR mb / T) * sum_upto mb (fun j => h (nth j t 0%nat)).
Proof using All.
  rewrite (@sum_upto_ext mb (fun j => h (nth j t 0%nat)) (fun j => f (nth j t 0%nat) + - mu)) by (intros; rewrite Hh; unfold mu; ring). rewrite sum_upto_plus, sum_const.
  assert (INR mb <> 0) by (apply not_0_INR; lia). assert (INR N <> 0) by (apply not_0_INR; lia). unfold value, full, Rdiv. generalize (/ T). intros. field. auto.
Qed.
Lemma family_potential : potential_variance (map (fun t => (value t, logs t)) L) = INR N ^ 2 / (INR mb ^ 2) * (/ T) ^ 2 * (INR mb * sigma2 + INR mb * (INR mb - 1) * B).
Proof using All.
  unfold potential_variance. rewrite map_map. cbn [fst].
  assert (HLn : INR (length L) <> 0) by (apply not_0_INR; destruct L; [congruence|discriminate]).
  rewrite (@variance_about _ full) by (destruct L; [congruence|discriminate]).
  rewrite (sum_nth_map (fun v => (v - full)^2)), (sum_nth_map (fun v => v - full)), !map_map, map_length.
  rewrite (map_ext (fun t => (value t - full)^2) (fun t => (- INR N / INR mb / T)^2 * (sum_upto mb (fun j => h (nth j t 0%nat)))^2)) by (intros t; rewrite value_h; ring).
  rewrite (map_ext (fun t => value t - full) (fun t => (- INR N / INR mb / T) * sum_upto mb (fun j => h (nth j t 0%nat)))) by (intros t; apply value_h).
  rewrite !rsum_map_scale. rewrite (@pair_square L mb h sigma2 B H2 H3). rewrite (rsum_sum_swap L mb (fun t j => h (nth j t 0%nat))).
  rewrite (@sum_upto_zero mb (fun j => rsum (map (fun t => h (nth j t 0%nat)) L))) by auto.
  assert (INR mb <> 0) by (apply not_0_INR; lia). unfold Rdiv. generalize (/ T). intros. field. auto.
Qed.
Lemma family_recorded : recorded_mean (map (fun t => (value t, logs t)) L) = (1 - 1 / INR mb) * (sigma2 - B).
Proof using All.
  unfold recorded_mean, average. rewrite !map_map, map_length. cbn [snd].
  assert (HLn : INR (length L) <> 0) by (apply not_0_INR; destruct L; [congruence|discriminate]). assert (Hm : INR mb <> 0) by (apply not_0_INR; lia).
  rewrite (map_ext (fun t => population_variance (logs t)) (fun t => / INR mb * sum_upto mb (fun j => (h (nth j t 0%nat))^2) + (- / INR mb ^ 2) * (sum_upto mb (fun j => h (nth j t 0%nat)))^2)).
  - rewrite (rsum_map_plus (fun t => / INR mb * sum_upto mb (fun j => (h (nth j t 0%nat))^2))), !rsum_map_scale, (@pair_square L mb h sigma2 B H2 H3), (@pair_squares L mb h sigma2 H2). field. auto.
  - intros t. rewrite (@variance_about _ mu) by (unfold logs; destruct mb; [lia|discriminate]). unfold logs. rewrite map_length, seq_length.
    assert (E : forall j, (j < mb)%nat -> nth j (map (fun j => f (nth j t 0%nat)) (seq 0 mb)) 0 - mu = h (nth j t 0%nat)).
    { intros j Hj. rewrite (@nth_indep _ _ j 0 ((fun j => f (nth j t 0%nat)) 0%nat)) by (rewrite map_length, seq_length; auto). rewrite (map_nth (fun j => f (nth j t 0%nat))), seq_nth; auto. }
    rewrite (@sum_upto_ext mb (fun j => (nth j (map (fun j => f (nth j t 0%nat)) (seq 0 mb)) 0 - mu)^2) (fun j => (h (nth j t 0%nat))^2)) by (intros j Hj; rewrite E; auto).
    rewrite (@sum_upto_ext mb (fun j => nth j (map (fun j => f (nth j t 0%nat)) (seq 0 mb)) 0 - mu) (fun j => h (nth j t 0%nat))) by (intros j Hj; rewrite E; auto). field. auto.
Qed.
End Abstract.

Section Variance.
Context {obs Sample State : Type}.
Variables (prior : Sample -> R) (likelihood : lik_fn obs Sample State) (l : Sample -> orow obs -> R) (has_state : bool) (T : R).
Hypothesis Hl : evaluates likelihood l.
Variables (data : list (string * list obs)) (N mb : nat).
Hypothesis Hd : data <> [].
Hypothesis HN : forall ka, In ka data -> length (snd ka) = N.
Hypothesis HN0 : (0 < N)%nat.
Hypothesis Hmb : (0 < mb)%nat.
Hypothesis Hb1 : is_batched likelihood = true -> mb <> 1%nat.
Variables (x : Sample) (state : option State) (strategy : pot_strategy) (pot : nat -> Sample -> mbatch obs -> option State -> option (list bool) -> res (R * list R * option State)).
Hypothesis Hf : state_fits likelihood has_state state.
Hypothesis Hpot : minibatch_potential prior likelihood has_state T strategy = Ok pot.
(** the variance of the log likelihoods of all observations *)
Notation sigma2 := (population_variance (map (fun j => l x (row data j)) (seq 0 N))).
Notation f := (fun j => l x (row data j)).
Notation mu := (sum_upto N f / INR N).
Notation value t := ((- INR N * (sum_upto mb (fun j => f (nth j t 0%nat)) / INR mb) - prior x) / T).
Notation logs t := (map (fun j => f (nth j t 0%nat)) (seq 0 mb)).

Lemma outcomes_of L : (forall t, In t L -> length t = mb /\ Forall (fun i => (i < N)%nat) t) ->
  outcomes pot N x state (map (batch_at data) L) (map (fun t => (value t, logs t)) L).
Proof using All.
  unfold outcomes. induction L as [|t L IH]; intros H; cbn [map]; constructor; [|apply IH; intros; apply H; cbn; auto].
  destruct (H t (or_introl eq_refl)) as (H1 & H2). clear IH H. cbn [fst snd].
  destruct (@batch_at_of obs data N Hd HN t (repeat true (length t)) H2 (repeat_length _ _)) as [B1 B2]. rewrite H1 in *.
  destruct (@C41_minibatch_value _ _ _ prior likelihood l has_state T strategy pot Hl Hpot N x _ _ state Hf B1 Hmb Hb1) as (new & E). exists new.
  unfold batch_at. rewrite H1, E. cbn [fst] in B2 |- *.
  rewrite (@sum_upto_ext mb (fun j => l x (row (map (fun ka => (fst ka, select (snd ka) t)) data) j)) (fun j => f (nth j t 0%nat))) by (intros j Hj; rewrite B2; auto).
  rewrite (map_ext_in (fun j => l x (row (map (fun ka => (fst ka, select (snd ka) t)) data) j)) (fun j => f (nth j t 0%nat))) by (intros j Hj; apply in_seq in Hj; rewrite B2; auto; lia). reflexivity.
Qed.

(** drawing with replacement (shuffle = False, and every DeviceDataLoader) *)
Theorem C80_with_replacement :
  exists rs, outcomes pot N x state (map (batch_at data) (tuples mb N)) rs /\
    potential_variance rs = INR N ^ 2 / INR mb * (/ T) ^ 2 * sigma2 /\
    recorded_mean rs = (1 - 1 / INR mb) * sigma2.
Proof.
  set (h := fun j => f j - mu). assert (Hh : forall j, h j = f j - mu) by reflexivity. assert (S0 := @sum_h N f h HN0 Hh). assert (S2 := @sigma2_h N f h HN0 Hh). clearbody h.
  assert (HL : tuples mb N <> []) by (intros E; apply (f_equal (@length _)) in E; rewrite length_tuples in E; cbn [length] in E; apply Nat.pow_eq_0_iff in E; lia).
  assert (A1 : forall j, (j < mb)%nat -> rsum (map (fun t => h (nth j t 0%nat)) (tuples mb N)) = 0) by (intros j Hj; apply (@tuples_single0 h N mb j HN0 S0 Hj)).
  assert (A2 : forall j, (j < mb)%nat -> rsum (map (fun t => (h (nth j t 0%nat))^2) (tuples mb N)) = INR (length (tuples mb N)) * sigma2).
  { intros j Hj. assert (E := @tuples_single (fun i => (h i)^2) N mb j Hj). cbv beta in E. assert (INR N <> 0) by (apply not_0_INR; lia).
    rewrite S2. apply (Rmult_eq_reg_l (INR N)); auto. rewrite E. field. auto. }
  assert (A3 : forall i j, (i < mb)%nat -> (j < mb)%nat -> i <> j -> rsum (map (fun t => h (nth i t 0%nat) * h (nth j t 0%nat)) (tuples mb N)) = INR (length (tuples mb N)) * 0).
  { intros i j Hi Hj Hne. rewrite Rmult_0_r. apply (@tuples_pair0 h N mb i j HN0 S0 Hi Hj Hne). }
  exists (map (fun t => (value t, logs t)) (tuples mb N)). split; [apply outcomes_of; intros t Ht; apply tuples_spec in Ht; auto|].
  rewrite (@family_potential N mb f h (prior x) T HN0 Hmb Hh _ 0 HL A1 A2 A3), (@family_recorded N mb f h (prior x) T HN0 Hmb Hh _ 0 HL A1 A2 A3). assert (INR mb <> 0) by (apply not_0_INR; lia). split; [unfold Rdiv; generalize (/ T); intros; field; auto|ring].
Qed.
(** drawing in a random order (in_epochs or shuffle = True): the average over all orders of the data, for every position of the batch *)
Theorem C80_random_order :
  forall ps base, NoDup ps -> (forall p, In p ps <-> Permutation p (seq 0 N)) -> (base + mb <= N)%nat -> (2 <= N)%nat ->
  exists rs, outcomes pot N x state (map (fun p => batch_at data (firstn mb (skipn base p))) ps) rs /\
    potential_variance rs = INR N ^ 2 / INR mb * (/ T) ^ 2 * sigma2 * ((INR N - INR mb) / (INR N - 1)) /\
    recorded_mean rs = (1 - 1 / INR mb) * sigma2 * (INR N / (INR N - 1)).
Proof.
  intros ps base Hnd Hall Hbase HN2.
  set (h := fun j => f j - mu). assert (Hh : forall j, h j = f j - mu) by reflexivity. assert (S0 := @sum_h N f h HN0 Hh). assert (S2 := @sigma2_h N f h HN0 Hh). clearbody h.
  set (L := map (fun p => firstn mb (skipn base p)) ps).
  assert (Hps : forall p, In p ps -> length p = N) by (intros; eapply perm_length; eauto).
  assert (HNm : INR N - 1 <> 0) by (apply le_INR in HN2; cbn in HN2; lra).
  assert (HNn : INR N <> 0) by (apply not_0_INR; lia).
  assert (HL : L <> []). { unfold L. intros E. apply map_eq_nil in E. assert (X : In (seq 0 N) ps) by (apply Hall; reflexivity). rewrite E in X. destruct X. }
  assert (HLl : length L = length ps) by (unfold L; apply map_length).
  assert (Hnth : forall p j, (j < mb)%nat -> nth j (firstn mb (skipn base p)) 0%nat = nth (base + j) p 0%nat) by (intros; rewrite nth_firstn_lt, nth_skipn_add; auto).
  assert (A1 : forall j, (j < mb)%nat -> rsum (map (fun t => h (nth j t 0%nat)) L) = 0).
  { intros j Hj. unfold L. rewrite map_map. rewrite (map_ext (fun p => h (nth j (firstn mb (skipn base p)) 0%nat)) (fun p => h (nth (base + j) p 0%nat))) by (intros; rewrite Hnth; auto).
    assert (E := @position_uniform N ps Hnd Hall h (base + j) ltac:(lia)). rewrite S0, Rmult_0_r in E. apply Rmult_integral in E. tauto. }
  assert (A2' : forall k, (k < N)%nat -> rsum (map (fun p => (h (nth k p 0%nat))^2) ps) = INR (length ps) * sigma2).
  { intros k Hk. assert (E := @position_uniform N ps Hnd Hall (fun i => (h i)^2) k Hk). cbv beta in E. rewrite S2. apply (Rmult_eq_reg_l (INR N)); auto. rewrite E. field. auto. }
  assert (A2 : forall j, (j < mb)%nat -> rsum (map (fun t => (h (nth j t 0%nat))^2) L) = INR (length L) * sigma2).
  { intros j Hj. rewrite HLl. unfold L. rewrite map_map. rewrite (map_ext (fun p => (h (nth j (firstn mb (skipn base p)) 0%nat))^2) (fun p => (h (nth (base + j) p 0%nat))^2)) by (intros; rewrite Hnth; auto).
    apply A2'. lia. }
  assert (A3 : forall i j, (i < mb)%nat -> (j < mb)%nat -> i <> j -> rsum (map (fun t => h (nth i t 0%nat) * h (nth j t 0%nat)) L) = INR (length L) * (- sigma2 / (INR N - 1))).
  { intros i j Hi Hj Hne. rewrite HLl. unfold L. rewrite map_map.
    rewrite (map_ext (fun p => h (nth i (firstn mb (skipn base p)) 0%nat) * h (nth j (firstn mb (skipn base p)) 0%nat)) (fun p => h (nth (base + i) p 0%nat) * h (nth (base + j) p 0%nat))) by (intros; rewrite !Hnth; auto).
    assert (E := @perms_pair N ps Hnd Hall h (base + i) (base + j) S0 ltac:(lia) ltac:(lia) ltac:(lia)). cbv beta in E. rewrite A2' in E by lia.
    apply (Rmult_eq_reg_l (INR N - 1)); auto. rewrite E. field. auto. }
  exists (map (fun t => (value t, logs t)) L). split.
  - unfold L. rewrite <- (map_map (fun p => firstn mb (skipn base p)) (batch_at data)). apply outcomes_of. intros t Ht. apply in_map_iff in Ht. destruct Ht as (p & <- & Hp).
    split; [rewrite firstn_length, skipn_length, (Hps _ Hp); lia|]. apply Forall_forall. intros i Hi. apply Hall in Hp.
    assert (X : In i (seq 0 N)) by (apply (Permutation_in _ Hp); eapply In_skipn, In_firstn; eauto). apply in_seq in X. lia.
  - rewrite (@family_potential N mb f h (prior x) T HN0 Hmb Hh _ _ HL A1 A2 A3), (@family_recorded N mb f h (prior x) T HN0 Hmb Hh _ _ HL A1 A2 A3). assert (INR mb <> 0) by (apply not_0_INR; lia). unfold Rdiv. generalize (/ T). intros. split; field; auto.
Qed.
(** the number that is recorded is not the variance of the stochastic potential: at temperature 1 with replacement it is always too small, by the factor (mb - 1) / N^2 *)
Theorem C80_recorded_refuted : (mb <= N)%nat -> T = 1 -> 0 < sigma2 ->
  exists rs, outcomes pot N x state (map (batch_at data) (tuples mb N)) rs /\
    recorded_mean rs = (INR mb - 1) / INR N ^ 2 * potential_variance rs /\ recorded_mean rs < potential_variance rs.
Proof.
  intros Hle HT Hs. destruct C80_with_replacement as (rs & H1 & H2 & H3). exists rs. split; auto. rewrite H2, H3, HT, Rinv_1.
  assert (Hm : 1 <= INR mb) by (apply (le_INR 1); lia). assert (Hn : INR mb <= INR N) by (apply le_INR; auto). split; [field; lra|].
  assert (X : (1 - 1 / INR mb) < INR N ^ 2 / INR mb * 1 ^ 2).
  { apply (Rmult_lt_reg_r (INR mb)); [lra|]. replace ((1 - 1 / INR mb) * INR mb) with (INR mb - 1) by (field; lra). replace (INR N ^ 2 / INR mb * 1 ^ 2 * INR mb) with (INR N * INR N) by (field; lra).
    apply Rlt_le_trans with (1 * INR N); [lra|]. apply Rmult_le_compat_r; lra. }
  apply Rmult_lt_compat_r with (r := sigma2) in X; auto.
Qed.
(** the constant F that the exchange step needs for its correction ssq / F to be the variance of the stochastic potential *)
Theorem C80_scale : (2 <= mb)%nat -> T <> 0 ->
  exists rs, outcomes pot N x state (map (batch_at data) (tuples mb N)) rs /\
    recorded_mean rs / ((INR mb - 1) * T ^ 2 / INR N ^ 2) = potential_variance rs.
Proof.
  intros Hle HT. destruct C80_with_replacement as (rs & H1 & H2 & H3). exists rs. split; auto. rewrite H2, H3.
  assert (Hm : 2 <= INR mb) by (apply (le_INR 2); lia). assert (Hn : INR N <> 0) by (apply not_0_INR; lia). field. repeat split; auto; lra.
Qed.
(** a batch of one observation: no variance is ever recorded, whatever the data *)
Theorem C80_single : mb = 1%nat -> forall t, length t = mb -> Forall (fun i => (i < N)%nat) t ->
  exists v lks new, pot N x (batch_at data t) state None = Ok (v, lks, new) /\ population_variance lks = 0.
Proof.
  intros E t Ht Hr. assert (O := @outcomes_of [t]). cbn [map] in O. assert (X : outcomes pot N x state [batch_at data t] [(value t, logs t)]) by (apply O; intros u [<-|[]]; auto).
  clear O. revert E. inversion X as [|? ? ? ? (new & En) _]; intros E. cbn [fst snd] in En. exists (value t), (logs t), new. split; auto. rewrite E.
  unfold population_variance, sum_upto. cbn. lra.
Qed.
(** a batch of all observations: the potential is exact, nevertheless a variance is recorded *)
Theorem C80_full_batch_refuted : mb = N -> (2 <= N)%nat -> 0 < sigma2 -> forall ps, NoDup ps -> (forall p, In p ps <-> Permutation p (seq 0 N)) ->
  exists rs, outcomes pot N x state (map (fun p => batch_at data (firstn mb (skipn 0 p))) ps) rs /\ potential_variance rs = 0 /\ recorded_mean rs = sigma2.
Proof.
  intros E HN2 Hs ps Hnd Hall. destruct (@C80_random_order ps 0%nat Hnd Hall ltac:(lia) HN2) as (rs & H1 & H2 & H3). exists rs. split; [exact H1|]. rewrite H2, H3, E.
  assert (HNn : INR N <> 0) by (apply not_0_INR; lia). assert (HNm : INR N - 1 <> 0) by (apply le_INR in HN2; cbn in HN2; lra). unfold Rdiv. split; [ring|field; auto].
Qed.
End Variance.

(** ** a concrete case: observations 1, 2, 3 with log likelihood theta * observation at theta = 1, batches of two *)
Theorem C80_nonvacuous :
  exists rs, outcomes (potential_function (fun _ => 0) w_lik false 1) 3 1 (None : option unit) (map (batch_at w_data) (tuples 2 3)) rs /\
    potential_variance rs = 3 /\ recorded_mean rs = 1 / 3.
Proof.
  destruct (@C80_with_replacement R R unit (fun _ => 0) w_lik w_l false 1 w_evaluates w_data 3 2) with (x := 1) (state := None : option unit) (strategy := PMap) (pot := potential_function (fun _ => 0) w_lik false 1) as (rs & H1 & H2 & H3);
    try reflexivity; try discriminate; auto.
  { intros ka [<-|[]]. reflexivity. }
  exists rs. split; auto. rewrite H2, H3. unfold population_variance, sum_upto. cbn. unfold w_l, w_data, row. cbn. split; lra.
Qed.
Print Assumptions C80_with_replacement.
Print Assumptions C80_random_order.
Print Assumptions C80_recorded_refuted.
Print Assumptions C80_scale.
Print Assumptions C80_single.
Print Assumptions C80_full_batch_refuted.
Print Assumptions C80_nonvacuous.
