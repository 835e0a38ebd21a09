From Coq Require Import Reals Lra ZArith.
From Verif Require Import Base ListUtil Xreal Scheduler SchedulerSpec SchedulerProofs.
Open Scope R_scope.

(** ** polynomial *)
Definition poly_value (a b gamma : R) (i : nat) : R := a * Rpower (b + INR i) (- gamma).

Lemma poly_init_ok its a b g : 0 <= g -> 0 < a -> 0 < b ->
  poly_init its (Fin a) (Fin b) (Fin g) = Ok (map (fun i => Fin (poly_value a b g i)) (seq 0 its)).
Proof.
  intros Hg Ha Hb. unfold poly_init. destruct (xle_dec (Fin 0) (Fin g)) as [|n]; [|exfalso; apply n, xle_fin; lra]. cbn [negb].
  destruct (xlt_dec (Fin 0) (Fin a)) as [|n]; [|exfalso; apply n; exact Ha]. cbn [negb].
  destruct (xlt_dec (Fin 0) (Fin b)) as [|n]; [|exfalso; apply n; exact Hb]. cbn [negb]. cbv iota.
  f_equal. unfold poly_schedule. apply map_ext_in. intros i _. cbn [xadd xopp]. rewrite xpow_pos; [reflexivity|].
  pose proof (pos_INR i). lra.
Qed.
Lemma poly_init_rejects its a b g : ~ (xle (Fin 0) g /\ xlt (Fin 0) a /\ xlt (Fin 0) b) -> poly_init its a b g = Exc AssertionError.
Proof.
  intros H. unfold poly_init. destruct (xle_dec (Fin 0) g); cbn [negb]; auto. destruct (xlt_dec (Fin 0) a); cbn [negb]; auto.
  destruct (xlt_dec (Fin 0) b); cbn [negb]; auto. exfalso. auto.
Qed.

Lemma Rpower_decr x y g : 0 < x -> x < y -> 0 < g -> Rpower y (- g) < Rpower x (- g).
Proof.
  intros Hx Hxy Hg. unfold Rpower. apply exp_increasing. assert (ln x < ln y) by (apply ln_increasing; lra). nra.
Qed.
Lemma poly_value_pos a b g i : 0 < a -> 0 < poly_value a b g i.
Proof. intros H. unfold poly_value. apply Rmult_lt_0_compat; auto. unfold Rpower. apply exp_pos. Qed.
Lemma poly_value_decr a b g i j : 0 < a -> 0 < b -> 0 < g -> (i < j)%nat -> poly_value a b g j < poly_value a b g i.
Proof.
  intros Ha Hb Hg Hij. unfold poly_value. apply Rmult_lt_compat_l; auto. apply Rpower_decr; auto.
  - pose proof (pos_INR i). lra.
  - apply lt_INR in Hij. lra.
Qed.
Lemma poly_value_const a b i j : poly_value a b 0 i = poly_value a b 0 j.
Proof. unfold poly_value, Rpower. rewrite Ropp_0, !Rmult_0_l. reflexivity. Qed.

Lemma clamp_get_map f its i : (i < its)%nat -> clamp_get (map f (seq 0 its)) i = f i.
Proof.
  intros H. unfold clamp_get. rewrite map_length, seq_length. rewrite Nat.min_l by lia. apply nth_map_seq. exact H.
Qed.

(** ** first, last *)
Lemma find_ab_ok its g f l : 0 < g -> 0 < l < f -> (2 <= its)%nat ->
  exists a b, find_ab its (Fin g) (Fin f) (Fin l) = (Fin a, Fin b) /\ 0 < a /\ 0 < b /\
    poly_value a b g 0 = f /\ poly_value a b g (its - 1) = l.
Proof.
  intros Hg Hl Hits. unfold find_ab. rewrite (xpow_pos g) by lra.
  assert (Hginv : Rpower g (-1) = / g) by (replace (-1) with (Ropp 1) by lra; rewrite Rpower_Ropp, Rpower_1; auto). rewrite Hginv. cbn [xopp].
  rewrite !xpow_pos by lra. unfold xsub. cbn [xopp xadd].
  assert (HN : 1 <= INR its - 1). { replace its with (S (its - 1)) by lia. rewrite S_INR. assert (1 <= INR (its - 1)). { apply (le_INR 1). lia. } lra. }
  rewrite xdiv_fin by lra.
  set (F := Rpower f (- / g)). set (L := Rpower l (- / g)).
  assert (Hig : 0 < / g) by (apply Rinv_0_lt_compat; auto).
  assert (HFL : F < L) by (apply Rpower_decr; lra).
  assert (HF : 0 < F) by (unfold F, Rpower; apply exp_pos).
  set (q := (L + - F) / (INR its - 1)).
  assert (Hq : 0 < q). { unfold q. apply Rmult_lt_0_compat; [lra|]. apply Rinv_0_lt_compat. lra. }
  rewrite xpow_pos by auto. set (a := Rpower q (- g)).
  assert (Ha : 0 < a) by (unfold a, Rpower; apply exp_pos).
  rewrite xdiv_fin by lra. assert (Hfa : 0 < f / a). { apply Rmult_lt_0_compat; [lra|]. apply Rinv_0_lt_compat; auto. }
  rewrite xpow_pos by auto. set (b := Rpower (f / a) (- / g)).
  assert (Hb : 0 < b) by (unfold b, Rpower; apply exp_pos).
  assert (Hinv : forall x, 0 < x -> Rpower (Rpower x (- / g)) (- g) = x).
  { intros x Hx. rewrite Rpower_mult. replace (- / g * - g) with 1 by (field; lra). apply Rpower_1; auto. }
  assert (Hpm : forall x y z, 0 < x -> 0 < y -> Rpower (x * y) z = Rpower x z * Rpower y z).
  { intros. symmetry. apply Rpower_mult_distr; auto. }
  assert (Hbq : b = F / q).
  { unfold b. unfold Rdiv at 1. rewrite Hpm; [|lra|apply Rinv_0_lt_compat; auto]. fold F. unfold Rdiv. f_equal.
    unfold a. rewrite <- Rpower_Ropp, Rpower_mult. replace (- - g * - / g) with (Ropp 1) by (field; lra). rewrite Rpower_Ropp, Rpower_1; auto. }
  exists a, b. split; [reflexivity|]. split; [auto|]. split; [auto|]. unfold poly_value. split.
  - simpl INR. rewrite Rplus_0_r. unfold b. rewrite Hinv by auto. field. lra.
  - rewrite minus_INR by lia. simpl (INR 1). replace (b + (INR its - 1)) with (L / q).
    + unfold Rdiv. rewrite Hpm; [|lra|apply Rinv_0_lt_compat; auto]. unfold L. rewrite Hinv by lra.
      assert (Hone : a * Rpower (/ q) (- g) = 1).
      { unfold a. rewrite <- Hpm; [|auto|apply Rinv_0_lt_compat; auto]. rewrite Rinv_r by lra. unfold Rpower. rewrite ln_1, Rmult_0_r, exp_0. lra. }
      replace (a * (l * Rpower (/ q) (- g))) with (l * (a * Rpower (/ q) (- g))) by ring. rewrite Hone. ring.
    + rewrite Hbq. unfold q. field. split; [lra|]. lra.
Qed.

Lemma first_last_ok its g f l : 0 < g -> 0 < l < f -> (2 <= its)%nat ->
  exists v : nat -> R, first_last_init its (Fin f) (Fin l) (Fin g) = Ok (map (fun i => Fin (v i)) (seq 0 its)) /\
    v 0%nat = f /\ v (its - 1)%nat = l /\ (forall i, 0 < v i) /\ (forall i j, (i < j)%nat -> v j < v i).
Proof.
  intros Hg Hl Hits. destruct (find_ab_ok its g f l Hg Hl Hits) as (a & b & E & Ha & Hb & H0 & H1).
  exists (poly_value a b g). unfold first_last_init.
  destruct (xlt_dec (Fin 0) (Fin g)) as [|n]; [|exfalso; apply n; exact Hg]. cbn [negb].
  destruct (xle_dec (Fin l) (Fin f)) as [|n]; [|exfalso; apply n, xle_fin; lra]. cbn [negb]. cbv iota.
  rewrite E, poly_init_ok by lra. split; [reflexivity|]. split; auto. split; auto. split.
  - intros i. apply poly_value_pos; auto.
  - intros i j Hij. apply poly_value_decr; auto.
Qed.

(** equal first and last step size: every step size is NaN *)
Lemma first_last_equal its g f : 0 < g -> 0 < f -> (2 <= its)%nat ->
  first_last_init its (Fin f) (Fin f) (Fin g) = Ok (repeat NaN its).
Proof.
  intros Hg Hf Hits. unfold first_last_init.
  destruct (xlt_dec (Fin 0) (Fin g)) as [|n]; [|exfalso; apply n; exact Hg]. cbn [negb].
  destruct (xle_dec (Fin f) (Fin f)) as [|n]; [|exfalso; apply n, xle_fin; lra]. cbn [negb]. cbv iota.
  unfold find_ab. rewrite (xpow_pos g) by lra.
  assert (Hginv : Rpower g (-1) = / g) by (replace (-1) with (Ropp 1) by lra; rewrite Rpower_Ropp, Rpower_1; auto). rewrite Hginv. cbn [xopp].
  assert (Hig : 0 < / g) by (apply Rinv_0_lt_compat; auto).
  rewrite !xpow_pos by lra. unfold xsub. cbn [xopp xadd].
  assert (HN : 1 <= INR its - 1). { replace its with (S (its - 1)) by lia. rewrite S_INR. assert (1 <= INR (its - 1)). { apply (le_INR 1). lia. } lra. }
  rewrite xdiv_fin by lra. replace ((Rpower f (- / g) + - Rpower f (- / g)) / (INR its - 1)) with 0 by (field; lra).
  rewrite xpow_zero_neg by lra. change (xdiv (Fin f) PInf) with (Fin 0). rewrite xpow_zero_neg by lra.
  unfold poly_init. destruct (xle_dec (Fin 0) (Fin g)) as [|n]; [|exfalso; apply n, xle_fin; lra]. cbn [negb].
  destruct (xlt_dec (Fin 0) PInf) as [|n]; [|exfalso; apply n; exact I]. cbn [negb]. cbv iota. f_equal.
  unfold poly_schedule. cbn [xadd xopp]. rewrite xpow_inf_neg by lra. cbn [xmul]. rewrite xinf_0.
  rewrite repeat_map_seq. reflexivity.
Qed.
(** a single iteration is rejected *)
Lemma first_last_one g f l : 0 < g -> 0 < l <= f -> first_last_init 1 (Fin f) (Fin l) (Fin g) = Exc AssertionError.
Proof.
  intros Hg Hl. unfold first_last_init.
  destruct (xlt_dec (Fin 0) (Fin g)) as [|n]; [|exfalso; apply n; exact Hg]. cbn [negb].
  destruct (xle_dec (Fin l) (Fin f)) as [|n]; [|exfalso; apply n, xle_fin; lra]. cbn [negb]. cbv iota.
  unfold find_ab. rewrite (xpow_pos g) by lra.
  assert (Hginv : Rpower g (-1) = / g) by (replace (-1) with (Ropp 1) by lra; rewrite Rpower_Ropp, Rpower_1; auto). rewrite Hginv. cbn [xopp].
  assert (Hig : 0 < / g) by (apply Rinv_0_lt_compat; auto).
  rewrite !xpow_pos by lra. unfold xsub. cbn [xopp xadd xdiv].
  destruct (Req_EM_T (INR 1 - 1) 0) as [_|n]; [|exfalso; apply n; simpl; lra].
  destruct (Req_dec l f) as [->|Hne].
  - rewrite Rplus_opp_r, xinf_0. apply poly_init_rejects. simpl. tauto.
  - assert (Rpower f (- / g) < Rpower l (- / g)) by (apply Rpower_decr; lra). rewrite xinf_pos by lra.
    rewrite xpow_inf_neg by lra. apply poly_init_rejects. simpl. lra.
Qed.

(** ** adaptive *)
Definition ad_run (target : R) (s : ad_state) (accs : list R) : ad_state :=
  fst (fold_left (fun si acc => (ad_update target (fst si) (snd si) acc, S (snd si))) accs (s, 0%nat)).

(** what a run does not change *)
Definition same_params (s s' : ad_state) : Prop :=
  as_burn_in s' = as_burn_in s /\ as_t0 s' = as_t0 s /\ as_kappa s' = as_kappa s /\ as_gamma s' = as_gamma s /\ as_mu s' = as_mu s.

Lemma ad_fold target : forall accs s i,
  snd (fold_left (fun si acc => (ad_update target (fst si) (snd si) acc, S (snd si))) accs (s, i)) = (i + length accs)%nat.
Proof. induction accs as [|a accs IH]; intros s i; simpl; [lia|]. rewrite IH. lia. Qed.
Lemma ad_run_snoc target s accs acc : ad_run target s (accs ++ [acc]) = ad_update target (ad_run target s accs) (length accs) acc.
Proof. unfold ad_run. rewrite fold_left_app. cbn [fold_left fst]. rewrite ad_fold. reflexivity. Qed.
Lemma ad_run_params target s accs : same_params s (ad_run target s accs).
Proof.
  induction accs as [|acc accs IH] using rev_ind; [repeat split|]. rewrite ad_run_snoc. exact IH.
Qed.

Definition rsum (l : list R) : R := fold_right Rplus 0 l.
Lemma rsum_app a b : rsum (a ++ b) = rsum a + rsum b.
Proof. induction a as [|x a IH]; simpl; [lra|]. unfold rsum in *. rewrite IH. lra. Qed.

(** h_bar is the sum of the errors divided by m + t0 *)
Lemma ad_hbar target p accs : 0 <= ad_t0 p -> accs <> [] ->
  as_hbar (ad_run target (ad_init p) accs) = rsum (map (fun a => target - a) accs) / (INR (length accs) + ad_t0 p).
Proof.
  intros Ht. induction accs as [|acc accs IH] using rev_ind; intros Hne; [congruence|].
  rewrite ad_run_snoc. unfold ad_update. cbn [as_hbar]. destruct (ad_run_params target (ad_init p) accs) as (_ & E & _). rewrite E. cbn [ad_init as_t0].
  rewrite map_app, rsum_app, app_length. cbn [length map rsum fold_right]. rewrite plus_INR. simpl (INR 1).
  pose proof (pos_INR (length accs)) as Hp.
  destruct accs as [|a0 accs'] eqn:Ea.
  - simpl. field. lra.
  - rewrite <- Ea in *. rewrite IH by (rewrite Ea; discriminate).
    assert (0 < INR (length accs)) by (rewrite Ea; apply (lt_INR 0); simpl; lia). rewrite Rplus_0_r. field. lra.
Qed.

Lemma ad_frozen target s accs accs' : (as_burn_in s <= length accs)%nat ->
  ad_get (ad_run target s (accs ++ accs')) = ad_get (ad_run target s accs).
Proof.
  intros H. induction accs' as [|a accs' IH] using rev_ind; [now rewrite app_nil_r|].
  rewrite app_assoc, ad_run_snoc. unfold ad_get in *. unfold ad_update. cbn [as_xbar].
  destruct (ad_run_params target s (accs ++ accs')) as (E & _). rewrite E.
  destruct (Nat.ltb_spec (length (accs ++ accs')) (as_burn_in s)); [rewrite app_length in *; lia|]. exact IH.
Qed.

Lemma ad_monotone target s accs a a' : (length accs < as_burn_in s)%nat -> 0 <= as_t0 s -> 0 < as_gamma s -> a < a' ->
  ad_get (ad_run target s (accs ++ [a])) < ad_get (ad_run target s (accs ++ [a'])).
Proof.
  intros H Ht Hg Ha. rewrite !ad_run_snoc. unfold ad_get. apply exp_increasing. unfold ad_update. cbn [as_xbar].
  destruct (ad_run_params target s accs) as (E1 & E2 & E3 & E4 & E5). rewrite E1, E2, E3, E4, E5.
  rewrite (proj2 (Nat.ltb_lt _ _) H). apply Rplus_lt_compat_l.
  set (m := INR (length accs + 1)). assert (Hm : 0 < m) by (apply (lt_INR 0); lia).
  apply Rmult_lt_compat_l; [unfold Rpower; apply exp_pos|]. apply Rplus_lt_compat_l, Ropp_lt_contravar.
  apply Rmult_lt_compat_l; [apply Rmult_lt_0_compat; [apply sqrt_lt_R0; auto|apply Rinv_0_lt_compat; auto]|].
  apply Rplus_lt_compat_l. apply Rmult_lt_compat_l; [|lra]. unfold Rdiv. rewrite Rmult_1_l. apply Rinv_0_lt_compat. lra.
Qed.

(** the value of the state's own target is never used *)
Lemma ad_alpha_irrelevant target s a : forall accs, ad_get (ad_run target (mkAs (as_burn_in s) (as_xbar s) (as_hbar s) a (as_t0 s) (as_kappa s) (as_gamma s) (as_mu s)) accs)
   = ad_get (ad_run target s accs).
Proof.
  intros accs. set (s' := mkAs _ _ _ a _ _ _ _).
  assert (H : as_xbar (ad_run target s' accs) = as_xbar (ad_run target s accs) /\ as_hbar (ad_run target s' accs) = as_hbar (ad_run target s accs)).
  { induction accs as [|x accs [IH1 IH2]] using rev_ind; [split; reflexivity|]. rewrite !ad_run_snoc. unfold ad_update. cbn [as_xbar as_hbar].
    destruct (ad_run_params target s accs) as (E1 & E2 & E3 & E4 & E5). destruct (ad_run_params target s' accs) as (D1 & D2 & D3 & D4 & D5).
    rewrite E1, E2, E3, E4, E5, D1, D2, D3, D4, D5, IH1, IH2. unfold s'. cbn. split; reflexivity. }
  unfold ad_get. now rewrite (proj1 H).
Qed.

(** ** schedules with positive steps *)
Lemma positive_polynomial its a b g : 0 < a -> 0 < b -> 0 <= g -> positive_steps (polynomial_step_size (Fin a) (Fin b) (Fin g)) its.
Proof.
  intros Ha Hb Hg. exists (map (fun i => Fin (poly_value a b g i)) (seq 0 its), tt). split.
  - cbn [polynomial_step_size sp_init sp_nokw kwarg]. rewrite poly_init_ok by auto. reflexivity.
  - intros i Hi. exists (poly_value a b g i). split; [apply poly_value_pos; auto|]. rewrite evolve_static by reflexivity.
    cbn [polynomial_step_size sp_get fst]. apply (clamp_get_map (fun i => Fin (poly_value a b g i))). exact Hi.
Qed.
Lemma positive_first_last its f l g : 0 < g -> 0 < l < f -> (2 <= its)%nat -> positive_steps (polynomial_step_size_first_last (Fin f) (Fin l) (Fin g)) its.
Proof.
  intros Hg Hl Hits. destruct (first_last_ok its g f l Hg Hl Hits) as (v & E & _ & _ & Hp & _).
  exists (map (fun i => Fin (v i)) (seq 0 its), tt). split.
  - cbn [polynomial_step_size_first_last sp_init sp_nokw kwarg]. rewrite E. reflexivity.
  - intros i Hi. exists (v i). split; auto. rewrite evolve_static by reflexivity.
    cbn [polynomial_step_size_first_last sp_get fst]. apply (clamp_get_map (fun i => Fin (v i))). exact Hi.
Qed.
Lemma adx_finite p : forall xs st i h x, (forall y, In y xs -> exists a, kwarg (st_acceptance y) (Fin 0) = Fin a) ->
  exists st', evolve (adaptive_step_size p) (mkAdx st h x) i xs = mkAdx st' h (adx_x_nan (evolve (adaptive_step_size p) (mkAdx st h x) i xs)) /\
   (h = false -> x = false -> evolve (adaptive_step_size p) (mkAdx st h x) i xs = mkAdx st' false false).
Proof.
  induction xs as [|y xs IH]; intros st i h x H; [exists st; split; [reflexivity|intros -> ->; reflexivity]|].
  cbn [evolve]. destruct (H y (or_introl eq_refl)) as [a Ea]. cbn [adaptive_step_size sp_update]. rewrite Ea. unfold adx_update. cbn [adx_state_of adx_h_nan adx_x_nan].
  set (st1 := ad_update (ad_target p) st i a). set (x1 := if (i <? as_burn_in st)%nat then x || h else x).
  destruct (IH st1 (S i) h x1) as (st' & E1 & E2). { intros z Hz. apply H. right. exact Hz. }
  exists st'. split; [exact E1|]. intros -> ->. apply E2; auto. unfold x1. destruct (i <? as_burn_in st)%nat; reflexivity.
Qed.
Lemma positive_adaptive its p : positive_steps (adaptive_step_size p) its.
Proof.
  eexists. split; [reflexivity|]. intros i Hi. cbn [fst].
  destruct (adx_finite p (repeat no_stats i) (ad_init p) 0 false false) as (st' & _ & E).
  { intros y Hy. apply repeat_spec in Hy. subst y. exists 0. reflexivity. }
  cbn [sp_nokw adaptive_step_size kwarg] in *. rewrite (E eq_refl eq_refl). exists (exp (as_xbar st')). split; [apply exp_pos|reflexivity].
Qed.
(** NaN *)
Lemma adx_nan_h p : forall xs s i, adx_h_nan s = true -> adx_h_nan (evolve (adaptive_step_size p) s i xs) = true.
Proof.
  induction xs as [|y xs IH]; intros s i H; [exact H|]. cbn [evolve]. apply IH. cbn [adaptive_step_size sp_update]. unfold adx_update. cbn [adx_h_nan].
  destruct (kwarg (st_acceptance y) (Fin 0)); auto.
Qed.
Lemma adx_nan_x p : forall xs s i, adx_x_nan s = true -> adx_x_nan (evolve (adaptive_step_size p) s i xs) = true.
Proof.
  induction xs as [|y xs IH]; intros s i H; [exact H|]. cbn [evolve]. apply IH. cbn [adaptive_step_size sp_update]. unfold adx_update. cbn [adx_x_nan].
  rewrite H. cbn [orb]. destruct (i <? as_burn_in (adx_state_of s))%nat; reflexivity.
Qed.
Lemma adx_burn_in p : forall xs s i, as_burn_in (adx_state_of (evolve (adaptive_step_size p) s i xs)) = as_burn_in (adx_state_of s).
Proof. induction xs as [|y xs IH]; intros s i; [reflexivity|]. cbn [evolve]. rewrite IH. reflexivity. Qed.

