(** C24 - C31: scheduler. *)
From Coq Require Import Reals Lra ZArith.
From Verif Require Import Base ListUtil Xreal Scheduler SchedulerSpec SchedulerProofs StepSizeProofs.
Open Scope R_scope.

(** ** C24 *)
(** after any updates xs (with any statistics) get returns, for every specific scheduler, its own value at iteration
    length xs in its own state after the same updates; the schedulers do not influence each other *)
Theorem C24_schedule_of_iteration : forall ss te bi th pb iterations kw st0 sc,
  sched_init ss te bi th pb iterations kw = Ok (st0, sc) ->
  exists s0 t0 b0 nb h0 nh,
    sp_init ss iterations (kw_step _ _ _ _ kw) = Ok (s0, tt) /\ sp_init te iterations (kw_temp _ _ _ _ kw) = Ok (t0, tt) /\
    sp_init bi iterations (kw_burn _ _ _ _ kw) = Ok (b0, nb) /\ sp_init th iterations (kw_thin _ _ _ _ kw) = Ok (h0, nh) /\
    sc = Z.min nh nb /\
    forall xs, let i := length xs in
      sched_get ss te bi th (after ss te bi th st0 xs)
      = mkSchedule (sp_get ss (evolve ss s0 0 xs) i no_stats) (sp_get te (evolve te t0 0 xs) i no_stats)
                   (sp_get bi (evolve bi b0 0 xs) i no_stats) (sp_get th (evolve th h0 0 xs) i no_stats).
Proof. exact final_schedule. Qed.

(** unspecified schedulers: step size 1, temperature 1, nothing discarded *)
Theorem C24_defaults : forall pb iterations, (0 < iterations)%nat ->
  exists st0, sched_init default_step default_temperature default_burn_in default_thinning pb iterations (no_kw _ _ _ _) = Ok (st0, Z.of_nat iterations) /\
  forall xs, (length xs < iterations)%nat ->
    sched_get _ _ _ _ (after _ _ _ _ st0 xs) = mkSchedule (Fin 1) (Fin 1) true true.
Proof.
  intros pb its Hits.
  destruct (sched_init default_step default_temperature default_burn_in default_thinning pb its (no_kw _ _ _ _)) as [[st0 sc]|e] eqn:E.
  - exists st0. destruct (final_schedule _ _ _ _ _ _ _ _ _ E) as (s0 & t0 & b0 & nb & h0 & nh & Es & Et & Eb & Eh & -> & G).
    assert (Hs0 : poly_init its (Fin 1) (Fin 1) (Fin 0) = Ok s0).
    { cbn [default_step no_kw kw_step polynomial_step_size sp_init sp_nokw kwarg] in Es. destruct (poly_init its (Fin 1) (Fin 1) (Fin 0)) as [s|]; inversion Es; auto. }
    rewrite poly_init_ok in Hs0 by lra.
    assert (Ht0 : t0 = Fin 1) by (cbn in Et; congruence). assert (Hb0 : b0 = 0%nat) by (cbn in Eb; congruence).
    assert (Hnb : nb = (Z.of_nat its - 0)%Z) by (cbn in Eb; congruence). assert (Hnh : nh = Z.of_nat its) by (cbn in Eh; congruence).
    split; [f_equal; f_equal; lia|]. intros xs Hxs. rewrite G, !evolve_static by reflexivity. subst t0 b0. inversion Hs0; subst s0.
    f_equal. cbn [default_step polynomial_step_size sp_get]. rewrite (clamp_get_map (fun i => Fin (poly_value 1 1 0 i))) by auto.
    f_equal. unfold poly_value, Rpower. rewrite Ropp_0, Rmult_0_l, exp_0. lra.
  - exfalso. unfold sched_init in E. cbn [default_thinning default_burn_in default_temperature accept_all initial_burn_in constant_temperature no_kw kw_step kw_temp kw_burn kw_thin sp_init sp_nokw kwarg bind] in E.
    unfold default_step in E. cbn [polynomial_step_size sp_init sp_nokw kwarg bind] in E. rewrite poly_init_ok in E by lra. discriminate.
Qed.

(** ** C25 *)
Theorem C25_burn_in : forall ss te th pb n iterations st0 sc,
  sched_init ss te (initial_burn_in n) th pb iterations (no_kw _ _ _ _) = Ok (st0, sc) ->
  forall xs, sch_burn_in (sched_get _ _ _ _ (after _ _ _ _ st0 xs)) = true <-> (n <= length xs)%nat.
Proof. intros ss te th pb n its st0 sc H xs. rewrite (final_burn_in _ _ _ _ _ _ _ _ H). apply Nat.leb_le. Qed.
Theorem C25_kept_iterations : forall ss te pb n iterations st0 sc,
  sched_init ss te (initial_burn_in n) accept_all pb iterations (no_kw _ _ _ _) = Ok (st0, sc) ->
  sc = (Z.of_nat iterations - Z.of_nat n)%Z /\
  forall xs, length xs = iterations -> kept_its _ _ _ _ st0 xs = seq n (iterations - n).
Proof. exact final_burn_in_default. Qed.
(** override per chain *)
Theorem C25_override : forall ss te th pb n iterations ks kt kh st0 sc n0,
  sched_init ss te (initial_burn_in n) th pb iterations (mkKw _ _ (initial_burn_in n) _ ks kt (Some n0) kh) = Ok (st0, sc) ->
  forall xs, sch_burn_in (sched_get _ _ _ _ (after _ _ _ _ st0 xs)) = true <-> (n0 <= length xs)%nat.
Proof.
  intros ss te th pb n its ks kt kh st0 sc n0 H xs.
  destruct (final_schedule _ _ _ _ _ _ _ _ _ H) as (s0 & t0 & b0 & nb & h0 & nh & _ & _ & E & _ & _ & G).
  rewrite G. cbn [sch_burn_in]. assert (b0 = n0) by (cbn in E; congruence). subst b0. rewrite evolve_static by reflexivity. apply Nat.leb_le.
Qed.

(** ** C26 *)
(** exactly `selections` different iterations are saved, all after burn-in; too few iterations raise *)
Theorem C26_thinning : forall Key (choice : Key -> list xr -> nat -> list nat), choice_ok choice ->
  forall ss te pb X (ss' : specific xr X) selections key n iterations, positive_steps ss' iterations ->
  (exists s, sp_init ss iterations (sp_nokw ss) = Ok s) -> (exists s, sp_init te iterations (sp_nokw te) = Ok s) ->
  let th := random_thinning Key choice ss' (initial_burn_in n) selections key in
  let init := sched_init ss te (initial_burn_in n) th pb iterations (no_kw _ _ _ _) in
  ((selections <= iterations - n)%nat -> exists st0 L, init = Ok (st0, Z.min (Z.of_nat selections) (Z.of_nat iterations - Z.of_nat n)) /\
     length L = selections /\ NoDup L /\ (forall i, In i L -> (n <= i < iterations)%nat) /\
     forall xs, length xs = iterations -> Permutation (kept_its _ _ _ _ st0 xs) L) /\
  ((iterations - n < selections)%nat -> init = Exc AssertionError).
Proof. exact final_thinning. Qed.
(** the schedules of the library have positive steps *)
Theorem C26_positive_steps : forall its,
  (forall a b g, 0 < a -> 0 < b -> 0 <= g -> positive_steps (polynomial_step_size (Fin a) (Fin b) (Fin g)) its) /\
  (forall f l g, 0 < g -> 0 < l < f -> (2 <= its)%nat -> positive_steps (polynomial_step_size_first_last (Fin f) (Fin l) (Fin g)) its) /\
  (forall p, positive_steps (adaptive_step_size p) its).
Proof.
  intros its. split; [|split].
  - intros; apply positive_polynomial; auto.
  - intros; apply positive_first_last; auto.
  - intros; apply positive_adaptive.
Qed.
(** a choice function *)
Definition first_choice (key : unit) (p : list xr) (k : nat) : list nat :=
  firstn k (filter (fun i => xnonzero (nth i p (Fin 0))) (seq 0 (length p))).
Lemma first_choice_ok : choice_ok first_choice.
Proof.
  intros key p k Hk. unfold first_choice, count_nonzero in *.
  rewrite (filter_map_length p (fun i => xnonzero (nth i p (Fin 0)))) in Hk.
  2:{ intros i x Hi. now rewrite (nth_error_nth _ _ _ Hi). }
  split; [rewrite firstn_length; lia|]. split.
  - apply NoDup_firstn, NoDup_filter, seq_NoDup.
  - intros i Hi. assert (Hin : In i (filter (fun i => xnonzero (nth i p (Fin 0))) (seq 0 (length p)))).
    { rewrite <- (firstn_skipn k). apply in_or_app. auto. }
    apply filter_In in Hin. destruct Hin as [Hs Hx]. apply in_seq in Hs. exists (nth i p (Fin 0)). split; auto. apply nth_error_nth'. lia.
Qed.
Example C26_nonvacuous : choice_ok first_choice /\ positive_steps default_step 10 /\
  (exists s, sp_init default_step 10 (sp_nokw default_step) = Ok s).
Proof.
  split; [exact first_choice_ok|]. split; [apply positive_polynomial; lra|].
  destruct (positive_polynomial 10 1 1 0) as (s & E & _); try lra. exists s. exact E.
Qed.

(** ** C27 *)
Theorem C27_bound_thinning : forall Key (choice : Key -> list xr -> nat -> list nat),
  (forall key p k, length (choice key p k) = k) ->
  forall ss te pb X (ss' : specific xr X) Y (bi' : specific bool Y) selections key n iterations st0 sc,
  sched_init ss te (initial_burn_in n) (random_thinning Key choice ss' bi' selections key) pb iterations (no_kw _ _ _ _) = Ok (st0, sc) ->
  forall xs, length xs = iterations -> (Z.of_nat (length (kept_its _ _ _ _ st0 xs)) <= Z.max 0 sc)%Z.
Proof. intros. eapply final_bound_thinning; eauto. Qed.
Theorem C27_default_thinning_exact : forall ss te pb n iterations st0 sc, (n <= iterations)%nat ->
  sched_init ss te (initial_burn_in n) accept_all pb iterations (no_kw _ _ _ _) = Ok (st0, sc) ->
  forall xs, length xs = iterations -> Z.of_nat (length (kept_its _ _ _ _ st0 xs)) = sc.
Proof.
  intros ss te pb n its st0 sc Hn H xs Hx. destruct (final_burn_in_default _ _ _ _ _ _ _ H) as [-> Hk].
  rewrite (Hk xs Hx), seq_length. lia.
Qed.
Theorem C27_matching_thinning_exact : forall Key (choice : Key -> list xr -> nat -> list nat), choice_ok choice ->
  forall ss te pb X (ss' : specific xr X) selections key n iterations st0 sc, positive_steps ss' iterations -> (n <= iterations)%nat ->
  sched_init ss te (initial_burn_in n) (random_thinning Key choice ss' (initial_burn_in n) selections key) pb iterations (no_kw _ _ _ _) = Ok (st0, sc) ->
  forall xs, length xs = iterations -> Z.of_nat (length (kept_its _ _ _ _ st0 xs)) = sc.
Proof.
  intros Key choice Hc ss te pb X ss' sel key n its st0 sc Hpos Hn H xs Hx.
  destruct (final_schedule _ _ _ _ _ _ _ _ _ H) as (s0 & t0 & b0 & nb & h0 & nh & Es & Et & _ & _ & _ & _).
  destruct (final_thinning Key choice Hc ss te pb X ss' sel key n its Hpos) as [H1 H2]; eauto.
  destruct (Nat.le_gt_cases sel (its - n)) as [Hle|Hlt].
  - destruct (H1 Hle) as (st & L & E & HL & _ & _ & Hp). rewrite H in E. inversion E; subst st sc.
    rewrite (Permutation_length (Hp xs Hx)), HL. lia.
  - rewrite (H2 Hlt) in H. discriminate.
Qed.
(** burn-in longer than the run: nothing is kept, the announced number is negative *)
Theorem C27_long_burn_in : forall ss te pb n iterations st0 sc, (iterations < n)%nat ->
  sched_init ss te (initial_burn_in n) accept_all pb iterations (no_kw _ _ _ _) = Ok (st0, sc) ->
  (sc < 0)%Z /\ forall xs, length xs = iterations -> kept_its _ _ _ _ st0 xs = [].
Proof.
  intros ss te pb n its st0 sc Hn H. destruct (final_burn_in_default _ _ _ _ _ _ _ H) as [-> Hk].
  split; [lia|]. intros xs Hx. rewrite (Hk xs Hx). replace (its - n)%nat with 0%nat by lia. reflexivity.
Qed.

(** ** C28 *)
Theorem C28_polynomial : forall its a b g, 0 <= g -> 0 < a -> 0 < b ->
  exists v : nat -> R, poly_init its (Fin a) (Fin b) (Fin g) = Ok (map (fun i => Fin (v i)) (seq 0 its)) /\
    (forall i, v i = a * Rpower (b + INR i) (- g)) /\ (forall i, 0 < v i) /\
    (forall i j, (i < j)%nat -> v j <= v i) /\ (0 < g <-> forall i j, (i < j)%nat -> v j < v i).
Proof.
  intros its a b g Hg Ha Hb. exists (poly_value a b g). split; [apply poly_init_ok; auto|]. split; [reflexivity|].
  split; [intros; apply poly_value_pos; auto|].
  assert (Hd : forall i j, (i < j)%nat -> 0 < g -> poly_value a b g j < poly_value a b g i) by (intros; apply poly_value_decr; auto).
  destruct (Rle_lt_or_eq_dec 0 g Hg) as [Hpos|Heq].
  - split; [intros i j H; left; auto|]. split; auto.
  - subst g. split; [intros i j _; right; apply poly_value_const|]. split; [lra|]. intros H. specialize (H 0%nat 1%nat (Nat.lt_succ_diag_r 0)).
    rewrite (poly_value_const a b 1 0) in H. lra.
Qed.
Theorem C28_rejected : forall its a b g, ~ (0 <= g /\ 0 < a /\ 0 < b) -> poly_init its (Fin a) (Fin b) (Fin g) = Exc AssertionError.
Proof. intros its a b g H. apply poly_init_rejects. intros (H1 & H2 & H3). apply H. apply xle_fin in H1. auto. Qed.
Theorem C28_nan_rejected : forall its a b g, a = NaN \/ b = NaN \/ g = NaN -> poly_init its a b g = Exc AssertionError.
Proof.
  intros its a b g H. apply poly_init_rejects. intros (H1 & H2 & H3). destruct H as [-> |[-> | ->]]; [exact H2|exact H3|].
  destruct H1 as [H1|[H1 _]]; [exact H1|discriminate].
Qed.

(** ** C29 *)
Theorem C29_first_last_partial : forall its g f l, 0 < g -> 0 < l < f -> (2 <= its)%nat ->
  exists v : nat -> R, first_last_init its (Fin f) (Fin l) (Fin g) = Ok (map (fun i => Fin (v i)) (seq 0 its)) /\
    v 0%nat = f /\ v (its - 1)%nat = l /\ (forall i, 0 < v i) /\ (forall i j, (i < j)%nat -> v j < v i).
Proof. exact first_last_ok. Qed.
(** What fails: equal first and last step sizes give NaN for every iteration (the defaults of alias.amagold and
    alias.sggmc), a single iteration raises AssertionError *)
Theorem C29_equal_refuted : forall its g f, 0 < g -> 0 < f -> (2 <= its)%nat ->
  first_last_init its (Fin f) (Fin f) (Fin g) = Ok (repeat NaN its).
Proof. exact first_last_equal. Qed.
Theorem C29_one_iteration_refuted : forall g f l, 0 < g -> 0 < l <= f -> first_last_init 1 (Fin f) (Fin l) (Fin g) = Exc AssertionError.
Proof. exact first_last_one. Qed.
(** arguments for which no schedule exists are rejected: gamma <= 0 or first < last *)
Theorem C29_rejected : forall its f l g, ~ (0 < g /\ l <= f) ->
  let sch := polynomial_step_size_first_last (Fin f) (Fin l) (Fin g) in sp_init sch its (sp_nokw sch) = Exc AssertionError.
Proof.
  intros its f l g H sch. cbn [sch polynomial_step_size_first_last sp_init sp_nokw kwarg]. unfold first_last_init.
  destruct (xlt_dec (Fin 0) (Fin g)) as [Hg|Hg]; [|reflexivity]. destruct (xle_dec (Fin l) (Fin f)) as [Hl|Hl]; [|reflexivity]. exfalso. apply H. rewrite xle_fin in Hl. split; [exact Hg|exact Hl].
Qed.
Example C29_rejected_nonvacuous : ~ (0 < 0.33 /\ 0.2 <= 0.1). Proof. lra. Qed.

(** ** C30 *)
(** ad_run: the acceptance ratios accs are reported one after the other *)
Theorem C30_adaptive_partial : forall p target, 0 < ad_initial p ->
  ad_get (ad_init p) = ad_initial p /\
  (forall accs, 0 < ad_get (ad_run target (ad_init p) accs)) /\
  (forall accs accs', (ad_burn_in p <= length accs)%nat ->
     ad_get (ad_run target (ad_init p) (accs ++ accs')) = ad_get (ad_run target (ad_init p) accs)) /\
  (0 <= ad_t0 p -> 0 < ad_speed p -> forall accs a a', (length accs < ad_burn_in p)%nat -> a < a' ->
     ad_get (ad_run target (ad_init p) (accs ++ [a])) < ad_get (ad_run target (ad_init p) (accs ++ [a']))) /\
  (0 <= ad_t0 p -> forall accs, accs <> [] ->
     as_hbar (ad_run target (ad_init p) accs) = rsum (map (fun a => target - a) accs) / (INR (length accs) + ad_t0 p)).
Proof.
  intros p target Hp. split; [unfold ad_get; simpl; apply exp_ln; auto|]. split; [intros; unfold ad_get; apply exp_pos|].
  split; [intros accs accs' H; apply ad_frozen; exact H|]. split.
  - intros Ht Hs accs a a' H Ha. apply ad_monotone; auto.
  - intros Ht accs Hne. apply ad_hbar; auto.
Qed.
(** the scheduler of adaptive_step_size runs ad_run *)
Theorem C30_scheduler : forall p kw its s0, sp_init (adaptive_step_size p) its kw = Ok (s0, tt) ->
  forall accs, sp_get (adaptive_step_size p) (evolve (adaptive_step_size p) s0 0 (map (fun a => mkStats (Some (Fin a))) accs)) (length accs) no_stats
   = Fin (ad_get (ad_run (ad_target p) (ad_init (kwarg kw p)) accs)).
Proof.
  intros p kw its s0 H accs. assert (s0 = mkAdx (ad_init (kwarg kw p)) false false) by (cbn in H; congruence). subst s0. clear H.
  assert (HE : forall accs i s, evolve (adaptive_step_size p) (mkAdx s false false) i (map (fun a => mkStats (Some (Fin a))) accs)
    = mkAdx (fst (fold_left (fun si acc => (ad_update (ad_target p) (fst si) (snd si) acc, S (snd si))) accs (s, i))) false false).
  { clear. induction accs as [|a accs IH]; intros i s; [reflexivity|]. cbn [map evolve fold_left fst snd]. rewrite <- IH.
    cbn [adaptive_step_size sp_update kwarg st_acceptance]. unfold adx_update. cbn [adx_state_of adx_h_nan adx_x_nan orb]. destruct (i <? as_burn_in s)%nat; reflexivity. }
  rewrite HE. reflexivity.
Qed.
(** What fails: a target acceptance rate given to init has no effect *)
Theorem C30_target_override_refuted : forall p q its accs,
  ad_burn_in q = ad_burn_in p -> ad_initial q = ad_initial p -> ad_t0 q = ad_t0 p -> ad_kappa q = ad_kappa p -> ad_speed q = ad_speed p ->
  exists s1 s2, sp_init (adaptive_step_size p) its None = Ok (s1, tt) /\ sp_init (adaptive_step_size p) its (Some q) = Ok (s2, tt) /\
  forall i, sp_get (adaptive_step_size p) (evolve (adaptive_step_size p) s1 0 (map (fun a => mkStats (Some (Fin a))) accs)) i no_stats
          = sp_get (adaptive_step_size p) (evolve (adaptive_step_size p) s2 0 (map (fun a => mkStats (Some (Fin a))) accs)) i no_stats.
Proof.
  intros p q its accs H1 H2 H3 H4 H5. eexists _, _. split; [reflexivity|]. split; [reflexivity|]. intros i.
  cbn [kwarg]. pose proof (C30_scheduler p None its _ eq_refl accs) as A. pose proof (C30_scheduler p (Some q) its _ eq_refl accs) as B.
  cbn [adaptive_step_size sp_get kwarg] in *. rewrite A, B. f_equal. cbn [kwarg].
  rewrite <- (ad_alpha_irrelevant (ad_target p) (ad_init p) (ad_target q)). cbn [ad_init as_burn_in as_xbar as_hbar as_t0 as_kappa as_gamma as_mu].
  unfold ad_init. rewrite H1, H2, H3, H4, H5. reflexivity.
Qed.

(** What fails: an acceptance ratio that is not a number, reported before the end of the burn-in, makes the step size NaN for
    the rest of the run *)
Theorem C30_nan_refuted : forall p its s0, sp_init (adaptive_step_size p) its None = Ok (s0, tt) ->
  forall xs ys, (length xs < ad_burn_in p)%nat -> forall i,
  sp_get (adaptive_step_size p) (evolve (adaptive_step_size p) s0 0 (xs ++ mkStats (Some NaN) :: ys)) i no_stats = NaN.
Proof.
  intros p its s0 H xs ys Hb i. assert (s0 = mkAdx (ad_init p) false false) by (cbn in H; congruence). subst s0. clear H.
  rewrite evolve_app. cbn [Nat.add evolve]. set (s1 := evolve (adaptive_step_size p) (mkAdx (ad_init p) false false) 0 xs).
  assert (Hs1 : as_burn_in (adx_state_of s1) = ad_burn_in p) by (unfold s1; rewrite adx_burn_in; reflexivity).
  assert (Hx : adx_x_nan (sp_update (adaptive_step_size p) s1 (length xs) (mkStats (Some NaN))) = true).
  { cbn [adaptive_step_size sp_update kwarg st_acceptance]. unfold adx_update. cbn [adx_x_nan]. rewrite Hs1.
    destruct (Nat.ltb_spec (length xs) (ad_burn_in p)); [|lia]. now rewrite orb_true_r. }
  cbn [adaptive_step_size sp_get]. unfold adx_get. pose proof (adx_nan_x p ys _ (S (length xs)) Hx) as HE. cbn [adaptive_step_size sp_update] in HE |- *.
  rewrite HE. reflexivity.
Qed.

(** ** C31 *)
Theorem C31_collected_counter_partial : forall ss te bi th iterations kw st0 sc, static_sched bi -> static_sched th ->
  sched_init ss te bi th true iterations kw = Ok (st0, sc) -> forall xs,
  sc_collected _ _ _ _ (after ss te bi th st0 xs) = Some (length (kept_its ss te bi th st0 xs)).
Proof. exact final_collected. Qed.
Theorem C31_static : (forall n, static_sched (initial_burn_in n)) /\ static_sched accept_all /\
  forall Key choice X Y (ss : specific xr X) (bi : specific bool Y) n (key : Key), static_sched (random_thinning Key choice ss bi n key).
Proof. split; [exact static_burn_in|]. split; [exact static_accept_all|exact static_thinning]. Qed.
(** What fails: with a user defined thinning whose state changes the counter is wrong (it uses the new state with the old
    iteration).  Example: accept every second iteration by flipping a flag. *)
Definition every_second : specific bool Z :=
  mkSpecific bool unit tt (fun n _ => Ok (true, Z.of_nat n)) (fun s _ _ => negb s) (fun s _ _ => s).
Theorem C31_stateful_refuted : exists st0 sc xs,
  sched_init (constant_temperature (Fin 1)) (constant_temperature (Fin 1)) (initial_burn_in 0) every_second true 1 (no_kw _ _ _ _) = Ok (st0, sc) /\
  sc_collected _ _ _ _ (after _ _ _ _ st0 xs) = Some 0%nat /\ length (kept_its _ _ _ _ st0 xs) = 1%nat.
Proof. eexists _, _, [no_stats]. split; [reflexivity|]. split; reflexivity. Qed.
Example C31_nonvacuous : exists st0 sc,
  sched_init (constant_temperature (Fin 1)) (constant_temperature (Fin 1)) (initial_burn_in 2) accept_all true 5 (no_kw _ _ _ _) = Ok (st0, sc) /\
  sc_collected _ _ _ _ (after _ _ _ _ st0 (repeat no_stats 5)) = Some 3%nat.
Proof. eexists _, _. split; reflexivity. Qed.

Print Assumptions C24_schedule_of_iteration. Print Assumptions C26_thinning. Print Assumptions C29_first_last_partial. Print Assumptions C29_rejected. Print Assumptions C30_adaptive_partial.
Print Assumptions C31_collected_counter_partial.
