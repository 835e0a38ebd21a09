(** An alias with a Metropolis-Hastings solver (amagold, sggmc): the run in terms of the updates of the solver, with the three possible step size schedules. *)
From Coq Require Import Reals Lra ZArith String.
From Verif Require Import Base ListUtil Pytree PytreeSpec PytreeProofs Io IoSpec IoProofs IoFinal TreeUtil TreeUtilSpec TreeUtilProofs
  Xreal Scheduler SchedulerSpec SchedulerProofs StepSizeProofs PropertiesScheduler Solver SolverSpec SolverProofs SolverFinal PropertiesSolver Alias PropertiesAlias AliasSgld.
Open Scope R_scope.
Set Implicit Arguments.

(** ** Specification *)
(** dual averaging (Hoffman and Gelman, Algorithm 5; the step sizes are the averaged ones, adapted in the first [burn_in] iterations);
    acc i is the acceptance probability of iteration i, eps i its step size *)
Definition dual_averaging (burn_in : nat) (initial t0 kappa speed target : R) (acc eps : nat -> R) : Prop :=
  exists H X : nat -> R, H 0%nat = 0 /\ X 0%nat = ln initial /\ forall i, let t := INR (i + 1) in
    H (S i) = (1 - 1 / (t + t0)) * H i + 1 / (t + t0) * (target - acc i) /\
    X (S i) = (if (i <? burn_in)%nat then (1 - Rpower t (- kappa)) * X i + Rpower t (- kappa) * (ln (10 * initial) - sqrt t / speed * H (S i)) else X i) /\
    eps i = exp (X i).
(** the step sizes of an alias *)
Definition step_sizes (a : alias_args) (its : nat) (acc eps : nat -> R) : Prop :=
  match al_adaptive a with
  | Some p => dual_averaging (al_burn_in a) (ad_initial p) (ad_t0 p) (ad_kappa p) (ad_speed p) (ad_target p) acc eps
  | None => exists f l, al_first a = Fin f /\ al_last a = Fin l /\ falling its f l eps
  end.
(** the iterations whose samples are returned: n of them after burn-in, or all after burn-in *)
Definition selected (a : alias_args) (its : nat) (L : list nat) : Prop :=
  match al_accepted a with
  | Some n => length L = n /\ increasing L /\ forall i, In i L -> (al_burn_in a <= i < its)%nat
  | None => L = seq (al_burn_in a) (its - al_burn_in a)
  end.
(** arguments for which a run succeeds: adaptive without thinning, or 0 < last < first and at least two iterations; enough iterations *)
Definition good_args (a : alias_args) (its : nat) : Prop :=
  al_hot a = None /\
  match al_adaptive a with
  | Some p => 0 < ad_initial p /\ al_accepted a = None
  | None => exists f l, al_first a = Fin f /\ al_last a = Fin l /\ 0 < l < f /\ (2 <= its)%nat
  end /\
  match al_accepted a with Some n => (al_burn_in a + n <= its)%nat | None => (al_burn_in a <= its)%nat end.

(** ** Proofs *)
Notation good_stat a := (mkStats (Some (Fin a))).
Lemma ad_run_S target s accs a : ad_run target s (accs ++ [a]) = ad_update target (ad_run target s accs) (length accs) a.
Proof.
  unfold ad_run. rewrite fold_left_app. cbn [fold_left]. f_equal.
  assert (H : forall accs s i, snd (fold_left (fun si acc => (ad_update target (fst si) (snd si) acc, S (snd si))) accs (s, i)) = (i + length accs)%nat).
  { clear. induction accs as [|a accs IH]; intros s i; cbn; [lia|]. rewrite IH. lia. }
  rewrite H. reflexivity.
Qed.
Lemma ad_run_consts target p accs : let s := ad_run target (ad_init p) accs in
  as_burn_in s = ad_burn_in p /\ as_t0 s = ad_t0 p /\ as_kappa s = ad_kappa p /\ as_gamma s = ad_speed p /\ as_mu s = ln (10 * ad_initial p).
Proof.
  induction accs as [|a accs IH] using rev_ind; [cbn; auto|]. cbv zeta in *. rewrite ad_run_S. cbn. exact IH.
Qed.

Section Steps.
Variables (Key : Type) (choice : Key -> list xr -> nat -> list nat) (tk : Key) (a : alias_args) (its : nat).
Hypothesis Hgood : good_args a its.
Notation init := (sched_init (al_step a) al_temp (al_burn a) (al_thin choice tk a) (al_progress_bar a) its (no_kw (al_step a) al_temp (al_burn a) (al_thin choice tk a))).
(** step size as a function of the acceptance probabilities so far *)
Lemma steps_of_acceptances : exists E : list R -> R, (forall acc, step_sizes a its acc (fun i => E (map acc (seq 0 i)))) /\ (forall accs, 0 < E accs) /\
  forall main sc, init = Ok (main, sc) -> forall accs, (length accs < its)%nat ->
    let sch := sched_get _ _ _ _ (after _ _ _ _ main (map (fun x => good_stat x) accs)) in sch_step sch = Fin (E accs) /\ sch_temperature sch = Fin 1.
Proof.
  destruct Hgood as (Hh & Hst & Hacc). unfold step_sizes. destruct (al_adaptive a) as [p|] eqn:Ha.
  - clear Hacc. set (p' := mkAd (al_burn_in a) (ad_initial p) (ad_t0 p) (ad_kappa p) (ad_speed p) (ad_target p)).
    exists (fun accs => ad_get (ad_run (ad_target p') (ad_init p') accs)). split; [|split].
    + intros acc. exists (fun i => as_hbar (ad_run (ad_target p') (ad_init p') (map acc (seq 0 i)))), (fun i => as_xbar (ad_run (ad_target p') (ad_init p') (map acc (seq 0 i)))).
      split; [reflexivity|]. split; [reflexivity|]. intros i t. rewrite seq_S, map_app. cbn [map plus]. rewrite ad_run_S, map_length, seq_length.
      destruct (ad_run_consts (ad_target p') p' (map acc (seq 0 i))) as (C1 & C2 & C3 & C4 & C5). set (s := ad_run (ad_target p') (ad_init p') (map acc (seq 0 i))) in *. clearbody s.
      unfold ad_update. cbn [as_hbar as_xbar]. fold t. rewrite C1, C2, C3, C4, C5. cbn [p' ad_burn_in ad_t0 ad_kappa ad_speed ad_initial ad_target].
      split; [ring|]. split; [|reflexivity]. destruct (i <? al_burn_in a)%nat; [|reflexivity]. ring.
    + intros accs. apply exp_pos.
    + intros main sc Hi accs Hl. destruct (@C24_schedule_of_iteration _ _ _ _ _ _ _ _ _ Hi) as (s0 & t0 & b0 & nb & h0 & nh & I1 & I2 & _ & _ & _ & I3).
      cbv zeta. rewrite I3. cbn [sch_step sch_temperature]. split.
      * assert (Es : al_step a = adaptive_step_size p') by (unfold al_step; rewrite Ha; reflexivity).
        clear I3 Hi main. cbn [no_kw kw_step] in I1. revert s0 I1. rewrite Es. intros s0 I1. rewrite map_length. apply (@C30_scheduler p' None its s0 I1).
      * cbn in I2. injection I2 as <-. rewrite evolve_static by reflexivity. reflexivity.
  - destruct Hst as (f & l & Hf & Hl & Hfl & Hi). destruct (@alias_main_schedule Key choice tk a its f l Ha Hf Hl Hfl Hi) as (eps & HE & HM).
    exists (fun accs => eps (length accs)). split; [|split].
    + intros acc. exists f, l. split; [auto|]. split; [auto|]. destruct HE as (E1 & E2 & E3 & E4). unfold falling.
      split; [cbn; auto|]. split; [rewrite map_length, seq_length; auto|]. split; [intros i; apply E3|]. intros i j Hij. rewrite !map_length, !seq_length. auto.
    + intros accs. apply HE.
    + intros main sc E accs Hlen. specialize (HM main sc E (map (fun x => good_stat x) accs)). rewrite map_length in HM. exact (HM Hlen).
Qed.
End Steps.

Lemma firstn_snoc A (x : A) : forall i xs, nth_error xs i = Some x -> firstn (S i) xs = firstn i xs ++ [x].
Proof. induction i as [|i IH]; intros [|y l] H; try discriminate; cbn in *; [congruence|]. f_equal. now apply IH. Qed.

Section Run.
Variables (V : Type) (so : solver V) (Inv : so_state so -> Prop) (upd : R -> so_state so -> so_state so * R).
Hypothesis Hone : so_schedules so = 1%nat.
Hypothesis HK : keeps_structure so.
Hypothesis Hupd : forall st sch e, Inv st -> 0 < e -> sch_step sch = Fin e -> sch_temperature sch = Fin 1 ->
  so_update so st [sch] = (fst (upd e st), Some (good_stat (snd (upd e st)))) /\ Inv (fst (upd e st)).
Lemma mh_run Key (choice : Key -> list xr -> nat -> list nat) tk (z : V -> V) : choice_ok choice -> forall a its, good_args a its -> forall h states,
  exists results, snd (al_run choice tk a z so (fst (run (mstep z) (mc_new false) h)) states its) = Some (Ok results) /\
    Forall2 (fun s0 r => Inv s0 -> exists (eps acc : nat -> R) (st : nat -> so_state so) L,
      st 0%nat = s0 /\ (forall i, (i <= its)%nat -> Inv (st i)) /\ (forall i, 0 < eps i) /\
      (forall i, (i < its)%nat -> st (S i) = fst (upd (eps i) (st i)) /\ acc i = snd (upd (eps i) (st i))) /\
      step_sizes a its acc eps /\ selected a its L /\ fst r = length L /\ exactly_samples (map (fun i => so_get so (st (S i))) L) (snd r)) states results.
Proof.
  intros Hc a its Hg h states. destruct (@steps_of_acceptances Key choice tk a its Hg) as (E & HE & HEp & HM). destruct Hg as (Hh & Hst & Hacc).
  assert (HGS : good_steps a its). { unfold good_steps. destruct (al_adaptive a); [exact I|exact Hst]. }
  assert (Har : so_schedules so = match al_hot a with Some _ => 2 | None => 1 end%nat) by (now rewrite Hh).
  assert (RET : exists results, snd (al_run choice tk a z so (fst (run (mstep z) (mc_new false) h)) states its) = Some (Ok results) /\
    Forall2 (fun s0 r => exists L, selected a its L /\ returns choice tk so a its L s0 r) states results).
  { unfold selected. destruct (al_accepted a) as [n|] eqn:En.
    - assert (Ha : al_adaptive a = None). { destruct (al_adaptive a); [|reflexivity]. destruct Hst as [_ Q]. congruence. }
      destruct (@C51_accepted_samples Key choice Hc tk V z so HK a Har n its Ha En HGS Hacc h states) as (rs & R1 & R2). exists rs. split; [exact R1|].
      eapply Forall2_impl; [|exact R2]. intros s0 r (L & L1 & L2 & L3 & L4). exists L. auto.
    - destruct (@C51_no_thinning Key choice tk V z so HK a Har its En HGS Hacc h states) as (rs & R1 & R2). exists rs. split; [exact R1|].
      eapply Forall2_impl; [|exact R2]. intros s0 r L4. eexists. split; [reflexivity|exact L4]. }
  destruct RET as (rs & R1 & R2). exists rs. split; [exact R1|]. eapply Forall2_impl; [|exact R2]. clear R1 R2.
  intros s0 r (L & LS & (main & helpers & sts & xs & (sc & I1) & I2 & I3 & I4 & I5)) Hinv0.
  assert (EH : helpers = []). { unfold al_helpers in I2. rewrite Hh in I2. cbn in I2. congruence. } subst helpers.
  destruct I3 as (J1 & J2 & J3 & J4).
  set (acc := fun i => match nth_error xs i with Some (good_stat x) => x | _ => 0 end).
  set (eps := fun i => E (map acc (seq 0 i))). set (st := fun i => match nth_error sts i with Some s => s | None => s0 end).
  assert (KEY : forall i, (i <= its)%nat -> Inv (st i) /\ firstn i xs = map (fun x => good_stat x) (map acc (seq 0 i)) /\
     forall j, (j < i)%nat -> st (S j) = fst (upd (eps j) (st j)) /\ acc j = snd (upd (eps j) (st j))).
  { induction i as [|i IH]; intros Hi.
    - split; [unfold st; rewrite J3; exact Hinv0|]. split; [reflexivity|]. intros j Hj. lia.
    - destruct (IH ltac:(lia)) as (K1 & K2 & K3).
      assert (Es : nth_error sts i = Some (st i)). { unfold st. destruct (nth_error sts i) eqn:Q; [reflexivity|]. apply nth_error_None in Q. lia. }
      destruct (J4 i _ ltac:(lia) Es) as (s' & x & U1 & U2 & U3). cbn [map] in U1. rewrite K2 in U1.
      destruct (HM main sc I1 (map acc (seq 0 i))) as (M1 & M2); [rewrite map_length, seq_length; lia|].
      destruct (@Hupd _ _ _ K1 (HEp _) M1 M2) as (W1 & W2). rewrite W1 in U1. injection U1 as <- <-. cbn in U3.
      assert (ES : st (S i) = fst (upd (eps i) (st i))) by (unfold st at 1; rewrite U2; reflexivity).
      assert (EA : acc i = snd (upd (eps i) (st i))) by (unfold acc at 1; rewrite U3; reflexivity).
      split; [rewrite ES; exact W2|]. split.
      + assert (EF : firstn (S i) xs = firstn i xs ++ [good_stat (acc i)]).
        { apply firstn_snoc. rewrite U3, EA. reflexivity. }
        rewrite EF, K2, seq_S, !map_app. reflexivity.
      + intros j Hj. destruct (Nat.eq_dec j i) as [-> | Hne]; [auto|]. apply K3. lia. }
  exists eps, acc, st, L. split; [unfold st; now rewrite J3|]. split; [intros i Hi; apply KEY; exact Hi|]. split; [intros i; apply HEp|].
  split; [intros i Hi; apply (KEY its (le_n _)); exact Hi|]. split; [apply HE|]. split; [exact LS|]. split; [exact I4|].
  rewrite <- (@samples_map _ so sts _ L); [exact I5|]. intros i Hi. exists (st (S i)). split; [|reflexivity].
  assert (Hr : (i < its)%nat). { unfold selected in LS. destruct (al_accepted a); [apply LS in Hi; lia|]. subst L. apply in_seq in Hi. lia. }
  unfold st. destruct (nth_error sts (S i)) eqn:Q; [reflexivity|]. apply nth_error_None in Q. lia.
Qed.
End Run.
