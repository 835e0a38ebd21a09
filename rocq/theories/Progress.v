(** The messages of the progress bar, scheduler.py:285-364 (C65). *)
From Coq Require Import Reals ZArith Lia.
From Verif Require Import Base ListUtil Xreal Scheduler SchedulerSpec SchedulerProofs.
Open Scope nat_scope.

(** what _print_fn prints, scheduler.py:297-307: "[Step current/total](percentage%) Collected collected of samples samples..." *)
Record message := mkMsg { msg_current : nat; msg_total : nat; msg_percentage : nat; msg_collected : nat; msg_samples : Z }.
(** round(current / total * 100): Python rounds to the nearest integer, ties to the even one (the rounding errors of the float operations are not modelled) *)
(** scheduler.py:312-313 *)
Definition py_round (num den : nat) : nat :=
  let q := num / den in let r := num mod den in
  match Nat.compare (2 * r) den with Lt => q | Gt => S q | Eq => if Nat.even q then q else S q end.
Section Bar.
Variables (ss te : specific xr unit) (bi th : specific bool Z).
(** jnp.mod(_, 0) is different in different versions of jax *)
Variable mod_by_zero : nat -> nat.
(** scheduler.py:359 *)
Definition jnp_mod (i n : nat) : nat := if n =? 0 then mod_by_zero i else i mod n.
(** state of the progress bar besides the counter, init_fn, scheduler.py:309-316: number of messages (progress_bar_steps), number of samples; it is on *)
Variables (steps : nat) (tot_samples : Z).
(** step_fn, scheduler.py:318-362: the message (if any) that is printed by the update of the scheduler in state st with the statistics x; the counter already includes
    the sample of this iteration.  [Some c]: progress_bar=True. *)
Definition progress_message (st : sched_state ss te bi th) (x : stats) : option message :=
  match sc_collected _ _ _ _ st, sc_collected _ _ _ _ (sched_update ss te bi th st x) with
  | Some _, Some collected_samples =>
      let iterations := sc_total _ _ _ _ st in let iteration := sc_iteration _ _ _ _ st in
      let num_its := iterations / steps in
      if jnp_mod iteration num_its =? 0
      then Some (mkMsg iteration iterations (py_round (iteration * 100) iterations) collected_samples tot_samples)
      else None
  | _, _ => None
  end.
(** everything that is printed while the scheduler is updated with xs *)
(** repeated calls of scheduler.py:332-366 *)
Fixpoint printed (st : sched_state ss te bi th) (xs : list stats) : list message :=
  match xs with
  | [] => []
  | x :: r => match progress_message st x with Some m => [m] | None => [] end ++ printed (sched_update ss te bi th st x) r
  end.

(** ** Specification *)
(** p is the percentage i / n rounded to the nearest integer, and to the even one of two equally near integers *)
(** specification, no code of /repo *)
Definition nearest_percentage (i n p : nat) : Prop := 2 * (n * p) <= 2 * (100 * i) + n /\ 2 * (100 * i) <= 2 * (n * p) + n /\
  (2 * (n * p) = 2 * (100 * i) + n \/ 2 * (100 * i) = 2 * (n * p) + n -> Nat.even p = true).
(** a message that tells the truth about iteration i of a run with the statistics xs *)
(** specification, no code of /repo *)
Definition correct_message (st0 : sched_state ss te bi th) (xs : list stats) (samples : Z) (i : nat) (m : message) : Prop :=
  msg_current m = i /\ msg_total m = length xs /\ nearest_percentage i (length xs) (msg_percentage m) /\
  msg_collected m = length (kept_its ss te bi th st0 (firstn (S i) xs)) /\ msg_samples m = samples.

Lemma py_round_ok i n : 0 < n -> nearest_percentage i n (py_round (i * 100) n).
Proof.
  intros Hn. unfold nearest_percentage, py_round. pose proof (Nat.div_mod (i * 100) n ltac:(lia)) as E. pose proof (Nat.mod_upper_bound (i * 100) n ltac:(lia)) as L.
  set (q := i * 100 / n) in *. set (r := (i * 100) mod n) in *. clearbody q r.
  assert (Ev : Nat.even (S q) = negb (Nat.even q)) by (rewrite Nat.even_succ, <- Nat.negb_even; reflexivity).
  destruct (Nat.compare_spec (2 * r) n); [destruct (Nat.even q) eqn:Q| |]; (split; [nia|]; split; [nia|]); intros T; rewrite ?Ev, ?Q; try reflexivity; exfalso; nia.
Qed.
Lemma sched_init_start its kw st0 sc pb : sched_init ss te bi th pb its kw = Ok (st0, sc) ->
  sc_iteration _ _ _ _ st0 = 0 /\ sc_total _ _ _ _ st0 = its /\ sc_collected _ _ _ _ st0 = (if pb then Some 0 else None).
Proof.
  intros H. unfold sched_init in H.
  destruct (sp_init th its (kw_thin _ _ _ _ kw)) as [[h0 nh]|e]; [|discriminate]. cbn [bind] in H.
  destruct (sp_init bi its (kw_burn _ _ _ _ kw)) as [[b0 nb]|e]; [|discriminate]. cbn [bind] in H.
  destruct (sp_init ss its (kw_step _ _ _ _ kw)) as [[s0 []]|e]; [|discriminate]. cbn [bind] in H.
  destruct (sp_init te its (kw_temp _ _ _ _ kw)) as [[t0 []]|e]; [|discriminate]. cbn [bind] in H.
  inversion H; subst. auto.
Qed.
Lemma printed_app xs ys st : printed st (xs ++ ys) = printed st xs ++ printed (after ss te bi th st xs) ys.
Proof. revert st. induction xs as [|x xs IH]; intros st; [reflexivity|]. cbn [app printed]. rewrite IH, app_assoc. reflexivity. Qed.
Lemma after_iteration xs st : sc_iteration _ _ _ _ (after ss te bi th st xs) = sc_iteration _ _ _ _ st + length xs /\ sc_total _ _ _ _ (after ss te bi th st xs) = sc_total _ _ _ _ st.
Proof.
  revert st. induction xs as [|x xs IH]; intros st; [cbn; lia|]. unfold after. cbn [fold_left]. fold (after ss te bi th (sched_update ss te bi th st x) xs). destruct (IH (sched_update ss te bi th st x)) as [H1 H2].
  rewrite H1, H2. cbn. lia.
Qed.

(** the messages are those of the iterations with jnp_mod i num_its = 0, and they are correct *)
Lemma printed_list its kw st0 sc xs0 : static_sched bi -> static_sched th -> sched_init ss te bi th true its kw = Ok (st0, sc) -> length xs0 = its -> tot_samples = sc ->
  forall n, n <= its -> Forall2 (correct_message st0 xs0 sc) (filter (fun i => jnp_mod i (its / steps) =? 0) (seq 0 n)) (printed st0 (firstn n xs0)).
Proof.
  intros Sb St Hi Hl Ht n. destruct (sched_init_start _ _ _ _ _ Hi) as (I1 & I2 & I3). induction n as [|n IH]; intros Hn; [constructor|].
  assert (Hx : exists x, nth_error xs0 n = Some x). { destruct (nth_error xs0 n) eqn:E; [eauto|]. apply nth_error_None in E. lia. } destruct Hx as [x Hx].
  assert (EF : firstn (S n) xs0 = firstn n xs0 ++ [x]).
  { clear -Hx. revert n Hx. induction xs0 as [|y l IH]; intros [|n] H; try discriminate; cbn in *; [congruence|]. f_equal. now apply IH. }
  rewrite seq_S, filter_app, EF, printed_app. apply Forall2_app; [apply IH; lia|]. cbn [printed filter plus].
  pose proof (final_collected ss te bi th its kw st0 sc Sb St Hi) as FC.
  destruct (after_iteration (firstn n xs0) st0) as [A1 A2]. rewrite I1, firstn_length in A1. rewrite I2 in A2. replace (Nat.min n (length xs0)) with n in A1 by lia.
  unfold progress_message. rewrite FC. change (sched_update ss te bi th (after ss te bi th st0 (firstn n xs0)) x) with (after ss te bi th (after ss te bi th st0 (firstn n xs0)) [x]).
  assert (EA : after ss te bi th (after ss te bi th st0 (firstn n xs0)) [x] = after ss te bi th st0 (firstn (S n) xs0)). { rewrite EF. unfold after. now rewrite fold_left_app. }
  rewrite EA, FC, A1, A2. cbn [plus]. destruct (jnp_mod n (its / steps) =? 0); cbn; constructor; [|constructor].
  split; [reflexivity|]. cbn [msg_total msg_percentage msg_collected msg_samples]. split; [auto|]. split; [rewrite Hl; apply py_round_ok; lia|]. split; [reflexivity|exact Ht].
Qed.
Lemma filter_multiples q n : 0 < q -> filter (fun i => i mod q =? 0) (seq 0 n) = map (fun j => j * q) (seq 0 (ceil_div n q)).
Proof.
  intros Hq. induction n as [|n IH]; [unfold ceil_div; cbn; rewrite Nat.div_small by lia; reflexivity|].
  rewrite seq_S, filter_app, IH. cbn [filter plus]. pose proof (Nat.div_mod n q ltac:(lia)) as E. pose proof (Nat.mod_upper_bound n q ltac:(lia)) as L.
  assert (C1 : ceil_div n q = n / q + (if n mod q =? 0 then 0 else 1)).
  { unfold ceil_div. symmetry. destruct (Nat.eqb_spec (n mod q) 0).
    - apply (Nat.div_unique _ _ _ (q - 1)); nia.
    - apply (Nat.div_unique _ _ _ (n mod q - 1)); nia. }
  assert (C2 : ceil_div (S n) q = n / q + 1).
  { unfold ceil_div. symmetry. apply (Nat.div_unique _ _ _ (n mod q)); nia. }
  rewrite C1, C2. destruct (Nat.eqb_spec (n mod q) 0).
  - rewrite Nat.add_0_r, Nat.add_1_r, seq_S, map_app. cbn [map plus]. do 2 f_equal. lia.
  - now rewrite app_nil_r.
Qed.

(** ** Theorems *)
Hypothesis Hsteps : 0 < steps.
Theorem C65_messages : forall iterations kw st0, static_sched bi -> static_sched th -> sched_init ss te bi th true iterations kw = Ok (st0, tot_samples) ->
  forall xs, length xs = iterations -> steps <= iterations ->
  exists q count, q = iterations / steps /\ 0 < q /\
    Forall2 (correct_message st0 xs tot_samples) (map (fun j => j * q) (seq 0 count)) (printed st0 xs) /\
    (forall j, j < count <-> j * q < iterations) /\ steps <= count < 2 * steps.
Proof.
  intros its kw st0 Sb St Hi xs Hl Hge. set (q := its / steps). assert (Hq : 0 < q) by (apply Nat.div_str_pos; lia).
  exists q, (ceil_div its q). split; [reflexivity|]. split; [exact Hq|].
  pose proof (printed_list its kw st0 tot_samples xs Sb St Hi Hl eq_refl its (le_n _)) as H. assert (EF : firstn its xs = xs) by (rewrite <- Hl; apply firstn_all). rewrite EF in H. fold q in H.
  rewrite (filter_ext _ (fun i => i mod q =? 0)) in H by (intros i; unfold jnp_mod; destruct (Nat.eqb_spec q 0); [lia|reflexivity]).
  rewrite filter_multiples in H by exact Hq. split; [exact H|].
  assert (C : forall j, j < ceil_div its q <-> j * q < its).
  { intros j. unfold ceil_div. pose proof (Nat.div_mod (its + q - 1) q ltac:(lia)) as E. pose proof (Nat.mod_upper_bound (its + q - 1) q ltac:(lia)) as L.
    set (c := (its + q - 1) / q) in *. clearbody c. split; intros; nia. }
  split; [exact C|].
  pose proof (Nat.div_mod its steps ltac:(lia)) as E. pose proof (Nat.mod_upper_bound its steps ltac:(lia)) as L. fold q in E.
  pose proof (C (steps - 1)) as C1. pose proof (C (2 * steps - 1)) as C2. split; [|].
  - assert ((steps - 1) * q < its) by nia. apply C1 in H0. lia.
  - destruct (Nat.lt_ge_cases (ceil_div its q) (2 * steps)) as [|G]; auto. exfalso. assert (Q : (2 * steps - 1) * q < its) by (apply C2; lia). nia.
Qed.
(** with fewer iterations than messages the divisor is 0: a message is printed wherever jnp.mod(i, 0) = 0 *)
Theorem C65_few_iterations : forall iterations kw st0, static_sched bi -> static_sched th -> sched_init ss te bi th true iterations kw = Ok (st0, tot_samples) ->
  forall xs, length xs = iterations -> iterations < steps ->
  Forall2 (correct_message st0 xs tot_samples) (filter (fun i => mod_by_zero i =? 0) (seq 0 iterations)) (printed st0 xs).
Proof.
  intros its kw st0 Sb St Hi xs Hl Hlt. pose proof (printed_list its kw st0 tot_samples xs Sb St Hi Hl eq_refl its (le_n _)) as H. assert (EF : firstn its xs = xs) by (rewrite <- Hl; apply firstn_all). rewrite EF in H.
  rewrite Nat.div_small in H by exact Hlt. exact H.
Qed.
Theorem C65_off : forall iterations kw st0 sc, sched_init ss te bi th false iterations kw = Ok (st0, sc) -> forall xs, printed st0 xs = [].
Proof.
  intros its kw st0 sc Hi xs. destruct (sched_init_start _ _ _ _ _ Hi) as (_ & _ & I3). clear Hi. revert st0 I3. induction xs as [|x xs IH]; intros st I; [reflexivity|].
  cbn [printed]. unfold progress_message. rewrite I. cbn [app]. apply IH. cbn. now rewrite I.
Qed.
End Bar.
(** ten iterations, burn-in of 4, three messages wanted: four are printed *)
Example C65_nonvacuous : exists st0, sched_init (constant_temperature (Fin 1)) (constant_temperature (Fin 1)) (initial_burn_in 4) accept_all true 10 (no_kw _ _ _ _) = Ok (st0, 6%Z) /\
  static_sched (initial_burn_in 4) /\ static_sched accept_all /\
  printed _ _ _ _ (fun _ => 0) 3 6 st0 (repeat no_stats 10) = [mkMsg 0 10 0 0 6; mkMsg 3 10 30 0 6; mkMsg 6 10 60 3 6; mkMsg 9 10 90 6 6].
Proof. eexists. split; [reflexivity|]. split; [apply static_burn_in|]. split; [apply static_accept_all|]. vm_compute. reflexivity. Qed.
Print Assumptions C65_messages.
Print Assumptions C65_few_iterations.
Print Assumptions C65_off.
