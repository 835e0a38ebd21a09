(** C26 continued: random_thinning with arbitrary step sizes, also zero, negative, infinite and NaN ones. *)
From Coq Require Import Reals Lra ZArith Permutation.
From Verif Require Import Base ListUtil Xreal Scheduler SchedulerSpec SchedulerProofs StepSizeProofs PropertiesScheduler.
Open Scope R_scope.
Set Implicit Arguments.

(** the step sizes of the schedule, if it gets no statistics *)
Definition any_step_sizes {X} (ss : specific xr X) (iterations : nat) (v : nat -> xr) : Prop :=
  exists s0, sp_init ss iterations (sp_nokw ss) = Ok s0 /\
    forall i, (i < iterations)%nat -> sp_get ss (evolve ss (fst s0) 0 (repeat no_stats i)) i no_stats = v i.
(** iteration i can be drawn with burn-in n: after burn-in if its step size is not zero; a step size that is not finite makes the weight NaN before burn-in and NaN or infinite
    after it, and both count as not zero *)
Definition drawable (n : nat) (v : nat -> xr) (i : nat) : bool :=
  match v i with
  | Fin r => (n <=? i)%nat && (if Req_EM_T r 0 then false else true)
  | _ => true
  end.

Lemma nonzero_drawable n v i : xnonzero (xmul (v i) (if (n <=? i)%nat then Fin 1 else Fin 0)) = drawable n v i.
Proof.
  unfold drawable. destruct (v i) as [r| | |]; destruct (n <=? i)%nat; cbn [xmul xnonzero andb]; auto.
  - rewrite Rmult_1_r. reflexivity.
  - rewrite Rmult_0_r. destruct (Req_EM_T 0 0); congruence.
  - unfold xinf. destruct (Rlt_dec 0 1); auto. destruct (Rlt_dec 1 0); auto.
  - rewrite xinf_0. reflexivity.
  - unfold xinf. destruct (Rlt_dec 0 1); cbn; auto. destruct (Rlt_dec 1 0); auto.
  - rewrite xinf_0. reflexivity.
Qed.

(** the iterations that can be drawn decide whether random_thinning accepts the number of selections; of the drawn iterations those after burn-in are saved *)
Theorem C26_any_steps : forall Key (choice : Key -> list xr -> nat -> list nat), choice_ok choice ->
  forall ss te pb X (ss' : specific xr X) selections key n iterations v, any_step_sizes ss' iterations v ->
  (exists s, sp_init ss iterations (sp_nokw ss) = Ok s) -> (exists s, sp_init te iterations (sp_nokw te) = Ok s) ->
  let th := random_thinning Key choice ss' (initial_burn_in n) selections key in
  let init := sched_init ss te (initial_burn_in n) th pb iterations (no_kw _ _ _ _) in
  let can := filter (drawable n v) (seq 0 iterations) in
  ((selections <= length can)%nat -> exists st0 L, init = Ok (st0, Z.min (Z.of_nat selections) (Z.of_nat iterations - Z.of_nat n)) /\
     length L = selections /\ NoDup L /\ (forall i, In i L -> In i can) /\
     forall xs, length xs = iterations -> Permutation (kept_its _ _ _ _ st0 xs) (filter (fun i => (n <=? i)%nat) L)) /\
  ((length can < selections)%nat -> init = Exc AssertionError).
Proof.
  intros Key choice Hc ss te pb X ss' k key n its v (s0 & E0 & Hv) (s1 & Es) (t1 & Et) th init can.
  set (probs := th_probs ss' (initial_burn_in n) (fst s0) n (seq 0 its)).
  assert (PL : length probs = its) by (unfold probs; rewrite th_probs_length, seq_length; reflexivity).
  assert (PN : forall i x, nth_error probs i = Some x -> (i < its)%nat /\ xnonzero x = drawable n v i).
  { intros i x Hi. assert (Hlt : (i < its)%nat) by (rewrite <- PL; apply nth_error_Some; congruence). split; [exact Hlt|].
    unfold probs in Hi. rewrite (@th_probs_spec X ss' n (fst s0) its i Hlt), (Hv i Hlt) in Hi. injection Hi as <-. apply nonzero_drawable. }
  assert (CN : count_nonzero probs = length can). { unfold count_nonzero, can. rewrite (@filter_map_length probs (drawable n v)), PL; [reflexivity|]. intros i x Hi. now apply PN. }
  assert (TH : th_init Key choice ss' (initial_burn_in n) k key its = if (k <=? length can)%nat then Ok (choice key probs k, Z.of_nat k) else Exc AssertionError).
  { unfold th_init. rewrite E0. cbn [bind]. cbn [initial_burn_in sp_init sp_nokw kwarg bind fst]. fold probs. now rewrite CN. }
  split.
  - intros Hle. rewrite (proj2 (Nat.leb_le _ _) Hle) in TH. destruct (Hc key probs k) as (H1 & H2 & H3); [now rewrite CN|].
    assert (Ei : exists st0, init = Ok (st0, Z.min (Z.of_nat k) (Z.of_nat its - Z.of_nat n))).
    { unfold init, th, sched_init. cbn [no_kw kw_burn kw_thin kw_step kw_temp initial_burn_in random_thinning sp_init sp_nokw kwarg].
      rewrite TH. cbn [bind snd]. rewrite Es. cbn [bind]. rewrite Et. cbn [bind]. eexists. reflexivity. }
    destruct Ei as (st0 & Ei). exists st0, (choice key probs k). split; [exact Ei|]. split; [exact H1|]. split; [exact H2|].
    assert (IC : forall i, In i (choice key probs k) -> In i can).
    { intros i Hi. destruct (H3 i Hi) as (x & Hx & Hn). destruct (PN i x Hx) as [Hlt Hd]. apply filter_In. split; [apply in_seq; lia|congruence]. }
    split; [exact IC|]. intros xs Hxs. destruct (thinning_kept _ _ _ _ _ _ _ _ _ _ _ _ _ _ _ Ei) as (L' & EL' & _ & Hk). rewrite TH in EL'. injection EL' as <-.
    apply NoDup_Permutation; [apply kept_its_NoDup|now apply NoDup_filter|]. intros i. unfold th. rewrite filter_In, (Hk xs Hxs i), Nat.leb_le. split; [tauto|].
    intros [A B]. split; [|auto]. apply IC, filter_In in A. destruct A as [A _]. apply in_seq in A. lia.
  - intros Hlt. rewrite (proj2 (Nat.leb_gt _ _) Hlt) in TH. unfold init, th, sched_init. cbn [no_kw kw_burn kw_thin random_thinning sp_init sp_nokw kwarg]. rewrite TH. reflexivity.
Qed.

Lemma drawable_nan n l : filter (drawable n (fun _ => NaN)) l = l.
Proof. induction l as [|x l IH]; [reflexivity|exact (f_equal (cons x) IH)]. Qed.
(** What fails: with equal first and last step sizes (which give NaN step sizes, C29) more selections than iterations after burn-in are not rejected, and then fewer samples are saved than requested *)
Theorem C26_not_a_number_refuted : forall Key (choice : Key -> list xr -> nat -> list nat), choice_ok choice ->
  forall ss te pb selections key n iterations f g, 0 < g -> 0 < f -> (2 <= iterations)%nat ->
  (exists s, sp_init ss iterations (sp_nokw ss) = Ok s) -> (exists s, sp_init te iterations (sp_nokw te) = Ok s) ->
  (iterations - n < selections <= iterations)%nat ->
  exists st0, sched_init ss te (initial_burn_in n) (random_thinning Key choice (polynomial_step_size_first_last (Fin f) (Fin f) (Fin g)) (initial_burn_in n) selections key) pb iterations (no_kw _ _ _ _) =
      Ok (st0, (Z.of_nat iterations - Z.of_nat n)%Z) /\
    forall xs, length xs = iterations -> (length (kept_its _ _ _ _ st0 xs) < selections)%nat.
Proof.
  intros Key choice Hc ss te pb k key n its f g Hg Hf Hits Es Et Hk.
  assert (Hv : any_step_sizes (polynomial_step_size_first_last (Fin f) (Fin f) (Fin g)) its (fun _ => NaN)).
  { exists (repeat NaN its, tt). split; [cbn; rewrite first_last_equal by auto; reflexivity|]. intros i Hi. cbn [fst]. rewrite evolve_static by reflexivity. cbn [polynomial_step_size_first_last sp_get].
    unfold clamp_get. rewrite repeat_length. apply nth_repeat. }
  destruct (@C26_any_steps Key choice Hc ss te pb unit _ k key n its _ Hv Es Et) as [H _].
  pose proof (drawable_nan n (seq 0 its)) as CN.
  rewrite CN in H. destruct H as (st0 & L & Ei & HL & ND & HI & HK); [rewrite seq_length; lia|]. exists st0. split; [rewrite Ei; do 2 f_equal; lia|].
  intros xs Hx. rewrite (Permutation_length (HK xs Hx)). assert ((length (filter (fun i => (n <=? i)%nat) L) <= length (seq n (its - n)))%nat).
  { apply NoDup_incl_length; [now apply NoDup_filter|]. intros i Hi. apply filter_In in Hi. destruct Hi as [A B]. apply HI, in_seq in A. apply Nat.leb_le in B. apply in_seq. lia. }
  rewrite seq_length in H. lia.
Qed.
Print Assumptions C26_any_steps. Print Assumptions C26_not_a_number_refuted.

(** two iterations, no burn-in, first step size 1, second step size 0: one iteration can be drawn, and only the first *)
Example C26_any_nonvacuous : any_step_sizes (polynomial_step_size_first_last (Fin 1) (Fin 1) (Fin (33 / 100))) 10 (fun _ => NaN) /\ choice_ok first_choice /\
  drawable 0 (fun i => if (i =? 0)%nat then Fin 1 else Fin 0) 0 = true /\ drawable 0 (fun i => if (i =? 0)%nat then Fin 1 else Fin 0) 1 = false /\ drawable 1 (fun _ => Fin 1) 0 = false /\ drawable 1 (fun _ => NaN) 0 = true.
Proof.
  split; [|split; [exact first_choice_ok|]].
  - exists (repeat NaN 10, tt). split; [cbn [polynomial_step_size_first_last sp_init sp_nokw kwarg]; rewrite first_last_equal by (try lra; lia); reflexivity|]. intros i Hi. cbn [fst]. rewrite evolve_static by reflexivity. cbn [polynomial_step_size_first_last sp_get].
    unfold clamp_get. rewrite repeat_length. apply nth_repeat.
  - unfold drawable. cbn. destruct (Req_EM_T 1 0); [lra|]. destruct (Req_EM_T 0 0); [|congruence]. auto.
Qed.
