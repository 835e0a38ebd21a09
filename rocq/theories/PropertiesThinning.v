(** C82: random_thinning selects the saved iterations with probabilities given by the step sizes. *)
From Coq Require Import Reals Lra ZArith ListDec.
From Verif Require Import Base ListUtil TreeUtil TreeUtilSpec TreeUtilProofs Xreal Scheduler SchedulerSpec SchedulerProofs StepSizeProofs PropertiesScheduler.
Open Scope R_scope.
Set Implicit Arguments.

(** ** Specification *)
(** the weight of j is set to zero *)
Definition without (w : nat -> R) (j : nat) : nat -> R := fun l => if (l =? j)%nat then 0 else w l.
(** the probability that i is among k numbers drawn from 0 .. n - 1 one after another without replacement, every draw with probabilities proportional to the weights of the numbers that
    are left *)
Fixpoint selected (k : nat) (w : nat -> R) (n i : nat) : R :=
  match k with
  | O => 0
  | S k' => sum_upto n (fun j => w j / sum_upto n w * (if (j =? i)%nat then 1 else selected k' (without w j) n i))
  end.
(** jax.random.choice(key, arange(n), (k,), replace=False, p=w) draws in this way, when its key is random (E is the expectation over the key) *)
Definition draws_by_weight {Key} (E : (Key -> R) -> R) (choice : Key -> list xr -> nat -> list nat) (n : nat) (w : nat -> R) (k : nat) : Prop :=
  (forall f g, (forall key, f key = g key) -> E f = E g) /\
  forall i, E (fun key => if existsb (Nat.eqb i) (choice key (map (fun j => Fin (w j)) (seq 0 n)) k) then 1 else 0) = selected k w n i.
(** the step sizes of the schedule, if it gets no statistics *)
Definition step_sizes {X} (ss : specific xr X) (iterations : nat) (eps : nat -> R) : Prop :=
  exists s0, sp_init ss iterations (sp_nokw ss) = Ok s0 /\
    forall i, (i < iterations)%nat -> sp_get ss (evolve ss (fst s0) 0 (repeat no_stats i)) i no_stats = Fin (eps i).
(** the weights: the step size after burn-in, zero before *)
Definition weights (n : nat) (eps : nat -> R) (i : nat) : R := if (n <=? i)%nat then eps i else 0.
(** the iterations, among the first length xs, that are saved by a scheduler with burn-in n and random thinning with this key; xs are the statistics that the solver reports *)
Definition saved_its {Key} (choice : Key -> list xr -> nat -> list nat) (ss te : specific xr unit) pb {X} (ss' : specific xr X) n selections iterations xs (key : Key) : list nat :=
  match sched_init ss te (initial_burn_in n) (random_thinning Key choice ss' (initial_burn_in n) selections key) pb iterations (no_kw _ _ _ _) with
  | Ok (st0, _) => kept_its _ _ _ _ st0 xs
  | Exc _ => []
  end.
(** the probability that iteration i is saved *)
Definition saved_probability {Key} (E : (Key -> R) -> R) choice ss te pb {X} (ss' : specific xr X) n selections iterations xs i : R :=
  E (fun key => if existsb (Nat.eqb i) (saved_its choice ss te pb ss' n selections iterations xs key) then 1 else 0).

(** ** Successive sampling *)
Lemma sum_le n f g : (forall i, (i < n)%nat -> f i <= g i) -> sum_upto n f <= sum_upto n g.
Proof. intros H. induction n; [unfold sum_upto; cbn; lra|]. rewrite !sum_upto_S. specialize (IHn ltac:(intros; apply H; lia)). specialize (H n ltac:(lia)). lra. Qed.
Lemma sum_nonneg n f : (forall i, (i < n)%nat -> 0 <= f i) -> 0 <= sum_upto n f.
Proof. intros H. replace 0 with (sum_upto n (fun _ => 0)) by (apply sum_upto_zero; reflexivity). apply sum_le. exact H. Qed.
(** auxiliary definition of a statement or a proof; models no code of /repo *)
Definition others (i j : nat) (f : nat -> R) (l : nat) : R := if (l =? i)%nat then 0 else if (l =? j)%nat then 0 else f l.
Lemma sum_two n f i j : (i < n)%nat -> (j < n)%nat -> i <> j -> sum_upto n f = f i + f j + sum_upto n (others i j f).
Proof.
  intros Hi Hj Hij. rewrite <- (sum_upto_delta f Hi) at 1. rewrite <- (sum_upto_delta f Hj) at 1. rewrite <- !sum_upto_plus. apply sum_upto_ext. intros l _. unfold others.
  destruct (Nat.eqb_spec i l), (Nat.eqb_spec j l), (Nat.eqb_spec l i), (Nat.eqb_spec l j); subst; try congruence; lra.
Qed.
Lemma without_nonneg w j n : (forall l, (l < n)%nat -> 0 <= w l) -> forall l, (l < n)%nat -> 0 <= without w j l.
Proof. intros H l Hl. unfold without. destruct (l =? j)%nat; [lra|auto]. Qed.
Lemma selected_ext k : forall w w' n i, (forall l, (l < n)%nat -> w l = w' l) -> selected k w n i = selected k w' n i.
Proof.
  induction k as [|k IH]; intros w w' n i H; [reflexivity|]. cbn [selected]. apply sum_upto_ext. intros j Hj. rewrite (sum_upto_ext w w' H), (H j Hj).
  destruct (j =? i)%nat; [reflexivity|]. f_equal. apply IH. intros l Hl. unfold without. destruct (l =? j)%nat; auto.
Qed.
Lemma selected_range k : forall w n i, (forall l, (l < n)%nat -> 0 <= w l) -> 0 <= selected k w n i <= 1.
Proof.
  induction k as [|k IH]; intros w n i H; [cbn; lra|]. cbn [selected]. set (W := sum_upto n w). assert (HW : 0 <= W) by (apply sum_nonneg; exact H).
  assert (Ht : forall j, (j < n)%nat -> 0 <= w j / W).
  { intros j Hj. specialize (H j Hj). destruct (Req_dec W 0) as [E|E]; [rewrite E; unfold Rdiv; rewrite Rinv_0; lra|]. apply Rmult_le_pos; [exact H|]. left. apply Rinv_0_lt_compat. lra. }
  split.
  - apply sum_nonneg. intros j Hj. apply Rmult_le_pos; [auto|]. destruct (j =? i)%nat; [lra|]. apply IH. apply without_nonneg. exact H.
  - apply Rle_trans with (sum_upto n (fun j => / W * w j)).
    + apply sum_le. intros j Hj. replace (/ W * w j) with (w j / W * 1) by (unfold Rdiv; ring). apply Rmult_le_compat_l; [auto|]. destruct (j =? i)%nat; [lra|]. apply IH. apply without_nonneg. exact H.
    + rewrite sum_upto_scale. fold W. destruct (Req_dec W 0) as [E|E]; [rewrite E; lra|]. rewrite Rinv_l by exact E. lra.
Qed.
Lemma selected_step k w n i j : (i < n)%nat -> (j < n)%nat -> i <> j -> selected (S k) w n i =
  (w i + w j * selected k (without w j) n i + sum_upto n (others i j (fun l => w l * selected k (without w l) n i))) / sum_upto n w.
Proof.
  intros Hi Hj Hij. cbn [selected]. rewrite (sum_two _ Hi Hj Hij). rewrite Nat.eqb_refl. replace (j =? i)%nat with false by (symmetry; apply Nat.eqb_neq; congruence).
  match goal with |- _ + _ + ?A = _ => replace A with (/ sum_upto n w * sum_upto n (others i j (fun l => w l * selected k (without w l) n i))) end; [unfold Rdiv; ring|].
  rewrite <- sum_upto_scale. apply sum_upto_ext. intros l _. unfold others. destruct (l =? i)%nat eqn:E1; [ring|]. destruct (l =? j)%nat; unfold Rdiv; ring.
Qed.
Lemma fraction a a' X X' Y : 0 <= a <= a' -> 0 <= X <= X' -> X' <= Y -> (a + X) / (a + Y) <= (a' + X') / (a' + Y).
Proof.
  intros Ha HX HY. destruct (Req_dec (a + Y) 0) as [E|E].
  - assert (a + X = 0) by lra. rewrite H. unfold Rdiv at 1. rewrite Rmult_0_l. destruct (Req_dec (a' + Y) 0) as [E'|E'].
    + rewrite E'. unfold Rdiv. rewrite Rinv_0. lra.
    + apply Rmult_le_pos; [lra|]. left. apply Rinv_0_lt_compat. lra.
  - assert (0 < a + Y) by lra. assert (0 < a' + Y) by lra. apply Rmult_le_reg_r with (a + Y); [lra|]. apply Rmult_le_reg_r with (a' + Y); [lra|].
    replace ((a + X) / (a + Y) * (a + Y) * (a' + Y)) with ((a + X) * (a' + Y)) by (field; lra). replace ((a' + X') / (a' + Y) * (a + Y) * (a' + Y)) with ((a' + X') * (a + Y)) by (field; lra).
    assert ((a + X) * (a' + Y) <= (a + X') * (a' + Y)) by (apply Rmult_le_compat_r; lra).
    assert (X' * (a' - a) <= Y * (a' - a)) by (apply Rmult_le_compat_r; lra). lra.
Qed.
(** a number with a larger weight, the other one already drawn *)
Lemma selected_swap k : forall v v' n i j, (i < n)%nat -> (j < n)%nat -> i <> j -> (forall l, (l < n)%nat -> 0 <= v l) -> v i = 0 -> v' j = 0 -> v j <= v' i ->
  (forall l, l <> i -> l <> j -> v l = v' l) -> selected k v n j <= selected k v' n i.
Proof.
  induction k as [|k IH]; intros v v' n i j Hi Hj Hij Hv Ei Ej Hle Hl; [cbn; lra|].
  assert (Hv' : forall l, (l < n)%nat -> 0 <= v' l).
  { intros l Hl'. destruct (Nat.eq_dec l i) as [->|N1]; [specialize (Hv j Hj); lra|]. destruct (Nat.eq_dec l j) as [->|N2]; [lra|]. rewrite <- Hl by auto. auto. }
  rewrite (selected_step k v Hj Hi) by congruence. rewrite (selected_step k v' Hi Hj Hij). rewrite Ei, Ej, !Rmult_0_l, !Rplus_0_r.
  rewrite (sum_two v Hj Hi) by congruence. rewrite (sum_two v' Hi Hj Hij). rewrite Ei, Ej, !Rplus_0_r.
  set (Y := sum_upto n (others i j v')). assert (EY : sum_upto n (others j i v) = Y).
  { apply sum_upto_ext. intros l _. unfold others. destruct (Nat.eqb_spec l i), (Nat.eqb_spec l j); try reflexivity. apply Hl; auto. }
  rewrite EY. apply fraction; [specialize (Hv j Hj); lra| |].
  - split.
    + apply sum_nonneg. intros l Hl'. unfold others. destruct (l =? j)%nat; [lra|]. destruct (l =? i)%nat; [lra|]. apply Rmult_le_pos; [auto|]. apply selected_range. apply without_nonneg. exact Hv.
    + apply sum_le. intros l Hl'. unfold others. destruct (Nat.eqb_spec l i), (Nat.eqb_spec l j); try lra. rewrite <- Hl by auto. apply Rmult_le_compat_l; [auto|].
      assert (Wo : forall (u : nat -> R) q, q <> l -> without u l q = u q) by (intros u q Hq; unfold without; destruct (Nat.eqb_spec q l); [congruence|reflexivity]).
      apply IH; auto.
      * apply without_nonneg. exact Hv.
      * rewrite Wo; auto.
      * rewrite Wo; auto.
      * rewrite !Wo; auto.
      * intros q Q1 Q2. unfold without. destruct (q =? l)%nat; auto.
  - unfold Y. apply sum_le. intros l Hl'. unfold others. destruct (l =? i)%nat; [lra|]. destruct (l =? j)%nat; [lra|]. rewrite <- (Rmult_1_r (v' l)) at 2. apply Rmult_le_compat_l; [auto|].
    apply selected_range. apply without_nonneg. exact Hv'.
Qed.
Lemma selected_monotone k : forall w n i j, (i < n)%nat -> (j < n)%nat -> (forall l, (l < n)%nat -> 0 <= w l) -> w j <= w i -> selected k w n j <= selected k w n i.
Proof.
  induction k as [|k IH]; intros w n i j Hi Hj Hw Hle; [cbn; lra|]. destruct (Nat.eq_dec i j) as [->|Hij]; [lra|].
  rewrite (selected_step k w Hj Hi) by congruence. rewrite (selected_step k w Hi Hj Hij). set (A := selected k (without w i) n j). set (B := selected k (without w j) n i).
  assert (HAB : A <= B).
  { apply selected_swap; auto.
    - apply without_nonneg. exact Hw.
    - unfold without. now rewrite Nat.eqb_refl.
    - unfold without. now rewrite Nat.eqb_refl.
    - unfold without. destruct (Nat.eqb_spec i j), (Nat.eqb_spec j i); congruence || lra.
    - intros l N1 N2. unfold without. destruct (Nat.eqb_spec l i), (Nat.eqb_spec l j); congruence. }
  assert (HB : 0 <= B <= 1) by (apply selected_range, without_nonneg; exact Hw).
  assert (HA : 0 <= A <= 1) by (apply selected_range, without_nonneg; exact Hw).
  assert (HS : sum_upto n (others j i (fun l => w l * selected k (without w l) n j)) <= sum_upto n (others i j (fun l => w l * selected k (without w l) n i))).
  { apply sum_le. intros l Hl. unfold others. destruct (Nat.eqb_spec l i), (Nat.eqb_spec l j); try lra. apply Rmult_le_compat_l; [auto|]. apply IH; auto.
    - apply without_nonneg. exact Hw.
    - unfold without. destruct (Nat.eqb_spec i l), (Nat.eqb_spec j l); congruence || lra. }
  assert (HW : 0 <= sum_upto n w) by (apply sum_nonneg; exact Hw).
  assert (w j + w i * A <= w i + w j * B).
  { pose proof (Hw i Hi). pose proof (Hw j Hj). assert (w j * (1 - B) <= w i * (1 - B)) by (apply Rmult_le_compat_r; lra). assert (w i * A <= w i * B) by (apply Rmult_le_compat_l; lra). lra. }
  destruct (Req_dec (sum_upto n w) 0) as [E|E]; [rewrite E; unfold Rdiv; rewrite Rinv_0; lra|]. apply Rmult_le_compat_r; [left; apply Rinv_0_lt_compat; lra|]. lra.
Qed.
Lemma selected_zero k : forall w n i, w i = 0 -> selected k w n i = 0.
Proof.
  induction k as [|k IH]; intros w n i H; [reflexivity|]. cbn [selected]. apply sum_upto_zero. intros j _. destruct (Nat.eqb_spec j i) as [->|N]; [rewrite H; unfold Rdiv; ring|].
  rewrite IH; [ring|]. unfold without. destruct (i =? j)%nat; auto.
Qed.
Lemma selected_one w n i : (i < n)%nat -> selected 1 w n i = w i / sum_upto n w.
Proof.
  intros Hi. cbn [selected]. rewrite <- (sum_upto_delta (fun j => w j / sum_upto n w) Hi). apply sum_upto_ext. intros j _.
  destruct (Nat.eqb_spec j i), (Nat.eqb_spec i j); subst; try congruence; ring.
Qed.

(** ** C82 *)
Section Final.
Variables (Key : Type) (E : (Key -> R) -> R) (choice : Key -> list xr -> nat -> list nat).
Hypothesis Hc : choice_ok choice.
Variables (ss te : specific xr unit) (pb : bool) (X : Type) (ss' : specific xr X) (n selections iterations : nat) (eps : nat -> R).
Hypothesis Hss : exists s, sp_init ss iterations (sp_nokw ss) = Ok s.
Hypothesis Hte : exists s, sp_init te iterations (sp_nokw te) = Ok s.
(** the step sizes that random_thinning looks at are positive, and there are enough iterations after burn-in *)
Hypothesis Hsteps : step_sizes ss' iterations eps.
Hypothesis Hpos : forall i, (i < iterations)%nat -> 0 < eps i.
Hypothesis Hsel : (selections <= iterations - n)%nat.
Hypothesis Hdraw : draws_by_weight E choice iterations (weights n eps) selections.
Notation P xs := (saved_probability E choice ss te pb ss' n selections iterations xs).

(** The probability that an iteration is saved is that of drawing it, one after another without replacement, with weights proportional to the step sizes after burn-in. *)
Theorem C82_weights : forall xs i, length xs = iterations -> P xs i = selected selections (weights n eps) iterations i.
Proof using All.
  intros xs i Hx. destruct Hdraw as [D1 D2]. rewrite <- D2. apply D1. intros key. unfold saved_its.
  assert (PS : positive_steps ss' iterations). { destruct Hsteps as (s0 & A & B). exists s0. split; [exact A|]. intros l Hl. exists (eps l). split; auto. }
  destruct (@final_thinning Key choice Hc ss te pb X ss' selections key n iterations PS Hss Hte) as [F _]. destruct (F Hsel) as (st0 & L & I & _). rewrite I.
  pose proof I as T. apply thinning_kept in T. destruct T as (L' & T1 & _ & T3).
  assert (EL : L' = choice key (map (fun j => Fin (weights n eps j)) (seq 0 iterations)) selections).
  { destruct Hsteps as (s0 & A & B). unfold th_init in T1. rewrite A in T1. cbn [bind] in T1. cbn [initial_burn_in sp_init sp_nokw kwarg bind fst] in T1.
    destruct (_ <=? _)%nat; [|discriminate]. injection T1 as <-. f_equal. apply nth_error_ext. intros j. destruct (Nat.lt_ge_cases j iterations) as [Hj|Hj].
    - rewrite (th_probs_spec X ss' n (fst s0) iterations j Hj), (B j Hj). rewrite nth_error_map, nth_error_nth' with (d := 0%nat) by (rewrite seq_length; exact Hj). rewrite seq_nth by exact Hj. cbn [option_map plus].
      unfold weights. destruct (n <=? j)%nat; cbn [xmul]; do 2 f_equal; ring.
    - rewrite (proj2 (nth_error_None _ _)) by (rewrite th_probs_length, seq_length; exact Hj). symmetry. apply nth_error_None. rewrite map_length, seq_length. exact Hj. }
  rewrite <- EL. destruct (@th_init_ok Key choice Hc X ss' n selections key iterations PS) as [G _]. destruct (G Hsel) as (L'' & G1 & _ & _ & G4). assert (L'' = L') by congruence. subst L''.
  assert (Q : existsb (Nat.eqb i) (kept_its _ _ _ _ st0 xs) = existsb (Nat.eqb i) L').
  { apply Bool.eq_iff_eq_true. rewrite !existsb_In. rewrite (T3 xs Hx). split; [tauto|]. intros Hin. specialize (G4 i Hin). repeat split; auto; lia. }
  now rewrite Q.
Qed.
(** Iterations before burn-in are never saved; of two iterations after burn-in the one with the larger step size is saved at least as probably. *)
Theorem C82_monotone : forall xs i j, length xs = iterations -> (i < iterations)%nat -> (j < iterations)%nat ->
  0 <= P xs i <= 1 /\ ((i < n)%nat -> P xs i = 0) /\ ((n <= i)%nat -> (n <= j)%nat -> eps j <= eps i -> P xs j <= P xs i).
Proof using All.
  intros xs i j Hx Hi Hj. rewrite !C82_weights by exact Hx.
  assert (HW : forall l, (l < iterations)%nat -> 0 <= weights n eps l). { intros l Hl. unfold weights. destruct (n <=? l)%nat; [left; auto|lra]. }
  split; [apply selected_range; exact HW|]. split.
  - intros H. apply selected_zero. unfold weights. replace (n <=? i)%nat with false by (symmetry; apply Nat.leb_gt; exact H). reflexivity.
  - intros H1 H2 Hle. apply selected_monotone; auto. unfold weights. now rewrite (proj2 (Nat.leb_le _ _) H1), (proj2 (Nat.leb_le _ _) H2).
Qed.
(** With one selection the probability is proportional to the step size, as documented. *)
Theorem C82_proportional_partial : forall xs i, length xs = iterations -> (n <= i < iterations)%nat -> selections = 1%nat ->
  P xs i = eps i / sum_upto iterations (weights n eps).
Proof using All.
  intros xs i Hx Hi H1. rewrite C82_weights by exact Hx. rewrite H1, selected_one by lia. unfold weights at 1. now rewrite (proj2 (Nat.leb_le _ _) (proj1 Hi)).
Qed.
End Final.
Print Assumptions C82_weights. Print Assumptions C82_monotone. Print Assumptions C82_proportional_partial.

(** The step sizes that random_thinning looks at: they decrease for the polynomial schedules, so that later iterations are saved with at most the same probability; the adaptive schedule is
    frozen after its burn-in, so that all later iterations have the same weight (whatever the acceptance ratios in the run are). *)
Theorem C82_schedules : forall its,
  (forall a b g, 0 < a -> 0 < b -> 0 <= g -> step_sizes (polynomial_step_size (Fin a) (Fin b) (Fin g)) its (fun i => a * Rpower (b + INR i) (- g))) /\
  (forall f l g, 0 < g -> 0 < l < f -> (2 <= its)%nat -> exists eps, step_sizes (polynomial_step_size_first_last (Fin f) (Fin l) (Fin g)) its eps /\
     eps 0%nat = f /\ eps (its - 1)%nat = l /\ (forall i, 0 < eps i) /\ forall i j, (i < j)%nat -> eps j < eps i) /\
  (forall p, 0 < ad_initial p -> exists eps, step_sizes (adaptive_step_size p) its eps /\ (forall i, 0 < eps i) /\ forall i, (ad_burn_in p <= i)%nat -> eps i = eps (ad_burn_in p)).
Proof.
  intros its. split; [|split].
  - intros a b g Ha Hb Hg. destruct (@C28_polynomial its a b g Hg Ha Hb) as (v & V1 & V2 & _). exists (map (fun i => Fin (v i)) (seq 0 its), tt). split.
    + cbn [polynomial_step_size sp_init sp_nokw kwarg]. rewrite V1. reflexivity.
    + intros i Hi. rewrite evolve_static by reflexivity. cbn [polynomial_step_size sp_get fst]. rewrite <- V2. apply (clamp_get_map (fun i => Fin (v i))). exact Hi.
  - intros f l g Hg Hl Hits. destruct (@C29_first_last_partial its g f l Hg Hl Hits) as (v & V1 & V2 & V3 & V4 & V5). exists v. split; [|auto].
    exists (map (fun i => Fin (v i)) (seq 0 its), tt). split.
    + cbn [polynomial_step_size_first_last sp_init sp_nokw kwarg]. rewrite V1. reflexivity.
    + intros i Hi. rewrite evolve_static by reflexivity. cbn [polynomial_step_size_first_last sp_get fst]. apply (clamp_get_map (fun i => Fin (v i))). exact Hi.
  - intros p Hp. destruct (@C30_adaptive_partial p (ad_target p) Hp) as (_ & A2 & A3 & _). exists (fun i => ad_get (ad_run (ad_target p) (ad_init p) (repeat 0 i))). split; [|split].
    + destruct (sp_init (adaptive_step_size p) its (sp_nokw (adaptive_step_size p))) as [[s0 []]|e] eqn:E; [|discriminate]. exists (s0, tt). split; [exact E|]. intros i Hi. cbn [fst].
      pose proof (@C30_scheduler p None its s0 E (repeat 0 i)) as H. rewrite repeat_length in H. cbn [kwarg] in H. rewrite <- H. f_equal.
      generalize 0%nat. clear. revert s0. induction i as [|i IH]; intros s0 m; [reflexivity|]. cbn [repeat map evolve]. rewrite <- IH. reflexivity.
    + intros i. apply A2.
    + intros i Hi. cbv beta. replace i with (ad_burn_in p + (i - ad_burn_in p))%nat at 1 by lia. rewrite repeat_app. apply A3. now rewrite repeat_length.
Qed.
Print Assumptions C82_schedules.

(** ** "The probability of selection is proportional to the step size" (documentation of random_thinning) is false for more than one selection *)
Definition proportional_claim : Prop :=
  forall Key (E : (Key -> R) -> R) (choice : Key -> list xr -> nat -> list nat), choice_ok choice ->
  forall (ss te : specific xr unit) pb X (ss' : specific xr X) n selections iterations eps,
  (exists s, sp_init ss iterations (sp_nokw ss) = Ok s) -> (exists s, sp_init te iterations (sp_nokw te) = Ok s) ->
  step_sizes ss' iterations eps -> (forall i, (i < iterations)%nat -> 0 < eps i) -> (selections <= iterations - n)%nat -> draws_by_weight E choice iterations (weights n eps) selections ->
  let P := saved_probability E choice ss te pb ss' n selections iterations in
  forall xs i j, length xs = iterations -> (n <= i < iterations)%nat -> (n <= j < iterations)%nat -> P xs i * eps j = P xs j * eps i.

(** a random choice: the key is the list of the drawn positions *)
(** auxiliary definition of a statement or a proof; models no code of /repo *)
Definition valid_draw (key : list nat) (p : list xr) (k : nat) : bool :=
  (length key =? k)%nat && (if NoDup_dec Nat.eq_dec key then true else false) && forallb (fun i => (i <? length p)%nat && xnonzero (nth i p (Fin 0))) key.
(** auxiliary definition of a statement or a proof; models no code of /repo *)
Definition key_choice (key : list nat) (p : list xr) (k : nat) : list nat := if valid_draw key p k then key else first_choice tt p k.
Lemma key_choice_ok : choice_ok key_choice.
Proof.
  intros key p k Hk. unfold key_choice. destruct (valid_draw key p k) eqn:V; [|apply first_choice_ok; exact Hk]. unfold valid_draw in V.
  apply Bool.andb_true_iff in V. destruct V as [V V3]. apply Bool.andb_true_iff in V. destruct V as [V1 V2]. apply Nat.eqb_eq in V1. destruct (NoDup_dec Nat.eq_dec key) as [V4|]; [|discriminate].
  split; [exact V1|]. split; [exact V4|]. intros i Hi. rewrite forallb_forall in V3. specialize (V3 i Hi). apply Bool.andb_true_iff in V3. destruct V3 as [V5 V6]. apply Nat.ltb_lt in V5.
  exists (nth i p (Fin 0)). split; [apply nth_error_nth'; exact V5|exact V6].
Qed.
(** auxiliary definition of a statement or a proof; models no code of /repo: two of the iterations 1, 2, 3, with weights 1/2, 1/3, 1/4 *)
Definition draw_two (f : list nat -> R) : R :=
  6/13 * (4/7) * f [1; 2]%nat + 6/13 * (3/7) * f [1; 3]%nat + 4/13 * (6/9) * f [2; 1]%nat + 4/13 * (3/9) * f [2; 3]%nat + 3/13 * (6/10) * f [3; 1]%nat + 3/13 * (4/10) * f [3; 2]%nat.
(** auxiliary definition of a statement or a proof; models no code of /repo *)
Definition exw (i : nat) : R := 1 * Rpower (1 + INR i) (- (1)).
Lemma exw_values : exw 1 = 1/2 /\ exw 2 = 1/3 /\ exw 3 = 1/4.
Proof. unfold exw. repeat split; rewrite Rpower_Ropp, Rpower_1 by (cbn; lra); cbn; lra. Qed.
Lemma exw_valid key : In key [[1; 2]; [1; 3]; [2; 1]; [2; 3]; [3; 1]; [3; 2]]%nat -> key_choice key (map (fun j => Fin (weights 1 exw j)) (seq 0 4)) 2 = key.
Proof.
  destruct exw_values as (W1 & W2 & W3). intros H. unfold key_choice. replace (valid_draw key _ 2) with true; [reflexivity|]. symmetry. unfold valid_draw, weights. cbn [map seq Nat.leb length].
  rewrite W1, W2, W3. cbn in H. assert (N : forall r, r <> 0 -> xnonzero (Fin r) = true) by (intros r Hr; cbn; destruct (Req_EM_T r 0); congruence).
  repeat (destruct H as [<-|H]); try contradiction; (destruct (NoDup_dec Nat.eq_dec _) as [|C]; [|exfalso; apply C; repeat constructor; cbn; intuition lia]); cbn [length forallb nth]; rewrite !N by lra; reflexivity.
Qed.
Lemma draw_two_by_weight : draws_by_weight draw_two key_choice 4 (weights 1 exw) 2.
Proof.
  split; [intros f g H; unfold draw_two; now rewrite !H|]. intros i. unfold draw_two. rewrite !exw_valid by (cbn; tauto). destruct exw_values as (W1 & W2 & W3).
  unfold selected, sum_upto. cbn [map seq fold_right]. unfold without, weights. cbn [Nat.leb Nat.eqb]. rewrite W1, W2, W3.
  destruct i as [|[|[|[|i]]]]; cbn [existsb Nat.eqb orb]; field.
Qed.
Lemma example_steps : step_sizes (polynomial_step_size (Fin 1) (Fin 1) (Fin 1)) 4 exw.
Proof. apply (C82_schedules 4); lra. Qed.
Lemma example_probabilities : let P := saved_probability draw_two key_choice default_step default_temperature false (polynomial_step_size (Fin 1) (Fin 1) (Fin 1)) 1 2 4 in
  forall xs, length xs = 4%nat -> P xs 0%nat = 0 /\ P xs 1%nat = 6/13 + 4/13 * (6/9) + 3/13 * (6/10) /\ P xs 2%nat = 4/13 + 6/13 * (4/7) + 3/13 * (4/10).
Proof.
  intros P xs Hx. unfold P.
  assert (HW : forall i, saved_probability draw_two key_choice default_step default_temperature false (polynomial_step_size (Fin 1) (Fin 1) (Fin 1)) 1 2 4 xs i = selected 2 (weights 1 exw) 4 i).
  { intros i. eapply C82_weights; [apply key_choice_ok| | |apply example_steps| |lia|apply draw_two_by_weight|exact Hx].
    - destruct (positive_polynomial 4 1 1 0) as (s & Es & _); try lra. exists s. exact Es.
    - cbn. eauto.
    - intros l _. unfold exw. rewrite Rmult_1_l. apply exp_pos. }
  rewrite !HW. destruct draw_two_by_weight as [_ D]. rewrite <- !D. unfold draw_two. rewrite !exw_valid by (cbn; tauto). cbn [existsb Nat.eqb orb]. repeat split; field.
Qed.
Theorem C82_proportional_refuted : ~ proportional_claim.
Proof.
  intros H. specialize (H _ draw_two key_choice key_choice_ok default_step default_temperature false _ (polynomial_step_size (Fin 1) (Fin 1) (Fin 1)) 1%nat 2%nat 4%nat exw).
  destruct (positive_polynomial 4 1 1 0) as (s & Es & _); try lra.
  specialize (H (ex_intro _ s Es) ltac:(cbn; eauto) example_steps ltac:(intros l _; unfold exw; rewrite Rmult_1_l; apply exp_pos) ltac:(lia) draw_two_by_weight).
  specialize (H (repeat no_stats 4) 1%nat 2%nat eq_refl ltac:(lia) ltac:(lia)). destruct (@example_probabilities (repeat no_stats 4) eq_refl) as (_ & P1 & P2). cbv zeta in H, P1, P2.
  rewrite P1, P2 in H. destruct exw_values as (W1 & W2 & _). rewrite W1, W2 in H. lra.
Qed.
Print Assumptions C82_proportional_refuted.
(** The hypotheses of C82_weights and C82_monotone are met by the same example; with one selection by the choice below. *)
Example C82_nonvacuous : let P := saved_probability draw_two key_choice default_step default_temperature false (polynomial_step_size (Fin 1) (Fin 1) (Fin 1)) 1 2 4 in
  choice_ok key_choice /\ draws_by_weight draw_two key_choice 4 (weights 1 exw) 2 /\ P (repeat no_stats 4) 0%nat = 0 /\ P (repeat no_stats 4) 2%nat < P (repeat no_stats 4) 1%nat < 1.
Proof.
  destruct (@example_probabilities (repeat no_stats 4) eq_refl) as (P0 & P1 & P2). cbv zeta in *. split; [apply key_choice_ok|]. split; [apply draw_two_by_weight|]. rewrite P0, P1, P2. split; lra.
Qed.
