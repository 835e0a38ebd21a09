From Coq Require Import Reals Lra ZArith.
From Verif Require Import Base ListUtil Xreal Scheduler SchedulerSpec.
Open Scope R_scope.

Lemma evolve_app F X (sp : specific F X) : forall xs s i ys,
  evolve sp s i (xs ++ ys) = evolve sp (evolve sp s i xs) (i + length xs) ys.
Proof.
  induction xs as [|x xs IH]; intros s i ys; simpl.
  - now rewrite Nat.add_0_r.
  - rewrite IH. f_equal. lia.
Qed.

Section S.
Variables (ss te : specific xr unit) (bi th : specific bool Z) (pb : bool).

Lemma after_state : forall xs st,
  let st' := after ss te bi th st xs in
  sc_iteration _ _ _ _ st' = (sc_iteration _ _ _ _ st + length xs)%nat /\
  sc_total _ _ _ _ st' = sc_total _ _ _ _ st /\
  sc_step _ _ _ _ st' = evolve ss (sc_step _ _ _ _ st) (sc_iteration _ _ _ _ st) xs /\
  sc_temp _ _ _ _ st' = evolve te (sc_temp _ _ _ _ st) (sc_iteration _ _ _ _ st) xs /\
  sc_burn _ _ _ _ st' = evolve bi (sc_burn _ _ _ _ st) (sc_iteration _ _ _ _ st) xs /\
  sc_thin _ _ _ _ st' = evolve th (sc_thin _ _ _ _ st) (sc_iteration _ _ _ _ st) xs.
Proof.
  induction xs as [|x xs IH]; intros st st'; subst st'.
  - simpl. rewrite Nat.add_0_r. auto 10.
  - unfold after. cbn [fold_left evolve length]. destruct (IH (sched_update ss te bi th st x)) as (H1 & H2 & H3 & H4 & H5 & H6).
    unfold after in *. rewrite H1, H2, H3, H4, H5, H6. simpl. repeat split; auto; lia.
Qed.

Lemma final_schedule iterations kw st0 sc : sched_init ss te bi th pb iterations kw = Ok (st0, sc) ->
  exists s0 t0 b0 nb h0 nh,
    sp_init ss iterations (kw_step _ _ _ _ kw) = Ok (s0, tt) /\ sp_init te iterations (kw_temp _ _ _ _ kw) = Ok (t0, tt) /\
    sp_init bi iterations (kw_burn _ _ _ _ kw) = Ok (b0, nb) /\ sp_init th iterations (kw_thin _ _ _ _ kw) = Ok (h0, nh) /\
    sc = Z.min nh nb /\
    forall xs, let i := length xs in
      sched_get ss te bi th (after ss te bi th st0 xs)
      = mkSchedule (sp_get ss (evolve ss s0 0 xs) i no_stats) (sp_get te (evolve te t0 0 xs) i no_stats)
                   (sp_get bi (evolve bi b0 0 xs) i no_stats) (sp_get th (evolve th h0 0 xs) i no_stats).
Proof.
  unfold sched_init. intros H.
  destruct (sp_init th iterations (kw_thin _ _ _ _ kw)) as [[h0 nh]|e] eqn:E1; [|discriminate]. cbn [bind] in H.
  destruct (sp_init bi iterations (kw_burn _ _ _ _ kw)) as [[b0 nb]|e] eqn:E2; [|discriminate]. cbn [bind] in H.
  destruct (sp_init ss iterations (kw_step _ _ _ _ kw)) as [[s0 []]|e] eqn:E3; [|discriminate]. cbn [bind] in H.
  destruct (sp_init te iterations (kw_temp _ _ _ _ kw)) as [[t0 []]|e] eqn:E4; [|discriminate]. cbn [bind] in H.
  inversion H; subst. exists s0, t0, b0, nb, h0, nh. do 4 (split; [auto|]). split; [auto|]. intros xs.
  match goal with |- sched_get _ _ _ _ (after _ _ _ _ ?st _) = _ => destruct (after_state xs st) as (H1 & _ & H3 & H4 & H5 & H6) end.
  unfold sched_get. rewrite H1, H3, H4, H5, H6. reflexivity.
Qed.

(** progress bar *)
Definition static_sched (sp : specific bool Z) : Prop :=
  (forall s i x, sp_update sp s i x = s) /\ (forall s i x y, sp_get sp s i x = sp_get sp s i y).

Lemma collected_run st : static_sched bi -> static_sched th -> forall xs c, sc_collected _ _ _ _ st = Some c ->
  sc_collected _ _ _ _ (after ss te bi th st xs) = Some (c + length (kept_its ss te bi th st xs))%nat.
Proof.
  intros [Sb Gb] [St Gt] xs. induction xs as [|x xs IH] using rev_ind; intros c Hc.
  - simpl. rewrite Hc. f_equal. cbn. lia.
  - unfold after. rewrite fold_left_app. cbn [fold_left]. fold (after ss te bi th st xs).
    unfold kept_its. rewrite app_length. cbn [length]. rewrite Nat.add_1_r, seq_S, filter_app, app_length.
    rewrite (filter_ext_in _ (fun i => keeps ss te bi th (after ss te bi th st (firstn i xs)))).
    2:{ intros i Hi. apply in_seq in Hi. rewrite firstn_app. replace (i - length xs)%nat with 0%nat by lia. simpl. now rewrite app_nil_r. }
    fold (kept_its ss te bi th st xs). unfold sched_update at 1. cbn [sc_collected]. rewrite (IH c Hc). f_equal.
    cbn [filter plus]. rewrite firstn_app, firstn_all, Nat.sub_diag, firstn_O, app_nil_r.
    unfold keeps, sched_get. cbn [sch_burn_in sch_accept]. rewrite Sb, St, (Gb _ _ x no_stats), (Gt _ _ x no_stats).
    destruct (_ && _); simpl; lia.
Qed.

Lemma final_collected iterations kw st0 sc : static_sched bi -> static_sched th ->
  sched_init ss te bi th true iterations kw = Ok (st0, sc) -> forall xs,
  sc_collected _ _ _ _ (after ss te bi th st0 xs) = Some (length (kept_its ss te bi th st0 xs)).
Proof.
  intros Sb St H xs. apply (collected_run st0 Sb St xs 0). unfold sched_init in H.
  destruct (sp_init th iterations (kw_thin _ _ _ _ kw)) as [[h0 nh]|e]; [|discriminate]. cbn [bind] in H.
  destruct (sp_init bi iterations (kw_burn _ _ _ _ kw)) as [[b0 nb]|e]; [|discriminate]. cbn [bind] in H.
  destruct (sp_init ss iterations (kw_step _ _ _ _ kw)) as [[s0 []]|e]; [|discriminate]. cbn [bind] in H.
  destruct (sp_init te iterations (kw_temp _ _ _ _ kw)) as [[t0 []]|e]; [|discriminate]. cbn [bind] in H.
  inversion H; subst. reflexivity.
Qed.
End S.

Lemma static_burn_in n : static_sched (initial_burn_in n).
Proof. split; reflexivity. Qed.
Lemma static_accept_all : static_sched accept_all.
Proof. split; reflexivity. Qed.
Lemma static_thinning Key choice X Y (ss : specific xr X) (bi : specific bool Y) n (key : Key) : static_sched (random_thinning Key choice ss bi n key).
Proof. split; reflexivity. Qed.

Lemma evolve_static F X (sp : specific F X) : (forall s i x, sp_update sp s i x = s) -> forall xs s i, evolve sp s i xs = s.
Proof. intros H. induction xs as [|x xs IH]; intros s i; simpl; auto. rewrite H. auto. Qed.

(** ** burn-in *)
Lemma final_burn_in ss te th pb n iterations st0 sc :
  sched_init ss te (initial_burn_in n) th pb iterations (no_kw _ _ _ _) = Ok (st0, sc) ->
  forall xs, sch_burn_in (sched_get _ _ _ _ (after _ _ _ _ st0 xs)) = (n <=? length xs)%nat.
Proof.
  intros H xs. destruct (final_schedule _ _ _ _ _ _ _ _ _ H) as (s0 & t0 & b0 & nb & h0 & nh & _ & _ & E & _ & _ & G).
  rewrite G. cbn [sch_burn_in]. assert (b0 = n) by (cbn in E; congruence). subst b0. rewrite evolve_static by reflexivity. reflexivity.
Qed.

Lemma filter_leb_seq n : forall k a, filter (fun i => n <=? i)%nat (seq a k) = seq (Nat.max a n) (k - (n - a)).
Proof.
  induction k as [|k IH]; intros a; cbn [seq filter]; auto. rewrite IH. destruct (Nat.leb_spec n a).
  - replace (Nat.max (S a) n) with (S a) by lia. replace (Nat.max a n) with a by lia.
    replace (n - S a)%nat with 0%nat by lia. replace (n - a)%nat with 0%nat by lia. rewrite Nat.sub_0_r. reflexivity.
  - replace (Nat.max (S a) n) with (Nat.max a n) by lia. f_equal. lia.
Qed.

Lemma kept_its_ext ss te bi th st0 xs f : (forall i, (i < length xs)%nat -> keeps ss te bi th (after ss te bi th st0 (firstn i xs)) = f i) ->
  kept_its ss te bi th st0 xs = filter f (seq 0 (length xs)).
Proof. intros H. unfold kept_its. apply filter_ext_in. intros i Hi. apply in_seq in Hi. apply H. lia. Qed.

Lemma final_burn_in_default ss te pb n iterations st0 sc :
  sched_init ss te (initial_burn_in n) accept_all pb iterations (no_kw _ _ _ _) = Ok (st0, sc) ->
  sc = (Z.of_nat iterations - Z.of_nat n)%Z /\
  forall xs, length xs = iterations -> kept_its _ _ _ _ st0 xs = seq n (iterations - n).
Proof.
  intros H. destruct (final_schedule _ _ _ _ _ _ _ _ _ H) as (s0 & t0 & b0 & nb & h0 & nh & _ & _ & E & E' & -> & G).
  assert (Eb : b0 = n) by (cbn in E; congruence). assert (En : nb = (Z.of_nat iterations - Z.of_nat n)%Z) by (cbn in E; congruence). assert (Eh : nh = Z.of_nat iterations) by (cbn in E'; congruence). subst b0 nb nh. split; [lia|]. intros xs Hl.
  rewrite (kept_its_ext _ _ _ _ st0 xs (fun i => (n <=? i)%nat)).
  - rewrite Hl, filter_leb_seq. f_equal; lia.
  - intros i Hi. unfold keeps. rewrite G. cbn [sch_burn_in sch_accept]. rewrite evolve_static by reflexivity. cbn.
    rewrite firstn_length_le by lia. now rewrite Bool.andb_true_r.
Qed.

(** ** thinning *)
Section Thin.
Variable Key : Type.
Variable choice : Key -> list xr -> nat -> list nat.
Hypothesis Hchoice : choice_ok choice.

Lemma th_probs_nth X (ss' : specific xr X) n : forall its s b i j, nth_error its j = Some i -> (forall k, (k < length its)%nat -> nth_error its k = Some (nth 0 its 0 + k)%nat) ->
  nth_error (th_probs ss' (initial_burn_in n) s b its) j =
  Some (xmul (sp_get ss' (evolve ss' s (nth 0 its 0%nat) (repeat no_stats j)) i no_stats) (if (b <=? i)%nat then Fin 1 else Fin 0)).
Proof.
  induction its as [|a its IH]; intros s b i j Hj Hseq; [destruct j; discriminate|].
  destruct j as [|j].
  - simpl in Hj. inversion Hj; subst. reflexivity.
  - cbn [th_probs nth_error]. simpl in Hj.
    assert (Hits : its <> []) by (destruct its; [destruct j; discriminate|discriminate]).
    assert (Hn0 : nth 0 its 0%nat = S a).
    { pose proof (Hseq 1%nat) as H1. cbn in H1. destruct its as [|y its]; [congruence|]. cbn in *. assert (Some y = Some (a + 1)%nat) by (apply H1; lia). inversion H; lia. }
    rewrite (IH _ _ i j Hj).
    + rewrite Hn0. cbn [nth repeat evolve]. reflexivity.
    + intros k Hk. rewrite Hn0. specialize (Hseq (S k)). cbn in Hseq. rewrite Hseq by (cbn; lia). f_equal. lia.
Qed.

Lemma th_probs_length X Y (ss' : specific xr X) (bi' : specific bool Y) : forall its s b, length (th_probs ss' bi' s b its) = length its.
Proof. induction its; intros; simpl; auto. Qed.

Lemma th_probs_spec X (ss' : specific xr X) n s iterations i : (i < iterations)%nat ->
  nth_error (th_probs ss' (initial_burn_in n) s n (seq 0 iterations)) i =
  Some (xmul (sp_get ss' (evolve ss' s 0 (repeat no_stats i)) i no_stats) (if (n <=? i)%nat then Fin 1 else Fin 0)).
Proof.
  intros Hi. assert (Hz : nth 0 (seq 0 iterations) 0%nat = 0%nat) by (destruct iterations; reflexivity).
  rewrite (th_probs_nth X ss' n (seq 0 iterations) s n i i).
  - now rewrite Hz.
  - assert (H : nth_error (map (fun k => k) (seq 0 iterations)) i = Some i) by (apply (nth_error_map_seq (fun k => k)); auto). now rewrite map_id in H.
  - intros k Hk. rewrite Hz. rewrite seq_length in Hk.
    assert (H : nth_error (map (fun k => k) (seq 0 iterations)) k = Some k) by (apply (nth_error_map_seq (fun k => k)); auto). now rewrite map_id in H.
Qed.

Lemma nonzero_pos r b : 0 < r -> xnonzero (xmul (Fin r) (if b : bool then Fin 1 else Fin 0)) = b.
Proof.
  intros H. destruct b; simpl.
  - destruct (Req_EM_T (r * 1) 0); auto. lra.
  - destruct (Req_EM_T (r * 0) 0); auto. lra.
Qed.

Lemma filter_map_length (p : list xr) f : (forall i x, nth_error p i = Some x -> xnonzero x = f i) ->
  length (filter xnonzero p) = length (filter f (seq 0 (length p))).
Proof.
  induction p as [|x p IH] using rev_ind; intros H; auto.
  rewrite app_length. cbn [length]. rewrite Nat.add_1_r, seq_S, !filter_app, !app_length. rewrite IH.
  - f_equal. cbn [filter plus]. rewrite (H (length p) x) by (rewrite nth_error_app2, Nat.sub_diag by lia; reflexivity).
    destruct (f (length p)); reflexivity.
  - intros i y Hi. apply H. rewrite nth_error_app1; auto. apply nth_error_Some. congruence.
Qed.

Lemma probs_count X (ss' : specific xr X) n iterations s0 : 
  (forall i, (i < iterations)%nat -> exists r, 0 < r /\ sp_get ss' (evolve ss' s0 0 (repeat no_stats i)) i no_stats = Fin r) ->
  count_nonzero (th_probs ss' (initial_burn_in n) s0 n (seq 0 iterations)) = (iterations - n)%nat.
Proof.
  intros Hpos. unfold count_nonzero. rewrite (filter_map_length _ (fun i => n <=? i)%nat).
  - rewrite th_probs_length, seq_length, filter_leb_seq, seq_length. lia.
  - intros i x Hi. assert (Hlt : (i < iterations)%nat).
    { assert (H : (i < length (th_probs ss' (initial_burn_in n) s0 n (seq 0 iterations)))%nat) by (apply nth_error_Some; congruence).
      rewrite th_probs_length, seq_length in H. auto. }
    rewrite (th_probs_spec X ss' n s0 iterations i Hlt) in Hi. destruct (Hpos i Hlt) as (r & Hr & Hg). rewrite Hg in Hi. inversion Hi; subst.
    now apply nonzero_pos.
Qed.

Lemma th_init_ok X (ss' : specific xr X) n selections key iterations : positive_steps ss' iterations ->
  ((selections <= iterations - n)%nat ->
     exists L, th_init Key choice ss' (initial_burn_in n) selections key iterations = Ok (L, Z.of_nat selections) /\
       length L = selections /\ NoDup L /\ forall i, In i L -> (n <= i < iterations)%nat) /\
  ((iterations - n < selections)%nat -> th_init Key choice ss' (initial_burn_in n) selections key iterations = Exc AssertionError).
Proof.
  intros (s0 & E & Hpos). unfold th_init. rewrite E. cbn [bind]. cbn [initial_burn_in sp_init sp_nokw kwarg bind fst].
  rewrite (probs_count X ss' n iterations (fst s0) Hpos). split.
  - intros Hle. rewrite (proj2 (Nat.leb_le _ _) Hle).
    set (probs := th_probs ss' (initial_burn_in n) (fst s0) n (seq 0 iterations)).
    destruct (Hchoice key probs selections) as (H1 & H2 & H3); [unfold probs; rewrite probs_count; auto|].
    exists (choice key probs selections). split; auto. split; auto. split; auto. intros i Hi.
    destruct (H3 i Hi) as (x & Hx & Hnz). assert (Hlt : (i < iterations)%nat).
    { assert (H : (i < length probs)%nat) by (apply nth_error_Some; congruence). unfold probs in H. rewrite th_probs_length, seq_length in H. auto. }
    split; auto. unfold probs in Hx. rewrite (th_probs_spec X ss' n _ iterations i Hlt) in Hx. destruct (Hpos i Hlt) as (r & Hr & Hg).
    rewrite Hg in Hx. assert (Ex : xmul (Fin r) (if (n <=? i)%nat then Fin 1 else Fin 0) = x) by congruence. rewrite <- Ex in Hnz. rewrite nonzero_pos in Hnz by auto. now apply Nat.leb_le.
  - intros Hlt. rewrite (proj2 (Nat.leb_gt _ _) Hlt). reflexivity.
Qed.

Lemma existsb_In i L : existsb (Nat.eqb i) L = true <-> In i L.
Proof.
  rewrite existsb_exists. split.
  - intros (x & H1 & H2). apply Nat.eqb_eq in H2. now subst.
  - intros H. exists i. split; auto. apply Nat.eqb_refl.
Qed.

(** iterations kept by burn-in n and thinning with state L *)
Lemma thinning_kept ss te pb X (ss' : specific xr X) Y (bi' : specific bool Y) selections key n iterations st0 sc :
  sched_init ss te (initial_burn_in n) (random_thinning Key choice ss' bi' selections key) pb iterations (no_kw _ _ _ _) = Ok (st0, sc) ->
  exists L, th_init Key choice ss' bi' selections key iterations = Ok (L, Z.of_nat selections) /\
   sc = Z.min (Z.of_nat selections) (Z.of_nat iterations - Z.of_nat n) /\
   forall xs, length xs = iterations -> forall i, In i (kept_its _ _ _ _ st0 xs) <-> (i < iterations)%nat /\ In i L /\ (n <= i)%nat.
Proof.
  intros H. destruct (final_schedule _ _ _ _ _ _ _ _ _ H) as (s0 & t0 & b0 & nb & L & nh & _ & _ & E & E' & -> & G).
  cbn [no_kw kw_burn kw_thin initial_burn_in random_thinning sp_init sp_nokw kwarg] in E, E'. assert (Eb : b0 = n) by congruence. assert (En : nb = (Z.of_nat iterations - Z.of_nat n)%Z) by congruence. subst b0 nb. exists L.
  assert (nh = Z.of_nat selections).
  { unfold th_init in E'. destruct (sp_init ss' iterations (sp_nokw ss')); [|discriminate]. cbn [bind] in E'.
    destruct (sp_init bi' iterations (sp_nokw bi')); [|discriminate]. cbn [bind] in E'. destruct (_ <=? _)%nat; inversion E'; auto. }
  subst nh. split; auto. split; auto. intros xs Hl i.
  rewrite (kept_its_ext _ _ _ _ st0 xs (fun i => (n <=? i)%nat && existsb (Nat.eqb i) L)).
  - rewrite filter_In, in_seq, Bool.andb_true_iff, existsb_In, Nat.leb_le. intuition lia.
  - intros j Hj. unfold keeps. rewrite G. cbn [sch_burn_in sch_accept]. rewrite !evolve_static by reflexivity. cbn.
    rewrite firstn_length_le by lia. reflexivity.
Qed.

Lemma kept_its_NoDup ss te bi th st xs : NoDup (kept_its ss te bi th st xs).
Proof. apply NoDup_filter, seq_NoDup. Qed.

Lemma final_thinning ss te pb X (ss' : specific xr X) selections key n iterations : positive_steps ss' iterations ->
  (exists s, sp_init ss iterations (sp_nokw ss) = Ok s) -> (exists s, sp_init te iterations (sp_nokw te) = Ok s) ->
  let th := random_thinning Key choice ss' (initial_burn_in n) selections key in
  let init := sched_init ss te (initial_burn_in n) th pb iterations (no_kw _ _ _ _) in
  ((selections <= iterations - n)%nat -> exists st0 L, init = Ok (st0, Z.min (Z.of_nat selections) (Z.of_nat iterations - Z.of_nat n)) /\
     length L = selections /\ NoDup L /\ (forall i, In i L -> (n <= i < iterations)%nat) /\
     forall xs, length xs = iterations -> Permutation (kept_its _ _ _ _ st0 xs) L) /\
  ((iterations - n < selections)%nat -> init = Exc AssertionError).
Proof.
  intros Hpos (s1 & Es) (t1 & Et) th init. destruct (th_init_ok X ss' n selections key iterations Hpos) as [H1 H2]. split.
  - intros Hle. destruct (H1 Hle) as (L & EL & HL1 & HL2 & HL3).
    assert (Ei : exists st0, init = Ok (st0, Z.min (Z.of_nat selections) (Z.of_nat iterations - Z.of_nat n))).
    { unfold init, th, sched_init. cbn [no_kw kw_burn kw_thin kw_step kw_temp initial_burn_in random_thinning sp_init sp_nokw kwarg].
      rewrite EL. cbn [bind snd]. rewrite Es. cbn [bind]. rewrite Et. cbn [bind]. eexists. reflexivity. }
    destruct Ei as (st0 & Ei). exists st0, L. split; auto. split; auto. split; auto. split; auto. intros xs Hxs.
    destruct (thinning_kept _ _ _ _ _ _ _ _ _ _ _ _ _ Ei) as (L' & EL' & _ & Hk). rewrite EL in EL'. inversion EL'; subst L'.
    apply NoDup_Permutation; auto using kept_its_NoDup. intros i. pose proof (Hk xs Hxs i) as Hki. split; [intros Hi; apply Hki in Hi; tauto|]. intros Hi. apply Hki. pose proof (HL3 i Hi). tauto.
  - intros Hlt. unfold init, th, sched_init. cbn [no_kw kw_burn kw_thin random_thinning sp_init sp_nokw kwarg].
    rewrite (H2 Hlt). reflexivity.
Qed.

(** announced number of samples *)
Lemma final_bound_thinning ss te pb X (ss' : specific xr X) Y (bi' : specific bool Y) selections key n iterations st0 sc :
  (forall key p k, length (choice key p k) = k) ->
  sched_init ss te (initial_burn_in n) (random_thinning Key choice ss' bi' selections key) pb iterations (no_kw _ _ _ _) = Ok (st0, sc) ->
  forall xs, length xs = iterations -> (Z.of_nat (length (kept_its _ _ _ _ st0 xs)) <= Z.max 0 sc)%Z.
Proof.
  intros Hlen H xs Hxs. destruct (thinning_kept _ _ _ _ _ _ _ _ _ _ _ _ _ H) as (L & EL & -> & Hk). specialize (Hk xs Hxs).
  assert (HL : length L = selections).
  { unfold th_init in EL. destruct (sp_init ss' iterations (sp_nokw ss')); [|discriminate]. cbn [bind] in EL.
    destruct (sp_init bi' iterations (sp_nokw bi')); [|discriminate]. cbn [bind] in EL. destruct (_ <=? _)%nat; inversion EL; auto. }
  pose proof (kept_its_NoDup _ _ _ _ st0 xs) as Hnd.
  assert (A : (length (kept_its _ _ _ _ st0 xs) <= length L)%nat).
  { apply NoDup_incl_length; auto. intros i Hi. apply Hk in Hi. tauto. }
  assert (B : (length (kept_its _ _ _ _ st0 xs) <= length (seq n (iterations - n)))%nat).
  { apply NoDup_incl_length; auto. intros i Hi. apply Hk in Hi. apply in_seq. lia. }
  rewrite seq_length in B. lia.
Qed.
End Thin.
