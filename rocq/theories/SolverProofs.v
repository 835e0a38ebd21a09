(** Proofs about mcmc. *)
From Coq Require Import Reals ZArith.
From Verif Require Import Base ListUtil Pytree PytreeSpec PytreeProofs Io IoSpec IoProofs IoFinal Xreal Scheduler SchedulerSpec SchedulerProofs Solver SolverSpec.
Open Scope nat_scope.
Set Implicit Arguments.

Section P.
Variable V : Type.
Variable zeros_like : V -> V.
Variables (ss te : specific xr unit) (bi th : specific bool Z) (pb : bool).
Variable so : solver V.
Notation sched := (sched_state ss te bi th).
Notation sget := (sched_get ss te bi th).
Notation supd := (sched_update ss te bi th).

(** the states, statistics and calls of save of a run *)
Fixpoint tr_states (n : nat) (s : so_state so) (scs : list sched) : list (so_state so) :=
  match n with
  | 0 => [s]
  | S n' => let (s', x) := so_update so s (map sget scs) in s :: tr_states n' s' (map (fun c => supd c (stats_of x)) scs)
  end.
Fixpoint tr_stats (n : nat) (s : so_state so) (scs : list sched) : list stats :=
  match n with
  | 0 => []
  | S n' => let (s', x) := so_update so s (map sget scs) in stats_of x :: tr_stats n' s' (map (fun c => supd c (stats_of x)) scs)
  end.
Fixpoint tr_calls (n : nat) (s : so_state so) (scs : list sched) : list (bool * tree V) :=
  match n with
  | 0 => []
  | S n' => let (s', x) := so_update so s (map sget scs) in
            (keep_of (map sget scs), so_get so s') :: tr_calls n' s' (map (fun c => supd c (stats_of x)) scs)
  end.

Lemma tr_states_head n s scs : nth_error (tr_states n s scs) 0 = Some s.
Proof. destruct n; simpl; auto. destruct (so_update so s (map sget scs)); auto. Qed.

Lemma tr_iterates : forall n s scs, iterates so scs s n (tr_states n s scs) (tr_stats n s scs).
Proof.
  induction n as [|n IH]; intros s scs.
  - repeat split; auto. intros i s0 Hi. lia.
  - simpl. destruct (so_update so s (map sget scs)) as [s' x] eqn:E.
    destruct (IH s' (map (fun c => supd c (stats_of x)) scs)) as (H1 & H2 & H3 & H4).
    split; [simpl; lia|]. split; [simpl; lia|]. split; auto.
    intros [|i] s0 Hi Hs.
    + simpl in Hs. inversion Hs; subst s0. exists s', x. split; [exact E|]. split; [exact H3|reflexivity].
    + simpl in Hs. destruct (H4 i s0) as (s1 & x1 & E1 & E2 & E3); [lia|exact Hs|]. exists s1, x1. split; [|split; auto].
      rewrite map_map in E1. exact E1.
Qed.

Lemma iterates_unique (scs : list sched) s n sts xs sts' xs' : iterates so scs s n sts xs -> iterates so scs s n sts' xs' -> sts = sts' /\ xs = xs'.
Proof.
  intros (A1 & A2 & A3 & A4) (B1 & B2 & B3 & B4).
  assert (H : forall i, i <= n -> firstn i xs = firstn i xs' /\ nth_error sts i = nth_error sts' i).
  { induction i as [|i IH]; intros Hi; [split; [auto|congruence]|]. destruct IH as [I1 I2]; [lia|].
    destruct (nth_error sts i) as [s0|] eqn:Es; [|apply nth_error_None in Es; lia].
    destruct (A4 i s0) as (s1 & x1 & E1 & E2 & E3); [lia|auto|]. destruct (B4 i s0) as (s2 & x2 & F1 & F2 & F3); [lia|congruence|].
    rewrite <- I1 in F1. rewrite E1 in F1. inversion F1; subst s2 x2. split; [|congruence].
    assert (Hf : forall (l : list stats) v, nth_error l i = Some v -> firstn (S i) l = firstn i l ++ [v]).
    { clear. induction i as [|i IH]; intros [|y l] v H; simpl in *; try discriminate; [congruence|]. rewrite <- (IH l v H). reflexivity. }
    rewrite (Hf xs _ E3), (Hf xs' _ F3), I1. reflexivity. }
  split.
  - apply nth_error_ext. intros i. destruct (Nat.le_gt_cases i n) as [Hi|Hi]; [apply H; auto|].
    rewrite (proj2 (nth_error_None sts i)), (proj2 (nth_error_None sts' i)); auto; lia.
  - destruct (H n (le_n n)) as [H1 _]. rewrite !firstn_all2 in H1 by lia. exact H1.
Qed.

Lemma kept_its_cons main x xs :
  kept_its ss te bi th main (x :: xs) = (if keeps ss te bi th main then [0] else []) ++ map S (kept_its ss te bi th (supd main x) xs).
Proof.
  unfold kept_its. cbn [length seq filter]. rewrite <- seq_shift, filter_map_comm. change (after ss te bi th main (firstn 0 (x :: xs))) with main.
  destruct (keeps ss te bi th main); reflexivity.
Qed.

Lemma samples_at_shift s sts its : samples_at so (s :: sts) (map S its) = samples_at so sts its.
Proof. unfold samples_at. rewrite flat_map_concat_map, map_map, <- flat_map_concat_map. reflexivity. Qed.

Lemma tr_kept : forall n s main helpers,
  kept (tr_calls n s (main :: helpers)) = samples_at so (tr_states n s (main :: helpers)) (kept_its ss te bi th main (tr_stats n s (main :: helpers))).
Proof.
  induction n as [|n IH]; intros s main helpers; auto. cbn [tr_calls tr_states tr_stats].
  destruct (so_update so s (map sget (main :: helpers))) as [s' x] eqn:E. cbn [map].
  rewrite kept_its_cons.
  assert (Happ : forall sts a b, samples_at so sts (a ++ b) = samples_at so sts a ++ samples_at so sts b) by (intros; unfold samples_at; apply flat_map_app).
  rewrite Happ.
  rewrite samples_at_shift, <- IH. unfold kept. cbn [filter keep_of map fst snd].
  change (sch_burn_in (sget main) && sch_accept (sget main)) with (keeps ss te bi th main).
  destruct (keeps ss te bi th main); [|reflexivity]. unfold samples_at. cbn [map snd flat_map nth_error app]. pose proof (tr_states_head n s' (supd main (stats_of x) :: map (fun c => supd c (stats_of x)) helpers)) as Hh. cbn [nth_error] in Hh. rewrite Hh. reflexivity.
Qed.

Lemma tr_structure : keeps_structure so -> forall n s scs, Forall (fun ks => same_structure (snd ks) (so_get so s)) (tr_calls n s scs).
Proof.
  intros HK. induction n as [|n IH]; intros s scs; [constructor|]. simpl. pose proof (HK s (map sget scs)) as H.
  destruct (so_update so s (map sget scs)) as [s' x]. cbn [fst] in H. constructor; [exact H|].
  pose proof (IH s' (map (fun c => supd c (stats_of x)) scs)) as HI. rewrite Forall_forall in *. intros ks Hks. exact (structure_trans (HI ks Hks) H).
Qed.

(** ** the loop makes exactly the calls of the trace *)
Section Gen.
Variable W : Type.
Variable sa : saving V W.
Fixpoint sa_run (w : W) (st : sa_state sa) (calls : list (bool * tree V)) : W * res (sa_state sa) :=
  match calls with
  | [] => (w, Ok st)
  | (keep, s) :: r => match sa_save sa w st keep s with
                      | (w', Ok st') => sa_run w' st' r
                      | (w', Exc e) => (w', Exc e)
                      end
  end.
Lemma loop_trace : forall n w s scs st,
  fst (mcmc_loop so sa n w (s, scs, st)) = fst (sa_run w st (tr_calls n s scs)) /\
  (match snd (mcmc_loop so sa n w (s, scs, st)) with Ok c => Ok (snd c) | Exc e => Exc e end) = snd (sa_run w st (tr_calls n s scs)).
Proof.
  induction n as [|n IH]; intros w s scs st; [split; reflexivity|]. cbn [mcmc_loop tr_calls mcmc_step].
  destruct (so_update so s (map sget scs)) as [s' x]. cbn [sa_run].
  destruct (sa_save sa w st (keep_of (map sget scs)) (so_get so s')) as [w' [st'|e]]; auto.
Qed.
Lemma scan_trace n w s scs st : length scs = so_schedules so ->
  mcmc_scan so sa w n (s, scs, st) = sa_run w st (tr_calls n s scs).
Proof.
  intros H. unfold mcmc_scan. cbn [fst snd]. rewrite H, Nat.eqb_refl. destruct (loop_trace n w s scs st) as [H1 H2].
  destruct (mcmc_loop so sa n w (s, scs, st)) as [w' [c|e]]; cbn [fst snd] in *; destruct (sa_run w st (tr_calls n s scs)) as [w2 r2]; cbn in *; subst; reflexivity.
Qed.
End Gen.

Lemma ns_sa_run : forall calls st, sa_run (no_saving zeros_like) tt st calls = (tt, ns_run st calls).
Proof.
  induction calls as [|[keep s] r IH]; intros st; auto. cbn [sa_run no_saving sa_save ns_run]. destruct (ns_save st keep s); auto.
  cbn [bind]. apply IH.
Qed.

Lemma map_res_length A B (f : A -> res B) : forall l r, map_res f l = Ok r -> length r = length l.
Proof.
  induction l as [|x l IH]; intros r H; simpl in *; [inversion H; auto|]. destruct (f x); simpl in *; [|discriminate].
  destruct (map_res f l) as [ys|]; simpl in *; [|discriminate]. inversion H; subst. simpl. rewrite (IH ys); auto.
Qed.

(** one chain without a collector *)
Lemma final_chain s0 iterations schedulers main sc helpers : keeps_structure so ->
  sched_init ss te bi th pb iterations (no_kw ss te bi th) = Ok (main, sc) -> (0 <= sc)%Z ->
  map_res (fun kw => let* r := sched_init ss te bi th pb iterations kw in Ok (fst r)) schedulers = Ok helpers ->
  so_schedules so = S (length schedulers) ->
  exists sts xs n t, iterates so (main :: helpers) s0 iterations sts xs /\
    mcmc_chain pb so (no_saving zeros_like) tt s0 iterations schedulers = (tt, Some (Ok (n, t))) /\
    n = length (kept_its ss te bi th main xs) /\
    holds_samples zeros_like (so_get so s0) (Z.to_nat sc) (map leaves (samples_at so sts (kept_its ss te bi th main xs))) t.
Proof.
  intros HK E Hsc Eh Hn. exists (tr_states iterations s0 (main :: helpers)), (tr_stats iterations s0 (main :: helpers)).
  pose proof (tr_structure HK iterations s0 (main :: helpers)) as HS.
  destruct (@final_no_save V zeros_like (so_get so s0) (Z.to_nat sc) _ HS) as (st & Er & H1 & H2).
  destruct (ns_postprocess st) as [n t] eqn:Ep. exists n, t. split; [apply tr_iterates|].
  rewrite tr_kept in H1, H2.
  split; [|split; auto].
  - unfold mcmc_chain, mcmc_init. rewrite E, Eh. cbn [no_saving sa_init]. destruct (Z.ltb_spec sc 0); [lia|].
    rewrite scan_trace by (simpl; rewrite (map_res_length _ _ Eh); auto). rewrite ns_sa_run, Er. cbn [no_saving sa_post]. now rewrite Ep.
  - cbn [fst] in H1. rewrite H1. clear -main.
    assert (HI := tr_iterates iterations s0 (main :: helpers)). destruct HI as (L1 & L2 & _ & _).
    set (xs := tr_stats iterations s0 (main :: helpers)) in *. set (sts := tr_states iterations s0 (main :: helpers)) in *.
    assert (Hall : forall i, In i (kept_its ss te bi th main xs) -> S i < length sts).
    { intros i Hi. unfold kept_its in Hi. apply filter_In in Hi. destruct Hi as [Hi _]. apply in_seq in Hi. lia. }
    revert Hall. generalize (kept_its ss te bi th main xs). induction l as [|i l IH]; intros Hall; auto.
    unfold samples_at in *. cbn [flat_map]. rewrite app_length, IH by (intros; apply Hall; simpl; auto).
    destruct (nth_error sts (S i)) eqn:En; auto. apply nth_error_None in En. specialize (Hall i (or_introl eq_refl)). lia.
Qed.

(** ** several chains, strategy map *)
Lemma final_map_no_save : forall states iterations (schedulers : list (sched_kw ss te bi th)) results,
  mcmc_map pb so (no_saving zeros_like) tt states iterations schedulers = (tt, Some (Ok results)) <->
  Forall2 (fun s r => mcmc_chain pb so (no_saving zeros_like) tt s iterations schedulers = (tt, Some (Ok r))) states results.
Proof.
  induction states as [|s states IH]; intros its kws results; simpl.
  - split; intros H; [inversion H; constructor|inversion H; auto].
  - destruct (mcmc_chain pb so (no_saving zeros_like) tt s its kws) as [[] [[y|e]|]] eqn:E.
    + destruct (mcmc_map pb so (no_saving zeros_like) tt states its kws) as [[] [[ys|e]|]] eqn:E2.
      * split; intros H.
        -- inversion H; subst. constructor; auto. apply IH. exact E2.
        -- inversion H as [|? ? ? rs H1 H2]; subst. apply IH in H2. rewrite E2 in H2. inversion H2; subst. rewrite E in H1. inversion H1; subst. auto.
      * split; intros H; [discriminate|]. inversion H as [|? ? ? rs H1 H2]; subst. apply IH in H2. rewrite E2 in H2. discriminate.
      * split; intros H; [discriminate|]. inversion H as [|? ? ? rs H1 H2]; subst. apply IH in H2. rewrite E2 in H2. discriminate.
    + split; intros H; [discriminate|]. inversion H; subst. congruence.
    + split; intros H; [discriminate|]. inversion H; subst. congruence.
Qed.

(** ** with a MemoryCollector *)
Lemma sv_sa_run : forall calls m c k,
  sa_run (collector_saving zeros_like) m (mkSv c k) calls =
  (fst (run (mstep zeros_like) m (map (fun s => MSave c (leaves s)) (kept calls))), Ok (mkSv c (k + length (kept calls)))).
Proof.
  induction calls as [|[keep s] r IH]; intros m c k.
  - simpl. rewrite Nat.add_0_r. auto.
  - cbn [sa_run collector_saving sa_save]. unfold sv_save, host_save. cbn [sv_chain sv_saved]. destruct keep.
    + destruct (mc_save m c (leaves s)) as [m' u] eqn:Es. rewrite IH. unfold kept. cbn [filter fst map snd length run mstep]. rewrite Es.
      destruct (run (mstep zeros_like) m' (map (fun s => MSave c (leaves s)) (map snd (filter fst r)))). cbn [fst].
      do 2 f_equal. f_equal. lia.
    + rewrite IH. reflexivity.
Qed.

Lemma saves_of_self c (l : list (tree V)) : saves_of c (map (fun s => MSave c (leaves s)) l) = map leaves l.
Proof. induction l as [|s l IH]; auto. simpl. rewrite Nat.eqb_refl. simpl. f_equal. exact IH. Qed.

(** the collector is in a state reached by any sequence of calls; the chain can be registered *)
Lemma final_chain_collector dir h s0 iterations schedulers main sc helpers : keeps_structure so ->
  sched_init ss te bi th pb iterations (no_kw ss te bi th) = Ok (main, sc) -> (0 <= sc)%Z ->
  map_res (fun kw => let* r := sched_init ss te bi th pb iterations kw in Ok (fst r)) schedulers = Ok helpers ->
  so_schedules so = S (length schedulers) ->
  let m := fst (run (mstep zeros_like) (mc_new dir) h) in
  (exists c, snd (mc_register zeros_like m (so_get so s0) (Z.to_nat sc)) = Ok c) ->
  exists h', snd (mcmc_chain pb so (collector_saving zeros_like) m s0 iterations schedulers)
           = snd (mcmc_chain pb so (no_saving zeros_like) tt s0 iterations schedulers) /\
    fst (mcmc_chain pb so (collector_saving zeros_like) m s0 iterations schedulers) = fst (run (mstep zeros_like) (mc_new dir) (h ++ h')).
Proof.
  intros HK E Hsc Eh Hn m [c Hreg].
  set (calls := tr_calls iterations s0 (main :: helpers)).
  exists (MRegister (so_get so s0) (Z.to_nat sc) :: map (fun s => MSave c (leaves s)) (kept calls) ++ [MFinalize c]).
  pose proof (tr_structure HK iterations s0 (main :: helpers)) as HS. fold calls in HS.
  destruct (@final_no_save V zeros_like (so_get so s0) (Z.to_nat sc) calls HS) as (st & Er & H1 & H2).
  assert (Hl : length (main :: helpers) = so_schedules so) by (simpl; rewrite (map_res_length _ _ Eh); auto).
  unfold mcmc_chain, mcmc_init. rewrite E, Eh. cbn [no_saving collector_saving sa_init]. destruct (Z.ltb_spec sc 0); [lia|].
  rewrite scan_trace by auto. fold calls. rewrite ns_sa_run, Er. cbn [sa_post].
  unfold sv_init. destruct (mc_register zeros_like m (so_get so s0) (Z.to_nat sc)) as [m2 r] eqn:Em. cbn [snd] in Hreg. subst r.
  rewrite scan_trace by auto. fold calls. rewrite sv_sa_run. cbn [sa_post collector_saving Nat.add snd].
  unfold sv_postprocess. cbn [sv_chain sv_saved].
  assert (Hsv : Forall (fun vs => length vs = length (leaves (so_get so s0))) (saves_of c (map (fun s => MSave c (leaves s)) (kept calls) ++ [MFinalize c]))).
  { unfold saves_of. rewrite flat_map_app. fold (saves_of c (map (fun s => MSave c (leaves s)) (kept calls))). rewrite saves_of_self. simpl. rewrite app_nil_r.
    rewrite Forall_forall in *. intros vs Hin. apply in_map_iff in Hin. destruct Hin as (s & <- & Hs). unfold kept in Hs. apply in_map_iff in Hs.
    destruct Hs as (ks & <- & Hks). apply filter_In in Hks. apply structure_leaves, HS. tauto. }
  assert (Hregm : snd (mstep zeros_like m (MRegister (so_get so s0) (Z.to_nat sc))) = OutId (Ok c)) by (cbn [mstep]; rewrite Em; reflexivity).
  destruct (@final_memory V zeros_like dir h (so_get so s0) (Z.to_nat sc) c (map (fun s => MSave c (leaves s)) (kept calls) ++ [MFinalize c]) Hregm Hsv) as [_ Hfin].
  destruct Hfin as (t & Ht & Hhold); [apply in_or_app; simpl; auto|].
  rewrite run_app in Ht |- *. fold m in Ht |- *.
  assert (Hm : m = fst (run (mstep zeros_like) (mc_new dir) h)) by reflexivity. clearbody m.
  destruct (run (mstep zeros_like) (mc_new dir) h) as [m0 o0]. cbn [fst] in Hm. subst m0. cbn [run mstep] in Ht |- *. rewrite Em in Ht |- *.
  rewrite run_app in Ht |- *. destruct (run (mstep zeros_like) m2 (map (fun s => MSave c (leaves s)) (kept calls))) as [m3 o3]. cbn [run mstep fst] in Ht |- *.
  destruct (mc_finalize m3 c) as [m4 o4]. cbn [fst] in *. rewrite Ht. cbn [snd fst]. split; auto.
  cbn [no_saving sa_post snd]. unfold ns_postprocess in *. cbn [fst snd] in *. rewrite H1. do 3 f_equal.
  unfold saves_of in Hhold. rewrite flat_map_app in Hhold. fold (saves_of c (map (fun s => MSave c (leaves s)) (kept calls))) in Hhold. rewrite saves_of_self in Hhold.
  simpl in Hhold. rewrite app_nil_r in Hhold. clear -Hhold H2. revert Hhold H2. generalize (map leaves (kept calls)).
  intros vss A B. apply (@holds_unique _ _ _ _ _ _ _ A B).
Qed.
End P.
