(** Several chains: map with a collector, vmap. *)
From Coq Require Import Reals ZArith String.
From Verif Require Import Base ListUtil Pytree PytreeSpec PytreeProofs Io IoSpec IoProofs IoFinal Xreal Scheduler SchedulerSpec SchedulerProofs Solver SolverSpec SolverProofs.
Open Scope nat_scope.
Set Implicit Arguments.

Section P.
Variable V : Type.
Variable zeros_like : V -> V.
Variables (ss te : specific xr unit) (bi th : specific bool Z) (pb : bool).
Variable so : solver V.
Notation sched := (sched_state ss te bi th).
Notation sget := (sched_get ss te bi th).
Notation supd := (sched_update ss te bi th).

(** a collector that writes files needs the names of the leaves *)
Definition nameable (dir : bool) (sample : tree V) : Prop := dir = true -> exists ks, dict_keys sample = Ok ks.

Lemma register_ok dir h sample K : nameable dir sample ->
  exists c, snd (mc_register zeros_like (fst (run (mstep zeros_like) (mc_new dir) h)) sample K) = Ok c.
Proof.
  intros Hn. pose proof (dir_run zeros_like h (mc_new dir)) as Hd. cbn [mc_new mc_dir] in Hd.
  destruct (run (mstep zeros_like) (mc_new dir) h) as [m o]. cbn [fst] in *. unfold mc_register. rewrite Hd.
  destruct dir; [destruct (Hn eq_refl) as [ks ->]|]; cbn [bind snd]; eauto.
Qed.

Section Chains.
Variables (iterations : nat) (schedulers : list (sched_kw ss te bi th)) (main : sched) (sc : Z) (helpers : list sched).
Hypothesis HK : keeps_structure so.
Hypothesis Hmain : sched_init ss te bi th pb iterations (no_kw ss te bi th) = Ok (main, sc).
Hypothesis Hsc : (0 <= sc)%Z.
Hypothesis Hhelp : map_res (fun kw => let* r := sched_init ss te bi th pb iterations kw in Ok (fst r)) schedulers = Ok helpers.
Hypothesis Harity : so_schedules so = S (length schedulers).

Lemma final_map_collector dir : forall states h, Forall (fun s => nameable dir (so_get so s)) states ->
  exists results h', 
    run_no_save zeros_like pb so StMap states iterations schedulers = Some (Ok results) /\
    run_collector zeros_like pb so StMap (fst (run (mstep zeros_like) (mc_new dir) h)) states iterations schedulers
     = (fst (run (mstep zeros_like) (mc_new dir) (h ++ h')), Some (Ok results)).
Proof.
  cbn [run_no_save run_collector].
  induction states as [|s states IH]; intros h Hn.
  - exists [], []. rewrite app_nil_r. auto.
  - inversion Hn as [|? ? H1 H2]; subst. cbn [mcmc_map].
    destruct (final_chain zeros_like pb s iterations schedulers HK Hmain Hsc Hhelp Harity) as (sts & xs & n & t & _ & Ec & _ & _).
    destruct (@final_chain_collector V zeros_like ss te bi th pb so dir h s iterations schedulers main sc helpers HK Hmain Hsc Hhelp Harity (register_ok h (Z.to_nat sc) H1)) as (h1 & E1 & E2).
    rewrite Ec in *. cbn [snd] in E1.
    destruct (mcmc_chain pb so (collector_saving zeros_like) (fst (run (mstep zeros_like) (mc_new dir) h)) s iterations schedulers) as [m1 o1].
    cbn [fst snd] in *. subst m1 o1.
    destruct (IH (h ++ h1) H2) as (rs & h2 & R1 & R2). exists ((n, t) :: rs), (h1 ++ h2).
    destruct (mcmc_map pb so (no_saving zeros_like) tt states iterations schedulers) as [[] o]. cbn [snd] in *. subst o. rewrite R2.
    rewrite app_assoc. auto.
Qed.

(** ** vmap *)
Definition good (c : so_state so * list sched * @ns_state V) : Prop := same_structure (ns_data (snd c)) (so_get so (fst (fst c))).

Lemma ns_save_ok st keep s : same_structure (ns_data st) s -> exists st1 st2, ns_save_sample st s = Ok st1 /\ ns_save st keep s = Ok st2 /\
  st2 = (if keep : bool then st1 else st) /\ same_structure (ns_data (V := V) st2) s.
Proof.
  intros H. unfold ns_save, ns_save_sample.
  destruct (@tree_map2_ok (list V) V (list V) (fun rows v => upd rows (ns_saved st) v) (ns_data st) s H) as (d & -> & HS & _).
  cbn [bind]. destruct keep; eexists _, _; (split; [reflexivity|split; [reflexivity|split; [reflexivity|]]]); auto. cbn. eapply structure_trans; eauto.
Qed.

Lemma vmap_step_ok : forall cs, Forall good cs ->
  exists cs', vmap_step so ns_vsave tt cs = (tt, Ok cs') /\ Forall good cs' /\ Forall2 (fun c c' => mcmc_step so (no_saving zeros_like) tt c = (tt, Ok c')) cs cs'.
Proof.
  intros cs H. unfold vmap_step, ns_vsave.
  match goal with |- context[map snd (map ?f cs)] => set (F := f) end.
  assert (HG : exists sts, map_res (fun row => let '(st, keep, sample) := row in let* a := ns_save_sample st sample in Ok (if keep : bool then a else st)) (map snd (map F cs)) = Ok sts /\
    length sts = length cs /\ Forall good (combine (map fst (map F cs)) sts) /\
    Forall2 (fun c c' => mcmc_step so (no_saving zeros_like) tt c = (tt, Ok c')) cs (combine (map fst (map F cs)) sts)).
  { induction H as [|[[s scs] st] cs Hc Hcs IH].
    - exists []. simpl. auto.
    - destruct IH as (sts & E1 & E2 & E3 & E4). cbn [map map_res].
      assert (HF : F (s, scs, st) = (fst (so_update so s (map sget scs)), map (fun c => supd c (stats_of (snd (so_update so s (map sget scs))))) scs,
         (st, keep_of (map sget scs), so_get so (fst (so_update so s (map sget scs)))))).
      { unfold F. destruct (so_update so s (map sget scs)); reflexivity. }
      rewrite HF. cbn [snd fst].
      assert (Hst : same_structure (ns_data st) (so_get so (fst (so_update so s (map sget scs))))).
      { unfold good in Hc. cbn [snd fst] in Hc. exact (structure_trans Hc (structure_sym (HK s (map sget scs)))). }
      destruct (@ns_save_ok _ (keep_of (map sget scs)) _ Hst) as (st1 & st2 & S1 & S2 & S3 & S4). rewrite S1. cbn [bind]. rewrite <- S3, E1. cbn [bind].
      exists (st2 :: sts). split; auto. split; [simpl; lia|]. cbn [combine]. split; constructor; auto.
      cbn [mcmc_step]. destruct (so_update so s (map sget scs)) as [s' x]. cbn [fst snd] in *. cbn [no_saving sa_save]. rewrite S2. reflexivity. }
  destruct HG as (sts & E1 & _ & E3 & E4). rewrite E1. eauto.
Qed.

Lemma vmap_loop_ok : forall n cs, Forall good cs ->
  exists cs', vmap_loop so ns_vsave n tt cs = (tt, Ok cs') /\ Forall2 (fun c c' => mcmc_loop so (no_saving zeros_like) n tt c = (tt, Ok c')) cs cs'.
Proof.
  induction n as [|n IH]; intros cs H.
  - exists cs. split; auto. clear H. induction cs; constructor; auto.
  - cbn [vmap_loop]. destruct (vmap_step_ok H) as (cs1 & -> & H1 & H2). destruct (IH cs1 H1) as (cs2 & -> & H3). exists cs2. split; auto.
    clear - H2 H3. revert cs2 H3. induction H2 as [|c c1 cs cs1 Hc Hcs IH]; intros cs2 H3; inversion H3; subst; constructor; auto.
    cbn [mcmc_loop]. rewrite Hc. auto.
Qed.

Lemma ns_init_structure (sample : tree V) K : same_structure (ns_data (ns_init zeros_like sample K)) sample.
Proof. unfold same_structure. symmetry. apply (@same_structure_map V V (list V) (fun leaf => repeat (zeros_like leaf) K) sample sample eq_refl). Qed.

Lemma post_ns : forall l : list (@ns_state V), post_all (no_saving zeros_like) tt l = (tt, Some (Ok (map (@ns_postprocess V) l))).
Proof.
  induction l as [|st l IH]; auto. cbn [post_all]. change (sa_post (no_saving zeros_like) tt st) with (tt, Some (Ok (ns_postprocess st))). cbn iota beta.
  rewrite IH. reflexivity.
Qed.

Lemma final_vmap_no_save states : states <> [] ->
  run_no_save zeros_like pb so StVmap states iterations schedulers = run_no_save zeros_like pb so StMap states iterations schedulers.
Proof.
  intros Hne. cbn [run_no_save]. unfold mcmc_vmap.
  assert (Hi : forall s, mcmc_init pb so (no_saving zeros_like) tt s iterations schedulers = (tt, Ok (main :: helpers, ns_init zeros_like (so_get so s) (Z.to_nat sc)))).
  { intros s. unfold mcmc_init. rewrite Hmain, Hhelp. cbn [no_saving sa_init]. destruct (Z.ltb_spec sc 0); [lia|reflexivity]. }
  assert (Ha : mcmc_init_all pb so (no_saving zeros_like) tt states iterations schedulers
    = (tt, Ok (map (fun s => (s, main :: helpers, ns_init zeros_like (so_get so s) (Z.to_nat sc))) states))).
  { clear Hne. induction states as [|s r IH]; auto. cbn [mcmc_init_all]. rewrite Hi, IH. reflexivity. }
  rewrite Ha. destruct states as [|s0 states0] eqn:Es; [contradiction|]. rewrite <- Es in *. 
  set (cs := map (fun s => (s, main :: helpers, ns_init zeros_like (so_get so s) (Z.to_nat sc))) states).
  assert (Hcs : cs <> []) by (unfold cs; rewrite Es; discriminate).
  rewrite Harity. replace (length schedulers + 1) with (S (length schedulers)) by lia. rewrite Nat.eqb_refl.
  destruct (@vmap_loop_ok iterations cs) as (cs' & Ev & H2).
  { unfold cs. rewrite Forall_forall. intros c Hc. apply in_map_iff in Hc. destruct Hc as (s & <- & _). apply ns_init_structure. }
  assert (Hv : (match cs with [] => (tt, Some (Exc ValueError)) | _ :: _ => match vmap_loop so ns_vsave iterations tt cs with
     | (w2, Ok cs') => post_all (no_saving zeros_like) w2 (map snd cs') | (w2, Exc e) => (w2, Some (Exc e)) end end)
     = post_all (no_saving zeros_like) tt (map snd cs')).
  { rewrite Ev. destruct cs; [contradiction|reflexivity]. }
  etransitivity; [exact (f_equal snd Hv)|]. clear Hv Ev Hcs Ha Es Hne.
  unfold cs in *. clear cs. clear states0 s0. revert cs' H2. induction states as [|s r IH]; intros cs' H2.
  - inversion H2; subst. reflexivity.
  - cbn [map] in H2. inversion H2 as [|? c' ? cs1 H3 H4]; subst. cbn [map post_all mcmc_map].
    specialize (IH cs1 H4). unfold mcmc_chain at 1. rewrite Hi. unfold mcmc_scan. cbn [fst snd].
    replace (length (main :: helpers)) with (so_schedules so) by (simpl; rewrite (map_res_length _ _ Hhelp); auto). rewrite Nat.eqb_refl. match goal with |- context[mcmc_loop _ _ _ _ ?c] => replace (mcmc_loop so (no_saving zeros_like) iterations tt c) with (tt : unit, Ok c') by (symmetry; exact H3) end.
    change (sa_post (no_saving zeros_like) tt (snd c')) with (tt, Some (Ok (ns_postprocess (snd c')))). cbn iota beta.
    destruct (mcmc_map pb so (no_saving zeros_like) tt r iterations schedulers) as [[] o2]. cbn [snd] in IH.
    assert (IH' : o2 = Some (Ok (map (@ns_postprocess V) (map snd cs1)))) by (etransitivity; [exact (eq_sym IH)|]; exact (f_equal snd (post_ns (map snd cs1)))).
    clear IH. subst o2. exact (f_equal snd (post_ns (snd c' :: map snd cs1))).
Qed.

(** *** vmap with a collector, one chain: the callback runs in every iteration *)
Lemma vmap_loop_collector : forall n m s (scs : list sched) c k,
  exists s' scs', vmap_loop so sv_vsave n m [(s, scs, mkSv c k)] =
   (fst (run (mstep zeros_like) m (map (fun ks => MSave c (leaves (snd ks))) (tr_calls so n s scs))),
    Ok [(s', scs', mkSv c (k + length (kept (tr_calls so n s scs))))]).
Proof.
  induction n as [|n IH]; intros m s scs c k.
  - exists s, scs. simpl. rewrite Nat.add_0_r. auto.
  - cbn [vmap_loop tr_calls]. unfold vmap_step. cbn [map].
    destruct (so_update so s (map sget scs)) as [s1 x] eqn:E. cbn [snd fst map].
    unfold sv_vsave at 1. cbn [map host_save_batched sv_chain sv_saved].
    assert (Hm : fst (match mc_save m c (leaves (so_get so s1)) with (m', Ok _) => (m', Ok tt) | (m', Exc e) => (m', Exc e) end)
      = fst (mc_save m c (leaves (so_get so s1)))) by (destruct (mc_save m c (leaves (so_get so s1))) as [? [?|?]]; reflexivity).
    rewrite Hm. cbn [combine].
    destruct (IH (fst (mc_save m c (leaves (so_get so s1)))) s1 (map (fun c0 => supd c0 (stats_of x)) scs) c (k + (if keep_of (map sget scs) then 1 else 0))) as (s' & scs' & HI).
    exists s', scs'.
    replace (if keep_of (map sget scs) then mkSv c (S k) else mkSv c k) with (mkSv c (k + (if keep_of (map sget scs) then 1 else 0)))
      by (destruct (keep_of (map sget scs)); f_equal; lia).
    fold (@sv_vsave V). rewrite HI. cbn [run mstep]. destruct (mc_save m c (leaves (so_get so s1))) as [m' u]. cbn [fst].
    destruct (run (mstep zeros_like) m' (map (fun ks => MSave c (leaves (snd ks))) (tr_calls so n s1 (map (fun c0 => supd c0 (stats_of x)) scs)))). cbn [fst].
    do 4 f_equal. unfold kept. cbn [filter fst map length]. destruct (keep_of (map sget scs)); cbn [map length]; f_equal; lia.
Qed.

Lemma tr_all n s (scs : list sched) : map snd (tr_calls so n s scs) = samples_at so (tr_states so n s scs) (seq 0 n).
Proof.
  revert s scs. induction n as [|n IH]; intros s scs; auto. cbn [tr_calls tr_states]. destruct (so_update so s (map sget scs)) as [s' x] eqn:E.
  cbn [map snd seq]. rewrite <- seq_shift.
  change (samples_at so ?l (0 :: ?r)) with ((match nth_error l 1 with Some s0 => [so_get so s0] | None => [] end) ++ samples_at so l r).
  rewrite samples_at_shift, <- IH.
  pose proof (tr_states_head so n s' (map (fun c => supd c (stats_of x)) scs)) as Hh. cbn [nth_error] in Hh |- *. rewrite Hh. reflexivity.
Qed.

Lemma final_vmap_collector dir h s0 : nameable dir (so_get so s0) ->
  exists sts xs n t, iterates so (main :: helpers) s0 iterations sts xs /\
    snd (run_collector zeros_like pb so StVmap (fst (run (mstep zeros_like) (mc_new dir) h)) [s0] iterations schedulers) = Some (Ok [(n, t)]) /\
    n = length (samples_at so sts (kept_its ss te bi th main xs)) /\
    holds_samples zeros_like (so_get so s0) (Z.to_nat sc) (map leaves (samples_at so sts (seq 0 iterations))) t.
Proof.
  intros Hname. exists (tr_states so iterations s0 (main :: helpers)), (tr_stats so iterations s0 (main :: helpers)).
  rewrite <- tr_kept, <- tr_all.
  set (calls := tr_calls so iterations s0 (main :: helpers)).
  pose proof (tr_structure HK iterations s0 (main :: helpers)) as HS. fold calls in HS.
  destruct (register_ok h (Z.to_nat sc) Hname) as [c Hreg].
  set (m := fst (run (mstep zeros_like) (mc_new dir) h)) in *.
  cbn [run_collector]. unfold mcmc_vmap. cbn [mcmc_init_all]. unfold mcmc_init. rewrite Hmain, Hhelp. cbn [collector_saving sa_init sa_state].
  destruct (Z.ltb_spec sc 0); [lia|]. unfold sv_init.
  destruct (mc_register zeros_like m (so_get so s0) (Z.to_nat sc)) as [m2 r] eqn:Em. cbn [snd] in Hreg. subst r.
  rewrite Harity. replace (length schedulers + 1) with (S (length schedulers)) by lia. rewrite Nat.eqb_refl.
  destruct (vmap_loop_collector iterations m2 s0 (main :: helpers) c 0) as (s' & scs' & Ev). fold calls in Ev. rewrite Ev.
  cbn [map snd post_all collector_saving sa_post Nat.add]. unfold sv_postprocess. cbn [sv_chain sv_saved].
  set (saves := map (fun ks : bool * tree V => MSave c (leaves (snd ks))) calls) in *.
  assert (Hself : saves_of c saves = map leaves (map snd calls)).
  { unfold saves. rewrite <- saves_of_self with (c := c). rewrite map_map. reflexivity. }
  assert (Hself2 : saves_of c (saves ++ [MFinalize c]) = map leaves (map snd calls)).
  { unfold saves_of. rewrite flat_map_app. fold (saves_of c saves). rewrite Hself. simpl. apply app_nil_r. }
  assert (Hsv : Forall (fun vs => length vs = length (leaves (so_get so s0))) (saves_of c (saves ++ [MFinalize c]))).
  { rewrite Hself2. rewrite Forall_forall in *. intros vs Hin. apply in_map_iff in Hin. destruct Hin as (s & <- & Hs). apply in_map_iff in Hs.
    destruct Hs as (ks & <- & Hks). apply structure_leaves, HS. auto. }
  assert (Hregm : snd (mstep zeros_like m (MRegister (so_get so s0) (Z.to_nat sc))) = OutId (Ok c)) by (cbn [mstep]; rewrite Em; reflexivity).
  destruct (@final_memory V zeros_like dir h (so_get so s0) (Z.to_nat sc) c (saves ++ [MFinalize c]) Hregm Hsv) as [_ Hfin].
  destruct Hfin as (t & Ht & Hhold); [apply in_or_app; simpl; auto|]. rewrite Hself2 in Hhold.
  rewrite run_app in Ht. assert (Hm : m = fst (run (mstep zeros_like) (mc_new dir) h)) by reflexivity. clearbody m.
  destruct (run (mstep zeros_like) (mc_new dir) h) as [m0 o0]. cbn [fst] in Hm. subst m0. cbn [run mstep] in Ht. rewrite Em in Ht.
  rewrite run_app in Ht. destruct (run (mstep zeros_like) m2 saves) as [m3 o3]. cbn [run mstep fst] in Ht |- *.
  destruct (mc_finalize m3 c) as [m4 o4]. cbn [fst] in *. rewrite Ht. cbn [snd fst].
  exists (length (kept calls)), t. split; [apply tr_iterates|]. split; [reflexivity|]. split; auto.
Qed.

(** ** an unknown strategy *)
Lemma final_unknown states : states <> [] ->
  run_no_save zeros_like pb so StOther states iterations schedulers = Some (Exc NotImplementedError).
Proof.
  intros Hne. cbn [run_no_save]. unfold mcmc_unknown.
  assert (Hi : forall s, mcmc_init pb so (no_saving zeros_like) tt s iterations schedulers = (tt, Ok (main :: helpers, ns_init zeros_like (so_get so s) (Z.to_nat sc)))).
  { intros s. unfold mcmc_init. rewrite Hmain, Hhelp. cbn [no_saving sa_init]. destruct (Z.ltb_spec sc 0); [lia|reflexivity]. }
  assert (Ha : mcmc_init_all pb so (no_saving zeros_like) tt states iterations schedulers
    = (tt, Ok (map (fun s => (s, main :: helpers, ns_init zeros_like (so_get so s) (Z.to_nat sc))) states))).
  { clear Hne. induction states as [|s r IH]; auto. cbn [mcmc_init_all]. rewrite Hi, IH. reflexivity. }
  rewrite Ha. destruct states; [contradiction|]. reflexivity.
Qed.
End Chains.
End P.
