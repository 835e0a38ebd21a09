(** C75: mcmc with strategy "pmap" (solver.py:162-184): the chains run at the same time on several devices and share the collector. *)
From Coq Require Import Reals ZArith String.
From Verif Require Import Base ListUtil Pytree PytreeSpec PytreeProofs Io IoSpec IoProofs IoFinal Xreal Scheduler SchedulerSpec SchedulerProofs Solver SolverSpec SolverProofs SolverFinal PropertiesSolver.
Open Scope nat_scope.
Set Implicit Arguments.

(** ** Model *)
Section Model.
Context {V : Type}.
Context {ss te : specific xr unit} {bi th : specific bool Z}.
Variables (pb : bool) (so : solver V) (W : Type) (sa : saving V W).
Notation sched := (sched_state ss te bi th).
Notation chain := (so_state so * list sched * sa_state sa)%type.
(** The devices run independently (solver.py:152-160 under list_pmap, util/list_map.py:150-173).  [who]: the devices in the order in which they execute an iteration (solver.py:94-123) with its
    callback to the host; a device executes its own iterations in order. *)
Fixpoint pmap_loop (who : list nat) (w : W) (cs : list chain) : W * res (list chain) :=
  match who with
  | [] => (w, Ok cs)
  | j :: r => match nth_error cs j with
              | None => pmap_loop r w cs
              | Some c => match mcmc_step so sa w c with
                          | (w', Ok c') => pmap_loop r w' (upd cs j c')
                          | (w', Exc e) => (w', Exc e)
                          end
              end
  end.
(** run with strategy "pmap", solver.py:172-184; jax.pmap raises ValueError if there are more chains than devices *)
Definition mcmc_pmap (devices : nat) (who : list nat) (w : W) (states : list (so_state so)) (iterations : nat) (schedulers : list (sched_kw ss te bi th)) : W * option (res (list (result V))) :=
  match mcmc_init_all pb so sa w states iterations schedulers with
  | (w1, Exc e) => (w1, Some (Exc e))
  | (w1, Ok []) => (w1, Some (Exc ValueError))
  | (w1, Ok cs) =>
      if devices <? length cs then (w1, Some (Exc ValueError))
      else if length schedulers + 1 =? so_schedules so then
        match pmap_loop who w1 cs with
        | (w2, Exc e) => (w2, Some (Exc e))
        | (w2, Ok cs') => post_all sa w2 (map snd cs')
        end
      else (w1, Some (Exc TypeError))
  end.
End Model.

(** ** Specification: n devices execute [its] iterations each, in any order *)
Definition interleaving (n its : nat) (who : list nat) : Prop := Forall (fun j => j < n) who /\ forall j, j < n -> count_occ Nat.eq_dec who j = its.

(** ** Proofs *)
Section Proofs.
Variable V : Type.
Variable z : V -> V.
Variables (ss te : specific xr unit) (bi th : specific bool Z) (pb : bool).
Variable so : solver V.
Notation sched := (sched_state ss te bi th).
Notation count := (count_occ Nat.eq_dec).
Notation mrun := (run (mstep z)).

Lemma saves_app c (a b : list (mop V)) : saves_of c (a ++ b) = saves_of c a ++ saves_of c b. Proof. apply flat_map_app. Qed.
Lemma step_collector m s scs c k : let (s', x) := so_update so s (map (sched_get ss te bi th) scs) in let keep := keep_of (map (sched_get ss te bi th) scs) in
  let h := if keep then [MSave c (leaves (so_get so s'))] else [] in
  mcmc_step so (collector_saving z) m (s, scs, mkSv c k) = (fst (mrun m h), Ok (s', map (fun q => sched_update ss te bi th q (stats_of x)) scs, mkSv c (k + if keep then 1 else 0))).
Proof.
  unfold mcmc_step. destruct (so_update so s _) as [s' x]. cbv zeta. cbn [collector_saving sa_save]. unfold sv_save, host_save. cbn [sv_chain sv_saved].
  destruct (keep_of _); cbn [run mstep fst]; [destruct (mc_save m c _) as [m' u]; cbn [fst]|]; do 4 f_equal; lia.
Qed.
Lemma loop_collector : forall who m (cs : list (so_state so * list sched * sa_state (collector_saving z))), Forall (fun j => j < length cs) who -> NoDup (map (fun c => sv_chain (snd c)) cs) ->
  exists H cs', pmap_loop so (collector_saving z) who m cs = (fst (mrun m H), Ok cs') /\ length cs' = length cs /\
    forall j s scs c k, nth_error cs j = Some (s, scs, mkSv c k) -> let calls := tr_calls so (count who j) s scs in
      exists s' scs', nth_error cs' j = Some (s', scs', mkSv c (k + length (kept calls))) /\ saves_of c H = map leaves (kept calls).
Proof.
  induction who as [|j0 r IH]; intros m cs Hw Hnd.
  - exists [], cs. split; [reflexivity|]. split; [reflexivity|]. intros j s scs c k Hj. cbn. rewrite Nat.add_0_r. eauto.
  - inversion Hw as [|? ? Hj0 Hr]; subst. destruct (nth_error cs j0) as [[[s0 scs0] [c0 k0]]|] eqn:E0; [|apply nth_error_None in E0; lia].
    pose proof (step_collector m s0 scs0 c0 k0) as St. destruct (so_update so s0 (map (sched_get ss te bi th) scs0)) as [s1 x] eqn:Eu. cbv zeta in St.
    set (keep := keep_of (map (sched_get ss te bi th) scs0)) in *. set (h0 := if keep then [MSave c0 (leaves (so_get so s1))] else []) in *.
    set (scs1 := map (fun q => sched_update ss te bi th q (stats_of x)) scs0) in *. set (k1 := k0 + if keep then 1 else 0) in *.
    destruct (IH (fst (mrun m h0)) (upd cs j0 (s1, scs1, mkSv c0 k1))) as (H & cs' & L1 & L2 & L3).
    { rewrite length_upd. exact Hr. }
    { replace (map _ (upd _ _ _)) with (map (fun c : so_state so * list sched * sa_state (collector_saving z) => sv_chain (snd c)) cs); [exact Hnd|].
      apply nth_error_ext. intros i. rewrite !nth_error_map. destruct (Nat.eq_dec i j0) as [-> |Hne]; [rewrite nth_error_upd_same by exact Hj0; rewrite E0; reflexivity|rewrite nth_error_upd_other by auto; reflexivity]. }
    exists (h0 ++ H), cs'. cbn [pmap_loop]. rewrite E0. match goal with |- context[mcmc_step so ?a m ?c] => replace (mcmc_step so a m c) with (fst (mrun m h0), Ok (s1, scs1, mkSv c0 k1) : res (so_state so * list sched * sa_state (collector_saving z))) by (symmetry; exact St) end. rewrite L1. split; [|split].
    + f_equal. rewrite run_app. destruct (mrun m h0) as [ma oa]. cbn [fst]. destruct (mrun ma H). reflexivity.
    + rewrite L2. apply length_upd.
    + intros j s scs c k Hj. destruct (Nat.eq_dec j0 j) as [-> |Hne].
      * rewrite E0 in Hj. injection Hj as <- <- <- <-.
        destruct (L3 j s1 scs1 c0 k1) as (s' & scs' & A & B); [apply nth_error_upd_same; exact Hj0|]. cbv zeta in A, B.
        exists s', scs'. rewrite count_occ_cons_eq by reflexivity. cbn [tr_calls]. rewrite Eu. fold keep scs1.
        rewrite saves_app, B, A. unfold kept. subst h0 k1. destruct keep; cbn [filter fst map snd length].
        -- cbn. rewrite Nat.eqb_refl. split; [|reflexivity]. do 3 f_equal. lia.
        -- split; [|reflexivity]. do 3 f_equal. lia.
      * destruct (L3 j s scs c k) as (s' & scs' & A & B); [rewrite nth_error_upd_other; auto|]. exists s', scs'. rewrite count_occ_cons_neq by exact Hne. split; [exact A|]. rewrite saves_app, B.
        assert (Hc : c <> c0).
        { intros ->. apply Hne. apply (proj1 (NoDup_nth_error _) Hnd); [rewrite map_length; exact Hj0|]. rewrite !nth_error_map. transitivity (Some c0); [exact (f_equal (option_map _) E0)|symmetry; exact (f_equal (option_map _) Hj)]. }
        subst h0. destruct keep; [|reflexivity]. cbn. replace (c0 =? c) with false by (symmetry; apply Nat.eqb_neq; auto). reflexivity.
Qed.

(** postprocessing *)
Definition stored (dir : bool) (h : list (mop V)) (sample : tree V) (K c : nat) (vss : list (list V)) : Prop :=
  exists h1 h2, h = h1 ++ MRegister sample K :: h2 /\ snd (mstep z (fst (mrun (mc_new dir) h1)) (MRegister sample K)) = OutId (Ok c) /\ saves_of c h2 = vss /\ Forall (fun vs => length vs = length (leaves sample)) vss.
Lemma post_collector dir : forall rows h, Forall (fun row : tree V * nat * sv_state * list (list V) => let '(sample, K, st, vss) := row in stored dir h sample K (sv_chain st) vss) rows ->
  exists m' results, post_all (collector_saving z) (fst (mrun (mc_new dir) h)) (map (fun row => snd (fst row)) rows) = (m', Some (Ok results)) /\
    Forall2 (fun row r => let '(sample, K, st, vss) := row in fst r = sv_saved st /\ holds_samples z sample K vss (snd r)) rows results.
Proof.
  induction rows as [|[[[sample K] [c k]] vss] rows IH]; intros h H.
  - eexists _, []. split; [reflexivity|constructor].
  - inversion H as [|? ? H0 Hr]; subst. destruct H0 as (h1 & h2 & E & R & Sv & F). cbn [sv_chain] in *. subst h vss. cbn [map fst snd post_all collector_saving sa_post]. unfold sv_postprocess. cbn [sv_chain sv_saved].
    set (h := h1 ++ MRegister sample K :: h2) in *.
    assert (Em : fst (mc_finalize (fst (mrun (mc_new dir) h)) c) = fst (mrun (mc_new dir) (h ++ [MFinalize c]))).
    { rewrite run_app. destruct (mrun (mc_new dir) h) as [ma oa]. cbn [fst run mstep]. destruct (mc_finalize ma c). reflexivity. }
    assert (SF : saves_of c (h2 ++ [MFinalize c]) = saves_of c h2) by (rewrite saves_app; cbn; apply app_nil_r).
    destruct (@final_memory V z dir h1 sample K c (h2 ++ [MFinalize c]) R) as [_ Q]; [rewrite SF; exact F|]. cbv zeta in Q.
    destruct Q as (t & Ht & Hh); [apply in_or_app; right; left; reflexivity|]. rewrite SF in Hh.
    replace (h1 ++ MRegister sample K :: h2 ++ [MFinalize c]) with (h ++ [MFinalize c]) in Ht by (unfold h; rewrite <- app_assoc; reflexivity).
    rewrite Em, Ht. destruct (IH (h ++ [MFinalize c])) as (m' & rs & P1 & P2).
    { eapply Forall_impl; [|exact Hr]. intros [[[sample' K'] [c' k']] vss'] (h1' & h2' & E' & R' & S' & F'). exists h1', (h2' ++ [MFinalize c]). split; [rewrite E', <- app_assoc; reflexivity|].
      split; [exact R'|]. split; [|exact F']. rewrite saves_app, S'. cbn. apply app_nil_r. }
    cbn [collector_saving] in P1. rewrite P1. exists m', ((k, t) :: rs). split; [reflexivity|]. constructor; auto.
Qed.

Section Chains.
Variables (iterations : nat) (schedulers : list (sched_kw ss te bi th)) (main : sched) (sc : Z) (helpers : list sched).
Hypothesis HK : keeps_structure so.
Hypothesis Hmain : sched_init ss te bi th pb iterations (no_kw ss te bi th) = Ok (main, sc).
Hypothesis Hsc : (0 <= sc)%Z.
Hypothesis Hhelp : map_res (fun kw => let* r := sched_init ss te bi th pb iterations kw in Ok (fst r)) schedulers = Ok helpers.
Hypothesis Harity : so_schedules so = S (length schedulers).
Notation K := (Z.to_nat sc).

Lemma init_collector dir : forall states h, Forall (fun s => nameable dir (so_get so s)) states -> let m := fst (mrun (mc_new dir) h) in
  exists regs, (forall c, saves_of c regs = []) /\
  mcmc_init_all pb so (collector_saving z) m states iterations schedulers =
    (fst (mrun (mc_new dir) (h ++ regs)), Ok (map (fun cs => (snd cs, main :: helpers, mkSv (length (mc_chains m) + fst cs) 0)) (combine (seq 0 (length states)) states))) /\
  forall j s, nth_error states j = Some s -> stored dir (h ++ regs) (so_get so s) K (length (mc_chains m) + j) [].
Proof.
  induction states as [|s states IH]; intros h Hn m.
  - exists []. split; [reflexivity|]. rewrite app_nil_r. split; [reflexivity|]. intros [|j] s Hs; discriminate.
  - inversion Hn as [|? ? H1 H2]; subst. cbn [mcmc_init_all]. unfold mcmc_init. rewrite Hmain, Hhelp. cbn [collector_saving sa_init]. destruct (Z.ltb_spec sc 0); [lia|].
    destruct (register_ok z h K H1) as [c Hreg]. fold m in Hreg. unfold sv_init. destruct (mc_register z m (so_get so s) K) as [m1 r] eqn:Er. cbn [snd] in Hreg. subst r.
    pose proof (mc_register_ok _ _ _ _ Er) as (names & Ec & Ech & _).
    assert (E1 : m1 = fst (mrun (mc_new dir) (h ++ [MRegister (so_get so s) K]))).
    { rewrite run_app. unfold m in Er. destruct (mrun (mc_new dir) h) as [ma oa]. cbn [fst run mstep] in *. rewrite Er. reflexivity. }
    assert (El : length (mc_chains m1) = S (length (mc_chains m))).
    { clear - Er. unfold mc_register in Er. match type of Er with context[match ?x with Ok _ => _ | Exc _ => _ end] => destruct x as [ns|] end; inversion Er; subst. cbn. rewrite app_length. cbn. lia. }
    destruct (IH (h ++ [MRegister (so_get so s) K]) H2) as (regs & I1 & I2 & I3). cbv zeta in I2, I3. rewrite <- E1, El in I2, I3. rewrite I2.
    exists (MRegister (so_get so s) K :: regs). split; [|split].
    + intros c'. cbn. apply I1.
    + rewrite <- app_assoc. cbn [app length seq combine map fst snd]. rewrite Nat.add_0_r, Ec. do 3 f_equal.
      rewrite <- seq_shift. clear. generalize (seq 0 (length states)). intros l. revert states. induction l as [|i l IHl]; intros [|s0 states]; try reflexivity. cbn [map combine fst snd]. rewrite IHl. do 3 f_equal. lia.
    + intros [|j] s' Hs'.
      * injection Hs' as <-. exists h, regs. split; [reflexivity|]. rewrite Nat.add_0_r, <- Ec. split; [|split; [apply I1|constructor]]. fold m. cbn [mstep]. rewrite Er. reflexivity.
      * rewrite <- app_assoc in I3. cbn [app] in I3. replace (length (mc_chains m) + S j) with (S (length (mc_chains m)) + j) by lia. apply I3. exact Hs'.
Qed.
End Chains.
End Proofs.

(** ** Theorems *)
Section Final.
Variable V : Type.
Variable z : V -> V.
Variables (ss te : specific xr unit) (bi th : specific bool Z) (pb : bool).
Variable so : solver V.
Notation sched := (sched_state ss te bi th).
Notation count := (count_occ Nat.eq_dec).
Notation mrun := (run (mstep z)).
Section Chains.
Variables (iterations : nat) (schedulers : list (sched_kw ss te bi th)) (main : sched) (sc : Z) (helpers : list sched).
Hypothesis HK : keeps_structure so.
Hypothesis Hmain : sched_init ss te bi th pb iterations (no_kw ss te bi th) = Ok (main, sc).
Hypothesis Hsc : (0 <= sc)%Z.
Hypothesis Hhelp : map_res (fun kw => let* r := sched_init ss te bi th pb iterations kw in Ok (fst r)) schedulers = Ok helpers.
Hypothesis Harity : so_schedules so = S (length schedulers).
Notation K := (Z.to_nat sc).
Notation calls s := (tr_calls so iterations s (main :: helpers)).

Lemma chain_value s r : fst r = length (kept (calls s)) -> holds_samples z (so_get so s) K (map leaves (kept (calls s))) (snd r) ->
  mcmc_chain pb so (no_saving z) tt s iterations schedulers = (tt, Some (Ok r)).
Proof.
  intros H1 H2. destruct (final_chain z pb s iterations schedulers HK Hmain Hsc Hhelp Harity) as (sts & xs & n & t & I & Ec & En & Hh).
  pose proof (samples_length main I) as HL. pose proof (tr_iterates so iterations s (main :: helpers)) as J. destruct (iterates_unique I J) as [-> ->].
  rewrite tr_kept in H1, H2. rewrite HL in H1. rewrite <- En in H1. destruct r as [n' t']. cbn [fst snd] in *. subst n'. rewrite (holds_unique H2 Hh). exact Ec.
Qed.

Lemma final_pmap_collector dir h devices who states : Forall (fun s => nameable dir (so_get so s)) states -> states <> [] -> length states <= devices -> interleaving (length states) iterations who ->
  exists results, run_no_save z pb so StMap states iterations schedulers = Some (Ok results) /\
    snd (mcmc_pmap pb so (collector_saving z) devices who (fst (mrun (mc_new dir) h)) states iterations schedulers) = Some (Ok results).
Proof.
  intros Hn Hne Hd [Hw Hc]. destruct (@init_collector V z ss te bi th pb so iterations schedulers main sc helpers Hmain Hsc Hhelp Harity dir states h Hn) as (regs & R1 & R2 & R3). cbv zeta in R2, R3.
  set (m := fst (mrun (mc_new dir) h)) in *. set (N := length (mc_chains m)) in *.
  pose (cs0 := map (fun cs => (snd cs, main :: helpers, mkSv (N + fst cs) 0)) (combine (seq 0 (length states)) states) : list (so_state so * list sched * sa_state (collector_saving z))).
  change (mcmc_init_all pb so (collector_saving z) m states iterations schedulers = (fst (mrun (mc_new dir) (h ++ regs)), Ok cs0)) in R2.
  assert (HL : length cs0 = length states) by (unfold cs0; rewrite map_length, combine_length, seq_length; lia).
  assert (Hcs : forall j s, nth_error states j = Some s -> nth_error cs0 j = Some (s, main :: helpers, mkSv (N + j) 0)).
  { assert (G : forall l a j (s : so_state so), nth_error l j = Some s -> nth_error (combine (seq a (length l)) l) j = Some (a + j, s)).
    { induction l as [|x l IH]; intros a [|j] s Hs; try discriminate; cbn in *; [injection Hs as ->; do 2 f_equal; lia|]. rewrite (IH (S a) j s Hs). do 2 f_equal. lia. }
    intros j s Hs. unfold cs0. rewrite nth_error_map, (G _ _ _ _ Hs). reflexivity. }
  destruct (@loop_collector V z ss te bi th so who (fst (mrun (mc_new dir) (h ++ regs))) cs0) as (H & cs' & L1 & L2 & L3).
  { rewrite HL. exact Hw. }
  { replace (map _ cs0) with (map (fun j => N + j) (seq 0 (length states))).
    - apply FinFun.Injective_map_NoDup; [intros a b; lia|apply seq_NoDup].
    - apply nth_error_ext. intros j. rewrite !nth_error_map. destruct (nth_error states j) as [s|] eqn:Es.
      + rewrite (Hcs j s Es). assert (j < length states) by (apply nth_error_Some; congruence). rewrite nth_error_nth' with (d := 0) by (rewrite seq_length; lia). rewrite seq_nth by lia. reflexivity.
      + apply nth_error_None in Es. rewrite (proj2 (nth_error_None (seq 0 (length states)) j)) by (rewrite seq_length; lia). rewrite (proj2 (nth_error_None cs0 j)) by lia. reflexivity. }
  unfold mcmc_pmap. rewrite R2.
  destruct cs0 as [|c0 cs1] eqn:E0; [destruct states; [contradiction|discriminate]|]. rewrite <- E0 in *. clear E0 c0 cs1.
  replace (devices <? length cs0) with false by (symmetry; apply Nat.ltb_ge; lia).
  rewrite Harity. replace (length schedulers + 1) with (S (length schedulers)) by lia. rewrite Nat.eqb_refl. rewrite L1.
  replace (fst (mrun (fst (mrun (mc_new dir) (h ++ regs))) H)) with (fst (mrun (mc_new dir) ((h ++ regs) ++ H))).
  2: { rewrite (run_app _ (h ++ regs) H). destruct (mrun (mc_new dir) (h ++ regs)) as [ma oa]. cbn [fst]. destruct (mrun ma H). reflexivity. }
  set (rows := map (fun sc' : so_state so * (so_state so * list sched * sv_state) => (so_get so (fst sc'), K, snd (snd sc'), map leaves (kept (calls (fst sc'))))) (combine states cs')).
  assert (Hrow : forall j s, nth_error states j = Some s -> exists s' scs', nth_error cs' j = Some (s', scs', mkSv (N + j) (length (kept (calls s)))) /\ saves_of (N + j) H = map leaves (kept (calls s))).
  { intros j s Hs. assert (Hj : j < length states) by (apply nth_error_Some; congruence). destruct (L3 _ _ _ _ _ (Hcs j s Hs)) as (s' & scs' & A & B). rewrite (Hc j Hj) in A, B. eauto. }
  destruct (@post_collector V z dir rows ((h ++ regs) ++ H)) as (m' & results & P1 & P2).
  { apply Forall_forall. intros [[[sample K'] st] vss] Hin. unfold rows in Hin. apply in_map_iff in Hin. destruct Hin as ([s c'] & E & Hin).
    apply In_nth_error in Hin. destruct Hin as [j Hj].
    assert (Hs : nth_error states j = Some s /\ nth_error cs' j = Some c').
    { clear - Hj. revert states cs' Hj. induction j as [|j IH]; intros [|a l] [|b l'] Hj; try discriminate; cbn in *; [injection Hj as -> ->; auto|apply IH; exact Hj]. }
    destruct Hs as [Hs Hc']. destruct (Hrow j s Hs) as (s' & scs' & A & B). rewrite A in Hc'. injection Hc' as <-. cbn [fst snd] in E. injection E as <- <- <- <-. cbn [sv_chain].
    destruct (R3 j s Hs) as (h1 & h2 & E & Rg & Sv & _). exists h1, (h2 ++ H). split; [rewrite E, <- app_assoc; reflexivity|]. split; [exact Rg|]. split; [rewrite saves_app, Sv, B; reflexivity|].
    pose proof (tr_structure HK iterations s (main :: helpers)) as HS. rewrite Forall_forall in *. intros vs Hv. apply in_map_iff in Hv. destruct Hv as (x & <- & Hx). unfold kept in Hx. apply in_map_iff in Hx.
    destruct Hx as (ks & <- & Hks). apply filter_In in Hks. apply structure_leaves, HS. tauto. }
  exists results. split.
  - cbn [run_no_save]. rewrite (proj2 (@final_map_no_save V z ss te bi th pb so states iterations schedulers results)); [reflexivity|].
    unfold rows in P2. assert (HL' : length cs' = length states) by congruence. clear P1 R2 R3 L1 L3.
    assert (Hst : forall j s c', nth_error states j = Some s -> nth_error cs' j = Some c' -> sv_saved (snd c') = length (kept (calls s))).
    { intros j s c' Hs Hc'. destruct (Hrow j s Hs) as (s' & scs' & A & _). rewrite A in Hc'. injection Hc' as <-. reflexivity. }
    clear - P2 HL' Hst HK Hmain Hsc Hhelp Harity. revert states results HL' P2 Hst. induction cs' as [|c' cs' IH]; intros [|s states] results HL' P2 Hst; try discriminate.
    + inversion P2. constructor.
    + cbn [combine map] in P2. inversion P2 as [|? r ? rs Hr Hrs]; subst. destruct Hr as [A B]. cbn [fst snd] in *. constructor.
      * apply chain_value; [rewrite A; apply (Hst 0); reflexivity|exact B].
      * apply IH; auto. intros j. apply (Hst (S j)).
  - replace (map snd cs') with (map (fun row => snd (fst row)) rows).
    + match goal with |- snd ?x = _ => replace x with (m', Some (Ok results)) by (symmetry; exact P1) end. reflexivity.
    + unfold rows. rewrite map_map. cbn [fst snd]. assert (HL' : length cs' = length states) by congruence. clear - HL'. revert states HL'. induction cs' as [|c' cs' IH]; intros [|s states] HL'; try discriminate; [reflexivity|].
      cbn. f_equal. apply IH. exact (f_equal pred HL').
Qed.

(** no_save: the devices share nothing *)
Lemma pmap_loops : forall who (cs cs' : list (so_state so * list sched * sa_state (no_saving z))), Forall (fun j => j < length cs) who -> length cs' = length cs ->
  (forall j c, nth_error cs j = Some c -> exists c', nth_error cs' j = Some c' /\ mcmc_loop so (no_saving z) (count who j) tt c = (tt, Ok c')) ->
  pmap_loop so (no_saving z) who tt cs = (tt, Ok cs').
Proof.
  induction who as [|j0 r IH]; intros cs cs' Hw HL H.
  - cbn [pmap_loop]. do 2 f_equal. apply nth_error_ext. intros j. destruct (nth_error cs j) as [c|] eqn:E.
    + destruct (H j c E) as (c' & A & B). cbn in B. injection B as <-. auto.
    + symmetry. apply nth_error_None. apply nth_error_None in E. lia.
  - inversion Hw as [|? ? Hj0 Hr]; subst. cbn [pmap_loop]. destruct (nth_error cs j0) as [c0|] eqn:E0; [|apply nth_error_None in E0; lia].
    destruct (H j0 c0 E0) as (c' & A & B). rewrite count_occ_cons_eq in B by reflexivity. cbn [mcmc_loop] in B.
    destruct (mcmc_step so (no_saving z) tt c0) as [[] [c1|e]] eqn:Es; [|discriminate]. apply IH.
    + rewrite length_upd. exact Hr.
    + rewrite length_upd. exact HL.
    + intros j c Hj. destruct (Nat.eq_dec j0 j) as [-> |Hne].
      * rewrite nth_error_upd_same in Hj by exact Hj0. injection Hj as <-. eauto.
      * rewrite nth_error_upd_other in Hj by auto. destruct (H j c Hj) as (c2 & A2 & B2). rewrite count_occ_cons_neq in B2 by exact Hne. eauto.
Qed.
Lemma final_pmap_no_save devices who states : states <> [] -> length states <= devices -> interleaving (length states) iterations who ->
  snd (mcmc_pmap pb so (no_saving z) devices who tt states iterations schedulers) = run_no_save z pb so StMap states iterations schedulers.
Proof.
  intros Hne Hd [Hw Hc]. rewrite <- (@final_vmap_no_save V z ss te bi th pb so iterations schedulers main sc helpers HK Hmain Hsc Hhelp Harity states Hne).
  cbn [run_no_save]. unfold mcmc_pmap, mcmc_vmap.
  assert (Hi : forall s, mcmc_init pb so (no_saving z) tt s iterations schedulers = (tt, Ok (main :: helpers, ns_init z (so_get so s) K))).
  { intros s. unfold mcmc_init. rewrite Hmain, Hhelp. cbn [no_saving sa_init]. destruct (Z.ltb_spec sc 0); [lia|reflexivity]. }
  assert (Ha : mcmc_init_all pb so (no_saving z) tt states iterations schedulers = (tt, Ok (map (fun s => (s, main :: helpers, ns_init z (so_get so s) K)) states))).
  { clear Hne Hd Hw Hc. induction states as [|s r IH]; auto. cbn [mcmc_init_all]. rewrite Hi, IH. reflexivity. }
  pose (cs := map (fun s => (s, main :: helpers, ns_init z (so_get so s) K)) states : list (so_state so * list sched * sa_state (no_saving z))). change (mcmc_init_all pb so (no_saving z) tt states iterations schedulers = (tt, Ok cs)) in Ha. rewrite Ha.
  destruct (@vmap_loop_ok V z ss te bi th so schedulers HK Harity iterations cs) as (cs' & Ev & H2).
  { unfold cs. rewrite Forall_forall. intros c Hcc. apply in_map_iff in Hcc. destruct Hcc as (s & <- & _). apply ns_init_structure. }
  assert (HL : length cs = length states) by (unfold cs; apply map_length).
  assert (HL' : length cs' = length cs) by (clear - H2; induction H2 as [|a b l l' Hab Hl IH]; [reflexivity|exact (f_equal S IH)]).
  assert (Ep : pmap_loop so (no_saving z) who tt cs = (tt, Ok cs')).
  { apply pmap_loops; [rewrite HL; exact Hw|exact HL'|]. intros j c Hj. assert (Hlt : j < length cs) by (apply nth_error_Some; congruence). rewrite HL in Hlt. rewrite (Hc j Hlt).
    clear - H2 Hj. revert j Hj. induction H2 as [|a b l l' Hab Hl IH]; intros [|j] Hj; try discriminate; [injection Hj as <-; exists b; split; [reflexivity|exact Hab]|apply IH; exact Hj]. }
  destruct cs as [|c0 cs1] eqn:E0; [reflexivity|]. rewrite <- E0 in *. clear E0 c0 cs1.
  replace (devices <? length cs) with false by (symmetry; apply Nat.ltb_ge; lia). destruct (_ =? _); [|reflexivity]. rewrite Ep.
  symmetry. exact (f_equal (fun p => snd (match p with (w2, Ok cs') => post_all (no_saving z) w2 (map snd cs') | (w2, Exc e) => (w2, Some (Exc e)) end)) Ev).
Qed.
End Chains.
End Final.
