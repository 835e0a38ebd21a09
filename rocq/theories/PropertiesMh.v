(** C34, C35, C36: parallel tempering, AMAGOLD, SGGMC. *)
From Coq Require Import Reals Lra ZArith.
From Verif Require Import Base Pytree Xreal Scheduler Solver Mh MhProofs.
Open Scope R_scope.
Set Implicit Arguments.

(** ** C34 *)
(** after every step the pair of states is the pair of integrated states, exchanged or not; each chain is integrated with its own
    schedule, and the sample is that of the first (cold) one *)
Theorem C34_pair_partial : forall Key V Chain split2 uniform update_integrator (get : Chain -> tree V) variance potential sa_schedule (st : pt_state Key Chain) ns hs rest,
  let so := @parallel_tempering Key split2 uniform V Chain update_integrator get variance potential sa_schedule in
  let n := update_integrator (pt_normal st) ns in let h := update_integrator (pt_hot st) hs in
  let st' := fst (so_update so st (ns :: hs :: rest)) in
  ((pt_normal st', pt_hot st') = (n, h) \/ (pt_normal st', pt_hot st') = (h, n)) /\
  so_get so st' = get (pt_normal st') /\ snd (so_update so st (ns :: hs :: rest)) = None.
Proof.
  intros. split; [apply (pt_pair split2 uniform update_integrator variance potential sa_schedule st ns hs)|]. repeat split.
Qed.
(** the estimate of the variance is the running mean *)
Theorem C34_variance_mean : forall Key Chain split2 uniform (update_integrator : Chain -> schedule -> Chain) variance potential sa_schedule,
  (forall n, (0 < n)%nat -> sa_schedule n = Fin (1 / INR n)) ->
  let run (st : pt_state Key Chain) schs := fold_left (fun s nh => pt_update split2 uniform update_integrator variance potential sa_schedule s (fst nh) (snd nh)) schs st in
  forall schs st q0, pt_step st = 0%nat -> pt_ssq st = Fin q0 -> schs <> [] -> forall vs, length vs = length schs ->
  (forall i a b s, nth_error schs i = Some (a, b) -> s = run st (firstn i schs) -> variance (update_integrator (pt_normal s) a) = Fin (nth i vs 0)) ->
  pt_ssq (run st schs) = Fin (rsum vs / INR (length vs)).
Proof. intros Key Chain split2 uniform upd variance potential sa Hsa run schs st q0 H1 H2 H3 vs H4 H5. eapply pt_mean; eauto. Qed.
(** What fails: the exchange happens iff NOT u < s, where s is the exchange probability of the replica exchange method *)
Theorem C34_swap_inverted_refuted : forall Key Chain split2 uniform, (forall k : Key, 0 <= uniform k < 1) ->
  forall (update_integrator : Chain -> schedule -> Chain) variance potential sa_schedule (st : pt_state Key Chain) ns hs tn th un uh f ssq,
  let st' := pt_update split2 uniform update_integrator variance potential sa_schedule st ns hs in
  let n := update_integrator (pt_normal st) ns in let h := update_integrator (pt_hot st) hs in
  sch_temperature ns = Fin tn -> sch_temperature hs = Fin th -> tn <> 0 -> th <> 0 ->
  potential n = Fin un -> potential h = Fin uh -> pt_F st = Fin f -> f <> 0 -> pt_ssq st' = Fin ssq ->
  let temps := 1 / tn - 1 / th in
  let s := exp (temps * (un - uh - temps * ssq / f)) in
  let u := uniform (snd (split2 (pt_key st))) in
  (u < s -> (pt_normal st', pt_hot st') = (n, h)) /\ (s <= u -> (pt_normal st', pt_hot st') = (h, n)).
Proof. intros. eapply pt_decision; eauto. Qed.
(** example: the cold chain has a much higher potential (s > 1), nevertheless the chains are not exchanged *)
Definition pt_example : pt_state unit (nat * R) := mkPt (0%nat, 10) (1%nat, 0) (Fin 0) (Fin 1) 0 tt.
Definition sch_T (T : R) : schedule := mkSchedule (Fin 1) (Fin T) true true.
Theorem C34_example_refuted :
  let upd := fun (c : nat * R) (_ : schedule) => c in
  let st' := pt_update (fun _ : unit => (tt, tt)) (fun _ => 1 / 2) upd (fun _ => Fin 0) (fun c => Fin (snd c)) (fun n => Fin (1 / INR n)) pt_example (sch_T 1) (sch_T 2) in
  fst (pt_normal st') = 0%nat /\ 1 < exp ((1 / 1 - 1 / 2) * (10 - 0 - (1 / 1 - 1 / 2) * 0 / 1)).
Proof.
  intros upd st'. assert (Hs : 1 < exp ((1 / 1 - 1 / 2) * (10 - 0 - (1 / 1 - 1 / 2) * 0 / 1))) by (apply Rle_lt_trans with (exp 0); [rewrite exp_0; lra | apply exp_increasing; lra]).
  split; auto. destruct (@C34_swap_inverted_refuted unit (nat * R) (fun _ => (tt, tt)) (fun _ => 1 / 2) ltac:(intros; lra) upd (fun _ => Fin 0) (fun c => Fin (snd c)) (fun n => Fin (1 / INR n))
    pt_example (sch_T 1) (sch_T 2) 1 2 10 0 1 0) as [H _]; try reflexivity; try lra.
  - unfold pt_update, pt_new_ssq. cbn [pt_example pt_key pt_step pt_ssq]. match goal with |- context[xltb ?x ?y] => destruct (xltb x y) end; cbn; f_equal; unfold Rdiv; ring.
  - assert (Hu : 1 / 2 < exp ((1 / 1 - 1 / 2) * (10 - 0 - (1 / 1 - 1 / 2) * 0 / 1))) by lra. specialize (H Hu). unfold st'.
    inversion H as [[H1 H2]]. rewrite H1. reflexivity.
Qed.

(** ** C35 *)
Section C35.
Variables (Key Pos Mom Model Data Full Mass MassState : Type).
Variables (split2 : Key -> Key * Key) (uniform : Key -> R).
Variable scale : R -> Mom -> Mom.
Variable full_potential : Pos -> Full -> Model -> xr * (Full * Model).
Variable init_full : Full.
Variable mass_adaption : option ((Pos -> MassState) * (MassState -> Pos -> MassState) * (MassState -> Mass)).
Variable lf_init : Pos -> Key -> option Mass -> Model -> lf_state Key Pos Mom Model Data.
Variable lf_update : lf_state Key Pos Mom Model Data -> schedule -> option Mass -> lf_state Key Pos Mom Model Data.
(** state after updates with the schedules schs *)
Definition am_after (st : am_state Key Pos Mom Model Data Full MassState) (schs : list schedule) :=
  fold_left (fun s sch => fst (am_update split2 uniform scale full_potential mass_adaption lf_update s sch)) schs st.
End C35.

Theorem C35_potential_of_position : forall Key Pos Mom Model Data Full Mass MassState split2 uniform scale
    (full_potential : Pos -> Full -> Model -> xr * (Full * Model)) init_full mass_adaption lf_init lf_update,
  (forall p k mass m, lf_positions (lf_init p k mass m) = p /\ lf_model (lf_init p k mass m) = m) ->
  forall sample key model schs,
  let st0 := @am_init Key split2 Pos Mom Model Data Full Mass MassState full_potential init_full mass_adaption lf_init sample key model in
  let st := am_after split2 uniform scale full_potential mass_adaption lf_update st0 schs in
  (exists fd m, fst (full_potential (lf_positions (am_integrator st)) fd m) = am_potential st /\
                snd (snd (full_potential (lf_positions (am_integrator st)) fd m)) = lf_model (am_integrator st)) /\
  forall U, (forall p fd m, fst (full_potential p fd m) = U p) -> am_potential st = U (lf_positions (am_integrator st)).
Proof.
  intros Key Pos Mom Model Data Full Mass MassState split2 uniform scale fp initf ma lf_init lf_update Hi sample key model schs st0 st.
  assert (H : am_inv fp st) by (apply am_inv_run, am_inv_init; auto). split; [exact H|].
  intros U HU. destruct H as (fd & m & H & _). now rewrite <- H, HU.
Qed.
(** one step: the acceptance probability is p = min(1, exp(U_old - U_new + energy)), reported as acceptance ratio; acceptance iff
    the uniform number is below p.  Random key and data state always come from the proposal. *)
Theorem C35_step : forall Key Pos Mom Model Data Full Mass MassState split2 uniform, (forall k : Key, 0 <= uniform k < 1) ->
  forall scale (full_potential : Pos -> Full -> Model -> xr * (Full * Model)) mass_adaption lf_update
    (st : am_state Key Pos Mom Model Data Full MassState) sch new full model' a b c,
  let proposal := lf_update (am_integrator st) sch (@mass_get Pos Mass MassState mass_adaption (am_mass st)) in
  full_potential (lf_positions proposal) (am_full st) (lf_model proposal) = (new, (full, model')) ->
  am_potential st = Fin a -> new = Fin b -> lf_potential proposal = Fin c ->
  let p := Rmin 1 (exp (a - b + c)) in
  let u := uniform (snd (split2 (am_key st))) in
  let out := am_update split2 uniform scale full_potential mass_adaption lf_update st sch in
  let st' := fst out in
  st_acceptance (snd out) = Some (Fin p) /\ 0 < p <= 1 /\
  am_key st' = fst (split2 (am_key st)) /\ lf_data (am_integrator st') = lf_data proposal /\ lf_key (am_integrator st') = lf_key proposal /\
  (u < p -> lf_positions (am_integrator st') = lf_positions proposal /\ lf_momentum (am_integrator st') = scale 1 (lf_momentum proposal) /\
            am_potential st' = new /\ lf_model (am_integrator st') = model') /\
  (p <= u -> lf_positions (am_integrator st') = lf_positions (am_integrator st) /\
             lf_momentum (am_integrator st') = scale (-1) (lf_momentum (am_integrator st)) /\
             am_potential st' = am_potential st /\ lf_model (am_integrator st') = lf_model (am_integrator st)).
Proof.
  intros Key Pos Mom Model Data Full Mass MassState split2 uniform Hu scale fp ma lf_update st sch new full model' a b c proposal Hf Ha Hb Hc p u out st'.
  destruct (am_step_fin split2 uniform Hu scale fp ma lf_update st sch Hf Ha Hb Hc) as (H1 & _ & _ & H4 & H5 & H6 & H7 & H8 & _).
  split; [exact H1|]. split; [apply min_exp_range|]. split; [exact H4|]. split; [exact H5|]. split; [exact H6|]. split; [exact H7|exact H8].
Qed.
Theorem C35_nan_rejected : forall Key Pos Mom Model Data Full Mass MassState split2 uniform
    scale (full_potential : Pos -> Full -> Model -> xr * (Full * Model)) mass_adaption lf_update
    (st : am_state Key Pos Mom Model Data Full MassState) sch new full model',
  let proposal := lf_update (am_integrator st) sch (@mass_get Pos Mass MassState mass_adaption (am_mass st)) in
  full_potential (lf_positions proposal) (am_full st) (lf_model proposal) = (new, (full, model')) ->
  new = NaN \/ lf_potential proposal = NaN ->
  let out := am_update split2 uniform scale full_potential mass_adaption lf_update st sch in
  let st' := fst out in
  lf_positions (am_integrator st') = lf_positions (am_integrator st) /\ am_potential st' = am_potential st /\
  lf_momentum (am_integrator st') = scale (-1) (lf_momentum (am_integrator st)) /\ lf_model (am_integrator st') = lf_model (am_integrator st) /\
  (* the reported acceptance ratio is NaN *)
  st_acceptance (snd out) = Some NaN.
Proof.
  intros Key Pos Mom Model Data Full Mass MassState split2 uniform scale fp ma lf_update st sch new full model' proposal Hf Hn out st'.
  assert (Hnan : xadd (xsub (am_potential st) new) (lf_potential proposal) = NaN).
  { destruct Hn as [-> | Hn]; [|rewrite Hn].
    - unfold xsub. cbn [xopp]. destruct (am_potential st), (lf_potential proposal); reflexivity.
    - destruct (xsub (am_potential st) new); reflexivity. }
  destruct (am_step_nan split2 uniform scale fp ma lf_update st sch Hf Hnan) as (H1 & H2 & H3 & H4 & H5). auto.
Qed.
(** the acceptance decision of a state with finite values, an instance of the hypotheses *)
Example C35_nonvacuous :
  let lf_update := fun (s : lf_state unit R R unit unit) (_ : schedule) (_ : option unit) => mkLf (lf_positions s + 1) (lf_momentum s) tt (Fin (1/2)) tt tt in
  let fp := fun (p : R) (_ _ : unit) => (Fin (p * p), (tt, tt)) in
  let st0 := @am_init unit (fun _ => (tt, tt)) R R unit unit unit unit unit fp tt None (fun p k m s => mkLf p 0 s (Fin 0) tt k) 1 tt tt in
  am_potential st0 = Fin (1 * 1) /\
  am_potential (fst (am_update (fun _ => (tt, tt)) (fun _ => 1/2) Rmult fp None lf_update st0 (sch_T 1))) = Fin (1 * 1).
Proof.
  intros lf_update fp st0. split; [reflexivity|].
  destruct (@C35_step unit R R unit unit unit unit unit (fun _ => (tt, tt)) (fun _ => 1/2) ltac:(intros; lra) Rmult fp None lf_update st0 (sch_T 1) _ tt tt (1*1) ((1+1)*(1+1)) (1/2) eq_refl eq_refl eq_refl eq_refl)
    as (_ & _ & _ & _ & _ & _ & H).
  destruct H as (_ & _ & H & _); [|exact H]. apply Rle_trans with (exp (1 * 1 - (1 + 1) * (1 + 1) + 1 / 2)); [apply Rmin_r|].
  assert (E : exp (1 * 1 - (1 + 1) * (1 + 1) + 1 / 2) < exp (- (1))) by (apply exp_increasing; lra).
  assert (E2 : exp (- (1)) <= / 2). { rewrite exp_Ropp. apply Rinv_le_contravar; [lra|]. pose proof (exp_ineq1 1). lra. } lra.
Qed.

(** ** C36 *)
Section C36.
Variables (Key Pos Mom Model Data Full Mass MassState : Type).
Variables (split2 : Key -> Key * Key) (uniform : Key -> R).
Variable full_potential : Pos -> Full -> Model -> xr * (Full * Model).
Variable mass_adaption : option ((Pos -> MassState) * (MassState -> Pos -> MassState) * (MassState -> Mass)).
Variable ob_update : ob_state Key Pos Mom Model Data -> schedule -> option Mass -> ob_state Key Pos Mom Model Data.
Definition sg_after (st : sg_state Key Pos Mom Model Data Full MassState) (schs : list schedule) :=
  fold_left (fun s sch => fst (sg_update split2 uniform full_potential mass_adaption ob_update s sch)) schs st.
End C36.
Theorem C36_potential_of_position : forall Key Pos Mom Model Data Full Mass MassState split2 uniform
    (full_potential : Pos -> Full -> Model -> xr * (Full * Model)) init_full mass_adaption ob_init ob_update,
  (forall p k m, ob_positions (ob_init p k m) = p /\ ob_model (ob_init p k m) = m) ->
  forall sample key model schs,
  let st0 := @sg_init Key split2 Pos Mom Model Data Full Mass MassState full_potential init_full mass_adaption ob_init sample key model in
  let st := sg_after split2 uniform full_potential mass_adaption ob_update st0 schs in
  (exists fd m, fst (full_potential (ob_positions (sg_integrator st)) fd m) = sg_potential st /\
                snd (snd (full_potential (ob_positions (sg_integrator st)) fd m)) = ob_model (sg_integrator st)) /\
  forall U, (forall p fd m, fst (full_potential p fd m) = U p) -> sg_potential st = U (ob_positions (sg_integrator st)).
Proof.
  intros Key Pos Mom Model Data Full Mass MassState split2 uniform fp initf ma ob_init ob_update Hi sample key model schs st0 st.
  assert (H : sg_inv fp st) by (apply sg_inv_run, sg_inv_init; auto). split; [exact H|].
  intros U HU. destruct H as (fd & m & H & _). now rewrite <- H, HU.
Qed.
Theorem C36_step_partial : forall Key Pos Mom Model Data Full Mass MassState split2 uniform, (forall k : Key, 0 <= uniform k < 1) ->
  forall (full_potential : Pos -> Full -> Model -> xr * (Full * Model)) mass_adaption ob_update
    (st : sg_state Key Pos Mom Model Data Full MassState) sch new full model' T a b ks ke, 0 < T ->
  let proposal := ob_update (sg_integrator st) sch (@mass_get Pos Mass MassState mass_adaption (sg_mass st)) in
  full_potential (ob_positions proposal) (sg_full st) (ob_model proposal) = (new, (full, model')) ->
  sch_temperature sch = Fin T -> sg_potential st = Fin a -> new = Fin b -> ob_kin_start proposal = Fin ks -> ob_kin_end proposal = Fin ke ->
  let p := Rmin 1 (exp (- ((b - a) + (ke - ks)) / T)) in
  let u := uniform (snd (split2 (sg_key st))) in
  let out := sg_update split2 uniform full_potential mass_adaption ob_update st sch in
  let st' := fst out in
  st_acceptance (snd out) = Some (Fin p) /\ 0 < p <= 1 /\
  sg_key st' = fst (split2 (sg_key st)) /\ ob_data (sg_integrator st') = ob_data proposal /\ ob_key (sg_integrator st') = ob_key proposal /\
  (* the kinetic energies are reset for the next step *)
  ob_kin_start (sg_integrator st') = Fin 0 /\ ob_kin_end (sg_integrator st') = Fin 0 /\
  (u < p -> ob_positions (sg_integrator st') = ob_positions proposal /\ ob_momentum (sg_integrator st') = ob_momentum proposal /\
            sg_potential st' = new /\ ob_model (sg_integrator st') = model') /\
  (p <= u -> ob_positions (sg_integrator st') = ob_positions (sg_integrator st) /\
             ob_momentum (sg_integrator st') = ob_momentum (sg_integrator st) /\
             sg_potential st' = sg_potential st /\ ob_model (sg_integrator st') = ob_model (sg_integrator st)).
Proof.
  intros Key Pos Mom Model Data Full Mass MassState split2 uniform Hu fp ma ob_update st sch new full model' T a b ks ke HT proposal Hf HTe Ha Hb Hks Hke p u out st'.
  destruct (sg_step_fin split2 uniform Hu fp ma ob_update st sch HT Hf HTe Ha Hb Hks Hke) as (H1 & _ & H3 & H4 & H5 & H6 & H7 & H8 & H9 & _).
  split; [exact H1|]. split; [apply min_exp_range|]. split; [exact H3|]. split; [exact H4|]. split; [exact H5|]. split; [exact H6|]. split; [exact H7|]. split; [exact H8|exact H9].
Qed.
(** What fails: a NaN potential is accepted with acceptance ratio 1 *)
Theorem C36_nan_accepted_refuted : forall Key Pos Mom Model Data Full Mass MassState split2 uniform, (forall k : Key, 0 <= uniform k < 1) ->
  forall (full_potential : Pos -> Full -> Model -> xr * (Full * Model)) mass_adaption ob_update
    (st : sg_state Key Pos Mom Model Data Full MassState) sch full model',
  let proposal := ob_update (sg_integrator st) sch (@mass_get Pos Mass MassState mass_adaption (sg_mass st)) in
  full_potential (ob_positions proposal) (sg_full st) (ob_model proposal) = (NaN, (full, model')) ->
  let out := sg_update split2 uniform full_potential mass_adaption ob_update st sch in
  st_acceptance (snd out) = Some (Fin 1) /\
  ob_positions (sg_integrator (fst out)) = ob_positions proposal /\ sg_potential (fst out) = NaN.
Proof.
  intros Key Pos Mom Model Data Full Mass MassState split2 uniform Hu fp ma ob_update st sch full model' proposal Hf out.
  eapply sg_step_nan; eauto.
Qed.
Example C36_nonvacuous :
  let ob_update := fun (s : ob_state unit R R unit unit) (_ : schedule) (_ : option unit) => mkOb (ob_positions s + 1) (ob_momentum s) tt (Fin 0) tt tt (Fin 3) (Fin 1) in
  let fp := fun (p : R) (_ _ : unit) => (Fin p, (tt, tt)) in
  let st0 := @sg_init unit (fun _ => (tt, tt)) R R unit unit unit unit unit fp tt None (fun p k m => mkOb p 0 m (Fin 0) tt k (Fin 0) (Fin 0)) 1 tt tt in
  sg_potential (fst (sg_update (fun _ => (tt, tt)) (fun _ => 1/2) fp None ob_update st0 (sch_T 1))) = Fin (1 + 1).
Proof.
  intros ob_update fp st0.
  destruct (@C36_step_partial unit R R unit unit unit unit unit (fun _ => (tt, tt)) (fun _ => 1/2) ltac:(intros; lra) fp None ob_update st0 (sch_T 1) _ tt tt 1 1 (1+1) 3 1 ltac:(lra) eq_refl eq_refl eq_refl eq_refl eq_refl eq_refl)
    as (_ & _ & _ & _ & _ & _ & _ & H & _).
  destruct H as (_ & _ & H & _); [|exact H]. apply Rlt_le_trans with 1; [lra|]. apply Rmin_glb; [lra|].
  apply Rle_trans with (exp 0); [rewrite exp_0; lra | left; apply exp_increasing; lra].
Qed.

Print Assumptions C34_pair_partial.
Print Assumptions C34_variance_mean.
Print Assumptions C34_swap_inverted_refuted.
Print Assumptions C35_potential_of_position.
Print Assumptions C35_step.
Print Assumptions C36_step_partial.
