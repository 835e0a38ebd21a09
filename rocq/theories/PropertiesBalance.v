(** C54, C55, C56: exactness of the Metropolis-Hastings steps of AMAGOLD and SGGMC; noise of SGHMC. *)
From Coq Require Import Reals Lra String.
From Verif Require Import Base Pytree PytreeSpec Io TreeUtil TreeUtilSpec TreeUtilProofs Xreal Scheduler Solver Mh MhProofs PropertiesMh
  Integrator IntegratorSpec IntegratorBasics ObaboProofs LeapfrogFinal ObaboFinal BalanceSpec BalanceProofs MhIntegrators PropertiesIntegrator ExpectSpec ExpectProofs.
Open Scope R_scope.
Set Implicit Arguments.

Section MH.
Variable s : vtree.
Hypothesis Hs : wfv s.
Variables (Data Batch Model Full MassState : Type).
Variable get_data : Data -> Data * Batch.
Variable pot_value : vtree -> Batch -> Model -> R.
Variable pot_model : vtree -> Batch -> Model -> Model.
Variable G : vtree -> Batch -> vtree.
Hypothesis HG : forall t b, like s t -> like s (G t b).
(** the full potential has the value U(position) *)
Variable U : vtree -> R.
Variable full_potential : vtree -> Full -> Model -> xr * (Full * Model).
Hypothesis HU : forall p fd m, fst (full_potential p fd m) = Fin (U p).
Variable mass_adaption : option ((vtree -> MassState) * (MassState -> vtree -> MassState) * (MassState -> mass_matrix)).
Variables (steps : nat) (friction : R) (const_mass : option vtree).
Variable uniform : key -> R.
Hypothesis Hu : forall k, 0 <= uniform k < 1.

(** ** C54 *)
Definition am_step (normal : key -> list nat -> list R) (st : am_state key vtree vtree Model Data Full MassState) (sch : schedule) :=
  am_update split2 uniform tree_scale full_potential mass_adaption (leapfrog_update normal get_data pot_model (fun t b _ => G t b) steps friction const_mass) st sch.
Definition am_proposal (normal : key -> list nat -> list R) (st : am_state key vtree vtree Model Data Full MassState) (sch : schedule) :=
  leapfrog_update normal get_data pot_model (fun t b _ => G t b) steps friction const_mass (am_integrator st) sch (mass_get mass_adaption (am_mass st)).
(** the mass matrix used in a step *)
Definition am_matrix (st : am_state key vtree vtree Model Data Full MassState) : mass_matrix :=
  rl_mass const_mass (mass_get mass_adaption (am_mass st)) (lf_positions (am_integrator st)).
(** target density exp(-U(x) - p^T M^-1 p / 2) at the state, times the density of the random vectors that are used in the next step *)
Definition am_density (normal : key -> list nat -> list R) (st : am_state key vtree vtree Model Data Full MassState) : R :=
  exp (- (U (lf_positions (am_integrator st)) + kinetic s (am_matrix st) (lf_momentum (am_integrator st)))) *
  prod_upto steps (fun j => gauss normal (Sub (chain (lf_key (am_integrator st)) j) 1) s).
Lemma am_balance_given : forall normal, normal_ok normal ->
  forall (st : am_state key vtree vtree Model Data Full MassState) sch eps,
  sch_step sch = Fin eps -> 0 < eps * friction ->
  like s (lf_positions (am_integrator st)) -> like s (lf_momentum (am_integrator st)) -> diagonal s (am_matrix st) ->
  am_potential st = Fin (U (lf_positions (am_integrator st))) ->
  let proposal := am_proposal normal st sch in
  forall st', lf_positions (am_integrator st') = lf_positions proposal -> opposite s (lf_momentum proposal) (lf_momentum (am_integrator st')) ->
  am_potential st' = Fin (U (lf_positions proposal)) -> am_mass st' = am_mass st ->
  reversed_batches get_data steps (lf_data (am_integrator st)) (lf_data (am_integrator st')) ->
  forall normal', normal_ok normal' ->
  rl_noise_back s const_mass (mass_get mass_adaption (am_mass st)) get_data pot_model G friction eps normal (rl_of (am_integrator st)) steps (lf_key (am_integrator st')) normal' ->
  lf_positions (am_proposal normal' st' sch) = lf_positions (am_integrator st) /\
  opposite s (lf_momentum (am_integrator st)) (lf_momentum (am_proposal normal' st' sch)) /\
  exists a a', st_acceptance (snd (am_step normal st sch)) = Some (Fin a) /\ st_acceptance (snd (am_step normal' st' sch)) = Some (Fin a') /\
  am_density normal st * a = am_density normal' st' * a' /\
  am_density normal st * a = Rmin (am_density normal st) (am_density normal' st').
Proof.
  intros normal Hn st sch eps He Hpos Lx Lp Hd HUs proposal st' Ex Ep HUs' Em Hb normal' Hn' Hnz.
  set (r0 := rl_of (am_integrator st)). set (mo := mass_get mass_adaption (am_mass st)) in *.
  assert (Epr : proposal = lf_of (fst (rl_integrate normal get_data pot_model (fun t b _ => G t b) steps friction const_mass eps mo r0)))
    by (unfold proposal, am_proposal, leapfrog_update; rewrite He; reflexivity).
  assert (Hg : forall t b (m : Model), like s t -> like s (G t b)) by (intros; auto).
  destruct (diagonal_fits Hd) as [Hinv Hsq].
  destruct (@rl_integrate_like s Hs const_mass mo Data Batch Model get_data pot_model (fun t b _ => G t b) Hg friction eps normal Hn r0 Lx Lp Hinv Hsq steps) as [Lx' Lp'].
  destruct (@rl_balance_given s Hs const_mass mo Data Batch Model get_data pot_model G HG friction eps normal Hn r0 Lx Lp Hd Hpos steps
     (lf_momentum (am_integrator st')) (lf_model (am_integrator st')) 0 (lf_data (am_integrator st')) (lf_key (am_integrator st'))) with (normal' := normal') as (B1 & B2 & B3 & B4).
  { rewrite Epr in Ep. exact Ep. }
  { exact Hb. }
  { exact Hn'. }
  { exact Hnz. }
  set (fin := fst (rl_integrate normal get_data pot_model (fun t b _ => G t b) steps friction const_mass eps mo r0)) in *.
  rewrite Epr in Ex. cbn [lf_of lf_positions] in Ex. rewrite <- Ex in B1, B2, B3.
  assert (Epr' : am_proposal normal' st' sch = lf_of (fst (rl_integrate normal' get_data pot_model (fun t b _ => G t b) steps friction const_mass eps mo (rl_of (am_integrator st')))))
    by (unfold am_proposal, leapfrog_update; rewrite He, Em; reflexivity).
  assert (Ers : rl_of (am_integrator st') = mkRlSt (lf_positions (am_integrator st')) (lf_momentum (am_integrator st')) (lf_model (am_integrator st')) 0 (lf_data (am_integrator st')) (lf_key (am_integrator st'))) by reflexivity.
  rewrite Epr', Ers. cbn [lf_of lf_positions lf_momentum]. split; [exact B1|]. split.
  { rewrite B2. apply neg_opposite; auto. }
  destruct (full_potential (lf_positions proposal) (am_full st) (lf_model proposal)) as [new [full model']] eqn:Ef.
  assert (En : new = Fin (U (r_pos fin))) by (pose proof (HU (lf_positions proposal) (am_full st) (lf_model proposal)) as H; rewrite Ef in H; cbn in H; rewrite H, Epr; reflexivity).
  destruct (full_potential (lf_positions (am_proposal normal' st' sch)) (am_full st') (lf_model (am_proposal normal' st' sch))) as [new' [full' model'']] eqn:Ef'.
  assert (En' : new' = Fin (U (lf_positions (am_integrator st)))).
  { pose proof (HU (lf_positions (am_proposal normal' st' sch)) (am_full st') (lf_model (am_proposal normal' st' sch))) as H. rewrite Ef' in H. cbn in H. rewrite H, Epr', Ers. cbn [lf_of lf_positions]. rewrite B1. reflexivity. }
  destruct (@C35_step key vtree vtree Model Data Full mass_matrix MassState split2 uniform Hu tree_scale full_potential mass_adaption
    (leapfrog_update normal get_data pot_model (fun t b _ => G t b) steps friction const_mass) st sch new full model' (U (lf_positions (am_integrator st))) (U (r_pos fin)) (r_pot fin) Ef HUs En) as (A1 & _).
  { fold mo. change (leapfrog_update normal get_data pot_model (fun t b _ => G t b) steps friction const_mass (am_integrator st) sch mo) with proposal. rewrite Epr. reflexivity. }
  destruct (@C35_step key vtree vtree Model Data Full mass_matrix MassState split2 uniform Hu tree_scale full_potential mass_adaption
    (leapfrog_update normal' get_data pot_model (fun t b _ => G t b) steps friction const_mass) st' sch new' full' model'' (U (lf_positions (am_integrator st'))) (U (lf_positions (am_integrator st))) (- r_pot fin) Ef') as (A2 & _).
  { rewrite HUs', Ex, Epr. reflexivity. }
  { exact En'. }
  { change (lf_potential (am_proposal normal' st' sch) = Fin (- r_pot fin)). rewrite Epr', Ers. cbn [lf_of lf_potential]. now rewrite B3. }
  eexists. eexists. split; [exact A1|]. split; [exact A2|].
  assert (EM2 : am_matrix st' = am_matrix st).
  { unfold am_matrix at 1. rewrite Em. fold mo. rewrite Ex. exact (@rl_mass_same s const_mass mo (r_pos fin) (lf_positions (am_integrator st)) Hs Lx' Lx). }
  unfold am_density. rewrite B4, EM2, Ex.
  assert (EK : kinetic s (am_matrix st) (lf_momentum (am_integrator st')) = kinetic s (am_matrix st) (r_mom fin)).
  { rewrite <- !(@kinetic_ok s (am_matrix st) _ Hs Hinv); [|exact Lp'|destruct Ep; auto]. rewrite (opposite_neg Hs Lp' (q := lf_momentum (am_integrator st'))); [|rewrite Epr in Ep; exact Ep]. apply (@kin_neg s Hs (am_matrix st) Hinv); auto. }
  rewrite EK. change (rl_mass const_mass mo (r_pos r0)) with (am_matrix st). change (r_mom r0) with (lf_momentum (am_integrator st)). change (r_key r0) with (lf_key (am_integrator st)).
  set (P := prod_upto steps _). set (u0 := U (lf_positions (am_integrator st))). set (u1 := U (r_pos fin)). set (k0 := kinetic s (am_matrix st) (lf_momentum (am_integrator st))). set (k1 := kinetic s (am_matrix st) (r_mom fin)). set (en := r_pot fin).
  pose proof (min_balance (- (u0 + k0)) (- (u1 + k1) + (k1 - k0 + en))) as MB.
  replace (- (u1 + k1) + (k1 - k0 + en) - - (u0 + k0)) with (u0 - u1 + en) in MB by ring.
  replace (- (u0 + k0) - (- (u1 + k1) + (k1 - k0 + en))) with (u1 - u0 + - en) in MB by ring. rewrite (exp_plus (- (u1 + k1)) (k1 - k0 + en)) in MB.
  assert (HP : 0 <= P) by (apply prod_nonneg; intros j; left; apply exp_pos).
  pose proof (@min_ratio P (- (u0 + k0)) (- (u1 + k1) + (k1 - k0 + en)) HP) as MR.
  replace (- (u1 + k1) + (k1 - k0 + en) - - (u0 + k0)) with (u0 - u1 + en) in MR by ring. rewrite (exp_plus (- (u1 + k1)) (k1 - k0 + en)) in MR.
  split.
  - transitivity (P * (exp (- (u0 + k0)) * Rmin 1 (exp (u0 - u1 + en)))); [ring|]. rewrite MB. ring.
  - transitivity (P * (exp (- (u0 + k0)) * Rmin 1 (exp (u0 - u1 + en)))); [ring|]. rewrite MR. f_equal; ring.
Qed.

(** Detailed balance: from the proposed state with negated momentum and the reversed batches, some random numbers lead back to the initial
    state with negated momentum, and density * acceptance probability agree for both directions. *)
Theorem C54_detailed_balance : forall normal, normal_ok normal ->
  forall (st : am_state key vtree vtree Model Data Full MassState) sch eps,
  sch_step sch = Fin eps -> 0 < eps * friction ->
  like s (lf_positions (am_integrator st)) -> like s (lf_momentum (am_integrator st)) -> diagonal s (am_matrix st) ->
  am_potential st = Fin (U (lf_positions (am_integrator st))) ->
  let proposal := am_proposal normal st sch in
  forall st', lf_positions (am_integrator st') = lf_positions proposal -> opposite s (lf_momentum proposal) (lf_momentum (am_integrator st')) ->
  am_potential st' = Fin (U (lf_positions proposal)) -> am_mass st' = am_mass st ->
  reversed_batches get_data steps (lf_data (am_integrator st)) (lf_data (am_integrator st')) ->
  exists normal', normal_ok normal' /\
  lf_positions (am_proposal normal' st' sch) = lf_positions (am_integrator st) /\
  opposite s (lf_momentum (am_integrator st)) (lf_momentum (am_proposal normal' st' sch)) /\
  exists a a', st_acceptance (snd (am_step normal st sch)) = Some (Fin a) /\ st_acceptance (snd (am_step normal' st' sch)) = Some (Fin a') /\
  am_density normal st * a = am_density normal' st' * a' /\
  am_density normal st * a = Rmin (am_density normal st) (am_density normal' st').
Proof.
  intros normal Hn st sch eps He Hpos Lx Lp Hd HUs proposal st' Ex Ep HUs' Em Hb.
  destruct (@rl_noise_exists s Hs const_mass (mass_get mass_adaption (am_mass st)) Data Batch Model get_data pot_model G friction eps normal (rl_of (am_integrator st)) Hd Hpos steps (lf_key (am_integrator st'))) as (normal' & Hn' & Hnz).
  exists normal'. split; auto. eapply am_balance_given; eauto.
Qed.

(** ** C55 *)
Definition sg_step (normal : key -> list nat -> list R) (st : sg_state key vtree vtree Model Data Full MassState) (sch : schedule) :=
  sg_update split2 uniform full_potential mass_adaption (obabo_update normal get_data pot_value pot_model (fun t b _ => G t b) steps friction const_mass) st sch.
Definition sg_proposal (normal : key -> list nat -> list R) (st : sg_state key vtree vtree Model Data Full MassState) (sch : schedule) :=
  obabo_update normal get_data pot_value pot_model (fun t b _ => G t b) steps friction const_mass (sg_integrator st) sch (mass_get mass_adaption (sg_mass st)).
Definition sg_matrix (st : sg_state key vtree vtree Model Data Full MassState) : mass_matrix :=
  ob_mass const_mass (mass_get mass_adaption (sg_mass st)) (ob_positions (sg_integrator st)).
(** target density exp(-(U(x) + p^T M^-1 p / 2) / T) at the state, times the density of the random vectors that are used in the next step *)
Definition sg_density (T : R) (normal : key -> list nat -> list R) (st : sg_state key vtree vtree Model Data Full MassState) : R :=
  exp (- (U (ob_positions (sg_integrator st)) + kinetic s (sg_matrix st) (ob_momentum (sg_integrator st))) / T) *
  prod_upto steps (fun j => gauss normal (Sub (chain (ob_key (sg_integrator st)) j) 1) s * gauss normal (Sub (chain (ob_key (sg_integrator st)) j) 2) s).
Lemma sg_balance_given : forall normal, normal_ok normal ->
  forall (st : sg_state key vtree vtree Model Data Full MassState) sch eps T,
  sch_step sch = Fin eps -> sch_temperature sch = Fin T -> 0 < friction * eps -> 0 < T ->
  like s (ob_positions (sg_integrator st)) -> like s (ob_momentum (sg_integrator st)) -> diagonal s (sg_matrix st) ->
  ob_kin_start (sg_integrator st) = Fin 0 -> ob_kin_end (sg_integrator st) = Fin 0 ->
  sg_potential st = Fin (U (ob_positions (sg_integrator st))) ->
  let proposal := sg_proposal normal st sch in
  forall st', ob_positions (sg_integrator st') = ob_positions proposal -> opposite s (ob_momentum proposal) (ob_momentum (sg_integrator st')) ->
  ob_kin_start (sg_integrator st') = Fin 0 -> ob_kin_end (sg_integrator st') = Fin 0 ->
  sg_potential st' = Fin (U (ob_positions proposal)) -> sg_mass st' = sg_mass st ->
  reversed_batches get_data (2 * steps) (ob_data (sg_integrator st)) (ob_data (sg_integrator st')) ->
  forall normal', normal_ok normal' ->
  ob_noise_back s const_mass (mass_get mass_adaption (sg_mass st)) get_data pot_value pot_model G friction eps T normal (st_of (sg_integrator st)) steps (ob_key (sg_integrator st')) normal' ->
  ob_positions (sg_proposal normal' st' sch) = ob_positions (sg_integrator st) /\
  opposite s (ob_momentum (sg_integrator st)) (ob_momentum (sg_proposal normal' st' sch)) /\
  exists a a', st_acceptance (snd (sg_step normal st sch)) = Some (Fin a) /\ st_acceptance (snd (sg_step normal' st' sch)) = Some (Fin a') /\
  sg_density T normal st * a = sg_density T normal' st' * a' /\
  sg_density T normal st * a = Rmin (sg_density T normal st) (sg_density T normal' st').
Proof.
  intros normal Hn st sch eps T He HTe Hpos HT Lx Lp Hd K1 K2 HUs proposal st' Ex Ep K1' K2' HUs' Em Hb normal' Hn' Hnz.
  set (r0 := st_of (sg_integrator st)). set (mo := mass_get mass_adaption (sg_mass st)) in *.
  assert (Epr : proposal = ob_of (fst (ob_integrate normal get_data pot_value pot_model (fun t b _ => G t b) steps friction const_mass eps T mo r0)))
    by (unfold proposal, sg_proposal, obabo_update; rewrite He, HTe; reflexivity).
  assert (Hg : forall t b (m : Model), like s t -> like s (G t b)) by (intros; auto).
  destruct (diagonal_fits Hd) as [Hinv Hsq].
  destruct (@F_like s Hs const_mass mo Data Batch Model get_data pot_value pot_model (fun t b _ => G t b) Hg friction eps T normal Hn r0 Lx Lp Hinv Hsq steps) as [Lx' Lp'].
  destruct (@ob_balance_given s Hs const_mass mo Data Batch Model get_data pot_value pot_model G HG friction eps T normal Hn r0 Lx Lp Hd Hpos HT) with (n := steps)
     (q := ob_momentum (sg_integrator st')) (m' := ob_model (sg_integrator st')) (v' := fin_or 0 (ob_potential (sg_integrator st'))) (d' := ob_data (sg_integrator st')) (k' := ob_key (sg_integrator st')) (normal' := normal') as (B1 & B2 & B3 & B3' & B4).
  { unfold r0. cbn. rewrite K1, K2. auto. }
  { rewrite Epr in Ep. exact Ep. }
  { exact Hb. }
  { exact Hn'. }
  { exact Hnz. }
  set (fin := fst (ob_integrate normal get_data pot_value pot_model (fun t b _ => G t b) steps friction const_mass eps T mo r0)) in *.
  rewrite Epr in Ex. cbn [ob_of ob_positions] in Ex. rewrite <- Ex in B1, B2, B3, B3'.
  assert (Epr' : sg_proposal normal' st' sch = ob_of (fst (ob_integrate normal' get_data pot_value pot_model (fun t b _ => G t b) steps friction const_mass eps T mo (st_of (sg_integrator st')))))
    by (unfold sg_proposal, obabo_update; rewrite He, HTe, Em; reflexivity).
  assert (Ers : st_of (sg_integrator st') = mkObSt (ob_positions (sg_integrator st')) (ob_momentum (sg_integrator st')) (ob_model (sg_integrator st')) (fin_or 0 (ob_potential (sg_integrator st'))) (ob_data (sg_integrator st')) (ob_key (sg_integrator st')) 0 0)
    by (unfold st_of; rewrite K1', K2'; reflexivity).
  rewrite Epr', Ers. cbn [ob_of ob_positions ob_momentum]. split; [exact B1|]. split.
  { rewrite B2. apply neg_opposite; auto. }
  destruct (full_potential (ob_positions proposal) (sg_full st) (ob_model proposal)) as [new [full model']] eqn:Ef.
  assert (En : new = Fin (U (o_pos fin))) by (pose proof (HU (ob_positions proposal) (sg_full st) (ob_model proposal)) as H; rewrite Ef in H; cbn in H; rewrite H, Epr; reflexivity).
  destruct (full_potential (ob_positions (sg_proposal normal' st' sch)) (sg_full st') (ob_model (sg_proposal normal' st' sch))) as [new' [full' model'']] eqn:Ef'.
  assert (En' : new' = Fin (U (ob_positions (sg_integrator st)))).
  { pose proof (HU (ob_positions (sg_proposal normal' st' sch)) (sg_full st') (ob_model (sg_proposal normal' st' sch))) as H. rewrite Ef' in H. cbn in H. rewrite H, Epr', Ers. cbn [ob_of ob_positions]. rewrite B1. reflexivity. }
  destruct (@C36_step_partial key vtree vtree Model Data Full mass_matrix MassState split2 uniform Hu full_potential mass_adaption
    (obabo_update normal get_data pot_value pot_model (fun t b _ => G t b) steps friction const_mass) st sch new full model' T (U (ob_positions (sg_integrator st))) (U (o_pos fin)) (o_start fin) (o_end fin) HT Ef HTe HUs En) as (A1 & _).
  { fold mo. change (obabo_update normal get_data pot_value pot_model (fun t b _ => G t b) steps friction const_mass (sg_integrator st) sch mo) with proposal. rewrite Epr. reflexivity. }
  { fold mo. change (obabo_update normal get_data pot_value pot_model (fun t b _ => G t b) steps friction const_mass (sg_integrator st) sch mo) with proposal. rewrite Epr. reflexivity. }
  destruct (@C36_step_partial key vtree vtree Model Data Full mass_matrix MassState split2 uniform Hu full_potential mass_adaption
    (obabo_update normal' get_data pot_value pot_model (fun t b _ => G t b) steps friction const_mass) st' sch new' full' model'' T (U (ob_positions (sg_integrator st'))) (U (ob_positions (sg_integrator st))) (o_end fin) (o_start fin) HT Ef' HTe) as (A2 & _).
  { rewrite HUs', Ex, Epr. reflexivity. }
  { exact En'. }
  { change (ob_kin_start (sg_proposal normal' st' sch) = Fin (o_end fin)). rewrite Epr', Ers. cbn [ob_of ob_kin_start]. now rewrite B3. }
  { change (ob_kin_end (sg_proposal normal' st' sch) = Fin (o_start fin)). rewrite Epr', Ers. cbn [ob_of ob_kin_end]. now rewrite B3'. }
  eexists. eexists. split; [exact A1|]. split; [exact A2|].
  assert (EM2 : sg_matrix st' = sg_matrix st).
  { unfold sg_matrix at 1. rewrite Em. fold mo. rewrite Ex. exact (@ob_mass_same s const_mass mo (o_pos fin) (ob_positions (sg_integrator st)) Hs Lx' Lx). }
  unfold sg_density. rewrite EM2, Ex.
  assert (EK : kinetic s (sg_matrix st) (ob_momentum (sg_integrator st')) = kinetic s (sg_matrix st) (o_mom fin)).
  { rewrite <- !(@kinetic_ok s (sg_matrix st) _ Hs Hinv); [|exact Lp'|destruct Ep; auto]. rewrite (opposite_neg Hs Lp' (q := ob_momentum (sg_integrator st'))); [|rewrite Epr in Ep; exact Ep]. apply (@kin_neg s Hs (sg_matrix st) Hinv); auto. }
  rewrite EK. change (ob_mass const_mass mo (o_pos r0)) with (sg_matrix st) in B4. change (o_mom r0) with (ob_momentum (sg_integrator st)) in B4. change (o_key r0) with (ob_key (sg_integrator st)) in B4.
  set (P := prod_upto steps (fun j => gauss normal _ s * _)) in *. set (P' := prod_upto steps (fun j => gauss normal' _ s * _)) in *.
  set (u0 := U (ob_positions (sg_integrator st))). set (u1 := U (o_pos fin)). set (k0 := kinetic s (sg_matrix st) (ob_momentum (sg_integrator st))) in *. set (k1 := kinetic s (sg_matrix st) (o_mom fin)) in *.
  set (es := o_start fin) in *. set (ee := o_end fin) in *.
  pose proof (min_balance (- (u0 + k0) / T) (- (u0 + k0) / T + - (u1 - u0 + (ee - es)) / T)) as MB.
  replace (- (u0 + k0) / T + - (u1 - u0 + (ee - es)) / T - - (u0 + k0) / T) with (- (u1 - u0 + (ee - es)) / T) in MB by (field; lra).
  replace (- (u0 + k0) / T - (- (u0 + k0) / T + - (u1 - u0 + (ee - es)) / T)) with (- (u0 - u1 + (es - ee)) / T) in MB by (field; lra).
  assert (HP : 0 <= P) by (apply prod_nonneg; intros j; apply Rmult_le_pos; left; apply exp_pos).
  pose proof (@min_ratio P (- (u0 + k0) / T) (- (u0 + k0) / T + - (u1 - u0 + (ee - es)) / T) HP) as MR.
  replace (- (u0 + k0) / T + - (u1 - u0 + (ee - es)) / T - - (u0 + k0) / T) with (- (u1 - u0 + (ee - es)) / T) in MR by (field; lra).
  assert (EP : P * exp (- (u0 + k0) / T + - (u1 - u0 + (ee - es)) / T) = exp (- (u1 + k1) / T) * P').
  { replace (- (u0 + k0) / T + - (u1 - u0 + (ee - es)) / T) with (- (k0 / T) + (- (ee / T) + (es / T - u1 / T))) by (field; lra).
    replace (- (u1 + k1) / T) with (- (k1 / T) + (- (es / T) + (es / T - u1 / T))) by (field; lra). rewrite !exp_plus.
    transitivity (P * exp (- (k0 / T)) * exp (- (ee / T)) * (exp (es / T) * exp (- (u1 / T)))); [|rewrite <- B4].
    - unfold Rminus. rewrite exp_plus. ring.
    - unfold Rminus. rewrite exp_plus. ring. }
  split.
  - transitivity (P * (exp (- (u0 + k0) / T) * Rmin 1 (exp (- (u1 - u0 + (ee - es)) / T)))); [ring|]. rewrite MB.
    rewrite <- Rmult_assoc, EP. reflexivity.
  - transitivity (P * (exp (- (u0 + k0) / T) * Rmin 1 (exp (- (u1 - u0 + (ee - es)) / T)))); [ring|]. rewrite MR, EP. f_equal; ring.
Qed.
Theorem C55_detailed_balance : forall normal, normal_ok normal ->
  forall (st : sg_state key vtree vtree Model Data Full MassState) sch eps T,
  sch_step sch = Fin eps -> sch_temperature sch = Fin T -> 0 < friction * eps -> 0 < T ->
  like s (ob_positions (sg_integrator st)) -> like s (ob_momentum (sg_integrator st)) -> diagonal s (sg_matrix st) ->
  ob_kin_start (sg_integrator st) = Fin 0 -> ob_kin_end (sg_integrator st) = Fin 0 ->
  sg_potential st = Fin (U (ob_positions (sg_integrator st))) ->
  let proposal := sg_proposal normal st sch in
  forall st', ob_positions (sg_integrator st') = ob_positions proposal -> opposite s (ob_momentum proposal) (ob_momentum (sg_integrator st')) ->
  ob_kin_start (sg_integrator st') = Fin 0 -> ob_kin_end (sg_integrator st') = Fin 0 ->
  sg_potential st' = Fin (U (ob_positions proposal)) -> sg_mass st' = sg_mass st ->
  reversed_batches get_data (2 * steps) (ob_data (sg_integrator st)) (ob_data (sg_integrator st')) ->
  exists normal', normal_ok normal' /\
  ob_positions (sg_proposal normal' st' sch) = ob_positions (sg_integrator st) /\
  opposite s (ob_momentum (sg_integrator st)) (ob_momentum (sg_proposal normal' st' sch)) /\
  exists a a', st_acceptance (snd (sg_step normal st sch)) = Some (Fin a) /\ st_acceptance (snd (sg_step normal' st' sch)) = Some (Fin a') /\
  sg_density T normal st * a = sg_density T normal' st' * a' /\
  sg_density T normal st * a = Rmin (sg_density T normal st) (sg_density T normal' st').
Proof.
  intros normal Hn st sch eps T He HTe Hpos HT Lx Lp Hd K1 K2 HUs proposal st' Ex Ep K1' K2' HUs' Em Hb.
  destruct (@ob_noise_exists s Hs const_mass (mass_get mass_adaption (sg_mass st)) Data Batch Model get_data pot_value pot_model G friction eps T normal (st_of (sg_integrator st)) Hd Hpos HT steps (ob_key (sg_integrator st'))) as (normal' & Hn' & Hnz).
  exists normal'. split; auto. eapply sg_balance_given; eauto.
Qed.
End MH.

(** instances of the hypotheses of C54 and C55 *)
Definition ex_source (d : nat * bool) : (nat * bool) * nat := let (n, up) := d in ((if up then S n else Nat.pred n, up), n).
Definition ex_U (t : vtree) : R := tdot t t.
Definition ex_G (t : vtree) (b : nat) : vtree := tree_scale (INR b) t.
Definition ex_sch : schedule := mkSchedule (Fin (1 / 10)) (Fin 2) true true.
Definition ex_normal (k : key) (sh : list nat) : list R := repeat (match k with Sub (Sub (PRNGKey _) _) _ => 1 | _ => 2 end) (size sh).
Lemma ex_normal_ok : normal_ok ex_normal. Proof. intros k sh. apply repeat_length. Qed.
Lemma ex_diagonal t : like (tree_ab 0 0) t -> diagonal (tree_ab 0 0) (rl_mass (Some (tree_ab 4 9)) None t).
Proof. intros _. apply init_mass_diagonal; auto using tree_ab_wf, tree_ab_like. intros i Hi. destruct i as [|[|i]]; unfold el, dim in *; cbn in *; [lra|lra|lia]. Qed.
Example C54_nonvacuous :
  let st := mkAm (mkLf (tree_ab 1 2) (tree_ab 3 4) tt (Fin 0) (7%nat, true) (PRNGKey 1)) (Fin (ex_U (tree_ab 1 2))) tt (PRNGKey 2) (Fin 0, Fin 0) (@None unit) in
  let pr := am_proposal ex_source (fun _ _ m => m) ex_G None 2 (1 / 2) (Some (tree_ab 4 9)) ex_normal st ex_sch in
  let st' := mkAm (mkLf (lf_positions pr) (tneg (lf_momentum pr)) tt (Fin 0) (8%nat, false) (PRNGKey 5)) (Fin (ex_U (lf_positions pr))) tt (PRNGKey 2) (Fin 0, Fin 0) (@None unit) in
  exists normal' a a', am_density (tree_ab 0 0) ex_U None 2 (Some (tree_ab 4 9)) ex_normal st * a = am_density (tree_ab 0 0) ex_U None 2 (Some (tree_ab 4 9)) normal' st' * a' /\
  st_acceptance (snd (am_step ex_source (fun _ _ m => m) ex_G (fun p fd m => (Fin (ex_U p), (fd, m))) None 2 (1 / 2) (Some (tree_ab 4 9)) (fun _ => 1 / 2) ex_normal st ex_sch)) = Some (Fin a).
Proof.
  intros st pr st'.
  assert (HG : forall t (b : nat), like (tree_ab 0 0) t -> like (tree_ab 0 0) (ex_G t b)) by (intros; now apply like_scale).
  destruct (@C54_detailed_balance (tree_ab 0 0) (tree_ab_wf 0 0) (nat * bool) nat unit unit unit ex_source (fun _ _ m => m) ex_G HG ex_U (fun p fd m => (Fin (ex_U p), (fd, m))) (fun _ _ _ => eq_refl) None 2 (1 / 2) (Some (tree_ab 4 9)) (fun _ => 1 / 2) ltac:(intros; lra)
    ex_normal ex_normal_ok st ex_sch (1 / 10) eq_refl ltac:(lra) (tree_ab_like _ _ _ _) (tree_ab_like _ _ _ _) (ex_diagonal (tree_ab_like _ _ 1 2)) eq_refl st' eq_refl) as (normal' & _ & _ & _ & a & a' & H1 & _ & H3 & _).
  - apply neg_opposite; [apply tree_ab_wf|].
    apply (@rl_integrate_like (tree_ab 0 0) (tree_ab_wf 0 0) (Some (tree_ab 4 9)) None (nat * bool) nat unit ex_source (fun _ _ m => m) (fun t b _ => ex_G t b) (fun t b _ => HG t b) (1 / 2) (1 / 10) ex_normal ex_normal_ok (rl_of (am_integrator st)) (tree_ab_like _ _ _ _) (tree_ab_like _ _ _ _));
      apply (diagonal_fits (ex_diagonal (tree_ab_like _ _ 1 2))).
  - reflexivity.
  - reflexivity.
  - intros m Hm. destruct m as [|[|m]]; [reflexivity|reflexivity|lia].
  - exists normal', a, a'. auto.
Qed.
Example C55_nonvacuous :
  let st := mkSg (mkOb (tree_ab 1 2) (tree_ab 3 4) tt (Fin 0) (7%nat, true) (PRNGKey 1) (Fin 0) (Fin 0)) (Fin (ex_U (tree_ab 1 2))) tt (PRNGKey 2) (Fin 0, Fin 0, Fin 0) (@None unit) in
  let pr := sg_proposal ex_source (fun _ _ _ => 0) (fun _ _ m => m) ex_G None 1 (1 / 2) (Some (tree_ab 4 9)) ex_normal st ex_sch in
  let st' := mkSg (mkOb (ob_positions pr) (tneg (ob_momentum pr)) tt (Fin 0) (8%nat, false) (PRNGKey 5) (Fin 0) (Fin 0)) (Fin (ex_U (ob_positions pr))) tt (PRNGKey 2) (Fin 0, Fin 0, Fin 0) (@None unit) in
  exists normal' a a', sg_density (tree_ab 0 0) ex_U None 1 (Some (tree_ab 4 9)) 2 ex_normal st * a = sg_density (tree_ab 0 0) ex_U None 1 (Some (tree_ab 4 9)) 2 normal' st' * a' /\
  st_acceptance (snd (sg_step ex_source (fun _ _ _ => 0) (fun _ _ m => m) ex_G (fun p fd m => (Fin (ex_U p), (fd, m))) None 1 (1 / 2) (Some (tree_ab 4 9)) (fun _ => 1 / 2) ex_normal st ex_sch)) = Some (Fin a).
Proof.
  intros st pr st'.
  assert (HG : forall t (b : nat), like (tree_ab 0 0) t -> like (tree_ab 0 0) (ex_G t b)) by (intros; now apply like_scale).
  destruct (@C55_detailed_balance (tree_ab 0 0) (tree_ab_wf 0 0) (nat * bool) nat unit unit unit ex_source (fun _ _ _ => 0) (fun _ _ m => m) ex_G HG ex_U (fun p fd m => (Fin (ex_U p), (fd, m))) (fun _ _ _ => eq_refl) None 1 (1 / 2) (Some (tree_ab 4 9)) (fun _ => 1 / 2) ltac:(intros; lra)
    ex_normal ex_normal_ok st ex_sch (1 / 10) 2 eq_refl eq_refl ltac:(lra) ltac:(lra) (tree_ab_like _ _ _ _) (tree_ab_like _ _ _ _) (ex_diagonal (tree_ab_like _ _ 1 2)) eq_refl eq_refl eq_refl st' eq_refl) as (normal' & _ & _ & _ & a & a' & H1 & _ & H3 & _).
  - apply neg_opposite; [apply tree_ab_wf|].
    apply (@F_like (tree_ab 0 0) (tree_ab_wf 0 0) (Some (tree_ab 4 9)) None (nat * bool) nat unit ex_source (fun _ _ _ => 0) (fun _ _ m => m) (fun t b _ => ex_G t b) (fun t b _ => HG t b) (1 / 2) (1 / 10) 2 ex_normal ex_normal_ok (st_of (sg_integrator st)) (tree_ab_like _ _ _ _) (tree_ab_like _ _ _ _)) with (q := 1%nat);
      apply (diagonal_fits (ex_diagonal (tree_ab_like _ _ 1 2))).
  - reflexivity.
  - reflexivity.
  - reflexivity.
  - reflexivity.
  - intros m Hm. destruct m as [|[|m]]; [reflexivity|reflexivity|lia].
  - exists normal', a, a'. auto.
Qed.

(** ** C56 *)
Section C56.
Variable s : vtree.
Hypothesis Hs : wfv s.
Variables (Data Batch Model Noise : Type).
Variable get_data : Data -> Data * Batch.
Variable pot_value : vtree -> Batch -> Model -> R.
Variable pot_model : vtree -> Batch -> Model -> Model.
Variable pot_grad : vtree -> Batch -> Model -> vtree.
Hypothesis Hg : forall t b m, like s t -> like s (pot_grad t b m).
Variables (mass : mass_matrix) (fr : vtree).
Hypothesis Hinv : tens_fits (m_inv mass) s.
Hypothesis Hfr : like s fr.
(** one inner step of friction_leapfrog without noise model *)
Definition fl_one (normal : key -> list nat -> list R) (eps : R) (st : fl_st Data Model Noise) : fl_st Data Model Noise :=
  fst (fl_body normal get_data pot_value pot_model pot_grad None eps fr mass st 0).
Theorem C56_step_partial : forall normal eps (st : fl_st Data Model Noise), normal_ok normal -> like s (f_pos st) -> like s (f_mom st) ->
  let st' := fl_one normal eps st in
  let b := snd (get_data (f_data st)) in
  let v := mulv (m_inv mass) (dim s) (el (f_mom st)) in
  like s (f_pos st') /\ like s (f_mom st') /\ f_data st' = fst (get_data (f_data st)) /\ f_key st' = Sub (f_key st) 0 /\
  f_pot st' = pot_value (f_pos st') b (f_model st) /\
  forall i, (i < dim s)%nat ->
    el (f_pos st') i = el (f_pos st) i + eps * v i /\
    el (f_mom st') i = el (f_mom st) i - eps * el fr i * v i - eps * el (pot_grad (f_pos st') b (f_model st)) i + el fr i * sqrt (2 * eps) * xi normal (Sub (f_key st) 1) s i.
Proof.
  intros normal eps st Hn Hp Hm st' b v. unfold st', fl_one, fl_body. fold b. destruct (get_data (f_data st)) as [d b0]. cbn in b. subst b.
  destruct (@random_tree_ok s normal (Sub (f_key st) 1) (f_mom st) Hn Hm) as (Hl & Hx & _).
  destruct (random_tree normal (Sub (f_key st) 1) (f_mom st)) as [noise used]. cbn [fst f_pos f_mom f_data f_key f_pot] in *.
  assert (Hv : like s (tmat (m_inv mass) (f_mom st))) by (apply like_mat; auto).
  assert (Lx : like s (tadd (f_pos st) (tree_scale eps (tmat (m_inv mass) (f_mom st))))) by auto with like.
  split; [exact Lx|]. split; [repeat (apply like_add; auto with like)|]. split; [reflexivity|]. split; [reflexivity|]. split; [reflexivity|].
  intros i Hi. split.
  - rewrite (el_add Hs), (el_scale' Hs), (el_mat Hs) by auto with like. reflexivity.
  - assert (L1 : like s (tadd (f_mom st) (tmul (tree_scale (- eps) fr) (tmat (m_inv mass) (f_mom st))))) by auto with like.
    assert (L2 : like s (tree_scale (- eps) (pot_grad (tadd (f_pos st) (tree_scale eps (tmat (m_inv mass) (f_mom st)))) b0 (f_model st)))) by auto with like.
    rewrite (el_add Hs), (el_add Hs), (el_add Hs), !(el_mul Hs), !(el_scale' Hs), (el_mat Hs), Hx by auto with like. fold (v i). ring.
Qed.
(** the step with the gradient and the momentum decay, but without random numbers *)
Theorem C56_noise_covariance : forall (W : Type) (E : (W -> R) -> R), expectation E -> forall normal, (forall w : W, normal_ok (normal w)) ->
  forall eps (st : fl_st Data Model Noise), 0 <= eps -> like s (f_pos st) -> like s (f_mom st) ->
  second_moments E (dim s) (fun w => xi (normal w) (Sub (f_key st) 1) s) (fun w => xi (normal w) (Sub (f_key st) 1) s) unit_matrix ->
  let silent := fl_one (fun _ sh => repeat 0 (size sh)) eps st in
  let injected := fun w i => el (f_mom (fl_one (normal w) eps st)) i - el (f_mom silent) i in
  second_moments E (dim s) injected injected (fun i j => if (i =? j)%nat then 2 * eps * (el fr i * el fr i) else 0).
Proof.
  intros W E HE normal Hn eps st He Hp Hm Hx silent injected i j Hi Hj.
  assert (Hz : normal_ok (fun _ sh => repeat 0 (size sh))) by (intros k sh; apply repeat_length).
  assert (X0 : forall q, (q < dim s)%nat -> xi (fun _ sh => repeat 0 (size sh)) (Sub (f_key st) 1) s q = 0).
  { intros q _. unfold xi. set (l := flat_map _ _).
    assert (Hl : forall x, In x l -> x = 0) by (intros x Hx0; apply in_flat_map in Hx0; destruct Hx0 as (y & _ & Hy); now apply repeat_spec in Hy).
    destruct (Nat.lt_ge_cases q (length l)) as [Hlt|Hge]; [apply Hl, nth_In, Hlt|now apply nth_overflow]. }
  assert (A : forall w q, (q < dim s)%nat -> injected w q = el fr q * sqrt (2 * eps) * xi (normal w) (Sub (f_key st) 1) s q).
  { intros w q Hq. unfold injected, silent.
    destruct (@C56_step_partial (normal w) eps st (Hn w) Hp Hm) as (_ & _ & _ & _ & _ & H1). destruct (H1 q Hq) as [P1 M1].
    destruct (@C56_step_partial _ eps st Hz Hp Hm) as (_ & _ & _ & _ & _ & H2). destruct (H2 q Hq) as [P2 M2].
    rewrite M1, M2, X0 by auto.
    assert (Ep : f_pos (fl_one (normal w) eps st) = f_pos (fl_one (fun _ sh => repeat 0 (size sh)) eps st)).
    { apply (like_ext Hs); [apply (@C56_step_partial (normal w) eps st (Hn w) Hp Hm)|apply (@C56_step_partial _ eps st Hz Hp Hm)|].
      intros r Hr. destruct (H1 r Hr) as [-> _]. destruct (H2 r Hr) as [-> _]. reflexivity. }
    rewrite Ep. ring. }
  rewrite (@E_ext W E HE (fun w => injected w i * injected w j) (fun w => (el fr i * el fr j * (sqrt (2 * eps) * sqrt (2 * eps))) * (xi (normal w) (Sub (f_key st) 1) s i * xi (normal w) (Sub (f_key st) 1) s j))).
  2:{ intros w. rewrite !A by auto. ring. }
  rewrite (E_scale HE), (Hx i j Hi Hj), sqrt_sqrt by lra. unfold unit_matrix. destruct (Nat.eqb_spec i j) as [->|]; ring.
Qed.
(** What fails: the fluctuation-dissipation relation of SGHMC needs the covariance 2 eps C for the friction C (the decay is -eps C M^-1 p);
    the variances are 2 eps C^2, which is wrong unless C is 0 or 1 *)
Theorem C56_fluctuation_dissipation_refuted : forall (W : Type) (E : (W -> R) -> R), expectation E -> forall normal, (forall w : W, normal_ok (normal w)) ->
  forall eps (st : fl_st Data Model Noise), 0 < eps -> like s (f_pos st) -> like s (f_mom st) ->
  second_moments E (dim s) (fun w => xi (normal w) (Sub (f_key st) 1) s) (fun w => xi (normal w) (Sub (f_key st) 1) s) unit_matrix ->
  let silent := fl_one (fun _ sh => repeat 0 (size sh)) eps st in
  let injected := fun w i => el (f_mom (fl_one (normal w) eps st)) i - el (f_mom silent) i in
  forall i, (i < dim s)%nat -> (E (fun w => injected w i * injected w i) = 2 * eps * el fr i <-> el fr i = 0 \/ el fr i = 1).
Proof.
  intros W E HE normal Hn eps st He Hp Hm Hx silent injected i Hi.
  pose proof (@C56_noise_covariance W E HE normal Hn eps st ltac:(lra) Hp Hm Hx i i Hi Hi) as H. cbv beta in H. rewrite Nat.eqb_refl in H.
  fold silent in H. change (E (fun w => injected w i * injected w i) = 2 * eps * (el fr i * el fr i)) in H. rewrite H. split.
  - intros H0. assert (el fr i * (el fr i - 1) = 0) as Hp0 by (apply Rmult_eq_reg_l with (2 * eps); lra). apply Rmult_integral in Hp0. destruct Hp0; [left; auto|right; lra].
  - intros [H0|H0]; rewrite H0; ring.
Qed.
End C56.
(** integrate first draws a new momentum with covariance M, then performs the steps *)
Theorem C56_momentum_resampled : forall s, wfv s -> forall normal, normal_ok normal -> forall Data Batch Model Noise (get_data : Data -> Data * Batch) pot_value pot_model (pot_grad : vtree -> Batch -> Model -> vtree)
  friction const_mass eps mo (st : fl_st Data Model Noise), like s (f_mom st) ->
  let M := fl_mass const_mass mo (f_pos st) in tens_fits (m_sqrt M) s ->
  exists st1, f_pos st1 = f_pos st /\ f_data st1 = f_data st /\ f_key st1 = Sub (f_key st) 0 /\ like s (f_mom st1) /\
  (forall i, (i < dim s)%nat -> el (f_mom st1) i = mulv (m_sqrt M) (dim s) (xi normal (Sub (f_key st) 1) s) i) /\
  forall steps, fst (fl_integrate normal get_data pot_value pot_model pot_grad steps friction const_mass None eps mo st) =
    fst (scan (fl_body normal get_data pot_value pot_model pot_grad None eps (fl_friction friction (f_pos st)) M) steps st1).
Proof.
  intros s Hs normal Hn Data Batch Model Noise get_data pv pm pg friction cm eps mo st Hm M HM.
  destruct (@random_tree_ok s normal (Sub (f_key st) 1) (f_mom st) Hn Hm) as (Hl & Hx & _).
  exists (mkFlSt (f_pos st) (tmat (m_sqrt M) (fst (random_tree normal (Sub (f_key st) 1) (f_mom st)))) (f_model st) 0 (f_data st) (Sub (f_key st) 0) (f_extra st)).
  cbn [f_pos f_data f_key f_mom]. split; [reflexivity|]. split; [reflexivity|]. split; [reflexivity|]. split; [auto with like|]. split.
  - intros i Hi. rewrite (el_mat Hs) by auto. apply mulv_ext. auto.
  - intros steps. unfold fl_integrate. fold M. destruct (random_tree normal (Sub (f_key st) 1) (f_mom st)) as [noise used]. cbn [fst].
    destruct (scan _ steps _) as [e u]. reflexivity.
Qed.
(** with the default friction 0.25, random signs as noise: the variance is not that of the fluctuation-dissipation relation *)
Example C56_default_friction_refuted :
  let E := fun X : bool -> R => (X true + X false) / 2 in
  let s := Leaf (mkArr [] [0]) in
  let normal := fun (w : bool) (_ : key) (sh : list nat) => repeat (if w then 1 else -1) (size sh) in
  let fr := fl_friction (FScalar (1 / 4)) s in
  let step := fun nrm => fl_one (fun d : nat => (S d, d)) (fun _ _ _ => 0) (fun _ _ m => m) (fun t _ _ => t) (unit_mass s) fr nrm (1 / 10) (mkFlSt s s tt 0 0%nat (PRNGKey 0) (@None unit)) in
  let injected := fun w i => el (f_mom (step (normal w))) i - el (f_mom (step (fun _ sh => repeat 0 (size sh)))) i in
  E (fun w => injected w 0%nat * injected w 0%nat) <> 2 * (1 / 10) * (1 / 4).
Proof.
  intros E s normal fr step injected H.
  assert (Hs : wfv s) by (repeat constructor). assert (L : like s s) by now apply like_refl.
  assert (Hfr : like s fr) by (split; [repeat constructor|split; reflexivity]).
  assert (HE : expectation E) by (split; [intros X Y HX; unfold E; now rewrite !HX|split; intros; unfold E; field]).
  destruct (@C56_fluctuation_dissipation_refuted s Hs nat nat unit unit (fun d => (S d, d)) (fun _ _ _ => 0) (fun _ _ m => m) (fun t _ _ => t) (fun t _ _ Ht => Ht) (unit_mass s) fr
    (proj1 (unit_mass_fits L)) Hfr bool E HE normal ltac:(intros w k sh; apply repeat_length) (1 / 10) (mkFlSt s s tt 0 0%nat (PRNGKey 0) (@None unit)) ltac:(lra) L L) with (i := 0%nat) as [F _].
  - intros i j Hi Hj. assert (i = 0%nat) by (unfold dim in Hi; cbn in Hi; lia). assert (j = 0%nat) by (unfold dim in Hj; cbn in Hj; lia). subst. unfold E, unit_matrix. cbn. lra.
  - unfold dim. cbn. lia.
  - destruct F as [F|F]; [exact H| |]; unfold fr, el in F; cbn in F; lra.
Qed.

Print Assumptions C54_detailed_balance.
Print Assumptions C55_detailed_balance.
Print Assumptions C56_fluctuation_dissipation_refuted.
