(** alias.amagold from the arguments to the returned samples. *)
From Coq Require Import Reals Lra ZArith String.
From Verif Require Import Base ListUtil Pytree PytreeSpec PytreeProofs Io IoSpec IoProofs IoFinal TreeUtil TreeUtilSpec TreeUtilProofs Integrator IntegratorSpec IntegratorBasics ObaboProofs LeapfrogProofs LeapfrogFinal PropertiesIntegrator
  Xreal Scheduler SchedulerSpec SchedulerProofs StepSizeProofs PropertiesScheduler Solver SolverSpec SolverProofs SolverFinal PropertiesSolver Mh MhIntegrators MhProofs Alias PropertiesAlias AliasSgld AliasRun AliasHmc AliasMhRun AliasMh.
Open Scope R_scope.
Set Implicit Arguments.
Local Notation chain := IntegratorSpec.chain.

(** ** Specification *)
Section Spec.
Variable s : vtree.
Variable normal : key -> list nat -> list R.
Variable uniform : key -> R.
Variables (Data Batch Full : Type).
Variable get_data : Data -> Data * Batch.
Variables (pot_model : vtree -> Batch -> vtree -> vtree) (pot_grad : vtree -> Batch -> vtree -> vtree).
(** the full potential at a position: its value, the next state of the full data map, the new model state *)
Variables (full_value : vtree -> Full -> vtree -> R) (full_next : vtree -> Full -> vtree -> Full) (full_model : vtree -> Full -> vtree -> vtree).
Variable init_full : Full.
Variables (steps : nat) (friction : R) (mass : option vtree).

(** The proposal of AMAGOLD (Zhang, Cooper, De Sa, Algorithm 2) from position x, momentum p, model state m: half a drift, [steps] kicks with friction and noise at
    y 0, ..., y (steps-1), with drifts between them, and half a drift to x'; q k is the momentum and mm k the model state before kick k; dE is the accumulated energy. *)
Definition leapfrog_proposal (e : R) (batch : nat -> Batch) (noise : nat -> key) (x : vtree) (p : nat -> R) (m : vtree) (y : nat -> vtree) (q : nat -> nat -> R) (mm : nat -> vtree) (x' : vtree) (dE : R) : Prop :=
  mm 0%nat = m /\ like s x' /\
  (forall k, (k < steps)%nat -> like s (y k) /\ mm (S k) = pot_model (y k) (batch k) (mm k)) /\
  (forall c, (c < dim s)%nat ->
    q 0%nat c = p c /\ el (y 0%nat) c = el x c + e / 2 * (inverse_mass mass c * p c) /\
    (forall k, (k < steps)%nat ->
      q (S k) c = ((1 - e * friction) * q k c - e * el (pot_grad (y k) (batch k) (mm k)) c + sqrt (4 * friction * e) * (root_mass mass c * xi normal (noise k) s c)) / (1 + e * friction)) /\
    (forall k, (S k < steps)%nat -> el (y (S k)) c = el (y k) c + e * (inverse_mass mass c * q (S k) c)) /\
    el x' c = el (y (steps - 1)%nat) c + e / 2 * (inverse_mass mass c * q steps c)) /\
  dE = sum_upto steps (fun k => e / 2 * sum_upto (dim s) (fun c => (q k c + q (S k) c) * (inverse_mass mass c * el (pot_grad (y k) (batch k) (mm k)) c))).

(** AMAGOLD.  theta i, mom i, U i, E i, model i, full i: position, momentum, full potential, energy entry, model state and state of the full data map before iteration i *)
Record amagold_trajectory (data0 : Data) (model0 x0 : vtree) (its : nat) (eps acc : nat -> R)
    (theta : nat -> vtree) (mom : nat -> nat -> R) (U E : nat -> R) (model : nat -> vtree) (full : nat -> Full) : Prop := mkAmTraj {
  at_start : theta 0%nat = x0 /\ U 0%nat = full_value x0 init_full model0 /\ E 0%nat = 0 /\ model 0%nat = full_model x0 init_full model0 /\ full 0%nat = full_next x0 init_full model0 /\
    forall c, (c < dim s)%nat -> mom 0%nat c = root_mass mass c * xi normal (Sub (Sub (PRNGKey 0) 0) 1) s c;
  at_like : forall i, (i <= its)%nat -> like s (theta i);
  at_step : forall i, (i < its)%nat -> exists y q mm x' dE,
    leapfrog_proposal (eps i) (fun k => batch_no get_data data0 (i * steps + k)) (fun k => Sub (chain (Sub (Sub (PRNGKey 0) 0) 0) (i * steps + k)) 1) (theta i) (mom i) (model i) y q mm x' dE /\
    let U' := full_value x' (full i) (mm steps) in
    acc i = Rmin 1 (exp (U i - U' + dE)) /\ full (S i) = full_next x' (full i) (mm steps) /\
    let u := uniform (Sub (chain (Sub (PRNGKey 0) 1) i) 1) in
    (u < acc i -> theta (S i) = x' /\ U (S i) = U' /\ E (S i) = dE /\ model (S i) = full_model x' (full i) (mm steps) /\ forall c, (c < dim s)%nat -> mom (S i) c = q steps c) /\
    (acc i <= u -> theta (S i) = theta i /\ U (S i) = U i /\ E (S i) = E i /\ model (S i) = model i /\ forall c, (c < dim s)%nat -> mom (S i) c = - mom i c)
}.
(** the entry saved for iteration i *)
Definition amagold_saved (eps acc : nat -> R) (theta : nat -> vtree) (E : nat -> R) (model : nat -> vtree) (i : nat) : vtree :=
  Node (KDict ["acceptance_ratio"; "energy"; "model_state"; "step_size"; "variables"]%string)
    [Leaf (mkArr [] [acc i]); Leaf (mkArr [] [E (S i)]); model (S i); Leaf (mkArr [] [eps i]); theta (S i)].
End Spec.

(** ** Proofs *)
Section Proofs.
Variable s : vtree.
Hypothesis Hs : wfv s.
Variable normal : key -> list nat -> list R.
Hypothesis Hn : normal_ok normal.
Variable uniform : key -> R.
Hypothesis Hu : forall k, 0 <= uniform k < 1.
Variables (Data Batch Full : Type).
Variable get_data : Data -> Data * Batch.
Variables (pot_model : vtree -> Batch -> vtree -> vtree) (pot_grad : vtree -> Batch -> vtree -> vtree).
Hypothesis Hg : forall t b m, like s t -> like s (pot_grad t b m).
Hypothesis Hm : forall t b m, same_structure (pot_model t b m) m.
Variables (full_value : vtree -> Full -> vtree -> R) (full_next : vtree -> Full -> vtree -> Full) (full_model : vtree -> Full -> vtree -> vtree).
Hypothesis Hfm : forall x fd m, same_structure (full_model x fd m) m.
Variable init_full : Full.
(** auxiliary definition of a statement or a proof; models no code of /repo *)
Definition full_result (x : vtree) (fd : Full) (m : vtree) : xr * (Full * vtree) := (Fin (full_value x fd m), (full_next x fd m, full_model x fd m)).
Variable steps : nat.
Hypothesis Hsteps : (0 < steps)%nat.
Variable friction : R.
Variable mass : option vtree.
Hypothesis Hmass : forall m, mass = Some m -> like s m.
Notation am_st := (am_state key vtree vtree vtree Data Full unit).
Notation solver := (amagold_solver normal uniform get_data pot_model pot_grad full_result steps friction mass).
Notation update := (am_update split2 uniform tree_scale full_result no_adaption (leapfrog_update normal get_data pot_model pot_grad steps friction mass)).
Notation intg e x := (fst (rl_integrate normal get_data pot_model pot_grad steps friction mass e None x)).

Lemma rl_keeps e mo (st : rl_st Data vtree) : let st' := fst (rl_integrate normal get_data pot_model pot_grad steps friction mass e mo st) in
  same_structure (r_model st') (r_model st) /\ same_structure (r_pos st') (r_pos st).
Proof.
  cbv zeta. rewrite rl_integrate_eq. cbv zeta. cbn [r_model r_pos]. set (M := rl_mass mass mo (r_pos st)). unfold rl_at. set (h := rl_half mass mo e st).
  assert (H0 : same_structure (r_model h) (r_model st) /\ same_structure (r_pos h) (r_pos st)) by (split; [reflexivity|apply tadd_structure]).
  assert (H : (fun st' : rl_st Data vtree => same_structure (r_model st') (r_model st) /\ same_structure (r_pos st') (r_pos st)) (fst (scan (rl_body normal get_data pot_model pot_grad friction e M) steps h))).
  { apply scan_inv; [exact H0|]. intros a k [A1 A2]. rewrite rl_body_eq. cbn [r_model r_pos]. split.
    - eapply structure_trans; [apply Hm|exact A1].
    - unfold rl_x. destruct (k =? 0)%nat; [exact A2|]. eapply structure_trans; [apply tadd_structure|exact A2]. }
  destruct H as [H1 H2]. split; [exact H1|]. eapply structure_trans; [apply tadd_structure|exact H2].
Qed.
Lemma am_keeps : keeps_structure solver.
Proof.
  intros st [|sch q]; [reflexivity|]. cbn [amagold_solver amagold so_update so_get]. 
  assert (HP : let p := leapfrog_update normal get_data pot_model pot_grad steps friction mass (am_integrator st) sch (mass_get no_adaption (am_mass st)) in
     same_structure (lf_model p) (lf_model (am_integrator st)) /\ same_structure (lf_positions p) (lf_positions (am_integrator st))).
  { unfold leapfrog_update. destruct (sch_step sch) as [e| | |]; try (split; reflexivity). destruct (rl_keeps e (mass_get no_adaption (am_mass st)) (rl_of (am_integrator st))) as [A B]. split; [exact A|exact B]. }
  unfold am_update. destruct (split2 (am_key st)) as [k1 k2]. set (p := leapfrog_update _ _ _ _ _ _ _ _ _ _) in *. destruct HP as [P1 P2]. clearbody p.
  unfold full_result. cbv beta iota zeta.
  assert (H : forall e e' m m' x x' r r', same_structure m' m -> same_structure x' x -> same_structure (am_extend (hmc_sample e' m' x') r') (am_extend (hmc_sample e m x) r)).
  { intros. cbn. unfold same_structure in *. cbn. congruence. }
  match goal with |- context[xltb ?a ?b] => destruct (xltb a b) end; cbn [fst am_get]; unfold am_get, lf_get; cbn [am_integrator lf_potential lf_model lf_positions am_ratio]; apply H; auto.
  - eapply structure_trans; [apply Hfm|exact P1].
  - reflexivity.
  - reflexivity.
Qed.

Section Proposal.
Variables (e : R) (l : rl_st Data vtree).
Hypothesis Hp : like s (r_pos l).
Hypothesis Hq : like s (r_mom l).
Notation M := (rl_mass mass None (r_pos l)).
(** auxiliary definition of a statement or a proof; models no code of /repo *)
Definition pr_at (k : nat) : rl_st Data vtree := rl_at M normal get_data pot_model pot_grad friction e (rl_half mass None e l) k.
(** auxiliary definition of a statement or a proof; models no code of /repo *)
Definition pr_y (k : nat) : vtree := rl_x M e (pr_at k) k.
Lemma proposal_ok : leapfrog_proposal s normal pot_model pot_grad steps friction mass e (fun k => batch_no get_data (r_data l) k) (fun k => Sub (chain (r_key l) k) 1)
  (r_pos l) (el (r_mom l)) (r_model l) pr_y (fun k => el (r_mom (pr_at k))) (fun k => r_model (pr_at k)) (r_pos (intg e l)) (r_pot (intg e l)) /\
  like s (r_mom (intg e l)) /\ r_mom (intg e l) = r_mom (pr_at steps) /\ r_model (intg e l) = r_model (pr_at steps) /\
  r_data (intg e l) = drawn get_data (r_data l) steps /\ r_key (intg e l) = chain (r_key l) steps.
Proof.
  destruct (@mass_fits s mass Hmass (r_pos l) Hp) as [F1 F2].
  change (tens_fits (m_inv M) s) in F1. change (tens_fits (m_sqrt M) s) in F2.
  destruct (@half_like s Hs mass None Data vtree e l Hp Hq F1) as [L1 L2].
  assert (LA : forall k, like s (r_pos (pr_at k)) /\ like s (r_mom (pr_at k))) by (intros k; apply (@rl_at_like s Hs _ F1 F2 normal Hn Data Batch vtree get_data pot_model pot_grad Hg friction e _ k L1 L2)).
  assert (LP : forall k, like s (pr_y k) /\ like s (rl_eta M normal friction e (pr_at k)) /\ like s (rl_g M get_data pot_grad e (pr_at k) k) /\ like s (rl_p M normal get_data pot_grad friction e (pr_at k) k)).
  { intros k. destruct (LA k) as [A B]. apply (@rl_parts_like s Hs _ F1 F2 normal Hn Data Batch vtree get_data pot_grad Hg friction e (pr_at k) k A B). }
  assert (LD : forall k, r_data (pr_at k) = drawn get_data (r_data l) k /\ r_key (pr_at k) = chain (r_key l) k) by (intros k; apply (@rl_at_data M normal Data Batch vtree get_data pot_model pot_grad friction e (rl_half mass None e l) k)).
  assert (LS : forall k, r_pos (pr_at (S k)) = pr_y k /\ r_mom (pr_at (S k)) = rl_p M normal get_data pot_grad friction e (pr_at k) k /\
     r_model (pr_at (S k)) = pot_model (pr_y k) (batch_no get_data (r_data l) k) (r_model (pr_at k)) /\
     r_pot (pr_at (S k)) = rl_energy (r_mom (pr_at k)) (r_mom (pr_at (S k))) M (rl_g M get_data pot_grad e (pr_at k) k) (1 / 2 * e) + r_pot (pr_at k)).
  { intros k. assert (E : pr_at (S k) = fst (rl_body normal get_data pot_model pot_grad friction e M (pr_at k) k)) by (unfold pr_at; apply rl_at_S).
    rewrite E, rl_body_eq. cbn [r_pos r_mom r_model r_pot]. fold (pr_y k). split; [reflexivity|]. split; [reflexivity|]. split; [|reflexivity].
    unfold batch_no. rewrite (proj1 (LD k)). reflexivity. }
  assert (EG : forall k, rl_g M get_data pot_grad e (pr_at k) k = pot_grad (pr_y k) (batch_no get_data (r_data l) k) (r_model (pr_at k))).
  { intros k. unfold rl_g. fold (pr_y k). unfold batch_no. rewrite (proj1 (LD k)). reflexivity. }
  assert (EI : intg e l = mkRlSt (position_update (1 / 2 * e) M (r_pos (pr_at steps)) (r_mom (pr_at steps))) (r_mom (pr_at steps)) (r_model (pr_at steps)) (r_pot (pr_at steps)) (r_data (pr_at steps)) (r_key (pr_at steps)))
    by (rewrite rl_integrate_eq; reflexivity).
  assert (MI : forall v c, (c < dim s)%nat -> mulv (m_inv M) (dim s) v c = inverse_mass mass c * v c) by (intros v c Hc; apply (@mass_inv s Hs mass Hmass (r_pos l) v c Hp Hc)).
  rewrite EI. cbn [r_pos r_mom r_model r_pot r_data r_key]. destruct (LA steps) as [LS1 LS2].
  split; [|split; [exact LS2|]; split; [reflexivity|]; split; [reflexivity|]; apply LD].
  split; [reflexivity|]. split; [apply (like_pos_update Hs); auto|]. split; [|split].
  - intros k Hk. split; [apply LP|]. apply LS.
  - intros c Hc. split; [reflexivity|]. split; [|split; [|split]].
    + change (pr_y 0) with (position_update (1 / 2 * e) M (r_pos l) (r_mom l)). rewrite (el_pos_update Hs) by auto. rewrite (el_mat Hs) by auto. rewrite MI by auto. lra.
    + intros k Hk. destruct (LS k) as (_ & -> & _). destruct (LA k) as [A B]. rewrite (@el_rl_p s Hs _ F1 F2 normal Hn Data Batch vtree get_data pot_grad Hg friction e (pr_at k) k c A B Hc).
      rewrite EG. unfold rl_eta. destruct (@noise_ok s Hs _ F2 normal Hn (Sub (r_key (pr_at k)) 1) _ B) as (N1 & N2 & _). rewrite (el_scale' Hs) by auto. rewrite N2 by auto.
      pose proof (@mass_sqrt s Hs mass Hmass (r_pos l) (xi normal (Sub (r_key (pr_at k)) 1) s) c Hp Hc) as Q. change (ob_mass mass None (r_pos l)) with M in Q. rewrite Q.
      rewrite (proj2 (LD k)). reflexivity.
    + intros k Hk. unfold pr_y at 1, rl_x. cbn [Nat.eqb]. destruct (LS k) as (E1 & _). destruct (LA (S k)) as [A B]. rewrite (el_pos_update Hs) by auto. rewrite (el_mat Hs) by auto. rewrite MI by auto. rewrite E1. reflexivity.
    + rewrite (el_pos_update Hs) by auto. rewrite (el_mat Hs) by auto. rewrite MI by auto. destruct steps as [|n]; [lia|]. destruct (LS n) as (-> & _). replace (S n - 1)%nat with n by lia. lra.
  - generalize steps as n. induction n as [|n IH]; [reflexivity|]. destruct (LS n) as (_ & _ & _ & ->). rewrite IH, sum_upto_S.
    destruct (LA n) as [A B]. destruct (LA (S n)) as [A' B']. rewrite (energy_sum Hs M F1) by (auto; apply LP). rewrite Rplus_comm. f_equal. replace (1 / 2 * e) with (e / 2) by lra. f_equal. apply sum_upto_ext. intros c Hc.
    rewrite (el_mat Hs) by (auto; apply LP). rewrite MI by auto. rewrite EG. reflexivity.
Qed.
End Proposal.

(** one iteration *)
Definition am_ok (st : am_st) : Prop := like s (lf_positions (am_integrator st)) /\ like s (lf_momentum (am_integrator st)) /\
  (exists a, am_potential st = Fin a) /\ (exists a, lf_potential (am_integrator st) = Fin a).
(** auxiliary definition of a statement or a proof; models no code of /repo *)
Definition am_next (e : R) (st : am_st) : am_st * R :=
  let r := update st (mkSchedule (Fin e) (Fin 1) false false) in (fst r, match st_acceptance (snd r) with Some (Fin p) => p | _ => 0 end).
Lemma am_next_ok e st : am_ok st ->
  let l := rl_of (am_integrator st) in let p := intg e l in let st' := fst (am_next e st) in
  let U' := full_value (r_pos p) (am_full st) (r_model p) in
  let acc := snd (am_next e st) in let u := uniform (Sub (am_key st) 1) in
  acc = Rmin 1 (exp (real (am_potential st) - U' + r_pot p)) /\ am_ratio st' = (Fin acc, Fin e) /\
  am_full st' = full_next (r_pos p) (am_full st) (r_model p) /\ am_key st' = Sub (am_key st) 0 /\ lf_data (am_integrator st') = r_data p /\ lf_key (am_integrator st') = r_key p /\
  (u < acc -> lf_positions (am_integrator st') = r_pos p /\ lf_momentum (am_integrator st') = tree_scale 1 (r_mom p) /\ am_potential st' = Fin U' /\ lf_potential (am_integrator st') = Fin (r_pot p) /\ lf_model (am_integrator st') = full_model (r_pos p) (am_full st) (r_model p)) /\
  (acc <= u -> lf_positions (am_integrator st') = lf_positions (am_integrator st) /\ lf_momentum (am_integrator st') = tree_scale (-1) (lf_momentum (am_integrator st)) /\ am_potential st' = am_potential st /\ lf_potential (am_integrator st') = lf_potential (am_integrator st) /\ lf_model (am_integrator st') = lf_model (am_integrator st)).
Proof.
  intros (O1 & O2 & (a & Ha) & (b & Hb)) l p st' U' acc u.
  assert (Hal : am_log_alpha (am_potential st) (Fin U') (Fin (r_pot p)) = Fin (Rmin 0 (a - U' + r_pot p))) by (rewrite Ha; apply am_log_alpha_fin).
  pose proof (proj1 (Hu (Sub (am_key st) 1))) as Hu0. fold u in Hu0.
  assert (Hl : xlt (xlog u) (Fin (Rmin 0 (a - U' + r_pot p))) <-> u < Rmin 1 (exp (a - U' + r_pot p))) by (rewrite log_lt by auto; now rewrite exp_min0).
  unfold acc, st'. clear acc st'. unfold am_next, am_update, split2. cbv beta iota zeta. unfold full_result. change (mass_get no_adaption (am_mass st)) with (@None mass_matrix).
  assert (EP : leapfrog_update normal get_data pot_model pot_grad steps friction mass (am_integrator st) (mkSchedule (Fin e) (Fin 1) false false) None = lf_of p) by reflexivity. rewrite EP.
  cbn [lf_of lf_positions lf_model lf_potential lf_data lf_key lf_momentum sch_step]. fold U'. rewrite Hal. fold u. rewrite Ha. cbn [real xexp]. rewrite exp_min0.
  destruct (xltb (xlog u) (Fin (Rmin 0 (a - U' + r_pot p)))) eqn:Eb.
  - apply xltb_true, Hl in Eb. cbn. repeat (split; [reflexivity|]). split; [intros _; repeat (split; [reflexivity|]); reflexivity|intros; lra].
  - apply xltb_false in Eb. rewrite Hl in Eb. cbn. repeat (split; [reflexivity|]). split; [intros; lra|intros _; repeat (split; [reflexivity|]); reflexivity].
Qed.
Lemma am_next_inv e st : am_ok st -> am_ok (fst (am_next e st)).
Proof.
  intros H. pose proof (am_next_ok e H) as Q. cbv zeta in Q. destruct Q as (_ & _ & _ & _ & _ & _ & QA & QR). destruct H as (O1 & O2 & O3 & O4).
  destruct (@proposal_ok e (rl_of (am_integrator st)) O1 O2) as ((_ & P1 & _) & P2 & _).
  destruct (Rlt_dec (uniform (Sub (am_key st) 1)) (snd (am_next e st))) as [L|L].
  - destruct (QA L) as (A1 & A2 & A3 & A4 & _). split; [now rewrite A1|]. split; [rewrite A2; now apply like_scale|]. split; [rewrite A3; eauto|]. rewrite A4; eauto.
  - destruct (QR (Rnot_lt_le _ _ L)) as (A1 & A2 & A3 & A4 & _). split; [now rewrite A1|]. split; [rewrite A2; now apply like_scale|]. split; [rewrite A3; eauto|]. rewrite A4; eauto.
Qed.
Lemma am_update_next st sch e : am_ok st -> 0 < e -> sch_step sch = Fin e -> sch_temperature sch = Fin 1 ->
  so_update solver st [sch] = (fst (am_next e st), Some (mkStats (Some (Fin (snd (am_next e st)))))) /\ am_ok (fst (am_next e st)).
Proof.
  intros H He E1 E2. split; [|now apply am_next_inv]. cbn [amagold_solver amagold so_update].
  assert (EU : update st sch = update st (mkSchedule (Fin e) (Fin 1) false false)).
  { unfold am_update, leapfrog_update. cbn [sch_step]. rewrite E1. reflexivity. }
  rewrite EU. assert (ES : snd (update st (mkSchedule (Fin e) (Fin 1) false false)) = mkStats (Some (Fin (snd (am_next e st))))).
  { unfold am_next. cbn [snd]. set (r := update st (mkSchedule (Fin e) (Fin 1) false false)).
    assert (Q : exists p, st_acceptance (snd r) = Some (Fin p)).
    { destruct H as (O1 & O2 & (a & Ha) & (b & Hb)). unfold r, am_update, split2, full_result. cbv beta iota zeta. unfold mass_get, no_adaption.
      unfold leapfrog_update. cbn [sch_step lf_of lf_positions lf_model lf_potential]. rewrite Ha, am_log_alpha_fin. destruct (xltb _ _); cbn; eauto. }
    destruct Q as [p Q]. rewrite Q. destruct (snd r) as [q]. cbn in Q. now rewrite Q. }
  change (fst (am_next e st)) with (fst (update st (mkSchedule (Fin e) (Fin 1) false false))). rewrite <- ES. destruct (update st (mkSchedule (Fin e) (Fin 1) false false)). reflexivity.
Qed.

Section Run.
Variables (data0 : Data) (model0 x0 : vtree).
Hypothesis Hx : like s x0.
Variables (its : nat) (eps acc : nat -> R) (st : nat -> am_st).
Hypothesis H0 : st 0%nat = amagold_init normal full_result init_full mass data0 model0 x0.
Hypothesis Hok : forall i, (i <= its)%nat -> am_ok (st i).
Hypothesis Hst : forall i, (i < its)%nat -> st (S i) = fst (am_next (eps i) (st i)) /\ acc i = snd (am_next (eps i) (st i)).
Lemma am_counters i : (i <= its)%nat -> lf_data (am_integrator (st i)) = drawn get_data data0 (i * steps) /\ lf_key (am_integrator (st i)) = chain (Sub (Sub (PRNGKey 0) 0) 0) (i * steps) /\
  am_key (st i) = chain (Sub (PRNGKey 0) 1) i.
Proof.
  induction i as [|i IH]; intros Hi.
  - rewrite H0. unfold amagold_init, am_init, split2, full_result, leapfrog_init, rl_init, no_adaption, mass_init, mass_get.
    destruct (cov_scaled_noise normal (Sub (Sub (PRNGKey 0) 0) 1) (rl_mass mass None x0) x0) as [mo us]. cbn. auto.
  - destruct (IH ltac:(lia)) as (I1 & I2 & I3). destruct (Hst (i := i) ltac:(lia)) as [-> _]. assert (Oi : am_ok (st i)) by (apply Hok; lia).
    pose proof (am_next_ok (eps i) Oi) as Q. cbv zeta in Q. destruct Q as (_ & _ & _ & Q1 & Q2 & Q3 & _). rewrite Q1, Q2, Q3.
    destruct (@proposal_ok (eps i) (rl_of (am_integrator (st i))) (proj1 Oi) (proj1 (proj2 Oi))) as (_ & _ & _ & _ & P1 & P2). rewrite P1, P2. cbn [rl_of r_data r_key].
    rewrite I1, I2, I3, drawn_add, chain_add. replace (S i * steps)%nat with (i * steps + steps)%nat by lia. auto.
Qed.
Lemma am_path : exists theta mom U E model full,
  amagold_trajectory s normal uniform get_data pot_model pot_grad full_value full_next full_model init_full steps friction mass data0 model0 x0 its eps acc theta mom U E model full /\
  forall i, (i < its)%nat -> so_get solver (st (S i)) = amagold_saved eps acc theta E model i.
Proof.
  exists (fun i => lf_positions (am_integrator (st i))), (fun i => el (lf_momentum (am_integrator (st i)))), (fun i => real (am_potential (st i))), (fun i => real (lf_potential (am_integrator (st i)))),
    (fun i => lf_model (am_integrator (st i))), (fun i => am_full (st i)). split; [split|].
  - rewrite H0. unfold amagold_init, am_init, split2, full_result, leapfrog_init, rl_init, no_adaption, mass_init, mass_get.
    destruct (@mass_fits s mass Hmass x0 Hx) as [F1 F2]. change (ob_mass mass None x0) with (rl_mass mass None x0) in F1, F2.
    destruct (@noise_ok s Hs _ F2 normal Hn (Sub (Sub (PRNGKey 0) 0) 1) x0 Hx) as (_ & N & _).
    destruct (cov_scaled_noise normal (Sub (Sub (PRNGKey 0) 0) 1) (rl_mass mass None x0) x0) as [mo us]. cbn [fst] in N.
    split; [reflexivity|]. split; [reflexivity|]. split; [reflexivity|]. split; [reflexivity|]. split; [reflexivity|]. intros c Hc. etransitivity; [exact (N c Hc)|].
    exact (@mass_sqrt s Hs mass Hmass x0 (xi normal (Sub (Sub (PRNGKey 0) 0) 1) s) c Hx Hc).
  - intros i Hi. apply Hok. exact Hi.
  - intros i Hi. assert (Oi : am_ok (st i)) by (apply Hok; lia). destruct (Hst Hi) as [Es Ea]. destruct (@am_counters i ltac:(lia)) as (C1 & C2 & C3).
    destruct (@proposal_ok (eps i) (rl_of (am_integrator (st i))) (proj1 Oi) (proj1 (proj2 Oi))) as (P1 & P2 & P3 & P4 & _).
    cbn [rl_of r_data r_key r_pos r_mom r_model] in P1. rewrite C1, C2 in P1.
    pose proof (am_next_ok (eps i) Oi) as Q. cbv zeta in Q. rewrite <- Es, <- Ea, C3 in Q. destruct Q as (Q1 & _ & Q2 & _ & _ & _ & QA & QR).
    exists (pr_y (eps i) (rl_of (am_integrator (st i)))), (fun k => el (r_mom (pr_at (eps i) (rl_of (am_integrator (st i))) k))), (fun k => r_model (pr_at (eps i) (rl_of (am_integrator (st i))) k)),
      (r_pos (intg (eps i) (rl_of (am_integrator (st i))))), (r_pot (intg (eps i) (rl_of (am_integrator (st i))))).
    split; [|split; [|split; [|split]]].
    + destruct P1 as (W1 & W2 & W3 & W4 & W5). split; [exact W1|]. split; [exact W2|]. unfold batch_no in *. split; [|split].
      * intros k Hk. specialize (W3 k Hk). rewrite drawn_add in W3. exact W3.
      * intros c Hc. destruct (W4 c Hc) as (V1 & V2 & V3 & V4 & V5). split; [exact V1|]. split; [exact V2|]. split; [|split; [exact V4|exact V5]].
        intros k Hk. specialize (V3 k Hk). rewrite drawn_add, chain_add in V3. exact V3.
      * etransitivity; [exact W5|]. apply sum_upto_ext. intros k Hk. rewrite drawn_add. reflexivity.
    + rewrite Q1, P4. reflexivity.
    + rewrite Q2, P4. reflexivity.
    + intros L. destruct (QA L) as (A1 & A2 & A3 & A4 & A5). rewrite A1, A2, A3, A4, A5, P4. cbn [real]. split; auto. split; auto. split; auto. split; auto. intros c Hc. rewrite (el_scale' Hs) by auto. rewrite P3. lra.
    + intros L. destruct (QR L) as (A1 & A2 & A3 & A4 & A5). rewrite A1, A2, A3, A4, A5. split; auto. split; auto. split; auto. split; auto. intros c Hc. rewrite (el_scale' Hs) by (apply Oi || auto). lra.
  - intros i Hi. assert (Oi : am_ok (st i)) by (apply Hok; lia). destruct (Hst Hi) as [Es Ea]. pose proof (am_next_ok (eps i) Oi) as Q. cbv zeta in Q. rewrite <- Es, <- Ea in Q. destruct Q as (_ & Q1 & _).
    cbn [amagold_solver amagold so_get]. unfold am_get, lf_get, amagold_saved. rewrite Q1. reflexivity.
Qed.
End Run.
End Proofs.

(** ** C66: alias.amagold *)
Theorem C66_amagold : forall (s : vtree) (normal : key -> list nat -> list R) (uniform : key -> R) (Data Batch Full : Type) (get_data : Data -> Data * Batch)
    (pot_model : vtree -> Batch -> vtree -> vtree) (pot_grad : vtree -> Batch -> vtree -> vtree)
    (full_value : vtree -> Full -> vtree -> R) (full_next : vtree -> Full -> vtree -> Full) (full_model : vtree -> Full -> vtree -> vtree),
  wfv s -> normal_ok normal -> (forall k, 0 <= uniform k < 1) -> (forall t b m, like s t -> like s (pot_grad t b m)) ->
  (forall t b m, same_structure (pot_model t b m) m) -> (forall x fd m, same_structure (full_model x fd m) m) ->
  forall Key (choice : Key -> list xr -> nat -> list nat) (tk : Key) (z : arr -> arr), choice_ok choice ->
  forall (steps : nat) (friction : R) (mass : option vtree) (model0 : vtree), (0 < steps)%nat -> (forall m, mass = Some m -> like s m) ->
  forall a its, good_args a its ->
  forall h (starts : list (vtree * (Data * Full))), Forall (fun xd => like s (fst xd)) starts ->
  let full_potential := fun x fd m => (Fin (full_value x fd m), (full_next x fd m, full_model x fd m)) in
  exists results, snd (al_run choice tk a z (amagold_solver normal uniform get_data pot_model pot_grad full_potential steps friction mass) (fst (run (mstep z) (mc_new false) h))
      (map (fun xd => amagold_init normal full_potential (snd (snd xd)) mass (fst (snd xd)) model0 (fst xd)) starts) its) = Some (Ok results) /\
    Forall2 (fun xd r => exists eps acc theta mom U E model full L,
      amagold_trajectory s normal uniform get_data pot_model pot_grad full_value full_next full_model (snd (snd xd)) steps friction mass (fst (snd xd)) model0 (fst xd) its eps acc theta mom U E model full /\
      step_sizes a its acc eps /\ (forall i, 0 < eps i) /\ selected a its L /\ fst r = length L /\ exactly_samples (map (amagold_saved eps acc theta E model) L) (snd r)) starts results.
Proof.
  intros s normal uniform Data Batch Full get_data pm pg fv fn fm Hs Hn Hu Hg Hm Hfm Key choice tk z Hc steps friction mass model0 Hst Hma a its Hga h starts Hx full_potential.
  destruct (@mh_run _ (amagold_solver normal uniform get_data pm pg full_potential steps friction mass) (am_ok s (Data := Data) (Full := Full))
    (am_next normal uniform get_data pm pg fv fn fm steps friction mass) eq_refl) with (choice := choice) (tk := tk) (z := z) (a := a) (its := its) (h := h)
    (states := map (fun xd => amagold_init normal full_potential (snd (snd xd)) mass (fst (snd xd)) model0 (fst xd)) starts) as (rs & R1 & R2); auto.
  { apply am_keeps; auto. }
  { intros st sch e. apply am_update_next; auto. exact (am_full st). }
  exists rs. split; [exact R1|]. clear R1. revert rs R2. induction Hx as [|[x0 [data0 init_full]] starts Hx HF IH]; intros rs R2; inversion R2 as [|? r ? rs' R3 R4]; subst; constructor; auto.
  cbn [fst snd] in *. assert (OK : am_ok s (amagold_init normal full_potential init_full mass data0 model0 x0)).
  { destruct (@mass_fits s mass Hma x0 Hx) as [F1 F2]. change (ob_mass mass None x0) with (rl_mass mass None x0) in F1, F2.
    destruct (@noise_ok s Hs _ F2 normal Hn (Sub (Sub (PRNGKey 0) 0) 1) x0 Hx) as (N & _).
    unfold amagold_init, am_init, split2, full_potential, leapfrog_init, rl_init, no_adaption, mass_init, mass_get.
    destruct (cov_scaled_noise normal (Sub (Sub (PRNGKey 0) 0) 1) (rl_mass mass None x0) x0) as [mo us]. split; [exact Hx|]. split; [exact N|]. split; eexists; reflexivity. }
  destruct (R3 OK) as (eps & acc & st & L & S0 & S1 & S2 & S3 & S4 & S5 & S6 & S7).
  destruct (@am_path s Hs normal Hn uniform Hu Data Batch Full get_data pm pg Hg Hm fv fn fm Hfm init_full steps Hst friction mass Hma data0 model0 x0 Hx its eps acc st S0 S1 S3) as (theta & mom & U & E & model & full & T1 & T2).
  exists eps, acc, theta, mom, U, E, model, full, L. split; auto. split; auto. split; auto. split; auto. split; auto.
  erewrite map_ext_in; [exact S7|]. intros i Hi. symmetry. apply T2.
  unfold selected in S5. destruct (al_accepted a); [apply S5 in Hi; lia|]. subst L. apply in_seq in Hi. destruct Hga as (_ & _ & Hb). lia.
Qed.
Print Assumptions C66_amagold.
