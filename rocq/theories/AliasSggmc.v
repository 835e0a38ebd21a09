(** alias.sggmc from the arguments to the returned samples. *)
From Coq Require Import Reals Lra ZArith String.
From Verif Require Import Base ListUtil Pytree PytreeSpec PytreeProofs Io IoSpec IoProofs IoFinal TreeUtil TreeUtilSpec TreeUtilProofs Integrator IntegratorSpec IntegratorBasics ObaboProofs LeapfrogProofs LeapfrogFinal PropertiesIntegrator
  Xreal Scheduler SchedulerSpec SchedulerProofs StepSizeProofs PropertiesScheduler Solver SolverSpec SolverProofs SolverFinal PropertiesSolver Mh MhIntegrators MhProofs Alias PropertiesAlias AliasSgld AliasRun AliasHmc AliasMhRun AliasMh AliasAmagold BalanceSpec BalanceProofs.
Open Scope R_scope.
Set Implicit Arguments.
Local Notation chain := IntegratorSpec.chain.

(** ** Specification *)
Section Spec.
Variable s : vtree.
Variable normal : key -> list nat -> list R.
Variable uniform : key -> R.
Variables (Data Batch Full : Type).
Variable get_data : Data -> Data * Batch.
Variables (pot_value : vtree -> Batch -> vtree -> R) (pot_model : vtree -> Batch -> vtree -> vtree) (pot_grad : vtree -> Batch -> vtree -> vtree).
(** the full potential at a position: its value, the next state of the full data map, the new model state *)
Variables (full_value : vtree -> Full -> vtree -> R) (full_next : vtree -> Full -> vtree -> Full) (full_model : vtree -> Full -> vtree -> vtree).
Variable init_full : Full.
Variables (steps : nat) (friction : R) (mass : option vtree).
(** p^T M^-1 p / 2 *)
Definition kinetic_of (p : nat -> R) : R := sum_upto (dim s) (fun c => p c * (inverse_mass mass c * p c)) / 2.

(** The proposal of SGGMC (Garriga-Alonso, Fortuin): [steps] OBABO steps from position x, momentum p, model state m.  Before step k the position is y k and the momentum p' k;
    r k, h k, e k are the momenta after the first refreshment, the first and the second half kick; every step uses two batches.
    Ks, Ke: the kinetic energies at the beginning and at the end of the deterministic parts; V: the mean of the potentials before and after the last step. *)
Definition obabo_proposal (ep : R) (batch : nat -> Batch) (keys : nat -> key) (x : vtree) (p : nat -> R) (m : vtree) (y : nat -> vtree) (p' r h e : nat -> nat -> R) (mm : nat -> vtree) (Ks Ke V : R) : Prop :=
  let permanence := exp (- friction * ep) in
  y 0%nat = x /\ mm 0%nat = m /\ (forall c, p' 0%nat c = p c) /\
  (forall k, (k < steps)%nat -> like s (y (S k)) /\
    mm (2 * k + 1)%nat = pot_model (y k) (batch (2 * k)%nat) (mm (2 * k)%nat) /\
    mm (2 * k + 2)%nat = pot_model (y (S k)) (batch (2 * k + 1)%nat) (mm (2 * k + 1)%nat) /\
    forall c, (c < dim s)%nat ->
      r k c = sqrt permanence * p' k c + sqrt (1 - permanence) * (root_mass mass c * xi normal (Sub (keys k) 1) s c) /\
      h k c = r k c - ep / 2 * el (pot_grad (y k) (batch (2 * k)%nat) (mm (2 * k)%nat)) c /\
      el (y (S k)) c = el (y k) c + ep * (inverse_mass mass c * h k c) /\
      e k c = h k c - ep / 2 * el (pot_grad (y (S k)) (batch (2 * k + 1)%nat) (mm (2 * k + 1)%nat)) c /\
      p' (S k) c = sqrt permanence * e k c + sqrt (1 - permanence) * (root_mass mass c * xi normal (Sub (keys k) 2) s c)) /\
  Ks = sum_upto steps (fun k => kinetic_of (r k)) /\ Ke = sum_upto steps (fun k => kinetic_of (e k)) /\
  let k := (steps - 1)%nat in V = (pot_value (y k) (batch (2 * k)%nat) (mm (2 * k)%nat) + pot_value (y (S k)) (batch (2 * k + 1)%nat) (mm (2 * k + 1)%nat)) / 2.

(** SGGMC.  theta i, mom i, U i, E i, model i, full i as for AMAGOLD; dK i: the change of the kinetic energies in iteration i *)
Record sggmc_trajectory (data0 : Data) (model0 x0 : vtree) (its : nat) (eps acc : nat -> R)
    (theta : nat -> vtree) (mom : nat -> nat -> R) (U E dK : nat -> R) (model : nat -> vtree) (full : nat -> Full) : Prop := mkSgTraj {
  gt_start : theta 0%nat = x0 /\ U 0%nat = full_value x0 init_full model0 /\ E 0%nat = 0 /\ model 0%nat = full_model x0 init_full model0 /\ full 0%nat = full_next x0 init_full model0 /\
    forall c, (c < dim s)%nat -> mom 0%nat c = 0;
  gt_like : forall i, (i <= its)%nat -> like s (theta i);
  gt_step : forall i, (i < its)%nat -> exists y p' r h e mm Ks Ke V,
    obabo_proposal (eps i) (fun k => batch_no get_data data0 (2 * (i * steps) + k)) (fun k => chain (Sub (PRNGKey 0) 0) (i * steps + k)) (theta i) (mom i) (model i) y p' r h e mm Ks Ke V /\
    let x' := y steps in let m' := mm (2 * steps)%nat in
    let U' := full_value x' (full i) m' in
    dK i = Ke - Ks /\ acc i = Rmin 1 (exp (- ((U' - U i) + dK i))) /\ full (S i) = full_next x' (full i) m' /\
    let u := uniform (Sub (chain (Sub (PRNGKey 0) 1) i) 1) in
    (u < acc i -> theta (S i) = x' /\ U (S i) = U' /\ E (S i) = V /\ model (S i) = full_model x' (full i) m' /\ forall c, (c < dim s)%nat -> mom (S i) c = p' steps c) /\
    (acc i <= u -> theta (S i) = theta i /\ U (S i) = U i /\ E (S i) = E i /\ model (S i) = model i /\ forall c, (c < dim s)%nat -> mom (S i) c = mom i c)
}.
(** the entry saved for iteration i *)
Definition sggmc_saved (eps acc : nat -> R) (theta : nat -> vtree) (U E dK : nat -> R) (model : nat -> vtree) (i : nat) : vtree :=
  Node (KDict ["acceptance_ratio"; "energy"; "kinetic_energy"; "model_state"; "potential"; "step_size"; "variables"]%string)
    [Leaf (mkArr [] [acc i]); Leaf (mkArr [] [E (S i)]); Leaf (mkArr [] [dK i]); model (S i); Leaf (mkArr [] [U (S i)]); Leaf (mkArr [] [eps i]); theta (S i)].
End Spec.

(** ** Proofs *)
Lemma even_twice t : Nat.even (2 * t) = true /\ Nat.div2 (2 * t) = t /\ Nat.even (2 * t + 1) = false /\ Nat.div2 (2 * t + 1) = t.
Proof.
  assert (E : Nat.even (2 * t) = true) by (apply Nat.even_spec; exists t; lia). split; [exact E|]. split; [apply Nat.div2_double|]. replace (2 * t + 1)%nat with (S (2 * t)) by lia.
  split; [|apply Nat.div2_succ_double]. rewrite Nat.even_succ, <- Nat.negb_even, E. reflexivity.
Qed.
Section Proofs.
Variable s : vtree.
Hypothesis Hs : wfv s.
Variable normal : key -> list nat -> list R.
Hypothesis Hn : normal_ok normal.
Variable uniform : key -> R.
Hypothesis Hu : forall k, 0 <= uniform k < 1.
Variables (Data Batch Full : Type).
Variable get_data : Data -> Data * Batch.
Variables (pot_value : vtree -> Batch -> vtree -> R) (pot_model : vtree -> Batch -> vtree -> vtree) (pot_grad : vtree -> Batch -> vtree -> vtree).
Hypothesis Hg : forall t b m, like s t -> like s (pot_grad t b m).
Hypothesis Hm : forall t b m, same_structure (pot_model t b m) m.
Variables (full_value : vtree -> Full -> vtree -> R) (full_next : vtree -> Full -> vtree -> Full) (full_model : vtree -> Full -> vtree -> vtree).
Hypothesis Hfm : forall x fd m, same_structure (full_model x fd m) m.
Variable init_full : Full.
Notation full_result := (full_result full_value full_next full_model).
Variable steps : nat.
Hypothesis Hsteps : (0 < steps)%nat.
Variable friction : R.
Variable mass : option vtree.
Hypothesis Hmass : forall m, mass = Some m -> like s m.
Notation sg_st := (sg_state key vtree vtree vtree Data Full unit).
Notation solver := (sggmc_solver normal uniform get_data pot_value pot_model pot_grad full_result steps friction mass).
Notation update := (sg_update split2 uniform full_result no_adaption (obabo_update normal get_data pot_value pot_model pot_grad steps friction mass)).
Notation intg e x := (fst (ob_integrate normal get_data pot_value pot_model pot_grad steps friction mass e 1 None x)).

Lemma hmc_sample_inv e e' m m' x x' : same_structure (hmc_sample e' m' x') (hmc_sample e m x) -> same_structure m' m /\ same_structure x' x.
Proof. unfold same_structure, hmc_sample. cbn. intros H. injection H. auto. Qed.
Lemma sg_keeps : keeps_structure solver.
Proof.
  intros st [|sch q]; [reflexivity|]. cbn [sggmc_solver sggmc so_update so_get].
  assert (HP : let p := obabo_update normal get_data pot_value pot_model pot_grad steps friction mass (sg_integrator st) sch (mass_get no_adaption (sg_mass st)) in
     same_structure (ob_model p) (ob_model (sg_integrator st)) /\ same_structure (ob_positions p) (ob_positions (sg_integrator st))).
  { unfold obabo_update. destruct (sch_step sch) as [e| | |]; try (split; reflexivity). destruct (sch_temperature sch) as [T| | |]; try (split; reflexivity).
    pose proof (@ob_keeps normal Data Batch get_data pot_value pot_model pot_grad Hm steps mass friction e T (mass_get no_adaption (sg_mass st)) (st_of (sg_integrator st))) as K. cbv zeta in K. apply hmc_sample_inv in K. exact K. }
  unfold sg_update. destruct (split2 (sg_key st)) as [k1 k2]. set (p := obabo_update _ _ _ _ _ _ _ _ _ _ _) in *. destruct HP as [P1 P2]. clearbody p.
  unfold AliasAmagold.full_result. cbv beta iota zeta.
  assert (H : forall e e' m m' x x' r r' v v', same_structure m' m -> same_structure x' x -> same_structure (sg_extend (hmc_sample e' m' x') r' v') (sg_extend (hmc_sample e m x) r v)).
  { intros. cbn. unfold same_structure in *. cbn. congruence. }
  match goal with |- context[xltb ?a ?b] => destruct (xltb a b) end; cbn [fst sg_get]; unfold sg_get, ob_get; cbn [sg_integrator ob_potential ob_model ob_positions sg_ratio]; apply H; auto.
  - eapply structure_trans; [apply Hfm|exact P1].
  - reflexivity.
  - reflexivity.
Qed.

Section Proposal.
Variables (e : R) (l : ob_st Data vtree).
Hypothesis Hp : like s (o_pos l).
Hypothesis Hq : like s (o_mom l).
Hypothesis Hk : o_start l = 0 /\ o_end l = 0.
Notation M := (ob_mass mass None (o_pos l)).
(** auxiliary definition of a statement or a proof; models no code of /repo *)
Definition po_at (k : nat) : ob_st Data vtree := ob_at M normal get_data pot_value pot_model pot_grad friction e 1 l k.
(** auxiliary definition of a statement or a proof; models no code of /repo *)
Definition po_mm (n : nat) : vtree := if Nat.even n then o_model (po_at (Nat.div2 n)) else ob_m1 get_data pot_model (po_at (Nat.div2 n)).
Lemma po_even t : po_mm (2 * t) = o_model (po_at t).
Proof. unfold po_mm. destruct (even_twice t) as (-> & -> & _). reflexivity. Qed.
Lemma po_odd t : po_mm (2 * t + 1) = ob_m1 get_data pot_model (po_at t).
Proof. unfold po_mm. destruct (even_twice t) as (_ & _ & -> & ->). reflexivity. Qed.
Lemma ob_proposal_ok : obabo_proposal s normal pot_value pot_model pot_grad steps friction mass e (fun k => batch_no get_data (o_data l) k) (fun k => chain (o_key l) k)
  (o_pos l) (el (o_mom l)) (o_model l) (fun k => o_pos (po_at k)) (fun k => el (o_mom (po_at k)))
  (fun k => el (ob_r M normal friction e 1 (po_at k))) (fun k => el (ob_f M normal get_data pot_grad friction e 1 (po_at k))) (fun k => el (ob_s M normal get_data pot_model pot_grad friction e 1 (po_at k)))
  po_mm (o_start (intg e l)) (o_end (intg e l)) (o_pot (intg e l)) /\
  like s (o_pos (intg e l)) /\ like s (o_mom (intg e l)) /\ o_pos (intg e l) = o_pos (po_at steps) /\ o_mom (intg e l) = o_mom (po_at steps) /\ o_model (intg e l) = po_mm (2 * steps) /\
  o_data (intg e l) = drawn get_data (o_data l) (2 * steps) /\ o_key (intg e l) = chain (o_key l) steps.
Proof.
  destruct (@mass_fits s mass Hmass (o_pos l) Hp) as [F1 F2].
  assert (EI : intg e l = po_at steps) by reflexivity. rewrite EI.
  assert (LA : forall k, like s (o_pos (po_at k)) /\ like s (o_mom (po_at k))) by (intros k; apply (@ob_at_like s Hs _ F1 F2 normal Hn Data Batch vtree get_data pot_value pot_model pot_grad Hg friction e 1 l k Hp Hq)).
  assert (LD : forall k, o_data (po_at k) = drawn get_data (o_data l) (2 * k) /\ o_key (po_at k) = chain (o_key l) k) by (intros k; eapply ob_at_data; eauto).
  assert (LP : forall k, like s (ob_r M normal friction e 1 (po_at k)) /\ like s (ob_g1 get_data pot_grad (po_at k)) /\ like s (ob_f M normal get_data pot_grad friction e 1 (po_at k)) /\
     like s (ob_x M normal get_data pot_grad friction e 1 (po_at k)) /\ like s (ob_g2 M normal get_data pot_model pot_grad friction e 1 (po_at k)) /\ like s (ob_s M normal get_data pot_model pot_grad friction e 1 (po_at k))).
  { intros k. destruct (LA k) as [A B]. apply (@ob_parts_like s Hs _ F1 F2 normal Hn Data Batch vtree get_data pot_model pot_grad Hg friction e 1 (po_at k) A B). }
  assert (LS : forall k, po_at (S k) = fst (ob_step normal get_data pot_value pot_model pot_grad friction e 1 M (po_at k) k)) by (intros k; apply ob_at_S).
  assert (E1 : forall k, snd (get_data (o_data (po_at k))) = batch_no get_data (o_data l) (2 * k)) by (intros k; rewrite (proj1 (LD k)); reflexivity).
  assert (E2 : forall k, snd (get_data (fst (get_data (o_data (po_at k))))) = batch_no get_data (o_data l) (2 * k + 1)) by (intros k; rewrite (proj1 (LD k)); unfold batch_no; rewrite Nat.add_1_r; reflexivity).
  assert (EX : forall k, o_pos (po_at (S k)) = ob_x M normal get_data pot_grad friction e 1 (po_at k)) by (intros k; rewrite LS, ob_step_eq; reflexivity).
  assert (KIN : forall t, like s t -> kinetic_energy M t = kinetic_of s mass (el t)).
  { intros t Ht. rewrite (@kinetic_ok s M t Hs F1 Ht). unfold BalanceSpec.kinetic, kinetic_of. f_equal. apply sum_upto_ext. intros c Hc. f_equal. apply mass_inv; auto. }
  split; [|destruct (LA steps) as [A B]; split; [exact A|]; split; [exact B|]; split; [reflexivity|]; split; [reflexivity|]; split; [now rewrite po_even|]; apply LD].
  split; [reflexivity|]. split; [reflexivity|]. split; [reflexivity|]. split; [|split; [|split]].
  - intros k Hk'. destruct (LP k) as (P1 & P2 & P3 & P4 & P5 & P6). destruct (LA k) as [A B]. split; [rewrite EX; exact P4|].
    rewrite po_even, po_odd. replace (2 * k + 2)%nat with (2 * S k)%nat by lia. rewrite po_even. 
    split; [unfold ob_m1; now rewrite E1|]. split; [rewrite EX, <- E2, LS, ob_step_eq; reflexivity|].
    intros c Hc. split; [|split; [|split; [|split]]].
    + unfold ob_r. destruct (@resample_ok s Hs M F2 normal Hn friction e 1 (o_mom (po_at k)) (Sub (o_key (po_at k)) 1) B) as (_ & Q & _). rewrite Q by auto.
      rewrite (mass_sqrt Hs Hmass) by auto. rewrite Rmult_1_r, (proj2 (LD k)). reflexivity.
    + unfold ob_f. rewrite (el_ob_mom Hs) by auto. unfold ob_g1. rewrite E1. lra.
    + rewrite EX. unfold ob_x. rewrite (el_pos_update Hs) by auto. rewrite (el_mat Hs) by auto. rewrite (mass_inv Hs Hmass) by auto. reflexivity.
    + unfold ob_s. rewrite (el_ob_mom Hs) by auto. unfold ob_g2. rewrite E2, EX. lra.
    + rewrite LS, ob_step_eq. cbn [o_mom]. destruct (@resample_ok s Hs M F2 normal Hn friction e 1 _ (Sub (o_key (po_at k)) 2) P6) as (_ & Q & _).
      rewrite Q by auto. rewrite (mass_sqrt Hs Hmass) by auto. rewrite Rmult_1_r, (proj2 (LD k)). reflexivity.
  - unfold po_at at 1. destruct (@ob_at_energy M normal Data Batch vtree get_data pot_value pot_model pot_grad friction e 1 l steps) as [-> _]. rewrite (proj1 Hk), Rplus_0_l.
    apply sum_upto_ext. intros k _. apply KIN, LP.
  - unfold po_at at 1. destruct (@ob_at_energy M normal Data Batch vtree get_data pot_value pot_model pot_grad friction e 1 l steps) as [_ ->]. rewrite (proj2 Hk), Rplus_0_l.
    apply sum_upto_ext. intros k _. apply KIN, LP.
  - intros k. assert (Ek : steps = S k) by (unfold k; lia). rewrite EX, po_even, po_odd. rewrite Ek at 1. rewrite LS, ob_step_eq. cbn [o_pot]. rewrite E1, E2. lra.
Qed.
End Proposal.

(** one iteration *)
Definition sg_ok (st : sg_st) : Prop := like s (ob_positions (sg_integrator st)) /\ like s (ob_momentum (sg_integrator st)) /\
  (exists a, sg_potential st = Fin a) /\ (exists a, ob_potential (sg_integrator st) = Fin a) /\ ob_kin_start (sg_integrator st) = Fin 0 /\ ob_kin_end (sg_integrator st) = Fin 0.
(** auxiliary definition of a statement or a proof; models no code of /repo *)
Definition sg_next (e : R) (st : sg_st) : sg_st * R :=
  let r := update st (mkSchedule (Fin e) (Fin 1) false false) in (fst r, match st_acceptance (snd r) with Some (Fin p) => p | _ => 0 end).
Lemma sg_next_ok e st : sg_ok st ->
  let l := st_of (sg_integrator st) in let p := intg e l in let st' := fst (sg_next e st) in
  let U' := full_value (o_pos p) (sg_full st) (o_model p) in
  let acc := snd (sg_next e st) in let u := uniform (Sub (sg_key st) 1) in
  acc = Rmin 1 (exp (- ((U' - real (sg_potential st)) + (o_end p - o_start p)))) /\ sg_ratio st' = (Fin acc, Fin e, Fin (o_end p - o_start p)) /\
  sg_full st' = full_next (o_pos p) (sg_full st) (o_model p) /\ sg_key st' = Sub (sg_key st) 0 /\
  ob_data (sg_integrator st') = o_data p /\ ob_key (sg_integrator st') = o_key p /\ ob_kin_start (sg_integrator st') = Fin 0 /\ ob_kin_end (sg_integrator st') = Fin 0 /\
  (u < acc -> ob_positions (sg_integrator st') = o_pos p /\ ob_momentum (sg_integrator st') = o_mom p /\ sg_potential st' = Fin U' /\ ob_potential (sg_integrator st') = Fin (o_pot p) /\
     ob_model (sg_integrator st') = full_model (o_pos p) (sg_full st) (o_model p)) /\
  (acc <= u -> ob_positions (sg_integrator st') = ob_positions (sg_integrator st) /\ ob_momentum (sg_integrator st') = ob_momentum (sg_integrator st) /\ sg_potential st' = sg_potential st /\
     ob_potential (sg_integrator st') = ob_potential (sg_integrator st) /\ ob_model (sg_integrator st') = ob_model (sg_integrator st)).
Proof.
  intros (O1 & O2 & (a & Ha) & (b & Hb) & K1 & K2) l p st' U' acc u.
  assert (Hal : sg_log_alpha (Fin 1) (sg_potential st) (Fin U') (Fin (o_start p)) (Fin (o_end p)) = Fin (Rmin 0 (- ((U' - a) + (o_end p - o_start p))))).
  { rewrite Ha, sg_log_alpha_fin by lra. do 2 f_equal. lra. }
  pose proof (proj1 (Hu (Sub (sg_key st) 1))) as Hu0. fold u in Hu0.
  assert (Hl : xlt (xlog u) (Fin (Rmin 0 (- ((U' - a) + (o_end p - o_start p))))) <-> u < Rmin 1 (exp (- ((U' - a) + (o_end p - o_start p))))) by (rewrite log_lt by auto; now rewrite exp_min0).
  unfold acc, st'. clear acc st'. unfold sg_next, sg_update, split2. cbv beta iota zeta. unfold AliasAmagold.full_result. change (mass_get no_adaption (sg_mass st)) with (@None mass_matrix).
  assert (EP : obabo_update normal get_data pot_value pot_model pot_grad steps friction mass (sg_integrator st) (mkSchedule (Fin e) (Fin 1) false false) None = ob_of p) by reflexivity. rewrite EP.
  cbn [ob_of ob_positions ob_model ob_potential ob_data ob_key ob_momentum ob_kin_start ob_kin_end sch_step sch_temperature]. fold U'. rewrite Hal. fold u. rewrite Ha. cbn [real xexp]. rewrite exp_min0.
  destruct (xltb (xlog u) (Fin (Rmin 0 (- ((U' - a) + (o_end p - o_start p)))))) eqn:Eb.
  - apply xltb_true, Hl in Eb. cbn. repeat (split; [reflexivity|]). split; [intros _; repeat (split; [reflexivity|]); reflexivity|intros; lra].
  - apply xltb_false in Eb. rewrite Hl in Eb. cbn. repeat (split; [reflexivity|]). split; [intros; lra|intros _; repeat (split; [reflexivity|]); reflexivity].
Qed.
Lemma st_of_kin st : sg_ok st -> o_start (st_of (sg_integrator st)) = 0 /\ o_end (st_of (sg_integrator st)) = 0.
Proof. intros (_ & _ & _ & _ & K1 & K2). unfold st_of. cbn. rewrite K1, K2. auto. Qed.
Lemma sg_next_inv e st : sg_ok st -> sg_ok (fst (sg_next e st)).
Proof.
  intros H. pose proof (sg_next_ok e H) as Q. cbv zeta in Q. destruct Q as (_ & _ & _ & _ & _ & _ & Q1 & Q2 & QA & QR). pose proof (st_of_kin H) as HK. destruct H as (O1 & O2 & O3 & O4 & _).
  destruct (@ob_proposal_ok e (st_of (sg_integrator st)) O1 O2 HK) as (_ & P1 & P2 & _).
  destruct (Rlt_dec (uniform (Sub (sg_key st) 1)) (snd (sg_next e st))) as [L|L].
  - destruct (QA L) as (A1 & A2 & A3 & A4 & _). split; [now rewrite A1|]. split; [now rewrite A2|]. split; [rewrite A3; eauto|]. split; [rewrite A4; eauto|]. auto.
  - destruct (QR (Rnot_lt_le _ _ L)) as (A1 & A2 & A3 & A4 & _). split; [now rewrite A1|]. split; [now rewrite A2|]. split; [rewrite A3; eauto|]. split; [rewrite A4; eauto|]. auto.
Qed.
Lemma sg_update_next st sch e : sg_ok st -> 0 < e -> sch_step sch = Fin e -> sch_temperature sch = Fin 1 ->
  so_update solver st [sch] = (fst (sg_next e st), Some (mkStats (Some (Fin (snd (sg_next e st)))))) /\ sg_ok (fst (sg_next e st)).
Proof.
  intros H He E1 E2. split; [|now apply sg_next_inv]. cbn [sggmc_solver sggmc so_update].
  assert (EU : update st sch = update st (mkSchedule (Fin e) (Fin 1) false false)).
  { unfold sg_update, obabo_update. cbn [sch_step sch_temperature]. rewrite E1, E2. reflexivity. }
  rewrite EU. assert (ES : snd (update st (mkSchedule (Fin e) (Fin 1) false false)) = mkStats (Some (Fin (snd (sg_next e st))))).
  { unfold sg_next. cbn [snd]. set (r := update st (mkSchedule (Fin e) (Fin 1) false false)).
    assert (Q : exists p, st_acceptance (snd r) = Some (Fin p)).
    { destruct H as (O1 & O2 & (a & Ha) & (b & Hb) & _). unfold r, sg_update, split2, AliasAmagold.full_result. cbv beta iota zeta. unfold mass_get, no_adaption.
      unfold obabo_update. cbn [sch_step sch_temperature ob_of ob_positions ob_model ob_potential ob_kin_start ob_kin_end]. rewrite Ha, sg_log_alpha_fin by lra. destruct (xltb _ _); cbn; eauto. }
    destruct Q as [p Q]. rewrite Q. destruct (snd r) as [q]. cbn in Q. now rewrite Q. }
  change (fst (sg_next e st)) with (fst (update st (mkSchedule (Fin e) (Fin 1) false false))). rewrite <- ES. destruct (update st (mkSchedule (Fin e) (Fin 1) false false)). reflexivity.
Qed.

Section Run.
Variables (data0 : Data) (model0 x0 : vtree).
Hypothesis Hx : like s x0.
Variables (its : nat) (eps acc : nat -> R) (st : nat -> sg_st).
Hypothesis H0 : st 0%nat = sggmc_init full_result init_full data0 model0 x0.
Hypothesis Hok : forall i, (i <= its)%nat -> sg_ok (st i).
Hypothesis Hst : forall i, (i < its)%nat -> st (S i) = fst (sg_next (eps i) (st i)) /\ acc i = snd (sg_next (eps i) (st i)).
Lemma sg_counters i : (i <= its)%nat -> ob_data (sg_integrator (st i)) = drawn get_data data0 (2 * (i * steps)) /\ ob_key (sg_integrator (st i)) = chain (Sub (PRNGKey 0) 0) (i * steps) /\
  sg_key (st i) = chain (Sub (PRNGKey 0) 1) i.
Proof.
  induction i as [|i IH]; intros Hi.
  - rewrite H0. cbn. auto.
  - destruct (IH ltac:(lia)) as (I1 & I2 & I3). destruct (Hst (i := i) ltac:(lia)) as [-> _]. assert (Oi : sg_ok (st i)) by (apply Hok; lia).
    pose proof (sg_next_ok (eps i) Oi) as Q. cbv zeta in Q. destruct Q as (_ & _ & _ & Q1 & Q2 & Q3 & _). rewrite Q1, Q2, Q3.
    destruct (@ob_proposal_ok (eps i) (st_of (sg_integrator (st i))) (proj1 Oi) (proj1 (proj2 Oi)) (st_of_kin Oi)) as (_ & _ & _ & _ & _ & _ & P1 & P2). rewrite P1, P2. cbn [st_of o_data o_key].
    rewrite I1, I2, I3, drawn_add, chain_add. replace (2 * (S i * steps))%nat with (2 * (i * steps) + 2 * steps)%nat by lia. replace (S i * steps)%nat with (i * steps + steps)%nat by lia. auto.
Qed.
Lemma sg_path : exists theta mom U E dK model full,
  sggmc_trajectory s normal uniform get_data pot_value pot_model pot_grad full_value full_next full_model init_full steps friction mass data0 model0 x0 its eps acc theta mom U E dK model full /\
  forall i, (i < its)%nat -> so_get solver (st (S i)) = sggmc_saved eps acc theta U E dK model i.
Proof.
  exists (fun i => ob_positions (sg_integrator (st i))), (fun i => el (ob_momentum (sg_integrator (st i)))), (fun i => real (sg_potential (st i))), (fun i => real (ob_potential (sg_integrator (st i)))),
    (fun i => let p := intg (eps i) (st_of (sg_integrator (st i))) in o_end p - o_start p),
    (fun i => ob_model (sg_integrator (st i))), (fun i => sg_full (st i)). split; [split|].
  - rewrite H0. split; [reflexivity|]. split; [reflexivity|]. split; [reflexivity|]. split; [reflexivity|]. split; [reflexivity|]. intros c Hc.
    change (el (emap (fun _ => 0) x0) c = 0). now rewrite (el_emap Hs) by auto.
  - intros i Hi. apply Hok. exact Hi.
  - intros i Hi. assert (Oi : sg_ok (st i)) by (apply Hok; lia). destruct (Hst Hi) as [Es Ea]. destruct (@sg_counters i ltac:(lia)) as (C1 & C2 & C3).
    destruct (@ob_proposal_ok (eps i) (st_of (sg_integrator (st i))) (proj1 Oi) (proj1 (proj2 Oi)) (st_of_kin Oi)) as (P1 & _ & P2 & P3 & P4 & P5 & _).
    set (l := st_of (sg_integrator (st i))) in *.
    assert (CD : o_data l = drawn get_data data0 (2 * (i * steps))) by exact C1. assert (CK : o_key l = chain (Sub (PRNGKey 0) 0) (i * steps)) by exact C2.
    pose proof (sg_next_ok (eps i) Oi) as Q. cbv zeta in Q. fold l in Q. rewrite <- Es, <- Ea, C3 in Q. destruct Q as (Q1 & _ & Q2 & _ & _ & _ & _ & _ & QA & QR).
    exists (fun k => o_pos (po_at (eps i) l k)), (fun k => el (o_mom (po_at (eps i) l k))),
      (fun k => el (ob_r (ob_mass mass None (o_pos l)) normal friction (eps i) 1 (po_at (eps i) l k))), (fun k => el (ob_f (ob_mass mass None (o_pos l)) normal get_data pot_grad friction (eps i) 1 (po_at (eps i) l k))),
      (fun k => el (ob_s (ob_mass mass None (o_pos l)) normal get_data pot_model pot_grad friction (eps i) 1 (po_at (eps i) l k))),
      (po_mm (eps i) l), (o_start (intg (eps i) l)), (o_end (intg (eps i) l)), (o_pot (intg (eps i) l)).
    split; [|split; [|split; [|split; [|split]]]].
    + destruct P1 as (W1 & W2 & W3 & W4 & W5 & W6 & W7). cbv zeta in *. split; [exact W1|]. split; [exact W2|]. split; [exact W3|]. unfold batch_no in *. rewrite CD in W4, W7. rewrite CK in W4. 
      split; [|split; [exact W5|split; [exact W6|]]].
      * intros k Hk. destruct (W4 k Hk) as (V1 & V2 & V3 & V4). rewrite drawn_add in V2, V3. split; [exact V1|]. split; [exact V2|]. split; [exact V3|].
        intros c Hc. specialize (V4 c Hc). rewrite !drawn_add, !chain_add in V4. exact V4.
      * rewrite !drawn_add in W7. exact W7.
    + reflexivity.
    + rewrite Q1. rewrite P3, P5. reflexivity.
    + rewrite Q2, P3, P5. reflexivity.
    + intros L. destruct (QA L) as (A1 & A2 & A3 & A4 & A5). rewrite A1, A2, A3, A4, A5, P3, P4, P5. cbn [real]. split; auto.
    + intros L. destruct (QR L) as (A1 & A2 & A3 & A4 & A5). rewrite A1, A2, A3, A4, A5. split; auto.
  - intros i Hi. assert (Oi : sg_ok (st i)) by (apply Hok; lia). destruct (Hst Hi) as [Es Ea]. pose proof (sg_next_ok (eps i) Oi) as Q. cbv zeta in Q. rewrite <- Es, <- Ea in Q. destruct Q as (_ & Q1 & _).
    cbn [sggmc_solver sggmc so_get]. unfold sg_get, ob_get, sggmc_saved. rewrite Q1. reflexivity.
Qed.
End Run.
End Proofs.

(** ** C66: alias.sggmc *)
Theorem C66_sggmc : forall (s : vtree) (normal : key -> list nat -> list R) (uniform : key -> R) (Data Batch Full : Type) (get_data : Data -> Data * Batch)
    (pot_value : vtree -> Batch -> vtree -> R) (pot_model : vtree -> Batch -> vtree -> vtree) (pot_grad : vtree -> Batch -> vtree -> vtree)
    (full_value : vtree -> Full -> vtree -> R) (full_next : vtree -> Full -> vtree -> Full) (full_model : vtree -> Full -> vtree -> vtree),
  wfv s -> normal_ok normal -> (forall k, 0 <= uniform k < 1) -> (forall t b m, like s t -> like s (pot_grad t b m)) ->
  (forall t b m, same_structure (pot_model t b m) m) -> (forall x fd m, same_structure (full_model x fd m) m) ->
  forall Key (choice : Key -> list xr -> nat -> list nat) (tk : Key) (z : arr -> arr), choice_ok choice ->
  forall (steps : nat) (friction : R) (mass : option vtree) (model0 : vtree), (0 < steps)%nat -> (forall m, mass = Some m -> like s m) ->
  forall a its, good_args a its ->
  forall h (starts : list (vtree * (Data * Full))), Forall (fun xd => like s (fst xd)) starts ->
  let full_potential := fun x fd m => (Fin (full_value x fd m), (full_next x fd m, full_model x fd m)) in
  exists results, snd (al_run choice tk a z (sggmc_solver normal uniform get_data pot_value pot_model pot_grad full_potential steps friction mass) (fst (run (mstep z) (mc_new false) h))
      (map (fun xd => sggmc_init full_potential (snd (snd xd)) (fst (snd xd)) model0 (fst xd)) starts) its) = Some (Ok results) /\
    Forall2 (fun xd r => exists eps acc theta mom U E dK model full L,
      sggmc_trajectory s normal uniform get_data pot_value pot_model pot_grad full_value full_next full_model (snd (snd xd)) steps friction mass (fst (snd xd)) model0 (fst xd) its eps acc theta mom U E dK model full /\
      step_sizes a its acc eps /\ (forall i, 0 < eps i) /\ selected a its L /\ fst r = length L /\ exactly_samples (map (sggmc_saved eps acc theta U E dK model) L) (snd r)) starts results.
Proof.
  intros s normal uniform Data Batch Full get_data pv pm pg fv fn fm Hs Hn Hu Hg Hm Hfm Key choice tk z Hc steps friction mass model0 Hst Hma a its Hga h starts Hx full_potential.
  destruct (@mh_run _ (sggmc_solver normal uniform get_data pv pm pg full_potential steps friction mass) (sg_ok s (Data := Data) (Full := Full))
    (sg_next normal uniform get_data pv pm pg fv fn fm steps friction mass) eq_refl) with (choice := choice) (tk := tk) (z := z) (a := a) (its := its) (h := h)
    (states := map (fun xd => sggmc_init full_potential (snd (snd xd)) (fst (snd xd)) model0 (fst xd)) starts) as (rs & R1 & R2); auto.
  { apply sg_keeps; auto. }
  { intros st sch e. apply sg_update_next; auto. exact (sg_full st). }
  exists rs. split; [exact R1|]. clear R1. revert rs R2. induction Hx as [|[x0 [data0 init_full]] starts Hx HF IH]; intros rs R2; inversion R2 as [|? r ? rs' R3 R4]; subst; constructor; auto.
  cbn [fst snd] in *. assert (OK : sg_ok s (sggmc_init full_potential init_full data0 model0 x0)).
  { split; [exact Hx|]. split; [apply like_emap; exact Hx|]. split; [eexists; reflexivity|]. split; [eexists; reflexivity|]. split; reflexivity. }
  destruct (R3 OK) as (eps & acc & st & L & S0 & S1 & S2 & S3 & S4 & S5 & S6 & S7).
  destruct (@sg_path s Hs normal Hn uniform Hu Data Batch Full get_data pv pm pg Hg Hm fv fn fm Hfm init_full steps Hst friction mass Hma data0 model0 x0 Hx its eps acc st S0 S1 S3) as (theta & mom & U & E & dK & model & full & T1 & T2).
  exists eps, acc, theta, mom, U, E, dK, model, full, L. split; auto. split; auto. split; auto. split; auto. split; auto.
  erewrite map_ext_in; [exact S7|]. intros i Hi. symmetry. apply T2.
  unfold selected in S5. destruct (al_accepted a); [apply S5 in Hi; lia|]. subst L. apply in_seq in Hi. destruct Hga as (_ & _ & Hb). lia.
Qed.
Print Assumptions C66_sggmc.

(** The hypotheses are met: f(x) = 1/2 |x|^2 with a mass, two chains; three of five iterations after burn-in 1, and, with adaptive step size, all iterations after burn-in. *)
Example C66_nonvacuous : let s := tree_ab 0 0 in
  let z := fun x => mkArr (ashape x) (map (fun _ => 0) (adata x)) in let starts := [(tree_ab 1 2, (0%nat, 0%nat)); (tree_ab 3 4, (7%nat, 1%nat))] in
  let fv := fun (x : vtree) (fd : nat) (m : vtree) => tdot x x / 2 in let full := fun x fd m => (Fin (fv x fd m), (S fd, m)) in
  forall a n, (a = mkAlias (Fin 0.5) (Fin 0.1) None 1 (Some 3%nat) true false None /\ n = 3%nat) \/
              (a = mkAlias (Fin 0.5) (Fin 0.1) (Some (Scheduler.mkAd 0 0.1 3 0.75 0.05 0.25)) 1 None true false None /\ n = 4%nat) ->
  (exists results, snd (al_run first_choice tt a z
      (amagold_solver (fun _ sh => repeat 0 (size sh)) (fun _ => 1 / 2) (fun d : nat => (S d, d)) (fun x b m => m) (fun x b m => x) full 2 1 (Some (tree_ab 1 4)))
      (mc_new false) (map (fun xd => amagold_init (fun _ sh => repeat 0 (size sh)) full (snd (snd xd)) (Some (tree_ab 1 4)) (fst (snd xd)) (Leaf (mkArr [] [0])) (fst xd)) starts) 5) = Some (Ok results) /\
    Forall2 (fun (x0 : vtree * (nat * nat)) (r : result arr) => fst r = n) starts results) /\
  (exists results, snd (al_run first_choice tt a z
      (sggmc_solver (fun _ sh => repeat 0 (size sh)) (fun _ => 1 / 2) (fun d : nat => (S d, d)) (fun x b m => tdot x x / 2) (fun x b m => m) (fun x b m => x) full 2 1 (Some (tree_ab 1 4)))
      (mc_new false) (map (fun xd => sggmc_init full (snd (snd xd)) (fst (snd xd)) (Leaf (mkArr [] [0])) (fst xd)) starts) 5) = Some (Ok results) /\
    Forall2 (fun (x0 : vtree * (nat * nat)) (r : result arr) => fst r = n) starts results).
Proof.
  intros s z starts fv full a n Han.
  assert (LK : forall u v, like s (tree_ab u v)) by (intros u v; split; [apply tree_ab_wf|split; reflexivity]).
  assert (GA : good_args a 5).
  { destruct Han as [[-> ->] | [-> ->]]; unfold good_args; cbn [al_hot al_adaptive al_accepted al_burn_in al_first al_last ad_initial]; (split; [reflexivity|split]); try lia.
    - exists 0.5, 0.1. split; [reflexivity|]. split; [reflexivity|]. split; [lra|lia].
    - split; [lra|reflexivity]. }
  assert (LN : forall L, selected a 5 L -> length L = n).
  { intros L H. destruct Han as [[-> ->] | [-> ->]]; cbn in H; [apply H|]. subst L. reflexivity. }
  assert (ST : Forall (fun xd : vtree * (nat * nat) => like s (fst xd)) starts) by (unfold starts; repeat constructor; apply LK).
  split.
  - destruct (@C66_amagold s (fun _ sh => repeat 0 (size sh)) (fun _ => 1 / 2) nat nat nat (fun d => (S d, d)) (fun x b m => m) (fun x b m => x) fv (fun x fd m => S fd) (fun x fd m => m)) with
      (choice := first_choice) (tk := tt) (z := z) (steps := 2%nat) (friction := 1) (mass := Some (tree_ab 1 4)) (model0 := Leaf (mkArr [] [0])) (a := a) (its := 5%nat) (h := @nil (mop arr)) (starts := starts)
      as (rs & R1 & R2); auto using first_choice_ok.
    + apply tree_ab_wf.
    + intros k sh. apply repeat_length.
    + intros k. lra.
    + intros. reflexivity.
    + intros. reflexivity.
    + intros m [= <-]. apply LK.
    + exists rs. split; [exact R1|]. eapply Forall2_impl; [|exact R2]. intros x0 r (eps & acc & theta & mom & U & E & model & fu & L & _ & _ & _ & Q & -> & _). now apply LN.
  - destruct (@C66_sggmc s (fun _ sh => repeat 0 (size sh)) (fun _ => 1 / 2) nat nat nat (fun d => (S d, d)) (fun x b m => tdot x x / 2) (fun x b m => m) (fun x b m => x) fv (fun x fd m => S fd) (fun x fd m => m)) with
      (choice := first_choice) (tk := tt) (z := z) (steps := 2%nat) (friction := 1) (mass := Some (tree_ab 1 4)) (model0 := Leaf (mkArr [] [0])) (a := a) (its := 5%nat) (h := @nil (mop arr)) (starts := starts)
      as (rs & R1 & R2); auto using first_choice_ok.
    + apply tree_ab_wf.
    + intros k sh. apply repeat_length.
    + intros k. lra.
    + intros. reflexivity.
    + intros. reflexivity.
    + intros m [= <-]. apply LK.
    + exists rs. split; [exact R1|]. eapply Forall2_impl; [|exact R2]. intros x0 r (eps & acc & theta & mom & U & E & dK & model & fu & L & _ & _ & _ & Q & -> & _). now apply LN.
Qed.
