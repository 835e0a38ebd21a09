(** alias.obabo and alias.sghmc from the arguments to the returned samples. *)
From Coq Require Import Reals Lra ZArith String.
From Verif Require Import Base ListUtil Pytree PytreeSpec PytreeProofs Io IoSpec IoProofs IoFinal TreeUtil TreeUtilSpec TreeUtilProofs Integrator IntegratorSpec IntegratorBasics ObaboProofs LeapfrogFinal PropertiesIntegrator
  Xreal Scheduler SchedulerSpec SchedulerProofs StepSizeProofs PropertiesScheduler Solver SolverSpec SolverProofs SolverFinal PropertiesSolver Adaption Alias PropertiesAlias AliasSgld AliasRun.
Open Scope R_scope.
Set Implicit Arguments.

(** ** Specification *)
(** diagonal of the inverse and of the square root of the mass (1 if no mass is given) *)
Definition inverse_mass (mass : option vtree) (c : nat) : R := match mass with Some m => / el m c | None => 1 end.
(** auxiliary definition of a statement or a proof; models no code of /repo *)
Definition root_mass (mass : option vtree) (c : nat) : R := match mass with Some m => sqrt (el m c) | None => 1 end.

Section Spec.
Variable s : vtree.
Variable normal : key -> list nat -> list R.
Variables (Data Batch : Type).
Variable get_data : Data -> Data * Batch.
Variables (pot_value : vtree -> Batch -> vtree -> R) (pot_model : vtree -> Batch -> vtree -> vtree) (pot_grad : vtree -> Batch -> vtree -> vtree).
Variable steps : nat.
Variable mass : option vtree.

(** OBABO.  x t, p t are position and momentum before the leapfrog step t (counted through all iterations, step t belongs to iteration t / steps),
    r t, h t, e t the momenta after the first refreshment, the first and the second half kick; every leapfrog step uses two batches. *)
Record obabo_trajectory (friction : R) (data0 : Data) (model0 x0 : vtree) (its : nat) (eps : nat -> R) (x model : nat -> vtree) (p r h e : nat -> nat -> R) : Prop := mkObTraj {
  ot_start : x 0%nat = x0 /\ model 0%nat = model0 /\ forall c, (c < dim s)%nat -> p 0%nat c = 0;
  ot_like : forall t, (t <= its * steps)%nat -> like s (x t);
  ot_step : forall t, (t < its * steps)%nat ->
    let ep := eps (t / steps)%nat in
    let permanence := exp (- friction * ep) in
    let key := chain (PRNGKey 0) t in
    let B1 := batch_no get_data data0 (2 * t) in
    let B2 := batch_no get_data data0 (2 * t + 1) in
    model (2 * t + 1)%nat = pot_model (x t) B1 (model (2 * t)%nat) /\
    model (2 * t + 2)%nat = pot_model (x (S t)) B2 (model (2 * t + 1)%nat) /\
    forall c, (c < dim s)%nat ->
      r t c = sqrt permanence * p t c + sqrt (1 - permanence) * (root_mass mass c * xi normal (Sub key 1) s c) /\
      h t c = r t c - ep / 2 * el (pot_grad (x t) B1 (model (2 * t)%nat)) c /\
      el (x (S t)) c = el (x t) c + ep * (inverse_mass mass c * h t c) /\
      e t c = h t c - ep / 2 * el (pot_grad (x (S t)) B2 (model (2 * t + 1)%nat)) c /\
      p (S t) c = sqrt permanence * e t c + sqrt (1 - permanence) * (root_mass mass c * xi normal (Sub key 2) s c)
}.
(** saved for iteration i: the position after its last leapfrog step, and the mean of the potentials before and after this step (on two different batches) *)
Definition obabo_saved (data0 : Data) (x model : nat -> vtree) (i : nat) : vtree :=
  let t := (S i * steps - 1)%nat in
  hmc_sample (1 / 2 * (pot_value (x t) (batch_no get_data data0 (2 * t)) (model (2 * t)%nat) + pot_value (x (S t)) (batch_no get_data data0 (2 * t + 1)) (model (2 * t + 1)%nat)))
    (model (2 * t + 2)%nat) (x (S t)).

(** SGHMC.  x i k, p i k are position and momentum in iteration i after k leapfrog steps; an iteration draws a new momentum; every leapfrog step uses one batch. *)
Definition friction_at (friction : fric) (c : nat) : R := match friction with FScalar f => f | FTree t => el t c end.
(** auxiliary definition of a statement or a proof; models no code of /repo *)
Record sghmc_trajectory (friction : fric) (data0 : Data) (model0 x0 : vtree) (its : nat) (eps : nat -> R) (x : nat -> nat -> vtree) (model : nat -> vtree) (p : nat -> nat -> nat -> R) : Prop := mkFlTraj {
  ft_start : x 0%nat 0%nat = x0 /\ model 0%nat = model0;
  ft_like : forall i k, (i < its)%nat -> (k <= steps)%nat -> like s (x i k);
  ft_next : forall i, (i < its)%nat -> x (S i) 0%nat = x i steps;
  ft_resample : forall i c, (i < its)%nat -> (c < dim s)%nat -> p i 0%nat c = root_mass mass c * xi normal (Sub (chain (PRNGKey 0) (i * S steps)) 1) s c;
  ft_step : forall i k, (i < its)%nat -> (k < steps)%nat ->
    let n := (i * steps + k)%nat in
    let B := batch_no get_data data0 n in
    model (S n) = pot_model (x i (S k)) B (model n) /\
    forall c, (c < dim s)%nat ->
      el (x i (S k)) c = el (x i k) c + eps i * (inverse_mass mass c * p i k c) /\
      p i (S k) c = p i k c - eps i * friction_at friction c * (inverse_mass mass c * p i k c) - eps i * el (pot_grad (x i (S k)) B (model n)) c
                    + friction_at friction c * (sqrt (2 * eps i) * xi normal (Sub (chain (PRNGKey 0) (i * S steps + 1 + k)) 1) s c)
}.
(** auxiliary definition of a statement or a proof; models no code of /repo *)
Definition sghmc_saved (data0 : Data) (x : nat -> nat -> vtree) (model : nat -> vtree) (i : nat) : vtree :=
  let n := (S i * steps - 1)%nat in
  hmc_sample (pot_value (x i steps) (batch_no get_data data0 n) (model n)) (model (S n)) (x i steps).
End Spec.

(** ** Proofs *)
Section Proofs.
Variable s : vtree.
Hypothesis Hs : wfv s.
Variable normal : key -> list nat -> list R.
Hypothesis Hn : normal_ok normal.
Variables (Data Batch : Type).
Variable get_data : Data -> Data * Batch.
Variables (pot_value : vtree -> Batch -> vtree -> R) (pot_model : vtree -> Batch -> vtree -> vtree) (pot_grad : vtree -> Batch -> vtree -> vtree).
Hypothesis Hg : forall t b m, like s t -> like s (pot_grad t b m).
Hypothesis Hm : forall t b m, same_structure (pot_model t b m) m.
Variable steps : nat.
Hypothesis Hsteps : (0 < steps)%nat.
Variable mass : option vtree.
Hypothesis Hmass : forall m, mass = Some m -> like s m.

Lemma hmc_sample_structure e e' m m' x x' : same_structure m' m -> same_structure x' x -> same_structure (hmc_sample e' m' x') (hmc_sample e m x).
Proof. intros H1 H2. unfold hmc_sample, same_structure in *. cbn in *. now rewrite H1, H2. Qed.

Lemma ob_keeps friction eps T mo (st : ob_st Data vtree) : let st' := fst (ob_integrate normal get_data pot_value pot_model pot_grad steps friction mass eps T mo st) in
  same_structure (hmc_sample (o_pot st') (o_model st') (o_pos st')) (hmc_sample (o_pot st) (o_model st) (o_pos st)).
Proof.
  cbv zeta. unfold ob_integrate. set (M := ob_mass mass mo (o_pos st)). clearbody M.
  apply (@scan_inv _ _ (fun st' => same_structure (hmc_sample (o_pot st') (o_model st') (o_pos st')) (hmc_sample (o_pot st) (o_model st) (o_pos st)))); [reflexivity|].
  intros a k Ha. eapply structure_trans; [|exact Ha]. rewrite ob_step_eq. cbn [o_pot o_model o_pos]. apply hmc_sample_structure.
  - eapply structure_trans; [apply Hm|]. apply Hm.
  - unfold ob_x, position_update. apply tadd_structure.
Qed.
Lemma fl_keeps friction eps mo (st : fl_st Data vtree unit) : let st' := fst (fl_integrate (Noise := unit) normal get_data pot_value pot_model pot_grad steps friction mass None eps mo st) in
  same_structure (hmc_sample (f_pot st') (f_model st') (f_pos st')) (hmc_sample (f_pot st) (f_model st) (f_pos st)).
Proof.
  cbv zeta. unfold fl_integrate. set (M := fl_mass mass mo (f_pos st)). set (FR := fl_friction friction (f_pos st)). clearbody M FR.
  destruct (random_tree normal (Sub (f_key st) 1) (f_mom st)) as [noise used].
  match goal with |- context [scan ?f ?n ?a] => set (g := f); set (st1 := a); destruct (scan g n st1) as [st2 u2] eqn:E end. cbn [fst].
  assert (H : (fun st' : fl_st Data vtree unit => same_structure (hmc_sample (f_pot st') (f_model st') (f_pos st')) (hmc_sample (f_pot st) (f_model st) (f_pos st))) (fst (scan g steps st1))).
  - apply scan_inv; [reflexivity|]. intros a k Ha. eapply structure_trans; [|exact Ha]. unfold g, fl_body.
    destruct (get_data (f_data a)) as [d b]. destruct (random_tree normal (Sub (f_key a) 1) (f_mom a)) as [no us]. cbn [fst f_pot f_model f_pos]. apply hmc_sample_structure; [apply Hm|apply tadd_structure].
  - cbv beta in H. rewrite E in H. exact H.
Qed.

Lemma mass_fits t : like s t -> tens_fits (m_inv (ob_mass mass None t)) s /\ tens_fits (m_sqrt (ob_mass mass None t)) s.
Proof.
  intros H. unfold ob_mass. destruct mass as [m|] eqn:E; [|now apply unit_mass_fits]. split; [apply inv_mass_fits|apply sqrt_mass_fits]; now apply Hmass.
Qed.
Lemma mass_inv t v c : like s t -> (c < dim s)%nat -> mulv (m_inv (ob_mass mass None t)) (dim s) v c = inverse_mass mass c * v c.
Proof.
  intros H Hc. unfold ob_mass, inverse_mass. destruct mass as [m|] eqn:E; cbn [init_mass unit_mass m_inv]; rewrite diag_mulv by auto.
  - now rewrite (el_emap Hs) by auto.
  - rewrite !(el_emap Hs) by auto using like_emap. now rewrite Rinv_1.
Qed.
Lemma mass_sqrt t v c : like s t -> (c < dim s)%nat -> mulv (m_sqrt (ob_mass mass None t)) (dim s) v c = root_mass mass c * v c.
Proof.
  intros H Hc. unfold ob_mass, root_mass. destruct mass as [m|] eqn:E; cbn [init_mass unit_mass m_sqrt]; rewrite diag_mulv by auto.
  - now rewrite (el_emap Hs) by auto.
  - rewrite !(el_emap Hs) by auto using like_emap. now rewrite sqrt_1.
Qed.

(** *** obabo *)
Section Obabo.
Variable friction : R.
Variables (data0 : Data) (model0 x0 : vtree).
Hypothesis Hx : like s x0.
Variable eps : nat -> R.
Notation M := (ob_mass mass None x0).
Notation upd := (fun e T st => fst (ob_integrate normal get_data pot_value pot_model pot_grad steps friction mass e T None st)).
(** the state before leapfrog step t *)
Fixpoint ob_seq (t : nat) : ob_st Data vtree :=
  match t with O => obabo_init data0 model0 x0 | S t' => fst (ob_step normal get_data pot_value pot_model pot_grad friction (eps (t' / steps)%nat) 1 M (ob_seq t') 0) end.
Lemma ob_seq_inv t : like s (o_pos (ob_seq t)) /\ like s (o_mom (ob_seq t)) /\ o_data (ob_seq t) = drawn get_data data0 (2 * t) /\ o_key (ob_seq t) = chain (PRNGKey 0) t.
Proof.
  destruct (mass_fits Hx) as [F1 F2].
  induction t as [|t (I1 & I2 & I3 & I4)].
  - cbn. auto using like_emap.
  - cbn [ob_seq]. destruct (@ob_step_like s Hs M F1 F2 normal Hn Data Batch vtree get_data pot_value pot_model pot_grad Hg friction (eps (t / steps)%nat) 1 (ob_seq t) 0 I1 I2) as [L1 L2].
    split; [exact L1|]. split; [exact L2|]. rewrite ob_step_eq. cbn [o_data o_key]. rewrite I3, I4. replace (2 * S t)%nat with (S (S (2 * t))) by lia. split; reflexivity.
Qed.
Lemma ob_iterates i : iterates upd eps (obabo_init data0 model0 x0) i = ob_seq (i * steps).
Proof.
  induction i as [|i IH]; [reflexivity|]. cbn [iterates]. rewrite IH. unfold ob_integrate.
  rewrite (ob_mass_same mass None Hs (proj1 (ob_seq_inv (i * steps))) Hx).
  rewrite (@scan_sequence _ _ ob_seq (i * steps)%nat steps); [f_equal; lia|].
  intros k Hk. cbn [ob_seq]. replace ((i * steps + k) / steps)%nat with i; [reflexivity|]. symmetry. rewrite Nat.add_comm, Nat.div_add by lia. rewrite Nat.div_small by lia. lia.
Qed.
(** auxiliary definition of a statement or a proof; models no code of /repo *)
Definition ob_models (n : nat) : vtree := if Nat.even n then o_model (ob_seq (Nat.div2 n)) else ob_m1 get_data pot_model (ob_seq (Nat.div2 n)).
Lemma even_double t : Nat.even (2 * t) = true /\ Nat.div2 (2 * t) = t /\ Nat.even (2 * t + 1) = false /\ Nat.div2 (2 * t + 1) = t.
Proof.
  split; [apply Nat.even_spec; exists t; lia|]. split; [apply Nat.div2_double|]. replace (2 * t + 1)%nat with (S (2 * t)) by lia. split; [|apply Nat.div2_succ_double].
  rewrite Nat.even_succ. rewrite <- Nat.negb_even. replace (Nat.even (2 * t)) with true; [reflexivity|]. symmetry. apply Nat.even_spec. exists t. lia.
Qed.
Lemma ob_models_even t : ob_models (2 * t) = o_model (ob_seq t).
Proof. unfold ob_models. destruct (even_double t) as (-> & -> & _). reflexivity. Qed.
Lemma ob_models_odd t : ob_models (2 * t + 1) = ob_m1 get_data pot_model (ob_seq t).
Proof. unfold ob_models. destruct (even_double t) as (_ & _ & -> & ->). reflexivity. Qed.
Lemma obabo_path its : exists x model p r h e, obabo_trajectory s normal get_data pot_model pot_grad steps mass friction data0 model0 x0 its eps x model p r h e /\
  forall i, (i < its)%nat -> let st := iterates upd eps (obabo_init data0 model0 x0) (S i) in hmc_sample (o_pot st) (o_model st) (o_pos st) = obabo_saved get_data pot_value steps data0 x model i.
Proof.
  destruct (mass_fits Hx) as [F1 F2].
  exists (fun t => o_pos (ob_seq t)), ob_models, (fun t => el (o_mom (ob_seq t))), (fun t => el (ob_r M normal friction (eps (t / steps)%nat) 1 (ob_seq t))),
    (fun t => el (ob_f M normal get_data pot_grad friction (eps (t / steps)%nat) 1 (ob_seq t))), (fun t => el (ob_s M normal get_data pot_model pot_grad friction (eps (t / steps)%nat) 1 (ob_seq t))).
  split; [split|].
  - split; [reflexivity|]. split; [reflexivity|]. intros c Hc. change (el (emap (fun _ => 0) x0) c = 0). now rewrite (el_emap Hs) by auto.
  - intros t _. apply ob_seq_inv.
  - intros t Ht ep perm ky B1 B2. destruct (ob_seq_inv t) as (I1 & I2 & I3 & I4).
    assert (E1 : snd (get_data (o_data (ob_seq t))) = B1) by (rewrite I3; reflexivity).
    assert (E2 : snd (get_data (fst (get_data (o_data (ob_seq t))))) = B2) by (rewrite I3; unfold B2, batch_no; rewrite Nat.add_1_r; reflexivity).
    assert (EX : o_pos (ob_seq (S t)) = ob_x M normal get_data pot_grad friction ep 1 (ob_seq t)) by (cbn [ob_seq]; rewrite ob_step_eq; reflexivity).
    destruct (@ob_parts_like s Hs M F1 F2 normal Hn Data Batch vtree get_data pot_model pot_grad Hg friction ep 1 (ob_seq t) I1 I2) as (P1 & P2 & P3 & P4 & P5 & P6).
    rewrite ob_models_even, ob_models_odd. replace (2 * t + 2)%nat with (2 * S t)%nat by lia. rewrite ob_models_even.
    split; [unfold ob_m1; now rewrite E1|]. split; [rewrite EX, <- E2; cbn [ob_seq]; rewrite ob_step_eq; reflexivity|].
    intros c Hc. fold ep. split; [|split; [|split; [|split]]].
    + unfold ob_r. destruct (@resample_ok s Hs M F2 normal Hn friction ep 1 (o_mom (ob_seq t)) (Sub (o_key (ob_seq t)) 1) I2) as (_ & Q & _). rewrite Q by auto.
      rewrite mass_sqrt by auto. rewrite Rmult_1_r, I4. reflexivity.
    + unfold ob_f. rewrite (el_ob_mom Hs) by auto. unfold ob_g1. rewrite E1. lra.
    + rewrite EX. unfold ob_x. rewrite (el_pos_update Hs) by auto. rewrite (el_mat Hs) by auto. rewrite mass_inv by auto. reflexivity.
    + unfold ob_s. rewrite (el_ob_mom Hs) by auto. unfold ob_g2. rewrite E2, EX. lra.
    + cbn [ob_seq]. rewrite ob_step_eq. cbn [o_mom]. destruct (@resample_ok s Hs M F2 normal Hn friction ep 1 _ (Sub (o_key (ob_seq t)) 2) P6) as (_ & Q & _).
      fold ep. rewrite Q by auto. rewrite mass_sqrt by auto. rewrite Rmult_1_r, I4. reflexivity.
  - intros i Hi st. unfold st. rewrite ob_iterates. unfold obabo_saved. set (t := (S i * steps - 1)%nat). assert (Et : (S i * steps)%nat = S t) by (unfold t; nia). rewrite Et.
    destruct (ob_seq_inv t) as (I1 & I2 & I3 & I4). rewrite ob_models_even, ob_models_odd. replace (2 * t + 2)%nat with (2 * S t)%nat by lia. rewrite ob_models_even.
    cbn [ob_seq]. rewrite ob_step_eq. cbn [o_pot o_model o_pos]. rewrite I3. unfold batch_no. rewrite Nat.add_1_r. reflexivity.
Qed.
End Obabo.
(** *** sghmc *)
Section Sghmc.
Variable friction : fric.
Hypothesis Hfr : forall t, friction = FTree t -> like s t.
Variables (data0 : Data) (model0 x0 : vtree).
Hypothesis Hx : like s x0.
Variable eps : nat -> R.
Notation M := (ob_mass mass None x0).
Notation FR := (fl_friction friction x0).
Notation upd := (fun e (T : R) st => fst (fl_integrate (Noise := unit) normal get_data pot_value pot_model pot_grad steps friction mass None e None st)).
Notation body := (fun e => fl_body (Noise := unit) normal get_data pot_value pot_model pot_grad None e FR M).
(** auxiliary definition of a statement or a proof; models no code of /repo *)
Definition fl_resampled (st : fl_st Data vtree unit) : fl_st Data vtree unit :=
  mkFlSt (f_pos st) (tmat (m_sqrt M) (fst (random_tree normal (Sub (f_key st) 1) (f_mom st)))) (f_model st) 0 (f_data st) (Sub (f_key st) 0) (f_extra st).
(** the state in iteration i after k leapfrog steps *)
Fixpoint fl_inner (e : R) (st : fl_st Data vtree unit) (k : nat) := match k with O => fl_resampled st | S k' => fst (body e (fl_inner e st k') 0%nat) end.
(** auxiliary definition of a statement or a proof; models no code of /repo *)
Fixpoint fl_outer (i : nat) : fl_st Data vtree unit := match i with O => sghmc_init Batch data0 model0 x0 | S i' => fl_inner (eps i') (fl_outer i') steps end.
Lemma FR_like : like s FR.
Proof. unfold fl_friction. destruct friction as [f|t]; [now apply like_emap|now apply Hfr]. Qed.
Lemma FR_el c : (c < dim s)%nat -> el FR c = friction_at friction c.
Proof. intros Hc. unfold fl_friction, friction_at. destruct friction as [f|t]; [|reflexivity]. now rewrite (el_emap Hs). Qed.
Lemma fl_body_eq e (st : fl_st Data vtree unit) k : like s (f_pos st) -> like s (f_mom st) -> let st' := fst (body e st k) in
  like s (f_pos st') /\ like s (f_mom st') /\ f_data st' = fst (get_data (f_data st)) /\ f_key st' = Sub (f_key st) 0 /\
  f_model st' = pot_model (f_pos st') (snd (get_data (f_data st))) (f_model st) /\ f_pot st' = pot_value (f_pos st') (snd (get_data (f_data st))) (f_model st) /\
  forall c, (c < dim s)%nat ->
    el (f_pos st') c = el (f_pos st) c + e * (inverse_mass mass c * el (f_mom st) c) /\
    el (f_mom st') c = el (f_mom st) c - e * friction_at friction c * (inverse_mass mass c * el (f_mom st) c) - e * el (pot_grad (f_pos st') (snd (get_data (f_data st))) (f_model st)) c
      + friction_at friction c * (sqrt (2 * e) * xi normal (Sub (f_key st) 1) s c).
Proof.
  intros H1 H2. destruct (mass_fits Hx) as [F1 F2]. pose proof FR_like as LF. unfold fl_body.
  destruct (@random_tree_ok s normal (Sub (f_key st) 1) (f_mom st) Hn H2) as (R1 & R2 & _).
  destruct (get_data (f_data st)) as [d b]. destruct (random_tree normal (Sub (f_key st) 1) (f_mom st)) as [no us]. cbn [fst snd f_pos f_mom f_data f_key f_model f_pot] in *. cbv zeta.
  assert (LM : like s (tmat (m_inv M) (f_mom st))) by auto with like.
  assert (LP : like s (tadd (f_pos st) (tree_scale e (tmat (m_inv M) (f_mom st))))) by auto with like.
  pose proof (Hg b (f_model st) LP) as LG.
  split; [exact LP|]. split; [auto 10 with like|]. split; auto. split; auto. split; auto. split; auto.
  intros c Hc. assert (EM : el (tmat (m_inv M) (f_mom st)) c = inverse_mass mass c * el (f_mom st) c) by (rewrite (el_mat Hs) by auto; now rewrite mass_inv).
  split; [rewrite (el_add Hs), (el_scale' Hs) by auto with like; now rewrite EM|].
  rewrite (@el_add s Hs) by auto 10 with like. rewrite (@el_add s Hs) by auto 10 with like. rewrite (@el_add s Hs) by auto 10 with like.
  rewrite (@el_mul s Hs) by auto 10 with like. rewrite (@el_mul s Hs) by auto 10 with like. rewrite !(el_scale' Hs) by auto 10 with like. rewrite R2, EM, FR_el by auto. lra.
Qed.
Lemma fl_inner_inv e (st : fl_st Data vtree unit) k : like s (f_pos st) -> like s (f_mom st) ->
  like s (f_pos (fl_inner e st k)) /\ like s (f_mom (fl_inner e st k)) /\ f_data (fl_inner e st k) = drawn get_data (f_data st) k /\ f_key (fl_inner e st k) = chain (f_key st) (S k).
Proof.
  intros H1 H2. induction k as [|k (I1 & I2 & I3 & I4)].
  - cbn [fl_inner fl_resampled f_pos f_mom f_data f_key]. destruct (@random_tree_ok s normal (Sub (f_key st) 1) (f_mom st) Hn H2) as (R1 & _). destruct (mass_fits Hx). auto with like.
  - cbn [fl_inner]. destruct (@fl_body_eq e (fl_inner e st k) 0%nat I1 I2) as (J1 & J2 & J3 & J4 & _). split; [exact J1|]. split; [exact J2|]. rewrite J3, J4, I3, I4. split; reflexivity.
Qed.
Lemma drawn_add (d : Data) a b : drawn get_data (drawn get_data d a) b = drawn get_data d (a + b).
Proof. induction b as [|b IH]; [now rewrite Nat.add_0_r|]. rewrite Nat.add_succ_r. cbn [drawn]. now rewrite IH. Qed.
Lemma chain_add (d : key) a b : IntegratorSpec.chain (IntegratorSpec.chain d a) b = IntegratorSpec.chain d (a + b).
Proof. induction b as [|b IH]; [now rewrite Nat.add_0_r|]. rewrite Nat.add_succ_r. cbn [IntegratorSpec.chain]. now rewrite IH. Qed.
Lemma fl_outer_inv i : like s (f_pos (fl_outer i)) /\ like s (f_mom (fl_outer i)) /\ f_data (fl_outer i) = drawn get_data data0 (i * steps) /\ f_key (fl_outer i) = IntegratorSpec.chain (PRNGKey 0) (i * S steps).
Proof.
  induction i as [|i (I1 & I2 & I3 & I4)]; [cbn; auto|]. cbn [fl_outer].
  destruct (@fl_inner_inv (eps i) (fl_outer i) steps I1 I2) as (J1 & J2 & J3 & J4). split; auto. split; auto. rewrite J3, J4, I3, I4, drawn_add, chain_add.
  split; f_equal; lia.
Qed.
Lemma fl_iterates i : iterates upd eps (sghmc_init Batch data0 model0 x0) i = fl_outer i.
Proof.
  induction i as [|i IH]; [reflexivity|]. cbn [iterates fl_outer]. rewrite IH. destruct (fl_outer_inv i) as (I1 & I2 & _). set (st := fl_outer i) in *. clearbody st. unfold fl_integrate.
  change (fl_mass mass None (f_pos st)) with (ob_mass mass None (f_pos st)). rewrite (ob_mass_same mass None Hs I1 Hx).
  assert (EF : fl_friction friction (f_pos st) = FR) by (unfold fl_friction; destruct friction; auto; apply (emap_const (s := s)); auto). rewrite EF.
  change (fl_inner (eps i) st steps) with (fl_inner (eps i) st (0 + steps)). rewrite <- (@scan_sequence _ (body (eps i)) (fl_inner (eps i) st) 0 steps).
  - cbn [fl_inner]. unfold fl_resampled. destruct (random_tree normal (Sub (f_key st) 1) (f_mom st)) as [no us]. cbn [fst].
    match goal with |- context [scan ?g ?n ?a] => destruct (scan g n a) end. reflexivity.
  - intros k Hk. reflexivity.
Qed.
(** auxiliary definition of a statement or a proof; models no code of /repo *)
Definition fl_models (n : nat) : vtree := f_model (fl_inner (eps (n / steps)%nat) (fl_outer (n / steps)) (n mod steps)).
Lemma fl_models_ok i k : (k <= steps)%nat -> fl_models (i * steps + k) = f_model (fl_inner (eps i) (fl_outer i) k).
Proof.
  intros Hk. unfold fl_models. destruct (Nat.eq_dec k steps) as [->|Hne].
  - replace (i * steps + steps)%nat with (0 + S i * steps)%nat by lia. rewrite Nat.div_add, Nat.mod_add by lia. rewrite Nat.div_small, Nat.mod_small by lia. reflexivity.
  - rewrite (Nat.add_comm (i * steps)), Nat.div_add, Nat.mod_add by lia. rewrite Nat.div_small, Nat.mod_small by lia. reflexivity.
Qed.
Lemma sghmc_path its : exists x model p, sghmc_trajectory s normal get_data pot_model pot_grad steps mass friction data0 model0 x0 its eps x model p /\
  forall i, (i < its)%nat -> let st := iterates upd eps (sghmc_init Batch data0 model0 x0) (S i) in hmc_sample (f_pot st) (f_model st) (f_pos st) = sghmc_saved get_data pot_value steps data0 x model i.
Proof.
  exists (fun i k => f_pos (fl_inner (eps i) (fl_outer i) k)), fl_models, (fun i k => el (f_mom (fl_inner (eps i) (fl_outer i) k))).
  assert (INV : forall i k, like s (f_pos (fl_inner (eps i) (fl_outer i) k)) /\ like s (f_mom (fl_inner (eps i) (fl_outer i) k)) /\ f_data (fl_inner (eps i) (fl_outer i) k) = drawn get_data data0 (i * steps + k) /\
     f_key (fl_inner (eps i) (fl_outer i) k) = IntegratorSpec.chain (PRNGKey 0) (i * S steps + 1 + k)).
  { intros i k. destruct (fl_outer_inv i) as (I1 & I2 & I3 & I4). destruct (@fl_inner_inv (eps i) (fl_outer i) k I1 I2) as (J1 & J2 & J3 & J4). split; auto. split; auto. rewrite J3, J4, I3, I4, drawn_add, chain_add. split; f_equal. lia. }
  split; [split|].
  - split; [reflexivity|]. unfold fl_models. rewrite Nat.div_0_l, Nat.mod_0_l by lia. reflexivity.
  - intros i k _ _. apply INV.
  - intros i _. reflexivity.
  - intros i c _ Hc. destruct (fl_outer_inv i) as (I1 & I2 & I3 & I4). cbn [fl_inner fl_resampled f_mom]. destruct (@random_tree_ok s normal (Sub (f_key (fl_outer i)) 1) (f_mom (fl_outer i)) Hn I2) as (R1 & R2 & _).
    destruct (mass_fits Hx) as [F1 F2]. rewrite (el_mat Hs) by auto. rewrite mass_sqrt by auto. rewrite R2 by auto. now rewrite I4.
  - intros i k _ Hk n B. destruct (INV i k) as (I1 & I2 & I3 & I4).
    destruct (@fl_body_eq (eps i) (fl_inner (eps i) (fl_outer i) k) 0%nat I1 I2) as (J1 & J2 & J3 & J4 & J5 & J6 & J7).
    assert (EB : snd (get_data (f_data (fl_inner (eps i) (fl_outer i) k))) = B) by (rewrite I3; reflexivity). rewrite EB in *.
    unfold n. replace (S (i * steps + k)) with (i * steps + S k)%nat by lia. rewrite !fl_models_ok by lia. split; [exact J5|].
    intros c Hc. destruct (J7 c Hc) as [K1 K2]. split; [exact K1|]. rewrite <- I4. exact K2.
  - intros i Hi st. unfold st. rewrite fl_iterates. cbn [fl_outer]. unfold sghmc_saved. set (n := (S i * steps - 1)%nat).
    assert (E1 : S n = (i * steps + steps)%nat) by (unfold n; nia). assert (E2 : n = (i * steps + (steps - 1))%nat) by (unfold n; nia). rewrite E1. rewrite fl_models_ok by lia. rewrite E2. rewrite fl_models_ok by lia.
    destruct (INV i (steps - 1)%nat) as (I1 & I2 & I3 & I4). destruct (@fl_body_eq (eps i) (fl_inner (eps i) (fl_outer i) (steps - 1)) 0%nat I1 I2) as (_ & _ & _ & _ & _ & J6 & _).
    assert (ES : fl_inner (eps i) (fl_outer i) steps = fl_inner (eps i) (fl_outer i) (S (steps - 1))) by (f_equal; lia).
    f_equal. unfold batch_no. rewrite <- I3, ES. exact J6.
Qed.
End Sghmc.
End Proofs.

(** alias.obabo with accepted_samples = n: every chain follows the OBABO recursion, started at rest, with the advertised step sizes; the returned samples are those of n iterations after burn-in. *)
Theorem C63_obabo : forall s normal Data Batch (get_data : Data -> Data * Batch) pot_value pot_model pot_grad, wfv s -> normal_ok normal ->
  (forall t b m, like s t -> like s (pot_grad t b m)) -> (forall t b m, same_structure (pot_model t b m) m) ->
  forall Key (choice : Key -> list xr -> nat -> list nat) tk (z : arr -> arr), choice_ok choice ->
  forall steps friction mass model0, (0 < steps)%nat -> (forall m, mass = Some m -> like s m) ->
  forall a f l n its, al_first a = Fin f -> al_last a = Fin l -> al_adaptive a = None -> al_accepted a = Some n -> al_hot a = None -> 0 < l < f -> (2 <= its)%nat -> (al_burn_in a + n <= its)%nat ->
  exists eps, falling its f l eps /\
  forall h starts, Forall (fun xd => like s (fst xd)) starts ->
  exists results, snd (al_run choice tk a z (obabo_solver normal get_data pot_value pot_model pot_grad steps mass friction) (fst (run (mstep z) (mc_new false) h))
      (map (fun xd => obabo_init (snd xd) model0 (fst xd)) starts) its) = Some (Ok results) /\
    Forall2 (fun xd r => exists x model p r' h e L, obabo_trajectory s normal get_data pot_model pot_grad steps mass friction (snd xd) model0 (fst xd) its eps x model p r' h e /\
      length L = n /\ increasing L /\ (forall i, In i L -> (al_burn_in a <= i < its)%nat) /\
      fst r = n /\ exactly_samples (map (obabo_saved get_data pot_value steps (snd xd) x model) L) (snd r)) starts results.
Proof.
  intros s normal Data Batch get_data pv pm pg Hs Hn Hg Hm Key choice tk z Hc steps friction mass model0 Hst Hma a f l n its Hf Hl Ha Hacc Hhot H1 H2 H3.
  set (upd := fun e T st => fst (ob_integrate normal get_data pv pm pg steps friction mass e T None st)).
  set (get := fun st : ob_st Data vtree => hmc_sample (o_pot st) (o_model st) (o_pos st)).
  destruct (@plain_run _ upd get) with (choice := choice) (tk := tk) (z := z) (a := a) (f := f) (l := l) (n := n) (its := its) as (eps & HE & HR); auto.
  { intros e T st. apply ob_keeps; auto. }
  exists eps. split; auto. intros h starts Hx. destruct (HR h (map (fun xd => obabo_init (snd xd) model0 (fst xd)) starts)) as (rs & R1 & R2).
  exists rs. split; [exact R1|]. clear R1. revert rs R2. induction Hx as [|[x0 data0] starts Hx HF IH]; intros rs R2; inversion R2 as [|? r ? rs' R3 R4]; subst; constructor; auto.
  cbn [fst snd] in *. destruct R3 as (L & L1 & L2 & L3 & L4 & L5).
  destruct (@obabo_path s Hs normal Hn Data Batch get_data pv pm pg Hg Hm steps Hst mass Hma friction data0 model0 x0 Hx eps its) as (x & model & p & r' & h' & e & T1 & T2).
  exists x, model, p, r', h', e, L. split; auto. split; auto. split; auto. split; auto. split; auto.
  erewrite map_ext_in; [exact L5|]. intros i Hi. symmetry. apply T2. apply L3. exact Hi.
Qed.

(** alias.sghmc (without noise model) with accepted_samples = n: every chain follows the SGHMC recursion. *)
Theorem C63_sghmc : forall s normal Data Batch (get_data : Data -> Data * Batch) pot_value pot_model pot_grad, wfv s -> normal_ok normal ->
  (forall t b m, like s t -> like s (pot_grad t b m)) -> (forall t b m, same_structure (pot_model t b m) m) ->
  forall Key (choice : Key -> list xr -> nat -> list nat) tk (z : arr -> arr), choice_ok choice ->
  forall steps friction mass model0, (0 < steps)%nat -> (forall t, friction = FTree t -> like s t) -> (forall m, mass = Some m -> like s m) ->
  forall a f l n its, al_first a = Fin f -> al_last a = Fin l -> al_adaptive a = None -> al_accepted a = Some n -> al_hot a = None -> 0 < l < f -> (2 <= its)%nat -> (al_burn_in a + n <= its)%nat ->
  exists eps, falling its f l eps /\
  forall h starts, Forall (fun xd => like s (fst xd)) starts ->
  exists results, snd (al_run choice tk a z (sghmc_solver normal get_data pot_value pot_model pot_grad steps mass friction) (fst (run (mstep z) (mc_new false) h))
      (map (fun xd => sghmc_init Batch (snd xd) model0 (fst xd)) starts) its) = Some (Ok results) /\
    Forall2 (fun xd r => exists x model p L, sghmc_trajectory s normal get_data pot_model pot_grad steps mass friction (snd xd) model0 (fst xd) its eps x model p /\
      length L = n /\ increasing L /\ (forall i, In i L -> (al_burn_in a <= i < its)%nat) /\
      fst r = n /\ exactly_samples (map (sghmc_saved get_data pot_value steps (snd xd) x model) L) (snd r)) starts results.
Proof.
  intros s normal Data Batch get_data pv pm pg Hs Hn Hg Hm Key choice tk z Hc steps friction mass model0 Hst Hfr Hma a f l n its Hf Hl Ha Hacc Hhot H1 H2 H3.
  set (upd := fun e (T : R) st => fst (fl_integrate (Noise := unit) normal get_data pv pm pg steps friction mass None e None st)).
  set (get := fun st : fl_st Data vtree unit => hmc_sample (f_pot st) (f_model st) (f_pos st)).
  destruct (@plain_run _ upd get) with (choice := choice) (tk := tk) (z := z) (a := a) (f := f) (l := l) (n := n) (its := its) as (eps & HE & HR); auto.
  { intros e T st. apply fl_keeps; auto. }
  exists eps. split; auto. intros h starts Hx. destruct (HR h (map (fun xd => sghmc_init Batch (snd xd) model0 (fst xd)) starts)) as (rs & R1 & R2).
  exists rs. split; [exact R1|]. clear R1. revert rs R2. induction Hx as [|[x0 data0] starts Hx HF IH]; intros rs R2; inversion R2 as [|? r ? rs' R3 R4]; subst; constructor; auto.
  cbn [fst snd] in *. destruct R3 as (L & L1 & L2 & L3 & L4 & L5).
  destruct (@sghmc_path s Hs normal Hn Data Batch get_data pv pm pg Hg Hm steps Hst mass Hma friction Hfr data0 model0 x0 Hx eps its) as (x & model & p & T1 & T2).
  exists x, model, p, L. split; auto. split; auto. split; auto. split; auto. split; auto.
  erewrite map_ext_in; [exact L5|]. intros i Hi. symmetry. apply T2. apply L3. exact Hi.
Qed.
Print Assumptions C63_obabo.
Print Assumptions C63_sghmc.

(** The hypotheses are met: f(x) = 1/2 |x|^2, two chains, burn-in 1, three of five iterations of two leapfrog steps, with a mass (and a friction for every variable). *)
Example C63_nonvacuous : let s := tree_ab 0 0 in let a := mkAlias (Fin 0.5) (Fin 0.1) None 1 (Some 3%nat) true false None in
  let z := fun x => mkArr (ashape x) (map (fun _ => 0) (adata x)) in let starts := [(tree_ab 1 2, 0%nat); (tree_ab 3 4, 7%nat)] in
  (exists results, snd (al_run first_choice tt a z
      (obabo_solver (fun _ sh => repeat 0 (size sh)) (fun d : nat => (S d, d)) (fun x b m => tdot x x / 2) (fun x b m => m) (fun x b m => x) 2 (Some (tree_ab 1 4)) 1)
      (mc_new false) (map (fun xd => obabo_init (snd xd) (Leaf (mkArr [] [0])) (fst xd)) starts) 5) = Some (Ok results) /\
    Forall2 (fun (x0 : vtree * nat) (r : result arr) => fst r = 3%nat) starts results) /\
  (exists results, snd (al_run first_choice tt a z
      (sghmc_solver (fun _ sh => repeat 0 (size sh)) (fun d : nat => (S d, d)) (fun x b m => tdot x x / 2) (fun x b m => m) (fun x b m => x) 2 (Some (tree_ab 1 4)) (FTree (tree_ab 2 3)))
      (mc_new false) (map (fun xd => sghmc_init nat (snd xd) (Leaf (mkArr [] [0])) (fst xd)) starts) 5) = Some (Ok results) /\
    Forall2 (fun (x0 : vtree * nat) (r : result arr) => fst r = 3%nat) starts results).
Proof.
  intros s a z starts.
  assert (LK : forall u v, like s (tree_ab u v)) by (intros u v; split; [apply tree_ab_wf|split; reflexivity]).
  split.
  - destruct (@C63_obabo s (fun _ sh => repeat 0 (size sh)) nat nat (fun d => (S d, d)) (fun x b m => tdot x x / 2) (fun x b m => m) (fun x b m => x)) with
      (choice := first_choice) (tk := tt) (z := z) (steps := 2%nat) (friction := 1) (mass := Some (tree_ab 1 4)) (model0 := Leaf (mkArr [] [0]))
      (a := a) (f := 0.5) (l := 0.1) (n := 3%nat) (its := 5%nat) as (eps & _ & H); try reflexivity; try lra; try (cbn; lia); auto using tree_ab_wf, first_choice_ok.
    + apply tree_ab_wf.
    + intros k sh. apply repeat_length.
    + intros m [= <-]. apply LK.
    + destruct (H [] starts) as (rs & R1 & R2); [unfold starts; repeat constructor; apply LK|]. exists rs. split; [exact R1|].
      eapply Forall2_impl; [|exact R2]. intros x0 r (x & mo & p & r' & h' & e & L & _ & _ & _ & _ & E & _). exact E.
  - destruct (@C63_sghmc s (fun _ sh => repeat 0 (size sh)) nat nat (fun d => (S d, d)) (fun x b m => tdot x x / 2) (fun x b m => m) (fun x b m => x)) with
      (choice := first_choice) (tk := tt) (z := z) (steps := 2%nat) (friction := FTree (tree_ab 2 3)) (mass := Some (tree_ab 1 4)) (model0 := Leaf (mkArr [] [0]))
      (a := a) (f := 0.5) (l := 0.1) (n := 3%nat) (its := 5%nat) as (eps & _ & H); try reflexivity; try lra; try (cbn; lia); auto using tree_ab_wf, first_choice_ok.
    + apply tree_ab_wf.
    + intros k sh. apply repeat_length.
    + intros t [= <-]. apply LK.
    + intros m [= <-]. apply LK.
    + destruct (H [] starts) as (rs & R1 & R2); [unfold starts; repeat constructor; apply LK|]. exists rs. split; [exact R1|].
      eapply Forall2_impl; [|exact R2]. intros x0 r (x & mo & p & L & _ & _ & _ & _ & E & _). exact E.
Qed.
