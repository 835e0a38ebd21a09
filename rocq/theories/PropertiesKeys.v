(** C40, C52: random keys. *)
From Coq Require Import String Reals Lra Permutation.
From Verif Require Import Base Pytree PytreeSpec Io TreeUtil TreeUtilSpec TreeUtilProofs Xreal Scheduler Solver Mh
  Integrator IntegratorSpec IntegratorBasics LangevinProofs MhIntegrators KeyBasics KeySpec KeyRuns KeyProofs KeySolvers PropertiesIntegrator.
Open Scope R_scope.
Set Implicit Arguments.

Lemma disciplined_below_pi k k' l : disciplined k k' l -> pairwise_independent l /\ Forall (below k) l.
Proof. intros (_ & H & X). split; auto. apply PI_pairwise. now inversion X. Qed.
Lemma PI_tail a b : PI (a ++ b) -> pairwise_independent b.
Proof. intros H. apply PI_pairwise. apply PI_app in H. tauto. Qed.

(** ** C40 *)
Section C40.
Variables (Data Batch Model : Type).
Variable normal : key -> list nat -> list R.
Variable uniform : key -> R.
Variable get_data : Data -> Data * Batch.
Variable pot_value : vtree -> Batch -> Model -> R.
Variable pot_likelihoods : vtree -> Batch -> Model -> list R.
Variable pot_model : vtree -> Batch -> Model -> Model.
Variable pot_grad : vtree -> Batch -> Model -> vtree.

(** sgmc with langevin_diffusion: inputs are the step sizes and temperatures *)
Theorem C40_langevin_keys : forall Adapt adaption sample k (a : option Adapt) (data : Data) (model : Model) inputs,
  let keys := snd (run_log (fun st et => lv_update normal get_data pot_value pot_likelihoods pot_model pot_grad adaption (fst et) (snd et) st)
                           (lv_init sample (Some k) a data model) inputs) in
  pairwise_independent keys /\ Forall (below k) keys.
Proof.
  intros. eapply disciplined_below_pi. unfold keys.
  apply (@run_disciplined _ _ (@l_key Data Model Adapt)) with (s := lv_init sample (Some k) a data model). intros; apply lv_disciplined.
Qed.
(** sgmc with obabo: inputs are step sizes, temperatures and masses *)
Theorem C40_obabo_keys : forall steps friction const_mass sample k (data : Data) (model : Model) inputs,
  let keys := snd (run_log (fun st etm => ob_integrate normal get_data pot_value pot_model pot_grad steps friction const_mass (fst (fst etm)) (snd (fst etm)) (snd etm) st)
                           (ob_init sample (Some k) data model) inputs) in
  pairwise_independent keys /\ Forall (below k) keys.
Proof.
  intros. eapply disciplined_below_pi. unfold keys.
  apply (@run_disciplined _ _ (@o_key Data Model)) with (s := ob_init sample (Some k) data model). intros; apply ob_disciplined.
Qed.
(** sgmc with friction_leapfrog (momentum resampling at the start of every trajectory and noise in every step) *)
Theorem C40_friction_leapfrog_keys : forall Noise steps friction const_mass noise_model sample k (data : Data) (model : Model) inputs,
  let keys := snd (run_log (fun st em => @fl_integrate normal Data Batch Model get_data pot_value pot_model pot_grad Noise steps friction const_mass noise_model (fst em) (snd em) st)
                           (fl_init noise_model sample (Some k) data model) inputs) in
  pairwise_independent keys /\ Forall (below k) keys.
Proof.
  intros. eapply disciplined_below_pi. unfold keys.
  apply (@run_disciplined _ _ (@f_key Data Model Noise)) with (s := fl_init noise_model sample (Some k) data model). intros; apply fl_disciplined.
Qed.
(** reversible_leapfrog: initial momentum and noise of all steps *)
Theorem C40_reversible_leapfrog_keys : forall steps friction const_mass sample k (data : Data) (model : Model) mass inputs,
  let init := rl_init normal const_mass sample (Some k) data model mass in
  let keys := snd init ++ snd (run_log (fun st em => rl_integrate normal get_data pot_model pot_grad steps friction const_mass (fst em) (snd em) st) (fst init) inputs) in
  pairwise_independent keys /\ Forall (below k) keys.
Proof.
  intros. eapply disciplined_below_pi. eapply disciplined_trans; [apply rl_init_disciplined|].
  apply (@run_disciplined _ _ (@r_key Data Model)) with (s := fst init). intros; apply rl_disciplined.
Qed.

Variables (steps : nat) (friction : R) (const_mass : option vtree).
Variables (Full MassState : Type).
Variable full_potential : vtree -> Full -> Model -> xr * (Full * Model).
Variable init_full : Full.
Variable mass_adaption : option ((vtree -> MassState) * (MassState -> vtree -> MassState) * (MassState -> mass_matrix)).
(** amagold: initial momentum, noise of all steps of all proposals, acceptance tests *)
Theorem C40_amagold_keys : forall data sample k model schedules,
  let init := amagold_init normal const_mass full_potential init_full mass_adaption data sample k model in
  pairwise_independent (snd init ++
    snd (run_log (amagold_step normal uniform get_data pot_model pot_grad steps friction const_mass full_potential mass_adaption) (fst init) schedules)).
Proof.
  intros. eapply PI_tail. apply run_inv with (roots := @am_roots Data Model Full MassState); [intros; now apply am_step_inv|apply am_init_inv].
Qed.
(** sggmc: momentum resampling, acceptance tests *)
Theorem C40_sggmc_keys : forall data sample k model schedules,
  pairwise_independent (snd (run_log (sggmc_step normal uniform get_data pot_value pot_model pot_grad steps friction const_mass full_potential mass_adaption)
     (sggmc_init full_potential init_full mass_adaption data sample k model) schedules)).
Proof.
  intros. eapply PI_tail. apply run_inv with (roots := @sg_roots Data Model Full MassState) (l := []); [intros; now apply sg_step_inv|apply sg_init_inv].
Qed.
(** parallel_tempering: noise of both chains, swaps *)
Theorem C40_parallel_tempering_keys : forall variance potential sa_schedule data model s1 s2 ssq F k schedules,
  pairwise_independent (snd (run_log (pt_step_log normal uniform get_data pot_value pot_likelihoods pot_model pot_grad variance potential sa_schedule)
     (pt_lang_init data model s1 s2 ssq F k) schedules)).
Proof.
  intros. eapply PI_tail. apply run_inv with (roots := @pt_roots Data Model) (l := []); [intros; now apply pt_step_inv|apply pt_init_inv].
Qed.

(** the logs are complete: a run only depends on the random numbers of the logged keys *)
Definition agree_on (l : list key) (n1 n2 : key -> list nat -> list R) (u1 u2 : key -> R) : Prop :=
  forall k, In k l -> (forall sh, n1 k sh = n2 k sh) /\ u1 k = u2 k.
Lemma agree_Q l n1 n2 u1 u2 : agree_on l n1 n2 u1 u2 -> Forall (fun k => (forall sh, n1 k sh = n2 k sh) /\ u1 k = u2 k) l.
Proof. intros H. apply Forall_forall. exact H. Qed.
Lemma agree_P l n1 n2 u1 u2 : agree_on l n1 n2 u1 u2 -> Forall (fun k => forall sh, n1 k sh = n2 k sh) l.
Proof. intros H. apply Forall_forall. intros. now apply H. Qed.

Variable normal' : key -> list nat -> list R.
Variable uniform' : key -> R.
Theorem C40_langevin_log_complete : forall Adapt adaption (st : lv_st Data Model Adapt) inputs,
  let step n := fun st et => lv_update n get_data pot_value pot_likelihoods pot_model pot_grad adaption (fst et) (snd et) st in
  agree_on (snd (run_log (step normal) st inputs)) normal normal' uniform uniform' ->
  run_log (step normal) st inputs = run_log (step normal') st inputs.
Proof. intros Adapt adaption st inputs step H. apply run_agree with (P := fun k => forall sh, normal k sh = normal' k sh); [intros; now apply lv_agree|now apply agree_P in H]. Qed.
Theorem C40_obabo_log_complete : forall st inputs,
  let step n := fun st etm => ob_integrate n get_data pot_value pot_model pot_grad steps friction const_mass (fst (fst etm)) (snd (fst etm)) (snd etm) st in
  agree_on (snd (run_log (step normal) st inputs)) normal normal' uniform uniform' ->
  run_log (step normal) st inputs = run_log (step normal') st inputs.
Proof. intros st inputs step H. apply run_agree with (P := fun k => forall sh, normal k sh = normal' k sh); [intros; now apply ob_agree|now apply agree_P in H]. Qed.
Theorem C40_friction_leapfrog_log_complete : forall Noise fr noise_model (st : fl_st Data Model Noise) inputs,
  let step n := fun st em => @fl_integrate n Data Batch Model get_data pot_value pot_model pot_grad Noise steps fr const_mass noise_model (fst em) (snd em) st in
  agree_on (snd (run_log (step normal) st inputs)) normal normal' uniform uniform' ->
  run_log (step normal) st inputs = run_log (step normal') st inputs.
Proof. intros Noise fr nm st inputs step H. apply run_agree with (P := fun k => forall sh, normal k sh = normal' k sh); [intros; now apply fl_agree|now apply agree_P in H]. Qed.
Theorem C40_reversible_leapfrog_log_complete : forall st inputs,
  let step n := fun st em => rl_integrate n get_data pot_model pot_grad steps friction const_mass (fst em) (snd em) st in
  agree_on (snd (run_log (step normal) st inputs)) normal normal' uniform uniform' ->
  run_log (step normal) st inputs = run_log (step normal') st inputs.
Proof. intros st inputs step H. apply run_agree with (P := fun k => forall sh, normal k sh = normal' k sh); [intros; now apply rl_agree|now apply agree_P in H]. Qed.
Theorem C40_amagold_log_complete : forall data sample k model schedules,
  let init n := amagold_init n const_mass full_potential init_full mass_adaption data sample k model in
  let step n u := amagold_step n u get_data pot_model pot_grad steps friction const_mass full_potential mass_adaption in
  agree_on (snd (init normal) ++ snd (run_log (step normal uniform) (fst (init normal)) schedules)) normal normal' uniform uniform' ->
  init normal = init normal' /\ run_log (step normal uniform) (fst (init normal)) schedules = run_log (step normal' uniform') (fst (init normal')) schedules.
Proof.
  intros data sample k model schedules init step H. assert (E : init normal = init normal').
  { apply am_init_agree. assert (H' : agree_on (snd (init normal)) normal normal' uniform uniform') by (intros x Hx; apply H, in_or_app; auto). now apply agree_P in H'. }
  split; auto. rewrite <- E. apply run_agree with (P := fun k => (forall sh, normal k sh = normal' k sh) /\ uniform k = uniform' k); [intros; now apply am_step_agree|].
  apply agree_Q. intros x Hx; apply H, in_or_app; auto.
Qed.
Theorem C40_sggmc_log_complete : forall st schedules,
  let step n u := @sggmc_step Data Batch Model n u get_data pot_value pot_model pot_grad steps friction const_mass Full MassState full_potential mass_adaption in
  agree_on (snd (run_log (step normal uniform) st schedules)) normal normal' uniform uniform' ->
  run_log (step normal uniform) st schedules = run_log (step normal' uniform') st schedules.
Proof. intros st schedules step H. apply run_agree with (P := fun k => (forall sh, normal k sh = normal' k sh) /\ uniform k = uniform' k); [intros; now apply sg_step_agree|now apply agree_Q]. Qed.
Theorem C40_parallel_tempering_log_complete : forall variance potential sa_schedule st schedules,
  let step n u := pt_step_log n u get_data pot_value pot_likelihoods pot_model pot_grad variance potential sa_schedule in
  agree_on (snd (run_log (step normal uniform) st schedules)) normal normal' uniform uniform' ->
  run_log (step normal uniform) st schedules = run_log (step normal' uniform') st schedules.
Proof. intros v p sa st schedules step H. apply run_agree with (P := fun k => (forall sh, normal k sh = normal' k sh) /\ uniform k = uniform' k); [intros; now apply pt_step_agree|now apply agree_Q]. Qed.
End C40.

(** Keys of the data selection on the device and of the thinning *)
Section Device.
Variables (obs Model Adapt : Type).
Variable data : list (String.string * list obs).
Variables N mb : nat.
Variable randint : key -> nat -> nat -> list nat.
Variable normal : key -> list nat -> list R.
Variable pot_value : vtree -> list (String.string * list obs) -> Model -> R.
Variable pot_likelihoods : vtree -> list (String.string * list obs) -> Model -> list R.
Variable pot_model : vtree -> list (String.string * list obs) -> Model -> Model.
Variable pot_grad : vtree -> list (String.string * list obs) -> Model -> vtree.
Variable adaption : option ((Adapt -> vtree -> vtree -> list (String.string * list obs) -> Adapt) * (Adapt -> vtree -> vtree -> list (String.string * list obs) -> manifold)).
Notation step := (sgld_device_step data N mb randint normal pot_value pot_likelihoods pot_model pot_grad adaption).
Lemma device_get_data_key k : fst (device_get_data data N mb randint k) = Sub k 0.
Proof. unfold device_get_data, DeviceData.dev_random_batch. cbn [split2]. destruct (DeviceData.tree_take _ _); reflexivity. Qed.
Lemma device_step_data st et : l_data (fst (step st et)) = Sub (l_data st) 0.
Proof.
  unfold sgld_device_step, lv_update. rewrite <- (device_get_data_key (l_data st)). destruct (device_get_data _ _ _ _ _) as [d b]. destruct (random_tree _ _ _).
  destruct adaption as [[u g]|], (l_adapt st); reflexivity.
Qed.
(** explicit independent keys for the integrator and the loader: the batch selections are independent from the noise *)
Theorem C40_device_loader_keys : forall sample k kd a model inputs, independent k kd ->
  pairwise_independent (snd (run_log step (sgld_device_init sample (Some k) (Some kd) a model) inputs)).
Proof.
  intros sample k kd a model inputs H. eapply PI_tail.
  apply run_inv with (roots := fun st => [l_key st; l_data st]) (l := []); [|cbn; apply FOP_cons; [apply Forall_cons; [exact H|apply Forall_nil]|apply FOP_cons; [apply Forall_nil|apply FOP_nil]]].
  intros st et l HP. pose proof (lv_disciplined normal (device_get_data data N mb randint) pot_value pot_likelihoods pot_model pot_grad adaption (fst et) (snd et) st) as D.
  pose proof (advance2 HP D) as X. pose proof (device_step_data st et) as E. unfold sgld_device_step in *. destruct (lv_update _ _ _ _ _ _ _ _ _ st) as [st' l']. cbn [fst snd app split2] in *. rewrite E. exact X.
Qed.
(** with the default keys the key that selects the batch of an iteration is the parent of all noise keys of that iteration *)
Theorem C40_default_keys_refuted : forall sample a model et inputs, leaves sample <> [] ->
  ~ pairwise_independent (snd (run_log step (sgld_device_init sample None None a model) (et :: inputs))).
Proof.
  intros sample a model et inputs Hl H. cbn [run_log] in H.
  assert (E : exists rest, snd (step (sgld_device_init sample None None a model) et) = Sub (Sub (PRNGKey 0) 1) 0 :: rest ++ [Sub (PRNGKey 0) 1]).
  { pose proof (random_tree_keys normal (Sub (PRNGKey 0) 1) sample) as K. unfold sgld_device_step, sgld_device_init, lv_init, lv_update. cbn [l_key l_data l_pos l_adapt l_model].
    destruct (device_get_data _ _ _ _ _) as [d b]. destruct (random_tree normal (Sub (PRNGKey 0) 1) sample) as [noise used]. cbn [snd] in K.
    destruct (leaves sample) as [|x r] eqn:Es; [congruence|]. cbn in K.
    destruct adaption as [[u g]|], a; cbn [fst snd split2]; rewrite K; eexists; reflexivity. }
  destruct E as [rest E]. destruct (step _ et) as [s1 l1]. cbn [snd] in E. subst l1. destruct (run_log _ s1 inputs) as [s2 l2]. cbn [snd] in H.
  destruct (H O (S (length rest)) (Sub (Sub (PRNGKey 0) 1) 0) (Sub (PRNGKey 0) 1)) as [_ X]; auto.
  - cbn [app nth_error]. rewrite nth_error_app1 by (rewrite app_length; cbn; lia). rewrite nth_error_app2 by lia. now rewrite Nat.sub_diag.
  - apply X. auto with keys.
Qed.
End Device.
(** the default key of random_thinning is an ancestor of every random number of a run with the default key *)
Theorem C40_thinning_key_refuted : forall Data Batch Model Adapt normal get_data pot_value pot_likelihoods pot_model pot_grad adaption sample (a : option Adapt) (data : Data) (model : Model) inputs x,
  In x (snd (run_log (fun st et => @lv_update normal Data Batch Model get_data pot_value pot_likelihoods pot_model pot_grad Adapt adaption (fst et) (snd et) st)
                     (lv_init sample None a data model) inputs)) ->
  ~ independent (thinning_key None) x.
Proof.
  intros. intros [Hi _]. apply Hi. destruct (@C40_langevin_keys Data Batch Model normal get_data pot_value pot_likelihoods pot_model pot_grad Adapt adaption sample (PRNGKey 0) a data model inputs) as [_ B].
  rewrite Forall_forall in B. apply B. exact H.
Qed.
(** the hypotheses are met: explicit keys; a run that uses keys *)
Example C40_device_nonvacuous : independent (PRNGKey 0) (PRNGKey 1).
Proof. split; intros H; inversion H. Qed.
Example C40_keys_nonvacuous : forall (normal : key -> list nat -> list R),
  snd (run_log (fun st et => lv_update normal (fun d : unit => (d, tt)) (fun _ _ _ => 0) (fun _ _ _ => []) (fun _ _ m => m) (fun t _ _ => t)
                               (@None ((unit -> vtree -> vtree -> unit -> unit) * (unit -> vtree -> vtree -> unit -> manifold))) (fst et) (snd et) st)
               (lv_init (tree_ab 1 2) (Some (PRNGKey 3)) None tt tt) [(1, 1); (1, 1)])
  = [Sub (Sub (PRNGKey 3) 1) 0; Sub (Sub (PRNGKey 3) 1) 1; Sub (Sub (Sub (PRNGKey 3) 0) 1) 0; Sub (Sub (Sub (PRNGKey 3) 0) 1) 1].
Proof. intros. cbn. reflexivity. Qed.

(** ** C52 *)
Section C52.
Variable s : vtree.
Hypothesis Hs : wfv s.
Variable normal : key -> list nat -> list R.
Hypothesis Hn : normal_ok normal.
Variables (Data Batch Model : Type).
Variable get_data : Data -> Data * Batch.
Variable pot_value : vtree -> Batch -> Model -> R.
Variable pot_likelihoods : vtree -> Batch -> Model -> list R.
Variable pot_model : vtree -> Batch -> Model -> Model.
Variable pot_grad : vtree -> Batch -> Model -> vtree.
Hypothesis Hg : forall t b m, like s t -> like s (pot_grad t b m).
Notation upd := (fun (st : lv_st Data Model unit) (et : R * R) => lv_update normal get_data pot_value pot_likelihoods pot_model pot_grad (@None _) (fst et) (snd et) st).
(** a chain of alias.sgld (alias.py:110-119): no key is given to the init function *)
Definition sgld_chain (sample : vtree) (data : Data) (model : Model) : lv_st Data Model unit := lv_init sample None None data model.

Lemma run_like k inputs : forall (st : lv_st Data Model unit) n, like s (l_pos st) -> l_key st = chain k n ->
  like s (l_pos (fst (run_log upd st inputs))) /\ l_key (fst (run_log upd st inputs)) = chain k (length inputs + n).
Proof.
  induction inputs as [|et r IH]; intros st n Hp Hk; cbn [run_log fst length]; [auto|].
  pose proof (@C37_sgld_step s Hs normal Hn Data Batch Model unit get_data pot_value pot_likelihoods pot_model pot_grad Hg (fst et) (snd et) st Hp) as H1.
  destruct (get_data (l_data st)) as [d b] eqn:Ed. destruct H1 as [H1 _].
  assert (H3 : l_key (fst (upd st et)) = Sub (l_key st) 0).
  { cbv beta. unfold lv_update. rewrite Ed. destruct (random_tree _ _ _). reflexivity. }
  cbv beta in H3. destruct (lv_update _ _ _ _ _ _ _ _ _ st) as [st' l'] eqn:E. cbn [fst] in H1, H3.
  specialize (IH st' (S n) H1). rewrite H3, Hk in IH. specialize (IH eq_refl). rewrite Nat.add_succ_r in IH.
  destruct (run_log _ st' r) as [s2 l2]. cbn [fst] in *. exact IH.
Qed.
(** every chain started by an alias solver adds the same noise: z does not depend on the sample, the data or the model state *)
Theorem C52_same_noise_refuted : exists z : nat -> nat -> R, forall sample data model inputs eps T, like s sample ->
  let st := fst (run_log upd (sgld_chain sample data model) inputs) in
  let b := snd (get_data (l_data st)) in
  forall i, (i < dim s)%nat ->
  el (l_pos (fst (lv_update normal get_data pot_value pot_likelihoods pot_model pot_grad (@None _) eps T st))) i
  = el (l_pos st) i - eps * el (pot_grad (l_pos st) b (l_model st)) i + sqrt (2 * T * eps) * z (length inputs) i.
Proof.
  exists (fun n i => xi normal (Sub (chain (PRNGKey 0) n) 1) s i). intros sample data model inputs eps T Hl st b i Hi.
  destruct (@run_like (PRNGKey 0) inputs (sgld_chain sample data model) O Hl eq_refl) as [H1 H2]. fold st in H1, H2. rewrite Nat.add_0_r in H2.
  pose proof (@C37_sgld_step s Hs normal Hn Data Batch Model unit get_data pot_value pot_likelihoods pot_model pot_grad Hg eps T st H1) as H.
  unfold b. destruct (get_data (l_data st)) as [d b']. cbn [snd]. destruct H as (_ & H & _). rewrite H by auto. now rewrite H2.
Qed.
(** chains that start at the same sample with the same state of the data, as with a DeviceNumpyDataLoader, are identical *)
Theorem C52_identical_chains_refuted : forall sample model (samples : list vtree) (data : Data), (forall x, In x samples -> x = sample) ->
  forall inputs, Forall (fun st => run_log upd st inputs = run_log upd (sgld_chain sample data model) inputs) (map (fun x => sgld_chain x data model) samples).
Proof.
  intros sample model samples data H inputs. apply Forall_forall. intros st Hst. apply in_map_iff in Hst. destruct Hst as (x & <- & Hx). now rewrite (H x Hx).
Qed.
End C52.
(** if the user initialises the chains of a solver with independent keys, all their random numbers are independent *)
Theorem C52_explicit_keys_partial : forall Data Batch Model Adapt normal get_data pot_value pot_likelihoods pot_model pot_grad adaption
    (chains : list (vtree * key * option Adapt * Data * Model)) inputs,
  pairwise_independent (map (fun c => snd (fst (fst (fst c)))) chains) ->
  pairwise_independent (flat_map (fun c => let '(sample, k, a, data, model) := c in
     snd (run_log (fun st et => @lv_update normal Data Batch Model get_data pot_value pot_likelihoods pot_model pot_grad Adapt adaption (fst et) (snd et) st)
                  (lv_init sample (Some k) a data model) inputs)) chains).
Proof.
  intros Data Batch Model Adapt normal get_data pot_value pot_likelihoods pot_model pot_grad adaption chains inputs H.
  set (f := fun c : vtree * key * option Adapt * Data * Model => _). apply PI_pairwise.
  assert (HP : forall c, PI (f c) /\ Forall (below (snd (fst (fst (fst c))))) (f c)).
  { intros [[[[sample k] a] data] model]. cbn [fst snd f].
    assert (D : disciplined k (l_key (fst (run_log (fun st et => lv_update normal get_data pot_value pot_likelihoods pot_model pot_grad adaption (fst et) (snd et) st) (lv_init sample (Some k) a data model) inputs))) (f (sample, k, a, data, model))).
    { apply (@run_disciplined _ _ (@l_key Data Model Adapt)) with (s := lv_init sample (Some k) a data model). intros; apply lv_disciplined. }
    destruct D as (_ & D2 & D3). split; [now inversion D3|exact D2]. }
  clearbody f. induction chains as [|c r IH]; cbn [flat_map]; [constructor|]. apply PI_app. split; [apply HP|split].
  - apply IH. intros i j x y N Hi Hj. apply (H (S i) (S j)); auto.
  - intros x y Hx Hy. apply in_flat_map in Hy. destruct Hy as (c' & Hc' & Hy). destruct (HP c) as [_ B1], (HP c') as [_ B2]. rewrite Forall_forall in B1, B2.
    apply In_nth_error in Hc'. destruct Hc' as [j Hj].
    eapply independent_below2; [|apply B1; exact Hx|apply B2; exact Hy]. apply (H O (S j)); auto. cbn. rewrite nth_error_map, Hj. reflexivity.
Qed.
Example C52_nonvacuous : pairwise_independent [PRNGKey 0; PRNGKey 1; Sub (PRNGKey 2) 0].
Proof. apply PI_pairwise. repeat constructor; intros H; inversion H; subst; try discriminate; match goal with X : below _ (PRNGKey _) |- _ => inversion X end. Qed.
