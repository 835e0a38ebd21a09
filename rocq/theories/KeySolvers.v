From Coq Require Import Reals Permutation.
From Verif Require Import Base ListUtil Pytree Io TreeUtil Xreal Scheduler Solver Integrator Mh MhIntegrators KeyBasics KeySpec KeyRuns KeyProofs.
Open Scope nat_scope.
Set Implicit Arguments.

Lemma run_inv {S A} (roots : S -> list key) (f : S -> A -> S * list key) inputs : forall s l,
  (forall s a l, PI (roots s ++ l) -> PI (roots (fst (f s a)) ++ l ++ snd (f s a))) ->
  PI (roots s ++ l) -> PI (roots (fst (run_log f s inputs)) ++ l ++ snd (run_log f s inputs)).
Proof.
  induction inputs as [|a r IH]; intros s l H H0; cbn [run_log]; [cbn [fst snd]; now rewrite app_nil_r|].
  pose proof (H s a _ H0) as Hs. destruct (f s a) as [s1 l1]. cbn [fst snd] in Hs. specialize (IH s1 _ H Hs). destruct (run_log f s1 r) as [s2 l2]. cbn [fst snd] in *.
  now rewrite <- app_assoc in IH.
Qed.
(** two roots: one advances with the keys l1, the other by a single split whose sibling is used *)
Lemma advance2 a b a' l1 l : PI (a :: b :: l) -> disciplined a a' l1 -> PI (a' :: Sub b 0 :: l ++ l1 ++ [Sub b 1]).
Proof.
  intros H D. pose proof (advance H D) as X.
  assert (X' : PI (b :: a' :: l1 ++ l)).
  { eapply PI_perm; [|exact X]. eapply perm_trans; [|apply perm_swap]. constructor. symmetry. apply Permutation_cons_app. reflexivity. }
  assert (Db : disciplined b (Sub b 0) [Sub b 1]) by (apply disciplined_one; repeat constructor).
  pose proof (advance X' Db) as Y. eapply PI_perm; [|exact Y]. cbn [app].
  eapply perm_trans; [apply perm_skip, perm_swap|]. eapply perm_trans; [apply perm_swap|]. do 2 constructor.
  rewrite app_assoc. eapply perm_trans; [apply Permutation_cons_append|]. apply Permutation_app_tail, Permutation_app_comm.
Qed.

Section S.
Variables (Data Batch Model : Type).
Variable normal : key -> list nat -> list R.
Variable uniform : key -> R.
Variable get_data : Data -> Data * Batch.
Variable pot_value : vtree -> Batch -> Model -> R.
Variable pot_likelihoods : vtree -> Batch -> Model -> list R.
Variable pot_model : vtree -> Batch -> Model -> Model.
Variable pot_grad : vtree -> Batch -> Model -> vtree.
Variables (steps : nat) (friction : R) (const_mass : option vtree).
Variables (Full MassState : Type).
Variable full_potential : vtree -> Full -> Model -> xr * (Full * Model).
Variable init_full : Full.
Variable mass_adaption : option ((vtree -> MassState) * (MassState -> vtree -> MassState) * (MassState -> mass_matrix)).

Notation am := (am_state key vtree vtree Model Data Full MassState).
Notation am_step := (amagold_step normal uniform get_data pot_model pot_grad steps friction const_mass full_potential mass_adaption).
Lemma leapfrog_disciplined (l : lf_state key vtree vtree Model Data) sch m :
  disciplined (lf_key l) (lf_key (leapfrog_update normal get_data pot_model pot_grad steps friction const_mass l sch m))
    (leapfrog_keys normal get_data pot_model pot_grad steps friction const_mass l sch m).
Proof.
  unfold leapfrog_update, leapfrog_keys. destruct (sch_step sch); try apply disciplined_refl. cbn [lf_key lf_of].
  change (lf_key l) with (r_key (rl_of l)). apply rl_disciplined.
Qed.
(** specification, no code of /repo: the keys in an AMAGOLDState (solver.py:27-44) *)
Definition am_roots (st : am) : list key := [lf_key (am_integrator st); am_key st].
Lemma am_step_inv (st : am) sch l : PI (am_roots st ++ l) -> PI (am_roots (fst (am_step st sch)) ++ l ++ snd (am_step st sch)).
Proof.
  intros H. unfold amagold_step, am_update. cbn [split2 snd].
  pose proof (leapfrog_disciplined (am_integrator st) sch (mass_get mass_adaption (am_mass st))) as D.
  pose proof (advance2 H D) as X. clear D.
  set (p := leapfrog_update normal get_data pot_model pot_grad steps friction const_mass (am_integrator st) sch (mass_get mass_adaption (am_mass st))) in *.
  destruct (full_potential _ _ _) as [new [full model']]. destruct (xltb _ _); cbn [fst snd am_integrator am_key lf_key am_roots app]; exact X.
Qed.
Lemma am_init_inv (data : Data) sample k model :
  let r := amagold_init normal const_mass full_potential init_full mass_adaption data sample k model in
  PI (am_roots (fst r) ++ snd r).
Proof.
  unfold amagold_init, am_init. cbn [split2 fst]. destruct (full_potential _ _ _) as [u [full model']]. cbn [fst snd am_roots am_integrator am_key app].
  unfold leapfrog_init. cbn [lf_of lf_key].
  pose proof (rl_init_disciplined normal const_mass sample (Sub k 0) data model' (mass_get mass_adaption (mass_init mass_adaption sample))) as D.
  assert (H : PI [Sub k 0; Sub k 1]) by (repeat constructor; apply independent_siblings; discriminate).
  pose proof (advance H D) as X. eapply PI_perm; [|exact X]. constructor. symmetry. apply Permutation_cons_append.
Qed.

Notation sg := (sg_state key vtree vtree Model Data Full MassState).
Notation sg_step := (sggmc_step normal uniform get_data pot_value pot_model pot_grad steps friction const_mass full_potential mass_adaption).
Lemma obabo_disciplined (b : ob_state key vtree vtree Model Data) sch m :
  disciplined (ob_key b) (ob_key (obabo_update normal get_data pot_value pot_model pot_grad steps friction const_mass b sch m))
    (obabo_keys normal get_data pot_value pot_model pot_grad steps friction const_mass b sch m).
Proof.
  unfold obabo_update, obabo_keys. destruct (sch_step sch), (sch_temperature sch); try apply disciplined_refl. cbn [ob_key ob_of].
  change (ob_key b) with (o_key (st_of b)). apply ob_disciplined.
Qed.
(** specification, no code of /repo: the keys in an SGGMCState (solver.py:46-63) *)
Definition sg_roots (st : sg) : list key := [ob_key (sg_integrator st); sg_key st].
Lemma sg_step_inv (st : sg) sch l : PI (sg_roots st ++ l) -> PI (sg_roots (fst (sg_step st sch)) ++ l ++ snd (sg_step st sch)).
Proof.
  intros H. unfold sggmc_step, sg_update. cbn [split2 snd].
  pose proof (obabo_disciplined (sg_integrator st) sch (mass_get mass_adaption (sg_mass st))) as D.
  pose proof (advance2 H D) as X. clear D.
  set (p := obabo_update normal get_data pot_value pot_model pot_grad steps friction const_mass (sg_integrator st) sch (mass_get mass_adaption (sg_mass st))) in *.
  destruct (full_potential _ _ _) as [new [full model']]. destruct (xltb _ _); cbn [fst snd sg_integrator sg_key ob_key sg_roots app]; exact X.
Qed.
Lemma sg_init_inv (data : Data) sample k model : PI (sg_roots (sggmc_init full_potential init_full mass_adaption data sample k model) ++ []).
Proof.
  unfold sggmc_init, sg_init. cbn [split2]. destruct (full_potential _ _ _) as [u [full model']]. cbn [sg_roots sg_integrator sg_key app].
  unfold obabo_init. cbn. repeat constructor; apply independent_siblings; discriminate.
Qed.

Notation lst := (lv_st Data Model unit).
Variables (variance potential : lst -> xr) (sa_schedule : nat -> xr).
Notation pstep := (pt_step_log normal uniform get_data pot_value pot_likelihoods pot_model pot_grad variance potential sa_schedule).
(** specification, no code of /repo: the keys in the state of parallel tempering (solver.py:259) *)
Definition pt_roots (st : pt_state key lst) : list key := [l_key (pt_normal st); l_key (pt_hot st); pt_key st].
Lemma pt_step_inv st schs l : PI (pt_roots st ++ l) -> PI (pt_roots (fst (pstep st schs)) ++ l ++ snd (pstep st schs)).
Proof.
  intros H. unfold pt_step_log, pt_update. cbn [split2 snd fst].
  pose proof (langevin_step_disciplined normal get_data pot_value pot_likelihoods pot_model pot_grad (@None _) (pt_normal st) (fst schs)) as D1.
  pose proof (langevin_step_disciplined normal get_data pot_value pot_likelihoods pot_model pot_grad (@None _) (pt_hot st) (snd schs)) as D2.
  change (fst (langevin_step normal get_data pot_value pot_likelihoods pot_model pot_grad (@None _) (pt_normal st) (fst schs)))
    with (pt_lang_update normal get_data pot_value pot_likelihoods pot_model pot_grad (pt_normal st) (fst schs)) in D1.
  change (fst (langevin_step normal get_data pot_value pot_likelihoods pot_model pot_grad (@None _) (pt_hot st) (snd schs)))
    with (pt_lang_update normal get_data pot_value pot_likelihoods pot_model pot_grad (pt_hot st) (snd schs)) in D2.
  set (n1 := pt_lang_update _ _ _ _ _ _ (pt_normal st) _) in *. set (h1 := pt_lang_update _ _ _ _ _ _ (pt_hot st) _) in *.
  set (L1 := snd (langevin_step _ _ _ _ _ _ _ (pt_normal st) _)) in *. set (L2 := snd (langevin_step _ _ _ _ _ _ _ (pt_hot st) _)) in *.
  unfold pt_roots in H. cbn [app] in H.
  pose proof (advance H D1) as X1.
  assert (X1' : PI (l_key (pt_hot st) :: pt_key st :: (l_key n1 :: l ++ L1))).
  { eapply PI_perm; [|exact X1]. eapply perm_trans; [|apply perm_skip, perm_swap]. eapply perm_trans; [|apply perm_swap]. constructor.
    eapply perm_trans; [apply Permutation_app_comm|]. reflexivity. }
  pose proof (advance2 X1' D2) as Y.
  assert (Z : PI (l_key n1 :: l_key h1 :: Sub (pt_key st) 0 :: l ++ L1 ++ L2 ++ [Sub (pt_key st) 1])).
  { cbn [app] in Y. rewrite <- app_assoc in Y. eapply PI_perm; [|exact Y]. eapply perm_trans; [apply perm_skip, perm_swap|]. apply perm_swap. }
  destruct (xltb _ _); cbn [fst snd pt_roots pt_normal pt_hot pt_key app]; [exact Z|]. eapply PI_perm; [apply perm_swap|exact Z].
Qed.
Lemma pt_init_inv data model s1 s2 ssq F k : PI (pt_roots (pt_lang_init data model s1 s2 ssq F k) ++ []).
Proof. cbn. repeat constructor; apply independent_siblings; discriminate. Qed.
End S.

(** ** the logs are complete: only the random numbers of the logged keys matter *)
Lemma scan_agree {S} (P : key -> Prop) (f1 f2 : S -> nat -> S * list key) n s :
  (forall s i, Forall P (snd (f1 s i)) -> f1 s i = f2 s i) -> Forall P (snd (scan f1 n s)) -> scan f1 n s = scan f2 n s.
Proof.
  intros H. unfold scan. generalize 0. revert s. induction n as [|n IH]; intros s i F; cbn [seq fold_left fst snd] in *; [reflexivity|].
  pose proof (H s i) as Hs. destruct (f1 s i) as [s' l']. cbn [fst snd] in Hs. rewrite scan_from in F. cbn [snd app] in F. apply Forall_app in F. destruct F as [F1 F2].
  rewrite <- (Hs F1). rewrite (scan_from f1), (scan_from f2). now rewrite (IH s' _ F2).
Qed.
Lemma run_agree {S A} (P : key -> Prop) (f1 f2 : S -> A -> S * list key) inputs : forall s,
  (forall s a, Forall P (snd (f1 s a)) -> f1 s a = f2 s a) -> Forall P (snd (run_log f1 s inputs)) -> run_log f1 s inputs = run_log f2 s inputs.
Proof.
  induction inputs as [|a r IH]; intros s H F; cbn [run_log] in *; [reflexivity|].
  pose proof (H s a) as Hs. destruct (f1 s a) as [s1 l1]. specialize (IH s1 H). destruct (run_log f1 s1 r) as [s2 l2]. cbn [snd] in F, Hs, IH. apply Forall_app in F. destruct F as [F1 F2].
  rewrite <- (Hs F1). rewrite <- (IH F2). reflexivity.
Qed.

Section A.
Variables n1 n2 : key -> list nat -> list R.
Notation P := (fun k => forall sh, n1 k sh = n2 k sh).
Lemma random_tree_agree k a : Forall P (snd (random_tree n1 k a)) -> random_tree n1 k a = random_tree n2 k a.
Proof.
  unfold random_tree. cbn [snd]. intros H. f_equal. f_equal. f_equal. revert H. generalize (map (Sub k) (seq 0 (length (map ashape (leaves a))))).
  generalize (map ashape (leaves a)). clear. induction l as [|sh l IH]; intros [|s ss] H; cbn; auto. inversion H as [|? ? H1 H2]; subst. f_equal; [now rewrite H1|now apply IH].
Qed.
Variables (Data Batch Model : Type).
Variable get_data : Data -> Data * Batch.
Variable pot_value : vtree -> Batch -> Model -> R.
Variable pot_likelihoods : vtree -> Batch -> Model -> list R.
Variable pot_model : vtree -> Batch -> Model -> Model.
Variable pot_grad : vtree -> Batch -> Model -> vtree.
Ltac agree k a := let E := fresh "E" in
  assert (E : random_tree n1 k a = random_tree n2 k a); [apply random_tree_agree|rewrite <- E in *; clear E].

Lemma lv_agree Adapt adaption eps T (st : lv_st Data Model Adapt) :
  Forall P (snd (lv_update n1 get_data pot_value pot_likelihoods pot_model pot_grad adaption eps T st)) ->
  lv_update n1 get_data pot_value pot_likelihoods pot_model pot_grad adaption eps T st = lv_update n2 get_data pot_value pot_likelihoods pot_model pot_grad adaption eps T st.
Proof.
  unfold lv_update. intros F. rewrite <- (random_tree_agree (Sub (l_key st) 1) (l_pos st)); [reflexivity|].
  destruct (get_data (l_data st)) as [d b]. destruct (random_tree _ _ _) as [noise used]. destruct adaption as [[u g]|], (l_adapt st); exact F.
Qed.
Lemma fl_body_agree Noise nm eps fr m (st : fl_st Data Model Noise) i :
  Forall P (snd (fl_body n1 get_data pot_value pot_model pot_grad nm eps fr m st i)) ->
  fl_body n1 get_data pot_value pot_model pot_grad nm eps fr m st i = fl_body n2 get_data pot_value pot_model pot_grad nm eps fr m st i.
Proof.
  unfold fl_body. intros F. rewrite <- (random_tree_agree (Sub (f_key st) 1) (f_mom st)); [reflexivity|].
  destruct (get_data (f_data st)) as [d b]. destruct (random_tree _ _ _) as [noise used]. destruct nm as [[[u g] h]|], (f_extra st); exact F.
Qed.
Lemma fl_agree Noise nm steps fr cm eps m (st : fl_st Data Model Noise) :
  Forall P (snd (fl_integrate n1 get_data pot_value pot_model pot_grad steps fr cm nm eps m st)) ->
  fl_integrate n1 get_data pot_value pot_model pot_grad steps fr cm nm eps m st = fl_integrate n2 get_data pot_value pot_model pot_grad steps fr cm nm eps m st.
Proof.
  unfold fl_integrate. cbv zeta. set (M := fl_mass cm m (f_pos st)). set (FR := fl_friction fr (f_pos st)). intros F.
  assert (E : random_tree n1 (Sub (f_key st) 1) (f_mom st) = random_tree n2 (Sub (f_key st) 1) (f_mom st)).
  { apply random_tree_agree. destruct (random_tree n1 _ _). match type of F with context [scan ?f ?n ?s] => destruct (scan f n s) end. cbn [snd] in *. now apply Forall_app in F. }
  rewrite <- E. destruct (random_tree n1 _ _) as [noise used]. clear E.
  match type of F with context [scan ?f ?n ?s] => pose proof (@scan_agree _ P f (fl_body n2 get_data pot_value pot_model pot_grad nm eps FR M) n s) as X end.
  rewrite <- X; [reflexivity|intros; now apply fl_body_agree|]. match type of F with context [scan ?f ?n ?s] => destruct (scan f n s) end. cbn [snd] in *. now apply Forall_app in F.
Qed.
Lemma rl_body_agree fr eps m (st : rl_st Data Model) i :
  Forall P (snd (rl_body n1 get_data pot_model pot_grad fr eps m st i)) ->
  rl_body n1 get_data pot_model pot_grad fr eps m st i = rl_body n2 get_data pot_model pot_grad fr eps m st i.
Proof.
  unfold rl_body, cov_scaled_noise. intros F. rewrite <- (random_tree_agree (Sub (r_key st) 1) (r_mom st)); [reflexivity|].
  destruct (random_tree _ _ _) as [noise used]. destruct (get_data (r_data st)) as [d b]. exact F.
Qed.
Lemma rl_agree steps fr cm eps m (st : rl_st Data Model) :
  Forall P (snd (rl_integrate n1 get_data pot_model pot_grad steps fr cm eps m st)) ->
  rl_integrate n1 get_data pot_model pot_grad steps fr cm eps m st = rl_integrate n2 get_data pot_model pot_grad steps fr cm eps m st.
Proof.
  unfold rl_integrate. cbv zeta. set (M := rl_mass cm m (r_pos st)). intros F.
  match type of F with context [scan ?f ?n ?s] => pose proof (@scan_agree _ P f (rl_body n2 get_data pot_model pot_grad fr eps M) n s) as X end.
  rewrite <- X; [reflexivity|intros; now apply rl_body_agree|]. match type of F with context [scan ?f ?n ?s] => destruct (scan f n s) end. exact F.
Qed.
Lemma rl_init_agree cm sample k (data : Data) (model : Model) m :
  Forall P (snd (rl_init n1 cm sample k data model m)) -> rl_init n1 cm sample k data model m = rl_init n2 cm sample k data model m.
Proof.
  unfold rl_init, cov_scaled_noise. cbv zeta. intros F. set (K := match k with Some k => k | None => PRNGKey 0 end) in *.
  rewrite <- (random_tree_agree (Sub K 1) sample); [reflexivity|]. destruct (random_tree _ _ _). exact F.
Qed.
Lemma ob_step_agree fr eps T m (st : ob_st Data Model) i :
  Forall P (snd (ob_step n1 get_data pot_value pot_model pot_grad fr eps T m st i)) ->
  ob_step n1 get_data pot_value pot_model pot_grad fr eps T m st i = ob_step n2 get_data pot_value pot_model pot_grad fr eps T m st i.
Proof.
  unfold ob_step, ob_resample. cbv zeta. intros F.
  assert (E : random_tree n1 (Sub (o_key st) 1) (o_mom st) = random_tree n2 (Sub (o_key st) 1) (o_mom st)).
  { apply random_tree_agree. destruct (random_tree n1 (Sub (o_key st) 1) _). destruct (get_data (o_data st)) as [d b]. destruct (get_data d) as [d2 b2].
    match type of F with context [random_tree n1 (Sub (o_key st) 2) ?p] => destruct (random_tree n1 (Sub (o_key st) 2) p) end. cbn [snd] in *. now apply Forall_app in F. }
  rewrite <- E. destruct (random_tree n1 (Sub (o_key st) 1) _) as [noise used]. clear E. destruct (get_data (o_data st)) as [d b]. destruct (get_data d) as [d2 b2].
  match goal with |- context [random_tree n1 (Sub (o_key st) 2) ?p] => rewrite <- (random_tree_agree (Sub (o_key st) 2) p) end; [reflexivity|].
  match type of F with context [random_tree n1 (Sub (o_key st) 2) ?p] => destruct (random_tree n1 (Sub (o_key st) 2) p) end. cbn [snd] in *. now apply Forall_app in F.
Qed.
Lemma ob_agree steps fr cm eps T m (st : ob_st Data Model) :
  Forall P (snd (ob_integrate n1 get_data pot_value pot_model pot_grad steps fr cm eps T m st)) ->
  ob_integrate n1 get_data pot_value pot_model pot_grad steps fr cm eps T m st = ob_integrate n2 get_data pot_value pot_model pot_grad steps fr cm eps T m st.
Proof. unfold ob_integrate. apply scan_agree. intros; now apply ob_step_agree. Qed.
Lemma langevin_step_agree Adapt adaption (st : lv_st Data Model Adapt) sch :
  Forall P (snd (langevin_step n1 get_data pot_value pot_likelihoods pot_model pot_grad adaption st sch)) ->
  langevin_step n1 get_data pot_value pot_likelihoods pot_model pot_grad adaption st sch = langevin_step n2 get_data pot_value pot_likelihoods pot_model pot_grad adaption st sch.
Proof. unfold langevin_step. destruct (sch_step sch), (sch_temperature sch); auto. apply lv_agree. Qed.

Variables u1 u2 : key -> R.
Notation Q := (fun k => (forall sh, n1 k sh = n2 k sh) /\ u1 k = u2 k).
Lemma Q_P l : Forall Q l -> Forall P l.
Proof. apply Forall_impl. tauto. Qed.
Variables (steps : nat) (friction : R) (const_mass : option vtree).
Variables (Full MassState : Type).
Variable full_potential : vtree -> Full -> Model -> xr * (Full * Model).
Variable init_full : Full.
Variable mass_adaption : option ((vtree -> MassState) * (MassState -> vtree -> MassState) * (MassState -> mass_matrix)).
Lemma am_step_agree (st : am_state key vtree vtree Model Data Full MassState) sch :
  Forall Q (snd (amagold_step n1 u1 get_data pot_model pot_grad steps friction const_mass full_potential mass_adaption st sch)) ->
  amagold_step n1 u1 get_data pot_model pot_grad steps friction const_mass full_potential mass_adaption st sch =
  amagold_step n2 u2 get_data pot_model pot_grad steps friction const_mass full_potential mass_adaption st sch.
Proof.
  unfold amagold_step. cbn [snd split2]. intros F. apply Forall_app in F. destruct F as [F1 F2]. apply Q_P in F1. inversion F2 as [|? ? [_ U] _]; subst.
  set (M := mass_get mass_adaption (am_mass st)) in *. set (l := am_integrator st) in *.
  assert (E : leapfrog_update n1 get_data pot_model pot_grad steps friction const_mass l sch M = leapfrog_update n2 get_data pot_model pot_grad steps friction const_mass l sch M
              /\ leapfrog_keys n1 get_data pot_model pot_grad steps friction const_mass l sch M = leapfrog_keys n2 get_data pot_model pot_grad steps friction const_mass l sch M).
  { unfold leapfrog_update, leapfrog_keys in *. destruct (sch_step sch); auto. now rewrite (rl_agree _ _ _ _ _ _ F1). }
  destruct E as [E1 E2]. apply (f_equal2 pair); [|now rewrite E2]. unfold am_update. fold M. fold l. cbn [split2]. now rewrite E1, U.
Qed.
Lemma am_init_agree (data : Data) sample k model :
  Forall P (snd (amagold_init n1 const_mass full_potential init_full mass_adaption data sample k model)) ->
  amagold_init n1 const_mass full_potential init_full mass_adaption data sample k model = amagold_init n2 const_mass full_potential init_full mass_adaption data sample k model.
Proof.
  unfold amagold_init. cbn [snd split2 fst]. intros F. pose proof (rl_init_agree _ _ _ _ _ _ F) as E. apply (f_equal2 pair); [|now rewrite E].
  unfold am_init. cbn [split2]. destruct (full_potential _ _ _) as [u [f m']]. cbn [snd] in E. unfold leapfrog_init. now rewrite E.
Qed.
Lemma sg_step_agree (st : sg_state key vtree vtree Model Data Full MassState) sch :
  Forall Q (snd (sggmc_step n1 u1 get_data pot_value pot_model pot_grad steps friction const_mass full_potential mass_adaption st sch)) ->
  sggmc_step n1 u1 get_data pot_value pot_model pot_grad steps friction const_mass full_potential mass_adaption st sch =
  sggmc_step n2 u2 get_data pot_value pot_model pot_grad steps friction const_mass full_potential mass_adaption st sch.
Proof.
  unfold sggmc_step. cbn [snd split2]. intros F. apply Forall_app in F. destruct F as [F1 F2]. apply Q_P in F1. inversion F2 as [|? ? [_ U] _]; subst.
  set (M := mass_get mass_adaption (sg_mass st)) in *. set (l := sg_integrator st) in *.
  assert (E : obabo_update n1 get_data pot_value pot_model pot_grad steps friction const_mass l sch M = obabo_update n2 get_data pot_value pot_model pot_grad steps friction const_mass l sch M
              /\ obabo_keys n1 get_data pot_value pot_model pot_grad steps friction const_mass l sch M = obabo_keys n2 get_data pot_value pot_model pot_grad steps friction const_mass l sch M).
  { unfold obabo_update, obabo_keys in *. destruct (sch_step sch), (sch_temperature sch); auto. now rewrite (ob_agree _ _ _ _ _ _ _ F1). }
  destruct E as [E1 E2]. apply (f_equal2 pair); [|now rewrite E2]. unfold sg_update. fold M. fold l. cbn [split2]. now rewrite E1, U.
Qed.
Notation lst := (lv_st Data Model unit).
Variables (variance potential : lst -> xr) (sa_schedule : nat -> xr).
Lemma pt_step_agree st schs :
  Forall Q (snd (pt_step_log n1 u1 get_data pot_value pot_likelihoods pot_model pot_grad variance potential sa_schedule st schs)) ->
  pt_step_log n1 u1 get_data pot_value pot_likelihoods pot_model pot_grad variance potential sa_schedule st schs =
  pt_step_log n2 u2 get_data pot_value pot_likelihoods pot_model pot_grad variance potential sa_schedule st schs.
Proof.
  unfold pt_step_log. cbn [snd split2]. intros F. apply Forall_app in F. destruct F as [F1 F2]. apply Forall_app in F2. destruct F2 as [F2 F3].
  apply Q_P in F1, F2. inversion F3 as [|? ? [_ U] _]; subst.
  pose proof (langevin_step_agree _ _ _ F1) as E1. pose proof (langevin_step_agree _ _ _ F2) as E2.
  apply (f_equal2 pair); [|now rewrite E1, E2]. unfold pt_update, pt_lang_update. cbn [split2]. now rewrite E1, E2, U.
Qed.
End A.
