From Coq Require Import Reals Permutation.
From Verif Require Import Base ListUtil Pytree Io TreeUtil Xreal Scheduler Solver Integrator Mh MhIntegrators KeyBasics KeySpec KeyRuns.
Open Scope nat_scope.
Set Implicit Arguments.

Lemma below_depth a b : below a b -> depth a <= depth b.
Proof. induction 1; cbn; lia. Qed.
Lemma below_trans a b c : below a b -> below b c -> below a c.
Proof. intros H1 H2. induction H2; auto using below_sub. Qed.
Lemma below_sub_inv a x i : below a (Sub x i) -> a = Sub x i \/ below a x.
Proof. inversion 1; auto. Qed.
Lemma below_antisym_depth a b : below a b -> depth b <= depth a -> a = b.
Proof. destruct 1 as [|x i H]; auto. apply below_depth in H. cbn. lia. Qed.
(** the ancestors of a key are linearly ordered *)
Lemma below_linear a b c : below a c -> below b c -> below a b \/ below b a.
Proof.
  intros H1 H2. revert b H2. induction H1 as [|x i H1 IH]; intros b H2; auto.
  apply below_sub_inv in H2. destruct H2 as [->|H2]; [left; now apply below_sub|auto].
Qed.
Lemma independent_sym a b : independent a b -> independent b a.
Proof. intros []; split; auto. Qed.
Lemma independent_below a b a' : independent a b -> below a a' -> independent a' b.
Proof.
  intros [H1 H2] H. split; intros X.
  - apply H1. eapply below_trans; eauto.
  - destruct (below_linear H X); auto.
Qed.
Lemma independent_below2 a b a' b' : independent a b -> below a a' -> below b b' -> independent a' b'.
Proof. intros H Ha Hb. eapply independent_below; eauto. apply independent_sym. eapply independent_below; eauto. now apply independent_sym. Qed.
Lemma independent_siblings k i j : i <> j -> independent (Sub k i) (Sub k j).
Proof.
  intros H. split; intros X; apply below_sub_inv in X as [X|X]; try (injection X; congruence).
  all: apply below_depth in X; cbn in X; lia.
Qed.
Lemma below_child k i : below k (Sub k i).
Proof. apply below_sub, below_refl. Qed.
#[global] Hint Resolve below_child below_refl below_sub : keys.

(** ** pairwise independent lists *)
Definition PI (l : list key) : Prop := ForallOrdPairs independent l.
Lemma PI_app a b : PI (a ++ b) <-> PI a /\ PI b /\ (forall x y, In x a -> In y b -> independent x y).
Proof.
  unfold PI. induction a as [|x a IH]; cbn [app].
  - split; [intros H; split; [constructor|split; [exact H|intros ? ? []]]|tauto].
  - split.
    + intros H. inversion H as [|? ? Hx Hr]; subst. apply IH in Hr. destruct Hr as (Ha & Hb & Hab).
      apply Forall_app in Hx. destruct Hx as [Hx1 Hx2]. split; [now constructor|split; [exact Hb|]].
      intros z y [->|Hz] Hy; auto. rewrite Forall_forall in Hx2. auto.
    + intros (Ha & Hb & Hab). inversion Ha as [|? ? Hx Hr]; subst. constructor.
      * apply Forall_app. split; auto. apply Forall_forall. intros y Hy. apply Hab; cbn; auto.
      * apply IH. split; [exact Hr|split; [exact Hb|]]. intros; apply Hab; cbn; auto.
Qed.
Lemma PI_perm a b : Permutation a b -> PI a -> PI b.
Proof.
  unfold PI. intros P. induction P; intros H0; auto.
  - inversion H0 as [|? ? Hx Hr]; subst. constructor; auto. eapply Permutation_Forall; eauto.
  - inversion H0 as [|? ? Hx Hr]; subst. inversion Hr as [|? ? Hy Hr']; subst. inversion Hx; subst.
    constructor; [constructor; auto; now apply independent_sym|constructor; auto].
Qed.
Lemma PI_pairwise l : PI l -> pairwise_independent l.
Proof.
  intros H i j a b N Ha Hb.
  assert (X : forall l, PI l -> forall i j a b, i < j -> nth_error l i = Some a -> nth_error l j = Some b -> independent a b).
  { clear. induction l as [|x l IH]; intros H i j a b N Ha Hb; [destruct i; discriminate|].
    inversion H as [|? ? Hx Hr]; subst. destruct j as [|j]; [lia|]. destruct i as [|i]; cbn in *.
    - injection Ha as ->. rewrite Forall_forall in Hx. apply Hx. eapply nth_error_In; eauto.
    - apply (IH Hr i j); auto. lia. }
  destruct (Nat.lt_ge_cases i j); [apply (X l H i j); auto|apply independent_sym; apply (X l H j i); auto; lia].
Qed.
Lemma PI_map k l : NoDup l -> PI (map (Sub k) l).
Proof.
  induction 1 as [|i l Hi Hl IH]; constructor; auto. apply Forall_forall. intros x Hx. apply in_map_iff in Hx. destruct Hx as (j & <- & Hj).
  apply independent_siblings. congruence.
Qed.

(** ** a step: from key k to key k', using the keys l *)
Definition disciplined (k k' : key) (l : list key) : Prop := below k k' /\ Forall (below k) l /\ PI (k' :: l).
Lemma disciplined_refl k : disciplined k k [].
Proof. repeat split; auto with keys. repeat constructor. Qed.
Lemma advance k k' l rest : PI (k :: rest) -> disciplined k k' l -> PI (k' :: l ++ rest).
Proof.
  intros H (H1 & H2 & H3). change (PI ((k' :: l) ++ rest)). inversion H as [|? ? Hk Hr]; subst. apply PI_app. split; [exact H3|split; [exact Hr|]].
  intros x y Hx Hy. rewrite Forall_forall in Hk, H2. apply independent_below with k; auto. destruct Hx as [<-|Hx]; auto.
Qed.
Lemma disciplined_trans k1 k2 k3 l1 l2 : disciplined k1 k2 l1 -> disciplined k2 k3 l2 -> disciplined k1 k3 (l1 ++ l2).
Proof.
  intros (A1 & A2 & A3) B. pose proof (advance A3 B) as X. destruct B as (B1 & B2 & B3). split; [|split].
  - eapply below_trans; eauto.
  - apply Forall_app. split; auto. eapply Forall_impl; [|exact B2]. intros; eapply below_trans; eauto.
  - eapply PI_perm; [|exact X]. constructor. apply Permutation_app_comm.
Qed.
Lemma disciplined_fork k ka l : disciplined (Sub k ka) (Sub k ka) l -> PI l.
Proof. intros (_ & _ & H). inversion H; auto. Qed.
(** continue with Sub k 0 and use keys below one or two other splits *)
Lemma disciplined_one k l : Forall (below (Sub k 1)) l -> PI l -> disciplined k (Sub k 0) l.
Proof.
  intros H1 H2. repeat split; auto with keys.
  - eapply Forall_impl; [|exact H1]. intros; eapply below_trans; [apply below_child|eassumption].
  - constructor; auto. eapply Forall_impl; [|exact H1]. intros x Hx. eapply independent_below2; [apply (@independent_siblings k 0 1)| |exact Hx]; auto with keys.
Qed.
Lemma disciplined_two k l1 l2 : Forall (below (Sub k 1)) l1 -> PI l1 -> Forall (below (Sub k 2)) l2 -> PI l2 -> disciplined k (Sub k 0) (l1 ++ l2).
Proof.
  intros H1 H2 H3 H4.
  assert (X : forall i l, i <> 0 -> Forall (below (Sub k i)) l -> Forall (independent (Sub k 0)) l).
  { intros i l N H. eapply Forall_impl; [|exact H]. intros x Hx. eapply independent_below2; [apply (@independent_siblings k 0 i)| |exact Hx]; auto with keys. }
  repeat split; auto with keys.
  - apply Forall_app. split; eapply Forall_impl; try eassumption; intros; (eapply below_trans; [apply below_child|eassumption]).
  - constructor; [apply Forall_app; split; eapply X; try eassumption; lia|]. apply PI_app. split; [exact H2|split; [exact H4|]].
    intros x y Hx Hy. rewrite Forall_forall in H1, H3. eapply independent_below2; [apply (@independent_siblings k 1 2); lia|apply H1; auto|apply H3; auto].
Qed.

Definition children (k : key) (m : nat) : list key := map (Sub k) (seq 0 m).
Lemma children_below k m : Forall (below k) (children k m).
Proof. apply Forall_forall. intros x Hx. apply in_map_iff in Hx. destruct Hx as (? & <- & _). auto with keys. Qed.
Lemma children_PI k m : PI (children k m).
Proof. apply PI_map, seq_NoDup. Qed.
Lemma random_tree_keys normal k a : snd (random_tree normal k a) = children k (length (leaves a)).
Proof. unfold random_tree, children. cbn. now rewrite map_length. Qed.

(** ** scan *)
Lemma scan_from {S} (f : S -> nat -> S * list key) n : forall i s l,
  fold_left (fun acc i => let (s', l) := f (fst acc) i in (s', snd acc ++ l)) (seq i n) (s, l)
  = (fst (fold_left (fun acc i => let (s', l) := f (fst acc) i in (s', snd acc ++ l)) (seq i n) (s, [])),
     l ++ snd (fold_left (fun acc i => let (s', l) := f (fst acc) i in (s', snd acc ++ l)) (seq i n) (s, []))).
Proof.
  induction n as [|n IH]; intros i s l; cbn [seq fold_left fst snd]; [now rewrite app_nil_r|].
  destruct (f s i) as [s' l']. rewrite IH. rewrite (IH (Datatypes.S i) s' ([] ++ l')). cbn [fst snd app]. now rewrite app_assoc.
Qed.
Lemma scan_disciplined {S} (kf : S -> key) (f : S -> nat -> S * list key) n s :
  (forall s i, disciplined (kf s) (kf (fst (f s i))) (snd (f s i))) ->
  disciplined (kf s) (kf (fst (scan f n s))) (snd (scan f n s)).
Proof.
  intros H. unfold scan. generalize 0. revert s. induction n as [|n IH]; intros s i; cbn [seq fold_left fst snd]; [apply disciplined_refl|].
  pose proof (H s i) as Hs. destruct (f s i) as [s' l']. cbn [fst snd] in Hs. rewrite scan_from. cbn [fst snd app]. eapply disciplined_trans; eauto.
Qed.
Lemma run_disciplined {S A} (kf : S -> key) (f : S -> A -> S * list key) inputs : forall s,
  (forall s a, disciplined (kf s) (kf (fst (f s a))) (snd (f s a))) ->
  disciplined (kf s) (kf (fst (run_log f s inputs))) (snd (run_log f s inputs)).
Proof.
  induction inputs as [|a r IH]; intros s H; cbn [run_log]; [apply disciplined_refl|].
  pose proof (H s a) as Hs. destruct (f s a) as [s1 l1]. specialize (IH s1 H). destruct (run_log f s1 r) as [s2 l2]. cbn [fst snd] in *. eapply disciplined_trans; eauto.
Qed.

(** ** the integrators *)
Section D.
Variables (Data Batch Model : Type).
Variable normal : key -> list nat -> list R.
Variable get_data : Data -> Data * Batch.
Variable pot_value : vtree -> Batch -> Model -> R.
Variable pot_likelihoods : vtree -> Batch -> Model -> list R.
Variable pot_model : vtree -> Batch -> Model -> Model.
Variable pot_grad : vtree -> Batch -> Model -> vtree.

Lemma lv_disciplined Adapt adaption eps T (st : lv_st Data Model Adapt) :
  disciplined (l_key st) (l_key (fst (lv_update normal get_data pot_value pot_likelihoods pot_model pot_grad adaption eps T st)))
    (snd (lv_update normal get_data pot_value pot_likelihoods pot_model pot_grad adaption eps T st)).
Proof.
  unfold lv_update. destruct (get_data (l_data st)) as [d b]. pose proof (random_tree_keys normal (Sub (l_key st) 1) (l_pos st)) as E.
  destruct (random_tree _ _ _) as [noise used]. cbn [snd] in E. subst used.
  destruct adaption as [[u g]|], (l_adapt st); cbn [fst snd l_key]; apply disciplined_one; auto using children_below, children_PI.
Qed.
Lemma fl_body_disciplined Noise nm eps fr m (st : fl_st Data Model Noise) i :
  disciplined (f_key st) (f_key (fst (fl_body normal get_data pot_value pot_model pot_grad nm eps fr m st i)))
    (snd (fl_body normal get_data pot_value pot_model pot_grad nm eps fr m st i)).
Proof.
  unfold fl_body. destruct (get_data (f_data st)) as [d b]. pose proof (random_tree_keys normal (Sub (f_key st) 1) (f_mom st)) as E.
  destruct (random_tree _ _ _) as [noise used]. cbn [snd] in E. subst used.
  destruct nm as [[[u g] h]|], (f_extra st); cbn [fst snd f_key]; apply disciplined_one; auto using children_below, children_PI.
Qed.
Lemma fl_disciplined Noise nm steps fr cm eps m (st : fl_st Data Model Noise) :
  disciplined (f_key st) (f_key (fst (fl_integrate normal get_data pot_value pot_model pot_grad steps fr cm nm eps m st)))
    (snd (fl_integrate normal get_data pot_value pot_model pot_grad steps fr cm nm eps m st)).
Proof.
  unfold fl_integrate. pose proof (random_tree_keys normal (Sub (f_key st) 1) (f_mom st)) as E.
  destruct (random_tree _ _ _) as [noise used]. cbn [snd] in E. subst used. set (M := fl_mass cm m (f_pos st)). set (FR := fl_friction fr (f_pos st)).
  match goal with |- context [scan ?f ?n ?s] => pose proof (@scan_disciplined _ (@f_key Data Model Noise) f n s) as X; destruct (scan f n s) as [s2 l2] end.
  cbn [fst snd f_key] in *. eapply disciplined_trans; [|apply X; intros; apply fl_body_disciplined].
  apply disciplined_one; auto using children_below, children_PI.
Qed.
Lemma rl_body_disciplined fr eps m (st : rl_st Data Model) i :
  disciplined (r_key st) (r_key (fst (rl_body normal get_data pot_model pot_grad fr eps m st i)))
    (snd (rl_body normal get_data pot_model pot_grad fr eps m st i)).
Proof.
  unfold rl_body, cov_scaled_noise. pose proof (random_tree_keys normal (Sub (r_key st) 1) (r_mom st)) as E.
  destruct (random_tree _ _ _) as [noise used]. cbn [snd] in E. subst used. destruct (get_data (r_data st)) as [d b].
  cbn [fst snd r_key]; apply disciplined_one; auto using children_below, children_PI.
Qed.
Lemma rl_disciplined steps fr cm eps m (st : rl_st Data Model) :
  disciplined (r_key st) (r_key (fst (rl_integrate normal get_data pot_model pot_grad steps fr cm eps m st)))
    (snd (rl_integrate normal get_data pot_model pot_grad steps fr cm eps m st)).
Proof.
  unfold rl_integrate. cbv zeta.
  match goal with |- context [scan ?f ?n ?s] => pose proof (@scan_disciplined _ (@r_key Data Model) f n s) as X; destruct (scan f n s) as [s2 l2] end.
  cbn [fst snd r_key] in *. apply X. intros; apply rl_body_disciplined.
Qed.
Lemma rl_init_disciplined cm sample k (data : Data) (model : Model) m :
  disciplined k (r_key (fst (rl_init normal cm sample (Some k) data model m))) (snd (rl_init normal cm sample (Some k) data model m)).
Proof.
  unfold rl_init, cov_scaled_noise. pose proof (random_tree_keys normal (Sub k 1) sample) as E.
  destruct (random_tree _ _ _) as [noise used]. cbn [snd] in E. subst used. cbn [fst snd r_key]; apply disciplined_one; auto using children_below, children_PI.
Qed.
Lemma ob_step_disciplined fr eps T m (st : ob_st Data Model) i :
  disciplined (o_key st) (o_key (fst (ob_step normal get_data pot_value pot_model pot_grad fr eps T m st i)))
    (snd (ob_step normal get_data pot_value pot_model pot_grad fr eps T m st i)).
Proof.
  unfold ob_step, ob_resample. pose proof (random_tree_keys normal (Sub (o_key st) 1) (o_mom st)) as E.
  destruct (random_tree _ _ (o_mom st)) as [noise used]. cbn [snd] in E. subst used. destruct (get_data (o_data st)) as [d b]. destruct (get_data d) as [d2 b2].
  match goal with |- context [random_tree normal (Sub (o_key st) 2) ?p] => pose proof (random_tree_keys normal (Sub (o_key st) 2) p) as E2; destruct (random_tree normal (Sub (o_key st) 2) p) as [noise2 used2] end.
  cbn [snd] in E2. subst used2. cbn [fst snd o_key]. apply disciplined_two; auto using children_below, children_PI.
Qed.
Lemma ob_disciplined steps fr cm eps T m (st : ob_st Data Model) :
  disciplined (o_key st) (o_key (fst (ob_integrate normal get_data pot_value pot_model pot_grad steps fr cm eps T m st)))
    (snd (ob_integrate normal get_data pot_value pot_model pot_grad steps fr cm eps T m st)).
Proof. unfold ob_integrate. apply scan_disciplined. intros; apply ob_step_disciplined. Qed.
Lemma langevin_step_disciplined Adapt adaption (st : lv_st Data Model Adapt) sch :
  disciplined (l_key st) (l_key (fst (langevin_step normal get_data pot_value pot_likelihoods pot_model pot_grad adaption st sch)))
    (snd (langevin_step normal get_data pot_value pot_likelihoods pot_model pot_grad adaption st sch)).
Proof. unfold langevin_step. destruct (sch_step sch), (sch_temperature sch); try apply disciplined_refl. apply lv_disciplined. Qed.
End D.
