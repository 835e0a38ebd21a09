(** C37, C38, C39, C54, C55, C56: the integrators and the solvers built from them. *)
From Coq Require Import Reals Lra String.
From Verif Require Import Base Pytree PytreeSpec Io TreeUtil TreeUtilSpec TreeUtilProofs Xreal Scheduler Solver Mh MhProofs PropertiesMh
  Integrator IntegratorSpec IntegratorBasics LangevinProofs ObaboProofs LeapfrogProofs LeapfrogFinal ObaboFinal ReverseExist BalanceSpec BalanceProofs ExpectSpec ExpectProofs MhIntegrators.
Open Scope R_scope.
Set Implicit Arguments.

(** a pytree with two arrays, for the examples *)
Definition tree_ab (a b : R) : vtree := Node (KDict ["a"; "b"]%string) [Leaf (mkArr [] [a]); Leaf (mkArr [1%nat] [b])].
Lemma tree_ab_like a b c d : like (tree_ab a b) (tree_ab c d).
Proof. split; [repeat constructor|]. split; reflexivity. Qed.
Lemma tree_ab_wf a b : wfv (tree_ab a b). Proof. repeat constructor. Qed.

(** ** C37 *)
Section C37.
Variable s : vtree.
Hypothesis Hs : wfv s.
Variable normal : key -> list nat -> list R.
Hypothesis Hn : normal_ok normal.
Variables (Data Batch Model Adapt : Type).
Variable get_data : Data -> Data * Batch.
Variable pot_value : vtree -> Batch -> Model -> R.
Variable pot_likelihoods : vtree -> Batch -> Model -> list R.
Variable pot_model : vtree -> Batch -> Model -> Model.
Variable pot_grad : vtree -> Batch -> Model -> vtree.
Hypothesis Hg : forall t b m, like s t -> like s (pot_grad t b m).
(** without preconditioner *)
Theorem C37_sgld_step : forall eps T (st : lv_st Data Model Adapt), like s (l_pos st) ->
  let st' := fst (lv_update normal get_data pot_value pot_likelihoods pot_model pot_grad None eps T st) in
  let (d, b) := get_data (l_data st) in
  like s (l_pos st') /\
  (forall i, (i < dim s)%nat -> el (l_pos st') i = el (l_pos st) i - eps * el (pot_grad (l_pos st) b (l_model st)) i + sqrt (2 * T * eps) * xi normal (Sub (l_key st) 1) s i) /\
  l_data st' = d /\ l_pot st' = pot_value (l_pos st) b (l_model st) /\ l_model st' = pot_model (l_pos st) b (l_model st) /\
  l_var st' = population_variance (pot_likelihoods (l_pos st) b (l_model st)).
Proof.
  intros eps T st Hp st'. destruct (@lv_plain s Hs normal Hn Data Batch Model Adapt get_data pot_value pot_likelihoods pot_model pot_grad Hg None I eps T st Hp (or_introl eq_refl)) as (H1 & H2 & _).
  destruct (@lv_common s Hs normal Hn Data Batch Model Adapt get_data pot_value pot_likelihoods pot_model pot_grad Hg None I eps T st Hp) as (_ & H3 & H4 & H5 & H6 & _).
  fold st' in H1, H2, H3, H4, H5, H6. destruct (get_data (l_data st)) as [d b]. cbn [fst snd] in *. auto 10.
Qed.
(** T = 0: stochastic gradient descent *)
Theorem C37_zero_temperature : forall eps (st : lv_st Data Model Adapt), like s (l_pos st) ->
  let st' := fst (lv_update normal get_data pot_value pot_likelihoods pot_model pot_grad None eps 0 st) in
  forall i, (i < dim s)%nat -> el (l_pos st') i = el (l_pos st) i - eps * el (pot_grad (l_pos st) (snd (get_data (l_data st))) (l_model st)) i.
Proof.
  intros eps st Hp st' i Hi. destruct (@lv_plain s Hs normal Hn Data Batch Model Adapt get_data pot_value pot_likelihoods pot_model pot_grad Hg None I eps 0 st Hp (or_introl eq_refl)) as (H1 & H2 & _).
  unfold st'. rewrite H2 by auto. replace (2 * 0 * eps) with 0 by ring. rewrite sqrt_0. ring.
Qed.
(** with a preconditioner: the matrices of the adaption updated with the current gradient are used *)
Theorem C37_preconditioned_step : forall adapt_update adapt_get,
  (forall a t g b, like s t -> like s g -> fits_manifold s (adapt_get a t g b)) ->
  forall eps T (st : lv_st Data Model Adapt) a, like s (l_pos st) -> l_adapt st = Some a ->
  let st' := fst (lv_update normal get_data pot_value pot_likelihoods pot_model pot_grad (Some (adapt_update, adapt_get)) eps T st) in
  let b := snd (get_data (l_data st)) in
  let g := pot_grad (l_pos st) b (l_model st) in
  let a' := adapt_update a (l_pos st) g b in
  let m := adapt_get a' (l_pos st) g b in
  l_adapt st' = Some a' /\ l_data st' = fst (get_data (l_data st)) /\ l_pot st' = pot_value (l_pos st) b (l_model st) /\
  forall i, (i < dim s)%nat -> el (l_pos st') i = el (l_pos st) i - eps * mulv (g_inv m) (dim s) (el g) i + eps * el (g_gamma m) i
       + sqrt (2 * T * eps) * mulv (sqrt_g_inv m) (dim s) (xi normal (Sub (l_key st) 1) s) i.
Proof.
  intros au ag Ha eps T st a Hp Hl st' b g a' m.
  destruct (@lv_adapted s Hs normal Hn Data Batch Model Adapt get_data pot_value pot_likelihoods pot_model pot_grad Hg (Some (au, ag)) Ha eps T st au ag a Hp eq_refl Hl) as (H1 & H2 & H3).
  destruct (@lv_common s Hs normal Hn Data Batch Model Adapt get_data pot_value pot_likelihoods pot_model pot_grad Hg (Some (au, ag)) Ha eps T st Hp) as (_ & H4 & H5 & _). auto.
Qed.
(** n steps use exactly the next n batches and keep the shape of the sample *)
Theorem C37_one_batch_per_step : forall adaption,
  match adaption with Some (_, get) => forall a t g b, like s t -> like s g -> fits_manifold s (get a t g b) | None => True end ->
  forall (st : lv_st Data Model Adapt) (schedules : list (R * R)), like s (l_pos st) ->
  let st' := fold_left (fun a p => fst (lv_update normal get_data pot_value pot_likelihoods pot_model pot_grad adaption (fst p) (snd p) a)) schedules st in
  like s (l_pos st') /\ l_data st' = drawn get_data (l_data st) (length schedules).
Proof.
  intros ad Ha st schs Hp st'. destruct (@lv_run s Hs normal Hn Data Batch Model Adapt get_data pot_value pot_likelihoods pot_model pot_grad Hg ad Ha st Hp schs) as (H1 & H2 & _). auto.
Qed.
End C37.
Example C37_nonvacuous : let st := lv_init (tree_ab 1 2) None (None : option unit) 5%nat tt in
  let st' := fst (lv_update (fun _ sh => repeat 1 (size sh)) (fun d => (S d, INR d)) (fun _ _ _ => 0) (fun _ _ _ => []) (fun _ _ m => m) (fun t b _ => tree_scale b t) None 1 (1 / 2) st) in
  l_pos st' = tree_ab (-3) (-7).
Proof.
  cbn. unfold tree_ab. replace (2 * (1 / 2) * 1) with 1 by lra. rewrite sqrt_1. repeat f_equal; lra.
Qed.

(** ** C38 *)
(** the refreshment preserves the covariance T * M, M = S S^T, of the momentum, for random momenta p and normal vectors independent of p *)
Theorem C38_covariance : forall (W : Type) (E : (W -> R) -> R), expectation E ->
  forall s, wfv s -> forall normal, (forall w : W, normal_ok (normal w)) ->
  forall mass, tens_fits (m_sqrt mass) s -> forall friction eps T, 0 <= friction * eps -> 0 <= T ->
  forall (p : W -> vtree) k, (forall w, like s (p w)) ->
  let M := outer (dim s) (tens_entry (m_sqrt mass)) in
  second_moments E (dim s) (fun w => el (p w)) (fun w => el (p w)) (fun i j => T * M i j) ->
  second_moments E (dim s) (fun w => xi (normal w) k s) (fun w => xi (normal w) k s) unit_matrix ->
  second_moments E (dim s) (fun w => el (p w)) (fun w => xi (normal w) k s) (fun _ _ => 0) ->
  let r := fun w => fst (ob_resample (normal w) friction eps T mass (p w) k) in
  second_moments E (dim s) (fun w => el (r w)) (fun w => el (r w)) (fun i j => T * M i j).
Proof.
  intros W E HE s Hs normal Hn mass HM friction eps T Hf HT p k Hp M H1 H2 H3 r i j Hi Hj.
  set (c := sqrt (exp (- friction * eps))). set (sv := sqrt ((1 - exp (- friction * eps)) * T)).
  pose proof (@moments_affine W E HE (dim s) c sv (m_sqrt mass) _ _ _ H1 H2 H3 i j Hi Hj) as H.
  rewrite (@E_ext W E HE (fun w => el (r w) i * el (r w) j) (fun w => (c * el (p w) i + sv * mulv (m_sqrt mass) (dim s) (xi (normal w) k s) i) * (c * el (p w) j + sv * mulv (m_sqrt mass) (dim s) (xi (normal w) k s) j))).
  2:{ intros w. destruct (@resample_ok s Hs mass HM (normal w) (Hn w) friction eps T (p w) k (Hp w)) as (_ & A & _). unfold r. rewrite !A by auto. reflexivity. }
  rewrite H. fold M. unfold c, sv.
  assert (He : exp (- friction * eps) <= 1) by (apply Rle_trans with (exp 0); [destruct (Rle_lt_or_eq_dec 0 (friction * eps) Hf) as [?|E0]; [left; apply exp_increasing; lra|right; f_equal; lra]|rewrite exp_0; lra]).
  pose proof (exp_pos (- friction * eps)). rewrite !sqrt_sqrt by (try apply Rmult_le_pos; lra). ring.
Qed.
(** kinetic energies: the sums over all steps of the kinetic energies after the first and before the second refreshment, added to the
    initial values; and two batches per step *)
Theorem C38_energies : forall s, wfv s -> forall normal, normal_ok normal ->
  forall Data Batch Model (get_data : Data -> Data * Batch) pot_value pot_model (pot_grad : vtree -> Batch -> Model -> vtree),
  (forall t b m, like s t -> like s (pot_grad t b m)) ->
  forall friction const_mass eps T mo (st : ob_st Data Model), like s (o_pos st) -> like s (o_mom st) ->
  let M := ob_mass const_mass mo (o_pos st) in tens_fits (m_inv M) s -> tens_fits (m_sqrt M) s ->
  let after n := fst (ob_integrate normal get_data pot_value pot_model pot_grad n friction const_mass eps T mo st) in
  let c := sqrt (exp (- friction * eps)) in let sv := sqrt ((1 - exp (- friction * eps)) * T) in
  exists r e : nat -> vtree,
  (forall n, like s (r n) /\ like s (e n) /\ forall i, (i < dim s)%nat ->
     el (r n) i = c * el (o_mom (after n)) i + sv * mulv (m_sqrt M) (dim s) (xi normal (Sub (chain (o_key st) n) 1) s) i /\
     el (o_mom (after (S n))) i = c * el (e n) i + sv * mulv (m_sqrt M) (dim s) (xi normal (Sub (chain (o_key st) n) 2) s) i) /\
  forall n, o_start (after n) = o_start st + sum_upto n (fun j => kinetic s M (r j)) /\
            o_end (after n) = o_end st + sum_upto n (fun j => kinetic s M (e j)) /\
            o_data (after n) = drawn get_data (o_data st) (2 * n).
Proof.
  intros s Hs normal Hn Data Batch Model get_data pv pm pg Hg friction cm eps T mo st Hp Hm M Hinv Hsq after c sv.
  exists (fun n => ob_r M normal friction eps T (after n)), (fun n => ob_s M normal get_data pm pg friction eps T (after n)).
  assert (HF : forall n, like s (ob_r M normal friction eps T (after n)) /\ like s (ob_s M normal get_data pm pg friction eps T (after n)))
    by (intros n; apply (@F_parts s Hs cm mo Data Batch Model get_data pv pm pg Hg friction eps T normal Hn st Hp Hm Hinv Hsq n)).
  split.
  - intros n. destruct (HF n). split; auto. split; auto. intros i Hi. split.
    + apply (@el_r s Hs cm mo Data Batch Model get_data pv pm pg Hg friction eps T normal Hn st Hp Hm Hinv Hsq n i Hi).
    + apply (@el_p s Hs cm mo Data Batch Model get_data pv pm pg Hg friction eps T normal Hn st Hp Hm Hinv Hsq n i Hi).
  - intros n. destruct (@ob_at_energy M normal Data Batch Model get_data pv pm pg friction eps T st n) as [E1 E2].
    destruct (@ob_at_data s M normal Data Batch Model get_data pv pm pg Hg friction eps T st n) as [E3 _].
    split; [|split; [|exact E3]].
    + etransitivity; [exact E1|]. f_equal. apply sum_upto_ext. intros j Hj. apply (@kinetic_ok s M _ Hs Hinv). apply (HF j).
    + etransitivity; [exact E2|]. f_equal. apply sum_upto_ext. intros j Hj. apply (@kinetic_ok s M _ Hs Hinv). apply (HF j).
Qed.
(** an expectation and random vectors with the required moments exist: two fair coins *)
Example C38_nonvacuous :
  let E := fun X : bool * bool -> R => (X (true, true) + X (true, false) + X (false, true) + X (false, false)) / 4 in
  let sign := fun b : bool => if b then 1 else -1 in
  let s := Leaf (mkArr [] [0]) in
  let normal := fun (w : bool * bool) (_ : key) (sh : list nat) => repeat (sign (snd w)) (size sh) in
  let p := fun w : bool * bool => Leaf (mkArr [] [2 * sign (fst w)]) in
  let mass := init_mass (Leaf (mkArr [] [4])) in
  second_moments E 1 (fun w => el (p w)) (fun w => el (p w)) (fun i j => 1 * outer 1 (tens_entry (m_sqrt mass)) i j) /\
  second_moments E 1 (fun w => xi (normal w) (PRNGKey 3) s) (fun w => xi (normal w) (PRNGKey 3) s) unit_matrix /\
  second_moments E 1 (fun w => el (p w)) (fun w => xi (normal w) (PRNGKey 3) s) (fun _ _ => 0) /\ expectation E.
Proof.
  assert (H4 : sqrt 4 * sqrt 4 = 4) by (apply sqrt_sqrt; lra).
  intros E sign s normal p mass. split; [|split; [|split]].
  1-3: intros i j Hi Hj; assert (i = 0%nat) by lia; assert (j = 0%nat) by lia; subst; unfold E, unit_matrix, outer, sum_upto, mass; cbn; try (unfold el; cbn; unfold el; cbn); lra.
  split; [intros X Y H; unfold E; now rewrite !H|]. split; intros; unfold E; field.
Qed.

(** ** C39 *)
Section C39.
Variable s : vtree.
Hypothesis Hs : wfv s.
Variables (Data Batch Model : Type).
Variable get_data : Data -> Data * Batch.
Variable pot_model : vtree -> Batch -> Model -> Model.
(** the gradient of the stochastic potential, which depends on the position and the batch only *)
Variable G : vtree -> Batch -> vtree.
Hypothesis HG : forall t b, like s t -> like s (G t b).
Definition lf_run (normal : key -> list nat -> list R) (steps : nat) (friction : R) (const_mass : option vtree) (eps : R) (mo : option mass_matrix) (st : rl_st Data Model) : rl_st Data Model :=
  fst (rl_integrate normal get_data pot_model (fun t b _ => G t b) steps friction const_mass eps mo st).
(** d' provides the batches that d provides, in reversed order *)
Definition reversed_batches (n : nat) (d d' : Data) : Prop := forall m, (m < n)%nat -> batch_no get_data d' m = batch_no get_data d (n - 1 - m).

(** without friction, for any random numbers and any mass matrix *)
Theorem C39_reversible_frictionless : forall normal normal', normal_ok normal -> normal_ok normal' ->
  forall n const_mass mo eps (st : rl_st Data Model), like s (r_pos st) -> like s (r_mom st) ->
  let M := rl_mass const_mass mo (r_pos st) in tens_fits (m_inv M) s -> tens_fits (m_sqrt M) s ->
  let fin := lf_run normal n 0 const_mass eps mo st in
  forall st', r_pos st' = r_pos fin -> opposite s (r_mom fin) (r_mom st') -> reversed_batches n (r_data st) (r_data st') ->
  let back := lf_run normal' n 0 const_mass eps mo st' in
  r_pos back = r_pos st /\ opposite s (r_mom st) (r_mom back) /\ r_pot back = - r_pot fin.
Proof.
  intros normal normal' Hn Hn' n cm mo eps st Hp Hm M Hinv Hsq fin st' E1 E2 Hb back.
  assert (Hg : forall t b (m : Model), like s t -> like s (G t b)) by (intros; auto).
  destruct (@rl_integrate_like s Hs cm mo Data Batch Model get_data pot_model (fun t b _ => G t b) Hg 0 eps normal Hn st Hp Hm Hinv Hsq n) as [Lx Lp].
  apply (opposite_neg Hs Lp) in E2. destruct st' as [x' p' m' v' d' k']. cbn [r_pos r_mom r_data] in *.
  destruct (@rl_back s Hs cm mo Data Batch Model get_data pot_model (fun t b _ => G t b) Hg 0 eps normal normal' Hn Hn' G (fun _ _ _ => eq_refl) st Hp Hm Hinv Hsq ltac:(lra) n m' v' d' k' Hb) as (B1 & B2 & B3).
  { intros j i Hj Hi. replace (4 * 0 * eps) with 0 by ring. rewrite sqrt_0. ring. }
  unfold back, lf_run. rewrite E1, E2. split; [exact B1|]. split; [|exact B3].
  match goal with |- opposite _ _ ?x => replace x with (tneg (r_mom st)) by (symmetry; exact B2) end. now apply neg_opposite.
Qed.
(** with friction (diagonal mass): random numbers that reverse the path exist *)
Theorem C39_reversible_friction : forall normal, normal_ok normal ->
  forall n friction const_mass mo eps (st : rl_st Data Model), 0 < eps * friction -> like s (r_pos st) -> like s (r_mom st) ->
  diagonal s (rl_mass const_mass mo (r_pos st)) ->
  let fin := lf_run normal n friction const_mass eps mo st in
  forall st', r_pos st' = r_pos fin -> opposite s (r_mom fin) (r_mom st') -> reversed_batches n (r_data st) (r_data st') ->
  exists normal', normal_ok normal' /\
  let back := lf_run normal' n friction const_mass eps mo st' in
  r_pos back = r_pos st /\ opposite s (r_mom st) (r_mom back) /\ r_pot back = - r_pot fin.
Proof.
  intros normal Hn n friction cm mo eps st He Hp Hm Hd fin st' E1 E2 Hb. destruct st' as [x' p' m' v' d' k']. cbn [r_pos r_mom r_data] in *.
  destruct (@rl_balance s Hs cm mo Data Batch Model get_data pot_model G HG friction eps normal Hn st Hp Hm Hd He n p' m' v' d' k' E2 Hb) as (normal' & Hn' & B1 & B2 & B3 & _).
  exists normal'. split; auto. unfold lf_run. rewrite E1. split; [exact B1|]. split; [|exact B3].
  match goal with |- opposite _ _ ?x => replace x with (tneg (r_mom st)) by (symmetry; exact B2) end. now apply neg_opposite.
Qed.
(** the momentum update of one inner step *)
Theorem C39_momentum_step : forall normal, normal_ok normal ->
  forall n friction const_mass mo eps (st : rl_st Data Model), 1 + eps * friction <> 0 -> like s (r_pos st) -> like s (r_mom st) ->
  let M := rl_mass const_mass mo (r_pos st) in tens_fits (m_inv M) s -> tens_fits (m_sqrt M) s ->
  let after n := lf_run normal n friction const_mass eps mo st in
  exists x : vtree, like s x /\ r_data (after n) = drawn get_data (r_data st) n /\
  forall i, (i < dim s)%nat -> (1 + eps * friction) * el (r_mom (after (S n))) i =
    (1 - eps * friction) * el (r_mom (after n)) i - eps * el (G x (batch_no get_data (r_data st) n)) i
    + sqrt (4 * friction * eps) * mulv (m_sqrt M) (dim s) (xi normal (Sub (chain (r_key st) n) 1) s) i.
Proof.
  intros normal Hn n friction cm mo eps st Hfr Hp Hm M Hinv Hsq after. unfold after, lf_run.
  assert (Hg : forall t b (m : Model), like s t -> like s (G t b)) by (intros; auto).
  rewrite !rl_integrate_eq. fold M. cbn [r_mom r_data].
  destruct (@half_like s Hs cm mo Data Model eps st Hp Hm Hinv) as [L1 L2].
  set (H0 := rl_half cm mo eps st) in *.
  destruct (@rl_at_like s Hs _ Hinv Hsq normal Hn Data Batch Model get_data pot_model (fun t b _ => G t b) Hg friction eps H0 n L1 L2) as [L3 L4].
  destruct (@rl_at_data M normal Data Batch Model get_data pot_model (fun t b _ => G t b) friction eps H0 n) as [D1 D2].
  rewrite rl_at_S, rl_body_eq. cbn [r_mom].
  set (e := rl_at M normal get_data pot_model (fun t b _ => G t b) friction eps H0 n) in *.
  destruct (@rl_parts_like s Hs _ Hinv Hsq normal Hn Data Batch Model get_data (fun t b _ => G t b) Hg friction eps e n L3 L4) as (P1 & P2 & P3 & P4).
  exists (rl_x M eps e n). split; [exact P1|]. split; [exact D1|]. intros i Hi.
  rewrite (@el_rl_p s Hs _ Hinv Hsq normal Hn Data Batch Model get_data (fun t b _ => G t b) Hg friction eps e n i L3 L4 Hi).
  unfold rl_eta. rewrite (el_scale' Hs) by (auto; apply (@noise_ok s Hs _ Hsq normal Hn); auto). rewrite D2.
  destruct (@noise_ok s Hs _ Hsq normal Hn (Sub (chain (r_key H0) n) 1) _ L4) as (_ & Hx & _). rewrite Hx by auto.
  unfold rl_g. rewrite D1. change (r_key H0) with (r_key st). change (r_data H0) with (r_data st). unfold batch_no. field. exact Hfr.
Qed.
End C39.

(** the momentum update preserves the covariance M = S S^T of the momentum where the gradient vanishes *)
Theorem C39_momentum_covariance : forall (W : Type) (E : (W -> R) -> R), expectation E ->
  forall s, wfv s -> forall normal, (forall w : W, normal_ok (normal w)) ->
  forall Data Batch Model (get_data : Data -> Data * Batch) pot_model (pot_grad : vtree -> Batch -> Model -> vtree),
  (forall t b m, like s t -> like s (pot_grad t b m) /\ forall i, (i < dim s)%nat -> el (pot_grad t b m) i = 0) ->
  forall mass, tens_fits (m_inv mass) s -> tens_fits (m_sqrt mass) s -> forall friction eps, 0 <= friction * eps ->
  forall (st : W -> rl_st Data Model) k step, (forall w, like s (r_pos (st w)) /\ like s (r_mom (st w)) /\ r_key (st w) = k) ->
  let M := outer (dim s) (tens_entry (m_sqrt mass)) in
  let p := fun w => el (r_mom (st w)) in let noise := fun w => xi (normal w) (Sub k 1) s in
  second_moments E (dim s) p p M -> second_moments E (dim s) noise noise unit_matrix -> second_moments E (dim s) p noise (fun _ _ => 0) ->
  let p' := fun w => el (r_mom (fst (rl_body (normal w) get_data pot_model pot_grad friction eps mass (st w) step))) in
  second_moments E (dim s) p' p' M.
Proof.
  intros W E HE s Hs normal Hn Data Batch Model get_data pm pg Hg mass Hinv Hsq friction eps Hf st k step Hst M p noise H1 H2 H3 p' i j Hi Hj.
  set (h := eps * friction). assert (Hh : 0 <= h) by (unfold h; lra).
  set (c := (1 - h) / (1 + h)). set (sv := sqrt (4 * friction * eps) / (1 + h)).
  assert (Hg1 : forall t b m, like s t -> like s (pg t b m)) by (intros; now apply Hg).
  pose proof (@moments_affine W E HE (dim s) c sv (m_sqrt mass) _ _ _ H1 H2 H3 i j Hi Hj) as H.
  assert (A : forall w q, (q < dim s)%nat -> p' w q = c * p w q + sv * mulv (m_sqrt mass) (dim s) (noise w) q).
  { intros w q Hq. destruct (Hst w) as (L1 & L2 & L3). unfold p'. rewrite rl_body_eq. cbn [r_mom].
    rewrite (@el_rl_p s Hs _ Hinv Hsq (normal w) (Hn w) Data Batch Model get_data pg Hg1 friction eps (st w) step q L1 L2 Hq).
    destruct (@rl_parts_like s Hs _ Hinv Hsq (normal w) (Hn w) Data Batch Model get_data pg Hg1 friction eps (st w) step L1 L2) as (P1 & P2 & P3 & P4).
    unfold rl_g. rewrite (proj2 (Hg _ _ _ P1)) by auto.
    unfold rl_eta. rewrite (el_scale' Hs) by (auto; apply (@noise_ok s Hs _ Hsq (normal w) (Hn w)); auto). rewrite L3.
    destruct (@noise_ok s Hs _ Hsq (normal w) (Hn w) (Sub k 1) _ L2) as (_ & Hx & _). rewrite Hx by auto.
    unfold c, sv, p, noise. fold h. field. lra. }
  rewrite (@E_ext W E HE (fun w => p' w i * p' w j) (fun w => (c * p w i + sv * mulv (m_sqrt mass) (dim s) (noise w) i) * (c * p w j + sv * mulv (m_sqrt mass) (dim s) (noise w) j))).
  2:{ intros w. rewrite !A by auto. reflexivity. }
  rewrite H. fold M. unfold c, sv.
  assert (Hss : sqrt (4 * friction * eps) * sqrt (4 * friction * eps) = 4 * h) by (rewrite sqrt_sqrt; unfold h; lra).
  set (q := sqrt (4 * friction * eps)) in *.
  replace ((1 - h) / (1 + h) * ((1 - h) / (1 + h)) * M i j + q / (1 + h) * (q / (1 + h)) * M i j) with (((1 - h) * (1 - h) + q * q) / ((1 + h) * (1 + h)) * M i j) by (field; lra).
  rewrite Hss. field. lra.
Qed.
(** instance: two inner steps with a data source that numbers its batches downwards *)
Example C39_nonvacuous : 
  reversed_batches (fun d : nat * bool => let (n, up) := d in ((if up then S n else Nat.pred n, up), n)) 2 (7%nat, true) (8%nat, false) /\
  diagonal (tree_ab 0 0) (rl_mass (Some (tree_ab 4 9)) None (tree_ab 1 2)) /\ opposite (tree_ab 0 0) (tree_ab 1 (-2)) (tree_ab (-1) 2).
Proof.
  split; [|split].
  - intros m Hm. destruct m as [|[|m]]; [reflexivity|reflexivity|lia].
  - apply init_mass_diagonal; auto using tree_ab_wf, tree_ab_like. intros i Hi. destruct i as [|[|i]]; unfold el, dim in *; cbn in *; [lra|lra|lia].
  - split; [apply tree_ab_like|]. intros i Hi. destruct i as [|[|i]]; unfold el, dim in *; cbn in *; [lra|lra|lia].
Qed.

Print Assumptions C37_sgld_step.
Print Assumptions C37_preconditioned_step.
Print Assumptions C38_covariance.
Print Assumptions C38_energies.
Print Assumptions C39_reversible_frictionless.
Print Assumptions C39_reversible_friction.
Print Assumptions C39_momentum_covariance.
