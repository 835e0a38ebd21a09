(** The properties C44 - C47: adaption strategies (jax_sgmc/adaption.py). *)
From Coq Require Import Reals Lra.
From Verif Require Import Base ListUtil Pytree PytreeSpec Io TreeUtil TreeUtilSpec TreeUtilProofs Integrator IntegratorSpec IntegratorBasics LangevinProofs PropertiesIntegrator Xreal Adaption AdaptionSpec AdaptionProofs.
Open Scope R_scope.
Set Implicit Arguments.

Lemma mulv_diag t n v i : (i < n)%nat -> mulv (Tens1 t) n v i = el t i * v i.
Proof.
  intros Hi. unfold mulv. rewrite (@sum_upto_ext n _ (fun j => if (i =? j)%nat then el t i * v j else 0)).
  - rewrite (sum_upto_delta (fun j => el t i * v j) Hi). reflexivity.
  - intros j _. cbn [tens_entry]. destruct (i =? j)%nat; ring.
Qed.
(** ** C44 *)
(** For every history of (sample, gradient) updates: v is the exponentially weighted mean of the squared gradients; G = 1 / (lambda + sqrt v) lies in (0, 1/lambda];
    the noise factor is its positive root; Gamma is zero; all have the shape of the sample. *)
Theorem C44_rms_prop : forall s alpha lmbd x0 (h : list (vtree * vtree)), wfv s -> 0 <= alpha <= 1 -> 0 < lmbd -> like s x0 -> Forall (fun xg => like s (snd xg)) h ->
  forall y g, let m := rms_get (rms_run alpha lmbd x0 h) y g in
  exists G Q, g_inv m = Tens1 G /\ sqrt_g_inv m = Tens1 Q /\ like s G /\ like s Q /\ like s (g_gamma m) /\
  forall i, (i < dim s)%nat ->
    let v := weighted_square alpha (fun k => nth_el (map snd h) k i) (length h) in
    0 <= v /\ el G i = 1 / (lmbd + sqrt v) /\ 0 < el G i <= 1 / lmbd /\ 0 < el Q i /\ el Q i * el Q i = el G i /\ el (g_gamma m) i = 0.
Proof. intros s al la x0 h Hs Ha Hl Hx HF y g m. exact (rms_final Hs Ha Hl Hx HF y g). Qed.
(** the weights of the mean are nonnegative and sum to one: v lies between the smallest and the largest value seen (the initial 1 included) *)
Theorem C44_second_moment_bounds : forall alpha g n lo hi, 0 <= alpha <= 1 -> lo <= 1 <= hi -> (forall k, (k < n)%nat -> lo <= g k * g k <= hi) ->
  lo <= weighted_square alpha g n <= hi.
Proof.
  intros al g n lo hi Ha H1 Hk. induction n as [|n IH]; [unfold weighted_square, sum_upto; cbn; lra|]. rewrite weighted_S.
  assert (I : lo <= weighted_square al g n <= hi) by (apply IH; intros k Hk'; apply Hk; lia). pose proof (Hk n ltac:(lia)) as Hn.
  set (w := weighted_square al g n) in *. set (q := g n * g n) in *. clearbody w q. split; nra.
Qed.
(** composed with the integrator (C37): the pSGLD step. Adaption state: the rms_prop state after the history h; one update with the current gradient precedes the step. *)
Theorem C44_psgld_step : forall s normal Data Batch Model get_data pot_value pot_likelihoods pot_model pot_grad,
  wfv s -> normal_ok normal -> (forall t b m, like s t -> like s (pot_grad t b m)) ->
  forall alpha lmbd x0 h eps T (st : lv_st Data Model (ad_state rms_st)), 0 <= alpha <= 1 -> 0 < lmbd -> like s x0 -> Forall (fun xg => like s (snd xg)) h ->
  like s (l_pos st) -> l_adapt st = Some (rms_run alpha lmbd x0 h) ->
  let st' := fst (lv_update normal get_data pot_value pot_likelihoods pot_model pot_grad
                   (Some ((fun a x g (_ : Batch) => rms_update a x g), (fun a x g (_ : Batch) => rms_get a x g))) eps T st) in
  let g := pot_grad (l_pos st) (snd (get_data (l_data st))) (l_model st) in
  let h' := h ++ [(l_pos st, g)] in
  l_adapt st' = Some (rms_run alpha lmbd x0 h') /\ like s (l_pos st') /\
  forall i, (i < dim s)%nat ->
    let G := 1 / (lmbd + sqrt (weighted_square alpha (fun k => nth_el (map snd h') k i) (length h'))) in
    el (l_pos st') i = el (l_pos st) i - eps * (G * el g i) + sqrt (2 * T * eps) * (sqrt G * xi normal (Sub (l_key st) 1) s i).
Proof.
  intros s normal Data Batch Model get_data pv pl pm pg Hs Hn Hg al la x0 h eps T st Ha Hl Hx HF Hp Had st' g h'.
  (* the manifold functions given to C37 must fit for every adaption state: use the state-independent reading of lv_update *)
  assert (Hg' : like s g) by (apply Hg; exact Hp).
  assert (HF' : Forall (fun xg => like s (snd xg)) h') by (apply Forall_app; split; auto).
  assert (R' : rms_run al la x0 h' = rms_update (rms_run al la x0 h) (l_pos st) g) by (unfold rms_run, h'; rewrite fold_left_app; reflexivity).
  destruct (@C44_rms_prop s al la x0 h' Hs Ha Hl Hx HF' (l_pos st) g) as (G & Q & E1 & E2 & L1 & L2 & L3 & E). rewrite R' in *.
  set (a' := rms_update (rms_run al la x0 h) (l_pos st) g) in *.
  pose (safe := fun (a : ad_state rms_st) (x gr : vtree) (_ : Batch) => rms_get a' (l_pos st) g).
  assert (fits : forall a t g b, like s t -> like s g -> fits_manifold s (safe a t g b)).
  { intros a t g0 b _ _. unfold safe, fits_manifold. rewrite E1, E2. destruct L1, L2. split; [|split; [|exact L3]]; split; auto. }
  pose proof (@C37_preconditioned_step s Hs normal Hn Data Batch Model (ad_state rms_st) get_data pv pl pm pg Hg (fun a x g _ => rms_update a x g) safe fits eps T st _ Hp Had) as X.
  cbv zeta in X. fold g in X. fold a' in X. destruct X as (X1 & _ & _ & X4).
  assert (same : st' = fst (lv_update normal get_data pv pl pm pg (Some ((fun a x g _ => rms_update a x g), safe)) eps T st)).
  { unfold st', lv_update. rewrite Had. destruct (get_data (l_data st)) as [ds b] eqn:Eg. fold g. unfold safe. reflexivity. }
  pose proof (@lv_adapted s Hs normal Hn Data Batch Model (ad_state rms_st) get_data pv pl pm pg Hg (Some ((fun a x g _ => rms_update a x g), safe)) fits eps T st _ _ _ Hp eq_refl Had) as Y.
  cbv zeta in Y. destruct Y as (_ & Y2 & _).
  rewrite same. split; [exact X1|]. split; [exact Y2|]. intros i Hi. cbv zeta. rewrite (X4 i Hi). unfold safe. rewrite E1, E2, !mulv_diag by auto.
  specialize (E i Hi). cbv zeta in E. destruct E as (V & EG & PG & PQ & EQ & EZ). rewrite EZ. rewrite <- EG.
  assert (ES : sqrt (el G i) = el Q i) by (rewrite <- EQ; apply sqrt_square; lra). rewrite ES. ring.
Qed.

(** ** C45 *)
(** After any sequence of samples the state holds their number, their mean and the sums of the (cross) products of their deviations from the mean. *)
Theorem C45_statistics : forall s eigh diagonal burn_in x0 cov h, wfv s -> like s x0 -> Forall (like s) h ->
  let st := ad_inner (mm_run eigh diagonal burn_in x0 cov h) in
  mm_it st = length h /\ length (mm_mean st) = dim s /\
  (forall i, (i < dim s)%nat -> nth i (mm_mean st) 0 = seq_mean (length h) (fun k => nth_el h k i)) /\
  match mm_ssq st with
  | SDiag v => diagonal = true /\ length v = dim s /\
      forall i, (i < dim s)%nat -> nth i v 0 = cross_dev (length h) (fun k => nth_el h k i) (fun k => nth_el h k i)
  | SFull m => diagonal = false /\ square (dim s) m /\
      forall i j, (i < dim s)%nat -> (j < dim s)%nat -> entry m i j = cross_dev (length h) (fun k => nth_el h k i) (fun k => nth_el h k j)
  end.
Proof.
  intros s eigh di bi x0 cov h Hs Hx HF st. destruct (@mm_inv_ok s Hs eigh di bi x0 cov h Hx HF) as (_ & H1 & H2 & H3 & H4). auto.
Qed.
(** before the end of the burn-in (and always if burn_in = 0) get returns what it returned after init *)
Theorem C45_before_burn_in : forall eigh diagonal burn_in x0 cov h, (burn_in = 0 \/ length h < burn_in)%nat ->
  mm_get (mm_run eigh diagonal burn_in x0 cov h) = mm_get (mm_init diagonal x0 cov).
Proof.
  intros eigh di bi x0 cov h Hb. pose proof (@mm_matrices eigh di bi x0 cov h) as M. cbv zeta in M.
  assert (E : ((bi =? 0) || (length h <? bi))%nat = true).
  { apply orb_true_iff. destruct Hb as [-> | Hb]; [left; reflexivity|right; now apply Nat.ltb_lt]. }
  rewrite E in M. injection M as M1 M2. unfold mm_get. rewrite M1, M2.
  assert (T : forall l, ad_template (mm_run eigh di bi x0 cov l) = x0).
  { intros l. induction l as [|x l IH] using rev_ind; [reflexivity|]. unfold mm_run. rewrite fold_left_app. cbn [fold_left]. fold (mm_run eigh di bi x0 cov l). unfold mm_update.
    destruct (if (_ =? _)%nat then _ else _). exact IH. }
  rewrite T. reflexivity.
Qed.
(** ... which is the initial covariance and the inverse of its root *)
Theorem C45_initial : forall s x0 c, wfv s -> like s x0 -> like s c -> (forall i, (i < dim s)%nat -> 0 < el c i) ->
  (exists inv root, mm_get (mm_init true x0 (Some c)) = Ok (QVec inv, QVec root) /\ length inv = dim s /\ length root = dim s /\
     forall i, (i < dim s)%nat -> nth i inv NaN = Fin (el c i) /\ nth i root NaN = Fin (1 / sqrt (el c i))) /\
  (exists inv root, mm_get (mm_init false x0 (Some c)) = Ok (QMat inv, QMat root) /\ length inv = dim s /\ length root = dim s /\
     forall i j, (i < dim s)%nat -> (j < dim s)%nat -> xentry inv i j = Fin (if (i =? j)%nat then el c i else 0) /\
       xentry root i j = Fin (if (i =? j)%nat then 1 / sqrt (el c i) else 0)).
Proof.
  intros s x0 c Hs Hx Hc Hpos. pose proof (like_dim Hs Hx) as Lx. pose proof (like_dim Hs Hc) as Lc.
  assert (Ei : forall i, (i < dim s)%nat -> nth i (map Fin (ravel c)) NaN = Fin (el c i)) by (intros i Hi; rewrite (@nth_map_in _ _ _ _ _ 0) by lia; reflexivity).
  assert (Er : forall i, (i < dim s)%nat -> nth i (map (fun c => xdiv (Fin 1) (xsqrt c)) (map Fin (ravel c))) NaN = Fin (1 / sqrt (el c i))).
  { intros i Hi. rewrite (@nth_map_in _ _ _ _ _ NaN) by (rewrite map_length; lia). rewrite Ei by auto. specialize (Hpos i Hi). cbn [xsqrt]. destruct (Rlt_dec (el c i) 0); [lra|]. cbn [xdiv].
    destruct (Req_EM_T (sqrt (el c i)) 0) as [E|E]; [|reflexivity]. pose proof (sqrt_lt_R0 _ Hpos). lra. }
  split.
  - exists (map Fin (ravel c)), (map (fun c => xdiv (Fin 1) (xsqrt c)) (map Fin (ravel c))). split; [|split; [|split; [|auto]]]; rewrite ?map_length; auto.
    unfold mm_get, mm_init. cbn [ad_inner ad_template mm_inv mm_sqrt fits_template]. rewrite !map_length, Lx, Lc, Nat.eqb_refl. reflexivity.
  - exists (xdiag (map Fin (ravel c))), (xdiag (map (fun c => xdiv (Fin 1) (xsqrt c)) (map Fin (ravel c)))). split; [reflexivity|].
    split; [unfold xdiag; now rewrite !map_length, seq_length|]. split; [unfold xdiag; now rewrite !map_length, seq_length|].
    intros i j Hi Hj. unfold xentry, xdiag.
    rewrite !(@nth_map_in _ _ _ (seq 0 _) _ O) by (rewrite seq_length, !map_length; lia). rewrite !seq_nth by (rewrite !map_length; lia).
    cbn [plus]. rewrite Ei, Er by auto. destruct (i =? j)%nat; auto.
Qed.
(** from the end of the burn-in on get returns the matrices of the first burn_in samples, whatever follows: the biased sample (co)variance as the inverse mass ... *)
Theorem C45_adapted : forall s eigh burn_in x0 cov h, wfv s -> like s x0 -> Forall (like s) h -> (0 < burn_in <= length h)%nat ->
  let f i k := nth_el h k i in
  (exists inv root, mm_get (mm_run eigh true burn_in x0 cov h) = Ok (QVec inv, QVec root) /\ length inv = dim s /\ length root = dim s /\
     forall i, (i < dim s)%nat -> nth i inv NaN = Fin (cross_dev burn_in (f i) (f i) / INR burn_in) /\
       nth i root NaN = xsqrt (xdiv (Fin (INR burn_in)) (Fin (cross_dev burn_in (f i) (f i))))) /\
  (exists c, square (dim s) c /\ (forall i j, (i < dim s)%nat -> (j < dim s)%nat -> entry c i j = cross_dev burn_in (f i) (f j) / INR burn_in) /\
     mm_get (mm_run eigh false burn_in x0 cov h) =
     Ok (QMat (map (map Fin) c), QMat (map (map Fin) (mmul (mtranspose (snd (eigh c))) (mmul (mdiag (map sqrt (fst (eigh c)))) (snd (eigh c))))))).
Proof.
  intros s eigh bi x0 cov h Hs Hx HF Hb f.
  assert (L : length (firstn bi h) = bi) by (rewrite firstn_length; lia).
  assert (HF' : Forall (like s) (firstn bi h)) by (rewrite <- (firstn_skipn bi h) in HF; apply Forall_app in HF; tauto).
  assert (EX : forall i k, (k < bi)%nat -> nth_el (firstn bi h) k i = f i k).
  { intros i k Hk. unfold f. rewrite <- (firstn_skipn bi h) at 2. symmetry. apply nth_el_app. lia. }
  assert (X : ((bi =? 0) || (length h <? bi))%nat = false).
  { destruct (Nat.eqb_spec bi 0); [lia|]. destruct (Nat.ltb_spec (length h) bi); [lia|reflexivity]. }
  assert (T : forall di, ad_template (mm_run eigh di bi x0 cov h) = x0) by (intros di; apply (@mm_inv_ok s Hs eigh di bi x0 cov h Hx HF)).
  pose proof (like_dim Hs Hx) as Lx. split.
  - pose proof (@mm_matrices eigh true bi x0 cov h) as M. cbv zeta in M. rewrite X in M. clear X.
    destruct (@mm_inv_ok s Hs eigh true bi x0 cov _ Hx HF') as (_ & _ & _ & _ & Q). unfold ssq_ok in Q.
    destruct (mm_ssq _) as [q|q]; [|destruct Q as (Q & _); discriminate]. destruct Q as (_ & Lq & Q). cbn [update_matrix] in M. injection M as M1 M2. unfold mm_get. rewrite M1, M2, T.
    exists (map (fun v => Fin (v / INR bi)) q), (map (fun v => xsqrt (xdiv (Fin (INR bi)) (Fin v))) q). cbn [fits_template]. rewrite !map_length, Lq, Lx, Nat.eqb_refl.
    split; [reflexivity|]. split; auto. split; auto. intros i Hi. rewrite !(@nth_map_in _ _ _ _ _ 0) by lia. rewrite Q by auto. rewrite L.
    rewrite (@cross_dev_ext bi _ (f i) _ (f i)) by (intros; apply EX; auto). auto.
  - pose proof (@mm_matrices eigh false bi x0 cov h) as M. cbv zeta in M. rewrite X in M. clear X.
    destruct (@mm_inv_ok s Hs eigh false bi x0 cov _ Hx HF') as (_ & _ & _ & _ & Q). unfold ssq_ok in Q.
    destruct (mm_ssq _) as [q|q]; [destruct Q as (Q & _); discriminate|]. destruct Q as (_ & Lq & Q). cbn [update_matrix] in M.
    exists (map (map (fun v => v / INR bi)) q). split; [|split].
    + destruct Lq as [L1 L2]. split; [now rewrite map_length|]. rewrite Forall_forall in *. intros r Hr. apply in_map_iff in Hr. destruct Hr as (r' & <- & Hr). rewrite map_length. auto.
    + intros i j Hi Hj. unfold entry. rewrite (@nth_map_in _ _ _ _ _ []) by (destruct Lq; lia). rewrite (@nth_map_in _ _ _ _ _ 0) by (rewrite (square_row Lq); auto).
      f_equal. specialize (Q i j Hi Hj). unfold entry in Q. rewrite Q, L. apply cross_dev_ext; intros; apply EX; auto.
    + destruct (eigh _) as [w v]. injection M as M1 M2. unfold mm_get. rewrite M1, M2. reflexivity.
Qed.
(** ... but the documented default initial_mass = None of the alias solvers cannot be used: the empty array is taken for a covariance *)
Theorem C45_default_mass_refuted : forall x0, (0 < dim x0)%nat -> mm_get (mm_init true x0 None) = Exc TypeError.
Proof. intros x0 H. unfold mm_get, mm_init. cbn [ad_inner ad_template mm_inv mm_sqrt fits_template map length]. fold (dim x0). destruct (dim x0); [lia|reflexivity]. Qed.

(** ** C46 *)
(** diagonal: wherever the samples of the burn-in vary, inverse mass times squared root is one; the same for a positive initial covariance (C45_initial gives the entries) *)
Theorem C46_diagonal : forall s eigh burn_in x0 cov h, wfv s -> like s x0 -> Forall (like s) h -> (0 < burn_in <= length h)%nat ->
  exists inv root, mm_get (mm_run eigh true burn_in x0 cov h) = Ok (QVec inv, QVec root) /\
  forall i, (i < dim s)%nat -> (exists k, (k < burn_in)%nat /\ nth_el h k i <> nth_el h 0 i) ->
    exists c r, nth i inv NaN = Fin c /\ nth i root NaN = Fin r /\ 0 < c /\ 0 < r /\ c * r * r = 1.
Proof.
  intros s eigh bi x0 cov h Hs Hx HF Hb. destruct (@C45_adapted s eigh bi x0 cov h Hs Hx HF Hb) as [(inv & root & E & L1 & L2 & H) _].
  exists inv, root. split; auto. intros i Hi (k & Hk & Hne). destruct (H i Hi) as [-> ->]. set (f := fun k => nth_el h k i) in *.
  assert (HN : 0 < INR bi) by (apply lt_0_INR; lia).
  assert (P : 0 < cross_dev bi f f). { apply cross_dev_pos with k O; auto; lia. }
  exists (cross_dev bi f f / INR bi), (sqrt (INR bi / cross_dev bi f f)). split; auto.
  assert (Q : 0 < INR bi / cross_dev bi f f) by (apply Rdiv_lt_0_compat; auto).
  split; [cbn [xdiv]; destruct (Req_EM_T (cross_dev bi f f) 0); [lra|]; cbn [xsqrt]; destruct (Rlt_dec (INR bi / cross_dev bi f f) 0); [lra|reflexivity]|].
  split; [apply Rdiv_lt_0_compat; auto|]. split; [apply sqrt_lt_R0; auto|].
  rewrite Rmult_assoc, sqrt_sqrt by lra. field. lra.
Qed.
(** where they do not vary, the inverse mass is 0 and the root infinite *)
Theorem C46_constant_coordinate : forall s eigh burn_in x0 cov h, wfv s -> like s x0 -> Forall (like s) h -> (0 < burn_in <= length h)%nat ->
  exists inv root, mm_get (mm_run eigh true burn_in x0 cov h) = Ok (QVec inv, QVec root) /\
  forall i, (i < dim s)%nat -> (forall k, (k < burn_in)%nat -> nth_el h k i = nth_el h 0 i) -> nth i inv NaN = Fin 0 /\ nth i root NaN = PInf.
Proof.
  intros s eigh bi x0 cov h Hs Hx HF Hb. destruct (@C45_adapted s eigh bi x0 cov h Hs Hx HF Hb) as [(inv & root & E & L1 & L2 & H) _].
  exists inv, root. split; auto. intros i Hi He. destruct (H i Hi) as [-> ->]. set (f := fun k => nth_el h k i) in *.
  assert (HN : 0 < INR bi) by (apply lt_0_INR; lia).
  assert (Z : cross_dev bi f f = 0).
  { rewrite (@cross_dev_ext bi f (fun _ => nth_el h 0 i) f (fun _ => nth_el h 0 i)) by auto. rewrite cross_dev_alt. unfold seq_mean. rewrite !sum_const. field. lra. }
  rewrite Z. split; [f_equal; field; lra|]. cbn [xdiv]. destruct (Req_EM_T 0 0); [|lra]. unfold xinf. destruct (Rlt_dec 0 (INR bi)); [reflexivity|lra].
Qed.
(** dense: for every eigen decomposition of the (one-dimensional) covariance c the root is sqrt c instead of 1 / sqrt c, so the product is c squared *)
Theorem C46_dense_refuted : forall s eigh burn_in x0 cov h, wfv s -> dim s = 1%nat -> like s x0 -> Forall (like s) h -> (0 < burn_in <= length h)%nat ->
  let c := cross_dev burn_in (fun k => nth_el h k 0) (fun k => nth_el h k 0) / INR burn_in in
  eigen_decomposition 1 [[c]] (eigh [[c]]) ->
  exists r, mm_get (mm_run eigh false burn_in x0 cov h) = Ok (QMat [[Fin c]], QMat [[Fin r]]) /\ c * r * r = c * c.
Proof.
  intros s eigh bi x0 cov h Hs Hd Hx HF Hb c He. destruct (@C45_adapted s eigh bi x0 cov h Hs Hx HF Hb) as [_ (m & Q & Em & ->)]. rewrite Hd in *.
  assert (Hc : 0 <= c). { unfold c. apply Rmult_le_pos; [apply cross_dev_nonneg|]. left. apply Rinv_0_lt_compat, lt_0_INR. lia. }
  assert (m = [[c]]).
  { destruct Q as [Q1 Q2]. destruct m as [|r [|? ?]]; try discriminate. inversion Q2 as [|? ? Q3 _]; subst. destruct r as [|x [|? ?]]; try discriminate. specialize (Em O O ltac:(lia) ltac:(lia)). cbn in Em. now rewrite Em. }
  subst m. destruct (eigh [[c]]) as [w v] eqn:Ev. destruct He as (Lw & [Q1 Q2] & O1 & O2 & D).
  destruct v as [|r [|? ?]]; try discriminate. inversion Q2 as [|? ? Q3 _]; subst. destruct r as [|x [|? ?]]; try discriminate. destruct w as [|w [|? ?]]; try discriminate.
  specialize (O1 O O ltac:(lia) ltac:(lia)). specialize (D O O ltac:(lia) ltac:(lia)). cbn in O1, D.
  assert (O1' : x * x = 1) by lra. assert (D' : c = w) by nra. subst w.
  eexists. split; [cbn; reflexivity|]. cbn [column map nth].
  assert (X : forall a b, dot [a] [b] = a * b) by (intros; unfold dot; cbn; rewrite ?rsum_cons, ?rsum_nil; lra). rewrite !X.
  pose proof (sqrt_sqrt c Hc) as Hq. set (q := sqrt c) in *. clearbody q. replace (c * (x * (q * x)) * (x * (q * x))) with (c * (q * q) * ((x * x) * (x * x))) by ring. rewrite Hq, O1'. ring.
Qed.

(** ** C47 *)
(** mean of the gradients of the log likelihoods of the batch (coordinate j), and the error of the centre of the deviations: the unscaled gradient of the potential is minus that mean (plus the prior), so that the mean is added instead of subtracted *)
Definition gbar (n : nat) (grad_at : nat -> list R) (j : nat) : R := seq_mean n (fun i => nth j (grad_at i) 0).
Definition centre_error (N n : nat) (T : R) (grad_at : nat -> list R) (prior_grad : list R) (j : nat) : R :=
  gbar n grad_at j + (gbar n grad_at j + nth j prior_grad 0 / INR N) / T.
Section C47.
Variables (N n d : nat) (T eps : R) (grad_at : nat -> list R) (prior_grad sample_grad : list R).
Hypothesis HN : (0 < N)%nat.
Hypothesis Hn : (2 <= n)%nat.
Hypothesis HT : 0 < T.
Hypothesis Hg : forall i, (i < n)%nat -> length (grad_at i) = d.
Hypothesis Hs : length sample_grad = d.
(** the gradient given to the strategy is the gradient of the stochastic potential of the same batch *)
Hypothesis Hgrad : forall j, (j < d)%nat -> nth j sample_grad 0 = potential_gradient N n T grad_at prior_grad j.
(** the estimated noise: the sample covariance of the gradients plus a bias; the bias stems from adding instead of subtracting the mean *)
Theorem C47_estimate : forall j, (j < d)%nat ->
  nth j (fi_b grad_at N n sample_grad eps) NaN =
  Fin (eps / 2 * (sample_cov n (fun i => nth j (grad_at i) 0) (fun i => nth j (grad_at i) 0) + INR n / (INR n - 1) * (centre_error N n T grad_at prior_grad j * centre_error N n T grad_at prior_grad j))).
Proof.
  intros j Hj. rewrite (@fi_b_nth grad_at N n sample_grad eps d Hg Hs Hn j Hj). f_equal. f_equal.
  assert (1 < INR n) by (apply (lt_INR 1); lia). assert (0 < INR N) by (apply lt_0_INR; lia).
  rewrite shifted_products by lia. unfold sample_cov, centre_error. rewrite (Hgrad Hj). unfold potential_gradient. fold (gbar n grad_at j).
  set (cd := cross_dev _ _ _). set (a := gbar n grad_at j). set (p := nth j prior_grad 0). clearbody cd a p. field. split; [|split]; lra.
Qed.
(** the same for the entries of the full matrix *)
Theorem C47_estimate_full : forall i j, (i < d)%nat -> (j < d)%nat ->
  entry (fi_b_full grad_at N n sample_grad eps) i j =
  eps / 2 * (sample_cov n (fun k => nth i (grad_at k) 0) (fun k => nth j (grad_at k) 0) + INR n / (INR n - 1) * (centre_error N n T grad_at prior_grad i * centre_error N n T grad_at prior_grad j)).
Proof.
  intros i j Hi Hj. rewrite (@fi_full_entry grad_at N n sample_grad eps d Hg Hs Hn i j Hi Hj). f_equal.
  assert (1 < INR n) by (apply (lt_INR 1); lia). assert (0 < INR N) by (apply lt_0_INR; lia).
  rewrite shifted_products by lia. unfold sample_cov, centre_error. rewrite (Hgrad Hi), (Hgrad Hj). unfold potential_gradient. fold (gbar n grad_at i) (gbar n grad_at j).
  set (cd := cross_dev _ _ _). set (a := gbar n grad_at i). set (b := gbar n grad_at j). set (p := nth i prior_grad 0). set (q := nth j prior_grad 0). clearbody cd a b p q. field. split; [|split]; lra.
Qed.
(** exact where the bias vanishes: at a critical point of the batch likelihood with a flat prior *)
Theorem C47_exact_partial : forall j, (j < d)%nat -> gbar n grad_at j = 0 -> nth j prior_grad 0 = 0 ->
  nth j (fi_b grad_at N n sample_grad eps) NaN = Fin (eps / 2 * sample_cov n (fun i => nth j (grad_at i) 0) (fun i => nth j (grad_at i) 0)).
Proof. intros j Hj H0 H1. rewrite (@C47_estimate j Hj). unfold centre_error. rewrite H0, H1. f_equal. assert (0 < INR N) by (apply lt_0_INR; lia). assert (1 < INR n) by (apply (lt_INR 1); lia). field. lra. Qed.
(** identical observations with nonzero gradient (flat prior, temperature 1) give noise 2 eps n / (n - 1) g^2 instead of zero *)
Theorem C47_identical_refuted : forall j g, (j < d)%nat -> T = 1 -> nth j prior_grad 0 = 0 -> (forall i, (i < n)%nat -> nth j (grad_at i) 0 = g) ->
  sample_cov n (fun i => nth j (grad_at i) 0) (fun i => nth j (grad_at i) 0) = 0 /\
  nth j (fi_b grad_at N n sample_grad eps) NaN = Fin (2 * eps * (INR n / (INR n - 1)) * (g * g)).
Proof.
  intros j g Hj HT1 Hp Hc. assert (1 < INR n) by (apply (lt_INR 1); lia). assert (0 < INR N) by (apply lt_0_INR; lia).
  assert (M : seq_mean n (fun i => nth j (grad_at i) 0) = g). { rewrite (@seq_mean_ext n _ (fun _ => g)) by auto. unfold seq_mean. rewrite sum_const. field. lra. }
  assert (Z : cross_dev n (fun i => nth j (grad_at i) 0) (fun i => nth j (grad_at i) 0) = 0).
  { rewrite (@cross_dev_ext n _ (fun _ => g) _ (fun _ => g)) by auto. rewrite cross_dev_alt. unfold seq_mean. rewrite !sum_const. field. lra. }
  assert (S : sample_cov n (fun i => nth j (grad_at i) 0) (fun i => nth j (grad_at i) 0) = 0) by (unfold sample_cov; rewrite Z; unfold Rdiv; ring).
  split; auto. rewrite (@C47_estimate j Hj), S. unfold centre_error, gbar. rewrite M, Hp, HT1. f_equal. field. lra.
Qed.
Variable friction : list R.
Hypothesis Hf : length friction = d.
(** if the friction exceeds the estimate in every coordinate, the returned factors split the friction: noise^2 + b = friction, scale^2 = b *)
Theorem C47_split : (forall j, (j < d)%nat -> exists b, nth j (fi_b grad_at N n sample_grad eps) NaN = Fin b /\ 0 <= b < nth j friction 0) ->
  let r := fisher_diag grad_at N n sample_grad friction eps in
  forall j, (j < d)%nat -> exists b noise scale, nth j (fi_b grad_at N n sample_grad eps) NaN = Fin b /\
    nth j (fst r) NaN = Fin noise /\ nth j (snd r) NaN = Fin scale /\ 0 < noise /\ 0 <= scale /\ scale * scale = b /\ noise * noise + scale * scale = nth j friction 0.
Proof.
  intros H r j Hj. set (b := fun j => match nth j (fi_b grad_at N n sample_grad eps) NaN with Fin b => b | _ => 0 end).
  assert (Hb : forall j, (j < d)%nat -> nth j (fi_b grad_at N n sample_grad eps) NaN = Fin (b j)) by (intros k Hk; destruct (H k Hk) as (v & E & _); unfold b; now rewrite E).
  assert (Hp : forall j, (j < d)%nat -> 0 <= b j < nth j friction 0) by (intros k Hk; destruct (H k Hk) as (v & E & P); unfold b; now rewrite E).
  destruct (@fisher_positive grad_at N n sample_grad eps d Hg Hs Hn friction Hf b Hb Hp j Hj) as [E1 E2]. exists (b j), (sqrt (nth j friction 0 - b j)), (sqrt (b j)).
  specialize (Hp j Hj). split; auto. split; auto. split; auto. split; [apply sqrt_lt_R0; lra|]. split; [apply sqrt_pos|]. rewrite !sqrt_sqrt by lra. split; lra.
Qed.
(** ... but if it exceeds it nowhere, the noise factor is infinite and the scale not a number *)
Theorem C47_small_friction_refuted : (forall j, (j < d)%nat -> exists b, nth j (fi_b grad_at N n sample_grad eps) NaN = Fin b /\ nth j friction 0 <= b) ->
  let r := fisher_diag grad_at N n sample_grad friction eps in
  forall j, (j < d)%nat -> nth j (fst r) NaN = PInf /\ nth j (snd r) NaN = NaN.
Proof.
  intros H r j Hj. set (b := fun j => match nth j (fi_b grad_at N n sample_grad eps) NaN with Fin b => b | _ => 0 end).
  apply (@fisher_nonpositive grad_at N n sample_grad eps d Hg Hs Hn friction Hf b); auto; intros k Hk; destruct (H k Hk) as (v & E & P); unfold b; now rewrite E.
Qed.
End C47.
(** the gradient of the hypothesis above is the derivative of the stochastic potential (potential.py:181-205) along coordinate j *)
Theorem C47_gradient : forall N n T grad_at prior_grad j (l : nat -> R -> R) (p : R -> R) x, 
  (forall i, (i < n)%nat -> derivable_pt_lim (l i) x (nth j (grad_at i) 0)) -> derivable_pt_lim p x (nth j prior_grad 0) ->
  derivable_pt_lim (fun t => (- INR N * seq_mean n (fun i => l i t) - p t) / T) x (potential_gradient N n T grad_at prior_grad j).
Proof.
  intros N n T grad_at prior_grad j l p x Hl Hp.
  assert (S : derivable_pt_lim (fun t => sum_upto n (fun i => l i t)) x (sum_upto n (fun i => nth j (grad_at i) 0))).
  { induction n as [|n IH].
    - intros e He. exists (mkposreal 1 Rlt_0_1). intros h _ _. unfold sum_upto. cbn. unfold Rdiv. rewrite !Rminus_0_r, Rmult_0_l, Rabs_R0. exact He.
    - rewrite sum_upto_S. pose proof (derivable_pt_lim_plus _ _ _ _ _ (IH (fun i Hi => Hl i (Nat.lt_lt_succ_r _ _ Hi))) (Hl n (Nat.lt_succ_diag_r n))) as D.
      intros e He. destruct (D e He) as (de & X). exists de. intros h h0 hd. rewrite !sum_upto_S. exact (X h h0 hd). }
  pose proof (derivable_pt_lim_minus _ _ _ _ _ (derivable_pt_lim_scal _ (- INR N / INR n) _ _ S) Hp) as D1.
  pose proof (derivable_pt_lim_scal _ (/ T) _ _ D1) as D2. unfold mult_real_fct, minus_fct in D2.
  unfold potential_gradient, seq_mean. intros e He. destruct (D2 e He) as (de & X). exists de. intros h h0 hd. specialize (X h h0 hd).
  match type of X with Rabs ?a < _ => match goal with |- Rabs ?b < _ => replace b with a; [exact X|] end end. unfold Rdiv. ring.
Qed.
(** the full variant returns vectors, which are multiplied elementwise with the noise: correlations between coordinates are lost, whatever the decomposition *)
Theorem C47_dense_refuted : forall svd grad_at N n sample_grad friction eps d i j, (i < d)%nat -> (j < d)%nat -> i <> j -> length friction = d -> length sample_grad = d ->
  entry (fi_b_full grad_at N n sample_grad eps) i j <> 0 ->
  let w := fst (fisher_full svd grad_at N n sample_grad friction eps) in
  let factor k l := if (k =? l)%nat then nth k w 0 else 0 in
  sum_upto d (fun k => factor i k * factor j k) <> entry (mdiag friction) i j - entry (fi_b_full grad_at N n sample_grad eps) i j.
Proof.
  intros svd grad_at N n sg fr eps d i j Hi Hj Hij Lf Ls Hb w factor.
  assert (Z : entry (mdiag fr) i j = 0).
  { unfold entry, mdiag. rewrite (@nth_map_in _ _ _ _ _ O) by (rewrite seq_length; lia). rewrite (@nth_map_in _ _ _ _ _ O) by (rewrite seq_length; lia). rewrite !seq_nth by lia. cbn [plus]. destruct (Nat.eqb_spec i j); [contradiction|reflexivity]. }
  rewrite Z. rewrite (@sum_upto_ext d _ (fun _ => 0)), sum_const; [lra|]. intros k Hk. unfold factor. destruct (Nat.eqb_spec i k), (Nat.eqb_spec j k); try lra. congruence.
Qed.
(** friction exceeding the estimate in one coordinate only: the "corrected" noise of the other is not a number *)
Theorem C47_mixed_friction_refuted : exists grad_at prior_grad sample_grad friction,
  (forall j, (j < 2)%nat -> nth j sample_grad 0 = potential_gradient 2 2 1 grad_at prior_grad j) /\ length friction = 2%nat /\ (forall j, (j < 2)%nat -> 0 < nth j friction 0) /\
  nth 1 (snd (fisher_diag grad_at 2 2 sample_grad friction 2)) NaN = NaN.
Proof.
  exists (fun i => match i with O => [1; 1] | _ => [-1; -1] end), [0; 0], [0; 0], [10; 1]. split; [|split; [reflexivity|split]].
  - intros [|[|j]] Hj; [| |lia]; cbn; unfold potential_gradient, seq_mean, sum_upto; cbn; lra.
  - intros [|[|j]] Hj; cbn; lra || lia.
  - set (g := fun i : nat => _). set (sg := [0; 0]). set (fr := [10; 1]).
    assert (B : fi_b g 2 2 sg 2 = [Fin 2; Fin 2]).
    { unfold fi_b, vsum, sg. cbn. unfold b_of, xdiv. cbn. destruct (Req_EM_T (1 + 1 - 1) 0); [lra|]. cbn. repeat f_equal; lra. }
    unfold fisher_diag. rewrite B. unfold fr. cbn [zip_with map xsub xadd xopp].
    destruct (xle_dec (Fin (10 + - (2))) (Fin 0)) as [X|_]; [apply xle_fin in X; lra|].
    destruct (xle_dec (Fin (1 + - (2))) (Fin 0)) as [_|X]; [|exfalso; apply X, xle_fin; lra].
    unfold xmin. cbn [fold_left]. destruct (xlt_dec (Fin (10 + - (2))) PInf) as [_|X]; [|exfalso; apply X; exact I].
    destruct (xlt_dec PInf _) as [X|_]; [destruct X|]. cbn. destruct (Rlt_dec (1 + - (10 + - (2))) 0); [reflexivity|lra].
Qed.

(** ** Concrete cases *)
Example ex_history : list (vtree * vtree) := [(tree_ab 0 0, tree_ab 1 2); (tree_ab 1 1, tree_ab 3 0)].
Example C44_nonvacuous : wfv (tree_ab 0 0) /\ like (tree_ab 0 0) (tree_ab 5 5) /\ Forall (fun xg => like (tree_ab 0 0) (snd xg)) ex_history /\
  weighted_square (1 / 2) (fun k => nth_el (map snd ex_history) k 0) 2 = 5.
Proof.
  split; [apply tree_ab_wf|]. split; [apply tree_ab_like|]. split; [repeat constructor; cbn; apply tree_ab_like|].
  unfold weighted_square, sum_upto, nth_el. cbn. lra.
Qed.
(** samples 0 and 4: variance 4; the dense root satisfies 4 * r * r = 16 for the decomposition 4 = 1 * 4 * 1 *)
Example ex_scalar (x : R) : vtree := Leaf (mkArr [] [x]).
Example C46_dense_nonvacuous : let h := [ex_scalar 0; ex_scalar 4] in let eigh := fun _ : list (list R) => ([4], [[1]]) in
  wfv (ex_scalar 0) /\ dim (ex_scalar 0) = 1%nat /\ like (ex_scalar 0) (ex_scalar 1) /\ Forall (like (ex_scalar 0)) h /\
  cross_dev 2 (fun k => nth_el h k 0) (fun k => nth_el h k 0) / INR 2 = 4 /\ eigen_decomposition 1 [[4]] (eigh [[4]]) /\
  exists r, mm_get (mm_run eigh false 2 (ex_scalar 1) None h) = Ok (QMat [[Fin 4]], QMat [[Fin r]]) /\ 4 * r * r = 16.
Proof.
  intros h eigh. assert (W : forall x y, like (ex_scalar x) (ex_scalar y)) by (intros; split; [constructor; [reflexivity|constructor]|repeat constructor]).
  assert (W0 : wfv (ex_scalar 0)) by repeat constructor.
  assert (F : Forall (like (ex_scalar 0)) h) by (repeat constructor; apply W).
  assert (E : cross_dev 2 (fun k => nth_el h k 0) (fun k => nth_el h k 0) / INR 2 = 4) by (unfold cross_dev, seq_mean, sum_upto, nth_el; cbn; lra).
  assert (D : eigen_decomposition 1 [[4]] (eigh [[4]])).
  { cbn. split; auto. split; [repeat constructor|]. split; [|split]; intros [|i] [|j] Hi Hj; try lia; unfold sum_upto; cbn; lra. }
  split; auto. split; auto. split; auto. split; auto. split; auto. split; auto.
  pose proof (@C46_dense_refuted (ex_scalar 0) eigh 2 (ex_scalar 1) None h W0 eq_refl (W 0 1) F ltac:(cbn; lia)) as X. cbv zeta in X. rewrite E in X.
  destruct (X D) as (r & E1 & E2). exists r. split; auto. lra.
Qed.
Example C46_diagonal_nonvacuous : Forall (like (tree_ab 0 0)) [tree_ab 1 1; tree_ab 3 1] /\ (exists k, (k < 2)%nat /\ nth_el [tree_ab 1 1; tree_ab 3 1] k 0 <> nth_el [tree_ab 1 1; tree_ab 3 1] 0 0)
  /\ (forall k, (k < 2)%nat -> nth_el [tree_ab 1 1; tree_ab 3 1] k 1 = nth_el [tree_ab 1 1; tree_ab 3 1] 0 1).
Proof. split; [repeat constructor; apply tree_ab_like|]. split; [exists 1%nat; split; [lia|cbn; lra]|]. intros [|[|k]] Hk; try lia; reflexivity. Qed.
(** two observations with gradients 1 and 3, N = 4, flat prior: the covariance is 2, the estimate 0.5 * (2 + 2 * 16) = 17 *)
Example C47_nonvacuous : let g := fun i => match i with O => [1] | _ => [3] end in
  (forall j, (j < 1)%nat -> nth j [-8] 0 = potential_gradient 4 2 1 g [0] j) /\ sample_cov 2 (fun i => nth 0 (g i) 0) (fun i => nth 0 (g i) 0) = 2 /\
  nth 0 (fi_b g 4 2 [-8] 1) NaN = Fin 17.
Proof.
  intros g. assert (G : forall j, (j < 1)%nat -> nth j [-8] 0 = potential_gradient 4 2 1 g [0] j) by (intros [|j] Hj; [unfold potential_gradient, seq_mean, sum_upto; cbn; lra|lia]).
  assert (C : sample_cov 2 (fun i => nth 0 (g i) 0) (fun i => nth 0 (g i) 0) = 2) by (unfold sample_cov, cross_dev, seq_mean, sum_upto; cbn; lra).
  split; auto. split; auto. rewrite (@C47_estimate 4 2 1 1 1 g [0] [-8] ltac:(lia) ltac:(lia) ltac:(lra) ltac:(intros [|[|i]] Hi; reflexivity) eq_refl G 0 ltac:(lia)).
  rewrite C. f_equal. unfold centre_error, gbar, seq_mean, sum_upto. cbn. lra.
Qed.

Print Assumptions C44_rms_prop.
Print Assumptions C44_psgld_step.
Print Assumptions C45_statistics.
Print Assumptions C45_adapted.
Print Assumptions C46_diagonal.
Print Assumptions C46_dense_refuted.
Print Assumptions C47_estimate.
Print Assumptions C47_gradient.
