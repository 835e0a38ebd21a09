(** C58, C59 with the (improper) Riemann integral: stationary distribution of AMAGOLD and SGGMC. *)
From Coq Require Import Reals Lra Lia List Permutation FunctionalExtensionality.
From Coquelicot Require Hierarchy RInt.
From Verif Require Import Base Pytree PytreeSpec Io TreeUtil TreeUtilSpec TreeUtilProofs Xreal Scheduler Solver Mh MhProofs PropertiesMh
  Integrator IntegratorSpec IntegratorBasics ObaboProofs LeapfrogFinal ObaboFinal BalanceSpec BalanceProofs MhIntegrators PropertiesIntegrator KeyBasics PropertiesBalance
  VolumeSpec VolumeProofs LeapfrogVolume ObaboVolume Stationary PropertiesVolume RiemannSpec RiemannProofs RiemannLimit RiemannIntegral RiemannBounds RiemannAdequacy RiemannWeight.
Open Scope R_scope.
Set Implicit Arguments.
Local Arguments Nat.ltb : simpl never.
Local Arguments Nat.mul : simpl never.

Lemma min_le_left a b : 0 < a -> 0 < b -> Rabs (Rmin a b) <= Rabs a.
Proof. intros Ha Hb. rewrite !Rabs_pos_eq; [apply Rmin_l|lra|apply Rmin_glb; lra]. Qed.
(** the accepted part is integrable *)
Lemma min_integrable d m (w h : phase -> R) Phi : continuous d m w -> (forall z, 0 < w z) -> preserves_volume d m Phi -> continuous d m h ->
  riemann_integrable d m (fun z => w z * h z) -> riemann_integrable d m (fun z => Rmin (w z) (w (Phi z)) * h z).
Proof.
  intros Hw Hp HPhi Hh Hi. apply (@integrable_le d m (fun z => w z * h z)); auto.
  - apply cont_mult; auto. apply (@cont_min d m w (fun z => w (Phi z))); auto. apply (@cont_comp d m w Phi); auto. now apply pv_cmap.
  - intros z. rewrite !Rabs_mult. apply Rmult_le_compat_r; [apply Rabs_pos|]. now apply min_le_left.
Qed.
Lemma flip_cmap d m : cmap d m (flip d). Proof. apply pv_cmap. apply flip_volume. Qed.
Lemma exp_sum_over n (g : nat -> R) : exp (- sum_upto n g) = prod_upto n (fun i => exp (- g i)).
Proof. rewrite prod_exp, sum_opp. reflexivity. Qed.

Section MH.
Variable s : vtree.
Hypothesis Hs : wfv s.
Variables (Data Batch Model Full MassState : Type).
Variable get_data : Data -> Data * Batch.
Variable pot_value : vtree -> Batch -> Model -> R.
Variable pot_model : vtree -> Batch -> Model -> Model.
Variable G : vtree -> Batch -> vtree.
Hypothesis HG : forall t b, like s t -> like s (G t b).
Hypothesis HC : continuous_gradient s G.
Variable U : vtree -> R.
Hypothesis HUc : continuous_function s U.
Variable full_potential : vtree -> Full -> Model -> xr * (Full * Model).
Hypothesis HU : forall p fd m, fst (full_potential p fd m) = Fin (U p).
Variable mass_adaption : option ((vtree -> MassState) * (MassState -> vtree -> MassState) * (MassState -> mass_matrix)).
Variables (steps : nat) (friction : R) (const_mass : option vtree).

Lemma kinetic_weight (M : mass_matrix) T m : 0 < T -> diagonal s M -> exists a, (forall i, (i < dim s)%nat -> 0 < a i) /\
  forall z, exp (- (U (pos_tree s z) + kinetic s M (mom_tree s z)) / T) * prod_upto m (fun j => exp (- sum_upto (dim s) (fun i => z (CNoise j i) * z (CNoise j i) / 2))) = weight s m U T a z.
Proof.
  intros HT (vi & sq & Evi & Esq & Lvi & Lsq & Hvs). exists (fun i => el vi i / 2 / T). split.
  - intros i Hi. specialize (Hvs i Hi). assert (0 < el vi i).
    { destruct (Rle_lt_dec (el vi i) 0) as [Hle|]; auto. exfalso. assert (0 <= el sq i * el sq i) by apply Rle_0_sqr. assert (el vi i * (el sq i * el sq i) <= 0 * (el sq i * el sq i)) by (apply Rmult_le_compat_r; lra). lra. }
    apply Rdiv_lt_0_compat; lra.
  - intros z. unfold weight. rewrite <- Rmult_assoc. f_equal.
    + replace (- (U (pos_tree s z) + kinetic s M (mom_tree s z)) / T) with (- U (ptree s z) / T + - (kinetic s M (mom_tree s z) / T)) by (unfold pos_tree, ptree; field; lra).
      rewrite exp_plus. f_equal. rewrite <- exp_sum_over. do 2 f_equal. unfold kinetic. rewrite Evi.
      replace (sum_upto (dim s) (fun i => el (mom_tree s z) i * mulv (Tens1 vi) (dim s) (el (mom_tree s z)) i) / 2 / T) with (/ (2 * T) * sum_upto (dim s) (fun i => el (mom_tree s z) i * mulv (Tens1 vi) (dim s) (el (mom_tree s z)) i)) by (field; lra).
      rewrite <- sum_upto_scale. apply sum_upto_ext. intros i Hi. rewrite diag_mulv by auto. destruct (@tree_of_ok s (fun i => z (CMom i)) Hs) as [_ E]. unfold mom_tree. rewrite E by auto. field. lra.
    + apply prod_upto_ext. intros j _. rewrite exp_sum_over. apply prod_upto_ext. intros i _. f_equal. field.
Qed.

(** ** C58 *)
Local Notation amstep uniform := (am_step get_data pot_model G full_potential mass_adaption steps friction const_mass uniform).
Local Notation amdens := (am_density s U mass_adaption steps const_mass).
Section C58.
Variables (ms : option MassState) (sch : schedule) (eps : R).
Hypothesis He : sch_step sch = Fin eps.
Hypothesis Hpos : 0 < eps * friction.
Hypothesis Hd : diagonal s (rl_mass const_mass (mass_get mass_adaption ms) s).
Local Notation wt := (am_weight s U mass_adaption steps const_mass ms).
Lemma am_weight_form : exists a, (forall i, (i < dim s)%nat -> 0 < a i) /\ forall z, wt z = weight s steps U 1 a z.
Proof.
  destruct (@kinetic_weight _ 1 steps ltac:(lra) Hd) as (a & Ha & H). exists a. split; auto. intros z. rewrite <- H. unfold am_weight. do 2 f_equal. field.
Qed.

Theorem C58_stationary_riemann : forall (ds : list Data) (rev : Data -> Data), Permutation (map rev ds) ds -> (forall d, In d ds -> reversed_batches get_data steps d (rev d)) ->
  forall (normal : Data -> phase -> key -> list nat -> list R) (st : Data -> phase -> am_state key vtree vtree Model Data Full MassState) (mean : Data -> phase -> R) (f : vtree -> vtree -> R),
  let x := fun d z => lf_positions (am_integrator (st d z)) in
  let p := fun d z => lf_momentum (am_integrator (st d z)) in
  let density := fun d z => amdens (normal d z) (st d z) in
  let next := fun u d z => fst (amstep (fun _ => u) (normal d z) (st d z) sch) in
  (forall d z, In d ds -> am_starts s U steps ms d z (normal d z) (st d z)) ->
  (forall d z, In d ds -> uniform_mean (fun u => f (lf_positions (am_integrator (next u d z))) (lf_momentum (am_integrator (next u d z)))) (mean d z)) ->
  continuous_observable s f ->
  (forall d, In d ds -> riemann_integrable (dim s) steps (fun z => density d z * f (x d z) (p d z))) ->
  (forall d, In d ds -> riemann_integrable (dim s) steps (fun z => density d z * mean d z)) /\
  sum_over ds (fun d => riemann_integral (dim s) steps (fun z => density d z * mean d z)) = sum_over ds (fun d => riemann_integral (dim s) steps (fun z => density d z * f (x d z) (p d z))).
Proof.
  intros ds rev Hperm Hrev normal st mean f x p density next Hst Hmean Hf HL.
  destruct (@C54_reverse_map s Hs Data Batch Model Full MassState get_data pot_model G HG HC U full_potential HU mass_adaption steps friction const_mass ms sch eps He Hpos Hd) as (Phi & Hvol & _ & Hbal).
  destruct am_weight_form as (a & Ha & Hw).
  assert (Wp : forall z, 0 < wt z) by (intros z; rewrite Hw; now apply weight_pos).
  assert (Wc : continuous (dim s) steps wt) by (replace wt with (weight s steps U 1 a) by (extensionality z; symmetry; apply Hw); now apply weight_cont).
  assert (Hx : forall d z, In d ds -> pos_tree s z = x d z /\ mom_tree s z = p d z /\ density d z = wt z).
  { intros d z Hd0. pose proof (Hst d z Hd0) as Hz. pose proof (am_weight_ok Hs mass_adaption const_mass Hz) as Hw'. destruct Hz as (_ & Lx & Lp & _ & _ & _ & Hz). destruct (consists_trees Hs Lx Lp Hz). auto. }
  set (acc := fun d z => Rmin (wt z) (wt (Phi d z)) / wt z).
  apply (@C58_stationary s Hs Data Batch Model Full MassState get_data pot_model G HG HC U full_potential HU mass_adaption steps friction const_mass ms sch eps He Hpos Hd
    (riemann_integrable (dim s) steps) (riemann_integral (dim s) steps) (riemann_integral_is_integral (dim s) steps) ds rev Hperm Hrev normal st acc mean f Hst).
  - intros d z u Hi Hu. destruct (Hbal (fun _ => u) (fun _ => Hu) d z _ _ (Hst d z Hi)) as [_ Hb].
    assert (Hi' : In (rev d) ds) by (apply (Permutation_in _ Hperm); now apply in_map).
    destruct (Hb (rev d) _ _ (Hrev d Hi) (Hst (rev d) (Phi d z) Hi')) as (b & b' & A1 & _ & _ & A4). rewrite A1. do 2 f_equal.
    fold (density d z) in A4. fold (density (rev d) (Phi d z)) in A4. rewrite (proj2 (proj2 (Hx d z Hi))), (proj2 (proj2 (Hx (rev d) (Phi d z) Hi'))) in A4.
    unfold acc. rewrite <- A4. specialize (Wp z). field. lra.
  - exact Hmean.
  - intros d Hi. split; [now apply HL|].
    assert (E : (fun z => density d z * acc d z * f (x d z) (tree_scale (-1) (p d z))) = (fun z => Rmin (wt z) (wt (Phi d z)) * f (pos_tree s (flip (dim s) z)) (mom_tree s (flip (dim s) z)))).
    { extensionality z. destruct (Hx d z Hi) as (E1 & E2 & ->). rewrite (mom_tree_flip z Hs). change (pos_tree s (flip (dim s) z)) with (pos_tree s z). rewrite E1, E2. unfold acc. specialize (Wp z).
      change (tneg (p d z)) with (tree_scale (-1) (p d z)). field. lra. }
    change (riemann_integrable (dim s) steps (fun z => density d z * acc d z * f (x d z) (tree_scale (-1) (p d z)))). rewrite E. apply min_integrable; auto.
    + apply (@cont_comp (dim s) steps (fun z => f (ptree s z) (mtree s z)) (flip (dim s))); [now apply cont_observable|apply flip_cmap].
    + assert (L1 : riemann_integrable (dim s) steps (fun z => wt z * f (pos_tree s z) (mom_tree s z))).
      { replace (fun z => wt z * f (pos_tree s z) (mom_tree s z)) with (fun z => density d z * f (x d z) (p d z)); [now apply HL|].
        extensionality z. destruct (Hx d z Hi) as (<- & <- & ->). reflexivity. }
      destruct (@integral_volume _ _ _ _ (riemann_integral_is_integral (dim s) steps) _ _ (flip_volume (dim s) steps) L1) as [L2 _].
      assert (E2 : (fun z => wt z * f (pos_tree s (flip (dim s) z)) (mom_tree s (flip (dim s) z))) = (fun z => wt (flip (dim s) z) * f (pos_tree s (flip (dim s) z)) (mom_tree s (flip (dim s) z)))).
      { extensionality z. now rewrite (am_weight_flip Hs U mass_adaption steps const_mass ms Hd z). }
      rewrite E2. exact L2.
Qed.
(** If exp(-U) decays, then bounded continuous functions are integrable and the density has a positive integral: the mean values above are those of a probability distribution. *)
Theorem C58_integrable : decays s U 1 -> forall d (normal : phase -> key -> list nat -> list R) (st : phase -> am_state key vtree vtree Model Data Full MassState) f B,
  let density := fun z => amdens (normal z) (st z) in
  (forall z, am_starts s U steps ms d z (normal z) (st z)) ->
  continuous_observable s f -> (forall a b, like s a -> like s b -> Rabs (f a b) <= B) ->
  riemann_integrable (dim s) steps (fun z => density z * f (lf_positions (am_integrator (st z))) (lf_momentum (am_integrator (st z)))) /\
  riemann_integrable (dim s) steps density /\ 0 < riemann_integral (dim s) steps density.
Proof.
  intros HD d normal st f B density Hst Hf HB. destruct am_weight_form as (a & Ha & Hw).
  assert (Hx : forall z, pos_tree s z = lf_positions (am_integrator (st z)) /\ mom_tree s z = lf_momentum (am_integrator (st z)) /\ density z = weight s steps U 1 a z).
  { intros z. pose proof (Hst z) as Hz. pose proof (am_weight_ok Hs mass_adaption const_mass Hz) as Hw'. destruct Hz as (_ & Lx & Lp & _ & _ & _ & Hz). destruct (consists_trees Hs Lx Lp Hz). rewrite <- Hw. auto. }
  assert (W1 : riemann_integrable (dim s) steps density).
  { replace density with (fun z => weight s steps U 1 a z * 1) by (extensionality z; rewrite (proj2 (proj2 (Hx z))); ring).
    apply (@weight_integrable s Hs steps U 1 a Ha (fun _ => 1) 1 HUc HD); [apply cont_const|]. intros z. rewrite Rabs_R1. lra. }
  split; [|split; [exact W1|]].
  - replace (fun z => density z * f (lf_positions (am_integrator (st z))) (lf_momentum (am_integrator (st z)))) with (fun z => weight s steps U 1 a z * f (ptree s z) (mtree s z)).
    + apply (@weight_integrable s Hs steps U 1 a Ha _ B HUc HD); [now apply cont_observable|]. intros z. apply HB; [apply (ptree_ok Hs)|apply (mtree_ok Hs)].
    + extensionality z. destruct (Hx z) as (<- & <- & ->). reflexivity.
  - apply integral_pos; auto. intros z. rewrite (proj2 (proj2 (Hx z))). apply weight_pos.
Qed.
End C58.

(** ** C59 *)
Local Notation sgstep uniform := (sg_step get_data pot_value pot_model G full_potential mass_adaption steps friction const_mass uniform).
Local Notation sgdens := (sg_density s U mass_adaption steps const_mass).
Section C59.
Variables (ms : option MassState) (sch : schedule) (eps T : R).
Hypothesis He : sch_step sch = Fin eps.
Hypothesis HT : sch_temperature sch = Fin T.
Hypothesis Hpos : 0 < friction * eps.
Hypothesis HTpos : 0 < T.
Hypothesis Hd : diagonal s (ob_mass const_mass (mass_get mass_adaption ms) s).
Local Notation wt := (sg_weight s U mass_adaption steps const_mass ms T).
Lemma sg_weight_form : exists a, (forall i, (i < dim s)%nat -> 0 < a i) /\ forall z, wt z = weight s (2 * steps) U T a z.
Proof.
  destruct (@kinetic_weight _ T (2 * steps) HTpos Hd) as (a & Ha & H). exists a. split; auto. intros z. rewrite <- H. unfold sg_weight. f_equal.
  rewrite prod_upto_pairs. reflexivity.
Qed.

(** the mean of a function of the position, or an even function of the momentum, does not change *)
Theorem C59_stationary_riemann : forall (ds : list Data) (rev : Data -> Data), Permutation (map rev ds) ds -> (forall d, In d ds -> reversed_batches get_data (2 * steps) d (rev d)) ->
  forall (normal : Data -> phase -> key -> list nat -> list R) (st : Data -> phase -> sg_state key vtree vtree Model Data Full MassState) (mean : Data -> phase -> R) (f : vtree -> vtree -> R),
  (forall a b, like s b -> f a (tree_scale (-1) b) = f a b) ->
  let x := fun d z => ob_positions (sg_integrator (st d z)) in
  let p := fun d z => ob_momentum (sg_integrator (st d z)) in
  let density := fun d z => sgdens T (normal d z) (st d z) in
  let next := fun u d z => fst (sgstep (fun _ => u) (normal d z) (st d z) sch) in
  (forall d z, In d ds -> sg_starts s U steps ms d z (normal d z) (st d z)) ->
  (forall d z, In d ds -> uniform_mean (fun u => f (ob_positions (sg_integrator (next u d z))) (ob_momentum (sg_integrator (next u d z)))) (mean d z)) ->
  continuous_observable s f ->
  (forall d, In d ds -> riemann_integrable (dim s) (2 * steps) (fun z => density d z * f (x d z) (p d z))) ->
  sum_over ds (fun d => riemann_integral (dim s) (2 * steps) (fun z => density d z * mean d z)) = sum_over ds (fun d => riemann_integral (dim s) (2 * steps) (fun z => density d z * f (x d z) (p d z))).
Proof.
  intros ds rev Hperm Hrev normal st mean f Hev x p density next Hst Hmean Hf HL.
  destruct (@C55_reverse_map s Hs Data Batch Model Full MassState get_data pot_value pot_model G HG HC U full_potential HU mass_adaption steps friction const_mass ms sch eps T He HT Hpos HTpos Hd) as (Phi & Hvol & _ & Hbal).
  destruct sg_weight_form as (a & Ha & Hw).
  assert (Wp : forall z, 0 < wt z) by (intros z; rewrite Hw; now apply weight_pos).
  assert (Wc : continuous (dim s) (2 * steps) wt) by (replace wt with (weight s (2 * steps) U T a) by (extensionality z; symmetry; apply Hw); now apply weight_cont).
  assert (Hx : forall d z, In d ds -> pos_tree s z = x d z /\ mom_tree s z = p d z /\ density d z = wt z).
  { intros d z Hd0. pose proof (Hst d z Hd0) as Hz. pose proof (sg_weight_ok Hs get_data pot_value pot_model G HG full_potential HU mass_adaption const_mass T Hz) as Hw'. destruct Hz as (_ & Lx & Lp & _ & _ & _ & _ & _ & Hz). destruct (consists_trees Hs Lx Lp Hz). auto. }
  set (acc := fun d z => Rmin (wt z) (wt (Phi d z)) / wt z).
  apply (@C59_stationary_even s Hs Data Batch Model Full MassState get_data pot_value pot_model G HG HC U full_potential HU mass_adaption steps friction const_mass ms sch eps T He HT Hpos HTpos Hd
    (riemann_integrable (dim s) (2 * steps)) (riemann_integral (dim s) (2 * steps)) (riemann_integral_is_integral (dim s) (2 * steps)) ds rev Hperm Hrev normal st acc mean f Hev Hst).
  - intros d z u Hi Hu. destruct (Hbal (fun _ => u) (fun _ => Hu) d z _ _ (Hst d z Hi)) as [_ Hb].
    assert (Hi' : In (rev d) ds) by (apply (Permutation_in _ Hperm); now apply in_map).
    destruct (Hb (rev d) _ _ (Hrev d Hi) (Hst (rev d) (Phi d z) Hi')) as (b & b' & A1 & _ & _ & A4). rewrite A1. do 2 f_equal.
    fold (density d z) in A4. fold (density (rev d) (Phi d z)) in A4. rewrite (proj2 (proj2 (Hx d z Hi))), (proj2 (proj2 (Hx (rev d) (Phi d z) Hi'))) in A4.
    unfold acc. rewrite <- A4. specialize (Wp z). field. lra.
  - exact Hmean.
  - intros d Hi. split; [now apply HL|].
    assert (E : (fun z => density d z * acc d z * f (x d z) (p d z)) = (fun z => Rmin (wt z) (wt (Phi d z)) * f (ptree s z) (mtree s z))).
    { extensionality z. destruct (Hx d z Hi) as (<- & <- & ->). unfold acc. specialize (Wp z). unfold pos_tree, mom_tree, ptree, mtree. field. lra. }
    change (riemann_integrable (dim s) (2 * steps) (fun z => density d z * acc d z * f (x d z) (p d z))). rewrite E. apply min_integrable; auto; [now apply cont_observable|].
    replace (fun z => wt z * f (ptree s z) (mtree s z)) with (fun z => density d z * f (x d z) (p d z)); [now apply HL|].
    extensionality z. destruct (Hx d z Hi) as (<- & <- & ->). reflexivity.
Qed.
Theorem C59_integrable : decays s U T -> forall d (normal : phase -> key -> list nat -> list R) (st : phase -> sg_state key vtree vtree Model Data Full MassState) f B,
  let density := fun z => sgdens T (normal z) (st z) in
  (forall z, sg_starts s U steps ms d z (normal z) (st z)) ->
  continuous_observable s f -> (forall a b, like s a -> like s b -> Rabs (f a b) <= B) ->
  riemann_integrable (dim s) (2 * steps) (fun z => density z * f (ob_positions (sg_integrator (st z))) (ob_momentum (sg_integrator (st z)))) /\
  riemann_integrable (dim s) (2 * steps) density /\ 0 < riemann_integral (dim s) (2 * steps) density.
Proof.
  intros HD d normal st f B density Hst Hf HB. destruct sg_weight_form as (a & Ha & Hw).
  assert (Hx : forall z, pos_tree s z = ob_positions (sg_integrator (st z)) /\ mom_tree s z = ob_momentum (sg_integrator (st z)) /\ density z = weight s (2 * steps) U T a z).
  { intros z. pose proof (Hst z) as Hz. pose proof (sg_weight_ok Hs get_data pot_value pot_model G HG full_potential HU mass_adaption const_mass T Hz) as Hw'. destruct Hz as (_ & Lx & Lp & _ & _ & _ & _ & _ & Hz). destruct (consists_trees Hs Lx Lp Hz). rewrite <- Hw. auto. }
  assert (W1 : riemann_integrable (dim s) (2 * steps) density).
  { replace density with (fun z => weight s (2 * steps) U T a z * 1) by (extensionality z; rewrite (proj2 (proj2 (Hx z))); ring).
    apply (@weight_integrable s Hs (2 * steps) U T a Ha (fun _ => 1) 1 HUc HD); [apply cont_const|]. intros z. rewrite Rabs_R1. lra. }
  split; [|split; [exact W1|]].
  - replace (fun z => density z * f (ob_positions (sg_integrator (st z))) (ob_momentum (sg_integrator (st z)))) with (fun z => weight s (2 * steps) U T a z * f (ptree s z) (mtree s z)).
    + apply (@weight_integrable s Hs (2 * steps) U T a Ha _ B HUc HD); [now apply cont_observable|]. intros z. apply HB; [apply (ptree_ok Hs)|apply (mtree_ok Hs)].
    + extensionality z. destruct (Hx z) as (<- & <- & ->). reflexivity.
  - apply integral_pos; auto. intros z. rewrite (proj2 (proj2 (Hx z))). apply weight_pos.
Qed.
End C59.
End MH.

(** ** the hypotheses hold for the examples of PropertiesVolume.v and the potential |x|^2 *)
Lemma quad_continuous s : wfv s -> continuous_function s (fun x => tdot x x).
Proof.
  intros Hs t Lt e He. set (B := sum_upto (dim s) (fun i => Rabs (el t i))).
  assert (HB : 0 <= B) by (apply Rle_trans with (sum_upto (dim s) (fun _ => 0)); [rewrite sum_upto_zero by reflexivity; lra|apply sum_upto_le; intros; apply Rabs_pos]).
  pose proof (pos_INR (dim s)) as HN. set (K := 2 * B + INR (dim s) + 1). exists (Rmin 1 (e / K)). assert (HK : 0 < K) by (unfold K; lra).
  assert (Hd : 0 < Rmin 1 (e / K)) by (apply Rmin_pos; [lra|now apply Rdiv_lt_0_compat]). split; auto. intros t' Lt' H.
  pose proof (Rmin_l 1 (e / K)) as D1. pose proof (Rmin_r 1 (e / K)) as D2. set (del := Rmin 1 (e / K)) in *.
  rewrite !(tdot_ok Hs) by auto. rewrite <- sum_upto_minus. eapply Rle_lt_trans; [apply sum_upto_abs|].
  apply Rle_lt_trans with (sum_upto (dim s) (fun i => del * (2 * Rabs (el t i)) + del * 1)).
  - apply sum_upto_le. intros i Hi. specialize (H i Hi). set (r := el t' i - el t i) in *. replace (el t' i * el t' i - el t i * el t i) with (r * (2 * el t i) + r * r) by (unfold r; ring).
    eapply Rle_trans; [apply Rabs_triang|]. rewrite !Rabs_mult, (Rabs_pos_eq 2) by lra. pose proof (Rabs_pos r). pose proof (Rabs_pos (el t i)). apply Rplus_le_compat.
    + apply Rmult_le_compat_r; lra.
    + apply Rmult_le_compat; lra.
  - rewrite sum_upto_plus, !sum_upto_scale, sum_upto_const. fold B.
    apply Rlt_le_trans with (del * K); [unfold K; apply Rle_lt_trans with (del * (2 * B + INR (dim s))); [right; ring|apply Rmult_lt_compat_l; lra]|].
    apply Rle_trans with (e / K * K); [apply Rmult_le_compat_r; lra|]. right. field. lra.
Qed.
Lemma quad_decays s T : wfv s -> 0 < T -> decays s (fun x => tdot x x) T.
Proof.
  intros Hs HT. destruct (@gauss_prod (dim s) (fun _ => / T)) as (C & HC & H); [intros; now apply Rinv_0_lt_compat|]. exists C. intros x Lx. eapply Rle_trans; [|apply (H (el x))].
  right. rewrite (tdot_ok Hs) by auto. replace (- sum_upto (dim s) (fun i => el x i * el x i) / T) with (- (/ T * sum_upto (dim s) (fun i => el x i * el x i))) by (field; lra).
  rewrite <- sum_upto_scale, exp_sum_over. reflexivity.
Qed.
Definition ex_f (x p : vtree) : R := sin (el x 0 + el p 0).
Lemma ex_f_continuous : continuous_observable (tree_ab 0 0) ex_f.
Proof.
  intros x p Lx Lp e He. destruct (continuity_sin (el x 0 + el p 0) e He) as (del & Hd & H). exists (del / 2). split; [lra|]. intros x' p' Lx' Lp' Hc.
  destruct (Hc 0%nat ltac:(cbn; lia)) as [H1 H2]. unfold ex_f. destruct (Req_dec (el x 0 + el p 0) (el x' 0 + el p' 0)) as [E|E].
  - rewrite E, Rminus_diag_eq, Rabs_R0 by reflexivity. exact He.
  - apply (H (el x' 0 + el p' 0)). split; [split; [exact Logic.I|exact E]|]. cbn. unfold R_dist.
    replace (el x' 0 + el p' 0 - (el x 0 + el p 0)) with ((el x' 0 - el x 0) + (el p' 0 - el p 0)) by ring. eapply Rle_lt_trans; [apply Rabs_triang|]. lra.
Qed.
(** AMAGOLD, two batches per step, forwards 7, 8 and backwards 8, 7, potential |x|^2: the mean of sin(x_0 + p_0) does not change, and the density has a positive integral *)
Example C58_riemann_nonvacuous : exists (normal : nat * bool -> phase -> key -> list nat -> list R) (st : nat * bool -> phase -> am_state key vtree vtree unit (nat * bool) unit unit) (mean : nat * bool -> phase -> R),
  let ds := [(7%nat, true); (8%nat, false)] in
  let step := fun u d z => am_step ex_source (fun _ _ m => m) ex_G (fun p fd m => (Fin (ex_U p), (fd, m))) None 2 (1 / 2) (Some (tree_ab 4 9)) (fun _ => u) (normal d z) (st d z) ex_sch in
  let x := fun d z => lf_positions (am_integrator (st d z)) in
  let p := fun d z => lf_momentum (am_integrator (st d z)) in
  let density := fun d z => am_density (tree_ab 0 0) ex_U None 2 (Some (tree_ab 4 9)) (normal d z) (st d z) in
  (forall d z i, (i < 2)%nat -> el (x d z) i = z (CPos i) /\ el (p d z) i = z (CMom i)) /\
  (forall d z, uniform_mean (fun u => let y := am_integrator (fst (step u d z)) in ex_f (lf_positions y) (lf_momentum y)) (mean d z)) /\
  (forall d, riemann_integrable 2 2 (density d) /\ 0 < riemann_integral 2 2 (density d)) /\
  sum_over ds (fun d => riemann_integral 2 2 (fun z => density d z * mean d z)) = sum_over ds (fun d => riemann_integral 2 2 (fun z => density d z * ex_f (x d z) (p d z))).
Proof.
  assert (HG : forall t (b : nat), like (tree_ab 0 0) t -> like (tree_ab 0 0) (ex_G t b)) by (intros; now apply like_scale).
  destruct (@am_states_exist (tree_ab 0 0) (tree_ab_wf 0 0) (nat * bool) unit unit unit ex_U 2 None tt tt (PRNGKey 1) (PRNGKey 2)) as (normal & st & Hst).
  set (step := fun u d z => am_step ex_source (fun _ _ m => m) ex_G (fun p fd m => (Fin (ex_U p), (fd, m))) None 2 (1 / 2) (Some (tree_ab 4 9)) (fun _ => u) (normal d z) (st d z) ex_sch).
  set (F := fun d z u => let y := am_integrator (fst (step u d z)) in ex_f (lf_positions y) (lf_momentum y)).
  set (acc := fun d z => fin_or 0 (match st_acceptance (snd (step 0 d z)) with Some a => a | None => NaN end)).
  set (mean := fun d z => acc d z * F d z 0 + (1 - acc d z) * F d z (acc d z)).
  assert (Hmean : forall d z, uniform_mean (F d z) (mean d z)).
  { intros d z. destruct (Hst d z) as (_ & _ & _ & _ & EU & _).
    set (pr := am_proposal ex_source (fun _ _ m => m) ex_G None 2 (1 / 2) (Some (tree_ab 4 9)) (normal d z) (st d z) ex_sch).
    set (P := Rmin 1 (exp (ex_U (lf_positions (am_integrator (st d z))) - ex_U (lf_positions pr) + fin_or 0 (lf_potential pr)))).
    assert (C : forall v, 0 <= v < 1 -> st_acceptance (snd (step v d z)) = Some (Fin P) /\ 0 < P <= 1 /\ (v < P -> F d z v = ex_f (lf_positions pr) (tree_scale 1 (lf_momentum pr))) /\
      (P <= v -> F d z v = ex_f (lf_positions (am_integrator (st d z))) (tree_scale (-1) (lf_momentum (am_integrator (st d z)))))).
    { intros v Hv. destruct (@C35_step key vtree vtree unit (nat * bool) unit mass_matrix unit split2 (fun _ => v) (fun _ => Hv) tree_scale (fun p fd m => (Fin (ex_U p), (fd, m))) None
        (leapfrog_update (normal d z) ex_source (fun _ _ m => m) (fun t b _ => ex_G t b) 2 (1 / 2) (Some (tree_ab 4 9))) (st d z) ex_sch (Fin (ex_U (lf_positions pr))) (am_full (st d z)) (lf_model pr) (ex_U (lf_positions (am_integrator (st d z)))) (ex_U (lf_positions pr)) (fin_or 0 (lf_potential pr)) eq_refl EU eq_refl eq_refl) as (A & A2 & _ & _ & _ & A6 & A7).
      split; [exact A|]. split; [exact A2|]. split; intros H; unfold F; cbv zeta.
      - destruct (A6 H) as (B1 & B2 & _). unfold step, am_step. rewrite B1, B2. reflexivity.
      - destruct (A7 H) as (B1 & B2 & _). unfold step, am_step. rewrite B1, B2. reflexivity. }
    assert (EP : acc d z = P) by (unfold acc; destruct (C 0 ltac:(lra)) as [-> _]; reflexivity).
    destruct (C 0 ltac:(lra)) as (_ & HP & H0 & _).
    exists P, (F d z 0), (F d z P). split; [lra|]. split; [|split].
    - intros u Hu. destruct (C u ltac:(lra)) as (_ & _ & H1 & _). rewrite H1, H0 by lra. reflexivity.
    - intros u Hu. destruct (C u ltac:(lra)) as (_ & _ & _ & H1). destruct (C P ltac:(lra)) as (_ & _ & _ & H2). rewrite H1, H2 by lra. reflexivity.
    - unfold mean. now rewrite EP. }
  assert (HI : forall d, riemann_integrable 2 2 (fun z => am_density (tree_ab 0 0) ex_U None 2 (Some (tree_ab 4 9)) (normal d z) (st d z) * ex_f (lf_positions (am_integrator (st d z))) (lf_momentum (am_integrator (st d z)))) /\
    riemann_integrable 2 2 (fun z => am_density (tree_ab 0 0) ex_U None 2 (Some (tree_ab 4 9)) (normal d z) (st d z)) /\ 0 < riemann_integral 2 2 (fun z => am_density (tree_ab 0 0) ex_U None 2 (Some (tree_ab 4 9)) (normal d z) (st d z))).
  { intros d. apply (@C58_integrable (tree_ab 0 0) (tree_ab_wf 0 0) (nat * bool) unit unit unit ex_U (quad_continuous (tree_ab_wf 0 0)) None 2 (Some (tree_ab 4 9)) None ex_mass_diagonal (@quad_decays (tree_ab 0 0) 1 (tree_ab_wf 0 0) Rlt_0_1) d (normal d) (st d) ex_f 1 (Hst d) ex_f_continuous).
    intros a b _ _. unfold ex_f. apply Rabs_le. destruct (SIN_bound (el a 0 + el b 0)). lra. }
  exists normal, st, mean. intros ds step' x p density. split; [|split; [exact Hmean|split]].
  - intros d z i Hi. destruct (Hst d z) as (_ & _ & _ & _ & _ & _ & H). destruct (H i Hi) as (H1 & H2 & _). auto.
  - intros d. apply (HI d).
  - refine (proj2 (@C58_stationary_riemann (tree_ab 0 0) (tree_ab_wf 0 0) (nat * bool) nat unit unit unit ex_source (fun _ _ m => m) ex_G HG ex_G_continuous ex_U (quad_continuous (tree_ab_wf 0 0)) (fun p fd m => (Fin (ex_U p), (fd, m))) (fun _ _ _ => eq_refl) None 2 (1 / 2) (Some (tree_ab 4 9))
      None ex_sch (1 / 10) eq_refl ltac:(lra) ex_mass_diagonal ds ex_rev _ ex_rev_ok normal st mean ex_f (fun d z _ => Hst d z) (fun d z _ => Hmean d z) ex_f_continuous (fun d _ => proj1 (HI d)))).
    apply perm_swap.
Qed.

(** ** the integral *)
(** it is linear and invariant under volume preserving maps; for test functions it is the limit of the Riemann sums; for products it is the product of the integrals of Coquelicot *)
Theorem C58_integral : forall d m, integral d m (riemann_integrable d m) (riemann_integral d m) /\
  (forall f v, test_function d m f -> riemann_limit d m f v -> riemann_integrable d m f /\ riemann_integral d m f = v) /\
  (forall f g, riemann_integrable d m f -> riemann_integrable d m g -> (forall z, f z <= g z) -> riemann_integral d m f <= riemann_integral d m g) /\
  forall (g : coord -> R -> R) (M : nat), (forall c, continuity (g c)) -> (forall c t, INR M <= Rabs t -> g c t = 0) ->
  riemann_integral d m (fun z => prod_over (coords d m) (fun c => g c (z c))) = prod_over (coords d m) (fun c => @RInt.RInt Hierarchy.R_CompleteNormedModule (g c) (- INR M) (INR M)).
Proof.
  intros d m. split; [apply riemann_integral_is_integral|]. split; [intros; now apply integral_test|]. split; [intros; now apply integral_le|].
  intros g M Hg Hv. apply (@integral_test d m); [now apply (@product_test d m g M)|now apply (@product_limit d m g M)].
Qed.

Print Assumptions C58_stationary_riemann.
Print Assumptions C58_integrable.
Print Assumptions C59_stationary_riemann.
Print Assumptions C59_integrable.
Print Assumptions C58_integral.
Print Assumptions C58_riemann_nonvacuous.
