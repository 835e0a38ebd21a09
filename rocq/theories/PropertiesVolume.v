(** C54, C55, C58, C59: the proposals of AMAGOLD and SGGMC as volume preserving maps of the phase space; stationary distribution. *)
From Coq Require Import Reals Lra Permutation FunctionalExtensionality.
From Verif Require Import Base Pytree PytreeSpec Io TreeUtil TreeUtilSpec TreeUtilProofs Xreal Scheduler Solver Mh MhProofs PropertiesMh
  Integrator IntegratorSpec IntegratorBasics ObaboProofs LeapfrogFinal ObaboFinal BalanceSpec BalanceProofs MhIntegrators PropertiesIntegrator KeyBasics PropertiesBalance
  VolumeSpec VolumeProofs LeapfrogVolume ObaboVolume Stationary.
Open Scope R_scope.
Set Implicit Arguments.
Local Arguments Nat.ltb : simpl never.

Lemma prod_upto_ext n f g : (forall i, (i < n)%nat -> f i = g i) -> prod_upto n f = prod_upto n g.
Proof. intros H. unfold prod_upto. f_equal. apply map_ext_in. intros i Hi. apply H. apply in_seq in Hi. lia. Qed.
Definition pos_tree (s : vtree) (z : phase) : vtree := tree_of s (fun i => z (CPos i)).
Definition mom_tree (s : vtree) (z : phase) : vtree := tree_of s (fun i => z (CMom i)).
Lemma consists_trees s m z x p normal K : wfv s -> like s x -> like s p -> consists_of s m z x p normal K -> pos_tree s z = x /\ mom_tree s z = p.
Proof. intros Hs Lx Lp H. split; apply tree_of_el; auto; intros i Hi; apply H; auto. Qed.
Lemma mom_tree_flip s z : wfv s -> mom_tree s (flip (dim s) z) = tneg (mom_tree s z).
Proof.
  intros Hs. destruct (@tree_of_ok s (fun i => z (CMom i)) Hs) as [L E]. apply tree_of_el; auto; [now apply like_neg|].
  intros i Hi. unfold mom_tree. rewrite (el_neg Hs L Hi), E by auto. cbn. apply Nat.ltb_lt in Hi. now rewrite Hi.
Qed.

Section MH.
Variable s : vtree.
Hypothesis Hs : wfv s.
Variables (Data Batch Model Full MassState : Type).
Variable get_data : Data -> Data * Batch.
Variable pot_value : vtree -> Batch -> Model -> R.
Variable pot_model : vtree -> Batch -> Model -> Model.
Variable G : vtree -> Batch -> vtree.
Hypothesis HG : forall t b, like s t -> like s (G t b).
Hypothesis HC : continuous_gradient s G.
Variable U : vtree -> R.
Variable full_potential : vtree -> Full -> Model -> xr * (Full * Model).
Hypothesis HU : forall p fd m, fst (full_potential p fd m) = Fin (U p).
Variable mass_adaption : option ((vtree -> MassState) * (MassState -> vtree -> MassState) * (MassState -> mass_matrix)).
Variables (steps : nat) (friction : R) (const_mass : option vtree).

(** ** C54 *)
(** the state st, with data state d and mass state ms, and the next random vectors form the point z of the phase space *)
Definition am_starts (ms : option MassState) (d : Data) (z : phase) (normal : key -> list nat -> list R) (st : am_state key vtree vtree Model Data Full MassState) : Prop :=
  normal_ok normal /\ like s (lf_positions (am_integrator st)) /\ like s (lf_momentum (am_integrator st)) /\ am_mass st = ms /\
  am_potential st = Fin (U (lf_positions (am_integrator st))) /\ lf_data (am_integrator st) = d /\
  consists_of s steps z (lf_positions (am_integrator st)) (lf_momentum (am_integrator st)) normal (fun j => Sub (chain (lf_key (am_integrator st)) j) 1).
Local Notation amstep uniform := (am_step get_data pot_model G full_potential mass_adaption steps friction const_mass uniform).
Local Notation amprop := (am_proposal get_data pot_model G mass_adaption steps friction const_mass).
Local Notation amdens := (am_density s U mass_adaption steps const_mass).

Section C54.
Variables (ms : option MassState) (sch : schedule) (eps : R).
Hypothesis He : sch_step sch = Fin eps.
Hypothesis Hpos : 0 < eps * friction.
Hypothesis Hd : diagonal s (rl_mass const_mass (mass_get mass_adaption ms) s).
Definition am_weight (z : phase) : R := exp (- (U (pos_tree s z) + kinetic s (rl_mass const_mass (mass_get mass_adaption ms) s) (mom_tree s z))) *
  prod_upto steps (fun j => exp (- sum_upto (dim s) (fun i => z (CNoise j i) * z (CNoise j i) / 2))).
Lemma am_weight_ok d z normal st : am_starts ms d z normal st -> amdens normal st = am_weight z.
Proof.
  intros (Hn & Lx & Lp & Em & _ & _ & Hz). destruct (consists_trees Hs Lx Lp Hz) as [E1 E2]. unfold am_density, am_weight, am_matrix. rewrite E1, E2, Em.
  rewrite (@rl_mass_same s const_mass (mass_get mass_adaption ms) (lf_positions (am_integrator st)) s Hs Lx (like_refl Hs)). f_equal.
  apply prod_upto_ext. intros j Hj. unfold gauss. do 2 f_equal. apply sum_upto_ext. intros i Hi. destruct (Hz i Hi) as (_ & _ & H). now rewrite H.
Qed.
Lemma am_weight_flip z : am_weight (flip (dim s) z) = am_weight z.
Proof.
  unfold am_weight. rewrite (mom_tree_flip z Hs). change (pos_tree s (flip (dim s) z)) with (pos_tree s z).
  destruct (diagonal_fits Hd) as [Hinv _]. destruct (@tree_of_ok s (fun i => z (CMom i)) Hs) as [L E].
  rewrite <- !(@kinetic_ok s _ _ Hs Hinv) by (auto using like_neg). rewrite (kin_neg Hs _ Hinv) by exact L. reflexivity.
Qed.

(** the map of C54 *)
Lemma am_reverse_map vi sq : let M := rl_mass const_mass (mass_get mass_adaption ms) s in m_inv M = Tens1 vi -> m_sqrt M = Tens1 sq -> like s vi -> like s sq ->
  (forall i, (i < dim s)%nat -> el vi i * (el sq i * el sq i) = 1) -> let Phi := fun d => lf_map s G friction eps vi sq steps (batch_no get_data d) in
  (forall d, preserves_volume (dim s) steps (Phi d)) /\
  (forall d d' z, reversed_batches get_data steps d d' -> Phi d' (Phi d z) = z) /\
  forall uniform, (forall k, 0 <= uniform k < 1) -> forall d z normal st, am_starts ms d z normal st ->
  (forall i, (i < dim s)%nat -> Phi d z (CPos i) = el (lf_positions (amprop normal st sch)) i /\ Phi d z (CMom i) = - el (lf_momentum (amprop normal st sch)) i) /\
  forall d' normal' st', reversed_batches get_data steps d d' -> am_starts ms d' (Phi d z) normal' st' ->
  exists a a', st_acceptance (snd (amstep uniform normal st sch)) = Some (Fin a) /\ st_acceptance (snd (amstep uniform normal' st' sch)) = Some (Fin a') /\
  amdens normal st * a = amdens normal' st' * a' /\ amdens normal st * a = Rmin (amdens normal st) (amdens normal' st').
Proof.
  intros M Evi Esq Lvi Lsq Hvs Phi. unfold Phi, M in *. split; [|split].
  - intros d. apply lf_map_volume; auto.
  - intros d d' z H. now apply (@lf_map_involution s Batch Model pot_model G HG friction eps vi sq steps).
  - intros uniform Hu d z normal st (Hn & Lx & Lp & Em & EU & Ed & Hz).
    set (r0 := rl_of (am_integrator st)). set (mo := mass_get mass_adaption ms) in *.
    assert (EM : rl_mass const_mass mo (r_pos r0) = rl_mass const_mass mo s) by (apply (rl_mass_same (s := s)); auto using like_refl).
    assert (E1 : m_inv (rl_mass const_mass mo (r_pos r0)) = Tens1 vi) by now rewrite EM.
    assert (E2 : m_sqrt (rl_mass const_mass mo (r_pos r0)) = Tens1 sq) by now rewrite EM.
    assert (Epr : amprop normal st sch = lf_of (fst (rl_integrate normal get_data pot_model (fun t b _ => G t b) steps friction const_mass eps mo r0)))
      by (unfold am_proposal, leapfrog_update; rewrite He, Em; reflexivity).
    split.
    + intros i Hi. destruct (@lf_map_effect s Hs const_mass mo Data Batch Model get_data pot_model G HG friction eps Hpos vi sq Lvi Lsq Hvs normal Hn r0 Lx Lp E1 E2 steps z Hz i Hi) as (A & B & _).
      rewrite Epr. rewrite <- Ed. split; [exact A|exact B].
    + intros d' normal' st' Hr (Hn' & Lx' & Lp' & Em' & EU' & Ed' & Hz').
      rewrite <- Ed in Hz'.
      destruct (@lf_map_back s Hs const_mass mo Data Batch Model get_data pot_model G HG friction eps Hpos vi sq Lvi Lsq Hvs normal Hn r0 Lx Lp E1 E2 steps z Hz
        _ _ normal' (lf_key (am_integrator st')) Lx' Lp' Hz') as (Bx & Bp & Bn).
      apply (@am_balance_given s Hs Data Batch Model Full MassState get_data pot_model G HG U full_potential HU mass_adaption steps friction const_mass uniform Hu normal Hn st sch eps He Hpos Lx Lp).
      * unfold am_matrix. rewrite Em. fold mo. change (lf_positions (am_integrator st)) with (r_pos r0). rewrite EM. exact Hd.
      * exact EU.
      * rewrite Epr. exact Bx.
      * rewrite Epr. exact Bp.
      * rewrite EU', Epr. cbn [lf_of lf_positions]. now rewrite Bx.
      * now rewrite Em, Em'.
      * now rewrite Ed, Ed'.
      * exact Hn'.
      * rewrite Em. exact Bn.
Qed.
Theorem C54_reverse_map : exists Phi : Data -> phase -> phase,
  (forall d, preserves_volume (dim s) steps (Phi d)) /\
  (forall d d' z, reversed_batches get_data steps d d' -> Phi d' (Phi d z) = z) /\
  forall uniform, (forall k, 0 <= uniform k < 1) -> forall d z normal st, am_starts ms d z normal st ->
  (forall i, (i < dim s)%nat -> Phi d z (CPos i) = el (lf_positions (amprop normal st sch)) i /\ Phi d z (CMom i) = - el (lf_momentum (amprop normal st sch)) i) /\
  forall d' normal' st', reversed_batches get_data steps d d' -> am_starts ms d' (Phi d z) normal' st' ->
  exists a a', st_acceptance (snd (amstep uniform normal st sch)) = Some (Fin a) /\ st_acceptance (snd (amstep uniform normal' st' sch)) = Some (Fin a') /\
  amdens normal st * a = amdens normal' st' * a' /\ amdens normal st * a = Rmin (amdens normal st) (amdens normal' st').
Proof.
  destruct Hd as (vi & sq & Evi & Esq & Lvi & Lsq & Hvs).
  exists (fun d => lf_map s G friction eps vi sq steps (batch_no get_data d)). exact (@am_reverse_map vi sq Evi Esq Lvi Lsq Hvs).
Qed.

(** The target distribution is stationary: if the sequences of batches are as likely as their reversals, then the mean of any function of
    position and momentum after one step from the target distribution is its mean under the target distribution. *)
Theorem C58_stationary : forall integrable I, integral (dim s) steps integrable I ->
  forall (ds : list Data) (rev : Data -> Data), Permutation (map rev ds) ds -> (forall d, In d ds -> reversed_batches get_data steps d (rev d)) ->
  forall (normal : Data -> phase -> key -> list nat -> list R) (st : Data -> phase -> am_state key vtree vtree Model Data Full MassState) (acc mean : Data -> phase -> R) (f : vtree -> vtree -> R),
  let x := fun d z => lf_positions (am_integrator (st d z)) in
  let p := fun d z => lf_momentum (am_integrator (st d z)) in
  let density := fun d z => amdens (normal d z) (st d z) in
  let next := fun u d z => fst (amstep (fun _ => u) (normal d z) (st d z) sch) in
  (forall d z, In d ds -> am_starts ms d z (normal d z) (st d z)) ->
  (forall d z u, In d ds -> 0 <= u < 1 -> st_acceptance (snd (amstep (fun _ => u) (normal d z) (st d z) sch)) = Some (Fin (acc d z))) ->
  (forall d z, In d ds -> uniform_mean (fun u => f (lf_positions (am_integrator (next u d z))) (lf_momentum (am_integrator (next u d z)))) (mean d z)) ->
  (forall d, In d ds -> integrable (fun z => density d z * f (x d z) (p d z)) /\ integrable (fun z => density d z * acc d z * f (x d z) (tree_scale (-1) (p d z)))) ->
  (forall d, In d ds -> integrable (fun z => density d z * mean d z)) /\
  sum_over ds (fun d => I (fun z => density d z * mean d z)) = sum_over ds (fun d => I (fun z => density d z * f (x d z) (p d z))).
Proof.
  intros L I HI ds rev Hperm Hrev normal st acc mean f x p density next Hst Hacc Hmean HL.
  destruct C54_reverse_map as (Phi & Hvol & Hinv & Hbal).
  set (g := fun z => f (pos_tree s z) (mom_tree s (flip (dim s) z))).
  assert (Hx : forall d z, In d ds -> pos_tree s z = x d z /\ mom_tree s z = p d z /\ density d z = am_weight z).
  { intros d z Hd0. pose proof (Hst d z Hd0) as Hz. pose proof (am_weight_ok Hz) as Hw. destruct Hz as (_ & Lx & Lp & _ & _ & _ & Hz). destruct (consists_trees Hs Lx Lp Hz). auto. }
  assert (Hg : forall d z, In d ds -> g z = f (x d z) (tree_scale (-1) (p d z))).
  { intros d z Hd0. unfold g. destruct (Hx d z Hd0) as (E1 & E2 & _). rewrite (mom_tree_flip z Hs), E1, E2. reflexivity. }
  assert (Hm : forall d z, In d ds -> mean d z = acc d z * g (Phi d z) + (1 - acc d z) * g z).
  { intros d z Hd0. pose proof (Hst d z Hd0) as (Hn & Lx & Lp & Em & EU & Ed & Hz).
    destruct (Hbal (fun _ => 0) ltac:(intros; lra) d z _ _ (Hst d z Hd0)) as [Hphi _].
    set (r0 := rl_of (am_integrator (st d z))). set (mo := mass_get mass_adaption ms) in *.
    set (fin := fst (rl_integrate (normal d z) get_data pot_model (fun t b _ => G t b) steps friction const_mass eps mo r0)).
    assert (Epr : amprop (normal d z) (st d z) sch = lf_of fin) by (unfold am_proposal, leapfrog_update; rewrite He, Em; reflexivity).
    assert (Hg0 : forall t b (m : Model), like s t -> like s (G t b)) by (intros; auto).
    assert (EM : rl_mass const_mass mo (r_pos r0) = rl_mass const_mass mo s) by (apply (rl_mass_same (s := s)); auto using like_refl).
    assert (Hd' : diagonal s (rl_mass const_mass mo (r_pos r0))) by now rewrite EM.
    destruct (diagonal_fits Hd') as [Hinv0 Hsq0].
    destruct (@rl_integrate_like s Hs const_mass mo Data Batch Model get_data pot_model (fun t b _ => G t b) Hg0 friction eps (normal d z) Hn r0 Lx Lp Hinv0 Hsq0 steps) as [Lx' Lp'].
    fold fin in Lx', Lp'.
    destruct (full_potential (lf_positions (amprop (normal d z) (st d z) sch)) (am_full (st d z)) (lf_model (amprop (normal d z) (st d z) sch))) as [new [full model']] eqn:Ef.
    assert (En : new = Fin (U (r_pos fin))) by (pose proof (HU (lf_positions (amprop (normal d z) (st d z) sch)) (am_full (st d z)) (lf_model (amprop (normal d z) (st d z) sch))) as H; rewrite Ef in H; cbn in H; rewrite H, Epr; reflexivity).
    assert (C : forall u, 0 <= u < 1 -> 0 < acc d z <= 1 /\ (u < acc d z -> lf_positions (am_integrator (next u d z)) = r_pos fin /\ lf_momentum (am_integrator (next u d z)) = tree_scale 1 (r_mom fin)) /\
       (acc d z <= u -> lf_positions (am_integrator (next u d z)) = x d z /\ lf_momentum (am_integrator (next u d z)) = tree_scale (-1) (p d z))).
    { intros u Hu.
      destruct (@C35_step key vtree vtree Model Data Full mass_matrix MassState split2 (fun _ => u) (fun _ => Hu) tree_scale full_potential mass_adaption
        (leapfrog_update (normal d z) get_data pot_model (fun t b _ => G t b) steps friction const_mass) (st d z) sch new full model' (U (x d z)) (U (r_pos fin)) (r_pot fin) Ef EU En) as (A1 & A2 & _ & _ & _ & A6 & A7).
      { change (lf_potential (amprop (normal d z) (st d z) sch) = Fin (r_pot fin)). now rewrite Epr. }
      pose proof (Hacc d z u Hd0 Hu) as A1'. unfold am_step in A1'. rewrite A1' in A1. injection A1 as A1. rewrite <- A1 in A2, A6, A7.
      split; [exact A2|]. split.
      - intros H. destruct (A6 H) as (B1 & B2 & _). change (leapfrog_update (normal d z) get_data pot_model (fun t b _ => G t b) steps friction const_mass (am_integrator (st d z)) sch (mass_get mass_adaption (am_mass (st d z)))) with (amprop (normal d z) (st d z) sch) in B1, B2.
        rewrite Epr in B1, B2. split; [exact B1|exact B2].
      - intros H. destruct (A7 H) as (B1 & B2 & _). split; [exact B1|exact B2]. }
    assert (Eacc : f (r_pos fin) (tree_scale 1 (r_mom fin)) = g (Phi d z)).
    { unfold g. rewrite Epr in Hphi. f_equal; symmetry; apply tree_of_el; auto with like.
      - intros i Hi. apply (Hphi i Hi).
      - intros i Hi. rewrite (el_scale' Hs) by auto. rewrite Rmult_1_l. cbn. pose proof Hi as Hi'. apply Nat.ltb_lt in Hi'. rewrite Hi'. rewrite (proj2 (Hphi i Hi)). cbn [lf_of lf_momentum]. ring. }
    rewrite (Hg d z Hd0), <- Eacc.
    apply (@uniform_mean_unique (fun u => f (lf_positions (am_integrator (next u d z))) (lf_momentum (am_integrator (next u d z))))).
    - destruct (C 0 ltac:(lra)). lra.
    - intros u Hu. destruct (C u) as (C1 & C2 & _); [destruct (C 0 ltac:(lra)); lra|]. destruct (C2 (proj2 Hu)) as [-> ->]. reflexivity.
    - intros u Hu. destruct (C u) as (C1 & _ & C2); [destruct (C 0 ltac:(lra)); lra|]. destruct (C2 (proj1 Hu)) as [-> ->]. reflexivity.
    - exact (Hmean d z Hd0). }
  assert (HLg : forall d, In d ds -> L (fun z => am_weight z * acc d z * g z)).
  { intros d Hd0. apply (@int_ext _ _ _ _ _ _ HI (proj2 (HL d Hd0))). intros z. rewrite (Hg d z Hd0). destruct (Hx d z Hd0) as (_ & _ & ->). reflexivity. }
  assert (HL0 : forall d, In d ds -> L (fun z => am_weight z * g z) /\ I (fun z => am_weight z * g z) = I (fun z => density d z * f (x d z) (p d z))).
  { intros d Hd0. destruct (@int_ext _ _ _ _ _ (fun z => am_weight z * f (pos_tree s z) (mom_tree s z)) HI (proj1 (HL d Hd0))) as [L1 I1].
    { intros z. destruct (Hx d z Hd0) as (-> & -> & ->). reflexivity. }
    destruct (@integral_volume _ _ _ _ HI _ _ (flip_volume (dim s) steps) L1) as [L2 I2].
    destruct (@int_ext _ _ _ _ _ (fun z => am_weight z * g z) HI L2) as [L3 I3].
    { intros z. rewrite am_weight_flip. reflexivity. }
    split; auto. now rewrite <- I3, I2. }
  destruct ds as [|d0 ds'] eqn:Eds; [split; [intros d []|reflexivity]|]. rewrite <- Eds in *.
  assert (Hd0 : In d0 ds) by (rewrite Eds; now left).
  destruct (@stationary_accept (dim s) steps L I HI Data ds rev Phi (am_weight) acc Hperm (fun d _ => Hvol d)) with (g := g) (r := g) as [S1 S2]; auto.
  { intros d z Hi. destruct (Hbal (fun _ => 0) ltac:(intros; lra) d z _ _ (Hst d z Hi)) as [_ Hb].
    assert (Hi' : In (rev d) ds) by (apply (Permutation_in _ Hperm); now apply in_map).
    destruct (Hb (rev d) _ _ (Hrev d Hi) (Hst (rev d) (Phi d z) Hi')) as (a & a' & A1 & A2 & A3 & _).
    pose proof (Hacc d z 0 Hi ltac:(lra)) as B1. pose proof (Hacc (rev d) (Phi d z) 0 Hi' ltac:(lra)) as B2. rewrite A1 in B1. rewrite A2 in B2. injection B1 as <-. injection B2 as <-.
    destruct (Hx d z Hi) as (_ & _ & <-). destruct (Hx (rev d) (Phi d z) Hi') as (_ & _ & <-). exact A3. }
  { apply (HL0 d0 Hd0). }
  assert (Em : forall d, In d ds -> L (fun z => density d z * mean d z) /\ I (fun z => density d z * mean d z) = I (fun z => am_weight z * (acc d z * g (Phi d z) + (1 - acc d z) * g z))).
  { intros d Hi. destruct (@int_ext _ _ _ _ _ (fun z => density d z * mean d z) HI (S1 d Hi)) as [L1 I1].
    { intros z. rewrite (Hm d z Hi). destruct (Hx d z Hi) as (_ & _ & ->). reflexivity. }
    split; auto. }
  split; [intros d Hi; apply (Em d Hi)|].
  rewrite (sum_over_ext _ _ _ (fun d Hi => proj2 (Em d Hi))), S2.
  rewrite (sum_over_ext _ (fun _ => 0) ds) by (intros; ring). rewrite sum_over_const.
  rewrite (sum_over_ext _ (fun _ => I (fun z => am_weight z * g z)) ds) by (intros d Hi; symmetry; apply (HL0 d Hi)). rewrite sum_over_const. ring.
Qed.
End C54.

(** every point of the phase space belongs to a state *)
Lemma am_states_exist : forall ms (model : Model) (full : Full) (k k2 : key), exists (normal : Data -> phase -> key -> list nat -> list R) st, forall d z, am_starts ms d z (normal d z) (st d z).
Proof.
  intros ms model full k k2.
  set (nor := fun z : phase => realised s steps (fun j => Sub (chain k j) 1) (fun j i => z (CNoise j i))).
  assert (Hnor : forall z : phase, normal_ok (nor z) /\ forall j i, (j < steps)%nat -> (i < dim s)%nat -> xi (nor z) (Sub (chain k j) 1) s i = z (CNoise j i)).
  { intros z. apply (@realised_ok s steps (fun j => Sub (chain k j) 1) (fun j i => z (CNoise j i)) Hs). intros a b _ _ H. injection H as H. now apply chain_inj in H. }
  exists (fun _ z => nor z). exists (fun d z => mkAm (mkLf (pos_tree s z) (mom_tree s z) model (Fin 0) d k) (Fin (U (pos_tree s z))) full k2 (Fin 0, Fin 0) ms).
  intros d z. destruct (Hnor z) as [Hn Hx]. unfold am_starts. cbn [am_integrator lf_positions lf_momentum lf_key lf_data am_mass am_potential].
  destruct (@tree_of_ok s (fun i => z (CPos i)) Hs) as [L1 E1]. destruct (@tree_of_ok s (fun i => z (CMom i)) Hs) as [L2 E2].
  split; [exact Hn|]. split; [exact L1|]. split; [exact L2|]. split; [reflexivity|]. split; [reflexivity|]. split; [reflexivity|].
  intros i Hi. split; [symmetry; now apply E1|]. split; [symmetry; now apply E2|]. intros j Hj. symmetry. now apply Hx.
Qed.

(** ** C55 *)
Definition sg_starts (ms : option MassState) (d : Data) (z : phase) (normal : key -> list nat -> list R) (st : sg_state key vtree vtree Model Data Full MassState) : Prop :=
  normal_ok normal /\ like s (ob_positions (sg_integrator st)) /\ like s (ob_momentum (sg_integrator st)) /\ sg_mass st = ms /\
  sg_potential st = Fin (U (ob_positions (sg_integrator st))) /\ ob_data (sg_integrator st) = d /\
  ob_kin_start (sg_integrator st) = Fin 0 /\ ob_kin_end (sg_integrator st) = Fin 0 /\
  consists_of s (2 * steps) z (ob_positions (sg_integrator st)) (ob_momentum (sg_integrator st)) normal (ob_keys (ob_key (sg_integrator st))).
Local Notation sgstep uniform := (sg_step get_data pot_value pot_model G full_potential mass_adaption steps friction const_mass uniform).
Local Notation sgprop := (sg_proposal get_data pot_value pot_model G mass_adaption steps friction const_mass).
Local Notation sgdens := (sg_density s U mass_adaption steps const_mass).

Section C55.
Variables (ms : option MassState) (sch : schedule) (eps T : R).
Hypothesis He : sch_step sch = Fin eps.
Hypothesis HT : sch_temperature sch = Fin T.
Hypothesis Hpos : 0 < friction * eps.
Hypothesis HTpos : 0 < T.
Hypothesis Hd : diagonal s (ob_mass const_mass (mass_get mass_adaption ms) s).
Definition sg_weight (z : phase) : R := exp (- (U (pos_tree s z) + kinetic s (ob_mass const_mass (mass_get mass_adaption ms) s) (mom_tree s z)) / T) *
  prod_upto steps (fun j => exp (- sum_upto (dim s) (fun i => z (CNoise (2 * j) i) * z (CNoise (2 * j) i) / 2)) * exp (- sum_upto (dim s) (fun i => z (CNoise (S (2 * j)) i) * z (CNoise (S (2 * j)) i) / 2))).
Lemma sg_weight_ok d z normal st : sg_starts ms d z normal st -> sgdens T normal st = sg_weight z.
Proof.
  intros (Hn & Lx & Lp & Em & _ & _ & _ & _ & Hz). destruct (consists_trees Hs Lx Lp Hz) as [E1 E2]. unfold sg_density, sg_weight, sg_matrix. rewrite E1, E2, Em.
  rewrite (@ob_mass_same s const_mass (mass_get mass_adaption ms) (ob_positions (sg_integrator st)) s Hs Lx (like_refl Hs)). f_equal.
  apply prod_upto_ext. intros j Hj. unfold gauss. f_equal; do 2 f_equal; apply sum_upto_ext; intros i Hi; destruct (Hz i Hi) as (_ & _ & H); rewrite H by lia; [rewrite ob_keys_even|rewrite ob_keys_odd]; reflexivity.
Qed.
Lemma sg_weight_flip z : sg_weight (flip (dim s) z) = sg_weight z.
Proof.
  unfold sg_weight. rewrite (mom_tree_flip z Hs). change (pos_tree s (flip (dim s) z)) with (pos_tree s z).
  destruct (diagonal_fits Hd) as [Hinv _]. destruct (@tree_of_ok s (fun i => z (CMom i)) Hs) as [L E].
  rewrite <- !(@kinetic_ok s _ _ Hs Hinv) by (auto using like_neg). rewrite (kin_neg Hs _ Hinv) by exact L. reflexivity.
Qed.

Theorem C55_reverse_map : exists Phi : Data -> phase -> phase,
  (forall d, preserves_volume (dim s) (2 * steps) (Phi d)) /\
  (forall d d' z, reversed_batches get_data (2 * steps) d d' -> Phi d' (Phi d z) = z) /\
  forall uniform, (forall k, 0 <= uniform k < 1) -> forall d z normal st, sg_starts ms d z normal st ->
  (forall i, (i < dim s)%nat -> Phi d z (CPos i) = el (ob_positions (sgprop normal st sch)) i /\ Phi d z (CMom i) = - el (ob_momentum (sgprop normal st sch)) i) /\
  forall d' normal' st', reversed_batches get_data (2 * steps) d d' -> sg_starts ms d' (Phi d z) normal' st' ->
  exists a a', st_acceptance (snd (sgstep uniform normal st sch)) = Some (Fin a) /\ st_acceptance (snd (sgstep uniform normal' st' sch)) = Some (Fin a') /\
  sgdens T normal st * a = sgdens T normal' st' * a' /\ sgdens T normal st * a = Rmin (sgdens T normal st) (sgdens T normal' st').
Proof.
  destruct Hd as (vi & sq & Evi & Esq & Lvi & Lsq & Hvs).
  exists (fun d => ob_map s G friction eps T vi sq steps (batch_no get_data d)). split; [|split].
  - intros d. apply ob_map_volume; auto.
  - intros d d' z H. now apply (@ob_map_involution s Batch Model pot_value pot_model G HG friction eps T vi sq steps).
  - intros uniform Hu d z normal st (Hn & Lx & Lp & Em & EU & Ed & Ks & Ke & Hz).
    set (r0 := st_of (sg_integrator st)). set (mo := mass_get mass_adaption ms) in *.
    assert (EM : ob_mass const_mass mo (o_pos r0) = ob_mass const_mass mo s) by (apply (ob_mass_same (s := s)); auto using like_refl).
    assert (E1 : m_inv (ob_mass const_mass mo (o_pos r0)) = Tens1 vi) by now rewrite EM.
    assert (E2 : m_sqrt (ob_mass const_mass mo (o_pos r0)) = Tens1 sq) by now rewrite EM.
    assert (Epr : sgprop normal st sch = ob_of (fst (ob_integrate normal get_data pot_value pot_model (fun t b _ => G t b) steps friction const_mass eps T mo r0)))
      by (unfold sg_proposal, obabo_update; rewrite He, HT, Em; reflexivity).
    split.
    + intros i Hi. destruct (@ob_map_effect s Hs const_mass mo Data Batch Model get_data pot_value pot_model G HG friction eps T Hpos HTpos vi sq Lvi Lsq Hvs normal Hn r0 Lx Lp E1 E2 steps z Hz i Hi) as (A & B & _).
      rewrite Epr. rewrite <- Ed. split; [exact A|exact B].
    + intros d' normal' st' Hr (Hn' & Lx' & Lp' & Em' & EU' & Ed' & Ks' & Ke' & Hz').
      rewrite <- Ed in Hz'.
      destruct (@ob_map_back s Hs const_mass mo Data Batch Model get_data pot_value pot_model G HG friction eps T Hpos HTpos vi sq Lvi Lsq Hvs normal Hn r0 Lx Lp E1 E2 steps z Hz
        _ _ normal' (ob_key (sg_integrator st')) Lx' Lp' Hz') as (Bx & Bp & Bn).
      apply (@sg_balance_given s Hs Data Batch Model Full MassState get_data pot_value pot_model G HG U full_potential HU mass_adaption steps friction const_mass uniform Hu normal Hn st sch eps T He HT Hpos HTpos Lx Lp).
      * unfold sg_matrix. rewrite Em. fold mo. change (ob_positions (sg_integrator st)) with (o_pos r0). rewrite EM. exact Hd.
      * exact Ks.
      * exact Ke.
      * exact EU.
      * rewrite Epr. exact Bx.
      * rewrite Epr. exact Bp.
      * exact Ks'.
      * exact Ke'.
      * rewrite EU', Epr. cbn [ob_of ob_positions]. now rewrite Bx.
      * now rewrite Em, Em'.
      * now rewrite Ed, Ed'.
      * exact Hn'.
      * rewrite Em. exact Bn.
Qed.

(** One step from the target distribution: as the momentum is not negated after a rejection, the mean of f changes by the mean of
    acceptance probability * (f(x, -p) - f(x, p)). *)
Theorem C59_stationary_partial : forall integrable I, integral (dim s) (2 * steps) integrable I ->
  forall (ds : list Data) (rev : Data -> Data), Permutation (map rev ds) ds -> (forall d, In d ds -> reversed_batches get_data (2 * steps) d (rev d)) ->
  forall (normal : Data -> phase -> key -> list nat -> list R) (st : Data -> phase -> sg_state key vtree vtree Model Data Full MassState) (acc mean : Data -> phase -> R) (f : vtree -> vtree -> R),
  let x := fun d z => ob_positions (sg_integrator (st d z)) in
  let p := fun d z => ob_momentum (sg_integrator (st d z)) in
  let density := fun d z => sgdens T (normal d z) (st d z) in
  let next := fun u d z => fst (sgstep (fun _ => u) (normal d z) (st d z) sch) in
  (forall d z, In d ds -> sg_starts ms d z (normal d z) (st d z)) ->
  (forall d z u, In d ds -> 0 <= u < 1 -> st_acceptance (snd (sgstep (fun _ => u) (normal d z) (st d z) sch)) = Some (Fin (acc d z))) ->
  (forall d z, In d ds -> uniform_mean (fun u => f (ob_positions (sg_integrator (next u d z))) (ob_momentum (sg_integrator (next u d z)))) (mean d z)) ->
  (forall d, In d ds -> integrable (fun z => density d z * f (x d z) (p d z)) /\ integrable (fun z => density d z * acc d z * f (x d z) (p d z)) /\ integrable (fun z => density d z * acc d z * f (x d z) (tree_scale (-1) (p d z)))) ->
  (forall d, In d ds -> integrable (fun z => density d z * mean d z)) /\
  sum_over ds (fun d => I (fun z => density d z * mean d z)) = sum_over ds (fun d => I (fun z => density d z * f (x d z) (p d z))) +
    sum_over ds (fun d => I (fun z => density d z * acc d z * f (x d z) (tree_scale (-1) (p d z))) - I (fun z => density d z * acc d z * f (x d z) (p d z))).
Proof.
  intros L I HI ds rev Hperm Hrev normal st acc mean f x p density next Hst Hacc Hmean HL.
  destruct C55_reverse_map as (Phi & Hvol & Hinv & Hbal).
  set (g := fun z => f (pos_tree s z) (mom_tree s (flip (dim s) z))).
  set (r := fun z => f (pos_tree s z) (mom_tree s z)).
  assert (Hx : forall d z, In d ds -> pos_tree s z = x d z /\ mom_tree s z = p d z /\ density d z = sg_weight z).
  { intros d z Hd0. pose proof (Hst d z Hd0) as Hz. pose proof (sg_weight_ok Hz) as Hw. destruct Hz as (_ & Lx & Lp & _ & _ & _ & _ & _ & Hz). destruct (consists_trees Hs Lx Lp Hz). auto. }
  assert (Hg : forall d z, In d ds -> g z = f (x d z) (tree_scale (-1) (p d z))).
  { intros d z Hd0. unfold g. destruct (Hx d z Hd0) as (E1 & E2 & _). rewrite (mom_tree_flip z Hs), E1, E2. reflexivity. }
  assert (Hr : forall d z, In d ds -> r z = f (x d z) (p d z)).
  { intros d z Hd0. unfold r. destruct (Hx d z Hd0) as (E1 & E2 & _). now rewrite E1, E2. }
  assert (Hm : forall d z, In d ds -> mean d z = acc d z * g (Phi d z) + (1 - acc d z) * r z).
  { intros d z Hd0. pose proof (Hst d z Hd0) as (Hn & Lx & Lp & Em & EU & Ed & Ks & Ke & Hz).
    destruct (Hbal (fun _ => 0) ltac:(intros; lra) d z _ _ (Hst d z Hd0)) as [Hphi _].
    set (r0 := st_of (sg_integrator (st d z))). set (mo := mass_get mass_adaption ms) in *.
    set (fin := fst (ob_integrate (normal d z) get_data pot_value pot_model (fun t b _ => G t b) steps friction const_mass eps T mo r0)).
    assert (Epr : sgprop (normal d z) (st d z) sch = ob_of fin) by (unfold sg_proposal, obabo_update; rewrite He, HT, Em; reflexivity).
    assert (Hg0 : forall t b (m : Model), like s t -> like s (G t b)) by (intros; auto).
    assert (EM : ob_mass const_mass mo (o_pos r0) = ob_mass const_mass mo s) by (apply (ob_mass_same (s := s)); auto using like_refl).
    assert (Hd' : diagonal s (ob_mass const_mass mo (o_pos r0))) by now rewrite EM.
    destruct (diagonal_fits Hd') as [Hinv0 Hsq0].
    destruct (@F_like s Hs const_mass mo Data Batch Model get_data pot_value pot_model (fun t b _ => G t b) Hg0 friction eps T (normal d z) Hn r0 Lx Lp Hinv0 Hsq0 steps) as [Lx' Lp'].
    change (like s (o_pos fin)) in Lx'. change (like s (o_mom fin)) in Lp'.
    destruct (full_potential (ob_positions (sgprop (normal d z) (st d z) sch)) (sg_full (st d z)) (ob_model (sgprop (normal d z) (st d z) sch))) as [new [full model']] eqn:Ef.
    assert (En : new = Fin (U (o_pos fin))) by (pose proof (HU (ob_positions (sgprop (normal d z) (st d z) sch)) (sg_full (st d z)) (ob_model (sgprop (normal d z) (st d z) sch))) as H; rewrite Ef in H; cbn in H; rewrite H, Epr; reflexivity).
    assert (C : forall u, 0 <= u < 1 -> 0 < acc d z <= 1 /\ (u < acc d z -> ob_positions (sg_integrator (next u d z)) = o_pos fin /\ ob_momentum (sg_integrator (next u d z)) = o_mom fin) /\
       (acc d z <= u -> ob_positions (sg_integrator (next u d z)) = x d z /\ ob_momentum (sg_integrator (next u d z)) = p d z)).
    { intros u Hu.
      destruct (@C36_step_partial key vtree vtree Model Data Full mass_matrix MassState split2 (fun _ => u) (fun _ => Hu) full_potential mass_adaption
        (obabo_update (normal d z) get_data pot_value pot_model (fun t b _ => G t b) steps friction const_mass) (st d z) sch new full model' T (U (x d z)) (U (o_pos fin)) (o_start fin) (o_end fin) HTpos Ef HT EU En) as (A1 & A2 & _ & _ & _ & _ & _ & A6 & A7).
      { change (ob_kin_start (sgprop (normal d z) (st d z) sch) = Fin (o_start fin)). now rewrite Epr. }
      { change (ob_kin_end (sgprop (normal d z) (st d z) sch) = Fin (o_end fin)). now rewrite Epr. }
      pose proof (Hacc d z u Hd0 Hu) as A1'. unfold sg_step in A1'. rewrite A1' in A1. injection A1 as A1. rewrite <- A1 in A2, A6, A7.
      split; [exact A2|]. split.
      - intros H. destruct (A6 H) as (B1 & B2 & _). change (obabo_update (normal d z) get_data pot_value pot_model (fun t b _ => G t b) steps friction const_mass (sg_integrator (st d z)) sch (mass_get mass_adaption (sg_mass (st d z)))) with (sgprop (normal d z) (st d z) sch) in B1, B2.
        rewrite Epr in B1, B2. split; [exact B1|exact B2].
      - intros H. destruct (A7 H) as (B1 & B2 & _). split; [exact B1|exact B2]. }
    assert (Eacc : f (o_pos fin) (o_mom fin) = g (Phi d z)).
    { unfold g. rewrite Epr in Hphi. f_equal; symmetry; apply tree_of_el; auto with like.
      - intros i Hi. apply (Hphi i Hi).
      - intros i Hi. cbn. pose proof Hi as Hi'. apply Nat.ltb_lt in Hi'. rewrite Hi'. rewrite (proj2 (Hphi i Hi)). cbn [ob_of ob_momentum]. ring. }
    rewrite (Hr d z Hd0), <- Eacc.
    apply (@uniform_mean_unique (fun u => f (ob_positions (sg_integrator (next u d z))) (ob_momentum (sg_integrator (next u d z))))).
    - destruct (C 0 ltac:(lra)). lra.
    - intros u Hu. destruct (C u) as (C1 & C2 & _); [destruct (C 0 ltac:(lra)); lra|]. destruct (C2 (proj2 Hu)) as [-> ->]. reflexivity.
    - intros u Hu. destruct (C u) as (C1 & _ & C2); [destruct (C 0 ltac:(lra)); lra|]. destruct (C2 (proj1 Hu)) as [-> ->]. reflexivity.
    - exact (Hmean d z Hd0). }
  assert (HLg : forall d, In d ds -> L (fun z => sg_weight z * acc d z * g z) /\ I (fun z => density d z * acc d z * f (x d z) (tree_scale (-1) (p d z))) = I (fun z => sg_weight z * acc d z * g z)).
  { intros d Hd0. apply (@int_ext _ _ _ _ _ _ HI (proj2 (proj2 (HL d Hd0)))). intros z. rewrite (Hg d z Hd0). destruct (Hx d z Hd0) as (_ & _ & ->). reflexivity. }
  assert (HLr : forall d, In d ds -> L (fun z => sg_weight z * acc d z * r z) /\ I (fun z => density d z * acc d z * f (x d z) (p d z)) = I (fun z => sg_weight z * acc d z * r z)).
  { intros d Hd0. apply (@int_ext _ _ _ _ _ _ HI (proj1 (proj2 (HL d Hd0)))). intros z. rewrite (Hr d z Hd0). destruct (Hx d z Hd0) as (_ & _ & ->). reflexivity. }
  assert (HL0 : forall d, In d ds -> L (fun z => sg_weight z * r z) /\ I (fun z => density d z * f (x d z) (p d z)) = I (fun z => sg_weight z * r z)).
  { intros d Hd0. apply (@int_ext _ _ _ _ _ _ HI (proj1 (HL d Hd0))). intros z. rewrite (Hr d z Hd0). destruct (Hx d z Hd0) as (_ & _ & ->). reflexivity. }
  destruct ds as [|d0 ds'] eqn:Eds; [split; [intros d []|unfold sum_over; cbn; ring]|]. rewrite <- Eds in *.
  assert (Hd0 : In d0 ds) by (rewrite Eds; now left).
  destruct (@stationary_accept (dim s) (2 * steps) L I HI Data ds rev Phi sg_weight acc Hperm (fun d _ => Hvol d)) with (g := g) (r := r) as [S1 S2].
  { intros d z Hi. destruct (Hbal (fun _ => 0) ltac:(intros; lra) d z _ _ (Hst d z Hi)) as [_ Hb].
    assert (Hi' : In (rev d) ds) by (apply (Permutation_in _ Hperm); now apply in_map).
    destruct (Hb (rev d) _ _ (Hrev d Hi) (Hst (rev d) (Phi d z) Hi')) as (a & a' & A1 & A2 & A3 & _).
    pose proof (Hacc d z 0 Hi ltac:(lra)) as B1. pose proof (Hacc (rev d) (Phi d z) 0 Hi' ltac:(lra)) as B2. rewrite A1 in B1. rewrite A2 in B2. injection B1 as <-. injection B2 as <-.
    destruct (Hx d z Hi) as (_ & _ & <-). destruct (Hx (rev d) (Phi d z) Hi') as (_ & _ & <-). exact A3. }
  { intros d Hi. apply (HLg d Hi). }
  { intros d Hi. apply (HLr d Hi). }
  { apply (HL0 d0 Hd0). }
  assert (Em : forall d, In d ds -> L (fun z => density d z * mean d z) /\ I (fun z => density d z * mean d z) = I (fun z => sg_weight z * (acc d z * g (Phi d z) + (1 - acc d z) * r z))).
  { intros d Hi. destruct (@int_ext _ _ _ _ _ (fun z => density d z * mean d z) HI (S1 d Hi)) as [L1 I1].
    { intros z. rewrite (Hm d z Hi). destruct (Hx d z Hi) as (_ & _ & ->). reflexivity. }
    split; auto. }
  split; [intros d Hi; apply (Em d Hi)|].
  rewrite (sum_over_ext _ _ _ (fun d Hi => proj2 (Em d Hi))), S2. f_equal.
  - rewrite (sum_over_ext _ _ _ (fun d Hi => proj2 (HL0 d Hi))), sum_over_const. reflexivity.
  - apply sum_over_ext. intros d Hi. rewrite (proj2 (HLg d Hi)), (proj2 (HLr d Hi)). reflexivity.
Qed.
(** in particular: functions of the position only, and all even functions of the momentum, keep their mean *)
Theorem C59_stationary_even : forall integrable I, integral (dim s) (2 * steps) integrable I ->
  forall (ds : list Data) (rev : Data -> Data), Permutation (map rev ds) ds -> (forall d, In d ds -> reversed_batches get_data (2 * steps) d (rev d)) ->
  forall (normal : Data -> phase -> key -> list nat -> list R) (st : Data -> phase -> sg_state key vtree vtree Model Data Full MassState) (acc mean : Data -> phase -> R) (f : vtree -> vtree -> R),
  (forall a b, like s b -> f a (tree_scale (-1) b) = f a b) ->
  let x := fun d z => ob_positions (sg_integrator (st d z)) in
  let p := fun d z => ob_momentum (sg_integrator (st d z)) in
  let density := fun d z => sgdens T (normal d z) (st d z) in
  let next := fun u d z => fst (sgstep (fun _ => u) (normal d z) (st d z) sch) in
  (forall d z, In d ds -> sg_starts ms d z (normal d z) (st d z)) ->
  (forall d z u, In d ds -> 0 <= u < 1 -> st_acceptance (snd (sgstep (fun _ => u) (normal d z) (st d z) sch)) = Some (Fin (acc d z))) ->
  (forall d z, In d ds -> uniform_mean (fun u => f (ob_positions (sg_integrator (next u d z))) (ob_momentum (sg_integrator (next u d z)))) (mean d z)) ->
  (forall d, In d ds -> integrable (fun z => density d z * f (x d z) (p d z)) /\ integrable (fun z => density d z * acc d z * f (x d z) (p d z))) ->
  sum_over ds (fun d => I (fun z => density d z * mean d z)) = sum_over ds (fun d => I (fun z => density d z * f (x d z) (p d z))).
Proof.
  intros L I HI ds rev Hperm Hrev normal st acc mean f Hf x p density next Hst Hacc Hmean HL.
  assert (E : forall d, In d ds -> L (fun z => density d z * acc d z * f (x d z) (tree_scale (-1) (p d z))) /\ I (fun z => density d z * acc d z * f (x d z) (p d z)) = I (fun z => density d z * acc d z * f (x d z) (tree_scale (-1) (p d z)))).
  { intros d Hi. apply (@int_ext _ _ _ _ _ _ HI (proj2 (HL d Hi))). intros z. rewrite Hf; auto. apply (Hst d z Hi). }
  destruct (@C59_stationary_partial L I HI ds rev Hperm Hrev normal st acc mean f Hst Hacc Hmean) as [_ H].
  { intros d Hi. destruct (HL d Hi). split; auto. split; auto. apply (E d Hi). }
  assert (Z : sum_over ds (fun d => I (fun z => density d z * acc d z * f (x d z) (tree_scale (-1) (p d z))) - I (fun z => density d z * acc d z * f (x d z) (p d z))) = 0).
  { rewrite (sum_over_ext _ (fun _ => 0) ds); [rewrite sum_over_const; ring|]. intros d Hi. rewrite (proj2 (E d Hi)). ring. }
  etransitivity; [exact H|]. etransitivity; [apply f_equal; exact Z|]. apply Rplus_0_r.
Qed.
End C55.
Lemma ob_keys_inj k a b : ob_keys k a = ob_keys k b -> a = b.
Proof.
  unfold ob_keys. intros H. injection H as H1 H2. apply chain_inj in H1.
  pose proof (Nat.div2_odd a) as Ha. pose proof (Nat.div2_odd b) as Hb. rewrite <- !Nat.negb_even in *.
  destruct (Nat.even a), (Nat.even b); cbn in *; try discriminate; lia.
Qed.
Lemma sg_states_exist : forall ms (model : Model) (full : Full) (k k2 : key), exists (normal : Data -> phase -> key -> list nat -> list R) st, forall d z, sg_starts ms d z (normal d z) (st d z).
Proof.
  intros ms model full k k2.
  set (nor := fun z : phase => realised s (2 * steps) (ob_keys k) (fun j i => z (CNoise j i))).
  assert (Hnor : forall z : phase, normal_ok (nor z) /\ forall j i, (j < 2 * steps)%nat -> (i < dim s)%nat -> xi (nor z) (ob_keys k j) s i = z (CNoise j i)).
  { intros z. apply (@realised_ok s (2 * steps) (ob_keys k) (fun j i => z (CNoise j i)) Hs). intros a b _ _ H. now apply ob_keys_inj in H. }
  exists (fun _ z => nor z). exists (fun d z => mkSg (mkOb (pos_tree s z) (mom_tree s z) model (Fin 0) d k (Fin 0) (Fin 0)) (Fin (U (pos_tree s z))) full k2 (Fin 0, Fin 0, Fin 0) ms).
  intros d z. destruct (Hnor z) as [Hn Hx]. unfold sg_starts. cbn [sg_integrator ob_positions ob_momentum ob_key ob_data sg_mass sg_potential ob_kin_start ob_kin_end].
  destruct (@tree_of_ok s (fun i => z (CPos i)) Hs) as [L1 E1]. destruct (@tree_of_ok s (fun i => z (CMom i)) Hs) as [L2 E2].
  split; [exact Hn|]. split; [exact L1|]. split; [exact L2|]. split; [reflexivity|]. split; [reflexivity|]. split; [reflexivity|]. split; [reflexivity|]. split; [reflexivity|].
  intros i Hi. split; [symmetry; now apply E1|]. split; [symmetry; now apply E2|]. intros j Hj. symmetry. now apply Hx.
Qed.
End MH.

(** constants with their value form an integral *)
Example integral_constants : forall d m, integral d m (fun f => forall z z', f z = f z') (fun f => f (fun _ => 0)).
Proof. intros d m. split; intros; split; auto. - intros; rewrite <- !H; auto. - intros z z'. now rewrite (H z z'), (H0 z z'). - intros z z'. now rewrite (H z z'). Qed.
Lemma ex_G_continuous : continuous_gradient (tree_ab 0 0) ex_G.
Proof.
  intros b t Ht e He. exists (e / (INR b + 1)). pose proof (pos_INR b) as Hb. split; [apply Rdiv_lt_0_compat; lra|].
  intros t' Ht' H i Hi. unfold ex_G. rewrite !(el_scale' (tree_ab_wf 0 0)) by auto. rewrite <- Rmult_minus_distr_l, Rabs_mult, (Rabs_right (INR b)) by lra.
  specialize (H i Hi). apply Rle_lt_trans with (INR b * (e / (INR b + 1))).
  - apply Rmult_le_compat_l; [lra|]. lra.
  - replace (INR b * (e / (INR b + 1))) with (e - e / (INR b + 1)) by (field; lra). assert (0 < e / (INR b + 1)) by (apply Rdiv_lt_0_compat; lra). lra.
Qed.
Lemma ex_mass_diagonal : diagonal (tree_ab 0 0) (rl_mass (Some (tree_ab 4 9)) None (tree_ab 0 0)).
Proof. apply ex_diagonal, tree_ab_like. Qed.
(** two batches per step, forwards 7, 8 and backwards 8, 7; quadratic potential: all assumptions except those about the integral are met *)
Definition ex_rev (d : nat * bool) : nat * bool := match d with (_, true) => (8%nat, false) | (_, false) => (7%nat, true) end.
Lemma ex_rev_ok d : In d [(7%nat, true); (8%nat, false)] -> reversed_batches ex_source 2 d (ex_rev d).
Proof. intros [<-|[<-|[]]] m Hm; (destruct m as [|[|m]]; [reflexivity|reflexivity|lia]). Qed.
Example C58_stationary_nonvacuous : forall integrable I, integral 2 2 integrable I -> exists (normal : nat * bool -> phase -> key -> list nat -> list R) (st : nat * bool -> phase -> am_state key vtree vtree unit (nat * bool) unit unit) (acc : nat * bool -> phase -> R),
  let ds := [(7%nat, true); (8%nat, false)] in
  let step := fun u d z => am_step ex_source (fun _ _ m => m) ex_G (fun p fd m => (Fin (ex_U p), (fd, m))) None 2 (1 / 2) (Some (tree_ab 4 9)) (fun _ => u) (normal d z) (st d z) ex_sch in
  let x := fun d z => lf_positions (am_integrator (st d z)) in
  let p := fun d z => lf_momentum (am_integrator (st d z)) in
  let density := fun d z => am_density (tree_ab 0 0) ex_U None 2 (Some (tree_ab 4 9)) (normal d z) (st d z) in
  (forall d z i, (i < 2)%nat -> el (x d z) i = z (CPos i) /\ el (p d z) i = z (CMom i)) /\
  forall f mean, (forall d z, uniform_mean (fun u => let y := am_integrator (fst (step u d z)) in f (lf_positions y) (lf_momentum y)) (mean d z)) ->
  (forall d, integrable (fun z => density d z * f (x d z) (p d z)) /\ integrable (fun z => density d z * acc d z * f (x d z) (tree_scale (-1) (p d z)))) ->
  sum_over ds (fun d => I (fun z => density d z * mean d z)) = sum_over ds (fun d => I (fun z => density d z * f (x d z) (p d z))).
Proof.
  intros L I HI.
  assert (HG : forall t (b : nat), like (tree_ab 0 0) t -> like (tree_ab 0 0) (ex_G t b)) by (intros; now apply like_scale).
  destruct (@am_states_exist (tree_ab 0 0) (tree_ab_wf 0 0) (nat * bool) unit unit unit ex_U 2 None tt tt (PRNGKey 1) (PRNGKey 2)) as (normal & st & Hst).
  exists normal, st, (fun d z => fin_or 0 (match st_acceptance (snd (am_step ex_source (fun _ _ m => m) ex_G (fun p fd m => (Fin (ex_U p), (fd, m))) None 2 (1 / 2) (Some (tree_ab 4 9)) (fun _ => 0) (normal d z) (st d z) ex_sch)) with Some a => a | None => NaN end)).
  intros ds step x p density. split.
  { intros d z i Hi. destruct (Hst d z) as (_ & _ & _ & _ & _ & _ & H). destruct (H i Hi) as (H1 & H2 & _). auto. }
  intros f mean Hmean HL.
  refine (proj2 (@C58_stationary (tree_ab 0 0) (tree_ab_wf 0 0) (nat * bool) nat unit unit unit ex_source (fun _ _ m => m) ex_G HG ex_G_continuous ex_U (fun p fd m => (Fin (ex_U p), (fd, m))) (fun _ _ _ => eq_refl) None 2 (1 / 2) (Some (tree_ab 4 9))
    None ex_sch (1 / 10) eq_refl ltac:(lra) ex_mass_diagonal L I HI ds ex_rev _ ex_rev_ok normal st _ mean f (fun d z _ => Hst d z) _ (fun d z _ => Hmean d z) (fun d _ => HL d))).
  - apply perm_swap.
  - intros d z u _ Hu. destruct (Hst d z) as (_ & _ & _ & _ & EU & _).
    set (pr := am_proposal ex_source (fun _ _ m => m) ex_G None 2 (1 / 2) (Some (tree_ab 4 9)) (normal d z) (st d z) ex_sch).
    assert (C : forall v, 0 <= v < 1 -> st_acceptance (snd (am_step ex_source (fun _ _ m => m) ex_G (fun p fd m => (Fin (ex_U p), (fd, m))) None 2 (1 / 2) (Some (tree_ab 4 9)) (fun _ => v) (normal d z) (st d z) ex_sch)) =
      Some (Fin (Rmin 1 (exp (ex_U (x d z) - ex_U (lf_positions pr) + fin_or 0 (lf_potential pr)))))).
    { intros v Hv. destruct (@C35_step key vtree vtree unit (nat * bool) unit mass_matrix unit split2 (fun _ => v) (fun _ => Hv) tree_scale (fun p fd m => (Fin (ex_U p), (fd, m))) None
        (leapfrog_update (normal d z) ex_source (fun _ _ m => m) (fun t b _ => ex_G t b) 2 (1 / 2) (Some (tree_ab 4 9))) (st d z) ex_sch (Fin (ex_U (lf_positions pr))) (am_full (st d z)) (lf_model pr) (ex_U (x d z)) (ex_U (lf_positions pr)) (fin_or 0 (lf_potential pr)) eq_refl EU eq_refl) as (A & _).
      - reflexivity.
      - exact A. }
    rewrite (C u Hu), (C 0 ltac:(lra)). reflexivity.
Qed.

Print Assumptions C54_reverse_map.
Print Assumptions C58_stationary.
Print Assumptions C59_stationary_partial.
Print Assumptions C59_stationary_even.
