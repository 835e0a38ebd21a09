(** C59: SGGMC does not keep the mean of functions that are not even in the momentum. *)
From Coq Require Import Reals Lra Lia List Permutation FunctionalExtensionality.
From Verif Require Import Base Pytree PytreeSpec Io TreeUtil TreeUtilSpec TreeUtilProofs Xreal Scheduler Solver Mh MhProofs PropertiesMh
  Integrator IntegratorSpec IntegratorBasics ObaboProofs LeapfrogFinal ObaboFinal BalanceSpec BalanceProofs MhIntegrators PropertiesIntegrator KeyBasics PropertiesBalance
  VolumeSpec VolumeProofs LeapfrogVolume ObaboVolume Stationary PropertiesVolume RiemannSpec RiemannProofs RiemannLimit RiemannIntegral RiemannBounds RiemannAdequacy RiemannWeight PropertiesRiemann RiemannPositive SggmcOdd.
Open Scope R_scope.
Set Implicit Arguments.
Local Arguments Nat.ltb : simpl never.
Local Arguments Nat.mul : simpl never.

(** a position with one element *)
Definition one_tree (v : R) : vtree := Leaf (mkArr [] [v]).
Notation s1 := (one_tree 0).
Lemma one_tree_wf v : wfv (one_tree v). Proof. repeat constructor. Qed.
Lemma one_dim : dim s1 = 1%nat. Proof. reflexivity. Qed.
(** harmonic potential x^2 / 2 *)
Definition harmonic (x : vtree) : R := tdot x x / 2.
Lemma harmonic_el x : like s1 x -> harmonic x = el x 0 * el x 0 / 2.
Proof. intros L. unfold harmonic. rewrite (tdot_ok (one_tree_wf 0)) by auto. rewrite one_dim, sum_upto_S. unfold sum_upto at 1. cbn. lra. Qed.
Lemma harmonic_continuous : continuous_function s1 harmonic.
Proof.
  intros t Lt e He. destruct (@quad_continuous s1 (one_tree_wf 0) t Lt e He) as (del & Hd & H). exists del. split; auto. intros t' Lt' Hc. specialize (H t' Lt' Hc). unfold harmonic.
  apply Rabs_def2 in H. apply Rabs_def1; lra.
Qed.
Lemma harmonic_decays : decays s1 harmonic 1.
Proof.
  destruct (@quad_decays s1 2 (one_tree_wf 0) ltac:(lra)) as (C & H). exists C. intros x Lx. specialize (H x Lx). unfold harmonic. replace (- (tdot x x / 2) / 1) with (- tdot x x / 2) by field. exact H.
Qed.
(** the function whose mean changes: a tent around x = -1, p = 1 *)
Definition tent_f (x p : vtree) : R := odd_f (el x 0) (el p 0).

Section MH.
Variables (Data Model Full MassState : Type).
Variable get_data : Data -> Data * unit.
Variable pot_value : vtree -> unit -> Model -> R.
Variable pot_model : vtree -> unit -> Model -> Model.
Variable full_potential : vtree -> Full -> Model -> xr * (Full * Model).
Hypothesis HU : forall p fd m, fst (full_potential p fd m) = Fin (harmonic p).
Variables (friction eps : R) (sch : schedule).
Hypothesis He : sch_step sch = Fin eps.
Hypothesis HT : sch_temperature sch = Fin 1.
Hypothesis Heps : 0 < eps.
Hypothesis Heps2 : eps * eps < 2.
Hypothesis Hfr : 0 < friction.
(** the gradient of the harmonic potential *)
Local Notation G := (fun (t : vtree) (_ : unit) => t).
Local Notation ma := (@None ((vtree -> MassState) * (MassState -> vtree -> MassState) * (MassState -> mass_matrix))).
Local Notation ms := (@None MassState).
Local Notation sgstep uniform := (sg_step get_data pot_value pot_model G full_potential ma 1 friction None uniform).
Local Notation sgdens := (sg_density s1 harmonic ma 1 None).
Local Notation c := (sqrt (exp (- friction * eps))).
Local Notation v := (sqrt ((1 - exp (- friction * eps)) * 1)).
Lemma G_like : forall t (b : unit), like s1 t -> like s1 (G t b). Proof. auto. Qed.
Lemma G_cont : @continuous_gradient unit s1 G.
Proof. intros b t Lt e H. exists e. split; auto. Qed.
Lemma mass_one : diagonal s1 (ob_mass None (@mass_get vtree mass_matrix MassState ma ms) s1).
Proof. apply unit_mass_diagonal; [apply one_tree_wf|apply like_refl, one_tree_wf]. Qed.
Lemma v_pos : 0 < v.
Proof. apply sqrt_lt_R0. rewrite Rmult_1_r. assert (exp (- friction * eps) < 1); [|lra]. rewrite <- exp_0. apply exp_increasing. assert (0 < friction * eps) by now apply Rmult_lt_0_compat. lra. Qed.
Lemma mulv_one x (q : nat -> R) : like s1 x -> mulv (m_inv (unit_mass x)) 1 q 0 = q 0%nat /\ mulv (m_sqrt (unit_mass x)) 1 q 0 = q 0%nat.
Proof.
  intros L. rewrite <- one_dim. cbn [unit_mass init_mass m_inv m_sqrt]. rewrite !diag_mulv by (cbn; lia).
  assert (L1 : like s1 (emap (fun _ => 1) x)) by auto using like_emap, one_tree_wf.
  rewrite !(el_emap (one_tree_wf 0)) by (auto; cbn; lia). rewrite Rinv_1, sqrt_1. split; ring.
Qed.

Lemma odd_step d z normal st : sg_starts s1 harmonic 1 ms d z normal st -> forall u, 0 <= u < 1 ->
  let A := odd_acc eps (z (CPos 0)) (odd_r c v z) in
  exists x' p', st_acceptance (snd (sgstep (fun _ => u) normal st sch)) = Some (Fin A) /\ 
  x' = ob_positions (sg_proposal get_data pot_value pot_model G ma 1 friction None normal st sch) /\ p' = ob_momentum (sg_proposal get_data pot_value pot_model G ma 1 friction None normal st sch) /\
  let y := sg_integrator (fst (sgstep (fun _ => u) normal st sch)) in
  (u < A -> ob_positions y = x' /\ ob_momentum y = p') /\ (A <= u -> ob_positions y = ob_positions (sg_integrator st) /\ ob_momentum y = ob_momentum (sg_integrator st)).
Proof.
  intros (Hn & Lx & Lp & Em & EU & Ed & Ks & Ke & Hz) u Hu A.
  set (r0 := st_of (sg_integrator st)).
  set (fin := fst (ob_integrate normal get_data pot_value pot_model (fun t b _ => G t b) 1 friction None eps 1 None r0)).
  set (PR := sg_proposal get_data pot_value pot_model G ma 1 friction None normal st sch).
  assert (Epr : PR = ob_of fin) by (unfold PR, sg_proposal, obabo_update; rewrite He, HT, Em; reflexivity).
  set (M := unit_mass (ob_positions (sg_integrator st))).
  assert (Hf : fin = fst (ob_step normal get_data pot_value pot_model (fun t b _ => G t b) friction eps 1 M r0 0)).
  { change fin with (ob_at M normal get_data pot_value pot_model (fun t b _ => G t b) friction eps 1 r0 1). now rewrite ob_at_S. }
  rewrite ob_step_eq in Hf.
  destruct (unit_mass_fits Lx) as [F1 F2]. fold M in F1, F2.
  assert (Hg0 : forall t b (m : Model), like s1 t -> like s1 ((fun t (b : unit) (_ : Model) => t) t b m)) by auto.
  destruct (@ob_parts_like s1 (one_tree_wf 0) M F1 F2 normal Hn Data unit Model get_data pot_model (fun t _ _ => t) Hg0 friction eps 1 r0 Lx Lp) as (P1 & P2 & P3 & P4 & P5 & P6).
  assert (H0 : (0 < dim s1)%nat) by (cbn; lia).
  destruct (Hz 0%nat H0) as (Z1 & Z2 & Z3). specialize (Z3 0%nat ltac:(cbn; lia)).
  set (x := z (CPos 0)) in *. set (r := odd_r c v z) in *.
  assert (Er : el (ob_r M normal friction eps 1 r0) 0 = r).
  { unfold ob_r. destruct (@resample_ok s1 (one_tree_wf 0) M F2 normal Hn friction eps 1 (o_mom r0) (Sub (o_key r0) 1) Lp) as (_ & H & _). rewrite (H 0%nat H0), one_dim.
    rewrite (proj2 (@mulv_one (ob_positions (sg_integrator st)) _ Lx)). unfold r, odd_r. rewrite Z2, Z3. reflexivity. }
  assert (Ef : el (ob_f M normal get_data (fun t _ _ => t) friction eps 1 r0) 0 = r - 1 / 2 * eps * x).
  { unfold ob_f. rewrite (@el_ob_mom s1 (one_tree_wf 0)) by auto. rewrite Er. unfold ob_g1. change (o_pos r0) with (ob_positions (sg_integrator st)). rewrite <- Z1. reflexivity. }
  assert (Ex : el (ob_x M normal get_data (fun t _ _ => t) friction eps 1 r0) 0 = x + eps * (r - 1 / 2 * eps * x)).
  { unfold ob_x. rewrite (@el_pos_update s1 (one_tree_wf 0) M F1) by auto. rewrite (el_mat (one_tree_wf 0)) by auto. rewrite one_dim, (proj1 (@mulv_one (ob_positions (sg_integrator st)) _ Lx)), Ef, Z1. reflexivity. }
  assert (Es : el (ob_s M normal get_data pot_model (fun t _ _ => t) friction eps 1 r0) 0 = r - 1 / 2 * eps * x - 1 / 2 * eps * (x + eps * (r - 1 / 2 * eps * x))).
  { unfold ob_s. rewrite (@el_ob_mom s1 (one_tree_wf 0)) by auto. rewrite Ef. unfold ob_g2. now rewrite Ex. }
  assert (Kin : forall p, like s1 p -> kinetic_energy M p = el p 0 * el p 0 / 2).
  { intros p L. rewrite (@kin_sum s1 (one_tree_wf 0) M F1) by auto. rewrite one_dim, sum_upto_S. unfold sum_upto at 1. cbn [seq map fold_right]. rewrite (el_mat (one_tree_wf 0)) by auto. rewrite one_dim, (proj1 (@mulv_one (ob_positions (sg_integrator st)) _ Lx)). unfold sum_upto. cbn. lra. }
  destruct (full_potential (ob_positions (ob_of fin)) (sg_full st) (ob_model (ob_of fin))) as [new [full model']] eqn:Efp.
  assert (En : new = Fin (harmonic (o_pos fin))) by (pose proof (HU (ob_positions (ob_of fin)) (sg_full st) (ob_model (ob_of fin))) as H; rewrite Efp in H; exact H).
  exists (o_pos fin), (o_mom fin).
  destruct (@C36_step_partial key vtree vtree Model Data Full mass_matrix MassState split2 (fun _ => u) (fun _ => Hu) full_potential ma
        (obabo_update normal get_data pot_value pot_model (fun t b _ => G t b) 1 friction None) st sch new full model' 1 (harmonic (ob_positions (sg_integrator st))) (harmonic (o_pos fin)) (o_start fin) (o_end fin) ltac:(lra)) as (A1 & A2 & _ & _ & _ & _ & _ & A6 & A7); auto.
  - change (full_potential (ob_positions PR) (sg_full st) (ob_model PR) = (new, (full, model'))). rewrite Epr. exact Efp.
  - change (ob_kin_start PR = Fin (o_start fin)). now rewrite Epr.
  - change (ob_kin_end PR = Fin (o_end fin)). now rewrite Epr.
  - cbv beta in A6, A7. change (obabo_update normal get_data pot_value pot_model (fun t _ _ => t) 1 friction None (sg_integrator st) sch (mass_get ma (sg_mass st))) with PR in A6. rewrite Epr in A6.
    assert (EA : Rmin 1 (exp (- (harmonic (o_pos fin) - harmonic (ob_positions (sg_integrator st)) + (o_end fin - o_start fin)) / 1)) = A).
    { unfold A, odd_acc. do 2 f_equal. rewrite Hf. cbn [o_pos o_start o_end]. change (o_start r0) with (fin_or 0 (ob_kin_start (sg_integrator st))). change (o_end r0) with (fin_or 0 (ob_kin_end (sg_integrator st))). rewrite Ks, Ke. cbn [fin_or].
      rewrite !Kin, !harmonic_el by auto. rewrite Er, Es, Ex, <- Z1. fold x. field. }
    rewrite EA in A1, A6, A7. split; [exact A1|]. rewrite Epr. split; [reflexivity|]. split; [reflexivity|]. cbv zeta. split; intros H; [destruct (A6 H) as (B1 & B2 & _)|destruct (A7 H) as (B1 & B2 & _)]; split; assumption.
Qed.

Local Notation wt := (sg_weight s1 harmonic ma 1 None ms 1).
Lemma sum_one g : sum_upto 1 g = g 0%nat. Proof. rewrite sum_upto_S. unfold sum_upto. cbn. ring. Qed.
Lemma prod_one g : prod_upto 1 g = g 0%nat. Proof. unfold prod_upto. cbn. ring. Qed.
Lemma weight_odd z : wt z = odd_w z.
Proof.
  destruct (@tree_of_ok s1 (fun i => z (CPos i)) (one_tree_wf 0)) as [L1 E1]. destruct (@tree_of_ok s1 (fun i => z (CMom i)) (one_tree_wf 0)) as [L2 E2].
  assert (H0 : (0 < dim s1)%nat) by (cbn; lia).
  unfold sg_weight, odd_w. rewrite prod_one, one_dim, !sum_one. f_equal. f_equal. unfold kinetic. rewrite one_dim, sum_one.
  change (ob_mass None (mass_get ma ms) s1) with (unit_mass s1). rewrite (proj1 (@mulv_one s1 _ (like_refl (one_tree_wf 0)))). rewrite harmonic_el by exact L1. unfold pos_tree, mom_tree. rewrite E1, E2 by auto. field.
Qed.
Lemma odd_integrable g : continuous 1 2 g -> (forall z, Rabs (g z) <= 1) -> riemann_integrable 1 2 (fun z => odd_w z * g z).
Proof.
  intros Hg Hb. destruct (@kinetic_weight s1 (one_tree_wf 0) harmonic _ 1 2 ltac:(lra) mass_one) as (a & Ha & H).
  replace (fun z => odd_w z * g z) with (fun z => weight s1 2 harmonic 1 a z * g z); [apply (@weight_integrable s1 (one_tree_wf 0) 2 harmonic 1 a Ha g 1 harmonic_continuous harmonic_decays Hg Hb)|].
  extensionality z. rewrite <- weight_odd, <- H. unfold sg_weight. rewrite prod_one. unfold prod_upto. cbn [seq map fold_right]. rewrite Rmult_1_r. reflexivity.
Qed.
Lemma tent_f_continuous : continuous_observable s1 tent_f.
Proof.
  intros x p Lx Lp e H. set (z := fun q => match q with CPos _ => el x 0 | CMom _ => el p 0 | _ => 0 end).
  destruct (@cont_f (fun z => z (CMom 0)) cont_p z e H) as (del & Hd & Hc). exists del. split; auto. intros x' p' Lx' Lp' Hn.
  destruct (Hn 0%nat ltac:(cbn; lia)) as [N1 N2]. apply (Hc (fun q => match q with CPos _ => el x' 0 | CMom _ => el p' 0 | _ => 0 end)).
  intros [i|i|j i] _; cbn; auto. rewrite Rminus_diag_eq, Rabs_R0 by reflexivity. exact Hd.
Qed.

Theorem C59_odd_refuted : continuous_observable s1 tent_f /\ (forall a b, 0 <= tent_f a b <= 1) /\
  forall (d : Data) (normal : phase -> key -> list nat -> list R) (st : phase -> sg_state key vtree vtree Model Data Full MassState) (mean : phase -> R),
  let x := fun z => ob_positions (sg_integrator (st z)) in
  let p := fun z => ob_momentum (sg_integrator (st z)) in
  let density := fun z => sgdens 1 (normal z) (st z) in
  let next := fun u z => fst (sgstep (fun _ => u) (normal z) (st z) sch) in
  (forall z, sg_starts s1 harmonic 1 ms d z (normal z) (st z)) ->
  (forall z, uniform_mean (fun u => tent_f (ob_positions (sg_integrator (next u z))) (ob_momentum (sg_integrator (next u z)))) (mean z)) ->
  riemann_integrable 1 2 (fun z => density z * tent_f (x z) (p z)) /\ riemann_integrable 1 2 (fun z => density z * mean z) /\
  riemann_integral 1 2 (fun z => density z * mean z) < riemann_integral 1 2 (fun z => density z * tent_f (x z) (p z)).
Proof.
  split; [apply tent_f_continuous|]. split; [intros; apply odd_f_range|]. intros d normal st mean x p density next Hst Hmean.
  pose proof (c_pos friction eps) as Hc. pose proof v_pos as Hv.
  assert (Hx : forall z, el (x z) 0 = z (CPos 0) /\ el (p z) 0 = z (CMom 0) /\ like s1 (p z) /\ density z = odd_w z).
  { intros z. pose proof (Hst z) as Hz. pose proof (sg_weight_ok (one_tree_wf 0) get_data pot_value pot_model (fun t (_ : unit) => t) G_like full_potential HU ma None 1 Hz) as Hw. destruct Hz as (_ & Lx & Lp & _ & _ & _ & _ & _ & Hz).
    destruct (Hz 0%nat ltac:(cbn; lia)) as (Z1 & Z2 & _). rewrite <- weight_odd. auto. }
  set (acc := fun (_ : Data) z => odd_acc eps (z (CPos 0)) (odd_r c v z)).
  assert (Hfx : forall z, tent_f (x z) (p z) = odd_f (z (CPos 0)) (1 * z (CMom 0))) by (intros z; destruct (Hx z) as (E1 & E2 & _); unfold tent_f; now rewrite E1, E2, Rmult_1_l).
  assert (Hfm : forall z, tent_f (x z) (tree_scale (-1) (p z)) = odd_f (z (CPos 0)) (-1 * z (CMom 0))).
  { intros z. destruct (Hx z) as (E1 & E2 & E3 & _). unfold tent_f. rewrite (el_scale' (one_tree_wf 0)) by (auto; cbn; lia). now rewrite E1, E2. }
  destruct (@odd_integral c v eps Hc Hv Heps Heps2 odd_integrable) as (J1 & J2 & J3).
  assert (LJ : riemann_integrable 1 2 (fun z => density z * tent_f (x z) (p z))).
  { replace (fun z => density z * tent_f (x z) (p z)) with (fun z => odd_w z * odd_f (z (CPos 0)) (z (CMom 0))).
    - apply odd_integrable; [apply (cont_f (p := fun z => z (CMom 0))), cont_p|]. intros z. apply Rabs_le. pose proof (odd_f_range (z (CPos 0)) (z (CMom 0))). lra.
    - extensionality z. rewrite Hfx, Rmult_1_l. destruct (Hx z) as (_ & _ & _ & ->). reflexivity. }
  assert (E1 : (fun z => density z * acc d z * tent_f (x z) (p z)) = (fun z => odd_w z * odd_acc eps (z (CPos 0)) (odd_r c v z) * odd_f (z (CPos 0)) (1 * z (CMom 0)))) by (extensionality z; rewrite Hfx; destruct (Hx z) as (_ & _ & _ & ->); reflexivity).
  assert (E2 : (fun z => density z * acc d z * tent_f (x z) (tree_scale (-1) (p z))) = (fun z => odd_w z * odd_acc eps (z (CPos 0)) (odd_r c v z) * odd_f (z (CPos 0)) (-1 * z (CMom 0)))) by (extensionality z; rewrite Hfm; destruct (Hx z) as (_ & _ & _ & ->); reflexivity).
  split; [exact LJ|].
  destruct (@C59_stationary_partial s1 (one_tree_wf 0) Data unit Model Full MassState get_data pot_value pot_model G G_like G_cont harmonic full_potential HU ma 1 friction None ms sch eps 1 He HT
    ltac:(now apply Rmult_lt_0_compat) ltac:(lra) mass_one (riemann_integrable 1 2) (riemann_integral 1 2) (riemann_integral_is_integral 1 2) [d] (fun d => d) (Permutation_refl _)) with (normal := fun _ : Data => normal) (st := fun _ : Data => st) (acc := acc) (mean := fun _ : Data => mean) (f := tent_f) as [S1 S2].
  - intros d0 _ j Hj. destruct (batch_no get_data d0 j), (batch_no get_data d0 (2 * 1 - 1 - j)). reflexivity.
  - intros d0 z [<-|[]]. apply Hst.
  - intros d0 z u [<-|[]] Hu. destruct (odd_step (Hst z) Hu) as (x' & p' & A1 & _). exact A1.
  - intros d0 z [<-|[]]. apply Hmean.
  - intros d0 [<-|[]]. split; [exact LJ|]. split; [change (riemann_integrable 1 2 (fun z => density z * acc d z * tent_f (x z) (p z))); rewrite E1; exact J1|].
    change (riemann_integrable 1 2 (fun z => density z * acc d z * tent_f (x z) (tree_scale (-1) (p z)))). rewrite E2. exact J2.
  - split; [apply (S1 d); now left|]. unfold sum_over in S2. cbn [map fold_right] in S2. rewrite !Rplus_0_r in S2.
    change (riemann_integral 1 2 (fun z => density z * mean z) = riemann_integral 1 2 (fun z => density z * tent_f (x z) (p z)) + (riemann_integral 1 2 (fun z => density z * acc d z * tent_f (x z) (tree_scale (-1) (p z))) - riemann_integral 1 2 (fun z => density z * acc d z * tent_f (x z) (p z)))) in S2.
    rewrite E1, E2 in S2. rewrite S2. lra.
Qed.
(** such states and means exist *)
Lemma odd_states_exist : forall (d : Data) (model : Model) (full : Full), exists (normal : phase -> key -> list nat -> list R) (st : phase -> sg_state key vtree vtree Model Data Full MassState) (mean : phase -> R),
  (forall z, sg_starts s1 harmonic 1 ms d z (normal z) (st z)) /\
  forall z, uniform_mean (fun u => let y := sg_integrator (fst (sgstep (fun _ => u) (normal z) (st z) sch)) in tent_f (ob_positions y) (ob_momentum y)) (mean z).
Proof.
  intros d model full. destruct (@sg_states_exist s1 (one_tree_wf 0) Data unit Model Full MassState pot_value pot_model (fun t _ => t) G_like harmonic full_potential HU 1 ms model full (PRNGKey 1) (PRNGKey 2)) as (normal & st & Hst).
  set (A := fun z : phase => odd_acc eps (z (CPos 0)) (odd_r c v z)).
  set (F := fun z u => let y := sg_integrator (fst (sgstep (fun _ => u) (normal d z) (st d z) sch)) in tent_f (ob_positions y) (ob_momentum y)).
  exists (normal d), (st d), (fun z => A z * F z 0 + (1 - A z) * F z (A z)). split; [apply Hst|]. intros z. change (uniform_mean (F z) (A z * F z 0 + (1 - A z) * F z (A z))).
  exists (A z), (F z 0), (F z (A z)). pose proof (acc_range eps (z (CPos 0)) (odd_r c v z)) as HA. fold (A z) in HA. split; [lra|]. split; [|split; [|reflexivity]].
  - intros u Hu. destruct (odd_step (Hst d z) (u := u) ltac:(lra)) as (x' & p' & _ & -> & -> & B1 & _). destruct (odd_step (Hst d z) (u := 0) ltac:(lra)) as (x' & p' & _ & -> & -> & B2 & _).
    destruct (B1 (proj2 Hu)) as [C1 C2]. destruct B2 as [C3 C4]; [apply HA|]. unfold F. cbv zeta. rewrite C1, C2, C3, C4. reflexivity.
  - intros u Hu. destruct (odd_step (Hst d z) (u := u) ltac:(lra)) as (x' & p' & _ & _ & _ & _ & B1). destruct (odd_step (Hst d z) (u := A z) ltac:(lra)) as (y' & q' & _ & _ & _ & _ & B2).
    destruct (B1 (proj1 Hu)) as [C1 C2]. destruct B2 as [C3 C4]; [apply Rle_refl|]. unfold F. cbv zeta. rewrite C1, C2, C3, C4. reflexivity.
Qed.
End MH.

(** friction 1, step size 1/10 *)
Example C59_odd_nonvacuous : exists (normal : phase -> key -> list nat -> list R) (st : phase -> sg_state key vtree vtree unit nat unit unit) (mean : phase -> R),
  let step := fun u z => sg_step (fun n => (S n, tt)) (fun x _ _ => harmonic x) (fun _ _ m => m) (fun t _ => t) (fun p fd m => (Fin (harmonic p), (fd, m))) None 1 1 None (fun _ => u) (normal z) (st z) (mkSchedule (Fin (1 / 10)) (Fin 1) true true) in
  let density := fun z => sg_density s1 harmonic None 1 None 1 (normal z) (st z) in
  (forall z, uniform_mean (fun u => let y := sg_integrator (fst (step u z)) in tent_f (ob_positions y) (ob_momentum y)) (mean z)) /\
  riemann_integral 1 2 (fun z => density z * mean z) < riemann_integral 1 2 (fun z => density z * tent_f (ob_positions (sg_integrator (st z))) (ob_momentum (sg_integrator (st z)))).
Proof.
  destruct (@odd_states_exist nat unit unit unit (fun n => (S n, tt)) (fun x _ _ => harmonic x) (fun _ _ m => m) (fun p fd m => (Fin (harmonic p), (fd, m))) (fun _ _ _ => eq_refl) 1 (1 / 10) (mkSchedule (Fin (1 / 10)) (Fin 1) true true) eq_refl eq_refl 0%nat tt tt) as (normal & st & mean & H1 & H2).
  exists normal, st, mean. intros step density. split; [exact H2|].
  destruct (@C59_odd_refuted nat unit unit unit (fun n => (S n, tt)) (fun x _ _ => harmonic x) (fun _ _ m => m) (fun p fd m => (Fin (harmonic p), (fd, m))) (fun _ _ _ => eq_refl) 1 (1 / 10) (mkSchedule (Fin (1 / 10)) (Fin 1) true true) eq_refl eq_refl ltac:(lra) ltac:(lra) ltac:(lra)) as (_ & _ & H).
  apply (H 0%nat normal st mean H1 H2).
Qed.

Print Assumptions C59_odd_refuted.
Print Assumptions C59_odd_nonvacuous.
