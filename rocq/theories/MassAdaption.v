(** C76: solver.amagold and solver.sggmc with mass_adaption = adaption.mass_matrix (solver.py:301-577, adaption.py:296-369). *)
From Coq Require Import Reals Lra.
From Verif Require Import Base ListUtil Pytree PytreeSpec Io TreeUtil TreeUtilSpec TreeUtilProofs Xreal Scheduler Solver Mh Integrator IntegratorSpec IntegratorBasics ObaboProofs LeapfrogProofs LeapfrogFinal MhIntegrators Adaption AdaptionSpec AdaptionProofs PropertiesAdaption Alias AliasMh.
Open Scope R_scope.
Set Implicit Arguments.

(** ** Model *)
(** adaption.MassMatrix as it is handed to the integrators: get with the decorator (adaption.py:194-222, 364-367) unravels vectors and leaves matrices as they are.
    (A value that is not finite is replaced by 0 here; the theorems exclude this case.) *)
Definition mass_of (st : ad_state mm_st) : mass_matrix :=
  let u q := match q with
             | QVec v => Tens1 (ok_or (ad_template st) (unravel (ad_template st) (map real v)))
             | QMat m => Tens2 (map (map real) m)
             end in
  mkMass (u (mm_inv (ad_inner st))) (u (mm_sqrt (ad_inner st))).
(** mass_matrix(diagonal, burn_in) as used in solver.py:322-333 with initial_mass = cov *)
Definition mass_strategy (eigh : list (list R) -> list R * list (list R)) (diagonal : bool) (burn_in : nat) (cov : vtree) :
  option ((vtree -> ad_state mm_st) * (ad_state mm_st -> vtree -> ad_state mm_st) * (ad_state mm_st -> mass_matrix)) :=
  Some (fun x => mm_init diagonal x (Some cov), mm_update eigh burn_in, mass_of).

(** ** Specification: the state without the state of the adaption *)
Definition am_forget {Full MS Data} (st : am_state key vtree vtree vtree Data Full MS) : am_state key vtree vtree vtree Data Full unit :=
  mkAm (am_integrator st) (am_potential st) (am_full st) (am_key st) (am_ratio st) None.
(** auxiliary definition of a statement or a proof; models no code of /repo *)
Definition sg_forget {Full MS Data} (st : sg_state key vtree vtree vtree Data Full MS) : sg_state key vtree vtree vtree Data Full unit :=
  mkSg (sg_integrator st) (sg_potential st) (sg_full st) (sg_key st) (sg_ratio st) None.
(** elementwise inverse: the mass that belongs to a covariance *)
Definition inverse (v : vtree) : vtree := emap Rinv v.

(** ** Proofs *)
Section P.
Variable s : vtree.
Hypothesis Hs : wfv s.
Variables (eigh : list (list R) -> list R * list (list R)) (B : nat) (x0 c : vtree).
Hypothesis Hx0 : like s x0.
Hypothesis Hc : like s c.
Hypothesis Hpos : forall i, (i < dim s)%nat -> 0 < el c i.
Hypothesis HB : (0 < B)%nat.
Notation hist h := (mm_run eigh true B x0 (Some c) h).

Lemma diag_mass_eq (st : ad_state mm_st) inv root v : ad_template st = x0 -> mm_inv (ad_inner st) = QVec inv -> mm_sqrt (ad_inner st) = QVec root ->
  length inv = dim s -> length root = dim s -> like s v -> (forall i, (i < dim s)%nat -> 0 < el v i) ->
  (forall i, (i < dim s)%nat -> real (nth i inv NaN) = el v i) -> (forall i, (i < dim s)%nat -> real (nth i root NaN) = sqrt (/ el v i)) ->
  mass_of st = init_mass (inverse v).
Proof.
  intros T E1 E2 L1 L2 Lv Pv Hi Hr. unfold mass_of, init_mass, inverse. rewrite E1, E2, T.
  destruct (@unravel_like s Hs x0 (map real inv) Hx0) as (u1 & -> & U1 & R1); [rewrite map_length; exact L1|].
  destruct (@unravel_like s Hs x0 (map real root) Hx0) as (u2 & -> & U2 & R2); [rewrite map_length; exact L2|].
  assert (Lr : like s (emap Rinv v)) by (apply like_emap; exact Lv).
  f_equal; f_equal; apply (like_ext Hs); auto using like_emap; intros i Hlt.
  - rewrite !(el_emap Hs) by auto. unfold el at 1. rewrite R1. rewrite (@nth_map_in _ _ _ _ _ NaN) by lia. rewrite Hi by auto. specialize (Pv i Hlt). rewrite Rinv_inv. reflexivity.
  - rewrite !(el_emap Hs) by auto. unfold el at 1. rewrite R2. rewrite (@nth_map_in _ _ _ _ _ NaN) by lia. apply Hr. exact Hlt.
Qed.

Lemma mass_before h : Forall (like s) h -> (length h < B)%nat -> mass_of (hist h) = init_mass (inverse c).
Proof.
  intros HF Hl. pose proof (@mm_matrices eigh true B x0 (Some c) h) as M. cbv zeta in M.
  replace ((B =? 0) || (length h <? B))%nat with true in M by (symmetry; destruct (Nat.eqb_spec B 0); [reflexivity|]; apply Nat.ltb_lt; exact Hl).
  destruct (@mm_inv_ok s Hs eigh true B x0 (Some c) h Hx0 HF) as (T & _).
  pose proof (like_dim Hs Hc) as Lc. cbn [mm_init ad_inner mm_inv mm_sqrt] in M. injection M as M1 M2.
  eapply diag_mass_eq; [exact T|exact M1|exact M2| | |exact Hc|exact Hpos| |]; rewrite ?map_length; auto.
  - intros i Hi. rewrite (@nth_map_in _ _ _ _ _ 0) by lia. reflexivity.
  - intros i Hi. rewrite map_map. rewrite (@nth_map_in _ _ _ _ _ 0) by lia. pose proof (Hpos Hi) as Pi. change (nth i (ravel c) 0) with (el c i). cbn [xsqrt]. destruct (Rlt_dec (el c i) 0); [lra|]. cbn [xdiv].
    pose proof (sqrt_lt_R0 _ Pi). destruct (Req_EM_T (sqrt (el c i)) 0); [lra|]. cbn [real]. rewrite sqrt_inv. unfold Rdiv. ring.
Qed.

Lemma mass_after h : Forall (like s) h -> (B <= length h)%nat -> (forall i, (i < dim s)%nat -> exists k, (k < B)%nat /\ nth_el h k i <> nth_el h 0 i) ->
  exists v, like s v /\ (forall i, (i < dim s)%nat -> 0 < el v i /\ el v i = cross_dev B (fun k => nth_el h k i) (fun k => nth_el h k i) / INR B) /\ mass_of (hist h) = init_mass (inverse v).
Proof.
  intros HF Hl Hv. assert (Hb : (0 < B <= length h)%nat) by lia. destruct (@C45_adapted s eigh B x0 (Some c) h Hs Hx0 HF Hb) as [(inv & root & E & L1 & L2 & H) _].
  destruct (@mm_inv_ok s Hs eigh true B x0 (Some c) h Hx0 HF) as (T & _).
  unfold mm_get in E. destruct (fits_template _ _ && fits_template _ _)%bool; [|discriminate]. injection E as E1 E2.
  set (vv := map (fun i => cross_dev B (fun k => nth_el h k i) (fun k => nth_el h k i) / INR B) (seq 0 (dim s))).
  destruct (@unravel_like s Hs x0 vv Hx0) as (v & _ & V1 & V2); [unfold vv; rewrite map_length, seq_length; reflexivity|].
  assert (Ev : forall i, (i < dim s)%nat -> el v i = cross_dev B (fun k => nth_el h k i) (fun k => nth_el h k i) / INR B).
  { intros i Hi. unfold el. rewrite V2. unfold vv. rewrite (@nth_map_in _ _ _ _ _ O) by (rewrite seq_length; exact Hi). rewrite seq_nth by exact Hi. reflexivity. }
  assert (HN : 0 < INR B) by (apply lt_0_INR; lia).
  assert (Pc : forall i, (i < dim s)%nat -> 0 < cross_dev B (fun k => nth_el h k i) (fun k => nth_el h k i)).
  { intros i Hi. destruct (Hv i Hi) as (k & Hk & Hne). apply cross_dev_pos with k O; auto; lia. }
  assert (Pv : forall i, (i < dim s)%nat -> 0 < el v i) by (intros i Hi; rewrite Ev by auto; apply Rdiv_lt_0_compat; auto).
  exists v. split; [exact V1|]. split; [auto|]. eapply diag_mass_eq; [exact T|exact E1|exact E2|exact L1|exact L2|exact V1|exact Pv| |]; intros i Hi; destruct (H i Hi) as [H1 H2].
  - rewrite H1, Ev by auto. reflexivity.
  - rewrite H2, Ev by auto. specialize (Pc i Hi). cbn [xdiv]. destruct (Req_EM_T _ 0); [lra|]. cbn [xsqrt].
    assert (Pq : 0 < INR B / cross_dev B (fun k => nth_el h k i) (fun k => nth_el h k i)) by (apply Rdiv_lt_0_compat; auto). destruct (Rlt_dec _ 0); [lra|]. cbn [real]. f_equal. field. lra.
Qed.
End P.

(** a solver whose step uses the mass of the state of the adaption and updates it with the new position *)
Section Generic.
Variable s : vtree.
Hypothesis Hs : wfv s.
Variables (eigh : list (list R) -> list R * list (list R)) (B : nat) (x0 c : vtree).
Hypothesis Hx0 : like s x0.
Hypothesis Hc : like s c.
Hypothesis Hpos : forall i, (i < dim s)%nat -> 0 < el c i.
Hypothesis HB : (0 < B)%nat.
Variables (St Su : Type) (step : St -> schedule -> St) (plain : vtree -> Su -> schedule -> Su) (forget : St -> Su) (pos : St -> vtree) (mst : St -> option (ad_state mm_st)) (ok : St -> Prop).
Hypothesis Hok : forall st, ok st -> like s (pos st).
Hypothesis Hstep : forall st sch ms d, mst st = Some ms -> mass_of ms = init_mass d -> like s d -> ok st ->
  forget (step st sch) = plain d (forget st) sch /\ mst (step st sch) = Some (mm_update eigh B ms (pos (step st sch))) /\ ok (step st sch).
Variable st0 : St.
Hypothesis H0 : mst st0 = Some (mm_init true x0 (Some c)).
Hypothesis Hok0 : ok st0.
Notation run st schs := (fold_left step schs st).
Notation prun d st schs := (fold_left (plain d) schs st).
Variable schs : list schedule.
Notation at_ k := (run st0 (firstn k schs)).
Notation h k := (map (fun j => pos (at_ (S j))) (seq 0 k)).
Notation hist l := (mm_run eigh true B x0 (Some c) l).

Lemma nth_error_skip {A} (l : list A) n k : nth_error (skipn n l) k = nth_error l (n + k).
Proof. revert l. induction n as [|n IH]; intros [|x l]; cbn [skipn plus nth_error]; auto. destruct k; reflexivity. Qed.
Lemma firstn_S_app {A} (l : list A) k x : nth_error l k = Some x -> firstn (S k) l = firstn k l ++ [x].
Proof. revert k. induction l as [|y l IH]; intros [|k] H; try discriminate; cbn in *; [injection H as ->; reflexivity|]. f_equal. apply IH. exact H. Qed.
Lemma gen_step k d sch : nth_error schs k = Some sch -> mst (at_ k) = Some (hist (h k)) -> mass_of (hist (h k)) = init_mass d -> like s d -> ok (at_ k) ->
  forget (at_ (S k)) = plain d (forget (at_ k)) sch /\ mst (at_ (S k)) = Some (hist (h (S k))) /\ ok (at_ (S k)).
Proof.
  intros Hn Hm Hd Ld Ho. destruct (@Hstep (at_ k) sch _ d Hm Hd Ld Ho) as (S1 & S2 & S3).
  assert (E : at_ (S k) = step (at_ k) sch) by (rewrite (firstn_S_app _ _ Hn), fold_left_app; reflexivity).
  rewrite E. split; [exact S1|]. split; [|exact S3]. rewrite S2. f_equal. rewrite seq_S, map_app. cbn [map plus]. unfold mm_run. rewrite fold_left_app. cbn [fold_left]. rewrite E. reflexivity.
Qed.
Lemma gen_before : forall k, (k <= B)%nat -> (k <= length schs)%nat ->
  forget (at_ k) = prun (inverse c) (forget st0) (firstn k schs) /\ mst (at_ k) = Some (hist (h k)) /\ ok (at_ k) /\ Forall (like s) (h k).
Proof.
  induction k as [|k IH]; intros Hb Hl; [cbn; auto|]. destruct IH as (I1 & I2 & I3 & I4); [lia|lia|].
  destruct (nth_error schs k) as [sch|] eqn:En; [|apply nth_error_None in En; lia].
  assert (Lh : length (h k) = k) by (rewrite map_length, seq_length; reflexivity).
  destruct (@gen_step k (inverse c) sch En I2) as (S1 & S2 & S3); [apply (@mass_before s Hs eigh B x0 c Hx0 Hc Hpos HB); [exact I4|lia]|apply like_emap; exact Hc|exact I3|].
  split; [|split; [exact S2|split; [exact S3|]]].
  - rewrite S1, I1. rewrite (firstn_S_app _ _ En), (fold_left_app (plain _)). reflexivity.
  - rewrite seq_S, map_app, Forall_app. split; [exact I4|]. constructor; [apply Hok; exact S3|constructor].
Qed.
Lemma gen_after : (forall i, (i < dim s)%nat -> exists k, (k < B)%nat /\ el (pos (at_ (S k))) i <> el (pos (at_ 1)) i) -> (B <= length schs)%nat ->
  exists v, like s v /\ (forall i, (i < dim s)%nat -> 0 < el v i /\ let f := fun k => el (pos (at_ (S k))) i in el v i = cross_dev B f f / INR B) /\
  forall k, (B + k <= length schs)%nat -> forget (at_ (B + k)) = prun (inverse v) (forget (at_ B)) (firstn k (skipn B schs)) /\ ok (at_ (B + k)).
Proof.
  intros Hv Hl. destruct (gen_before (le_n B) Hl) as (I1 & I2 & I3 & I4).
  assert (En : forall n k i, (k < n)%nat -> nth_el (h n) k i = el (pos (at_ (S k))) i).
  { intros n k i Hk. unfold nth_el. rewrite (@nth_map_in _ _ _ _ _ O) by (rewrite seq_length; exact Hk). rewrite seq_nth by exact Hk. reflexivity. }
  assert (Lh : forall n, length (h n) = n) by (intros n; rewrite map_length, seq_length; reflexivity).
  assert (Hvn : forall n, (B <= n)%nat -> forall i, (i < dim s)%nat -> exists k, (k < B)%nat /\ nth_el (h n) k i <> nth_el (h n) 0 i).
  { intros n Hn i Hi. destruct (Hv i Hi) as (k & Hk & Hne). exists k. split; [exact Hk|]. rewrite !En by lia. exact Hne. }
  destruct (@mass_after s Hs eigh B x0 c Hx0 Hpos HB (h B) I4) as (v & V1 & V2 & V3); [rewrite Lh; lia|apply Hvn; lia|].
  assert (Vv : forall n, (B <= n)%nat -> Forall (like s) (h n) -> mass_of (hist (h n)) = init_mass (inverse v)).
  { intros n Hn HF. destruct (@mass_after s Hs eigh B x0 c Hx0 Hpos HB (h n) HF) as (v' & V1' & V2' & V3'); [rewrite Lh; lia|apply Hvn; lia|].
    rewrite V3'. f_equal. f_equal. apply (like_ext Hs); auto. intros i Hi. rewrite (proj2 (V2' i Hi)), (proj2 (V2 i Hi)). f_equal. apply cross_dev_ext; intros k Hk; rewrite !En by lia; reflexivity. }
  exists v. split; [exact V1|]. split.
  { intros i Hi. destruct (V2 i Hi) as [P E]. split; [exact P|]. cbv zeta. rewrite E. f_equal. apply cross_dev_ext; intros k Hk; rewrite En by lia; reflexivity. }
  assert (G : forall k, (B + k <= length schs)%nat -> forget (at_ (B + k)) = prun (inverse v) (forget (at_ B)) (firstn k (skipn B schs)) /\ mst (at_ (B + k)) = Some (hist (h (B + k))) /\ ok (at_ (B + k)) /\ Forall (like s) (h (B + k))).
  { induction k as [|k IH]; intros Hk; [rewrite Nat.add_0_r; auto|]. destruct IH as (J1 & J2 & J3 & J4); [lia|].
    destruct (nth_error schs (B + k)) as [sch|] eqn:Es; [|apply nth_error_None in Es; lia].
    destruct (@gen_step (B + k) (inverse v) sch Es J2) as (S1 & S2 & S3); [apply Vv; [lia|exact J4]|apply like_emap; exact V1|exact J3|].
    replace (B + S k)%nat with (S (B + k)) by lia. split; [|split; [exact S2|split; [exact S3|]]].
    - rewrite S1, J1. assert (Es' : nth_error (skipn B schs) k = Some sch) by (rewrite nth_error_skip; exact Es). rewrite (firstn_S_app _ _ Es'), (fold_left_app (plain _)). reflexivity.
    - rewrite seq_S, map_app, Forall_app. split; [exact J4|]. constructor; [apply Hok; exact S3|constructor]. }
  intros k Hk. destruct (G k Hk) as (J1 & _ & J3 & _). auto.
Qed.
End Generic.

(** *** amagold *)
Section Amagold.
Variable s : vtree.
Hypothesis Hs : wfv s.
Variables (Full Data Batch : Type).
Variable uniform : key -> R.
Variable normal : key -> list nat -> list R.
Hypothesis Hn : normal_ok normal.
Variable full_potential : vtree -> Full -> vtree -> xr * (Full * vtree).
Variable get_data : Data -> Data * Batch.
Variable pot_value : vtree -> Batch -> vtree -> R.
Variable pot_model : vtree -> Batch -> vtree -> vtree.
Variable pot_grad : vtree -> Batch -> vtree -> vtree.
Hypothesis Hg : forall t b m, like s t -> like s (pot_grad t b m).
Variables (steps : nat) (friction : R) (const_mass : option vtree).
Variables (eigh : list (list R) -> list R * list (list R)) (B : nat) (c : vtree).
Notation adapted st sch := (fst (am_update split2 uniform tree_scale full_potential (mass_strategy eigh true B c) (leapfrog_update normal get_data pot_model pot_grad steps friction const_mass) st sch)).
Notation plain d st sch := (fst (am_update split2 uniform tree_scale full_potential no_adaption (leapfrog_update normal get_data pot_model pot_grad steps friction (Some d)) st sch)).
(** auxiliary definition of a statement or a proof; models no code of /repo *)
Definition am_ok {MS} (st : am_state key vtree vtree vtree Data Full MS) : Prop := like s (lf_positions (am_integrator st)) /\ like s (lf_momentum (am_integrator st)).

Lemma lf_update_const d (l : lf_state key vtree vtree vtree Data) sch :
  leapfrog_update normal get_data pot_model pot_grad steps friction const_mass l sch (Some (init_mass d)) = leapfrog_update normal get_data pot_model pot_grad steps friction (Some d) l sch None.
Proof. unfold leapfrog_update. destruct (sch_step sch); reflexivity. Qed.
Lemma lf_update_like d (l : lf_state key vtree vtree vtree Data) sch : like s d -> like s (lf_positions l) -> like s (lf_momentum l) ->
  let l' := leapfrog_update normal get_data pot_model pot_grad steps friction (Some d) l sch None in like s (lf_positions l') /\ like s (lf_momentum l').
Proof.
  intros Ld L1 L2. cbv zeta. unfold leapfrog_update. destruct (sch_step sch); auto.
  apply (@rl_integrate_like s Hs (Some d) None Data Batch vtree get_data pot_model pot_grad Hg friction r normal Hn (rl_of l) L1 L2); [apply inv_mass_fits|apply sqrt_mass_fits]; exact Ld.
Qed.
Lemma am_step st sch ms d : am_mass st = Some ms -> mass_of ms = init_mass d -> like s d -> am_ok st ->
  am_forget (adapted st sch) = plain d (am_forget st) sch /\ am_mass (adapted st sch) = Some (mm_update eigh B ms (lf_positions (am_integrator (adapted st sch)))) /\ am_ok (adapted st sch).
Proof.
  intros Hm Hd Ld [L1 L2]. unfold am_update, no_adaption, mass_strategy, am_forget, am_ok. cbn [mass_get mass_update am_mass am_integrator am_potential am_full am_key]. rewrite Hm. cbn [mass_get mass_update]. rewrite Hd.
  destruct (split2 (am_key st)) as [key split]. rewrite (lf_update_const d).
  destruct (@lf_update_like d (am_integrator st) sch Ld L1 L2) as [P1 P2].
  set (pr := leapfrog_update normal get_data pot_model pot_grad steps friction (Some d) (am_integrator st) sch None) in *. clearbody pr.
  destruct (full_potential (lf_positions pr) (am_full st) (lf_model pr)) as [new [full model']].
  destruct (xltb _ _); cbn [fst am_integrator am_mass am_potential am_full am_key am_ratio lf_positions lf_momentum]; auto using like_scale.
Qed.
End Amagold.

(** *** sggmc *)
Section Sggmc.
Variable s : vtree.
Hypothesis Hs : wfv s.
Variables (Full Data Batch : Type).
Variable uniform : key -> R.
Variable normal : key -> list nat -> list R.
Hypothesis Hn : normal_ok normal.
Variable full_potential : vtree -> Full -> vtree -> xr * (Full * vtree).
Variable get_data : Data -> Data * Batch.
Variable pot_value : vtree -> Batch -> vtree -> R.
Variable pot_model : vtree -> Batch -> vtree -> vtree.
Variable pot_grad : vtree -> Batch -> vtree -> vtree.
Hypothesis Hg : forall t b m, like s t -> like s (pot_grad t b m).
Variables (steps : nat) (friction : R) (const_mass : option vtree).
Variables (eigh : list (list R) -> list R * list (list R)) (B : nat) (c : vtree).
Notation adapted st sch := (fst (sg_update split2 uniform full_potential (mass_strategy eigh true B c) (obabo_update normal get_data pot_value pot_model pot_grad steps friction const_mass) st sch)).
Notation plain d st sch := (fst (sg_update split2 uniform full_potential no_adaption (obabo_update normal get_data pot_value pot_model pot_grad steps friction (Some d)) st sch)).
(** auxiliary definition of a statement or a proof; models no code of /repo *)
Definition sg_ok {MS} (st : sg_state key vtree vtree vtree Data Full MS) : Prop := like s (ob_positions (sg_integrator st)) /\ like s (ob_momentum (sg_integrator st)).

Lemma ob_update_const d (l : ob_state key vtree vtree vtree Data) sch :
  obabo_update normal get_data pot_value pot_model pot_grad steps friction const_mass l sch (Some (init_mass d)) = obabo_update normal get_data pot_value pot_model pot_grad steps friction (Some d) l sch None.
Proof. unfold obabo_update. destruct (sch_step sch); try reflexivity. Qed.
Lemma ob_update_like d (l : ob_state key vtree vtree vtree Data) sch : like s d -> like s (ob_positions l) -> like s (ob_momentum l) ->
  let l' := obabo_update normal get_data pot_value pot_model pot_grad steps friction (Some d) l sch None in like s (ob_positions l') /\ like s (ob_momentum l').
Proof.
  intros Ld L1 L2. cbv zeta. unfold obabo_update. destruct (sch_step sch) as [eps| | |]; auto. destruct (sch_temperature sch) as [T| | |]; auto.
  change (like s (o_pos (ob_at (init_mass d) normal get_data pot_value pot_model pot_grad friction eps T (st_of l) steps)) /\ like s (o_mom (ob_at (init_mass d) normal get_data pot_value pot_model pot_grad friction eps T (st_of l) steps))).
  apply (@ob_at_like s Hs (init_mass d)); auto; [apply inv_mass_fits|apply sqrt_mass_fits]; exact Ld.
Qed.
Lemma sg_step st sch ms d : sg_mass st = Some ms -> mass_of ms = init_mass d -> like s d -> sg_ok st ->
  sg_forget (adapted st sch) = plain d (sg_forget st) sch /\ sg_mass (adapted st sch) = Some (mm_update eigh B ms (ob_positions (sg_integrator (adapted st sch)))) /\ sg_ok (adapted st sch).
Proof.
  intros Hm Hd Ld [L1 L2]. unfold sg_update, no_adaption, mass_strategy, sg_forget, sg_ok. cbn [mass_get mass_update sg_mass sg_integrator sg_potential sg_full sg_key]. rewrite Hm. cbn [mass_get mass_update]. rewrite Hd.
  destruct (split2 (sg_key st)) as [key split]. rewrite (ob_update_const d).
  destruct (@ob_update_like d (sg_integrator st) sch Ld L1 L2) as [P1 P2].
  set (pr := obabo_update normal get_data pot_value pot_model pot_grad steps friction (Some d) (sg_integrator st) sch None) in *. clearbody pr.
  destruct (full_potential (ob_positions pr) (sg_full st) (ob_model pr)) as [new [full model']].
  destruct (xltb _ _); cbn [fst sg_integrator sg_mass sg_potential sg_full sg_key sg_ratio ob_positions ob_momentum]; auto.
Qed.
End Sggmc.
