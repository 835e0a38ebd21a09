(** C76: amagold and sggmc with an adapted (diagonal) mass. *)
From Coq Require Import Reals Lra.
From Verif Require Import Base ListUtil Pytree PytreeSpec Io TreeUtil TreeUtilSpec TreeUtilProofs Xreal Scheduler Solver Mh Integrator IntegratorSpec IntegratorBasics ObaboProofs LeapfrogProofs LeapfrogFinal MhIntegrators Adaption AdaptionSpec AdaptionProofs PropertiesAdaption Alias AliasMh MassAdaption.
Open Scope R_scope.
Set Implicit Arguments.

(** C76: solver.amagold(integrator, full_potential, mass_adaption=mass_matrix(diagonal=True, burn_in=B), initial_mass=c), started
    by init(x0, key) and updated with the schedules schs; [at_ k] is the state after k updates. [plain d] is the update of
    solver.amagold without adaption whose integrator has the constant mass d. *)
Theorem C76_amagold (s : vtree) (Full Data Batch : Type) (uniform : key -> R) (normal : key -> list nat -> list R)
  (full_potential : vtree -> Full -> vtree -> xr * (Full * vtree)) (init_full : Full) (get_data : Data -> Data * Batch)
  (pot_model : vtree -> Batch -> vtree -> vtree) (pot_grad : vtree -> Batch -> vtree -> vtree) (steps : nat) (friction : R) (const_mass : option vtree)
  (eigh : list (list R) -> list R * list (list R)) (B : nat) (data0 : Data) (model0 x0 c : vtree) (k0 : key) (schs : list schedule) :
  wfv s -> normal_ok normal -> (forall t b m, like s t -> like s (pot_grad t b m)) ->
  like s x0 -> like s c -> (forall i, (i < dim s)%nat -> 0 < el c i) -> (0 < B)%nat ->
  let adapted st sch := fst (am_update split2 uniform tree_scale full_potential (mass_strategy eigh true B c) (leapfrog_update normal get_data pot_model pot_grad steps friction const_mass) st sch) in
  let plain d st sch := fst (am_update split2 uniform tree_scale full_potential no_adaption (leapfrog_update normal get_data pot_model pot_grad steps friction (Some d)) st sch) in
  let st0 := am_init split2 full_potential init_full (mass_strategy eigh true B c) (leapfrog_init normal const_mass data0) x0 k0 model0 in
  let at_ k := fold_left adapted (firstn k schs) st0 in
  let x k := lf_positions (am_integrator (at_ k)) in
  (forall k, (k <= B)%nat -> (k <= length schs)%nat ->
     am_forget (at_ k) = fold_left (plain (inverse c)) (firstn k schs)
       (am_init split2 full_potential init_full no_adaption (leapfrog_init normal (Some (inverse c)) data0) x0 k0 model0)) /\
  ((B <= length schs)%nat -> (forall i, (i < dim s)%nat -> exists k, (1 <= k <= B)%nat /\ el (x k) i <> el (x 1%nat) i) ->
   exists v, like s v /\
     (forall i, (i < dim s)%nat -> 0 < el v i /\ let f := fun k => el (x (S k)) i in el v i = cross_dev B f f / INR B) /\
     forall k, (B + k <= length schs)%nat -> am_forget (at_ (B + k)%nat) = fold_left (plain (inverse v)) (firstn k (skipn B schs)) (am_forget (at_ B))).
Proof.
  intros Hs Hn Hg Hx0 Hc Hpos HB adapted plain st0 at_ x.
  assert (E0 : am_mass st0 = Some (mm_init true x0 (Some c)) /\ am_ok s st0 /\
     am_forget st0 = am_init split2 full_potential init_full no_adaption (leapfrog_init normal (Some (inverse c)) data0) x0 k0 model0).
  { assert (Em : mass_of (mm_init true x0 (Some c)) = init_mass (inverse c)) by (apply (@mass_before s Hs eigh B x0 c Hx0 Hc Hpos HB []); [constructor|exact HB]).
    unfold st0, am_init, mass_strategy, no_adaption, am_forget, am_ok. cbn [mass_init mass_get]. rewrite Em. destruct (full_potential x0 init_full model0) as [u [full model']]. destruct (split2 k0) as [k split].
    cbn [am_mass am_integrator am_potential am_full am_key am_ratio]. split; [reflexivity|]. split; [|reflexivity].
    unfold leapfrog_init, rl_init. cbn [rl_mass].
    destruct (@noise_ok s Hs (init_mass (inverse c)) (sqrt_mass_fits (like_emap Rinv Hc)) normal Hn (Sub k 1) x0 Hx0) as [N _].
    destruct (cov_scaled_noise normal (Sub k 1) (init_mass (inverse c)) x0) as [noise used]. cbn [fst lf_of lf_positions lf_momentum r_pos r_mom] in *. auto. }
  destruct E0 as (M0 & O0 & F0).
  assert (Hok : forall st : am_state key vtree vtree vtree Data Full (ad_state mm_st), am_ok s st -> like s (lf_positions (am_integrator st))) by (intros st [L _]; exact L).
  pose proof (@am_step s Hs Full Data Batch uniform normal Hn full_potential get_data pot_model pot_grad Hg steps friction const_mass eigh B c) as Hstep.
  split.
  - intros k Hk Hl. rewrite <- F0.
    exact (proj1 (@gen_before s Hs eigh B x0 c Hx0 Hc Hpos HB _ _ adapted plain am_forget (fun st => lf_positions (am_integrator st)) (@am_mass _ _ _ _ _ _ _) (fun st => am_ok s st) Hok Hstep st0 M0 O0 schs k Hk Hl)).
  - intros Hl Hv.
    destruct (@gen_after s Hs eigh B x0 c Hx0 Hc Hpos HB _ _ adapted plain am_forget (fun st => lf_positions (am_integrator st)) (@am_mass _ _ _ _ _ _ _) (fun st => am_ok s st) Hok Hstep st0 M0 O0 schs) as (v & V1 & V2 & V3).
    + intros i Hi. destruct (Hv i Hi) as ([|k] & Hk & Hne); [lia|]. exists k. split; [lia|exact Hne].
    + exact Hl.
    + exists v. split; [exact V1|]. split; [exact V2|]. intros k Hk. exact (proj1 (V3 k Hk)).
Qed.

(** C76 for solver.sggmc *)
Theorem C76_sggmc (s : vtree) (Full Data Batch : Type) (uniform : key -> R) (normal : key -> list nat -> list R)
  (full_potential : vtree -> Full -> vtree -> xr * (Full * vtree)) (init_full : Full) (get_data : Data -> Data * Batch)
  (pot_value : vtree -> Batch -> vtree -> R) (pot_model : vtree -> Batch -> vtree -> vtree) (pot_grad : vtree -> Batch -> vtree -> vtree)
  (steps : nat) (friction : R) (const_mass : option vtree)
  (eigh : list (list R) -> list R * list (list R)) (B : nat) (data0 : Data) (model0 x0 c : vtree) (k0 : key) (schs : list schedule) :
  wfv s -> normal_ok normal -> (forall t b m, like s t -> like s (pot_grad t b m)) ->
  like s x0 -> like s c -> (forall i, (i < dim s)%nat -> 0 < el c i) -> (0 < B)%nat ->
  let adapted st sch := fst (sg_update split2 uniform full_potential (mass_strategy eigh true B c) (obabo_update normal get_data pot_value pot_model pot_grad steps friction const_mass) st sch) in
  let plain d st sch := fst (sg_update split2 uniform full_potential no_adaption (obabo_update normal get_data pot_value pot_model pot_grad steps friction (Some d)) st sch) in
  let st0 := sg_init split2 full_potential init_full (mass_strategy eigh true B c) (MhIntegrators.obabo_init data0) x0 k0 model0 in
  let at_ k := fold_left adapted (firstn k schs) st0 in
  let x k := ob_positions (sg_integrator (at_ k)) in
  (forall k, (k <= B)%nat -> (k <= length schs)%nat ->
     sg_forget (at_ k) = fold_left (plain (inverse c)) (firstn k schs)
       (sg_init split2 full_potential init_full no_adaption (MhIntegrators.obabo_init data0) x0 k0 model0)) /\
  ((B <= length schs)%nat -> (forall i, (i < dim s)%nat -> exists k, (1 <= k <= B)%nat /\ el (x k) i <> el (x 1%nat) i) ->
   exists v, like s v /\
     (forall i, (i < dim s)%nat -> 0 < el v i /\ let f := fun k => el (x (S k)) i in el v i = cross_dev B f f / INR B) /\
     forall k, (B + k <= length schs)%nat -> sg_forget (at_ (B + k)%nat) = fold_left (plain (inverse v)) (firstn k (skipn B schs)) (sg_forget (at_ B))).
Proof.
  intros Hs Hn Hg Hx0 Hc Hpos HB adapted plain st0 at_ x.
  assert (E0 : sg_mass st0 = Some (mm_init true x0 (Some c)) /\ sg_ok s st0 /\
     sg_forget st0 = sg_init split2 full_potential init_full no_adaption (MhIntegrators.obabo_init data0) x0 k0 model0).
  { unfold st0, sg_init, mass_strategy, no_adaption, sg_forget, sg_ok. cbn [mass_init mass_get]. destruct (full_potential x0 init_full model0) as [u [full model']]. destruct (split2 k0) as [k split].
    cbn [sg_mass sg_integrator sg_potential sg_full sg_key sg_ratio]. split; [reflexivity|]. split; [|reflexivity].
    unfold MhIntegrators.obabo_init, Integrator.ob_init. cbn [ob_of ob_positions ob_momentum o_pos o_mom]. split; [exact Hx0|]. apply like_emap. exact Hx0. }
  destruct E0 as (M0 & O0 & F0).
  assert (Hok : forall st : sg_state key vtree vtree vtree Data Full (ad_state mm_st), sg_ok s st -> like s (ob_positions (sg_integrator st))) by (intros st [L _]; exact L).
  pose proof (@sg_step s Hs Full Data Batch uniform normal Hn full_potential get_data pot_value pot_model pot_grad Hg steps friction const_mass eigh B c) as Hstep.
  split.
  - intros k Hk Hl. rewrite <- F0.
    exact (proj1 (@gen_before s Hs eigh B x0 c Hx0 Hc Hpos HB _ _ adapted plain sg_forget (fun st => ob_positions (sg_integrator st)) (@sg_mass _ _ _ _ _ _ _) (fun st => sg_ok s st) Hok Hstep st0 M0 O0 schs k Hk Hl)).
  - intros Hl Hv.
    destruct (@gen_after s Hs eigh B x0 c Hx0 Hc Hpos HB _ _ adapted plain sg_forget (fun st => ob_positions (sg_integrator st)) (@sg_mass _ _ _ _ _ _ _) (fun st => sg_ok s st) Hok Hstep st0 M0 O0 schs) as (v & V1 & V2 & V3).
    + intros i Hi. destruct (Hv i Hi) as ([|k] & Hk & Hne); [lia|]. exists k. split; [lia|exact Hne].
    + exact Hl.
    + exists v. split; [exact V1|]. split; [exact V2|]. intros k Hk. exact (proj1 (V3 k Hk)).
Qed.

(** *** a concrete case: one number, flat potential, no friction, step size 1, always accepted: the positions are 0, 1, 2, ...,
    burn_in = 2, and the mass changes from 1 to 1 / variance(1, 2) = 4: from then on the steps are 1/4. *)
(** auxiliary definition of a statement or a proof; models no code of /repo *)
Definition mx (r : R) : vtree := Leaf (mkArr [] [r]).
(** auxiliary definition of a statement or a proof; models no code of /repo *)
Definition ex_mass_sch := mkSchedule (Fin 1) (Fin 1) false true.
(** auxiliary definition of a statement or a proof; models no code of /repo *)
Definition ex_am_plain (d : vtree) st sch := fst (am_update split2 (fun _ => 0) tree_scale (fun _ (f : unit) (m : vtree) => (Fin 0, (f, m))) no_adaption
  (leapfrog_update (fun _ sh => repeat 1 (size sh)) (fun d : unit => (d, tt)) (fun _ _ m => m) (fun t _ _ => emap (fun _ => 0) t) 1 0 (Some d)) st sch).
Lemma ex_am_plain_step a p d st : lf_positions (am_integrator st) = mx a -> lf_momentum (am_integrator st) = mx p -> am_potential st = Fin 0 ->
  let st' := ex_am_plain (mx d) st ex_mass_sch in
  lf_positions (am_integrator st') = mx (a + / d * p) /\ lf_momentum (am_integrator st') = mx p /\ am_potential st' = Fin 0.
Proof.
  destruct st as [[xx pp mm qq dd kk] uu ff ke ra ma]. cbn [am_integrator lf_positions lf_momentum am_potential]. intros -> -> ->. cbv zeta. unfold ex_am_plain, am_update, no_adaption, ex_mass_sch, leapfrog_update.
  cbn [am_key am_integrator am_potential am_full am_mass]. destruct (split2 ke) as [key split]. cbn [sch_step mass_get]. unfold rl_integrate. cbn.
  match goal with |- context [am_log_alpha (Fin 0) (Fin 0) (Fin ?e)] => generalize e end. intros e.
  assert (E : exists r, am_log_alpha (Fin 0) (Fin 0) (Fin e) = Fin r) by (unfold am_log_alpha; cbn [xsub xadd xopp]; destruct (xltb _ _); eauto).
  destruct E as [r ->].
  replace (xlog 0) with NInf; [|unfold xlog; destruct (Rlt_dec 0 0); [lra|]; destruct (Req_EM_T 0 0); [reflexivity|lra]].
  cbn. unfold mx. generalize (/ d). intros w. split; [|split]; [| |reflexivity]; f_equal; f_equal; f_equal; rewrite ?Rmult_0_r, ?Rmult_0_l, ?sqrt_0; field.
Qed.
Theorem C76_nonvacuous :
  let adapted st sch := fst (am_update split2 (fun _ => 0) tree_scale (fun _ (f : unit) (m : vtree) => (Fin 0, (f, m))) (mass_strategy (fun _ => ([], [])) true 2 (mx 1))
    (leapfrog_update (fun _ sh => repeat 1 (size sh)) (fun d : unit => (d, tt)) (fun _ _ m => m) (fun t _ _ => emap (fun _ => 0) t) 1 0 None) st sch) in
  let st0 := am_init split2 (fun _ (f : unit) (m : vtree) => (Fin 0, (f, m))) tt (mass_strategy (fun _ => ([], [])) true 2 (mx 1)) (leapfrog_init (fun _ sh => repeat 1 (size sh)) None tt) (mx 0) (PRNGKey 0) (mx 0) in
  let x k := lf_positions (am_integrator (fold_left adapted (repeat ex_mass_sch k) st0)) in
  x 1%nat = mx 1 /\ x 2%nat = mx 2 /\ x 3%nat = mx (9 / 4) /\ x 4%nat = mx (5 / 2).
Proof.
  intros adapted st0 x.
  assert (Ws : wfv (mx 0)) by (repeat constructor).
  assert (Lm : forall r, like (mx 0) (mx r)) by (intros r; repeat constructor).
  destruct (@C76_amagold (mx 0) unit unit unit (fun _ => 0) (fun _ sh => repeat 1 (size sh)) (fun _ (f : unit) (m : vtree) => (Fin 0, (f, m))) tt (fun d : unit => (d, tt)) (fun _ _ m => m) (fun t _ _ => emap (fun _ => 0) t) 1 0 None
    (fun _ => ([], [])) 2 tt (mx 0) (mx 0) (mx 1) (PRNGKey 0) (repeat ex_mass_sch 4)) as [P1 P2]; auto.
  - intros k sh. apply repeat_length.
  - intros t b m L. apply like_emap. exact L.
  - intros i Hi. assert (i = O) by (unfold dim in Hi; cbn in Hi; lia). subst i. cbn. lra.
  - cbn [repeat length] in P1, P2.
    fold adapted st0 in P1, P2.
    set (st0' := am_init split2 (fun _ (f : unit) (m : vtree) => (Fin 0, (f, m))) tt no_adaption (leapfrog_init (fun _ sh => repeat 1 (size sh)) (Some (inverse (mx 1))) tt) (mx 0) (PRNGKey 0) (mx 0)) in *.
    assert (I0 : lf_positions (am_integrator st0') = mx 0 /\ lf_momentum (am_integrator st0') = mx 1 /\ am_potential st0' = Fin 0).
    { unfold st0', am_init, leapfrog_init, rl_init. cbn. split; [reflexivity|]. split; [|reflexivity]. unfold mx. do 3 f_equal. rewrite Rinv_1, sqrt_1. ring. }
    assert (E1 : inverse (mx 1) = mx (/ 1)) by reflexivity.
    destruct I0 as (A0 & B0 & C0).
    destruct (@ex_am_plain_step _ _ (/ 1) st0' A0 B0 C0) as (A1 & B1 & C1). cbv zeta in *.
    destruct (@ex_am_plain_step _ _ (/ 1) _ A1 B1 C1) as (A2 & B2 & C2).
    assert (F1 := P1 1%nat ltac:(lia) ltac:(lia)). assert (F2 := P1 2%nat ltac:(lia) ltac:(lia)). rewrite E1 in F1, F2. cbn [firstn fold_left] in F1, F2.
    change (fold_left adapted [ex_mass_sch] st0) with (adapted st0 ex_mass_sch) in *.
    assert (X1 : x 1%nat = mx 1).
    { change (x 1%nat) with (lf_positions (am_integrator (am_forget (adapted st0 ex_mass_sch)))). rewrite F1. etransitivity; [exact A1|]. f_equal. rewrite !Rinv_1. lra. }
    assert (X2 : x 2%nat = mx 2).
    { change (x 2%nat) with (lf_positions (am_integrator (am_forget (adapted (adapted st0 ex_mass_sch) ex_mass_sch)))). rewrite F2. etransitivity; [exact A2|]. f_equal. rewrite !Rinv_1. lra. }
    destruct P2 as (v & V1 & V2 & V3); [lia| |].
    { intros i Hi. assert (i = O) by (unfold dim in Hi; cbn in Hi; lia). subst i. exists 2%nat. split; [lia|]. change (el (x 2%nat) 0 <> el (x 1%nat) 0). rewrite X1, X2. cbn. lra. }
    destruct (V2 O) as [Pv Ev]; [cbn; lia|]. cbv zeta in Ev. 
    assert (Ec : el v 0 = / 4).
    { rewrite Ev. transitivity (cross_dev 2 (fun k => 1 + INR k) (fun k => 1 + INR k) / INR 2).
      - f_equal. assert (Hk : forall k, (k < 2)%nat -> el (lf_positions (am_integrator (fold_left adapted (firstn (S k) [ex_mass_sch; ex_mass_sch; ex_mass_sch; ex_mass_sch]) st0))) 0 = 1 + INR k).
        { intros [|[|k]] Hk; [| |lia]; [change (el (x 1%nat) 0 = 1 + INR 0); rewrite X1|change (el (x 2%nat) 0 = 1 + INR 1); rewrite X2]; cbn; lra. }
        apply cross_dev_ext; exact Hk.
      - unfold cross_dev, seq_mean. cbn. field. }
    assert (Em : inverse v = mx 4).
    { unfold inverse. apply (like_ext Ws); [apply like_emap; exact V1|apply Lm|]. intros i Hi. assert (i = O) by (unfold dim in Hi; cbn in Hi; lia). subst i. rewrite (el_emap Ws) by (auto; cbn; lia). rewrite Ec. cbn. field. }
    assert (G1 := V3 1%nat ltac:(lia)). assert (G2 := V3 2%nat ltac:(lia)). rewrite Em in G1, G2. cbn [firstn skipn fold_left plus] in G1, G2.
    rewrite F2 in G1, G2.
    destruct (@ex_am_plain_step _ _ 4 _ A2 B2 C2) as (A3 & B3 & C3).
    destruct (@ex_am_plain_step _ _ 4 _ A3 B3 C3) as (A4 & B4 & C4).
    split; [exact X1|]. split; [exact X2|]. split.
    + change (x 3%nat) with (lf_positions (am_integrator (am_forget (adapted (adapted (adapted st0 ex_mass_sch) ex_mass_sch) ex_mass_sch)))). rewrite G1. etransitivity; [exact A3|]. f_equal. rewrite !Rinv_1. lra.
    + change (x 4%nat) with (lf_positions (am_integrator (am_forget (adapted (adapted (adapted (adapted st0 ex_mass_sch) ex_mass_sch) ex_mass_sch) ex_mass_sch)))). rewrite G2. etransitivity; [exact A4|]. f_equal. rewrite !Rinv_1. lra.
Qed.
Print Assumptions C76_amagold. Print Assumptions C76_sggmc. Print Assumptions C76_nonvacuous.
