(** C99: more chains in one call of alias.sgld, obabo or sghmc do not reduce the variance of the estimated mean (Gaussian posteriors). *)
From Coq Require Import Reals Lra ZArith String.
From Verif Require Import Base ListUtil Pytree PytreeSpec PytreeProofs Io IoSpec IoProofs IoFinal TreeUtil TreeUtilSpec TreeUtilProofs Integrator IntegratorSpec IntegratorBasics ObaboProofs PropertiesIntegrator
  Xreal Scheduler SchedulerSpec SchedulerProofs StepSizeProofs PropertiesScheduler Solver SolverSpec SolverProofs SolverFinal PropertiesSolver Adaption Alias PropertiesAlias AliasSgld AliasRun AliasHmc AverageAlias.
From Verif Require Import ExpectSpec ExpectProofs GaussianLimit GaussianMatrix SghmcGaussian ObaboGaussian RiemannProofs PropertiesSghmcGaussian.
From Verif Require PropertiesObaboGaussian PropertiesObaboAlias PropertiesHub AliasData.
Open Scope R_scope.
Set Implicit Arguments.

(** ** Specification *)
(** auxiliary definition of a statement or a proof; models no code of /repo *)
Definition variance {W} (E : (W -> R) -> R) (X : W -> R) : R := E (fun w => (X w - E X) * (X w - E X)).
(** mean of coordinate j of the m samples of the chain with number c *)
(** auxiliary definition of a statement or a proof; models no code of /repo *)
Definition chain_mean (results : list (result arr)) (m j c : nat) : R := match nth_error results c with Some r => sum_upto m (fun k => returned r k j) / INR m | None => 0 end.
(** mean of coordinate j of all samples of C chains *)
(** auxiliary definition of a statement or a proof; models no code of /repo *)
Definition pooled_mean (results : list (result arr)) (C m j : nat) : R := sum_upto C (chain_mean results m j) / INR C.
(** the samples of two chains differ by numbers that depend on the two initial samples only *)
(** auxiliary definition of a statement or a proof; models no code of /repo *)
Definition fixed_gap (gap : vtree -> vtree -> nat -> nat -> R) (dims m : nat) (samples : list vtree) (results : list (result arr)) : Prop :=
  forall c c' x x' r r', nth_error samples c = Some x -> nth_error samples c' = Some x' -> nth_error results c = Some r -> nth_error results c' = Some r' ->
    forall k j, (k < m)%nat -> (j < dims)%nat -> returned r' k j = returned r k j + gap x x' k j.

(** ** A fixed gap makes the variances equal *)
Section Pool.
Variables (W : Type) (E : (W -> R) -> R).
Hypothesis HE : expectation E.
Hypothesis H1 : E (fun _ => 1) = 1.
Lemma variance_shift X Y c : (forall w, Y w = X w + c) -> variance E Y = variance E X.
Proof.
  intros H. assert (EC : forall q, E (fun _ => q) = q) by (intros q; rewrite (E_ext HE _ (fun _ => q * 1)) by (intros; ring); rewrite (E_scale HE q (fun _ => 1)), H1; ring).
  assert (EY : E Y = E X + c) by (rewrite (E_ext HE Y (fun w => X w + c) H), (E_plus HE X (fun _ => c)), EC; reflexivity).
  unfold variance. apply (E_ext HE). intros w. rewrite EY, H. ring.
Qed.
Lemma pooled_variance gap dims m samples (results : W -> list (result arr)) c j : (0 < m)%nat -> (forall w, length (results w) = length samples) -> (forall w, fixed_gap gap dims m samples (results w)) ->
  (c < length samples)%nat -> (j < dims)%nat ->
  variance E (fun w => pooled_mean (results w) (length samples) m j) = variance E (fun w => chain_mean (results w) m j c).
Proof.
  intros Hm HL HG Hc Hj. set (C := length samples) in *. assert (HC : 0 < INR C) by (apply lt_0_INR; lia). assert (HM : 0 < INR m) by (apply lt_0_INR; lia).
  destruct (nth_error samples c) as [x|] eqn:Ex; [|apply nth_error_None in Ex; unfold C in Hc; lia].
  set (shift := fun c' => match nth_error samples c' with Some x' => sum_upto m (fun k => gap x x' k j) / INR m | None => 0 end).
  apply variance_shift with (c := sum_upto C shift / INR C). intros w. unfold pooled_mean.
  rewrite (@sum_upto_ext C (chain_mean (results w) m j) (fun c' => chain_mean (results w) m j c + shift c')).
  - rewrite sum_upto_plus, sum_upto_const. field. lra.
  - intros c' Hc'. unfold chain_mean, shift. pose proof (HL w) as L.
    destruct (nth_error (results w) c) as [r|] eqn:Er; [|apply nth_error_None in Er; lia]. destruct (nth_error (results w) c') as [r'|] eqn:Er'; [|apply nth_error_None in Er'; lia].
    destruct (nth_error samples c') as [x'|] eqn:Ex'; [|apply nth_error_None in Ex'; unfold C in Hc'; lia].
    rewrite (@sum_upto_ext m (fun k => returned r' k j) (fun k => returned r k j + gap x x' k j)) by (intros k Hk; apply (HG w c c' x x' r r' Ex Ex' Er Er' k j Hk Hj)).
    rewrite sum_upto_plus. field. lra.
Qed.
End Pool.

Section C99.
Variable s : vtree.
Hypothesis Hs : wfv s.
(** jax.random.choice of the thinning; zeros_like *)
Variables (Key : Type) (choice : Key -> list xr -> nat -> list nat) (tk : Key) (zl : arr -> arr).
Hypothesis Hc : choice_ok choice.

(** ** SGLD *)
Section Sgld.
(** gradients with a constant matrix: A t - c_b, where the batch decides only about c_b (a Gaussian model, e.g. with independent observations of the same precision) *)
Variables (A : nat -> nat -> R).
Section Two.
Variables (normal : key -> list nat -> list R) (Data Batch : Type) (get_data : Data -> Data * Batch) (pot_model : vtree -> Batch -> vtree -> vtree) (pot_grad : vtree -> Batch -> vtree -> vtree) (model0 : vtree).
Variable cc : Batch -> nat -> R.
Hypothesis Hgauss : forall t b m i, like s t -> (i < dim s)%nat -> el (pot_grad t b m) i = matvec (dim s) A (el t) i - cc b i.
(** the difference of two chains *)
(** auxiliary definition of a statement or a proof; models no code of /repo *)
Fixpoint sgld_gap (eps : nat -> R) (x x' : vtree) (n : nat) (i : nat) : R :=
  match n with
  | O => el x' i - el x i
  | S n' => sgld_gap eps x x' n' i - eps n' * matvec (dim s) A (sgld_gap eps x x' n') i
  end.
Lemma sgld_difference eps its x x' d d' theta theta' model model' :
  (forall k i, (i < dim s)%nat -> cc (batch_no get_data d k) i = cc (batch_no get_data d' k) i) ->
  sgld_trajectory s normal get_data pot_model pot_grad false 0 0 d model0 x its eps theta model ->
  sgld_trajectory s normal get_data pot_model pot_grad false 0 0 d' model0 x' its eps theta' model' ->
  forall n i, (n <= its)%nat -> (i < dim s)%nat -> el (theta' n) i = el (theta n) i + sgld_gap eps x x' n i.
Proof.
  intros Hb [[T1 _] T2 _ T4] [[T1' _] T2' _ T4']. induction n as [|n IH]; intros i Hn Hi; [cbn; rewrite T1, T1'; ring|].
  rewrite (T4 n i ltac:(lia) Hi), (T4' n i ltac:(lia) Hi). cbv zeta. rewrite !Hgauss by (auto; apply T2 || apply T2'; lia). rewrite (Hb n i Hi). cbn [sgld_gap]. rewrite (IH i ltac:(lia) Hi).
  assert (MV : matvec (dim s) A (el (theta' n)) i = matvec (dim s) A (el (theta n)) i + matvec (dim s) A (sgld_gap eps x x' n) i).
  { unfold matvec. rewrite <- sum_upto_plus. apply sum_upto_ext. intros j Hj. rewrite (IH j ltac:(lia) Hj). ring. }
  rewrite MV. ring.
Qed.
End Two.

Theorem C99_sgld : forall a f l' its, al_first a = Fin f -> al_last a = Fin l' -> al_adaptive a = None -> al_hot a = None -> 0 < l' < f -> (2 <= its)%nat -> (al_burn_in a < its)%nat ->
  let m := (its - al_burn_in a)%nat in al_accepted a = Some m ->
  exists gap, forall Data Batch (get_data : Data -> Data * Batch) pot_value pot_likelihoods pot_model pot_grad (cc : Batch -> nat -> R) model0,
  (forall t b m, like s t -> like s (pot_grad t b m)) -> (forall t b m, same_structure (pot_model t b m) m) ->
  (forall t b m i, like s t -> (i < dim s)%nat -> el (pot_grad t b m) i = matvec (dim s) A (el t) i - cc b i) ->
  (** one run: the samples of the chains differ by numbers that do not depend on the random numbers *)
  (forall normal, normal_ok normal -> forall starts h, Forall (fun xd => like s (fst xd)) starts ->
    (forall c c' xd xd', nth_error starts c = Some xd -> nth_error starts c' = Some xd' -> forall k i, (i < dim s)%nat -> cc (batch_no get_data (snd xd) k) i = cc (batch_no get_data (snd xd') k) i) ->
    exists results, snd (al_run choice tk a zl (sgld_solver normal get_data pot_value pot_likelihoods pot_model pot_grad false) (fst (run (mstep zl) (mc_new false) h))
        (map (fun xd => sgld_init false 0 0 (snd xd) model0 (fst xd)) starts) its) = Some (Ok results) /\ length results = length starts /\ fixed_gap gap (dim s) m (map fst starts) results).
Proof.
  intros a f l' its Af Al Aa Ah Hfl Hits Hburn m Hacc.
  destruct (@alias_main_schedule Key choice tk a its f l' Aa Af Al Hfl Hits) as (eps & _ & HS).
  exists (fun x x' k j => sgld_gap eps x x' (S (al_burn_in a + k)) j).
  intros Data Batch get_data pv pl pm pg cc model0 Hg Hm Hgauss normal Hn starts h Hlk Hbt.
  destruct (@C51_steps s normal _ _ get_data pv pl pm pg Hs Hn Hg Hm Key choice tk zl Hc false 0 0 model0 ltac:(discriminate) a f l' m its eps Af Al Aa Hacc Ah Hfl Hits ltac:(unfold m; lia) HS h starts Hlk) as (rs & R1 & R2).
  exists rs. split; [exact R1|]. split; [clear -R2; induction R2; cbn; congruence|].
  intros c c' x x' r r' Ex Ex' Er Er' k j Hk Hj.
  assert (Q : forall c x r, nth_error (map fst starts) c = Some x -> nth_error rs c = Some r -> exists d theta model, nth_error starts c = Some (x, d) /\
     sgld_trajectory s normal get_data pm pg false 0 0 d model0 x its eps theta model /\ returned r k j = el (theta (S (al_burn_in a + k))) j).
  { intros c1 x1 r1 E1 E2. destruct (nth_error starts c1) as [[x2 d]|] eqn:E3; [|rewrite nth_error_map, E3 in E1; discriminate].
    rewrite (map_nth_error _ _ _ E3) in E1. injection E1 as E1. cbn in E1. subst x2.
    destruct (PropertiesHub.Forall2_nth_error_l _ R2 E3) as (r2 & E4 & (theta & model & L & Tr & (L1 & L2 & L3) & _ & Hr2)). pose proof (eq_trans (eq_sym E4) E2) as E5; injection E5 as ->. cbn [fst snd] in *.
    exists d, theta, model. split; [reflexivity|]. split; [exact Tr|].
    assert (EL : L = seq (al_burn_in a) m) by (apply increasing_all; auto; intros i0 Hi0; specialize (L3 i0 Hi0); unfold m; lia).
    rewrite (@returned_position _ _ _ _ _ _ _ _ r1 k (al_burn_in a + k)%nat j Hr2); [reflexivity|]. rewrite EL. now apply seq_at. }
  destruct (Q c x r Ex Er) as (d & th & mo & E1 & T1 & V1). destruct (Q c' x' r' Ex' Er') as (d' & th' & mo' & E1' & T1' & V1').
  rewrite V1, V1'. apply (@sgld_difference normal Data Batch get_data pm pg model0 cc Hgauss eps its x x' d d' th th' mo mo'); auto; [|unfold m in Hk; lia].
  intros k0 i Hi. apply (Hbt c c' (x, d) (x', d') E1 E1' k0 i Hi).
Qed.
End Sgld.

(** ** OBABO and SGHMC: exact gradients of a Gaussian posterior with diagonal precision *)
Section Hmc.
Variables (lam mu : nat -> R) (steps : nat) (mass : option vtree).
Hypothesis Hmass : match mass with Some m => like s m /\ forall i, (i < dim s)%nat -> 0 < el m i | None => True end.
(** difference of positions and momenta after t inner steps of OBABO *)
(** auxiliary definition of a statement or a proof; models no code of /repo *)
Fixpoint obabo_gap (friction : R) (eps : nat -> R) (x x' : vtree) (t : nat) (i : nat) : R * R :=
  match t with
  | O => (el x' i - el x i, 0)
  | S t' => let e := eps (t' / steps)%nat in let a := sqrt (exp (- friction * e)) in let '(dx, dp) := obabo_gap friction eps x x' t' i in
      let f := a * dp - 1 / 2 * e * (lam i * dx) in let dx' := dx + e * (inverse_mass mass i * f) in (dx', a * (f - 1 / 2 * e * (lam i * dx')))
  end.
(** difference of positions after n integrations of SGHMC *)
(** auxiliary definition of a statement or a proof; models no code of /repo *)
Fixpoint sghmc_gap (friction : fric) (eps : nat -> R) (x x' : vtree) (n : nat) (i : nat) : R :=
  match n with
  | O => el x' i - el x i
  | S n' => cA (lam i) (fric_at friction i / root_mass mass i) (eps n' / root_mass mass i) steps * sghmc_gap friction eps x x' n' i
  end.
Section Two.
Variables (Data Batch : Type) (get_data : Data -> Data * Batch) (pot_value : vtree -> Batch -> vtree -> R) (pot_model : vtree -> Batch -> vtree -> vtree) (pot_grad : vtree -> Batch -> vtree -> vtree).
Hypothesis Hg : forall t b m, like s t -> like s (pot_grad t b m).
Hypothesis Hm : forall t b m, same_structure (pot_model t b m) m.
Hypothesis Hgauss : forall t b m i, like s t -> (i < dim s)%nat -> el (pot_grad t b m) i = lam i * (el t i - mu i).
Variables (normal : key -> list nat -> list R) (model0 : vtree).
Hypothesis Hn : normal_ok normal.
Notation obabo_run friction eps x d n := (PropertiesObaboGaussian.obabo_state normal get_data pot_value pot_model pot_grad steps friction mass 1 eps (ob_init x (Some (PRNGKey 0)) d model0) n).
Lemma obabo_difference friction eps x x' d d' n i : (0 < steps)%nat -> like s x -> like s x' -> (i < dim s)%nat ->
  el (o_pos (obabo_run friction eps x' d' n)) i = el (o_pos (obabo_run friction eps x d n)) i + fst (obabo_gap friction eps x x' (n * steps) i).
Proof.
  intros Hst Hx Hx' Hi.
  set (inn := fun x d => PropertiesObaboGaussian.inner get_data pot_value pot_model pot_grad steps friction mass 1 x model0 (PRNGKey 0) eps normal d).
  assert (IR : forall y e n, inn y e (n * steps)%nat = obabo_run friction eps y e n) by (intros y e n0; exact (@PropertiesObaboGaussian.inner_run Data Batch vtree get_data pot_value pot_model pot_grad steps friction mass 1 Hst y model0 (PRNGKey 0) eps normal e n0)).
  assert (K : forall t, el (o_pos (inn x' d' t)) i = el (o_pos (inn x d t)) i + fst (obabo_gap friction eps x x' t i) /\ el (o_mom (inn x' d' t)) i = el (o_mom (inn x d t)) i + snd (obabo_gap friction eps x x' t i)).
  { induction t as [|t [I1 I2]].
    - assert (Z : forall x d, inn x d 0%nat = ob_init x (Some (PRNGKey 0)) d model0).
      { intros y e. exact (IR y e 0%nat). }
      rewrite !Z. cbn [ob_init o_pos o_mom obabo_gap fst snd]. split; [ring|]. rewrite !(el_emap (s := s)) by auto. ring.
    - pose proof (@PropertiesObaboGaussian.inner_inv s Hs Data Batch vtree get_data pot_value pot_model pot_grad Hg steps friction mass 1 Hst Hmass x model0 (PRNGKey 0) Hx eps lam mu Hgauss normal Hn d t) as (A1 & A2 & A3 & A4).
      pose proof (@PropertiesObaboGaussian.inner_inv s Hs Data Batch vtree get_data pot_value pot_model pot_grad Hg steps friction mass 1 Hst Hmass x' model0 (PRNGKey 0) Hx' eps lam mu Hgauss normal Hn d' t) as (B1 & B2 & B3 & B4).
      destruct (@PropertiesObaboGaussian.inner_like s Hs Data Batch vtree get_data pot_value pot_model pot_grad Hg steps friction mass 1 Hst Hmass x model0 (PRNGKey 0) eps lam mu Hgauss normal Hn d t A4 (conj A1 A2)) as (_ & _ & _ & A).
      destruct (@PropertiesObaboGaussian.inner_like s Hs Data Batch vtree get_data pot_value pot_model pot_grad Hg steps friction mass 1 Hst Hmass x' model0 (PRNGKey 0) eps lam mu Hgauss normal Hn d' t B4 (conj B1 B2)) as (_ & _ & _ & B).
      destruct (A i Hi) as (r & f & g & E1 & E2 & E3 & E4 & E5). destruct (B i Hi) as (r' & f' & g' & F1 & F2 & F3 & F4 & F5). rewrite A3 in E1, E5. rewrite B3 in F1, F5.
      fold (inn x d) in E1, E2, E3, E4, E5. fold (inn x' d') in F1, F2, F3, F4, F5.
      cbn [obabo_gap]. destruct (obabo_gap friction eps x x' t i) as [dx dp]. cbn [fst snd] in *. rewrite I1 in F2, F3. rewrite I2 in F1.
      assert (X : el (o_pos (inn x' d' (S t))) i = el (o_pos (inn x d (S t))) i + (dx + eps (t / steps)%nat * (inverse_mass mass i * (sqrt (exp (- friction * eps (t / steps)%nat)) * dp - 1 / 2 * eps (t / steps)%nat * (lam i * dx))))).
      { rewrite F3, E3, F2, E2, F1, E1. ring. }
      split; [exact X|]. cbv zeta. rewrite F5, E5, F4, E4, X, F2, E2, F1, E1. generalize (el (o_pos (inn x d (S t))) i) (xi normal (Sub (chain (PRNGKey 0) t) 1) s i) (xi normal (Sub (chain (PRNGKey 0) t) 2) s i). intros. field. }
  destruct (K (n * steps)%nat) as [K1 _]. rewrite !IR in K1. exact K1.
Qed.
Notation sghmc_run friction eps x d n := (sghmc_state normal get_data pot_value pot_model pot_grad steps friction mass eps (fl_init (Batch := Batch) None x (Some (PRNGKey 0)) d model0) n).
Lemma sghmc_difference friction eps x x' d d' n i : match friction with FScalar _ => True | FTree t => like s t end -> like s x -> like s x' -> (i < dim s)%nat ->
  el (f_pos (sghmc_run friction eps x' d' n)) i = el (f_pos (sghmc_run friction eps x d n)) i + sghmc_gap friction eps x x' n i.
Proof.
  intros Hfr Hx Hx' Hi. induction n as [|n IH]; [unfold sghmc_state; cbn [seq fold_left fl_init f_pos sghmc_gap]; ring|].
  pose proof (@integration_gauss s Hs Data Batch vtree get_data pot_value pot_model pot_grad Hg steps friction mass Hfr Hmass x model0 (PRNGKey 0) Hx eps normal Hn d lam mu n i Hgauss Hi) as A.
  pose proof (@integration_gauss s Hs Data Batch vtree get_data pot_value pot_model pot_grad Hg steps friction mass Hfr Hmass x' model0 (PRNGKey 0) Hx' eps normal Hn d' lam mu n i Hgauss Hi) as B.
  cbv zeta in A, B. cbn [sghmc_gap]. rewrite IH in B. lra.
Qed.
End Two.

(** what both aliases do with the positions *)
Lemma rows_of_chains (St : Type) (upd : R -> R -> St -> St) (en : St -> R) (mo po : St -> vtree) : (forall e T st, same_structure (hmc_sample (en (upd e T st)) (mo (upd e T st)) (po (upd e T st))) (hmc_sample (en st) (mo st) (po st))) ->
  forall a f l' its eps, al_first a = Fin f -> al_last a = Fin l' -> al_adaptive a = None -> al_hot a = None -> 0 < l' < f -> (2 <= its)%nat -> (al_burn_in a < its)%nat ->
  let m := (its - al_burn_in a)%nat in al_accepted a = Some m -> main_steps choice tk a its eps -> forall h states,
  exists results, snd (al_run choice tk a zl (plain_solver upd (fun st => hmc_sample (en st) (mo st) (po st))) (fst (run (mstep zl) (mc_new false) h)) states its) = Some (Ok results) /\
    Forall2 (fun st r => forall k j, (k < m)%nat -> returned r k j = el (po (iterates upd eps st (S (al_burn_in a + k)))) j) states results.
Proof.
  intros Hk a f l' its eps Af Al Aa Ah Hfl Hits Hburn m Hacc HS h states. set (get := fun st => hmc_sample (en st) (mo st) (po st)).
  destruct (@PropertiesObaboAlias.plain_run_steps _ upd get) with (Key := Key) (choice := choice) (tk := tk) (z := zl) (a := a) (f := f) (l := l') (n := m) (its := its) (eps := eps) (h := h) (states := states) as (rs & R1 & R2); auto.
  { unfold m. lia. }
  exists rs. split; [exact R1|]. eapply Forall2_impl; [|exact R2]. intros st r (L & L1 & L2 & L3 & Hr1 & Hr2) k j Hkm.
  assert (EL : L = seq (al_burn_in a) m) by (apply increasing_all; auto; intros i0 Hi0; specialize (L3 i0 Hi0); unfold m; lia).
  unfold get in Hr2. rewrite (@PropertiesObaboAlias.hmc_position nat _ _ _ L r k (al_burn_in a + k)%nat j Hr2); [reflexivity|]. rewrite EL. now apply seq_at.
Qed.
(** from the differences of the positions to the differences of the rows *)
Lemma gap_of_rows (St Data : Type) (init : Data -> vtree -> St) (pos : St -> nat -> vtree) gap b m (starts : list (vtree * Data)) results :
  (forall x x' d d' n i, like s x -> like s x' -> (i < dim s)%nat -> el (pos (init d' x') n) i = el (pos (init d x) n) i + gap x x' n i) -> Forall (fun xd => like s (fst xd)) starts ->
  Forall2 (fun st r => forall k j, (k < m)%nat -> returned r k j = el (pos st (S (b + k))) j) (map (fun xd => init (snd xd) (fst xd)) starts) results ->
  fixed_gap (fun x x' k j => gap x x' (S (b + k)) j) (dim s) m (map fst starts) results.
Proof.
  intros HG HL HF c c' x x' r r' Ex Ex' Er Er' k j Hk Hj.
  assert (Q : forall c x r, nth_error (map fst starts) c = Some x -> nth_error results c = Some r -> exists d, like s x /\ returned r k j = el (pos (init d x) (S (b + k))) j).
  { intros c1 x1 r1 E1 E2. destruct (nth_error starts c1) as [[x2 d]|] eqn:E3; [|rewrite nth_error_map, E3 in E1; discriminate].
    rewrite (map_nth_error _ _ _ E3) in E1. injection E1 as E1. cbn in E1. subst x2. exists d. split; [apply (proj1 (Forall_forall _ _) HL _ (nth_error_In _ _ E3))|].
    destruct (PropertiesHub.Forall2_nth_error_l _ HF (map_nth_error _ _ _ E3)) as (r2 & E4 & H2). pose proof (eq_trans (eq_sym E4) E2) as E5. injection E5 as ->. cbn [fst snd] in H2. now apply H2. }
  destruct (Q c x r Ex Er) as (d & Lx & V). destruct (Q c' x' r' Ex' Er') as (d' & Lx' & V'). rewrite V, V'. apply HG; auto.
Qed.
Lemma same_length (St Data : Type) (init : Data -> vtree -> St) (P : St -> result arr -> Prop) (starts : list (vtree * Data)) results : Forall2 P (map (fun xd => init (snd xd) (fst xd)) starts) results -> length results = length starts.
Proof. intros H. rewrite <- (map_length (fun xd => init (snd xd) (fst xd)) starts). induction H; cbn; congruence. Qed.

Theorem C99_obabo : (0 < steps)%nat -> forall friction a f l' its, al_first a = Fin f -> al_last a = Fin l' -> al_adaptive a = None -> al_hot a = None -> 0 < l' < f -> (2 <= its)%nat -> (al_burn_in a < its)%nat ->
  let m := (its - al_burn_in a)%nat in al_accepted a = Some m ->
  exists gap, forall Data Batch (get_data : Data -> Data * Batch) pot_value pot_model pot_grad model0,
  (forall t b m, like s t -> like s (pot_grad t b m)) -> (forall t b m, same_structure (pot_model t b m) m) ->
  (forall t b m i, like s t -> (i < dim s)%nat -> el (pot_grad t b m) i = lam i * (el t i - mu i)) ->
  (** one run: the samples of the chains differ by numbers that do not depend on the random numbers *)
  (forall normal, normal_ok normal -> forall starts h, Forall (fun xd => like s (fst xd)) starts ->
    exists results, snd (al_run choice tk a zl (obabo_solver normal get_data pot_value pot_model pot_grad steps mass friction) (fst (run (mstep zl) (mc_new false) h))
        (map (fun xd => obabo_init (snd xd) model0 (fst xd)) starts) its) = Some (Ok results) /\ length results = length starts /\ fixed_gap gap (dim s) m (map fst starts) results).
Proof.
  intros Hst friction a f l' its Af Al Aa Ah Hfl Hits Hburn m Hacc.
  destruct (@alias_main_schedule Key choice tk a its f l' Aa Af Al Hfl Hits) as (eps & _ & HS).
  exists (fun x x' k j => fst (obabo_gap friction eps x x' (S (al_burn_in a + k) * steps) j)).
  intros Data Batch get_data pv pm pg model0 Hg Hm Hgauss normal Hn starts h Hlk.
  set (upd := fun e T (st : ob_st Data vtree) => fst (ob_integrate normal get_data pv pm pg steps friction mass e T None st)).
  destruct (@rows_of_chains _ upd (fun st => o_pot st) (fun st => o_model st) (fun st => o_pos st)) with (a := a) (f := f) (l' := l') (its := its) (eps := eps) (h := h)
    (states := map (fun xd => obabo_init (snd xd) model0 (fst xd)) starts) as (rs & R1 & R2); auto.
  { intros e T st. apply ob_keeps; auto. }
  exists rs. split; [exact R1|]. split; [exact (@same_length _ _ (fun d x => obabo_init d model0 x) _ starts rs R2)|].
  apply (@gap_of_rows _ _ (fun d x => obabo_init d model0 x) (fun st n => o_pos (iterates upd eps st n)) (fun x x' n j => fst (obabo_gap friction eps x x' (n * steps) j))); auto.
  intros x x' d d' n i Hx Hx' Hi. rewrite !PropertiesObaboAlias.iterates_fold. apply (@obabo_difference Data Batch get_data pv pm pg Hg Hgauss normal model0 Hn friction eps x x' d d' n i); auto.
Qed.
Theorem C99_sghmc : forall friction, match friction with FScalar _ => True | FTree t => like s t end ->
  forall a f l' its, al_first a = Fin f -> al_last a = Fin l' -> al_adaptive a = None -> al_hot a = None -> 0 < l' < f -> (2 <= its)%nat -> (al_burn_in a < its)%nat ->
  let m := (its - al_burn_in a)%nat in al_accepted a = Some m ->
  exists gap, forall Data Batch (get_data : Data -> Data * Batch) pot_value pot_model pot_grad model0,
  (forall t b m, like s t -> like s (pot_grad t b m)) -> (forall t b m, same_structure (pot_model t b m) m) ->
  (forall t b m i, like s t -> (i < dim s)%nat -> el (pot_grad t b m) i = lam i * (el t i - mu i)) ->
  (** one run: the samples of the chains differ by numbers that do not depend on the random numbers *)
  (forall normal, normal_ok normal -> forall starts h, Forall (fun xd => like s (fst xd)) starts ->
    exists results, snd (al_run choice tk a zl (sghmc_solver normal get_data pot_value pot_model pot_grad steps mass friction) (fst (run (mstep zl) (mc_new false) h))
        (map (fun xd => sghmc_init Batch (snd xd) model0 (fst xd)) starts) its) = Some (Ok results) /\ length results = length starts /\ fixed_gap gap (dim s) m (map fst starts) results).
Proof.
  intros friction Hfr a f l' its Af Al Aa Ah Hfl Hits Hburn m Hacc.
  destruct (@alias_main_schedule Key choice tk a its f l' Aa Af Al Hfl Hits) as (eps & _ & HS).
  exists (fun x x' k j => sghmc_gap friction eps x x' (S (al_burn_in a + k)) j).
  intros Data Batch get_data pv pm pg model0 Hg Hm Hgauss normal Hn starts h Hlk.
  set (upd := fun e (T : R) (st : fl_st Data vtree unit) => fst (fl_integrate (Noise := unit) normal get_data pv pm pg steps friction mass None e None st)).
  destruct (@rows_of_chains _ upd (fun st => f_pot st) (fun st => f_model st) (fun st => f_pos st)) with (a := a) (f := f) (l' := l') (its := its) (eps := eps) (h := h)
    (states := map (fun xd => sghmc_init Batch (snd xd) model0 (fst xd)) starts) as (rs & R1 & R2); auto.
  { intros e T st. apply fl_keeps; auto. }
  exists rs. split; [exact R1|]. split; [exact (@same_length _ _ (fun d x => sghmc_init Batch d model0 x) _ starts rs R2)|].
  apply (@gap_of_rows _ _ (fun d x => sghmc_init Batch d model0 x) (fun st n => f_pos (iterates upd eps st n)) (fun x x' n j => sghmc_gap friction eps x x' n j)); auto.
  intros x x' d d' n i Hx Hx' Hi. rewrite !PropertiesObaboAlias.iterates_fold. apply (@sghmc_difference Data Batch get_data pv pm pg Hg Hgauss normal model0 Hn friction eps x x' d d' n i); auto.
Qed.
End Hmc.

(** ** More chains do not reduce the variance of the mean *)
Section Pooled.
Variables (W : Type) (E : (W -> R) -> R).
Hypothesis HE : expectation E.
Hypothesis H1 : E (fun _ => 1) = 1.
(** the random numbers of the program and the initial samples of the chains *)
Variable normal : W -> key -> list nat -> list R.
Hypothesis Hn : forall w, normal_ok (normal w).
Variable samples : list vtree.
Hypothesis Hlike : Forall (like s) samples.
Lemma starts_like Data (st : list (vtree * Data)) : map fst st = samples -> Forall (fun xd => like s (fst xd)) st.
Proof. intros Es. clear - Es Hlike. subst samples. exact (proj1 (Forall_map fst (like s) st) Hlike). Qed.
Lemma pooled_from gap m (answer : W -> option (res (list (result arr)))) : (0 < m)%nat ->
  (forall w, exists rs, answer w = Some (Ok rs) /\ length rs = length samples /\ fixed_gap gap (dim s) m samples rs) ->
  (forall w, exists rs, answer w = Some (Ok rs) /\ length rs = length samples) /\
  forall results : W -> list (result arr), (forall w, answer w = Some (Ok (results w))) -> forall c j, (c < length samples)%nat -> (j < dim s)%nat ->
    variance E (fun w => pooled_mean (results w) (length samples) m j) = variance E (fun w => chain_mean (results w) m j c).
Proof.
  intros Hm H. split; [intros w; destruct (H w) as (rs & A & B & _); eauto|]. intros results Hr c j Hcl Hj.
  assert (Q : forall w, length (results w) = length samples /\ fixed_gap gap (dim s) m samples (results w)).
  { intros w. destruct (H w) as (rs & A & B & D). rewrite (Hr w) in A. injection A as ->. auto. }
  apply (@pooled_variance W E HE H1 gap (dim s) m samples results c j); auto; apply Q.
Qed.

Theorem C99_sgld_pooled : forall A a f l' its, al_first a = Fin f -> al_last a = Fin l' -> al_adaptive a = None -> al_hot a = None -> 0 < l' < f -> (2 <= its)%nat -> (al_burn_in a < its)%nat ->
  let m := (its - al_burn_in a)%nat in al_accepted a = Some m ->
  forall Data Batch (get_data : W -> Data -> Data * Batch) pot_value pot_likelihoods pot_model pot_grad (cc : Batch -> nat -> R) model0,
  (forall t b m, like s t -> like s (pot_grad t b m)) -> (forall t b m, same_structure (pot_model t b m) m) ->
  (forall t b m i, like s t -> (i < dim s)%nat -> el (pot_grad t b m) i = matvec (dim s) A (el t) i - cc b i) ->
  forall (starts : W -> list (vtree * Data)) (h : W -> list (mop arr)), (forall w, map fst (starts w) = samples) ->
  (forall w c c' xd xd', nth_error (starts w) c = Some xd -> nth_error (starts w) c' = Some xd' -> forall k i, (i < dim s)%nat -> cc (batch_no (get_data w) (snd xd) k) i = cc (batch_no (get_data w) (snd xd') k) i) ->
  let answer := fun w => snd (al_run choice tk a zl (sgld_solver (normal w) (get_data w) pot_value pot_likelihoods pot_model pot_grad false) (fst (run (mstep zl) (mc_new false) (h w)))
        (map (fun xd => sgld_init false 0 0 (snd xd) model0 (fst xd)) (starts w)) its) in
  (forall w, exists rs, answer w = Some (Ok rs) /\ length rs = length samples) /\
  forall results : W -> list (result arr), (forall w, answer w = Some (Ok (results w))) -> forall c j, (c < length samples)%nat -> (j < dim s)%nat ->
    variance E (fun w => pooled_mean (results w) (length samples) m j) = variance E (fun w => chain_mean (results w) m j c).
Proof.
  intros A a f l' its Af Al Aa Ah Hfl Hits Hburn m Hacc. destruct (@C99_sgld A a f l' its Af Al Aa Ah Hfl Hits Hburn Hacc) as (gap & HG).
  intros Data Batch get_data pv pl pm pg cc model0 Hg Hm Hgauss starts h Hst Hbt answer. apply (@pooled_from gap m answer); [unfold m; lia|].
  intros w. destruct (HG Data Batch (get_data w) pv pl pm pg cc model0 Hg Hm Hgauss (normal w) (Hn w) (starts w) (h w) (starts_like _ (Hst w)) (Hbt w)) as (rs & R1 & R2 & R3).
  exists rs. split; [exact R1|]. rewrite (Hst w) in R3. split; [|exact R3]. rewrite <- (Hst w), map_length. exact R2.
Qed.
Theorem C99_obabo_pooled : forall lam mu steps mass friction, match mass with Some m => like s m /\ forall i, (i < dim s)%nat -> 0 < el m i | None => True end -> (0 < steps)%nat ->
  forall a f l' its, al_first a = Fin f -> al_last a = Fin l' -> al_adaptive a = None -> al_hot a = None -> 0 < l' < f -> (2 <= its)%nat -> (al_burn_in a < its)%nat ->
  let m := (its - al_burn_in a)%nat in al_accepted a = Some m ->
  forall Data Batch (get_data : W -> Data -> Data * Batch) pot_value pot_model pot_grad model0,
  (forall t b m, like s t -> like s (pot_grad t b m)) -> (forall t b m, same_structure (pot_model t b m) m) ->
  (forall t b m i, like s t -> (i < dim s)%nat -> el (pot_grad t b m) i = lam i * (el t i - mu i)) ->
  forall (starts : W -> list (vtree * Data)) (h : W -> list (mop arr)), (forall w, map fst (starts w) = samples) ->
  let answer := fun w => snd (al_run choice tk a zl (obabo_solver (normal w) (get_data w) pot_value pot_model pot_grad steps mass friction) (fst (run (mstep zl) (mc_new false) (h w)))
        (map (fun xd => obabo_init (snd xd) model0 (fst xd)) (starts w)) its) in
  (forall w, exists rs, answer w = Some (Ok rs) /\ length rs = length samples) /\
  forall results : W -> list (result arr), (forall w, answer w = Some (Ok (results w))) -> forall c j, (c < length samples)%nat -> (j < dim s)%nat ->
    variance E (fun w => pooled_mean (results w) (length samples) m j) = variance E (fun w => chain_mean (results w) m j c).
Proof.
  intros lam mu steps mass friction Hmass Hst0 a f l' its Af Al Aa Ah Hfl Hits Hburn m Hacc. destruct (@C99_obabo lam mu steps mass Hmass Hst0 friction a f l' its Af Al Aa Ah Hfl Hits Hburn Hacc) as (gap & HG).
  intros Data Batch get_data pv pm pg model0 Hg Hm Hgauss starts h Hst answer. apply (@pooled_from gap m answer); [unfold m; lia|].
  intros w. destruct (HG Data Batch (get_data w) pv pm pg model0 Hg Hm Hgauss (normal w) (Hn w) (starts w) (h w) (starts_like _ (Hst w))) as (rs & R1 & R2 & R3).
  exists rs. split; [exact R1|]. rewrite (Hst w) in R3. split; [|exact R3]. rewrite <- (Hst w), map_length. exact R2.
Qed.
Theorem C99_sghmc_pooled : forall lam mu steps mass friction, match mass with Some m => like s m /\ forall i, (i < dim s)%nat -> 0 < el m i | None => True end -> match friction with FScalar _ => True | FTree t => like s t end ->
  forall a f l' its, al_first a = Fin f -> al_last a = Fin l' -> al_adaptive a = None -> al_hot a = None -> 0 < l' < f -> (2 <= its)%nat -> (al_burn_in a < its)%nat ->
  let m := (its - al_burn_in a)%nat in al_accepted a = Some m ->
  forall Data Batch (get_data : W -> Data -> Data * Batch) pot_value pot_model pot_grad model0,
  (forall t b m, like s t -> like s (pot_grad t b m)) -> (forall t b m, same_structure (pot_model t b m) m) ->
  (forall t b m i, like s t -> (i < dim s)%nat -> el (pot_grad t b m) i = lam i * (el t i - mu i)) ->
  forall (starts : W -> list (vtree * Data)) (h : W -> list (mop arr)), (forall w, map fst (starts w) = samples) ->
  let answer := fun w => snd (al_run choice tk a zl (sghmc_solver (normal w) (get_data w) pot_value pot_model pot_grad steps mass friction) (fst (run (mstep zl) (mc_new false) (h w)))
        (map (fun xd => sghmc_init Batch (snd xd) model0 (fst xd)) (starts w)) its) in
  (forall w, exists rs, answer w = Some (Ok rs) /\ length rs = length samples) /\
  forall results : W -> list (result arr), (forall w, answer w = Some (Ok (results w))) -> forall c j, (c < length samples)%nat -> (j < dim s)%nat ->
    variance E (fun w => pooled_mean (results w) (length samples) m j) = variance E (fun w => chain_mean (results w) m j c).
Proof.
  intros lam mu steps mass friction Hmass Hfr a f l' its Af Al Aa Ah Hfl Hits Hburn m Hacc. destruct (@C99_sghmc lam mu steps mass Hmass friction Hfr a f l' its Af Al Aa Ah Hfl Hits Hburn Hacc) as (gap & HG).
  intros Data Batch get_data pv pm pg model0 Hg Hm Hgauss starts h Hst answer. apply (@pooled_from gap m answer); [unfold m; lia|].
  intros w. destruct (HG Data Batch (get_data w) pv pm pg model0 Hg Hm Hgauss (normal w) (Hn w) (starts w) (h w) (starts_like _ (Hst w))) as (rs & R1 & R2 & R3).
  exists rs. split; [exact R1|]. rewrite (Hst w) in R3. split; [|exact R3]. rewrite <- (Hst w), map_length. exact R2.
Qed.
End Pooled.
End C99.
Print Assumptions C99_sgld. Print Assumptions C99_obabo. Print Assumptions C99_sghmc. Print Assumptions C99_sgld_pooled. Print Assumptions C99_obabo_pooled. Print Assumptions C99_sghmc_pooled.

(** The hypotheses are met: one variable, target with curvature 2 and mean 1, chains from 3 and 5, ten iterations, no burn-in, random numbers that are coins. *)
Example C99_nonvacuous : let s := Leaf (mkArr [] [0]) in let grad := fun t (b : unit) (m : vtree) => emap (fun x => 2 * (x - 1)) t in let zl := fun x => mkArr (ashape x) (map (fun _ => 0) (adata x)) in
  let a := mkAlias (Fin (1 / 10)) (Fin (1 / 20)) None 0 (Some 10%nat) true false None in
  let E := fun X : bool -> R => (X true + X false) / 2 in let normal := fun (w : bool) (k : key) (sh : list nat) => repeat (if w then 1 else -1) (size sh) in
  let answer := fun w => snd (al_run first_choice tt a zl (obabo_solver (normal w) (fun d : unit => (d, tt)) (fun t _ _ => (el t 0 - 1) * (el t 0 - 1)) (fun _ _ m => m) grad 2 None 1)
    (mc_new false) [obabo_init tt (Leaf (mkArr [] [1])) (Leaf (mkArr [] [3])); obabo_init tt (Leaf (mkArr [] [1])) (Leaf (mkArr [] [5]))] 10) in
  exists results, (forall w, answer w = Some (Ok (results w))) /\ variance E (fun w => pooled_mean (results w) 2 10 0) = variance E (fun w => chain_mean (results w) 10 0 0).
Proof.
  intros s grad zl a E normal answer.
  assert (Ws : wfv s) by (constructor; [reflexivity|constructor]). assert (Lg : forall t (b : unit) m, like s t -> like s (grad t b m)) by (intros t b m H; now apply like_emap).
  assert (Lx : forall x, like s (Leaf (mkArr [] [x]))) by (intros x; split; [constructor; [reflexivity|constructor]|split; reflexivity]).
  assert (Gr : forall t (b : unit) m i, like s t -> (i < dim s)%nat -> el (grad t b m) i = 2 * (el t i - 1)) by (intros t b m i H Hi; apply (el_emap (s := s)); auto).
  assert (I0 : (0 < dim s)%nat) by (unfold dim; cbn; lia).
  destruct (@C99_obabo_pooled s Ws unit first_choice tt zl first_choice_ok bool E) with (normal := normal) (samples := [Leaf (mkArr [] [3]); Leaf (mkArr [] [5])]) (lam := fun _ : nat => 2) (mu := fun _ : nat => 1) (steps := 2%nat) (mass := @None vtree) (friction := 1)
    (a := a) (f := 1 / 10) (l' := 1 / 20) (its := 10%nat) (Data := unit) (Batch := unit) (get_data := fun (_ : bool) (d : unit) => (d, tt)) (pot_value := fun t (_ : unit) (_ : vtree) => (el t 0 - 1) * (el t 0 - 1)) (pot_model := fun (_ : vtree) (_ : unit) (m : vtree) => m)
    (pot_grad := grad) (model0 := Leaf (mkArr [] [1])) (starts := fun _ : bool => [(Leaf (mkArr [] [3]), tt); (Leaf (mkArr [] [5]), tt)]) (h := fun _ : bool => @nil (mop arr)) as (R1 & R2); try reflexivity; try exact I; try lra; try lia; auto.
  - split; [intros X Y H; unfold E; now rewrite !H|]. split; [intros X Y; unfold E; field|intros q X; unfold E; field].
  - unfold E. field.
  - intros w k sh. apply repeat_length.
  - cbn. lia.
  - assert (Q : forall w, exists rs, answer w = Some (Ok rs)) by (intros w; destruct (R1 w) as (rs & A & _); exists rs; exact A).
    destruct (Q true) as (rt & Ht). destruct (Q false) as (rf & Hf). exists (fun w : bool => if w then rt else rf).
    assert (HA : forall w, answer w = Some (Ok (if w : bool then rt else rf))) by (intros [|]; assumption). split; [exact HA|]. apply (R2 _ HA 0%nat 0%nat); [cbn; lia|exact I0].
Qed.
