(** C85: SGHMC (integrator.friction_leapfrog, alias.sghmc) on a Gaussian posterior.
    Reading guide: [at_ n w] is the state after n integrations with step sizes eps 0, eps 1, ... for the random numbers w; [noise t w] is the t-th random vector
    that the run draws; [standard_noise]: an expectation for which these vectors have mean 0, variance 1 and are uncorrelated; L is the number of inner steps
    (integration_steps of alias.sghmc). *)
From Coq Require Import Reals Lra.
From Verif Require Import Base ListUtil Pytree PytreeSpec Io TreeUtil TreeUtilSpec TreeUtilProofs Integrator IntegratorSpec IntegratorBasics LeapfrogFinal ExpectSpec ExpectProofs GaussianLimit RiemannProofs SghmcGaussian AliasHmc PropertiesBalance.
Open Scope R_scope.
Set Implicit Arguments.

(** the state after n integrations of friction_leapfrog without noise model *)
(** integrator.py:715-757, called by solver.py:214-215 *)
Definition sghmc_state {Data Batch Model} (normal : key -> list nat -> list R) (get_data : Data -> Data * Batch) pot_value pot_model (pot_grad : vtree -> Batch -> Model -> vtree)
  (L : nat) (friction : fric) (mass : option vtree) (eps : nat -> R) (st0 : fl_st Data Model unit) (n : nat) : fl_st Data Model unit :=
  fold_left (fun a k => fst (fl_integrate normal get_data pot_value pot_model pot_grad L friction mass None (eps k) None a)) (seq 0 n) st0.

Section C85.
Variable s : vtree.
Hypothesis Hs : wfv s.
Variables (Data Batch Model : Type).
Variable get_data : Data -> Data * Batch.
Variable pot_value : vtree -> Batch -> Model -> R.
Variable pot_model : vtree -> Batch -> Model -> Model.
Variable pot_grad : vtree -> Batch -> Model -> vtree.
Hypothesis Hg : forall t b m, like s t -> like s (pot_grad t b m).
Variables (L : nat) (friction : fric) (mass : option vtree).
Hypothesis Hfr : match friction with FScalar _ => True | FTree t => like s t end.
Hypothesis Hmass : match mass with Some m => like s m /\ forall i, (i < dim s)%nat -> 0 < el m i | None => True end.
Variables (x0 : vtree) (model0 : Model) (key0 : key).
Hypothesis Hx : like s x0.
Variable eps : nat -> R.

(** auxiliary definition of a statement or a proof; models no code of /repo *)
Definition fric_at (i : nat) : R := match friction with FScalar f => f | FTree t => el t i end.
Lemma fr_like t : like s t -> like s (fl_friction friction t).
Proof using Hfr. intros H. unfold fl_friction. destruct friction; [now apply like_emap|exact Hfr]. Qed.
Lemma fr_el t i : like s t -> (i < dim s)%nat -> el (fl_friction friction t) i = fric_at i.
Proof using Hs Hfr. intros H Hi. unfold fl_friction, fric_at. destruct friction; [now rewrite (el_emap Hs)|reflexivity]. Qed.
Lemma Hmass' : forall m, mass = Some m -> like s m.
Proof using Hmass. intros m E. clear - E Hmass. subst mass. exact (proj1 Hmass). Qed.
Lemma root_pos i : (i < dim s)%nat -> 0 < root_mass mass i /\ inverse_mass mass i = / root_mass mass i * / root_mass mass i.
Proof using Hmass.
  intros Hi. unfold root_mass, inverse_mass. destruct mass as [m|]; [|split; lra]. destruct Hmass as [_ H]. specialize (H i Hi). split; [now apply sqrt_lt_R0|].
  rewrite <- Rinv_mult, sqrt_sqrt by lra. reflexivity.
Qed.

Section Path.
Variable normal : key -> list nat -> list R.
Hypothesis Hn : normal_ok normal.
Notation integrate e st := (fst (fl_integrate (Noise := unit) normal get_data pot_value pot_model pot_grad L friction mass None e None st)).

(** one integration, for every coordinate: positions and momenta (divided by the root of the mass) of the inner steps *)
Lemma integration e (st : fl_st Data Model unit) : like s (f_pos st) -> like s (f_mom st) ->
  like s (f_pos (integrate e st)) /\ like s (f_mom (integrate e st)) /\ f_key (integrate e st) = chain (f_key st) (S L) /\
  exists inner : nat -> fl_st Data Model unit, inner L = integrate e st /\ f_pos (inner 0%nat) = f_pos st /\ f_data (inner 0%nat) = f_data st /\
    (forall j, (j <= L)%nat -> like s (f_pos (inner j))) /\
    (forall i, (i < dim s)%nat -> el (f_mom (inner 0%nat)) i = root_mass mass i * xi normal (Sub (f_key st) 1) s i) /\
    forall j i, (j < L)%nat -> (i < dim s)%nat ->
      el (f_pos (inner (S j))) i = el (f_pos (inner j)) i + e * (inverse_mass mass i * el (f_mom (inner j)) i) /\
      el (f_mom (inner (S j))) i = el (f_mom (inner j)) i - e * fric_at i * (inverse_mass mass i * el (f_mom (inner j)) i)
        - e * el (pot_grad (f_pos (inner (S j))) (snd (get_data (f_data (inner j)))) (f_model (inner j))) i + fric_at i * sqrt (2 * e) * xi normal (Sub (chain (f_key st) (S j)) 1) s i.
Proof using Hs Hg Hfr Hmass Hn.
  intros Lp Lm. pose proof (@mass_fits s mass Hmass' (f_pos st) Lp) as [FI FS].
  destruct (@C56_momentum_resampled s Hs normal Hn Data Batch Model unit get_data pot_value pot_model pot_grad friction mass e None st Lm FS) as (st1 & A1 & A2 & A3 & A4 & A5 & A6).
  set (M := fl_mass mass None (f_pos st)) in *. set (body := fl_body normal get_data pot_value pot_model pot_grad None e (fl_friction friction (f_pos st)) M) in *.
  assert (K : forall j, like s (f_pos (fst (scan body j st1))) /\ like s (f_mom (fst (scan body j st1))) /\ f_key (fst (scan body j st1)) = chain (f_key st) (S j)).
  { induction j as [|j (I1 & I2 & I3)]; [cbn; rewrite A1, A3; auto|]. rewrite scan_S.
    destruct (@C56_step_partial s Hs Data Batch Model unit get_data pot_value pot_model pot_grad Hg M (fl_friction friction (f_pos st)) FI (fr_like Lp) normal e (fst (scan body j st1)) Hn I1 I2) as (B1 & B2 & _ & B4 & _).
    split; [exact B1|]. split; [exact B2|]. change (f_key (fl_one get_data pot_value pot_model pot_grad M (fl_friction friction (f_pos st)) normal e (fst (scan body j st1))) = chain (f_key st) (S (S j))). rewrite B4, I3. reflexivity. }
  rewrite A6. fold body. destruct (K L) as (K1 & K2 & K3). split; [exact K1|]. split; [exact K2|]. split; [exact K3|].
  exists (fun j => fst (scan body j st1)). split; [reflexivity|]. split; [exact A1|]. split; [exact A2|]. split; [intros j _; apply K|split].
  - intros i Hi. change (fst (scan body 0 st1)) with st1. rewrite A5 by exact Hi. rewrite (@mass_sqrt s Hs mass Hmass' (f_pos st)) by auto. reflexivity.
  - intros j i Hj Hi. destruct (K j) as (I1 & I2 & I3). rewrite scan_S.
    destruct (@C56_step_partial s Hs Data Batch Model unit get_data pot_value pot_model pot_grad Hg M (fl_friction friction (f_pos st)) FI (fr_like Lp) normal e (fst (scan body j st1)) Hn I1 I2) as (_ & _ & _ & _ & _ & B).
    destruct (B i Hi) as [P Q]. rewrite I3 in Q. rewrite (@mass_inv s Hs mass Hmass' (f_pos st)) in P, Q by auto. rewrite fr_el in Q by auto. split; [exact P|exact Q].
Qed.
Variable data0 : Data.
Notation run n := (sghmc_state normal get_data pot_value pot_model pot_grad L friction mass eps (fl_init (Batch := Batch) None x0 (Some key0) data0 model0) n).
Lemma run_S n : run (S n) = integrate (eps n) (run n).
Proof using Type. unfold sghmc_state. rewrite seq_S, fold_left_app. reflexivity. Qed.
Lemma run_inv n : like s (f_pos (run n)) /\ like s (f_mom (run n)) /\ f_key (run n) = chain key0 (n * S L).
Proof using Hs Hg Hfr Hmass Hn Hx.
  induction n as [|n (I1 & I2 & I3)]; [cbn; auto|]. rewrite run_S. destruct (integration (eps n) _ I1 I2) as (A1 & A2 & A3 & _). split; [exact A1|]. split; [exact A2|].
  rewrite A3, I3, chain_add. f_equal. lia.
Qed.
(** one integration on a Gaussian posterior, one coordinate *)
Lemma integration_gauss (lam mu : nat -> R) n i : (forall t b m i, like s t -> (i < dim s)%nat -> el (pot_grad t b m) i = lam i * (el t i - mu i)) -> (i < dim s)%nat ->
  let rm := root_mass mass i in let g := eps n / rm in let k := fric_at i / rm in
  el (f_pos (run (S n))) i - mu i = cA (lam i) k g L * (el (f_pos (run n)) i - mu i) + cB (lam i) k g L * xi normal (Sub (chain key0 (n * S L)) 1) s i
    + fric_at i * sqrt (2 * eps n) / rm * sum_upto L (fun j => cB (lam i) k g (L - 1 - j) * xi normal (Sub (chain key0 (n * S L + 1 + j)) 1) s i).
Proof using Hs Hg Hfr Hmass Hn Hx.
  intros Hga Hi rm g k. destruct (run_inv n) as (I1 & I2 & I3). destruct (integration (eps n) _ I1 I2) as (_ & _ & _ & inner & B1 & B2 & _ & B4 & B5 & B6).
  destruct (root_pos Hi) as [Hr Hinv]. fold rm in Hr, Hinv.
  destruct (@inner_linear (lam i) k g (fric_at i * sqrt (2 * eps n) / rm) (fun j => el (f_pos (inner j)) i - mu i) (fun j => el (f_mom (inner j)) i / rm) (fun j => xi normal (Sub (chain (f_key (run n)) (S j)) 1) s i) L) as [Y _].
  { intros j Hj. destruct (B6 j i Hj Hi) as [P Q]. rewrite Hga in Q by (auto; apply B4; lia). rewrite Q, P, Hinv. unfold g, k. split; field; lra. }
  rewrite run_S, <- B1, Y, B2, B5 by exact Hi. fold rm. rewrite I3. f_equal; [f_equal; field; lra|]. f_equal. apply sum_upto_ext. intros j Hj. rewrite chain_add. replace (n * S L + 1 + j)%nat with (n * S L + S j)%nat by lia. reflexivity.
Qed.
(** with one inner step per integration no gradient ever reaches the positions *)
Lemma single_path n i : L = 1%nat -> (i < dim s)%nat ->
  el (f_pos (run n)) i = el x0 i + sum_upto n (fun k => eps k / root_mass mass i * xi normal (Sub (chain key0 (2 * k)) 1) s i).
Proof using Hs Hg Hfr Hmass Hn Hx.
  intros HL Hi. destruct (root_pos Hi) as [Hr Hinv]. induction n as [|n IH]; [change (el x0 i = el x0 i + 0); ring|].
  destruct (run_inv n) as (I1 & I2 & I3). destruct (integration (eps n) _ I1 I2) as (_ & _ & _ & inner & B1 & B2 & _ & B4 & B5 & B6). rewrite run_S, sum_upto_S, <- Rplus_assoc, <- IH.
  destruct (B6 0%nat i ltac:(lia) Hi) as [P _]. rewrite HL in B1 at 1. rewrite <- B1. rewrite P, B2, B5, I3, Hinv by exact Hi. replace (n * S L)%nat with (2 * n)%nat by (rewrite HL; lia). field. lra.
Qed.
End Path.

(** ** expectation *)
Variables (lam mu : nat -> R).
Section Run.
Variables (W : Type) (E : (W -> R) -> R) (normal : W -> key -> list nat -> list R) (data : W -> Data).
(** auxiliary definition of a statement or a proof; models no code of /repo *)
Definition at_ (n : nat) (w : W) : fl_st Data Model unit :=
  sghmc_state (normal w) get_data pot_value pot_model pot_grad L friction mass eps (fl_init (Batch := Batch) None x0 (Some key0) (data w) model0) n.
(** the t-th normal vector of the run (L + 1 for each integration) *)
(** auxiliary definition of a statement or a proof; models no code of /repo *)
Definition noise (t : nat) (w : W) (i : nat) : R := xi (normal w) (Sub (chain key0 t) 1) s i.
(** the random vectors of the first n integrations are standard: mean 0, variance 1, uncorrelated *)
(** auxiliary definition of a statement or a proof; models no code of /repo *)
Definition standard_noise (n : nat) : Prop :=
  expectation E /\ E (fun _ => 1) = 1 /\ (forall w, normal_ok (normal w)) /\
  forall i, (i < dim s)%nat -> (forall t, (t < n * S L)%nat -> E (fun w => noise t w i) = 0) /\
    forall t u, (t < n * S L)%nat -> (u < n * S L)%nat -> E (fun w => noise t w i * noise u w i) = if (t =? u)%nat then 1 else 0.
(** auxiliary definition of a statement or a proof; models no code of /repo *)
Definition mean_dev (n i : nat) : R := E (fun w => el (f_pos (at_ n w)) i - mu i).
(** auxiliary definition of a statement or a proof; models no code of /repo *)
Definition var_dev (n i : nat) : R := E (fun w => (el (f_pos (at_ n w)) i - mu i) * (el (f_pos (at_ n w)) i - mu i)).
End Run.

(** mean and variance of the deviation, as numbers *)
(** auxiliary definition of a statement or a proof; models no code of /repo *)
Fixpoint M (i n : nat) : R := match n with O => el x0 i - mu i | S n => cA (lam i) (fric_at i / root_mass mass i) (eps n / root_mass mass i) L * M i n end.
(** auxiliary definition of a statement or a proof; models no code of /repo *)
Fixpoint V (i n : nat) : R := match n with O => (el x0 i - mu i) * (el x0 i - mu i) | S n =>
  let rm := root_mass mass i in let a := cA (lam i) (fric_at i / rm) (eps n / rm) L in a * a * V i n + gain (lam i) (fric_at i / rm) (2 * fric_at i * fric_at i / rm) (eps n / rm) L end.

Lemma as_comb W (normal : W -> key -> list nat -> list R) data i : (forall t b m i, like s t -> (i < dim s)%nat -> el (pot_grad t b m) i = lam i * (el t i - mu i)) -> (forall n, 0 <= eps n) -> (forall w, normal_ok (normal w)) -> (i < dim s)%nat ->
  forall n, exists c, (forall w, el (f_pos (at_ normal data n w)) i - mu i = comb (fun t w => noise normal t w i) (M i n) c (n * S L) w) /\ M i n * M i n + sum_upto (n * S L) (fun t => c t * c t) = V i n.
Proof using Hs Hg Hfr Hmass Hx.
  intros Hga He Hn Hi. set (z := fun t w => noise normal t w i). induction n as [|n (c & I1 & I2)].
  - exists (fun _ => 0). split; [intros w; change (el x0 i - mu i = (el x0 i - mu i) + 0); ring|change ((el x0 i - mu i) * (el x0 i - mu i) + 0 = (el x0 i - mu i) * (el x0 i - mu i)); ring].
  - destruct (root_pos Hi) as [Hr _]. cbn [M V]. set (rm := root_mass mass i) in *. set (g := eps n / rm). set (k := fric_at i / rm). set (a := cA (lam i) k g L). set (tau := fric_at i * sqrt (2 * eps n) / rm). set (n0 := (n * S L)%nat) in *.
    assert (HT : tau * tau = g * (2 * fric_at i * fric_at i / rm)).
    { unfold tau, g. replace (fric_at i * sqrt (2 * eps n) / rm * (fric_at i * sqrt (2 * eps n) / rm)) with (fric_at i * fric_at i / rm / rm * (sqrt (2 * eps n) * sqrt (2 * eps n))) by (field; lra).
      rewrite sqrt_sqrt by (specialize (He n); lra). field. lra. }
    set (c' := fun t => if (t <? n0)%nat then a * c t else if (t =? n0)%nat then cB (lam i) k g L else tau * cB (lam i) k g (L - 1 - (t - n0 - 1))).
    assert (C1 : forall t, (t < n0)%nat -> c' t = a * c t) by (intros t Ht; unfold c'; destruct (Nat.ltb_spec t n0); [reflexivity|lia]).
    assert (C2 : c' n0 = cB (lam i) k g L) by (unfold c'; rewrite Nat.ltb_irrefl, Nat.eqb_refl; reflexivity).
    assert (C3 : forall j, c' (n0 + 1 + j)%nat = tau * cB (lam i) k g (L - 1 - j)). { intros j. unfold c'. destruct (Nat.ltb_spec (n0 + 1 + j) n0); [lia|]. destruct (Nat.eqb_spec (n0 + 1 + j) n0); [lia|]. replace (n0 + 1 + j - n0 - 1)%nat with j by lia. reflexivity. }
    assert (SP : forall f, sum_upto (S n * S L) f = sum_upto n0 f + f n0 + sum_upto L (fun j => f (n0 + 1 + j)%nat)).
    { intros f. replace (S n * S L)%nat with (S n0 + L)%nat by (unfold n0; lia). rewrite sum_upto_app, sum_upto_S. f_equal. apply sum_upto_ext. intros j Hj. f_equal. lia. }
    exists c'. split.
    + intros w. pose proof (@integration_gauss (normal w) (Hn w) (data w) lam mu n i Hga Hi) as H. cbv zeta in H. change (el (f_pos (at_ normal data (S n) w)) i - mu i = a * (el (f_pos (at_ normal data n w)) i - mu i) + cB (lam i) k g L * z n0 w + tau * sum_upto L (fun j => cB (lam i) k g (L - 1 - j) * z (n0 + 1 + j)%nat w)) in H.
      rewrite H, I1. unfold comb. rewrite SP, C2. rewrite (@sum_upto_ext n0 (fun t => c' t * z t w) (fun t => a * (c t * z t w))) by (intros t Ht; rewrite C1 by exact Ht; ring). rewrite (@sum_upto_scale n0 a (fun t => c t * z t w)).
      rewrite (@sum_upto_ext L (fun j => c' (n0 + 1 + j)%nat * _) (fun j => tau * (cB (lam i) k g (L - 1 - j) * z (n0 + 1 + j)%nat w))) by (intros j Hj; rewrite C3; ring). rewrite (@sum_upto_scale L tau (fun j => cB (lam i) k g (L - 1 - j) * z (n0 + 1 + j)%nat w)).
      ring.
    + cbv zeta. fold rm g k a. rewrite SP, C2. rewrite (@sum_upto_ext n0 (fun t => c' t * c' t) (fun t => (a * a) * (c t * c t))) by (intros t Ht; rewrite C1 by exact Ht; ring). rewrite (@sum_upto_scale n0 (a * a) (fun t => c t * c t)).
      rewrite (@sum_upto_ext L (fun j => c' (n0 + 1 + j)%nat * c' (n0 + 1 + j)%nat) (fun j => (tau * tau) * (cB (lam i) k g (L - 1 - j) * cB (lam i) k g (L - 1 - j)))) by (intros j Hj; rewrite C3; ring). rewrite (@sum_upto_scale L (tau * tau) (fun j => cB (lam i) k g (L - 1 - j) * cB (lam i) k g (L - 1 - j))).
      rewrite <- (sum_upto_rev L (fun j => cB (lam i) k g j * cB (lam i) k g j)). rewrite HT, <- I2. unfold gain. ring.
Qed.
Lemma moments W (E : (W -> R) -> R) normal data n i : (forall t b m i, like s t -> (i < dim s)%nat -> el (pot_grad t b m) i = lam i * (el t i - mu i)) -> (forall n, 0 <= eps n) -> standard_noise E normal n -> (i < dim s)%nat ->
  mean_dev E normal data n i = M i n /\ var_dev E normal data n i = V i n.
Proof using Hs Hg Hfr Hmass Hx.
  intros Hga He (HE & H1 & Hn & HZ) Hi. destruct (HZ i Hi) as [Z1 Z2]. destruct (@as_comb W normal data i Hga He Hn Hi n) as (c & C1 & C2).
  unfold mean_dev, var_dev. split.
  - rewrite (proj1 HE _ (comb (fun t w => noise normal t w i) (M i n) c (n * S L)) C1). exact (@E_comb W E (fun t w => noise normal t w i) (n * S L) HE H1 Z1 Z2 (M i n) c (n * S L) (le_n _)).
  - rewrite (proj1 HE _ (fun w => comb (fun t w => noise normal t w i) (M i n) c (n * S L) w * comb (fun t w => noise normal t w i) (M i n) c (n * S L) w)) by (intros w; now rewrite C1).
    rewrite (@E_comb_sq W E (fun t w => noise normal t w i) (n * S L) HE H1 Z1 Z2 (M i n) c (n * S L) (le_n _)). exact C2.
Qed.
Lemma standard_mono W (E : (W -> R) -> R) normal n : standard_noise E normal (S n) -> standard_noise E normal n.
Proof using Type. intros (A & B & C & D). split; [exact A|]. split; [exact B|]. split; [exact C|]. intros i Hi. destruct (D i Hi) as [D1 D2]. assert (Q : forall t, (t < n * S L)%nat -> (t < S n * S L)%nat) by (clear; intros; lia). split; [intros t Ht; exact (D1 t (Q t Ht))|intros t u Ht Hu; exact (D2 t u (Q t Ht) (Q u Hu))]. Qed.

(** the exact recursions of mean and variance of coordinate i over one integration; cA and cB (SghmcGaussian.v) are the coefficients of the starting point and of the starting momentum in the linear recursion
    y <- y + g p, p <- (1 - g k) p - g lam y, repeated L times *)
Theorem C85_moments : (forall t b m i, like s t -> (i < dim s)%nat -> el (pot_grad t b m) i = lam i * (el t i - mu i)) -> (forall n, 0 <= eps n) ->
  forall W (E : (W -> R) -> R) normal data n, standard_noise E normal (S n) -> forall i, (i < dim s)%nat ->
  let rm := root_mass mass i in let g := eps n / rm in let k := fric_at i / rm in
  mean_dev E normal data (S n) i = cA (lam i) k g L * mean_dev E normal data n i /\
  var_dev E normal data (S n) i = cA (lam i) k g L * cA (lam i) k g L * var_dev E normal data n i + cB (lam i) k g L * cB (lam i) k g L
    + 2 * eps n * k * k * sum_upto L (fun j => cB (lam i) k g j * cB (lam i) k g j).
Proof using Hs Hg Hfr Hmass Hx.
  intros Hga He W E normal data n Hz i Hi rm g k. destruct (@moments W E normal data (S n) i Hga He Hz Hi) as [A1 A2]. destruct (@moments W E normal data n i Hga He (standard_mono Hz) Hi) as [B1 B2].
  rewrite A1, A2, B1, B2. cbn [M V]. fold rm. cbv zeta. fold g k. split; [reflexivity|]. unfold gain. destruct (root_pos Hi) as [Hr _]. fold rm in Hr. rewrite Rplus_assoc. f_equal. f_equal. f_equal. unfold g, k. field. lra.
Qed.

Lemma uniform (P : nat -> nat -> Prop) d : (forall i, (i < d)%nat -> exists N, forall n, (N <= n)%nat -> P i n) -> exists N, forall i n, (i < d)%nat -> (N <= n)%nat -> P i n.
Proof using Type.
  clear. induction d as [|d IH]; intros H; [exists 0%nat; intros; lia|]. destruct IH as [N1 H1]; [intros i Hi; apply H; lia|]. destruct (H d ltac:(lia)) as [N2 H2]. exists (Nat.max N1 N2). intros i n Hi Hn.
  destruct (Nat.eq_dec i d) as [-> |]; [apply H2; lia|apply H1; lia].
Qed.
(** What fails: with at least two inner steps, step sizes that vanish with a divergent sum of squares and exact gradients, the mean tends to mu but the variance to L / ((L - 1) lam) instead of 1 / lam -
    for every friction, mass, initial sample and key *)
Theorem C85_vanishing_steps_refuted : (forall t b m i, like s t -> (i < dim s)%nat -> el (pot_grad t b m) i = lam i * (el t i - mu i)) -> (forall i, (i < dim s)%nat -> 0 < lam i) -> (2 <= L)%nat ->
  (forall n, 0 < eps n) -> vanishing eps -> divergent (fun n => eps n * eps n) -> forall delta, 0 < delta ->
  exists N, forall n, (N <= n)%nat -> forall W (E : (W -> R) -> R) normal data, standard_noise E normal n -> forall i, (i < dim s)%nat ->
    Rabs (E (fun w => el (f_pos (at_ normal data n w)) i) - mu i) <= delta /\
    Rabs (E (fun w => (el (f_pos (at_ normal data n w)) i - mu i) * (el (f_pos (at_ normal data n w)) i - mu i)) - INR L / (INR L - 1) * (1 / lam i)) <= delta.
Proof using Hs Hg Hfr Hmass Hx.
  intros Hga Hl HL Hp Hv Hd delta Hdl.
  destruct (@uniform (fun i n => Rabs (M i n) <= delta /\ Rabs (V i n - INR L / ((INR L - 1) * lam i)) <= delta) (dim s)) as [N HN].
  { intros i Hi. destruct (root_pos Hi) as [Hr _]. set (rm := root_mass mass i) in *. set (k := fric_at i / rm). set (sig := 2 * fric_at i * fric_at i / rm).
    assert (Pg : forall n, 0 < eps n / rm) by (intros n; apply Rdiv_lt_0_compat; auto).
    assert (Vg : vanishing (fun n => eps n / rm)). { intros d Hd0. destruct (Hv (d * rm) ltac:(apply Rmult_lt_0_compat; lra)) as [N1 HN1]. exists N1. intros n Hn. specialize (HN1 n Hn). apply (Rmult_le_reg_r rm); [exact Hr|]. replace (eps n / rm * rm) with (eps n) by (field; lra). exact HN1. }
    assert (Dg : divergent (fun n => eps n / rm * (eps n / rm))).
    { intros A. destruct (Hd (A * (rm * rm))) as [N1 HN1]. exists N1. intros n Hn. specialize (HN1 n Hn). rewrite (@sum_upto_ext n _ (fun i => / (rm * rm) * (eps i * eps i))) by (intros; field; lra). rewrite (@sum_upto_scale n (/ (rm * rm)) (fun i => eps i * eps i)).
      assert (P : 0 < rm * rm) by (apply Rmult_lt_0_compat; lra). apply (Rmult_le_reg_l (rm * rm)); [exact P|]. replace (rm * rm * (/ (rm * rm) * sum_upto n (fun i => eps i * eps i))) with (sum_upto n (fun i => eps i * eps i)) by (field; lra). lra. }
    destruct (@mean_limit (lam i) k sig L (fun n => eps n / rm) (Hl i Hi) HL Pg Vg Dg (M i) ltac:(reflexivity) delta Hdl) as [N1 H1].
    destruct (@variance_limit (lam i) k sig L (fun n => eps n / rm) (Hl i Hi) HL Pg Vg Dg (V i) ltac:(reflexivity) delta Hdl) as [N2 H2].
    exists (Nat.max N1 N2). intros n Hn. split; [apply H1; lia|apply H2; lia]. }
  exists N. intros n Hn W E normal data Hz i Hi. destruct (@moments W E normal data n i Hga (fun n => Rlt_le _ _ (Hp n)) Hz Hi) as [A1 A2]. destruct (HN i n Hi Hn) as [B1 B2].
  rewrite <- A1 in B1. rewrite <- A2 in B2. split.
  - destruct Hz as ((X & P & Sc) & H1 & _). unfold mean_dev in B1. rewrite (X _ (fun w => el (f_pos (at_ normal data n w)) i + (- mu i) * (fun _ => 1) w)) in B1 by (intros w; cbv beta; ring). rewrite P, Sc, H1 in B1.
    replace (E (fun w => el (f_pos (at_ normal data n w)) i) - mu i) with (E (fun w => el (f_pos (at_ normal data n w)) i) + - mu i * 1) by ring. exact B1.
  - unfold var_dev in B2. specialize (Hl i Hi). assert (2 <= INR L) by (replace 2 with (INR 2) by (cbn; lra); now apply le_INR). replace (INR L / (INR L - 1) * (1 / lam i)) with (INR L / ((INR L - 1) * lam i)) by (field; lra). exact B2.
Qed.

(** with one inner step per integration, and for an arbitrary potential: the positions are the initial sample plus scaled noise *)
Theorem C85_single_step : L = 1%nat -> forall normal, normal_ok normal -> forall data n i, (i < dim s)%nat ->
  el (f_pos (sghmc_state normal get_data pot_value pot_model pot_grad L friction mass eps (fl_init (Batch := Batch) None x0 (Some key0) data model0) n)) i =
    el x0 i + sum_upto n (fun k => eps k * (/ root_mass mass i * xi normal (Sub (chain key0 (2 * k)) 1) s i)).
Proof using Hs Hg Hfr Hmass Hx.
  clear lam mu. intros HL normal Hn data n i Hi. rewrite (@single_path normal Hn data n i HL Hi). f_equal. apply sum_upto_ext. intros k Hk. unfold Rdiv. ring.
Qed.
(** so the variance grows without bound with the sum of the squared step sizes, whatever the posterior *)
Theorem C85_single_step_variance : L = 1%nat -> forall W (E : (W -> R) -> R) normal data n, standard_noise E normal n -> forall i, (i < dim s)%nat ->
  E (fun w => el (f_pos (at_ normal data n w)) i) = el x0 i /\
  E (fun w => (el (f_pos (at_ normal data n w)) i - el x0 i) * (el (f_pos (at_ normal data n w)) i - el x0 i)) = inverse_mass mass i * sum_upto n (fun k => eps k * eps k).
Proof using Hs Hg Hfr Hmass Hx.
  clear lam mu. intros HL W E normal data n (HE & H1 & Hn & HZ) i Hi. destruct (HZ i Hi) as [Z1 Z2]. destruct (root_pos Hi) as [Hr Hinv].
  assert (Z1' : forall t, (t < n)%nat -> E (fun w => noise normal (2 * t) w i) = 0) by (intros t Ht; apply Z1; rewrite HL; lia).
  assert (Z2' : forall t u, (t < n)%nat -> (u < n)%nat -> E (fun w => noise normal (2 * t) w i * noise normal (2 * u) w i) = if (t =? u)%nat then 1 else 0).
  { intros t u Ht Hu. rewrite Z2 by (rewrite HL; lia). destruct (Nat.eqb_spec (2 * t) (2 * u)), (Nat.eqb_spec t u); auto; lia. }
  assert (C : forall c0 w, el (f_pos (at_ normal data n w)) i - c0 = comb (fun t w => noise normal (2 * t) w i) (el x0 i - c0) (fun k => eps k / root_mass mass i) n w).
  { intros c0 w. unfold at_. rewrite (@single_path (normal w) (Hn w) (data w) n i HL Hi). unfold comb, noise. ring. }
  split.
  - rewrite (proj1 HE _ (comb (fun t w => noise normal (2 * t) w i) (el x0 i - 0) (fun k => eps k / root_mass mass i) n)) by (intros w; rewrite <- C; ring).
    rewrite (@E_comb W E (fun t w => noise normal (2 * t) w i) n HE H1 Z1' Z2' (el x0 i - 0) (fun k => eps k / root_mass mass i) n (le_n _)). ring.
  - rewrite (proj1 HE _ (fun w => comb (fun t w => noise normal (2 * t) w i) (el x0 i - el x0 i) (fun k => eps k / root_mass mass i) n w * comb (fun t w => noise normal (2 * t) w i) (el x0 i - el x0 i) (fun k => eps k / root_mass mass i) n w)) by (intros w; now rewrite C).
    rewrite (@E_comb_sq W E (fun t w => noise normal (2 * t) w i) n HE H1 Z1' Z2' (el x0 i - el x0 i) (fun k => eps k / root_mass mass i) n (le_n _)).
    rewrite (@sum_upto_ext n _ (fun k => inverse_mass mass i * (eps k * eps k))) by (intros k Hk; rewrite Hinv; field; lra). rewrite (@sum_upto_scale n (inverse_mass mass i) (fun k => eps k * eps k)). ring.
Qed.
End C85.

(** with one inner step the whole chain of positions is the same for any two data sets, potentials and frictions *)
Theorem C85_single_step_ignores_data : forall s, wfv s -> forall Data1 Batch1 Model1 (get1 : Data1 -> Data1 * Batch1) pv1 pm1 (pg1 : vtree -> Batch1 -> Model1 -> vtree) Data2 Batch2 Model2 (get2 : Data2 -> Data2 * Batch2) pv2 pm2 (pg2 : vtree -> Batch2 -> Model2 -> vtree),
  (forall t b m, like s t -> like s (pg1 t b m)) -> (forall t b m, like s t -> like s (pg2 t b m)) ->
  forall friction1 friction2 mass, (match friction1 with FScalar _ => True | FTree t => like s t end) -> (match friction2 with FScalar _ => True | FTree t => like s t end) ->
  (match mass with Some m => like s m /\ forall i, (i < dim s)%nat -> 0 < el m i | None => True end) ->
  forall x0 key0, like s x0 -> forall eps normal, normal_ok normal -> forall data1 model1 data2 model2 n,
  f_pos (sghmc_state normal get1 pv1 pm1 pg1 1 friction1 mass eps (fl_init (Batch := Batch1) None x0 (Some key0) data1 model1) n) =
  f_pos (sghmc_state normal get2 pv2 pm2 pg2 1 friction2 mass eps (fl_init (Batch := Batch2) None x0 (Some key0) data2 model2) n).
Proof.
  intros s Hs D1 B1 M1 get1 pv1 pm1 pg1 D2 B2 M2 get2 pv2 pm2 pg2 H1 H2 f1 f2 mass F1 F2 Hm x0 key0 Hx eps normal Hn data1 model1 data2 model2 n.
  apply (like_ext Hs).
  - apply (@run_inv s Hs D1 B1 M1 get1 pv1 pm1 pg1 H1 1 f1 mass F1 Hm x0 model1 key0 Hx eps normal Hn data1 n).
  - apply (@run_inv s Hs D2 B2 M2 get2 pv2 pm2 pg2 H2 1 f2 mass F2 Hm x0 model2 key0 Hx eps normal Hn data2 n).
  - intros i Hi. rewrite (@C85_single_step s Hs D1 B1 M1 get1 pv1 pm1 pg1 H1 1 f1 mass F1 Hm x0 model1 key0 Hx eps eq_refl normal Hn data1 n i Hi).
    rewrite (@C85_single_step s Hs D2 B2 M2 get2 pv2 pm2 pg2 H2 1 f2 mass F2 Hm x0 model2 key0 Hx eps eq_refl normal Hn data2 n i Hi). reflexivity.
Qed.

(** the step sizes of scheduler.polynomial_step_size with 0 < gamma <= 1/2 *)
Theorem C85_polynomial_refuted : forall s, wfv s -> forall Data Batch Model (get_data : Data -> Data * Batch) pot_value pot_model (pot_grad : vtree -> Batch -> Model -> vtree), (forall t b m, like s t -> like s (pot_grad t b m)) ->
  forall L friction mass, (match friction with FScalar _ => True | FTree t => like s t end) -> (match mass with Some m => like s m /\ forall i, (i < dim s)%nat -> 0 < el m i | None => True end) ->
  forall x0 model0 key0, like s x0 -> forall lam mu : nat -> R,
  (forall t b m i, like s t -> (i < dim s)%nat -> el (pot_grad t b m) i = lam i * (el t i - mu i)) -> (forall i, (i < dim s)%nat -> 0 < lam i) -> (2 <= L)%nat ->
  forall a b g, 0 < a -> 0 < b -> 0 < g <= 1 / 2 -> let eps := fun n : nat => a * Rpower (b + INR n) (- g) in
  exists N, forall n, (N <= n)%nat -> forall W (E : (W -> R) -> R) normal data, standard_noise s L key0 E normal n -> forall i, (i < dim s)%nat ->
    E (fun w => let x := el (f_pos (at_ get_data pot_value pot_model pot_grad L friction mass x0 model0 key0 eps normal data n w)) i in (x - mu i) * (x - mu i)) >= 1 / lam i + 1 / (2 * (INR L - 1) * lam i).
Proof.
  intros s Hs Data Batch Model get_data pv pm pg Hg L friction mass Hfr Hm x0 model0 key0 Hx lam mu Hga Hl HL a b g Ha Hb Hgm eps.
  assert (G1 : 0 < g <= 1) by lra.
  assert (Dv : divergent (fun n => eps n * eps n)).
  { intros A. destruct (@poly_divergent (a * a) b (2 * g) ltac:(nra) Hb ltac:(lra) A) as [N HN]. exists N. intros n Hn. specialize (HN n Hn). rewrite (@sum_upto_ext n (fun n => eps n * eps n) (fun n : nat => a * a * Rpower (b + INR n) (- (2 * g)))); [exact HN|].
    intros k _. unfold eps. replace (- (2 * g)) with (- g + - g) by ring. rewrite Rpower_plus. ring. }
  assert (HL2 : 2 <= INR L) by (replace 2 with (INR 2) by (cbn; lra); now apply le_INR).
  (* the smallest gap over the coordinates *)
  assert (Gap : exists d, 0 < d /\ forall i, (i < dim s)%nat -> d <= 1 / (2 * (INR L - 1) * lam i)).
  { clear - Hl HL2. revert Hl. generalize (dim s). intros m. induction m as [|m IH]; intros Hl; [exists 1; split; [lra|intros; lia]|]. destruct IH as (d & Hd & H); [intros i Hi; apply Hl; lia|]. assert (P : 0 < 1 / (2 * (INR L - 1) * lam m)) by (apply Rdiv_lt_0_compat; [lra|]; specialize (Hl m ltac:(lia)); apply Rmult_lt_0_compat; lra).
    exists (Rmin d (1 / (2 * (INR L - 1) * lam m))). split; [now apply Rmin_glb_lt|]. intros i Hi. destruct (Nat.eq_dec i m) as [-> |]; [apply Rmin_r|]. eapply Rle_trans; [apply Rmin_l|apply H; lia]. }
  destruct Gap as (d & Hd & HG).
  destruct (@C85_vanishing_steps_refuted s Hs Data Batch Model get_data pv pm pg Hg L friction mass Hfr Hm x0 model0 key0 Hx eps lam mu Hga Hl HL (poly_pos b g Ha) (poly_vanishing Ha Hb G1) Dv d Hd) as [N HN].
  exists N. intros n Hn W E normal data Hz i Hi. destruct (HN n Hn W E normal data Hz i Hi) as [_ B]. specialize (HG i Hi). specialize (Hl i Hi). cbv zeta. set (v := E _) in *.
  assert (Q : INR L / (INR L - 1) * (1 / lam i) = 1 / lam i + 2 * (1 / (2 * (INR L - 1) * lam i))) by (field; lra). rewrite Q in B. unfold Rabs in B. destruct (Rcase_abs _) in B; lra.
Qed.

(** the hypotheses can be met: three coins are the noise of one integration with two inner steps *)
Example C85_nonvacuous :
  let Wt := (bool * bool * bool)%type in
  let avg := fun f : bool -> R => (f true + f false) / 2 in
  let E := fun X : Wt -> R => avg (fun a => avg (fun b => avg (fun c => X (a, b, c)))) in
  let sign := fun b : bool => if b then 1 else -1 in
  let s := Leaf (mkArr [] [0]) in
  let normal := fun (w : Wt) (k : key) (sh : list nat) => let '(a, b, c) := w in repeat (match k with Sub (Sub (PRNGKey _) _) _ => sign a | Sub (Sub (Sub (PRNGKey _) _) _) _ => sign b | _ => sign c end) (size sh) in
  standard_noise s 2 (PRNGKey 0) E normal 1 /\ wfv s /\ like s (Leaf (mkArr [] [3])) /\
  (forall t (b m : unit), like s t -> like s (emap (fun x => 2 * (x - 1)) t)) /\ forall t (b m : unit) i, like s t -> (i < dim s)%nat -> el (emap (fun x => 2 * (x - 1)) t) i = 2 * (el t i - 1).
Proof.
  intros Wt avg E sign s normal. split; [|split; [|split; [|split]]].
  - split; [split; [intros X Y HXY; unfold E, avg; now rewrite !HXY|split; intros; unfold E, avg; field]|]. split; [unfold E, avg; field|].
    split; [intros [[a b] c] k sh; apply repeat_length|]. intros i Hi. assert (i = O) by (unfold dim in Hi; cbn in Hi; lia). subst i. clear Hi.
    split; [intros t Ht|intros t u Ht Hu; assert (Hu' : (u = 0 \/ u = 1 \/ u = 2)%nat) by lia]; assert (Ht' : (t = 0 \/ t = 1 \/ t = 2)%nat) by lia; clear Ht; [|clear Hu; destruct Hu' as [-> | [-> | ->]]]; destruct Ht' as [-> | [-> | ->]]; unfold E, avg, noise, xi, sign; cbn; unfold el; cbn; field.
  - constructor; [reflexivity|constructor].
  - split; [constructor; [reflexivity|constructor]|]. split; reflexivity.
  - intros t b m H. now apply like_emap.
  - intros t b m i H Hi. apply (el_emap (s := s)); auto. constructor; [reflexivity|constructor].
Qed.
Print Assumptions C85_moments. Print Assumptions C85_vanishing_steps_refuted. Print Assumptions C85_single_step. Print Assumptions C85_single_step_variance. Print Assumptions C85_single_step_ignores_data. Print Assumptions C85_polynomial_refuted. Print Assumptions C85_nonvacuous.
