(** C86: OBABO (integrator.obabo, alias.obabo) on a Gaussian posterior.
    Reading guide: [at_ n w] is the state after n integrations with step sizes eps 0, eps 1, ... for the random numbers w; [noise t w] is the t-th random vector that the run draws
    (two for each of the [steps] inner steps of an integration); [standard_noise]: an expectation for which these vectors have mean 0, variance 1 and are uncorrelated. *)
From Coq Require Import Reals Lra Psatz.
From Verif Require Import Base ListUtil Pytree PytreeSpec Io TreeUtil TreeUtilSpec TreeUtilProofs Integrator IntegratorSpec IntegratorBasics ObaboProofs ExpectSpec ExpectProofs GaussianLimit SghmcGaussian ObaboGaussian AliasHmc RiemannProofs.
From Verif Require PropertiesSghmcGaussian.
Open Scope R_scope.
Set Implicit Arguments.

(** the state after n integrations at temperature T *)
(** integrator.py:317-338, called by solver.py:214-215 *)
Definition obabo_state {Data Batch Model} (normal : key -> list nat -> list R) (get_data : Data -> Data * Batch) pot_value pot_model (pot_grad : vtree -> Batch -> Model -> vtree)
  (steps : nat) (friction : R) (mass : option vtree) (T : R) (eps : nat -> R) (st0 : ob_st Data Model) (n : nat) : ob_st Data Model :=
  fold_left (fun a k => fst (ob_integrate normal get_data pot_value pot_model pot_grad steps friction mass (eps k) T None a)) (seq 0 n) st0.

Section C86.
Variable s : vtree.
Hypothesis Hs : wfv s.
Variables (Data Batch Model : Type).
Variable get_data : Data -> Data * Batch.
Variable pot_value : vtree -> Batch -> Model -> R.
Variable pot_model : vtree -> Batch -> Model -> Model.
Variable pot_grad : vtree -> Batch -> Model -> vtree.
Hypothesis Hg : forall t b m, like s t -> like s (pot_grad t b m).
Variables (steps : nat) (friction : R) (mass : option vtree) (T : R).
Hypothesis Hsteps : (0 < steps)%nat.
Hypothesis Hmass : match mass with Some m => like s m /\ forall i, (i < dim s)%nat -> 0 < el m i | None => True end.
Variables (x0 : vtree) (model0 : Model) (key0 : key).
Hypothesis Hx : like s x0.
Variable eps : nat -> R.
Variables (lam mu : nat -> R).
Hypothesis Hgauss : forall t b m i, like s t -> (i < dim s)%nat -> el (pot_grad t b m) i = lam i * (el t i - mu i).
Hypothesis Hlam : forall i, (i < dim s)%nat -> 0 < lam i.

Lemma Hmass' : forall m, mass = Some m -> like s m.
Proof using Hmass. intros m E. clear - E Hmass. subst mass. exact (proj1 Hmass). Qed.
Lemma root_pos i : (i < dim s)%nat -> 0 < root_mass mass i /\ inverse_mass mass i = / root_mass mass i * / root_mass mass i.
Proof using Hmass.
  intros Hi. unfold root_mass, inverse_mass. destruct mass as [m|]; [|split; lra]. destruct Hmass as [_ H]. specialize (H i Hi). split; [now apply sqrt_lt_R0|].
  rewrite <- Rinv_mult, sqrt_sqrt by lra. reflexivity.
Qed.
(** frequency of coordinate i *)
(** auxiliary definition of a statement or a proof; models no code of /repo *)
Definition freq (i : nat) : R := sqrt (lam i) / root_mass mass i.

Section Path.
Variable normal : key -> list nat -> list R.
Hypothesis Hn : normal_ok normal.
Variable data0 : Data.
Notation run n := (obabo_state normal get_data pot_value pot_model pot_grad steps friction mass T eps (ob_init x0 (Some key0) data0 model0) n).
Lemma run_S n : run (S n) = fst (scan (ob_step normal get_data pot_value pot_model pot_grad friction (eps n) T (ob_mass mass None (o_pos (run n)))) steps (run n)).
Proof using Type. unfold obabo_state. rewrite seq_S, fold_left_app. reflexivity. Qed.
(** the state before inner step t, counted through all integrations *)
(** auxiliary definition of a statement or a proof; models no code of /repo *)
Definition inner (t : nat) : ob_st Data Model :=
  fst (scan (ob_step normal get_data pot_value pot_model pot_grad friction (eps (t / steps)) T (ob_mass mass None (o_pos (run (t / steps))))) (t mod steps) (run (t / steps))).
Lemma inner_run n : inner (n * steps) = run n.
Proof using Hsteps. unfold inner. rewrite Nat.div_mul, Nat.mod_mul by (clear - Hsteps; lia). reflexivity. Qed.
Lemma inner_S t : inner (S t) = fst (ob_step normal get_data pot_value pot_model pot_grad friction (eps (t / steps)) T (ob_mass mass None (o_pos (run (t / steps)))) (inner t) (t mod steps)).
Proof using Hsteps.
  pose proof (Nat.div_mod t steps ltac:(clear - Hsteps; lia)) as Dm. pose proof (Nat.mod_upper_bound t steps ltac:(clear - Hsteps; lia)) as Mb. set (n := (t / steps)%nat) in *. set (j := (t mod steps)%nat) in *.
  destruct (Nat.eq_dec (S j) steps) as [El|Nl].
  - replace (S t) with (S n * steps)%nat by (clear - Dm El; nia). rewrite inner_run, run_S. rewrite <- El at 2. rewrite scan_S. unfold inner. fold n j. reflexivity.
  - assert (D1 : (S t / steps = n)%nat) by (symmetry; apply (Nat.div_unique (S t) steps n (S j)); clear - Dm Mb Nl; lia). assert (M1 : (S t mod steps = S j)%nat) by (symmetry; apply (Nat.mod_unique (S t) steps n (S j)); clear - Dm Mb Nl; lia).
    unfold inner. rewrite D1, M1. fold n j. rewrite scan_S. reflexivity.
Qed.
Lemma inner_like t : like s (o_pos (run (t / steps))) -> like s (o_pos (inner t)) /\ like s (o_mom (inner t)) -> like s (o_pos (inner (S t))) /\ like s (o_mom (inner (S t))) /\ o_key (inner (S t)) = Sub (o_key (inner t)) 0 /\
  forall i, (i < dim s)%nat -> let e := eps (t / steps) in let a := sqrt (exp (- friction * e)) in let b := sqrt ((1 - exp (- friction * e)) * T) in
  exists r f g, r = a * el (o_mom (inner t)) i + b * (root_mass mass i * xi normal (Sub (o_key (inner t)) 1) s i) /\
    f = r - 1 / 2 * e * (lam i * (el (o_pos (inner t)) i - mu i)) /\ el (o_pos (inner (S t))) i = el (o_pos (inner t)) i + e * (inverse_mass mass i * f) /\
    g = f - 1 / 2 * e * (lam i * (el (o_pos (inner (S t))) i - mu i)) /\
    el (o_mom (inner (S t))) i = a * g + b * (root_mass mass i * xi normal (Sub (o_key (inner t)) 2) s i).
Proof using Hs Hg Hmass Hn Hsteps Hgauss.
  intros LR [Lp Lm]. rewrite inner_S. set (st := inner t) in *. set (e := eps (t / steps)). set (M := ob_mass mass None (o_pos (run (t / steps)))).
  pose proof (@mass_fits s mass Hmass' _ LR) as [FI FS]. fold M in FI, FS.
  destruct (@ob_parts_like s Hs M FI FS normal Hn Data Batch Model get_data pot_model pot_grad Hg friction e T st Lp Lm) as (L1 & L2 & L3 & L4 & L5 & L6).
  destruct (@resample_ok s Hs M FS normal Hn friction e T (o_mom st) (Sub (o_key st) 1) Lm) as (_ & R1 & _).
  destruct (@resample_ok s Hs M FS normal Hn friction e T _ (Sub (o_key st) 2) L6) as (L7 & R2 & _).
  rewrite ob_step_eq. cbn [o_pos o_mom o_key]. split; [exact L4|]. split; [exact L7|]. split; [reflexivity|]. intros i Hi.
  exists (el (ob_r M normal friction e T st) i), (el (ob_f M normal get_data pot_grad friction e T st) i), (el (ob_s M normal get_data pot_model pot_grad friction e T st) i).
  split; [unfold ob_r; rewrite R1 by exact Hi; unfold M; rewrite (@mass_sqrt s Hs mass Hmass' _) by auto; reflexivity|].
  split; [unfold ob_f; rewrite (el_ob_mom Hs) by auto; unfold ob_g1; rewrite Hgauss by auto; reflexivity|].
  split; [unfold ob_x; rewrite (el_pos_update Hs) by auto; rewrite (el_mat Hs) by auto; unfold M; rewrite (@mass_inv s Hs mass Hmass' _) by auto; reflexivity|].
  split; [unfold ob_s; rewrite (el_ob_mom Hs) by auto; unfold ob_g2; rewrite Hgauss by auto; reflexivity|].
  rewrite R2 by exact Hi. unfold M. rewrite (@mass_sqrt s Hs mass Hmass' _) by auto. reflexivity.
Qed.
Lemma inner_inv t : like s (o_pos (inner t)) /\ like s (o_mom (inner t)) /\ o_key (inner t) = chain key0 t /\ like s (o_pos (run (t / steps))).
Proof using Hs Hg Hmass Hn Hsteps Hgauss Hx.
  clear Hlam. assert (A : forall t, (forall u, (u <= t)%nat -> like s (o_pos (inner u)) /\ like s (o_mom (inner u)) /\ o_key (inner u) = chain key0 u)).
  { clear t. induction t as [|t IH]; intros u Hu.
    - assert (u = 0%nat) by lia. subst u. replace (inner 0) with (run 0) by (rewrite <- (inner_run 0); reflexivity). cbn. split; [exact Hx|]. split; [now apply like_emap|reflexivity].
    - destruct (Nat.eq_dec u (S t)) as [-> |]; [|apply IH; lia]. destruct (IH t (le_n t)) as (I1 & I2 & I3).
      assert (LR : like s (o_pos (run (t / steps)))). { rewrite <- inner_run. apply IH. rewrite Nat.mul_comm. apply Nat.mul_div_le. lia. }
      destruct (inner_like t LR (conj I1 I2)) as (J1 & J2 & J3 & _). rewrite J3, I3. auto. }
  destruct (A t t (le_n t)) as (I1 & I2 & I3). split; [exact I1|]. split; [exact I2|]. split; [exact I3|]. rewrite <- inner_run. apply (A t). rewrite Nat.mul_comm. apply Nat.mul_div_le. clear - Hsteps; lia.
Qed.
(** one inner step in scaled coordinates *)
Lemma inner_scaled t i : (i < dim s)%nat -> let e := eps (t / steps) in let a := sqrt (exp (- friction * e)) in let b := sqrt ((1 - exp (- friction * e)) * T) in let k := e * freq i / 2 in
  let Y := fun t => sqrt (lam i) * (el (o_pos (inner t)) i - mu i) in let Q := fun t => el (o_mom (inner t)) i / root_mass mass i in
  exists q1 q2 q3, q1 = a * Q t + b * xi normal (Sub (chain key0 t) 1) s i /\ q2 = q1 - k * Y t /\ Y (S t) = Y t + 2 * k * q2 /\ q3 = q2 - k * Y (S t) /\ Q (S t) = a * q3 + b * xi normal (Sub (chain key0 t) 2) s i.
Proof using Hs Hg Hmass Hn Hsteps Hgauss Hx Hlam.
  intros Hi e a b k Y Q. destruct (inner_inv t) as (I1 & I2 & I3 & I4). destruct (inner_like t I4 (conj I1 I2)) as (_ & _ & _ & H). destruct (H i Hi) as (r & f & g & E1 & E2 & E3 & E4 & E5). fold e a b in E1, E2, E3, E4, E5.
  destruct (root_pos Hi) as [Hr Hinv]. set (rm := root_mass mass i) in *. assert (Sq : sqrt (lam i) * sqrt (lam i) = lam i) by (apply sqrt_sqrt; left; auto). set (sq := sqrt (lam i)) in *.
  exists (r / rm), (f / rm), (g / rm). rewrite I3 in E1, E5. unfold Y, Q, k, freq. fold sq rm.
  split; [rewrite E1; field; lra|]. split; [rewrite E2, <- Sq; field; lra|]. split; [rewrite E3, Hinv; field; lra|]. split; [rewrite E4, <- Sq; field; lra|]. rewrite E5. field. lra.
Qed.
End Path.

(** ** expectation *)
Section Run.
Variables (W : Type) (E : (W -> R) -> R) (normal : W -> key -> list nat -> list R) (data : W -> Data).
(** auxiliary definition of a statement or a proof; models no code of /repo *)
Definition at_ (n : nat) (w : W) : ob_st Data Model :=
  obabo_state (normal w) get_data pot_value pot_model pot_grad steps friction mass T eps (ob_init x0 (Some key0) (data w) model0) n.
(** the t-th normal vector of the run (two for each inner step) *)
(** auxiliary definition of a statement or a proof; models no code of /repo *)
Definition noise (t : nat) (w : W) (i : nat) : R := xi (normal w) (Sub (chain key0 (t / 2)) (1 + t mod 2)) s i.
(** the random vectors of the first n integrations are standard: mean 0, variance 1, uncorrelated *)
(** auxiliary definition of a statement or a proof; models no code of /repo *)
Definition standard_noise (n : nat) : Prop :=
  expectation E /\ E (fun _ => 1) = 1 /\ (forall w, normal_ok (normal w)) /\
  forall i, (i < dim s)%nat -> (forall t, (t < 2 * (n * steps))%nat -> E (fun w => noise t w i) = 0) /\
    forall t u, (t < 2 * (n * steps))%nat -> (u < 2 * (n * steps))%nat -> E (fun w => noise t w i * noise u w i) = if (t =? u)%nat then 1 else 0.
(** scaled position and momentum before inner step t *)
(** auxiliary definition of a statement or a proof; models no code of /repo *)
Definition sY (i t : nat) (w : W) : R := sqrt (lam i) * (el (o_pos (inner (normal w) (data w) t)) i - mu i).
(** auxiliary definition of a statement or a proof; models no code of /repo *)
Definition sQ (i t : nat) (w : W) : R := el (o_mom (inner (normal w) (data w) t)) i / root_mass mass i.
End Run.

(** step size of inner step t *)
(** auxiliary definition of a statement or a proof; models no code of /repo *)
Definition estep (t : nat) : R := eps (t / steps).
(** auxiliary definition of a statement or a proof; models no code of /repo *)
Definition damp (t : nat) : R := exp (- (friction / 2) * estep t).
(** auxiliary definition of a statement or a proof; models no code of /repo *)
Fixpoint Dn (Tm : R) (i t : nat) : tri := match t with O => let y := sqrt (lam i) * (el x0 i - mu i) in Tri (y * y) 0 0
  | S t => tri_step (estep t * freq i / 2) (damp t) ((1 - damp t * damp t) * Tm) (Dn Tm i t) end.

Lemma damp_sqrt t : sqrt (exp (- friction * eps (t / steps))) = damp t.
Proof using Type.
  unfold damp, estep. set (e := eps _). replace (- friction * e) with (- (friction / 2) * e + - (friction / 2) * e) by field. rewrite exp_plus. apply sqrt_square. left. apply exp_pos.
Qed.
Lemma damp_sq t : damp t * damp t = exp (- friction * eps (t / steps)).
Proof using Type. unfold damp, estep. rewrite <- exp_plus. f_equal. field. Qed.
Lemma bb t : 0 <= friction -> 0 <= T -> (forall n, 0 <= eps n) -> let b := sqrt ((1 - exp (- friction * eps (t / steps))) * T) in b * b = (1 - damp t * damp t) * T.
Proof using Type.
  intros Hf HT He b. unfold b. rewrite damp_sq. apply sqrt_sqrt. apply Rmult_le_pos; [|exact HT]. specialize (He (t / steps)%nat). set (e := eps _) in *.
  assert (exp (- friction * e) <= 1); [|lra]. rewrite <- exp_0. destruct (Req_dec (friction * e) 0) as [Z|Z]; [right; f_equal; lra|]. left. apply exp_increasing. assert (0 <= friction * e) by now apply Rmult_le_pos. lra.
Qed.
Lemma sq_moments W (E : (W -> R) -> R) normal data n : 0 <= friction -> 0 <= T -> (forall n, 0 <= eps n) -> standard_noise E normal n -> forall i, (i < dim s)%nat -> forall t, (t <= n * steps)%nat ->
  let z := fun t w => noise normal t w i in
  lin z (2 * t) (sY normal data i t) /\ lin z (2 * t) (sQ normal data i t) /\ moments2 E (sY normal data i t) (sQ normal data i t) = Dn T i t /\ means2 E (sY normal data i t) (sQ normal data i t) = Dn 0 i t.
Proof using Hs Hg Hmass Hsteps Hgauss Hx Hlam.
  intros Hf HT He (HE & H1 & Hn & HZ) i Hi t Ht z. destruct (HZ i Hi) as [Z1 Z2]. induction t as [|t IH].
  - assert (A : forall w, inner (normal w) (data w) 0 = ob_init x0 (Some key0) (data w) model0). { intros w. change 0%nat with (0 * steps)%nat. rewrite inner_run by exact Hsteps. reflexivity. }
    set (y := sqrt (lam i) * (el x0 i - mu i)).
    assert (AY : forall w, y = sY normal data i 0 w) by (intros w; unfold sY; rewrite A; reflexivity).
    assert (AQ : forall w, 0 = sQ normal data i 0 w). { intros w. unfold sQ. rewrite A. cbn [ob_init o_mom]. rewrite (el_emap Hs) by auto. unfold Rdiv. ring. }
    split; [eapply lin_ext; [exact AY|apply lin_const]|]. split; [eapply lin_ext; [exact AQ|apply lin_const]|].
    destruct (@tri_ext W E HE (fun _ => y) (sY normal data i 0) (fun _ => 0) (sQ normal data i 0) AY AQ) as [X1 X2]. rewrite <- X1, <- X2.
    assert (C : forall c, E (fun _ => c) = c). { intros c. destruct HE as (X & _ & Sc). rewrite (X _ (fun w => c * (fun _ => 1) w)) by (intros; ring). rewrite Sc, H1. ring. }
    unfold moments2, means2. rewrite !C. cbn [Dn]. fold y. split; f_equal; ring.
  - destruct IH as (L1 & L2 & I1 & I2); [lia|]. 
    replace (2 * S t)%nat with (S (S (2 * t))) by lia. cbn [Dn]. rewrite <- I1, <- I2. rewrite <- (bb t Hf HT He). replace ((1 - damp t * damp t) * 0) with 0 by ring.
    apply (@moments_step W E z (2 * (n * steps)) HE H1 Z1 Z2); auto; [lia|]. intros w.
    assert (N0 : z (2 * t)%nat w = xi (normal w) (Sub (chain key0 t) 1) s i). { unfold z, noise. replace (2 * t / 2)%nat with t by (symmetry; rewrite Nat.mul_comm; apply Nat.div_mul; lia). replace ((2 * t) mod 2)%nat with 0%nat by (symmetry; rewrite Nat.mul_comm; apply Nat.mod_mul; lia). reflexivity. }
    assert (N1 : z (S (2 * t)) w = xi (normal w) (Sub (chain key0 t) 2) s i).
    { unfold z, noise. replace (S (2 * t) / 2)%nat with t by (apply (Nat.div_unique (S (2 * t)) 2 t 1); lia). replace (S (2 * t) mod 2)%nat with 1%nat by (apply (Nat.mod_unique (S (2 * t)) 2 t 1); lia). reflexivity. }
    rewrite N0, N1. rewrite <- damp_sqrt. exact (@inner_scaled (normal w) (Hn w) (data w) t i Hi).
Qed.
(** from scaled second moments to those of position and momentum *)
Lemma unscaled W (E : (W -> R) -> R) normal data n : 0 <= friction -> 0 <= T -> (forall n, 0 <= eps n) -> standard_noise E normal n -> forall i, (i < dim s)%nat ->
  let x := fun w => el (o_pos (at_ normal data n w)) i - mu i in let p := fun w => el (o_mom (at_ normal data n w)) i in let D := Dn T i (n * steps) in
  E (fun w => x w * x w) = / lam i * t_u D /\ E (fun w => x w * p w) = root_mass mass i / sqrt (lam i) * t_v D /\ E (fun w => p w * p w) = root_mass mass i * root_mass mass i * t_w D /\
  (E (fun w => el (o_pos (at_ normal data n w)) i) - mu i) * (E (fun w => el (o_pos (at_ normal data n w)) i) - mu i) = / lam i * t_u (Dn 0 i (n * steps)) /\
  E p * E p = root_mass mass i * root_mass mass i * t_w (Dn 0 i (n * steps)).
Proof using Hs Hg Hmass Hsteps Hgauss Hx Hlam.
  intros Hf HT He Hz i Hi x p D. destruct (@sq_moments W E normal data n Hf HT He Hz i Hi (n * steps)%nat (le_n _)) as (_ & _ & I1 & I2).
  destruct Hz as ((X & P & Sc) & H1 & Hn & _). destruct (root_pos Hi) as [Hr _]. set (rm := root_mass mass i) in *. pose proof (Hlam Hi) as Hl. assert (Sp : 0 < sqrt (lam i)) by now apply sqrt_lt_R0. assert (Sq : sqrt (lam i) * sqrt (lam i) = lam i) by (apply sqrt_sqrt; lra). set (sq := sqrt (lam i)) in *.
  assert (AY : forall w, sY normal data i (n * steps) w = sq * x w) by (intros w; unfold sY; rewrite inner_run by exact Hsteps; reflexivity).
  assert (AQ : forall w, sQ normal data i (n * steps) w = / rm * p w) by (intros w; unfold sQ; rewrite inner_run by exact Hsteps; unfold Rdiv; rewrite Rmult_comm; reflexivity).
  unfold D. rewrite <- I1, <- I2. unfold moments2, means2. cbn [t_u t_v t_w].
  rewrite (X (fun w => sY normal data i (n * steps) w * sY normal data i (n * steps) w) (fun w => (sq * sq) * (x w * x w))) by (intros w; rewrite AY; ring).
  rewrite (X (fun w => sY normal data i (n * steps) w * sQ normal data i (n * steps) w) (fun w => (sq * / rm) * (x w * p w))) by (intros w; rewrite AY, AQ; ring).
  rewrite (X (fun w => sQ normal data i (n * steps) w * sQ normal data i (n * steps) w) (fun w => (/ rm * / rm) * (p w * p w))) by (intros w; rewrite AQ; ring).
  rewrite (X (sY normal data i (n * steps)) (fun w => sq * x w)) by exact AY. rewrite (X (sQ normal data i (n * steps)) (fun w => / rm * p w)) by exact AQ. rewrite !Sc, Sq.
  assert (Ex : E x = E (fun w => el (o_pos (at_ normal data n w)) i) - mu i).
  { rewrite (X x (fun w => el (o_pos (at_ normal data n w)) i + (- mu i) * (fun _ => 1) w)) by (intros w; unfold x; ring). rewrite P, Sc, H1. ring. }
  rewrite <- Ex. rewrite <- Sq. split; [field; lra|]. split; [field; lra|]. split; [field; lra|]. split; field; lra.
Qed.

Lemma estep_vanishing : vanishing eps -> vanishing estep.
Proof using Hsteps.
  clear - Hsteps. intros H d Hd. destruct (H d Hd) as [N HN]. exists (N * steps)%nat. intros t Ht. apply HN. apply Nat.div_le_lower_bound; lia.
Qed.
Lemma estep_divergent : (forall n, 0 < eps n) -> divergent eps -> divergent estep.
Proof using Hsteps.
  clear - Hsteps. intros Hp H A. destruct (H A) as [N HN]. exists (N * steps)%nat. intros t Ht.
  assert (B : forall n, sum_upto n eps <= sum_upto (n * steps) estep).
  { induction n as [|n IH]; [cbn; lra|]. replace (S n * steps)%nat with (n * steps + steps)%nat by lia. rewrite sum_upto_app, sum_upto_S.
    rewrite (@sum_upto_ext steps (fun j => estep (n * steps + j)) (fun _ => eps n)).
    - rewrite sum_upto_const. assert (1 <= INR steps) by (replace 1 with (INR 1) by reflexivity; apply le_INR; lia). specialize (Hp n). assert (1 * eps n <= INR steps * eps n) by (apply Rmult_le_compat_r; lra). lra.
    - intros j Hj. unfold estep. f_equal. symmetry. apply (Nat.div_unique (n * steps + j) steps n j); lia. }
  specialize (B N). specialize (HN N (le_n _)). replace t with (N * steps + (t - N * steps))%nat by lia. rewrite sum_upto_app.
  assert (0 <= sum_upto (t - N * steps) (fun i => estep (N * steps + i))); [|lra]. rewrite <- (Rmult_0_r (INR (t - N * steps))), <- sum_upto_const. apply sum_upto_le. intros j _. left. apply Hp.
Qed.
Lemma freq_pos i : (i < dim s)%nat -> 0 < freq i.
Proof using Hmass Hlam. intros Hi. unfold freq. apply Rdiv_lt_0_compat; [apply sqrt_lt_R0; auto|apply (root_pos Hi)]. Qed.

Lemma sq_small m d : 0 <= d -> m * m <= d * d -> Rabs m <= d.
Proof using Type. clear. intros Hd H. unfold Rabs. destruct (Rcase_abs m); nra. Qed.
(** a bound that is small enough after the unscaling *)
Lemma scaled_small a v d : 0 < a -> Rabs v <= d / a -> Rabs (a * v) <= d.
Proof using Type. clear. intros Ha H. rewrite Rabs_mult, (Rabs_pos_eq a) by lra. apply (Rmult_le_compat_l a) in H; [|lra]. replace (a * (d / a)) with d in H by (field; lra). exact H. Qed.

(** the conclusion shared by the limit theorems: after enough integrations mean and second moments of position and momentum are within delta of their limits *)
(** auxiliary definition of a statement or a proof; models no code of /repo *)
Definition moments_tend_to (variance : nat -> R) : Prop := forall delta, 0 < delta ->
  exists N, forall n, (N <= n)%nat -> forall W (E : (W -> R) -> R) normal data, standard_noise E normal n -> forall i, (i < dim s)%nat ->
    let x := fun w => el (o_pos (at_ normal data n w)) i in let p := fun w => el (o_mom (at_ normal data n w)) i in
    Rabs (E x - mu i) <= delta /\ Rabs (E p) <= delta /\
    Rabs (E (fun w => (x w - mu i) * (x w - mu i)) - variance i) <= delta /\ Rabs (E (fun w => (x w - mu i) * p w)) <= delta /\ Rabs (E (fun w => p w * p w) - T * (root_mass mass i * root_mass mass i)) <= delta.

Lemma limit_core (u : nat -> R) : 0 <= friction -> 0 <= T -> (forall n, 0 <= eps n) ->
  (forall i, (i < dim s)%nat -> forall d, 0 < d -> exists N, forall n, (N <= n)%nat -> Rabs (t_u (Dn T i n) - u i) <= d /\ Rabs (t_v (Dn T i n)) <= d /\ Rabs (t_w (Dn T i n) - T) <= d /\ Rabs (t_u (Dn 0 i n)) <= d /\ Rabs (t_w (Dn 0 i n)) <= d) ->
  moments_tend_to (fun i => / lam i * u i).
Proof using Hs Hg Hmass Hsteps Hgauss Hx Hlam.
  intros Hf HT He HL delta Hd.
  destruct (@PropertiesSghmcGaussian.uniform (fun i n => let D := Dn T i n in let rm := root_mass mass i in Rabs (/ lam i * (t_u D - u i)) <= delta /\ Rabs (rm / sqrt (lam i) * t_v D) <= delta /\ Rabs (rm * rm * (t_w D - T)) <= delta /\
     / lam i * t_u (Dn 0 i n) <= delta * delta /\ rm * rm * t_w (Dn 0 i n) <= delta * delta) (dim s)) as [N HN].
  { intros i Hi. destruct (root_pos Hi) as [Hr _]. set (rm := root_mass mass i) in *. pose proof (Hlam Hi) as Hl. assert (Sp : 0 < sqrt (lam i)) by now apply sqrt_lt_R0. set (sq := sqrt (lam i)) in *.
    assert (P1 : 0 < / lam i) by now apply Rinv_0_lt_compat. assert (P2 : 0 < rm / sq) by now apply Rdiv_lt_0_compat. assert (P3 : 0 < rm * rm) by now apply Rmult_lt_0_compat. assert (P4 : 0 < delta * delta) by now apply Rmult_lt_0_compat.
    set (d := Rmin (Rmin (delta / / lam i) (delta / (rm / sq))) (Rmin (delta / (rm * rm)) (Rmin (delta * delta / / lam i) (delta * delta / (rm * rm))))).
    assert (Pd : 0 < d) by (unfold d; repeat apply Rmin_glb_lt; apply Rdiv_lt_0_compat; auto).
    destruct (HL i Hi d Pd) as [N HN]. exists N. intros n Hn D. destruct (HN n Hn) as (A1 & A2 & A3 & A4 & A5).
    assert (B1 : d <= delta / / lam i) by (unfold d; eapply Rle_trans; [apply Rmin_l|apply Rmin_l]).
    assert (B2 : d <= delta / (rm / sq)) by (unfold d; eapply Rle_trans; [apply Rmin_l|apply Rmin_r]).
    assert (B3 : d <= delta / (rm * rm)) by (unfold d; eapply Rle_trans; [apply Rmin_r|apply Rmin_l]).
    assert (B4 : d <= delta * delta / / lam i) by (unfold d; eapply Rle_trans; [apply Rmin_r|]; eapply Rle_trans; [apply Rmin_r|apply Rmin_l]).
    assert (B5 : d <= delta * delta / (rm * rm)) by (unfold d; eapply Rle_trans; [apply Rmin_r|]; eapply Rle_trans; [apply Rmin_r|apply Rmin_r]).
    fold rm. cbv zeta. split; [apply scaled_small; [auto|eapply Rle_trans; [exact A1|exact B1]]|]. split; [apply scaled_small; [auto|eapply Rle_trans; [exact A2|exact B2]]|]. split; [apply scaled_small; [auto|eapply Rle_trans; [exact A3|exact B3]]|].
    split; (eapply Rle_trans; [apply Rle_abs|]; apply scaled_small; [auto|]); [eapply Rle_trans; [exact A4|exact B4]|eapply Rle_trans; [exact A5|exact B5]]. }
  exists N. intros n Hn W E normal data Hz i Hi x p. destruct (@unscaled W E normal data n Hf HT He Hz i Hi) as (U1 & U2 & U3 & U4 & U5).
  assert (Hns : (N <= n * steps)%nat) by nia. destruct (HN i (n * steps)%nat Hi Hns) as (A1 & A2 & A3 & A4 & A5).
  split; [apply sq_small; [lra|]; unfold x; rewrite U4; exact A4|]. split; [apply sq_small; [lra|]; unfold p; rewrite U5; exact A5|].
  unfold x, p. rewrite U1, U2, U3. split; [|split; [exact A2|]].
  - rewrite <- Rmult_minus_distr_l. exact A1.
  - rewrite (Rmult_comm T), <- Rmult_minus_distr_l. exact A3.
Qed.

(** step sizes that vanish with a divergent sum: mean mu, variance T / lam, independent momenta of variance T m *)
Theorem C86_vanishing_steps : 0 < friction -> 0 <= T -> (forall n, 0 < eps n) -> vanishing eps -> divergent eps -> moments_tend_to (fun i => T / lam i).
Proof using Hs Hg Hmass Hsteps Hgauss Hx Hlam.
  intros Hf HT Hp Hv Hd. pose proof (estep_vanishing Hv) as EV. pose proof (estep_divergent Hp Hd) as ED.
  assert (K : moments_tend_to (fun i => / lam i * T)).
  { apply limit_core; [lra|exact HT|intros n; left; apply Hp|]. intros i Hi d Hd0.
    assert (St : forall Tm n, Dn Tm i (S n) = hstep (freq i) friction Tm (estep n) (Dn Tm i n)) by (intros; reflexivity).
    destruct (@tri_limit (freq i) friction T (freq_pos Hi) Hf HT estep (Dn T i) (fun n => Hp _) EV ED (St T)) as (V1 & V2 & V3).
    destruct (@tri_limit (freq i) friction 0 (freq_pos Hi) Hf (Rle_refl 0) estep (Dn 0 i) (fun n => Hp _) EV ED (St 0)) as (V4 & _ & V5).
    destruct (V1 d Hd0) as [N1 H1]. destruct (V2 d Hd0) as [N2 H2]. destruct (V3 d Hd0) as [N3 H3]. destruct (V4 d Hd0) as [N4 H4]. destruct (V5 d Hd0) as [N5 H5].
    exists (N1 + N2 + N3 + N4 + N5)%nat. intros n Hn. specialize (H1 n ltac:(lia)). specialize (H2 n ltac:(lia)). specialize (H3 n ltac:(lia)). specialize (H4 n ltac:(lia)). specialize (H5 n ltac:(lia)).
    rewrite Rminus_0_r in H4, H5. auto. }
  intros delta Hdl. destruct (K delta Hdl) as [N HN]. exists N. intros n Hn W E normal data Hz i Hi. specialize (HN n Hn W E normal data Hz i Hi). cbv zeta in HN |- *. unfold Rdiv. rewrite (Rmult_comm T (/ lam i)). exact HN.
Qed.
(** a constant step size h with h^2 lam < 4 m: the variance tends to T / (lam (1 - h^2 lam / (4 m))), whatever the friction *)
Theorem C86_constant_step : forall h, (forall n, eps n = h) -> 0 < h -> 0 < friction -> 0 <= T -> (forall i, (i < dim s)%nat -> h * h * lam i < 4 * (root_mass mass i * root_mass mass i)) ->
  moments_tend_to (fun i => T / (lam i * (1 - h * h * lam i / (4 * (root_mass mass i * root_mass mass i))))).
Proof using Hs Hg Hmass Hsteps Hgauss Hx Hlam.
  intros h Hh Hp Hf HT Hst.
  assert (Kk : forall i, (i < dim s)%nat -> 0 < h * freq i / 2 < 1 /\ (h * freq i / 2) * (h * freq i / 2) = h * h * lam i / (4 * (root_mass mass i * root_mass mass i))).
  { intros i Hi. pose proof (freq_pos Hi) as Fp. destruct (root_pos Hi) as [Hr _]. specialize (Hst i Hi). pose proof (Hlam Hi) as Hl. assert (Sq : sqrt (lam i) * sqrt (lam i) = lam i) by (apply sqrt_sqrt; lra).
    assert (Q : (h * freq i / 2) * (h * freq i / 2) = h * h * lam i / (4 * (root_mass mass i * root_mass mass i))) by (rewrite <- Sq; unfold freq; field; lra).
    split; [|exact Q]. assert (P : 0 < h * freq i) by now apply Rmult_lt_0_compat. split; [lra|]. set (k := h * freq i / 2) in *. assert (k * k < 1); [|assert (0 < k) by (unfold k; lra); nra]. rewrite Q. apply (Rmult_lt_reg_r (4 * (root_mass mass i * root_mass mass i))); [nra|].
    unfold Rdiv. rewrite Rmult_assoc, Rinv_l by nra. lra. }
  assert (K : moments_tend_to (fun i => / lam i * (T / (1 - (h * freq i / 2) * (h * freq i / 2))))).
  { apply limit_core; [lra|exact HT|intros n; rewrite Hh; lra|]. intros i Hi d Hd0. destruct (Kk i Hi) as [Hk _]. set (k := h * freq i / 2) in *. set (a := exp (- (friction / 2) * h)).
    assert (Ha : 0 < a < 1). { split; [apply exp_pos|]. unfold a. rewrite <- exp_0. apply exp_increasing. assert (0 < friction * h) by now apply Rmult_lt_0_compat. lra. }
    assert (St : forall Tm n, Dn Tm i (S n) = tri_step k a ((1 - a * a) * Tm) (Dn Tm i n)). { intros Tm n. cbn [Dn]. unfold damp, estep. rewrite Hh. reflexivity. }
    destruct (@constant_limit k a T Hk Ha (Dn T i) (St T) d Hd0) as [N1 H1]. destruct (@constant_limit k a 0 Hk Ha (Dn 0 i) (St 0) d Hd0) as [N2 H2].
    exists (Nat.max N1 N2). intros n Hn. destruct (H1 n ltac:(lia)) as (A1 & A2 & A3). destruct (H2 n ltac:(lia)) as (B1 & _ & B3). unfold Rdiv in B1. rewrite Rmult_0_l, Rminus_0_r in B1. rewrite Rminus_0_r in B3. auto. }
  intros delta Hdl. destruct (K delta Hdl) as [N HN]. exists N. intros n Hn W E normal data Hz i Hi. specialize (HN n Hn W E normal data Hz i Hi). cbv zeta in HN |- *. destruct (Kk i Hi) as [Hk Q].
  replace (T / (lam i * (1 - h * h * lam i / (4 * (root_mass mass i * root_mass mass i))))) with (/ lam i * (T / (1 - (h * freq i / 2) * (h * freq i / 2)))); [exact HN|]. rewrite <- Q. pose proof (Hlam Hi). field. split; nra.
Qed.
End C86.

(** the step sizes of scheduler.polynomial_step_size *)
Theorem C86_polynomial : forall s, wfv s -> forall Data Batch Model (get_data : Data -> Data * Batch) pot_value pot_model (pot_grad : vtree -> Batch -> Model -> vtree), (forall t b m, like s t -> like s (pot_grad t b m)) ->
  forall steps friction mass T, (0 < steps)%nat -> (match mass with Some m => like s m /\ forall i, (i < dim s)%nat -> 0 < el m i | None => True end) ->
  forall x0 model0 key0, like s x0 -> forall lam mu : nat -> R,
  (forall t b m i, like s t -> (i < dim s)%nat -> el (pot_grad t b m) i = lam i * (el t i - mu i)) -> (forall i, (i < dim s)%nat -> 0 < lam i) -> 0 < friction -> 0 <= T ->
  forall a b g, 0 < a -> 0 < b -> 0 < g <= 1 -> let eps := fun n : nat => a * Rpower (b + INR n) (- g) in
  forall delta, 0 < delta -> exists N, forall n, (N <= n)%nat -> forall W (E : (W -> R) -> R) normal data, standard_noise s steps key0 E normal n -> forall i, (i < dim s)%nat ->
    let x := fun w => el (o_pos (at_ get_data pot_value pot_model pot_grad steps friction mass T x0 model0 key0 eps normal data n w)) i in
    Rabs (E x - mu i) <= delta /\ Rabs (E (fun w => (x w - mu i) * (x w - mu i)) - T / lam i) <= delta.
Proof.
  intros s Hs Data Batch Model get_data pv pm pg Hg steps friction mass T Hsteps Hm x0 model0 key0 Hx lam mu Hga Hl Hf HT a b g Ha Hb Hgm eps delta Hd.
  destruct (@C86_vanishing_steps s Hs Data Batch Model get_data pv pm pg Hg steps friction mass T Hsteps Hm x0 model0 key0 Hx eps lam mu Hga Hl Hf HT (poly_pos b g Ha) (poly_vanishing Ha Hb Hgm) (poly_divergent Ha Hb Hgm) delta Hd) as [N HN].
  exists N. intros n Hn W E normal data Hz i Hi. destruct (HN n Hn W E normal data Hz i Hi) as (A1 & _ & A2 & _). auto.
Qed.

(** the hypotheses can be met: two coins are the noise of one integration with one inner step; a potential with lam = 2 and mu = 1 *)
Example C86_nonvacuous :
  let Wt := (bool * bool)%type in
  let avg := fun f : bool -> R => (f true + f false) / 2 in
  let E := fun X : Wt -> R => avg (fun a => avg (fun b => X (a, b))) in
  let sign := fun b : bool => if b then 1 else -1 in
  let s := Leaf (mkArr [] [0]) in
  let normal := fun (w : Wt) (k : key) (sh : list nat) => let '(a, b) := w in repeat (match k with Sub (Sub _ 1) _ => sign a | _ => sign b end) (size sh) in
  standard_noise s 1 (PRNGKey 0) E normal 1 /\ wfv s /\ like s (Leaf (mkArr [] [3])) /\
  (forall t (b m : unit), like s t -> like s (emap (fun x => 2 * (x - 1)) t)) /\ forall t (b m : unit) i, like s t -> (i < dim s)%nat -> el (emap (fun x => 2 * (x - 1)) t) i = 2 * (el t i - 1).
Proof.
  intros Wt avg E sign s normal. split; [|split; [|split; [|split]]].
  - split; [split; [intros X Y HXY; unfold E, avg; now rewrite !HXY|split; intros; unfold E, avg; field]|]. split; [unfold E, avg; field|].
    split; [intros [a b] k sh; apply repeat_length|]. intros i Hi. assert (i = O) by (unfold dim in Hi; cbn in Hi; lia). subst i. clear Hi.
    split; [intros t Ht|intros t u Ht Hu; assert (Hu' : (u = 0 \/ u = 1)%nat) by lia]; assert (Ht' : (t = 0 \/ t = 1)%nat) by lia; clear Ht; [|clear Hu; destruct Hu' as [-> | ->]]; destruct Ht' as [-> | ->]; unfold E, avg, noise, xi, sign; cbn; unfold el; cbn; field.
  - constructor; [reflexivity|constructor].
  - split; [constructor; [reflexivity|constructor]|]. split; reflexivity.
  - intros t b m H. now apply like_emap.
  - intros t b m i H Hi. apply (el_emap (s := s)); auto. constructor; [reflexivity|constructor].
Qed.
Print Assumptions C86_vanishing_steps. Print Assumptions C86_constant_step. Print Assumptions C86_polynomial. Print Assumptions C86_nonvacuous.
