(** C96: averages of the positions of OBABO (integrator.obabo) on a Gaussian posterior.
    Reading guide: as in C86 (PropertiesObaboGaussian.v); [at_ n w] is the state after n integrations for the random numbers w; [mean_position b n w i] averages coordinate i of the positions after the integrations b + 1, ..., b + n (b is the burn in). *)
From Coq Require Import Reals Lra Lia Psatz.
From Verif Require Import Base ListUtil Pytree PytreeSpec Io TreeUtil TreeUtilSpec TreeUtilProofs Integrator IntegratorSpec IntegratorBasics ObaboProofs ExpectSpec ExpectProofs GaussianLimit SghmcGaussian ObaboGaussian AliasHmc RiemannProofs ObaboAverageProofs ObaboAverageVary PropertiesObaboGaussian.
From Verif Require Import MinibatchSpec PropertiesMinibatchGaussian.
From Verif Require PropertiesAverages PropertiesSecondMoment.
Open Scope R_scope.
Set Implicit Arguments.

(** average of coordinate i of the positions after the integrations b + 1, ..., b + n *)
Definition mean_position {Data Batch Model} (get_data : Data -> Data * Batch) pot_value pot_model (pot_grad : vtree -> Batch -> Model -> vtree) steps friction mass T x0 (model0 : Model) key0 eps
  {W} (normal : W -> key -> list nat -> list R) (data : W -> Data) (b n : nat) (w : W) (i : nat) : R :=
  / INR n * sum_upto n (fun k => el (o_pos (at_ get_data pot_value pot_model pot_grad steps friction mass T x0 model0 key0 eps normal data (S (b + k)) w)) i).

Section C96.
Variable s : vtree.
Hypothesis Hs : wfv s.
Variables (Data Batch Model : Type).
Variable get_data : Data -> Data * Batch.
Variable pot_value : vtree -> Batch -> Model -> R.
Variable pot_model : vtree -> Batch -> Model -> Model.
Variable pot_grad : vtree -> Batch -> Model -> vtree.
Hypothesis Hg : forall t b m, like s t -> like s (pot_grad t b m).
Variables (steps : nat) (friction : R) (mass : option vtree) (T : R).
Hypothesis Hsteps : (0 < steps)%nat.
Hypothesis Hmass : match mass with Some m => like s m /\ forall i, (i < dim s)%nat -> 0 < el m i | None => True end.
Variables (x0 : vtree) (model0 : Model) (key0 : key).
Hypothesis Hx : like s x0.
Variables (lam mu : nat -> R).
Hypothesis Hgauss : forall t b m i, like s t -> (i < dim s)%nat -> el (pot_grad t b m) i = lam i * (el t i - mu i).
Hypothesis Hlam : forall i, (i < dim s)%nat -> 0 < lam i.
Variable h : R.
Notation eps := (fun _ : nat => h).
Notation state := (at_ get_data pot_value pot_model pot_grad steps friction mass T x0 model0 key0 eps).
Notation noise := (noise s key0).
Notation mean_position := (mean_position get_data pot_value pot_model pot_grad steps friction mass T x0 model0 key0 eps).

Section Coordinate.
Hypothesis Hh : 0 < h.
Hypothesis Hf : 0 < friction.
Hypothesis HT : 0 <= T.
Hypothesis Hst : forall i, (i < dim s)%nat -> h * h * lam i < 4 * (root_mass mass i * root_mass mass i).
Variable i : nat.
Hypothesis Hi : (i < dim s)%nat.
Notation Y normal data := (sY get_data pot_value pot_model pot_grad steps friction mass T x0 model0 key0 eps lam mu normal data i).
Notation Q normal data := (sQ get_data pot_value pot_model pot_grad steps friction mass T x0 model0 key0 eps normal data i).
Notation k := (h * freq mass lam i / 2).
Notation a := (exp (- (friction / 2) * h)).
Notation bb := (sqrt ((1 - exp (- friction * h)) * T)).
Lemma k_range : 0 < k < 1.
Proof using Hmass Hlam Hh Hst Hi.
  pose proof (@freq_pos s mass Hmass lam Hlam i Hi) as Fp. destruct (@root_pos s mass Hmass i Hi) as [Hr _]. pose proof (Hst Hi) as St. pose proof (Hlam Hi) as Hl. assert (Sq : sqrt (lam i) * sqrt (lam i) = lam i) by (apply sqrt_sqrt; lra).
  assert (Q2 : k * k = h * h * lam i / (4 * (root_mass mass i * root_mass mass i))) by (rewrite <- Sq; unfold freq; field; lra).
  assert (P : 0 < h * freq mass lam i) by now apply Rmult_lt_0_compat. split; [lra|]. set (kk := k) in *. assert (kk * kk < 1); [|assert (0 < kk) by (unfold kk; lra); nra]. rewrite Q2. apply (Rmult_lt_reg_r (4 * (root_mass mass i * root_mass mass i))); [nra|].
  unfold Rdiv. rewrite Rmult_assoc, Rinv_l by nra. lra.
Qed.
Lemma a_range : 0 < a < 1.
Proof using Hh Hf. split; [apply exp_pos|]. rewrite <- exp_0. apply exp_increasing. assert (0 < friction * h) by now apply Rmult_lt_0_compat. lra. Qed.
Lemma sqrt_a : sqrt (exp (- friction * h)) = a.
Proof using Type. replace (- friction * h) with (- (friction / 2) * h + - (friction / 2) * h) by field. rewrite exp_plus. apply sqrt_square. left. apply exp_pos. Qed.
Lemma run_follows W (normal : W -> key -> list nat -> list R) data : (forall w, normal_ok (normal w)) -> follows k a bb (fun t w => noise normal t w i) (Y normal data) (Q normal data).
Proof using Hs Hg Hmass Hsteps Hgauss Hx Hlam Hi.
  clear Hst Hf HT Hh. intros Hn t w. pose proof (@inner_scaled s Hs Data Batch Model get_data pot_value pot_model pot_grad Hg steps friction mass T Hsteps Hmass x0 model0 key0 Hx eps lam mu Hgauss Hlam (normal w) (Hn w) (data w) t i Hi) as G. cbv zeta beta in G.
  rewrite sqrt_a in G.
  assert (N0 : noise normal (2 * t) w i = xi (normal w) (Sub (chain key0 t) 1) s i). { unfold PropertiesObaboGaussian.noise. replace (2 * t / 2)%nat with t by (symmetry; rewrite Nat.mul_comm; apply Nat.div_mul; lia). replace ((2 * t) mod 2)%nat with 0%nat by (symmetry; rewrite Nat.mul_comm; apply Nat.mod_mul; lia). reflexivity. }
  assert (N1 : noise normal (S (2 * t)) w i = xi (normal w) (Sub (chain key0 t) 2) s i).
  { unfold PropertiesObaboGaussian.noise. replace (S (2 * t) / 2)%nat with t by (apply (Nat.div_unique (S (2 * t)) 2 t 1); lia). replace (S (2 * t) mod 2)%nat with 1%nat by (apply (Nat.mod_unique (S (2 * t)) 2 t 1); lia). reflexivity. }
  rewrite N0, N1. exact G.
Qed.
Lemma coordinate_bound : exists K, 0 <= K /\ forall b n, (0 < n)%nat -> forall W (E : (W -> R) -> R) normal data, standard_noise s steps key0 E normal (b + n) ->
  E (fun w => (mean_position normal data b n w i - mu i) * (mean_position normal data b n w i - mu i)) <= K / INR n.
Proof using Hs Hg Hmass Hsteps Hgauss Hx Hlam Hh Hf HT Hst Hi.
  pose proof k_range as Kr. pose proof a_range as Ar. pose proof (Hlam Hi) as Hl. assert (Sp : 0 < sqrt (lam i)) by now apply sqrt_lt_R0. assert (Sq : sqrt (lam i) * sqrt (lam i) = lam i) by (apply sqrt_sqrt; lra).
  destruct (block_sum_after bb Kr Ar Hsteps) as (al & be & d & BS).
  destruct (@dist2_bounded k a T (@Dn steps friction mass x0 eps lam mu T i) Kr Ar) as (B & PB & HB); [intros n; cbn [Dn]; reflexivity|].
  set (D := sum_upto (2 * steps) (fun j => d j * d j)). assert (PD : 0 <= D) by apply sum_sq_nonneg.
  set (G := 2 * (al * al) * B + 2 * (be * be) * B). pose proof (Rle_0_sqr al) as Qa. pose proof (Rle_0_sqr be) as Qb. unfold Rsqr in Qa, Qb.
  assert (PG : 0 <= G) by (unfold G; apply Rplus_le_le_0_compat; apply Rmult_le_pos; lra).
  exists (/ lam i * (3 * (G + G + D))). split; [apply Rmult_le_pos; [left; now apply Rinv_0_lt_compat|lra]|].
  intros m n Hn0 W E normal data Hz. pose proof Hz as (HE & H1 & Hnk & HZ). destruct (HZ i Hi) as [Z1 Z2]. set (z := fun t w => noise normal t w i). set (y := Y normal data). set (q := Q normal data).
  pose proof (@sq_moments s Hs Data Batch Model get_data pot_value pot_model pot_grad Hg steps friction mass T Hsteps Hmass x0 model0 key0 Hx eps lam mu Hgauss Hlam W E normal data (m + n)%nat ltac:(lra) HT ltac:(intros; lra) Hz i Hi) as SM. cbv zeta in SM. fold y q in SM. change (fun t w => noise normal t w i) with z in SM.
  pose proof (BS W z y q (@run_follows W normal data Hnk)) as Sum.
  assert (Hin : 1 <= INR n) by (replace 1 with (INR 1) by reflexivity; apply le_INR; lia).
  set (X := fun w => al * y (m * steps)%nat w + be * q (m * steps)%nat w). set (V := fun w => al * y ((m + n) * steps)%nat w + be * q ((m + n) * steps)%nat w). set (U := fun w => sum_upto (n * (2 * steps)) (fun t => d (t mod (2 * steps))%nat * z (m * (2 * steps) + t)%nat w)).
  assert (MY : forall w, mean_position normal data m n w i - mu i = / (INR n * sqrt (lam i)) * sum_upto n (fun j => y (S (m + j) * steps)%nat w)).
  { intros w. unfold PropertiesObaboAverage.mean_position. rewrite (@sum_upto_ext n (fun j => y (S (m + j) * steps)%nat w) (fun j => sqrt (lam i) * (el (o_pos (state normal data (S (m + j)) w)) i + - mu i))).
    - rewrite (@sum_upto_scale n (sqrt (lam i)) (fun j => el (o_pos (state normal data (S (m + j)) w)) i + - mu i)), (@sum_upto_plus n (fun j => el (o_pos (state normal data (S (m + j)) w)) i) (fun _ => - mu i)), sum_upto_const. field. split; lra.
    - intros j _. unfold y, sY. rewrite inner_run by exact Hsteps. reflexivity. }
  rewrite (proj1 HE _ (fun w => (/ (INR n * INR n * lam i)) * ((X w - V w + U w) * (X w - V w + U w)))).
  2: { intros w. rewrite MY, Sum. fold (X w) (V w) (U w). clear - Sq Sp Hin. set (sq := sqrt (lam i)) in *. rewrite <- Sq. field. split; lra. }
  destruct HE as (EX & EP & ES) eqn:EHE. rewrite ES. clear EHE.
  set (M := (2 * ((m + n) * steps))%nat) in *.
  destruct (SM (m * steps)%nat ltac:(nia)) as (LY0 & LQ0 & M0 & _). destruct (SM ((m + n) * steps)%nat (le_n _)) as (LYn & LQn & Mn & _).
  assert (LYm : lin z M (y (m * steps)%nat)) by (apply (@lin_le W z (2 * (m * steps))); [assumption|unfold M; nia]). assert (LQm : lin z M (q (m * steps)%nat)) by (apply (@lin_le W z (2 * (m * steps))); [assumption|unfold M; nia]).
  assert (LX : lin z M X) by now apply lin_comb.
  assert (LV : lin z M V) by now apply lin_comb.
  set (z' := fun t => z (m * (2 * steps) + t)%nat).
  assert (LU : lin z M U).
  { exists 0, (fun t => if (t <? m * (2 * steps))%nat then 0 else d ((t - m * (2 * steps)) mod (2 * steps))%nat). intros w. unfold U, comb. replace M with (m * (2 * steps) + n * (2 * steps))%nat by (unfold M; lia). rewrite sum_upto_app.
    rewrite (@sum_upto_zero (m * (2 * steps))); [|intros t Ht; destruct (Nat.ltb_spec t (m * (2 * steps))); [ring|lia]]. rewrite !Rplus_0_l. apply sum_upto_ext. intros t Ht. destruct (Nat.ltb_spec (m * (2 * steps) + t) (m * (2 * steps))); [lia|]. do 3 f_equal. lia. }
  pose proof (@three_squares W E z M HE H1 Z1 Z2 X V U M LX LV LU (le_n _)) as T3.
  assert (BX : E (fun w => X w * X w) <= G).
  { unfold X. eapply Rle_trans; [apply (@two_squares W E z M HE H1 Z1 Z2 (y (m * steps)%nat) (q (m * steps)%nat) al be M); [exact LYm|exact LQm|lia]|].
    destruct (HB (m * steps)%nat) as [B1 B2]. rewrite <- M0 in B1, B2. unfold moments2 in B1, B2. cbn [t_u t_w] in B1, B2. unfold G. apply Rplus_le_compat; apply Rmult_le_compat_l; lra. }
  assert (BV : E (fun w => V w * V w) <= G).
  { unfold V. eapply Rle_trans; [apply (@two_squares W E z M HE H1 Z1 Z2 (y ((m + n) * steps)%nat) (q ((m + n) * steps)%nat) al be M); [exact LYn|exact LQn|lia]|].
    destruct (HB ((m + n) * steps)%nat) as [B1 B2]. rewrite <- Mn in B1, B2. unfold moments2 in B1, B2. cbn [t_u t_w] in B1, B2. unfold G. apply Rplus_le_compat; apply Rmult_le_compat_l; lra. }
  assert (BU : E (fun w => U w * U w) = INR n * D).
  { apply (@noise_sum W E z' (n * (2 * steps)) HE H1) with (q := (2 * steps)%nat); [| |lia|lia].
    - intros t Ht. apply Z1. unfold M. lia.
    - intros t u Ht Hu. transitivity (if (m * (2 * steps) + t =? m * (2 * steps) + u)%nat then 1 else 0); [apply (Z2 (m * (2 * steps) + t)%nat (m * (2 * steps) + u)%nat); unfold M; lia|]. destruct (Nat.eqb_spec t u), (Nat.eqb_spec (m * (2 * steps) + t) (m * (2 * steps) + u)); auto; lia. }
  rewrite BU in T3.
  assert (Fin : E (fun w => (X w - V w + U w) * (X w - V w + U w)) <= INR n * (3 * (G + G + D))).
  { eapply Rle_trans; [exact T3|]. assert (G <= INR n * G) by (rewrite <- (Rmult_1_l G) at 1; apply Rmult_le_compat_r; lra). lra. }
  replace (/ lam i * (3 * (G + G + D)) / INR n) with (/ (INR n * INR n * lam i) * (INR n * (3 * (G + G + D)))) by (field; lra).
  apply Rmult_le_compat_l; [|exact Fin]. left. apply Rinv_0_lt_compat. repeat apply Rmult_lt_0_compat; lra.
Qed.
End Coordinate.

(** the mean squared error of the averages is at most K / n, with the same K for all coordinates, random numbers, burn ins and numbers of integrations *)
Theorem C96_mean_error : 0 < h -> 0 < friction -> 0 <= T -> (forall i, (i < dim s)%nat -> h * h * lam i < 4 * (root_mass mass i * root_mass mass i)) ->
  exists K, 0 <= K /\ forall b n, (0 < n)%nat -> forall W (E : (W -> R) -> R) normal data, standard_noise s steps key0 E normal (b + n) -> forall i, (i < dim s)%nat ->
    E (fun w => (mean_position normal data b n w i - mu i) * (mean_position normal data b n w i - mu i)) <= K / INR n.
Proof using Hs Hg Hmass Hsteps Hgauss Hx Hlam.
  intros Hh Hf HT Hst.
  assert (A : forall m, (m <= dim s)%nat -> exists K, 0 <= K /\ forall b n, (0 < n)%nat -> forall W (E : (W -> R) -> R) normal data, standard_noise s steps key0 E normal (b + n) -> forall i, (i < m)%nat ->
    E (fun w => (mean_position normal data b n w i - mu i) * (mean_position normal data b n w i - mu i)) <= K / INR n).
  { induction m as [|m IH]; intros Hm; [exists 0; split; [lra|]; intros; lia|]. destruct IH as (K & PK & HK); [lia|]. destruct (@coordinate_bound Hh Hf HT Hst m ltac:(lia)) as (K2 & PK2 & HK2).
    exists (K + K2). split; [lra|]. intros b n Hn W E normal data Hz i Hi. assert (P : 0 < / INR n) by (apply Rinv_0_lt_compat, lt_0_INR, Hn). unfold Rdiv. rewrite Rmult_plus_distr_r.
    destruct (Nat.eq_dec i m) as [-> |Ne].
    - specialize (HK2 b n Hn W E normal data Hz). unfold Rdiv in HK2. assert (0 <= K * / INR n) by (apply Rmult_le_pos; lra). lra.
    - specialize (HK b n Hn W E normal data Hz i ltac:(lia)). unfold Rdiv in HK. assert (0 <= K2 * / INR n) by (apply Rmult_le_pos; lra). lra. }
  exact (A (dim s) (le_n _)).
Qed.
(** hence the averages converge in mean square to the posterior mean *)
Theorem C96_mean_limit : 0 < h -> 0 < friction -> 0 <= T -> (forall i, (i < dim s)%nat -> h * h * lam i < 4 * (root_mass mass i * root_mass mass i)) ->
  forall delta, 0 < delta -> exists N, forall b n, (N <= n)%nat -> forall W (E : (W -> R) -> R) normal data, standard_noise s steps key0 E normal (b + n) -> forall i, (i < dim s)%nat ->
    E (fun w => (mean_position normal data b n w i - mu i) * (mean_position normal data b n w i - mu i)) <= delta.
Proof using Hs Hg Hmass Hsteps Hgauss Hx Hlam.
  intros Hh Hf HT Hst delta Hd. destruct (C96_mean_error Hh Hf HT Hst) as (K & PK & HK). destruct (INR_unbounded (K / delta)) as [N HN].
  exists (S N). intros b n Hn W E normal data Hz i Hi. eapply Rle_trans; [apply (HK b n ltac:(lia) W E normal data Hz i Hi)|].
  assert (P : INR N <= INR n) by (apply le_INR; lia). assert (Pn : 0 < INR n) by (apply lt_0_INR; lia). apply (Rmult_le_reg_r (INR n)); [exact Pn|]. unfold Rdiv. rewrite Rmult_assoc, Rinv_l, Rmult_1_r by lra.
  assert (Q : K / delta <= INR n) by lra. apply (Rmult_le_compat_r delta) in Q; [|lra]. unfold Rdiv in Q. rewrite Rmult_assoc, Rinv_l, Rmult_1_r in Q by lra. lra.
Qed.
End C96.

Section Vanishing.
Variable s : vtree.
Hypothesis Hs : wfv s.
Variables (Data Batch Model : Type).
Variable get_data : Data -> Data * Batch.
Variable pot_value : vtree -> Batch -> Model -> R.
Variable pot_model : vtree -> Batch -> Model -> Model.
Variable pot_grad : vtree -> Batch -> Model -> vtree.
Hypothesis Hg : forall t b m, like s t -> like s (pot_grad t b m).
Variables (steps : nat) (friction : R) (mass : option vtree) (T : R).
Hypothesis Hsteps : (0 < steps)%nat.
Hypothesis Hmass : match mass with Some m => like s m /\ forall i, (i < dim s)%nat -> 0 < el m i | None => True end.
Variables (x0 : vtree) (model0 : Model) (key0 : key).
Hypothesis Hx : like s x0.
Variables (lam mu : nat -> R).
Hypothesis Hgauss : forall t b m i, like s t -> (i < dim s)%nat -> el (pot_grad t b m) i = lam i * (el t i - mu i).
Hypothesis Hlam : forall i, (i < dim s)%nat -> 0 < lam i.
Variable eps : nat -> R.
Notation state := (at_ get_data pot_value pot_model pot_grad steps friction mass T x0 model0 key0 eps).
Notation noise := (noise s key0).
Notation mean_position := (mean_position get_data pot_value pot_model pot_grad steps friction mass T x0 model0 key0 eps).
Hypothesis Hf : 0 < friction.
Hypothesis HT : 0 <= T.
Hypothesis Hp : forall n, 0 < eps n.
Hypothesis Hdec : forall n, eps (S n) <= eps n.
Hypothesis Hv : vanishing eps.
Hypothesis Hgrow : forall A, exists n0, forall n, (n0 <= n)%nat -> A <= INR n * eps n.

Lemma eps_le n m : (n <= m)%nat -> eps m <= eps n.
Proof. induction 1 as [|m H IH]; [lra|]. specialize (Hdec m). lra. Qed.
Lemma eps_divergent : divergent eps.
Proof.
  intros A. destruct (Hgrow A) as [N HN]. exists N. intros n Hn. eapply Rle_trans; [apply (HN n Hn)|]. clear Hn. assert (G : forall m, (m <= n)%nat -> INR m * eps n <= sum_upto m eps); [|apply (G n (le_n _))].
  induction m as [|m IH]; intros Hm; [unfold sum_upto; cbn; lra|]. rewrite sum_upto_S, S_INR. specialize (IH ltac:(lia)). pose proof (@eps_le m n ltac:(lia)). lra.
Qed.
Lemma mean_vanishes q : 0 < q -> exists n0, forall n, (n0 <= n)%nat -> sum_upto n eps <= q * INR n.
Proof.
  intros Hq. destruct (Hv (d := q / 2) ltac:(lra)) as [N HN]. destruct (INR_unbounded (sum_upto N eps / (q / 2))) as [M HM]. exists (N + M)%nat. intros n Hn.
  replace n with (N + (n - N))%nat by lia. rewrite sum_upto_app. assert (A : sum_upto (n - N) (fun i => eps (N + i)%nat) <= INR (n - N) * (q / 2)) by (rewrite <- sum_upto_const; apply GaussianMatrix.sum_upto_le; intros j _; apply HN; lia).
  assert (B : INR M <= INR (N + (n - N))) by (apply le_INR; lia). assert (C : INR (n - N) <= INR (N + (n - N))) by (apply le_INR; lia). set (x := INR (N + (n - N))) in *.
  assert (Dd : sum_upto N eps / (q / 2) <= x) by lra. apply (Rmult_le_compat_r (q / 2)) in Dd; [|lra]. unfold Rdiv at 1 in Dd. rewrite Rmult_assoc, Rinv_l, Rmult_1_r in Dd by lra. assert (INR (n - N) * (q / 2) <= x * (q / 2)) by (apply Rmult_le_compat_r; lra). lra.
Qed.
Notation kk i t := (estep steps eps t * freq mass lam i / 2).
Notation aa t := (damp steps friction eps t).
Notation bb t := (sqrt ((1 - exp (- friction * eps (t / steps))) * T)).
Lemma estep_dec t : estep steps eps (S t) <= estep steps eps t.
Proof. unfold estep. apply eps_le. apply Nat.div_le_mono; lia. Qed.

Section Coordinate.
Variable i : nat.
Hypothesis Hi : (i < dim s)%nat.
Notation Y normal data := (sY get_data pot_value pot_model pot_grad steps friction mass T x0 model0 key0 eps lam mu normal data i).
Notation Q normal data := (sQ get_data pot_value pot_model pot_grad steps friction mass T x0 model0 key0 eps normal data i).
Lemma run_follows_vary W (normal : W -> key -> list nat -> list R) data : (forall w, normal_ok (normal w)) -> follows_vary (fun t => kk i t) (fun t => aa t) (fun t => bb t) (fun t w => noise normal t w i) (Y normal data) (Q normal data).
Proof.
  clear Hf HT Hp Hdec Hv Hgrow. intros Hn t w. pose proof (@inner_scaled s Hs Data Batch Model get_data pot_value pot_model pot_grad Hg steps friction mass T Hsteps Hmass x0 model0 key0 Hx eps lam mu Hgauss Hlam (normal w) (Hn w) (data w) t i Hi) as G. cbv zeta beta in G.
  rewrite damp_sqrt in G.
  assert (N0 : noise normal (2 * t) w i = xi (normal w) (Sub (chain key0 t) 1) s i). { unfold PropertiesObaboGaussian.noise. replace (2 * t / 2)%nat with t by (symmetry; rewrite Nat.mul_comm; apply Nat.div_mul; lia). replace ((2 * t) mod 2)%nat with 0%nat by (symmetry; rewrite Nat.mul_comm; apply Nat.mod_mul; lia). reflexivity. }
  assert (N1 : noise normal (S (2 * t)) w i = xi (normal w) (Sub (chain key0 t) 2) s i).
  { unfold PropertiesObaboGaussian.noise. replace (S (2 * t) / 2)%nat with t by (apply (Nat.div_unique (S (2 * t)) 2 t 1); lia). replace (S (2 * t) mod 2)%nat with 1%nat by (apply (Nat.mod_unique (S (2 * t)) 2 t 1); lia). reflexivity. }
  rewrite N0, N1. exact G.
Qed.
Lemma moments_bounded_vary : exists B, 0 <= B /\ forall t, t_u (Dn steps friction mass x0 eps lam mu T i t) <= B * B /\ t_w (Dn steps friction mass x0 eps lam mu T i t) <= B * B.
Proof.
  pose proof (@freq_pos s mass Hmass lam Hlam i Hi) as Fp.
  destruct (@tri_limit (freq mass lam i) friction T Fp Hf HT (estep steps eps) (Dn steps friction mass x0 eps lam mu T i) (fun n => Hp _) (estep_vanishing Hsteps Hv) (estep_divergent Hsteps Hp eps_divergent) (fun n => eq_refl)) as (V1 & _ & V3).
  destruct (V1 1 Rlt_0_1) as [N1 H1]. destruct (V3 1 Rlt_0_1) as [N3 H3].
  destruct (@PropertiesSecondMoment.eventually_bounded (fun t => t_u (Dn steps friction mass x0 eps lam mu T i t)) N1 (T + 1)) as [Z1 HZ1]; [intros n Hn; specialize (H1 n Hn); pose proof (Rle_abs (t_u (Dn steps friction mass x0 eps lam mu T i n) - T)); lra|].
  destruct (@PropertiesSecondMoment.eventually_bounded (fun t => t_w (Dn steps friction mass x0 eps lam mu T i t)) N3 (T + 1)) as [Z3 HZ3]; [intros n Hn; specialize (H3 n Hn); pose proof (Rle_abs (t_w (Dn steps friction mass x0 eps lam mu T i n) - T)); lra|].
  exists (1 + Rabs Z1 + Rabs Z3). pose proof (Rabs_pos Z1). pose proof (Rabs_pos Z3). pose proof (Rle_abs Z1). pose proof (Rle_abs Z3). split; [lra|]. set (B := 1 + Rabs Z1 + Rabs Z3) in *.
  assert (B <= B * B) by (rewrite <- (Rmult_1_l B) at 1; apply Rmult_le_compat_r; unfold B; lra). intros t. specialize (HZ1 t). specialize (HZ3 t). cbv beta in HZ1, HZ3. unfold B in *. lra.
Qed.
(** bound on the sum of the scaled positions *)
Lemma sum_bound : exists c1 c3 c4, 0 <= c1 /\ 0 <= c3 /\ 0 <= c4 /\ forall b n W (E : (W -> R) -> R) normal data, standard_noise s steps key0 E normal (b + S n) ->
  L2 E (fun t w => noise normal t w i) (2 * ((b + S n) * steps)) (fun w => sum_upto (S n) (fun j => Y normal data (S (b + j) * steps)%nat w))
    (c1 / eps (b + n)%nat + sqrt (INR (b + S n) * (c3 / eps (b + n)%nat)) + c4 * sum_upto (b + S n) eps + INR b * c1).
Proof.
  pose proof (@freq_pos s mass Hmass lam Hlam i Hi) as Fp. destruct moments_bounded_vary as (B & PB & HB). set (F := freq mass lam i) in *.
  assert (Pst : 0 < INR steps) by (apply lt_0_INR; exact Hsteps). assert (FF : 0 < F * F) by (now apply Rmult_lt_0_compat).
  set (kap := eps 0%nat * F / 2). assert (Pkap : 0 < kap) by (unfold kap; assert (0 < eps 0%nat * F) by (apply Rmult_lt_0_compat; auto); lra). set (be := sqrt T). assert (Pbe : 0 <= be) by apply sqrt_pos.
  set (G := INR steps * (2 * ((1 + kap) * B + be)) * (F / 2)). assert (PG : 0 <= G). { unfold G. assert (0 <= (1 + kap) * B) by (apply Rmult_le_pos; lra). apply Rmult_le_pos; [apply Rmult_le_pos; lra|lra]. }
  set (C1 := / INR steps * (2 * (2 * friction / (F * F) + eps 0%nat) * B + 2 * (2 / F) * B)).
  assert (PC1 : 0 <= C1). { unfold C1. assert (0 < 2 * friction / (F * F)) by (apply Rdiv_lt_0_compat; lra). assert (0 < 2 / F) by (apply Rdiv_lt_0_compat; lra). specialize (Hp 0%nat). apply Rmult_le_pos; [left; now apply Rinv_0_lt_compat|]. apply Rplus_le_le_0_compat; apply Rmult_le_pos; lra. }
  set (C3 := / INR steps * (4 * friction * T / (F * F))). assert (PC3 : 0 <= C3). { unfold C3, Rdiv. apply Rmult_le_pos; [left; now apply Rinv_0_lt_compat|]. apply Rmult_le_pos; [apply Rmult_le_pos; lra|left; now apply Rinv_0_lt_compat]. }
  exists (C1 + B), C3, G. split; [lra|]. split; [exact PC3|]. split; [exact PG|]. intros b n W E normal data Hz. pose proof Hz as (HE & H1 & Hnk & HZ). destruct (HZ i Hi) as [Z1 Z2].
  set (z := fun t w => noise normal t w i) in *. set (y := Y normal data). set (q := Q normal data). set (M := (2 * ((b + S n) * steps))%nat) in *. replace (b + S n)%nat with (S (b + n)) in * by lia. set (nn := (b + n)%nat) in *.
  pose proof (@sq_moments s Hs Data Batch Model get_data pot_value pot_model pot_grad Hg steps friction mass T Hsteps Hmass x0 model0 key0 Hx eps lam mu Hgauss Hlam W E normal data (S nn) ltac:(lra) HT ltac:(intros; left; apply Hp) Hz i Hi) as SM. cbv zeta in SM. fold y q in SM. change (fun t w => noise normal t w i) with z in SM.
  assert (LY : forall t, (t <= S nn * steps)%nat -> L2 E z M (y t) B).
  { intros t Ht. destruct (SM t Ht) as (A1 & _ & A2 & _). split; [apply (@lin_le W z (2 * t)); [exact A1|unfold M; lia]|]. split; [exact PB|]. destruct (HB t) as [B1 _]. rewrite <- A2 in B1. exact B1. }
  assert (LQ : forall t, (t <= S nn * steps)%nat -> L2 E z M (q t) B).
  { intros t Ht. destruct (SM t Ht) as (_ & A1 & A2 & _). split; [apply (@lin_le W z (2 * t)); [exact A1|unfold M; lia]|]. split; [exact PB|]. destruct (HB t) as [_ B1]. rewrite <- A2 in B1. exact B1. }
  assert (Lt : forall t, (t < S nn * steps)%nat -> (t / steps <= nn)%nat) by (intros t Ht; assert ((t / steps < S nn)%nat) by (apply Nat.div_lt_upper_bound; lia); lia).
  set (V := 4 * friction * T / (F * F) / eps nn).
  pose proof (@outer_sum W E z M HE H1 Z1 Z2 (fun t => kk i t) (fun t => aa t) (fun t => bb t) y q steps nn B be V kap Hsteps (@run_follows_vary W normal data Hnk)) as OS.
  assert (El : ((S nn * steps - 1) / steps = nn)%nat) by (symmetry; apply (Nat.div_unique (S nn * steps - 1) steps nn (steps - 1)); lia).
  assert (R1 : L2 E z M (fun w => sum_upto (S nn) (fun j => y (S j * steps)%nat w)) (C1 / eps nn + sqrt (INR (S nn) * (C3 / eps nn)) + G * sum_upto (S nn) eps)).
  { eapply L2_weaken; [apply OS|]; clear OS.
    - unfold M. lia.
    - intros t. unfold estep. pose proof (Hp (t / steps)%nat). pose proof (@eps_le 0 (t / steps)%nat (Nat.le_0_l _)). fold F. split; [apply Rdiv_lt_0_compat; [now apply Rmult_lt_0_compat|lra]|]. unfold kap. assert (eps (t / steps)%nat * F <= eps 0%nat * F) by (apply Rmult_le_compat_r; lra). lra.
    - intros u j Hj. unfold estep. rewrite Nat.div_mul by lia. replace ((u * steps + j) / steps)%nat with u by (apply (Nat.div_unique (u * steps + j) steps u j); lia). reflexivity.
    - intros t. unfold damp. split; [left; apply exp_pos|]. rewrite <- exp_0. left. apply exp_increasing. unfold estep. pose proof (Hp (t / steps)%nat). assert (0 < friction * eps (t / steps)%nat) by (now apply Rmult_lt_0_compat). lra.
    - intros t. split; [apply sqrt_pos|]. apply sqrt_le_1_alt. pose proof (exp_pos (- friction * eps (t / steps)%nat)). rewrite <- (Rmult_1_l T) at 2. apply Rmult_le_compat_r; lra.
    - exact LY.
    - exact LQ.
    - intros t. pose proof (estep_dec t) as Ed. exact (proj1 (@weights_monotone F friction Fp Hf (estep steps eps (S t)) (estep steps eps t) (conj (Hp _) Ed))).
    - intros t. pose proof (estep_dec t) as Ed. exact (proj2 (@weights_monotone F friction Fp Hf (estep steps eps (S t)) (estep steps eps t) (conj (Hp _) Ed))).
    - intros t Ht. fold F. set (e := eps (t / steps)%nat). unfold estep. fold e. assert (Pe : 0 < e) by apply Hp. assert (Le : eps nn <= e) by (apply eps_le; now apply Lt). pose proof (Hp nn) as Pn.
      rewrite sqrt_sqrt.
      2: { apply Rmult_le_pos; [|exact HT]. assert (exp (- friction * e) < 1); [|lra]. rewrite <- exp_0. apply exp_increasing. assert (0 < friction * e) by (now apply Rmult_lt_0_compat). lra. }
      pose proof (exp_ineq1_le (- friction * e)) as Ei. apply Rle_trans with (friction * e * T / (e * F / 2 * (e * F / 2))).
      + unfold Rdiv at 1 4. apply Rmult_le_compat_r; [left; apply Rinv_0_lt_compat; assert (0 < e * F / 2) by (assert (0 < e * F) by (now apply Rmult_lt_0_compat); lra); now apply Rmult_lt_0_compat|]. apply Rmult_le_compat_r; lra.
      + replace (friction * e * T / (e * F / 2 * (e * F / 2))) with (4 * friction * T / (F * F) * / e) by (field; lra). unfold V. unfold Rdiv at 2. apply Rmult_le_compat_l; [|apply Rinv_le_contravar; lra]. unfold Rdiv. apply Rmult_le_pos; [apply Rmult_le_pos; lra|left; now apply Rinv_0_lt_compat].
    - unfold damp, estep. rewrite El. pose proof (Hp nn) as Pn. destruct (@weights_bound F friction Fp Hf (eps nn) Pn) as [W1 W2]. fold F. set (wy := wY _ _) in *. set (wq := wQ _ _) in *.
      assert (Eq : sum_upto (S nn) (fun u => eps (u * steps / steps)%nat * F / 2) = F / 2 * sum_upto (S nn) eps).
      { rewrite <- (@sum_upto_scale (S nn) (F / 2) eps). apply sum_upto_ext. intros u _. rewrite Nat.div_mul by lia. field. }
      rewrite Eq. replace (INR steps * (2 * ((1 + kap) * B + be)) * (F / 2 * sum_upto (S nn) eps)) with (G * sum_upto (S nn) eps) by (unfold G; ring).
      apply Rplus_le_compat_r. rewrite Rmult_plus_distr_l. apply Rplus_le_compat.
      + replace (C1 / eps nn) with (/ INR steps * (2 * ((2 * friction / (F * F) + eps 0%nat) / eps nn) * B + 2 * (2 / F / eps nn) * B)) by (unfold C1; field; lra).
        apply Rmult_le_compat_l; [left; now apply Rinv_0_lt_compat|]. apply Rplus_le_compat; apply Rmult_le_compat_r; try exact PB; apply Rmult_le_compat_l; try lra.
        * eapply Rle_trans; [exact W1|]. replace ((2 * friction / (F * F) + eps 0%nat) / eps nn) with (2 * friction / (F * F * eps nn) + eps 0%nat / eps nn) by (field; lra). apply Rplus_le_compat_l. apply (Rmult_le_reg_r (eps nn)); [lra|]. unfold Rdiv. rewrite Rmult_assoc, Rinv_l by lra. pose proof (@eps_le 0 nn ltac:(lia)). lra.
        * eapply Rle_trans; [exact W2|]. right. field. lra.
      + assert (Eq2 : INR (S nn) * (C3 / eps nn) = / INR steps * / INR steps * (INR (S nn * steps) * V)) by (unfold C3, V; rewrite mult_INR; field; lra). rewrite Eq2.
        assert (PV : 0 <= INR (S nn * steps) * V). { apply Rmult_le_pos; [apply pos_INR|]. unfold V, Rdiv. apply Rmult_le_pos; [|left; now apply Rinv_0_lt_compat]. apply Rmult_le_pos; [apply Rmult_le_pos; lra|left; now apply Rinv_0_lt_compat]. }
        rewrite (sqrt_mult (/ INR steps * / INR steps) (INR (S nn * steps) * V)); [|apply Rle_0_sqr|exact PV]. rewrite sqrt_square by (left; now apply Rinv_0_lt_compat). lra. }
  assert (R2 : L2 E z M (fun w => sum_upto b (fun j => y (S j * steps)%nat w)) (INR b * B)).
  { assert (R3 : L2 E z M (fun w => sum_upto b (fun j => y (S j * steps)%nat w)) (sum_upto b (fun _ => B))) by (apply (@L2_sum W E z M HE H1 Z1 Z2 b (fun j w => y (S j * steps)%nat w)); intros j Hj; apply LY; unfold nn; nia). rewrite sum_upto_const in R3. exact R3. }
  pose proof (@L2_plus W E z M HE H1 Z1 Z2 _ _ _ _ R1 (@L2_scale W E z M HE _ _ (- 1) R2)) as R3. replace (Rabs (-1)) with 1 in R3 by (rewrite Rabs_left; lra). rewrite Rmult_1_l in R3. eapply L2_weaken.
  - eapply (@L2_ext W E z M HE); [|exact R3]. intros w. cbv beta. replace (S nn) with (b + S n)%nat by (unfold nn; lia). rewrite sum_upto_app. lra.
  - pose proof (Hp nn). unfold Rdiv. rewrite Rmult_plus_distr_r. assert (0 <= B * / eps nn) by (apply Rmult_le_pos; [exact PB|left; now apply Rinv_0_lt_compat]). rewrite Rmult_plus_distr_l. assert (0 <= INR b * C1) by (apply Rmult_le_pos; [apply pos_INR|exact PC1]). lra.
Qed.
Lemma coordinate_limit b delta : 0 < delta -> exists n0, forall n, (n0 <= n)%nat -> forall W (E : (W -> R) -> R) normal data, standard_noise s steps key0 E normal (b + n) ->
  E (fun w => (mean_position normal data b n w i - mu i) * (mean_position normal data b n w i - mu i)) <= delta.
Proof.
  intros Hd. destruct sum_bound as (c1 & c3 & c4 & P1 & P3 & P4 & SB). pose proof (Hlam Hi) as Hl. assert (Sp : 0 < sqrt (lam i)) by now apply sqrt_lt_R0. assert (Sq : sqrt (lam i) * sqrt (lam i) = lam i) by (apply sqrt_sqrt; lra).
  set (D := sqrt (lam i * delta)). assert (PD : 0 < D) by (apply sqrt_lt_R0; now apply Rmult_lt_0_compat). assert (DD : D * D = lam i * delta) by (apply sqrt_sqrt; left; now apply Rmult_lt_0_compat).
  destruct (Hgrow (8 * c1 / D)) as [M1 HM1]. destruct (Hgrow (c3 * 64 / (D * D))) as [M2 HM2].
  destruct (@mean_vanishes (D / (8 * (c4 + 1)))) as [M3 HM3]; [apply Rdiv_lt_0_compat; lra|].
  destruct (INR_unbounded (8 * (INR b * c1) / D)) as [M4 HM4].
  exists (S (M1 + M2 + M3 + M4 + b)). intros n Hn W E normal data Hz. destruct n as [|m]; [lia|]. pose proof (SB b m W E normal data Hz) as (_ & RP & RB). pose proof Hz as (HE & _).
  set (NN := (b + S m)%nat) in *. set (y := sY _ _ _ _ _ _ _ _ _ _ _ _ _ _ _ _ _) in *. set (H := eps (b + m)%nat) in *. assert (PH : 0 < H) by apply Hp. set (n := S m) in *.
  assert (Pn : 1 <= INR n) by (replace 1 with (INR 1) by reflexivity; apply le_INR; lia). assert (LN : INR NN <= 2 * INR n) by (replace 2 with (INR 2) by reflexivity; rewrite <- mult_INR; apply le_INR; unfold NN; lia). assert (PN : 1 <= INR NN) by (replace 1 with (INR 1) by reflexivity; apply le_INR; unfold NN; lia).
  assert (G : forall A, A <= INR NN * eps NN -> A <= INR NN * H). { intros A HA. eapply Rle_trans; [exact HA|]. apply Rmult_le_compat_l; [lra|]. unfold H. apply eps_le. unfold NN. lia. }
  specialize (HM1 NN ltac:(unfold NN; lia)). specialize (HM2 NN ltac:(unfold NN; lia)). specialize (HM3 NN ltac:(unfold NN; lia)). apply G in HM1. apply G in HM2. clear G.
  assert (A1 : c1 / H <= D / 8 * INR NN). { apply (Rmult_le_reg_r H); [exact PH|]. unfold Rdiv at 1. rewrite Rmult_assoc, Rinv_l, Rmult_1_r by lra. apply (Rmult_le_compat_l (D / 8)) in HM1; [|lra]. replace (D / 8 * (8 * c1 / D)) with c1 in HM1 by (field; lra). lra. }
  assert (A2 : sqrt (INR NN * (c3 / H)) <= D / 8 * INR NN).
  { rewrite <- (sqrt_square (D / 8 * INR NN)) by (apply Rmult_le_pos; lra). apply sqrt_le_1_alt. apply (Rmult_le_reg_r H); [exact PH|]. replace (INR NN * (c3 / H) * H) with (INR NN * c3) by (field; lra).
    assert (PDD : 0 < D * D) by (now apply Rmult_lt_0_compat). apply (Rmult_le_compat_l (INR NN * (D * D / 64))) in HM2; [|apply Rmult_le_pos; lra]. replace (INR NN * (D * D / 64) * (c3 * 64 / (D * D))) with (INR NN * c3) in HM2 by (field; lra). lra. }
  assert (A3 : c4 * sum_upto NN eps <= D / 8 * INR NN).
  { apply Rle_trans with ((c4 + 1) * sum_upto NN eps); [apply Rmult_le_compat_r; [|lra]|].
    - rewrite <- (Rmult_0_r (INR NN)), <- sum_upto_const. apply GaussianMatrix.sum_upto_le. intros j _. left. apply Hp.
    - apply (Rmult_le_compat_l (c4 + 1)) in HM3; [|lra]. replace ((c4 + 1) * (D / (8 * (c4 + 1)) * INR NN)) with (D / 8 * INR NN) in HM3 by (field; lra). exact HM3. }
  assert (A4 : INR b * c1 <= D / 8 * INR NN).
  { assert (L4 : INR M4 <= INR NN) by (apply le_INR; unfold NN; lia). assert (L5 : 8 * (INR b * c1) / D <= INR NN) by lra. apply (Rmult_le_compat_l (D / 8)) in L5; [|lra]. replace (D / 8 * (8 * (INR b * c1) / D)) with (INR b * c1) in L5 by (field; lra). exact L5. }
  set (RR := c1 / H + sqrt (INR NN * (c3 / H)) + c4 * sum_upto NN eps + INR b * c1) in *. assert (AR : RR <= D * INR n) by (unfold RR; assert (D / 2 * INR NN <= D / 2 * (2 * INR n)) by (apply Rmult_le_compat_l; lra); lra).
  rewrite (proj1 HE _ (fun w => (/ (INR n * INR n * lam i)) * (sum_upto n (fun j => y (S (b + j) * steps)%nat w) * sum_upto n (fun j => y (S (b + j) * steps)%nat w)))).
  - rewrite (proj2 (proj2 HE) (/ (INR n * INR n * lam i)) (fun w => sum_upto n (fun j => y (S (b + j) * steps)%nat w) * sum_upto n (fun j => y (S (b + j) * steps)%nat w))).
    replace delta with (/ (INR n * INR n * lam i) * (D * INR n * (D * INR n))) by (replace (D * INR n * (D * INR n)) with (INR n * INR n * (D * D)) by ring; rewrite DD; field; lra).
    apply Rmult_le_compat_l; [left; apply Rinv_0_lt_compat; repeat apply Rmult_lt_0_compat; lra|]. eapply Rle_trans; [exact RB|]. apply Rmult_le_compat; lra.
  - intros w. assert (MY : mean_position normal data b n w i - mu i = / (INR n * sqrt (lam i)) * sum_upto n (fun j => y (S (b + j) * steps)%nat w)).
    { unfold PropertiesObaboAverage.mean_position. rewrite (@sum_upto_ext n (fun j => y (S (b + j) * steps)%nat w) (fun j => sqrt (lam i) * (el (o_pos (state normal data (S (b + j)) w)) i + - mu i))).
      - rewrite (@sum_upto_scale n (sqrt (lam i)) (fun j => el (o_pos (state normal data (S (b + j)) w)) i + - mu i)), (@sum_upto_plus n (fun j => el (o_pos (state normal data (S (b + j)) w)) i) (fun _ => - mu i)), sum_upto_const. field. split; lra.
      - intros j _. unfold y, sY. rewrite inner_run by exact Hsteps. reflexivity. }
    rewrite MY. clear - Sq Sp Pn. set (sq := sqrt (lam i)) in *. rewrite <- Sq. field. split; lra.
Qed.
End Coordinate.

(** vanishing step sizes: the averages converge in mean square to the posterior mean *)
Theorem C96_vanishing_steps : forall b delta, 0 < delta -> exists n0, forall n, (n0 <= n)%nat -> forall W (E : (W -> R) -> R) normal data, standard_noise s steps key0 E normal (b + n) -> forall i, (i < dim s)%nat ->
  E (fun w => (mean_position normal data b n w i - mu i) * (mean_position normal data b n w i - mu i)) <= delta.
Proof.
  intros b delta Hd. assert (A : forall m, (m <= dim s)%nat -> exists n0, forall n, (n0 <= n)%nat -> forall W (E : (W -> R) -> R) normal data, standard_noise s steps key0 E normal (b + n) -> forall i, (i < m)%nat ->
    E (fun w => (mean_position normal data b n w i - mu i) * (mean_position normal data b n w i - mu i)) <= delta).
  { induction m as [|m IH]; intros Hm; [exists 0%nat; intros; lia|]. destruct IH as [n1 H1]; [lia|]. destruct (@coordinate_limit m ltac:(lia) b delta Hd) as [n2 H2]. exists (n1 + n2)%nat. intros n Hn W E normal data Hz i Hi.
    destruct (Nat.eq_dec i m) as [-> |Ne]; [apply (H2 n); auto; lia|apply (H1 n); auto; lia]. }
  exact (A (dim s) (le_n _)).
Qed.
End Vanishing.

Lemma power_decreasing a b g : 0 < a -> 0 < b -> 0 < g -> forall n, a * Rpower (b + INR (S n)) (- g) <= a * Rpower (b + INR n) (- g).
Proof. intros Ha Hb Hg n. apply Rmult_le_compat_l; [lra|]. rewrite !Rpower_Ropp. pose proof (pos_INR n). apply Rinv_le_contravar; [apply exp_pos|]. apply Rle_Rpower_l; [lra|]. rewrite S_INR. lra. Qed.
(** the step sizes of scheduler.polynomial_step_size with 0 < gamma < 1 *)
Theorem C96_polynomial : forall s, wfv s -> forall Data Batch Model (get_data : Data -> Data * Batch) pot_value pot_model (pot_grad : vtree -> Batch -> Model -> vtree), (forall t b m, like s t -> like s (pot_grad t b m)) ->
  forall steps friction mass T, (0 < steps)%nat -> (match mass with Some m => like s m /\ forall i, (i < dim s)%nat -> 0 < el m i | None => True end) ->
  forall x0 model0 key0, like s x0 -> forall lam mu : nat -> R,
  (forall t b m i, like s t -> (i < dim s)%nat -> el (pot_grad t b m) i = lam i * (el t i - mu i)) -> (forall i, (i < dim s)%nat -> 0 < lam i) -> 0 < friction -> 0 <= T ->
  forall a0 b0 g, 0 < a0 -> 0 < b0 -> 0 < g < 1 -> let eps := fun n : nat => a0 * Rpower (b0 + INR n) (- g) in
  forall b delta, 0 < delta -> exists n0, forall n, (n0 <= n)%nat -> forall W (E : (W -> R) -> R) normal data, standard_noise s steps key0 E normal (b + n) -> forall i, (i < dim s)%nat ->
    let mean := fun w => mean_position get_data pot_value pot_model pot_grad steps friction mass T x0 model0 key0 eps normal data b n w i in
    E (fun w => (mean w - mu i) * (mean w - mu i)) <= delta.
Proof.
  intros s Hs Data Batch Model get_data pv pm pg Hg steps friction mass T Hsteps Hm x0 model0 key0 Hx lam mu Hga Hl Hf HT a b0 g Ha Hb Hgm eps b delta Hd.
  exact (@C96_vanishing_steps s Hs Data Batch Model get_data pv pm pg Hg steps friction mass T Hsteps Hm x0 model0 key0 Hx lam mu Hga Hl eps Hf HT (poly_pos b0 g Ha) (@power_decreasing a b0 g Ha Hb (proj1 Hgm))
    (@poly_vanishing a b0 g Ha Hb ltac:(lra)) (@PropertiesSecondMoment.power_growth a b0 g Ha Hb Hgm) b delta Hd).
Qed.

(** ** the hypotheses can be met for every number of integrations: two coins for each inner step *)
(** auxiliary definition of a statement or a proof; models no code of /repo *)
Definition pair_normal (w : list (bool * bool)) (k : key) (sh : list nat) : list R :=
  let p := nth (depth k - 2) w (true, true) in repeat (match k with Sub (Sub _ 1) _ => sign (fst p) | _ => sign (snd p) end) (size sh).
(** auxiliary definition of a statement or a proof; models no code of /repo *)
Definition pair_noise (t : nat) (w : list (bool * bool)) : R := let p := nth (t / 2) w (true, true) in sign (if (t mod 2 =? 0)%nat then fst p else snd p).
Lemma pair_noise_ok t w : PropertiesObaboGaussian.noise (Leaf (mkArr [] [0])) (PRNGKey 0) pair_normal t w 0 = pair_noise t w.
Proof.
  unfold PropertiesObaboGaussian.noise, pair_noise. pose proof (Nat.mod_upper_bound t 2 ltac:(lia)) as B. set (u := (t / 2)%nat).
  assert (A : (t mod 2 = 0 \/ t mod 2 = 1)%nat) by lia. destruct A as [-> | ->]; unfold xi; cbn; unfold pair_normal; cbn [depth]; rewrite depth_chain; cbn; rewrite Nat.sub_0_r; reflexivity.
Qed.
Lemma pair_prefix t k w : (t / 2 < k)%nat -> pair_noise t w = pair_noise t (firstn k w).
Proof. intros H. unfold pair_noise. now rewrite firstn_nth. Qed.
Lemma pair_last t n p : (t / 2 = n)%nat -> forall w, length w = n -> pair_noise t (w ++ [p]) = sign (if (t mod 2 =? 0)%nat then fst p else snd p).
Proof. intros <- w Hw. unfold pair_noise. rewrite app_nth2 by lia. rewrite Hw, Nat.sub_diag. reflexivity. Qed.
Lemma pair_before t w p : (t / 2 < length w)%nat -> pair_noise t (w ++ [p]) = pair_noise t w.
Proof. intros H. unfold pair_noise. now rewrite app_nth1. Qed.
Lemma pair_mean N t : (t / 2 < N)%nat -> coins N (pair_noise t) = 0.
Proof.
  intros H. rewrite (@coins_prefix N (S (t / 2))); [|lia|intros w; apply pair_prefix; lia]. cbn [coins]. rewrite (@coins_ext (t / 2) _ (fun w => 0 * 1)); [rewrite coins_scale; ring|].
  intros w Hw. rewrite !(@pair_last t (t / 2)) by auto. destruct (t mod 2 =? 0)%nat; cbn; field.
Qed.
Lemma pair_earlier N t u : (t / 2 < u / 2 < N)%nat -> coins N (fun w => pair_noise t w * pair_noise u w) = 0.
Proof.
  intros H. rewrite (@coins_prefix N (S (u / 2))); [|lia|intros w; rewrite <- !pair_prefix by lia; reflexivity]. cbn [coins]. rewrite (@coins_ext (u / 2) _ (fun w => 0 * 1)); [rewrite coins_scale; ring|].
  intros w Hw. rewrite !(@pair_last u (u / 2)), !(@pair_before t) by (auto; lia). destruct (u mod 2 =? 0)%nat; cbn; field.
Qed.
Lemma pair_standard steps n : (0 < steps)%nat -> standard_noise (Leaf (mkArr [] [0])) steps (PRNGKey 0) (coins (n * steps)) pair_normal n.
Proof.
  intros Hs. split; [split; [intros X Y H; apply coins_ext; intros; apply H|split; [apply coins_plus|apply coins_scale]]|]. split; [apply coins_one|]. split; [intros w k sh; apply repeat_length|].
  intros i Hi. assert (i = O) by (unfold dim in Hi; cbn in Hi; lia). subst i. clear Hi.
  assert (B : forall t, (t < 2 * (n * steps))%nat -> (t / 2 < n * steps)%nat) by (intros t Ht; apply Nat.div_lt_upper_bound; lia). split.
  - intros t Ht. rewrite (@coins_ext _ _ (pair_noise t)) by (intros; apply pair_noise_ok). apply pair_mean; auto.
  - intros t u Ht Hu. rewrite (@coins_ext _ _ (fun w => pair_noise t w * pair_noise u w)) by (intros; now rewrite !pair_noise_ok). apply B in Ht. apply B in Hu.
    destruct (Nat.eqb_spec t u) as [-> |Ne].
    + rewrite (@coins_ext _ _ (fun _ => 1)); [apply coins_one|]. intros w _. unfold pair_noise, sign. destruct (if (u mod 2 =? 0)%nat then _ else _); ring.
    + destruct (Nat.lt_total (t / 2) (u / 2)) as [L|[E|L]]; [apply pair_earlier; lia| |].
      * pose proof (Nat.div_mod t 2 ltac:(lia)) as D1. pose proof (Nat.div_mod u 2 ltac:(lia)) as D2. pose proof (Nat.mod_upper_bound t 2 ltac:(lia)) as M1. pose proof (Nat.mod_upper_bound u 2 ltac:(lia)) as M2.
        rewrite (@coins_prefix _ (S (t / 2))); [|lia|intros w; rewrite <- !pair_prefix by lia; reflexivity]. cbn [coins]. rewrite (@coins_ext (t / 2) _ (fun w => 0 * 1)); [rewrite coins_scale; ring|].
        intros w Hw. rewrite !(@pair_last u (t / 2)), !(@pair_last t (t / 2)) by auto. assert (A : ((t mod 2 = 0 /\ u mod 2 = 1) \/ (t mod 2 = 1 /\ u mod 2 = 0))%nat) by lia. destruct A as [[-> ->]|[-> ->]]; cbn; field.
      * rewrite (@coins_ext _ _ (fun w => pair_noise u w * pair_noise t w)) by (intros; ring). apply pair_earlier; lia.
Qed.
(** two inner steps for each integration, precision 2, posterior mean 1, start at 3; steps of size 1/2, or of size 3 (1 + n)^(-1/3) *)
Example C96_nonvacuous : let s := Leaf (mkArr [] [0]) in let grad := fun t (b m : unit) => emap (fun x => 2 * (x - 1)) t in
  (forall n, standard_noise s 2 (PRNGKey 0) (coins (n * 2)) pair_normal n) /\
  (let mean := fun b n w => mean_position (fun d : unit => (d, tt)) (fun _ _ _ => 0) (fun _ _ m => m) grad 2 1 None 1 (Leaf (mkArr [] [3])) tt (PRNGKey 0) (fun _ => 1 / 2) pair_normal (fun _ => tt) b n w 0 in
  exists K, 0 <= K /\ forall b n, (0 < n)%nat -> coins ((b + n) * 2) (fun w => (mean b n w - 1) * (mean b n w - 1)) <= K / INR n) /\
  let mean := fun b n w => mean_position (fun d : unit => (d, tt)) (fun _ _ _ => 0) (fun _ _ m => m) grad 2 1 None 1 (Leaf (mkArr [] [3])) tt (PRNGKey 0) (fun n => 3 * Rpower (1 + INR n) (- (1 / 3))) pair_normal (fun _ => tt) b n w 0 in
  forall b delta, 0 < delta -> exists n0, forall n, (n0 <= n)%nat -> coins ((b + n) * 2) (fun w => (mean b n w - 1) * (mean b n w - 1)) <= delta.
Proof.
  intros s grad. assert (Z : forall n, standard_noise s 2 (PRNGKey 0) (coins (n * 2)) pair_normal n) by (intros n; apply pair_standard; lia). split; [exact Z|]. cbv zeta.
  assert (Ws : wfv s) by (constructor; [reflexivity|constructor]). assert (Lg : forall t (b m : unit), like s t -> like s (grad t b m)) by (intros t b m H; now apply like_emap).
  assert (Lx : like s (Leaf (mkArr [] [3]))) by (split; [constructor; [reflexivity|constructor]|split; reflexivity]).
  assert (Gr : forall t (b m : unit) i, like s t -> (i < dim s)%nat -> el (grad t b m) i = 2 * (el t i - 1)) by (intros t b m i H Hi; apply (el_emap (s := s)); auto).
  assert (I0 : (0 < dim s)%nat) by (unfold dim; cbn; lia). split.
  - destruct (@C96_mean_error s Ws unit unit unit (fun d : unit => (d, tt)) (fun _ _ _ => 0) (fun _ _ m => m) grad Lg 2 1 None 1 ltac:(lia) I (Leaf (mkArr [] [3])) tt (PRNGKey 0) Lx (fun _ => 2) (fun _ => 1) Gr) with (h := 1 / 2) as (K & PK & HK); try lra.
    + intros i _. lra.
    + intros i _. unfold root_mass. lra.
    + exists K. split; [exact PK|]. intros b n Hn. exact (HK b n Hn _ (coins ((b + n) * 2)) pair_normal (fun _ => tt) (Z (b + n)%nat) 0%nat I0).
  - intros b delta Hd. destruct (@C96_polynomial s Ws unit unit unit (fun d : unit => (d, tt)) (fun _ _ _ => 0) (fun _ _ m => m) grad Lg 2 1 None 1 ltac:(lia) I (Leaf (mkArr [] [3])) tt (PRNGKey 0) Lx (fun _ => 2) (fun _ => 1) Gr ltac:(intros; lra) ltac:(lra) ltac:(lra) 3 1 (1 / 3) ltac:(lra) ltac:(lra) ltac:(lra) b delta Hd) as [n0 H].
    exists n0. intros n Hn. exact (H n Hn _ (coins ((b + n) * 2)) pair_normal (fun _ => tt) (Z (b + n)%nat) 0%nat I0).
Qed.
Print Assumptions C96_mean_error. Print Assumptions C96_mean_limit. Print Assumptions C96_vanishing_steps. Print Assumptions C96_polynomial. Print Assumptions C96_nonvacuous.
