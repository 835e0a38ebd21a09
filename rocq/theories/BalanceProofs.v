From Coq Require Import Reals Lra.
From Verif Require Import Base ListUtil Pytree PytreeSpec Io TreeUtil TreeUtilSpec TreeUtilProofs Integrator IntegratorSpec IntegratorBasics ObaboProofs LeapfrogProofs LeapfrogFinal KeyBasics ObaboFinal ReverseExist BalanceSpec.
Open Scope R_scope.
Set Implicit Arguments.

Lemma diagonal_fits s M : diagonal s M -> tens_fits (m_inv M) s /\ tens_fits (m_sqrt M) s.
Proof. intros (vi & sq & -> & -> & [H1 H2] & [H3 H4] & _). cbn. auto. Qed.
Lemma diagonal_weak s M : diagonal s M -> exists vi sq, m_inv M = Tens1 vi /\ m_sqrt M = Tens1 sq /\ forall i, (i < dim s)%nat -> el vi i * (el sq i * el sq i) = 1.
Proof. intros (vi & sq & H1 & H2 & _ & _ & H3). eauto. Qed.
Lemma init_mass_diagonal s m : wfv s -> like s m -> (forall i, (i < dim s)%nat -> 0 < el m i) -> diagonal s (init_mass m).
Proof.
  intros Hs Hm Hp. exists (emap Rinv m), (emap sqrt m). repeat (split; [first [reflexivity | apply like_emap; auto]|]).
  intros i Hi. specialize (Hp i Hi). rewrite !(el_emap Hs) by auto. rewrite sqrt_sqrt by lra. field. lra.
Qed.
Lemma unit_mass_diagonal s t : wfv s -> like s t -> diagonal s (unit_mass t).
Proof. intros Hs Ht. apply init_mass_diagonal; auto using like_emap. intros i Hi. rewrite (el_emap Hs) by auto. lra. Qed.
Lemma kinetic_ok s M p : wfv s -> tens_fits (m_inv M) s -> like s p -> kinetic_energy M p = kinetic s M p.
Proof.
  intros Hs HM Hp. rewrite (kin_sum Hs _ HM) by auto. unfold kinetic. unfold Rdiv. rewrite Rmult_1_l, Rmult_comm. f_equal.
  apply sum_upto_ext. intros i Hi. rewrite (el_mat Hs) by auto. reflexivity.
Qed.
Lemma prod_exp n f : prod_upto n (fun j => exp (f j)) = exp (sum_upto n f).
Proof. unfold prod_upto, sum_upto. induction (seq 0 n) as [|x l IH]; cbn; [now rewrite exp_0|]. now rewrite IH, exp_plus. Qed.
Lemma sum_opp n f : sum_upto n (fun j => - f j) = - sum_upto n f.
Proof. rewrite (@sum_upto_ext n (fun j => - f j) (fun j => -1 * f j)) by (intros; ring). rewrite sum_upto_scale. ring. Qed.
Lemma min_balance a b : exp a * Rmin 1 (exp (b - a)) = exp b * Rmin 1 (exp (a - b)).
Proof.
  destruct (Rle_dec a b) as [H|H].
  - assert (exp a <= exp b) by (destruct H as [H| ->]; [left; now apply exp_increasing|lra]).
    rewrite Rmin_left, Rmin_right, <- exp_plus.
    + replace (b + (a - b)) with a by ring. ring.
    + apply Rle_trans with (exp 0); [|rewrite exp_0; lra]. destruct H as [H| ->]; [left; apply exp_increasing; lra|]. right. f_equal. ring.
    + apply Rle_trans with (exp 0); [rewrite exp_0; lra|]. destruct H as [H| ->]; [left; apply exp_increasing; lra|]. right. f_equal. ring.
  - rewrite (Rmin_right 1 (exp (b - a))), (Rmin_left 1 (exp (a - b))), <- exp_plus.
    + replace (a + (b - a)) with b by ring. ring.
    + apply Rle_trans with (exp 0); [rewrite exp_0; lra|]. left; apply exp_increasing; lra.
    + apply Rle_trans with (exp 0); [left; apply exp_increasing; lra|rewrite exp_0; lra].
Qed.
Lemma min_mult P a b : 0 <= P -> P * Rmin a b = Rmin (P * a) (P * b).
Proof.
  intros HP. destruct (Rle_dec a b) as [H|H].
  - rewrite !Rmin_left; auto. now apply Rmult_le_compat_l.
  - rewrite !Rmin_right; auto; [apply Rmult_le_compat_l; lra|lra].
Qed.
Lemma min_ratio P a b : 0 <= P -> P * (exp a * Rmin 1 (exp (b - a))) = Rmin (P * exp a) (P * exp b).
Proof.
  intros HP. rewrite <- min_mult by auto. f_equal. rewrite min_mult by (left; apply exp_pos). rewrite Rmult_1_r, <- exp_plus. do 2 f_equal. ring.
Qed.
Lemma prod_nonneg n f : (forall j, 0 <= f j) -> 0 <= prod_upto n f.
Proof. intros H. unfold prod_upto. induction (seq 0 n) as [|x l IH]; cbn; [lra|]. apply Rmult_le_pos; auto. Qed.
Lemma opposite_neg s p q : wfv s -> like s p -> opposite s p q -> q = tneg p.
Proof. intros Hs Lp [Lq H]. apply (like_ext Hs); auto using like_neg. intros i Hi. rewrite (el_neg Hs) by auto. auto. Qed.
Lemma neg_opposite s p : wfv s -> like s p -> opposite s p (tneg p).
Proof. intros Hs Lp. split; auto using like_neg. intros i Hi. apply (el_neg Hs); auto. Qed.

Section RL.
Variable s : vtree.
Hypothesis Hs : wfv s.
Variables (const_mass : option vtree) (mo : option mass_matrix).
Variables (Data Batch Model : Type).
Variable get_data : Data -> Data * Batch.
Variable pot_model : vtree -> Batch -> Model -> Model.
Variable G : vtree -> Batch -> vtree.
Hypothesis HG : forall t b, like s t -> like s (G t b).
Variables (friction eps : R).
Variable normal : key -> list nat -> list R.
Hypothesis Hn : normal_ok normal.
Local Notation intg nrm n x := (fst (rl_integrate nrm get_data pot_model (fun t b _ => G t b) n friction const_mass eps mo x)).
Variable st : rl_st Data Model.
Hypothesis Hp : like s (r_pos st).
Hypothesis Hm : like s (r_mom st).
Local Notation M := (rl_mass const_mass mo (r_pos st)).
Hypothesis Hd : diagonal s M.
Hypothesis Hpos : 0 < eps * friction.
Variable n : nat.
Local Notation fin := (intg normal n st).
Variables (q : vtree) (m' : Model) (v' : R) (d' : Data) (k' : key).
Hypothesis Hq : opposite s (r_mom fin) q.
Local Notation st' := (mkRlSt (r_pos fin) q m' v' d' k').
Hypothesis Hb : forall m, (m < n)%nat -> batch_no get_data d' m = batch_no get_data (r_data st) (n - 1 - m).
Definition rl_noise_back (normal' : key -> list nat -> list R) : Prop := forall j i, (j < n)%nat -> (i < dim s)%nat ->
  sqrt (4 * friction * eps) * mulv (m_sqrt M) (dim s) (xi normal' (Sub (chain k' j) 1) s) i =
  sqrt (4 * friction * eps) * mulv (m_sqrt M) (dim s) (xi normal (Sub (chain (r_key st) (n - 1 - j)) 1) s) i
    - 2 * eps * friction * (el (r_mom (intg normal (n - 1 - j) st)) i + el (r_mom (intg normal (n - j) st)) i).
Lemma rl_balance_given normal' : normal_ok normal' -> rl_noise_back normal' ->
  r_pos (intg normal' n st') = r_pos st /\ r_mom (intg normal' n st') = tneg (r_mom st) /\ r_pot (intg normal' n st') = - r_pot fin /\
  prod_upto n (fun j => gauss normal' (Sub (chain k' j) 1) s) = prod_upto n (fun j => gauss normal (Sub (chain (r_key st) j) 1) s) * exp (kinetic s M (r_mom fin) - kinetic s M (r_mom st) + r_pot fin).
Proof.
  intros Hn' Hnz. destruct (diagonal_fits Hd) as [Hinv Hsq]. destruct (diagonal_weak Hd) as (vi & sq & E1 & E2 & E3).
  assert (Hg : forall t b (m : Model), like s t -> like s (G t b)) by (intros; auto).
  destruct (@rl_integrate_like s Hs const_mass mo Data Batch Model get_data pot_model (fun t b _ => G t b) Hg friction eps normal Hn st Hp Hm Hinv Hsq n) as [Lx Lp].
  rewrite (opposite_neg Hs Lp Hq).
  destruct (@rl_back s Hs const_mass mo Data Batch Model get_data pot_model (fun t b _ => G t b) Hg friction eps normal normal' Hn Hn' G (fun _ _ _ => eq_refl) st Hp Hm Hinv Hsq ltac:(lra) n m' v' d' k' Hb Hnz) as (B1 & B2 & B3).
  split; [exact B1|]. split; [exact B2|]. split; [exact B3|].
  pose proof (@rl_densities s Hs const_mass mo Data Batch Model get_data pot_model (fun t b _ => G t b) Hg friction eps normal normal' Hn G (fun _ _ _ => eq_refl) st Hp Hm Hinv Hsq ltac:(lra) n m' d' k' Hb Hnz (ex_intro _ vi (ex_intro _ sq (conj E1 (conj E2 E3)))) Hpos) as D.
  rewrite !(@kinetic_ok s M _ Hs Hinv) in D by auto. rewrite <- D.
  unfold gauss. rewrite !prod_exp, <- exp_plus. f_equal. rewrite !sum_opp.
  rewrite (@sum_upto_ext n (fun j => sum_upto (dim s) (fun i => xi normal' (Sub (chain k' j) 1) s i * xi normal' (Sub (chain k' j) 1) s i / 2)) (fun j => sum_upto (dim s) (fun i => 1 / 2 * (xi normal' (Sub (chain k' j) 1) s i * xi normal' (Sub (chain k' j) 1) s i)))) by (intros; apply sum_upto_ext; intros; field).
  rewrite (@sum_upto_ext n (fun j => sum_upto (dim s) (fun i => xi normal (Sub (chain (r_key st) j) 1) s i * xi normal (Sub (chain (r_key st) j) 1) s i / 2)) (fun j => sum_upto (dim s) (fun i => 1 / 2 * (xi normal (Sub (chain (r_key st) j) 1) s i * xi normal (Sub (chain (r_key st) j) 1) s i)))) by (intros; apply sum_upto_ext; intros; field).
  ring.
Qed.
Lemma rl_noise_exists : exists normal', normal_ok normal' /\ rl_noise_back normal'.
Proof.
  destruct (diagonal_weak Hd) as (vi & sq & E1 & E2 & E3).
  destruct (@rl_reverse_noise s M vi sq friction eps n (fun j => Sub (chain (r_key st) j) 1) (fun j => Sub (chain k' j) 1) normal (fun j i => el (r_mom (intg normal j st)) i) Hs E1 E2 E3 Hpos) as (normal' & Hn' & Hnz).
  { intros a b _ _ E. inversion E as [E']. now apply chain_inj in E'. }
  exists normal'. split; auto.
Qed.
Lemma rl_balance : exists normal', normal_ok normal' /\
  r_pos (intg normal' n st') = r_pos st /\ r_mom (intg normal' n st') = tneg (r_mom st) /\ r_pot (intg normal' n st') = - r_pot fin /\
  prod_upto n (fun j => gauss normal' (Sub (chain k' j) 1) s) = prod_upto n (fun j => gauss normal (Sub (chain (r_key st) j) 1) s) * exp (kinetic s M (r_mom fin) - kinetic s M (r_mom st) + r_pot fin).
Proof. destruct rl_noise_exists as (normal' & Hn' & Hnz). exists normal'. split; auto. now apply rl_balance_given. Qed.
End RL.

Section OB.
Variable s : vtree.
Hypothesis Hs : wfv s.
Variables (const_mass : option vtree) (mo : option mass_matrix).
Variables (Data Batch Model : Type).
Variable get_data : Data -> Data * Batch.
Variable pot_value : vtree -> Batch -> Model -> R.
Variable pot_model : vtree -> Batch -> Model -> Model.
Variable G : vtree -> Batch -> vtree.
Hypothesis HG : forall t b, like s t -> like s (G t b).
Variables (friction eps T : R).
Variable normal : key -> list nat -> list R.
Hypothesis Hn : normal_ok normal.
Local Notation intg nrm n x := (fst (ob_integrate nrm get_data pot_value pot_model (fun t b _ => G t b) n friction const_mass eps T mo x)).
Variable st : ob_st Data Model.
Hypothesis Hp : like s (o_pos st).
Hypothesis Hm : like s (o_mom st).
Local Notation M := (ob_mass const_mass mo (o_pos st)).
Hypothesis Hd : diagonal s M.
Hypothesis Hpos : 0 < friction * eps.
Hypothesis HT : 0 < T.
Hypothesis H0 : o_start st = 0 /\ o_end st = 0.
Variable n : nat.
Local Notation fin := (intg normal n st).
Variables (q : vtree) (m' : Model) (v' : R) (d' : Data) (k' : key).
Hypothesis Hq : opposite s (o_mom fin) q.
Local Notation st' := (mkObSt (o_pos fin) q m' v' d' k' 0 0).
Hypothesis Hb : forall m, (m < 2 * n)%nat -> batch_no get_data d' m = batch_no get_data (o_data st) (2 * n - 1 - m).
Definition ob_noise_back (normal' : key -> list nat -> list R) : Prop := forall j i, (j < n)%nat -> (i < dim s)%nat ->
  sqrt (exp (- friction * eps)) * (sqrt ((1 - exp (- friction * eps)) * T) * mulv (m_sqrt M) (dim s) (xi normal' (Sub (chain k' j) 1) s) i) =
    sqrt ((1 - exp (- friction * eps)) * T) * mulv (m_sqrt M) (dim s) (xi normal (Sub (chain (o_key st) (n - 1 - j)) 2) s) i - (1 - exp (- friction * eps)) * el (o_mom (intg normal (n - j) st)) i /\
  sqrt ((1 - exp (- friction * eps)) * T) * mulv (m_sqrt M) (dim s) (xi normal' (Sub (chain k' j) 2) s) i =
    sqrt (exp (- friction * eps)) * (sqrt ((1 - exp (- friction * eps)) * T) * mulv (m_sqrt M) (dim s) (xi normal (Sub (chain (o_key st) (n - 1 - j)) 1) s) i) - (1 - exp (- friction * eps)) * el (o_mom (intg normal (n - 1 - j) st)) i.
Lemma ob_balance_given normal' : normal_ok normal' -> ob_noise_back normal' ->
  o_pos (intg normal' n st') = o_pos st /\ o_mom (intg normal' n st') = tneg (o_mom st) /\
  o_start (intg normal' n st') = o_end fin /\ o_end (intg normal' n st') = o_start fin /\
  prod_upto n (fun j => gauss normal' (Sub (chain k' j) 1) s * gauss normal' (Sub (chain k' j) 2) s) * exp (- (kinetic s M (o_mom fin) / T)) * exp (- (o_start fin / T)) =
  prod_upto n (fun j => gauss normal (Sub (chain (o_key st) j) 1) s * gauss normal (Sub (chain (o_key st) j) 2) s) * exp (- (kinetic s M (o_mom st) / T)) * exp (- (o_end fin / T)).
Proof.
  intros Hn' Hnz. destruct (diagonal_fits Hd) as [Hinv Hsq]. destruct (diagonal_weak Hd) as (vi & sq & E1 & E2 & E3). destruct H0 as [H01 H02].
  assert (Hg : forall t b (m : Model), like s t -> like s (G t b)) by (intros; auto).
  destruct (@F_like s Hs const_mass mo Data Batch Model get_data pot_value pot_model (fun t b _ => G t b) Hg friction eps T normal Hn st Hp Hm Hinv Hsq n) as [Lx Lp].
  rewrite (opposite_neg Hs Lp Hq).
  destruct (@ob_back s Hs const_mass mo Data Batch Model get_data pot_value pot_model (fun t b _ => G t b) Hg friction eps T normal normal' Hn Hn' G (fun _ _ _ => eq_refl) st Hp Hm Hinv Hsq n m' v' d' k' Hb Hnz) as (B1 & B2 & B3 & B4).
  split; [exact B1|]. split; [exact B2|]. split; [etransitivity; [exact B3|]; rewrite H02; ring|]. split; [etransitivity; [exact B4|]; rewrite H01; ring|].
  pose proof (@ob_densities s Hs const_mass mo Data Batch Model get_data pot_value pot_model (fun t b _ => G t b) Hg friction eps T normal normal' Hn G (fun _ _ _ => eq_refl) st Hp Hm Hinv Hsq n m' d' k' Hb Hnz (ex_intro _ vi (ex_intro _ sq (conj E1 (conj E2 E3)))) Hpos HT) as D.
  rewrite !(@kinetic_ok s M _ Hs Hinv) in D by auto. rewrite H01, H02 in D.
  assert (EG : forall nrm k, gauss nrm (Sub k 1) s * gauss nrm (Sub k 2) s = exp (- (half_sq s (xi nrm (Sub k 1) s) + half_sq s (xi nrm (Sub k 2) s)))).
  { intros nrm k. unfold gauss, half_sq. rewrite <- exp_plus. f_equal.
    rewrite (@sum_upto_ext (dim s) (fun i => xi nrm (Sub k 1) s i * xi nrm (Sub k 1) s i / 2) (fun i => 1 / 2 * (xi nrm (Sub k 1) s i * xi nrm (Sub k 1) s i))) by (intros; field).
    rewrite (@sum_upto_ext (dim s) (fun i => xi nrm (Sub k 2) s i * xi nrm (Sub k 2) s i / 2) (fun i => 1 / 2 * (xi nrm (Sub k 2) s i * xi nrm (Sub k 2) s i))) by (intros; field). ring. }
  assert (EP : forall nrm (K : nat -> key), prod_upto n (fun j => gauss nrm (Sub (K j) 1) s * gauss nrm (Sub (K j) 2) s) = exp (- sum_upto n (fun j => half_sq s (xi nrm (Sub (K j) 1) s) + half_sq s (xi nrm (Sub (K j) 2) s)))).
  { intros nrm K. rewrite <- sum_opp, <- prod_exp. unfold prod_upto. f_equal. apply map_ext. intros j. apply EG. }
  rewrite (EP normal' (chain k')), (EP normal (chain (o_key st))), <- !exp_plus. f_equal. unfold Rdiv in *. lra.
Qed.
Lemma ob_noise_exists : exists normal', normal_ok normal' /\ ob_noise_back normal'.
Proof.
  destruct (diagonal_weak Hd) as (vi & sq & E1 & E2 & E3).
  destruct (@ob_reverse_noise s M vi sq friction eps T n (fun j => Sub (chain (o_key st) j) 1) (fun j => Sub (chain (o_key st) j) 2) (fun j => Sub (chain k' j) 1) (fun j => Sub (chain k' j) 2) normal (fun j i => el (o_mom (intg normal j st)) i) Hs E1 E2 E3 Hpos HT) as (normal' & Hn' & Hnz).
  { intros a b E. inversion E as [E']. now apply chain_inj in E'. }
  { intros a b E. inversion E as [E']. now apply chain_inj in E'. }
  { intros a b E. inversion E. }
  exists normal'. split; auto.
Qed.
Lemma ob_balance : exists normal', normal_ok normal' /\
  o_pos (intg normal' n st') = o_pos st /\ o_mom (intg normal' n st') = tneg (o_mom st) /\
  o_start (intg normal' n st') = o_end fin /\ o_end (intg normal' n st') = o_start fin /\
  prod_upto n (fun j => gauss normal' (Sub (chain k' j) 1) s * gauss normal' (Sub (chain k' j) 2) s) * exp (- (kinetic s M (o_mom fin) / T)) * exp (- (o_start fin / T)) =
  prod_upto n (fun j => gauss normal (Sub (chain (o_key st) j) 1) s * gauss normal (Sub (chain (o_key st) j) 2) s) * exp (- (kinetic s M (o_mom st) / T)) * exp (- (o_end fin / T)).
Proof. destruct ob_noise_exists as (normal' & Hn' & Hnz). exists normal'. split; auto. now apply ob_balance_given. Qed.
End OB.
