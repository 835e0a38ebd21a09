(** The densities of AMAGOLD and SGGMC on the phase space are continuous, positive and decay. *)
From Coq Require Import Reals Lra Lia List FunctionalExtensionality.
From Verif Require Import Base ListUtil TreeUtil TreeUtilSpec TreeUtilProofs Integrator IntegratorSpec IntegratorBasics LeapfrogFinal BalanceSpec BalanceProofs VolumeSpec LeapfrogVolume
  RiemannSpec RiemannProofs RiemannSums RiemannLimit RiemannIntegral RiemannBounds.
Open Scope R_scope.
Set Implicit Arguments.
Local Arguments Nat.mul : simpl never.

Lemma prod_upto_S n f : prod_upto (S n) f = prod_upto n f * f n.
Proof.
  unfold prod_upto. rewrite seq_S, map_app, fold_right_app. cbn [map fold_right Nat.add]. rewrite Rmult_1_r. generalize (f n). intros a.
  induction (seq 0 n) as [|x l IH]; cbn; [ring|]. rewrite IH. ring.
Qed.
Lemma prod_upto_0 f : prod_upto 0 f = 1. Proof. reflexivity. Qed.
Lemma prod_upto_ext' n f g : (forall i, (i < n)%nat -> f i = g i) -> prod_upto n f = prod_upto n g.
Proof. intros H. unfold prod_upto. f_equal. apply map_ext_in. intros i Hi. apply H. apply in_seq in Hi. lia. Qed.
Lemma prod_upto_nonneg n f : (forall i, (i < n)%nat -> 0 <= f i) -> 0 <= prod_upto n f.
Proof. induction n as [|n IH]; intros H; [rewrite prod_upto_0; lra|]. rewrite prod_upto_S. apply Rmult_le_pos; [apply IH; intros; apply H; lia|apply H; lia]. Qed.
Lemma prod_upto_pos n f : (forall i, (i < n)%nat -> 0 < f i) -> 0 < prod_upto n f.
Proof. induction n as [|n IH]; intros H; [rewrite prod_upto_0; lra|]. rewrite prod_upto_S. apply Rmult_lt_0_compat; [apply IH; intros; apply H; lia|apply H; lia]. Qed.
Lemma prod_upto_le n f g : (forall i, (i < n)%nat -> 0 <= f i <= g i) -> prod_upto n f <= prod_upto n g.
Proof.
  induction n as [|n IH]; intros H; [rewrite !prod_upto_0; lra|]. rewrite !prod_upto_S. assert (Hn : 0 <= f n <= g n) by (apply H; lia).
  apply Rmult_le_compat; try lra; [apply prod_upto_nonneg; intros; apply H; lia|apply IH; intros; apply H; lia].
Qed.
Lemma prod_upto_mult n f g : prod_upto n (fun i => f i * g i) = prod_upto n f * prod_upto n g.
Proof. induction n as [|n IH]; [rewrite !prod_upto_0; ring|]. rewrite !prod_upto_S, IH. ring. Qed.
Lemma prod_upto_pairs n f : prod_upto (2 * n) f = prod_upto n (fun j => f (2 * j)%nat * f (S (2 * j))).
Proof.
  induction n as [|n IH]; [reflexivity|]. replace (2 * S n)%nat with (S (S (2 * n))) by lia. rewrite !prod_upto_S, IH. ring.
Qed.
Lemma prod_over_seq (k : nat -> coord) n g : prod_over (map k (seq 0 n)) g = prod_upto n (fun i => g (k i)).
Proof. unfold prod_over, prod_upto. now rewrite map_map. Qed.
Lemma prod_over_coords d m g : prod_over (coords d m) g = prod_upto d (fun i => g (CPos i)) * (prod_upto d (fun i => g (CMom i)) * prod_upto m (fun j => prod_upto d (fun i => g (CNoise j i)))).
Proof.
  unfold coords. rewrite !prod_over_app, !prod_over_seq. do 2 f_equal. unfold prod_upto at 1. induction (seq 0 m) as [|j l IH]; [reflexivity|].
  cbn [flat_map map fold_right]. rewrite prod_over_app, prod_over_seq, IH. reflexivity.
Qed.

(** exp(-a t^2) decays *)
Lemma gauss_decay a : 0 < a -> exists C, 0 < C /\ forall t, exp (- (a * (t * t))) <= C * / (1 + Rabs t) ^ 2.
Proof.
  intros Ha. set (b := Rmin 1 a). assert (Hb : 0 < b) by (apply Rmin_pos; lra). assert (b <= 1) by apply Rmin_l. assert (b <= a) by apply Rmin_r.
  exists (2 / b). split; [apply Rdiv_lt_0_compat; lra|]. intros t. rewrite exp_Ropp. pose proof (Rabs_pos t) as Ht. set (r := Rabs t) in *. assert (Hr : t * t = r * r) by (unfold r, Rabs; destruct (Rcase_abs t); ring).
  assert (H1 : 1 + a * (t * t) <= exp (a * (t * t))) by apply exp_ineq1_le.
  assert (H2 : 0 < (1 + r) ^ 2) by (apply pow_lt; lra).
  assert (Hrr : 0 <= r * r) by (apply Rmult_le_pos; lra).
  assert (H3 : b / 2 * (1 + r) ^ 2 <= 1 + a * (t * t)).
  { rewrite Hr. assert (b * (r * r) <= a * (r * r)) by (apply Rmult_le_compat_r; lra). assert (E : (1 + r) ^ 2 = 2 * (1 + r * r) - (1 - r) * (1 - r)) by ring.
    assert (0 <= (1 - r) * (1 - r)) by apply Rle_0_sqr. assert (b / 2 * (1 + r) ^ 2 <= b / 2 * (2 * (1 + r * r))) by (apply Rmult_le_compat_l; lra). lra. }
  replace (2 / b * / (1 + r) ^ 2) with (/ (b / 2 * (1 + r) ^ 2)) by (field; repeat split; lra).
  apply Rinv_le_contravar; [apply Rmult_lt_0_compat; lra|lra].
Qed.

Lemma gauss_prod n (b : nat -> R) : (forall i, (i < n)%nat -> 0 < b i) ->
  exists C, 0 < C /\ forall t, prod_upto n (fun i => exp (- (b i * (t i * t i)))) <= C * prod_upto n (fun i => / (1 + Rabs (t i)) ^ 2).
Proof.
  induction n as [|n IH]; intros Hb; [exists 1; split; [lra|]; intros t; rewrite !prod_upto_0; lra|].
  destruct IH as (C & HC & H); [intros; apply Hb; lia|]. destruct (gauss_decay (Hb n ltac:(lia))) as (D & HD & HDt). exists (C * D). split; [now apply Rmult_lt_0_compat|].
  intros t. rewrite !prod_upto_S. specialize (H t). specialize (HDt (t n)).
  apply Rle_trans with ((C * prod_upto n (fun i => / (1 + Rabs (t i)) ^ 2)) * (D * / (1 + Rabs (t n)) ^ 2)); [|right; ring].
  apply Rmult_le_compat; auto; [apply prod_upto_nonneg; intros; left; apply exp_pos|left; apply exp_pos].
Qed.

Section Weight.
Variable s : vtree.
Hypothesis Hs : wfv s.
Variable m : nat.
Notation cont := (continuous (dim s) m).
(** auxiliary definition of a statement or a proof; models no code of /repo *)
Definition ptree (z : phase) : vtree := tree_of s (fun i => z (CPos i)).
(** auxiliary definition of a statement or a proof; models no code of /repo *)
Definition mtree (z : phase) : vtree := tree_of s (fun i => z (CMom i)).
Lemma ptree_ok z : like s (ptree z) /\ forall i, (i < dim s)%nat -> el (ptree z) i = z (CPos i).
Proof. apply (@tree_of_ok s (fun i => z (CPos i)) Hs). Qed.
Lemma mtree_ok z : like s (mtree z) /\ forall i, (i < dim s)%nat -> el (mtree z) i = z (CMom i).
Proof. apply (@tree_of_ok s (fun i => z (CMom i)) Hs). Qed.
Lemma cont_function U : continuous_function s U -> cont (fun z => U (ptree z)).
Proof.
  intros HU z e He. destruct (ptree_ok z) as [L E]. destruct (HU _ L e He) as (del & Hd & H). exists del. split; auto. intros z' Hz. destruct (ptree_ok z') as [L' E'].
  apply H; auto. intros i Hi. rewrite E, E' by auto. apply Hz. exact Hi.
Qed.
Lemma cont_observable f : continuous_observable s f -> cont (fun z => f (ptree z) (mtree z)).
Proof.
  intros Hf z e He. destruct (ptree_ok z) as [L E]. destruct (mtree_ok z) as [Lm Em]. destruct (Hf _ _ L Lm e He) as (del & Hd & H). exists del. split; auto. intros z' Hz.
  destruct (ptree_ok z') as [L' E']. destruct (mtree_ok z') as [Lm' Em'].
  apply H; auto. intros i Hi. rewrite E, E', Em, Em' by auto. split; apply Hz; exact Hi.
Qed.
Lemma cont_prod_upto n (g : nat -> phase -> R) : (forall i, (i < n)%nat -> cont (g i)) -> cont (fun z => prod_upto n (fun i => g i z)).
Proof.
  induction n as [|n IH]; intros H; [exact (cont_const (dim s) m 1)|].
  replace (fun z => prod_upto (S n) (fun i => g i z)) with (fun z => prod_upto n (fun i => g i z) * g n z) by (extensionality z; now rewrite prod_upto_S).
  apply cont_mult; [apply IH; intros; apply H; lia|apply H; lia].
Qed.
Lemma exp_continuity : continuity exp. Proof. apply derivable_continuous. apply derivable_exp. Qed.
Lemma cont_gauss a c : inside (dim s) m c -> cont (fun z => exp (- (a * (z c * z c)))).
Proof.
  intros Hc. apply (@cont_continuity (dim s) m exp (fun z => - (a * (z c * z c)))); [apply exp_continuity|]. apply (@cont_opp (dim s) m (fun z => a * (z c * z c))). apply (@cont_scale (dim s) m a (fun z => z c * z c)).
  apply cont_mult; now apply cont_coord.
Qed.
Variables (U : vtree -> R) (T : R) (a : nat -> R).
Hypothesis HT : 0 < T.
Hypothesis Ha : forall i, (i < dim s)%nat -> 0 < a i.
(** auxiliary definition of a statement or a proof; models no code of /repo *)
Definition weight (z : phase) : R := exp (- U (ptree z) / T) *
  (prod_upto (dim s) (fun i => exp (- (a i * (z (CMom i) * z (CMom i))))) * prod_upto m (fun j => prod_upto (dim s) (fun i => exp (- (1 / 2 * (z (CNoise j i) * z (CNoise j i))))))).
Lemma weight_pos z : 0 < weight z.
Proof.
  unfold weight. apply Rmult_lt_0_compat; [apply exp_pos|]. apply Rmult_lt_0_compat; apply prod_upto_pos; intros i _; [apply exp_pos|]. apply prod_upto_pos; intros j _; apply exp_pos.
Qed.
Lemma weight_cont : continuous_function s U -> cont weight.
Proof.
  intros HU. unfold weight. apply cont_mult.
  - apply (@cont_continuity (dim s) m exp (fun z => - U (ptree z) / T)); [apply exp_continuity|].
    replace (fun z => - U (ptree z) / T) with (fun z => - / T * U (ptree z)) by (extensionality z; unfold Rdiv; ring). apply cont_scale. now apply cont_function.
  - apply cont_mult.
    + apply (@cont_prod_upto (dim s) (fun i z => exp (- (a i * (z (CMom i) * z (CMom i)))))). intros i Hi. now apply cont_gauss.
    + apply (@cont_prod_upto m (fun j z => prod_upto (dim s) (fun i => exp (- (1 / 2 * (z (CNoise j i) * z (CNoise j i))))))). intros j Hj.
      apply (@cont_prod_upto (dim s) (fun i z => exp (- (1 / 2 * (z (CNoise j i) * z (CNoise j i)))))). intros i Hi. apply cont_gauss. cbn. auto.
Qed.
Lemma weight_decay : decays s U T -> exists C, 0 <= C /\ forall z, weight z <= C * decay (coords (dim s) m) z.
Proof.
  intros (C1 & H1). destruct (@gauss_prod (dim s) a Ha) as (C2 & HC2 & H2). destruct (@gauss_prod (dim s) (fun _ => 1 / 2)) as (C3 & HC3 & H3); [intros; lra|].
  assert (Hq : forall t, 0 < / (1 + Rabs t) ^ 2) by apply q_pos.
  assert (HC1 : 0 <= C1).
  { destruct (ptree_ok (fun _ => 0)) as [L _]. specialize (H1 _ L). pose proof (exp_pos (- U (ptree (fun _ => 0)) / T)) as He.
    set (P := prod_upto (dim s) (fun i => / (1 + Rabs (el (ptree (fun _ => 0)) i)) ^ 2)) in *. assert (0 < P) by (apply prod_upto_pos; intros; apply Hq).
    destruct (Rle_dec 0 C1); auto. exfalso. assert (C1 * P <= 0 * P) by (apply Rmult_le_compat_r; lra). lra. }
  exists (C1 * (C2 * C3 ^ m)). assert (0 < C3 ^ m) by now apply pow_lt. split; [apply Rmult_le_pos; [lra|]; apply Rmult_le_pos; lra|].
  intros z. unfold weight, decay. rewrite prod_over_coords.
  set (A := prod_upto (dim s) (fun i => / (1 + Rabs (z (CPos i))) ^ 2)). set (B := prod_upto (dim s) (fun i => / (1 + Rabs (z (CMom i))) ^ 2)).
  set (D := prod_upto m (fun j => prod_upto (dim s) (fun i => / (1 + Rabs (z (CNoise j i))) ^ 2))).
  assert (E1 : exp (- U (ptree z) / T) <= C1 * A).
  { destruct (ptree_ok z) as [L E]. eapply Rle_trans; [apply (H1 _ L)|]. right. f_equal. apply prod_upto_ext'. intros i Hi. now rewrite E. }
  assert (E2 : prod_upto (dim s) (fun i => exp (- (a i * (z (CMom i) * z (CMom i))))) <= C2 * B) by apply (H2 (fun i => z (CMom i))).
  assert (E3 : prod_upto m (fun j => prod_upto (dim s) (fun i => exp (- (1 / 2 * (z (CNoise j i) * z (CNoise j i)))))) <= C3 ^ m * D).
  { apply Rle_trans with (prod_upto m (fun j => C3 * prod_upto (dim s) (fun i => / (1 + Rabs (z (CNoise j i))) ^ 2))).
    - apply prod_upto_le. intros j _. split; [apply prod_upto_nonneg; intros; left; apply exp_pos|]. apply (H3 (fun i => z (CNoise j i))).
    - rewrite prod_upto_mult. right. f_equal. clear. induction m as [|n IH]; [reflexivity|]. rewrite prod_upto_S, IH. cbn. ring. }
  replace (C1 * (C2 * C3 ^ m) * (A * (B * D))) with ((C1 * A) * ((C2 * B) * (C3 ^ m * D))) by ring.
  assert (N1 : 0 <= prod_upto (dim s) (fun i => exp (- (a i * (z (CMom i) * z (CMom i)))))) by (apply prod_upto_nonneg; intros; left; apply exp_pos).
  assert (N2 : 0 <= prod_upto m (fun j => prod_upto (dim s) (fun i => exp (- (1 / 2 * (z (CNoise j i) * z (CNoise j i))))))) by (apply prod_upto_nonneg; intros; apply prod_upto_nonneg; intros; left; apply exp_pos).
  apply Rmult_le_compat; auto; [left; apply exp_pos|now apply Rmult_le_pos|]. apply Rmult_le_compat; auto.
Qed.
(** bounded continuous functions are integrable *)
Lemma weight_integrable g B : continuous_function s U -> decays s U T -> cont g -> (forall z, Rabs (g z) <= B) -> riemann_integrable (dim s) m (fun z => weight z * g z).
Proof.
  intros HU HD Hg HB. destruct (weight_decay HD) as (C & HC & H). assert (B0 : 0 <= B) by (eapply Rle_trans; [apply Rabs_pos|apply (HB (fun _ => 0))]).
  apply (@integrable_decay (dim s) m (C * B)); [apply cont_mult; auto; now apply weight_cont|now apply Rmult_le_pos|]. intros z. rewrite Rabs_mult, (Rabs_pos_eq (weight z)) by (left; apply weight_pos).
  apply Rle_trans with (C * decay (coords (dim s) m) z * B); [|right; ring]. apply Rmult_le_compat; auto using Rabs_pos. left. apply weight_pos.
Qed.
End Weight.
