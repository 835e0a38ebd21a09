From Coq Require Import Reals Lra.
From Verif Require Import Base ListUtil Pytree PytreeSpec Io TreeUtil TreeUtilSpec TreeUtilProofs Integrator IntegratorSpec IntegratorBasics ObaboProofs.
Open Scope R_scope.
Set Implicit Arguments.

Section P.
Variable s : vtree.
Hypothesis Hs : wfv s.
Variable mass : mass_matrix.
Hypothesis Hinv : tens_fits (m_inv mass) s.
Hypothesis Hsq : tens_fits (m_sqrt mass) s.
Lemma energy_sum p q g c : like s p -> like s q -> like s g ->
  rl_energy p q mass g c = c * sum_upto (dim s) (fun i => (el p i + el q i) * el (tmat (m_inv mass) g) i).
Proof.
  intros Hp Hq Hgr. unfold rl_energy. f_equal. rewrite (tdot_ok Hs) by auto with like. apply sum_upto_ext. intros i Hi. rewrite (el_add Hs) by auto. reflexivity.
Qed.
Lemma energy_rev p q g c : like s p -> like s q -> like s g -> rl_energy (tneg q) (tneg p) mass g c = - rl_energy p q mass g c.
Proof.
  intros Hp Hq Hgr. rewrite !energy_sum by auto using like_neg.
  rewrite (@sum_upto_ext (dim s) (fun i => (el (tneg q) i + el (tneg p) i) * el (tmat (m_inv mass) g) i) (fun i => -1 * ((el p i + el q i) * el (tmat (m_inv mass) g) i))).
  - rewrite sum_upto_scale. lra.
  - intros i Hi. rewrite !(el_neg Hs) by auto. lra.
Qed.
Section Noise.
Variable normal : key -> list nat -> list R.
Hypothesis Hn : normal_ok normal.
Variables (Data Batch Model : Type).
Variable get_data : Data -> Data * Batch.
Variable pot_model : vtree -> Batch -> Model -> Model.
Variable pot_grad : vtree -> Batch -> Model -> vtree.
Hypothesis Hg : forall t b m, like s t -> like s (pot_grad t b m).
Variables (friction eps : R).
Local Notation bdy := (rl_body normal get_data pot_model pot_grad friction eps mass).
Definition rl_x (st : rl_st Data Model) (step : nat) : vtree := if (step =? 0)%nat then r_pos st else position_update eps mass (r_pos st) (r_mom st).
Definition rl_eta (st : rl_st Data Model) : vtree := tree_scale (sqrt (4 * friction * eps)) (fst (cov_scaled_noise normal (Sub (r_key st) 1) mass (r_mom st))).
Definition rl_g (st : rl_st Data Model) (step : nat) : vtree := pot_grad (rl_x st step) (snd (get_data (r_data st))) (r_model st).
Definition rl_p (st : rl_st Data Model) (step : nat) : vtree :=
  tree_scale (1 / (1 + eps * friction)) (tadd (tadd (tree_scale (1 - eps * friction) (r_mom st)) (tree_scale (-1 * eps) (rl_g st step))) (rl_eta st)).
Lemma rl_body_eq st i : fst (bdy st i) = mkRlSt (rl_x st i) (rl_p st i) (pot_model (rl_x st i) (snd (get_data (r_data st))) (r_model st))
   (rl_energy (r_mom st) (rl_p st i) mass (rl_g st i) (1 / 2 * eps) + r_pot st) (fst (get_data (r_data st))) (Sub (r_key st) 0).
Proof.
  unfold rl_body, rl_p, rl_g, rl_eta. fold (rl_x st i). destruct (cov_scaled_noise normal (Sub (r_key st) 1) mass (r_mom st)) as [noise used]. cbn [fst].
  destruct (get_data (r_data st)) as [d b]. reflexivity.
Qed.
Lemma noise_ok k t : like s t -> let r := cov_scaled_noise normal k mass t in
  like s (fst r) /\ (forall i, (i < dim s)%nat -> el (fst r) i = mulv (m_sqrt mass) (dim s) (xi normal k s) i) /\ snd r = map (Sub k) (seq 0 (length (leaves s))).
Proof.
  intros Ht r. unfold r, cov_scaled_noise. destruct (@random_tree_ok s normal k t Hn Ht) as (Hl & Hx & Hu).
  destruct (random_tree normal k t) as [noise used]. cbn [fst snd] in *. split; [auto with like|]. split; auto.
  intros i Hi. rewrite (el_mat Hs) by auto. apply mulv_ext. auto.
Qed.
Lemma rl_body_keys st i : like s (r_mom st) -> snd (bdy st i) = map (Sub (Sub (r_key st) 1)) (seq 0 (length (leaves s))).
Proof.
  intros Hm. destruct (noise_ok (Sub (r_key st) 1) Hm) as (_ & _ & U). unfold rl_body.
  destruct (cov_scaled_noise normal (Sub (r_key st) 1) mass (r_mom st)) as [noise used]. destruct (get_data (r_data st)) as [d b]. exact U.
Qed.
Lemma rl_parts_like st i : like s (r_pos st) -> like s (r_mom st) -> like s (rl_x st i) /\ like s (rl_eta st) /\ like s (rl_g st i) /\ like s (rl_p st i).
Proof.
  intros Hp Hm. assert (H1 : like s (rl_x st i)) by (unfold rl_x; destruct (i =? 0)%nat; auto using like_pos_update).
  assert (H2 : like s (rl_eta st)) by (apply like_scale, noise_ok; auto). assert (H3 : like s (rl_g st i)) by (apply Hg; auto).
  split; auto. split; auto. split; auto. unfold rl_p. auto 8 with like.
Qed.
Lemma el_rl_p st j i : like s (r_pos st) -> like s (r_mom st) -> (i < dim s)%nat ->
  el (rl_p st j) i = ((1 - eps * friction) * el (r_mom st) i - eps * el (rl_g st j) i + el (rl_eta st) i) / (1 + eps * friction).
Proof.
  intros Hp Hm Hi. destruct (@rl_parts_like st j Hp Hm) as (H1 & H2 & H3 & H4). unfold rl_p at 1.
  rewrite (el_scale' Hs), !(el_add Hs), !(el_scale' Hs) by auto 8 with like. unfold Rdiv. ring.
Qed.
Definition rl_at (st : rl_st Data Model) (n : nat) : rl_st Data Model := fst (scan bdy n st).
Lemma rl_at_S st n : rl_at st (S n) = fst (bdy (rl_at st n) n).
Proof. unfold rl_at. now rewrite scan_S. Qed.
Lemma rl_at_like st n : like s (r_pos st) -> like s (r_mom st) -> like s (r_pos (rl_at st n)) /\ like s (r_mom (rl_at st n)).
Proof.
  intros Hp Hm. induction n as [|n [I1 I2]]; [auto|]. rewrite rl_at_S, rl_body_eq. cbn [r_pos r_mom].
  destruct (@rl_parts_like (rl_at st n) n I1 I2) as (H1 & H2 & H3 & H4). auto.
Qed.
Lemma rl_at_data st n : r_data (rl_at st n) = drawn get_data (r_data st) n /\ r_key (rl_at st n) = chain (r_key st) n.
Proof.
  induction n as [|n [IH1 IH2]]; [auto|]. rewrite rl_at_S, rl_body_eq. cbn [r_data r_key]. rewrite IH1, IH2. auto.
Qed.
End Noise.

Section Reverse.
Variables (normal normal' : key -> list nat -> list R).
Hypothesis Hn : normal_ok normal.
Hypothesis Hn' : normal_ok normal'.
Variables (Data Batch Model : Type).
Variable get_data : Data -> Data * Batch.
Variable pot_model : vtree -> Batch -> Model -> Model.
Variable pot_grad : vtree -> Batch -> Model -> vtree.
Variable G : vtree -> Batch -> vtree.
Hypothesis HG : forall t b m, pot_grad t b m = G t b.
Hypothesis Hg : forall t b m, like s t -> like s (pot_grad t b m).
Variables (friction eps : R).
Hypothesis Hfr : 1 + eps * friction <> 0.
Variable n : nat.
Variables st st' : rl_st Data Model.
Hypothesis Hp : like s (r_pos st).
Hypothesis Hm : like s (r_mom st).
Local Notation F := (rl_at normal get_data pot_model pot_grad friction eps st).
Local Notation B := (rl_at normal' get_data pot_model pot_grad friction eps st').
Hypothesis Hp' : r_pos st' = r_pos (F n).
Hypothesis Hm' : r_mom st' = tneg (r_mom (F n)).
Hypothesis Hpot' : r_pot st' = 0.
Hypothesis Hb : forall m, (m < n)%nat -> batch_no get_data (r_data st') m = batch_no get_data (r_data st) (n - 1 - m).
Hypothesis Hnoise : forall j i, (j < n)%nat -> (i < dim s)%nat ->
  el (rl_eta normal' friction eps (B j)) i = el (rl_eta normal friction eps (F (n - 1 - j))) i - 2 * eps * friction * (el (r_mom (F (n - 1 - j))) i + el (r_mom (F (n - j))) i).

Lemma rl_reverse j : (j <= n)%nat ->
  ((j < n)%nat -> rl_x eps (B j) j = r_pos (F (n - j))) /\ r_mom (B j) = tneg (r_mom (F (n - j))) /\ r_pot (B j) = - (r_pot (F n) - r_pot (F (n - j))) /\
  ((0 < j)%nat -> r_pos (B j) = r_pos (F (n - j + 1))) /\
  (forall q, (q < j)%nat -> r_mom (B q) = tneg (r_mom (F (n - q)))).
Proof.
  induction j as [|j IH]; intros Hj.
  - rewrite Nat.sub_0_r. unfold rl_x. cbn [Nat.eqb]. split; [intros _; exact Hp'|]. split; [exact Hm'|]. split; [cbn; rewrite Hpot'; lra|]. split; intros; lia.
  - destruct IH as (I1 & I2 & I3 & _ & I5); [lia|]. specialize (I1 ltac:(lia)).
    replace (n - S j)%nat with (n - 1 - j)%nat by lia. pose proof (fun i => Hnoise (j := j) (i := i)) as Hno. set (q := (n - 1 - j)%nat) in *.
    assert (Eq : (n - j)%nat = S q) by lia. rewrite Eq in *.
    destruct (@rl_at_like normal Hn Data Batch Model get_data pot_model pot_grad Hg friction eps st q Hp Hm) as [Lx Lp].
    destruct (@rl_parts_like normal Hn Data Batch Model get_data pot_grad Hg friction eps (F q) q Lx Lp) as (P1 & P2 & P3 & P4).
    assert (EF : r_pos (F (S q)) = rl_x eps (F q) q /\ r_mom (F (S q)) = rl_p normal get_data pot_grad friction eps (F q) q /\
                 r_pot (F (S q)) = rl_energy (r_mom (F q)) (rl_p normal get_data pot_grad friction eps (F q) q) mass (rl_g get_data pot_grad eps (F q) q) (1 / 2 * eps) + r_pot (F q)).
    { rewrite !rl_at_S, rl_body_eq. cbn. auto. }
    destruct EF as (EF1 & EF2 & EF3).
    destruct (@rl_at_data normal Data Batch Model get_data pot_model pot_grad friction eps st q) as [Dq _].
    destruct (@rl_at_data normal' Data Batch Model get_data pot_model pot_grad friction eps st' j) as [Dj _].
    assert (B1 : snd (get_data (r_data (B j))) = snd (get_data (r_data (F q)))).
    { rewrite Dj, Dq. change (batch_no get_data (r_data st') j = batch_no get_data (r_data st) q). apply Hb. lia. }
    assert (Eg : rl_g get_data pot_grad eps (B j) j = rl_g get_data pot_grad eps (F q) q).
    { unfold rl_g. rewrite I1, EF1, B1, !HG. reflexivity. }
    assert (Lpx : like s (r_pos (B j)) /\ like s (r_mom (B j))).
    { destruct (@rl_at_like normal Hn Data Batch Model get_data pot_model pot_grad Hg friction eps st n Hp Hm) as [Lnx Lnp].
      apply (@rl_at_like normal' Hn' Data Batch Model get_data pot_model pot_grad Hg friction eps st' j); [now rewrite Hp'|rewrite Hm'; now apply like_neg]. }
    destruct Lpx as [Lbx Lbp].
    destruct (@rl_parts_like normal' Hn' Data Batch Model get_data pot_grad Hg friction eps (B j) j Lbx Lbp) as (Q1 & Q2 & Q3 & Q4).
    assert (Ep : rl_p normal' get_data pot_grad friction eps (B j) j = tneg (r_mom (F q))).
    { apply (like_ext Hs); auto using like_neg. intros i Hi. rewrite (el_neg Hs) by auto.
      rewrite el_rl_p by auto. rewrite Eg, I2, (Hno i), EF2 by (auto; lia). rewrite (el_neg Hs) by auto. rewrite el_rl_p by auto.
      field. exact Hfr. }
    assert (Eb : r_pos (B (S j)) = rl_x eps (B j) j /\ r_mom (B (S j)) = tneg (r_mom (F q)) /\
                 r_pot (B (S j)) = rl_energy (r_mom (B j)) (tneg (r_mom (F q))) mass (rl_g get_data pot_grad eps (F q) q) (1 / 2 * eps) + r_pot (B j)).
    { rewrite !rl_at_S, rl_body_eq. cbn [r_pos r_mom r_pot]. rewrite Ep, Eg. auto. }
    destruct Eb as (E1 & E2 & E3). split; [|split; [exact E2|split; [|split]]].
    + intros Hlt. unfold rl_x at 1. cbn [Nat.eqb]. rewrite E1, I1, EF1, E2. unfold rl_x. destruct (Nat.eqb_spec q 0) as [Hq|Hq]; [lia|].
      apply (drift_back Hs); auto.
    + rewrite E3, I2, EF2, I3, EF3. rewrite energy_rev by auto. lra.
    + intros _. rewrite E1, I1. f_equal. f_equal. lia.
    + intros r Hr. destruct (Nat.eq_dec r j) as [->|Hne]; [rewrite Eq; exact I2|]. apply I5. lia.
Qed.
End Reverse.
End P.
