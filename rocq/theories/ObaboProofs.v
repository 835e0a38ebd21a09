From Coq Require Import Reals Lra.
From Verif Require Import Base ListUtil Pytree PytreeSpec Io TreeUtil TreeUtilSpec TreeUtilProofs Integrator IntegratorSpec IntegratorBasics.
Open Scope R_scope.
Set Implicit Arguments.

Create HintDb like.
#[export] Hint Resolve like_add like_scale like_mul like_mat like_emap : like.

Lemma mulv_opp m n v i : mulv m n (fun j => - v j) i = - mulv m n v i.
Proof. unfold mulv. replace (- _) with (-1 * sum_upto n (fun j => tens_entry m i j * v j)) by lra. rewrite <- sum_upto_scale. apply sum_upto_ext. intros; ring. Qed.

Lemma sum_rev N f : sum_upto N (fun j => f (N - 1 - j)%nat) = sum_upto N f.
Proof.
  induction N as [|N IH]; [reflexivity|]. rewrite sum_upto_shift, sum_upto_S. rewrite Rplus_comm. f_equal; [|f_equal; lia].
  rewrite <- IH. apply sum_upto_ext. intros j Hj. f_equal. lia.
Qed.
(** negation of a vector *)
Definition tneg (t : vtree) : vtree := tree_scale (-1) t.

Section P.
Variable s : vtree.
Hypothesis Hs : wfv s.
Lemma like_neg a : like s a -> like s (tneg a). Proof. apply like_scale. Qed.
Lemma el_neg a i : like s a -> (i < dim s)%nat -> el (tneg a) i = - el a i.
Proof. intros H Hi. unfold tneg. rewrite (el_scale' Hs) by auto. lra. Qed.
Lemma mat_neg m a i : tens_fits m s -> like s a -> (i < dim s)%nat -> el (tmat m (tneg a)) i = - el (tmat m a) i.
Proof.
  intros Hm H Hi. rewrite !(el_mat Hs) by auto using like_neg. rewrite <- mulv_opp. apply mulv_ext. intros j Hj. now apply el_neg.
Qed.
Variable mass : mass_matrix.
Hypothesis Hinv : tens_fits (m_inv mass) s.
Hypothesis Hsq : tens_fits (m_sqrt mass) s.

Lemma like_pos_update c x p : like s x -> like s p -> like s (position_update c mass x p).
Proof. intros. unfold position_update. auto with like. Qed.
Lemma el_pos_update c x p i : like s x -> like s p -> (i < dim s)%nat -> el (position_update c mass x p) i = el x i + c * el (tmat (m_inv mass) p) i.
Proof. intros. unfold position_update. rewrite (el_add Hs), (el_scale' Hs); auto with like. Qed.
(** a drift is undone by the same drift with negated momentum *)
Lemma drift_back c x p : like s x -> like s p -> position_update c mass (position_update c mass x p) (tneg p) = x.
Proof.
  intros Hx Hp. apply (like_ext Hs); auto using like_pos_update, like_neg.
  intros i Hi. rewrite !el_pos_update, mat_neg by auto using like_pos_update, like_neg. lra.
Qed.
Lemma kin_sum p : like s p -> kinetic_energy mass p = 1 / 2 * sum_upto (dim s) (fun i => el p i * el (tmat (m_inv mass) p) i).
Proof. intros H. unfold kinetic_energy. now rewrite (tdot_ok Hs) by auto with like. Qed.
Lemma kin_neg p : like s p -> kinetic_energy mass (tneg p) = kinetic_energy mass p.
Proof.
  intros H. rewrite !kin_sum by auto using like_neg. f_equal. apply sum_upto_ext. intros i Hi. rewrite mat_neg, el_neg by auto. lra.
Qed.

(** ** obabo *)
Lemma like_ob_mom c g p : like s g -> like s p -> like s (ob_momentum_update c g p).
Proof. intros. unfold ob_momentum_update. auto with like. Qed.
Lemma el_ob_mom c g p i : like s g -> like s p -> (i < dim s)%nat -> el (ob_momentum_update c g p) i = el p i - c * el g i.
Proof. intros. unfold ob_momentum_update. rewrite (el_add Hs), (el_scale' Hs) by auto with like. lra. Qed.

Section Noise.
Variable normal : key -> list nat -> list R.
Hypothesis Hn : normal_ok normal.
Lemma resample_ok friction eps T p k : like s p ->
  let r := fst (ob_resample normal friction eps T mass p k) in
  like s r /\ (forall i, (i < dim s)%nat -> el r i = sqrt (exp (- friction * eps)) * el p i + sqrt ((1 - exp (- friction * eps)) * T) * mulv (m_sqrt mass) (dim s) (xi normal k s) i) /\
  snd (ob_resample normal friction eps T mass p k) = map (Sub k) (seq 0 (length (leaves s))).
Proof.
  intros Hp r. unfold r, ob_resample. destruct (@random_tree_ok s normal k p Hn Hp) as (Hl & Hx & Hu).
  destruct (random_tree normal k p) as [noise used]. cbn [fst snd] in *. split; [auto with like|]. split; auto. intros i Hi.
  rewrite (el_add Hs), !(el_scale' Hs), (el_mat Hs) by auto with like. f_equal. f_equal. apply mulv_ext. intros j Hj. auto.
Qed.
Variables (Data Batch Model : Type).
Variable get_data : Data -> Data * Batch.
Variable pot_value : vtree -> Batch -> Model -> R.
Variable pot_model : vtree -> Batch -> Model -> Model.
Variable pot_grad : vtree -> Batch -> Model -> vtree.
Hypothesis Hg : forall t b m, like s t -> like s (pot_grad t b m).
Variables (friction eps T : R).
Local Notation stp := (ob_step normal get_data pot_value pot_model pot_grad friction eps T mass).
(** intermediate values of a step *)
Definition ob_r (st : ob_st Data Model) : vtree := fst (ob_resample normal friction eps T mass (o_mom st) (Sub (o_key st) 1)).
Definition ob_g1 (st : ob_st Data Model) : vtree := pot_grad (o_pos st) (snd (get_data (o_data st))) (o_model st).
Definition ob_f (st : ob_st Data Model) : vtree := ob_momentum_update (1 / 2 * eps) (ob_g1 st) (ob_r st).
Definition ob_x (st : ob_st Data Model) : vtree := position_update eps mass (o_pos st) (ob_f st).
Definition ob_m1 (st : ob_st Data Model) : Model := pot_model (o_pos st) (snd (get_data (o_data st))) (o_model st).
Definition ob_g2 (st : ob_st Data Model) : vtree := pot_grad (ob_x st) (snd (get_data (fst (get_data (o_data st))))) (ob_m1 st).
Definition ob_s (st : ob_st Data Model) : vtree := ob_momentum_update (1 / 2 * eps) (ob_g2 st) (ob_f st).
Lemma ob_step_eq st i : fst (stp st i) =
  mkObSt (ob_x st) (fst (ob_resample normal friction eps T mass (ob_s st) (Sub (o_key st) 2)))
    (pot_model (ob_x st) (snd (get_data (fst (get_data (o_data st))))) (ob_m1 st))
    (1 / 2 * (pot_value (o_pos st) (snd (get_data (o_data st))) (o_model st) + pot_value (ob_x st) (snd (get_data (fst (get_data (o_data st))))) (ob_m1 st)))
    (fst (get_data (fst (get_data (o_data st))))) (Sub (o_key st) 0) (o_start st + kinetic_energy mass (ob_r st)) (o_end st + kinetic_energy mass (ob_s st)).
Proof.
  unfold ob_step, ob_s, ob_f, ob_g2, ob_x, ob_m1, ob_f, ob_g1, ob_r.
  destruct (ob_resample normal friction eps T mass (o_mom st) (Sub (o_key st) 1)) as [r u1]. cbn [fst].
  destruct (get_data (o_data st)) as [d1 b1]. cbn [fst snd]. destruct (get_data d1) as [d2 b2]. cbn [fst snd].
  match goal with |- context [let (x, y) := ?e in _] => destruct e as [f2 u2] end. reflexivity.
Qed.
Lemma ob_step_keys st i : like s (o_pos st) -> like s (o_mom st) ->
  snd (stp st i) = map (Sub (Sub (o_key st) 1)) (seq 0 (length (leaves s))) ++ map (Sub (Sub (o_key st) 2)) (seq 0 (length (leaves s))).
Proof.
  intros Hp Hm. pose proof (resample_ok friction eps T (Sub (o_key st) 1) Hm) as (Hr & _ & U1). unfold ob_step.
  destruct (ob_resample normal friction eps T mass (o_mom st) (Sub (o_key st) 1)) as [r u1]. cbn [fst snd] in *.
  destruct (get_data (o_data st)) as [d1 b1]. cbn [fst snd]. destruct (get_data d1) as [d2 b2]. cbn [fst snd].
  match goal with |- context [ob_resample _ _ _ _ _ ?p ?k] => assert (Hp2 : like s p) by (repeat (apply like_ob_mom || apply Hg || apply like_pos_update || assumption)); pose proof (resample_ok friction eps T k Hp2) as (_ & _ & U2) end.
  match goal with |- context [let (x, y) := ?e in _] => destruct e as [f2 u2] end. cbn [snd] in *. congruence.
Qed.
Lemma ob_parts_like st : like s (o_pos st) -> like s (o_mom st) ->
  like s (ob_r st) /\ like s (ob_g1 st) /\ like s (ob_f st) /\ like s (ob_x st) /\ like s (ob_g2 st) /\ like s (ob_s st).
Proof.
  intros Hp Hm. assert (H1 : like s (ob_r st)) by (apply resample_ok; auto). assert (H2 : like s (ob_g1 st)) by (apply Hg; auto).
  assert (H3 : like s (ob_f st)) by (apply like_ob_mom; auto). assert (H4 : like s (ob_x st)) by (apply like_pos_update; auto).
  assert (H5 : like s (ob_g2 st)) by (apply Hg; auto). assert (H6 : like s (ob_s st)) by (apply like_ob_mom; auto). auto 10.
Qed.
Lemma ob_step_like st i : like s (o_pos st) -> like s (o_mom st) -> like s (o_pos (fst (stp st i))) /\ like s (o_mom (fst (stp st i))).
Proof.
  intros Hp Hm. rewrite ob_step_eq. cbn [o_pos o_mom]. destruct (@ob_parts_like st Hp Hm) as (_ & _ & _ & H4 & _ & H6). split; auto. now apply resample_ok.
Qed.
(** the state after n steps *)
Definition ob_at (st : ob_st Data Model) (n : nat) : ob_st Data Model := fst (scan stp n st).
Lemma ob_at_S st n : ob_at st (S n) = fst (stp (ob_at st n) n).
Proof. unfold ob_at. now rewrite scan_S. Qed.
Lemma ob_at_like st n : like s (o_pos st) -> like s (o_mom st) -> like s (o_pos (ob_at st n)) /\ like s (o_mom (ob_at st n)).
Proof. intros Hp Hm. induction n as [|n IH]; [auto|]. rewrite ob_at_S. destruct IH. now apply ob_step_like. Qed.
Lemma ob_at_data st n : o_data (ob_at st n) = drawn get_data (o_data st) (2 * n) /\ o_key (ob_at st n) = chain (o_key st) n.
Proof.
  induction n as [|n [IH1 IH2]]; [auto|]. rewrite ob_at_S, ob_step_eq. cbn [o_data o_key]. rewrite IH1, IH2.
  replace (2 * S n)%nat with (S (S (2 * n))) by lia. auto.
Qed.
Lemma ob_at_energy st n : o_start (ob_at st n) = o_start st + sum_upto n (fun j => kinetic_energy mass (ob_r (ob_at st j))) /\
  o_end (ob_at st n) = o_end st + sum_upto n (fun j => kinetic_energy mass (ob_s (ob_at st j))).
Proof.
  induction n as [|n [IH1 IH2]]; [unfold sum_upto; cbn; lra|]. rewrite !ob_at_S, ob_step_eq. cbn [o_start o_end]. rewrite !sum_upto_S, IH1, IH2. lra.
Qed.
End Noise.

(** ** reversal *)
Section Reverse.
Variables (normal normal' : key -> list nat -> list R).
Hypothesis Hn : normal_ok normal.
Hypothesis Hn' : normal_ok normal'.
Variables (Data Batch Model : Type).
Variable get_data : Data -> Data * Batch.
Variable pot_value : vtree -> Batch -> Model -> R.
Variable pot_model : vtree -> Batch -> Model -> Model.
Variable pot_grad : vtree -> Batch -> Model -> vtree.
Variable G : vtree -> Batch -> vtree.
Hypothesis HG : forall t b m, pot_grad t b m = G t b.
Hypothesis Hg : forall t b m, like s t -> like s (pot_grad t b m).
Variables (friction eps T : R).
Variable n : nat.
Variables st : ob_st Data Model.
Hypothesis Hp : like s (o_pos st).
Hypothesis Hm : like s (o_mom st).
Variable st' : ob_st Data Model.
Local Notation F := (ob_at normal get_data pot_value pot_model pot_grad friction eps T st).
Local Notation B := (ob_at normal' get_data pot_value pot_model pot_grad friction eps T st').
Local Notation fr := (ob_r normal friction eps T).
Local Notation fs := (ob_s normal get_data pot_model pot_grad friction eps T).
Hypothesis Hp' : o_pos st' = o_pos (F n).
Hypothesis Hm' : o_mom st' = tneg (o_mom (F n)).
Hypothesis Hb : forall m, (m < 2 * n)%nat -> batch_no get_data (o_data st') m = batch_no get_data (o_data st) (2 * n - 1 - m).
(** the noise of the reverse path undoes the refreshments *)
Definition undo1 (j : nat) : Prop := ob_r normal' friction eps T (B j) = tneg (fs (F (n - 1 - j))).
Definition undo2 (j : nat) : Prop := fst (ob_resample normal' friction eps T mass (tneg (fr (F (n - 1 - j)))) (Sub (o_key (B j)) 2)) = tneg (o_mom (F (n - 1 - j))).
Hypothesis Hnoise : forall j, (j < n)%nat -> o_mom (B j) = tneg (o_mom (F (n - j))) -> undo1 j /\ undo2 j.

Lemma ob_reverse j : (j <= n)%nat ->
  o_pos (B j) = o_pos (F (n - j)) /\ o_mom (B j) = tneg (o_mom (F (n - j))) /\
  (forall i, (i < j)%nat -> ob_r normal' friction eps T (B i) = tneg (fs (F (n - 1 - i))) /\
                            ob_s normal' get_data pot_model pot_grad friction eps T (B i) = tneg (fr (F (n - 1 - i)))).
Proof.
  induction j as [|j IH]; intros Hj.
  - rewrite Nat.sub_0_r. split; [exact Hp'|]. split; [exact Hm'|]. intros; lia.
  - destruct IH as (I1 & I2 & I3); [lia|].
    destruct (Hnoise (j := j)) as [U1 U2]; [lia|exact I2|]. unfold undo1, undo2 in *.
    replace (n - S j)%nat with (n - 1 - j)%nat by lia. set (q := (n - 1 - j)%nat) in *.
    assert (Eq : (n - j)%nat = S q) by lia.
    destruct (@ob_at_like normal Hn Data Batch Model get_data pot_value pot_model pot_grad Hg friction eps T st q Hp Hm) as [Lx Lp].
    destruct (@ob_parts_like normal Hn Data Batch Model get_data pot_model pot_grad Hg friction eps T (F q) Lx Lp) as (P1 & P2 & P3 & P4 & P5 & P6).
    assert (Ex : o_pos (B j) = ob_x normal get_data pot_grad friction eps T (F q)).
    { rewrite I1, Eq, ob_at_S, ob_step_eq. reflexivity. }
    (* the batches *)
    destruct (@ob_at_data normal Data Batch Model get_data pot_value pot_model pot_grad Hg friction eps T st q) as [Dq _].
    destruct (@ob_at_data normal' Data Batch Model get_data pot_value pot_model pot_grad Hg friction eps T st' j) as [Dj _].
    assert (B1 : snd (get_data (o_data (B j))) = snd (get_data (fst (get_data (o_data (F q)))))).
    { rewrite Dj, Dq. change (batch_no get_data (o_data st') (2 * j) = batch_no get_data (o_data st) (S (2 * q))). rewrite Hb by lia. f_equal. lia. }
    assert (B2 : snd (get_data (fst (get_data (o_data (B j))))) = snd (get_data (o_data (F q)))).
    { rewrite Dj, Dq. change (batch_no get_data (o_data st') (S (2 * j)) = batch_no get_data (o_data st) (2 * q)). rewrite Hb by lia. f_equal. lia. }
    assert (G1 : ob_g1 get_data pot_grad (B j) = ob_g2 normal get_data pot_model pot_grad friction eps T (F q)).
    { unfold ob_g1, ob_g2. rewrite Ex, B1, !HG. reflexivity. }
    assert (Ef : ob_f normal' get_data pot_grad friction eps T (B j) = tneg (ob_f normal get_data pot_grad friction eps T (F q))).
    { unfold ob_f at 1. rewrite U1, G1. apply (like_ext Hs); auto using like_neg, like_ob_mom. intros i Hi.
      rewrite el_ob_mom, !el_neg by auto using like_neg. unfold ob_s. rewrite el_ob_mom by auto. lra. }
    assert (Ex' : ob_x normal' get_data pot_grad friction eps T (B j) = o_pos (F q)).
    { unfold ob_x at 1. rewrite Ef, Ex. apply drift_back; auto. }
    assert (G2 : ob_g2 normal' get_data pot_model pot_grad friction eps T (B j) = ob_g1 get_data pot_grad (F q)).
    { unfold ob_g1, ob_g2. rewrite Ex', B2, !HG. reflexivity. }
    assert (Es : ob_s normal' get_data pot_model pot_grad friction eps T (B j) = tneg (fr (F q))).
    { unfold ob_s at 1. rewrite Ef, G2. apply (like_ext Hs); auto using like_neg, like_ob_mom. intros i Hi.
      rewrite el_ob_mom, !el_neg by auto using like_neg. unfold ob_f. rewrite el_ob_mom by auto. lra. }
    rewrite ob_at_S, ob_step_eq. cbn [o_pos o_mom]. split; [exact Ex'|]. split; [rewrite Es; exact U2|].
    intros i Hi. destruct (Nat.eq_dec i j) as [->|Hne]; [fold q; auto|]. apply I3. lia.
Qed.
Lemma ob_reverse_energy : o_start (B n) - o_start st' = o_end (F n) - o_end st /\ o_end (B n) - o_end st' = o_start (F n) - o_start st.
Proof.
  destruct (ob_reverse (Nat.le_refl n)) as (_ & _ & H).
  destruct (@ob_at_energy normal Data Batch Model get_data pot_value pot_model pot_grad friction eps T st n) as [E1 E2].
  destruct (@ob_at_energy normal' Data Batch Model get_data pot_value pot_model pot_grad friction eps T st' n) as [E3 E4].
  rewrite E1, E2, E3, E4.
  assert (Hl : forall q, like s (fr (F q)) /\ like s (fs (F q))).
  { intros q. destruct (@ob_at_like normal Hn Data Batch Model get_data pot_value pot_model pot_grad Hg friction eps T st q Hp Hm) as [Lx Lp].
    destruct (@ob_parts_like normal Hn Data Batch Model get_data pot_model pot_grad Hg friction eps T (F q) Lx Lp) as (P1 & _ & _ & _ & _ & P6). auto. }
  split.
  - rewrite (@sum_upto_ext n _ (fun j => kinetic_energy mass (fs (F (n - 1 - j))))).
    2:{ intros i Hi. destruct (H i Hi) as [-> _]. apply kin_neg, Hl. }
    rewrite (sum_rev n (fun j => kinetic_energy mass (fs (F j)))). lra.
  - rewrite (@sum_upto_ext n _ (fun j => kinetic_energy mass (fr (F (n - 1 - j))))).
    2:{ intros i Hi. destruct (H i Hi) as [_ ->]. apply kin_neg, Hl. }
    rewrite (sum_rev n (fun j => kinetic_energy mass (fr (F j)))). lra.
Qed.
End Reverse.
End P.
