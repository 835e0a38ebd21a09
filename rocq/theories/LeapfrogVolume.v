(** One proposal of reversible_leapfrog as a map of the phase space. *)
From Coq Require Import Reals Lra FunctionalExtensionality.
From Verif Require Import Base ListUtil Pytree PytreeSpec Io TreeUtil TreeUtilSpec TreeUtilProofs Integrator IntegratorSpec IntegratorBasics ObaboProofs LeapfrogProofs LeapfrogFinal
  BalanceSpec BalanceProofs VolumeSpec VolumeProofs.
Open Scope R_scope.
Set Implicit Arguments.
Local Arguments Nat.ltb : simpl never.
Local Arguments Nat.eqb : simpl never.
Local Arguments Nat.sub : simpl never.

(** the pytree with given elements *)
Definition tree_of (s : vtree) (x : nat -> R) : vtree := ok_or s (unravel s (map x (seq 0 (dim s)))).
Lemma tree_of_ok s x : wfv s -> like s (tree_of s x) /\ forall i, (i < dim s)%nat -> el (tree_of s x) i = x i.
Proof.
  intros Hs. unfold tree_of. destruct (@unravel_ok s (map x (seq 0 (dim s))) Hs) as (u & Eu & Ru & Su & Wu); [now rewrite map_length, seq_length|].
  rewrite Eu. cbn [ok_or]. split; [split; auto|]. intros i Hi. unfold el. rewrite Ru. now rewrite nth_map_seq.
Qed.
Lemma tree_of_ext s x y : (forall i, (i < dim s)%nat -> x i = y i) -> tree_of s x = tree_of s y.
Proof. intros H. unfold tree_of. do 2 f_equal. apply map_ext_in. intros i Hi. apply in_seq in Hi. apply H. lia. Qed.
Lemma tree_of_el s t x : wfv s -> like s t -> (forall i, (i < dim s)%nat -> x i = el t i) -> tree_of s x = t.
Proof. intros Hs Ht H. destruct (tree_of_ok x Hs) as [L E]. apply (like_ext Hs); auto. intros i Hi. now rewrite E, H. Qed.
(** gradient for batch k in coordinates *)
Definition grads {Batch} (s : vtree) (G : vtree -> Batch -> vtree) (b : nat -> Batch) (k : nat) (x : nat -> R) (i : nat) : R := el (G (tree_of s x) (b k)) i.
Lemma grads_continuous Batch s (G : vtree -> Batch -> vtree) b m : wfv s -> continuous_gradient s G ->
  forall k i, (i < dim s)%nat -> continuous (dim s) m (fun z => grads s G b k (pos_of z) i).
Proof.
  intros Hs HG k i Hi z e He. destruct (tree_of_ok (pos_of z) Hs) as [L E]. destruct (HG (b k) _ L e He) as (del & Hd & H). exists del. split; auto.
  intros z' Hz. destruct (tree_of_ok (pos_of z') Hs) as [L' E']. apply H; auto. intros j Hj. rewrite E, E' by auto. apply (Hz (CPos j)). exact Hj.
Qed.
Lemma grads_ext Batch s (G : vtree -> Batch -> vtree) b : forall k i x y, (forall j, (j < dim s)%nat -> x j = y j) -> grads s G b k x i = grads s G b k y i.
Proof. intros k i x y H. unfold grads. now rewrite (tree_of_ext s x y H). Qed.

(** auxiliary definition of a statement or a proof; models no code of /repo *)
Definition lf_step_ops (h c : R) (k : nat) : list op := [Drift h; Nsh k; Push k 1 c k; Nsh k; Drift h].
(** auxiliary definition of a statement or a proof; models no code of /repo *)
Definition lf_ops (h c : R) (n : nat) : list op := match n with O => [Drift h; Drift h] | S _ => flat_map (lf_step_ops h c) (seq 0 n) end.
Lemma lf_ops_ok h c n : Forall (op_ok n) (lf_ops h c n) /\ Forall (idx_ok n) (lf_ops h c n).
Proof.
  destruct n as [|n]; [repeat constructor|]. unfold lf_ops. split; apply Forall_forall; intros o Ho; apply in_flat_map in Ho; destruct Ho as (k & Hk & Ho); apply in_seq in Hk;
    unfold lf_step_ops in Ho; cbn in Ho; decompose [or] Ho; subst; cbn; auto; try lia; contradiction.
Qed.
Lemma lf_ops_palindrome h c n : rev (map (mirror n) (lf_ops h c n)) = lf_ops h c n.
Proof.
  destruct n as [|n]; [reflexivity|]. unfold lf_ops. apply palindrome. intros j Hj. cbn. replace (S n - 1 - (S n - 1 - j))%nat with j by lia. reflexivity.
Qed.
Section Eval.
Variables (d : nat) (vi a sg : nat -> R) (g : nat -> (nat -> R) -> nat -> R).
Local Notation D := (do d vi a sg g).
Lemma drift_pos h z i : (i < d)%nat -> D (Drift h) z (CPos i) = z (CPos i) + h * vi i * z (CMom i).
Proof. intros Hi. apply Nat.ltb_lt in Hi. unfold do. cbn. now rewrite Hi. Qed.
Lemma drift_mom h z i : D (Drift h) z (CMom i) = z (CMom i). Proof. reflexivity. Qed.
Lemma drift_noise h z j i : D (Drift h) z (CNoise j i) = z (CNoise j i). Proof. reflexivity. Qed.
Lemma nsh_pos k z i : D (Nsh k) z (CPos i) = z (CPos i). Proof. reflexivity. Qed.
Lemma nsh_mom k z i : D (Nsh k) z (CMom i) = z (CMom i). Proof. reflexivity. Qed.
Lemma nsh_noise k z j i : (i < d)%nat -> D (Nsh k) z (CNoise j i) = if (j =? k)%nat then z (CNoise k i) + a i * z (CMom i) else z (CNoise j i).
Proof. intros Hi. apply Nat.ltb_lt in Hi. unfold do. cbn. rewrite Hi. destruct (Nat.eqb_spec j k) as [->|]; reflexivity. Qed.
Lemma push_pos k u c q z i : D (Push k u c q) z (CPos i) = z (CPos i). Proof. reflexivity. Qed.
Lemma push_mom k u c q z i : (i < d)%nat -> D (Push k u c q) z (CMom i) = z (CMom i) + (u * sg i * z (CNoise k i) + c * g q (pos_of z) i).
Proof. intros Hi. apply Nat.ltb_lt in Hi. unfold do. cbn. now rewrite Hi. Qed.
Lemma push_noise k u c q z j i : D (Push k u c q) z (CNoise j i) = z (CNoise j i). Proof. reflexivity. Qed.
Lemma nsh_pos_of k z : pos_of (D (Nsh k) z) = pos_of z. Proof. reflexivity. Qed.
Lemma push_pos_of k u c q z : pos_of (D (Push k u c q) z) = pos_of z. Proof. reflexivity. Qed.
Lemma lf_step_effect h c k z i : (i < d)%nat ->
  let z' := runs d vi a sg g (lf_step_ops h c k) z in
  z' (CPos i) = z (CPos i) + h * vi i * z (CMom i) + h * vi i * z' (CMom i) /\
  z' (CMom i) = z (CMom i) + (sg i * (z (CNoise k i) + a i * z (CMom i)) + c * g k (pos_of (D (Drift h) z)) i) /\
  forall j, z' (CNoise j i) = if (j =? k)%nat then z (CNoise k i) + a i * (z (CMom i) + z' (CMom i)) else z (CNoise j i).
Proof.
  intros Hi z'. assert (Ez : z' = D (Drift h) (D (Nsh k) (D (Push k 1 c k) (D (Nsh k) (D (Drift h) z))))) by reflexivity. clearbody z'. rewrite Ez.
  repeat (rewrite ?drift_mom, ?drift_noise, ?nsh_pos, ?nsh_mom, ?push_pos, ?push_noise, ?nsh_pos_of; rewrite ?drift_pos, ?push_mom, ?nsh_noise by auto).
  rewrite Nat.eqb_refl. split; [ring|]. split; [ring|]. intros j.
  repeat (rewrite ?drift_mom, ?drift_noise, ?nsh_pos, ?nsh_mom, ?push_pos, ?push_noise, ?nsh_pos_of; rewrite ?drift_pos, ?push_mom, ?nsh_noise by auto).
  rewrite Nat.eqb_refl. destruct (j =? k)%nat; ring.
Qed.
End Eval.
Lemma refl_effect d m y i : (i < d)%nat -> refl d m y (CPos i) = y (CPos i) /\ refl d m y (CMom i) = - y (CMom i) /\
  forall j, (j < m)%nat -> refl d m y (CNoise j i) = y (CNoise (m - 1 - j) i).
Proof.
  intros Hi. apply Nat.ltb_lt in Hi. unfold refl. cbn. rewrite Hi. split; [reflexivity|]. split; [reflexivity|]. intros j Hj. apply Nat.ltb_lt in Hj. rewrite Hj. reflexivity.
Qed.

Section RL.
Variable s : vtree.
Hypothesis Hs : wfv s.
Variables (const_mass : option vtree) (mo : option mass_matrix).
Variables (Data Batch Model : Type).
Variable get_data : Data -> Data * Batch.
Variable pot_model : vtree -> Batch -> Model -> Model.
Variable G : vtree -> Batch -> vtree.
Hypothesis HG : forall t b, like s t -> like s (G t b).
Variables (friction eps : R).
Hypothesis Hpos : 0 < eps * friction.
Variables vi sq : vtree.
Local Notation beta := (eps * friction).
Local Notation sigma := (sqrt (4 * friction * eps)).
(** auxiliary definition of a statement or a proof; models no code of /repo *)
Definition lf_map (n : nat) (b : nat -> Batch) : phase -> phase :=
  whole (dim s) n (el vi) (fun i => - (2 * eps * friction) / (sigma * el sq i)) (fun i => sigma * el sq i / (1 + beta)) (grads s G b) (lf_ops (1 / 2 * eps) (- eps / (1 + beta)) n).
Lemma lf_map_volume n b : continuous_gradient s G -> preserves_volume (dim s) n (lf_map n b).
Proof. intros Hc. apply whole_volume; [apply lf_ops_ok|now apply grads_continuous|apply grads_ext]. Qed.
Lemma lf_map_involution n b b' : (forall k, (k < n)%nat -> b' k = b (n - 1 - k)%nat) -> forall z, lf_map n b' (lf_map n b z) = z.
Proof.
  intros Hb z. unfold lf_map. apply whole_involution; [|apply lf_ops_ok|apply lf_ops_palindrome].
  intros k Hk. extensionality x. extensionality i. unfold grads. rewrite Hb by lia. do 2 f_equal. f_equal. lia.
Qed.
Hypothesis Hvi : like s vi.
Hypothesis Hsq : like s sq.
Hypothesis Hvs : forall i, (i < dim s)%nat -> el vi i * (el sq i * el sq i) = 1.
Variable normal : key -> list nat -> list R.
Hypothesis Hn : normal_ok normal.
Variable st : rl_st Data Model.
Hypothesis Lp : like s (r_pos st).
Hypothesis Lm : like s (r_mom st).
Local Notation M := (rl_mass const_mass mo (r_pos st)).
Hypothesis E1 : m_inv M = Tens1 vi.
Hypothesis E2 : m_sqrt M = Tens1 sq.
Local Notation intg nrm n x := (fst (rl_integrate nrm get_data pot_model (fun t b _ => G t b) n friction const_mass eps mo x)).
Local Notation P j i := (el (r_mom (intg normal j st)) i).
Local Notation xis j := (xi normal (Sub (chain (r_key st) j) 1) s).
(** auxiliary definition of a statement or a proof; models no code of /repo *)
Definition lf_x (k : nat) : vtree := match k with O => r_pos st | S _ => r_pos (intg normal k st) end.
Variable n : nat.
Variable z : phase.
Hypothesis Hz : consists_of s n z (r_pos st) (r_mom st) normal (fun j => Sub (chain (r_key st) j) 1).
Local Notation gg := (grads s G (batch_no get_data (r_data st))).
Local Notation aa := (fun i => - (2 * eps * friction) / (sigma * el sq i)).
Local Notation ss := (fun i => sigma * el sq i / (1 + beta)).
Lemma lf_fits : tens_fits (m_inv M) s /\ tens_fits (m_sqrt M) s.
Proof. rewrite E1, E2. destruct Hvi, Hsq. cbn. auto. Qed.
Lemma sigma_sq i : (i < dim s)%nat -> sigma * el sq i <> 0.
Proof. intros Hi. specialize (Hvs Hi). assert (0 < sigma) by (apply sqrt_lt_R0; lra). intros E. apply Rmult_integral in E. destruct E as [E|E]; [lra|]. rewrite E in Hvs. lra. Qed.
Lemma lf_prefix k : (k <= n)%nat -> forall i, (i < dim s)%nat ->
  let zk := runs (dim s) (el vi) aa ss gg (flat_map (lf_step_ops (1 / 2 * eps) (- eps / (1 + beta))) (seq 0 k)) z in
  zk (CPos i) = el (lf_x k) i /\ zk (CMom i) = P k i /\
  forall j, (j < n)%nat -> zk (CNoise j i) = xis j i + (if (j <? k)%nat then aa i * (P j i + P (S j) i) else 0).
Proof.
  destruct lf_fits as [F1 F2]. assert (Hg : forall t b (m : Model), like s t -> like s (G t b)) by (intros; auto).
  induction k as [|k IH]; intros Hk i Hi zk.
  - unfold zk. cbn [seq flat_map runs fold_left]. destruct (Hz Hi) as (Z1 & Z2 & Z3). split; [exact Z1|]. split; [exact Z2|]. intros j Hj. rewrite (Z3 j Hj). change (j <? 0)%nat with false. cbn iota. ring.
  - unfold zk. rewrite seq_S, flat_map_app, runs_app. cbn [Nat.add flat_map]. rewrite app_nil_r.
    set (y := runs (dim s) (el vi) aa ss gg (flat_map (lf_step_ops (1 / 2 * eps) (- eps / (1 + beta))) (seq 0 k)) z) in *.
    assert (IH' := fun i Hi => IH ltac:(lia) i Hi). clear IH. cbv zeta in IH'. fold y in IH'.
    destruct (@lf_step_effect (dim s) (el vi) aa ss gg (1 / 2 * eps) (- eps / (1 + beta)) k y i Hi) as (S1 & S2 & S3).
    set (y' := runs (dim s) (el vi) aa ss gg (lf_step_ops (1 / 2 * eps) (- eps / (1 + beta)) k) y) in *.
    destruct (half_like Hs const_mass mo eps st Lp Lm F1) as [L1 L2].
    destruct (@rl_at_like s Hs _ F1 F2 normal Hn Data Batch Model get_data pot_model (fun t b _ => G t b) Hg friction eps (rl_half const_mass mo eps st) k L1 L2) as [L3 L4].
    set (e := rl_at M normal get_data pot_model (fun t b _ => G t b) friction eps (rl_half const_mass mo eps st) k) in *.
    destruct (@rl_parts_like s Hs _ F1 F2 normal Hn Data Batch Model get_data (fun t b _ => G t b) Hg friction eps e k L3 L4) as (P1 & P2 & P3 & P4).
    assert (Emom : r_mom (intg normal k st) = r_mom e) by (rewrite rl_integrate_eq; reflexivity).
    assert (EmomS : r_mom (intg normal (S k) st) = rl_p M normal get_data (fun t b _ => G t b) friction eps e k) by (rewrite rl_integrate_eq; cbn [r_mom]; rewrite rl_at_S, rl_body_eq; reflexivity).
    assert (EposS : r_pos (intg normal (S k) st) = position_update (1 / 2 * eps) M (rl_x M eps e k) (rl_p M normal get_data (fun t b _ => G t b) friction eps e k))
      by (rewrite rl_integrate_eq; cbn [r_pos]; rewrite rl_at_S, rl_body_eq; reflexivity).
    destruct (@rl_at_data M normal Data Batch Model get_data pot_model (fun t b _ => G t b) friction eps (rl_half const_mass mo eps st) k) as [Dk Kk].
    fold e in Dk, Kk. cbn [r_data r_key rl_half] in Dk, Kk.
    assert (Ex : forall q, (q < dim s)%nat -> pos_of (do (dim s) (el vi) aa ss gg (Drift (1 / 2 * eps)) y) q = el (rl_x M eps e k) q).
    { intros q Hq. unfold pos_of, do. cbn. assert (Hq' := Hq). apply Nat.ltb_lt in Hq'. rewrite Hq'. destruct (IH' q Hq) as (I1 & I2 & _). rewrite I1, I2, Emom.
      unfold rl_x. destruct k as [|k].
      - change (0 =? 0)%nat with true. cbn iota. change (r_pos e) with (position_update (1 / 2 * eps) M (r_pos st) (r_mom st)). rewrite (el_pos_update Hs _ F1) by auto. rewrite (el_mat Hs), E1, diag_mulv by auto. cbn [lf_x]. change (r_mom e) with (r_mom st). ring.
      - change (S k =? 0)%nat with false. cbn iota. rewrite (el_pos_update Hs _ F1) by auto. cbn [lf_x]. rewrite rl_integrate_eq. cbn [r_pos]. fold e. rewrite (el_pos_update Hs _ F1) by auto. rewrite !(el_mat Hs), E1, diag_mulv by auto. field. }
    assert (Eg : gg k (pos_of (do (dim s) (el vi) aa ss gg (Drift (1 / 2 * eps)) y)) i = el (rl_g M get_data (fun t b _ => G t b) eps e k) i).
    { set (X := pos_of _) in *. clearbody X. unfold grads, rl_g. rewrite (@tree_of_el s _ _ Hs P1 Ex). rewrite Dk. reflexivity. }
    destruct (IH' i Hi) as (I1 & I2 & I3). rewrite Eg, I2, (I3 k) in S2 by lia.
    assert (Hkk : (k <? k)%nat = false) by apply Nat.ltb_irrefl. rewrite Hkk in S2.
    assert (Em : y' (CMom i) = P (S k) i).
    { rewrite S2, EmomS, (@el_rl_p s Hs _ F1 F2 normal Hn Data Batch Model get_data (fun t b _ => G t b) Hg friction eps e k i L3 L4 Hi).
      unfold rl_eta. rewrite (el_scale' Hs) by (auto; apply (@noise_ok s Hs _ F2 normal Hn); auto). rewrite Kk.
      destruct (@noise_ok s Hs _ F2 normal Hn (Sub (chain (r_key st) k) 1) _ L4) as (_ & Hx & _). rewrite Hx, E2, diag_mulv, Emom by auto.
      pose proof (sigma_sq Hi) as Hne. assert (sigma <> 0 /\ el sq i <> 0) as [N1 N2] by (split; intros E; apply Hne; rewrite E; ring). field. repeat split; auto; lra. }
    split; [|split; [exact Em|]].
    + rewrite S1, Em, I2, I1. cbn [lf_x]. rewrite EposS, EmomS. rewrite (el_pos_update Hs _ F1) by auto. rewrite (el_mat Hs), E1, diag_mulv by auto.
      assert (Ex' := Ex i Hi). unfold pos_of, do in Ex'. cbn in Ex'. assert (Hi' := Hi). apply Nat.ltb_lt in Hi'. rewrite Hi', I1, I2 in Ex'. rewrite <- Ex'. ring.
    + intros j Hj. rewrite S3. destruct (Nat.eqb_spec j k) as [->|Hne].
      * rewrite Em, I2, (I3 k) by lia. rewrite Hkk. assert ((k <? S k)%nat = true) as -> by (apply Nat.ltb_lt; lia). ring.
      * rewrite (I3 j Hj). destruct (Nat.ltb_spec j k), (Nat.ltb_spec j (S k)); try lia; reflexivity.
Qed.
(** the map gives the proposal with negated momentum, and the random vectors that lead back *)
Lemma lf_map_effect i : (i < dim s)%nat ->
  lf_map n (batch_no get_data (r_data st)) z (CPos i) = el (r_pos (intg normal n st)) i /\
  lf_map n (batch_no get_data (r_data st)) z (CMom i) = - P n i /\
  forall j, (j < n)%nat -> lf_map n (batch_no get_data (r_data st)) z (CNoise j i) = xis (n - 1 - j) i + aa i * (P (n - 1 - j) i + P (n - j) i).
Proof.
  intros Hi. unfold lf_map, whole. destruct lf_fits as [F1 F2].
  match goal with |- refl _ _ ?y0 _ = _ /\ _ => set (y := y0) end. destruct (@refl_effect (dim s) n y i Hi) as (R1 & R2 & R3). rewrite R1, R2.
  destruct (Nat.eq_dec n 0) as [Hz0|Hz0].
  - split; [|split; [|intros; lia]]; unfold y; rewrite Hz0.
    + assert (L : like s (position_update (1 / 2 * eps) M (r_pos st) (r_mom st))) by (apply (like_pos_update Hs); auto).
      destruct (Hz Hi) as (Z1 & Z2 & _). unfold lf_ops, runs. cbn [fold_left]. rewrite drift_pos, drift_mom, drift_pos, Z1, Z2 by auto.
      rewrite rl_integrate_eq. cbn [r_pos r_mom]. change (rl_at M normal get_data pot_model (fun t b _ => G t b) friction eps (rl_half const_mass mo eps st) 0) with (rl_half const_mass mo eps st). cbn [rl_half r_pos r_mom].
      rewrite (el_pos_update Hs _ F1) by auto. rewrite (el_pos_update Hs _ F1) by auto. rewrite !(el_mat Hs), E1, diag_mulv by auto. ring.
    + f_equal. destruct (Hz Hi) as (Z1 & Z2 & _). exact Z2.
  - assert (Ey : y = runs (dim s) (el vi) aa ss gg (flat_map (lf_step_ops (1 / 2 * eps) (- eps / (1 + beta))) (seq 0 n)) z) by (unfold y, lf_ops; destruct n; [lia|reflexivity]).
    destruct (@lf_prefix n (Nat.le_refl n) i Hi) as (Q1 & Q2 & Q3). rewrite <- Ey in Q1, Q2, Q3. split; [|split].
    + rewrite Q1. unfold lf_x. destruct n; [lia|reflexivity].
    + now rewrite Q2.
    + intros j Hj. rewrite R3, Q3 by lia. assert ((n - 1 - j <? n)%nat = true) as -> by (apply Nat.ltb_lt; lia). replace (S (n - 1 - j)) with (n - j)%nat by lia. reflexivity.
Qed.
Lemma lf_map_back x' p' normal' k' : like s x' -> like s p' -> consists_of s n (lf_map n (batch_no get_data (r_data st)) z) x' p' normal' (fun j => Sub (chain k' j) 1) ->
  x' = r_pos (intg normal n st) /\ opposite s (r_mom (intg normal n st)) p' /\ rl_noise_back s const_mass mo get_data pot_model G friction eps normal st n k' normal'.
Proof.
  intros Lx Lp' H. destruct lf_fits as [F1 F2]. assert (Hg : forall t b (m : Model), like s t -> like s (G t b)) by (intros; auto).
  destruct (@rl_integrate_like s Hs const_mass mo Data Batch Model get_data pot_model (fun t b _ => G t b) Hg friction eps normal Hn st Lp Lm F1 F2 n) as [La Lb].
  split; [|split; [split; auto|]].
  - apply (like_ext Hs); auto. intros i Hi. destruct (H i Hi) as (H1 & _). destruct (@lf_map_effect i Hi) as (Q1 & _). now rewrite <- H1, <- Q1.
  - intros i Hi. destruct (H i Hi) as (_ & H1 & _). destruct (@lf_map_effect i Hi) as (_ & Q1 & _). now rewrite <- H1, <- Q1.
  - intros j i Hj Hi. destruct (H i Hi) as (_ & _ & H1). destruct (@lf_map_effect i Hi) as (_ & _ & Q1). specialize (H1 j Hj). rewrite (Q1 j Hj) in H1.
    rewrite E2, !diag_mulv by auto. rewrite <- H1. pose proof (sigma_sq Hi) as Hne. assert (sigma <> 0 /\ el sq i <> 0) as [N1 N2] by (split; intros E; apply Hne; rewrite E; ring). field. auto.
Qed.
End RL.
