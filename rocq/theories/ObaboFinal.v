From Coq Require Import Reals Lra.
From Verif Require Import Base ListUtil Pytree PytreeSpec Io TreeUtil TreeUtilSpec TreeUtilProofs Integrator IntegratorSpec IntegratorBasics ObaboProofs LeapfrogFinal KeyBasics.
Open Scope R_scope.
Set Implicit Arguments.

Section P.
Variable s : vtree.
Hypothesis Hs : wfv s.
Variables (const_mass : option vtree) (mo : option mass_matrix).
Variables (Data Batch Model : Type).
Variable get_data : Data -> Data * Batch.
Variable pot_value : vtree -> Batch -> Model -> R.
Variable pot_model : vtree -> Batch -> Model -> Model.
Variable pot_grad : vtree -> Batch -> Model -> vtree.
Hypothesis Hg : forall t b m, like s t -> like s (pot_grad t b m).
Variables (friction eps T : R).
Local Notation intg nrm n x := (fst (ob_integrate nrm get_data pot_value pot_model pot_grad n friction const_mass eps T mo x)).
Local Notation c := (sqrt (exp (- friction * eps))).
Local Notation sv := (sqrt ((1 - exp (- friction * eps)) * T)).
Lemma c_pos : 0 < c. Proof. apply sqrt_lt_R0, exp_pos. Qed.
Lemma c_sq : c * c = exp (- friction * eps). Proof. apply sqrt_sqrt. left. apply exp_pos. Qed.

Section Rev.
Variables (normal normal' : key -> list nat -> list R).
Hypothesis Hn : normal_ok normal.
Hypothesis Hn' : normal_ok normal'.
Variable G : vtree -> Batch -> vtree.
Hypothesis HG : forall t b m, pot_grad t b m = G t b.
Variable st : ob_st Data Model.
Hypothesis Hp : like s (o_pos st).
Hypothesis Hm : like s (o_mom st).
Local Notation M := (ob_mass const_mass mo (o_pos st)).
Hypothesis Hinv : tens_fits (m_inv M) s.
Hypothesis Hsq : tens_fits (m_sqrt M) s.
Variable n : nat.
Local Notation fin := (intg normal n st).
Variables (m' : Model) (v' : R) (d' : Data) (k' : key).
Local Notation st' := (mkObSt (o_pos fin) (tneg (o_mom fin)) m' v' d' k' 0 0).
Hypothesis Hb : forall m, (m < 2 * n)%nat -> batch_no get_data d' m = batch_no get_data (o_data st) (2 * n - 1 - m).
Hypothesis Hnoise : forall j i, (j < n)%nat -> (i < dim s)%nat ->
  c * (sv * mulv (m_sqrt M) (dim s) (xi normal' (Sub (chain k' j) 1) s) i) =
    sv * mulv (m_sqrt M) (dim s) (xi normal (Sub (chain (o_key st) (n - 1 - j)) 2) s) i - (1 - exp (- friction * eps)) * el (o_mom (intg normal (n - j) st)) i /\
  sv * mulv (m_sqrt M) (dim s) (xi normal' (Sub (chain k' j) 2) s) i =
    c * (sv * mulv (m_sqrt M) (dim s) (xi normal (Sub (chain (o_key st) (n - 1 - j)) 1) s) i) - (1 - exp (- friction * eps)) * el (o_mom (intg normal (n - 1 - j) st)) i.
Local Notation F := (ob_at M normal get_data pot_value pot_model pot_grad friction eps T st).
Local Notation fr q := (ob_r M normal friction eps T (F q)).
Local Notation fs q := (ob_s M normal get_data pot_model pot_grad friction eps T (F q)).
Lemma ob_intg q : intg normal q st = F q. Proof. reflexivity. Qed.
Lemma F_like q : like s (o_pos (F q)) /\ like s (o_mom (F q)).
Proof. apply (@ob_at_like s Hs M Hinv Hsq normal Hn Data Batch Model get_data pot_value pot_model pot_grad Hg friction eps T st q Hp Hm). Qed.
Lemma F_parts q : like s (fr q) /\ like s (fs q).
Proof. destruct (F_like q) as [A B]. destruct (@ob_parts_like s Hs M Hinv Hsq normal Hn Data Batch Model get_data pot_model pot_grad Hg friction eps T (F q) A B) as (P1 & _ & _ & _ & _ & P6). auto. Qed.
Lemma F_key q : o_key (F q) = chain (o_key st) q.
Proof. apply (@ob_at_data s M normal Data Batch Model get_data pot_value pot_model pot_grad Hg friction eps T st q). Qed.
Lemma el_r q i : (i < dim s)%nat -> el (fr q) i = c * el (o_mom (F q)) i + sv * mulv (m_sqrt M) (dim s) (xi normal (Sub (chain (o_key st) q) 1) s) i.
Proof.
  intros Hi. destruct (F_like q) as [_ B]. unfold ob_r. rewrite <- F_key.
  destruct (@resample_ok s Hs M Hsq normal Hn friction eps T (o_mom (F q)) (Sub (o_key (F q)) 1) B) as (_ & H & _). auto.
Qed.
Lemma el_p q i : (i < dim s)%nat -> el (o_mom (F (S q))) i = c * el (fs q) i + sv * mulv (m_sqrt M) (dim s) (xi normal (Sub (chain (o_key st) q) 2) s) i.
Proof.
  intros Hi. rewrite ob_at_S, ob_step_eq. cbn [o_mom]. destruct (F_parts q) as [_ B]. rewrite <- F_key.
  destruct (@resample_ok s Hs M Hsq normal Hn friction eps T (fs q) (Sub (o_key (F q)) 2) B) as (_ & H & _). auto.
Qed.
Lemma ob_back : let back := intg normal' n st' in
  o_pos back = o_pos st /\ o_mom back = tneg (o_mom st) /\
  o_start back = o_end fin - o_end st /\ o_end back = o_start fin - o_start st.
Proof.
  intros back. destruct (F_like n) as [Lf1 Lf2].
  assert (EM : ob_mass const_mass mo (o_pos fin) = M) by (apply (ob_mass_same (s := s)); auto).
  assert (EB : forall q, fst (ob_integrate normal' get_data pot_value pot_model pot_grad q friction const_mass eps T mo st') = ob_at M normal' get_data pot_value pot_model pot_grad friction eps T st' q).
  { intros q. unfold ob_at. rewrite <- EM. reflexivity. }
  unfold back. rewrite EB.
  assert (Hu : forall j, (j < n)%nat -> o_mom (ob_at M normal' get_data pot_value pot_model pot_grad friction eps T st' j) = tneg (o_mom (F (n - j))) ->
     undo1 M normal normal' get_data pot_value pot_model pot_grad friction eps T n st st' j /\ undo2 M normal normal' get_data pot_value pot_model pot_grad friction eps T n st st' j).
  { intros j Hj Ej.
    assert (Kj : o_key (ob_at M normal' get_data pot_value pot_model pot_grad friction eps T st' j) = chain k' j)
      by apply (@ob_at_data s M normal' Data Batch Model get_data pot_value pot_model pot_grad Hg friction eps T st' j).
    set (q := (n - 1 - j)%nat) in *. assert (Eq : (n - j)%nat = S q) by lia.
    destruct (F_like q) as [Lx Lp]. destruct (F_parts q) as [Lr Ls]. destruct (F_like (S q)) as [_ Lp'].
    pose proof c_pos as Hc. pose proof c_sq as Hc2.
    split.
    - unfold undo1, ob_r. fold q. rewrite Ej, Kj, Eq.
      destruct (@resample_ok s Hs M Hsq normal' Hn' friction eps T (tneg (o_mom (F (S q)))) (Sub (chain k' j) 1) (like_neg Lp')) as (A1 & A2 & _).
      apply (like_ext Hs); auto using like_neg. intros i Hi. rewrite A2, !(el_neg Hs) by auto.
      destruct (Hnoise Hj Hi) as [N1 _]. fold q in N1. rewrite Eq, ob_intg in N1.
      pose proof (@el_p q i Hi) as Ep. apply Rmult_eq_reg_l with c; [|lra].
      set (ss := sv) in *. set (cc := c) in *. clearbody ss cc. rewrite Rmult_plus_distr_l, N1, Ep, <- Hc2. ring.
    - unfold undo2. fold q. rewrite Kj.
      destruct (@resample_ok s Hs M Hsq normal' Hn' friction eps T (tneg (fr q)) (Sub (chain k' j) 2) (like_neg Lr)) as (A1 & A2 & _).
      apply (like_ext Hs); auto using like_neg. intros i Hi. rewrite A2, !(el_neg Hs) by auto.
      destruct (Hnoise Hj Hi) as [_ N2]. fold q in N2. rewrite ob_intg in N2. rewrite N2, (el_r q Hi). set (ss := sv) in *. set (cc := c) in *. clearbody ss cc. rewrite <- Hc2. ring. }
  destruct (@ob_reverse s Hs M Hinv Hsq normal normal' Hn Data Batch Model get_data pot_value pot_model pot_grad G HG Hg friction eps T n st Hp Hm st' eq_refl eq_refl Hb Hu n (Nat.le_refl n)) as (R1 & R2 & _).
  destruct (@ob_reverse_energy s Hs M Hinv Hsq normal normal' Hn Data Batch Model get_data pot_value pot_model pot_grad G HG Hg friction eps T n st Hp Hm st' eq_refl eq_refl Hb Hu) as (E1 & E2).
  rewrite Nat.sub_diag in *. rewrite R1, R2. cbn [o_start o_end] in E1, E2. change (F n) with fin in E1, E2.
  split; [reflexivity|]. split; [reflexivity|]. split; lra.
Qed.
(** ratio of the densities *)
Hypothesis Hd : exists vi sq, m_inv M = Tens1 vi /\ m_sqrt M = Tens1 sq /\ forall i, (i < dim s)%nat -> el vi i * (el sq i * el sq i) = 1.
Hypothesis Hpos : 0 < friction * eps.
Hypothesis HT : 0 < T.
Definition half_sq (f : nat -> R) : R := sum_upto (dim s) (fun i => 1 / 2 * (f i * f i)).
Lemma sv_sq : sv * sv = (1 - exp (- friction * eps)) * T.
Proof. apply sqrt_sqrt. apply Rmult_le_pos; [|lra]. assert (exp (- friction * eps) <= exp 0) by (left; apply exp_increasing; lra). rewrite exp_0 in *. lra. Qed.
Lemma perm_lt : 0 < 1 - exp (- friction * eps).
Proof. assert (exp (- friction * eps) < exp 0) by (apply exp_increasing; lra). rewrite exp_0 in *. lra. Qed.
(** r = c p + s S x and p = c r - s S y *)
Lemma refresh_energy p r x y : like s p -> like s r ->
  (forall i, (i < dim s)%nat -> el r i = c * el p i + sv * mulv (m_sqrt M) (dim s) x i) ->
  (forall i, (i < dim s)%nat -> el p i = c * el r i - sv * mulv (m_sqrt M) (dim s) y i) ->
  half_sq x - half_sq y = (kinetic_energy M r - kinetic_energy M p) / T.
Proof.
  intros Lp Lr H1 H2. destruct Hd as (vi & sq & E1 & E2 & E3). rewrite !(kin_sum Hs _ Hinv) by auto. rewrite E1.
  assert (Hfit : tens_fits (Tens1 vi) s) by (rewrite <- E1; exact Hinv). rewrite E2 in *.
  rewrite (@sum_upto_ext (dim s) (fun i => el r i * el (tmat (Tens1 vi) r) i) (fun i => el vi i * (el r i * el r i))).
  2:{ intros i Hi. rewrite (el_mat Hs), diag_mulv by auto. ring. }
  rewrite (@sum_upto_ext (dim s) (fun i => el p i * el (tmat (Tens1 vi) p) i) (fun i => el vi i * (el p i * el p i))).
  2:{ intros i Hi. rewrite (el_mat Hs), diag_mulv by auto. ring. }
  assert (Hpt : forall i, (i < dim s)%nat -> 1 / 2 * (x i * x i) = 1 / 2 * (y i * y i) + (1 / (2 * T) * (el vi i * (el r i * el r i)) + (- 1 / (2 * T)) * (el vi i * (el p i * el p i)))).
  { intros i Hi. specialize (H1 i Hi). specialize (H2 i Hi). specialize (E3 i Hi). rewrite !diag_mulv in H1, H2 by auto.
    pose proof sv_sq as Hsv. pose proof c_sq as Hc. pose proof perm_lt as Hlt.
    set (a := el r i) in *. set (b := el p i) in *. set (v := el vi i) in *. set (w := el sq i) in *. set (k := exp (- friction * eps)) in *.
    set (cc := sqrt k) in *. set (ss := sqrt ((1 - k) * T)) in *.
    assert (Hx : ss * w * x i = a - cc * b) by lra. assert (Hy : ss * w * y i = cc * a - b) by lra.
    assert (Hsw : (ss * w) * (ss * w) * v = (1 - k) * T) by (rewrite <- Hsv; rewrite <- (Rmult_1_r (ss * ss)), <- E3; ring).
    assert (K1 : (1 - k) * T * (x i * x i) = (ss * w * x i) * (ss * w * x i) * v) by (rewrite <- Hsw; ring).
    assert (K2 : (1 - k) * T * (y i * y i) = (ss * w * y i) * (ss * w * y i) * v) by (rewrite <- Hsw; ring).
    apply Rmult_eq_reg_l with ((1 - k) * T); [|apply Rgt_not_eq; apply Rmult_lt_0_compat; lra].
    replace ((1 - k) * T * (1 / 2 * (x i * x i))) with (1 / 2 * ((1 - k) * T * (x i * x i))) by ring.
    replace ((1 - k) * T * (1 / 2 * (y i * y i) + (1 / (2 * T) * (v * (a * a)) + -1 / (2 * T) * (v * (b * b))))) with
      (1 / 2 * ((1 - k) * T * (y i * y i)) + (1 - k) * (1 / 2 * (v * (a * a)) - 1 / 2 * (v * (b * b)))) by (field; lra).
    rewrite K1, K2, Hx, Hy. clearbody ss cc. rewrite <- Hc. ring. }
  unfold half_sq. rewrite (@sum_upto_ext (dim s) _ _ Hpt), !sum_upto_plus.
  rewrite (sum_upto_scale (dim s) (1 / (2 * T)) (fun i => el vi i * (el r i * el r i))), (sum_upto_scale (dim s) (-1 / (2 * T)) (fun i => el vi i * (el p i * el p i))).
  field. lra.
Qed.
Lemma ob_densities :
  sum_upto n (fun j => half_sq (xi normal (Sub (chain (o_key st) j) 1) s) + half_sq (xi normal (Sub (chain (o_key st) j) 2) s))
  - sum_upto n (fun j => half_sq (xi normal' (Sub (chain k' j) 1) s) + half_sq (xi normal' (Sub (chain k' j) 2) s))
  = (kinetic_energy M (o_mom fin) - kinetic_energy M (o_mom st) + (o_start fin - o_start st) - (o_end fin - o_end st)) / T.
Proof.
  set (X := fun j => half_sq (xi normal' (Sub (chain k' j) 1) s) + half_sq (xi normal' (Sub (chain k' j) 2) s)).
  set (Y := fun j => half_sq (xi normal (Sub (chain (o_key st) j) 1) s) + half_sq (xi normal (Sub (chain (o_key st) j) 2) s)).
  set (K := kinetic_energy M).
  assert (Hstep : forall q, (q < n)%nat -> Y q - X (n - 1 - q)%nat = (K (o_mom (F (S q))) - K (o_mom (F q)) + K (fr q) - K (fs q)) / T).
  { intros q Hq. destruct (F_like q) as [_ Lp]. destruct (F_like (S q)) as [_ Lp']. destruct (F_parts q) as [Lr Ls].
    assert (Hj : (n - 1 - q < n)%nat) by lia. assert (Eq : (n - 1 - (n - 1 - q))%nat = q) by lia. assert (Eq' : (n - (n - 1 - q))%nat = S q) by lia.
    pose proof c_pos as Hc. pose proof c_sq as Hc2.
    pose proof (@refresh_energy (o_mom (F q)) (fr q) (xi normal (Sub (chain (o_key st) q) 1) s) (xi normal' (Sub (chain k' (n - 1 - q)) 2) s) Lp Lr) as A1.
    pose proof (@refresh_energy (fs q) (o_mom (F (S q))) (xi normal (Sub (chain (o_key st) q) 2) s) (xi normal' (Sub (chain k' (n - 1 - q)) 1) s) Ls Lp') as A2.
    unfold X, Y. fold K in A1, A2.
    assert (A1' : half_sq (xi normal (Sub (chain (o_key st) q) 1) s) - half_sq (xi normal' (Sub (chain k' (n - 1 - q)) 2) s) = (K (fr q) - K (o_mom (F q))) / T).
    { apply A1; [intros i Hi; now apply el_r|].
      intros i Hi. destruct (Hnoise Hj Hi) as [_ N2]. rewrite Eq, ob_intg in N2. rewrite N2, (el_r q Hi). set (ss := sv) in *. set (cc := c) in *. clearbody ss cc. rewrite <- Hc2. ring. }
    assert (A2' : half_sq (xi normal (Sub (chain (o_key st) q) 2) s) - half_sq (xi normal' (Sub (chain k' (n - 1 - q)) 1) s) = (K (o_mom (F (S q))) - K (fs q)) / T).
    { apply A2; [intros i Hi; now apply el_p|].
      intros i Hi. destruct (Hnoise Hj Hi) as [N1 _]. rewrite Eq, Eq', ob_intg in N1. pose proof (@el_p q i Hi) as Ep.
      apply Rmult_eq_reg_l with c; [|lra]. set (ss := sv) in *. set (cc := c) in *. clearbody ss cc. rewrite Rmult_minus_distr_l, N1, <- Hc2. rewrite Ep. ring. }
    unfold Rdiv in *. lra. }
  assert (Htel : forall q, (q <= n)%nat -> sum_upto q (fun j => Y j - X (n - 1 - j)%nat) = (K (o_mom (F q)) - K (o_mom (F 0%nat)) + (o_start (F q) - o_start st) - (o_end (F q) - o_end st)) / T).
  { induction q as [|q IH]; intros Hq; [change (F 0%nat) with st; unfold sum_upto; cbn; lra|]. rewrite sum_upto_S, IH, Hstep by lia.
    rewrite !ob_at_S, ob_step_eq. cbn [o_start o_end o_mom]. fold K. lra. }
  specialize (Htel n (Nat.le_refl n)).
  rewrite (@sum_upto_ext n (fun j => Y j - X (n - 1 - j)%nat) (fun j => Y j + -1 * X (n - 1 - j)%nat)) in Htel by (intros; ring).
  rewrite sum_upto_plus, sum_upto_scale, (sum_rev n X) in Htel. change (F 0%nat) with st in Htel.
  change (fun j => Y j) with Y in Htel. rewrite !ob_intg. lra.
Qed.
End Rev.
End P.
