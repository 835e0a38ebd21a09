From Coq Require Import Reals Lra.
From Verif Require Import Base ListUtil Pytree PytreeSpec Io TreeUtil TreeUtilSpec TreeUtilProofs Integrator IntegratorSpec IntegratorBasics ObaboProofs LeapfrogProofs.
Open Scope R_scope.
Set Implicit Arguments.

Lemma emap_const s c a b : wfv s -> like s a -> like s b -> emap (fun _ => c) a = emap (fun _ => c) b.
Proof. intros Hs Ha Hb. apply (like_ext Hs); auto using like_emap. intros i Hi. now rewrite !(el_emap Hs). Qed.
Lemma rl_mass_same s cm mo a b : wfv s -> like s a -> like s b -> rl_mass cm mo a = rl_mass cm mo b.
Proof. intros Hs Ha Hb. unfold rl_mass, unit_mass. destruct mo; auto. destruct cm; auto. now rewrite (emap_const (s := s) 1 Hs Ha Hb). Qed.
Lemma ob_mass_same s cm mo a b : wfv s -> like s a -> like s b -> ob_mass cm mo a = ob_mass cm mo b.
Proof. intros Hs Ha Hb. unfold ob_mass, unit_mass. destruct mo; auto. destruct cm; auto. now rewrite (emap_const (s := s) 1 Hs Ha Hb). Qed.

Lemma diag_mulv t n0 v i : (i < n0)%nat -> mulv (Tens1 t) n0 v i = el t i * v i.
Proof.
  intros Hi. unfold mulv. cbn [tens_entry].
  rewrite (@sum_upto_ext n0 _ (fun j => if (i =? j)%nat then el t i * v j else 0)) by (intros j Hj; destruct (i =? j)%nat; lra).
  now rewrite (@sum_upto_delta n0 (fun j => el t i * v j) i Hi).
Qed.
Section P.
Variable s : vtree.
Hypothesis Hs : wfv s.
Variables (const_mass : option vtree) (mo : option mass_matrix).
Variables (Data Batch Model : Type).
Variable get_data : Data -> Data * Batch.
Variable pot_model : vtree -> Batch -> Model -> Model.
Variable pot_grad : vtree -> Batch -> Model -> vtree.
Hypothesis Hg : forall t b m, like s t -> like s (pot_grad t b m).
Variables (friction eps : R).
Local Notation intg nrm n x := (fst (rl_integrate nrm get_data pot_model pot_grad n friction const_mass eps mo x)).
Section F.
Variable normal : key -> list nat -> list R.
Hypothesis Hn : normal_ok normal.
Variable st : rl_st Data Model.
Hypothesis Hp : like s (r_pos st).
Hypothesis Hm : like s (r_mom st).
Local Notation M := (rl_mass const_mass mo (r_pos st)).
Hypothesis Hinv : tens_fits (m_inv M) s.
Hypothesis Hsq : tens_fits (m_sqrt M) s.
Definition rl_half : rl_st Data Model := mkRlSt (position_update (1 / 2 * eps) M (r_pos st) (r_mom st)) (r_mom st) (r_model st) 0 (r_data st) (r_key st).
Lemma rl_integrate_eq n : intg normal n st =
  let e := rl_at M normal get_data pot_model pot_grad friction eps rl_half n in
  mkRlSt (position_update (1 / 2 * eps) M (r_pos e) (r_mom e)) (r_mom e) (r_model e) (r_pot e) (r_data e) (r_key e).
Proof. unfold rl_integrate, rl_at. fold rl_half. destruct (scan _ n rl_half) as [e used]. reflexivity. Qed.
Lemma half_like : like s (r_pos rl_half) /\ like s (r_mom rl_half).
Proof. split; [apply (like_pos_update Hs); auto|exact Hm]. Qed.
Lemma rl_integrate_like n : like s (r_pos (intg normal n st)) /\ like s (r_mom (intg normal n st)).
Proof.
  rewrite rl_integrate_eq. destruct half_like as [L1 L2].
  destruct (@rl_at_like s Hs _ Hinv Hsq normal Hn Data Batch Model get_data pot_model pot_grad Hg friction eps rl_half n L1 L2) as [L3 L4].
  cbn [r_pos r_mom]. split; auto. now apply (like_pos_update Hs).
Qed.
Lemma rl_integrate_data n : r_data (intg normal n st) = drawn get_data (r_data st) n /\ r_key (intg normal n st) = chain (r_key st) n.
Proof. rewrite rl_integrate_eq. cbn [r_data r_key]. apply (@rl_at_data M normal Data Batch Model get_data pot_model pot_grad friction eps rl_half n). Qed.
(** one inner step *)
Lemma rl_integrate_step n i : (i < dim s)%nat -> 1 + eps * friction <> 0 ->
  exists g, like s g /\
  (1 + eps * friction) * el (r_mom (intg normal (S n) st)) i =
    (1 - eps * friction) * el (r_mom (intg normal n st)) i - eps * el g i + sqrt (4 * friction * eps) * mulv (m_sqrt M) (dim s) (xi normal (Sub (chain (r_key st) n) 1) s) i /\
  r_pot (intg normal (S n) st) = r_pot (intg normal n st) + rl_energy (r_mom (intg normal n st)) (r_mom (intg normal (S n) st)) M g (1 / 2 * eps).
Proof.
  intros Hi Hfr. rewrite !rl_integrate_eq. cbn [r_mom r_pot]. destruct half_like as [L1 L2].
  destruct (@rl_at_like s Hs _ Hinv Hsq normal Hn Data Batch Model get_data pot_model pot_grad Hg friction eps rl_half n L1 L2) as [L3 L4].
  rewrite rl_at_S, rl_body_eq. cbn [r_mom r_pot].
  set (e := rl_at M normal get_data pot_model pot_grad friction eps rl_half n) in *.
  exists (rl_g M get_data pot_grad eps e n).
  destruct (@rl_parts_like s Hs _ Hinv Hsq normal Hn Data Batch Model get_data pot_grad Hg friction eps e n L3 L4) as (P1 & P2 & P3 & P4).
  split; auto. split; [|lra]. rewrite (@el_rl_p s Hs _ Hinv Hsq normal Hn Data Batch Model get_data pot_grad Hg friction eps e n i L3 L4 Hi).
  assert (Ek : r_key e = chain (r_key st) n) by apply (@rl_at_data M normal Data Batch Model get_data pot_model pot_grad friction eps rl_half n).
  unfold rl_eta. rewrite (el_scale' Hs) by (auto; apply (@noise_ok s Hs _ Hsq normal Hn); auto). rewrite Ek.
  destruct (@noise_ok s Hs _ Hsq normal Hn (Sub (chain (r_key st) n) 1) _ L4) as (_ & Hx & _). rewrite Hx by auto. field. exact Hfr.
Qed.
End F.
Section Rev.
Variables (normal normal' : key -> list nat -> list R).
Hypothesis Hn : normal_ok normal.
Hypothesis Hn' : normal_ok normal'.
Variable G : vtree -> Batch -> vtree.
Hypothesis HG : forall t b m, pot_grad t b m = G t b.
Variable st : rl_st Data Model.
Hypothesis Hp : like s (r_pos st).
Hypothesis Hm : like s (r_mom st).
Local Notation M := (rl_mass const_mass mo (r_pos st)).
Hypothesis Hinv : tens_fits (m_inv M) s.
Hypothesis Hsq : tens_fits (m_sqrt M) s.
Hypothesis Hfr : 1 + eps * friction <> 0.
Variable n : nat.
Local Notation fin := (intg normal n st).
Variables (m' : Model) (v' : R) (d' : Data) (k' : key).
Local Notation st' := (mkRlSt (r_pos fin) (tneg (r_mom fin)) m' v' d' k').
Hypothesis Hb : forall m, (m < n)%nat -> batch_no get_data d' m = batch_no get_data (r_data st) (n - 1 - m).
Hypothesis Hnoise : forall j i, (j < n)%nat -> (i < dim s)%nat ->
  sqrt (4 * friction * eps) * mulv (m_sqrt M) (dim s) (xi normal' (Sub (chain k' j) 1) s) i =
  sqrt (4 * friction * eps) * mulv (m_sqrt M) (dim s) (xi normal (Sub (chain (r_key st) (n - 1 - j)) 1) s) i
    - 2 * eps * friction * (el (r_mom (intg normal (n - 1 - j) st)) i + el (r_mom (intg normal (n - j) st)) i).
Lemma rl_back : let back := intg normal' n st' in
  r_pos back = r_pos st /\ r_mom back = tneg (r_mom st) /\ r_pot back = - r_pot fin.
Proof.
  intros back. destruct (@rl_integrate_like normal Hn st Hp Hm Hinv Hsq n) as [Lf1 Lf2].
  destruct (half_like st Hp Hm Hinv) as [L1 L2].
  assert (EM : rl_mass const_mass mo (r_pos fin) = M) by (apply (rl_mass_same (s := s)); auto).
  unfold back. rewrite (rl_integrate_eq normal' st' n). cbn [r_pos].
  assert (Eh : position_update (1 / 2 * eps) M (r_pos fin) (tneg (r_mom fin)) = r_pos (rl_at M normal get_data pot_model pot_grad friction eps (rl_half st) n)).
  { rewrite (rl_integrate_eq normal st n). cbn [r_pos r_mom].
    destruct (@rl_at_like s Hs _ Hinv Hsq normal Hn Data Batch Model get_data pot_model pot_grad Hg friction eps (rl_half st) n L1 L2) as [L3 L4].
    apply (drift_back Hs); auto. }
  assert (Ehs : rl_half st' = mkRlSt (r_pos (rl_at M normal get_data pot_model pot_grad friction eps (rl_half st) n)) (tneg (r_mom fin)) m' 0 d' k').
  { unfold rl_half at 1. cbn [r_pos r_mom r_model r_data r_key]. rewrite EM, Eh. reflexivity. }
  change (r_pos st') with (r_pos fin). rewrite EM, Ehs.
  set (H0 := rl_half st) in *. set (H1 := mkRlSt _ _ m' 0 d' k').
  assert (Emom : forall q, r_mom (intg normal q st) = r_mom (rl_at M normal get_data pot_model pot_grad friction eps H0 q)) by (intros q; now rewrite (rl_integrate_eq normal st q)).
  assert (Hnz : forall j i, (j < n)%nat -> (i < dim s)%nat ->
     el (rl_eta M normal' friction eps (rl_at M normal' get_data pot_model pot_grad friction eps H1 j)) i =
     el (rl_eta M normal friction eps (rl_at M normal get_data pot_model pot_grad friction eps H0 (n - 1 - j))) i
      - 2 * eps * friction * (el (r_mom (rl_at M normal get_data pot_model pot_grad friction eps H0 (n - 1 - j))) i + el (r_mom (rl_at M normal get_data pot_model pot_grad friction eps H0 (n - j))) i)).
  { intros j i Hj Hi. specialize (Hnoise Hj Hi). rewrite !Emom in Hnoise.
    destruct (@rl_at_like s Hs _ Hinv Hsq normal Hn Data Batch Model get_data pot_model pot_grad Hg friction eps H0 (n - 1 - j) L1 L2) as [La Lb].
    destruct (@rl_at_like s Hs _ Hinv Hsq normal Hn Data Batch Model get_data pot_model pot_grad Hg friction eps H0 n L1 L2) as [Lna Lnb].
    assert (Lc : like s (r_mom (rl_at M normal' get_data pot_model pot_grad friction eps H1 j))).
    { apply (@rl_at_like s Hs _ Hinv Hsq normal' Hn' Data Batch Model get_data pot_model pot_grad Hg friction eps H1 j); [exact Lna|]. cbn. apply like_neg. exact Lf2. }
    unfold rl_eta. rewrite !(el_scale' Hs) by (auto; apply (@noise_ok s Hs _ Hsq normal Hn) || apply (@noise_ok s Hs _ Hsq normal' Hn'); auto).
    destruct (@rl_at_data M normal Data Batch Model get_data pot_model pot_grad friction eps H0 (n - 1 - j)) as [_ ->].
    destruct (@rl_at_data M normal' Data Batch Model get_data pot_model pot_grad friction eps H1 j) as [_ ->]. cbn [r_key H0 H1] in *.
    destruct (@noise_ok s Hs _ Hsq normal Hn (Sub (chain (r_key st) (n - 1 - j)) 1) _ Lb) as (_ & Hx1 & _).
    destruct (@noise_ok s Hs _ Hsq normal' Hn' (Sub (chain k' j) 1) _ Lc) as (_ & Hx2 & _). cbn [r_key rl_half] in *. rewrite Hx1, Hx2 by auto. exact Hnoise. }
  destruct (@rl_reverse s Hs _ Hinv Hsq normal normal' Hn Hn' Data Batch Model get_data pot_model pot_grad G HG Hg friction eps Hfr n H0 H1 L1 L2) with (j := n) as (_ & R2 & R3 & R4 & _); auto.
  { unfold H1. cbn [r_mom]. now rewrite Emom. }
  rewrite Nat.sub_diag in *. cbn [r_pos r_mom r_pot]. rewrite R2, R3. change (r_mom (rl_at M normal get_data pot_model pot_grad friction eps H0 0)) with (r_mom st).
  split; [|split; [reflexivity|]].
  - assert (E : r_pos (rl_at M normal' get_data pot_model pot_grad friction eps H1 n) = r_pos H0).
    { destruct (Nat.eq_dec n 0) as [Hz|Hz].
      - unfold H1. rewrite Hz. reflexivity.
      - rewrite R4 by lia. cbn [Nat.add]. rewrite rl_at_S, rl_body_eq. reflexivity. }
    rewrite E. unfold H0, rl_half. cbn [r_pos]. apply (drift_back Hs); auto.
  - rewrite (rl_integrate_eq normal st n). cbn [r_pot]. change (r_pot (rl_at M normal get_data pot_model pot_grad friction eps H0 0)) with 0. fold H0. lra.
Qed.
(** the densities of the noise of the path and of the reverse path *)
Hypothesis Hd : exists vi sq, m_inv M = Tens1 vi /\ m_sqrt M = Tens1 sq /\ forall i, (i < dim s)%nat -> el vi i * (el sq i * el sq i) = 1.
Hypothesis Hpos : 0 < eps * friction.
Lemma rl_densities :
  - sum_upto n (fun j => sum_upto (dim s) (fun i => 1 / 2 * (xi normal' (Sub (chain k' j) 1) s i * xi normal' (Sub (chain k' j) 1) s i)))
  + sum_upto n (fun j => sum_upto (dim s) (fun i => 1 / 2 * (xi normal (Sub (chain (r_key st) j) 1) s i * xi normal (Sub (chain (r_key st) j) 1) s i)))
  = kinetic_energy M (r_mom fin) - kinetic_energy M (r_mom st) + r_pot fin.
Proof.
  destruct Hd as (vi & sq & E1 & E2 & E3).
  set (X := fun j => sum_upto (dim s) (fun i => 1 / 2 * (xi normal' (Sub (chain k' j) 1) s i * xi normal' (Sub (chain k' j) 1) s i))).
  set (Y := fun j => sum_upto (dim s) (fun i => 1 / 2 * (xi normal (Sub (chain (r_key st) j) 1) s i * xi normal (Sub (chain (r_key st) j) 1) s i))).
  set (D := fun j => kinetic_energy M (r_mom (intg normal j st)) + r_pot (intg normal j st)).
  assert (Hstep : forall q, (q < n)%nat -> - X (n - 1 - q)%nat + Y q = D (S q) - D q).
  { intros q Hq. unfold D.
    destruct (@rl_integrate_like normal Hn st Hp Hm Hinv Hsq q) as [_ Lp]. destruct (@rl_integrate_like normal Hn st Hp Hm Hinv Hsq (S q)) as [_ Lp'].
    set (p := r_mom (intg normal q st)) in *. set (p' := r_mom (intg normal (S q) st)) in *.
    rewrite !(kin_sum Hs _ Hinv) by auto.
    destruct (Nat.eq_dec (dim s) 0) as [Hz|Hnz0].
    { (* no elements *)
      unfold X, Y. rewrite !Hz. unfold sum_upto at 1 2. cbn [seq map fold_right].
      assert (Er : r_pot (intg normal (S q) st) = r_pot (intg normal q st)).
      { rewrite !(rl_integrate_eq normal st). cbn [r_pot]. rewrite rl_at_S, rl_body_eq. cbn [r_pot].
        destruct (half_like st Hp Hm Hinv) as [L1 L2].
        destruct (@rl_at_like s Hs _ Hinv Hsq normal Hn Data Batch Model get_data pot_model pot_grad Hg friction eps (rl_half st) q L1 L2) as [L3 L4].
        destruct (@rl_parts_like s Hs _ Hinv Hsq normal Hn Data Batch Model get_data pot_grad Hg friction eps _ q L3 L4) as (P1 & P2 & P3 & P4).
        rewrite (energy_sum Hs _ Hinv) by auto. rewrite Hz. unfold sum_upto. cbn. lra. }
      rewrite Er. unfold sum_upto. cbn [seq map fold_right]. lra. }
    destruct (@rl_integrate_step normal Hn st Hp Hm Hinv Hsq q 0%nat ltac:(lia) Hfr) as (g0 & Lg0 & _ & Er).
    (* the same gradient for all elements *)
    assert (Hgr : exists g, like s g /\ (forall i, (i < dim s)%nat -> (1 + eps * friction) * el p' i = (1 - eps * friction) * el p i - eps * el g i +
        sqrt (4 * friction * eps) * mulv (m_sqrt M) (dim s) (xi normal (Sub (chain (r_key st) q) 1) s) i) /\
        r_pot (intg normal (S q) st) = r_pot (intg normal q st) + rl_energy p p' M g (1 / 2 * eps)).
    { clear g0 Lg0 Er. unfold p, p'. rewrite !(rl_integrate_eq normal st). cbn [r_mom r_pot]. destruct (half_like st Hp Hm Hinv) as [L1 L2].
      destruct (@rl_at_like s Hs _ Hinv Hsq normal Hn Data Batch Model get_data pot_model pot_grad Hg friction eps (rl_half st) q L1 L2) as [L3 L4].
      rewrite rl_at_S, rl_body_eq. cbn [r_mom r_pot].
      set (e := rl_at M normal get_data pot_model pot_grad friction eps (rl_half st) q) in *.
      exists (rl_g M get_data pot_grad eps e q).
      destruct (@rl_parts_like s Hs _ Hinv Hsq normal Hn Data Batch Model get_data pot_grad Hg friction eps e q L3 L4) as (P1 & P2 & P3 & P4).
      split; auto. split; [|lra]. intros i Hi. rewrite (@el_rl_p s Hs _ Hinv Hsq normal Hn Data Batch Model get_data pot_grad Hg friction eps e q i L3 L4 Hi).
      assert (Ek : r_key e = chain (r_key st) q) by apply (@rl_at_data M normal Data Batch Model get_data pot_model pot_grad friction eps (rl_half st) q).
      unfold rl_eta. rewrite (el_scale' Hs) by (auto; apply (@noise_ok s Hs _ Hsq normal Hn); auto). rewrite Ek.
      destruct (@noise_ok s Hs _ Hsq normal Hn (Sub (chain (r_key st) q) 1) _ L4) as (_ & Hx & _). rewrite Hx by auto. field. exact Hfr. }
    clear g0 Lg0 Er. destruct Hgr as (g & Lg & Eg & Er). rewrite Er, (energy_sum Hs _ Hinv) by auto.
    unfold X, Y. rewrite E1.
    assert (Hfit : tens_fits (Tens1 vi) s) by (rewrite <- E1; exact Hinv).
    set (N := dim s) in *.
    rewrite (@sum_upto_ext N (fun i => el p' i * el (tmat (Tens1 vi) p') i) (fun i => el vi i * (el p' i * el p' i))).
    2:{ intros i Hi. rewrite (el_mat Hs), diag_mulv by auto. ring. }
    rewrite (@sum_upto_ext N (fun i => el p i * el (tmat (Tens1 vi) p) i) (fun i => el vi i * (el p i * el p i))).
    2:{ intros i Hi. rewrite (el_mat Hs), diag_mulv by auto. ring. }
    rewrite (@sum_upto_ext N (fun i => (el p i + el p' i) * el (tmat (Tens1 vi) g) i) (fun i => el vi i * ((el p i + el p' i) * el g i))).
    2:{ intros i Hi. rewrite (el_mat Hs), diag_mulv by auto. ring. }
    set (xr := xi normal' (Sub (chain k' (n - 1 - q)) 1) s). set (xf := xi normal (Sub (chain (r_key st) q) 1) s) in *.
    assert (Hpt : forall i, (i < N)%nat -> - (1 / 2 * (xr i * xr i)) + 1 / 2 * (xf i * xf i) =
       1 / 2 * (el vi i * (el p' i * el p' i)) - 1 / 2 * (el vi i * (el p i * el p i)) + 1 / 2 * eps * (el vi i * ((el p i + el p' i) * el g i))).
    { intros i Hi. specialize (Eg i Hi). rewrite E2, diag_mulv in Eg by auto.
      specialize (@Hnoise (n - 1 - q)%nat i ltac:(lia) Hi). replace (n - 1 - (n - 1 - q))%nat with q in Hnoise by lia. replace (n - (n - 1 - q))%nat with (S q) in Hnoise by lia.
      rewrite E2, !diag_mulv in Hnoise by auto. fold xr xf p p' in Hnoise. specialize (E3 i Hi).
      set (c := sqrt (4 * friction * eps)) in *. assert (Hc : c * c = 4 * friction * eps) by (apply sqrt_sqrt; lra).
      set (v := el vi i) in *. set (w := el sq i) in *. set (a := el p i) in *. set (a' := el p' i) in *. set (gi := el g i) in *. set (x := xr i) in *. set (y := xf i) in *.
      assert (Hcw : (c * w) * (c * w) * v = 4 * friction * eps) by (rewrite <- Hc; rewrite <- (Rmult_1_r (c * c)), <- E3; ring).
      assert (Hx : c * w * x = c * w * y - 2 * eps * friction * (a + a')) by lra.
      assert (Hy : c * w * y = (1 + eps * friction) * a' - (1 - eps * friction) * a + eps * gi) by lra.
      apply Rmult_eq_reg_l with (4 * friction * eps); [|lra].
      assert (K1 : 4 * friction * eps * (x * x) = (c * w * x) * (c * w * x) * v) by (rewrite <- Hcw; ring).
      assert (K2 : 4 * friction * eps * (y * y) = (c * w * y) * (c * w * y) * v) by (rewrite <- Hcw; ring).
      replace (4 * friction * eps * (- (1 / 2 * (x * x)) + 1 / 2 * (y * y))) with (- (1 / 2) * (4 * friction * eps * (x * x)) + 1 / 2 * (4 * friction * eps * (y * y))) by ring.
      rewrite K1, K2, Hx, Hy. field. }
    assert (Hsum : forall F H, (forall i, (i < N)%nat -> F i = H i) -> sum_upto N F = sum_upto N H) by (intros; now apply sum_upto_ext).
    specialize (Hsum _ _ Hpt). rewrite !sum_upto_plus in Hsum.
    rewrite (@sum_upto_ext N (fun i => - (1 / 2 * (xr i * xr i))) (fun i => -1 * (1 / 2 * (xr i * xr i)))) in Hsum by (intros; ring).
    rewrite sum_upto_scale in Hsum.
    rewrite (@sum_upto_ext N (fun i => 1 / 2 * (el vi i * (el p' i * el p' i)) - 1 / 2 * (el vi i * (el p i * el p i))) (fun i => 1 / 2 * (el vi i * (el p' i * el p' i)) + (- (1 / 2)) * (el vi i * (el p i * el p i)))) in Hsum by (intros; ring).
    rewrite sum_upto_plus in Hsum.
    rewrite (sum_upto_scale N (1 / 2) (fun i => el vi i * (el p' i * el p' i))), (sum_upto_scale N (- (1 / 2)) (fun i => el vi i * (el p i * el p i))), (sum_upto_scale N (1 / 2 * eps) (fun i => el vi i * ((el p i + el p' i) * el g i))) in Hsum.
    lra. }
  assert (Htel : forall q, (q <= n)%nat -> sum_upto q (fun j => - X (n - 1 - j)%nat + Y j) = D q - D 0%nat).
  { induction q as [|q IH]; intros Hq; [unfold sum_upto; cbn; lra|]. rewrite sum_upto_S, IH, Hstep by lia. lra. }
  specialize (Htel n (Nat.le_refl n)). rewrite sum_upto_plus in Htel.
  rewrite (@sum_upto_ext n (fun j => - X (n - 1 - j)%nat) (fun j => -1 * X (n - 1 - j)%nat)) in Htel by (intros; ring).
  rewrite sum_upto_scale, (sum_rev n X) in Htel. unfold D in Htel.
  assert (E0 : r_mom (intg normal 0 st) = r_mom st /\ r_pot (intg normal 0 st) = 0) by (split; reflexivity).
  destruct E0 as [E0 E0']. rewrite E0, E0' in Htel. change (sum_upto n (fun j => X j)) with (sum_upto n X) in Htel.
  fold X Y. lra.
Qed.
End Rev.
End P.
