(** The improper Riemann integral of RiemannSpec.v is linear and invariant under the maps that preserve the volume. *)
From Coq Require Import Reals Lra Lia List FunctionalExtensionality Classical.
From Coquelicot Require Rbar Lub.
From Verif Require Import Base ListUtil TreeUtilSpec VolumeSpec RiemannSpec RiemannProofs RiemannSums RiemannLimit.
Open Scope R_scope.
Set Implicit Arguments.

Section Dim.
Variables d m : nat.
Notation cont := (continuous d m).
Notation inn := (inside d m).
Notation cs := (coords d m).
Notation test := (test_function d m).
Notation limit := (riemann_limit d m).
Notation pv := (preserves_volume d m).

(** ** maps that preserve the volume keep the integrals of test functions *)
Definition shear_list (f : coord -> phase -> R) (l : list coord) (z : phase) : phase := fun c => if in_dec coord_dec c l then z c + f c z else z c.
Lemma keeps_shear_list (S : coord -> bool) f l :
  (forall c, S c = true -> inn c) -> (forall c, S c = true -> cont (f c)) ->
  (forall c z z', S c = true -> (forall c', inn c' -> S c' = false -> z c' = z' c') -> f c z = f c z') ->
  (forall c, In c l -> S c = true) -> NoDup l -> keeps d m (shear_list f l).
Proof.
  intros Hi Hf Hd. induction l as [|c l IH]; intros Hl Hn.
  - replace (shear_list f []) with (fun z : phase => z); [apply keeps_id|]. extensionality z. extensionality c. reflexivity.
  - inversion Hn; subst. assert (Hc : S c = true) by (apply Hl; now left).
    assert (Hp : forall c' z t, S c' = true -> f c' (put z c t) = f c' z).
    { intros c' z t Hc'. apply Hd; auto. intros x _ Hx. apply put_other. intros ->. congruence. }
    replace (shear_list f (c :: l)) with (fun z => shear_list f l (put z c (z c + f c z))).
    + apply keeps_compose; [|apply IH; auto; intros; apply Hl; now right]. apply keeps_shift; auto.
    + extensionality z. extensionality x. unfold shear_list. destruct (in_dec coord_dec x l) as [Hx|Hx]; destruct (in_dec coord_dec x (c :: l)) as [Hy|Hy].
      * rewrite Hp by (apply Hl; now right). rewrite put_other; auto. intros ->. auto.
      * exfalso. apply Hy. now right.
      * destruct Hy as [<- | Hy]; [|contradiction]. apply put_same.
      * apply put_other. intros ->. apply Hy. now left.
Qed.
(** auxiliary definition of a statement or a proof; models no code of /repo *)
Definition flip_list (l : list coord) (z : phase) : phase := fun c => if in_dec coord_dec c l then - z c else z c.
Lemma keeps_flip_list l : (forall c, In c l -> inn c) -> NoDup l -> keeps d m (flip_list l).
Proof.
  induction l as [|c l IH]; intros Hl Hn.
  - replace (flip_list []) with (fun z : phase => z); [apply keeps_id|]. extensionality z. extensionality c. reflexivity.
  - inversion Hn; subst. replace (flip_list (c :: l)) with (fun z => flip_list l (put z c (- z c))).
    + apply keeps_compose; [|apply IH; auto; intros; apply Hl; now right]. apply keeps_flip1. apply Hl. now left.
    + extensionality z. extensionality x. unfold flip_list. destruct (in_dec coord_dec x l) as [Hx|Hx]; destruct (in_dec coord_dec x (c :: l)) as [Hy|Hy].
      * rewrite put_other; auto. intros ->. auto.
      * exfalso. apply Hy. now right.
      * destruct Hy as [<- | Hy]; [|contradiction]. apply put_same.
      * apply put_other. intros ->. apply Hy. now left.
Qed.
Lemma filter_S (S : coord -> bool) c : (forall c, S c = true -> inn c) -> In c (filter S cs) <-> S c = true.
Proof. intros H. rewrite filter_In, in_coords. split; [tauto|]. intros Hc. auto. Qed.
Lemma keeps_pv F : pv F -> keeps d m F.
Proof.
  induction 1 as [S f Hi Hf Hd|S Hi|p Hp Hi Ho|f g _ IHf _ IHg|f g _ IH E].
  - replace (fun (z : phase) c => if S c then z c + f c z else z c) with (shear_list f (filter S cs)).
    + apply (@keeps_shear_list S); auto; [intros c; now rewrite filter_S|apply NoDup_filter, NoDup_coords].
    + extensionality z. extensionality c. unfold shear_list. destruct (in_dec coord_dec c (filter S cs)) as [H|H]; rewrite filter_S in H by auto; destruct (S c); auto; congruence.
  - replace (fun (z : phase) c => if S c then - z c else z c) with (flip_list (filter S cs)).
    + apply keeps_flip_list; [|apply NoDup_filter, NoDup_coords]. intros c Hc. rewrite filter_S in Hc by auto. auto.
    + extensionality z. extensionality c. unfold flip_list. destruct (in_dec coord_dec c (filter S cs)) as [H|H]; rewrite filter_S in H by auto; destruct (S c); auto; congruence.
  - now apply keeps_exchange.
  - now apply keeps_compose.
  - replace g with f; auto. extensionality z. extensionality c. apply E.
Qed.
Lemma pv_cmap F : pv F -> cmap d m F.
Proof.
  induction 1 as [S f Hi Hf Hd|S Hi|p Hp Hi Ho|f g _ IHf _ IHg|f g _ IH E]; intros c Hc.
  - destruct (S c) eqn:E; [apply cont_plus; [now apply cont_coord|auto]|now apply cont_coord].
  - destruct (S c) eqn:E; [now apply cont_opp, cont_coord|now apply cont_coord].
  - apply (@cont_coord d m (p c)). auto.
  - apply (@cont_comp d m (fun z => g z c) f); auto.
  - replace (fun z => g z c) with (fun z => f z c) by (extensionality z; apply E). auto.
Qed.
Lemma pv_inverse F : pv F -> exists G, pv G /\ (forall z, F (G z) = z) /\ (forall z, G (F z) = z).
Proof.
  induction 1 as [S f Hi Hf Hd|S Hi|p Hp Hi Ho|f g Hf (f' & Hf' & F1 & F2) Hg (g' & Hg' & G1 & G2)|f g _ (f' & Hf' & F1 & F2) E].
  - exists (fun z c => if S c then z c + - f c z else z c). split; [|split].
    + apply pv_shear; auto; [intros c Hc; apply cont_opp; auto|]. intros c z z' Hc Hz. f_equal. auto.
    + intros z. extensionality c. cbv beta. destruct (S c) eqn:E; auto. rewrite (Hd c (fun c => if S c then z c + - f c z else z c) z); auto; [ring|]. intros c' _ Hc'. now rewrite Hc'.
    + intros z. extensionality c. cbv beta. destruct (S c) eqn:E; auto. rewrite (Hd c (fun c => if S c then z c + f c z else z c) z); auto; [ring|]. intros c' _ Hc'. now rewrite Hc'.
  - exists (fun z c => if S c then - z c else z c). split; [now apply pv_flip|]. split; intros z; extensionality c; cbv beta; destruct (S c); auto; ring.
  - exists (fun z c => z (p c)). split; [now apply pv_exchange|]. split; intros z; extensionality c; now rewrite Hp.
  - exists (fun z => f' (g' z)). split; [now apply pv_compose|]. split; intros z; [now rewrite F1, G1|now rewrite G2, F2].
  - exists f'. split; auto. replace g with f by (extensionality z; extensionality c; apply E). auto.
Qed.

(** ** integral of nonnegative functions *)
Notation below := (below d m).
Notation upper := (upper d m).
(** auxiliary definition of a statement or a proof; models no code of /repo *)
Definition bnd (f : phase -> R) : Prop := exists B, forall v, below f v -> v <= B.
(** auxiliary definition of a statement or a proof; models no code of /repo *)
Definition nonneg (f : phase -> R) : Prop := forall z, 0 <= f z.
Lemma test_zero : test (fun _ => 0).
Proof. split; [apply cont_const|]. exists 0%nat. intros z c _ _. reflexivity. Qed.
Lemma limit_zero : limit (fun _ => 0) 0.
Proof. intros e He. exists 0%nat. intros M k _ _. rewrite rs_zero by reflexivity. rewrite Rminus_0_r, Rabs_R0. exact He. Qed.
Lemma below_zero f : nonneg f -> below f 0.
Proof. intros Hf. exists (fun _ => 0). split; [apply test_zero|]. split; [intros z; split; [lra|apply Hf]|apply limit_zero]. Qed.
Lemma upper_sup f : nonneg f -> bnd f -> (forall v, below f v -> v <= upper f) /\ (forall b, (forall v, below f v -> v <= b) -> upper f <= b).
Proof.
  intros Hf (B & HB). unfold RiemannSpec.upper. pose proof (Lub.Lub_Rbar_correct (below f)) as [H1 H2]. destruct (Lub.Lub_Rbar (below f)) as [l| |] eqn:E; cbn [Rbar.real].
  - split; [intros v Hv; apply (H1 v Hv)|]. intros b Hb. apply (H2 (Rbar.Finite b)). intros v Hv. apply (Hb v Hv).
  - exfalso. apply (H2 (Rbar.Finite B)). intros v Hv. apply (HB v Hv).
  - exfalso. apply (H1 0). now apply below_zero.
Qed.
Lemma below_mono f g v : (forall z, f z <= g z) -> below f v -> below g v.
Proof. intros H (p & Hp & Hf & Hv). exists p. split; auto. split; auto. intros z. specialize (Hf z). specialize (H z). lra. Qed.
Lemma bnd_mono f g : (forall z, f z <= g z) -> bnd g -> bnd f.
Proof. intros H (B & HB). exists B. intros v Hv. apply HB. apply (@below_mono f g v H Hv). Qed.
Lemma below_plus f g v w : below f v -> below g w -> below (fun z => f z + g z) (v + w).
Proof.
  intros (p & Hp & Hpf & Hv) (q & Hq & Hqg & Hw). exists (fun z => p z + q z). split; [now apply test_plus|]. split; [|now apply limit_plus].
  intros z. specialize (Hpf z). specialize (Hqg z). lra.
Qed.
Lemma below_split f g v : cont f -> nonneg f -> nonneg g -> below (fun z => f z + g z) v -> exists a b, below f a /\ below g b /\ v = a + b.
Proof.
  intros Hf Hf0 Hg0 (p & [Hp (M & HM)] & Hpf & Hv).
  assert (T1 : test (fun z => Rmin (p z) (f z))).
  { split; [now apply cont_min|]. exists M. intros z c Hc Hz. rewrite (HM z c Hc Hz). apply Rmin_left. apply Hf0. }
  assert (T2 : test (fun z => p z - Rmin (p z) (f z))).
  { split; [apply cont_minus; auto; now apply cont_min|]. exists M. intros z c Hc Hz. rewrite (HM z c Hc Hz). rewrite Rmin_left by apply Hf0. ring. }
  destruct (limit_exists T1) as (a & Ha). destruct (limit_exists T2) as (b & Hb). exists a, b. split; [|split].
  - exists (fun z => Rmin (p z) (f z)). split; auto. split; auto. intros z. specialize (Hpf z). specialize (Hf0 z). split; [apply Rmin_glb; lra|apply Rmin_r].
  - exists (fun z => p z - Rmin (p z) (f z)). split; auto. split; auto. intros z. specialize (Hpf z). specialize (Hf0 z). specialize (Hg0 z). unfold Rmin. destruct (Rle_dec (p z) (f z)); lra.
  - apply (@limit_unique d m p); auto. pose proof (limit_plus Ha Hb) as H. replace p with (fun z => Rmin (p z) (f z) + (p z - Rmin (p z) (f z))) by (extensionality z; ring). exact H.
Qed.
Lemma bnd_plus f g : cont f -> nonneg f -> nonneg g -> bnd f -> bnd g -> bnd (fun z => f z + g z).
Proof.
  intros Hf Hf0 Hg0 (A & HA) (B & HB). exists (A + B). intros v Hv. destruct (@below_split f g v Hf Hf0 Hg0 Hv) as (a & b & Ha & Hb & ->).
  specialize (HA a Ha). specialize (HB b Hb). lra.
Qed.
Lemma nonneg_plus f g : nonneg f -> nonneg g -> nonneg (fun z => f z + g z).
Proof. intros Hf Hg z. specialize (Hf z). specialize (Hg z). lra. Qed.
Lemma upper_plus f g : cont f -> nonneg f -> nonneg g -> bnd f -> bnd g -> upper (fun z => f z + g z) = upper f + upper g.
Proof.
  intros Hf Hf0 Hg0 Bf Bg. destruct (upper_sup Hf0 Bf) as [U1 L1]. destruct (upper_sup Hg0 Bg) as [U2 L2].
  destruct (upper_sup (nonneg_plus Hf0 Hg0) (bnd_plus Hf Hf0 Hg0 Bf Bg)) as [U3 L3]. apply Rle_antisym.
  - apply L3. intros v Hv. destruct (@below_split f g v Hf Hf0 Hg0 Hv) as (a & b & Ha & Hb & ->). specialize (U1 a Ha). specialize (U2 b Hb). lra.
  - assert (H : upper f <= upper (fun z => f z + g z) - upper g); [|lra]. apply L1. intros a Ha.
    assert (H : upper g <= upper (fun z => f z + g z) - a); [|lra]. apply L2. intros b Hb. pose proof (U3 _ (below_plus Ha Hb)). lra.
Qed.
Lemma below_scale a f v : 0 < a -> below f v -> below (fun z => a * f z) (a * v).
Proof.
  intros Ha (p & Hp & Hpf & Hv). exists (fun z => a * p z). split; [now apply test_scale|]. split; [|now apply limit_scale].
  intros z. specialize (Hpf z). split; [apply Rmult_le_pos; lra|apply Rmult_le_compat_l; lra].
Qed.
Lemma below_unscale a f v : 0 < a -> below (fun z => a * f z) v -> below f (/ a * v).
Proof.
  intros Ha Hv. apply (@below_scale (/ a) (fun z => a * f z) v) in Hv; [|now apply Rinv_0_lt_compat]. replace f with (fun z => / a * (a * f z)); auto.
  extensionality z. field. lra.
Qed.
Lemma bnd_scale a f : 0 < a -> bnd f -> bnd (fun z => a * f z).
Proof.
  intros Ha (B & HB). exists (a * B). intros v Hv. apply (@below_unscale a f v Ha) in Hv. apply HB in Hv. replace v with (a * (/ a * v)) by (field; lra).
  apply Rmult_le_compat_l; lra.
Qed.
Lemma upper_scale a f : 0 < a -> nonneg f -> bnd f -> upper (fun z => a * f z) = a * upper f.
Proof.
  intros Ha Hf Bf. destruct (upper_sup Hf Bf) as [U1 L1]. assert (Hf' : nonneg (fun z => a * f z)) by (intros z; apply Rmult_le_pos; [lra|apply Hf]).
  destruct (upper_sup Hf' (bnd_scale Ha Bf)) as [U2 L2]. apply Rle_antisym.
  - apply L2. intros v Hv. apply (@below_unscale a f v Ha) in Hv. apply U1 in Hv. replace v with (a * (/ a * v)) by (field; lra). apply Rmult_le_compat_l; lra.
  - assert (H : upper f <= / a * upper (fun z => a * f z)).
    { apply L1. intros v Hv. apply (@below_scale a f v Ha) in Hv. apply U2 in Hv. replace v with (/ a * (a * v)) by (field; lra). apply Rmult_le_compat_l; auto. left. now apply Rinv_0_lt_compat. }
    apply (Rmult_le_compat_l a) in H; [|lra]. rewrite <- Rmult_assoc, Rinv_r, Rmult_1_l in H by lra. exact H.
Qed.
Lemma upper_zero : upper (fun _ => 0) = 0.
Proof.
  assert (N : nonneg (fun _ => 0)) by (intros z; lra).
  assert (Hb : forall v, below (fun _ => 0) v -> v <= 0).
  { intros v (p & Hp & Hpf & Hv). apply (limit_le Hv limit_zero). intros z. apply Hpf. }
  destruct (upper_sup N) as [U L]; [now exists 0|]. apply Rle_antisym; [now apply L|]. apply U. now apply below_zero.
Qed.
Lemma below_pv F f v : pv F -> below f v -> below (fun z => f (F z)) v.
Proof. intros HF (p & Hp & Hpf & Hv). destruct (keeps_pv HF Hp) as [H1 H2]. exists (fun z => p (F z)). split; auto. Qed.
Lemma below_pv_iff F f v : pv F -> below (fun z => f (F z)) v <-> below f v.
Proof.
  intros HF. split; [|now apply below_pv]. intros H. destruct (pv_inverse HF) as (G & HG & E & _). apply (@below_pv G (fun z => f (F z)) v HG) in H.
  replace f with (fun z => f (F (G z))); auto. extensionality z. now rewrite E.
Qed.
Lemma upper_pv F f : pv F -> upper (fun z => f (F z)) = upper f.
Proof. intros HF. unfold RiemannSpec.upper. f_equal. apply Lub.Lub_Rbar_eqset. intros v. now apply below_pv_iff. Qed.

(** ** the integral *)
Notation itg := (riemann_integrable d m).
Notation I := (riemann_integral d m).
(** auxiliary definition of a statement or a proof; models no code of /repo *)
Definition pos (f : phase -> R) : phase -> R := fun z => Rmax (f z) 0.
(** auxiliary definition of a statement or a proof; models no code of /repo *)
Definition neg (f : phase -> R) : phase -> R := fun z => Rmax (- f z) 0.
Lemma pos_nonneg f : nonneg (pos f). Proof. intros z. apply Rmax_r. Qed.
Lemma neg_nonneg f : nonneg (neg f). Proof. intros z. apply Rmax_r. Qed.
Lemma pos_cont f : cont f -> cont (pos f). Proof. intros H. apply cont_max; auto. apply cont_const. Qed.
Lemma neg_cont f : cont f -> cont (neg f). Proof. intros H. apply (@cont_max d m (fun z => - f z)); [now apply cont_opp|apply cont_const]. Qed.
Lemma pos_bnd f : itg f -> bnd (pos f).
Proof. intros [_ H]. apply (@bnd_mono _ (fun z => Rabs (f z))); auto. intros z. unfold pos, Rmax, Rabs. destruct (Rle_dec _ _), (Rcase_abs _); lra. Qed.
Lemma neg_bnd f : itg f -> bnd (neg f).
Proof. intros [_ H]. apply (@bnd_mono _ (fun z => Rabs (f z))); auto. intros z. unfold neg, Rmax, Rabs. destruct (Rle_dec _ _), (Rcase_abs _); lra. Qed.
Lemma I_def f : I f = upper (pos f) - upper (neg f). Proof. reflexivity. Qed.
Lemma itg_plus f g : itg f -> itg g -> itg (fun z => f z + g z).
Proof.
  intros [Hf Bf] [Hg Bg]. split; [now apply cont_plus|]. apply (@bnd_mono _ (fun z => Rabs (f z) + Rabs (g z))); [intros z; apply Rabs_triang|].
  apply bnd_plus; auto; [now apply cont_abs| |]; intros z; apply Rabs_pos.
Qed.
Lemma I_plus f g : itg f -> itg g -> I (fun z => f z + g z) = I f + I g.
Proof.
  intros Hf Hg. pose proof (itg_plus Hf Hg) as Hs. pose proof (proj1 Hf) as Cf. pose proof (proj1 Hg) as Cg. pose proof (proj1 Hs) as Cs. rewrite !I_def. set (s := fun z => f z + g z) in *.
  assert (E : (fun z => pos s z + (neg f z + neg g z)) = (fun z => neg s z + (pos f z + pos g z))).
  { extensionality z. unfold pos, neg, s, Rmax. repeat destruct (Rle_dec _ _); lra. }
  assert (E1 : upper (fun z => pos s z + (neg f z + neg g z)) = upper (pos s) + (upper (neg f) + upper (neg g))).
  { rewrite (@upper_plus (pos s) (fun z => neg f z + neg g z)), (@upper_plus (neg f) (neg g)); auto using pos_cont, neg_cont, pos_nonneg, neg_nonneg, pos_bnd, neg_bnd, nonneg_plus.
    apply bnd_plus; auto using pos_nonneg, neg_nonneg, pos_bnd, neg_bnd. now apply neg_cont. }
  assert (E2 : upper (fun z => neg s z + (pos f z + pos g z)) = upper (neg s) + (upper (pos f) + upper (pos g))).
  { rewrite (@upper_plus (neg s) (fun z => pos f z + pos g z)), (@upper_plus (pos f) (pos g)); auto using pos_cont, neg_cont, pos_nonneg, neg_nonneg, pos_bnd, neg_bnd, nonneg_plus.
    apply bnd_plus; auto using pos_nonneg, neg_nonneg, pos_bnd, neg_bnd. now apply pos_cont. }
  rewrite E, E2 in E1. lra.
Qed.
Lemma itg_scale a f : itg f -> itg (fun z => a * f z).
Proof.
  intros [Hf Bf]. split; [now apply cont_scale|]. replace (fun z => Rabs (a * f z)) with (fun z => Rabs a * Rabs (f z)) by (extensionality z; now rewrite Rabs_mult).
  destruct (Req_dec a 0) as [-> | Ha].
  - exists 0. intros v Hv. apply (@below_mono _ (fun _ => 0)) in Hv; [|intros z; rewrite Rabs_R0; lra]. destruct Hv as (p & _ & Hp & Hv). apply (limit_le Hv limit_zero). intros z. apply Hp.
  - apply bnd_scale; auto. now apply Rabs_pos_lt.
Qed.
Lemma I_scale a f : itg f -> I (fun z => a * f z) = a * I f.
Proof.
  intros Hf. rewrite !I_def. destruct (Rtotal_order a 0) as [Ha|[-> |Ha]].
  - replace (pos (fun z => a * f z)) with (fun z => - a * neg f z).
    + replace (neg (fun z => a * f z)) with (fun z => - a * pos f z).
      * rewrite !upper_scale; auto using pos_nonneg, neg_nonneg, pos_bnd, neg_bnd; try lra.
      * extensionality z. unfold neg, pos. rewrite <- RmaxRmult by lra. f_equal; ring.
    + extensionality z. unfold neg, pos. rewrite <- RmaxRmult by lra. f_equal; ring.
  - replace (pos (fun z => 0 * f z)) with (fun _ : phase => 0) by (extensionality z; unfold pos; rewrite Rmult_0_l, Rmax_left; lra).
    replace (neg (fun z => 0 * f z)) with (fun _ : phase => 0) by (extensionality z; unfold neg; rewrite Rmult_0_l, Ropp_0, Rmax_left; lra). rewrite upper_zero. ring.
  - replace (pos (fun z => a * f z)) with (fun z => a * pos f z).
    + replace (neg (fun z => a * f z)) with (fun z => a * neg f z).
      * rewrite !upper_scale; auto using pos_nonneg, neg_nonneg, pos_bnd, neg_bnd. ring.
      * extensionality z. unfold neg, pos. rewrite <- RmaxRmult by lra. f_equal; ring.
    + extensionality z. unfold neg, pos. rewrite <- RmaxRmult by lra. f_equal; ring.
Qed.
Lemma itg_pv F f : pv F -> itg f -> itg (fun z => f (F z)).
Proof.
  intros HF [Hf (B & HB)]. split; [apply cont_comp; auto; now apply pv_cmap|]. exists B. intros v Hv. apply HB. apply (@below_pv_iff F (fun z => Rabs (f z)) v HF). exact Hv.
Qed.
Lemma I_pv F f : pv F -> I (fun z => f (F z)) = I f.
Proof. intros HF. rewrite !I_def. unfold pos, neg. rewrite (@upper_pv F (fun z => Rmax (f z) 0) HF), (@upper_pv F (fun z => Rmax (- f z) 0) HF). reflexivity. Qed.
Theorem riemann_integral_is_integral : integral d m itg I.
Proof.
  split.
  - intros f g E Hf. replace g with f by (extensionality z; apply E). auto.
  - intros f g Hf Hg. split; [now apply itg_plus|now apply I_plus].
  - intros c f Hf. split; [now apply itg_scale|now apply I_scale].
  - intros F f HF Hf. split; [now apply itg_pv|now apply I_pv].
Qed.
End Dim.
