From Coq Require Import Reals Lra.
From Verif Require Import Base ListUtil Pytree PytreeSpec Io TreeUtil TreeUtilSpec TreeUtilProofs Integrator IntegratorSpec Xreal Adaption AdaptionSpec.
Open Scope R_scope.
Set Implicit Arguments.

Lemma len_zip A B C (f : A -> B -> C) a b : length a = length b -> length (zip_with f a b) = length a.
Proof. revert b. induction a as [|x a IH]; intros [|y b] H; cbn in *; try discriminate; auto. Qed.
Lemma nth_vadd a b i : length a = length b -> (i < length a)%nat -> nth i (vadd a b) 0 = nth i a 0 + nth i b 0.
Proof. intros. apply (zip_with_nth Rplus a b 0 0 0); auto. Qed.
Lemma nth_vsub a b i : length a = length b -> (i < length a)%nat -> nth i (vsub a b) 0 = nth i a 0 - nth i b 0.
Proof. intros. apply (zip_with_nth Rminus a b 0 0 0); auto. Qed.
Lemma nth_vmul a b i : length a = length b -> (i < length a)%nat -> nth i (vmul a b) 0 = nth i a 0 * nth i b 0.
Proof. intros. apply (zip_with_nth Rmult a b 0 0 0); auto. Qed.
Lemma nth_map_in A B (f : A -> B) l i da db : (i < length l)%nat -> nth i (map f l) db = f (nth i l da).
Proof. revert i. induction l as [|x l IH]; intros [|i] H; cbn in *; try lia; auto. apply IH. lia. Qed.
Lemma nth_vscale c a i : (i < length a)%nat -> nth i (vscale c a) 0 = c * nth i a 0.
Proof. intros. now apply nth_map_in. Qed.

(** ** rms_prop *)
Section Rms.
Variable s : vtree.
Hypothesis Hs : wfv s.
Variables (alpha lmbd : R).
Notation rms_run := (rms_run alpha lmbd).
Lemma weighted_S (g : nat -> R) n : weighted_square alpha g (S n) = alpha * weighted_square alpha g n + (1 - alpha) * (g n * g n).
Proof.
  unfold weighted_square. rewrite sum_upto_S. replace (S n - 1 - n)%nat with O by lia. cbn [pow].
  rewrite (@sum_upto_ext n (fun k => alpha ^ (S n - 1 - k) * (g k * g k)) (fun k => alpha * (alpha ^ (n - 1 - k) * (g k * g k)))).
  - rewrite sum_upto_scale. lra.
  - intros k Hk. replace (S n - 1 - k)%nat with (S (n - 1 - k)) by lia. cbn [pow]. lra.
Qed.
Lemma like_dim t : like s t -> length (ravel t) = dim s.
Proof. intros [H1 H2]. apply (same_shape_dim H1 Hs H2). Qed.
Lemma rms_inv x0 h : like s x0 -> Forall (fun xg => like s (snd xg)) h ->
  let st := rms_run x0 h in
  ad_template st = x0 /\ rms_alpha (ad_inner st) = alpha /\ rms_lmbd (ad_inner st) = lmbd /\ length (rms_v (ad_inner st)) = dim s /\
  forall i, (i < dim s)%nat -> nth i (rms_v (ad_inner st)) 0 = weighted_square alpha (fun k => nth_el (map snd h) k i) (length h).
Proof.
  intros Hx. induction h as [|[y g] h IH] using rev_ind; intros HF st.
  - cbn in *. rewrite map_length. split; auto. split; auto. split; auto. split; [apply like_dim; auto|]. intros i Hi.
    rewrite (@nth_map_in _ _ _ _ _ 0) by (rewrite like_dim; auto). unfold weighted_square, sum_upto. cbn. lra.
  - apply Forall_app in HF. destruct HF as [HF Hg]. inversion Hg as [|? ? Hg1 _]; subst. cbn [snd] in Hg1.
    destruct (IH HF) as (I1 & I2 & I3 & I4 & I5). clear IH. subst st. unfold rms_run in *. rewrite fold_left_app. cbn [fold_left].
    set (st := fold_left _ h _) in *. unfold rms_update. cbn [ad_inner ad_template rms_v rms_alpha rms_lmbd fst snd].
    assert (L : length (vscale (rms_alpha (ad_inner st)) (rms_v (ad_inner st))) = length (vscale (1 - rms_alpha (ad_inner st)) (map (fun g => g * g) (ravel g)))).
    { unfold vscale. rewrite !map_length, I4, like_dim; auto. }
    split; auto. split; auto. split; auto. split; [unfold vadd; rewrite len_zip by exact L; unfold vscale; rewrite map_length; auto|].
    intros i Hi. rewrite nth_vadd by (auto; unfold vscale; rewrite map_length, I4; auto). rewrite !nth_vscale by (rewrite ?map_length, ?I4, ?like_dim; auto).
    rewrite (@nth_map_in _ _ _ _ _ 0) by (rewrite like_dim; auto). rewrite I5, I2 by auto.
    rewrite app_length. cbn [length]. rewrite Nat.add_1_r, weighted_S.
    assert (E : nth_el (map snd (h ++ [(y, g)])) (length h) i = nth i (ravel g) 0).
    { unfold nth_el. rewrite map_app, app_nth2 by (rewrite map_length; auto). rewrite map_length, Nat.sub_diag. reflexivity. }
    rewrite E. do 2 f_equal. unfold weighted_square. do 2 f_equal. apply sum_upto_ext. intros k Hk.
    assert (E2 : nth_el (map snd (h ++ [(y, g)])) k i = nth_el (map snd h) k i). { unfold nth_el. rewrite map_app, app_nth1 by (rewrite map_length; auto). reflexivity. }
    now rewrite E2.
Qed.
Lemma weighted_nonneg g n : 0 <= alpha <= 1 -> 0 <= weighted_square alpha g n.
Proof.
  intros Ha. induction n as [|n IH]; [unfold weighted_square, sum_upto; cbn; lra|]. rewrite weighted_S.
  assert (0 <= g n * g n) by apply Rle_0_sqr. assert (0 <= alpha * weighted_square alpha g n) by (apply Rmult_le_pos; lra).
  assert (0 <= (1 - alpha) * (g n * g n)) by (apply Rmult_le_pos; lra). lra.
Qed.
Lemma unravel_like x0 v : like s x0 -> length v = dim s -> exists u, ok_or x0 (unravel x0 v) = u /\ like s u /\ ravel u = v.
Proof.
  intros [H1 H2] Hv. destruct (@unravel_ok x0 v H1) as (u & -> & E & S & W); [rewrite Hv; symmetry; apply same_shape_dim; auto|].
  exists u. split; auto. split; auto. split; auto. eapply same_shape_trans; eauto.
Qed.
Lemma rms_final x0 h : 0 <= alpha <= 1 -> 0 < lmbd -> like s x0 -> Forall (fun xg => like s (snd xg)) h -> forall y g,
  let m := rms_get (rms_run x0 h) y g in
  exists G Q, g_inv m = Tens1 G /\ sqrt_g_inv m = Tens1 Q /\ like s G /\ like s Q /\ like s (g_gamma m) /\
  forall i, (i < dim s)%nat ->
    let v := weighted_square alpha (fun k => nth_el (map snd h) k i) (length h) in
    0 <= v /\ el G i = 1 / (lmbd + sqrt v) /\ 0 < el G i <= 1 / lmbd /\ 0 < el Q i /\ el Q i * el Q i = el G i /\ el (g_gamma m) i = 0.
Proof.
  intros Ha Hl Hx HF y g m. destruct (rms_inv Hx HF) as (I1 & I2 & I3 & I4 & I5). subst m. unfold rms_get. set (st := rms_run x0 h) in *. rewrite I1.
  set (gv := map (fun v => / (rms_lmbd (ad_inner st) + sqrt v)) (rms_v (ad_inner st))).
  assert (Lg : length gv = dim s) by (subst gv; rewrite map_length; auto).
  destruct (@unravel_like x0 gv Hx Lg) as (G & -> & LG & RG). destruct (@unravel_like x0 (map sqrt gv) Hx) as (Q & -> & LQ & RQ); [rewrite map_length; auto|].
  destruct (@unravel_like x0 (map (fun _ => 0) gv) Hx) as (Z & -> & LZ & RZ); [rewrite map_length; auto|]. cbn [g_inv sqrt_g_inv g_gamma].
  exists G, Q. split; auto. split; auto. split; auto. split; auto. split; auto. intros i Hi. set (v := weighted_square _ _ _).
  assert (Hv : 0 <= v) by (apply weighted_nonneg; auto). pose proof (sqrt_pos v) as Hsq.
  assert (EG : el G i = 1 / (lmbd + sqrt v)). { unfold el. rewrite RG. subst gv. rewrite (@nth_map_in _ _ _ _ _ 0) by (rewrite I4; auto). rewrite I5, I3 by auto. fold v. unfold Rdiv. lra. }
  assert (P : 0 < el G i). { rewrite EG. apply Rdiv_lt_0_compat; lra. }
  assert (EQ : el Q i = sqrt (el G i)). { unfold el. rewrite RQ, RG. rewrite (@nth_map_in _ _ _ _ _ 0) by (rewrite Lg; auto). reflexivity. }
  split; auto. split; auto. split; [|split; [|split]].
  - split; auto. rewrite EG. unfold Rdiv. rewrite !Rmult_1_l. apply Rinv_le_contravar; lra.
  - rewrite EQ. apply sqrt_lt_R0. auto.
  - rewrite EQ. apply sqrt_sqrt. lra.
  - unfold el. rewrite RZ. rewrite (@nth_map_in _ _ _ _ _ 0) by (rewrite Lg; auto). reflexivity.
Qed.
End Rms.

(** ** mass_matrix *)
Lemma cross_dev_alt n f g : cross_dev n f g = sum_upto n (fun k => f k * g k) - INR n * seq_mean n f * seq_mean n g.
Proof.
  destruct n as [|n]; [unfold cross_dev, seq_mean, sum_upto; cbn; lra|].
  unfold cross_dev. set (a := seq_mean (S n) f). set (b := seq_mean (S n) g).
  assert (Hf : sum_upto (S n) f = INR (S n) * a) by (unfold a, seq_mean; field; apply not_0_INR; lia).
  assert (Hg : sum_upto (S n) g = INR (S n) * b) by (unfold b, seq_mean; field; apply not_0_INR; lia).
  clearbody a b.
  rewrite (@sum_upto_ext (S n) _ (fun k => (f k * g k + (- a) * g k) + ((- b) * f k + (fun _ => a * b) k))) by (intros; cbv beta; lra).
  rewrite !sum_upto_plus, !sum_upto_scale, Hf, Hg.
  assert (C : forall m c, sum_upto m (fun _ => c) = INR m * c). { clear. induction m as [|m IH]; intros c; [unfold sum_upto; cbn; lra|]. rewrite sum_upto_S, IH, S_INR. lra. }
  rewrite C. lra.
Qed.
Lemma mean_S n f : seq_mean (S n) f = (INR (S n) - 1) / INR (S n) * seq_mean n f + 1 / INR (S n) * f n.
Proof.
  unfold seq_mean. rewrite sum_upto_S. destruct n as [|n]; [unfold sum_upto; cbn; lra|]. rewrite (S_INR (S n)). assert (0 < INR (S n)) by (apply lt_0_INR; lia). field. lra.
Qed.
Lemma cross_dev_S n f g : cross_dev (S n) f g = cross_dev n f g + (f n - seq_mean n f) * (g n - seq_mean (S n) g).
Proof.
  rewrite !cross_dev_alt, sum_upto_S, !mean_S. rewrite S_INR. assert (0 <= INR n) by apply pos_INR. field. lra.
Qed.
Lemma seq_mean_ext n f g : (forall k, (k < n)%nat -> f k = g k) -> seq_mean n f = seq_mean n g.
Proof. intros H. unfold seq_mean. now rewrite (@sum_upto_ext n f g H). Qed.
Lemma cross_dev_ext n f f' g g' : (forall k, (k < n)%nat -> f k = f' k) -> (forall k, (k < n)%nat -> g k = g' k) -> cross_dev n f g = cross_dev n f' g'.
Proof.
  intros H1 H2. unfold cross_dev. rewrite (@seq_mean_ext n f f' H1), (@seq_mean_ext n g g' H2). apply sum_upto_ext. intros k Hk. now rewrite H1, H2.
Qed.
Lemma nth_el_last h x i : nth_el (h ++ [x]) (length h) i = nth i (ravel x) 0.
Proof. unfold nth_el. rewrite app_nth2, Nat.sub_diag by auto. reflexivity. Qed.
Lemma nth_el_app h x k i : (k < length h)%nat -> nth_el (h ++ x) k i = nth_el h k i.
Proof. intros. unfold nth_el. now rewrite app_nth1. Qed.
Lemma cross_dev_nonneg n f : 0 <= cross_dev n f f.
Proof.
  unfold cross_dev. generalize (seq_mean n f). intros a. induction n as [|n IH]; [unfold sum_upto; cbn; lra|]. rewrite sum_upto_S. pose proof (Rle_0_sqr (f n - a)). unfold Rsqr in *. lra.
Qed.

Lemma cross_dev_pos n f k l : (k < n)%nat -> (l < n)%nat -> f k <> f l -> 0 < cross_dev n f f.
Proof.
  intros Hk Hl Hne. unfold cross_dev. generalize (seq_mean n f). intros a.
  assert (Z : forall m, 0 <= sum_upto m (fun k => (f k - a) * (f k - a))).
  { induction m as [|m IH]; [unfold sum_upto; cbn; lra|]. rewrite sum_upto_S. pose proof (Rle_0_sqr (f m - a)). unfold Rsqr in *. lra. }
  assert (P : forall j m, (j < m)%nat -> f j <> a -> 0 < sum_upto m (fun k => (f k - a) * (f k - a))).
  { intros j m Hj Ha. induction m as [|m IH]; [lia|]. rewrite sum_upto_S. destruct (Nat.eq_dec j m) as [->|Hjm].
    - pose proof (Z m). assert (0 < Rsqr (f m - a)) by (apply Rlt_0_sqr; lra). unfold Rsqr in *. lra.
    - pose proof (Rle_0_sqr (f m - a)). unfold Rsqr in *. specialize (IH ltac:(lia)). lra. }
  destruct (Req_dec (f k) a) as [E|E]; [|apply (P k); auto]. apply (P l); auto. congruence.
Qed.
Lemma nth_repeat_in A (x d : A) n i : (i < n)%nat -> nth i (repeat x n) d = x.
Proof. revert i. induction n as [|n IH]; intros [|i] H; cbn; try lia; auto. apply IH. lia. Qed.
Lemma entry_outer a b i j : (i < length a)%nat -> (j < length b)%nat -> entry (outer a b) i j = nth i a 0 * nth j b 0.
Proof. intros. unfold entry, outer. rewrite (@nth_map_in _ _ _ _ _ 0) by auto. now rewrite (@nth_map_in _ _ _ _ _ 0) by auto. Qed.
Lemma square_outer a b n : length a = n -> length b = n -> square n (outer a b).
Proof. intros H1 H2. split; [unfold outer; now rewrite map_length|]. apply Forall_forall. intros r Hr. apply in_map_iff in Hr. destruct Hr as (x & <- & _). now rewrite map_length. Qed.
Lemma square_row n m i : square n m -> (i < n)%nat -> length (nth i m []) = n.
Proof. intros [H1 H2] Hi. rewrite Forall_forall in H2. apply H2, nth_In. lia. Qed.
Lemma entry_madd a b n i j : square n a -> square n b -> (i < n)%nat -> (j < n)%nat -> entry (madd a b) i j = entry a i j + entry b i j.
Proof.
  intros Ha Hb Hi Hj. unfold entry, madd. rewrite (zip_with_nth vadd a b [] [] []) by (destruct Ha, Hb; lia). apply nth_vadd; rewrite ?(square_row Ha), ?(square_row Hb); auto.
Qed.
Lemma square_madd a b n : square n a -> square n b -> square n (madd a b).
Proof.
  intros Ha Hb. pose proof Ha as [Ha1 _]. pose proof Hb as [Hb1 _]. assert (L : length (madd a b) = n) by (unfold madd; rewrite len_zip; lia). split; auto.
  apply Forall_forall. intros r Hr. apply (In_nth _ _ []) in Hr. destruct Hr as (i & Hi & <-). rewrite L in Hi. unfold madd. rewrite (zip_with_nth vadd a b [] [] []) by lia.
  unfold vadd. rewrite len_zip by (rewrite (square_row Ha), (square_row Hb); auto). apply (square_row Ha); auto.
Qed.
Section Mass.
Variable s : vtree.
Hypothesis Hs : wfv s.
Variable eigh : mat -> vec * mat.
Variables (diagonal : bool) (burn_in : nat).
Notation mm_run := (mm_run eigh diagonal burn_in).
Definition ssq_ok (h : list vtree) (q : ssq_t) : Prop :=
  match q with
  | SDiag v => diagonal = true /\ length v = dim s /\ forall i, (i < dim s)%nat -> nth i v 0 = cross_dev (length h) (fun k => nth_el h k i) (fun k => nth_el h k i)
  | SFull m => diagonal = false /\ square (dim s) m /\ forall i j, (i < dim s)%nat -> (j < dim s)%nat -> entry m i j = cross_dev (length h) (fun k => nth_el h k i) (fun k => nth_el h k j)
  end.
Lemma mm_inv_ok x0 cov h : like s x0 -> Forall (like s) h ->
  let st := mm_run x0 cov h in
  ad_template st = x0 /\ mm_it (ad_inner st) = length h /\ length (mm_mean (ad_inner st)) = dim s /\
  (forall i, (i < dim s)%nat -> nth i (mm_mean (ad_inner st)) 0 = seq_mean (length h) (fun k => nth_el h k i)) /\
  ssq_ok h (mm_ssq (ad_inner st)).
Proof.
  intros Hx. induction h as [|x h IH] using rev_ind; intros HF st.
  - cbn in *. rewrite repeat_length. rewrite (like_dim Hs Hx). split; auto. split; auto. split; auto. split.
    + intros i Hi. rewrite nth_repeat_in by auto. unfold seq_mean, sum_upto. cbn. lra.
    + unfold ssq_ok. destruct diagonal.
      * split; auto. split; [apply repeat_length|]. intros i Hi. rewrite nth_repeat_in by auto. unfold cross_dev, sum_upto. cbn. lra.
      * split; auto. split; [split; [apply repeat_length|]; apply Forall_forall; intros r Hr; apply repeat_spec in Hr; subst; apply repeat_length|].
        intros i j Hi Hj. unfold entry. rewrite (@nth_repeat_in _ (repeat 0 (dim s))) by auto. rewrite nth_repeat_in by auto. unfold cross_dev, sum_upto. cbn. lra.
  - apply Forall_app in HF. destruct HF as [HF Hg]. inversion Hg as [|? ? Hg1 _]; subst.
    destruct (IH HF) as (I1 & I2 & I3 & I4 & I5). clear IH. subst st. unfold mm_run in *. rewrite fold_left_app. cbn [fold_left].
    set (st := fold_left _ h _) in *. unfold mm_update.
    destruct (if (S (mm_it (ad_inner st)) =? burn_in)%nat then _ else _) as [inv root]. cbn [ad_inner ad_template mm_it mm_mean mm_ssq].
    rewrite I2, app_length. cbn [length]. rewrite Nat.add_1_r. set (n := length h) in *.
    assert (Lx : length (ravel x) = dim s) by (apply like_dim; auto).
    set (mean := vadd (vscale ((INR (S n) - 1) / INR (S n)) (mm_mean (ad_inner st))) (vscale (1 / INR (S n)) (ravel x))) in *.
    assert (Lm : length mean = dim s) by (unfold mean, vadd; rewrite len_zip; unfold vscale; rewrite !map_length; congruence).
    assert (Hmean : forall i, (i < dim s)%nat -> nth i mean 0 = seq_mean (S n) (fun k => nth_el (h ++ [x]) k i)).
    { intros i Hi. unfold mean. rewrite nth_vadd by (unfold vscale; rewrite !map_length; lia). rewrite !nth_vscale by lia. rewrite I4 by auto. rewrite mean_S. unfold n at 6. rewrite nth_el_last.
      do 2 f_equal. apply seq_mean_ext. intros k Hk. symmetry. apply nth_el_app; auto. }
    assert (Hold : forall i, (i < dim s)%nat -> nth i (mm_mean (ad_inner st)) 0 = seq_mean n (fun k => nth_el (h ++ [x]) k i)).
    { intros i Hi. rewrite I4 by auto. apply seq_mean_ext. intros k Hk. symmetry. apply nth_el_app; auto. }
    split; auto. split; auto. split; auto. split; auto. unfold ssq_ok in *. destruct (mm_ssq (ad_inner st)) as [q|q]; destruct I5 as (D & L5 & I5).
    + split; auto. assert (E1 : length (vsub (ravel x) (mm_mean (ad_inner st))) = dim s) by (unfold vsub; rewrite len_zip; lia).
      assert (E2 : length (vsub (ravel x) mean) = dim s) by (unfold vsub; rewrite len_zip; lia).
      assert (E3 : length (vmul (vsub (ravel x) (mm_mean (ad_inner st))) (vsub (ravel x) mean)) = dim s) by (unfold vmul; rewrite len_zip; lia).
      split; [unfold vadd; rewrite len_zip; lia|]. intros i Hi. rewrite app_length. cbn [length]. rewrite Nat.add_1_r. fold n.
      rewrite nth_vadd, nth_vmul, !nth_vsub by lia. rewrite I5, cross_dev_S, Hmean, Hold by auto. rewrite <- (nth_el_last h x i). fold n. apply (f_equal2 Rplus); [|reflexivity].
      apply cross_dev_ext; intros k Hk; symmetry; apply nth_el_app; auto.
    + split; auto. assert (E1 : length (vsub (ravel x) (mm_mean (ad_inner st))) = dim s) by (unfold vsub; rewrite len_zip; lia).
      assert (E2 : length (vsub (ravel x) mean) = dim s) by (unfold vsub; rewrite len_zip; lia).
      pose proof (square_outer _ _ E1 E2) as E3. split; [apply square_madd; auto|]. intros i j Hi Hj. rewrite app_length. cbn [length]. rewrite Nat.add_1_r. fold n.
      rewrite (entry_madd L5 E3) by auto. rewrite entry_outer, !nth_vsub by lia. rewrite I5, cross_dev_S, Hmean, Hold by auto.
      rewrite <- (nth_el_last h x i), <- (nth_el_last h x j). fold n. apply (f_equal2 Rplus); [|reflexivity].
      apply cross_dev_ext; intros k Hk; symmetry; apply nth_el_app; auto.
Qed.
(** the matrices change only in update number burn_in *)
Lemma mm_matrices x0 cov h : let st := mm_run x0 cov h in
  (mm_inv (ad_inner st), mm_sqrt (ad_inner st)) =
  (if ((burn_in =? 0) || (length h <? burn_in))%nat then (mm_inv (ad_inner (mm_init diagonal x0 cov)), mm_sqrt (ad_inner (mm_init diagonal x0 cov)))
   else update_matrix eigh burn_in (mm_ssq (ad_inner (mm_run x0 cov (firstn burn_in h))))).
Proof.
  assert (Hit : forall l, mm_it (ad_inner (mm_run x0 cov l)) = length l).
  { clear h. intros l. induction l as [|x l IH] using rev_ind; [reflexivity|]. unfold mm_run at 1. rewrite fold_left_app. cbn [fold_left]. fold (mm_run x0 cov l). unfold mm_update at 1.
    destruct (if (_ =? _)%nat then _ else _). cbn [ad_inner mm_it]. rewrite IH, app_length. cbn [length]. lia. }
  induction h as [|x h IH] using rev_ind; intros st.
  - cbn in *. destruct burn_in; reflexivity.
  - cbv zeta in IH. subst st. unfold mm_run at 1 2. rewrite fold_left_app. cbn [fold_left]. fold (mm_run x0 cov h). unfold mm_update at 1 2.
    rewrite Hit. set (q := match mm_ssq _ with SDiag _ => _ | SFull _ => _ end).
    destruct (Nat.eqb_spec (S (length h)) burn_in) as [E|E].
    + assert (X : ((burn_in =? 0) || (length (h ++ [x]) <? burn_in))%nat = false).
      { rewrite app_length. cbn [length]. destruct (Nat.eqb_spec burn_in 0); [lia|]. destruct (Nat.ltb_spec (length h + 1) burn_in); [lia|reflexivity]. }
      rewrite X. rewrite firstn_all2 by (rewrite app_length; cbn [length]; lia).
      assert (Y : mm_ssq (ad_inner (mm_run x0 cov (h ++ [x]))) = q).
      { unfold mm_run. rewrite fold_left_app. cbn [fold_left]. fold (mm_run x0 cov h). unfold mm_update. rewrite Hit. fold q. destruct (if (_ =? _)%nat then _ else _). reflexivity. }
      rewrite Y, E. destruct (update_matrix eigh burn_in q). reflexivity.
    + cbn [ad_inner mm_inv mm_sqrt]. rewrite IH. rewrite app_length. cbn [length].
      destruct (Nat.eqb_spec burn_in 0) as [E0|E0]; cbn [orb]; [reflexivity|].
      destruct (Nat.ltb_spec (length h) burn_in), (Nat.ltb_spec (length h + 1) burn_in); try lia; [reflexivity|].
      rewrite firstn_app. replace (burn_in - length h)%nat with O by lia. cbn [firstn]. rewrite app_nil_r. reflexivity.
Qed.
End Mass.

(** ** fisher_information *)
Lemma len_vadd a b : length a = length b -> length (vadd a b) = length a. Proof. apply len_zip. Qed.
Lemma fold_vadd d (fs : list (list R)) : Forall (fun v => length v = d) fs -> forall acc, length acc = d ->
  length (fold_left vadd fs acc) = d /\ forall j, (j < d)%nat -> nth j (fold_left vadd fs acc) 0 = nth j acc 0 + rsum (map (fun v => nth j v 0) fs).
Proof.
  induction 1 as [|v fs Hv HF IH]; intros acc Ha; cbn [fold_left map]; [split; auto; intros; rewrite rsum_nil; lra|].
  destruct (IH (vadd acc v)) as [I1 I2]; [rewrite len_vadd; lia|]. split; auto. intros j Hj. rewrite I2, nth_vadd, rsum_cons by lia. lra.
Qed.
Lemma rsum_seq f n : rsum (map f (seq 0 n)) = sum_upto n f.
Proof. induction n as [|n IH]; [reflexivity|]. rewrite sum_upto_S, seq_S, map_app, rsum_app, IH. cbn [map plus]. rewrite rsum_cons, rsum_nil. lra. Qed.
Lemma sum_const m c : sum_upto m (fun _ => c) = INR m * c.
Proof. induction m as [|m IH]; [unfold sum_upto; cbn; lra|]. rewrite sum_upto_S, IH, S_INR. lra. Qed.
(** shift of the centre of a sum of squares *)
Lemma shifted_products n f g c e : (0 < n)%nat -> sum_upto n (fun i => (f i - c) * (g i - e)) = cross_dev n f g + INR n * (seq_mean n f - c) * (seq_mean n g - e).
Proof.
  intros Hn. unfold cross_dev. set (a := seq_mean n f). set (b := seq_mean n g).
  assert (H0 : INR n <> 0) by (apply not_0_INR; lia).
  assert (Hf : sum_upto n f = INR n * a) by (unfold a, seq_mean; field; auto).
  assert (Hg : sum_upto n g = INR n * b) by (unfold b, seq_mean; field; auto). clearbody a b.
  rewrite (@sum_upto_ext n (fun i => (f i - c) * (g i - e)) (fun k => (f k - a) * (g k - b) + (((b - e) * f k + (a - c) * g k) + (fun _ => - a * (b - e) - b * (a - c) + (a - c) * (b - e)) k))) by (intros; cbv beta; ring).
  rewrite !sum_upto_plus, !sum_upto_scale, !sum_const, Hf, Hg. ring.
Qed.
Section Fisher.
Variables (grad_at : nat -> list R) (N n : nat) (sample_grad : list R) (eps : R) (d : nat).
Hypothesis Hg : forall i, (i < n)%nat -> length (grad_at i) = d.
Hypothesis Hs : length sample_grad = d.
Hypothesis Hn : (2 <= n)%nat.
Lemma len_dev i : (i < n)%nat -> length (deviation grad_at N sample_grad i) = d.
Proof. intros Hi. unfold deviation, vsub. rewrite len_zip; rewrite ?map_length, Hg; auto. Qed.
Lemma nth_dev i j : (i < n)%nat -> (j < d)%nat -> nth j (deviation grad_at N sample_grad i) 0 = nth j (grad_at i) 0 - nth j sample_grad 0 / INR N.
Proof.
  intros Hi Hj. unfold deviation. rewrite nth_vsub by (rewrite ?map_length, ?Hg; lia). f_equal. now rewrite (@nth_map_in _ _ _ _ _ 0) by lia.
Qed.
Lemma vsum_nth f : (forall i, (i < n)%nat -> length (f i) = d) -> length (vsum n d f) = d /\ forall j, (j < d)%nat -> nth j (vsum n d f) 0 = sum_upto n (fun i => nth j (f i) 0).
Proof.
  intros HF. unfold vsum. destruct (@fold_vadd d (map f (seq 0 n))) with (acc := repeat 0 d) as [H1 H2].
  - apply Forall_forall. intros v Hv. apply in_map_iff in Hv. destruct Hv as (i & <- & Hi). apply in_seq in Hi. apply HF. lia.
  - apply repeat_length.
  - split; auto. intros j Hj. rewrite H2, nth_repeat_in, map_map, rsum_seq by auto. lra.
Qed.
Lemma fi_b_len : length (fi_b grad_at N n sample_grad eps) = d.
Proof. unfold fi_b. rewrite map_length, Hs. apply vsum_nth. intros i Hi. rewrite map_length. apply len_dev; auto. Qed.
Lemma fi_b_nth j : (j < d)%nat -> nth j (fi_b grad_at N n sample_grad eps) NaN
  = Fin (eps / 2 * (1 / (INR n - 1) * sum_upto n (fun i => (nth j (grad_at i) 0 - nth j sample_grad 0 / INR N) * (nth j (grad_at i) 0 - nth j sample_grad 0 / INR N)))).
Proof.
  intros Hj. assert (H1 : 1 < INR n) by (apply (lt_INR 1); lia).
  destruct (@vsum_nth (fun i => map (fun x => x * x) (deviation grad_at N sample_grad i))) as [L E]; [intros i Hi; rewrite map_length; apply len_dev; auto|].
  unfold fi_b. rewrite Hs. rewrite (@nth_map_in _ _ _ _ _ 0) by lia. rewrite E by auto. unfold b_of, xdiv. destruct (Req_EM_T (INR n - 1) 0); [lra|]. cbn [xmul]. f_equal.
  replace (0.5 * eps) with (eps / 2) by lra. do 2 f_equal. apply sum_upto_ext. intros i Hi.
  rewrite (@nth_map_in _ _ _ _ _ 0) by (rewrite len_dev; auto). rewrite nth_dev by auto. reflexivity.
Qed.
Lemma msum_entry f : (forall i, (i < n)%nat -> square d (f i)) -> square d (msum n d f) /\ forall i j, (i < d)%nat -> (j < d)%nat -> entry (msum n d f) i j = sum_upto n (fun k => entry (f k) i j).
Proof.
  intros HF. unfold msum.
  assert (S0 : square d (repeat (repeat 0 d) d)) by (split; [apply repeat_length|]; apply Forall_forall; intros r Hr; apply repeat_spec in Hr; subst; apply repeat_length).
  assert (E0 : forall i j, (i < d)%nat -> (j < d)%nat -> entry (repeat (repeat 0 d) d) i j = 0) by (intros; unfold entry; rewrite (@nth_repeat_in _ (repeat 0 d)) by auto; now rewrite nth_repeat_in).
  assert (G : forall m, (m <= n)%nat -> square d (fold_left madd (map f (seq 0 m)) (repeat (repeat 0 d) d)) /\
     forall i j, (i < d)%nat -> (j < d)%nat -> entry (fold_left madd (map f (seq 0 m)) (repeat (repeat 0 d) d)) i j = sum_upto m (fun k => entry (f k) i j)).
  { induction m as [|m IH]; intros Hm; [cbn; split; auto|]. destruct IH as [I1 I2]; [lia|]. rewrite seq_S, map_app, fold_left_app. cbn [map fold_left plus].
    split; [apply square_madd; auto; apply HF; lia|]. intros i j Hi Hj. rewrite (entry_madd I1 (HF m ltac:(lia)) Hi Hj), I2, sum_upto_S by auto. reflexivity. }
  apply G. auto.
Qed.
Lemma fi_full_entry i j : (i < d)%nat -> (j < d)%nat -> entry (fi_b_full grad_at N n sample_grad eps) i j
  = eps / 2 * (1 / (INR n - 1) * sum_upto n (fun k => (nth i (grad_at k) 0 - nth i sample_grad 0 / INR N) * (nth j (grad_at k) 0 - nth j sample_grad 0 / INR N))).
Proof.
  intros Hi Hj. destruct (@msum_entry (fun k => outer (deviation grad_at N sample_grad k) (deviation grad_at N sample_grad k))) as [Q E]; [intros k Hk; apply square_outer; apply len_dev; auto|].
  unfold fi_b_full, entry. rewrite Hs. rewrite (@nth_map_in _ _ _ _ _ []) by (destruct Q as [-> _]; auto).
  rewrite (@nth_map_in _ _ _ _ _ 0) by (rewrite (square_row Q); auto). specialize (E i j Hi Hj). unfold entry in E. rewrite E.
  replace (0.5 * eps) with (eps / 2) by lra. do 2 f_equal. apply sum_upto_ext. intros k Hk.
  pose proof (@entry_outer (deviation grad_at N sample_grad k) (deviation grad_at N sample_grad k) i j) as X. unfold entry in X. rewrite X by (rewrite len_dev; auto). rewrite !nth_dev by auto. reflexivity.
Qed.
Variable friction : list R.
Hypothesis Hf : length friction = d.
(** all corrections positive *)
Lemma fisher_positive (b : nat -> R) : (forall j, (j < d)%nat -> nth j (fi_b grad_at N n sample_grad eps) NaN = Fin (b j)) ->
  (forall j, (j < d)%nat -> 0 <= b j < nth j friction 0) ->
  let r := fisher_diag grad_at N n sample_grad friction eps in
  forall j, (j < d)%nat -> nth j (fst r) NaN = Fin (sqrt (nth j friction 0 - b j)) /\ nth j (snd r) NaN = Fin (sqrt (b j)).
Proof.
  intros Hb Hpos r j Hj. subst r. unfold fisher_diag.
  set (corr := zip_with _ friction (fi_b _ _ _ _ _)). set (small := xmin _). cbn [fst snd].
  assert (Lc : length corr = d) by (subst corr; rewrite len_zip; rewrite ?fi_b_len; auto).
  assert (Ec : nth j corr NaN = Fin (nth j friction 0 - b j)).
  { subst corr. rewrite (zip_with_nth _ friction _ 0 NaN NaN) by (rewrite ?fi_b_len; lia). rewrite Hb by auto. reflexivity. }
  set (pos := map _ corr). assert (Lp : length pos = d) by (subst pos; rewrite map_length; auto).
  assert (Ep : nth j pos NaN = Fin (nth j friction 0 - b j)).
  { subst pos. rewrite (@nth_map_in _ _ _ _ _ NaN) by lia. rewrite Ec. destruct (xle_dec _ _) as [X|X]; [|reflexivity]. apply xle_fin in X. specialize (Hpos j Hj). lra. }
  split.
  - rewrite (@nth_map_in _ _ _ _ _ NaN) by lia. rewrite Ep. cbn. specialize (Hpos j Hj). destruct (Rlt_dec _ 0); [lra|reflexivity].
  - rewrite (@nth_map_in _ _ _ _ _ NaN) by (rewrite len_zip; lia). rewrite (zip_with_nth _ friction pos 0 NaN NaN) by lia. rewrite Ep. cbn.
    specialize (Hpos j Hj). destruct (Rlt_dec _ 0); [lra|]. do 2 f_equal. lra.
Qed.
(** no correction positive *)
Lemma xmin_inf l : (forall x, In x l -> x = PInf) -> xmin l = PInf.
Proof.
  intros H. unfold xmin. induction l as [|x l IH]; [reflexivity|]. cbn [fold_left]. rewrite (H x (or_introl eq_refl)). destruct (xlt_dec PInf PInf); apply IH; intros; apply H; cbn; auto.
Qed.
Lemma fisher_nonpositive (b : nat -> R) : (forall j, (j < d)%nat -> nth j (fi_b grad_at N n sample_grad eps) NaN = Fin (b j)) ->
  (forall j, (j < d)%nat -> nth j friction 0 <= b j) ->
  let r := fisher_diag grad_at N n sample_grad friction eps in
  forall j, (j < d)%nat -> nth j (fst r) NaN = PInf /\ nth j (snd r) NaN = NaN.
Proof.
  intros Hb Hpos r j Hj. subst r. unfold fisher_diag.
  set (corr := zip_with _ friction (fi_b _ _ _ _ _)).
  assert (Lc : length corr = d) by (subst corr; rewrite len_zip; rewrite ?fi_b_len; auto).
  assert (Ec : forall j, (j < d)%nat -> nth j corr NaN = Fin (nth j friction 0 - b j)).
  { intros k Hk. subst corr. rewrite (zip_with_nth _ friction _ 0 NaN NaN) by (rewrite ?fi_b_len; lia). rewrite Hb by auto. reflexivity. }
  assert (El : forall x, In x corr -> xle x (Fin 0)).
  { intros x Hx. apply (In_nth _ _ NaN) in Hx. destruct Hx as (k & Hk & <-). rewrite Ec by lia. apply xle_fin. specialize (Hpos k ltac:(lia)). lra. }
  rewrite (@xmin_inf (map _ corr)).
  2:{ intros x Hx. apply in_map_iff in Hx. destruct Hx as (y & <- & Hy). destruct (xle_dec y (Fin 0)) as [X|X]; [reflexivity|]. exfalso. auto. }
  set (pos := map _ corr). assert (Lp : length pos = d) by (subst pos; rewrite map_length; auto). cbn [fst snd].
  assert (Ep : nth j pos NaN = PInf).
  { subst pos. rewrite (@nth_map_in _ _ _ _ _ NaN) by lia. destruct (xle_dec _ _) as [X|X]; [reflexivity|]. exfalso. apply X, El, nth_In. lia. }
  split.
  - rewrite (@nth_map_in _ _ _ _ _ NaN) by lia. rewrite Ep. reflexivity.
  - rewrite (@nth_map_in _ _ _ _ _ NaN) by (rewrite len_zip; lia). rewrite (zip_with_nth _ friction pos 0 NaN NaN) by lia. rewrite Ep. reflexivity.
Qed.
End Fisher.
