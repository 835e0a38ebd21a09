From Coq Require Import Reals Lra Lia List FunctionalExtensionality Permutation Classical ZArith.
From Verif Require Import Base ListUtil TreeUtilSpec TreeUtilProofs VolumeSpec RiemannSpec RiemannProofs RiemannSums.
Open Scope R_scope.
Set Implicit Arguments.
Local Arguments Nat.mul : simpl never.
Local Arguments Nat.pow : simpl never.

(** ** Riemann sums *)
Lemma rs_app M k l l' f z : riemann_sum M k (l ++ l') f z = riemann_sum M k l (riemann_sum M k l' f) z.
Proof. revert z; induction l as [|c l IH]; intros z; [reflexivity|]. cbn [app]. rewrite !rs_cons. apply line_ext. intros t. apply IH. Qed.
Lemma rs_diff M k l f g e z : 0 <= e -> (forall z, Rabs (f z - g z) <= e) -> Rabs (riemann_sum M k l f z - riemann_sum M k l g z) <= (2 * INR M) ^ length l * e.
Proof.
  intros He H. revert z. induction l as [|c l IH]; intros z.
  - cbn. rewrite Rmult_1_l. apply H.
  - rewrite !rs_cons. eapply Rle_trans; [apply line_diff; intros t; apply IH|]. cbn [length pow]. right. ring.
Qed.
Lemma rs_plus M k l f g z : riemann_sum M k l (fun z => f z + g z) z = riemann_sum M k l f z + riemann_sum M k l g z.
Proof. revert z. induction l as [|c l IH]; intros z; [reflexivity|]. rewrite !rs_cons, <- line_plus. apply line_ext. intros t. apply IH. Qed.
Lemma rs_scale M k l a f z : riemann_sum M k l (fun z => a * f z) z = a * riemann_sum M k l f z.
Proof. revert z. induction l as [|c l IH]; intros z; [reflexivity|]. rewrite !rs_cons, <- line_scale. apply line_ext. intros t. apply IH. Qed.
Lemma rs_le M k l f g z : (forall z, f z <= g z) -> riemann_sum M k l f z <= riemann_sum M k l g z.
Proof. intros H. revert z. induction l as [|c l IH]; intros z; [apply H|]. rewrite !rs_cons. apply line_le. intros t. apply IH. Qed.
Lemma rs_zero M k l f z : (forall z, f z = 0) -> riemann_sum M k l f z = 0.
Proof. intros H. revert z. induction l as [|c l IH]; intros z; [apply H|]. rewrite rs_cons. apply line_zero. intros t. apply IH. Qed.
Lemma rs_perm M k l l' f : Permutation l l' -> NoDup l -> forall z, riemann_sum M k l f z = riemann_sum M k l' f z.
Proof.
  induction 1 as [|c l l' _ IH|c c' l|l l' l'' H1 IH1 H2 IH2]; intros Hn z.
  - reflexivity.
  - inversion Hn; subst. rewrite !rs_cons. apply line_ext. intros t. now apply IH.
  - inversion Hn as [|? ? Hi Hn']; subst. assert (Hc : c' <> c) by (intros ->; apply Hi; now left). rewrite !rs_cons. unfold line.
    rewrite (@sum_upto_ext _ _ (fun i => sum_upto (2 * M * 2 ^ k) (fun j => / 2 ^ k * (/ 2 ^ k * riemann_sum M k l f (put (put z c (INR j / 2 ^ k - INR M)) c' (INR i / 2 ^ k - INR M)))))).
    + rewrite sum_upto_swap. apply sum_upto_ext. intros j _. rewrite sum_upto_scale. f_equal.
    + intros i _. rewrite sum_upto_scale. f_equal. rewrite rs_cons. unfold line. apply sum_upto_ext. intros j _. rewrite (put_comm z (c := c') (c' := c)) by auto. reflexivity.
  - rewrite IH1 by auto. apply IH2. apply (Permutation_NoDup H1 Hn).
Qed.
Lemma pow2_small e : 0 < e -> exists K, forall k, (K <= k)%nat -> / 2 ^ k < e.
Proof.
  intros He. destruct (pow_lt_1_zero (/ 2)) with (y := e) as (K & HK); auto.
  - rewrite Rabs_pos_eq; lra.
  - exists K. intros k Hk. specialize (HK k Hk). rewrite Rabs_pos_eq in HK by (apply pow_le; lra).
    rewrite pow_inv in HK. exact HK.
Qed.
Lemma INR_above B : exists n, B < INR n.
Proof.
  destruct (archimed B) as [H _]. exists (Z.to_nat (up B)). rewrite INR_IZR_INZ. destruct (Z_le_gt_dec 0 (up B)).
  - now rewrite Z2Nat.id.
  - eapply Rlt_le_trans; [exact H|]. apply IZR_le. lia.
Qed.

Section Dim.
Variables d m : nat.
Notation cont := (continuous d m).
Notation inn := (inside d m).
Notation cs := (coords d m).
Notation test := (test_function d m).
Notation limit := (riemann_limit d m).

Lemma rs_base M k l f : cont f -> forall z z', (forall c, inn c -> ~ In c l -> z c = z' c) -> riemann_sum M k l f z = riemann_sum M k l f z'.
Proof.
  intros Hf. induction l as [|c l IH]; intros z z' H.
  - apply (cont_agree Hf). intros c Hc. apply H; auto.
  - rewrite !rs_cons. apply line_ext. intros t. apply IH. intros c' Hc Hn. unfold put. destruct (coord_dec c' c) as [->|Hne]; auto.
    apply H; auto. intros [E|E]; [congruence|auto].
Qed.
Lemma rs_vanishes M0 M k c l f z : supported d m M0 f -> inn c -> ~ In c l -> INR M0 <= Rabs (z c) -> riemann_sum M k l f z = 0.
Proof.
  intros Hs Hc. revert z. induction l as [|c' l IH]; intros z Hn Hz; [now apply (Hs z c)|].
  rewrite rs_cons. apply line_zero. intros t. apply IH; [intros H; apply Hn; now right|]. rewrite put_other; auto. intros ->. apply Hn. now left.
Qed.
Lemma rs_grow M0 M k l f : supported d m M0 f -> (M0 <= M)%nat -> (forall c, In c l -> inn c) -> NoDup l -> forall z, riemann_sum M k l f z = riemann_sum M0 k l f z.
Proof.
  intros Hs HM. induction l as [|c l IH]; intros Hi Hn z; [reflexivity|]. inversion Hn; subst. rewrite !rs_cons.
  rewrite (line_ext M k _ (fun t => riemann_sum M0 k l f (put z c t))) by (intros t; apply IH; auto; intros; apply Hi; now right).
  apply line_grow; auto. intros t Ht. apply (@rs_vanishes M0 M0 k c); auto; [apply Hi; now left|]. now rewrite put_same.
Qed.
Lemma supported_mono M M' f : (M <= M')%nat -> supported d m M f -> supported d m M' f.
Proof. intros H Hs z c Hc Hz. apply (Hs z c Hc). apply le_INR in H. lra. Qed.
Lemma rs_grow_all M0 M k f z : supported d m M0 f -> (M0 <= M)%nat -> riemann_sum M k cs f z = riemann_sum M0 k cs f z.
Proof. intros Hs HM. apply rs_grow; auto; [intros c; apply in_coords|apply NoDup_coords]. Qed.
Lemma test_uniform f e : test f -> 0 < e -> exists del, 0 < del /\ forall z z', near d m del z z' -> Rabs (f z' - f z) < e.
Proof.
  intros [Hf (M & Hs)] He. destruct (@cont_uniform d m f (INR M + 1) e Hf He) as (del & Hd & H).
  exists (Rmin del 1). split; [apply Rmin_pos; lra|]. intros z z' Hn.
  pose proof (Rmin_l del 1) as Hl. pose proof (Rmin_r del 1) as Hr.
  destruct (classic (in_box d m (INR M + 1) z)) as [Hb|Hb].
  - apply H; auto. intros c Hc. specialize (Hn c Hc). lra.
  - assert (exists c, inn c /\ INR M + 1 < Rabs (z c)) as (c & Hc & Hz).
    { apply NNPP. intros Hx. apply Hb. intros c Hc. apply Rnot_lt_le. intros Hlt. apply Hx. eauto. }
    assert (INR M <= Rabs (z' c)). { specialize (Hn c Hc). pose proof (Rabs_triang (z' c) (z c - z' c)) as Ht. replace (z' c + (z c - z' c)) with (z c) in Ht by ring. rewrite Rabs_minus_sym in Ht. lra. }
    rewrite (Hs z c), (Hs z' c) by (auto; lra). rewrite Rminus_diag_eq, Rabs_R0 by reflexivity. exact He.
Qed.
Lemma rs_refine M k j l f e : 0 <= e -> (forall z z', (forall c, inn c -> Rabs (z' c - z c) <= / 2 ^ k) -> Rabs (f z' - f z) <= e) ->
  forall z z', (forall c, inn c -> ~ In c l -> Rabs (z' c - z c) <= / 2 ^ k) -> Rabs (riemann_sum M (k + j) l f z' - riemann_sum M k l f z) <= (2 * INR M) ^ length l * e.
Proof.
  intros He H. induction l as [|c l IH]; intros z z' Hz.
  - cbn [riemann_sum length pow]. rewrite Rmult_1_l. apply H. intros c Hc. apply Hz; auto.
  - rewrite !rs_cons. eapply Rle_trans; [apply (@line_refine M k j _ _ ((2 * INR M) ^ length l * e))|].
    + intros t t' Ht. apply IH. intros c' Hc Hn. unfold put. destruct (coord_dec c' c); auto. apply Hz; auto. intros [E|E]; [congruence|auto].
    + cbn [length pow]. right. ring.
Qed.
Lemma limit_exists f : test f -> exists v, limit f v.
Proof.
  intros Ht. pose proof Ht as [Hf (M & Hs)]. set (u := fun k => riemann_sum M k cs f (fun _ => 0)).
  assert (HC : Cauchy_crit u).
  { intros e He. set (w := (2 * INR M) ^ length cs). assert (Hw : 0 <= w) by (apply pow_le; pose proof (pos_INR M); lra).
    destruct (@test_uniform f (e / (2 * w + 2)) Ht) as (del & Hd & H); [apply Rdiv_lt_0_compat; lra|].
    destruct (pow2_small Hd) as (K & HK). exists K. 
    assert (G : forall a, (K <= a)%nat -> Rabs (u a - u K) < e / 2).
    { intros a Ha. replace a with (K + (a - K))%nat by lia. eapply Rle_lt_trans.
      - unfold u. apply (@rs_refine M K (a - K) cs f (e / (2 * w + 2))); [left; apply Rdiv_lt_0_compat; lra| |].
        + intros z z' Hz. left. apply H. intros c Hc. eapply Rle_lt_trans; [apply (Hz c Hc)|]. apply HK. lia.
        + intros c Hc Hn. rewrite Rminus_diag_eq, Rabs_R0 by reflexivity. left. apply Rinv_0_lt_compat, pow2_pos.
      - fold w. replace (e / 2) with ((w + 1) * (e / (2 * w + 2))) by (field; lra). apply Rmult_lt_compat_r; [apply Rdiv_lt_0_compat; lra|lra]. }
    intros a b Ha Hb. unfold R_dist. replace (u a - u b) with ((u a - u K) - (u b - u K)) by ring.
    eapply Rle_lt_trans; [apply Rabs_triang|]. rewrite Rabs_Ropp. pose proof (G a Ha). pose proof (G b Hb). lra. }
  destruct (R_complete u HC) as (v & Hv). exists v. intros e He. destruct (Hv e He) as (K & HK). exists (Nat.max K M).
  intros M' k HM Hk. rewrite (@rs_grow_all M M' k f) by (auto; lia). apply (HK k). lia.
Qed.
Lemma limit_unique f v w : limit f v -> limit f w -> v = w.
Proof.
  intros H1 H2. apply NNPP. intros Hn. assert (He : 0 < Rabs (v - w) / 2) by (assert (0 < Rabs (v - w)) by (apply Rabs_pos_lt; lra); lra).
  destruct (H1 _ He) as (K1 & G1). destruct (H2 _ He) as (K2 & G2). set (K := Nat.max K1 K2).
  specialize (G1 K K ltac:(lia) ltac:(lia)). specialize (G2 K K ltac:(lia) ltac:(lia)). set (x := riemann_sum K K cs f (fun _ => 0)) in *.
  pose proof (Rabs_triang (v - x) (x - w)) as T. replace (v - x + (x - w)) with (v - w) in T by ring. rewrite (Rabs_minus_sym v x) in T. lra.
Qed.
Lemma limit_plus f g v w : limit f v -> limit g w -> limit (fun z => f z + g z) (v + w).
Proof.
  intros H1 H2 e He. destruct (H1 (e / 2) ltac:(lra)) as (K1 & G1). destruct (H2 (e / 2) ltac:(lra)) as (K2 & G2). exists (Nat.max K1 K2).
  intros M k HM Hk. specialize (G1 M k ltac:(lia) ltac:(lia)). specialize (G2 M k ltac:(lia) ltac:(lia)). rewrite rs_plus.
  match goal with |- Rabs (?a + ?b - (v + w)) < e => replace (a + b - (v + w)) with ((a - v) + (b - w)) by ring end.
  eapply Rle_lt_trans; [apply Rabs_triang|]. lra.
Qed.
Lemma limit_scale a f v : limit f v -> limit (fun z => a * f z) (a * v).
Proof.
  intros H e He. pose proof (Rabs_pos a). destruct (H (e / (Rabs a + 1))) as (K & G); [apply Rdiv_lt_0_compat; lra|]. exists K. intros M k HM Hk. specialize (G M k HM Hk).
  rewrite rs_scale, <- Rmult_minus_distr_l, Rabs_mult. apply Rle_lt_trans with (Rabs a * (e / (Rabs a + 1))); [apply Rmult_le_compat_l; lra|].
  replace (Rabs a * (e / (Rabs a + 1))) with (e - e / (Rabs a + 1)) by (field; lra). assert (0 < e / (Rabs a + 1)) by (apply Rdiv_lt_0_compat; lra). lra.
Qed.
Lemma limit_le f g v w : limit f v -> limit g w -> (forall z, f z <= g z) -> v <= w.
Proof.
  intros H1 H2 H. apply Rnot_lt_le. intros Hn. assert (He : 0 < (v - w) / 2) by lra.
  destruct (H1 _ He) as (K1 & G1). destruct (H2 _ He) as (K2 & G2). set (K := Nat.max K1 K2).
  specialize (G1 K K ltac:(lia) ltac:(lia)). specialize (G2 K K ltac:(lia) ltac:(lia)). pose proof (@rs_le K K cs f g (fun _ => 0) H).
  apply Rabs_def2 in G1. apply Rabs_def2 in G2. lra.
Qed.
Lemma test_plus f g : test f -> test g -> test (fun z => f z + g z).
Proof.
  intros [Hf (M & HM)] [Hg (M' & HM')]. split; [now apply cont_plus|]. exists (Nat.max M M'). intros z c Hc Hz.
  rewrite (HM z c Hc), (HM' z c Hc); [ring| |]; (eapply Rle_trans; [|exact Hz]); apply le_INR; lia.
Qed.
Lemma test_scale a f : test f -> test (fun z => a * f z).
Proof. intros [Hf (M & HM)]. split; [now apply cont_scale|]. exists M. intros z c Hc Hz. rewrite (HM z c Hc Hz). ring. Qed.

(** ** maps that keep the integrals of the test functions *)
Definition keeps (F : phase -> phase) : Prop := forall f, test f -> test (fun z => f (F z)) /\ forall v, limit f v -> limit (fun z => f (F z)) v.
Lemma keeps_id : keeps (fun z => z).
Proof. intros f Hf. split; auto. Qed.
Lemma keeps_compose F G : keeps F -> keeps G -> keeps (fun z => G (F z)).
Proof. intros HF HG f Hf. destruct (HG f Hf) as [H1 H2]. destruct (HF _ H1) as [H3 H4]. split; auto. Qed.
(** an exact or approximate equality of the Riemann sums suffices *)
Lemma keeps_sums F (f : phase -> R) M : supported d m M f -> supported d m M (fun z => f (F z)) ->
  (forall e, 0 < e -> exists K, forall k, (K <= k)%nat -> Rabs (riemann_sum M k cs (fun z => f (F z)) (fun _ => 0) - riemann_sum M k cs f (fun _ => 0)) < e) ->
  forall v, limit f v -> limit (fun z => f (F z)) v.
Proof.
  intros H1 H2 H v Hv e He. destruct (H (e / 2) ltac:(lra)) as (K & HK). destruct (Hv (e / 2) ltac:(lra)) as (K' & HK').
  exists (Nat.max M (Nat.max K K')). intros M' k HM Hk. specialize (HK k ltac:(lia)). specialize (HK' M' k ltac:(lia) ltac:(lia)).
  rewrite (@rs_grow_all M M' k f) in HK' by (auto; lia). rewrite (@rs_grow_all M M' k (fun z => f (F z))) by (auto; lia).
  match goal with |- Rabs (?a - v) < e => match type of HK with Rabs (_ - ?b) < _ => replace (a - v) with ((a - b) + (b - v)) by ring end end.
  eapply Rle_lt_trans; [apply Rabs_triang|]. lra.
Qed.
Lemma split_coord c : inn c -> exists l, Permutation cs (l ++ [c]) /\ ~ In c l.
Proof.
  intros Hc. apply in_coords in Hc. apply in_split in Hc. destruct Hc as (l1 & l2 & E). exists (l1 ++ l2). pose proof (NoDup_coords d m) as Hn. rewrite E in *. split.
  - rewrite <- app_assoc. apply Permutation_app_head. apply Permutation_cons_append.
  - intros H. apply NoDup_remove_2 in Hn. auto.
Qed.
Lemma rs_last M k c l f z : Permutation cs (l ++ [c]) -> riemann_sum M k cs f z = riemann_sum M k l (fun z => line M k (fun t => f (put z c t))) z.
Proof. intros H. rewrite (rs_perm M k f H (NoDup_coords d m)), rs_app. reflexivity. Qed.

(** *** one coordinate is shifted by a function of the others *)
Lemma cmap_put c g : cont g -> cmap d m (fun z => put z c (g z)).
Proof. intros Hg c' Hc'. unfold put. destruct (coord_dec c' c); auto. now apply cont_coord. Qed.
Lemma keeps_shift c g : inn c -> cont g -> (forall z t, g (put z c t) = g z) -> keeps (fun z => put z c (z c + g z)).
Proof.
  intros Hc Hg Hgc f [Hf (M0 & Hs)]. destruct (@cont_bounded d m g (INR M0) Hg) as (B & HB & HgB).
  destruct (INR_above B) as (NB & HNB).
  assert (Hbox : forall z, (forall c', inn c' -> c' <> c -> Rabs (z c') < INR M0) -> Rabs (g z) <= INR NB).
  { intros z Hz. rewrite <- (Hgc z 0). eapply Rle_trans; [apply HgB|lra]. intros c' Hc'. unfold put. destruct (coord_dec c' c); [rewrite Rabs_R0; apply pos_INR|]. left; auto. }
  assert (Hcases : forall z, (exists c', inn c' /\ c' <> c /\ INR M0 <= Rabs (z c')) \/ Rabs (g z) <= INR NB).
  { intros z. destruct (classic (exists c', inn c' /\ c' <> c /\ INR M0 <= Rabs (z c'))) as [H|H]; [now left|]. right. apply Hbox. intros c' Hc' Hne. apply Rnot_le_lt. intros Hle. apply H. eauto. }
  set (M := (M0 + NB + 1)%nat).
  assert (Hs1 : supported d m M f) by (apply (@supported_mono M0); auto; unfold M; lia).
  assert (HM : INR M = INR M0 + INR NB + 1) by (unfold M; rewrite !plus_INR; reflexivity). pose proof (pos_INR NB) as HNB0.
  assert (Hs2 : supported d m M (fun z => f (put z c (z c + g z)))).
  { intros z c1 Hc1 Hz1. destruct (Hcases z) as [(c' & Hc' & Hne & Hz)|Hb].
    - apply (Hs _ c' Hc'). now rewrite put_other.
    - destruct (coord_dec c1 c) as [->|Hne].
      + apply (Hs _ c Hc). rewrite put_same. pose proof (Rabs_triang (z c + g z) (- g z)) as T. replace (z c + g z + - g z) with (z c) in T by ring. rewrite Rabs_Ropp in T. lra.
      + apply (Hs _ c1 Hc1). rewrite put_other by auto. lra. }
  split; [split; [|exists M; exact Hs2]|].
  - apply (@cont_comp d m f (fun z => put z c (z c + g z))); auto. apply cmap_put. apply cont_plus; auto. now apply cont_coord.
  - apply (@keeps_sums _ f M Hs1 Hs2). intros e He. destruct (split_coord _ Hc) as (l & Hl & Hcl).
    set (w := (2 * INR M) ^ length l * (2 * INR M)). assert (Hw : 0 <= w) by (apply Rmult_le_pos; [apply pow_le|]; pose proof (pos_INR M); lra).
    destruct (@test_uniform f (e / (w + 1))) as (del & Hd & Hu); [split; eauto|apply Rdiv_lt_0_compat; lra|].
    destruct (pow2_small Hd) as (K & HK). exists K. intros k Hk. rewrite !(fun f => @rs_last M k c l f (fun _ => 0) Hl).
    apply Rle_lt_trans with ((2 * INR M) ^ length l * (2 * INR M * (e / (w + 1)))).
    + assert (He' : 0 < e / (w + 1)) by (apply Rdiv_lt_0_compat; lra). apply rs_diff; [apply Rmult_le_pos; [pose proof (pos_INR M)|]; lra|]. intros z.
      set (h := fun t => f (put z c t)).
      assert (Hh : vanishes M0 h) by (intros t Ht; apply (Hs _ c Hc); now rewrite put_same).
      rewrite (line_ext M k _ (fun t => h (t + g z))) by (intros t; unfold h; now rewrite put_put, put_same, Hgc).
      destruct (Hcases z) as [(c' & Hc' & Hne & Hz)|Hb].
      * assert (Z : forall t, h t = 0) by (intros t; apply (Hs _ c' Hc'); now rewrite put_other). rewrite !line_zero by auto. rewrite Rminus_diag_eq, Rabs_R0 by reflexivity.
        apply Rmult_le_pos; [pose proof (pos_INR M)|]; lra.
      * apply (@line_shift M M0 NB); auto. intros t t' Ht. left. apply Hu. intros c' Hc'. unfold put. destruct (coord_dec c' c).
        -- eapply Rle_lt_trans; [exact Ht|]. now apply HK.
        -- rewrite Rminus_diag_eq, Rabs_R0 by reflexivity. exact Hd.
    + replace ((2 * INR M) ^ length l * (2 * INR M * (e / (w + 1)))) with (w * (e / (w + 1))) by (unfold w; ring).
      replace (w * (e / (w + 1))) with (e - e / (w + 1)) by (field; lra). assert (0 < e / (w + 1)) by (apply Rdiv_lt_0_compat; lra). lra.
Qed.
Lemma keeps_flip1 c : inn c -> keeps (fun z => put z c (- z c)).
Proof.
  intros Hc f [Hf (M & Hs)].
  assert (Hs2 : supported d m M (fun z => f (put z c (- z c)))).
  { intros z c1 Hc1 Hz1. apply (Hs _ c1 Hc1). unfold put. destruct (coord_dec c1 c) as [->|_]; auto. now rewrite Rabs_Ropp. }
  split; [split; [|exists M; exact Hs2]|].
  - apply (@cont_comp d m f (fun z => put z c (- z c))); auto. apply cmap_put. now apply cont_opp, cont_coord.
  - apply (@keeps_sums _ f M Hs Hs2). intros e He. exists 0%nat. intros k _. destruct (split_coord _ Hc) as (l & Hl & Hcl). rewrite !(fun f => @rs_last M k c l f (fun _ => 0) Hl).
    replace (fun z => line M k (fun t => f (put (put z c t) c (- put z c t c)))) with (fun z => line M k (fun t => f (put z c t))); [rewrite Rminus_diag_eq, Rabs_R0 by reflexivity; exact He|].
    extensionality z. symmetry. rewrite (line_ext M k _ (fun t => (fun s => f (put z c s)) (- t))) by (intros t; now rewrite put_put, put_same).
    apply (@line_flip M k (fun s => f (put z c s))). intros t Ht. apply (Hs _ c Hc). now rewrite put_same.
Qed.
Lemma keeps_exchange p : (forall c, p (p c) = c) -> (forall c, inn c -> inn (p c)) -> keeps (fun z c => z (p c)).
Proof.
  intros Hp Hi f [Hf (M & Hs)].
  assert (Hs2 : supported d m M (fun z => f (fun c => z (p c)))).
  { intros z c Hc Hz. apply (Hs _ (p c) (Hi c Hc)). cbn. now rewrite Hp. }
  split; [split; [|exists M; exact Hs2]|].
  - apply (@cont_comp d m f (fun z c => z (p c))); auto. intros c Hc. apply (@cont_coord d m (p c)). auto.
  - apply (@keeps_sums _ f M Hs Hs2). intros e He. exists 0%nat. intros k _.
    assert (G : forall l z, riemann_sum M k l (fun z => f (fun c => z (p c))) z = riemann_sum M k (map p l) f (fun c => z (p c))).
    { induction l as [|c l IH]; intros z; [reflexivity|]. cbn [map]. rewrite !rs_cons. apply line_ext. intros t. rewrite IH. f_equal.
      extensionality x. unfold put. destruct (coord_dec (p x) c), (coord_dec x (p c)); subst; rewrite ?Hp in *; congruence. }
    rewrite G. cbn beta. rewrite <- (rs_perm M k f (l := cs) (l' := map p cs)).
    + change (fun _ : coord => 0) with (fun _ : coord => 0). rewrite Rminus_diag_eq, Rabs_R0 by reflexivity. exact He.
    + apply NoDup_Permutation; [apply NoDup_coords| |].
      * apply FinFun.Injective_map_NoDup; [|apply NoDup_coords]. intros a b H. now rewrite <- (Hp a), H, Hp.
      * intros c. rewrite in_map_iff, in_coords. split.
        -- intros Hc. exists (p c). split; [apply Hp|]. apply in_coords. auto.
        -- intros (c' & <- & Hc'). apply in_coords in Hc'. auto.
    + apply NoDup_coords.
Qed.
End Dim.
