From Coq Require Import Reals Lra Lia List FunctionalExtensionality Permutation Classical.
From Coquelicot Require Rbar Lub Compactness.
From Verif Require Import Base ListUtil TreeUtilSpec TreeUtilProofs VolumeSpec RiemannSpec.
Open Scope R_scope.
Set Implicit Arguments.

(** ** coordinates *)
Lemma in_coords d m c : In c (coords d m) <-> inside d m c.
Proof.
  unfold coords. rewrite !in_app_iff, !in_map_iff, in_flat_map. split.
  - intros [(x & <- & H)|[(x & <- & H)|(j & Hj & H)]]; try (apply in_seq in H; cbn; lia).
    apply in_map_iff in H. destruct H as (i & <- & Hi). apply in_seq in Hi, Hj. cbn. lia.
  - destruct c as [i|i|j i]; cbn; intros H.
    + left. exists i. split; auto. apply in_seq; lia.
    + right; left. exists i. split; auto. apply in_seq; lia.
    + right; right. exists j. split; [apply in_seq; lia|]. apply in_map_iff. exists i. split; auto. apply in_seq; lia.
Qed.
Lemma NoDup_app' {A} (l r : list A) : NoDup l -> NoDup r -> (forall x, In x l -> In x r -> False) -> NoDup (l ++ r).
Proof.
  induction 1 as [|a l Ha Hl IH]; cbn; intros Hr H; auto. constructor.
  - rewrite in_app_iff. intros [H1|H1]; [auto|]. apply (H a); auto.
  - apply IH; auto. intros x H1 H2. apply (H x); auto.
Qed.
Lemma NoDup_flat (d : nat) l : NoDup l -> NoDup (flat_map (fun j => map (CNoise j) (seq 0 d)) l).
Proof.
  induction 1 as [|j l Hj Hl IH]; cbn; [constructor|]. apply NoDup_app'; auto.
  - apply FinFun.Injective_map_NoDup; [|apply seq_NoDup]. intros a b H. now inversion H.
  - intros x H1 H2. apply in_map_iff in H1. destruct H1 as (i & <- & _). apply in_flat_map in H2. destruct H2 as (j' & Hj' & H2).
    apply in_map_iff in H2. destruct H2 as (i' & E & _). inversion E; subst. auto.
Qed.
Lemma NoDup_coords d m : NoDup (coords d m).
Proof.
  unfold coords. apply NoDup_app'; [|apply NoDup_app'|].
  - apply FinFun.Injective_map_NoDup; [|apply seq_NoDup]. intros a b H. now inversion H.
  - apply FinFun.Injective_map_NoDup; [|apply seq_NoDup]. intros a b H. now inversion H.
  - apply NoDup_flat, seq_NoDup.
  - intros x H1 H2. apply in_map_iff in H1. destruct H1 as (i & <- & _). apply in_flat_map in H2. destruct H2 as (j' & Hj' & H2).
    apply in_map_iff in H2. destruct H2 as (i' & E & _). discriminate.
  - intros x H1 H2. apply in_map_iff in H1. destruct H1 as (i & <- & _). apply in_app_iff in H2. destruct H2 as [H2|H2].
    + apply in_map_iff in H2. destruct H2 as (i' & E & _). discriminate.
    + apply in_flat_map in H2. destruct H2 as (j' & Hj' & H2). apply in_map_iff in H2. destruct H2 as (i' & E & _). discriminate.
Qed.
Lemma put_same z c t : put z c t c = t.
Proof. unfold put. destruct (coord_dec c c); congruence. Qed.
Lemma put_other z c t c' : c' <> c -> put z c t c' = z c'.
Proof. unfold put. destruct (coord_dec c' c); congruence. Qed.
Lemma put_comm z c c' t t' : c <> c' -> put (put z c t) c' t' = put (put z c' t') c t.
Proof. intros H. extensionality x. unfold put. destruct (coord_dec x c), (coord_dec x c'); congruence. Qed.
Lemma put_put z c t t' : put (put z c t) c t' = put z c t'.
Proof. extensionality x. unfold put. destruct (coord_dec x c); congruence. Qed.
Lemma put_id z c : put z c (z c) = z.
Proof. extensionality x. unfold put. destruct (coord_dec x c); congruence. Qed.

(** ** sums *)
Lemma sum_upto_0 f : sum_upto 0 f = 0. Proof. reflexivity. Qed.
Lemma sum_upto_le n f g : (forall i, (i < n)%nat -> f i <= g i) -> sum_upto n f <= sum_upto n g.
Proof. induction n as [|n IH]; intros H; [unfold sum_upto; cbn; lra|]. rewrite !sum_upto_S. apply Rplus_le_compat; auto. Qed.
Lemma sum_upto_abs n f : Rabs (sum_upto n f) <= sum_upto n (fun i => Rabs (f i)).
Proof.
  induction n as [|n IH]; [unfold sum_upto; cbn; rewrite Rabs_R0; lra|]. rewrite !sum_upto_S.
  eapply Rle_trans; [apply Rabs_triang|]. lra.
Qed.
Lemma sum_upto_const n c : sum_upto n (fun _ => c) = INR n * c.
Proof. induction n as [|n IH]; [unfold sum_upto; cbn; lra|]. rewrite sum_upto_S, IH, S_INR. lra. Qed.
Lemma sum_upto_minus n f g : sum_upto n (fun i => f i - g i) = sum_upto n f - sum_upto n g.
Proof. induction n as [|n IH]; [unfold sum_upto; cbn; lra|]. rewrite !sum_upto_S, IH. lra. Qed.
Lemma sum_upto_app n p f : sum_upto (n + p) f = sum_upto n f + sum_upto p (fun i => f (n + i)%nat).
Proof.
  induction p as [|p IH]; [rewrite Nat.add_0_r, sum_upto_0; lra|]. rewrite Nat.add_succ_r, !sum_upto_S, IH. lra.
Qed.
Lemma sum_upto_blocks n w f : sum_upto (n * w) f = sum_upto n (fun a => sum_upto w (fun b => f (a * w + b)%nat)).
Proof.
  induction n as [|n IH]; [reflexivity|]. rewrite sum_upto_S, <- IH. replace (S n * w)%nat with (n * w + w)%nat by lia. apply sum_upto_app.
Qed.
Lemma sum_upto_rev n f : sum_upto n f = sum_upto n (fun i => f (n - 1 - i)%nat).
Proof.
  induction n as [|n IH]; [reflexivity|]. rewrite (sum_upto_shift n (fun i => f (S n - 1 - i)%nat)), (sum_upto_S n f), IH.
  replace (S n - 1 - 0)%nat with n by lia. rewrite Rplus_comm. f_equal. apply sum_upto_ext. intros i Hi. f_equal. lia.
Qed.
(** a function on the integers that vanishes outside of [u, u + w): the sum over any larger interval is the same *)
Lemma sum_window (h : Z -> R) (a u : Z) (n w : nat) : (a <= u)%Z -> (u + Z.of_nat w <= a + Z.of_nat n)%Z ->
  (forall i, (i < u \/ u + Z.of_nat w <= i)%Z -> h i = 0) ->
  sum_upto n (fun i => h (a + Z.of_nat i)%Z) = sum_upto w (fun i => h (u + Z.of_nat i)%Z).
Proof.
  intros H1 H2 H0. set (p := Z.to_nat (u - a)). set (q := (n - p - w)%nat).
  assert (En : n = (p + (w + q))%nat) by lia. rewrite En, !sum_upto_app.
  rewrite (@sum_upto_zero p) by (intros i Hi; apply H0; lia).
  rewrite (@sum_upto_zero q) by (intros i Hi; apply H0; lia).
  rewrite Rplus_0_l, Rplus_0_r. apply sum_upto_ext. intros i Hi. f_equal. lia.
Qed.

(** ** continuous functions *)
Section Dim.
Variables d m : nat.
Notation cont := (continuous d m).
Notation inn := (inside d m).
Definition near (del : R) (z z' : phase) : Prop := forall c, inn c -> Rabs (z' c - z c) < del.
Definition agree (z z' : phase) : Prop := forall c, inn c -> z c = z' c.
Lemma cont_agree f z z' : cont f -> agree z z' -> f z = f z'.
Proof.
  intros Hf H. apply Rminus_diag_uniq_sym. apply NNPP. intros Hn. assert (He : 0 < Rabs (f z' - f z)) by (apply Rabs_pos_lt; exact Hn).
  destruct (Hf z _ He) as (del & Hd & H1). specialize (H1 z'). assert (Rabs (f z' - f z) < Rabs (f z' - f z)); [|lra].
  apply H1. intros c Hc. rewrite (H c Hc), Rminus_diag_eq by reflexivity. rewrite Rabs_R0. exact Hd.
Qed.
Lemma cont_const a : cont (fun _ => a).
Proof. intros z e He. exists 1. split; [lra|]. intros z' _. rewrite Rminus_diag_eq, Rabs_R0 by reflexivity. exact He. Qed.
Lemma cont_coord c : inn c -> cont (fun z => z c).
Proof. intros Hc z e He. exists e. split; auto. Qed.
Lemma cont_unary (h : R -> R) f : (forall x e, 0 < e -> exists del, 0 < del /\ forall y, Rabs (y - x) < del -> Rabs (h y - h x) < e) -> cont f -> cont (fun z => h (f z)).
Proof.
  intros Hh Hf z e He. destruct (Hh (f z) e He) as (d1 & Hd1 & H1). destruct (Hf z d1 Hd1) as (d2 & Hd2 & H2).
  exists d2. split; auto.
Qed.
Lemma cont_continuity h f : continuity h -> cont f -> cont (fun z => h (f z)).
Proof.
  intros Hh. apply cont_unary. intros x e He. specialize (Hh x). unfold continuity_pt, continue_in, limit1_in, limit_in in Hh. cbn in Hh.
  destruct (Hh e He) as (a & Ha & H). exists a. split; [lra|]. intros y Hy. destruct (Req_dec y x) as [->|Hn].
  - rewrite Rminus_diag_eq, Rabs_R0 by reflexivity. exact He.
  - apply H. split; [split; [exact I|auto]|]. exact Hy.
Qed.
Lemma cont_plus f g : cont f -> cont g -> cont (fun z => f z + g z).
Proof.
  intros Hf Hg z e He. destruct (Hf z (e / 2) ltac:(lra)) as (d1 & Hd1 & H1). destruct (Hg z (e / 2) ltac:(lra)) as (d2 & Hd2 & H2).
  exists (Rmin d1 d2). split; [now apply Rmin_pos|]. intros z' H.
  replace (f z' + g z' - (f z + g z)) with ((f z' - f z) + (g z' - g z)) by ring.
  eapply Rle_lt_trans; [apply Rabs_triang|].
  assert (Rabs (f z' - f z) < e / 2) by (apply H1; intros c Hc; eapply Rlt_le_trans; [apply (H c Hc)|apply Rmin_l]).
  assert (Rabs (g z' - g z) < e / 2) by (apply H2; intros c Hc; eapply Rlt_le_trans; [apply (H c Hc)|apply Rmin_r]). lra.
Qed.
Lemma cont_scale a f : cont f -> cont (fun z => a * f z).
Proof.
  intros Hf. apply (@cont_unary (fun x => a * x)); auto. intros x e He. exists (e / (Rabs a + 1)). pose proof (Rabs_pos a).
  split; [apply Rdiv_lt_0_compat; lra|]. intros y Hy. replace (a * y - a * x) with (a * (y - x)) by ring. rewrite Rabs_mult.
  apply Rle_lt_trans with (Rabs a * (e / (Rabs a + 1))); [apply Rmult_le_compat_l; lra|].
  replace (Rabs a * (e / (Rabs a + 1))) with (e - e / (Rabs a + 1)) by (field; lra). assert (0 < e / (Rabs a + 1)) by (apply Rdiv_lt_0_compat; lra). lra.
Qed.
Lemma cont_opp f : cont f -> cont (fun z => - f z).
Proof. intros H. apply (cont_scale (-1)) in H. replace (fun z => - f z) with (fun z => -1 * f z) by (extensionality z; ring). exact H. Qed.
Lemma cont_minus f g : cont f -> cont g -> cont (fun z => f z - g z).
Proof. intros Hf Hg. apply (cont_plus Hf (cont_opp Hg)). Qed.
Lemma cont_abs f : cont f -> cont (fun z => Rabs (f z)).
Proof. apply cont_continuity. exact Rcontinuity_abs. Qed.
Lemma cont_max f g : cont f -> cont g -> cont (fun z => Rmax (f z) (g z)).
Proof.
  intros Hf Hg. replace (fun z => Rmax (f z) (g z)) with (fun z => / 2 * (f z + g z + Rabs (f z - g z))).
  - apply cont_scale, cont_plus; [now apply cont_plus|]. now apply cont_abs, cont_minus.
  - extensionality z. unfold Rmax, Rabs. destruct (Rle_dec (f z) (g z)), (Rcase_abs (f z - g z)); lra.
Qed.
Lemma cont_min f g : cont f -> cont g -> cont (fun z => Rmin (f z) (g z)).
Proof.
  intros Hf Hg. replace (fun z => Rmin (f z) (g z)) with (fun z => / 2 * (f z + g z - Rabs (f z - g z))).
  - apply cont_scale, cont_minus; [now apply cont_plus|]. now apply cont_abs, cont_minus.
  - extensionality z. unfold Rmin, Rabs. destruct (Rle_dec (f z) (g z)), (Rcase_abs (f z - g z)); lra.
Qed.
Lemma cont_mult f g : cont f -> cont g -> cont (fun z => f z * g z).
Proof.
  intros Hf Hg. replace (fun z => f z * g z) with (fun z => / 4 * ((f z + g z) * (f z + g z) + - ((f z - g z) * (f z - g z)))) by (extensionality z; field).
  assert (Hsq : forall h, cont h -> cont (fun z => h z * h z)).
  { intros h Hh. apply (@cont_continuity (fun x => x * x)); auto. apply continuity_mult; apply derivable_continuous, derivable_id. }
  apply cont_scale, cont_plus; [|apply cont_opp]; apply Hsq; [now apply cont_plus|now apply cont_minus].
Qed.
(** continuous maps *)
Definition cmap (F : phase -> phase) : Prop := forall c, inn c -> cont (fun z => F z c).
Lemma min_delta (l : list coord) (P : coord -> R -> Prop) : (forall c, In c l -> exists del, 0 < del /\ forall e, 0 < e <= del -> P c e) -> exists del, 0 < del /\ forall c, In c l -> P c del.
Proof.
  intros H. assert (exists del, 0 < del /\ forall c, In c l -> forall e, 0 < e <= del -> P c e) as (del & Hd & H1).
  { induction l as [|c l IH]; [exists 1; split; [lra|intros c []]|].
    destruct IH as (d1 & Hd1 & H1); [intros; apply H; now right|]. destruct (H c) as (d2 & Hd2 & H2); [now left|].
    exists (Rmin d1 d2). split; [now apply Rmin_pos|]. pose proof (Rmin_l d1 d2). pose proof (Rmin_r d1 d2). intros c' [<-|Hc] e He; [apply H2; lra|apply H1; auto; lra]. }
  exists del. split; auto. intros c Hc. apply H1; auto. lra.
Qed.
Lemma cont_comp f F : cont f -> cmap F -> cont (fun z => f (F z)).
Proof.
  intros Hf HF z e He. destruct (Hf (F z) e He) as (d1 & Hd1 & H1).
  destruct (@min_delta (coords d m) (fun c e => forall z', near e z z' -> Rabs (F z' c - F z c) < d1)) as (d2 & Hd2 & H2).
  - intros c Hc. apply in_coords in Hc. destruct (HF c Hc z d1 Hd1) as (d2 & Hd2 & H2). exists d2. split; auto. intros e' He' z' Hz. apply H2.
    intros c' Hc'. eapply Rlt_le_trans; [apply (Hz c' Hc')|lra].
  - exists d2. split; auto. intros z' Hz. apply H1. intros c Hc. apply H2; auto. now apply in_coords.
Qed.

(** ** compactness of cubes *)
Import Compactness.
Fixpoint of_tuple (cs : list coord) : Tn (length cs) R -> phase :=
  match cs with
  | [] => fun _ _ => 0
  | c :: r => fun t => put (of_tuple r (snd t)) c (fst t)
  end.
Fixpoint to_tuple (cs : list coord) (z : phase) : Tn (length cs) R :=
  match cs with [] => tt | c :: r => (z c, to_tuple r z) end.
Fixpoint const_tuple (n : nat) (a : R) : Tn n R := match n with O => tt | S n' => (a, const_tuple n' a) end.
Lemma of_to_tuple cs z c : In c cs -> of_tuple cs (to_tuple cs z) c = z c.
Proof.
  induction cs as [|a r IH]; [intros []|]. cbn. intros [->|H].
  - apply put_same.
  - unfold put. destruct (coord_dec c a) as [->|Hn]; auto.
Qed.
Lemma bounded_tuple cs z M : (forall c, In c cs -> Rabs (z c) <= M) -> bounded_n (length cs) (const_tuple _ (- M)) (const_tuple _ M) (to_tuple cs z).
Proof.
  induction cs as [|a r IH]; cbn; intros H; auto. split; [|apply IH; auto]. specialize (H a (or_introl eq_refl)). unfold Rabs in H; destruct (Rcase_abs (z a)); lra.
Qed.
Lemma close_tuple cs del z t : NoDup cs -> close_n (length cs) del (to_tuple cs z) t -> forall c, In c cs -> Rabs (z c - of_tuple cs t c) < del.
Proof.
  induction cs as [|a r IH]; intros Hnd H c Hc; [destruct Hc|]. destruct t as [t1 t2]. cbn in H. destruct H as [H1 H2].
  inversion Hnd; subst. cbn. destruct Hc as [->|Hc].
  - now rewrite put_same.
  - rewrite put_other by (intros ->; auto). now apply IH.
Qed.
(** the largest radius (bounded by 1) in which f changes by less than e *)
Definition good_radius (f : phase -> R) (e : R) (z : phase) (r : R) : Prop := 0 < r <= 1 /\ forall z', near r z z' -> Rabs (f z' - f z) < e.
Definition radius (f : phase -> R) (e : R) (z : phase) : R := Rbar.real (Lub.Lub_Rbar (good_radius f e z)) / 4.
Lemma radius_ok f e z : cont f -> 0 < e -> 0 < radius f e z /\ forall z', near (2 * radius f e z) z z' -> Rabs (f z' - f z) < e.
Proof.
  intros Hf He. unfold radius. destruct (Lub.Lub_Rbar_correct (good_radius f e z)) as [Hub Hl].
  destruct (Hf z e He) as (del & Hd & H).
  assert (Hg : good_radius f e z (Rmin del 1)).
  { split; [split; [apply Rmin_pos; lra|apply Rmin_r]|]. intros z' Hz. apply H. intros c Hc. eapply Rlt_le_trans; [apply (Hz c Hc)|apply Rmin_l]. }
  assert (H1 : Rbar.Rbar_le (Lub.Lub_Rbar (good_radius f e z)) (Rbar.Finite 1)) by (apply Hl; intros x [[_ Hx] _]; exact Hx).
  pose proof (Hub _ Hg) as H2. assert (Hpos : 0 < Rmin del 1) by (apply Rmin_pos; lra).
  destruct (Lub.Lub_Rbar (good_radius f e z)) as [v| |]; cbn in H1, H2; try contradiction. cbn [Rbar.real].
  split; [lra|]. intros z' Hz.
  assert (exists r, good_radius f e z r /\ 2 * (v / 4) < r) as (r & [_ Hr] & Hlt).
  { apply NNPP. intros Hn. assert (Rbar.Rbar_le (Rbar.Finite v) (Rbar.Finite (2 * (v / 4)))) as Hc.
    - apply Hl. intros x Hx. cbn. apply Rnot_lt_le. intros Hx'. apply Hn. exists x. auto.
    - cbn in Hc. lra. }
  apply Hr. intros c Hc. eapply Rlt_trans; [apply (Hz c Hc)|exact Hlt].
Qed.
Definition in_box (M : R) (z : phase) : Prop := forall c, inn c -> Rabs (z c) <= M.
Lemma box_cover f e M : cont f -> 0 < e -> exists l : list phase, forall z, in_box M z -> exists t, In t l /\ near (radius f e t) t z.
Proof.
  intros Hf He. set (cs := coords d m).
  assert (Hp : forall t, 0 < radius f e (of_tuple cs t)) by (intros t; apply (radius_ok (of_tuple cs t) Hf He)).
  apply NNPP. intros Hn. apply (compactness_list (length cs) (const_tuple _ (- M)) (const_tuple _ M) (fun t => mkposreal _ (Hp t))).
  intros (l & Hl). apply Hn. exists (map (of_tuple cs) l). intros z Hz.
  destruct (Hl (to_tuple cs z)) as (t & Ht & _ & Hc).
  - apply bounded_tuple. intros c Hc. apply Hz. now apply in_coords.
  - exists (of_tuple cs t). split; [now apply in_map|]. intros c Hi. cbn in Hc. refine (@close_tuple cs _ z t (NoDup_coords d m) Hc c _). now apply in_coords.
Qed.
Lemma cont_bounded f M : cont f -> exists B, 0 <= B /\ forall z, in_box M z -> Rabs (f z) <= B.
Proof.
  intros Hf. destruct (@box_cover f 1 M Hf ltac:(lra)) as (l & Hl).
  assert (exists B, 0 <= B /\ forall t, In t l -> Rabs (f t) + 1 <= B) as (B & HB & H).
  { clear Hl. induction l as [|t l (B & HB & IH)]; [exists 0; split; [lra|intros t []]|]. exists (Rmax B (Rabs (f t) + 1)).
    pose proof (Rmax_l B (Rabs (f t) + 1)). pose proof (Rmax_r B (Rabs (f t) + 1)). split; [lra|]. intros t' [<-|Ht]; [lra|]. specialize (IH t' Ht). lra. }
  exists B. split; auto. intros z Hz. destruct (Hl z Hz) as (t & Ht & Hn). destruct (radius_ok t Hf (e := 1) ltac:(lra)) as [Hp Hr].
  assert (Rabs (f z - f t) < 1). { apply Hr. intros c Hc. specialize (Hn c Hc). lra. }
  specialize (H t Ht). pose proof (Rabs_triang (f z - f t) (f t)). replace (f z - f t + f t) with (f z) in H1 by ring. lra.
Qed.
Lemma cont_uniform f M e : cont f -> 0 < e -> exists del, 0 < del /\ forall z z', in_box M z -> near del z z' -> Rabs (f z' - f z) < e.
Proof.
  intros Hf He. destruct (@box_cover f (e / 2) M Hf ltac:(lra)) as (l & Hl).
  assert (exists del, 0 < del /\ forall t, In t l -> del <= radius f (e / 2) t) as (del & Hd & H).
  { clear Hl. induction l as [|t l (B & HB & IH)]; [exists 1; split; [lra|intros t []]|]. destruct (radius_ok t Hf (e := e / 2) ltac:(lra)) as [Hp _].
    exists (Rmin B (radius f (e / 2) t)). pose proof (Rmin_l B (radius f (e / 2) t)). pose proof (Rmin_r B (radius f (e / 2) t)).
    split; [now apply Rmin_pos|]. intros t' [<-|Ht]; [lra|]. specialize (IH t' Ht). lra. }
  exists del. split; auto. intros z z' Hz Hn. destruct (Hl z Hz) as (t & Ht & Hn'). destruct (radius_ok t Hf (e := e / 2) ltac:(lra)) as [Hp Hr].
  specialize (H t Ht).
  assert (Rabs (f z - f t) < e / 2). { apply Hr. intros c Hc. specialize (Hn' c Hc). lra. }
  assert (Rabs (f z' - f t) < e / 2).
  { apply Hr. intros c Hc. specialize (Hn' c Hc). specialize (Hn c Hc). replace (z' c - t c) with ((z' c - z c) + (z c - t c)) by ring.
    eapply Rle_lt_trans; [apply Rabs_triang|]. lra. }
  replace (f z' - f z) with ((f z' - f t) + - (f z - f t)) by ring. eapply Rle_lt_trans; [apply Rabs_triang|]. rewrite Rabs_Ropp. lra.
Qed.
End Dim.
