(** Saving through a collector (C20) and the npz files (C18). *)
From Coq Require Import String Ascii.
From Verif Require Import Base ListUtil Pytree PytreeSpec PytreeProofs PytreeNames Io IoSpec IoProofs.
Set Implicit Arguments.

Section F.
Context {V : Type}.
Variable zeros_like : V -> V.

Lemma holds_unique (sample : tree V) K vss t t' : holds_samples zeros_like sample K vss t -> holds_samples zeros_like sample K vss t' -> t = t'.
Proof.
  intros [S1 H1] [S2 H2]. apply tree_ext; [unfold same_structure in *; congruence|].
  assert (L1 := structure_leaves S1). assert (L2 := structure_leaves S2).
  apply nth_error_ext. intros j. destruct (nth_error (leaves sample) j) as [x|] eqn:E.
  - now rewrite (H1 j x E), (H2 j x E).
  - apply nth_error_None in E. rewrite !(proj2 (nth_error_None _ _)) by lia. reflexivity.
Qed.

(** translation to operations of the collector *)
Definition tr (o : svop V) : list (mop V) :=
  match o with
  | SvInit s k => [MRegister s k]
  | SvSave i keep s => if keep then [MSave i (leaves s)] else []
  | SvPost i => [MFinalize i]
  end.

Definition sv_ids (s : mcollector V * list sv_state) : Prop :=
  length (snd s) = length (mc_chains (fst s)) /\ forall i st, nth_error (snd s) i = Some st -> sv_chain st = i.

Lemma length_chains_step (m : mcollector V) o : (forall s k, o <> MRegister s k) -> length (mc_chains (fst (mstep zeros_like m o))) = length (mc_chains m).
Proof.
  destruct o as [s k|c vs|c|c]; intros H; [exfalso; eapply H; eauto| | |]; cbn [mstep].
  - unfold mc_save. destruct (nth_error _ _) as [ch|]; auto. destruct (np_set_all _ _ _); cbn; auto. now rewrite length_upd.
  - unfold mc_finalize, mc_release. destruct (nth_error _ _) as [ch|]; auto. destruct (mc_locked ch); cbn; auto.
    unfold mc_savez. cbn. destruct (mc_dir m); cbn; try (now rewrite length_upd).
    destruct (nth_error (upd _ _ _) _); cbn; now rewrite length_upd.
  - auto.
Qed.

Lemma sv_sim s o : sv_ids s -> sv_ids (fst (sv_step zeros_like s o)) /\
  fst (fst (sv_step zeros_like s o)) = fst (run (mstep zeros_like) (fst s) (tr o)).
Proof.
  destruct s as [m sts]. intros [HL HI]. cbn [fst snd] in HL, HI.
  destruct o as [sm k|i keep sm|i]; cbn [sv_step tr fst].
  - unfold sv_init. destruct (mc_register zeros_like m sm k) as [m' [c|e]] eqn:E.
    + destruct (mc_register_ok zeros_like m sm k E) as (names & Hc & _). cbn [run mstep]. rewrite E. cbn [fst].
      split; auto. unfold mc_register in E.
      match type of E with context[match ?x with Ok _ => _ | Exc _ => _ end] => destruct x end; inversion E; subst.
      split; cbn [fst snd mc_chains].
      * rewrite !app_length. simpl. lia.
      * intros i st Hn. destruct (Nat.lt_ge_cases i (length sts)) as [Hl|Hg].
        -- rewrite nth_error_app1 in Hn by auto. auto.
        -- rewrite nth_error_app2 in Hn by auto. destruct (i - length sts) as [|d] eqn:Ed.
           ++ inversion Hn; subst. simpl. lia.
           ++ simpl in Hn. destruct d; discriminate.
    + cbn [run mstep]. rewrite E. cbn [fst]. split; auto. unfold mc_register in E.
      match type of E with context[match ?x with Ok _ => _ | Exc _ => _ end] => destruct x end; inversion E; subst. split; auto.
  - destruct (nth_error sts i) as [st|] eqn:En.
    + pose proof (HI i st En) as Hi. unfold sv_save. destruct keep.
      * unfold host_save. rewrite Hi. pose proof (@length_chains_step m (MSave i (leaves sm))) as Hlen.
        cbn [run mstep] in *. destruct (mc_save m i (leaves sm)) as [m' r]. cbn [fst] in *.
        split; auto. split; cbn [fst snd].
        -- rewrite length_upd. rewrite Hlen; auto. intros; discriminate.
        -- intros i' st' Hn. destruct (Nat.eq_dec i' i) as [->|Hne].
           ++ rewrite nth_error_upd_same in Hn by (apply nth_error_Some; congruence). inversion Hn; subst. auto.
           ++ rewrite nth_error_upd_other in Hn by auto. auto.
      * cbn [run fst]. split; auto. split; cbn [fst snd]; [now rewrite length_upd|].
        intros i' st' Hn. destruct (Nat.eq_dec i' i) as [->|Hne].
        -- rewrite nth_error_upd_same in Hn by (apply nth_error_Some; congruence). inversion Hn; subst. auto.
        -- rewrite nth_error_upd_other in Hn by auto. auto.
    + cbn [fst]. split; [split; auto|]. destruct keep; auto. cbn [run mstep]. unfold mc_save.
      apply nth_error_None in En. rewrite (proj2 (nth_error_None _ _)) by lia. reflexivity.
  - destruct (nth_error sts i) as [st|] eqn:En.
    + pose proof (HI i st En) as Hi. unfold sv_postprocess. rewrite Hi. pose proof (@length_chains_step m (MFinalize i)) as Hlen.
      cbn [run mstep] in *. destruct (mc_finalize m i) as [m' r]. cbn [fst] in *.
      split; auto. split; cbn [fst snd]; auto. rewrite Hlen; auto. intros; discriminate.
    + cbn [fst]. split; [split; auto|]. cbn [run mstep]. unfold mc_finalize, mc_release.
      apply nth_error_None in En. rewrite (proj2 (nth_error_None _ _)) by lia. reflexivity.
Qed.

Lemma sv_sim_run : forall h s, sv_ids s -> sv_ids (fst (run (sv_step zeros_like) s h)) /\
  fst (fst (run (sv_step zeros_like) s h)) = fst (run (mstep zeros_like) (fst s) (flat_map tr h)).
Proof.
  induction h as [|o h IH]; intros s Hs; [auto|]. cbn [run flat_map]. rewrite run_app.
  destruct (sv_sim o Hs) as [H1 H2]. destruct (sv_step zeros_like s o) as [s1 o1]. cbn [fst] in *.
  destruct (IH s1 H1) as [H3 H4]. destruct (run (sv_step zeros_like) s1 h) as [s2 o2]. cbn [fst] in *.
  destruct (run (mstep zeros_like) (fst s) (tr o)) as [m1 q1]. cbn [fst] in *. subst m1.
  destruct (run (mstep zeros_like) (fst s1) (flat_map tr h)) as [m2 q2]. cbn [fst] in *. auto.
Qed.

Lemma saves_tr i h : saves_of i (flat_map tr h) = map leaves (kept (calls_of i h)).
Proof.
  induction h as [|o h IH]; auto. cbn [flat_map]. unfold saves_of in *. rewrite flat_map_app, IH. unfold calls_of. cbn [flat_map].
  unfold kept. rewrite filter_app, !map_app. f_equal.
  destruct o as [sm k|i' keep sm|i']; auto. destruct keep; cbn; destruct (i' =? i); auto.
Qed.
Lemma finalize_tr i h : In (MFinalize i) (flat_map tr h) <-> In (SvPost i) h.
Proof.
  rewrite in_flat_map. split.
  - intros (o & Hin & Ho). destruct o as [sm k|i' keep sm|i']; cbn in Ho.
    + destruct Ho as [Ho|[]]; discriminate.
    + destruct keep; [destruct Ho as [Ho|[]]; discriminate|contradiction].
    + destruct Ho as [Ho|[]]. inversion Ho; subst. auto.
  - intros H. exists (SvPost i). split; auto. simpl. auto.
Qed.

(** the counter of chain i *)
Lemma counter_run i : forall h s st, nth_error (snd s) i = Some st ->
  exists st', nth_error (snd (fst (run (sv_step zeros_like) s h))) i = Some st' /\
    sv_saved st' = sv_saved st + length (kept (calls_of i h)).
Proof.
  induction h as [|o h IH]; intros s st Hs.
  - exists st. simpl. rewrite Nat.add_0_r. auto.
  - cbn [run]. assert (Hst : exists st1, nth_error (snd (fst (sv_step zeros_like s o))) i = Some st1 /\
      sv_saved st1 = sv_saved st + length (kept (calls_of i [o]))).
    { destruct s as [m sts]. cbn [snd] in Hs. assert (Hi : i < length sts) by (apply nth_error_Some; congruence).
      destruct o as [sm k|i' keep sm|i']; cbn [sv_step].
      - exists st. destruct (sv_init zeros_like m sm k) as [m' [st1|e]]; cbn [fst snd]; [rewrite nth_error_app1 by auto|]; split; auto; unfold calls_of; simpl; lia.
      - unfold calls_of. cbn [flat_map]. rewrite app_nil_r. destruct (Nat.eqb_spec i' i) as [->|Hne].
        + rewrite Hs. unfold sv_save. destruct keep.
          * destruct (host_save m (sv_chain st) (leaves sm)) as [m' r]. cbn [fst snd]. rewrite nth_error_upd_same by auto. eexists. split; eauto. simpl. lia.
          * cbn [fst snd]. rewrite nth_error_upd_same by auto. eexists. split; eauto.
        + exists st. split; [|simpl; lia]. destruct (nth_error sts i') as [st1|]; auto. unfold sv_save.
          destruct keep; [destruct (host_save m (sv_chain st1) (leaves sm)) as [m' r]|]; cbn [fst snd]; rewrite nth_error_upd_other; auto.
      - exists st. split; [|unfold calls_of; simpl; lia]. destruct (nth_error sts i') as [st1|]; auto. }
    destruct (sv_step zeros_like s o) as [s1 o1]. cbn [fst] in Hst. destruct Hst as (st1 & H1 & H2).
    destruct (IH s1 st1 H1) as (st2 & H3 & H4). destruct (run (sv_step zeros_like) s1 h) as [s2 o2]. cbn [fst] in *.
    exists st2. split; auto. rewrite H4, H2. change (o :: h) with ([o] ++ h). unfold calls_of. rewrite flat_map_app. unfold kept.
    rewrite filter_app, map_app, app_length. lia.
Qed.

Lemma finished_after_finalize (m : mcollector V) c : c < length (mc_chains m) -> 
  mc_finished (fst (mc_finalize m c)) c <> None.
Proof.
  intros H. unfold mc_finished, mc_finalize, mc_release. destruct (nth_error (mc_chains m) c) as [ch|] eqn:E.
  - destruct (mc_locked ch) eqn:El; cbn [fst].
    + unfold mc_savez. cbn [mc_dir mc_chains]. rewrite nth_error_upd_same by auto. destruct (mc_dir m); cbn [mc_chains]; rewrite nth_error_upd_same by auto; cbn; discriminate.
    + rewrite E, El. discriminate.
  - apply nth_error_None in E. lia.
Qed.

Lemma final_save dir h1 (sample : tree V) K i h2 :
  let start := (mc_new dir, []) in
  snd (sv_step zeros_like (fst (run (sv_step zeros_like) start h1)) (SvInit sample K)) = SvId (Ok i) ->
  Forall (fun ks => same_structure (snd ks) sample) (calls_of i h2) ->
  exists st, ns_run (ns_init zeros_like sample K) (calls_of i h2) = Ok st /\
    snd (sv_step zeros_like (fst (run (sv_step zeros_like) start (h1 ++ SvInit sample K :: h2))) (SvPost i)) =
      SvResult (Some (Ok (ns_postprocess st))).
Proof.
  intros start Hreg Hc. destruct (final_no_save zeros_like K Hc) as (st & Est & Hn & Hh). exists st. split; auto.
  assert (Hi0 : sv_ids start). { split; auto. intros [|j] x Hx; discriminate. }
  destruct (sv_sim_run h1 Hi0) as [Hi1 Hm1].
  rewrite run_app. destruct (run (sv_step zeros_like) start h1) as [s1 o1] eqn:E1. cbn [fst] in *.
  cbn [run]. destruct (sv_step zeros_like s1 (SvInit sample K)) as [s2 o2] eqn:E2. cbn [snd] in Hreg. subst o2.
  assert (Hlen : i = length (snd s1) /\ i = length (mc_chains (fst s1)) /\ exists st0, nth_error (snd s2) i = Some st0 /\ sv_saved st0 = 0).
  { destruct s1 as [m1 sts1]. cbn [sv_step] in E2. destruct (sv_init zeros_like m1 sample K) as [m' [st0|e]] eqn:Ei; inversion E2; subst.
    unfold sv_init in Ei. destruct (mc_register zeros_like m1 sample K) as [m'' [c|e]]; inversion Ei; subst. destruct Hi1 as [HL _]. cbn [fst snd] in *.
    split; auto. split; [lia|]. rewrite nth_error_app2, Nat.sub_diag by lia. simpl. eauto. }
  destruct Hlen as (Hi & Hic & st0 & Hst0 & Hz).
  destruct (counter_run i h2 s2 Hst0) as (st1 & Hst1 & Hcnt).
  assert (Hs2 : sv_ids s2). { pose proof (sv_sim (SvInit sample K) Hi1) as [H _]. rewrite E2 in H. exact H. }
  assert (Hs2m : fst s2 = fst (mstep zeros_like (fst s1) (MRegister sample K))).
  { pose proof (sv_sim (SvInit sample K) Hi1) as [_ H]. rewrite E2 in H. cbn [fst tr run] in H. rewrite H. destruct (mstep zeros_like (fst s1) (MRegister sample K)); reflexivity. }
  destruct (sv_sim_run h2 Hs2) as [Hi3 Hm3].
  destruct (run (sv_step zeros_like) s2 h2) as [s3 o3]. cbn [fst] in *.
  destruct s3 as [m3 sts3]. cbn [fst snd] in *. cbn [sv_step]. rewrite Hst1.
  destruct Hi3 as [HL3 HI3]. cbn [fst snd] in HL3, HI3. pose proof (HI3 i st1 Hst1) as Hch. unfold sv_postprocess. rewrite Hch. cbn [snd]. f_equal.
  assert (Hregm : snd (mstep zeros_like (fst (run (mstep zeros_like) (mc_new dir) (flat_map tr h1))) (MRegister sample K)) = OutId (Ok i)).
  { unfold start in Hm1. cbn [fst] in Hm1. rewrite <- Hm1. clear Hm1. destruct s1 as [m1 sts1]. cbn [fst] in *. cbn [mstep]. cbn [sv_step] in E2. unfold sv_init in E2.
    destruct (mc_register zeros_like m1 sample K) as [m' [c|e]] eqn:Er; inversion E2; subst.
    destruct (mc_register_ok zeros_like m1 sample K Er) as (nm & -> & _). cbn [snd fst] in *. f_equal. f_equal. auto. }
  assert (Hsv : Forall (fun vs => length vs = length (leaves sample)) (saves_of i (flat_map tr h2 ++ [MFinalize i]))).
  { unfold saves_of. rewrite flat_map_app. fold (saves_of i (flat_map tr h2)). rewrite saves_tr. simpl. rewrite app_nil_r.
    rewrite Forall_forall in *. intros vs Hin. apply in_map_iff in Hin. destruct Hin as (s & <- & Hs). unfold kept in Hs. apply in_map_iff in Hs.
    destruct Hs as (ks & <- & Hks). apply filter_In in Hks. apply structure_leaves, Hc. tauto. }
  destruct (@final_memory V zeros_like dir (flat_map tr h1) sample K i (flat_map tr h2 ++ [MFinalize i]) Hregm Hsv) as [_ Hfin].
  destruct Hfin as (t & Ht & Hhold); [apply in_or_app; simpl; auto|].
  assert (Em : fst (run (mstep zeros_like) (mc_new dir) (flat_map tr h1 ++ MRegister sample K :: flat_map tr h2 ++ [MFinalize i])) = fst (mc_finalize m3 i)).
  { rewrite run_app. rewrite Hm3, Hs2m, Hm1. unfold start. cbn [fst].
    destruct (run (mstep zeros_like) (mc_new dir) (flat_map tr h1)) as [ma oa]. cbn [fst run].
    destruct (mstep zeros_like ma (MRegister sample K)) as [mb ob]. cbn [fst]. rewrite run_app.
    destruct (run (mstep zeros_like) mb (flat_map tr h2)) as [mc oc]. cbn [fst run mstep]. destruct (mc_finalize mc i). reflexivity. }
  rewrite Em in Ht. rewrite Ht. f_equal. f_equal. unfold ns_postprocess. rewrite Hcnt, Hz. cbn [Nat.add].
  unfold ns_postprocess in *. cbn [fst snd] in *. rewrite Hn. f_equal.
  eapply holds_unique; [exact Hhold|]. unfold saves_of. rewrite flat_map_app. fold (saves_of i (flat_map tr h2)). rewrite saves_tr. simpl. rewrite app_nil_r. exact Hh.
Qed.

(** batched arguments of the callback, io.py:691-694 *)
Lemma host_batched : forall rows m m', host_save_batched m rows = (m', Ok tt) ->
  m' = fst (run (mstep zeros_like) m (map (fun cv => MSave (fst cv) (snd cv)) rows)).
Proof.
  induction rows as [|[c vs] rows IH]; intros m m' H; cbn in *; [inversion H; auto|].
  destruct (mc_save m c vs) as [m1 [u|e]]; [|inversion H]. apply IH in H. subst m'.
  destruct (run (mstep zeros_like) m1 (map (fun cv => MSave (fst cv) (snd cv)) rows)). reflexivity.
Qed.

(** ** npz file *)
Lemma file_keep c f locked : forall h m ch,
  nth_error (mc_chains m) c = Some ch -> mc_locked ch = locked -> locked = false -> file_of c (mc_npz m) = Some f ->
  file_of c (mc_npz (fst (run (mstep zeros_like) m h))) = Some f.
Proof.
  induction h as [|o h IH]; intros m ch Hc Hl Hf Hfile; [exact Hfile|]. cbn [run].
  assert (Hin : c < length (mc_chains m)) by (apply nth_error_Some; congruence).
  assert (Hs : exists ch', nth_error (mc_chains (fst (mstep zeros_like m o))) c = Some ch' /\ mc_locked ch' = locked /\
     file_of c (mc_npz (fst (mstep zeros_like m o))) = Some f).
  { destruct o as [s k|c' vs|c'|c']; cbn [mstep].
    - exists ch. unfold mc_register. match goal with |- context[match ?x with Ok _ => _ | Exc _ => _ end] => destruct x end; cbn; auto.
      rewrite nth_error_app1 by auto. auto.
    - unfold mc_save. destruct (nth_error (mc_chains m) c') as [ch'|] eqn:E; [|exists ch; auto].
      destruct (np_set_all (mc_samples ch') (mc_count ch') vs); [|exists ch; auto]. cbn.
      destruct (Nat.eq_dec c' c) as [->|Hne].
      + rewrite nth_error_upd_same by auto. eexists. split; eauto. cbn. split; congruence.
      + rewrite nth_error_upd_other by auto. exists ch. auto.
    - unfold mc_finalize, mc_release. destruct (nth_error (mc_chains m) c') as [ch'|] eqn:E; [|exists ch; auto].
      destruct (mc_locked ch') eqn:El; [|exists ch; auto]. assert (Hne : c' <> c) by congruence.
      exists ch. unfold mc_savez. cbn [mc_dir mc_chains]. destruct (mc_dir m); cbn [fst mc_chains mc_npz].
      + destruct (nth_error (upd (mc_chains m) c' _) c'); cbn [fst mc_chains mc_npz file_of]; rewrite nth_error_upd_other by auto; split; auto; split; auto.
        destruct (Nat.eqb_spec c c'); [congruence|]. auto.
      + rewrite nth_error_upd_other by auto. auto.
    - exists ch. auto. }
  destruct (mstep zeros_like m o) as [m1 o1]. cbn [fst] in Hs. destruct Hs as (ch' & H1 & H2 & H3).
  specialize (IH m1 ch' H1 H2 Hf H3). destruct (run (mstep zeros_like) m1 h). exact IH.
Qed.

Lemma dir_run h : forall m, mc_dir (fst (run (mstep zeros_like) m h)) = mc_dir m.
Proof.
  induction h as [|o h IH]; intros m; auto. cbn [run].
  assert (Hs : mc_dir (fst (mstep zeros_like m o)) = mc_dir m).
  { destruct o as [s k|c' vs|c'|c']; cbn [mstep]; auto.
    - unfold mc_register. match goal with |- context[match ?x with Ok _ => _ | Exc _ => _ end] => destruct x end; auto.
    - unfold mc_save. destruct (nth_error (mc_chains m) c') as [ch'|] eqn:E; auto. destruct (np_set_all _ _ _); auto.
    - unfold mc_finalize, mc_release. destruct (nth_error (mc_chains m) c') as [ch'|] eqn:E; auto.
      destruct (mc_locked ch'); auto. cbn [fst]. unfold mc_savez. cbn [mc_dir mc_chains]. destruct (mc_dir m); auto.
      destruct (nth_error (upd _ _ _) _); auto. }
  destruct (mstep zeros_like m o) as [m1 o1]. cbn [fst] in Hs. specialize (IH m1). destruct (run (mstep zeros_like) m1 h). cbn [fst] in *. congruence.
Qed.

Lemma dict_of_combine_get X : forall (ks : list string) (vs : list X) j k v, NoDup ks ->
  nth_error ks j = Some k -> nth_error vs j = Some v -> dget k (dict_of (combine ks vs)) = Some v.
Proof.
  intros ks vs j k v Hnd Hk Hv.
  assert (Hin : In (k, v) (combine ks vs)).
  { revert vs j Hk Hv. clear Hnd. induction ks as [|k0 ks IH]; intros [|v0 vs] [|j] Hk Hv; simpl in *; try discriminate; [left; congruence|right; eauto]. }
  assert (Hnd2 : NoDup (map fst (combine ks vs))).
  { clear -Hnd. revert vs. induction Hnd as [|k0 ks Hn Hnd IH]; intros [|v0 vs]; simpl; constructor; auto.
    intros H. apply in_map_iff in H. destruct H as ([k1 v1] & E & H). simpl in E. subst k1. apply in_combine_l in H. contradiction. }
  destruct (dict_of_ok (combine ks vs) Hnd2) as (Hs & Hp). apply dget_in; [now apply sorted_nodup|]. eapply Permutation_in; [apply Permutation_sym; exact Hp|exact Hin].
Qed.

Lemma final_npz h1 (sample : tree V) K c a b :
  let m1 := fst (run (mstep zeros_like) (mc_new true) h1) in
  snd (mstep zeros_like m1 (MRegister sample K)) = OutId (Ok c) ->
  Forall (fun vs => length vs = length (leaves sample)) (saves_of c a) ->
  ~ In (MFinalize c) a ->
  let m := fst (run (mstep zeros_like) (mc_new true) (h1 ++ MRegister sample K :: a ++ MFinalize c :: b)) in
  exists ks, dict_keys sample = Ok ks /\
   mc_file m c = Some (dict_of (combine (map (join "/") ks) (filled_from zeros_like K (saves_of c a) 0 (leaves sample)))).
Proof.
  intros m1 Hreg Hs Hna m. subst m m1. rewrite run_app. pose proof (dir_run h1 (mc_new true)) as Hdir.
  destruct (run (mstep zeros_like) (mc_new true) h1) as [m1 o1]. cbn [fst run] in *.
  cbn [mstep] in Hreg |- *. destruct (mc_register zeros_like m1 sample K) as [m2 r] eqn:Er. cbn [snd] in Hreg. inversion Hreg; subst r.
  destruct (mc_register_ok zeros_like m1 sample K Er) as (names & Hc & Hn & Hk & Hd & _).
  destruct (Hk Hdir) as (ks & Eks & ->). exists ks. split; auto.
  rewrite run_app. pose proof (dir_run a m2) as Hda.
  destruct (@mc_run_ok V zeros_like c sample K (map (join "/") ks) a m2 [] 0 true Hn) as (count' & Hfin & _); auto; [simpl; lia|].
  destruct (run (mstep zeros_like) m2 a) as [m3 o3]. cbn [fst] in *.
  assert (Hl : lastn_locked true a c = true).
  { unfold lastn_locked. destruct (existsb (fun o => match o with MFinalize c' => c' =? c | _ => false end) a) eqn:Ex; auto. exfalso.
    apply existsb_exists in Ex. destruct Ex as (o & Hin & Ho). destruct o; try discriminate. apply Nat.eqb_eq in Ho. subst. auto. }
  rewrite Hl in Hfin. cbn [app] in Hfin. cbn [run mstep].
  assert (Hm4 : exists m4 ch, mc_finalize m3 c = (m4, Ok tt) /\ nth_error (mc_chains m4) c = Some ch /\ mc_locked ch = false /\
    file_of c (mc_npz m4) = Some (dict_of (combine (map (join "/") ks) (filled_from zeros_like K (saves_of c a) 0 (leaves sample))))).
  { unfold mc_finalize, mc_release. rewrite Hfin. cbn [mc_locked mc_samples mc_count mc_treedef mc_names].
    assert (Hin : c < length (mc_chains m3)) by (apply nth_error_Some; congruence).
    eexists _, _. split; [reflexivity|]. unfold mc_savez. cbn [mc_dir mc_chains]. rewrite Hda, Hd, Hdir. cbn [mc_dir mc_new].
    rewrite nth_error_upd_same by auto. cbn [mc_chains mc_npz file_of mc_names mc_samples]. rewrite nth_error_upd_same by auto.
    split; [reflexivity|]. split; [reflexivity|]. rewrite Nat.eqb_refl. reflexivity. }
  destruct Hm4 as (m4 & ch & -> & H1 & H2 & H3). cbn [fst].
  pose proof (@file_keep c _ false b m4 ch H1 H2 eq_refl H3) as Hf.
  destruct (run (mstep zeros_like) m4 b) as [m5 o5]. cbn [fst] in *. exact Hf.
Qed.

(** every leaf is found under the name of its position *)
Lemma final_npz_names h1 (sample : tree V) K c a b : wf sample -> no_empty sample -> order_ok sample ->
  (forall p v s, In (p, v) (positions sample) -> In s p -> slash_free s) ->
  let m1 := fst (run (mstep zeros_like) (mc_new true) h1) in
  snd (mstep zeros_like m1 (MRegister sample K)) = OutId (Ok c) ->
  Forall (fun vs => length vs = length (leaves sample)) (saves_of c a) ->
  ~ In (MFinalize c) a ->
  let m := fst (run (mstep zeros_like) (mc_new true) (h1 ++ MRegister sample K :: a ++ MFinalize c :: b)) in
  exists f, mc_file m c = Some f /\ length f = length (leaves sample) /\
    forall j p leaf, nth_error (positions sample) j = Some (p, leaf) ->
      dget (join "/" p) f = Some (column j (firstn K (saves_of c a)) ++ repeat (zeros_like leaf) (K - length (saves_of c a))).
Proof.
  intros Hw He Ho Hsl m1 Hreg Hs Hna m. destruct (@final_npz h1 sample K c a b Hreg Hs Hna) as (ks & Ek & Hf).
  fold m in Hf. eexists. split; [exact Hf|].
  assert (Hnd : NoDup (map (join "/") ks)) by (eapply joined_nodup; eauto).
  destruct (final_keys sample Hw He) as (ks' & Ek' & _ & _ & Hlen & Hord). rewrite Ek in Ek'. inversion Ek'; subst ks'. clear Ek'.
  specialize (Hord Ho).
  set (rows := filled_from zeros_like K (saves_of c a) 0 (leaves sample)).
  assert (Hlr : length rows = length (leaves sample)) by apply filled_from_length.
  assert (Hnd2 : NoDup (map fst (combine (map (join "/") ks) rows))).
  { replace (map fst (combine (map (join "/") ks) rows)) with (map (join "/") ks); auto.
    assert (Hle : length (map (join "/") ks) = length rows) by (rewrite map_length; lia). revert Hle. clearbody rows. clear.
    generalize (map (join "/") ks). intros l. revert rows. induction l as [|x l IH]; intros [|y r] H; simpl in *; try discriminate; auto. f_equal. auto. }
  split.
  - destruct (dict_of_ok _ Hnd2) as [_ Hp]. rewrite (Permutation_length Hp), combine_length, map_length. lia.
  - intros j p leaf Hj. 
    assert (Hjl : nth_error (leaves sample) j = Some leaf).
    { rewrite <- (positions_leaves sample Hw). rewrite nth_error_map, Hj. reflexivity. }
    apply dict_of_combine_get with (j := j); auto.
    + rewrite nth_error_map, Hord, nth_error_map, Hj. reflexivity.
    + unfold rows. rewrite (@filled_from_nth V zeros_like K _ 0 _ j leaf Hjl). reflexivity.
Qed.
End F.
