(** Proofs about parallel tempering, amagold and sggmc. *)
From Coq Require Import Reals Lra ZArith.
From Verif Require Import Base Pytree Xreal Scheduler Solver Mh.
Open Scope R_scope.
Set Implicit Arguments.

Lemma xltb_true x y : xltb x y = true <-> xlt x y.
Proof. unfold xltb. destruct (xlt_dec x y); split; intros H; auto; discriminate. Qed.
Lemma xltb_false x y : xltb x y = false <-> ~ xlt x y.
Proof. unfold xltb. destruct (xlt_dec x y); split; intros H; auto; try discriminate; contradiction. Qed.
Lemma xleb_true x y : xleb x y = true <-> xle x y.
Proof. unfold xleb. destruct (xle_dec x y); split; intros H; auto; discriminate. Qed.

(** log u < l iff u < exp l *)
Lemma log_lt u l : 0 <= u -> (xlt (xlog u) (Fin l) <-> u < exp l).
Proof.
  intros Hu. unfold xlog. destruct (Rlt_dec 0 u) as [H|H]; simpl.
  - split; intros Hl.
    + rewrite <- (exp_ln u H). now apply exp_increasing.
    + rewrite <- (exp_ln u H) in Hl. now apply exp_lt_inv.
  - split; auto. intros _. assert (u = 0) by lra. subst u. apply exp_pos.
Qed.
Lemma exp_min0 x : exp (Rmin 0 x) = Rmin 1 (exp x).
Proof.
  unfold Rmin. destruct (Rle_dec 0 x) as [H|H]; destruct (Rle_dec 1 (exp x)) as [H1|H1]; auto.
  - apply exp_0.
  - exfalso. apply H1. rewrite <- exp_0. destruct H as [H|<-]; [left; now apply exp_increasing|right; reflexivity].
  - exfalso. apply H. rewrite <- exp_0 in H1. destruct H1 as [H1|H1]; [left; now apply exp_lt_inv|right; now apply exp_inv].
Qed.
Lemma min_exp_range x : 0 < Rmin 1 (exp x) <= 1.
Proof. split; [apply Rmin_glb_lt; [lra|apply exp_pos]|apply Rmin_l]. Qed.

Lemma am_log_alpha_fin a b c : am_log_alpha (Fin a) (Fin b) (Fin c) = Fin (Rmin 0 (a - b + c)).
Proof.
  unfold am_log_alpha, xltb. simpl. destruct (Rlt_dec 0 (a + - b + c)) as [H|H]; unfold Rmin; destruct (Rle_dec 0 (a - b + c)); try reflexivity; try lra.
  f_equal. lra.
Qed.
Lemma sg_log_alpha_fin T o n ks ke : 0 < T -> sg_log_alpha (Fin T) (Fin o) (Fin n) (Fin ks) (Fin ke) = Fin (Rmin 0 (- ((n - o) + (ke - ks)) / T)).
Proof.
  intros HT. unfold sg_log_alpha. rewrite xdiv_fin by lra. simpl. unfold xleb.
  assert (E : -1 / T * (n + - o + ke + - ks) = - ((n - o) + (ke - ks)) / T) by (field; lra). rewrite E.
  destruct (xle_dec (Fin (- ((n - o) + (ke - ks)) / T)) (Fin 0)) as [H|H]; rewrite xle_fin in H; unfold Rmin; destruct (Rle_dec 0 (- ((n - o) + (ke - ks)) / T)); try reflexivity; try lra.
  f_equal. lra.
Qed.

Section P.
Variables (Key V Pos Mom Model Data Full Mass MassState : Type).
Variable split2 : Key -> Key * Key.
Variable uniform : Key -> R.
Hypothesis uniform_range : forall k, 0 <= uniform k < 1.
Variable scale : R -> Mom -> Mom.
Variable full_potential : Pos -> Full -> Model -> xr * (Full * Model).
Variable init_full : Full.
Variable mass_adaption : option ((Pos -> MassState) * (MassState -> Pos -> MassState) * (MassState -> Mass)).

Section Amagold.
Variable lf_init : Pos -> Key -> option Mass -> Model -> lf_state Key Pos Mom Model Data.
Variable lf_update : lf_state Key Pos Mom Model Data -> schedule -> option Mass -> lf_state Key Pos Mom Model Data.
Notation am_update := (am_update split2 uniform scale full_potential mass_adaption lf_update).
Notation am_init := (am_init split2 full_potential init_full mass_adaption lf_init).

Lemma am_step_fin st sch new full model' a b c :
  let proposal := lf_update (am_integrator st) sch (mass_get mass_adaption (am_mass st)) in
  full_potential (lf_positions proposal) (am_full st) (lf_model proposal) = (new, (full, model')) ->
  am_potential st = Fin a -> new = Fin b -> lf_potential proposal = Fin c ->
  let p := Rmin 1 (exp (a - b + c)) in
  let u := uniform (snd (split2 (am_key st))) in
  let st' := fst (am_update st sch) in
  st_acceptance (snd (am_update st sch)) = Some (Fin p) /\ fst (am_ratio st') = Fin p /\
  am_full st' = full /\ am_key st' = fst (split2 (am_key st)) /\
  lf_data (am_integrator st') = lf_data proposal /\ lf_key (am_integrator st') = lf_key proposal /\
  (u < p -> lf_positions (am_integrator st') = lf_positions proposal /\ lf_momentum (am_integrator st') = scale 1 (lf_momentum proposal) /\
            am_potential st' = new /\ lf_model (am_integrator st') = model') /\
  (p <= u -> lf_positions (am_integrator st') = lf_positions (am_integrator st) /\
             lf_momentum (am_integrator st') = scale (-1) (lf_momentum (am_integrator st)) /\
             am_potential st' = am_potential st /\ lf_model (am_integrator st') = lf_model (am_integrator st)) /\
  am_mass st' = mass_update mass_adaption (am_mass st) (lf_positions (am_integrator st')).
Proof.
  intros proposal Hf Ha Hb Hc p u st'. subst new.
  assert (Hal : am_log_alpha (am_potential st) (Fin b) (lf_potential proposal) = Fin (Rmin 0 (a - b + c))) by (rewrite Ha, Hc; apply am_log_alpha_fin).
  pose proof (proj1 (uniform_range (snd (split2 (am_key st))))) as Hu0. fold u in Hu0.
  unfold st', Mh.am_update. subst proposal. destruct (split2 (am_key st)) as [k1 k2] eqn:Ek. cbn [fst snd] in *. rewrite Hf, Hal.
  assert (Hx : xexp (Fin (Rmin 0 (a - b + c))) = Fin p) by (unfold xexp, p; now rewrite exp_min0).
  assert (Hl : xlt (xlog u) (Fin (Rmin 0 (a - b + c))) <-> u < p) by (rewrite log_lt by auto; unfold p; now rewrite exp_min0).
  fold u. destruct (xltb (xlog u) (Fin (Rmin 0 (a - b + c)))) eqn:Eb.
  - apply xltb_true in Eb. apply Hl in Eb. cbn. repeat split; auto; try (unfold p; now rewrite exp_min0). all: intros; lra.
  - apply xltb_false in Eb. rewrite Hl in Eb. cbn. repeat split; auto; try (unfold p; now rewrite exp_min0). all: intros; lra.
Qed.

(** a NaN is rejected *)
Lemma am_step_nan st sch new full model' :
  let proposal := lf_update (am_integrator st) sch (mass_get mass_adaption (am_mass st)) in
  full_potential (lf_positions proposal) (am_full st) (lf_model proposal) = (new, (full, model')) ->
  xadd (xsub (am_potential st) new) (lf_potential proposal) = NaN ->
  let st' := fst (am_update st sch) in
  st_acceptance (snd (am_update st sch)) = Some NaN /\
  lf_positions (am_integrator st') = lf_positions (am_integrator st) /\ am_potential st' = am_potential st /\
  lf_momentum (am_integrator st') = scale (-1) (lf_momentum (am_integrator st)) /\ lf_model (am_integrator st') = lf_model (am_integrator st).
Proof.
  intros proposal Hf Hn st'. unfold st', Mh.am_update. subst proposal. destruct (split2 (am_key st)) as [k1 k2]. rewrite Hf. unfold am_log_alpha. rewrite Hn.
  assert (E1 : xltb (Fin 0) NaN = false) by (apply xltb_false; intros []). rewrite E1.
  assert (E2 : xltb (xlog (uniform k2)) NaN = false). { apply xltb_false. unfold xlog. destruct (Rlt_dec 0 (uniform k2)); intros []. }
  rewrite E2. cbn. auto.
Qed.

(** the stored potential belongs to the stored position *)
Definition am_inv (st : am_state Key Pos Mom Model Data Full MassState) : Prop :=
  exists fd m, fst (full_potential (lf_positions (am_integrator st)) fd m) = am_potential st /\
               snd (snd (full_potential (lf_positions (am_integrator st)) fd m)) = lf_model (am_integrator st).
Lemma am_inv_init sample key model :
  (forall p k mass m, lf_positions (lf_init p k mass m) = p /\ lf_model (lf_init p k mass m) = m) -> am_inv (am_init sample key model).
Proof.
  intros Hi. unfold am_inv, Mh.am_init. exists init_full, model. destruct (full_potential sample init_full model) as [u [full model']] eqn:E.
  destruct (split2 key) as [k s]. cbn. destruct (Hi sample k (mass_get mass_adaption (mass_init mass_adaption sample)) model') as [-> ->]. rewrite E. auto.
Qed.
Lemma am_inv_step st sch : am_inv st -> am_inv (fst (am_update st sch)).
Proof.
  intros (fd & m & H1 & H2). unfold am_inv, Mh.am_update. destruct (split2 (am_key st)) as [k1 k2].
  set (proposal := lf_update (am_integrator st) sch (mass_get mass_adaption (am_mass st))).
  destruct (full_potential (lf_positions proposal) (am_full st) (lf_model proposal)) as [new [full model']] eqn:E.
  destruct (xltb (xlog (uniform k2)) (am_log_alpha (am_potential st) new (lf_potential proposal))); cbn.
  - exists (am_full st), (lf_model proposal). rewrite E. auto.
  - exists fd, m. auto.
Qed.
Lemma am_inv_run : forall schs st, am_inv st -> am_inv (fold_left (fun s sch => fst (am_update s sch)) schs st).
Proof. induction schs as [|sch schs IH]; intros st H; auto. cbn [fold_left]. apply IH, am_inv_step, H. Qed.
End Amagold.

Section Sggmc.
Variable ob_init : Pos -> Key -> Model -> ob_state Key Pos Mom Model Data.
Variable ob_update : ob_state Key Pos Mom Model Data -> schedule -> option Mass -> ob_state Key Pos Mom Model Data.
Notation sg_update := (sg_update split2 uniform full_potential mass_adaption ob_update).
Notation sg_init := (sg_init split2 full_potential init_full mass_adaption ob_init).

Lemma sg_step_fin st sch new full model' T a b ks ke : 0 < T ->
  let proposal := ob_update (sg_integrator st) sch (mass_get mass_adaption (sg_mass st)) in
  full_potential (ob_positions proposal) (sg_full st) (ob_model proposal) = (new, (full, model')) ->
  sch_temperature sch = Fin T -> sg_potential st = Fin a -> new = Fin b -> ob_kin_start proposal = Fin ks -> ob_kin_end proposal = Fin ke ->
  let p := Rmin 1 (exp (- ((b - a) + (ke - ks)) / T)) in
  let u := uniform (snd (split2 (sg_key st))) in
  let st' := fst (sg_update st sch) in
  st_acceptance (snd (sg_update st sch)) = Some (Fin p) /\
  sg_full st' = full /\ sg_key st' = fst (split2 (sg_key st)) /\
  ob_data (sg_integrator st') = ob_data proposal /\ ob_key (sg_integrator st') = ob_key proposal /\
  ob_kin_start (sg_integrator st') = Fin 0 /\ ob_kin_end (sg_integrator st') = Fin 0 /\
  (u < p -> ob_positions (sg_integrator st') = ob_positions proposal /\ ob_momentum (sg_integrator st') = ob_momentum proposal /\
            sg_potential st' = new /\ ob_model (sg_integrator st') = model') /\
  (p <= u -> ob_positions (sg_integrator st') = ob_positions (sg_integrator st) /\
             ob_momentum (sg_integrator st') = ob_momentum (sg_integrator st) /\
             sg_potential st' = sg_potential st /\ ob_model (sg_integrator st') = ob_model (sg_integrator st)) /\
  sg_mass st' = mass_update mass_adaption (sg_mass st) (ob_positions (sg_integrator st')).
Proof.
  intros HT proposal Hf HTe Ha Hb Hks Hke p u st'. subst new.
  assert (Hal : sg_log_alpha (sch_temperature sch) (sg_potential st) (Fin b) (ob_kin_start proposal) (ob_kin_end proposal) = Fin (Rmin 0 (- ((b - a) + (ke - ks)) / T)))
    by (rewrite HTe, Ha, Hks, Hke; apply sg_log_alpha_fin; auto).
  pose proof (proj1 (uniform_range (snd (split2 (sg_key st))))) as Hu0. fold u in Hu0.
  unfold st', Mh.sg_update. subst proposal. destruct (split2 (sg_key st)) as [k1 k2] eqn:Ek. cbn [fst snd] in *. rewrite Hf, Hal.
  assert (Hl : xlt (xlog u) (Fin (Rmin 0 (- ((b - a) + (ke - ks)) / T))) <-> u < p) by (rewrite log_lt by auto; unfold p; now rewrite exp_min0).
  fold u. destruct (xltb (xlog u) (Fin (Rmin 0 (- ((b - a) + (ke - ks)) / T)))) eqn:Eb.
  - apply xltb_true in Eb. apply Hl in Eb. cbn. repeat split; auto; try (unfold p; now rewrite exp_min0). all: intros; lra.
  - apply xltb_false in Eb. rewrite Hl in Eb. cbn. repeat split; auto; try (unfold p; now rewrite exp_min0). all: intros; lra.
Qed.

(** a NaN is accepted *)
Lemma sg_step_nan st sch new full model' :
  let proposal := ob_update (sg_integrator st) sch (mass_get mass_adaption (sg_mass st)) in
  full_potential (ob_positions proposal) (sg_full st) (ob_model proposal) = (new, (full, model')) -> new = NaN ->
  let st' := fst (sg_update st sch) in
  st_acceptance (snd (sg_update st sch)) = Some (Fin 1) /\
  ob_positions (sg_integrator st') = ob_positions proposal /\ sg_potential st' = NaN.
Proof.
  intros proposal Hf Hn st'. subst new. unfold st', Mh.sg_update. subst proposal. destruct (split2 (sg_key st)) as [k1 k2] eqn:Ek. rewrite Hf.
  set (proposal := ob_update (sg_integrator st) sch (mass_get mass_adaption (sg_mass st))) in *.
  assert (El : sg_log_alpha (sch_temperature sch) (sg_potential st) NaN (ob_kin_start proposal) (ob_kin_end proposal) = Fin 0).
  { unfold sg_log_alpha. assert (E : xmul (xdiv (Fin (-1)) (sch_temperature sch)) (xsub (xadd (xsub NaN (sg_potential st)) (ob_kin_end proposal)) (ob_kin_start proposal)) = NaN).
    { assert (E1 : forall x, xadd NaN x = NaN) by (intros []; reflexivity). unfold xsub. rewrite !E1.
      destruct (xdiv (Fin (-1)) (sch_temperature sch)); reflexivity. }
    rewrite E. unfold xleb. destruct (xle_dec NaN (Fin 0)) as [H|H]; auto. exfalso. destruct H as [H|[H _]]; [exact H|discriminate]. }
  rewrite El.
  assert (Eb : xltb (xlog (uniform k2)) (Fin 0) = true).
  { apply xltb_true. apply log_lt; [apply uniform_range|]. rewrite exp_0. apply uniform_range. }
  rewrite Eb. cbn. rewrite exp_0. auto.
Qed.

Definition sg_inv (st : sg_state Key Pos Mom Model Data Full MassState) : Prop :=
  exists fd m, fst (full_potential (ob_positions (sg_integrator st)) fd m) = sg_potential st /\
               snd (snd (full_potential (ob_positions (sg_integrator st)) fd m)) = ob_model (sg_integrator st).
Lemma sg_inv_init sample key model :
  (forall p k m, ob_positions (ob_init p k m) = p /\ ob_model (ob_init p k m) = m) -> sg_inv (sg_init sample key model).
Proof.
  intros Hi. unfold sg_inv, Mh.sg_init. exists init_full, model. destruct (full_potential sample init_full model) as [u [full model']] eqn:E.
  destruct (split2 key) as [k s]. cbn. destruct (Hi sample k model') as [-> ->]. rewrite E. auto.
Qed.
Lemma sg_inv_step st sch : sg_inv st -> sg_inv (fst (sg_update st sch)).
Proof.
  intros (fd & m & H1 & H2). unfold sg_inv, Mh.sg_update. destruct (split2 (sg_key st)) as [k1 k2].
  set (proposal := ob_update (sg_integrator st) sch (mass_get mass_adaption (sg_mass st))).
  destruct (full_potential (ob_positions proposal) (sg_full st) (ob_model proposal)) as [new [full model']] eqn:E.
  match goal with |- context[xltb ?x ?y] => destruct (xltb x y) end; cbn.
  - exists (sg_full st), (ob_model proposal). rewrite E. auto.
  - exists fd, m. auto.
Qed.
Lemma sg_inv_run : forall schs st, sg_inv st -> sg_inv (fold_left (fun s sch => fst (sg_update s sch)) schs st).
Proof. induction schs as [|sch schs IH]; intros st H; auto. cbn [fold_left]. apply IH, sg_inv_step, H. Qed.
End Sggmc.
End P.

(** ** parallel tempering *)
Section PT.
Variables (Key V Sample Chain : Type).
Variables (split2 : Key -> Key * Key) (uniform : Key -> R).
Hypothesis uniform_range : forall k, 0 <= uniform k < 1.
Variable update_integrator : Chain -> schedule -> Chain.
Variables (variance potential : Chain -> xr).
Variable sa_schedule : nat -> xr.
Notation pt_update := (pt_update split2 uniform update_integrator variance potential sa_schedule).

Lemma pt_pair st ns hs : let n := update_integrator (pt_normal st) ns in let h := update_integrator (pt_hot st) hs in
  let st' := pt_update st ns hs in
  ((pt_normal st', pt_hot st') = (n, h) \/ (pt_normal st', pt_hot st') = (h, n)) /\
  pt_step st' = S (pt_step st) /\ pt_F st' = pt_F st /\ pt_key st' = fst (split2 (pt_key st)).
Proof.
  intros n h st'. unfold st', Mh.pt_update. destruct (split2 (pt_key st)) as [k1 k2]. fold n h.
  match goal with |- context[xltb ?x ?y] => destruct (xltb x y) end; cbn; auto.
Qed.
(** the decision *)
Lemma pt_decision st ns hs tn th un uh f ssq : 
  let n := update_integrator (pt_normal st) ns in let h := update_integrator (pt_hot st) hs in
  sch_temperature ns = Fin tn -> sch_temperature hs = Fin th -> tn <> 0 -> th <> 0 ->
  potential n = Fin un -> potential h = Fin uh -> pt_F st = Fin f -> f <> 0 ->
  pt_ssq (pt_update st ns hs) = Fin ssq ->
  let temps := 1 / tn - 1 / th in
  let s := exp (temps * (un - uh - temps * ssq / f)) in
  let u := uniform (snd (split2 (pt_key st))) in
  (u < s -> (pt_normal (pt_update st ns hs), pt_hot (pt_update st ns hs)) = (n, h)) /\
  (s <= u -> (pt_normal (pt_update st ns hs), pt_hot (pt_update st ns hs)) = (h, n)).
Proof.
  intros n h E1 E2 H1 H2 E3 E4 E5 H5 E6 temps s u. pose proof (proj1 (uniform_range (snd (split2 (pt_key st))))) as Hu0. fold u in Hu0.
  unfold Mh.pt_update in *. destruct (split2 (pt_key st)) as [k1 k2]. cbn [snd] in u. fold n h in E6 |- *.
  assert (Es : pt_new_ssq variance sa_schedule st n = Fin ssq).
  { match type of E6 with context[xltb ?x ?y] => destruct (xltb x y) end; exact E6. }
  assert (El : pt_log_s potential (sch_temperature ns) (sch_temperature hs) (pt_new_ssq variance sa_schedule st n) (pt_F st) n h = Fin (temps * (un - uh - temps * ssq / f))).
  { unfold pt_log_s. rewrite E1, E2, E3, E4, E5, Es, !xdiv_fin by auto. unfold xsub. cbn [xopp xadd xmul]. rewrite xdiv_fin by auto. cbn [xopp xadd xmul]. reflexivity. }
  rewrite El. fold u.
  assert (Hl : xlt (xlog u) (Fin (temps * (un - uh - temps * ssq / f))) <-> u < s) by (apply log_lt; auto).
  split; intros Hs.
  - apply Hl in Hs. apply xltb_true in Hs. rewrite Hs. reflexivity.
  - destruct (xltb (xlog u) (Fin (temps * (un - uh - temps * ssq / f)))) eqn:Eb; [|reflexivity].
    apply xltb_true, Hl in Eb. lra.
Qed.

(** the estimate is the mean of the variances for the default schedule 1/n *)
Fixpoint rsum (l : list R) : R := match l with [] => 0 | x :: r => x + rsum r end.
Lemma rsum_app a b : rsum (a ++ b) = rsum a + rsum b.
Proof. induction a as [|x a IH]; simpl; [lra|rewrite IH; lra]. Qed.
(** states after the schedules, together with the variances that were seen *)
Definition pt_run (st : pt_state Key Chain) (schs : list (schedule * schedule)) : pt_state Key Chain :=
  fold_left (fun s nh => pt_update s (fst nh) (snd nh)) schs st.
Lemma pt_mean : (forall n, (0 < n)%nat -> sa_schedule n = Fin (1 / INR n)) ->
  forall schs st q0, pt_step st = 0%nat -> pt_ssq st = Fin q0 -> schs <> [] ->
  forall vs, length vs = length schs ->
  (forall i a b s, nth_error schs i = Some (a, b) -> s = pt_run st (firstn i schs) -> variance (update_integrator (pt_normal s) a) = Fin (nth i vs 0)) ->
  pt_ssq (pt_run st schs) = Fin (rsum vs / INR (length vs)).
Proof.
  intros Hsa schs. induction schs as [|[a b] schs IH] using rev_ind; intros st q0 Hz Hq Hne vs Hlen Hv; [contradiction|].
  assert (Hstep : pt_step (pt_run st schs) = length schs).
  { clear - Hz. induction schs as [|[a b] schs IH] using rev_ind; [exact Hz|]. unfold pt_run in *. rewrite fold_left_app. cbn [fold_left fst snd].
    destruct (pt_pair (fold_left (fun s nh => pt_update s (fst nh) (snd nh)) schs st) a b) as (_ & -> & _). rewrite IH, app_length. simpl. lia. }
  destruct (exists_last (l := vs)) as (vs0 & v & ->). { intros ->. rewrite app_length in Hlen. simpl in Hlen. lia. }
  rewrite !app_length in *. simpl in *. assert (Hl0 : length vs0 = length schs) by lia.
  assert (Hvar : variance (update_integrator (pt_normal (pt_run st schs)) a) = Fin v).
  { rewrite (Hv (length schs) a b (pt_run st schs)).
    - rewrite app_nth2, Hl0, Nat.sub_diag by lia. reflexivity.
    - rewrite nth_error_app2, Nat.sub_diag by lia. reflexivity.
    - rewrite firstn_app, Nat.sub_diag, firstn_all. simpl. now rewrite app_nil_r. }
  unfold pt_run. rewrite fold_left_app. cbn [fold_left fst snd]. fold (pt_run st schs).
  assert (Hssq : pt_ssq (pt_update (pt_run st schs) a b) = pt_new_ssq variance sa_schedule (pt_run st schs) (update_integrator (pt_normal (pt_run st schs)) a)).
  { unfold Mh.pt_update. destruct (split2 (pt_key (pt_run st schs))). match goal with |- context[xltb ?x ?y] => destruct (xltb x y) end; reflexivity. }
  rewrite Hssq. unfold pt_new_ssq. rewrite Hstep, Hvar, Hsa by lia.
  destruct schs as [|ab schs'] eqn:Es.
  - destruct vs0; [|discriminate]. unfold pt_run. cbn [fold_left length]. rewrite Hq. unfold xsub. cbn [xopp xadd xmul]. f_equal. simpl. lra.
  - rewrite <- Es in *. assert (HI : pt_ssq (pt_run st schs) = Fin (rsum vs0 / INR (length vs0))).
    { apply (IH st q0); auto; [rewrite Es; discriminate|]. intros i a1 b1 s Hi Hs.
      assert (Hil : (i < length schs)%nat) by (apply nth_error_Some; congruence).
      rewrite (Hv i a1 b1 s).
      - rewrite app_nth1 by lia. reflexivity.
      - rewrite nth_error_app1; auto.
      - rewrite firstn_app. replace (i - length schs)%nat with 0%nat by lia. simpl. now rewrite app_nil_r. }
    rewrite HI. unfold xsub. cbn [xopp xadd xmul]. f_equal. rewrite rsum_app, Hl0. simpl rsum.
    replace (length schs + 1)%nat with (S (length schs)) by lia. rewrite S_INR.
    assert (HP : 0 < INR (length schs)) by (apply lt_0_INR; rewrite Es; simpl; lia). field. lra.
Qed.
End PT.
