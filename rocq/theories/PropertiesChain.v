(** C70: any number of steps: a chain of AMAGOLD that starts in the target distribution stays in it. *)
From Coq Require Import Reals Lra Lia List Permutation FunctionalExtensionality.
From Verif Require Import Base ListUtil Pytree PytreeSpec Io TreeUtil TreeUtilSpec TreeUtilProofs Xreal Scheduler Solver Mh MhProofs PropertiesMh
  Integrator IntegratorSpec IntegratorBasics ObaboProofs LeapfrogFinal ObaboFinal BalanceSpec BalanceProofs MhIntegrators PropertiesIntegrator KeyBasics PropertiesBalance
  VolumeSpec VolumeProofs LeapfrogVolume ObaboVolume Stationary PropertiesVolume RiemannSpec RiemannProofs RiemannLimit RiemannIntegral RiemannBounds RiemannAdequacy RiemannWeight PropertiesRiemann
  ChainSpec StationaryChain ChainAmagold.
Open Scope R_scope.
Set Implicit Arguments.
Local Arguments Nat.ltb : simpl never.
Local Arguments Nat.mul : simpl never.

Section MH.
Variable s : vtree.
Hypothesis Hs : wfv s.
Variables (Data Batch Model Full MassState : Type).
Variable get_data : Data -> Data * Batch.
Variable pot_model : vtree -> Batch -> Model -> Model.
Variable G : vtree -> Batch -> vtree.
Hypothesis HG : forall t b, like s t -> like s (G t b).
Hypothesis HC : continuous_gradient s G.
Variable U : vtree -> R.
Hypothesis HUc : continuous_function s U.
Hypothesis HUd : decays s U 1.
Variable full_potential : vtree -> Full -> Model -> xr * (Full * Model).
Hypothesis HU : forall p fd m, fst (full_potential p fd m) = Fin (U p).
Variables (steps : nat) (friction : R) (const_mass : option vtree).
Hypothesis Hd : diagonal s (rl_mass const_mass None s).
Local Notation no_adaption := (@None ((vtree -> MassState) * (MassState -> vtree -> MassState) * (MassState -> mass_matrix))).
Local Notation amstep u := (am_step get_data pot_model G full_potential no_adaption steps friction const_mass (fun _ => u)).

(** N steps with the schedules schs 0, ..., schs (N - 1).  The point z of the phase space consists of position, momentum and all N * steps random vectors; ds are the equally
    likely sequences of batches. *)
Theorem C70_stationary : forall N (schs : nat -> schedule), (forall k, (k < N)%nat -> exists eps, sch_step (schs k) = Fin eps /\ 0 < eps * friction) ->
  forall (ds : list Data) (rev : nat -> Data -> Data),
  (forall k, (k < N)%nat -> Permutation (map (rev k) ds) ds /\ forall d, In d ds -> step_reversed get_data steps (N * steps) k d (rev k d)) ->
  forall (normal : Data -> phase -> key -> list nat -> list R) (st : Data -> phase -> am_state key vtree vtree Model Data Full MassState) (mean : Data -> phase -> R) (f : vtree -> vtree -> R) B,
  let after := fun x : am_state key vtree vtree Model Data Full MassState => f (lf_positions (am_integrator x)) (lf_momentum (am_integrator x)) in
  let density := fun d z => am_density s U no_adaption (N * steps) const_mass (normal d z) (st d z) in
  (forall d z, In d ds -> am_starts s U (N * steps) None d z (normal d z) (st d z)) ->
  (forall d z, In d ds -> mean_of_chain (fun u i x => fst (amstep u (normal d z) x (schs i))) after 0 N (st d z) (mean d z)) ->
  continuous_observable s f -> (forall a b, like s a -> like s b -> Rabs (f a b) <= B) ->
  (forall d, In d ds -> riemann_integrable (dim s) (N * steps) (fun z => density d z * mean d z) /\ riemann_integrable (dim s) (N * steps) (fun z => density d z * after (st d z))) /\
  sum_over ds (fun d => riemann_integral (dim s) (N * steps) (fun z => density d z * mean d z)) = sum_over ds (fun d => riemann_integral (dim s) (N * steps) (fun z => density d z * after (st d z))).
Proof.
  intros N schs He ds rev Hrev normal st mean f B after density Hst Hmean Hf HB.
  set (eps := fun k => fin_or 0 (sch_step (schs k))).
  assert (He' : forall k, (k < N)%nat -> sch_step (schs k) = Fin (eps k) /\ 0 < eps k * friction) by (intros k Hk; unfold eps; destruct (He k Hk) as (e & -> & H); auto).
  pose proof Hd as (vi & sq & E1 & E2 & Lvi & Lsq & Hvs).
  set (W := @am_weight s MassState U None (N * steps) const_mass None).
  destruct (@am_weight_form s Hs MassState U None (N * steps) const_mass None Hd) as (a & Ha & Hw). fold W in Hw.
  assert (EW : W = weight s (N * steps) U 1 a) by (extensionality z; apply Hw).
  assert (Wp : forall z, 0 < W z) by (intros z; rewrite Hw; apply weight_pos).
  assert (Wc : continuous (dim s) (N * steps) W) by (rewrite EW; now apply weight_cont).
  assert (Wf : forall z, W (flip (dim s) z) = W z) by (intros z; apply (@am_weight_flip s Hs MassState U None (N * steps) const_mass None Hd z)).
  assert (Wi : forall g B, continuous (dim s) (N * steps) g -> (forall z, Rabs (g z) <= B) -> riemann_integrable (dim s) (N * steps) (fun z => W z * g z)).
  { intros g B0 Hg HB0. rewrite EW. now apply (@weight_integrable s Hs (N * steps) U 1 a Ha g B0 HUc HUd). }
  set (l := stages s get_data G steps friction vi sq eps rev 0 N).
  assert (Hl : good_stages (dim s) (N * steps) ds l) by (eapply stages_good; eauto; lia).
  set (o := obs s f).
  assert (Hat : forall d z, In d ds -> @am_at s Data Batch Model Full MassState get_data U steps N 0 d z (normal d z) (lf_key (am_integrator (st d z))) (st d z)).
  { intros d z Hi. destruct (Hst d z Hi) as (H1 & H2 & H3 & H4 & H5 & H6 & H7). repeat (split; [assumption|]). split; [reflexivity|]. intros i Hii. destruct (H7 i Hii) as (Z1 & Z2 & Z3). split; [exact Z1|]. split; [exact Z2|].
    intros j Hj. apply Z3. lia. }
  assert (Em : forall d z, In d ds -> mean d z = mean_after (dim s) W o l d z).
  { intros d z Hi. eapply mean_is; eauto; try (exact (Hmean d z Hi)).
    intros k Hk. apply (proj2 (Hrev k Hk) d Hi). }
  assert (Ed : forall d z, In d ds -> density d z = W z) by (intros d z Hi; apply (am_weight_ok Hs None const_mass (Hst d z Hi))).
  assert (Eo : forall d z, In d ds -> after (st d z) = o z) by (intros d z Hi; exact (am_at_obs Hs f (Hat d z Hi))).
  destruct (@mean_stationary (dim s) (N * steps) Data ds W Wp Wc Wf Wi o B) with (l := l) as [S1 S2].
  - apply (cont_observable Hs (N * steps) Hf).
  - intros z. apply HB; [apply (ptree_ok Hs z)|apply (mtree_ok Hs z)].
  - exact Hl.
  - assert (F1 : forall d, In d ds -> (fun z => density d z * mean d z) = (fun z => W z * mean_after (dim s) W o l d z)) by (intros d Hi; extensionality z; now rewrite (Ed d z Hi), (Em d z Hi)).
    assert (F2 : forall d, In d ds -> (fun z => density d z * after (st d z)) = (fun z => W z * o z)) by (intros d Hi; extensionality z; now rewrite (Ed d z Hi), (Eo d z Hi)).
    split.
    + intros d Hi. rewrite (F1 d Hi), (F2 d Hi). split; [now apply S1|]. apply (Wi o B); [apply (cont_observable Hs (N * steps) Hf)|]. intros z. apply HB; [apply (ptree_ok Hs z)|apply (mtree_ok Hs z)].
    + rewrite (sum_over_ext _ (fun d => riemann_integral (dim s) (N * steps) (fun z => W z * mean_after (dim s) W o l d z)) ds) by (intros d Hi; now rewrite (F1 d Hi)).
      rewrite S2. apply sum_over_ext. intros d Hi. now rewrite (F2 d Hi).
Qed.
(** the means exist, and they depend on position, momentum, random vectors and batches only *)
Theorem C70_mean : forall N (schs : nat -> schedule), (forall k, (k < N)%nat -> exists eps, sch_step (schs k) = Fin eps /\ 0 < eps * friction) ->
  forall (rev : nat -> Data -> Data) f, exists mean : Data -> phase -> R,
  forall d z normal (st : am_state key vtree vtree Model Data Full MassState), (forall k, (k < N)%nat -> step_reversed get_data steps (N * steps) k d (rev k d)) -> am_starts s U (N * steps) None d z normal st ->
  mean_of_chain (fun u i x => fst (amstep u normal x (schs i))) (fun x => f (lf_positions (am_integrator x)) (lf_momentum (am_integrator x))) 0 N st (mean d z).
Proof.
  intros N schs He rev f.
  set (eps := fun k => fin_or 0 (sch_step (schs k))).
  assert (He' : forall k, (k < N)%nat -> sch_step (schs k) = Fin (eps k) /\ 0 < eps k * friction) by (intros k Hk; unfold eps; destruct (He k Hk) as (e & -> & H); auto).
  pose proof Hd as (vi & sq & E1 & E2 & Lvi & Lsq & Hvs). eexists. intros d z normal st Hrev Hst.
  eapply mean_exists; eauto.
  destruct Hst as (H1 & H2 & H3 & H4 & H5 & H6 & H7). repeat (split; [assumption|]). split; [reflexivity|]. intros i Hii. destruct (H7 i Hii) as (Z1 & Z2 & Z3). split; [exact Z1|]. split; [exact Z2|].
  intros j Hj. apply Z3. lia.
Qed.
End MH.

(** ** independent batches *)
(** a source of batches that gives the elements of a list *)
Definition list_source {B} (b0 : B) (l : list B) : list B * B := (tl l, hd b0 l).
(** all sequences of n elements of bs *)
Fixpoint words {B} (bs : list B) (n : nat) : list (list B) := match n with O => [[]] | S n' => flat_map (fun b => map (cons b) (words bs n')) bs end.
Definition rev_step {B} (len k : nat) (l : list B) : list B := firstn (k * len) l ++ List.rev (firstn len (skipn (k * len) l)) ++ skipn (k * len + len) l.
Lemma drawn_list B (b0 : B) l n : drawn (list_source b0) l n = skipn n l.
Proof. induction n as [|n IH]; [reflexivity|]. cbn [drawn]. rewrite IH. unfold list_source. cbn [fst]. clear IH. revert n. induction l as [|a l IHl]; intros n; [now rewrite !skipn_nil|]. destruct n as [|n]; [reflexivity|]. apply IHl. Qed.
Lemma batch_list B (b0 : B) l n : batch_no (list_source b0) l n = nth n l b0.
Proof. unfold batch_no. rewrite drawn_list. unfold list_source. cbn [snd]. revert n. induction l as [|a l IHl]; intros n; [rewrite skipn_nil; destruct n; reflexivity|]. destruct n as [|n]; [reflexivity|]. apply IHl. Qed.
Lemma words_in B (bs : list B) n l : In l (words bs n) <-> length l = n /\ forall b, In b l -> In b bs.
Proof.
  revert l. induction n as [|n IH]; intros l; cbn [words].
  - split; [intros [<-|[]]; split; [reflexivity|intros b []]|]. intros [H _]. destruct l; [now left|discriminate].
  - rewrite in_flat_map. split.
    + intros (b & Hb & Hl). apply in_map_iff in Hl. destruct Hl as (l' & <- & Hl). apply IH in Hl. destruct Hl as [H1 H2]. split; [cbn; now rewrite H1|]. intros c [<-|Hc]; auto.
    + intros [H1 H2]. destruct l as [|b l]; [discriminate|]. exists b. split; [apply H2; now left|]. apply in_map. apply IH. split; [now injection H1|]. intros c Hc. apply H2. now right.
Qed.
Lemma NoDup_app' A (l l' : list A) : NoDup l -> NoDup l' -> (forall x, In x l -> ~ In x l') -> NoDup (l ++ l').
Proof. intros H1 H2 H3. induction H1 as [|x l Hx Hl IHl]; auto. cbn. constructor; [|apply IHl; intros; apply H3; now right]. rewrite in_app_iff. intros [H|H]; [auto|]. apply (H3 x); [now left|exact H]. Qed.
Lemma words_nodup B (bs : list B) n : NoDup bs -> NoDup (words bs n).
Proof.
  intros Hb. induction n as [|n IH]; [repeat constructor; intros []|]. cbn [words]. revert IH. generalize (words bs n) as w. intros w Hw.
  induction Hb as [|b bs Hb Hn IHb]; [constructor|]. cbn [flat_map]. apply NoDup_app'; auto.
  - apply FinFun.Injective_map_NoDup; auto. intros x y H. now injection H.
  - intros x Hx Hx'. apply in_map_iff in Hx. destruct Hx as (x0 & <- & _). apply in_flat_map in Hx'. destruct Hx' as (c & Hc & Hx'). apply in_map_iff in Hx'. destruct Hx' as (y & E & _). injection E as -> _. auto.
Qed.
Lemma nth_firstn' A (a : list A) n j d : (j < n)%nat -> nth j (firstn n a) d = nth j a d.
Proof. revert n j. induction a as [|x a IH]; intros n j Hj; [now rewrite firstn_nil|]. destruct n; [lia|]. destruct j; [reflexivity|]. apply IH. lia. Qed.
Lemma nth_skipn' A (a : list A) n j d : nth j (skipn n a) d = nth (n + j) a d.
Proof. revert n. induction a as [|x a IH]; intros n; [rewrite skipn_nil; destruct j, n; reflexivity|]. destruct n; [reflexivity|]. apply IH. Qed.
Lemma in_first A (a : list A) n y : In y (firstn n a) -> In y a.
Proof. intros. rewrite <- (firstn_skipn n a). apply in_or_app. auto. Qed.
Lemma in_skip A (a : list A) n y : In y (skipn n a) -> In y a.
Proof. intros. rewrite <- (firstn_skipn n a). apply in_or_app. auto. Qed.
Section RevStep.
Variables (B : Type) (b0 : B) (len k : nat) (l : list B).
Hypothesis Hl : (k * len + len <= length l)%nat.
Lemma rev_step_length : length (rev_step len k l) = length l.
Proof. unfold rev_step. rewrite !app_length, rev_length, !firstn_length, !skipn_length. lia. Qed.
Lemma rev_step_nth j : nth j (rev_step len k l) b0 = if (k * len <=? j)%nat && (j <? k * len + len)%nat then nth (k * len + (k * len + len - 1 - j)) l b0 else nth j l b0.
Proof.
  unfold rev_step. assert (L1 : length (firstn (k * len) l) = (k * len)%nat) by (rewrite firstn_length; lia).
  assert (L2 : length (firstn len (skipn (k * len) l)) = len) by (rewrite firstn_length, skipn_length; lia).
  destruct (Nat.leb_spec (k * len) j) as [H1|H1]; cbn [andb].
  - rewrite app_nth2 by lia. rewrite L1. destruct (Nat.ltb_spec j (k * len + len)) as [H2|H2].
    + rewrite app_nth1 by (rewrite rev_length; lia). rewrite rev_nth by lia. rewrite L2, nth_firstn', nth_skipn' by lia. f_equal. lia.
    + rewrite app_nth2 by (rewrite rev_length; lia). rewrite rev_length, L2, nth_skipn'. f_equal. lia.
  - rewrite app_nth1 by lia. rewrite nth_firstn' by lia. reflexivity.
Qed.
Lemma rev_step_in b : In b (rev_step len k l) -> In b l.
Proof.
  unfold rev_step. rewrite !in_app_iff, <- in_rev. intros [H|[H|H]]; eauto using in_first, in_skip.
Qed.
End RevStep.
Lemma rev_step_twice B len k (l : list B) : (k * len + len <= length l)%nat -> rev_step len k (rev_step len k l) = l.
Proof.
  intros Hl. destruct l as [|b0 l0] eqn:E.
  - destruct (rev_step len k (rev_step len k [])) eqn:E0; auto. apply (f_equal (@length B)) in E0. rewrite !rev_step_length in E0; [discriminate|exact Hl|rewrite rev_step_length; exact Hl].
  - rewrite <- E in *. apply (nth_ext _ _ b0 b0); [now rewrite !rev_step_length by (rewrite ?rev_step_length; auto)|]. intros j Hj.
    rewrite rev_step_nth by (rewrite rev_step_length; auto). rewrite !(@rev_step_nth B b0 len k l Hl).
    destruct (Nat.leb_spec (k * len) j) as [H1|H1]; cbn [andb]; auto. destruct (Nat.ltb_spec j (k * len + len)) as [H2|H2]; cbn [andb]; auto.
    destruct (Nat.leb_spec (k * len) (k * len + (k * len + len - 1 - j))) as [H3|H3]; [|lia]. destruct (Nat.ltb_spec (k * len + (k * len + len - 1 - j)) (k * len + len)) as [H4|H4]; [|lia]. cbn [andb]. f_equal. lia.
Qed.

Lemma rev_step_words B (b0 : B) bs len N k : NoDup bs -> (k < N)%nat ->
  Permutation (map (rev_step len k) (words bs (N * len))) (words bs (N * len)) /\ forall d, In d (words bs (N * len)) -> step_reversed (list_source b0) len (N * len) k d (rev_step len k d).
Proof.
  intros Hb Hk. assert (Hle : (k * len + len <= N * len)%nat) by (assert (S k * len <= N * len)%nat by (apply Nat.mul_le_mono_r; lia); lia).
  assert (Hin : forall l, In l (words bs (N * len)) -> In (rev_step len k l) (words bs (N * len))).
  { intros l Hl. apply words_in in Hl. destruct Hl as [H1 H2]. apply words_in. rewrite rev_step_length by lia. split; auto. intros b Hb0. apply H2. now apply rev_step_in in Hb0. }
  split.
  - symmetry. apply NoDup_Permutation_bis; [now apply words_nodup|now rewrite map_length|]. intros l Hl. apply in_map_iff. exists (rev_step len k l). split; [|now apply Hin].
    apply words_in in Hl. apply rev_step_twice. lia.
  - intros l Hl. apply words_in in Hl. destruct Hl as [Hl _]. split.
    + intros j Hj. rewrite !batch_list, rev_step_nth by lia. destruct (Nat.leb_spec (k * len) (k * len + j)) as [H1|H1]; [|lia]. destruct (Nat.ltb_spec (k * len + j) (k * len + len)) as [H2|H2]; [|lia]. cbn [andb]. f_equal. lia.
    + intros j Hj Ho. rewrite !batch_list, rev_step_nth by lia. destruct (Nat.leb_spec (k * len) j) as [H1|H1]; cbn [andb]; auto. destruct (Nat.ltb_spec j (k * len + len)) as [H2|H2]; [lia|reflexivity].
Qed.
(** The batches are drawn independently and uniformly from bs: no further assumption about the sequences of batches *)
Theorem C70_independent : forall s, wfv s -> forall (Batch Model Full MassState : Type) (b0 : Batch) (bs : list Batch), NoDup bs ->
  forall (pot_model : vtree -> Batch -> Model -> Model) G, (forall t b, like s t -> like s (G t b)) -> continuous_gradient s G ->
  forall U, continuous_function s U -> decays s U 1 -> forall (full_potential : vtree -> Full -> Model -> xr * (Full * Model)), (forall p fd m, fst (full_potential p fd m) = Fin (U p)) ->
  forall steps friction const_mass, diagonal s (rl_mass const_mass None s) ->
  forall N (schs : nat -> schedule), (forall k, (k < N)%nat -> exists eps, sch_step (schs k) = Fin eps /\ 0 < eps * friction) ->
  forall (normal : list Batch -> phase -> key -> list nat -> list R) (st : list Batch -> phase -> am_state key vtree vtree Model (list Batch) Full MassState) (mean : list Batch -> phase -> R) (f : vtree -> vtree -> R) B,
  let ds := words bs (N * steps) in
  let after := fun x : am_state key vtree vtree Model (list Batch) Full MassState => f (lf_positions (am_integrator x)) (lf_momentum (am_integrator x)) in
  let density := fun d z => am_density s U (@None ((vtree -> MassState) * (MassState -> vtree -> MassState) * (MassState -> mass_matrix))) (N * steps) const_mass (normal d z) (st d z) in
  (forall d z, In d ds -> am_starts s U (N * steps) None d z (normal d z) (st d z)) ->
  (forall d z, In d ds -> mean_of_chain (fun u i x => fst (am_step (list_source b0) pot_model G full_potential None steps friction const_mass (fun _ => u) (normal d z) x (schs i))) after 0 N (st d z) (mean d z)) ->
  continuous_observable s f -> (forall a b, like s a -> like s b -> Rabs (f a b) <= B) ->
  sum_over ds (fun d => riemann_integral (dim s) (N * steps) (fun z => density d z * mean d z)) = sum_over ds (fun d => riemann_integral (dim s) (N * steps) (fun z => density d z * after (st d z))).
Proof.
  intros s Hs Batch Model Full MassState b0 bs Hb pm G HG HC U HUc HUd fp HU steps friction cm Hd N schs He normal st mean f B ds after density Hst Hm Hf HB.
  refine (proj2 (@C70_stationary s Hs (list Batch) Batch Model Full MassState (list_source b0) pm G HG HC U HUc HUd fp HU steps friction cm Hd N schs He ds (rev_step steps) _ normal st mean f B Hst Hm Hf HB)).
  intros k Hk. now apply rev_step_words.
Qed.
(** batches 7 and 8, two per step, any number of steps, decreasing step sizes, potential |x|^2: the mean of sin(x_0 + p_0) is the same after all steps *)
Definition ex_schs (i : nat) : schedule := mkSchedule (Fin (1 / (INR i + 10))) (Fin 2) true true.
Lemma ex_schs_ok N k : (k < N)%nat -> exists eps, sch_step (ex_schs k) = Fin eps /\ 0 < eps * (1 / 2).
Proof. intros _. exists (1 / (INR k + 10)). split; [reflexivity|]. pose proof (pos_INR k). apply Rmult_lt_0_compat; [apply Rdiv_lt_0_compat|]; lra. Qed.
Example C70_nonvacuous : forall N, exists (normal : list nat -> phase -> key -> list nat -> list R) (st : list nat -> phase -> am_state key vtree vtree unit (list nat) unit unit) (mean : list nat -> phase -> R),
  let ds := words [7%nat; 8%nat] (N * 2) in
  let step := fun d z u i (x : am_state key vtree vtree unit (list nat) unit unit) => fst (am_step (list_source 0%nat) (fun _ _ m => m) ex_G (fun p fd m => (Fin (ex_U p), (fd, m))) None 2 (1 / 2) (Some (tree_ab 4 9)) (fun _ => u) (normal d z) x (ex_schs i)) in
  let after := fun x : am_state key vtree vtree unit (list nat) unit unit => ex_f (lf_positions (am_integrator x)) (lf_momentum (am_integrator x)) in
  let density := fun d z => am_density (tree_ab 0 0) ex_U None (N * 2) (Some (tree_ab 4 9)) (normal d z) (st d z) in
  length ds = (4 ^ N)%nat /\
  (forall d z, In d ds -> am_starts (tree_ab 0 0) ex_U (N * 2) None d z (normal d z) (st d z)) /\
  (forall d z, In d ds -> mean_of_chain (step d z) after 0 N (st d z) (mean d z)) /\
  sum_over ds (fun d => riemann_integral 2 (N * 2) (fun z => density d z * mean d z)) = sum_over ds (fun d => riemann_integral 2 (N * 2) (fun z => density d z * after (st d z))).
Proof.
  intros N. assert (HG : forall t (b : nat), like (tree_ab 0 0) t -> like (tree_ab 0 0) (ex_G t b)) by (intros; now apply like_scale).
  assert (Hb : NoDup [7%nat; 8%nat]) by (repeat constructor; cbn; intuition lia).
  destruct (@am_states_exist (tree_ab 0 0) (tree_ab_wf 0 0) (list nat) unit unit unit ex_U (N * 2) None tt tt (PRNGKey 1) (PRNGKey 2)) as (normal & st & Hst).
  set (ds := words [7%nat; 8%nat] (N * 2)).
  set (step := fun d z u i (x : am_state key vtree vtree unit (list nat) unit unit) => fst (am_step (list_source 0%nat) (fun _ _ m => m) ex_G (fun p fd m => (Fin (ex_U p), (fd, m))) None 2 (1 / 2) (Some (tree_ab 4 9)) (fun _ => u) (normal d z) x (ex_schs i))).
  set (after := fun x : am_state key vtree vtree unit (list nat) unit unit => ex_f (lf_positions (am_integrator x)) (lf_momentum (am_integrator x))).
  destruct (@C70_mean (tree_ab 0 0) (tree_ab_wf 0 0) (list nat) nat unit unit unit (list_source 0%nat) (fun _ _ m => m) ex_G HG ex_G_continuous ex_U (fun p fd m => (Fin (ex_U p), (fd, m))) (fun _ _ _ => eq_refl) 2 (1 / 2) (Some (tree_ab 4 9)) ex_mass_diagonal
      N ex_schs (@ex_schs_ok N) (rev_step 2) ex_f) as (mean & Hmean).
  assert (Hm : forall d z, In d ds -> mean_of_chain (step d z) after 0 N (st d z) (mean d z)).
  { intros d z Hi. apply Hmean; [|apply Hst]. intros k Hk. apply (proj2 (@rev_step_words nat 0%nat [7%nat; 8%nat] 2 N k Hb Hk) d Hi). }
  exists normal, st, mean. intros ds0 step0 after0 density. split; [|split; [intros d z _; apply Hst|split; [exact Hm|]]].
  - change (length (words [7%nat; 8%nat] (N * 2)) = (4 ^ N)%nat). assert (H : forall n, length (words [7%nat; 8%nat] n) = (2 ^ n)%nat).
    { induction n as [|n IH]; [reflexivity|]. cbn [words flat_map]. rewrite !app_length, !map_length, IH. cbn. lia. }
    rewrite H. rewrite Nat.mul_comm, Nat.pow_mul_r. reflexivity.
  - apply (@C70_independent (tree_ab 0 0) (tree_ab_wf 0 0) nat unit unit unit 0%nat [7%nat; 8%nat] Hb (fun _ _ m => m) ex_G HG ex_G_continuous ex_U (quad_continuous (tree_ab_wf 0 0)) (@quad_decays (tree_ab 0 0) 1 (tree_ab_wf 0 0) Rlt_0_1)
      (fun p fd m => (Fin (ex_U p), (fd, m))) (fun _ _ _ => eq_refl) 2 (1 / 2) (Some (tree_ab 4 9)) ex_mass_diagonal N ex_schs (@ex_schs_ok N) normal st mean ex_f 1 (fun d z _ => Hst d z) Hm ex_f_continuous).
    intros a b _ _. unfold ex_f. apply Rabs_le. destruct (SIN_bound (el a 0 + el b 0)). lra.
Qed.

Print Assumptions C70_stationary.
Print Assumptions C70_mean.
Print Assumptions C70_independent.
Print Assumptions C70_nonvacuous.
