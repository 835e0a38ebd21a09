(** C92, proofs: the samples that alias.sgld returns are the states of a run of SGLD. *)
From Coq Require Import Reals Lra ZArith String.
From Verif Require Import Base ListUtil NumpyLoader LoaderSpec NumpyLoaderProofs NumpyLoaderApi Requests DataCore DataSpec Hub HubSpec HubProofs HubFinal PropertiesHub.
From Verif Require Import Pytree PytreeSpec PytreeProofs Io IoSpec IoProofs TreeUtil TreeUtilSpec TreeUtilProofs Integrator IntegratorSpec IntegratorBasics LangevinProofs PropertiesIntegrator
  Xreal Scheduler SchedulerSpec SchedulerProofs PropertiesScheduler Solver SolverSpec SolverFinal PropertiesSolver StepSizeProofs Adaption AdaptionSpec AdaptionProofs Alias PropertiesAlias AliasSgld AliasRun AliasHmc AliasData PropertiesGaussian.
Open Scope R_scope.
Set Implicit Arguments.

(** coordinate c of the parameters ("variables") in row k of the samples that an alias returns for a chain *)
(** auxiliary definition of a statement or a proof; models no code of /repo *)
Definition returned (r : result arr) (k c : nat) : R :=
  match snd r with
  | Node (KDict keys) ch => match dget "variables"%string (combine keys ch) with
    | Some t => el (tree_map (fun rows => nth k rows (mkArr [] [])) t) c
    | None => 0
    end
  | _ => 0
  end.

Lemma column_row V (j : nat) (vss : list (list V)) k vs v : (forall ws, In ws vss -> (j < length ws)%nat) -> nth_error vss k = Some vs -> nth_error vs j = Some v -> nth_error (IoSpec.column j vss) k = Some v.
Proof.
  unfold IoSpec.column. revert k. induction vss as [|ws vss IH]; intros [|k] H E1 E2; cbn in *; try discriminate.
  - injection E1 as ->. now rewrite E2.
  - destruct (nth_error ws j) as [x|] eqn:Ej; [cbn; eapply IH; eauto|]. apply nth_error_None in Ej. specialize (H ws (or_introl eq_refl)). lia.
Qed.
Lemma leaves_number A B (t : tree A) (u : tree B) : same_structure t u -> length (leaves t) = length (leaves u).
Proof. intros H. pose proof (f_equal (fun x => length (leaves x)) H) as E. cbv beta in E. rewrite !leaves_map, !map_length in E. exact E. Qed.
Lemma exactly_row (ss : list vtree) t k smp : exactly_samples ss t -> nth_error ss k = Some smp -> tree_map (fun rows => nth k rows (mkArr [] [])) t = smp.
Proof.
  intros [HF HC] Hk.
  assert (SS : forall y, In y ss -> same_structure t y) by (now apply Forall_forall).
  assert (Hin : In smp ss) by (eapply nth_error_In; eauto).
  apply tree_ext.
  - unfold same_structure. pose proof (@same_structure_map _ _ _ (fun rows : list arr => nth k rows (mkArr [] [])) t t eq_refl) as H. unfold same_structure in H. rewrite <- H. apply SS. exact Hin.
  - rewrite leaves_map. apply (nth_ext _ _ (mkArr [] []) (mkArr [] [])); [rewrite map_length; apply leaves_number, SS, Hin|]. intros j Hj. rewrite map_length in Hj.
    rewrite (@nth_map_in _ _ _ _ _ []) by exact Hj.
    pose proof (HC j Hj) as Ec. rewrite (nth_error_nth _ _ _ Ec).
    assert (Hj' : (j < length (leaves smp))%nat) by (rewrite <- (leaves_number (SS _ Hin)); exact Hj).
    destruct (nth_error (leaves smp) j) as [v|] eqn:Ev; [|apply nth_error_None in Ev; lia]. rewrite (nth_error_nth _ _ _ Ev).
    apply nth_error_nth. apply (@column_row _ j (map leaves ss) k (leaves smp) v); [|now apply map_nth_error|exact Ev].
    intros ws Hw. apply in_map_iff in Hw. destruct Hw as (y & <- & Hy). rewrite <- (leaves_number (SS _ Hy)). exact Hj.
Qed.
Lemma dget_map A B (f : A -> B) key keys (ch : list A) : dget key (combine keys (map f ch)) = option_map f (dget key (combine keys ch)).
Proof. revert ch. induction keys as [|k keys IH]; intros [|x ch]; cbn; auto. destruct (String.eqb key k); cbn; auto. Qed.
(** the rows of what is returned are the positions of the saved samples *)
Lemma returned_position Data Batch (g : Data -> Data * Batch) pv d0 theta model L (r : result arr) k i c :
  exactly_samples (map (saved_sample g pv d0 theta model) L) (snd r) -> nth_error L k = Some i -> returned r k c = el (theta (Datatypes.S i)) c.
Proof.
  intros HE Hk. assert (E := exactly_row k HE (map_nth_error _ _ _ Hk)). unfold returned. destruct (snd r) as [x|k0 ch]; [discriminate|].
  unfold saved_sample in E. cbn [tree_map] in E. injection E as -> E. pose proof (@dget_map _ _ (tree_map (fun rows => nth k rows (mkArr [] []))) "variables"%string ["likelihood"; "model_state"; "variables"]%string ch) as D.
  rewrite E in D. cbn in D |- *. revert D. match goal with |- context [dget ?a ?b] => destruct (dget a b) as [t|] end; cbn [option_map]; [|discriminate].
  intros D. injection D as D. now rewrite <- D.
Qed.

Lemma seq_at b m k : (k < m)%nat -> nth_error (seq b m) k = Some (b + k)%nat.
Proof. revert b k. induction m as [|m IH]; intros b [|k] H; cbn; try lia; [f_equal; lia|]. rewrite IH by lia. f_equal. lia. Qed.
(** with its - burn_in accepted samples all samples after burn-in are chosen *)
Lemma increasing_gap (L : list nat) d : increasing L -> forall i x y, nth_error L i = Some x -> nth_error L (i + d) = Some y -> (x + d <= y)%nat.
Proof.
  intros H. induction d as [|d IH]; intros i x y E1 E2; [rewrite Nat.add_0_r in *; assert (x = y) by congruence; lia|].
  destruct (nth_error L (i + d)) as [w|] eqn:Ew.
  - pose proof (IH i x w E1 Ew). pose proof (H (i + d)%nat (i + Datatypes.S d)%nat w y ltac:(lia) Ew E2). lia.
  - apply nth_error_None in Ew. assert (i + Datatypes.S d < length L)%nat by (apply nth_error_Some; congruence). lia.
Qed.
Lemma increasing_all (L : list nat) b m : length L = m -> increasing L -> (forall i, In i L -> (b <= i < b + m)%nat) -> L = seq b m.
Proof.
  intros H1 H2 H3. apply (nth_ext _ _ 0%nat 0%nat); [now rewrite seq_length|]. intros k Hk. rewrite seq_nth by lia.
  destruct (nth_error L k) as [x|] eqn:Ek; [|apply nth_error_None in Ek; lia]. rewrite (nth_error_nth _ _ _ Ek).
  destruct (nth_error L 0) as [x0|] eqn:E0; [|apply nth_error_None in E0; lia]. destruct (nth_error L (m - 1)) as [x1|] eqn:E1; [|apply nth_error_None in E1; lia].
  pose proof (increasing_gap k H2 0%nat E0 Ek). pose proof (@increasing_gap L (m - 1 - k) H2 k x x1 Ek ltac:(replace (k + (m - 1 - k))%nat with (m - 1)%nat by lia; exact E1)).
  pose proof (H3 x0 (nth_error_In _ _ E0)). pose proof (H3 x1 (nth_error_In _ _ E1)). lia.
Qed.

(** ** the recursion of C51 is the run of C77 with temperature one *)
Section Run.
Variable s : vtree.
Hypothesis Hs : wfv s.
Variable normal : key -> list nat -> list R.
Hypothesis Hn : normal_ok normal.
Variables (Data Batch : Type).
Variable get_data : Data -> Data * Batch.
Variables (pot_value : vtree -> Batch -> vtree -> R) (pot_likelihoods : vtree -> Batch -> vtree -> list R) (pot_model : vtree -> Batch -> vtree -> vtree) (pot_grad : vtree -> Batch -> vtree -> vtree).
Hypothesis Hg : forall t b m, like s t -> like s (pot_grad t b m).
Lemma trajectory_state alpha lmbd d0 model0 x0 its eps eps' theta model : like s x0 -> (forall k, (k < its)%nat -> eps' k = eps k) ->
  sgld_trajectory s normal get_data pot_model pot_grad false alpha lmbd d0 model0 x0 its eps theta model ->
  forall i, (i <= its)%nat -> theta i = l_pos (sgld_state normal get_data pot_value pot_likelihoods pot_model pot_grad eps' 1 (lv_init x0 (Some (PRNGKey 0)) None d0 model0) i).
Proof.
  intros Hx He [[T1 T1'] T2 T3 T4]. set (st := sgld_state normal get_data pot_value pot_likelihoods pot_model pot_grad eps' 1 (lv_init x0 (Some (PRNGKey 0)) None d0 model0)).
  assert (ST : forall i, st (Datatypes.S i) = fst (lv_update normal get_data pot_value pot_likelihoods pot_model pot_grad None (eps' i) 1 (st i))).
  { intros i. unfold st, sgld_state. rewrite seq_S, fold_left_app. reflexivity. }
  assert (INV : forall i, (i <= its)%nat -> theta i = l_pos (st i) /\ model i = l_model (st i) /\ l_data (st i) = drawn get_data d0 i /\ l_key (st i) = chain (PRNGKey 0) i).
  { induction i as [|i IH]; intros Hi; [cbn; auto|]. destruct (IH ltac:(lia)) as (I1 & I2 & I3 & I4). rewrite (ST i).
    assert (L : like s (l_pos (st i))) by (rewrite <- I1; apply T2; lia).
    destruct (@lv_plain s Hs normal Hn Data Batch vtree unit get_data pot_value pot_likelihoods pot_model pot_grad Hg None I (eps' i) 1 (st i) L (or_introl eq_refl)) as (P1 & P2 & _).
    destruct (@lv_common s Hs normal Hn Data Batch vtree unit get_data pot_value pot_likelihoods pot_model pot_grad Hg None I (eps' i) 1 (st i) L) as (_ & P4 & _ & P6 & _ & P5 & _).
    split; [|split; [|split]].
    - apply (@like_ext s); [exact Hs|apply T2; lia|exact P1|]. intros c Hc. rewrite P2 by exact Hc. specialize (T4 i c ltac:(lia) Hc). cbv beta zeta iota in T4. rewrite T4, I1, I2, I3, I4, (He i) by lia. unfold batch_no.
      rewrite sqrt_1. replace (2 * 1 * eps i) with (2 * eps i) by ring. ring.
    - rewrite T3 by lia. rewrite I1, I2. unfold batch_no. rewrite <- I3. unfold lv_update. destruct (get_data (l_data (st i))). destruct (random_tree _ _ _). reflexivity.
    - cbn [drawn]. rewrite <- I3. exact P4.
    - cbn [chain]. rewrite <- I4. exact P5. }
  intros i Hi. apply (INV i Hi).
Qed.
End Run.

(** ** C51 with the step sizes chosen before everything else *)
(** the step sizes of the main schedule, as alias_main_schedule provides them *)
(** auxiliary definition of a statement or a proof; models no code of /repo *)
Definition main_steps Key (choice : Key -> list xr -> nat -> list nat) tk a its (eps : nat -> R) : Prop :=
  forall main sc, sched_init (al_step a) al_temp (al_burn a) (al_thin choice tk a) (al_progress_bar a) its (no_kw (al_step a) al_temp (al_burn a) (al_thin choice tk a)) = Ok (main, sc) ->
    forall xs, (length xs < its)%nat -> let sch := sched_get _ _ _ _ (after _ _ _ _ main xs) in sch_step sch = Fin (eps (length xs)) /\ sch_temperature sch = Fin 1.
Lemma C51_steps : forall s normal Data Batch (get_data : Data -> Data * Batch) pot_value pot_likelihoods pot_model pot_grad, wfv s -> normal_ok normal ->
  (forall t b m, like s t -> like s (pot_grad t b m)) -> (forall t b m, same_structure (pot_model t b m) m) ->
  forall Key (choice : Key -> list xr -> nat -> list nat) tk (z : arr -> arr), choice_ok choice ->
  forall rms alpha lmbd model0, (rms = true -> 0 <= alpha <= 1 /\ 0 < lmbd) ->
  forall a f l n its eps, al_first a = Fin f -> al_last a = Fin l -> al_adaptive a = None -> al_accepted a = Some n -> al_hot a = None -> 0 < l < f -> (2 <= its)%nat -> (al_burn_in a + n <= its)%nat ->
  main_steps choice tk a its eps ->
  forall h starts, Forall (fun xd => like s (fst xd)) starts ->
  exists results, snd (al_run choice tk a z (sgld_solver normal get_data pot_value pot_likelihoods pot_model pot_grad rms) (fst (Base.run (mstep z) (mc_new false) h))
      (map (fun xd => sgld_init rms alpha lmbd (snd xd) model0 (fst xd)) starts) its) = Some (Ok results) /\
    Forall2 (fun xd r => let x0 := fst xd in let data0 := snd xd in exists theta model L, sgld_trajectory s normal get_data pot_model pot_grad rms alpha lmbd data0 model0 x0 its eps theta model /\
      chosen a n its L /\ fst r = n /\ exactly_samples (map (saved_sample get_data pot_value data0 theta model) L) (snd r)) starts results.
Proof.
  intros s normal Data Batch get_data pv pl pm pg Hs Hn Hg Hm Key choice tk z Hc rms al la model0 Hr a f l n its eps Hf Hl Ha Hacc Hhot H1 H2 H3 HM.
  intros h starts Hx. set (so := sgld_solver normal get_data pv pl pm pg rms).
  assert (HK : keeps_structure so) by (apply sgld_keeps; exact Hm).
  destruct (@C51_accepted_samples Key choice Hc tk arr z so HK a) with (n := n) (its := its) (h := h) (states := map (fun xd => sgld_init (Data := Data) rms al la (snd xd) model0 (fst xd)) starts) as (rs & R1 & R2); auto.
  { now rewrite Hhot. }
  { unfold good_steps. rewrite Ha. exists f, l. auto. }
  exists rs. split; [exact R1|]. clear R1. revert rs R2. induction Hx as [|[x0 data0] starts Hx HF IH]; intros rs R2; inversion R2 as [|? r ? rs' R3 R4]; subst; constructor; auto.
  cbn [fst snd] in *. clear IH R4 R2. destruct R3 as (L & L1 & L2 & L3 & (main & helpers & sts & xs & (sc & I1) & I2 & I3 & I4 & I5)).
  assert (EH : helpers = []). { unfold al_helpers in I2. rewrite Hhot in I2. cbn in I2. congruence. } subst helpers.
  destruct I3 as (J1 & J2 & J3 & J4).
  destruct (@sgld_path s Hs normal Hn Data Batch get_data pv pl pm pg Hg Hm rms al la data0 model0 x0 its eps sts Hx Hr J1 J3) as (theta & model & T1 & T2).
  { intros i st Hi Ei. destruct (J4 i st Hi Ei) as (s' & x & U1 & U2 & _). cbn [map] in U1.
    specialize (HM main sc I1 (firstn i xs)). rewrite firstn_length, J2, Nat.min_l in HM by lia. specialize (HM Hi). cbv zeta in HM. destruct HM as [M1 M2].
    eexists. split; [exact M1|]. split; [exact M2|]. etransitivity; [exact U2|]. fold so. rewrite U1. reflexivity. }
  exists theta, model, L. split; [exact T1|]. split; [split; auto|]. split; [congruence|].
  rewrite <- (@samples_map _ so sts _ L); auto. intros i Hi. apply T2. apply L3. exact Hi.
Qed.
