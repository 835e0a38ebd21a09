(** An alias whose solver is sgmc of an integrator: the run in terms of the iterates of the integrator. *)
From Coq Require Import Reals Lra ZArith String.
From Verif Require Import Base ListUtil Pytree PytreeSpec PytreeProofs Io IoSpec IoProofs IoFinal TreeUtil TreeUtilSpec TreeUtilProofs Integrator IntegratorSpec IntegratorBasics
  Xreal Scheduler SchedulerSpec SchedulerProofs StepSizeProofs PropertiesScheduler Solver SolverSpec SolverProofs SolverFinal PropertiesSolver Adaption Alias PropertiesAlias AliasSgld.
Open Scope R_scope.
Set Implicit Arguments.

Section Run.
Variables (St : Type) (upd : R -> R -> St -> St) (get : St -> vtree).
(** state after n iterations with step sizes eps 0, eps 1, ... and temperature one *)
Fixpoint iterates (eps : nat -> R) (st : St) (n : nat) : St := match n with O => st | S m => upd (eps m) 1 (iterates eps st m) end.
(** auxiliary definition of a statement or a proof; models no code of /repo *)
Definition plain_solver : solver arr := sgmc (fun st sch => upd (real (sch_step sch)) (real (sch_temperature sch)) st) get.
Hypothesis Hkeep : forall e T st, same_structure (get (upd e T st)) (get st).

Lemma plain_run Key (choice : Key -> list xr -> nat -> list nat) tk (z : arr -> arr) : choice_ok choice ->
  forall a f l n its, al_first a = Fin f -> al_last a = Fin l -> al_adaptive a = None -> al_accepted a = Some n -> al_hot a = None -> 0 < l < f -> (2 <= its)%nat -> (al_burn_in a + n <= its)%nat ->
  exists eps, falling its f l eps /\ forall h states,
  exists results, snd (al_run choice tk a z plain_solver (fst (run (mstep z) (mc_new false) h)) states its) = Some (Ok results) /\
    Forall2 (fun st r => exists L, length L = n /\ increasing L /\ (forall i, In i L -> (al_burn_in a <= i < its)%nat) /\
      fst r = n /\ exactly_samples (map (fun i => get (iterates eps st (S i))) L) (snd r)) states results.
Proof.
  intros Hc a f l n its Hf Hl Ha Hacc Hhot H1 H2 H3.
  destruct (@alias_main_schedule Key choice tk a its f l Ha Hf Hl H1 H2) as (eps & HE & HM). exists eps. split; auto.
  intros h states.
  assert (HK : keeps_structure plain_solver). { intros s [|sch q]; [reflexivity|]. apply Hkeep. }
  destruct (@C51_accepted_samples Key choice Hc tk arr z plain_solver HK a) with (n := n) (its := its) (h := h) (states := states) as (rs & R1 & R2); auto.
  { now rewrite Hhot. }
  { unfold good_steps. rewrite Ha. exists f, l. auto. }
  exists rs. split; [exact R1|]. eapply Forall2_impl; [|exact R2]. clear R1 R2. intros st r (L & L1 & L2 & L3 & (main & helpers & sts & xs & (sc & I1) & I2 & I3 & I4 & I5)).
  assert (EH : helpers = []). { unfold al_helpers in I2. rewrite Hhot in I2. cbn in I2. congruence. } subst helpers.
  destruct I3 as (J1 & J2 & J3 & J4). exists L. split; auto. split; auto. split; auto. split; [congruence|].
  assert (IT : forall i, (i <= its)%nat -> nth_error sts i = Some (iterates eps st i)).
  { induction i as [|i IH]; intros Hi; [exact J3|]. specialize (IH ltac:(lia)).
    destruct (J4 i _ ltac:(lia) IH) as (s' & x & U1 & U2 & _). cbn [map] in U1.
    specialize (HM main sc I1 (firstn i xs)). rewrite firstn_length, J2, Nat.min_l in HM by lia. specialize (HM ltac:(lia)). cbv zeta in HM. destruct HM as [M1 M2].
    etransitivity; [exact U2|]. apply (f_equal fst) in U1. cbn [fst] in U1. rewrite <- U1. cbn [plain_solver sgmc so_update fst iterates]. rewrite M1, M2. reflexivity. }
  rewrite <- (@samples_map _ plain_solver sts _ L); auto. intros i Hi. eexists. split; [apply IT|reflexivity]. specialize (L3 i Hi). lia.
Qed.
End Run.

(** a loop of [lax.scan] whose body does not look at the index, started in the middle of a sequence *)
Lemma scan_sequence A (f : A -> nat -> A * list key) (g : nat -> A) a n : (forall k, (k < n)%nat -> fst (f (g (a + k)%nat) k) = g (S (a + k))) ->
  fst (scan f n (g a)) = g (a + n)%nat.
Proof.
  induction n as [|n IH]; intros H; [now rewrite Nat.add_0_r|]. rewrite scan_S. cbn [fst]. cbv zeta. rewrite IH by (intros; apply H; lia). rewrite H by lia. f_equal. lia.
Qed.
Lemma scan_inv A (f : A -> nat -> A * list key) (P : A -> Prop) n st : P st -> (forall a k, P a -> P (fst (f a k))) -> P (fst (scan f n st)).
Proof. intros H0 H. induction n as [|n IH]; [exact H0|]. rewrite scan_S. cbn [fst]. apply H, IH. Qed.
