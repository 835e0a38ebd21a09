From Coq Require Import Reals Lra ZArith String.
From Verif Require Import Base ListUtil NumpyLoader LoaderSpec NumpyLoaderProofs NumpyLoaderApi Requests Hub HubSpec HubProofs HubFinal PropertiesHub.
From Verif Require Import Pytree PytreeSpec PytreeProofs Io IoSpec IoProofs TreeUtil TreeUtilSpec TreeUtilProofs Integrator IntegratorSpec IntegratorBasics
  DataCore DataSpec DataFinal Potential PotentialSpec PotentialProofs UnbiasedProofs PropertiesPotential LeapfrogVolume AliasSgld AliasHmc AliasData EndToEndSpec EndToEndProofs SourceReads MhUserSpec.
Open Scope R_scope.
Set Implicit Arguments.

(** ** The full data map *)
Section Map.
Context {G obs : Type}.
Variable choice_repl : G -> nat -> nat -> G * list nat.
Variable choice_perm : G -> nat -> G * list nat.
Variable rng_of_seed : nat -> G.
Notation source := (@loader_source G obs choice_repl choice_perm rng_of_seed).
Lemma hub_scan_spec N mb C Res (fn : mbatch obs -> list bool -> C -> Res * C) d0 q : forall n it c,
  hub_scan choice_repl choice_perm rng_of_seed N mb fn n it (drawn source d0 (q + it)) c =
  (drawn source d0 (q + it + n), scan_spec (fun i c => fn (batch_no source d0 (q + i)) (map_mask N mb i) c) (seq it n) c).
Proof.
  induction n as [|n IH]; intros it c; cbn [hub_scan seq scan_spec]; [now rewrite Nat.add_0_r|].
  specialize (IH (S it)). unfold batch_no at 1. replace (q + S it)%nat with (S (q + it)) in IH by lia. cbn [drawn] in IH. replace (q + it + S n)%nat with (S (q + it) + n)%nat by lia.
  destruct (source (drawn source d0 (q + it))) as [d1 b]. cbn [fst snd] in *. destruct (fn b (map_mask N mb it) c) as [r c1]. rewrite IH.
  destruct (scan_spec _ (seq (S it) n) c1) as [rs c2]. reflexivity.
Qed.
End Map.

Section Full.
Variable obs : Type.
Variables (prior : vtree -> R) (likelihood : lik_fn obs vtree vtree) (has_state : bool) (T : R).
Variable l : option vtree -> vtree -> orow obs -> R.
Hypothesis Hl : evaluates_with likelihood l.
Hypothesis Hk : keeps_state likelihood has_state.
Notation ev := (batch_evaluation likelihood has_state).

Lemma ev_fixed N x b mask m : ev N x b mask (state_of has_state m) = batch_evaluation (fix_state likelihood (state_of has_state m)) has_state N x b mask (state_of has_state m).
Proof. unfold batch_evaluation, state_of, potential_function, batch_potential, batched_likelihood, new_state, fix_state. destruct likelihood as [f|f]; destruct has_state; reflexivity. Qed.

Lemma fixed_evaluates st : evaluates (fix_state likelihood st) (l st).
Proof. unfold evaluates_with, evaluates, fix_state in *. destruct likelihood as [f|f]; intros; apply Hl; auto. Qed.
Lemma fixed_fits m : state_fits (fix_state likelihood (state_of has_state m)) has_state (state_of has_state m).
Proof.
  unfold state_fits, fix_state, state_of, keeps_state in *. destruct likelihood as [f|f]; auto. destruct has_state; auto.
  intros _ x r E. destruct (Hk eq_refl m x r) as (m' & E' & _). congruence.
Qed.
(** the model state keeps its structure, whatever the batches are *)
Lemma ev_structure N x b mask m : exists m', snd (ev N x b mask (state_of has_state m)) = state_of has_state m' /\ same_structure m' m.
Proof.
  unfold batch_evaluation, state_of, potential_function, batch_potential, batched_likelihood, new_state, call_state, keeps_state in *.
  destruct likelihood as [f|f], has_state; cbn [is_batched].
  - destruct (snd b) as [|b0 bs]; cbn [length seq map]; [cbn; exists m; split; reflexivity|].
    destruct (Hk eq_refl m x (row (fst b) 0)) as (m'' & E' & Sm). rewrite E'. cbn [bind]. destruct (dot_mask _ mask); cbn; eauto. exists m. split; reflexivity.
  - cbn [bind]. destruct (dot_mask _ mask); cbn; exists m; split; reflexivity.
  - destruct (Hk eq_refl m x (fst b)) as (m'' & E' & Sm). destruct (f (Some m) x (fst b)) as [lks' st']. cbn [snd] in E'. subst st'. cbn [bind].
    destruct (dot_mask _ mask); cbn; eauto. exists m. split; reflexivity.
  - destruct (f None x (fst b)) as [lks' st']. cbn [bind]. destruct (dot_mask _ mask); cbn; exists m; split; reflexivity.
Qed.

Section Data.
Variable data : list (string * list obs).
Variables (N mb : nat).
Hypothesis Hd : data <> [].
Hypothesis HN : forall ka, In ka data -> length (snd ka) = N.
Hypothesis Hmb : (0 < mb)%nat.
Hypothesis Hpos : (0 < N)%nat.
Notation next := (next_state likelihood has_state data).
Notation pstate := (pass_state likelihood has_state N mb data).
(** one batch of observations *)
Lemma ev_is x m idx mask0 mask : Forall (fun i => (i < N)%nat) idx -> (0 < length idx)%nat -> length mask0 = length idx -> length mask = length idx ->
  ev N x (map (fun ka => (fst ka, select (snd ka) idx)) data, mask0) mask (state_of has_state m) =
  (Ok (- sum_upto (length idx) (fun j => if nth j mask false then l (state_of has_state m) x (row data (nth j idx 0%nat)) else 0)), state_of has_state (next x idx m)).
Proof.
  intros Hi Hp Hm0 Hm. destruct (batch_at_of Hd HN mask0 Hi Hm0) as [B1 B2].
  destruct (@masked_value _ _ _ (fix_state likelihood (state_of has_state m)) (l (state_of has_state m)) has_state (fixed_evaluates (state_of has_state m)) N x _ _ mask (state_of has_state m)
    (fixed_fits m) B1 Hp Hpos Hm) as (st & E & _).
  rewrite ev_fixed, E. f_equal.
  - do 2 f_equal. apply sum_upto_ext. intros j Hj. destruct (nth j mask false); auto. cbn [fst]. now rewrite B2.
  - revert E. rewrite <- ev_fixed. clear B1. unfold batch_evaluation, potential_function, batch_potential, batched_likelihood, new_state, next_state, state_of, call_state, keeps_state in *.
    destruct likelihood as [f|f]; destruct has_state; cbn [is_batched fst snd].
    + rewrite Hm0. destruct idx as [|i0 is]; [cbn in Hp; lia|]. cbn [length seq map]. rewrite (B2 0%nat Hp). cbn [nth]. destruct (Hk eq_refl m x (row data i0)) as (m' & E' & _). rewrite E'. cbn [bind fst snd].
      intros E. destruct (dot_mask _ mask) in E; cbn [bind] in E; [|discriminate]. apply (f_equal snd) in E. cbn [snd] in E. now rewrite <- E.
    + cbn [bind]. intros E. destruct (dot_mask _ mask) in E; cbn [bind] in E; apply (f_equal snd) in E; cbn [snd] in E; now rewrite <- E.
    + set (dd := map (fun ka => (fst ka, select (snd ka) idx)) data). destruct (Hk eq_refl m x dd) as (m' & E' & _). destruct (f (Some m) x dd) as [lks' st']. cbn [snd] in E'. subst st'. cbn [bind fst snd].
      intros E. destruct (dot_mask _ mask) in E; cbn [bind] in E; [|discriminate]. apply (f_equal snd) in E. cbn [snd] in E. now rewrite <- E.
    + match goal with |- context [f None x ?d] => destruct (f None x d) as [lks' st'] end. cbn [bind fst snd]. intros E. destruct (dot_mask _ mask) in E; cbn [bind] in E; apply (f_equal snd) in E; cbn [snd] in E; now rewrite <- E.
Qed.
(** the pass *)
Definition pass_batch (i : nat) : mbatch obs := (map (fun ka => (fst ka, select (snd ka) (pass_indices N mb i))) data, map_mask N mb i).
Lemma pass_indices_ok i : Forall (fun j => (j < N)%nat) (pass_indices N mb i) /\ length (pass_indices N mb i) = mb.
Proof.
  unfold pass_indices. rewrite map_length, seq_length. split; auto. apply Forall_forall. intros j Hj. apply in_map_iff in Hj. destruct Hj as (k & <- & _). apply Nat.mod_upper_bound. lia.
Qed.
Lemma mask_length i : length (map_mask N mb i) = mb. Proof. unfold map_mask. now rewrite map_length, seq_length. Qed.
Lemma pass_state_S x k m : pstate x (S k) m = next x (pass_indices N mb k) (pstate x k m).
Proof. unfold pass_state. rewrite seq_S, fold_left_app. reflexivity. Qed.
Definition entry (x m : vtree) (i : nat) : R := if (i <? N)%nat then l (state_of has_state (pstate x (i / mb) m)) x (row data i) else 0.
Lemma ev_batch x m i : ev N x (pass_batch i) (map_mask N mb i) (state_of has_state (pstate x i m)) =
  (Ok (- sum_upto mb (fun j => entry x m (i * mb + j))), state_of has_state (pstate x (S i) m)).
Proof.
  destruct (pass_indices_ok i) as [I1 I2]. unfold pass_batch. rewrite ev_is; rewrite ?I2, ?mask_length; auto. rewrite pass_state_S. do 3 f_equal. apply sum_upto_ext. intros j Hj.
  unfold entry, map_mask, pass_indices. rewrite !nth_map_seq by auto.
  replace ((i * mb + j) / mb)%nat with i by (rewrite Nat.div_add_l, Nat.div_small by lia; lia).
  destruct (Nat.ltb_spec (i * mb + j) N); auto. now rewrite Nat.mod_small by auto.
Qed.
Lemma pass_scan x m : forall n it,
  scan_spec (fun i c => ev N x (pass_batch i) (map_mask N mb i) c) (seq it n) (state_of has_state (pstate x it m)) =
  (map (fun i => Ok (- sum_upto mb (fun j => entry x m (i * mb + j)))) (seq it n), state_of has_state (pstate x (it + n) m)).
Proof.
  induction n as [|n IH]; intros it; cbn [seq scan_spec map]; [now rewrite Nat.add_0_r|].
  rewrite ev_batch, IH. replace (S it + n)%nat with (it + S n)%nat by lia. reflexivity.
Qed.
Lemma sum_blocks n w f : sum_upto (n * w) f = sum_upto n (fun a => sum_upto w (fun b => f (a * w + b)%nat)).
Proof. induction n as [|n IH]; [reflexivity|]. rewrite sum_upto_S, <- IH. replace (S n * w)%nat with (n * w + w)%nat by lia. apply UnbiasedProofs.sum_upto_app. Qed.
Lemma sum_opp n f : sum_upto n (fun i => - f i) = - sum_upto n f.
Proof. induction n as [|n IH]; [unfold sum_upto; cbn; unfold rsum; cbn; lra|]. rewrite !sum_upto_S, IH. lra. Qed.
Lemma pass_sum x m : rsum (map (fun i => - sum_upto mb (fun j => entry x m (i * mb + j))) (seq 0 (ceil_div N mb))) =
  - sum_upto N (fun i => l (state_of has_state (pstate x (i / mb) m)) x (row data i)).
Proof.
  rewrite rsum_map_seq, sum_opp, <- sum_blocks. f_equal. destruct (ceil_div_spec N Hmb) as [C1 _].
  replace (ceil_div N mb * mb)%nat with (N + (ceil_div N mb * mb - N))%nat by lia. rewrite UnbiasedProofs.sum_upto_app, (@sum_upto_zero (ceil_div N mb * mb - N)).
  - rewrite Rplus_0_r. apply sum_upto_ext. intros i Hi. unfold entry. destruct (Nat.ltb_spec i N); [reflexivity|lia].
  - intros i _. unfold entry. destruct (Nat.ltb_spec (N + i) N); [lia|reflexivity].
Qed.
Lemma pass_full x m : full_value prior T x (fst (scan_spec (fun i c => ev N x (pass_batch i) (map_mask N mb i) c) (seq 0 (ceil_div N mb)) (state_of has_state m)))
  = Ok (full_posterior prior likelihood has_state T N mb data l x m).
Proof.
  pose proof (pass_scan x m (ceil_div N mb) 0) as E. cbn [plus] in E. unfold pass_state at 1 in E. cbn [seq fold_left] in E. rewrite E. cbn [fst].
  unfold full_value. rewrite <- (map_map (fun i => - sum_upto mb (fun j => entry x m (i * mb + j))) Ok), mapM_Ok. cbn [bind]. rewrite pass_sum. reflexivity.
Qed.
End Data.
End Full.

(** ** The full potential of a data state of a program *)
Section Program.
Context {G obs : Type}.
Variable choice_repl : G -> nat -> nat -> G * list nat.
Variable choice_perm : G -> nat -> G * list nat.
Variable rng_of_seed : nat -> G.
Hypothesis Hperm : perm_oracle choice_perm.
Hypothesis Hrepl : repl_oracle choice_repl.
Notation source := (@loader_source G obs choice_repl choice_perm rng_of_seed).
Variables (prior : vtree -> R) (likelihood : lik_fn obs vtree vtree) (has_state : bool) (T : R).
Variable l : option vtree -> vtree -> orow obs -> R.
Hypothesis Hl : evaluates_with likelihood l.
Hypothesis Hk : keeps_state likelihood has_state.
Notation ev := (batch_evaluation likelihood has_state).
Lemma user_full_structure N mb x fd m : same_structure (user_full_model choice_repl choice_perm rng_of_seed N mb has_state ev x fd m) m.
Proof.
  unfold user_full_model, user_full.
  assert (H : forall n it d m1, same_structure m1 m -> exists m2, snd (snd (hub_scan choice_repl choice_perm rng_of_seed N mb (ev N x) n it d (state_of has_state m1))) = state_of has_state m2 /\ same_structure m2 m).
  { induction n as [|n IH]; intros it d m1 H1; cbn [hub_scan]; [exists m1; auto|].
    destruct (source d) as [d1 b]. destruct (@ev_structure obs likelihood has_state l Hl Hk N x b (map_mask N mb it) m1) as (m2 & E & S2). destruct (ev N x b _ _) as [r c1]. cbn [snd] in E. subst c1.
    destruct (IH (S it) d1 m2) as (m3 & E3 & S3); [unfold same_structure in *; congruence|]. destruct (hub_scan _ _ _ _ _ _ n (S it) d1 _) as [d2 [rs c2]]. exists m3. auto. }
  destruct (H (num_iterations N mb) 0%nat fd m eq_refl) as (m2 & E & S2). rewrite E. unfold state_of. destruct has_state; [exact S2|reflexivity].
Qed.
Variables (datas : list (list (string * list obs))) (data : list (string * list obs)) (N mb : nat).
Lemma user_full_is hE ai k i cid ca fd : (0 < mb)%nat -> opened (@Hub.hstep G obs choice_repl choice_perm rng_of_seed) datas rng_of_seed hE ai k i cid ca data N (ROrd mb) ->
  source_since choice_repl choice_perm rng_of_seed hE ai i k cid fd -> forall e x m, let fde := drawn source fd (e * ceil_div N mb) in
  user_full_value choice_repl choice_perm rng_of_seed N mb prior has_state T ev x fde m = full_posterior prior likelihood has_state T N mb data l x m /\
  user_full_next choice_repl choice_perm rng_of_seed N mb has_state ev x fde m = drawn source fd (S e * ceil_div N mb) /\
  user_full_model choice_repl choice_perm rng_of_seed N mb has_state ev x fde m = pass_end likelihood has_state N mb data x m.
Proof.
  intros Hmb Ho Hs e x m fde. destruct (opened_data Hperm Hrepl Ho) as (_ & (Hle & _) & Hd & HN). cbn in Hle.
  pose proof (opened_batches Hperm Hrepl Ho Hs) as HB.
  assert (E : user_full choice_repl choice_perm rng_of_seed N mb has_state ev x fde m =
     (drawn source fd (S e * ceil_div N mb), scan_spec (fun i c => ev N x (pass_batch data N mb i) (map_mask N mb i) c) (seq 0 (ceil_div N mb)) (state_of has_state m))).
  { unfold user_full, fde, num_iterations. replace (e * ceil_div N mb)%nat with (e * ceil_div N mb + 0)%nat at 1 by lia. rewrite hub_scan_spec. f_equal; [f_equal; lia|].
    apply scan_spec_ext_in. intros j c Hj. apply in_seq in Hj. f_equal. rewrite HB, (ord_periodic _ _ rng_of_seed) by lia. unfold access_batch, spec_batch, pass_batch, pass_indices, map_mask.
    rewrite Nat.mod_small by lia. reflexivity. }
  assert (H0 : (0 < N)%nat) by lia.
  split; [|split].
  - unfold user_full_value. rewrite E. cbn [fst snd]. rewrite (@pass_full obs prior likelihood has_state T l Hl Hk data N mb); auto.
  - unfold user_full_next. rewrite E. reflexivity.
  - unfold user_full_model. rewrite E. cbn [fst snd].
    pose proof (@pass_scan obs prior likelihood has_state l Hl Hk data N mb) as PS.
    specialize (PS (Hd H0) HN Hmb H0 x m (ceil_div N mb) 0%nat). cbn [plus] in PS. unfold pass_state at 1 in PS. cbn [seq fold_left] in PS. rewrite PS. cbn [snd].
    unfold state_of, pass_end. destruct has_state eqn:Eh; [reflexivity|].
    clear. unfold pass_state, next_state. generalize (seq 0 (ceil_div N mb)). intros L. revert m. induction L as [|j L IH]; intros m; [reflexivity|]. cbn [fold_left]. apply IH.
Qed.
End Program.
