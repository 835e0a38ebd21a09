(** C57: random data access on a TensorflowDataLoader. *)
From Coq Require Import String.
From Verif Require Import Base ListUtil Requests DataCore DataSpec TfLoader TfSpec TfProofs TfWorld.
Set Implicit Arguments.

(** After an arbitrary history h1 an access with cache size ca and batch size mb is created; then an
    arbitrary program h2 runs that does not use its chain directly.  The successive calls of the
    batch function return the successive batches of an index stream that is a shuffling of the
    repeated data set with delay at most B = shuffle_cache.  The stream depends only on the random
    choices made for this chain: not on ca, mb, strict, h1, h2 (except for the chain number). *)
Theorem C57_batch_stream :
  forall {obs} (pick : nat -> nat -> nat) (columns : list (string * (nat -> obs))) (N B : nat) (exclude : list string),
  0 < B -> NoDup exclude -> incl exclude (map fst columns) ->
  exists idx : nat -> nat -> nat, (forall c, shuffled N B (idx c)) /\
  forall h1 w1 o1 ca mb strict w2 k h2,
    run (tstep pick) (tw_init (tl_new columns N exclude B)) h1 = (w1, o1) ->
    tstep pick w1 (TRandom ca mb false strict) = (w2, ToInit (Ok k)) ->
    ~ In (TGet (registered o1)) h2 ->
    tbatch_outs k h2 (snd (run (tstep pick) w2 h2)) =
    map (fun n => Ok (tf_batch columns exclude mb (idx (registered o1)) n)) (seq 0 (calls (TBatch k) h2)).
Proof.
  intros obs pick columns N B exclude HB Hex Hin. exists (tf_idx pick N B).
  split; [intros c; apply tf_idx_shuffled; exact HB|].
  intros h1 w1 o1 ca mb strict w2 k h2 R1 E Hh.
  destruct (@run_any _ pick columns N B exclude Hex Hin _ _ _ _ (GI_init columns N B exclude) R1) as [G1 L1].
  cbn in L1. rewrite Nat.add_0_r in L1.
  destruct (@init_CInv _ pick columns N B exclude Hex Hin _ _ _ _ _ _ G1 E) as (Hca & Hmb & _ & I).
  rewrite L1 in I. 
  exact (@run_access _ pick columns N B exclude Hex Hin k (registered o1) ca mb Hca h2 0 w2 I Hh).
Qed.

(** The same for a chain that is registered and used directly. *)
Theorem C57_direct :
  forall {obs} (pick : nat -> nat -> nat) (columns : list (string * (nat -> obs))) (N B : nat) (exclude : list string),
  0 < B -> NoDup exclude -> incl exclude (map fst columns) ->
  exists idx : nat -> nat -> nat, (forall c, shuffled N B (idx c)) /\
  forall h1 w1 o1 ca mb w2 c h2,
    run (tstep pick) (tw_init (tl_new columns N exclude B)) h1 = (w1, o1) ->
    tstep pick w1 (TRegister ca mb false) = (w2, ToInit (Ok c)) ->
    tget_outs c h2 (snd (run (tstep pick) w2 h2)) =
    map (fun n => Ok (tf_answer columns exclude ca mb (idx c) n)) (seq 0 (calls (TGet c) h2)).
Proof.
  intros obs pick columns N B exclude HB Hex Hin. exists (tf_idx pick N B).
  split; [intros c; apply tf_idx_shuffled; exact HB|].
  intros h1 w1 o1 ca mb w2 c h2 R1 E.
  destruct (@run_any _ pick columns N B exclude Hex Hin _ _ _ _ (GI_init columns N B exclude) R1) as [G1 L1].
  pose proof (@step_any _ pick columns N B exclude Hex Hin _ _ _ _ G1 E) as (G2 & L2 & _ & _ & _ & CH & CN).
  cbn [tstep] in E. destruct (tf_register (r_loader (tw_req w1)) ca mb false) as [l1 q1] eqn:Q.
  assert (S1 := proj1 (proj2 G1)).
  apply (@register_any _ pick columns N B exclude) in Q as (S' & [(? & ? & ?) | (_ & -> & L' & A & O)]);
    [discriminate| |exact S1].
  injection E as <- <-.
  apply (@run_direct _ pick columns N B exclude Hex Hin _ ca mb h2 0 _ G2).
  - cbn [tw_req tf_with_loader r_loader]. lia.
  - exact A.
  - intros k H. apply (@chain_bound _ columns N B exclude w1 k _ G1) in H. cbn in H. lia.
Qed.

(** ** What the delay bound means for the user *)

Lemma count_repeated N i m : i < N -> count_occ Nat.eq_dec (repeated N m) i = m / N + (if i <? m mod N then 1 else 0).
Proof.
  intros Hi. unfold repeated. induction m as [|m IH].
  - cbn [seq map count_occ]. rewrite Nat.div_0_l, Nat.mod_0_l by lia. reflexivity.
  - rewrite seq_S, map_app, count_occ_app, IH. cbn [map Nat.add count_occ]. clear IH.
    pose proof (Nat.div_mod m N ltac:(lia)) as E1. pose proof (Nat.mod_upper_bound m N ltac:(lia)) as E2.
    destruct (Nat.eq_dec (S (m mod N)) N) as [E3 | E3].
    + destruct (@div_mod_unique_nat (S m) N (S (m / N)) 0 ltac:(lia) ltac:(nia)) as [-> ->].
      replace (i <? 0) with false by (symmetry; apply Nat.ltb_ge; lia). destruct (Nat.eq_dec (m mod N) i) as [E4 | E4].
      * assert (Q : (i <? m mod N) = false) by (apply Nat.ltb_ge; lia). rewrite Q. lia.
      * assert (Q : (i <? m mod N) = true) by (apply Nat.ltb_lt; lia). rewrite Q. lia.
    + destruct (@div_mod_unique_nat (S m) N (m / N) (S (m mod N)) ltac:(lia) ltac:(nia)) as [-> ->].
      destruct (Nat.eq_dec (m mod N) i) as [E4 | E4].
      * assert (Q : (i <? m mod N) = false) by (apply Nat.ltb_ge; lia).
        assert (Q' : (i <? S (m mod N)) = true) by (apply Nat.ltb_lt; lia). rewrite Q, Q'. lia.
      * destruct (i <? m mod N) eqn:Q; [apply Nat.ltb_lt in Q|apply Nat.ltb_ge in Q].
        -- assert (Q' : (i <? S (m mod N)) = true) by (apply Nat.ltb_lt; lia). rewrite Q'. lia.
        -- assert (Q' : (i <? S (m mod N)) = false) by (apply Nat.ltb_ge; lia). rewrite Q'. lia.
Qed.

Lemma times_waiting N B idx k i : i < N -> shuffled N B idx ->
  exists held, held < B /\ times idx k i + held = (k + B - 1) / N + (if i <? (k + B - 1) mod N then 1 else 0).
Proof.
  intros Hi H. destruct (H k) as (wt & L & P). exists (count_occ Nat.eq_dec wt i). split.
  - pose proof (@count_occ_bound _ Nat.eq_dec i wt). lia.
  - replace (k + B - 1) with (k + length wt) by lia.
    rewrite <- (count_repeated (k + length wt) Hi), <- (proj1 (Permutation_count_occ Nat.eq_dec _ _) P).
    rewrite count_occ_app. reflexivity.
Qed.

(** Every observation is used equally often, up to the delay: after k observations each of the N
    observations was used k/N times, up to an error of at most B = shuffle_cache. *)
Theorem C57_balanced : forall N B idx k i, i < N -> shuffled N B idx ->
  (Z.abs (Z.of_nat N * Z.of_nat (times idx k i) - Z.of_nat k) <= Z.of_nat N * Z.of_nat B)%Z.
Proof.
  intros N B idx k i Hi H. destruct (times_waiting k Hi H) as (held & Hh & E).
  pose proof (Nat.div_mod (k + B - 1) N ltac:(lia)) as E1. pose proof (Nat.mod_upper_bound (k + B - 1) N ltac:(lia)) as E2.
  set (q := (k + B - 1) / N) in *. set (m := (k + B - 1) mod N) in *.
  assert (E3 : times idx k i + held = q \/ times idx k i + held = q + 1) by (destruct (i <? m); lia).
  clear E. set (t := times idx k i) in *. clearbody q m t. apply Z.abs_le. nia.
Qed.

(** No observation is repeated within the first N - B + 1 observations. *)
Theorem C57_no_early_repetition : forall N B idx k, k + B <= N + 1 -> shuffled N B idx -> 
  NoDup (map idx (seq 0 k)).
Proof.
  intros N B idx k Hk H. destruct (H k) as (wt & L & P).
  assert (ND : NoDup (repeated N (k + length wt))).
  { unfold repeated. rewrite (map_ext_in _ (fun i => i)).
    - rewrite map_id. apply seq_NoDup.
    - intros i Hi. apply in_seq in Hi. apply Nat.mod_small. lia. }
  apply Permutation_sym in P. apply (Permutation_NoDup P) in ND.
  revert ND. generalize (map idx (seq 0 k)) as a. intros a. induction a as [|x a IH]; intros ND; [constructor|].
  cbn in ND. inversion ND; subst. constructor; [|apply IH; assumption].
  intros Hx. match goal with H : ~ In _ _ |- _ => apply H end. apply in_or_app. left. exact Hx.
Qed.

Theorem C57_in_range : forall N B idx k, 0 < N -> shuffled N B idx -> idx k < N.
Proof.
  intros N B idx k HN H. destruct (H (S k)) as (wt & L & P).
  assert (Hin : In (idx k) (map idx (seq 0 (S k)) ++ wt)).
  { apply in_or_app. left. apply in_map_iff. exists k. split; [reflexivity|]. apply in_seq. lia. }
  apply (Permutation_in _ P) in Hin. apply in_map_iff in Hin as (i & <- & _). apply Nat.mod_upper_bound. lia.
Qed.

(** With shuffle_cache = 1 nothing is shuffled. *)
Theorem C57_cache_one : forall N idx k, shuffled N 1 idx -> idx k = k mod N.
Proof.
  intros N idx k H.
  assert (P : forall k, Permutation (map idx (seq 0 k)) (repeated N k)).
  { intros k'. destruct (H k') as (wt & L & P). destruct wt; [|cbn in L; lia].
    rewrite app_nil_r in P. cbn in P. rewrite Nat.add_0_r in P. exact P. }
  pose proof (P (S k)) as P1. unfold repeated in P1. rewrite seq_S, !map_app in P1. cbn [map Nat.add] in P1.
  rewrite (P k) in P1. fold (repeated N k) in P1. apply Permutation_app_inv_l in P1.
  apply Permutation_length_1 in P1. exact P1.
Qed.

(** An epoch structure is NOT guaranteed as soon as 2 <= shuffle_cache <= N: there is a behaviour of
    the generator for which a batch of N observations contains an observation twice (and therefore
    misses another one). *)
Theorem C57_epochs_refuted : forall N B, 2 <= B <= N -> exists pick first,
  tbatch_outs 0 [TBatch 0] (snd (run (tstep pick)
     (fst (tstep pick (tw_init (tl_new [(String.EmptyString, fun i : nat => i)] N [] B)) (TRandom 1 N false true)))
     [TBatch 0])) = [Ok ([(String.EmptyString, first)], repeat true N)] /\
  length first = N /\ ~ NoDup first.
Proof.
  intros N B HB. set (columns := [(String.EmptyString, fun i : nat => i)]). set (pick := fun _ _ : nat => 0).
  exists pick, (map (tf_idx pick N B 0) (seq 0 N)).
  assert (Hin : incl [] (map fst columns)) by (intros x []).
  pose proof (GI_init columns N B []) as G0.
  destruct (tstep pick (tw_init (tl_new columns N [] B)) (TRandom 1 N false true)) as [w2 r] eqn:E.
  assert (Er : r = ToInit (Ok 0)).
  { cbn [tstep] in E. unfold tf_random_init in E. cbn [tw_init tw_req requests_init r_loader tl_new tl_count] in E.
    rewrite Nat.ltb_irrefl in E.
    assert (EN : ((1 =? 0) || (N =? 0)) = false) by (cbn; apply Nat.eqb_neq; lia). rewrite EN in E.
    destruct (tf_register (tl_new columns N [] B) 1 N false) as [l1 q1] eqn:Q.
    apply (@register_any _ pick columns N B []) in Q as (S' & [(? & ? & ?) | (_ & -> & L' & A & O)]);
      [discriminate| |repeat split].
    destruct (@get_at _ pick columns N B [] (NoDup_nil _) Hin _ _ _ _ _ S' A) as (l2 & GG & _).
    cbn [tl_new tl_chains length] in *. rewrite GG in E. injection E as <- <-. reflexivity. }
  subst r. destruct (@init_CInv _ pick columns N B [] (NoDup_nil _) Hin _ _ _ _ _ _ G0 E) as (_ & _ & _ & I).
  pose proof (@run_access _ pick columns N B [] (NoDup_nil _) Hin 0 0 1 N Nat.lt_0_1 [TBatch 0] 0 w2 I) as R.
  cbn [fst]. split; [|split].
  - rewrite R by (cbn; intuition congruence). reflexivity.
  - rewrite map_length, seq_length. reflexivity.
  - intros ND.
    assert (E1 : nth 0 (map (tf_idx pick N B 0) (seq 0 N)) 0 = nth (S (N - B)) (map (tf_idx pick N B 0) (seq 0 N)) 0).
    { rewrite !nth_map_seq by lia. unfold pick. rewrite !tf_idx_first by lia.
      replace (B + (N - B)) with N by lia. rewrite Nat.mod_same by lia. reflexivity. }
    rewrite (NoDup_nth _ 0) in ND. apply ND in E1; rewrite ?map_length, ?seq_length; lia.
Qed.

(** Requests the loader cannot serve are rejected, in every state: mapping over the full data set,
    additional keyword arguments, and excluded keys that do not exist (or are listed twice). *)
Theorem C57_rejected : forall {obs} pick (w : tworld obs) ca mb strict,
  0 < ca -> 0 < mb <= tl_count (r_loader (tw_req w)) ->
  snd (tstep pick w (TFull ca mb)) = ToInit (Exc NotImplementedError) /\
  snd (tstep pick w (TRandom ca mb true strict)) = ToInit (Exc AssertionError) /\
  (~ (NoDup (tl_exclude (r_loader (tw_req w))) /\
      incl (tl_exclude (r_loader (tw_req w))) (map fst (tl_columns (r_loader (tw_req w))))) ->
   snd (tstep pick w (TRandom ca mb false strict)) = ToInit (Exc KeyError)) /\
  (forall mb', tl_count (r_loader (tw_req w)) < mb' \/ mb' = 0 ->
     snd (tstep pick w (TRandom ca mb' false strict)) = ToInit (Exc ValueError)).
Proof.
  intros obs pick w ca mb strict Hca Hmb. cbn [tstep].
  assert (E1 : (tl_count (r_loader (tw_req w)) <? mb) = false) by (apply Nat.ltb_ge; lia).
  assert (E2 : (mb =? 0) = false) by (apply Nat.eqb_neq; lia).
  assert (E3 : (ca =? 0) = false) by (apply Nat.eqb_neq; lia).
  split; [|split; [|split]].
  - unfold tf_full_init. rewrite E1, E2. reflexivity.
  - unfold tf_random_init. rewrite E1, E2, E3. reflexivity.
  - intros H. unfold tf_random_init. rewrite E1, E2, E3. cbn [orb tf_register]. unfold tf_get. cbn [tl_chains].
    rewrite nth_error_app2, Nat.sub_diag by lia. cbn [nth_error].
    destruct (tf_next _ _ _ _) as [c' ix]. cbn [tl_exclude tl_columns]. rewrite del_keys_missing; [reflexivity|].
    rewrite map_map. exact H.
  - intros mb' H. unfold tf_random_init. rewrite E3. cbn [orb].
    destruct (tl_count (r_loader (tw_req w)) <? mb') eqn:E4; [reflexivity|]. apply Nat.ltb_ge in E4.
    destruct H as [H | ->]; [lia|]. reflexivity.
Qed.

(** ** A concrete case: 5 observations with three arrays, one of them excluded, buffer of 3 elements,
    two accesses with different sizes; the answers of the first one. *)
Module Example.
Local Open Scope string_scope.
Definition columns : list (string * (nat -> nat)) :=
  [("image", fun i => 10 + i); ("id", fun i => i); ("label", fun i => 20 + i)].
Definition pick (c t : nat) : nat := c + 2 * t + t * t.
Definition h1 : list top := [TRandom 2 2 false true; TRegister 1 3 false].
Definition h2 : list top := [TBatch 0; TBatch 1; TBatch 1; TGet 1; TBatch 1; TRandom 1 1 false true; TBatch 0].
End Example.

Example C57_nonvacuous : exists w1 o1 w2,
  0 < 3 /\ NoDup ["id"%string] /\ incl ["id"%string] (map fst Example.columns) /\
  run (tstep Example.pick) (tw_init (tl_new Example.columns 5 ["id"%string] 3)) Example.h1 = (w1, o1) /\
  tstep Example.pick w1 (TRandom 2 2 false false) = (w2, ToInit (Ok 1)) /\
  registered o1 = 2 /\ ~ In (TGet (registered o1)) Example.h2 /\ calls (TBatch 1) Example.h2 = 3 /\
  tbatch_outs 1 Example.h2 (snd (run (tstep Example.pick) w2 Example.h2)) =
  [Ok ([("image"%string, [12; 13]); ("label"%string, [22; 23])], [true; true]);
   Ok ([("image"%string, [11; 14]); ("label"%string, [21; 24])], [true; true]);
   Ok ([("image"%string, [11; 10]); ("label"%string, [21; 20])], [true; true])].
Proof.
  do 3 eexists. split; [lia|]. split; [constructor; [intros []|constructor]|].
  split; [intros x [<- | []]; cbn; tauto|].
  split; [vm_compute; reflexivity|]. split; [vm_compute; reflexivity|].
  split; [reflexivity|]. split; [cbn; intuition discriminate|]. split; [reflexivity|].
  vm_compute. reflexivity.
Qed.
