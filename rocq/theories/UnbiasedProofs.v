From Coq Require Import String Reals Lra Permutation.
From Verif Require Import Base ListUtil Pytree Io TreeUtil TreeUtilSpec TreeUtilProofs Integrator NumpyLoader LoaderSpec NumpyLoaderProofs NumpyLoaderApi NumpyLoaderFinal DataCore DataSpec DataFinal Potential PotentialSpec PotentialProofs.
Open Scope R_scope.
Set Implicit Arguments.

Lemma sum_upto_app n m f : sum_upto (n + m) f = sum_upto n f + sum_upto m (fun j => f (n + j)%nat).
Proof.
  induction m as [|m IH]; [rewrite Nat.add_0_r; unfold sum_upto at 3; cbn; lra|]. rewrite Nat.add_succ_r, !sum_upto_S, IH. lra.
Qed.
Lemma sum_blocks C mb f : sum_upto (C * mb) f = sum_upto C (fun i => sum_upto mb (fun j => f (i * mb + j)%nat)).
Proof.
  induction C as [|C IH]; [reflexivity|]. rewrite sum_upto_S, <- IH. rewrite (Nat.mul_succ_l C mb), sum_upto_app. reflexivity.
Qed.
Lemma sum_perm_list (f : nat -> R) a b : Permutation a b -> fold_right Rplus 0 (map f a) = fold_right Rplus 0 (map f b).
Proof. induction 1; cbn; lra. Qed.
Lemma sum_perm (f : nat -> R) N p : Permutation p (seq 0 N) -> sum_upto N (fun k => f (nth k p 0%nat)) = sum_upto N f.
Proof.
  intros H. unfold sum_upto. rewrite <- (sum_perm_list f H). f_equal.
  assert (E : length p = N) by (apply Permutation_length in H; now rewrite seq_length in H).
  rewrite <- (map_map (fun k => nth k p 0%nat) f). f_equal. rewrite <- E. apply map_nth_seq.
Qed.

Section U.
Variables (obs : Type).
Variable data : list (string * list obs).
Variable N : nat.
Hypothesis Hd : data <> [].
Hypothesis HN : forall ka, In ka data -> length (snd ka) = N.
Lemma batch_at_of idx mask : Forall (fun i => (i < N)%nat) idx -> length mask = length idx ->
  batch_of (map (fun ka => (fst ka, select (snd ka) idx)) data, mask) (length idx) /\
  forall j, (j < length idx)%nat -> row (map (fun ka => (fst ka, select (snd ka) idx)) data) j = row data (nth j idx 0%nat).
Proof.
  intros Hi Hm. split.
  - split; [exact Hm|]. cbn [fst]. split; [destruct data; [congruence|discriminate]|].
    intros ka Hka. apply in_map_iff in Hka. destruct Hka as (ka' & <- & Hka). cbn [snd]. apply select_length. rewrite (HN _ Hka). exact Hi.
  - intros j Hj. unfold row. rewrite map_map. apply map_ext_in. intros ka Hka. cbn [fst snd]. f_equal.
    rewrite nth_error_select; auto. rewrite (HN _ Hka). exact Hi.
Qed.

Variables (Sample State : Type).
Variable likelihood : lik_fn obs Sample State.
Variable l : Sample -> orow obs -> R.
Variable has_state : bool.
Hypothesis Hl : evaluates likelihood l.
Variables (prior : Sample -> R) (T : R).
Lemma indexed_value x idx mask state : state_fits likelihood has_state state -> Forall (fun i => (i < N)%nat) idx -> length mask = length idx ->
  (0 < length idx)%nat -> (is_batched likelihood = true -> length idx <> 1%nat) ->
  exists r, potential_function prior likelihood has_state T N x (map (fun ka => (fst ka, select (snd ka) idx)) data, mask) state None = Ok r /\
    fst (fst r) = (- INR N * (sum_upto (length idx) (fun j => l x (row data (nth j idx 0%nat))) / INR (length idx)) - prior x) / T.
Proof.
  intros Hf Hi Hm Hpos Hb. destruct (batch_at_of mask Hi Hm) as [B1 B2].
  destruct (@minibatch_value _ _ _ likelihood l has_state Hl prior T N x _ _ state Hf B1 Hpos Hb) as (st & E). rewrite E. eexists. split; [reflexivity|]. cbn [fst].
  do 3 f_equal. f_equal. apply sum_upto_ext. intros j Hj. now rewrite B2.
Qed.
End U.

(** all tuples *)
Lemma tuples_spec n N idx : In idx (tuples n N) <-> length idx = n /\ Forall (fun i => (i < N)%nat) idx.
Proof.
  revert idx. induction n as [|n IH]; intros idx; cbn [tuples].
  - split; [intros [<-|[]]; auto|]. intros [H _]. destruct idx; [left; auto|discriminate].
  - rewrite in_flat_map. split.
    + intros (i & Hi & Hx). apply in_map_iff in Hx. destruct Hx as (t & <- & Ht). apply IH in Ht. destruct Ht as [H1 H2]. apply in_seq in Hi. cbn. split; [lia|constructor; auto; lia].
    + intros [H1 H2]. destruct idx as [|i t]; [discriminate|]. inversion H2; subst. exists i. split; [apply in_seq; lia|]. apply in_map, IH. cbn in H1. split; [lia|auto].
Qed.
Lemma NoDup_flat_map_inj A B (f : A -> list B) l : NoDup l -> (forall a, In a l -> NoDup (f a)) ->
  (forall a b x, In a l -> In b l -> In x (f a) -> In x (f b) -> a = b) -> NoDup (flat_map f l).
Proof.
  induction 1 as [|a l Ha Hl IH]; intros H1 H2; cbn; [constructor|].
  assert (X : forall u v : list B, NoDup u -> NoDup v -> (forall x, In x u -> ~ In x v) -> NoDup (u ++ v)).
  { clear. induction u as [|x u IH]; intros v Hu Hv H; cbn; auto. inversion Hu; subst. constructor.
    - rewrite in_app_iff. intros [?|?]; [auto|]. apply (H x); cbn; auto.
    - apply IH; auto. intros y Hy. apply H; cbn; auto. }
  apply X.
  - apply H1; cbn; auto.
  - apply IH; [intros; apply H1; cbn; auto|intros; eapply H2; cbn; eauto].
  - intros x Hx Hy. apply in_flat_map in Hy. destruct Hy as (b & Hb & Hy). apply Ha. replace a with b; auto. symmetry. eapply H2; cbn; eauto.
Qed.
Lemma tuples_NoDup n N : NoDup (tuples n N).
Proof.
  induction n as [|n IH]; cbn [tuples]; [constructor; [intros []|constructor]|]. apply NoDup_flat_map_inj.
  - apply seq_NoDup.
  - intros a _. apply FinFun.Injective_map_NoDup; auto. intros u v H. congruence.
  - intros a b x _ _ Ha Hb. apply in_map_iff in Ha, Hb. destruct Ha as (u & <- & _), Hb as (v & E & _). congruence.
Qed.
Lemma length_tuples n N : length (tuples n N) = (N ^ n)%nat.
Proof.
  induction n as [|n IH]; [reflexivity|]. cbn [tuples].
  assert (X : forall l, length (flat_map (fun i => map (cons i) (tuples n N)) l) = (length l * N ^ n)%nat).
  { induction l as [|i l IHl]; [reflexivity|]. cbn [flat_map length]. rewrite app_length, map_length, IHl, IH. cbn. reflexivity. }
  rewrite X, seq_length. reflexivity.
Qed.
Lemma rsum_map_app A (f : A -> R) a b : rsum (map f (a ++ b)) = rsum (map f a) + rsum (map f b).
Proof. rewrite map_app. apply rsum_app. Qed.
Lemma rsum_map_const_plus A (f : A -> R) c l : rsum (map (fun t => c + f t) l) = INR (length l) * c + rsum (map f l).
Proof.
  induction l as [|t l IH]; [cbn; rewrite !rsum_nil; lra|]. cbn [map length]. rewrite !rsum_cons, IH, S_INR. lra.
Qed.
Lemma rsum_map_scale A (f : A -> R) c l : rsum (map (fun t => c * f t) l) = c * rsum (map f l).
Proof. induction l as [|t l IH]; [cbn; rewrite !rsum_nil; lra|]. cbn [map]. rewrite !rsum_cons, IH. lra. Qed.
Lemma sum_tuples (f : nat -> R) N n : 
  INR N * rsum (map (fun t => sum_upto n (fun j => f (nth j t 0%nat))) (tuples n N)) = INR n * INR (N ^ n) * sum_upto N f.
Proof.
  induction n as [|n IH]; [cbn [tuples map]; rewrite rsum_cons, rsum_nil; unfold sum_upto at 1; cbn; lra|].
  cbn [tuples]. set (S' := rsum (map (fun t => sum_upto n (fun j => f (nth j t 0%nat))) (tuples n N))) in *.
  assert (X : forall m, rsum (map (fun t => sum_upto (S n) (fun j => f (nth j t 0%nat))) (flat_map (fun i => map (cons i) (tuples n N)) (seq 0 m)))
              = INR (N ^ n) * sum_upto m f + INR m * S').
  { induction m as [|m IHm]; [cbn; unfold sum_upto; cbn; rewrite rsum_nil; lra|].
    rewrite seq_S, flat_map_app, rsum_map_app, IHm. cbn [flat_map plus]. rewrite app_nil_r, map_map.
    rewrite (map_ext _ (fun t => f m + sum_upto n (fun j => f (nth j t 0%nat)))) by (intros t; rewrite sum_upto_shift; reflexivity).
    rewrite rsum_map_const_plus, length_tuples. fold S'. rewrite sum_upto_S, S_INR. lra. }
  rewrite X. rewrite Nat.pow_succ_r', mult_INR, S_INR. transitivity (INR N * INR (N ^ n) * sum_upto N f + INR N * (INR N * S')); [lra|]. rewrite IH. lra.
Qed.

(** ** windows of a shuffled stream *)
Section Shuffle.
Context {G : Type}.
Variable choice_repl : G -> nat -> nat -> G * list nat.
Variable choice_perm : G -> nat -> G * list nat.
Hypothesis Hperm : perm_oracle choice_perm.
Lemma perm_window (f : nat -> R) g N e : (0 < N)%nat -> sum_upto N (fun t => f (perm_stream choice_perm g N (e * N + t))) = sum_upto N f.
Proof.
  intros HN. rewrite <- (@sum_perm f N (nth_perm choice_perm g N e)) by apply (nth_perm_perm Hperm).
  apply sum_upto_ext. intros t Ht. f_equal. unfold perm_stream. rewrite Nat.add_comm, Nat.mod_add, Nat.mod_small, Nat.div_add, Nat.div_small by lia. reflexivity.
Qed.
Lemma shuffle_sum (f : nat -> R) g N mb k c e m : (0 < N)%nat -> (k * mb = e * N)%nat -> (c * mb = m * N)%nat ->
  sum_upto c (fun i => sum_upto mb (fun j => f (perm_stream choice_perm g N ((k + i) * mb + j)))) = INR m * sum_upto N f.
Proof.
  intros HN Hk Hc.
  transitivity (sum_upto c (fun i => sum_upto mb (fun j => f (perm_stream choice_perm g N (e * N + (i * mb + j)))))).
  { apply sum_upto_ext. intros i _. apply sum_upto_ext. intros j _. do 2 f_equal. rewrite Nat.mul_add_distr_r, Hk. lia. }
  rewrite <- (sum_blocks c mb (fun t => f (perm_stream choice_perm g N (e * N + t)))), Hc. clear Hc Hk k c mb.
  induction m as [|m IH]; [cbn; unfold sum_upto; cbn; lra|].
  rewrite Nat.mul_succ_l, sum_upto_app, IH, S_INR.
  rewrite (@sum_upto_ext N (fun t => f (perm_stream choice_perm g N (e * N + (m * N + t)))) (fun t => f (perm_stream choice_perm g N ((e + m) * N + t)))) by (intros t _; apply f_equal, f_equal; rewrite Nat.mul_add_distr_r; apply Nat.add_assoc).
  rewrite perm_window by auto. lra.
Qed.
Lemma epochs_sum (f : nat -> R) g N mb C e : (0 < C)%nat -> N = (C * mb)%nat -> (0 < mb)%nat ->
  sum_upto C (fun i => sum_upto mb (fun j => f (nth j (fst (spec_batch choice_repl choice_perm N (REpochs mb g) (e * C + i))) 0%nat))) = sum_upto N f.
Proof.
  intros HC HN Hmb. rewrite <- (@sum_perm f N (nth_perm choice_perm g N e)) by apply (nth_perm_perm Hperm). 
  assert (EC : ceil_div N mb = C).
  { unfold ceil_div. rewrite HN. replace (C * mb + mb - 1)%nat with ((mb - 1) + C * mb)%nat by lia. rewrite Nat.div_add, Nat.div_small by lia. reflexivity. }
  rewrite HN, sum_blocks, <- HN.
  apply sum_upto_ext. intros i Hi. apply sum_upto_ext. intros j Hj. f_equal. unfold spec_batch. rewrite EC. cbn [fst].
  assert (E1 : ((e * C + i) / C = e)%nat) by (rewrite Nat.div_add_l, Nat.div_small by lia; lia).
  assert (E2 : ((e * C + i) mod C = i)%nat) by (rewrite Nat.add_comm, Nat.mod_add, Nat.mod_small by lia; reflexivity).
  rewrite E1, E2. rewrite (@nth_indep _ _ _ 0%nat ((fun j => if (i * mb + j <? N)%nat then nth (i * mb + j) (nth_perm choice_perm g N e) 0%nat else 0%nat) 0%nat)) by (rewrite map_length, seq_length; auto).
  rewrite (map_nth (fun j => if (i * mb + j <? N)%nat then nth (i * mb + j) (nth_perm choice_perm g N e) 0%nat else 0%nat)), seq_nth by auto. cbn [plus].
  destruct (Nat.ltb_spec (i * mb + j) N) as [|X]; [reflexivity|]. exfalso. assert (i * mb + mb <= C * mb)%nat by (rewrite <- Nat.mul_succ_l; apply Nat.mul_le_mono_r; lia). lia.
Qed.
End Shuffle.

Lemma skipn_seq r N : (r <= N)%nat -> skipn r (seq 0 N) = seq r (N - r).
Proof. intros H. replace N with (r + (N - r))%nat at 1 by lia. rewrite seq_app, skipn_app, seq_length, Nat.sub_diag. rewrite skipn_all2 by (rewrite seq_length; lia). reflexivity. Qed.
Lemma firstn_seq r N : (r <= N)%nat -> firstn r (seq 0 N) = seq 0 r.
Proof. intros H. replace N with (r + (N - r))%nat at 1 by lia. rewrite seq_app, firstn_app, seq_length, Nat.sub_diag. rewrite firstn_all2 by (rewrite seq_length; lia). cbn. apply app_nil_r. Qed.
(** ** all permutations: every position is uniformly distributed *)
Section Perms.
Variable N : nat.
Definition shift (p : list nat) : list nat := map (fun i => (i + 1) mod N) p.
Lemma shift_perm p : Permutation p (seq 0 N) -> Permutation (shift p) (seq 0 N).
Proof.
  intros H. destruct N as [|n] eqn:EN; [apply Permutation_sym, Permutation_nil in H; unfold shift; rewrite H; constructor|].
  unfold shift. rewrite H. rewrite <- EN in *.
  rewrite (map_ext_in _ (fun j => nth j (skipn 1 (seq 0 N) ++ firstn 1 (seq 0 N)) 0%nat)).
  - replace (seq 0 N) with (seq 0 (length (skipn 1 (seq 0 N) ++ firstn 1 (seq 0 N)))) at 1 by (rewrite app_length, Nat.add_comm, <- app_length, firstn_skipn, seq_length; reflexivity).
    rewrite map_nth_seq. rewrite Permutation_app_comm, firstn_skipn. reflexivity.
  - intros j Hj. apply in_seq in Hj. rewrite EN. cbn [seq skipn firstn]. destruct (Nat.eq_dec j n) as [->|Hne].
    + rewrite app_nth2; rewrite seq_length; [|lia]. rewrite Nat.sub_diag. replace (n + 1)%nat with (S n) by lia. rewrite Nat.mod_same by lia. reflexivity.
    + rewrite app_nth1 by (rewrite seq_length; lia). rewrite seq_nth by lia. rewrite Nat.mod_small by lia. lia.
Qed.
Lemma shift_inj p q : Permutation p (seq 0 N) -> Permutation q (seq 0 N) -> shift p = shift q -> p = q.
Proof.
  intros Hp Hq. assert (X : forall r i, Permutation r (seq 0 N) -> In i r -> (i < N)%nat) by (intros r i Hr Hi; apply (Permutation_in _ Hr), in_seq in Hi; lia).
  assert (Y : forall a b, Forall (fun i => (i < N)%nat) a -> Forall (fun i => (i < N)%nat) b -> shift a = shift b -> a = b).
  { clear. induction a as [|i a IH]; intros [|j b] Ha Hb H; try discriminate; [reflexivity|]. cbn in H. inversion H. inversion Ha; inversion Hb; subst. f_equal; [|apply IH; auto].
    destruct (Nat.eq_dec i (N - 1)), (Nat.eq_dec j (N - 1)); try lia.
    - exfalso. replace (i + 1)%nat with N in H1 by lia. rewrite Nat.mod_same, Nat.mod_small in H1 by lia. lia.
    - exfalso. replace (j + 1)%nat with N in H1 by lia. rewrite Nat.mod_same, (Nat.mod_small (i + 1)) in H1 by lia. lia.
    - rewrite !Nat.mod_small in H1 by lia. lia. }
  intros H. apply Y; auto; apply Forall_forall; intros; [apply (X p)|apply (X q)]; auto.
Qed.
Variable ps : list (list nat).
Hypothesis Hnd : NoDup ps.
Hypothesis Hall : forall p, In p ps <-> Permutation p (seq 0 N).
Lemma shift_all : Permutation (map shift ps) ps.
Proof.
  apply NoDup_Permutation_bis; [|rewrite map_length; auto|].
  - clear -Hnd Hall. assert (X : forall p, In p ps -> Permutation p (seq 0 N)) by (intros p; apply Hall). clear Hall. induction Hnd as [|p l Hp Hl IH]; cbn; constructor.
    + intros Hi. apply in_map_iff in Hi. destruct Hi as (q & E & Hq). apply shift_inj in E; [subst; auto|apply X; cbn; auto|apply X; cbn; auto].
    + apply IH; auto. intros q Hq. apply X. cbn. auto.
  - intros q Hq. apply in_map_iff in Hq. destruct Hq as (p & <- & Hp). apply Hall, shift_perm, Hall, Hp.
Qed.
Lemma rsum_perm (a b : list R) : Permutation a b -> rsum a = rsum b.
Proof. induction 1; rewrite ?rsum_cons; try lra. Qed.
Lemma position_uniform (f : nat -> R) j : (j < N)%nat -> INR N * rsum (map (fun p => f (nth j p 0%nat)) ps) = INR (length ps) * sum_upto N f.
Proof.
  intros Hj.
  assert (S1 : forall k, rsum (map (fun p => f ((nth j p 0 + k) mod N)%nat) ps) = rsum (map (fun p => f (nth j p 0%nat)) ps)).
  { induction k as [|k IH].
    - f_equal. apply map_ext_in. intros p Hp. f_equal. rewrite Nat.add_0_r, Nat.mod_small; auto. apply Hall in Hp.
      assert (Hl : length p = N) by (rewrite (Permutation_length Hp); apply seq_length).
      assert (In (nth j p 0%nat) (seq 0 N)) by (apply (Permutation_in _ Hp), nth_In; lia). apply in_seq in H. lia.
    - rewrite <- IH. rewrite <- (rsum_perm (Permutation_map (fun p => f ((nth j p 0 + k) mod N)%nat) shift_all)). rewrite map_map. f_equal. apply map_ext_in. intros p Hp. f_equal.
      assert (Hl : length p = N) by (apply Hall in Hp; rewrite (Permutation_length Hp); apply seq_length).
      unfold shift. rewrite (@nth_indep _ (map (fun i => ((i + 1) mod N)%nat) p) j 0%nat ((fun i => ((i + 1) mod N)%nat) 0%nat)) by (rewrite map_length; lia). rewrite (map_nth (fun i => ((i + 1) mod N)%nat)).
      rewrite Nat.add_mod_idemp_l by lia. f_equal. lia. }
  assert (S2 : forall m, sum_upto m (fun k => rsum (map (fun p => f ((nth j p 0 + k) mod N)%nat) ps)) = INR m * rsum (map (fun p => f (nth j p 0%nat)) ps)).
  { induction m as [|m IH]; [unfold sum_upto; cbn; lra|]. rewrite sum_upto_S, IH, S1, S_INR. lra. }
  rewrite <- S2.
  assert (S3 : forall qs, (forall p, In p qs -> In p ps) -> sum_upto N (fun k => rsum (map (fun p => f ((nth j p 0 + k) mod N)%nat) qs)) = INR (length qs) * sum_upto N f).
  { induction qs as [|p qs IH]; intros Hq.
    - cbn [map length]. rewrite rsum_nil. rewrite sum_upto_zero by auto. cbn; lra.
    - cbn [map length]. rewrite (@sum_upto_ext N _ (fun k => f ((nth j p 0 + k) mod N)%nat + rsum (map (fun p => f ((nth j p 0 + k) mod N)%nat) qs))) by (intros; apply rsum_cons).
      rewrite sum_upto_plus, IH, S_INR by (intros; apply Hq; cbn; auto).
      assert (E : sum_upto N (fun k => f ((nth j p 0 + k) mod N)%nat) = sum_upto N f); [|lra].
      assert (Hp : In (nth j p 0%nat) (seq 0 N)). { specialize (Hq p (or_introl eq_refl)). apply Hall in Hq. apply (Permutation_in _ Hq), nth_In. rewrite (Permutation_length Hq), seq_length. auto. }
      apply in_seq in Hp. set (r := nth j p 0%nat) in *.
      rewrite <- (@sum_perm f N (skipn r (seq 0 N) ++ firstn r (seq 0 N))) by (rewrite Permutation_app_comm, firstn_skipn; reflexivity).
      apply sum_upto_ext. intros k Hk. f_equal. symmetry. rewrite skipn_seq, firstn_seq by lia.
      destruct (le_lt_dec N (r + k)).
      + rewrite app_nth2; rewrite seq_length; [|lia]. rewrite seq_nth by lia. replace (r + k)%nat with ((r + k - N) + 1 * N)%nat by lia. rewrite Nat.mod_add, Nat.mod_small by lia. lia.
      + rewrite app_nth1 by (rewrite seq_length; lia). rewrite seq_nth by lia. rewrite Nat.mod_small by lia. lia. }
  apply S3. auto.
Qed.
End Perms.

(** ** averages of the potential *)
Section Average.
Variables (obs : Type).
Variable data : list (string * list obs).
Variable N : nat.
Hypothesis Hd : data <> [].
Hypothesis HN : forall ka, In ka data -> length (snd ka) = N.
Hypothesis HN0 : (0 < N)%nat.
Variables (Sample State : Type).
Variable likelihood : lik_fn obs Sample State.
Variable l : Sample -> orow obs -> R.
Variable has_state : bool.
Hypothesis Hl : evaluates likelihood l.
Variables (prior : Sample -> R) (T : R).
Variables (x : Sample) (state : option State) (mb : nat).
Hypothesis Hf : state_fits likelihood has_state state.
Hypothesis Hmb : (0 < mb)%nat.
Hypothesis Hb1 : is_batched likelihood = true -> mb <> 1%nat.
Definition fl (i : nat) : R := l x (row data i).

Lemma values_exist (L : list (list nat * list bool)) :
  (forall p, In p L -> length (fst p) = mb /\ length (snd p) = mb /\ Forall (fun i => (i < N)%nat) (fst p)) ->
  values (potential_function prior likelihood has_state T) N x state (map (fun p => (map (fun ka => (fst ka, select (snd ka) (fst p))) data, snd p)) L)
    (map (fun p => (- INR N * (sum_upto mb (fun j => fl (nth j (fst p) 0%nat)) / INR mb) - prior x) / T) L).
Proof.
  unfold values. induction L as [|p L IH]; intros H; cbn [map]; constructor; [|apply IH; intros; apply H; cbn; auto].
  destruct (H p (or_introl eq_refl)) as (H1 & H2 & H3). clear IH H.
  destruct (@indexed_value obs data N Hd HN Sample State likelihood l has_state Hl prior T x (fst p) (snd p) state Hf H3) as (r & E & Ev); try lia; try (rewrite H1; auto).
  destruct r as [[v lks] new]. cbn [fst] in Ev. exists lks, new. rewrite E. unfold fl. rewrite Ev, H1. reflexivity.
Qed.
Lemma average_value (L : list (list nat * list bool)) : L <> [] ->
  INR N * rsum (map (fun p => sum_upto mb (fun j => fl (nth j (fst p) 0%nat))) L) = INR mb * INR (length L) * sum_upto N fl ->
  average (map (fun p => (- INR N * (sum_upto mb (fun j => fl (nth j (fst p) 0%nat)) / INR mb) - prior x) / T) L) = posterior_potential prior l T data N x.
Proof.
  intros HL H. unfold average, posterior_potential. fold fl. change (fun j => l x (row data j)) with fl. rewrite map_length.
  set (S' := rsum (map (fun p => sum_upto mb (fun j => fl (nth j (fst p) 0%nat))) L)) in *.
  assert (E : rsum (map (fun p => (- INR N * (sum_upto mb (fun j => fl (nth j (fst p) 0%nat)) / INR mb) - prior x) / T) L)
              = (- INR N * (S' / INR mb) - INR (length L) * prior x) / T).
  { subst S'. clear H HL. induction L as [|p L IH]; [cbn; rewrite !rsum_nil; unfold Rdiv; ring|]. cbn [map length]. rewrite !rsum_cons, IH, S_INR. unfold Rdiv. ring. }
  rewrite E. assert (HL0 : INR (length L) <> 0) by (apply not_0_INR; destruct L; [congruence|discriminate]).
  assert (Hm0 : INR mb <> 0) by (apply not_0_INR; lia).
  replace (- INR N * (S' / INR mb)) with (- (INR (length L) * sum_upto N fl)) by (transitivity (- (INR N * S') / INR mb); [rewrite H; field; auto|field; auto]).
  unfold Rdiv. generalize (/ T). intros t. field. auto.
Qed.
End Average.
Lemma nth_firstn_lt A (a : list A) n j d : (j < n)%nat -> nth j (firstn n a) d = nth j a d.
Proof. revert n j. induction a as [|x a IH]; intros [|n] [|j] H; cbn; auto; try lia. apply IH. lia. Qed.
Lemma nth_skipn_add A (a : list A) n j d : nth j (skipn n a) d = nth (n + j) a d.
Proof. revert a. induction n as [|n IH]; intros [|x a]; cbn; auto. destruct j; reflexivity. Qed.
Lemma In_firstn A (a : list A) n y : In y (firstn n a) -> In y a.
Proof. rewrite <- (firstn_skipn n a) at 2. intros. apply in_or_app. auto. Qed.
Lemma In_skipn A (a : list A) n y : In y (skipn n a) -> In y a.
Proof. rewrite <- (firstn_skipn n a) at 2. intros. apply in_or_app. auto. Qed.
Lemma rsum_map_plus A (f g : A -> R) l : rsum (map (fun t => f t + g t) l) = rsum (map f l) + rsum (map g l).
Proof. induction l as [|t l IH]; [cbn; rewrite !rsum_nil; lra|]. cbn [map]. rewrite !rsum_cons, IH. lra. Qed.
