(** C41, C42, C43: the stochastic and the full potential (potential.py).
    Reading guide: [evaluates likelihood l]: the user's likelihood function returns the log likelihood l of every observation;
    [posterior_potential]: (- sum over all observations of l - log prior) / temperature. *)
From Coq Require Import String Reals Lra Permutation.
From Verif Require Import Base ListUtil Pytree Io TreeUtil TreeUtilSpec TreeUtilProofs Integrator NumpyLoader Requests LoaderSpec NumpyLoaderProofs NumpyLoaderApi NumpyLoaderFinal
  DataCore DataSpec DataFinal FullMapper FullMapperSpec FullMapperProofs DeviceData DeviceDataProofs GenInstance
  Potential PotentialSpec PotentialProofs UnbiasedProofs PropertiesData PropertiesDevice.
Open Scope R_scope.

(** ** C41 *)
Theorem C41_minibatch_value :
  forall obs Sample State (prior : Sample -> R) (likelihood : lik_fn obs Sample State) (l : Sample -> orow obs -> R) has_state T strategy pot,
  evaluates likelihood l -> minibatch_potential prior likelihood has_state T strategy = Ok pot ->
  forall N x b n state, state_fits likelihood has_state state -> batch_of b n -> (0 < n)%nat -> (is_batched likelihood = true -> n <> 1%nat) ->
  exists new, pot N x b state None
  = Ok ((- INR N * (sum_upto n (fun j => l x (row (fst b) j)) / INR n) - prior x) / T, map (fun j => l x (row (fst b) j)) (seq 0 n), new).
Proof.
  intros obs Sample State prior likelihood l has_state T strategy pot Hl Hp N x b n state Hf Hb Hn H1.
  assert (E : pot = potential_function prior likelihood has_state T).
  { unfold minibatch_potential in Hp. destruct (is_batched likelihood); [|destruct strategy]; inversion Hp; reflexivity. }
  subst pot. eapply minibatch_value; eauto.
Qed.
(** with an explicit mask the padding does not contribute; the scale is still N / n *)
Theorem C41_masked_value :
  forall obs Sample State (prior : Sample -> R) (likelihood : lik_fn obs Sample State) (l : Sample -> orow obs -> R) has_state T strategy pot,
  evaluates likelihood l -> minibatch_potential prior likelihood has_state T strategy = Ok pot ->
  forall N x b n state mask, state_fits likelihood has_state state -> batch_of b n -> (0 < n)%nat -> length mask = n ->
  exists lks new, pot N x b state (Some mask)
  = Ok ((- INR N / INR n * sum_upto n (fun j => if nth j mask false then l x (row (fst b) j) else 0) - prior x) / T, lks, new).
Proof.
  intros obs Sample State prior likelihood l has_state T strategy pot Hl Hp N x b n state mask Hf Hb Hn Hm.
  assert (E : pot = potential_function prior likelihood has_state T).
  { unfold minibatch_potential in Hp. destruct (is_batched likelihood); [|destruct strategy]; inversion Hp; reflexivity. }
  subst pot. destruct (@masked_value _ _ _ likelihood l has_state Hl 1 x b n mask state Hf Hb Hn (le_n 1) Hm) as (st & E & _).
  unfold batch_evaluation, potential_function, batch_potential in *. destruct (batched_likelihood likelihood has_state state x b) as [lks states].
  destruct (new_state likelihood state states) as [new|]; cbn [bind] in *; [|discriminate].
  destruct (dot_mask lks mask) as [d|]; cbn [bind] in *; [|discriminate]. exists (snd lks), new. destruct Hb as [Hb _]. rewrite Hb in *.
  inversion E as [[E1 E2]]. do 3 f_equal. f_equal. rewrite <- (Ropp_involutive (sum_upto n _)), <- E1. cbn [INR]. field. apply not_0_INR. lia.
Qed.
(** the strategies that exist *)
Theorem C41_strategies :
  forall obs Sample State (prior : Sample -> R) (likelihood : lik_fn obs Sample State) has_state T strategy,
  (exists pot, minibatch_potential prior likelihood has_state T strategy = Ok pot) <-> is_batched likelihood = true \/ strategy <> POther.
Proof.
  intros. unfold minibatch_potential. destruct (is_batched likelihood), strategy; split; intros; eauto; try (right; discriminate).
  - destruct H as [p H]; discriminate.
  - destruct H as [H|H]; [discriminate|congruence].
Qed.
(** the state that the potential passes on: a batched likelihood's new state; otherwise the one of the first observation *)
Theorem C41_new_state_single :
  forall obs Sample State (prior : Sample -> R) f T N x (b : mbatch obs) (s : State) v lks new,
  potential_function prior (Single f) true T N x b (Some s) None = Ok (v, lks, new) -> (0 < length (snd b))%nat ->
  new = snd (f (Some s) x (row (fst b) 0)) /\ new <> None.
Proof.
  intros obs Sample State prior f T N x b s v lks new H Hn. unfold potential_function, batch_potential, batched_likelihood, new_state, mean_axis0 in H.
  cbn [is_batched call_state fst snd] in H. destruct (length (snd b)) as [|n]; [inversion Hn|]. cbn [seq map snd call_state] in H.
  destruct (snd (f (Some s) x (row (fst b) 0))) as [s'|]; cbn [bind call_state] in H; [|discriminate]. inversion H; subst. split; [reflexivity|discriminate].
Qed.
Theorem C41_new_state_batched :
  forall obs Sample State (prior : Sample -> R) f T N x (b : mbatch obs) (s : option State) v lks new,
  potential_function prior (Batched f) true T N x b s None = Ok (v, lks, new) -> new = snd (f s x (fst b)).
Proof.
  intros obs Sample State prior f T N x b s v lks new H. unfold potential_function, batch_potential, batched_likelihood, new_state in H.
  cbn [is_batched call_state fst snd] in H. destruct (f s x (fst b)) as [k s'] eqn:E. cbn [bind] in H.
  destruct (mean_axis0 _) as [m|]; cbn [bind] in H; inversion H; subst. reflexivity.
Qed.

(** ** C42: host loader, full_reference_data; any earlier history, any number of evaluations, other programs active in between *)
Section Full.
Context {G obs Sample State : Type}.
Variable choice_repl : G -> nat -> nat -> G * list nat.
Variable choice_perm : G -> nat -> G * list nat.
Variable rng_of_seed : nat -> G.
Hypothesis Hperm : perm_oracle choice_perm.
Hypothesis Hrepl : repl_oracle choice_repl.
Notation wstep := (@DataCore.wstep G obs choice_repl choice_perm rng_of_seed).
Notation mstep := (@FullMapper.mstep G obs (option State) (res R) choice_repl choice_perm rng_of_seed).
Variables (prior : Sample -> R) (likelihood : lik_fn obs Sample State) (l : Sample -> orow obs -> R) (has_state : bool) (T : R).
Hypothesis Hl : evaluates likelihood l.

Lemma full_is strategy ev : full_potential likelihood has_state strategy = Ok ev -> ev = batch_evaluation likelihood has_state.
Proof. unfold full_potential. destruct strategy; [| |discriminate|]; destruct (minibatch_potential _ _ _ _ _); cbn [bind]; intros H; inversion H; reflexivity. Qed.
Lemma loader_nonempty (data : list (string * list obs)) (l0 : loader G obs) : make_loader data = Ok l0 -> (0 < l_count l0)%nat -> data <> [].
Proof. intros H Hc ->. inversion H; subst. inversion Hc. Qed.

Theorem C42_full_potential :
  forall (data : list (string * list obs)) l0 h1 w1 o1 ca mb w2 k strategy ev,
  make_loader data = Ok l0 -> run wstep (w_init l0) h1 = (w1, o1) ->
  wstep w1 (WFull ca mb) = (w2, WoInit (Ok k)) ->
  full_potential likelihood has_state strategy = Ok ev ->
  forall evals : list (Sample * option State * (nat -> list (wop G))),
  (forall x state env, In (x, state, env) evals ->
     state_fits likelihood has_state state /\ forall i, hands_off (length (l_chains (w_loader w1))) (env i) /\ not_used k (env i)) ->
  forall i x state env, nth_error evals i = Some (x, state, env) ->
  exists results new,
    nth_error (snd (run_maps choice_repl choice_perm rng_of_seed k (l_count l0) mb w2
                      (map (fun e => let '(x, state, env) := e in (ev (l_count l0) x, state, env)) evals))) i = Some (Ok (results, new)) /\
    full_value prior T x results = Ok (posterior_potential prior l T data (l_count l0) x).
Proof.
  intros data l0 h1 w1 o1 ca mb w2 k strategy ev Hm Hr Hw Hev evals Hev2 i x state env Hi.
  rewrite (full_is _ _ Hev) in *. clear Hev ev.
  destruct (@C10_full_map G obs choice_repl choice_perm rng_of_seed Hperm Hrepl (option State) (res R) data l0 h1 w1 o1 ca mb w2 k Hm Hr Hw) as (bs & Hp & Hmap).
  rewrite Hmap.
  2:{ intros fn c e Hin. apply in_map_iff in Hin. destruct Hin as ([[x' s'] e'] & E & Hin). inversion E; subst. apply (Hev2 _ _ _ Hin). }
  rewrite map_map, nth_error_map, Hi. cbn [option_map].
  set (Z := scan_spec (fun b c => batch_evaluation likelihood has_state (l_count l0) x b (snd b) c) bs state). exists (fst Z), (snd Z). split; [rewrite <- surjective_pairing; reflexivity|]. subst Z.
  assert (Hs : (0 < mb)%nat /\ (mb <= l_count l0)%nat).
  { destruct (@world_reach G obs choice_repl choice_perm rng_of_seed data l0 h1 w1 o1 Hm Hr) as [_ (_ & HD & _)].
    simpl in Hw. unfold full_init in Hw. rewrite HD in Hw. destruct (Nat.ltb_spec (l_count l0) mb); [discriminate|].
    destruct (Nat.eqb_spec mb 0); [discriminate|lia]. }
  destruct (Hev2 x state env (nth_error_In _ _ Hi)) as [Hf _].
  eapply (@pass_value _ _ _ _ _ _ Hl prior T _ _ x mb _ (fun b => b)); auto; try (now destruct Hs); [destruct Hs; lia|].
  apply (loader_nonempty _ _ Hm). destruct Hs; lia.
Qed.

(** the same with full_data_mapper, used by any number of concurrent callers *)
Theorem C42_concurrent :
  forall (data : list (string * list obs)) l0 h1 w1 o1 ca mb (m m' : mapper G obs (option State) (res R)) h outs strategy ev,
  make_loader data = Ok l0 -> run wstep (w_init l0) h1 = (w1, o1) ->
  make_mapper choice_repl choice_perm ca mb w1 = Ok m ->
  full_potential likelihood has_state strategy = Ok ev ->
  all_polite (mstep ca mb) m h -> run (mstep ca mb) m h = (m', outs) ->
  forall i results new, nth_error outs i = Some (MoFinish (Ok (results, new))) ->
  exists j fn c, nth_error h i = Some (MFinish j) /\ nth_error (started h outs) j = Some (fn, c) /\
    forall x, fn = ev (l_count l0) x -> state_fits likelihood has_state c ->
    full_value prior T x results = Ok (posterior_potential prior l T data (l_count l0) x).
Proof.
  intros data l0 h1 w1 o1 ca mb m m' h outs strategy ev Hm Hr Hmk Hev Hpol Hrun i results new Hi. rewrite (full_is _ _ Hev) in *. clear Hev ev.
  destruct (C14_concurrent_maps choice_repl choice_perm rng_of_seed Hperm Hrepl data l0 h1 w1 o1 ca mb m m' h outs Hm Hr Hmk Hpol Hrun) as ((bs & Hp & Hv) & _).
  destruct (Hv i (results, new) Hi) as (j & fn & c & E1 & E2 & E3). exists j, fn, c. split; auto. split; auto.
  intros x -> Hf. replace results with (fst (results, new)) by reflexivity. rewrite E3.
  destruct (@make_mapper_ok G obs (option State) (res R) choice_repl choice_perm rng_of_seed Hperm Hrepl data l0 h1 w1 o1 ca mb m Hm Hr Hmk) as (Hmb & HN & _ & _ & _).
  eapply (@pass_value _ _ _ _ _ _ Hl prior T _ _ x mb _ (fun b => b)); auto; [lia|]. apply (loader_nonempty _ _ Hm). lia.
Qed.
End Full.

(** device loader: the start position of a map does not matter for the sum *)
Lemma row_rotate obs (data : list (string * list obs)) N r j : (forall ka, In ka data -> length (snd ka) = N) -> (r < N)%nat -> (j < N)%nat ->
  row (rotate_data data r) j = row data ((r + j) mod N).
Proof.
  intros Hd Hr Hj. unfold row, rotate_data. rewrite map_map. apply map_ext_in. intros ka Hka. cbn [fst snd]. f_equal.
  rewrite rotate_nth; rewrite (Hd _ Hka); auto.
Qed.
Lemma posterior_rotate obs Sample (prior : Sample -> R) (l : Sample -> orow obs -> R) T (data : list (string * list obs)) N r x :
  (forall ka, In ka data -> length (snd ka) = N) -> posterior_potential prior l T (rotate_data data r) N x = posterior_potential prior l T data N x.
Proof.
  intros Hd. destruct (le_lt_dec N r) as [Hr|Hr].
  { replace (rotate_data data r) with data; [reflexivity|]. unfold rotate_data. rewrite <- (map_id data) at 1. apply map_ext_in. intros [s a] Ha. cbn [fst snd].
    specialize (Hd _ Ha). cbn [snd] in Hd. unfold rotate. rewrite skipn_all2, firstn_all2 by lia. reflexivity. }
  unfold posterior_potential. do 3 f_equal.
  rewrite <- (@sum_perm (fun j => l x (row data j)) N (rotate (seq 0 N) r)) by apply rotate_perm.
  apply sum_upto_ext. intros j Hj. rewrite (row_rotate _ data N r j Hd Hr Hj), rotate_seq by auto. reflexivity.
Qed.
Theorem C42_device :
  forall obs Sample State (prior : Sample -> R) (likelihood : lik_fn obs Sample State) (l : Sample -> orow obs -> R) has_state T strategy ev
    (data : list (string * list obs)) N ca mb bs offset line,
  evaluates likelihood l -> full_potential likelihood has_state strategy = Ok ev ->
  (0 < N)%nat -> data <> [] -> (forall ka, In ka data -> length (snd ka) = N) ->
  dev_full N ca mb = Ok bs -> dev_init N offset = Ok line ->
  forall evals : list (Sample * option State), (forall x state, In (x, state) evals -> state_fits likelihood has_state state) ->
  forall i x state, nth_error evals i = Some (x, state) ->
  exists results new,
    nth_error (dev_maps data N bs line (map (fun e => (ev N (fst e), snd e)) evals)) i = Some (Ok (results, new)) /\
    full_value prior T x results = Ok (posterior_potential prior l T data N x).
Proof.
  intros obs Sample State prior likelihood l has_state T strategy ev data N ca mb bs offset line Hl Hev HN Hne Hd Hfull Hinit evals Hst i x state Hi.
  rewrite (full_is _ _ _ _ Hev) in *. clear Hev ev.
  pose proof (@C11_device_map_partial (option State) (res R) obs data N ca mb bs offset line HN Hd Hfull Hinit) as (r & pass & Hr0 & Hp & _ & Hmap).
  rewrite Hmap, map_length.
  assert (Hc : nth_error (combine (seq 0 (length evals)) (map (fun e => (batch_evaluation likelihood has_state N (fst e), snd e)) evals)) i = Some (i, (batch_evaluation likelihood has_state N x, state))).
  { rewrite (nth_error_nth' _ (O, (batch_evaluation likelihood has_state N x, state))).
      2:{ rewrite combine_length, seq_length, map_length, Nat.min_id. apply nth_error_Some. congruence. }
      rewrite combine_nth by (now rewrite seq_length, map_length). rewrite seq_nth by (apply nth_error_Some; congruence). cbn [plus].
      do 2 f_equal. apply nth_error_nth. rewrite nth_error_map, Hi. reflexivity. }
  set (Z := scan_spec (fun b c => batch_evaluation likelihood has_state N x (fst b, repeat true bs) (snd b) c) (pass i) state). exists (fst Z), (snd Z). split.
  { etransitivity; [apply nth_error_map|]. etransitivity; [apply (f_equal (option_map _) Hc)|]. cbn [option_map]. rewrite <- surjective_pairing. reflexivity. }
  subst Z. rewrite <- (posterior_rotate _ _ prior l T data N (r i) x Hd).
  assert (Hbs : (0 < bs)%nat).
  { unfold dev_full in Hfull. destruct (N <? mb)%nat; [discriminate|]. destruct (Nat.eqb_spec ca 0); inversion Hfull; lia. }
  eapply (@pass_value _ _ _ _ _ _ Hl prior T _ _ x bs _ (fun b => (fst b, repeat true bs))); auto.
  - apply (Hst x state). eapply nth_error_In; eauto.
  - unfold rotate_data. destruct data; [congruence|discriminate].
  - intros b. cbn [fst snd]. split; [reflexivity|]. intros _. apply repeat_length.
Qed.

(** ** C43: averages of the stochastic potential.  [values pot N x state bs vs]: vs are the values of the potential on the batches bs. *)
Section Unbiased.
Context {G obs Sample State : Type}.
Variable choice_repl : G -> nat -> nat -> G * list nat.
Variable choice_perm : G -> nat -> G * list nat.
Hypothesis Hperm : perm_oracle choice_perm.
Variables (prior : Sample -> R) (likelihood : lik_fn obs Sample State) (l : Sample -> orow obs -> R) (has_state : bool) (T : R).
Hypothesis Hl : evaluates likelihood l.
Variables (data : list (string * list obs)) (N mb : nat).
Hypothesis Hd : data <> [].
Hypothesis HN : forall ka, In ka data -> length (snd ka) = N.
Hypothesis HN0 : (0 < N)%nat.
Hypothesis Hmb : (0 < mb)%nat.
Hypothesis Hb1 : is_batched likelihood = true -> mb <> 1%nat.
Variables (x : Sample) (state : option State) (strategy : pot_strategy) (pot : nat -> Sample -> mbatch obs -> option State -> option (list bool) -> res (R * list R * option State)).
Hypothesis Hf : state_fits likelihood has_state state.
Hypothesis Hpot : minibatch_potential prior likelihood has_state T strategy = Ok pot.
Notation full := (posterior_potential prior l T data N x).

Lemma pot_is : pot = potential_function prior likelihood has_state T.
Proof. clear -Hpot. unfold minibatch_potential in Hpot. destruct (is_batched likelihood); [|destruct strategy]; inversion Hpot; reflexivity. Qed.
Lemma average_of (L : list (list nat * list bool)) : L <> [] ->
  (forall p, In p L -> length (fst p) = mb /\ length (snd p) = mb /\ Forall (fun i => (i < N)%nat) (fst p)) ->
  (forall f : nat -> R, INR N * rsum (map (fun p => sum_upto mb (fun j => f (nth j (fst p) 0%nat))) L) = INR mb * INR (length L) * sum_upto N f) ->
  exists vs, values pot N x state (map (fun p => (map (fun ka => (fst ka, select (snd ka) (fst p))) data, snd p)) L) vs /\ average vs = full.
Proof.
  intros HL H1 H2. rewrite pot_is. eexists. split; [eapply values_exist; eauto|].
  eapply (@average_value obs data N HN0 Sample State likelihood); eauto.
Qed.

(** drawing with replacement: average over all equally likely batches *)
Theorem C43_with_replacement :
  exists vs, values pot N x state (map (batch_at data) (tuples mb N)) vs /\ average vs = full.
Proof.
  destruct (average_of (map (fun t => (t, repeat true (length t))) (tuples mb N))) as (vs & V1 & V2).
  - intros H. apply (f_equal (@length _)) in H. rewrite map_length, length_tuples in H. cbn [length] in H. apply Nat.pow_eq_0_iff in H. lia.
  - intros p Hp. apply in_map_iff in Hp. destruct Hp as (t & <- & Ht). apply tuples_spec in Ht. destruct Ht as [Ht1 Ht2]. cbn [fst snd]. rewrite repeat_length. auto.
  - intros f. rewrite map_map, map_length, length_tuples. cbn [fst]. apply sum_tuples.
  - exists vs. split; auto. rewrite map_map in V1. exact V1.
Qed.
(** [tuples mb N] are all index tuples, each once *)
Theorem C43_tuples_are_all : NoDup (tuples mb N) /\ forall idx, In idx (tuples mb N) <-> length idx = mb /\ Forall (fun i => (i < N)%nat) idx.
Proof. split; [apply tuples_NoDup|intros; apply tuples_spec]. Qed.

(** drawing in a random order: the average over all orders, at every position *)
Theorem C43_random_order :
  forall ps base, NoDup ps -> (forall p, In p ps <-> Permutation p (seq 0 N)) -> (base + mb <= N)%nat ->
  exists vs, values pot N x state (map (fun p => batch_at data (firstn mb (skipn base p))) ps) vs /\ average vs = full.
Proof.
  intros ps base Hnd Hall Hbase.
  assert (Hlen : forall p, In p ps -> length p = N) by (intros p Hp; apply Hall in Hp; rewrite (Permutation_length Hp); apply seq_length).
  assert (Hl2 : forall p, In p ps -> length (firstn mb (skipn base p)) = mb) by (intros p Hp; rewrite firstn_length, skipn_length, (Hlen _ Hp); lia).
  destruct (average_of (map (fun p => (firstn mb (skipn base p), repeat true (length (firstn mb (skipn base p))))) ps)) as (vs & V1 & V2).
  - intros H. apply map_eq_nil in H. assert (X : In (seq 0 N) ps) by (apply Hall; reflexivity). rewrite H in X. destruct X.
  - intros q Hq. apply in_map_iff in Hq. destruct Hq as (p & <- & Hp). cbn [fst snd]. rewrite repeat_length, (Hl2 _ Hp). split; [reflexivity|]. split; [reflexivity|].
    apply Forall_forall. intros i Hi. apply Hall in Hp. assert (X : In i (seq 0 N)) by (apply (Permutation_in _ Hp); eapply In_skipn, In_firstn; eauto). apply in_seq in X. lia.
  - intros f. rewrite map_map, map_length. cbn [fst].
    rewrite (map_ext_in _ (fun p => sum_upto mb (fun j => f (nth (base + j) p 0%nat)))).
    2:{ intros p Hp. apply sum_upto_ext. intros j Hj. f_equal. rewrite nth_firstn_lt, nth_skipn_add by auto. reflexivity. }
    assert (Sm : forall m, (base + m <= N)%nat -> INR N * rsum (map (fun p => sum_upto m (fun j => f (nth (base + j) p 0%nat))) ps) = INR m * INR (length ps) * sum_upto N f); [|apply Sm; auto].
    induction m as [|m IH]; intros Hm.
    + rewrite (map_ext (fun p => sum_upto 0 (fun j => f (nth (base + j) p 0%nat))) (fun _ => 0 * 0)) by (intros; unfold sum_upto; cbn; lra). rewrite rsum_map_scale. cbn. lra.
    + rewrite (map_ext (fun p => sum_upto (S m) (fun j => f (nth (base + j) p 0%nat))) (fun p => sum_upto m (fun j => f (nth (base + j) p 0%nat)) + f (nth (base + m) p 0%nat))) by (intros; rewrite sum_upto_S; reflexivity).
      rewrite rsum_map_plus, Rmult_plus_distr_l, IH, (position_uniform Hnd Hall), S_INR by lia. lra.
  - exists vs. split; auto. rewrite map_map in V1. exact V1.
Qed.

(** one epoch of the loader's in-epoch stream, if the batch size divides the number of observations *)
Theorem C43_epoch :
  forall g e C, N = (C * mb)%nat ->
  exists vs, values pot N x state (map (fun i => access_batch choice_repl choice_perm data N (REpochs mb g) (e * C + i)) (seq 0 C)) vs /\ average vs = full.
Proof.
  intros g e C HC. assert (HC0 : (0 < C)%nat) by (destruct C; lia).
  destruct (average_of (map (fun i => spec_batch choice_repl choice_perm N (REpochs mb g) (e * C + i)) (seq 0 C))) as (vs & V1 & V2).
  - intros H. apply map_eq_nil in H. destruct C; [lia|discriminate].
  - intros p Hp. apply in_map_iff in Hp. destruct Hp as (i & <- & Hi). cbn [spec_batch fst snd]. rewrite !map_length, !seq_length. split; [reflexivity|]. split; [reflexivity|].
    apply Forall_forall. intros t Ht. apply in_map_iff in Ht. destruct Ht as (j & <- & Hj). destruct (Nat.ltb_spec ((e * C + i) mod ceil_div N mb * mb + j) N); [|lia]. apply nth_perm_lt; auto.
  - intros f. rewrite map_map, rsum_map_seq, map_length, seq_length, (epochs_sum choice_repl Hperm f g e HC0 HC Hmb), HC, mult_INR. lra.
  - exists vs. split; auto. rewrite map_map in V1. exact V1.
Qed.
(** c consecutive batches of the shuffled stream that cover the data m times *)
Theorem C43_shuffled :
  forall g k c e m, (0 < c)%nat -> (k * mb = e * N)%nat -> (c * mb = m * N)%nat ->
  exists vs, values pot N x state (map (fun i => access_batch choice_repl choice_perm data N (RShuffle mb g) (k + i)) (seq 0 c)) vs /\ average vs = full.
Proof.
  intros g k c e m Hc Hk Hm.
  destruct (average_of (map (fun i => spec_batch choice_repl choice_perm N (RShuffle mb g) (k + i)) (seq 0 c))) as (vs & V1 & V2).
  - intros H. apply map_eq_nil in H. destruct c; [lia|discriminate].
  - intros p Hp. apply in_map_iff in Hp. destruct Hp as (i & <- & Hi). cbn [spec_batch fst snd]. rewrite map_length, repeat_length, seq_length. split; [reflexivity|]. split; [reflexivity|].
    apply Forall_forall. intros t Ht. apply in_map_iff in Ht. destruct Ht as (j & <- & Hj). apply perm_stream_lt; auto.
  - intros f. rewrite map_map, rsum_map_seq, map_length, seq_length.
    rewrite (@sum_upto_ext c _ (fun i => sum_upto mb (fun j => f (perm_stream choice_perm g N ((k + i) * mb + j))))).
    + rewrite (shuffle_sum choice_repl Hperm f g mb k c e m HN0 Hk Hm). rewrite <- !Rmult_assoc. f_equal. rewrite <- !mult_INR. f_equal. lia.
    + intros i Hi. apply sum_upto_ext. intros j Hj. f_equal. cbn [spec_batch fst].
      rewrite (@nth_indep _ _ _ 0%nat ((fun j => perm_stream choice_perm g N ((k + i) * mb + j)) 0%nat)) by (rewrite map_length, seq_length; auto).
      rewrite (map_nth (fun j => perm_stream choice_perm g N ((k + i) * mb + j))), seq_nth by auto. reflexivity.
  - exists vs. split; auto. rewrite map_map in V1. exact V1.
Qed.
End Unbiased.

(** ** Refuted parts *)
Section Witness.
Local Open Scope string_scope.
(** log likelihood of an observation y: the sample times y *)
Definition w_lik : lik_fn R R unit := Single (fun _ x r => (match r with [(_, Some y)] => x * y | _ => 0 end, None)).
Definition w_lik_batched : lik_fn R R unit := Batched (fun _ x d => match d with [(_, ys)] => (([length ys; 1%nat], map (fun y => x * y) ys), None) | _ => (([length (snd (hd ("", []) d)); 1%nat], repeat 0 (length (snd (hd ("", []) d)))), None) end).
Definition w_l (x : R) (r : orow R) : R := match r with [(_, Some y)] => x * y | _ => 0 end.
Definition w_data : list (string * list R) := [("y", [1; 2; 3])].
Lemma w_evaluates : evaluates w_lik w_l. Proof. intros s x r. reflexivity. Qed.
Lemma w_evaluates_batched : evaluates w_lik_batched w_l.
Proof.
  intros s x d n Hd Hn. cbn. destruct d as [|[k ys] [|kb d]]; [congruence| |]; cbn [fst snd hd].
  - specialize (Hn _ (or_introl eq_refl)). cbn [snd] in Hn. subst n. split; auto.
    rewrite <- (map_nth_seq 0 ys) at 1. rewrite map_map. apply map_ext_in. intros j Hj. apply in_seq in Hj. cbn. rewrite (nth_error_nth' ys 0) by lia. reflexivity.
  - specialize (Hn _ (or_introl eq_refl)). cbn [snd] in Hn. subst n. split; auto.
    clear. generalize 0%nat. induction (length ys) as [|n IH]; intros m; cbn; [reflexivity|]. f_equal; [destruct (nth_error ys m); reflexivity|]. apply IH.
Qed.
(** the last batch of an epoch, three observations in batches of two: observation 3 and one padding entry (observation 1, mask False) *)
Definition w_last : mbatch R := access_batch lin_repl rot_perm w_data 3 (REpochs 2 0%nat) 1.
Lemma w_last_is : w_last = ([("y", [3; 1])], [true; false]). Proof. reflexivity. Qed.
Lemma w_fits : state_fits w_lik false (None : option unit). Proof. reflexivity. Qed.
Theorem C41_padding_refuted :
  exists (b : mbatch R) lks st, b = access_batch lin_repl rot_perm w_data 3 (REpochs 2 0%nat) 1 /\ snd b = [true; false] /\
    (** value with the padding entry: the mean over both rows *)
    potential_function (fun _ => 0) w_lik false 1 3 1 b (None : option unit) None = Ok (-6, lks, st) /\
    (** the mean over the valid observation alone *)
    - INR 3 * w_l 1 (row (fst b) 0) = -9.
Proof.
  exists w_last. destruct (@C41_minibatch_value R R unit (fun _ => 0) w_lik w_l false 1 PMap _ w_evaluates eq_refl 3 1 w_last 2 None w_fits) as (st & E).
  { split; [reflexivity|]. split; [discriminate|]. intros ka [<-|[]]. reflexivity. } { auto. } { discriminate. }
  eexists _, st. split; [reflexivity|]. split; [reflexivity|]. split.
  - rewrite E. do 3 f_equal. unfold sum_upto. cbn. lra.
  - cbn. lra.
Qed.
(** a batched likelihood and a batch of one observation: the squeezed likelihoods have no axis to average over *)
Theorem C41_batch_of_one_refuted :
  exists b : mbatch R, batch_of b 1 /\ potential_function (fun _ => 0) w_lik_batched false 1 3 1 b (None : option unit) None = Exc ValueError.
Proof. exists ([("y", [2])], [true]). split; [|reflexivity]. split; [reflexivity|]. split; [discriminate|]. intros ka [<-|[]]. reflexivity. Qed.
(** with padding (mb does not divide N) the average over an epoch is biased *)
Theorem C43_padded_epoch_refuted :
  exists vs, values (potential_function (fun _ => 0) w_lik false 1) 3 1 (None : option unit)
      (map (fun i => access_batch lin_repl rot_perm w_data 3 (REpochs 2 0%nat) i) (seq 0 2)) vs /\
    average vs = - (21 / 4) /\ posterior_potential (fun _ => 0) w_l 1 w_data 3 1 = -6.
Proof.
  exists [- (9 / 2); -6]. split; [|split].
  - repeat constructor.
    + destruct (@C41_minibatch_value R R unit (fun _ => 0) w_lik w_l false 1 PMap _ w_evaluates eq_refl 3 1 (access_batch lin_repl rot_perm w_data 3 (REpochs 2 0%nat) 0) 2 None w_fits) as (st & E).
      { split; [reflexivity|]. split; [discriminate|]. intros ka [<-|[]]. reflexivity. } { auto. } { discriminate. }
      eexists _, st. rewrite E. do 3 f_equal. unfold sum_upto. cbn. lra.
    + destruct (@C41_minibatch_value R R unit (fun _ => 0) w_lik w_l false 1 PMap _ w_evaluates eq_refl 3 1 (access_batch lin_repl rot_perm w_data 3 (REpochs 2 0%nat) 1) 2 None w_fits) as (st & E).
      { split; [reflexivity|]. split; [discriminate|]. intros ka [<-|[]]. reflexivity. } { auto. } { discriminate. }
      eexists _, st. rewrite E. do 3 f_equal. unfold sum_upto. cbn. lra.
  - unfold average. rewrite !rsum_cons, rsum_nil. cbn. lra.
  - unfold posterior_potential, sum_upto. cbn. lra.
Qed.
(** non-vacuity: the values of a concrete potential *)
Example W41 : forall N, exists st, potential_function (fun x => 10 * x) w_lik_batched false 2 N 1 ([("y", [1; 2; 3])], [true; true; true]) (None : option unit) None
  = Ok ((- INR N * 2 - 10) / 2, [1; 2; 3], st).
Proof.
  intros N. destruct (@C41_minibatch_value R R unit (fun x => 10 * x) w_lik_batched w_l false 2 POther _ w_evaluates_batched eq_refl N 1 ([("y", [1; 2; 3])], [true; true; true]) 3 None I) as (st & E).
  { split; [reflexivity|]. split; [discriminate|]. intros ka [<-|[]]. reflexivity. } { auto. } { discriminate. }
  exists st. rewrite E. f_equal. f_equal. f_equal; [unfold sum_upto; cbn; unfold Rdiv; field|cbn; repeat f_equal; lra].
Qed.
Example W42 : full_value (fun _ => 0) 1 1 [Ok (-3); Ok (-3)] = Ok (posterior_potential (fun _ => 0) w_l 1 w_data 3 1).
Proof. unfold full_value, posterior_potential, sum_upto. cbn. f_equal. unfold rsum. cbn. lra. Qed.
Example W42_device : dev_full 3 2 2 = Ok 2%nat /\ dev_init 3 1 = Ok 1%nat. Proof. split; reflexivity. Qed.
Example W42_strategy : exists ev, full_potential w_lik false PVmap = Ok ev. Proof. eexists. reflexivity. Qed.
(** the permutations of three observations, for [C43_random_order] *)
Example W43 : let ps := [[0;1;2];[0;2;1];[1;0;2];[1;2;0];[2;0;1];[2;1;0]]%nat in NoDup ps /\ forall p, In p ps -> Permutation p (seq 0 3).
Proof.
  split.
  - repeat constructor; cbn; intuition discriminate.
  - intros p Hp. cbn in Hp. assert (X : forall q, (length q =? 3)%nat && forallb (fun i => existsb (Nat.eqb i) q) [0;1;2]%nat = true -> Permutation q (seq 0 3)).
    { intros q Hq. apply andb_prop in Hq. destruct Hq as [H1 H2]. apply Nat.eqb_eq in H1. symmetry. apply NoDup_Permutation_bis; [apply seq_NoDup|rewrite seq_length; lia|].
      intros i Hi. rewrite forallb_forall in H2. specialize (H2 i Hi). apply existsb_exists in H2. destruct H2 as (k & Hk & E). apply Nat.eqb_eq in E. now subst. }
    repeat (destruct Hp as [<-|Hp]; [apply X; reflexivity|]). destruct Hp.
Qed.
End Witness.

Print Assumptions C41_minibatch_value.
Print Assumptions C41_masked_value.
Print Assumptions C41_padding_refuted.
Print Assumptions C41_batch_of_one_refuted.
Print Assumptions C42_full_potential.
Print Assumptions C42_concurrent.
Print Assumptions C42_device.
Print Assumptions C43_with_replacement.
Print Assumptions C43_random_order.
Print Assumptions C43_epoch.
Print Assumptions C43_shuffled.
Print Assumptions C43_padded_epoch_refuted.
