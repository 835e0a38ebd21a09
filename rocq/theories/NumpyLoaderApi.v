(** Loader-level lemmas: what a client sees through register / get_batches / save / load. *)
From Verif Require Import Base ListUtil NumpyLoader LoaderSpec NumpyLoaderProofs.
From Coq Require String.
From Coq Require Import ZifyNat ZifyBool.
Set Implicit Arguments.

Section Sel.
Context {A : Type}.
Lemma select_spec (a : list A) idx : Forall (fun i => i < length a) idx ->
  gather a idx = Ok (select a idx).
Proof.
  induction idx as [|i idx IH]; intros H; simpl; auto. inversion H; subst.
  destruct (nth_error a i) eqn:E.
  - rewrite IH by assumption. reflexivity.
  - apply nth_error_None in E. lia.
Qed.
Lemma select_length (a : list A) idx : Forall (fun i => i < length a) idx ->
  length (select a idx) = length idx.
Proof.
  induction idx as [|i idx IH]; intros H; simpl; auto. inversion H; subst.
  rewrite app_length, IH by assumption.
  destruct (nth_error a i) eqn:E; [reflexivity|]. apply nth_error_None in E. lia.
Qed.
Lemma select_app (a : list A) i j : select a (i ++ j) = select a i ++ select a j.
Proof. apply flat_map_app. Qed.
Lemma select_seq (a : list A) : select a (seq 0 (length a)) = a.
Proof.
  enough (forall pre, select (pre ++ a) (seq (length pre) (length a)) = a) as H by (apply (H [])).
  induction a as [|x a IH]; intros pre; simpl; auto.
  rewrite nth_error_app2, Nat.sub_diag by lia. simpl. f_equal.
  specialize (IH (pre ++ [x])). rewrite <- app_assoc, app_length in IH. simpl in IH.
  rewrite Nat.add_1_r in IH. exact IH.
Qed.
Lemma select_perm (a : list A) idx : Permutation idx (seq 0 (length a)) -> Permutation (select a idx) a.
Proof. intros H. rewrite <- (select_seq a) at 2. now apply Permutation_flat_map. Qed.

Lemma valid_select (a : list A) idx mask : Forall (fun i => i < length a) idx ->
  length idx = length mask ->
  valid (select a idx, mask) = select a (valid (idx, mask)).
Proof.
  unfold valid; simpl. revert mask.
  induction idx as [|i idx IH]; intros [|m mask] H Hl; simpl in *; try lia; auto.
  inversion H; subst. destruct (nth_error a i) eqn:E.
  - simpl. destruct m; simpl; rewrite IH by (auto; lia); [rewrite E|]; reflexivity.
  - apply nth_error_None in E. lia.
Qed.

Lemma select_concat (a : list A) ll : select a (concat ll) = concat (map (select a) ll).
Proof. induction ll; simpl; auto. rewrite select_app. congruence. Qed.
End Sel.

Section Api.
Context {G obs : Type}.
Variable choice_repl : G -> nat -> nat -> G * list nat.
Variable choice_perm : G -> nat -> G * list nat.
Variable rng_of_seed : nat -> G.
Hypothesis Hperm : perm_oracle choice_perm.
Hypothesis Hrepl : repl_oracle choice_repl.

Notation loader := (loader G obs).
Notation lstep := (@lstep G choice_repl choice_perm rng_of_seed obs).
Notation get_batches := (@get_batches G choice_repl choice_perm obs).
Notation spec_batch := (spec_batch choice_repl choice_perm).
Notation ChainInv := (ChainInv choice_repl choice_perm).
Notation chain_output := (@chain_output G obs choice_repl choice_perm).

(** ** data slicing *)
Lemma slice_rows_ok (a : list obs) rows :
  Forall (Forall (fun i => i < length a)) rows -> slice_rows a rows = Ok (map (select a) rows).
Proof.
  induction rows as [|r rows IH]; intros H; simpl; auto. inversion H; subst.
  rewrite select_spec by assumption. simpl. rewrite IH by assumption. reflexivity.
Qed.

Lemma slice_data_ok (data : list (String.string * list obs)) N rows :
  (forall ka, In ka data -> length (snd ka) = N) ->
  Forall (Forall (fun i => i < N)) rows ->
  slice_data data rows = Ok (map (fun ka => (fst ka, map (select (snd ka)) rows)) data).
Proof.
  induction data as [|[k a] data IH]; intros Hd H; simpl; auto.
  rewrite slice_rows_ok.
  - simpl. rewrite IH; auto. intros; apply Hd; simpl; auto.
  - assert (length a = N) as -> by (apply (Hd (k, a)); simpl; auto). assumption.
Qed.

(** ** loader invariants *)
Definition DataOk (data : list (String.string * list obs)) (N : nat) (l : loader) : Prop :=
  l_data l = data /\ l_count l = N /\ (forall ka, In ka data -> length (snd ka) = N).

(** auxiliary definition of a statement or a proof; models no code of /repo *)
Definition AtChain (data : list (String.string * list obs)) N r cache cid n (l : loader) : Prop :=
  DataOk data N l /\ exists c, nth_error (l_chains l) cid = Some c /\ ChainInv N r cache (n * cache) c.

Lemma DataOk_step data N l op : DataOk data N l -> DataOk data N (fst (lstep l op)).
Proof.
  intros H. destruct op as [ca mb ie sh sd|ca mb|cid|cid ck]; simpl.
  - unfold register_random. destruct (_ <? _); [exact H|]. destruct (_ && _); [exact H|].
    destruct (_ =? _); exact H.
  - unfold register_ordered. destruct (_ <=? _); exact H.
  - unfold NumpyLoader.get_batches. destruct (nth_error _ _); [|exact H].
    destruct (get_indices _ _ _ _) as [[c' bs]|e]; [|exact H].
    destruct (slice_data _ _); exact H.
  - destruct (nth_error _ _); [|exact H]. destruct ck; [destruct (c_rng c)|]; exact H.
Qed.

Lemma DataOk_run data N ops : forall l, DataOk data N l -> DataOk data N (fst (run lstep l ops)).
Proof.
  induction ops as [|op ops IH]; intros l H; simpl; auto.
  pose proof (DataOk_step op H) as H1. destruct (lstep l op) as [l1 o]. simpl in H1.
  specialize (IH l1 H1). destruct (run lstep l1 ops). exact IH.
Qed.

Lemma make_loader_ok data (l : loader) : make_loader data = Ok l ->
  DataOk data (l_count l) l /\ l_chains l = [].
Proof.
  unfold make_loader. destruct data as [|[k a] data].
  - intros H; inversion H; subst. repeat split. intros ka [].
  - destruct (existsb _ _) eqn:E; intros H; inversion H; subst. clear H. repeat split.
    simpl l_count. intros ka Hin.
    destruct (Nat.eqb_spec (length (snd ka)) (length a)) as [|Hne]; [assumption|].
    assert (existsb (fun na => negb (length (snd na) =? length a)) ((k, a) :: data) = true) as E2.
    { apply existsb_exists. exists ka. split; [assumption|].
      destruct (Nat.eqb_spec (length (snd ka)) (length a)); [contradiction|reflexivity]. }
    congruence.
Qed.

(** operations that do not name chain [cid] leave its entry alone *)
Definition targets (cid : nat) (op : lop G) : Prop :=
  match op with GetBatches c => c = cid | LoadState c _ => c = cid | _ => False end.

Lemma other_step cid op l : cid < length (l_chains l) -> ~ targets cid op ->
  nth_error (l_chains (fst (lstep l op))) cid = nth_error (l_chains l) cid.
Proof.
  intros Hc Ht. destruct op as [ca mb ie sh sd|ca mb|c|c ck]; simpl in *.
  - unfold register_random. destruct (_ <? _); [auto|]. destruct (_ && _); [auto|].
    destruct (_ =? _); auto. simpl. now apply nth_error_app1.
  - unfold register_ordered. destruct (_ <=? _); auto. simpl. now apply nth_error_app1.
  - unfold NumpyLoader.get_batches. destruct (nth_error (l_chains l) c); [|auto].
    destruct (get_indices _ _ _ _) as [[c' bs]|e]; [|auto].
    destruct (slice_data _ _); simpl; apply nth_error_upd_other; auto.
  - destruct (nth_error (l_chains l) c) as [cc|]; [|auto].
    destruct ck; [destruct (c_rng cc); auto|]; simpl; apply nth_error_upd_other; auto.
Qed.

Lemma chains_grow op l : length (l_chains l) <= length (l_chains (fst (lstep l op))).
Proof.
  destruct op as [ca mb ie sh sd|ca mb|c|c ck]; simpl.
  - unfold register_random. destruct (_ <? _); [auto|]. destruct (_ && _); [auto|].
    destruct (_ =? _); auto. simpl. rewrite app_length. lia.
  - unfold register_ordered. destruct (_ <=? _); auto. simpl. rewrite app_length. lia.
  - unfold NumpyLoader.get_batches. destruct (nth_error (l_chains l) c); [|auto].
    destruct (get_indices _ _ _ _) as [[c' bs]|e]; [|auto].
    destruct (slice_data _ _); simpl; rewrite length_upd; auto.
  - destruct (nth_error (l_chains l) c) as [cc|]; [|auto].
    destruct ck; [destruct (c_rng cc)|]; simpl; rewrite ?length_upd; auto.
Qed.

(** get_batches on a chain in a good state returns the specified answer *)
Lemma get_step data N r cache cid n l : reg_ok N r -> AtChain data N r cache cid n l ->
  snd (get_batches l cid) = chain_output data N r cache n /\
  AtChain data N r cache cid (S n) (fst (get_batches l cid)).
Proof.
  intros Hok [[Hd1 [Hd2 Hd3]] (c & Hc & Hinv)].
  unfold NumpyLoader.get_batches. rewrite Hc, Hd2. unfold get_indices, LoaderSpec.chain_output.
  assert (Hcache : c_cache c = cache) by (destruct Hinv as (_ & H & _); exact H).
  rewrite Hcache. destruct (Nat.eqb_spec cache 0) as [->|Hne].
  - simpl. split; auto. split; [repeat split; auto|]. exists c. split; [exact Hc|].
    rewrite Nat.mul_0_r in *. exact Hinv.
  - destruct (@chain_steps G choice_repl choice_perm rng_of_seed Hperm N r cache cache (n * cache) c Hok Hinv) as (c' & E & Hinv').
    rewrite E. rewrite Hd1.
    rewrite (@slice_data_ok data N); auto.
    + cbn [fst snd]. split.
      * f_equal. f_equal. apply map_ext. intros ka. f_equal. now rewrite map_map.
      * split; [repeat split; auto|]. simpl. exists c'. split.
        -- apply nth_error_upd_same. apply nth_error_Some. congruence.
        -- replace (cache + n * cache) with (n * cache + cache) by lia. exact Hinv'.
    + apply Forall_forall. intros x Hx. apply in_map_iff in Hx. destruct Hx as (b & <- & Hb).
      apply in_map_iff in Hb. destruct Hb as (k & <- & _).
      destruct Hok as [Hok1 Hok2].
      apply (spec_batch_shape Hperm Hrepl r k Hok1 Hok2).
Qed.

Lemma run_gets data N r cache cid : reg_ok N r -> forall ops l n,
  AtChain data N r cache cid n l -> no_load cid ops ->
  gets cid ops (snd (run lstep l ops)) = map (chain_output data N r cache) (seq n (num_gets cid ops)) /\
  AtChain data N r cache cid (n + num_gets cid ops) (fst (run lstep l ops)).
Proof.
  intros Hok. induction ops as [|op ops IH]; intros l n Hat Hnl; simpl.
  - rewrite Nat.add_0_r. auto.
  - destruct (lstep l op) as [l1 o] eqn:E1.
    assert (Hnl' : no_load cid ops) by (intros ck Hin; apply (Hnl ck); simpl; auto).
    assert (Hother : ~ targets cid op -> AtChain data N r cache cid n l1).
    { intros Ht. destruct Hat as [Hd (c & Hc & Hinv)]. split.
      - pose proof (DataOk_step op Hd) as H. now rewrite E1 in H.
      - exists c. split; auto. pose proof (@other_step cid op l) as H. rewrite E1 in H. simpl in H.
        rewrite H; auto. apply nth_error_Some. congruence. }
    destruct op as [ca mb ie sh sd|ca mb|c|c ck].
    + destruct (IH l1 n (Hother (fun x => x)) Hnl') as [IH1 IH2].
      destruct (run lstep l1 ops) as [l2 os]. simpl in *. auto.
    + destruct (IH l1 n (Hother (fun x => x)) Hnl') as [IH1 IH2].
      destruct (run lstep l1 ops) as [l2 os]. simpl in *. auto.
    + simpl in E1. destruct (get_batches l c) as [l1' rr] eqn:Eg. inversion E1; subst l1' o. clear E1.
      destruct (Nat.eqb_spec c cid) as [->|Hne].
      * destruct (get_step Hok Hat) as [Ho Hat']. rewrite Eg in Ho, Hat'. simpl in Ho, Hat'.
        destruct (IH l1 (S n) Hat' Hnl') as [IH1 IH2].
        destruct (run lstep l1 ops) as [l2 os]. simpl in *.
        destruct (Nat.eqb_spec cid cid); [|congruence]. rewrite IH1, Ho. split; [reflexivity|].
        now rewrite Nat.add_succ_r.
      * destruct (IH l1 n (Hother Hne) Hnl') as [IH1 IH2].
        destruct (run lstep l1 ops) as [l2 os]. simpl in *.
        destruct (Nat.eqb_spec c cid); [congruence|]. auto.
    + assert (c <> cid) as Hne by (intros ->; apply (Hnl ck); simpl; auto).
      destruct (IH l1 n (Hother Hne) Hnl') as [IH1 IH2].
      destruct (run lstep l1 ops) as [l2 os]. simpl in *. auto.
Qed.

(** ** registration *)
Lemma register_random_ok data N l ca mb ie sh sd l' cid : DataOk data N l ->
  register_random rng_of_seed l ca mb ie sh sd = (l', Ok cid) ->
  let seed := match sd with Some s => s | None => cid end in
  let r := reg_random rng_of_seed mb ie sh seed in
  cid = length (l_chains l) /\ reg_ok N r /\ AtChain data N r ca cid 0 l'.
Proof.
  intros Hd. unfold register_random. destruct Hd as (Hd1 & Hd2 & Hd3). rewrite Hd2.
  destruct (Nat.ltb_spec N mb) as [|Hmb]; [discriminate|].
  destruct (negb sh && ie) eqn:Eb; [discriminate|].
  destruct (Nat.eqb_spec mb 0) as [|Hmb0]; [discriminate|].
  intros H; inversion H; subst cid l'. clear H. cbv zeta. split; [reflexivity|]. split.
  - unfold reg_ok, reg_random. destruct ie; [|destruct sh]; simpl; lia.
  - split; [repeat split; auto|]. simpl. eexists. split.
    + rewrite nth_error_app2 by lia. rewrite Nat.sub_diag. reflexivity.
    + apply inv_new_random.
Qed.

Lemma register_ordered_ok data N (l : loader) ca mb l' cid : DataOk data N l ->
  register_ordered l ca mb = (l', Ok cid) ->
  cid = length (l_chains l) /\ reg_ok N (@ROrd G mb) /\ AtChain data N (ROrd mb) ca cid 0 l'.
Proof.
  intros Hd. unfold register_ordered. destruct Hd as (Hd1 & Hd2 & Hd3). rewrite Hd2.
  destruct (Nat.leb_spec mb N) as [Hmb|]; [|discriminate].
  intros H; inversion H; subst cid l'. clear H. split; [reflexivity|]. split.
  - unfold reg_ok; simpl; auto.
  - split; [repeat split; auto|]. simpl. eexists. split.
    + rewrite nth_error_app2 by lia. rewrite Nat.sub_diag. reflexivity.
    + apply inv_new_ordered.
Qed.

(** ** the stream of batches seen by the client *)
Lemma batches_of_spec data N r cache i name a m :
  nth_error data i = Some (name, a) -> 
  batches_of i (map (chain_output data N r cache) (seq 0 m))
  = map (fun k => (select a (fst (spec_batch N r k)), snd (spec_batch N r k))) (seq 0 (m * cache)).
Proof.
  intros Hi. induction m as [|m IH]; [reflexivity|].
  rewrite seq_S, map_app. unfold batches_of in *. rewrite flat_map_app, IH. cbn [map flat_map].
  rewrite app_nil_r. replace (S m * cache) with (m * cache + cache) by lia.
  rewrite seq_app, map_app. f_equal. unfold LoaderSpec.chain_output.
  destruct (Nat.eqb_spec cache 0) as [->|]; [reflexivity|].
  rewrite nth_error_map, Hi. cbn [option_map fst snd Nat.add].
  rewrite !map_map. apply combine_map2.
Qed.

(** ** checkpoints *)
Definition chain_wf (c : chain G) : Prop :=
  match c_type c with Random => c_rng c <> None | Ordered => c_rng c = None end.

(** [c'] is a later state of the chain that was [c]: same kind *)
Definition evolves (c c' : chain G) : Prop :=
  match c_type c with
  | Random => c_rng c' <> None
  | Ordered => c' = mkChain (c_type c) (c_rng c) (c_offset c') (c_in_epochs c) (c_shuffle c)
                      (c_remaining c) (c_draws c) (c_indices c) (c_mb c) (c_cache c)
  end.

Lemma iter_res_evolves N n : forall c c' bs, chain_wf c ->
  iter_res (index_fn choice_repl choice_perm N) n c = Ok (c', bs) ->
  (c_rng c <> None -> c_rng c' <> None) /\
  (c_type c = Ordered -> c' = mkChain (c_type c) (c_rng c) (c_offset c') (c_in_epochs c) (c_shuffle c)
                      (c_remaining c) (c_draws c) (c_indices c) (c_mb c) (c_cache c)).
Proof.
  assert (Hstep : forall c c' b, index_fn choice_repl choice_perm N c = Ok (c', b) ->
     (c_rng c <> None -> c_rng c' <> None) /\ 
     (c_type c = Ordered -> c' = mkChain (c_type c) (c_rng c) (c_offset c') (c_in_epochs c) (c_shuffle c)
                      (c_remaining c) (c_draws c) (c_indices c) (c_mb c) (c_cache c)) /\
     c_type c' = c_type c).
  { intros c c' b. unfold index_fn. destruct (c_type c) eqn:Et.
    - destruct (c_in_epochs c); [|destruct (c_shuffle c)].
      + unfold shuffle_in_epochs. destruct (c_draws c =? _).
        * destruct (c_rng c); [|discriminate]. destruct (choice_perm g N). cbn [bind c_indices].
          intros H; inversion H; subst; simpl. repeat split; auto; congruence.
        * cbn [bind]. destruct (c_indices c); [|discriminate].
          intros H; inversion H; subst; simpl. repeat split; auto; congruence.
      + unfold shuffle_indices. destruct (c_remaining c <? c_mb c).
        * destruct (c_rng c); [|discriminate]. cbn [bind]. unfold shuffle_refresh.
          destruct (choice_perm g N). cbn [c_indices c_mb c_draws].
          destruct (gather _ _); cbn [bind]; [|discriminate].
          intros H; inversion H; subst; simpl. repeat split; auto; congruence.
        * cbn [bind]. destruct (c_indices c); [|discriminate].
          destruct (gather _ _); cbn [bind]; [|discriminate].
          intros H; inversion H; subst; simpl. repeat split; auto; congruence.
      + unfold draw_indices. destruct (c_rng c); [|discriminate]. destruct (choice_repl _ _ _).
        intros H; inversion H; subst; simpl. repeat split; auto; congruence.
    - unfold ordered_indices. destruct (c_offset c); [|discriminate].
      intros H; inversion H; subst; simpl. repeat split; auto. now rewrite Et. }
  induction n as [|n IH]; intros c c' bs Hwf H.
  - simpl in H. inversion H; subst. split; auto. intros; destruct c'; reflexivity.
  - cbn [iter_res] in H. destruct (index_fn _ _ N c) as [[c1 b]|] eqn:E1; [|discriminate]. cbn [bind fst snd] in H.
    destruct (iter_res _ n c1) as [[c2 bs2]|] eqn:E2; [|discriminate]. cbn [bind fst snd] in H.
    inversion H; subst c' bs. clear H. destruct (Hstep _ _ _ E1) as (S1 & S2 & S3).
    destruct (fun w => IH c1 c2 bs2 w E2) as [I1 I2].
    { unfold chain_wf in *. rewrite S3. destruct (c_type c); [auto|]. rewrite (S2 eq_refl). exact Hwf. }
    split; [tauto|]. intros Ht. specialize (S2 Ht). rewrite S3 in I2. specialize (I2 Ht).
    rewrite I2, S2. reflexivity.
Qed.

Lemma evolves_wf c0 c : chain_wf c0 -> evolves c0 c -> c_type c0 = Ordered -> chain_wf c /\ c_type c = Ordered.
Proof.
  unfold chain_wf, evolves. intros H1 H2 Ht. rewrite Ht in *. rewrite H2. simpl. auto.
Qed.

Lemma get_indices_some_rng N c c' bs : get_indices choice_repl choice_perm N c = Ok (c', bs) ->
  (c_rng c <> None -> c_rng c' <> None).
Proof.
  unfold get_indices. destruct (c_cache c =? 0); [discriminate|]. intros H Hr.
  (* same induction without the well-formedness of ordered chains *)
  revert H Hr. generalize (c_cache c) as n. intros n; revert c c' bs.
  induction n as [|n IH]; intros c c' bs H Hr.
  - inversion H; subst; auto.
  - cbn [iter_res] in H. destruct (index_fn _ _ N c) as [[c1 b]|] eqn:E1; [|discriminate]. cbn [bind fst snd] in H.
    destruct (iter_res _ n c1) as [[c2 bs2]|] eqn:E2; [|discriminate]. cbn [bind fst snd] in H.
    inversion H; subst c' bs. eapply IH; [exact E2|].
    revert E1. unfold index_fn. destruct (c_type c).
    + destruct (c_in_epochs c); [|destruct (c_shuffle c)].
      * unfold shuffle_in_epochs. destruct (c_draws c =? _).
        -- destruct (c_rng c); [|discriminate]. destruct (choice_perm g N). cbn [bind c_indices].
          intros E; inversion E; subst; simpl. congruence.
        -- cbn [bind]. destruct (c_indices c); [|discriminate].
          intros E; inversion E; subst; simpl. congruence.
      * unfold shuffle_indices. destruct (c_remaining c <? c_mb c).
        -- destruct (c_rng c); [|discriminate]. cbn [bind]. unfold shuffle_refresh.
          destruct (choice_perm g N). cbn [c_indices c_mb c_draws].
          destruct (gather _ _); cbn [bind]; [|discriminate].
          intros E; inversion E; subst; simpl. congruence.
        -- cbn [bind]. destruct (c_indices c); [|discriminate].
          destruct (gather _ _); cbn [bind]; [|discriminate].
          intros E; inversion E; subst; simpl. congruence.
      * unfold draw_indices. destruct (c_rng c); [|discriminate]. destruct (choice_repl _ _ _).
        intros E; inversion E; subst; simpl. congruence.
    + unfold ordered_indices. destruct (c_offset c); [|discriminate].
      intros E; inversion E; subst; simpl. auto.
Qed.

Lemma evolves_step c0 cid op l c : chain_wf c0 -> nth_error (l_chains l) cid = Some c -> evolves c0 c ->
  exists c', nth_error (l_chains (fst (lstep l op))) cid = Some c' /\ evolves c0 c'.
Proof.
  intros Hwf Hc He.
  assert (Hlt : cid < length (l_chains l)) by (apply nth_error_Some; congruence).
  destruct op as [ca mb ie sh sd|ca mb|i|i ck].
  - exists c. rewrite other_step; auto. 
  - exists c. rewrite other_step; auto.
  - destruct (Nat.eq_dec i cid) as [->|Hne]; [|exists c; rewrite other_step; auto].
    simpl. unfold NumpyLoader.get_batches. rewrite Hc.
    destruct (get_indices choice_repl choice_perm (l_count l) c) as [[c' bs]|e] eqn:Eg; [|exists c; auto].
    exists c'. split.
    + destruct (slice_data _ _); simpl; apply nth_error_upd_same; auto.
    + pose proof (@get_indices_some_rng _ _ _ _ Eg) as Hr.
      unfold evolves in *. destruct (c_type c0) eqn:Et; [auto|].
      assert (chain_wf c /\ c_type c = Ordered) as [Hw Ht].
      { apply evolves_wf with c0; auto. unfold evolves. now rewrite Et. }
      unfold get_indices in Eg. destruct (c_cache c =? 0); [discriminate|].
      destruct (@iter_res_evolves (l_count l) _ _ _ _ Hw Eg) as [_ H2]. specialize (H2 Ht).
      rewrite H2, He. reflexivity.
  - destruct (Nat.eq_dec i cid) as [->|Hne]; [|exists c; rewrite other_step; auto].
    simpl. rewrite Hc. destruct ck as [g d|off].
    + destruct (c_rng c) eqn:Er.
      * simpl. eexists. split; [apply nth_error_upd_same; auto|].
        unfold evolves in *. destruct (c_type c0) eqn:Et; simpl; [congruence|].
        exfalso. rewrite He in Er. simpl in Er. unfold chain_wf in Hwf. rewrite Et in Hwf. congruence.
      * exists c; auto.
    + simpl. eexists. split; [apply nth_error_upd_same; auto|].
      unfold evolves in *. destruct (c_type c0) eqn:Et; simpl; [auto|].
      rewrite He. reflexivity.
Qed.

Lemma evolves_run c0 cid ops : forall l c, chain_wf c0 -> nth_error (l_chains l) cid = Some c -> evolves c0 c ->
  exists c', nth_error (l_chains (fst (run lstep l ops))) cid = Some c' /\ evolves c0 c'.
Proof.
  induction ops as [|op ops IH]; intros l c Hwf Hc He; simpl.
  - exists c; auto.
  - destruct (@evolves_step c0 cid op l c Hwf Hc He) as (c1 & Hc1 & He1).
    destruct (lstep l op) as [l1 o]. simpl in Hc1. 
    destruct (IH l1 c1 Hwf Hc1 He1) as (c2 & Hc2 & He2).
    destruct (run lstep l1 ops). exists c2; auto.
Qed.

(** every chain of a loader built through the API is well-formed *)
Definition all_wf (l : loader) : Prop := Forall chain_wf (l_chains l).

Lemma Forall_upd A (P : A -> Prop) l i v : Forall P l -> P v -> Forall P (upd l i v).
Proof.
  intros H Hv. revert i. induction H as [|x l Hx Hl IH]; intros [|i]; simpl; constructor; auto.
Qed.

Lemma all_wf_step op l : all_wf l -> (forall c ck, op = LoadState c ck -> ckpt_wf ck) ->
  all_wf (fst (lstep l op)).
Proof.
  unfold all_wf. intros H Hck. destruct op as [ca mb ie sh sd|ca mb|i|i ck]; simpl.
  - unfold register_random. destruct (_ <? _); [auto|]. destruct (_ && _); [auto|].
    destruct (_ =? _); auto. simpl. apply Forall_app. split; auto. constructor; auto.
    unfold chain_wf; simpl. congruence.
  - unfold register_ordered. destruct (_ <=? _); auto. simpl. apply Forall_app. split; auto.
    constructor; auto. reflexivity.
  - unfold NumpyLoader.get_batches. destruct (nth_error (l_chains l) i) as [c|] eqn:Ec; [|auto].
    destruct (get_indices choice_repl choice_perm (l_count l) c) as [[c' bs]|e] eqn:Eg; [|auto].
    assert (chain_wf c) as Hw by (rewrite Forall_forall in H; eapply H, nth_error_In; eauto).
    assert (chain_wf c') as Hw'.
    { unfold get_indices in Eg. destruct (c_cache c =? 0); [discriminate|].
      destruct (@iter_res_evolves (l_count l) _ _ _ _ Hw Eg) as [H1 H2]. unfold chain_wf in *.
      destruct (c_type c) eqn:Et.
      - assert (c_type c' = Random) as ->; [|auto].
        clear - Eg Et. revert Eg. generalize (c_cache c) as n. intros n. revert c bs Et.
        induction n as [|n IH]; intros c bs Et Eg; [inversion Eg; subst; auto|].
        cbn [iter_res] in Eg. destruct (index_fn _ _ _ c) as [[c1 b]|] eqn:E1; [|discriminate].
        cbn [bind fst snd] in Eg. destruct (iter_res _ n c1) as [[c2 bs2]|] eqn:E2; [|discriminate].
        cbn [bind fst snd] in Eg. inversion Eg; subst. eapply IH; [|exact E2].
        revert E1. unfold index_fn. rewrite Et. destruct (c_in_epochs c); [|destruct (c_shuffle c)].
        * unfold shuffle_in_epochs. destruct (c_draws c =? _).
          -- destruct (c_rng c); [|discriminate]. destruct (choice_perm g _). cbn [bind c_indices].
             intros E; inversion E; subst; simpl. auto.
          -- cbn [bind]. destruct (c_indices c); [|discriminate].
             intros E; inversion E; subst; simpl. auto.
        * unfold shuffle_indices. destruct (c_remaining c <? c_mb c).
          -- destruct (c_rng c); [|discriminate]. cbn [bind]. unfold shuffle_refresh.
             destruct (choice_perm g _). cbn [c_indices c_mb c_draws].
             destruct (gather _ _); cbn [bind]; [|discriminate].
             intros E; inversion E; subst; simpl. auto.
          -- cbn [bind]. destruct (c_indices c); [|discriminate].
             destruct (gather _ _); cbn [bind]; [|discriminate].
             intros E; inversion E; subst; simpl. auto.
        * unfold draw_indices. destruct (c_rng c); [|discriminate]. destruct (choice_repl _ _ _).
          intros E; inversion E; subst; simpl. auto.
      - rewrite (H2 eq_refl). simpl. exact Hw. }
    destruct (slice_data _ _); simpl; apply Forall_upd; auto.
  - destruct (nth_error (l_chains l) i) as [c|] eqn:Ec; [|auto].
    assert (chain_wf c) as Hw by (rewrite Forall_forall in H; eapply H, nth_error_In; eauto).
    destruct ck as [g d|off].
    + destruct (c_rng c); [|auto]. simpl. apply Forall_upd; auto.
      specialize (Hck i (CkRandom g d) eq_refl). simpl in Hck. unfold chain_wf; simpl. rewrite Hck. congruence.
    + simpl. apply Forall_upd; [exact H|]. unfold chain_wf in *; simpl. exact Hw.
Qed.

Lemma all_wf_run ops : forall l, all_wf l -> loads_wf ops -> all_wf (fst (run lstep l ops)).
Proof.
  induction ops as [|op ops IH]; intros l H Hl; simpl; auto.
  assert (all_wf (fst (lstep l op))) as H1.
  { apply all_wf_step; auto. intros c ck ->. apply (Hl c ck). simpl; auto. }
  destruct (lstep l op) as [l1 o]. simpl in H1.
  specialize (IH l1 H1). destruct (run lstep l1 ops). apply IH.
  intros c ck Hin. apply (Hl c ck). simpl; auto.
Qed.

(** loading restores exactly the chain that was saved *)
Lemma load_restores l cid ck ops l2 outs2 : all_wf l ->
  save_state l cid = Ok ck ->
  run lstep l ops = (l2, outs2) ->
  exists l3, load_state l2 cid (Some ck) = ((l3, None), Ok tt) /\
    nth_error (l_chains l3) cid = nth_error (l_chains l) cid /\
    l_count l3 = l_count l2 /\ l_data l3 = l_data l2 /\
    (forall j, j <> cid -> nth_error (l_chains l3) j = nth_error (l_chains l2) j).
Proof.
  intros Hwf Hs Hr. unfold save_state in Hs.
  destruct (nth_error (l_chains l) cid) as [c|] eqn:Ec; [|discriminate].
  assert (chain_wf c) as Hw by (unfold all_wf in Hwf; rewrite Forall_forall in Hwf; eapply Hwf, nth_error_In; eauto).
  assert (evolves c c) as Hself.
  { unfold evolves. unfold chain_wf in Hw. destruct (c_type c) eqn:Et; auto. rewrite <- Et. destruct c; reflexivity. }
  destruct (@evolves_run c cid ops l c Hw Ec Hself) as (c2 & Ec2 & Hev). rewrite Hr in Ec2. simpl in Ec2.
  assert (Hlt : cid < length (l_chains l2)) by (apply nth_error_Some; congruence).
  unfold load_state. rewrite Ec2. unfold evolves in Hev.
  destruct (c_type c) eqn:Et.
  - destruct (c_rng c) as [g|] eqn:Er; [|discriminate]. inversion Hs; subst ck. clear Hs.
    destruct (c_rng c2); [|congruence]. eexists. split; [reflexivity|]. simpl.
    repeat split; auto.
    + rewrite nth_error_upd_same by auto. f_equal. rewrite <- Er. destruct c; reflexivity.
    + intros; apply nth_error_upd_other; auto.
  - inversion Hs; subst ck. clear Hs. eexists. split; [reflexivity|]. simpl. repeat split; auto.
    + rewrite nth_error_upd_same by auto. f_equal. rewrite Hev. simpl. rewrite <- Et. destruct c; reflexivity.
    + intros; apply nth_error_upd_other; auto.
Qed.

(** the future of a chain is a function of its own state *)
Lemma same_future cid ops : forall l l', 
  l_count l = l_count l' -> l_data l = l_data l' ->
  nth_error (l_chains l) cid = nth_error (l_chains l') cid ->
  nth_error (l_chains l) cid <> None ->
  gets cid ops (snd (run lstep l ops)) = gets cid ops (snd (run lstep l' ops)).
Proof.
  assert (Hmeta : forall l op, l_count (fst (lstep l op)) = l_count l /\ l_data (fst (lstep l op)) = l_data l).
  { intros l op. destruct op as [ca mb ie sh sd|ca mb|c|c ck]; simpl.
    - unfold register_random. destruct (_ <? _); [auto|]. destruct (_ && _); [auto|]. destruct (_ =? _); auto.
    - unfold register_ordered. destruct (_ <=? _); auto.
    - unfold NumpyLoader.get_batches. destruct (nth_error _ _); [|auto].
      destruct (get_indices _ _ _ _) as [[? ?]|]; [|auto]. destruct (slice_data _ _); auto.
    - destruct (nth_error _ _); [|auto]. destruct ck; [destruct (c_rng c0)|]; auto. }
  induction ops as [|op ops IH]; intros l l' Hc Hd Hn Hne; simpl; auto.
  destruct (lstep l op) as [l1 o1] eqn:E1. destruct (lstep l' op) as [l1' o1'] eqn:E2.
  pose proof (Hmeta l op) as [M1 M2]. pose proof (Hmeta l' op) as [M3 M4].
  rewrite E1 in M1, M2. rewrite E2 in M3, M4. simpl in M1, M2, M3, M4.
  assert (Hnext : nth_error (l_chains l1) cid = nth_error (l_chains l1') cid /\ nth_error (l_chains l1) cid <> None /\
     (forall r, op = GetBatches cid -> o1 = OBatch r -> o1' = OBatch r)).
  { assert (Hlt : cid < length (l_chains l)) by (apply nth_error_Some; auto).
    assert (Hlt' : cid < length (l_chains l')) by (apply nth_error_Some; congruence).
    assert (Hoth : ~ targets cid op -> nth_error (l_chains l1) cid = nth_error (l_chains l1') cid /\ nth_error (l_chains l1) cid <> None).
    { intros Ht. pose proof (@other_step cid op l Hlt Ht) as O1. pose proof (@other_step cid op l' Hlt' Ht) as O2.
      rewrite E1 in O1; rewrite E2 in O2; simpl in O1, O2. rewrite O1, O2. auto. }
    destruct op as [ca mb ie sh sd|ca mb|c|c ck].
    - destruct Hoth; [simpl; auto|]. repeat split; auto. intros; discriminate.
    - destruct Hoth; [simpl; auto|]. repeat split; auto. intros; discriminate.
    - destruct (Nat.eq_dec c cid) as [->|Hcc].
      + simpl in E1, E2. unfold NumpyLoader.get_batches in E1, E2. rewrite <- Hn, <- Hc, <- Hd in E2.
        destruct (nth_error (l_chains l) cid) as [cc|] eqn:Ecc; [|congruence].
        destruct (get_indices choice_repl choice_perm (l_count l) cc) as [[c' bs]|e].
        * destruct (slice_data _ _); inversion E1; inversion E2; subst; simpl;
            rewrite !nth_error_upd_same by auto; repeat split; auto; congruence.
        * inversion E1; inversion E2; subst. rewrite Ecc, <- Hn. repeat split; auto; congruence.
      + destruct Hoth; [simpl; auto|]. repeat split; auto. intros r E; inversion E; congruence.
    - destruct (Nat.eq_dec c cid) as [->|Hcc].
      + simpl in E1, E2. rewrite <- Hn in E2.
        destruct (nth_error (l_chains l) cid) as [cc|] eqn:Ecc; [|congruence].
        destruct ck as [g d|off].
        * destruct (c_rng cc); inversion E1; inversion E2; subst; simpl;
          rewrite ?nth_error_upd_same by auto; repeat split; auto; congruence.
        * inversion E1; inversion E2; subst; simpl; rewrite ?nth_error_upd_same by auto; repeat split; auto; congruence.
      + destruct Hoth; [simpl; auto|]. repeat split; auto. intros r E; inversion E. }
  destruct Hnext as (N1 & N2 & N3).
  specialize (IH l1 l1' ltac:(congruence) ltac:(congruence) N1 N2).
  destruct (run lstep l1 ops) as [l2 os]. destruct (run lstep l1' ops) as [l2' os'].
  simpl in IH |- *.
  destruct op as [ca mb ie sh sd|ca mb|c|c ck]; auto.
  simpl in E1, E2. destruct (get_batches l c) as [? r1]. destruct (get_batches l' c) as [? r1'].
  inversion E1; inversion E2; subst. destruct (Nat.eqb_spec c cid) as [->|]; auto.
  specialize (N3 r1 eq_refl eq_refl). inversion N3; subst. congruence.
Qed.

End Api.
