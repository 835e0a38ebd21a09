From Verif Require Import Base ListUtil NumpyLoader LoaderSpec NumpyLoaderProofs NumpyLoaderApi NumpyLoaderFinal
  Requests RequestsProofs DataCore DataSpec DataProofs DataFinal FullMapper FullMapperSpec.
From Coq Require String.
From Coq Require Import ZifyNat ZifyBool.
Set Implicit Arguments.

Section Held.
Context {G obs : Type}.
Variable choice_repl : G -> nat -> nat -> G * list nat.
Variable choice_perm : G -> nat -> G * list nat.
Variable rng_of_seed : nat -> G.
Hypothesis Hperm : perm_oracle choice_perm.
Hypothesis Hrepl : repl_oracle choice_repl.
Notation get_batches := (NumpyLoader.get_batches choice_repl choice_perm (obs := obs)).
Notation lstep := (NumpyLoader.lstep choice_repl choice_perm rng_of_seed (obs := obs)).
Notation AtChain := (@AtChain G obs choice_repl choice_perm).
Notation chain_output := (@chain_output G obs choice_repl choice_perm).
Notation access_batch := (@access_batch G obs choice_repl choice_perm).
Notation batch_fn := (@DataCore.batch_fn G obs choice_repl choice_perm).
Notation requests := (rstate (loader G obs) (batches obs)).
Variable data : list (String.string * list obs).
Variables N ca : nat.
Variable r : reg G.
Hypothesis Hreg : reg_ok N r.
Hypothesis Hca : 0 < ca.

(** the cache state [cs] has delivered n batches of its chain *)
Definition Held (n : nat) (cs : cstate obs) (rq : requests) : Prop :=
  exists g, AtChain data N r ca (cs_chain cs) (S g) (r_loader rq) /\ cs_count cs = ca /\
     chain_output data N r ca g = Ok (cs_data cs, cs_valid cs) /\
     n = g * ca + cs_line cs /\ cs_line cs <= ca /\
     match clookup (cs_chain cs) (r_current rq) with None => True | Some t => t = cs_token cs end.

Lemma held_own n cs rq : r_cached rq = [] -> Held n cs rq -> forall strict,
  exists rq' cs', batch_fn rq cs strict = (rq', Ok (cs', access_batch data N r n)) /\
    Held (S n) cs' rq' /\ cs_chain cs' = cs_chain cs.
Proof.
  intros Hcached (g & Hat & Hco & Hout & Hn & Hle & Htok) strict.
  set (cl := mkClient cs strict). set (w := mkW (G := G) rq [cl]).
  assert (HG0 : forall k cl0, nth_error (w_clients w) k = Some cl0 -> k = 0 /\ cl0 = cl).
  { intros [|k] cl0 H; simpl in H; [inversion H; auto|destruct k; discriminate]. }
  (* direct computation *)
  unfold DataCore.batch_fn, DataCore.refresh. rewrite Hco.
  destruct (Nat.eqb_spec (cs_line cs) ca) as [Hline|Hline].
  - unfold request. rewrite Hcached. 
    change (@tlookup (nat * batches obs * token) (cs_token cs) []) with (@None (nat * batches obs * token)).
    assert (Hinv : match clookup (cs_chain cs) (r_current rq) with
                   | None => false | Some t => negb (token_eqb t (cs_token cs)) end = false).
    { destruct (clookup (cs_chain cs) _); auto. subst t. now rewrite token_eqb_refl. }
    cbv iota. rewrite Hinv.
    destruct (@get_step G obs choice_repl choice_perm rng_of_seed Hperm Hrepl data N r ca (cs_chain cs) (S g) (r_loader rq) Hreg Hat) as (Hg1 & Hg2).
    destruct (get_batches (r_loader rq) (cs_chain cs)) as [l' o] eqn:Eg. cbn [fst snd] in Hg1, Hg2. subst o.
    pose proof (@chain_output_index G obs choice_repl choice_perm rng_of_seed data N ca r Hca (S g)) as Hci.
    rewrite Hci. cbn beta iota zeta delta [bind cs_line cs_count cs_data cs_valid cs_chain cs_token Nat.eqb].
    rewrite Nat.mod_0_l by lia.
    assert (Hr := @cache_read G obs choice_repl choice_perm rng_of_seed data N ca r Hca (S g) (mkC
      (map (fun ka => (fst ka, map (fun j => select (snd ka) (fst (spec_batch choice_repl choice_perm N r j))) (seq (S g * ca) ca))) data)
      ca 0 (cs_chain cs) (map (fun j => snd (spec_batch choice_repl choice_perm N r j)) (seq (S g * ca) ca)) (TNew 0)) 0
      Hci Hca).
    cbn [cs_data cs_valid] in Hr. destruct Hr as [Hr1 Hr2]. rewrite Hr1, Hr2. cbn [bind].
    assert (S g * ca + 0 = n) as En by lia. rewrite En.
    eexists. eexists. split; [rewrite <- surjective_pairing; reflexivity|]. split; [|reflexivity].
    exists (S g). cbn [cs_chain cs_count cs_data cs_valid cs_line cs_token r_loader r_current].
    split; [exact Hg2|]. split; [reflexivity|]. split; [exact Hci|]. split; [lia|]. split; [lia|].
    rewrite clookup_set_same. reflexivity.
  - cbn beta iota zeta delta [bind]. rewrite Hco. rewrite (Nat.mod_small (cs_line cs) ca) by lia.
    destruct (@cache_read G obs choice_repl choice_perm rng_of_seed data N ca r Hca g cs (cs_line cs) Hout ltac:(lia)) as [Hr1 Hr2].
    rewrite Hr1, Hr2. cbn beta iota zeta delta [bind]. rewrite <- Hn.
    eexists. eexists. split; [rewrite <- surjective_pairing; reflexivity|]. split; [|reflexivity].
    exists g. cbn [cs_chain cs_count cs_data cs_valid cs_line cs_token]. 
    split; [exact Hat|]. split; [reflexivity|]. split; [exact Hout|]. split; [lia|]. split; [lia|]. exact Htok.
Qed.

Lemma held_foreign n cs (rq rq' : requests) ops : Held n cs rq ->
  r_loader rq' = fst (run lstep (r_loader rq) ops) -> Forall (fun op => ~ targets (cs_chain cs) op) ops ->
  clookup (cs_chain cs) (r_current rq') = clookup (cs_chain cs) (r_current rq) ->
  Held n cs rq'.
Proof.
  intros (g & Hat & Hrest) Hl Hf Hc. exists g. rewrite Hl, Hc. split; auto. 
  now apply (@AtChain_other G obs choice_repl choice_perm rng_of_seed data N (cs_chain cs) ca r).
Qed.

Lemma held_lt n cs rq : Held n cs rq -> cs_chain cs < length (l_chains (r_loader rq)).
Proof. intros (g & (_ & c & Hc & _) & _). apply nth_error_Some. congruence. Qed.
End Held.

Section Mapper.
Context {G obs C R : Type}.
Variable choice_repl : G -> nat -> nat -> G * list nat.
Variable choice_perm : G -> nat -> G * list nat.
Variable rng_of_seed : nat -> G.
Hypothesis Hperm : perm_oracle choice_perm.
Hypothesis Hrepl : repl_oracle choice_repl.
Variables ca mb : nat.
Variable data : list (String.string * list obs).
Variable N : nat.
Notation get_batches := (NumpyLoader.get_batches choice_repl choice_perm (obs := obs)).
Notation lstep := (NumpyLoader.lstep choice_repl choice_perm rng_of_seed (obs := obs)).
Notation access_batch := (@access_batch G obs choice_repl choice_perm).
Notation batch_fn := (@DataCore.batch_fn G obs choice_repl choice_perm).
Notation mstep := (@FullMapper.mstep G obs C R choice_repl choice_perm rng_of_seed ca mb).
Notation mapper := (mapper G obs C R).
Notation Held := (@Held G obs choice_repl choice_perm data N ca (ROrd mb)).
Hypothesis Hmb : 0 < mb.
Hypothesis HmbN : mb <= N.
Hypothesis Hca : 0 < ca.
Hypothesis Hdata : forall ka, In ka data -> length (snd ka) = N.

Let Hreg : reg_ok (G := G) N (ROrd mb).
Proof. split; simpl; auto. Qed.

Definition batch_i := access_batch data N (ROrd mb).
Definition expect (fn : mapped obs C R) (n : nat) (c : C) : list R * C :=
  scan_spec (fun i c => fn (batch_i i) (map_mask N mb i) c) (seq 0 n) c.

Lemma expect_S fn n c : expect fn (S n) c =
  let (rs, c1) := expect fn n c in let (x, c2) := fn (batch_i n) (map_mask N mb n) c1 in (rs ++ [x], c2).
Proof.
  unfold expect. rewrite seq_S. simpl.
  generalize (seq 0 n) as l. intros l. revert c. induction l as [|i l IH]; intros c; simpl.
  - destruct (fn _ _ c); reflexivity.
  - destruct (fn (batch_i i) (map_mask N mb i) c) as [x c1]. rewrite IH.
    destruct (scan_spec _ l c1) as [rs c2]. destruct (fn _ _ c2). reflexivity.
Qed.

Definition pool_of (m : mapper) : list (cstate obs) := match m_pool m with Some p => p | None => [] end.

Record MI (st : list (mapped obs C R * C)) (m : mapper) : Prop := {
  mi_gi : GI (m_world m);
  mi_data : DataOk data N (w_loader (m_world m));
  mi_nodup : m_pool m <> None -> NoDup (held_chains m);
  mi_clients : forall k cl, nth_error (w_clients (m_world m)) k = Some cl -> ~ In (cs_chain (cl_state cl)) (held_chains m);
  mi_pool : forall cs, In cs (pool_of m) -> exists e, Held (e * ceil_div N mb) cs (w_req (m_world m));
  mi_len : length (m_run m) = length st;
  mi_run : forall j rn, nth_error (m_run m) j = Some (Some rn) -> 
     (exists e, Held (e * ceil_div N mb + rn_it rn) (rn_state rn) (w_req (m_world m))) /\
     rn_it rn <= ceil_div N mb /\
     exists c, nth_error st j = Some (rn_fn rn, c) /\ (rn_results rn, rn_carry rn) = expect (rn_fn rn) (rn_it rn) c;
  mi_nodup_run : NoDup (active_chains m) }.

Definition act (run : list (option (running obs C R))) : list nat :=
  flat_map (fun o => match o with Some rn => [cs_chain (rn_state rn)] | None => [] end) run.

Lemma act_upd_none run j rn : nth_error run j = Some (Some rn) ->
  Permutation (act run) (cs_chain (rn_state rn) :: act (upd run j None)).
Proof.
  revert j. induction run as [|x run IH]; intros [|j] H; simpl in *; try discriminate.
  - inversion H; subst. simpl. reflexivity.
  - specialize (IH j H). rewrite IH. symmetry. simpl. 
    destruct x; simpl; [constructor|reflexivity].
Qed.
Lemma act_upd_same run j rn rn' : nth_error run j = Some (Some rn) ->
  cs_chain (rn_state rn') = cs_chain (rn_state rn) -> act (upd run j (Some rn')) = act run.
Proof.
  revert j. induction run as [|x run IH]; intros [|j] H E; simpl in *; try discriminate.
  - inversion H; subst. simpl. now rewrite E.
  - now rewrite (IH j).
Qed.
Lemma act_app run rn : act (run ++ [Some rn]) = act run ++ [cs_chain (rn_state rn)].
Proof. unfold act. rewrite flat_map_app. reflexivity. Qed.
Lemma act_in run j rn : nth_error run j = Some (Some rn) -> In (cs_chain (rn_state rn)) (act run).
Proof. intros H. unfold act. apply in_flat_map. exists (Some rn). split; [eapply nth_error_In; eauto|simpl; auto]. Qed.

(** creating a new cache state *)
Lemma new_state_ok (rq : rstate (loader G obs) (batches obs)) tok : r_cached rq = [] ->
  DataOk data N (r_loader rq) ->
  (forall c, length (l_chains (r_loader rq)) <= c -> clookup c (r_current rq) = None) ->
  exists rq' cs, new_cache_state choice_repl choice_perm ca mb rq tok = (rq', Ok cs) /\
    cs_chain cs = length (l_chains (r_loader rq)) /\
    Held 0 cs rq' /\ r_cached rq' = [] /\ r_current rq' = r_current rq /\
    exists op, r_loader rq' = fst (run lstep (r_loader rq) [op; GetBatches (cs_chain cs)]) /\ 
      (forall c, ~ targets c op).
Proof.
  intros Hc HD Hcur. unfold new_cache_state.
  pose proof (@reg_ordered_shape G obs choice_repl choice_perm rng_of_seed (r_loader rq) ca mb) as Hsh.
  destruct (register_ordered (r_loader rq) ca mb) as [l o] eqn:Er.
  assert (Ho : o = Ok (length (l_chains (r_loader rq)))).
  { unfold register_ordered in Er. destruct HD as (_ & Hcount & _). rewrite Hcount in Er.
    destruct (Nat.leb_spec mb N); [|lia]. inversion Er; reflexivity. }
  subst o. destruct Hsh as (Hl & _ & Hlen).
  set (cid := length (l_chains (r_loader rq))) in *.
  destruct (@register_ordered_ok G obs choice_repl choice_perm rng_of_seed data N (r_loader rq) ca mb l cid HD Er) as (_ & _ & Hat).
  destruct (@get_step G obs choice_repl choice_perm rng_of_seed Hperm Hrepl data N (ROrd mb) ca cid 0 l Hreg Hat) as (Hg1 & Hg2).
  destruct (get_batches l cid) as [l' o] eqn:Eg. cbn [fst snd] in Hg1, Hg2. subst o.
  pose proof (@chain_output_index G obs choice_repl choice_perm rng_of_seed data N ca (ROrd mb) Hca 0) as Hci.
  rewrite Hci. eexists. eexists. split; [reflexivity|]. cbn [cs_chain].
  split; [reflexivity|]. split; [|split; [exact Hc|split; [reflexivity|]]].
  - exists 0. cbn [cs_chain cs_count cs_data cs_valid cs_line cs_token with_loader r_loader r_current].
    split; [exact Hg2|]. split; [reflexivity|]. split; [exact Hci|]. split; [lia|]. split; [lia|].
    rewrite Hcur by lia. exact I.
  - exists (RegOrdered ca mb). split; [|simpl; tauto].
    cbn [with_loader r_loader run]. 
    destruct (lstep (r_loader rq) (RegOrdered ca mb)) as [l1 o1] eqn:E1. cbn [fst] in Hl. subst l1.
    pose proof (@get_is_lstep G obs choice_repl choice_perm rng_of_seed l cid) as Hgl. rewrite Eg in Hgl.
    destruct (lstep l (GetBatches cid)) as [l2 o2]. cbn [fst] in *. inversion Hgl. reflexivity.
Qed.

Lemma DataOk_chain_run l ops : DataOk data N l -> DataOk data N (fst (run lstep l ops)).
Proof. apply DataOk_run. Qed.

Lemma start_ok st m fn c : MI st m -> m_pool m <> None ->
  let (m', o) := m_start choice_repl choice_perm ca mb m fn c in
  o = Ok (length st) /\ m_pool m' <> None /\ MI (st ++ [(fn, c)]) m'.
Proof.
  intros HM Hp. unfold m_start. destruct (m_pool m) as [pool|] eqn:Epool; [|congruence].
  pose proof (mi_nodup HM ltac:(congruence)) as Hnd. unfold held_chains in Hnd. rewrite Epool in Hnd. fold (act (m_run m)) in Hnd.
  assert (Hrev : pool = rev (rev pool)) by (now rewrite rev_involutive).
  destruct (rev pool) as [|cs rest] eqn:Erev.
  - (* a new cache state is created *)
    simpl in Hrev. subst pool.
    destruct (@new_state_ok (w_req (m_world m)) (m_tok m)) as (rq' & cs & Hn & Hch & Hh & Hc & Hcu & op & Hl & Hop);
      [apply (mi_gi HM) | apply (mi_data HM) | apply (gi_cur (mi_gi HM)) |].
    rewrite Hn. split; [f_equal; apply (mi_len HM)|]. split; [simpl; congruence|].
    assert (Hfor : forall n cs0, cs_chain cs0 <> cs_chain cs -> Held n cs0 (w_req (m_world m)) -> Held n cs0 rq').
    { intros n cs0 Hne H. apply (@held_foreign G obs choice_repl choice_perm rng_of_seed data N ca (ROrd mb) n cs0 (w_req (m_world m)) rq' _ H Hl).
      - constructor; [apply Hop|]. constructor; [simpl; auto|constructor].
      - now rewrite Hcu. }
    assert (Hlt : forall n cs0, Held n cs0 (w_req (m_world m)) -> cs_chain cs0 <> cs_chain cs).
    { intros n cs0 H. apply held_lt in H. rewrite Hch. lia. }
    assert (Hgrow : nchains (m_world m) <= length (l_chains (r_loader rq'))).
    { rewrite Hl. pose proof (@with_loader_GI G obs choice_repl choice_perm rng_of_seed (m_world m) [op; GetBatches (cs_chain cs)] (mi_gi HM)) as _.
      cbn [run]. pose proof (@chains_grow _ _ choice_repl choice_perm rng_of_seed op (r_loader (w_req (m_world m)))) as Hg1.
      destruct (lstep (r_loader (w_req (m_world m))) op) as [l1 o1]. cbn [fst] in Hg1.
      pose proof (@chains_grow _ _ choice_repl choice_perm rng_of_seed (GetBatches (cs_chain cs)) l1) as Hg2.
      destruct (lstep l1 (GetBatches (cs_chain cs))) as [l2 o2]. cbn [fst] in *. unfold nchains, w_loader. lia. }
    constructor; cbn [m_world m_pool m_run].
    + constructor; cbn [w_req w_clients]; auto.
      * intros k cl H. unfold nchains at 1, w_loader at 1. cbn [w_req]. pose proof (gi_chain (mi_gi HM) k H). lia.
      * intros c0 H. rewrite Hcu. apply (gi_cur (mi_gi HM)). unfold nchains at 1, w_loader at 1 in H. cbn [w_req] in H. lia.
    + unfold w_loader. cbn [w_req]. rewrite Hl. apply DataOk_chain_run. apply (mi_data HM).
    + intros _. unfold held_chains, active_chains. cbn [m_pool m_run map app]. fold (act (m_run m ++ [Some (mkRun fn cs 0 c [])])).
      rewrite act_app. cbn [rn_state]. 
      apply (Permutation_NoDup (l := cs_chain cs :: act (m_run m))); [apply Permutation_cons_append|].
      constructor; [|exact Hnd]. intros Hin. unfold act in Hin. apply in_flat_map in Hin. destruct Hin as ([rn|] & Hin & Hx); [|destruct Hx].
      apply In_nth_error in Hin. destruct Hin as (j & Hj). destruct (mi_run HM j Hj) as ((e & He) & _).
      destruct Hx as [Hx|[]]. apply Hlt in He. congruence.
    + intros k cl H. cbn [w_clients] in H. unfold held_chains, active_chains. cbn [m_pool m_run map app].
      fold (act (m_run m ++ [Some (mkRun fn cs 0 c [])])). rewrite act_app. cbn [rn_state].
      intros Hin. apply in_app_or in Hin. destruct Hin as [Hin|[Hin|[]]].
      * apply (mi_clients HM k H). unfold held_chains. apply in_or_app. right. exact Hin.
      * pose proof (gi_chain (mi_gi HM) k H) as Hk. unfold nchains, w_loader in Hk. rewrite Hch in Hin. lia.
    + intros cs0 H. unfold pool_of in H. cbn [m_pool] in H. destruct H.
    + rewrite !app_length, (mi_len HM). reflexivity.
    + intros j rn H. apply nth_error_app_cases in H. destruct H as [H|[-> H]].
      * destruct (mi_run HM j H) as ((e & He) & H2 & c0 & H3 & H4). cbn [w_req].
        split; [exists e; apply Hfor; [eapply Hlt; eauto|exact He]|]. split; auto.
        exists c0. split; auto. rewrite nth_error_app1; auto. apply nth_error_Some. congruence.
      * inversion H; subst rn. cbn [rn_state rn_it rn_fn rn_results rn_carry w_req].
        split; [exists 0; exact Hh|]. split; [lia|]. exists c. split; auto.
        rewrite (mi_len HM), nth_error_app2, Nat.sub_diag by lia. reflexivity.
    + unfold active_chains. cbn [m_run]. fold (act (m_run m ++ [Some (mkRun fn cs 0 c [])])).
      rewrite act_app. cbn [rn_state]. 
      apply (Permutation_NoDup (l := cs_chain cs :: act (m_run m))); [apply Permutation_cons_append|].
      constructor; [|exact Hnd]. intros Hin. unfold act in Hin. apply in_flat_map in Hin. destruct Hin as ([rn|] & Hin & Hx); [|destruct Hx].
      apply In_nth_error in Hin. destruct Hin as (j & Hj). destruct (mi_run HM j Hj) as ((e & He) & _).
      destruct Hx as [Hx|[]]. apply Hlt in He. congruence.
  - (* an unused state is taken *)
    simpl in Hrev. subst pool. rewrite map_app in Hnd. cbn [map] in Hnd.
    split; [f_equal; apply (mi_len HM)|]. split; [simpl; congruence|].
    assert (Hperm' : Permutation ((map (@cs_chain obs) (rev rest) ++ [cs_chain cs]) ++ act (m_run m))
        (map (@cs_chain obs) (rev rest) ++ act (m_run m) ++ [cs_chain cs])).
    { rewrite <- app_assoc. apply Permutation_app_head. apply Permutation_app_comm. }
    constructor; cbn [m_world m_pool m_run].
    + apply (mi_gi HM).
    + apply (mi_data HM).
    + intros _. unfold held_chains, active_chains. cbn [m_pool m_run]. fold (act (m_run m ++ [Some (mkRun fn cs 0 c [])])).
      rewrite act_app. cbn [rn_state]. eapply Permutation_NoDup; [exact Hperm'|exact Hnd].
    + intros k cl H Hin. apply (mi_clients HM k H). unfold held_chains in *. rewrite Epool, map_app. cbn [map].
      eapply Permutation_in; [symmetry; exact Hperm'|]. cbn [m_pool] in Hin.
      change (active_chains (mkM (m_world m) (Some (rev rest)) (m_tok m) (m_run m ++ [Some (mkRun fn cs 0 c [])])))
        with (act (m_run m ++ [Some (mkRun fn cs 0 c [])])) in Hin. rewrite act_app in Hin. exact Hin.
    + intros cs0 H. unfold pool_of in H. cbn [m_pool] in H. apply (mi_pool HM). unfold pool_of. rewrite Epool.
      apply in_or_app. auto.
    + rewrite !app_length, (mi_len HM). reflexivity.
    + intros j rn H. apply nth_error_app_cases in H. destruct H as [H|[-> H]].
      * destruct (mi_run HM j H) as (He & H2 & c0 & H3 & H4).
        split; [exact He|]. split; auto.
        exists c0. split; auto. rewrite nth_error_app1; auto. apply nth_error_Some. congruence.
      * inversion H; subst rn. cbn [rn_state rn_it rn_fn rn_results rn_carry].
        split.
        { destruct (mi_pool HM cs) as (e & He); [unfold pool_of; rewrite Epool; apply in_or_app; simpl; auto|].
          exists e. rewrite Nat.add_0_r. exact He. }
        split; [lia|]. exists c. split; auto.
        rewrite (mi_len HM), nth_error_app2, Nat.sub_diag by lia. reflexivity.
    + unfold active_chains. cbn [m_run]. fold (act (m_run m ++ [Some (mkRun fn cs 0 c [])])).
      rewrite act_app. cbn [rn_state].
      assert (NoDup (map (@cs_chain obs) (rev rest) ++ act (m_run m) ++ [cs_chain cs])) as Hn2
        by (eapply Permutation_NoDup; [exact Hperm'|exact Hnd]).
      clear -Hn2. induction (map (@cs_chain obs) (rev rest)) as [|x l IH]; simpl in *; auto.
      inversion Hn2; auto.
Qed.

(** batches drawn by one map call do not disturb the states held by others *)
Lemma iter_ok st m j : MI st m ->
  let (m', o) := m_iter choice_repl choice_perm mb m j in
  MI st m' /\ m_pool m' = m_pool m /\
  (m_pool m <> None -> forall rn, nth_error (m_run m) j = Some (Some rn) -> rn_it rn < ceil_div N mb -> o = Ok tt).
Proof.
  intros HM. unfold m_iter. destruct (nth_error (m_run m) j) as [[rn|]|] eqn:Ej;
    try (split; [exact HM|split; [reflexivity|intros ? rn H; congruence]]).
  assert (Hcount : l_count (w_loader (m_world m)) = N) by apply (mi_data HM).
  rewrite Hcount. unfold num_iterations.
  destruct (Nat.leb_spec (ceil_div N mb) (rn_it rn)) as [Hge|Hlt].
  { split; [exact HM|split; [reflexivity|]]. intros _ rn' H. inversion H; subst. lia. }
  destruct (mi_run HM j Ej) as ((e & He) & Hle & c & Hst & Hres).
  assert (Hcases : (exists rq cs', batch_or_keyerror choice_repl choice_perm m (rn_state rn)
        = (rq, Ok (cs', batch_i (rn_it rn))) /\ Held (S (e * ceil_div N mb + rn_it rn)) cs' rq /\
          cs_chain cs' = cs_chain (rn_state rn) /\
          batch_fn (w_req (m_world m)) (rn_state rn) true = (rq, Ok (cs', batch_i (rn_it rn)))) \/
      (m_pool m = None /\ batch_or_keyerror choice_repl choice_perm m (rn_state rn) = (w_req (m_world m), Exc KeyError))).
  { destruct (@held_own G obs choice_repl choice_perm rng_of_seed Hperm Hrepl data N ca (ROrd mb) Hreg Hca _ _ _ (gi_cached (mi_gi HM)) He true)
      as (rq & cs' & Hb & Hh & Hch).
    unfold batch_i. rewrite ord_periodic in Hb by assumption.
    unfold batch_or_keyerror. destruct (m_pool m); [left; eauto 10|].
    destruct (_ =? _); [right; auto|left; eauto 10]. }
  destruct Hcases as [(rq & cs' & Hb & Hh & Hch & Hbf)|(Hnone & Hb)].
  2:{ rewrite Hb. replace (mkM (mkW (w_req (m_world m)) (w_clients (m_world m))) (m_pool m) (m_tok m) (m_run m)) with m
        by (destruct m as [[] ? ? ?]; reflexivity).
      split; [exact HM|]. split; [reflexivity|]. intros Hp. congruence. }
  rewrite Hb. destruct (rn_fn rn (batch_i (rn_it rn)) (map_mask N mb (rn_it rn)) (rn_carry rn)) as [x c'] eqn:Efn.
  pose proof (@batch_fn_shape G obs choice_repl choice_perm rng_of_seed (w_req (m_world m)) (rn_state rn) true (gi_cached (mi_gi HM))) as Hsh.
  rewrite Hbf in Hsh. destruct Hsh as (S1 & S2 & S3 & _).
  assert (Hl : exists ops, r_loader rq = fst (run lstep (r_loader (w_req (m_world m))) ops) /\
     forall c0, c0 <> cs_chain (rn_state rn) -> Forall (fun op => ~ targets c0 op) ops).
  { destruct S2 as [E|E].
    - exists []. split; [exact E|auto].
    - exists [GetBatches (cs_chain (rn_state rn))]. split.
      + rewrite E. cbn [run]. destruct (lstep _ _); reflexivity.
      + intros c0 Hc0. constructor; [simpl; auto|constructor]. }
  destruct Hl as (ops & Hl & Hnt).
  assert (Hgrow : nchains (m_world m) <= length (l_chains (r_loader rq))).
  { destruct S2 as [-> | ->]; [unfold nchains, w_loader; lia|apply chains_grow]. }
  assert (Hfor : forall n cs0, cs_chain cs0 <> cs_chain (rn_state rn) -> Held n cs0 (w_req (m_world m)) -> Held n cs0 rq).
  { intros n cs0 Hne H. apply (@held_foreign G obs choice_repl choice_perm rng_of_seed data N ca (ROrd mb) n cs0 (w_req (m_world m)) rq _ H Hl); auto. }
  assert (Hchlt : cs_chain (rn_state rn) < nchains (m_world m)) by (apply held_lt in He; exact He).
  split; [|split; [reflexivity|intros _ rn' _ _; reflexivity]].
  set (rn' := mkRun (rn_fn rn) cs' (S (rn_it rn)) c' (rn_results rn ++ [x])).
  assert (Hact : act (upd (m_run m) j (Some rn')) = act (m_run m)).
  { eapply act_upd_same; eauto. }
  assert (Hheld : held_chains (mkM (mkW rq (w_clients (m_world m))) (m_pool m) (m_tok m) (upd (m_run m) j (Some rn'))) = held_chains m).
  { unfold held_chains. cbn [m_pool]. f_equal. exact Hact. }
  constructor; cbn [m_world m_pool m_run].
  + constructor; cbn [w_req w_clients]; auto.
    * intros k cl H. unfold nchains at 1, w_loader at 1. cbn [w_req]. pose proof (gi_chain (mi_gi HM) k H). lia.
    * intros c0 H. unfold nchains at 1, w_loader at 1 in H. cbn [w_req] in H. rewrite S3 by lia.
      apply (gi_cur (mi_gi HM)). lia.
  + unfold w_loader. cbn [w_req]. rewrite Hl. apply DataOk_chain_run. apply (mi_data HM).
  + rewrite Hheld. apply (mi_nodup HM).
  + rewrite Hheld. apply (mi_clients HM).
  + intros cs0 H. change (In cs0 (pool_of m)) in H. destruct (mi_pool HM cs0 H) as (e0 & He0). exists e0. cbn [w_req].
    apply Hfor; auto. intros E.
    assert (m_pool m <> None) as Hp. { unfold pool_of in H. destruct (m_pool m); [congruence|destruct H]. }
    pose proof (mi_nodup HM Hp) as Hnd. unfold held_chains in Hnd. unfold pool_of in H. destruct (m_pool m) as [p|]; [|destruct H].
    assert (In (cs_chain cs0) (map (@cs_chain obs) p)) as Hi1 by (apply in_map; exact H).
    assert (In (cs_chain cs0) (act (m_run m))) as Hi2 by (rewrite E; eapply act_in; eauto).
    clear -Hnd Hi1 Hi2. fold (act (m_run m)) in Hnd. unfold active_chains in Hnd. fold (act (m_run m)) in Hnd.
    induction (map (@cs_chain obs) p) as [|y l IH]; simpl in *; [tauto|]. inversion Hnd; subst.
    destruct Hi1 as [->|Hi1]; [apply H1, in_or_app; auto|auto].
  + rewrite length_upd. apply (mi_len HM).
  + intros j' rn0 H. cbn [w_req]. destruct (Nat.eq_dec j j') as [<-|Hne].
    * rewrite nth_error_upd_same in H by (apply nth_error_Some; congruence). inversion H; subst rn0.
      cbn [rn_state rn_it rn_fn rn_results rn_carry rn'].
      split; [exists e; rewrite Nat.add_succ_r; exact Hh|]. split; [lia|]. exists c. split; auto.
      rewrite expect_S, <- Hres, Efn. reflexivity.
    * rewrite nth_error_upd_other in H by assumption.
      destruct (mi_run HM j' H) as ((e0 & He0) & H2 & H3). split; [|split; auto]. exists e0. apply Hfor; auto.
      intros E. pose proof (mi_nodup_run HM) as Hnd. unfold active_chains in Hnd. fold (act (m_run m)) in Hnd.
      pose proof (act_upd_none (m_run m) j Ej) as Hp. 
      apply (Permutation_NoDup Hp) in Hnd. inversion Hnd; subst. apply H4. rewrite <- E.
      eapply act_in. rewrite nth_error_upd_other; eauto.
  + unfold active_chains. cbn [m_run]. fold (act (upd (m_run m) j (Some rn'))). rewrite Hact. apply (mi_nodup_run HM).
Qed.

Lemma finish_ok st m j : MI st m ->
  let (m', o) := m_finish mb m j in
  MI st m' /\ (m_pool m' = None <-> m_pool m = None) /\
  (forall v, o = Ok v -> exists fn c, nth_error st j = Some (fn, c) /\ v = expect fn (ceil_div N mb) c) /\
  (m_pool m <> None -> forall rn, nth_error (m_run m) j = Some (Some rn) -> rn_it rn = ceil_div N mb -> exists v, o = Ok v).
Proof.
  intros HM. unfold m_finish. destruct (nth_error (m_run m) j) as [[rn|]|] eqn:Ej;
    try (split; [exact HM|split; [reflexivity|split; intros; congruence]]).
  assert (Hcount : l_count (w_loader (m_world m)) = N) by apply (mi_data HM).
  rewrite Hcount. unfold num_iterations.
  destruct (mi_run HM j Ej) as ((e & He) & Hle & c & Hst & Hres).
  destruct (Nat.leb_spec (ceil_div N mb) (rn_it rn)) as [Hge|Hlt].
  2:{ split; [exact HM|split; [reflexivity|split; [intros; congruence|]]]. intros _ rn' H. inversion H; subst. lia. }
  assert (Hit : rn_it rn = ceil_div N mb) by lia.
  pose proof (act_upd_none (m_run m) j Ej) as Hp.
  assert (Hrunupd : forall j' rn0, nth_error (upd (m_run m) j None) j' = Some (Some rn0) -> nth_error (m_run m) j' = Some (Some rn0)).
  { intros j' rn0 H. destruct (Nat.eq_dec j j') as [<-|Hne].
    - rewrite nth_error_upd_same in H by (apply nth_error_Some; congruence). discriminate.
    - now rewrite nth_error_upd_other in H by assumption. }
  assert (Hndr : NoDup (act (upd (m_run m) j None))).
  { pose proof (mi_nodup_run HM) as Hnd. apply (Permutation_NoDup Hp) in Hnd. inversion Hnd; auto. }
  destruct (m_pool m) as [pool|] eqn:Epool.
  - assert (Hpc : Permutation (map (@cs_chain obs) pool ++ act (m_run m))
        (map (@cs_chain obs) (pool ++ [rn_state rn]) ++ act (upd (m_run m) j None))).
    { rewrite Hp, map_app, <- app_assoc. reflexivity. }
    split; [|split; [cbn [m_pool]; split; congruence|split]].
    + constructor; cbn [m_world m_pool m_run].
      * apply (mi_gi HM).
      * apply (mi_data HM).
      * intros _. eapply Permutation_NoDup; [exact Hpc|]. pose proof (mi_nodup HM ltac:(congruence)) as Hnd.
        unfold held_chains in Hnd. rewrite Epool in Hnd. exact Hnd.
      * intros k cl H Hin. apply (mi_clients HM k H). unfold held_chains. rewrite Epool.
        eapply Permutation_in; [symmetry; exact Hpc|]. exact Hin.
      * intros cs0 H. unfold pool_of in H. cbn [m_pool] in H. apply in_app_or in H. destruct H as [H|[<-|[]]].
        -- apply (mi_pool HM). unfold pool_of. now rewrite Epool.
        -- exists (S e). rewrite Hit in He. replace (S e * ceil_div N mb) with (e * ceil_div N mb + ceil_div N mb) by lia. exact He.
      * rewrite length_upd. apply (mi_len HM).
      * intros j' rn0 H. apply (mi_run HM j'). apply Hrunupd. exact H.
      * exact Hndr.
    + intros v H. inversion H; subst. exists (rn_fn rn), c. split; auto. rewrite <- Hit. exact Hres.
    + intros _ rn' _ _. eauto.
  - split; [|split; [split; auto|split; intros; congruence]].
    constructor; cbn [m_world m_pool m_run].
    * apply (mi_gi HM).
    * apply (mi_data HM).
    * congruence.
    * intros k cl H Hin. apply (mi_clients HM k H). unfold held_chains in *. rewrite Epool. cbn [m_pool app] in *.
      eapply Permutation_in; [symmetry; exact Hp|]. right. exact Hin.
    * intros cs0 H. destruct H.
    * rewrite length_upd. apply (mi_len HM).
    * intros j' rn0 H. apply (mi_run HM j'). apply Hrunupd. exact H.
    * exact Hndr.
Qed.

Lemma release_ok st m : MI st m -> MI st (mkM (m_world m) None (m_tok m) (m_run m)).
Proof.
  intros HM. constructor; cbn [m_world m_pool m_run].
  - apply (mi_gi HM).
  - apply (mi_data HM).
  - congruence.
  - intros k cl H Hin. apply (mi_clients HM k H). unfold held_chains in *. cbn [m_pool app] in Hin. apply in_or_app. auto.
  - intros cs0 [].
  - apply (mi_len HM).
  - apply (mi_run HM).
  - apply (mi_nodup_run HM).
Qed.

Lemma other_ok st m o : MI st m -> polite m (MOther o) ->
  MI st (mkM (fst (DataCore.wstep choice_repl choice_perm rng_of_seed (m_world m) o)) (m_pool m) (m_tok m) (m_run m)).
Proof.
  intros HM Hpol.
  destruct (@wstep_shape G obs choice_repl choice_perm rng_of_seed (m_world m) o (mi_gi HM)) as (H1 & H2 & H3 & H4).
  pose proof (@DataOk_wrun G obs choice_repl choice_perm rng_of_seed data N [o] (m_world m) (mi_gi HM) (mi_data HM)) as HD.
  cbn [run] in HD.
  set (w' := fst (DataCore.wstep choice_repl choice_perm rng_of_seed (m_world m) o)) in *.
  assert (HD' : DataOk data N (w_loader w')).
  { unfold w'. destruct (DataCore.wstep choice_repl choice_perm rng_of_seed (m_world m) o). exact HD. }
  assert (Hheld : forall n cs0, In (cs_chain cs0) (held_chains m) -> Held n cs0 (w_req (m_world m)) -> Held n cs0 (w_req w')).
  { intros n cs0 Hin Hh. pose proof (held_lt Hh) as Hlt.
    destruct (H2 (cs_chain cs0)) as (Hcu & ops & Hops & Hf).
    - destruct o as [? ? ? ? ? ?|? ?|k|op]; simpl; try tauto.
      + intros (cl & Hcl & E). apply (mi_clients HM k Hcl). rewrite E. exact Hin.
      + simpl in Hpol. destruct op; simpl; try tauto; intros ->; contradiction.
    - exact Hlt.
    - apply (@held_foreign G obs choice_repl choice_perm rng_of_seed data N ca (ROrd mb) n cs0 (w_req (m_world m)) (w_req w') _ Hh Hops); auto. }
  constructor; cbn [m_world m_pool m_run]; auto.
  - apply (mi_nodup HM).
  - intros k cl H Hin. destruct (H4 k cl H) as [(cl0 & Hcl0 & E)|Hge].
    + apply (mi_clients HM k Hcl0). rewrite <- E. exact Hin.
    + assert (cs_chain (cl_state cl) < nchains (m_world m)); [|lia].
      unfold held_chains in Hin. cbn [m_pool] in Hin. apply in_app_or in Hin. destruct Hin as [Hin|Hin].
      * destruct (m_pool m) as [p|] eqn:Ep; [|destruct Hin]. apply in_map_iff in Hin. destruct Hin as (cs & <- & Hcs).
        destruct (mi_pool HM cs) as (e & He); [unfold pool_of; now rewrite Ep|]. apply held_lt in He. exact He.
      * unfold active_chains in Hin. cbn [m_run] in Hin. apply in_flat_map in Hin. destruct Hin as ([rn|] & Hin & Hx); [|destruct Hx].
        destruct Hx as [<-|[]]. apply In_nth_error in Hin. destruct Hin as (j & Hj). destruct (mi_run HM j Hj) as ((e & He) & _).
        apply held_lt in He. exact He.
  - intros cs0 H. change (In cs0 (pool_of m)) in H. destruct (mi_pool HM cs0 H) as (e & He). exists e. apply Hheld; auto.
    unfold held_chains. apply in_or_app. left. unfold pool_of in H. destruct (m_pool m); [now apply in_map|destruct H].
  - apply (mi_len HM).
  - intros j rn H. destruct (mi_run HM j H) as ((e & He) & Hr). split; auto. exists e. apply Hheld; auto.
    unfold held_chains. apply in_or_app. right. eapply act_in; eauto.
  - apply (mi_nodup_run HM).
Qed.

(** one step *)
Definition start_of (o : mop G obs C R) (out : mout obs C R) : list (mapped obs C R * C) := started [o] [out].

Lemma mstep_ok st m o : MI st m -> polite m o ->
  let (m', out) := mstep m o in
  MI (st ++ start_of o out) m' /\
  (forall v, out = MoFinish (Ok v) -> exists j fn c, o = MFinish j /\ nth_error st j = Some (fn, c) /\ v = expect fn (ceil_div N mb) c) /\
  (m_pool m = None -> m_pool m' = None /\ forall fn c, o = MStart fn c -> out = MoStart (Exc TypeError)) /\
  (m_pool m <> None -> forall fn c, o = MStart fn c -> out = MoStart (Ok (length st))) /\
  (m_pool m <> None -> o <> MRelease -> m_pool m' <> None) /\
  (o = MRelease -> m_pool m' = None).
Proof.
  intros HM Hpol. destruct o as [fn c|j|j| |o].
  - simpl. destruct (m_pool m) eqn:Ep.
    + pose proof (@start_ok st m fn c HM ltac:(congruence)) as H.
      destruct (m_start choice_repl choice_perm ca mb m fn c) as [m' r]. destruct H as (-> & Hp & HM').
      split; [exact HM'|]. repeat split; try congruence; auto.
    + unfold m_start. rewrite Ep. simpl. unfold start_of. simpl. rewrite app_nil_r.
      split; [exact HM|]. repeat split; try congruence; auto.
  - simpl. pose proof (@iter_ok st m j HM) as H. destruct (m_iter choice_repl choice_perm mb m j) as [m' r].
    destruct H as (HM' & Hp & _). unfold start_of; simpl. rewrite app_nil_r. split; [exact HM'|].
    rewrite Hp. repeat split; try congruence; auto.
  - simpl. pose proof (@finish_ok st m j HM) as H. destruct (m_finish mb m j) as [m' r].
    destruct H as (HM' & Hp & Hv & _). unfold start_of; simpl. rewrite app_nil_r. split; [exact HM'|].
    split; [|split; [|split; [|split]]]; try congruence.
    + intros v H. inversion H; subst. destruct (Hv v eq_refl) as (fn & c & Ha & Hb). exists j, fn, c. auto.
    + intros H. split; [now apply Hp|congruence].
    + intros H _ H'. apply H. now apply Hp.
  - simpl. unfold start_of; simpl. rewrite app_nil_r. split; [now apply release_ok|].
    repeat split; try congruence; auto.
  - simpl. pose proof (@other_ok st m o HM Hpol) as H.
    destruct (DataCore.wstep choice_repl choice_perm rng_of_seed (m_world m) o) as [w' r].
    unfold start_of; simpl. rewrite app_nil_r. split; [exact H|].
    repeat split; try congruence; auto.
Qed.

(** a run from an initial state *)
Lemma mrun_ok h : forall st m, MI st m -> all_polite mstep m h ->
  let (m', outs) := run mstep m h in
  MI (st ++ started h outs) m' /\
  (forall i v, nth_error outs i = Some (MoFinish (Ok v)) ->
     exists j fn c, nth_error h i = Some (MFinish j) /\ nth_error (st ++ started h outs) j = Some (fn, c) /\
       v = expect fn (ceil_div N mb) c) /\
  (In MRelease h -> m_pool m' = None) /\ (m_pool m = None -> m_pool m' = None) /\
  (~ In MRelease h -> m_pool m <> None -> m_pool m' <> None).
Proof.
  induction h as [|o h IH]; intros st m HM Hpol; cbn [run].
  - simpl. rewrite app_nil_r. split; [exact HM|]. split; [intros [|i] v H; discriminate|]. tauto.
  - destruct Hpol as [Hp Hpol]. pose proof (@mstep_ok st m o HM Hp) as Hs.
    destruct (mstep m o) as [m1 out] eqn:E1. cbn [fst] in Hpol. destruct Hs as (HM1 & Hv & Hnone & Hsome & Hkeep & Hrel).
    specialize (IH _ m1 HM1 Hpol). destruct (run mstep m1 h) as [m2 outs]. destruct IH as (HM2 & Hv2 & Hr1 & Hr2 & Hr3).
    assert (Est : (st ++ start_of o out) ++ started h outs = st ++ started (o :: h) (out :: outs)).
    { rewrite <- app_assoc. f_equal. unfold start_of. simpl. destruct o; simpl; auto.
      destruct out as [r|r|r| |r]; simpl; auto. destruct r; reflexivity. }
    rewrite Est in *. split; [exact HM2|]. split; [|split; [|split]].
    + intros [|i] v H.
      * simpl in H. inversion H; subst. destruct (Hv v eq_refl) as (j & fn & c & -> & Hst & Hx).
        exists j, fn, c. split; [reflexivity|]. split; auto. rewrite nth_error_app1; auto. apply nth_error_Some. congruence.
      * simpl in H. destruct (Hv2 i v H) as (j & fn & c & Ha & Hb & Hc). exists j, fn, c. auto.
    + intros [->|Hin]; auto.
    + intros H. apply Hr2. apply Hnone. exact H.
    + intros Hin Hm. apply Hr3; [intros H; apply Hin; simpl; auto|]. apply Hkeep; auto. intros ->. apply Hin. simpl; auto.
Qed.
End Mapper.

Section MapperFinal.
Context {G obs C R : Type}.
Variable choice_repl : G -> nat -> nat -> G * list nat.
Variable choice_perm : G -> nat -> G * list nat.
Variable rng_of_seed : nat -> G.
Hypothesis Hperm : perm_oracle choice_perm.
Hypothesis Hrepl : repl_oracle choice_repl.
Notation wstep := (@DataCore.wstep G obs choice_repl choice_perm rng_of_seed).
Notation mstep := (@FullMapper.mstep G obs C R choice_repl choice_perm rng_of_seed).
Notation access_batch := (@access_batch G obs choice_repl choice_perm).

Lemma make_mapper_ok data l0 h1 w1 o1 ca mb (m : mapper G obs C R) :
  make_loader data = Ok l0 -> run wstep (w_init l0) h1 = (w1, o1) ->
  make_mapper choice_repl choice_perm ca mb w1 = Ok m ->
  0 < mb /\ mb <= l_count l0 /\ 0 < ca /\ (forall ka, In ka data -> length (snd ka) = l_count l0) /\
  MI choice_repl choice_perm ca mb data (l_count l0) [] m /\ m_pool m <> None.
Proof.
  intros Hm Hr Hmk. destruct (@world_reach G obs choice_repl choice_perm rng_of_seed data l0 h1 w1 o1 Hm Hr) as [HG HD].
  unfold make_mapper in Hmk. pose proof HD as (HD1 & HD2 & HD3). rewrite HD2 in Hmk.
  destruct (Nat.ltb_spec (l_count l0) mb) as [|HN]; [discriminate|].
  destruct (Nat.eqb_spec mb 0) as [|Hmb]; [discriminate|].
  assert (Hca : 0 < ca).
  { destruct ca; [|lia]. exfalso. unfold new_cache_state in Hmk.
    destruct (register_ordered (r_loader (w_req w1)) 0 mb) as [l [cid|e]] eqn:Er; [|discriminate].
    destruct (@register_ordered_ok G obs choice_repl choice_perm rng_of_seed data (l_count l0) (w_loader w1) 0 mb l cid HD Er) as (_ & Hok & Hat).
    destruct (@get_step G obs choice_repl choice_perm rng_of_seed Hperm Hrepl data (l_count l0) (ROrd mb) 0 cid 0 l Hok Hat) as (Hg1 & _).
    destruct (NumpyLoader.get_batches choice_repl choice_perm l cid) as [l' o]. simpl in Hg1. subst o. discriminate. }
  destruct (@new_state_ok G obs choice_repl choice_perm rng_of_seed Hperm Hrepl ca mb data (l_count l0) ltac:(lia) HN Hca (w_req w1) 0
     (gi_cached HG) HD (gi_cur HG)) as (rq & cs & Hn & Hch & Hh & Hc & Hcu & op & Hl & Hop).
  rewrite Hn in Hmk. inversion Hmk; subst m. clear Hmk.
  repeat split; auto; try lia; try (simpl; congruence).
  - assert (Hgrow : nchains w1 <= length (l_chains (r_loader rq))).
    { rewrite Hl. cbn [run]. pose proof (@chains_grow _ _ choice_repl choice_perm rng_of_seed op (r_loader (w_req w1))) as Hg1.
      destruct (NumpyLoader.lstep choice_repl choice_perm rng_of_seed (r_loader (w_req w1)) op) as [l1 o2]. cbn [fst] in Hg1.
      pose proof (@chains_grow _ _ choice_repl choice_perm rng_of_seed (GetBatches (cs_chain cs)) l1) as Hg2.
      destruct (NumpyLoader.lstep choice_repl choice_perm rng_of_seed l1 (GetBatches (cs_chain cs))) as [l2 o3]. cbn [fst] in *. unfold nchains, w_loader. lia. }
    simpl. intros k cl H. unfold nchains, w_loader. cbn [w_req]. pose proof (gi_chain HG k H). lia.
  - assert (Hgrow : nchains w1 <= length (l_chains (r_loader rq))).
    { rewrite Hl. cbn [run]. pose proof (@chains_grow _ _ choice_repl choice_perm rng_of_seed op (r_loader (w_req w1))) as Hg1.
      destruct (NumpyLoader.lstep choice_repl choice_perm rng_of_seed (r_loader (w_req w1)) op) as [l1 o2]. cbn [fst] in Hg1.
      pose proof (@chains_grow _ _ choice_repl choice_perm rng_of_seed (GetBatches (cs_chain cs)) l1) as Hg2.
      destruct (NumpyLoader.lstep choice_repl choice_perm rng_of_seed l1 (GetBatches (cs_chain cs))) as [l2 o3]. cbn [fst] in *. unfold nchains, w_loader. lia. }
    cbn [m_world w_req]. intros c H. unfold nchains, w_loader in H. cbn [m_world w_req] in H. rewrite Hcu. apply (gi_cur HG). lia.
  - unfold w_loader. cbn [m_world w_req]. rewrite Hl. apply (@DataOk_run G obs choice_repl choice_perm rng_of_seed data (l_count l0)). exact HD.
  - unfold w_loader. cbn [m_world w_req]. rewrite Hl. apply (@DataOk_run G obs choice_repl choice_perm rng_of_seed data (l_count l0)). exact HD.
  - intros _. simpl. constructor; [simpl; tauto|constructor].
  - cbn [m_world w_clients]. intros k cl H Hin. simpl in Hin. destruct Hin as [Hin|[]].
    pose proof (gi_chain HG k H) as Hk. unfold nchains, w_loader in Hk. rewrite <- Hin, Hch in Hk. lia.
  - intros cs0 [<-|[]]. exists 0. exact Hh.
  - destruct j; discriminate.
  - destruct j; discriminate.
  - destruct j; discriminate.
  - constructor.
Qed.

Lemma expect_pass data N mb (fn : mapped obs C R) c :
  expect choice_repl choice_perm mb data N fn (ceil_div N mb) c
  = scan_spec (fun b c => fn b (snd b) c) (map (access_batch data N (ROrd mb)) (seq 0 (ceil_div N mb))) c.
Proof.
  unfold expect. rewrite <- (scan_spec_map (fun b c => fn b (snd b) c) (access_batch data N (ROrd mb))).
  apply scan_spec_ext_in. intros i c0 Hi. apply in_seq in Hi. unfold batch_i. f_equal.
  unfold DataSpec.access_batch, spec_batch, map_mask. rewrite Nat.mod_small by lia. reflexivity.
Qed.

Lemma final_mapper data l0 h1 w1 o1 ca mb (m m' : mapper G obs C R) h outs :
  make_loader data = Ok l0 -> run wstep (w_init l0) h1 = (w1, o1) ->
  make_mapper choice_repl choice_perm ca mb w1 = Ok m ->
  all_polite (mstep ca mb) m h -> run (mstep ca mb) m h = (m', outs) ->
  (exists bs, is_pass data (l_count l0) mb bs /\
     forall i v, nth_error outs i = Some (MoFinish (Ok v)) ->
       exists j fn c, nth_error h i = Some (MFinish j) /\ nth_error (started h outs) j = Some (fn, c) /\
         v = scan_spec (fun b c => fn b (snd b) c) bs c) /\
  NoDup (active_chains m') /\
  (~ In MRelease h -> NoDup (held_chains m') /\
     (forall fn c, snd (mstep ca mb m' (MStart fn c)) = MoStart (Ok (length (started h outs)))) /\
     (forall j rn, nth_error (m_run m') j = Some (Some rn) ->
        (rn_it rn < ceil_div (l_count l0) mb -> snd (mstep ca mb m' (MIter j)) = MoIter (Ok tt)) /\
        (rn_it rn = ceil_div (l_count l0) mb -> exists v, snd (mstep ca mb m' (MFinish j)) = MoFinish (Ok v)))) /\
  (In MRelease h -> forall fn c, snd (mstep ca mb m' (MStart fn c)) = MoStart (Exc TypeError)).
Proof.
  intros Hm Hr Hmk Hpol Hrun.
  destruct (@make_mapper_ok data l0 h1 w1 o1 ca mb m Hm Hr Hmk) as (Hmb & HN & Hca & Hd & HM & Hp).
  pose proof (@mrun_ok G obs C R choice_repl choice_perm rng_of_seed Hperm Hrepl ca mb data (l_count l0) Hmb HN Hca h [] m HM Hpol) as H.
  rewrite Hrun in H. destruct H as (HM' & Hv & Hrel & _ & Hkeep). simpl app in *.
  split; [|split; [|split]].
  - exists (map (access_batch data (l_count l0) (ROrd mb)) (seq 0 (ceil_div (l_count l0) mb))). split.
    + apply ord_is_pass; auto; lia.
    + intros i v Hi. destruct (Hv i v Hi) as (j & fn & c & Ha & Hb & ->). exists j, fn, c. split; auto. split; auto.
      apply expect_pass.
  - apply (mi_nodup_run HM').
  - intros Hnr. specialize (Hkeep Hnr Hp). split; [apply (mi_nodup HM'); auto|]. split.
    + intros fn c. pose proof (@start_ok G obs C R choice_repl choice_perm rng_of_seed Hperm Hrepl ca mb data (l_count l0) Hmb HN Hca _ m' fn c HM' Hkeep) as Hs.
      simpl. destruct (m_start choice_repl choice_perm ca mb m' fn c) as [m2 o2]. destruct Hs as (-> & _). reflexivity.
    + intros j rn Hj. split.
      * intros Hit. pose proof (@iter_ok G obs C R choice_repl choice_perm rng_of_seed Hperm Hrepl ca mb data (l_count l0) Hmb HN Hca _ m' j HM') as Hs.
        simpl. destruct (m_iter choice_repl choice_perm mb m' j) as [m2 o2]. destruct Hs as (_ & _ & Hs).
        cbn [snd]. now rewrite (Hs Hkeep rn Hj Hit).
      * intros Hit. pose proof (@finish_ok G obs C R choice_repl choice_perm rng_of_seed ca mb data (l_count l0) Hmb HN Hca _ m' j HM') as Hs.
        simpl. destruct (m_finish mb m' j) as [m2 o2]. destruct Hs as (_ & _ & _ & Hs).
        cbn [snd]. destruct (Hs Hkeep rn Hj Hit) as (v & ->). eauto.
  - intros Hin fn c. simpl. unfold m_start. rewrite (Hrel Hin). reflexivity.
Qed.

(** the number of cache states ever created equals the number of states in the pool or in use:
    a new one is created only if all existing ones are in use *)
Lemma created_count ca mb h : forall m : mapper G obs C R, 
  ~ In MRelease h -> m_pool m <> None -> m_tok m = length (held_chains m) ->
  (forall o, In (MoStart (Exc o)) (snd (run (mstep ca mb) m h)) -> False) ->
  m_tok (fst (run (mstep ca mb) m h)) = length (held_chains (fst (run (mstep ca mb) m h))).
Proof.
  induction h as [|o h IH]; intros m Hnr Hp Ht Hne; cbn [run]; auto.
  assert (Hstep : forall m1 out, mstep ca mb m o = (m1, out) -> (forall e, out <> MoStart (Exc e)) ->
     m_pool m1 <> None /\ m_tok m1 = length (held_chains m1)).
  { intros m1 out E Hout. destruct o as [fn c|j|j| |o]; simpl in E.
    - unfold m_start in E. destruct (m_pool m) as [pool|] eqn:Ep; [|congruence].
      unfold held_chains in Ht. rewrite Ep, app_length, map_length in Ht.
      destruct (rev pool) as [|cs rest] eqn:Erev.
      + destruct (new_cache_state _ _ _ _ _ _) as [rq [cs|e]]; inversion E; subst; [|exfalso; eapply Hout; reflexivity].
        split; [simpl; congruence|]. unfold held_chains. cbn [m_pool m_tok]. rewrite app_length, map_length.
        unfold active_chains in *. cbn [m_run]. rewrite flat_map_app, app_length. simpl. lia.
      + inversion E; subst. split; [simpl; congruence|]. unfold held_chains. cbn [m_pool m_tok]. rewrite app_length, map_length.
        unfold active_chains in *. cbn [m_run]. rewrite flat_map_app, app_length. simpl.
        assert (length pool = S (length rest)) by (rewrite <- rev_length, Erev; reflexivity).
        rewrite rev_length. lia.
    - unfold m_iter in E. destruct (nth_error (m_run m) j) as [[rn|]|] eqn:Ej; [|inversion E; subst; auto|inversion E; subst; auto].
      destruct (_ <=? _); [inversion E; subst; auto|].
      pose proof (@batch_fn_shape G obs choice_repl choice_perm rng_of_seed) as _.
      destruct (batch_or_keyerror _ _ _ _) as [rq [[cs' b]|e]] eqn:Eb; [|inversion E; subst; auto].
      destruct (rn_fn rn b _ _) as [x c']. inversion E; subst. split; auto.
      unfold held_chains in *. cbn [m_pool m_tok]. rewrite app_length in *. rewrite Ht. f_equal.
      unfold active_chains. cbn [m_run]. clear -Ej. revert j Ej.
      induction (m_run m) as [|x0 l IHl]; intros [|j] Ej; simpl in *; try discriminate.
      * inversion Ej; subst. reflexivity.
      * rewrite !app_length. now rewrite (IHl j Ej).
    - unfold m_finish in E. destruct (nth_error (m_run m) j) as [[rn|]|] eqn:Ej; [|inversion E; subst; auto|inversion E; subst; auto].
      destruct (_ <=? _); [|inversion E; subst; auto].
      destruct (m_pool m) as [pool|] eqn:Ep; [|congruence]. inversion E; subst. split; [simpl; congruence|].
      unfold held_chains in *. rewrite Ep in Ht. cbn [m_pool m_tok]. rewrite app_length, map_length, app_length in *. simpl.
      pose proof (act_upd_none (m_run m) j Ej) as Hpm. apply Permutation_length in Hpm. simpl in Hpm.
      unfold active_chains in *. cbn [m_run]. unfold act in Hpm. lia.
    - exfalso. apply Hnr. simpl; auto.
    - destruct (DataCore.wstep _ _ _ _ _) as [w' r]. inversion E; subst. auto. }
  cbn [run] in Hne. destruct (mstep ca mb m o) as [m1 out] eqn:E1.
  destruct (Hstep m1 out eq_refl) as [Hp1 Ht1].
  { intros e ->. apply (Hne e). destruct (run (mstep ca mb) m1 h). simpl. auto. }
  specialize (IH m1 ltac:(intros H; apply Hnr; simpl; auto) Hp1 Ht1).
  destruct (run (mstep ca mb) m1 h) as [m2 outs]. apply IH. intros e H. apply (Hne e). simpl. auto.
Qed.

Lemma final_pool_reuse data l0 h1 w1 o1 ca mb (m m' : mapper G obs C R) h outs fn c :
  make_loader data = Ok l0 -> run wstep (w_init l0) h1 = (w1, o1) ->
  make_mapper choice_repl choice_perm ca mb w1 = Ok m ->
  all_polite (mstep ca mb) m h -> ~ In MRelease h -> run (mstep ca mb) m h = (m', outs) ->
  length (active_chains m') < m_tok m' ->
  l_chains (w_loader (m_world (fst (mstep ca mb m' (MStart fn c))))) = l_chains (w_loader (m_world m')).
Proof.
  intros Hm Hr Hmk Hpol Hnr Hrun Hlt.
  destruct (@make_mapper_ok data l0 h1 w1 o1 ca mb m Hm Hr Hmk) as (Hmb & HN & Hca & Hd & HM & Hp).
  pose proof (@mrun_ok G obs C R choice_repl choice_perm rng_of_seed Hperm Hrepl ca mb data (l_count l0) Hmb HN Hca h [] m HM Hpol) as H.
  rewrite Hrun in H. destruct H as (HM' & _ & _ & _ & Hkeep).
  assert (Hcnt : m_tok m' = length (held_chains m')).
  { replace m' with (fst (run (mstep ca mb) m h)) by now rewrite Hrun.
    apply created_count; auto.
    - unfold make_mapper in Hmk. destruct (_ <? _); [discriminate|]. destruct (_ =? _); [discriminate|].
      destruct (new_cache_state _ _ _ _ _ _) as [rq [cs|e]]; [|discriminate]. inversion Hmk; subst. reflexivity.
    - (* no start fails *)
      clear Hlt. clear HM' Hkeep Hrun m' outs.
      assert (Hg : forall h st m, MI choice_repl choice_perm ca mb data (l_count l0) st m -> all_polite (mstep ca mb) m h ->
        ~ In MRelease h -> m_pool m <> None -> forall e, ~ In (MoStart (Exc e)) (snd (run (mstep ca mb) m h))).
      { clear h m Hpol Hnr Hmk HM Hp. induction h as [|o h IH]; intros st m HM Hpol Hnr Hp e; cbn [run]; [simpl; tauto|].
        destruct Hpol as [Hp1 Hpol].
        pose proof (@mstep_ok G obs C R choice_repl choice_perm rng_of_seed Hperm Hrepl ca mb data (l_count l0) Hmb HN Hca st m o HM Hp1) as Hs.
        destruct (mstep ca mb m o) as [m1 out] eqn:E1. cbn [fst] in Hpol. destruct Hs as (HM1 & _ & _ & Hsome & Hk & _).
        specialize (IH _ m1 HM1 Hpol ltac:(intros H; apply Hnr; simpl; auto)
           ltac:(apply Hk; [exact Hp|intros ->; apply Hnr; simpl; auto]) e).
        destruct (run (mstep ca mb) m1 h) as [m2 outs]. simpl. intros [H|H]; [|auto].
        subst out. destruct o as [fn0 c0|j|j| |o]; simpl in E1.
        - specialize (Hsome Hp fn0 c0 eq_refl). discriminate.
        - destruct (m_iter _ _ _ _ _); discriminate.
        - destruct (m_finish _ _ _); discriminate.
        - discriminate.
        - destruct (DataCore.wstep _ _ _ _ _); discriminate. }
      intros e Hin. eapply (Hg h [] m HM Hpol Hnr Hp); eauto. }
  simpl. unfold m_start. specialize (Hkeep Hnr Hp). destruct (m_pool m') as [pool|] eqn:Ep; [|congruence].
  unfold held_chains in Hcnt. rewrite Ep, app_length, map_length in Hcnt.
  destruct (rev pool) as [|cs rest] eqn:Erev; [|reflexivity].
  exfalso. assert (length pool = 0) by (rewrite <- rev_length, Erev; reflexivity). lia.
Qed.
End MapperFinal.
