From Coq Require Import String.
From Verif Require Import Base ListUtil NumpyLoader LoaderSpec NumpyLoaderProofs NumpyLoaderApi NumpyLoaderFinal
  Requests DataCore DataSpec DataProofs DataFinal ArrayData ArraySpec ArrayProofs.
Set Implicit Arguments.

Section Final.
Context {G V : Type}.
Variable choice_repl : G -> nat -> nat -> G * list nat.
Variable choice_perm : G -> nat -> G * list nat.
Variable rng_of_seed : nat -> G.
Hypothesis Hperm : perm_oracle choice_perm.
Hypothesis Hrepl : repl_oracle choice_repl.
Variable x64 : bool.
Variable cast : dtype -> V -> V.
Notation awstep := (@awstep G V choice_repl choice_perm rng_of_seed x64 cast).
Notation wstep := (@DataCore.wstep G (list V) choice_repl choice_perm rng_of_seed).
Notation eraseW := (@eraseW G V x64 cast).
Notation AInv := (@AInv G V choice_repl choice_perm x64).
Notation spec_batch := (spec_batch choice_repl choice_perm).

Lemma nd_lens_ok data ns : @nd_lens V data = Ok ns -> 
  map (fun ka => hd 0 (nd_shape (snd ka))) data = ns /\ Forall (fun ka : string * nd V => exists n sh, nd_shape (snd ka) = n :: sh) data.
Proof.
  revert ns. induction data as [|[k a] data IH]; cbn; intros ns H; [inversion H; split; constructor|].
  unfold nd_len in H. destruct (nd_shape a) as [|n sh] eqn:E; [discriminate|]. cbn in H.
  destruct (nd_lens data) as [ns'|e]; [|discriminate]. cbn in H. inversion H; subst. destruct (IH ns' eq_refl) as [E1 E2].
  split; [now rewrite E1|]. constructor; eauto.
Qed.

Lemma make_ok data l0 : make_aloader (G := G) data = Ok l0 -> (forall ka, In ka data -> is_array (V := V) (snd ka)) ->
  arrays_ok (al_count l0) (al_data l0) /\ al_data l0 = data /\ al_chains l0 = [] /\
  make_loader (erase_data x64 cast data) = Ok (eraseL x64 cast l0).
Proof.
  intros H Hw. unfold make_aloader in H. destruct (nd_lens data) as [ns|e] eqn:E; [|discriminate]. cbn [bind] in H.
  destruct (nd_lens_ok _ E) as (E1 & E2). destruct ns as [|n0 ns].
  - destruct data; [|discriminate]. inversion H; subst l0. cbn. split; [intros ka []|]. repeat split; auto.
  - destruct (existsb _ _) eqn:Ex; [discriminate|]. inversion H; subst l0. cbn [al_count al_data al_chains].
    assert (Hn : forall ka, In ka data -> exists sh, nd_shape (snd ka) = n0 :: sh).
    { intros ka Hin. rewrite Forall_forall in E2. destruct (E2 ka Hin) as (n & sh & Hs). exists sh. rewrite Hs. f_equal.
      destruct (Nat.eq_dec n n0) as [|Hne]; auto. exfalso.
      assert (existsb (fun n => negb (n =? n0)) (n0 :: ns) = true); [|congruence].
      apply existsb_exists. exists n. split.
      - rewrite <- E1. apply in_map_iff. exists ka. rewrite Hs. auto.
      - destruct (Nat.eqb_spec n n0); [contradiction|reflexivity]. }
    assert (Ha : arrays_ok n0 data). { intros ka Hin. split; [exact (Hw ka Hin)|exact (Hn ka Hin)]. }
    repeat split; auto; try (apply Ha; assumption).
    pose proof (@erase_lengths V x64 cast n0 data Ha) as Hl. unfold make_loader.
    destruct data as [|ka0 data]; [discriminate|]. cbn [erase_data map]. cbn [erase_data map] in Hl.
    assert (E0 : length (obs_of (jnp_array x64 cast (snd ka0))) = n0) by (exact (Hl _ (or_introl eq_refl))).
    rewrite E0.
    match goal with |- context [existsb ?f ?d] => assert (Hx : existsb f d = false) end.
    { apply not_true_is_false. intros Hx. apply existsb_exists in Hx. destruct Hx as (ka & Hin & Hb).
      rewrite (Hl ka Hin) in Hb. rewrite Nat.eqb_refl in Hb. discriminate. }
    rewrite Hx. reflexivity.
Qed.

Lemma init_inv l0 : arrays_ok (al_count l0) (al_data l0) -> al_chains l0 = [] -> AInv (aw_init l0).
Proof. intros H E. constructor; cbn; auto. split; [exact H|]. rewrite E. constructor. Qed.

Lemma run_sim h : forall w, AInv w -> no_loads h ->
  let (w', outs) := run awstep w h in
  run wstep (eraseW w) h = (eraseW w', map (erase_out) outs) /\ AInv w' /\ later (aw_loader w) (aw_loader w') /\
  same_infos w w' /\
  forall k acc b, nth_error (aw_accesses w) k = Some acc -> In (Ok b) (abatch_answers k h outs) ->
     abatch_ok x64 (aw_loader w) (snd (acc_info acc)) b.
Proof.
  induction h as [|o h IH]; intros w HI Hn; cbn [run].
  - split; [reflexivity|]. split; [exact HI|]. split; [apply later_refl|].
    split; [apply (@same_infos_app G V w w []); now rewrite app_nil_r|]. intros k acc b _ [].
  - assert (Hn1 : not_a_load o) by (intros cid ck E; apply (Hn cid ck); left; exact E).
    pose proof (@wstep_sim G V choice_repl choice_perm rng_of_seed Hperm Hrepl x64 cast w o HI Hn1) as H1.
    destruct (awstep w o) as [w1 out]. destruct H1 as (A1 & A2 & A3 & A4 & A5).
    assert (Hn2 : no_loads h) by (intros cid ck E; apply (Hn cid ck); right; exact E).
    specialize (IH w1 A2 Hn2). destruct (run awstep w1 h) as [w2 outs]. destruct IH as (B1 & B2 & B3 & B4 & B5).
    rewrite A1, B1. split; [reflexivity|]. split; [exact B2|]. split; [eapply later_trans; eauto|]. split.
    + intros k acc Hk. destruct (A4 k acc Hk) as (acc1 & Hk1 & E1). destruct (B4 k acc1 Hk1) as (acc2 & Hk2 & E2).
      exists acc2. split; congruence.
    + intros k acc b Hk Hin. destruct (A4 k acc Hk) as (acc1 & Hk1 & E1).
      assert (Hrest : In (Ok b) (abatch_answers k h outs) -> abatch_ok x64 (aw_loader w) (snd (acc_info acc)) b).
      { intros Hin'. specialize (B5 k acc1 b Hk1 Hin'). rewrite E1 in B5. destruct A3 as (L1 & L2 & _).
        unfold abatch_ok in *. rewrite L1, L2 in B5. exact B5. }
      cbn [abatch_answers] in Hin. destruct o as [ca mb ie sh sd st|ca mb|k'|op]; auto. destruct out as [r|r|r]; auto.
      destruct (Nat.eqb_spec k' k) as [->|Hne]; auto. destruct Hin as [Hr|Hin]; auto. subst r.
      destruct (A5 k b eq_refl eq_refl) as (acc' & Hk' & Hb). rewrite Hk in Hk'. inversion Hk'; subst acc'. exact Hb.
Qed.

Lemma answers_sim k (h : list (wop G)) : forall outs : list (awout V),
  wouts k h (map erase_out outs) = map (res_map (@erase_batch V)) (abatch_answers k h outs).
Proof.
  induction h as [|o h IH]; intros [|out outs]; cbn [map wouts abatch_answers]; auto.
  - destruct o; reflexivity.
  - destruct o as [ca mb ie sh sd st|ca mb|k'|op]; auto. destruct out as [r|r|r]; cbn [erase_out]; auto.
    destruct (k' =? k); cbn [map]; rewrite IH; reflexivity.
Qed.

Lemma creates_accesses w1 o r mb ca : creates rng_of_seed (length (al_chains (aw_loader w1))) o r mb ca ->
  accesses (eraseW w1) rng_of_seed o r ca /\ reg_mb r = mb.
Proof.
  intros H. destruct H as [ca mb ie sh sd st|ca mb].
  - split; [constructor|]. unfold reg_random. destruct ie; [|destruct sh]; reflexivity.
  - split; [constructor|reflexivity].
Qed.

(** a batch with the announced format is determined by its observations *)
Lemma rebuild N (d0 d : list (string * nd V)) mb idx : arrays_ok N d0 -> length idx = mb -> Forall (fun i => i < N) idx ->
  format_of d = map (fun ka => (fst ka, (canonical x64 (nd_dtype (snd ka)), mb :: tl (nd_shape (snd ka))))) d0 ->
  Forall (fun ka => is_array (snd ka)) d ->
  map (fun ka => (fst ka, obs_of (snd ka))) d = map (fun ka => (fst ka, select (snd ka) idx)) (erase_data x64 cast d0) ->
  d = map (fun ka => (fst ka, batch_array x64 cast (snd ka) idx)) d0.
Proof.
  intros Ha Hl Hi. revert d. induction d0 as [|[k0 a0] d0 IH]; intros [|[k a] d] Hf Hw He; try discriminate; [reflexivity|].
  cbn [format_of erase_data map fst snd] in *. inversion Hf as [[E1 E2 E2b E3]]. inversion He as [[F1 F2 F3]].
  inversion Hw as [|x y Hw1 Hw2]; subst x y. cbn [snd] in Hw1.
  rewrite (IH (fun ka H => Ha ka (or_intror H)) d E3 Hw2 F3). f_equal. f_equal.
  destruct (Ha (k0, a0) (or_introl eq_refl)) as (Wa & sh & Hs). cbn [snd] in *.
  unfold batch_array. destruct a as [dt shp dat]. cbn [nd_dtype nd_shape] in *. subst dt shp. f_equal; [now rewrite Hl|].
  rewrite (@select_obs V _ N sh) in F2; [|exact Hs|exact Hi].
  unfold obs_of in F2. cbn [nd_shape nd_data] in F2. rewrite Hs in F2. cbn [tl] in F2.
  rewrite <- (@concat_blocks V (prod sh) mb dat).
  - rewrite F2. rewrite flat_map_concat_map, concat_map, map_map. f_equal. apply map_ext. intros i.
    unfold nd_obs, jnp_array. cbn [nd_shape nd_data]. now rewrite slice_map.
  - unfold is_array in Hw1. cbn [nd_data nd_shape] in Hw1. rewrite Hw1, Hs. reflexivity.
Qed.

Theorem final_batches data l0 h1 w1 o1 o r mb ca w2 k h2 :
  (forall ka, In ka data -> is_array (snd ka)) -> make_aloader data = Ok l0 ->
  run awstep (aw_init l0) h1 = (w1, o1) ->
  creates rng_of_seed (length (al_chains (aw_loader w1))) o r mb ca -> awstep w1 o = (w2, AwInit (Ok k)) ->
  no_loads h1 -> no_loads h2 -> hands_off (length (al_chains (aw_loader w1))) h2 ->
  abatch_answers k h2 (snd (run awstep w2 h2))
  = map (fun i => Ok (expected_batch choice_repl choice_perm x64 cast data (al_count l0) r i)) (seq 0 (num_batches k h2)).
Proof.
  intros Hw Hm Hr Hcr Hstep Hn1 Hn2 Hoff.
  destruct (make_ok data Hm Hw) as (Ha & Hd & Hch & Hm').
  pose proof (@run_sim h1 (aw_init l0) (init_inv l0 Ha Hch) Hn1) as S1. rewrite Hr in S1. destruct S1 as (R1 & I1 & La1 & _ & _).
  assert (Hno : not_a_load o) by (destruct Hcr; intros cid ck E; discriminate).
  pose proof (@wstep_sim G V choice_repl choice_perm rng_of_seed Hperm Hrepl x64 cast w1 o I1 Hno) as S2.
  rewrite Hstep in S2. destruct S2 as (R2 & I2 & La2 & _ & _).
  pose proof (@run_sim h2 w2 I2 Hn2) as S3. destruct (run awstep w2 h2) as [w3 outs] eqn:Er3.
  destruct S3 as (R3 & I3 & La3 & _ & Hfmt). cbn [snd].
  destruct (creates_accesses w1 Hcr) as (Hacc & Hmb).
  pose proof (@final_access G (list V) choice_repl choice_perm rng_of_seed Hperm Hrepl
     (erase_data x64 cast data) (eraseL x64 cast l0) h1 (eraseW w1) (map erase_out o1) o r ca (eraseW w2) k h2 Hm' R1 Hacc R2 Hoff) as Hfin.
  rewrite R3 in Hfin. cbn [snd] in Hfin. rewrite answers_sim in Hfin.
  (* the access exists and its batch size is mb *)
  assert (Hk : exists acc, nth_error (aw_accesses w2) k = Some acc /\ snd (acc_info acc) = mb).
  { destruct Hcr as [ca mb ie sh sd st|ca mb]; cbn [ArrayData.awstep] in Hstep.
    - unfold a_random_init in Hstep. destruct (_ <? _); [discriminate|]. destruct (_ || _); [discriminate|].
      pose proof (@register_random_sim G V choice_repl choice_perm rng_of_seed x64 cast (aw_loader w1) ca mb ie sh sd (ai_loader I1)) as Hrs.
      destruct (register_random _ _ _ _ _ _ _) as [b [cid|e]]; [|discriminate]. destruct Hrs as (_ & Q2 & Q3 & Q4).
      destruct (Q4 cid eq_refl) as (_ & Hc).
      pose proof (@init_cache_sim G V choice_repl choice_perm rng_of_seed Hperm Hrepl x64 cast w1 (rechain (aw_loader w1) b) ca mb cid st I1 Q2 Q3 Hc) as H.
      destruct (a_init_cache _ _ _ _ _ _ _ _ _ _) as [w' o']. inversion Hstep; subst w' o'.
      destruct H as (_ & _ & _ & H5 & _). destruct (H5 k eq_refl) as (acc & -> & -> & Hi). exists acc. split; [|now rewrite Hi].
      rewrite nth_error_app2 by lia. now rewrite Nat.sub_diag.
    - unfold a_full_init in Hstep. destruct (_ <? _); [discriminate|]. destruct (_ =? _); [discriminate|].
      pose proof (@register_ordered_sim G V choice_repl choice_perm rng_of_seed x64 cast (aw_loader w1) ca mb (ai_loader I1)) as Hrs.
      destruct (register_ordered _ _ _) as [b [cid|e]]; [|discriminate]. destruct Hrs as (_ & Q2 & Q3 & Q4).
      pose proof (@init_cache_sim G V choice_repl choice_perm rng_of_seed Hperm Hrepl x64 cast w1 (rechain (aw_loader w1) b) ca mb cid true I1 Q2 Q3 (Q4 cid eq_refl)) as H.
      destruct (a_init_cache _ _ _ _ _ _ _ _ _ _) as [w' o']. inversion Hstep; subst w' o'.
      destruct H as (_ & _ & _ & H5 & _). destruct (H5 k eq_refl) as (acc & -> & -> & Hi). exists acc. split; [|now rewrite Hi].
      rewrite nth_error_app2 by lia. now rewrite Nat.sub_diag. }
  destruct Hk as (acc & Hk & Hinfo).
  assert (Hok : reg_ok (al_count l0) r).
  { pose proof La1 as (L1 & _). cbn in L1. rewrite <- L1.
    destruct Hcr as [ca mb ie sh sd st|ca mb]; cbn [ArrayData.awstep] in Hstep.
    - unfold a_random_init in Hstep. destruct (Nat.ltb_spec (al_count (aw_loader w1)) mb); [discriminate|].
      destruct ((ca =? 0) || (mb =? 0)) eqn:Eb; [discriminate|]. apply Bool.orb_false_iff in Eb. destruct Eb as [_ Eb].
      apply Nat.eqb_neq in Eb. unfold reg_ok, reg_random. destruct ie; [|destruct sh]; simpl; lia.
    - unfold a_full_init in Hstep. destruct (Nat.ltb_spec (al_count (aw_loader w1)) mb); [discriminate|].
      unfold reg_ok; simpl; lia. }
  assert (Hfmt' : forall b, In (Ok b) (abatch_answers k h2 outs) -> abatch_ok x64 l0 mb b).
  { intros b Hb. specialize (Hfmt k acc b Hk Hb). rewrite Hinfo in Hfmt. unfold abatch_ok in *.
    pose proof (later_trans La1 La2) as (L1 & L2 & _). cbn in L1, L2. rewrite L1, L2 in Hfmt. exact Hfmt. }
  clear Hfmt Hk Er3 R3 Hinfo. cbn [eraseL l_count] in Hfin. revert Hfin Hfmt'.
  generalize (abatch_answers k h2 outs) as ans, (seq 0 (num_batches k h2)) as is. intros ans.
  induction ans as [|x ans IH]; intros [|i is] Hfin Hf; try discriminate; [reflexivity|]. cbn [map] in *.
  inversion Hfin as [[X1 X2]]. rewrite (IH is X2) by (intros; apply Hf; right; assumption). f_equal.
  destruct x as [b|e]; [|discriminate]. f_equal. cbn [res_map] in X1. inversion X1 as [[Y1 Y2]].
  destruct (Hf b (or_introl eq_refl)) as (F1 & F2 & F3 & F4 & F5).
  destruct (@shape G choice_repl choice_perm Hperm Hrepl (al_count l0) r i Hok) as (S1 & S2 & S3).
  unfold expected_batch. destruct b as [bd bc bs bm]. cbn [ab_data ab_count ab_size ab_mask] in *.
  destruct (spec_batch (al_count l0) r i) as [idx mask]. cbn [fst snd] in *.
  f_equal.
  - rewrite Hd in F1, Ha. exact (@rebuild (al_count l0) data bd mb idx Ha (eq_trans S1 Hmb) S3 F1 F2 Y1).
  - exact F4.
  - congruence.
  - destruct bm as [md ms mdat]. cbn in F3, Y2. inversion F3; subst. f_equal. congruence.
Qed.

(** direct use of the loader: the sizes of the answers *)
Theorem final_get data l0 h1 w1 o1 op ca mb w2 cid h2 w3 o3 :
  (forall ka, In ka data -> is_array (snd ka)) -> make_aloader data = Ok l0 ->
  run awstep (aw_init l0) h1 = (w1, o1) -> no_loads h1 -> no_loads h2 ->
  (op = RegOrdered ca mb \/ exists ie sh sd, op = RegRandom ca mb ie sh sd) ->
  awstep w1 (WLoader op) = (w2, AwLoader (AId (Ok cid))) -> run awstep w2 h2 = (w3, o3) -> 0 < ca ->
  exists w4 d m, awstep w3 (WLoader (GetBatches cid)) = (w4, AwLoader (ABatch (Ok (d, m)))) /\
    format_of d = canonical_format x64 (batch_format l0 ca mb) /\ nd_struct m = (DBool, [ca; mb]) /\
    is_array m /\ (forall ka, In ka d -> is_array (snd ka)).
Proof.
  intros Hw Hm Hr Hn1 Hn2 Hop Hstep Hr2 Hca.
  destruct (make_ok data Hm Hw) as (Ha & Hd & Hch & Hm').
  pose proof (@run_sim h1 (aw_init l0) (init_inv l0 Ha Hch) Hn1) as S1. rewrite Hr in S1. destruct S1 as (R1 & I1 & La1 & _ & _).
  assert (Hno : not_a_load (WLoader op)) by (intros c ck E; inversion E; subst; destruct Hop as [E'|(a1 & a2 & a3 & E')]; discriminate).
  pose proof (@wstep_sim G V choice_repl choice_perm rng_of_seed Hperm Hrepl x64 cast w1 (WLoader op) I1 Hno) as S2.
  rewrite Hstep in S2. destruct S2 as (_ & I2 & La2 & _ & _).
  pose proof (@run_sim h2 w2 I2 Hn2) as S3. rewrite Hr2 in S3. destruct S3 as (_ & I3 & La3 & _ & _).
  assert (Hc : exists c, nth_error (al_chains (aw_loader w2)) cid = Some c /\ c_cache c = ca /\ c_mb c = mb).
  { destruct Hop as [->|(ie & sh & sd & ->)]; cbn [ArrayData.awstep alstep] in Hstep.
    - pose proof (@register_ordered_sim G V choice_repl choice_perm rng_of_seed x64 cast (aw_loader w1) ca mb (ai_loader I1)) as Hrs.
      destruct (register_ordered _ _ _) as [b o]. inversion Hstep; subst w2 o. destruct Hrs as (_ & _ & _ & Q). exact (Q cid eq_refl).
    - pose proof (@register_random_sim G V choice_repl choice_perm rng_of_seed x64 cast (aw_loader w1) ca mb ie sh sd (ai_loader I1)) as Hrs.
      destruct (register_random _ _ _ _ _ _ _) as [b o]. inversion Hstep; subst w2 o. destruct Hrs as (_ & _ & _ & Q). exact (proj2 (Q cid eq_refl)). }
  destruct Hc as (c & Hc & Ec & Em). pose proof La3 as (_ & _ & L3). destruct (L3 _ _ Hc) as (c' & Hc' & Ec' & Em').
  destruct (@get_sim G V choice_repl choice_perm rng_of_seed Hperm Hrepl x64 cast (aw_loader w3) cid (ai_loader I3)) as (_ & _ & _ & Hb).
  destruct (Hb c' Hc' ltac:(lia)) as ([d m] & Eb & Hbok). cbn [ArrayData.awstep alstep].
  destruct (a_get_batches choice_repl choice_perm x64 cast (aw_loader w3) cid) as [l' o']. cbn [snd] in Eb. subst o'.
  do 3 eexists. split; [reflexivity|]. destruct Hbok as (B1 & B2 & B3 & B4). cbn [fst snd] in *.
  rewrite Ec', Em', Ec, Em in *.
  pose proof (later_trans La1 (later_trans La2 La3)) as (_ & L2 & _). cbn in L2.
  split; [|split; [exact B2|split; [exact B3|]]].
  - rewrite B1. unfold batch_format, obs_format. now rewrite L2.
  - intros ka Hin. rewrite Forall_forall in B4. exact (B4 ka Hin).
Qed.
End Final.
