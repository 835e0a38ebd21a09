From Coq Require Import String.
From Verif Require Import Base ListUtil NumpyLoader LoaderSpec NumpyLoaderProofs NumpyLoaderApi NumpyLoaderFinal
  Requests DataCore DataSpec DataProofs DataFinal ArrayData.
Set Implicit Arguments.

Lemma map_upd' A B (f : A -> B) l : forall k x, map f (upd l k x) = upd (map f l) k (f x).
Proof. induction l as [|y ys IH]; intros [|k] x; cbn; auto. f_equal. apply IH. Qed.

(** ** flat arrays and their blocks *)
Definition blocks {V} (p n : nat) (l : list V) : list (list V) :=
  map (fun i => slice l (i * p) ((i + 1) * p)) (seq 0 n).

Lemma slice_map A B (f : A -> B) l a b : slice (map f l) a b = map f (slice l a b).
Proof. unfold slice. now rewrite skipn_map, firstn_map. Qed.

Lemma skipn_skipn' A x y (l : list A) : skipn x (skipn y l) = skipn (y + x) l.
Proof. revert l. induction y as [|y IH]; intros l; simpl; [reflexivity|]. destruct l; [now rewrite skipn_nil|apply IH]. Qed.

Lemma blocks_S V p n (l : list V) : blocks p (S n) l = firstn p l :: blocks p n (skipn p l).
Proof.
  unfold blocks. cbn [seq map]. f_equal.
  - unfold slice. simpl. f_equal. lia.
  - rewrite <- seq_shift, map_map. apply map_ext. intros i. unfold slice.
    rewrite skipn_skipn'. replace (p + i * p) with (S i * p) by lia. f_equal. lia.
Qed.
Lemma blocks_concat V p (bl : list (list V)) : Forall (fun b => length b = p) bl ->
  blocks p (length bl) (concat bl) = bl.
Proof.
  induction bl as [|b bl IH]; intros H; [reflexivity|]. inversion H; subst. cbn [length concat].
  rewrite blocks_S, firstn_app, skipn_app, firstn_all, skipn_all, Nat.sub_diag. simpl.
  rewrite app_nil_r. f_equal. now apply IH.
Qed.
Lemma concat_blocks V p n : forall l : list V, length l = n * p -> concat (blocks p n l) = l.
Proof.
  induction n as [|n IH]; intros l H; simpl in H.
  - destruct l; [reflexivity|discriminate].
  - rewrite blocks_S. cbn [concat]. rewrite IH; [apply firstn_skipn|]. rewrite skipn_length. lia.
Qed.
Lemma blocks_map A B (f : A -> B) p n l : blocks p n (map f l) = map (map f) (blocks p n l).
Proof. unfold blocks. rewrite map_map. apply map_ext. intros. apply slice_map. Qed.
Lemma blocks_len V p n (l : list V) : length l = n * p -> Forall (fun b => length b = p) (blocks p n l).
Proof.
  intros H. apply Forall_forall. intros b Hb. apply in_map_iff in Hb. destruct Hb as (i & <- & Hi).
  apply in_seq in Hi. unfold slice. rewrite firstn_length, skipn_length. nia.
Qed.
Lemma nth_blocks V p n (l : list V) i : i < n -> nth_error (blocks p n l) i = Some (slice l (i * p) ((i + 1) * p)).
Proof. intros H. unfold blocks. now rewrite nth_error_map_seq. Qed.

(** ** abstraction of arrays *)
Section Rows.
Context {V : Type}.
(** an array without its first axis: the list of its observations *)
Definition obs_of (a : nd V) : list (list V) :=
  match nd_shape a with [] => [] | n :: sh => blocks (prod sh) n (nd_data a) end.
(** an array with two batch axes *)
Definition obs2_of (a : nd V) : list (list (list V)) :=
  match nd_shape a with
  | ca :: mb :: sh => map (blocks (prod sh) mb) (blocks (mb * prod sh) ca (nd_data a))
  | _ => [] end.
Definition wf (a : nd V) : Prop := length (nd_data a) = prod (nd_shape a).
End Rows.

Lemma obs_of_mask (m : nd bool) ca mb : nd_shape m = [ca; mb] -> obs_of m = blocks (mb * 1) ca (nd_data m).
Proof. intros H. unfold obs_of. now rewrite H. Qed.

Lemma select_obs V (a : nd V) n sh idx : nd_shape a = n :: sh -> Forall (fun i => i < n) idx ->
  select (obs_of a) idx = map (nd_obs a) idx.
Proof.
  intros Hs Hi. unfold select, obs_of, nd_obs. rewrite Hs. cbn [tl].
  induction Hi as [|i idx Hi _ IH]; [reflexivity|]. cbn [flat_map map]. rewrite nth_blocks by assumption.
  cbn [app]. f_equal. exact IH.
Qed.

Lemma nd_obs_len V (a : nd V) n sh i : nd_shape a = n :: sh -> wf a -> i < n -> length (nd_obs a i) = prod sh.
Proof.
  intros Hs Hw Hi. unfold nd_obs, wf in *. rewrite Hs in *. cbn [tl]. unfold slice.
  rewrite firstn_length, skipn_length, Hw. cbn [prod fold_right]. fold (prod sh). nia.
Qed.

(** indexing with a (ca, mb) index array *)
Lemma obs2_take V (a : nd V) n sh d ca mb rows : nd_shape a = n :: sh -> wf a ->
  length rows = ca -> Forall (fun r => length r = mb) rows -> Forall (Forall (fun i => i < n)) rows ->
  forall f : V -> V,
  let b := mkNd d (ca :: mb :: sh) (map f (flat_map (nd_obs a) (concat rows))) in
  wf b /\ obs2_of b = map (map (fun i => map f (nd_obs a i))) rows.
Proof.
  intros Hs Hw Hl Hm Hi f b.
  assert (Hd : nd_data b = concat (map (fun r => concat (map (fun i => map f (nd_obs a i)) r)) rows)).
  { unfold b. cbn [nd_data]. clear. induction rows as [|r rows IH]; [reflexivity|]. cbn [concat map].
    rewrite flat_map_app, map_app, IH. f_equal. rewrite flat_map_concat_map, concat_map, map_map. reflexivity. }
  assert (Hin : Forall (fun r => Forall (fun x => length x = prod sh) (map (fun i => map f (nd_obs a i)) r)) rows).
  { eapply Forall_impl; [|exact Hi]. intros r Hr. apply Forall_forall. intros x Hx. apply in_map_iff in Hx.
    destruct Hx as (i & <- & Hi'). rewrite map_length. eapply nd_obs_len; eauto. rewrite Forall_forall in Hr. auto. }
  assert (Hlen : Forall (fun x => length x = mb * prod sh)
                   (map (fun r => concat (map (fun i => map f (nd_obs a i)) r)) rows)).
  { apply Forall_forall. intros x Hx. apply in_map_iff in Hx. destruct Hx as (r & <- & Hr).
    rewrite Forall_forall in Hm, Hin. rewrite <- (Hm r Hr). specialize (Hin r Hr). clear - Hin.
    induction r as [|i r IH]; [reflexivity|]. cbn [map concat length] in *. inversion Hin; subst.
    rewrite app_length, IH by assumption. lia. }
  split.
  - unfold wf. rewrite Hd. unfold b. cbn [nd_shape prod fold_right]. fold (prod sh). rewrite <- Hl.
    clear - Hlen. induction rows as [|r rows IH]; [reflexivity|]. cbn [map concat length] in *.
    inversion Hlen; subst. rewrite app_length, IH by assumption. lia.
  - unfold obs2_of. cbn [nd_shape b]. rewrite Hd.
    replace ca with (length (map (fun r => concat (map (fun i => map f (nd_obs a i)) r)) rows))
      by (now rewrite map_length).
    rewrite blocks_concat by exact Hlen. rewrite map_map. apply map_ext_in. intros r Hr.
    rewrite Forall_forall in Hm, Hin. specialize (Hin r Hr). specialize (Hm r Hr).
    etransitivity; [|exact (blocks_concat Hin)]. rewrite map_length, Hm. reflexivity.
Qed.

(** ** indexing one line of a cache *)
Lemma jax_index_obs2 V (a : nd V) ca mb sh i : nd_shape a = ca :: mb :: sh -> wf a -> i < ca ->
  exists b, jax_index a i = Ok b /\ nd_struct b = (nd_dtype a, mb :: sh) /\ wf b /\
    jindex (obs2_of a) i = Ok (obs_of b).
Proof.
  intros Hs Hw Hi. unfold jax_index. rewrite Hs. destruct ca as [|ca]; [lia|].
  eexists. split; [reflexivity|]. rewrite Nat.min_l by lia. split; [reflexivity|]. split.
  - unfold wf. cbn [nd_data nd_shape]. apply (nd_obs_len Hs Hw). assumption.
  - unfold jindex, obs2_of. rewrite Hs. rewrite map_length.
    assert (Hbl : length (blocks (mb * prod sh) (S ca) (nd_data a)) = S ca) by (unfold blocks; now rewrite map_length, seq_length).
    rewrite Hbl.
    rewrite Nat.min_l by lia. rewrite nth_error_map, nth_blocks by lia. cbn [option_map]. f_equal.
    unfold obs_of. cbn [nd_shape nd_data]. unfold nd_obs. rewrite Hs. cbn [tl prod fold_right]. reflexivity.
Qed.
Lemma jax_index_mask (a : nd bool) ca mb i : nd_struct a = (DBool, [ca; mb]) -> wf a -> i < ca ->
  exists b, jax_index a i = Ok b /\ nd_struct b = (DBool, [mb]) /\ wf b /\ jindex (obs_of a) i = Ok (nd_data b).
Proof.
  intros Hst Hw Hi. inversion Hst as [[Hd Hs]]. unfold jax_index. rewrite Hs. destruct ca as [|ca]; [lia|].
  eexists. split; [reflexivity|]. rewrite Nat.min_l by lia. split; [reflexivity|]. split.
  - unfold wf. cbn [nd_data nd_shape]. apply (nd_obs_len Hs Hw). assumption.
  - unfold jindex, obs_of. rewrite Hs. 
    assert (Hbl : length (blocks (prod [mb]) (S ca) (nd_data a)) = S ca) by (unfold blocks; now rewrite map_length, seq_length).
    rewrite Hbl.
    rewrite Nat.min_l by lia. rewrite nth_blocks by lia. cbn [nd_data]. f_equal. unfold nd_obs. rewrite Hs. reflexivity.
Qed.

(** ** stacking index vectors *)
Lemma np_stack_ok A (rows : list (list A)) ca mb : length rows = ca -> 0 < ca ->
  Forall (fun r => length r = mb) rows -> np_stack rows = Ok ([ca; mb], concat rows).
Proof.
  intros Hl Hc Hf. unfold np_stack. destruct rows as [|r0 rows]; [simpl in Hl; lia|].
  assert (H0 : length r0 = mb) by (inversion Hf; assumption).
  replace (forallb _ _) with true.
  - rewrite Hl, H0. reflexivity.
  - symmetry. apply forallb_forall. intros r Hr. rewrite Forall_forall in Hf. apply Nat.eqb_eq. rewrite (Hf r Hr). auto.
Qed.

Section Sim.
Context {G V : Type}.
Variable choice_repl : G -> nat -> nat -> G * list nat.
Variable choice_perm : G -> nat -> G * list nat.
Variable rng_of_seed : nat -> G.
Hypothesis Hperm : perm_oracle choice_perm.
Hypothesis Hrepl : repl_oracle choice_repl.
Variable x64 : bool.
Variable cast : dtype -> V -> V.
Notation jnp_array := (jnp_array x64 cast).
Notation a_get_batches := (@a_get_batches G V choice_repl choice_perm x64 cast).
Notation get_batches := (NumpyLoader.get_batches choice_repl choice_perm (obs := list V)).
Notation alstep := (@alstep G V choice_repl choice_perm rng_of_seed x64 cast).
Notation lstep := (NumpyLoader.lstep choice_repl choice_perm rng_of_seed (obs := list V)).
Notation awstep := (@awstep G V choice_repl choice_perm rng_of_seed x64 cast).
Notation wstep := (@DataCore.wstep G (list V) choice_repl choice_perm rng_of_seed).
Notation spec_batch := (spec_batch choice_repl choice_perm).
Notation ChainInv := (ChainInv choice_repl choice_perm).
Notation requests := (rstate (aloader G V) (abatches V)).

Definition res_map {A B} (f : A -> B) (r : res A) : res B := match r with Ok a => Ok (f a) | Exc e => Exc e end.

Definition erase_data (d : list (string * nd V)) := map (fun ka => (fst ka, obs_of (jnp_array (snd ka)))) d.
Definition eraseL (l : aloader G V) : loader G (list V) :=
  mkLoader (al_count l) (erase_data (al_data l)) (al_chains l).
Definition eraseB (b : abatches V) : batches (list V) :=
  (map (fun ka => (fst ka, obs2_of (snd ka))) (fst b), obs_of (snd b)).

(** well-formed arrays with N observations *)
Definition arrays_ok (N : nat) (d : list (string * nd V)) : Prop :=
  forall ka, In ka d -> wf (snd ka) /\ exists sh, nd_shape (snd ka) = N :: sh.
Definition chain_ok (N : nat) (c : chain G) : Prop :=
  exists r n, reg_ok N r /\ ChainInv N r (c_cache c) n c.
Definition batches_ok (l : aloader G V) (ca mb : nat) (b : abatches V) : Prop :=
  format_of (fst b) = canonical_format x64 (batch_format l ca mb) /\
  nd_struct (snd b) = (DBool, [ca; mb]) /\ wf (snd b) /\ Forall (fun ka => wf (snd ka)) (fst b).

Lemma erase_lengths N d : arrays_ok N d -> forall ka, In ka (erase_data d) -> length (snd ka) = N.
Proof.
  intros H ka Hin. apply in_map_iff in Hin. destruct Hin as (ka' & <- & Hin). destruct (H _ Hin) as (_ & sh & Hs).
  cbn [snd]. unfold obs_of, ArrayData.jnp_array. cbn [nd_shape]. rewrite Hs. unfold blocks. now rewrite map_length, seq_length.
Qed.

(** the loop over the arrays *)
Lemma slice_arrays_ok N d ca mb rows : arrays_ok N d -> length rows = ca ->
  Forall (fun r => length r = mb) rows -> Forall (Forall (fun i => i < N)) rows ->
  exists d', slice_arrays x64 cast d [ca; mb] (concat rows) = Ok d' /\
    format_of d' = map (fun ka => (fst ka, (canonical x64 (nd_dtype (snd ka)), ca :: mb :: tl (nd_shape (snd ka))))) d /\
    Forall (fun ka => wf (snd ka)) d' /\
    map (fun ka => (fst ka, obs2_of (snd ka))) d' = map (fun ka => (fst ka, map (select (snd ka)) rows)) (erase_data d).
Proof.
  intros Hd Hl Hm Hi. induction d as [|[k a] d IH].
  - exists []. cbn. repeat split; auto.
  - destruct IH as (d' & E & Hf & Hw & He); [intros ka Hka; apply Hd; simpl; auto|].
    destruct (Hd (k, a)) as (Hwa & sh & Hs); [simpl; auto|]. cbn [snd] in *.
    cbn [slice_arrays]. unfold np_take. rewrite Hs.
    assert (Hall : forallb (fun i => i <? N) (concat rows) = true).
    { apply forallb_forall. intros i Hin. apply in_concat in Hin. destruct Hin as (r & Hr & Hin).
      rewrite Forall_forall in Hi. specialize (Hi r Hr). rewrite Forall_forall in Hi. apply Nat.ltb_lt. auto. }
    rewrite Hall. cbn [bind]. rewrite E. cbn [bind]. eexists. split; [reflexivity|].
    unfold ArrayData.jnp_array. cbn [nd_dtype nd_shape nd_data].
    destruct (@obs2_take V a N sh (canonical x64 (nd_dtype a)) ca mb rows Hs Hwa Hl Hm Hi (cast (canonical x64 (nd_dtype a)))) as (Hw1 & He1).
    split; [|split].
    + unfold format_of in *. cbn [map fst snd]. rewrite Hf. unfold nd_struct. cbn [nd_dtype nd_shape]. rewrite Hs. reflexivity.
    + constructor; auto.
    + cbn [erase_data map fst snd]. f_equal; [|exact He]. f_equal. cbn [app] in *. rewrite He1.
      apply map_ext_in. intros r Hr. rewrite Forall_forall in Hi.
      rewrite (@select_obs V _ N sh); [|unfold ArrayData.jnp_array; cbn [nd_shape]; exact Hs|auto].
      apply map_ext. intros i. unfold nd_obs, ArrayData.jnp_array. cbn [nd_shape nd_data]. now rewrite slice_map.
Qed.

Lemma a_get_ok l cid c : arrays_ok (al_count l) (al_data l) ->
  nth_error (al_chains l) cid = Some c -> chain_ok (al_count l) c ->
  get_batches (eraseL l) cid = (eraseL (fst (a_get_batches l cid)), res_map eraseB (snd (a_get_batches l cid))) /\
  (exists c', fst (a_get_batches l cid) = mkAL (al_count l) (al_data l) (upd (al_chains l) cid c') /\
     chain_ok (al_count l) c' /\ c_cache c' = c_cache c /\ c_mb c' = c_mb c) /\
  (0 < c_cache c -> exists b, snd (a_get_batches l cid) = Ok b /\ batches_ok l (c_cache c) (c_mb c) b) /\
  (c_cache c = 0 -> snd (a_get_batches l cid) = Exc ValueError).
Proof.
  intros Hd Hc (r & n & Hok & Hinv). unfold ArrayData.a_get_batches, NumpyLoader.get_batches.
  cbn [eraseL l_chains l_count l_data]. rewrite Hc. unfold get_indices.
  assert (Hmb : c_mb c = reg_mb r) by (destruct Hinv as (E & _); exact E).
  destruct (Nat.eqb_spec (c_cache c) 0) as [E0|Hne].
  - cbn [fst snd res_map]. split; [reflexivity|]. split; [|split; [lia|auto]].
    exists c. split; [|split; [exists r, n; auto|auto]]. destruct l as [N d cs]. cbn. f_equal. cbn in Hc.
    clear - Hc. revert cid Hc. induction cs as [|x cs IH]; intros [|cid] Hc; cbn in *; try discriminate; [congruence|].
    f_equal. now apply IH.
  - destruct (@chain_steps G choice_repl choice_perm rng_of_seed Hperm (al_count l) r (c_cache c) (c_cache c) n c Hok Hinv)
      as (c' & E & Hinv').
    rewrite E. set (bs := map (spec_batch (al_count l) r) (seq n (c_cache c))).
    assert (Hsh : forall b, In b bs -> length (fst b) = c_mb c /\ length (snd b) = c_mb c /\ Forall (fun i => i < al_count l) (fst b)).
    { intros b Hb. apply in_map_iff in Hb. destruct Hb as (k & <- & _). rewrite Hmb.
      apply (@shape G choice_repl choice_perm Hperm Hrepl (al_count l) r k Hok). }
    assert (Hl : length bs = c_cache c) by (unfold bs; now rewrite map_length, seq_length).
    assert (H1 : Forall (fun r0 => length r0 = c_mb c) (map fst bs)).
    { apply Forall_forall. intros x Hx. apply in_map_iff in Hx. destruct Hx as (b & <- & Hb). now apply Hsh. }
    assert (H2 : Forall (fun r0 => length r0 = c_mb c) (map snd bs)).
    { apply Forall_forall. intros x Hx. apply in_map_iff in Hx. destruct Hx as (b & <- & Hb). now apply Hsh. }
    assert (H3 : Forall (Forall (fun i => i < al_count l)) (map fst bs)).
    { apply Forall_forall. intros x Hx. apply in_map_iff in Hx. destruct Hx as (b & <- & Hb). now apply Hsh. }
    rewrite (@np_stack_ok _ (map fst bs) (c_cache c) (c_mb c)); [|now rewrite map_length|lia|exact H1].
    rewrite (@np_stack_ok _ (map snd bs) (c_cache c) (c_mb c)); [|now rewrite map_length|lia|exact H2].
    cbn [bind fst snd].
    destruct (@slice_arrays_ok (al_count l) (al_data l) (c_cache c) (c_mb c) (map fst bs) Hd)
      as (d' & Ed & Hf & Hw & He); [now rewrite map_length|exact H1|exact H3|].
    rewrite Ed. cbn [bind].
    rewrite (@slice_data_ok _ (erase_data (al_data l)) (al_count l));
      [|apply erase_lengths; exact Hd|exact H3].
    assert (Hmw : wf (mkNd DBool [c_cache c; c_mb c] (concat (map snd bs)))).
    { unfold wf. cbn [nd_data nd_shape prod fold_right]. rewrite Nat.mul_1_r.
      replace (c_cache c) with (length (map snd bs)) by (now rewrite map_length).
      clear - H2. induction (map snd bs) as [|x xs IH]; [reflexivity|]. inversion H2; subst. cbn [concat length].
      rewrite app_length, IH by assumption. lia. }
    split; [|split; [|split; [|lia]]].
    + cbn [res_map]. f_equal. f_equal. unfold eraseB. cbn [fst snd]. f_equal; [symmetry; exact He|].
      unfold obs_of. cbn [nd_shape nd_data prod fold_right]. rewrite Nat.mul_1_r.
      replace (c_cache c) with (length (map snd bs)) by (now rewrite map_length).
      symmetry. apply blocks_concat. exact H2.
    + exists c'. split; [reflexivity|].
      assert (Hcc : c_cache c' = c_cache c) by (destruct Hinv' as (_ & Ec & _); exact Ec).
      assert (Hcm : c_mb c' = c_mb c) by (destruct Hinv' as (Ec & _); congruence).
      repeat split; auto. exists r, (n + c_cache c). split; [exact Hok|]. rewrite Hcc. exact Hinv'.
    + intros _. eexists. split; [reflexivity|]. unfold batches_ok. cbn [fst snd]. split; [|split; [reflexivity|split; assumption]].
      rewrite Hf. unfold canonical_format, batch_format, obs_format. rewrite !map_map. reflexivity.
Qed.

(** ** the world *)
Definition erase_access (acc : access V) : client (list V) :=
  let cs := acc_state acc in
  let b := eraseB (ac_data cs, ac_valid cs) in
  mkClient (mkC (fst b) (ac_count cs) (ac_line cs) (ac_chain cs) (snd b) (ac_token cs)) (acc_strict acc).
Definition eraseR (r : requests) : rstate (loader G (list V)) (batches (list V)) :=
  mkR (map (fun e => (fst e, (fst (fst (snd e)), eraseB (snd (fst (snd e))), snd (snd e)))) (r_cached r))
      (r_current r) (r_fresh r) (eraseL (r_loader r)).
Definition eraseW (w : aworld G V) : world G (list V) := mkW (eraseR (aw_req w)) (map erase_access (aw_accesses w)).
Definition erase_batch (b : abatch V) : mbatch (list V) :=
  (map (fun ka => (fst ka, obs_of (snd ka))) (ab_data b), nd_data (ab_mask b)).
Definition erase_lout (o : alout V) : lout (list V) :=
  match o with AId r => OId r | ABatch r => OBatch (res_map eraseB r) | AUnit r => OUnit r end.
Definition erase_out (o : awout V) : wout (list V) :=
  match o with
  | AwInit r => WoInit r | AwBatch r => WoBatch (res_map erase_batch r) | AwLoader o => WoLoader (erase_lout o) end.

Definition acc_ok (l : aloader G V) (acc : access V) : Prop :=
  exists c, nth_error (al_chains l) (ac_chain (acc_state acc)) = Some c /\ 0 < c_cache c /\
    ac_count (acc_state acc) = c_cache c /\ ac_line (acc_state acc) <= c_cache c /\
    acc_format acc = batch_format l (c_cache c) (c_mb c) /\ acc_mask acc = [c_cache c; c_mb c] /\
    acc_info acc = (al_count l, c_mb c) /\
    batches_ok l (c_cache c) (c_mb c) (ac_data (acc_state acc), ac_valid (acc_state acc)).

Definition loader_ok (l : aloader G V) : Prop :=
  arrays_ok (al_count l) (al_data l) /\ Forall (chain_ok (al_count l)) (al_chains l).
Record AInv (w : aworld G V) : Prop := {
  ai_loader : loader_ok (aw_loader w);
  ai_cached : r_cached (aw_req w) = [];
  ai_acc : Forall (acc_ok (aw_loader w)) (aw_accesses w) }.

(** a later loader: the same arrays, and every chain keeps its sizes *)
Definition later (l l' : aloader G V) : Prop :=
  al_count l' = al_count l /\ al_data l' = al_data l /\
  forall i c, nth_error (al_chains l) i = Some c ->
    exists c', nth_error (al_chains l') i = Some c' /\ c_cache c' = c_cache c /\ c_mb c' = c_mb c.
Lemma later_refl l : later l l.
Proof. repeat split; auto. intros i c H. exists c. auto. Qed.
Lemma later_trans l1 l2 l3 : later l1 l2 -> later l2 l3 -> later l1 l3.
Proof.
  intros (A1 & A2 & A3) (B1 & B2 & B3). split; [congruence|split; [congruence|]].
  intros i c H. destruct (A3 i c H) as (c1 & H1 & E1 & E1'). destruct (B3 i c1 H1) as (c2 & H2 & E2 & E2').
  exists c2. repeat split; congruence.
Qed.
Lemma batches_ok_later l l' ca mb b : later l l' -> batches_ok l ca mb b -> batches_ok l' ca mb b.
Proof. intros (_ & H & _). unfold batches_ok, batch_format, obs_format. now rewrite H. Qed.
Lemma acc_ok_later l l' acc : later l l' -> acc_ok l acc -> acc_ok l' acc.
Proof.
  intros Hl (c & Hc & H0 & H1 & H2 & H3 & H4 & H5 & H6). pose proof Hl as (L1 & L2 & L3).
  destruct (L3 _ _ Hc) as (c' & Hc' & E1 & E2). exists c'. rewrite E1, E2. repeat split; auto; try apply H6.
  - unfold batch_format, obs_format in *. now rewrite L2.
  - now rewrite L1.
  - eapply batches_ok_later in H6; [|exact Hl]. apply H6.
Qed.

Lemma Forall_nth_ok (P : chain G -> Prop) l i c : Forall P l -> nth_error l i = Some c -> P c.
Proof. intros H E. rewrite Forall_forall in H. apply H. eapply nth_error_In; eauto. Qed.

Lemma get_sim l cid : loader_ok l ->
  get_batches (eraseL l) cid = (eraseL (fst (a_get_batches l cid)), res_map eraseB (snd (a_get_batches l cid))) /\
  loader_ok (fst (a_get_batches l cid)) /\ later l (fst (a_get_batches l cid)) /\
  (forall c, nth_error (al_chains l) cid = Some c -> 0 < c_cache c ->
     exists b, snd (a_get_batches l cid) = Ok b /\ batches_ok l (c_cache c) (c_mb c) b).
Proof.
  intros [Hd Hch]. destruct (nth_error (al_chains l) cid) as [c|] eqn:Ec.
  - destruct (@a_get_ok l cid c Hd Ec (Forall_nth_ok _ Hch Ec)) as (H1 & (c' & H2 & H2a & H2b & H2c) & H3 & H4).
    split; [exact H1|]. rewrite H2. split; [|split].
    + split; [exact Hd|]. cbn [al_chains al_count]. now apply Forall_upd.
    + split; [reflexivity|split; [reflexivity|]]. intros i x Hx. cbn [al_chains].
      destruct (Nat.eq_dec cid i) as [<-|Hne].
      * rewrite Ec in Hx. inversion Hx; subst x. exists c'.
        rewrite nth_error_upd_same by (apply nth_error_Some; congruence). auto.
      * exists x. rewrite nth_error_upd_other by assumption. auto.
    + intros c0 E; inversion E; subst c0. exact H3.
  - unfold ArrayData.a_get_batches, NumpyLoader.get_batches. cbn [eraseL l_chains]. rewrite Ec. cbn [fst snd res_map].
    split; [reflexivity|]. split; [split; assumption|]. split; [apply later_refl|]. intros c E; discriminate.
Qed.

Lemma request_sim r c t st : r_cached r = [] -> loader_ok (r_loader r) ->
  let (r', o) := request a_get_batches r c t 1 st in
  request get_batches (eraseR r) c t 1 st = (eraseR r', res_map (fun bt => (eraseB (fst bt), snd bt)) o) /\
  r_cached r' = [] /\ loader_ok (r_loader r') /\ later (r_loader r) (r_loader r') /\
  (forall b t', o = Ok (b, t') -> snd (a_get_batches (r_loader r) c) = Ok b).
Proof.
  intros H0 Hl. unfold request. rewrite H0. cbn [eraseR r_cached r_current r_fresh r_loader]. rewrite H0.
  cbn [map tlookup find option_map].
  destruct (match clookup c (r_current r) with Some _ => _ | None => _ end).
  - destruct st; (split; [|split; [|split; [|split]]]); auto using later_refl; try discriminate; unfold eraseR; now rewrite H0.
  - destruct (@get_sim (r_loader r) c Hl) as (E & Hl' & Hlat & _). rewrite E.
    destruct (a_get_batches (r_loader r) c) as [l' [b|e]]; cbn [fst snd res_map].
    + cbn [Nat.eqb]. split; [reflexivity|]. cbn [r_cached r_loader]. split; [reflexivity|]. split; [exact Hl'|]. split; [exact Hlat|].
      intros b' t' E'. inversion E'; subst. reflexivity.
    + cbn [r_cached r_loader]. split; [reflexivity|]. split; [reflexivity|]. split; [exact Hl'|]. split; [exact Hlat|]. discriminate.
Qed.

Lemma format_of_data (d : list (string * nd V)) (f : format) : format_of d = f ->
  map fst d = map fst f /\ Forall2 (fun ka kf => nd_struct (snd ka) = snd kf) d f.
Proof.
  revert f. induction d as [|ka d IH]; intros f <-; [split; constructor|]. cbn [format_of map fst].
  destruct (IH _ eq_refl) as [E1 E2]. split; [f_equal; exact E1|]. constructor; auto.
Qed.

(** reading one line of the cache *)
Lemma tree_index_sim ca mb (d : list (string * nd V)) (f : format) i : i < ca -> Forall (fun ka => wf (snd ka)) d ->
  format_of d = map (fun kf => (fst kf, (fst (snd kf), ca :: mb :: snd (snd kf)))) f ->
  exists d' : list (string * nd V), nd_tree_index d i = Ok d' /\
    format_of d' = map (fun kf => (fst kf, (fst (snd kf), mb :: snd (snd kf)))) f /\
    Forall (fun ka => wf (snd ka)) d' /\
    tree_index (map (fun ka => (fst ka, obs2_of (snd ka))) d) i = Ok (map (fun ka => (fst ka, obs_of (snd ka))) d').
Proof.
  intros Hi Hw. revert f. induction Hw as [|[k a] d Hwa Hw IH]; intros f Hf; destruct f as [|[k' [dt sh]] f]; try discriminate.
  - exists []. cbn. auto.
  - cbn [format_of map fst snd] in Hf. inversion Hf as [[E1 E2 E2b E3]]. cbn [fst snd] in *.
    destruct (IH f E3) as (d' & Hd1 & Hd2 & Hd3 & Hd4).
    destruct (@jax_index_obs2 V a ca mb sh i E2b Hwa Hi) as (b & Hb1 & Hb2 & Hb3 & Hb4).
    cbn [nd_tree_index]. rewrite Hb1. cbn [bind]. rewrite Hd1. cbn [bind]. eexists. split; [reflexivity|].
    split; [|split].
    + cbn [format_of map fst snd]. unfold format_of in Hd2. rewrite Hd2, Hb2, E2. reflexivity.
    + constructor; auto.
    + cbn [map tree_index fst snd]. rewrite Hb4. cbn [bind]. rewrite Hd4. reflexivity.
Qed.

(** what a delivered batch looks like *)
Definition abatch_ok (l : aloader G V) (mb : nat) (b : abatch V) : Prop :=
  format_of (ab_data b) = map (fun ka => (fst ka, (canonical x64 (nd_dtype (snd ka)), mb :: tl (nd_shape (snd ka))))) (al_data l) /\
  Forall (fun ka => wf (snd ka)) (ab_data b) /\
  nd_struct (ab_mask b) = (DBool, [mb]) /\ ab_count b = al_count l /\ ab_size b = mb.

Lemma read_sim l ca mb data valid i : i < ca -> batches_ok l ca mb (data, valid) ->
  exists d' m, nd_tree_index data i = Ok d' /\ jax_index valid i = Ok m /\
    abatch_ok l mb (mkAB d' (al_count l) mb m) /\
    tree_index (map (fun ka => (fst ka, obs2_of (snd ka))) data) i = Ok (map (fun ka => (fst ka, obs_of (snd ka))) d') /\
    jindex (obs_of valid) i = Ok (nd_data m).
Proof.
  intros Hi (Hf & Hm & Hmw & Hw). cbn [fst snd] in *.
  destruct (@tree_index_sim ca mb data (map (fun ka => (fst ka, (canonical x64 (nd_dtype (snd ka)), tl (nd_shape (snd ka))))) (al_data l)) i Hi Hw)
    as (d' & H1 & H2 & H3 & H4).
  { rewrite Hf. unfold canonical_format, batch_format, obs_format. rewrite !map_map. reflexivity. }
  destruct (@jax_index_mask valid ca mb i Hm Hmw Hi) as (m & M1 & M2 & M3 & M4).
  exists d', m. repeat split; auto. cbn [ab_data]. rewrite H2, map_map. reflexivity.
Qed.

Lemma batch_fn_sim acc r : r_cached r = [] -> loader_ok (r_loader r) -> acc_ok (r_loader r) acc ->
  let cl := erase_access acc in
  let (r', o) := a_batch_fn choice_repl choice_perm x64 cast acc r in
  DataCore.batch_fn choice_repl choice_perm (eraseR r) (cl_state cl) (cl_strict cl)
   = (eraseR r', res_map (fun cb => (cl_state (erase_access (mkAcc (fst cb) (acc_strict acc) (acc_format acc) (acc_mask acc) (acc_info acc))),
                                     erase_batch (snd cb))) o) /\
  r_cached r' = [] /\ loader_ok (r_loader r') /\ later (r_loader r) (r_loader r') /\
  (forall cs' b, o = Ok (cs', b) ->
     acc_ok (r_loader r') (mkAcc cs' (acc_strict acc) (acc_format acc) (acc_mask acc) (acc_info acc)) /\
     abatch_ok (r_loader r) (snd (acc_info acc)) b).
Proof.
  intros H0 Hl Hacc cl. destruct acc as [cs st fmt msk info]. pose proof Hacc as Hacc0.
  destruct Hacc as (c & Hc & Hca & Hcnt & Hline & Hfmt & Hmsk & Hinfo & Hb).
  cbn [acc_state acc_strict acc_format acc_mask acc_info] in *.
  unfold a_batch_fn, a_refresh. cbn [acc_state acc_strict acc_format acc_mask acc_info].
  pose proof Hb as (Hb1 & Hb2 & Hb3 & Hb4). cbn [fst snd] in Hb1, Hb2, Hb3, Hb4.
  destruct (format_eq_dec _ _) as [_|Hn]; [|exfalso; apply Hn; rewrite Hfmt; exact Hb1].
  destruct (struct_eq_dec _ _) as [_|Hn]; [|exfalso; apply Hn; rewrite Hmsk; exact Hb2].
  unfold DataCore.batch_fn, DataCore.refresh. unfold cl. cbn [erase_access cl_state cl_strict cs_line cs_count cs_chain cs_token acc_state acc_strict].
  (* the part after the refresh *)
  assert (Hread : forall (r' : requests) cs1 lr, later (r_loader r) (r_loader r') -> lr = r_loader r ->
     ac_chain cs1 = ac_chain cs -> ac_count cs1 = c_cache c -> ac_line cs1 < c_cache c ->
     batches_ok lr (c_cache c) (c_mb c) (ac_data cs1, ac_valid cs1) ->
     let o := (let line := ac_line cs1 mod ac_count cs1 in
       let* mini_batch := nd_tree_index (ac_data cs1) line in
       let* mask := jax_index (ac_valid cs1) line in
       Ok (mkAC (ac_data cs1) (ac_count cs1) (line + 1) (ac_chain cs1) (ac_valid cs1) (ac_token cs1),
           mkAB mini_batch (fst info) (snd info) mask)) in
     (let cs1' := cl_state (erase_access (mkAcc cs1 st fmt msk info)) in
       let line := cs_line cs1' mod cs_count cs1' in
       let* mini_batch := tree_index (cs_data cs1') line in
       let* mask := jindex (cs_valid cs1') line in
       Ok (mkC (cs_data cs1') (cs_count cs1') (line + 1) (cs_chain cs1') (cs_valid cs1') (cs_token cs1'),
           (mini_batch, mask)))
     = res_map (fun cb => (cl_state (erase_access (mkAcc (fst cb) st fmt msk info)), erase_batch (snd cb))) o /\
     (forall cs' b, o = Ok (cs', b) -> acc_ok (r_loader r') (mkAcc cs' st fmt msk info) /\
        abatch_ok (r_loader r) (snd info) b)).
  { intros r' cs1 lr Hlat -> Ech Ecnt Elt Hok1 o.
    destruct (@read_sim (r_loader r) (c_cache c) (c_mb c) (ac_data cs1) (ac_valid cs1) (ac_line cs1 mod ac_count cs1))
      as (d' & m & R1 & R2 & R3 & R4 & R5).
    { rewrite Ecnt. apply Nat.mod_upper_bound. lia. } { exact Hok1. }
    unfold o. rewrite R1, R2. cbn [bind].
    cbn [erase_access cl_state cs_line cs_count cs_chain cs_token cs_data cs_valid acc_state eraseB fst snd].
    rewrite R4, R5. cbn [bind res_map]. split.
    - reflexivity.
    - intros cs' b E. inversion E; subst cs' b. clear E. split.
      + pose proof Hlat as (L1 & L2 & L3). destruct (L3 _ _ Hc) as (c' & Hc' & E1 & E2).
        exists c'. cbn [acc_state ac_chain ac_count ac_line ac_data ac_valid acc_format acc_mask acc_info].
        rewrite Ech, E1, E2, L1. repeat split; auto.
        * rewrite Ecnt. assert (ac_line cs1 mod c_cache c < c_cache c) by (apply Nat.mod_upper_bound; lia). lia.
        * rewrite Hfmt. unfold batch_format, obs_format. now rewrite L2.
        * eapply batches_ok_later in Hok1; [|exact Hlat]. apply Hok1.
        * apply Hok1.
        * apply Hok1.
        * apply Hok1.
      + rewrite Hinfo. cbn [fst snd]. exact R3. }
  destruct (Nat.eqb_spec (ac_line cs) (ac_count cs)) as [Eline|Nline].
  - unfold callback. cbn [acc_state acc_strict acc_format acc_mask].
    pose proof (@request_sim r (ac_chain cs) (ac_token cs) st H0 Hl) as Hr.
    destruct (request a_get_batches r (ac_chain cs) (ac_token cs) 1 st) as [r' [[[data mask] tok]|e]].
    + destruct Hr as (Er & Hr0 & Hrl & Hlat & Hget). specialize (Hget _ _ eq_refl).
      destruct (@get_sim (r_loader r) (ac_chain cs) Hl) as (_ & _ & _ & Hbs).
      destruct (Hbs c Hc Hca) as (b' & Eb & Hbok). rewrite Hget in Eb. inversion Eb; subst b'. clear Eb.
      pose proof Hbok as (B1 & B2 & B3 & B4). cbn [fst snd] in B1, B2.
      destruct (format_eq_dec _ _) as [_|Hn]; [|exfalso; apply Hn; rewrite Hfmt; exact B1].
      destruct (struct_eq_dec _ _) as [_|Hn]; [|exfalso; apply Hn; rewrite Hmsk; exact B2].
      rewrite Er. cbn [res_map fst snd eraseB].
      destruct (Hread r' (mkAC data (ac_count cs) 0 (ac_chain cs) mask tok) (r_loader r) Hlat eq_refl eq_refl Hcnt Hca Hbok) as (X1 & X2).
      split; [f_equal; exact X1|]. split; [exact Hr0|]. split; [exact Hrl|]. split; [exact Hlat|exact X2].
    + destruct Hr as (Er & Hr0 & Hrl & Hlat & _). rewrite Er. cbn [res_map bind].
      split; [reflexivity|]. split; [exact Hr0|]. split; [exact Hrl|]. split; [exact Hlat|discriminate].
  - destruct (Hread r cs (r_loader r) (later_refl _) eq_refl eq_refl Hcnt ltac:(lia) Hb) as (X1 & X2).
    split; [f_equal; exact X1|]. split; [exact H0|]. split; [exact Hl|]. split; [apply later_refl|exact X2].
Qed.

Lemma register_random_sim l ca mb ie sh sd : loader_ok l ->
  let (b, o) := register_random rng_of_seed (bare l) ca mb ie sh sd in
  register_random rng_of_seed (eraseL l) ca mb ie sh sd = (eraseL (rechain l b), o) /\
  loader_ok (rechain l b) /\ later l (rechain l b) /\
  (forall cid, o = Ok cid -> 0 < mb /\ exists c, nth_error (al_chains (rechain l b)) cid = Some c /\ c_cache c = ca /\ c_mb c = mb).
Proof.
  intros [Hd Hch]. unfold register_random. cbn [bare eraseL l_count l_chains l_data].
  assert (Hid : eraseL l = eraseL (rechain l (bare l)) /\ loader_ok (rechain l (bare l)) /\ later l (rechain l (bare l))).
  { destruct l. cbn. split; [reflexivity|]. split; [split; assumption|apply later_refl]. }
  destruct Hid as (I1 & I2 & I3).
  destruct (Nat.ltb_spec (al_count l) mb) as [|Hmb]; [split; [congruence|split; [exact I2|split; [exact I3|discriminate]]]|].
  destruct (negb sh && ie); [split; [congruence|split; [exact I2|split; [exact I3|discriminate]]]|].
  destruct (Nat.eqb_spec mb 0) as [|Hmb0]; [split; [congruence|split; [exact I2|split; [exact I3|discriminate]]]|].
  split; [reflexivity|]. cbn [rechain l_chains al_chains al_count al_data]. split; [|split].
  - split; [exact Hd|]. cbn [al_chains al_count]. apply Forall_app. split; [exact Hch|]. constructor; [|constructor].
    exists (reg_random rng_of_seed mb ie sh (match sd with Some s => s | None => length (al_chains l) end)), 0. split.
    + unfold reg_ok, reg_random. destruct ie; [|destruct sh]; simpl; lia.
    + apply inv_new_random.
  - split; [reflexivity|split; [reflexivity|]]. intros i c Hc. exists c. cbn [al_chains rechain l_chains].
    split; auto. rewrite nth_error_app1; auto. apply nth_error_Some. congruence.
  - intros cid E. inversion E; subst cid. split; [lia|]. eexists. split.
    + rewrite nth_error_app2 by lia. rewrite Nat.sub_diag. reflexivity.
    + split; reflexivity.
Qed.
Lemma register_ordered_sim l ca mb : loader_ok l ->
  let (b, o) := register_ordered (bare l) ca mb in
  register_ordered (eraseL l) ca mb = (eraseL (rechain l b), o) /\
  loader_ok (rechain l b) /\ later l (rechain l b) /\
  (forall cid, o = Ok cid -> exists c, nth_error (al_chains (rechain l b)) cid = Some c /\ c_cache c = ca /\ c_mb c = mb).
Proof.
  intros [Hd Hch]. unfold register_ordered. cbn [bare eraseL l_count l_chains l_data].
  assert (Hid : eraseL l = eraseL (rechain l (bare l)) /\ loader_ok (rechain l (bare l)) /\ later l (rechain l (bare l))).
  { destruct l. cbn. split; [reflexivity|]. split; [split; assumption|apply later_refl]. }
  destruct Hid as (I1 & I2 & I3).
  destruct (Nat.leb_spec mb (al_count l)) as [Hmb|]; [|split; [congruence|split; [exact I2|split; [exact I3|discriminate]]]].
  split; [reflexivity|]. cbn [rechain l_chains al_chains al_count al_data]. split; [|split].
  - split; [exact Hd|]. cbn [al_chains al_count]. apply Forall_app. split; [exact Hch|]. constructor; [|constructor].
    exists (ROrd mb), 0. split.
    + unfold reg_ok; simpl; auto.
    + apply inv_new_ordered.
  - split; [reflexivity|split; [reflexivity|]]. intros i c Hc. exists c. cbn [al_chains rechain l_chains].
    split; auto. rewrite nth_error_app1; auto. apply nth_error_Some. congruence.
  - intros cid E. inversion E; subst cid. eexists. split.
    + rewrite nth_error_app2 by lia. rewrite Nat.sub_diag. reflexivity.
    + split; reflexivity.
Qed.

Lemma acc_later_all l l' accs : later l l' -> Forall (acc_ok l) accs -> Forall (acc_ok l') accs.
Proof. intros H. apply Forall_impl. intros acc. now apply acc_ok_later. Qed.

Lemma with_loader_sim w l : eraseR (a_with_loader (aw_req w) l) = with_loader (eraseR (aw_req w)) (eraseL l).
Proof. reflexivity. Qed.

Lemma init_cache_sim w l ca mb cid st : AInv w -> loader_ok l -> later (aw_loader w) l ->
  (exists c, nth_error (al_chains l) cid = Some c /\ c_cache c = ca /\ c_mb c = mb) ->
  let (w', o) := a_init_cache choice_repl choice_perm x64 cast w l ca mb cid st in
  DataCore.init_cache choice_repl choice_perm (eraseW w) (eraseL l) ca cid st = (eraseW w', o) /\
  AInv w' /\ later (aw_loader w) (aw_loader w') /\
  (forall k, o = Ok k -> exists acc, aw_accesses w' = aw_accesses w ++ [acc] /\ k = length (aw_accesses w) /\
     acc_info acc = (al_count (aw_loader w), mb)) /\
  (forall e, o = Exc e -> aw_accesses w' = aw_accesses w).
Proof.
  intros HI Hl Hlat (c & Hc & <- & <-). unfold a_init_cache, DataCore.init_cache.
  destruct (@get_sim l cid Hl) as (E & Hl' & Hlat' & Hb). rewrite E.
  assert (Hlat2 := later_trans Hlat Hlat'). pose proof Hlat as (L1 & L2 & _). pose proof Hlat' as (L1' & L2' & L3').
  destruct (Nat.eq_dec (c_cache c) 0) as [Ez|Hnz].
  - destruct (@a_get_ok l cid c (proj1 Hl) Hc (Forall_nth_ok _ (proj2 Hl) Hc)) as (_ & _ & _ & Hz).
    specialize (Hz Ez). destruct (a_get_batches l cid) as [l' o]. cbn [fst snd] in *. subst o. cbn [res_map].
    split; [reflexivity|]. split; [|split; [exact Hlat2|split; [discriminate|auto]]].
    constructor; cbn [aw_loader aw_req a_with_loader r_loader r_cached aw_accesses]; auto.
    + apply HI.
    + eapply acc_later_all; [exact Hlat2|apply HI].
  - destruct (Hb c Hc ltac:(lia)) as (b & Eb & Hbok).
    destruct (a_get_batches l cid) as [l' o]. cbn [fst snd] in *. subst o. destruct b as [data mask]. cbn [res_map eraseB fst snd].
    split; [|split; [|split; [exact Hlat2|split; [|discriminate]]]].
    + unfold eraseW. cbn [aw_req aw_accesses w_req w_clients]. rewrite map_length, map_app. reflexivity.
    + constructor; cbn [aw_loader aw_req a_with_loader r_loader r_cached aw_accesses]; auto; [apply HI|].
      apply Forall_app. split; [eapply acc_later_all; [exact Hlat2|apply HI]|]. constructor; [|constructor].
      destruct (L3' _ _ Hc) as (c' & Hc' & E1 & E2). exists c'.
      cbn [acc_state ac_chain ac_count ac_line ac_data ac_valid acc_format acc_mask acc_info].
      rewrite E1, E2, L1'. repeat split; auto; try lia.
      * unfold batch_format, obs_format. now rewrite L2'.
      * eapply batches_ok_later in Hbok; [|exact Hlat']. apply Hbok.
      * apply Hbok.
      * apply Hbok.
      * apply Hbok.
    + intros k Ek. inversion Ek; subst k. eexists. split; [reflexivity|]. split; [reflexivity|]. cbn [acc_info]. now rewrite L1.
Qed.

Definition not_a_load (o : wop G) : Prop := forall cid ck, o <> WLoader (LoadState cid ck).

(** the accesses keep their batch size *)
Definition same_infos (w w' : aworld G V) : Prop :=
  forall k acc, nth_error (aw_accesses w) k = Some acc ->
    exists acc', nth_error (aw_accesses w') k = Some acc' /\ acc_info acc' = acc_info acc.
Lemma same_infos_app w w' accs : aw_accesses w' = aw_accesses w ++ accs -> same_infos w w'.
Proof. intros H k acc Hk. exists acc. rewrite H, nth_error_app1; auto. apply nth_error_Some. congruence. Qed.

(** the answer of a batch call has the announced format *)
Definition out_ok (w : aworld G V) (o : wop G) (out : awout V) : Prop :=
  forall k b, o = WBatch k -> out = AwBatch (Ok b) ->
    exists acc, nth_error (aw_accesses w) k = Some acc /\ abatch_ok (aw_loader w) (snd (acc_info acc)) b.

Theorem wstep_sim w o : AInv w -> not_a_load o ->
  let (w', out) := awstep w o in
  wstep (eraseW w) o = (eraseW w', erase_out out) /\ AInv w' /\
  later (aw_loader w) (aw_loader w') /\
  same_infos w w' /\ out_ok w o out.
Proof.
  intros HI Hn.
  assert (Hl : loader_ok (aw_loader w)) by apply HI.
  assert (Hsi : same_infos w w) by (apply (@same_infos_app _ _ []); now rewrite app_nil_r).
  destruct o as [ca mb ie sh sd st|ca mb|k|op]; cbn [ArrayData.awstep DataCore.wstep].
  - unfold a_random_init, random_init. unfold w_loader. cbn [eraseW w_req eraseR r_loader].
    change (r_loader (aw_req w)) with (aw_loader w). cbn [eraseL l_count].
    destruct (_ <? _); [split; [reflexivity|split; [exact HI|split; [apply later_refl|split; [exact Hsi|]]]]; intros k b Hk; discriminate|].
    destruct (_ || _); [split; [reflexivity|split; [exact HI|split; [apply later_refl|split; [exact Hsi|]]]]; intros k b Hk; discriminate|].
    pose proof (@register_random_sim (aw_loader w) ca mb ie sh sd Hl) as Hr.
    destruct (register_random rng_of_seed (bare (aw_loader w)) ca mb ie sh sd) as [b [cid|e]]; destruct Hr as (R1 & R2 & R3 & R4); rewrite R1.
    + destruct (R4 cid eq_refl) as (Hmb & Hc).
      pose proof (@init_cache_sim w (rechain (aw_loader w) b) ca mb cid st HI R2 R3 Hc) as H.
      destruct (a_init_cache _ _ _ _ _ _ _ _ _ _) as [w' o']. destruct H as (H1 & H2 & H3 & H5 & H6).
      rewrite H1. split; [reflexivity|]. split; [exact H2|]. split; [exact H3|]. split; [|intros k b' Hk; discriminate].
      destruct o' as [k|e]; [destruct (H5 k eq_refl) as (acc & Ha & _); eapply same_infos_app; exact Ha|].
      eapply (@same_infos_app _ _ []). rewrite (H6 e eq_refl). now rewrite app_nil_r.
    + split; [reflexivity|]. pose proof R3 as (L1 & L2 & _). split; [|split; [exact R3|split; [exact Hsi|]]]; [|intros k b' Hk; discriminate].
      constructor; [exact R2|apply HI|]. cbn [aw_accesses]. eapply acc_later_all; [exact R3|apply HI].
  - unfold a_full_init, full_init. unfold w_loader. cbn [eraseW w_req eraseR r_loader].
    change (r_loader (aw_req w)) with (aw_loader w). cbn [eraseL l_count].
    destruct (_ <? _); [split; [reflexivity|split; [exact HI|split; [apply later_refl|split; [exact Hsi|]]]]; intros k b Hk; discriminate|].
    destruct (_ =? _); [split; [reflexivity|split; [exact HI|split; [apply later_refl|split; [exact Hsi|]]]]; intros k b Hk; discriminate|].
    pose proof (@register_ordered_sim (aw_loader w) ca mb Hl) as Hr.
    destruct (register_ordered (bare (aw_loader w)) ca mb) as [b [cid|e]]; destruct Hr as (R1 & R2 & R3 & R4); rewrite R1.
    + pose proof (@init_cache_sim w (rechain (aw_loader w) b) ca mb cid true HI R2 R3 (R4 cid eq_refl)) as H.
      destruct (a_init_cache _ _ _ _ _ _ _ _ _ _) as [w' o']. destruct H as (H1 & H2 & H3 & H5 & H6).
      rewrite H1. split; [reflexivity|]. split; [exact H2|]. split; [exact H3|]. split; [|intros k b' Hk; discriminate].
      destruct o' as [k|e]; [destruct (H5 k eq_refl) as (acc & Ha & _); eapply same_infos_app; exact Ha|].
      eapply (@same_infos_app _ _ []). rewrite (H6 e eq_refl). now rewrite app_nil_r.
    + split; [reflexivity|]. pose proof R3 as (L1 & L2 & _). split; [|split; [exact R3|split; [exact Hsi|]]]; [|intros k b' Hk; discriminate].
      constructor; [exact R2|apply HI|]. cbn [aw_accesses]. eapply acc_later_all; [exact R3|apply HI].
  - unfold a_access_batch, client_batch. cbn [eraseW w_clients w_req]. rewrite nth_error_map.
    destruct (nth_error (aw_accesses w) k) as [acc|] eqn:Ek; cbn [option_map].
    2:{ split; [reflexivity|split; [exact HI|split; [apply later_refl|split; [exact Hsi|]]]]. intros k' b _ Hb; discriminate. }
    assert (Hacc : acc_ok (aw_loader w) acc).
    { pose proof (ai_acc HI) as Ha. rewrite Forall_forall in Ha. apply Ha. eapply nth_error_In; eauto. }
    pose proof (@batch_fn_sim acc (aw_req w) (ai_cached HI) Hl Hacc) as H.
    destruct (a_batch_fn choice_repl choice_perm x64 cast acc (aw_req w)) as [r' o].
    destruct H as (B1 & B2 & B3 & B4 & B5).
    rewrite B1. pose proof B4 as (L1 & L2 & _). destruct o as [[cs' b]|e]; cbn [res_map fst snd].
    + destruct (B5 cs' b eq_refl) as (C1 & C2). split; [|split; [|split; [exact B4|split]]].
      * unfold eraseW. cbn [aw_req aw_accesses w_req w_clients]. 
        rewrite map_upd'. reflexivity.
      * constructor; [exact B3|exact B2|]. cbn [aw_accesses aw_loader aw_req].
        apply Forall_upd; [eapply acc_later_all; [exact B4|apply HI]|exact C1].
      * intros k' acc' Hk'. cbn [aw_accesses]. destruct (Nat.eq_dec k k') as [<-|Hne].
        -- rewrite Ek in Hk'. inversion Hk'; subst acc'. eexists.
           rewrite nth_error_upd_same by (apply nth_error_Some; congruence). split; reflexivity.
        -- exists acc'. rewrite nth_error_upd_other by assumption. auto.
      * intros k' b' Hk' Hb'. inversion Hk'; subst k'. inversion Hb'; subst b'. exists acc. auto.
    + split; [reflexivity|]. split; [|split; [exact B4|split; [exact Hsi|]]].
      * constructor; [exact B3|exact B2|]. eapply acc_later_all; [exact B4|apply HI].
      * intros k' b' _ Hb'. discriminate.
  - destruct op as [ca mb ie sh sd|ca mb|cid|cid ck]; cbn [ArrayData.alstep NumpyLoader.lstep]; unfold w_loader; cbn [eraseW w_req eraseR r_loader];
      change (r_loader (aw_req w)) with (aw_loader w).
    + pose proof (@register_random_sim (aw_loader w) ca mb ie sh sd Hl) as Hr.
      destruct (register_random rng_of_seed (bare (aw_loader w)) ca mb ie sh sd) as [b o]; destruct Hr as (R1 & R2 & R3 & R4).
      rewrite R1. pose proof R3 as (L1 & L2 & _). split; [reflexivity|]. split; [|split; [exact R3|split; [exact Hsi|]]]; [|intros k b' Hk; discriminate].
      constructor; [exact R2|apply HI|]. cbn [aw_accesses]. eapply acc_later_all; [exact R3|apply HI].
    + pose proof (@register_ordered_sim (aw_loader w) ca mb Hl) as Hr.
      destruct (register_ordered (bare (aw_loader w)) ca mb) as [b o]; destruct Hr as (R1 & R2 & R3 & R4).
      rewrite R1. pose proof R3 as (L1 & L2 & _). split; [reflexivity|]. split; [|split; [exact R3|split; [exact Hsi|]]]; [|intros k b' Hk; discriminate].
      constructor; [exact R2|apply HI|]. cbn [aw_accesses]. eapply acc_later_all; [exact R3|apply HI].
    + destruct (@get_sim (aw_loader w) cid Hl) as (E & Hl' & Hlat & _). rewrite E.
      destruct (a_get_batches (aw_loader w) cid) as [l' o]. cbn [fst snd] in *. pose proof Hlat as (L1 & L2 & _).
      split; [reflexivity|]. split; [|split; [exact Hlat|split; [exact Hsi|]]]; [|intros k b' Hk; discriminate].
      constructor; [exact Hl'|apply HI|]. cbn [aw_accesses]. eapply acc_later_all; [exact Hlat|apply HI].
    + exfalso. eapply Hn. reflexivity.
Qed.
End Sim.
