(** Final forms of the loader theorems (C01 - C08); re-exported by PropertiesLoader.v *)
From Verif Require Import Base ListUtil NumpyLoader LoaderSpec NumpyLoaderProofs NumpyLoaderApi.
From Coq Require String.
From Coq Require Import ZifyNat ZifyBool.
Set Implicit Arguments. Unset Strict Implicit.

Lemma slice_map_seq A (f : nat -> A) n a b : a <= b -> b <= n ->
  slice (map f (seq 0 n)) a b = map f (seq a (b - a)).
Proof.
  intros H1 H2. unfold slice. rewrite skipn_map, firstn_map. f_equal.
  replace n with (a + ((b - a) + (n - b))) by lia. rewrite seq_app, skipn_app, seq_length, Nat.sub_diag.
  rewrite skipn_all2 by (rewrite seq_length; lia). simpl. rewrite seq_app, firstn_app, seq_length, Nat.sub_diag.
  rewrite firstn_all2 by (rewrite seq_length; lia). simpl. now rewrite app_nil_r.
Qed.

Lemma Forall_ext_in A (P Q : A -> Prop) l : (forall x, In x l -> P x -> Q x) -> Forall P l -> Forall Q l.
Proof. intros H HP. rewrite Forall_forall in *. auto. Qed.

Section Final.
Context {G obs : Type}.
Variable choice_repl : G -> nat -> nat -> G * list nat.
Variable choice_perm : G -> nat -> G * list nat.
Variable rng_of_seed : nat -> G.
Hypothesis Hperm : perm_oracle choice_perm.
Hypothesis Hrepl : repl_oracle choice_repl.

Notation loader := (loader G obs).
Notation lstep := (@lstep G choice_repl choice_perm rng_of_seed obs).
Notation spec_batch := (spec_batch choice_repl choice_perm).
Notation chain_output := (@chain_output G obs choice_repl choice_perm).

Lemma registered_at data N (l : loader) ca r l' cid : DataOk data N l -> registered rng_of_seed l ca r l' cid ->
  cid = length (l_chains l) /\ reg_ok N r /\ AtChain choice_repl choice_perm data N r ca cid 0 l'.
Proof.
  intros Hd [mb -> Hr|mb ie sh sd -> Hr].
  - eapply register_ordered_ok; eauto.
  - eapply register_random_ok in Hr; eauto.
Qed.

Lemma isolation data l0 h1 l1 o1 ca r l2 cid h2 :
  make_loader data = Ok l0 -> run lstep l0 h1 = (l1, o1) ->
  registered rng_of_seed l1 ca r l2 cid -> no_load cid h2 ->
  reg_ok (l_count l0) r /\ DataOk data (l_count l0) l1 /\ cid = length (l_chains l1) /\
  gets cid h2 (snd (run lstep l2 h2)) = map (chain_output data (l_count l0) r ca) (seq 0 (num_gets cid h2)).
Proof.
  intros Hm Hr1 Hreg Hnl.
  destruct (@make_loader_ok G obs data l0 Hm) as [Hd _].
  pose proof (@DataOk_run G obs choice_repl choice_perm rng_of_seed data (l_count l0) h1 l0 Hd) as Hd1.
  rewrite Hr1 in Hd1. simpl in Hd1.
  destruct (registered_at Hd1 Hreg) as (Hc & Hok & Hat). repeat split; auto; try apply Hok; try apply Hd1.
  apply (@run_gets G obs choice_repl choice_perm rng_of_seed Hperm Hrepl data (l_count l0) r ca cid Hok h2 l2 0 Hat Hnl).
Qed.

Lemma stream data l0 h1 l1 o1 ca r l2 cid h2 i name a :
  make_loader data = Ok l0 -> run lstep l0 h1 = (l1, o1) ->
  registered rng_of_seed l1 ca r l2 cid -> no_load cid h2 -> nth_error data i = Some (name, a) ->
  length a = l_count l0 /\ reg_ok (length a) r /\
  batches_of i (gets cid h2 (snd (run lstep l2 h2)))
   = map (fun k => (select a (fst (spec_batch (length a) r k)), snd (spec_batch (length a) r k)))
         (seq 0 (num_gets cid h2 * ca)).
Proof.
  intros Hm Hr1 Hreg Hnl Hi. destruct (isolation Hm Hr1 Hreg Hnl) as (Hok & Hd & Hc & Hg).
  assert (length a = l_count l0) as Hl.
  { destruct Hd as (_ & _ & Hd). apply (Hd (name, a)). eapply nth_error_In; eauto. }
  rewrite Hl. repeat split; auto; try apply Hok. rewrite Hg.
  eapply batches_of_spec; eauto.
Qed.

Lemma shape N (r : reg G) k : reg_ok N r ->
  length (fst (spec_batch N r k)) = reg_mb r /\ length (snd (spec_batch N r k)) = reg_mb r /\
  Forall (fun i => i < N) (fst (spec_batch N r k)).
Proof. intros [H1 H2]. now apply (spec_batch_shape Hperm Hrepl). Qed.

Lemma padded_mask_spec N mb k : 0 < mb -> mb <= N ->
  map (fun j => (k mod ceil_div N mb) * mb + j <? N) (seq 0 mb) = padded_mask N mb k.
Proof.
  intros Hmb HN. pose proof (ceil_div_spec N Hmb) as [H1 H2]. unfold padded_mask.
  set (C := ceil_div N mb) in *. assert (0 < C) by nia.
  pose proof (Nat.mod_upper_bound k C ltac:(lia)) as Hb.
  destruct (Nat.eqb_spec (k mod C) (C - 1)) as [E|Hne].
  - rewrite E. set (v := N - (C - 1) * mb). assert (v <= mb) by (unfold v; nia).
    replace (C * mb - N) with (mb - v) by (unfold v; nia).
    replace (seq 0 mb) with (seq 0 (v + (mb - v))) by (f_equal; lia). rewrite seq_app, map_app. f_equal.
    + rewrite repeat_map_seq. apply map_ext_in. intros j Hj. apply in_seq in Hj.
      apply Nat.ltb_lt. unfold v in *. lia.
    + rewrite repeat_map_seq, map_seq_shift. apply map_ext_in. intros j Hj.
      apply Nat.ltb_ge. unfold v in *. nia.
  - rewrite repeat_map_seq. apply map_ext_in. intros j Hj. apply in_seq in Hj.
    apply Nat.ltb_lt. nia.
Qed.

Lemma nth_stream A (f : nat -> A) n k b : nth_error (map f (seq 0 n)) k = Some b -> k < n /\ b = f k.
Proof.
  intros H. assert (k < n) as Hk.
  { assert (nth_error (map f (seq 0 n)) k <> None) as Hs by congruence.
    apply nth_error_Some in Hs. now rewrite map_length, seq_length in Hs. }
  split; auto. rewrite nth_error_map_seq in H by lia. congruence.
Qed.

Lemma final_ordered data l0 h1 l1 o1 ca mb l2 cid h2 i name a :
  make_loader data = Ok l0 -> run lstep l0 h1 = (l1, o1) -> 0 < mb ->
  register_ordered l1 ca mb = (l2, Ok cid) -> no_load cid h2 -> nth_error data i = Some (name, a) ->
  let bs := client_batches choice_repl choice_perm rng_of_seed i cid l2 h2 in
  let C := ceil_div (length a) mb in
  length bs = num_gets cid h2 * ca /\
  (forall e, (e + 1) * C <= length bs -> concat (map valid (slice bs (e * C) ((e + 1) * C))) = a) /\
  (forall k b, nth_error bs k = Some b -> length (fst b) = mb /\ snd b = padded_mask (length a) mb k).
Proof.
  intros Hm Hr1 Hmb Hreg Hnl Hi.
  destruct (@stream data l0 h1 l1 o1 ca (ROrd mb) l2 cid h2 i name a Hm Hr1) as (Hl & Hok & Hs); auto.
  { eapply RegdOrd; eauto. }
  cbv zeta. unfold client_batches. rewrite Hs. clear Hs. set (n := num_gets cid h2 * ca).
  assert (HN : mb <= length a) by (destruct Hok; auto).
  repeat split.
  - now rewrite map_length, seq_length.
  - intros e He. rewrite map_length, seq_length in He.
    rewrite slice_map_seq by nia. rewrite map_map.
    replace ((e + 1) * ceil_div (length a) mb - e * ceil_div (length a) mb) with (ceil_div (length a) mb) by lia.
    rewrite (map_ext _ (fun k => select a (valid (spec_batch (length a) (ROrd mb) k)))).
    2:{ intros k. pose proof (shape k Hok) as (S1 & S2 & S3). rewrite valid_select by (auto; congruence).
        now rewrite <- surjective_pairing. }
    rewrite <- map_map, <- select_concat.
    rewrite (ord_epoch choice_repl choice_perm e Hmb HN). apply select_seq.
  - apply nth_stream in H. destruct H as [_ ->]. cbn [fst].
    pose proof (shape k Hok) as (S1 & S2 & S3). rewrite select_length; auto.
  - apply nth_stream in H. destruct H as [_ ->]. cbn [snd LoaderSpec.spec_batch].
    now apply padded_mask_spec.
Qed.

Lemma final_epochs data l0 h1 l1 o1 ca mb sd l2 cid h2 i name a :
  make_loader data = Ok l0 -> run lstep l0 h1 = (l1, o1) ->
  register_random rng_of_seed l1 ca mb true true sd = (l2, Ok cid) -> no_load cid h2 ->
  nth_error data i = Some (name, a) ->
  let bs := client_batches choice_repl choice_perm rng_of_seed i cid l2 h2 in
  let C := ceil_div (length a) mb in
  length bs = num_gets cid h2 * ca /\
  (forall e, (e + 1) * C <= length bs ->
     Permutation (concat (map valid (slice bs (e * C) ((e + 1) * C)))) a) /\
  (forall k b, nth_error bs k = Some b -> length (fst b) = mb /\ snd b = padded_mask (length a) mb k).
Proof.
  intros Hm Hr1 Hreg Hnl Hi.
  set (g := rng_of_seed match sd with Some s => s | None => cid end).
  destruct (@stream data l0 h1 l1 o1 ca (REpochs mb g) l2 cid h2 i name a Hm Hr1) as (Hl & Hok & Hs); auto.
  { eapply RegdRand with (ie := true) (sh := true); eauto. reflexivity. }
  cbv zeta. unfold client_batches. rewrite Hs. clear Hs. set (n := num_gets cid h2 * ca).
  assert (HN : mb <= length a) by (destruct Hok; auto).
  assert (Hmb : 0 < mb) by (destruct Hok; auto).
  repeat split.
  - now rewrite map_length, seq_length.
  - intros e He. rewrite map_length, seq_length in He.
    rewrite slice_map_seq by nia. rewrite map_map.
    replace ((e + 1) * ceil_div (length a) mb - e * ceil_div (length a) mb) with (ceil_div (length a) mb) by lia.
    rewrite (map_ext _ (fun k => select a (valid (spec_batch (length a) (REpochs mb g) k)))).
    2:{ intros k. pose proof (shape k Hok) as (S1 & S2 & S3). rewrite valid_select by (auto; congruence).
        now rewrite <- surjective_pairing. }
    rewrite <- map_map, <- select_concat.
    rewrite (ep_epoch choice_repl Hperm g e Hmb HN). apply select_perm. apply (nth_perm_perm Hperm).
  - apply nth_stream in H. destruct H as [_ ->]. cbn [fst].
    pose proof (shape k Hok) as (S1 & S2 & S3). rewrite select_length; auto.
  - apply nth_stream in H. destruct H as [_ ->]. cbn [snd LoaderSpec.spec_batch].
    now apply padded_mask_spec.
Qed.

Lemma select_slice (a : list obs) idx x y : Forall (fun i => i < length a) idx ->
  slice (select a idx) x y = select a (slice idx x y).
Proof.
  intros H. unfold slice.
  assert (Hsk : forall n l, Forall (fun i => i < length a) l -> skipn n (select a l) = select a (skipn n l)).
  { clear. induction n as [|n IH]; intros [|i l] Hl; simpl; auto. inversion Hl; subst.
    destruct (nth_error a i) eqn:E; [simpl; now apply IH|]. apply nth_error_None in E. lia. }
  assert (Hfn : forall n l, Forall (fun i => i < length a) l -> firstn n (select a l) = select a (firstn n l)).
  { clear. induction n as [|n IH]; intros [|i l] Hl; simpl; auto. inversion Hl; subst.
    destruct (nth_error a i) eqn:E; [simpl; f_equal; now apply IH|]. apply nth_error_None in E. lia. }
  rewrite Hsk by assumption. apply Hfn.
  clear - H. revert H. revert x. induction idx as [|i idx IH]; intros [|x] H; simpl; auto. inversion H; auto.
Qed.

Lemma final_shuffle data l0 h1 l1 o1 ca mb sd l2 cid h2 i name a :
  make_loader data = Ok l0 -> run lstep l0 h1 = (l1, o1) ->
  register_random rng_of_seed l1 ca mb false true sd = (l2, Ok cid) -> no_load cid h2 ->
  nth_error data i = Some (name, a) ->
  let bs := client_batches choice_repl choice_perm rng_of_seed i cid l2 h2 in
  let drawn := concat (map fst bs) in
  length bs = num_gets cid h2 * ca /\ length drawn = length bs * mb /\
  (forall e, (e + 1) * length a <= length drawn ->
     Permutation (slice drawn (e * length a) ((e + 1) * length a)) a) /\
  (forall k b, nth_error bs k = Some b -> length (fst b) = mb /\ snd b = repeat true mb).
Proof.
  intros Hm Hr1 Hreg Hnl Hi.
  set (g := rng_of_seed match sd with Some s => s | None => cid end).
  destruct (@stream data l0 h1 l1 o1 ca (RShuffle mb g) l2 cid h2 i name a Hm Hr1) as (Hl & Hok & Hs); auto.
  { eapply RegdRand with (ie := false) (sh := true); eauto. reflexivity. }
  cbv zeta. unfold client_batches. rewrite Hs. clear Hs. set (n := num_gets cid h2 * ca).
  assert (HN : mb <= length a) by (destruct Hok; auto).
  assert (Hmb : 0 < mb) by (destruct Hok; auto).
  assert (Hdr : concat (map fst (map (fun k => (select a (fst (spec_batch (length a) (RShuffle mb g) k)),
        snd (spec_batch (length a) (RShuffle mb g) k))) (seq 0 n)))
      = select a (map (perm_stream choice_perm g (length a)) (seq 0 (n * mb)))).
  { rewrite map_map. simpl fst. rewrite <- (sh_concat choice_repl choice_perm (length a) mb g n).
    rewrite select_concat, map_map. reflexivity. }
  rewrite Hdr.
  assert (Hfa : Forall (fun i0 => i0 < length a) (map (perm_stream choice_perm g (length a)) (seq 0 (n * mb)))).
  { apply Forall_forall. intros x Hx. apply in_map_iff in Hx. destruct Hx as (y & <- & _).
    apply perm_stream_lt; auto. lia. }
  repeat split.
  - now rewrite map_length, seq_length.
  - rewrite select_length by assumption. rewrite !map_length, !seq_length. reflexivity.
  - intros e He. rewrite select_length in He by assumption. rewrite map_length, seq_length in He.
    rewrite select_slice by assumption. rewrite slice_map_seq by nia.
    replace ((e + 1) * length a - e * length a) with (length a) by lia.
    rewrite (perm_stream_window Hperm). apply select_perm. apply (nth_perm_perm Hperm).
  - apply nth_stream in H. destruct H as [_ ->]. cbn [fst].
    pose proof (shape k Hok) as (S1 & S2 & S3). rewrite select_length; auto.
  - apply nth_stream in H. destruct H as [_ ->]. reflexivity.
Qed.

(** every random chain: full batches of valid, aligned observations *)
Lemma final_aligned data l0 h1 l1 o1 ca mb ie sh sd l2 cid h2 :
  make_loader data = Ok l0 -> run lstep l0 h1 = (l1, o1) ->
  register_random rng_of_seed l1 ca mb ie sh sd = (l2, Ok cid) -> no_load cid h2 ->
  exists (idx : nat -> list nat) (mask : nat -> list bool),
   (forall k, length (idx k) = mb /\ length (mask k) = mb /\ Forall (fun j => j < l_count l0) (idx k)) /\
   (ie = false -> forall k, mask k = repeat true mb) /\
   (forall i name a, nth_error data i = Some (name, a) ->
      length a = l_count l0 /\
      client_batches choice_repl choice_perm rng_of_seed i cid l2 h2 = map (fun k => (select a (idx k), mask k)) (seq 0 (num_gets cid h2 * ca))).
Proof.
  intros Hm Hr1 Hreg Hnl.
  set (r := reg_random rng_of_seed mb ie sh (match sd with Some s => s | None => cid end)).
  assert (Hregd : registered rng_of_seed l1 ca r l2 cid) by (eapply RegdRand; eauto; reflexivity).
  destruct (isolation Hm Hr1 Hregd Hnl) as (Hok & Hd & Hc & Hg).
  exists (fun k => fst (spec_batch (l_count l0) r k)), (fun k => snd (spec_batch (l_count l0) r k)).
  assert (Hrmb : reg_mb r = mb) by (unfold r, reg_random; destruct ie; [|destruct sh]; reflexivity).
  repeat split.
  - destruct (shape k Hok) as (S1 & S2 & S3). congruence.
  - destruct (shape k Hok) as (S1 & S2 & S3). congruence.
  - destruct (shape k Hok) as (S1 & S2 & S3). exact S3.
  - intros -> k. unfold r, reg_random. destruct sh; reflexivity.
  - destruct (stream Hm Hr1 Hregd Hnl H) as (Hl & _). exact Hl.
  - destruct (stream Hm Hr1 Hregd Hnl H) as (Hl & _ & Hs). unfold client_batches. rewrite Hs.
    rewrite Hl. reflexivity.
Qed.

(** cache-size independence and reproducibility: same data, same registration arguments (up to
    the cache size), arbitrary histories before, between and after *)
Lemma final_reproducible data l0
    h1 l1 o1 ca mb ie sh s l2 cid h2
    h1' l1' o1' ca' l2' cid' h2' i k :
  make_loader data = Ok l0 ->
  run lstep l0 h1 = (l1, o1) ->
  register_random rng_of_seed l1 ca mb ie sh (Some s) = (l2, Ok cid) -> no_load cid h2 ->
  run lstep l0 h1' = (l1', o1') ->
  register_random rng_of_seed l1' ca' mb ie sh (Some s) = (l2', Ok cid') -> no_load cid' h2' ->
  k < length (client_batches choice_repl choice_perm rng_of_seed i cid l2 h2) -> k < length (client_batches choice_repl choice_perm rng_of_seed i cid' l2' h2') ->
  nth_error (client_batches choice_repl choice_perm rng_of_seed i cid l2 h2) k = nth_error (client_batches choice_repl choice_perm rng_of_seed i cid' l2' h2') k.
Proof.
  intros Hm Hr1 Hreg Hnl Hr1' Hreg' Hnl'.
  set (r := reg_random rng_of_seed mb ie sh s).
  assert (Hregd : registered rng_of_seed l1 ca r l2 cid) by (apply RegdRand with (mb := mb) (ie := ie) (sh := sh) (sd := Some s); [reflexivity|assumption]).
  assert (Hregd' : registered rng_of_seed l1' ca' r l2' cid') by (apply RegdRand with (mb := mb) (ie := ie) (sh := sh) (sd := Some s); [reflexivity|assumption]).
  destruct (nth_error data i) as [[name a]|] eqn:Hi.
  - destruct (stream Hm Hr1 Hregd Hnl Hi) as (_ & _ & Hs).
    destruct (stream Hm Hr1' Hregd' Hnl' Hi) as (_ & _ & Hs').
    unfold client_batches. rewrite Hs, Hs', !map_length, !seq_length. intros H1 H2.
    now rewrite !nth_error_map_seq by lia.
  - unfold client_batches.
    destruct (isolation Hm Hr1 Hregd Hnl) as (_ & _ & _ & ->).
    assert (forall m c, batches_of i (map (chain_output data (l_count l0) r c) m) = []) as Hnil.
    { intros m c. induction m as [|x m IH]; simpl; auto. rewrite IH, app_nil_r.
      unfold LoaderSpec.chain_output. destruct (c =? 0); auto. now rewrite nth_error_map, Hi. }
    rewrite Hnil. simpl. lia.
Qed.

Lemma final_cache_ordered data l0
    h1 l1 o1 ca mb l2 cid h2 h1' l1' o1' ca' l2' cid' h2' i k :
  make_loader data = Ok l0 ->
  run lstep l0 h1 = (l1, o1) -> register_ordered l1 ca mb = (l2, Ok cid) -> no_load cid h2 ->
  run lstep l0 h1' = (l1', o1') -> register_ordered l1' ca' mb = (l2', Ok cid') -> no_load cid' h2' ->
  k < length (client_batches choice_repl choice_perm rng_of_seed i cid l2 h2) -> k < length (client_batches choice_repl choice_perm rng_of_seed i cid' l2' h2') ->
  nth_error (client_batches choice_repl choice_perm rng_of_seed i cid l2 h2) k = nth_error (client_batches choice_repl choice_perm rng_of_seed i cid' l2' h2') k.
Proof.
  intros Hm Hr1 Hreg Hnl Hr1' Hreg' Hnl'.
  assert (Hregd : registered rng_of_seed l1 ca (ROrd mb) l2 cid) by (eapply RegdOrd; eauto).
  assert (Hregd' : registered rng_of_seed l1' ca' (ROrd mb) l2' cid') by (eapply RegdOrd; eauto).
  destruct (nth_error data i) as [[name a]|] eqn:Hi.
  - destruct (stream Hm Hr1 Hregd Hnl Hi) as (_ & _ & Hs).
    destruct (stream Hm Hr1' Hregd' Hnl' Hi) as (_ & _ & Hs').
    unfold client_batches. rewrite Hs, Hs', !map_length, !seq_length. intros H1 H2.
    now rewrite !nth_error_map_seq by lia.
  - unfold client_batches.
    destruct (isolation Hm Hr1 Hregd Hnl) as (_ & _ & _ & ->).
    assert (forall m c, batches_of i (map (chain_output data (l_count l0) (ROrd mb) c) m) = []) as Hnil.
    { intros m c. induction m as [|x m IH]; simpl; auto. rewrite IH, app_nil_r.
      unfold LoaderSpec.chain_output. destruct (c =? 0); auto. now rewrite nth_error_map, Hi. }
    rewrite Hnil. simpl. lia.
Qed.

(** ordered chains too: the answers are determined by data, registration and call number *)
Lemma final_isolation data l0 h1 l1 o1 ca r l2 cid h2 :
  make_loader data = Ok l0 -> run lstep l0 h1 = (l1, o1) ->
  registered rng_of_seed l1 ca r l2 cid -> no_load cid h2 ->
  cid = length (l_chains l1) /\
  gets cid h2 (snd (run lstep l2 h2)) = map (chain_output data (l_count l0) r ca) (seq 0 (num_gets cid h2)).
Proof. intros. edestruct isolation as (_ & _ & ? & ?); eauto. Qed.

Lemma final_checkpoint data l0 h0 l o0 cid ck h1 l1 o1 :
  make_loader data = Ok l0 -> run lstep l0 h0 = (l, o0) -> loads_wf h0 ->
  save_state l cid = Ok ck -> run lstep l h1 = (l1, o1) ->
  exists l2, load_state l1 cid (Some ck) = ((l2, None), Ok tt) /\
    (forall h, gets cid h (snd (run lstep l2 h)) = gets cid h (snd (run lstep l h))) /\
    (forall j, j <> cid -> j < length (l_chains l1) ->
       forall h, gets j h (snd (run lstep l2 h)) = gets j h (snd (run lstep l1 h))).
Proof.
  intros Hm Hr0 Hlw Hs Hr1.
  destruct (@make_loader_ok G obs data l0 Hm) as [Hd Hch].
  pose proof (@DataOk_run G obs choice_repl choice_perm rng_of_seed data (l_count l0) h0 l0 Hd) as Hd1.
  pose proof (@all_wf_run G obs choice_repl choice_perm rng_of_seed h0 l0) as Hwf.
  rewrite Hr0 in Hd1, Hwf. simpl in Hd1, Hwf.
  assert (all_wf l) as Hw by (apply Hwf; auto; unfold all_wf; rewrite Hch; constructor).
  destruct (load_restores choice_repl choice_perm rng_of_seed cid h1 Hw Hs Hr1) as (l2 & E & N1 & N2 & N3 & N4).
  pose proof (@DataOk_run G obs choice_repl choice_perm rng_of_seed data (l_count l0) h1 l Hd1) as Hd2.
  rewrite Hr1 in Hd2. simpl in Hd2.
  exists l2. split; auto. split.
  - intros h. apply same_future; auto.
    + destruct Hd1 as (_ & ? & _), Hd2 as (_ & ? & _). congruence.
    + destruct Hd1 as (? & _ & _), Hd2 as (? & _ & _). congruence.
    + rewrite N1. unfold save_state in Hs. destruct (nth_error (l_chains l) cid); congruence.
  - intros j Hj Hlt h. apply same_future; auto. rewrite N4 by auto. now apply nth_error_Some.
Qed.

(** registration succeeds iff the arguments are admissible; on failure nothing changes *)
Lemma final_register l ca mb ie sh sd :
  let N := l_count l in
  ((exists l' cid, register_random rng_of_seed l ca mb ie sh sd = (l', Ok cid)) <->
     (0 < mb <= N /\ (ie = true -> sh = true))) /\
  (N < mb \/ (ie = true /\ sh = false) ->
     register_random rng_of_seed l ca mb ie sh sd = (l, Exc (ValueError))) /\
  (forall (l' : loader) cid, register_random rng_of_seed l ca mb ie sh sd = (l', Ok cid) ->
     cid = length (l_chains l) /\ length (l_chains l') = S cid /\
     forall j, j < cid -> nth_error (l_chains l') j = nth_error (l_chains l) j).
Proof.
  cbv zeta. unfold register_random.
  destruct (Nat.ltb_spec (l_count l) mb) as [Hlt|Hge].
  { repeat split; try discriminate; auto.
    - destruct H as (? & ? & H); discriminate.
    - destruct H as (? & ? & H); discriminate.
    - destruct H as (? & ? & H); discriminate.
    - intros [H _]; lia. }
  destruct sh, ie; simpl; (destruct (Nat.eqb_spec mb 0) as [->|Hz]);
    repeat split; try discriminate; auto;
    try (intros [? ?]; lia); try (intros (? & ? & H); discriminate);
    try lia;
    try (match goal with H : exists _, _ |- _ => destruct H as (? & ? & H); discriminate end);
    try (intros [H H']; try lia; specialize (H' eq_refl); discriminate);
    try (intros; eexists; eexists; reflexivity);
    try (intros [?|[? ?]]; [lia|discriminate]);
    try (match goal with H : (_, _) = (_, _) |- _ => inversion H; subst; simpl;
           rewrite ?app_length; simpl; auto; try lia end);
    intros; try (apply nth_error_app1; assumption); try lia.
Qed.

Lemma final_register_ordered (l : loader) ca mb :
  ((exists l' cid, register_ordered l ca mb = (l', Ok cid)) <-> mb <= l_count l) /\
  (l_count l < mb -> register_ordered l ca mb = (l, Exc AssertionError)) /\
  (forall l' cid, register_ordered l ca mb = (l', Ok cid) ->
     cid = length (l_chains l) /\ length (l_chains l') = S cid /\
     forall j, j < cid -> nth_error (l_chains l') j = nth_error (l_chains l) j).
Proof.
  unfold register_ordered. destruct (Nat.leb_spec mb (l_count l)) as [Hle|Hlt].
  - split; [|split].
    + split; auto. intros _. eexists; eexists; reflexivity.
    + lia.
    + intros l' cid H. inversion H; subst; simpl. rewrite app_length; simpl.
      repeat split; auto; [lia|]. intros j Hj. now apply nth_error_app1.
  - split; [|split].
    + split; [|lia]. intros (? & ? & H); discriminate.
    + auto.
    + intros l' cid H; discriminate.
Qed.

Lemma final_construct (data : list (String.string * list obs)) :
  ((exists N, forall ka, In ka data -> length (snd ka) = N) ->
     exists l : loader, make_loader data = Ok l /\ l_chains l = [] /\
        (forall ka, In ka data -> length (snd ka) = l_count l)) /\
  (~ (exists N, forall ka, In ka data -> length (snd ka) = N) ->
     make_loader (G := G) data = Exc ValueError).
Proof.
  unfold make_loader. destruct data as [|[k a] data].
  - split.
    + intros _. eexists; split; [reflexivity|]. split; auto. intros ? [].
    + intros H. exfalso. apply H. exists 0. intros ? [].
  - destruct (existsb _ _) eqn:E.
    + apply existsb_exists in E. destruct E as (x & Hin & Hx).
      split; auto. intros [N HN]. exfalso.
      pose proof (HN (k, a) (or_introl eq_refl)) as Ha. simpl in Ha.
      rewrite (HN x Hin), Ha, Nat.eqb_refl in Hx. discriminate.
    + assert (forall ka, In ka ((k, a) :: data) -> length (snd ka) = length a) as Hall.
      { intros ka Hin. destruct (Nat.eqb_spec (length (snd ka)) (length a)); auto.
        assert (existsb (fun na => negb (length (snd na) =? length a)) ((k, a) :: data) = true); [|congruence].
        apply existsb_exists. exists ka. split; auto.
        destruct (Nat.eqb_spec (length (snd ka)) (length a)); [contradiction|reflexivity]. }
      split.
      * intros _. eexists. split; [reflexivity|]. simpl. split; auto.
      * intros H. exfalso. apply H. exists (length a). exact Hall.
Qed.
End Final.
