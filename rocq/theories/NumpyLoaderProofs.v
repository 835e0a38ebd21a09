(** Proofs about NumpyLoader.v *)
From Verif Require Import Base ListUtil NumpyLoader LoaderSpec.
From Coq Require String.
From Coq Require Import ZifyNat ZifyBool.
Set Implicit Arguments.

(** ** combinatorics of the specification *)
Section SpecLemmas.
Context {G : Type}.
Variable choice_repl : G -> nat -> nat -> G * list nat.
Variable choice_perm : G -> nat -> G * list nat.
Hypothesis Hperm : perm_oracle choice_perm.
Hypothesis Hrepl : repl_oracle choice_repl.

Notation nth_perm := (nth_perm choice_perm).
Notation perm_stream := (perm_stream choice_perm).
Notation spec_batch := (spec_batch choice_repl choice_perm).

Lemma nth_perm_perm g N e : Permutation (nth_perm g N e) (seq 0 N).
Proof. apply Hperm. Qed.

Lemma nth_perm_length g N e : length (nth_perm g N e) = N.
Proof. rewrite (Permutation_length (nth_perm_perm g N e)). apply seq_length. Qed.

Lemma nth_perm_lt g N e i : i < N -> nth i (nth_perm g N e) 0 < N.
Proof.
  intros Hi. assert (In (nth i (nth_perm g N e) 0) (seq 0 N)) as Hin.
  { eapply Permutation_in; [apply nth_perm_perm|]. apply nth_In. now rewrite nth_perm_length. }
  apply in_seq in Hin. lia.
Qed.

Lemma perm_stream_lt g N i : 0 < N -> perm_stream g N i < N.
Proof. intros HN. apply nth_perm_lt. apply Nat.mod_upper_bound. lia. Qed.

(** the e-th window of length N of the stream is the e-th permutation *)
Lemma perm_stream_window g N e :
  map (perm_stream g N) (seq (e * N) N) = nth_perm g N e.
Proof.
  rewrite map_seq_shift. rewrite <- (map_nth_seq 0 (nth_perm g N e)) at 1.
  rewrite nth_perm_length. apply map_ext_in. intros i Hi. apply in_seq in Hi.
  unfold LoaderSpec.perm_stream.
  destruct (@div_mod_unique_nat (e * N + i) N e i) as [-> ->]; [lia|lia|reflexivity].
Qed.

Lemma valid_map A (f : nat -> A) (p : nat -> bool) l :
  valid (map f l, map p l) = map f (filter p l).
Proof.
  unfold valid; simpl. rewrite combine_map2, filter_map_comm, map_map. reflexivity.
Qed.

Lemma valid_all_true A (l : list A) n : length l = n -> valid (l, repeat true n) = l.
Proof.
  intros <-. unfold valid; simpl. induction l as [|x l IH]; simpl; [reflexivity|]. now rewrite IH.
Qed.

(** masked blocks: filtering in blocks = filtering the whole range *)
Lemma filter_blocks A (f : nat -> A) (p : nat -> bool) mb C :
  concat (map (fun b => map (fun j => f (b * mb + j)) (filter (fun j => p (b * mb + j)) (seq 0 mb))) (seq 0 C))
  = map f (filter p (seq 0 (C * mb))).
Proof.
  induction C as [|C IH]; [reflexivity|].
  rewrite seq_S, map_app, concat_app, IH. simpl. rewrite app_nil_r.
  rewrite (Nat.add_comm mb), seq_app, filter_app, map_app. f_equal. simpl.
  rewrite (seq_plus_map (C * mb)), filter_map_comm, map_map. reflexivity.
Qed.

(** C01 core *)
Lemma ord_epoch N mb e : 0 < mb -> mb <= N ->
  concat (map (fun k => valid (spec_batch N (ROrd mb) k)) (seq (e * ceil_div N mb) (ceil_div N mb)))
  = seq 0 N.
Proof.
  intros Hmb HN. pose proof (ceil_div_spec N Hmb) as [Hc1 Hc2].
  set (C := ceil_div N mb) in *.
  rewrite map_seq_shift.
  rewrite (map_ext_in _ (fun b => map (fun j => (b * mb + j) mod N)
     (filter (fun j => (b * mb + j) <? N) (seq 0 mb)))).
  2:{ intros b Hb. apply in_seq in Hb. simpl. fold C.
      destruct (@div_mod_unique_nat (e * C + b) C e b) as [_ ->]; [lia|lia|].
      apply valid_map. }
  rewrite (filter_blocks (fun i => i mod N) (fun i => i <? N)).
  rewrite filter_seq_lt by assumption.
  rewrite <- (map_id (seq 0 N)) at 2. apply map_ext_in. intros i Hi. apply in_seq in Hi.
  apply Nat.mod_small. lia.
Qed.

Lemma ep_epoch N mb g e : 0 < mb -> mb <= N ->
  concat (map (fun k => valid (spec_batch N (REpochs mb g) k)) (seq (e * ceil_div N mb) (ceil_div N mb)))
  = nth_perm g N e.
Proof.
  intros Hmb HN. pose proof (ceil_div_spec N Hmb) as [Hc1 Hc2].
  set (C := ceil_div N mb) in *.
  rewrite map_seq_shift.
  rewrite (map_ext_in _ (fun b => map (fun j => (fun i => if i <? N then nth i (nth_perm g N e) 0 else 0) (b * mb + j))
     (filter (fun j => (b * mb + j) <? N) (seq 0 mb)))).
  2:{ intros b Hb. apply in_seq in Hb. simpl. fold C.
      destruct (@div_mod_unique_nat (e * C + b) C e b) as [Hd Hm]; [lia|lia|].
      rewrite Hd, Hm. apply valid_map. }
  rewrite (filter_blocks (fun i => if i <? N then nth i (nth_perm g N e) 0 else 0) (fun i => i <? N)).
  rewrite filter_seq_lt by assumption.
  transitivity (map (fun i => nth i (nth_perm g N e) 0) (seq 0 (length (nth_perm g N e))));
    [|apply map_nth_seq]. rewrite nth_perm_length.
  apply map_ext_in. intros i Hi. apply in_seq in Hi.
  destruct (Nat.ltb_spec i N); [reflexivity|lia].
Qed.

Lemma sh_concat N mb g n : 
  concat (map (fun k => fst (spec_batch N (RShuffle mb g) k)) (seq 0 n))
  = map (perm_stream g N) (seq 0 (n * mb)).
Proof. apply (concat_map_seq_blocks (perm_stream g N)). Qed.

(** shape and range of every batch *)
Lemma spec_batch_shape N r k : reg_mb r <= N ->
  match r with ROrd _ => True | _ => 0 < reg_mb r end ->
  length (fst (spec_batch N r k)) = reg_mb r /\ length (snd (spec_batch N r k)) = reg_mb r /\
  Forall (fun i => i < N) (fst (spec_batch N r k)).
Proof.
  intros HN Hmb.
  destruct r as [mb|mb g|mb g|mb g]; simpl in *.
  - rewrite !map_length, !seq_length. repeat split; auto.
    apply Forall_forall. intros x Hx. apply in_map_iff in Hx. destruct Hx as (j & <- & Hj).
    apply in_seq in Hj. apply Nat.mod_upper_bound. lia.
  - rewrite repeat_length. destruct (Hrepl (Nat.iter k (fun x => fst (choice_repl x N mb)) g) N mb) as [H1 H2].
    repeat split; auto. apply H2. lia.
  - rewrite repeat_length, map_length, seq_length. repeat split; auto.
    apply Forall_forall. intros x Hx. apply in_map_iff in Hx. destruct Hx as (j & <- & _).
    apply perm_stream_lt. lia.
  - rewrite !map_length, !seq_length. repeat split; auto.
    apply Forall_forall. intros x Hx. apply in_map_iff in Hx. destruct Hx as (j & <- & _).
    destruct (Nat.ltb_spec (k mod ceil_div N mb * mb + j) N); [|lia].
    now apply nth_perm_lt.
Qed.

End SpecLemmas.

(** ** the chain state machine refines the specification *)
Section Refine.
Context {G : Type}.
Variable choice_repl : G -> nat -> nat -> G * list nat.
Variable choice_perm : G -> nat -> G * list nat.
Variable rng_of_seed : nat -> G.
Hypothesis Hperm : perm_oracle choice_perm.
Hypothesis Hrepl : repl_oracle choice_repl.

Notation nth_perm := (LoaderSpec.nth_perm choice_perm).
Notation perm_stream := (LoaderSpec.perm_stream choice_perm).
Notation spec_batch := (LoaderSpec.spec_batch choice_repl choice_perm).
Notation index_fn := (index_fn choice_repl choice_perm).

(** buffer size of the shuffling ring buffer *)
Definition ring (N mb : nat) : nat := (N / mb + 2) * mb.

Definition ChainInv (N : nat) (r : reg G) (cache : nat) (k : nat) (c : chain G) : Prop :=
  c_mb c = reg_mb r /\ c_cache c = cache /\
  match r with
  | ROrd mb => c_type c = Ordered /\ c_rng c = None /\ c_offset c = Some ((k mod ceil_div N mb) * mb)
  | RDraw mb g => c_type c = Random /\ c_in_epochs c = false /\ c_shuffle c = false /\
        c_rng c = Some (Nat.iter k (fun x => fst (choice_repl x N mb)) g)
  | RShuffle mb g => c_type c = Random /\ c_in_epochs c = false /\ c_shuffle c = true /\
        exists m, c_rng c = Some (Nat.iter m (fun x => fst (choice_perm x N)) g) /\
          m * N = k * mb + c_remaining c /\
          match c_indices c with
          | None => m = 0 /\ k = 0 /\ c_remaining c = 0
          | Some buf => length buf = ring N mb /\ c_draws c = k mod (N / mb + 2) /\
              forall j, j < c_remaining c ->
                nth ((k * mb + j) mod ring N mb) buf 0 = perm_stream g N (k * mb + j)
          end
  | REpochs mb g => c_type c = Random /\ c_in_epochs c = true /\
        exists e, c_rng c = Some (Nat.iter e (fun x => fst (choice_perm x N)) g) /\
          match c_indices c with
          | None => e = 0 /\ k = 0 /\ c_draws c = ceil_div N mb
          | Some buf => 0 < e /\ k = (e - 1) * ceil_div N mb + c_draws c /\
               0 < c_draws c <= ceil_div N mb /\
               buf = nth_perm g N (e - 1) ++ repeat 0 (ceil_div N mb * mb - N)
          end
  end.

(** registration establishes the invariant *)
Lemma inv_new_ordered N cache mb : ChainInv N (ROrd mb) cache 0 (new_ordered_chain cache mb).
Proof.
  unfold ChainInv; simpl. repeat split; auto.
  destruct (ceil_div N mb); [reflexivity|now rewrite Nat.mod_0_l].
Qed.

Lemma inv_new_random N cache mb ie sh seed :
  ChainInv N (reg_random rng_of_seed mb ie sh seed) cache 0
    (new_random_chain rng_of_seed N cache mb ie sh seed).
Proof.
  unfold ChainInv, reg_random. destruct ie; [|destruct sh]; simpl; repeat split; auto.
  - exists 0; simpl; auto.
  - exists 0; simpl; auto.
Qed.

Lemma step_ordered N mb cache k c : 0 < mb -> mb <= N ->
  ChainInv N (ROrd mb) cache k c ->
  exists c', index_fn N c = Ok (c', spec_batch N (ROrd mb) k) /\ ChainInv N (ROrd mb) cache (S k) c'.
Proof.
  intros Hmb HN (H1 & H2 & H3 & H4 & H5). simpl in H1.
  pose proof (ceil_div_spec N Hmb) as [Hc1 Hc2]. set (C := ceil_div N mb) in *.
  unfold NumpyLoader.index_fn. rewrite H3. unfold ordered_indices. rewrite H5, H1.
  eexists. split.
  - simpl. fold C. f_equal. f_equal. f_equal.
    + rewrite map_map. apply map_ext. intros. f_equal. lia.
    + apply map_ext. intros. f_equal. lia.
  - unfold ChainInv; simpl. repeat split; auto. fold C.
    f_equal.
    pose proof (Nat.mod_upper_bound k C ltac:(nia)) as Hb.
    destruct (Nat.leb_spec N (k mod C * mb + mb)) as [Hle|Hlt].
    + assert (k mod C = C - 1) as E by nia.
      assert (S k mod C = 0) as ->; [|reflexivity].
      pose proof (Nat.div_mod k C ltac:(nia)).
      symmetry. apply Nat.mod_unique with (q := S (k / C)); nia.
    + assert (S k mod C = S (k mod C)) as ->; [|lia].
      pose proof (Nat.div_mod k C ltac:(nia)).
      symmetry. apply Nat.mod_unique with (q := k / C); nia.
Qed.

Lemma step_draw N mb g cache k c :
  ChainInv N (RDraw mb g) cache k c ->
  exists c', index_fn N c = Ok (c', spec_batch N (RDraw mb g) k) /\ ChainInv N (RDraw mb g) cache (S k) c'.
Proof.
  intros (H1 & H2 & H3 & H4 & H5 & H6). simpl in H1.
  unfold NumpyLoader.index_fn. rewrite H3, H4, H5. unfold draw_indices. rewrite H6, H1.
  simpl. destruct (choice_repl _ N mb) as [g' sel] eqn:E.
  eexists. split; [reflexivity|].
  unfold ChainInv; simpl. repeat split; auto. simpl. now rewrite E.
Qed.

Lemma step_epochs N mb g cache k c : 0 < mb -> mb <= N ->
  ChainInv N (REpochs mb g) cache k c ->
  exists c', index_fn N c = Ok (c', spec_batch N (REpochs mb g) k) /\ ChainInv N (REpochs mb g) cache (S k) c'.
Proof.
  intros Hmb HN (H1 & H2 & H3 & H4 & e & H5 & H6). simpl in H1.
  pose proof (ceil_div_spec N Hmb) as [Hc1 Hc2].
  assert (0 < ceil_div N mb) as HC by nia.
  unfold NumpyLoader.index_fn. rewrite H3, H4. unfold shuffle_in_epochs.
  set (C := ceil_div N mb) in *. rewrite H1. fold C.
  (* the common second half *)
  assert (forall e' d, d < C -> k = e' * C + d ->
     slice (nth_perm g N e' ++ repeat 0 (C * mb - N)) (mb * d) (mb * (d + 1))
     = fst (spec_batch N (REpochs mb g) k) /\
     map (fun i => i <? N) (seq (mb * d) (mb * (d + 1) - mb * d))
     = snd (spec_batch N (REpochs mb g) k)) as Hsl.
  { intros e' d Hd Hk. simpl. fold C.
    destruct (@div_mod_unique_nat k C e' d) as [Hkd Hkm]; [lia|lia|].
    rewrite Hkd, Hkm. split.
    - unfold slice. replace (mb * (d + 1) - mb * d) with mb by lia.
      assert (Hlen : length (nth_perm g N e') = N) by (apply nth_perm_length; auto).
      apply list_eq_nth with (d := 0).
      + rewrite firstn_length, skipn_length, app_length, repeat_length, map_length, seq_length, Hlen. nia.
      + intros i Hi. rewrite firstn_length, skipn_length, app_length, repeat_length, Hlen in Hi.
        rewrite nth_map_seq by lia.
        assert (forall A (l : list A) n i d, i < n -> nth i (firstn n l) d = nth i l d) as Hfn.
        { clear. intros A l n; revert l; induction n; intros [|x l] [|i] dd H; simpl; auto; try lia.
          apply IHn; lia. }
        assert (forall A (l : list A) n i d, nth i (skipn n l) d = nth (n + i) l d) as Hsk.
        { clear. intros A l n; revert l; induction n; intros [|x l] i dd; simpl; auto. now destruct i. }
        rewrite Hfn by lia. rewrite Hsk. rewrite (Nat.mul_comm mb d).
        destruct (Nat.ltb_spec (d * mb + i) N).
        * apply app_nth1. lia.
        * rewrite app_nth2 by lia. apply nth_repeat.
    - replace (mb * (d + 1) - mb * d) with mb by lia.
      rewrite map_seq_shift. apply map_ext. intros. f_equal. lia. }
  destruct (Nat.eqb_spec (c_draws c) C) as [Heq|Hneq].
  - (* refresh *)
    rewrite H5. cbn [bind].
    destruct (choice_perm (Nat.iter e (fun x => fst (choice_perm x N)) g) N) as [g' ni] eqn:Ech.
    assert (Hni : nth_perm g N e = ni) by (unfold LoaderSpec.nth_perm; now rewrite Ech).
    assert (Hbuf : ni ++ skipn N match c_indices c with Some b => b | None => repeat 0 (C * mb) end
                   = nth_perm g N e ++ repeat 0 (C * mb - N)).
    { rewrite Hni. f_equal. destruct (c_indices c) as [b|].
      - destruct H6 as (_ & _ & _ & ->). rewrite skipn_app.
        rewrite skipn_all2 by (rewrite nth_perm_length; auto).
        rewrite nth_perm_length by auto. rewrite Nat.sub_diag. reflexivity.
      - replace (C * mb) with (N + (C * mb - N)) at 1 by lia.
        rewrite repeat_app, skipn_app, repeat_length, Nat.sub_diag.
        rewrite skipn_all2 by (rewrite repeat_length; lia). reflexivity. }
    assert (Hk : k = e * C + 0).
    { destruct (c_indices c); [destruct H6 as (? & ? & ? & _); nia | destruct H6; nia]. }
    destruct (Hsl e 0 HC Hk) as [Hs1 Hs2].
    remember (spec_batch N (REpochs mb g) k) as sb eqn:Esb; destruct sb as [si sm];
      cbn [fst snd] in Hs1, Hs2.
    eexists. split.
    + simpl. f_equal. f_equal. f_equal.
      * rewrite <- Hs1. simpl. rewrite Hbuf. reflexivity.
      * rewrite <- Hs2. reflexivity.
    + unfold ChainInv; simpl. repeat split; auto.
      exists (S e). repeat split.
      * simpl. now rewrite Ech.
      * lia.
      * fold C. lia.
      * lia.
      * fold C; lia.
      * rewrite Hbuf. fold C. simpl. now rewrite Nat.sub_0_r.
  - destruct (c_indices c) as [buf|] eqn:Eb; [|destruct H6 as (_ & _ & H6); contradiction].
    destruct H6 as (He & Hk & Hd & Hbuf).
    cbn [bind]. rewrite Eb. rewrite H1.
    destruct (Hsl (e - 1) (c_draws c)) as [Hs1 Hs2]; [lia|assumption|].
    remember (spec_batch N (REpochs mb g) k) as sb eqn:Esb; destruct sb as [si sm];
      cbn [fst snd] in Hs1, Hs2.
    eexists. split.
    + simpl. f_equal. f_equal. f_equal.
      * rewrite <- Hs1, Hbuf. reflexivity.
      * rewrite <- Hs2. reflexivity.
    + unfold ChainInv; simpl. repeat split; auto.
      exists e. repeat split; auto; fold C; lia.
Qed.

Lemma step_shuffle N mb g cache k c : 0 < mb -> mb <= N ->
  ChainInv N (RShuffle mb g) cache k c ->
  exists c', index_fn N c = Ok (c', spec_batch N (RShuffle mb g) k) /\ ChainInv N (RShuffle mb g) cache (S k) c'.
Proof.
  intros Hmb HN (H1 & H2 & H3 & H4 & H5 & m & H6 & H7 & H8). simpl in H1.
  assert (HB : ring N mb = (N / mb + 2) * mb) by reflexivity.
  assert (HD : N < (N / mb + 1) * mb).
  { pose proof (Nat.div_mod N mb ltac:(lia)). pose proof (Nat.mod_upper_bound N mb ltac:(lia)). nia. }
  assert (HBN : N + mb < ring N mb) by (rewrite HB; nia).
  (* common tail: reading from a good state *)
  assert (Htail : forall c1, c_mb c1 = mb -> c_cache c1 = cache -> c_type c1 = Random ->
     c_in_epochs c1 = false -> c_shuffle c1 = true -> mb <= c_remaining c1 ->
     forall m1 buf, c_rng c1 = Some (Nat.iter m1 (fun x => fst (choice_perm x N)) g) ->
     m1 * N = k * mb + c_remaining c1 -> c_indices c1 = Some buf ->
     length buf = ring N mb -> c_draws c1 = k mod (N / mb + 2) ->
     (forall j, j < c_remaining c1 -> nth ((k * mb + j) mod ring N mb) buf 0 = perm_stream g N (k * mb + j)) ->
     exists c',
     match c_indices c1 with
     | None => Exc TypeError
     | Some buf =>
      let mask := repeat true (c_mb c1) in
      let selections_idxs := map (fun i => (i + c_draws c1 * c_mb c1)
                                             mod (c_mb c1 * (N / mb + 2))) (seq 0 (c_mb c1)) in
      let* selections := gather buf selections_idxs in
      Ok (mkChain (c_type c1) (c_rng c1) (c_offset c1) (c_in_epochs c1) (c_shuffle c1)
            (c_remaining c1 - c_mb c1) ((c_draws c1 + 1) mod (N / mb + 2)) (Some buf)
            (c_mb c1) (c_cache c1),
          (selections, mask))
     end = Ok (c', spec_batch N (RShuffle mb g) k) /\ ChainInv N (RShuffle mb g) cache (S k) c').
  { intros c1 A1 A2 A3 A4 A5 A6 m1 buf A7 A8 A9 A10 A11 A12.
    rewrite A9, A1, A11.
    assert (Hidx : map (fun i => (i + k mod (N / mb + 2) * mb) mod (mb * (N / mb + 2))) (seq 0 mb)
                 = map (fun i => (k * mb + i) mod ring N mb) (seq 0 mb)).
    { apply map_ext. intros i. rewrite HB, (Nat.mul_comm mb (N / mb + 2)).
      rewrite <- (Nat.mul_mod_distr_r k (N / mb + 2) mb) by lia.
      rewrite Nat.add_mod_idemp_r by nia. f_equal. lia. }
    cbv zeta. rewrite Hidx.
    rewrite (gather_ok buf _ 0).
    2:{ intros i Hi. apply in_map_iff in Hi. destruct Hi as (j & <- & _).
        rewrite A10. apply Nat.mod_upper_bound. lia. }
    cbn [bind]. eexists. split.
    - f_equal. f_equal. simpl. f_equal.
      rewrite map_map. apply map_ext_in. intros j Hj. apply in_seq in Hj. apply A12. lia.
    - unfold ChainInv; simpl. repeat split; auto.
      exists m1. repeat split; auto.
      + lia.
      + rewrite Nat.add_mod_idemp_l by lia. f_equal. lia.
      + intros j Hj. replace (mb + k * mb + j) with (k * mb + (mb + j)) by lia. apply A12. lia. }
  unfold NumpyLoader.index_fn. rewrite H3, H4, H5. unfold shuffle_indices. rewrite H1.
  destruct (Nat.ltb_spec (c_remaining c) mb) as [Hlt|Hge].
  2:{ (* enough samples *)
      cbn [bind].
      destruct (c_indices c) as [buf|] eqn:Eb; [|lia].
      destruct H8 as (Hl & Hd & Hn).
      destruct (Htail c H1 H2 H3 H4 H5 Hge m buf H6 H7 Eb Hl Hd Hn) as (c' & E1 & E2).
      exists c'. split; [|exact E2]. rewrite Eb in E1. exact E1. }
  rewrite H6. cbn [bind].
  unfold shuffle_refresh. rewrite H1.
  destruct (choice_perm (Nat.iter m (fun x => fst (choice_perm x N)) g) N) as [g' ni] eqn:Ech.
  assert (Hni : nth_perm g N m = ni) by (unfold LoaderSpec.nth_perm; now rewrite Ech).
  assert (Hnil : length ni = N) by (rewrite <- Hni; apply nth_perm_length; auto).
  set (draws0 := match c_indices c with Some _ => c_draws c | None => 0 end).
  set (buf0 := match c_indices c with Some b => b | None => repeat 0 ((N / mb + 2) * mb) end).
  assert (Hd0 : draws0 = k mod (N / mb + 2)).
  { unfold draws0. destruct (c_indices c); [tauto|]. destruct H8 as (_ & -> & _).
    symmetry. apply Nat.mod_small. lia. }
  assert (Hb0 : length buf0 = ring N mb).
  { unfold buf0. destruct (c_indices c); [tauto|]. now rewrite repeat_length. }
  assert (Hidx : map (fun i => (i + draws0 * mb + c_remaining c) mod ((N / mb + 2) * mb)) (seq 0 N)
               = map (fun i => (m * N + i) mod ring N mb) (seq 0 N)).
  { apply map_ext. intros i. rewrite Hd0, H7, HB.
    rewrite <- (Nat.mul_mod_distr_r k (N / mb + 2) mb) by lia.
    replace (i + (k * mb) mod ((N / mb + 2) * mb) + c_remaining c)
      with ((k * mb) mod ((N / mb + 2) * mb) + (i + c_remaining c)) by lia.
    rewrite Nat.add_mod_idemp_l by nia. f_equal. lia. }
  rewrite Hidx.
  set (idxs := map (fun i => (m * N + i) mod ring N mb) (seq 0 N)).
  assert (Hnd : NoDup idxs).
  { apply NoDup_map_inj_in; [apply seq_NoDup|].
    intros x y Hx Hy E. apply in_seq in Hx, Hy.
    destruct (Nat.le_ge_cases x y).
    - assert (m * N + x = m * N + y) by (eapply mod_eq_close; [|exact E| |]; lia). lia.
    - assert (m * N + y = m * N + x) by (eapply mod_eq_close; [|symmetry; exact E| |]; lia). lia. }
  assert (Hin : forall i, In i idxs -> i < length buf0).
  { intros i Hi. apply in_map_iff in Hi. destruct Hi as (j & <- & _). rewrite Hb0.
    apply Nat.mod_upper_bound. lia. }
  match goal with |- context [scatter buf0 idxs ni] => idtac end.
  match goal with
  | |- context [c_indices ?cc] =>
      edestruct (Htail cc) with (m1 := S m) (buf := scatter buf0 idxs ni) as (c' & E1 & E2)
  end; simpl; auto; try lia.
  - now rewrite Ech.
  - rewrite length_scatter. exact Hb0.
  - intros j Hj. destruct (Nat.lt_ge_cases j (c_remaining c)) as [Hjr|Hjr].
    + (* old, still valid sample *)
      rewrite nth_scatter_other.
      * unfold buf0. destruct (c_indices c); [|lia]. destruct H8 as (_ & _ & H8). now apply H8.
      * intros Hx. apply in_map_iff in Hx. destruct Hx as (i & Hi & Hir). apply in_seq in Hir.
        assert (k * mb + j = m * N + i); [|lia].
        eapply mod_eq_close with (B := ring N mb); try lia.
    + (* fresh sample *)
      set (i := j - c_remaining c).
      assert (Hi : k * mb + j = m * N + i) by (unfold i; lia).
      assert (HiN : i < N) by (unfold i; lia).
      rewrite Hi.
      replace ((m * N + i) mod ring N mb) with (nth i idxs 0)
        by (unfold idxs; now rewrite nth_map_seq by lia).
      rewrite nth_scatter_hit; auto.
      * unfold LoaderSpec.perm_stream.
        destruct (@div_mod_unique_nat (m * N + i) N m i) as [-> ->]; [lia|lia|].
        now rewrite Hni.
      * unfold idxs. now rewrite map_length, seq_length.
      * unfold idxs. now rewrite map_length, seq_length.
  - simpl in E1. exists c'. split; [exact E1 | exact E2].
Qed.

(** admissible registrations (an ordered chain may have batch size 0) *)
Definition reg_ok (N : nat) (r : reg G) : Prop :=
  reg_mb r <= N /\ match r with ROrd _ => True | _ => 0 < reg_mb r end.

Lemma step_ordered0 N cache k c :
  ChainInv N (ROrd 0) cache k c ->
  exists c', index_fn N c = Ok (c', spec_batch N (ROrd 0) k) /\ ChainInv N (ROrd 0) cache (S k) c'.
Proof.
  intros (H1 & H2 & H3 & H4 & H5). simpl in H1. rewrite Nat.mul_0_r in H5.
  unfold NumpyLoader.index_fn. rewrite H3. unfold ordered_indices. rewrite H5, H1.
  eexists. split; [reflexivity|].
  unfold ChainInv; simpl. repeat split; auto. rewrite Nat.mul_0_r.
  destruct (N <=? 0); reflexivity.
Qed.

Lemma chain_step N r cache k c : reg_ok N r ->
  ChainInv N r cache k c ->
  exists c', index_fn N c = Ok (c', spec_batch N r k) /\ ChainInv N r cache (S k) c'.
Proof.
  intros [HN Hp] Hinv. destruct r; simpl in *.
  - destruct mb; [now apply step_ordered0|]. apply step_ordered; auto; lia.
  - now apply step_draw.
  - now apply step_shuffle.
  - now apply step_epochs.
Qed.

Lemma chain_steps N r cache n : forall k c, reg_ok N r ->
  ChainInv N r cache k c ->
  exists c', iter_res (index_fn N) n c = Ok (c', map (spec_batch N r) (seq k n)) /\
             ChainInv N r cache (k + n) c'.
Proof.
  induction n as [|n IH]; intros k c Hok Hinv; cbn [iter_res seq map].
  - exists c. rewrite Nat.add_0_r. auto.
  - destruct (chain_step Hok Hinv) as (c1 & E1 & Hinv1). rewrite E1. cbn [bind fst snd].
    destruct (IH (S k) c1 Hok Hinv1) as (c2 & E2 & Hinv2). rewrite E2. cbn [bind fst snd].
    exists c2. split; [reflexivity|]. replace (k + S n) with (S k + n) by lia. exact Hinv2.
Qed.
End Refine.
