From Verif Require Import Base ListUtil NumpyLoader LoaderSpec NumpyLoaderApi NumpyLoaderFinal DataCore DataSpec DataFinal Hdf5Loader DeviceData.
From Coq Require String.
Set Implicit Arguments.

(** the list a, started at position r and wrapped around *)
Definition rotate {A} (a : list A) (r : nat) : list A := skipn r a ++ firstn r a.
Definition rotate_data {obs} (data : list (String.string * list obs)) (r : nat) : list (String.string * list obs) :=
  map (fun ka => (fst ka, rotate (snd ka) r)) data.

Lemma rotate_length A (a : list A) r : length (rotate a r) = length a.
Proof. unfold rotate. rewrite app_length, Nat.add_comm, <- app_length, firstn_skipn. reflexivity. Qed.
Lemma rotate_perm A (a : list A) r : Permutation (rotate a r) a.
Proof. unfold rotate. rewrite Permutation_app_comm, firstn_skipn. reflexivity. Qed.
Lemma rotate_0 A (a : list A) : rotate a 0 = a.
Proof. unfold rotate. simpl. apply app_nil_r. Qed.
Lemma rotate_nth A (a : list A) r j : r < length a -> j < length a ->
  nth_error (rotate a r) j = nth_error a ((r + j) mod length a).
Proof.
  intros Hr Hj. unfold rotate. destruct (lt_dec (r + j) (length a)) as [H|H].
  - rewrite nth_error_app1 by (rewrite skipn_length; lia). rewrite Nat.mod_small by lia.
    clear Hj. revert r H Hr. induction a as [|x a IH]; intros r H Hr; simpl in *; [lia|].
    destruct r; simpl; auto. apply IH; lia.
  - rewrite nth_error_app2 by (rewrite skipn_length; lia). rewrite skipn_length.
    replace ((r + j) mod length a) with (r + j - length a).
    + replace (j - (length a - r)) with (r + j - length a) by lia.
      assert (Hlt : r + j - length a < r) by lia. remember (r + j - length a) as k. clear Heqk H Hj j.
      revert r k Hr Hlt. induction a as [|x a IH]; intros r k Hr Hlt; simpl in *; [lia|].
      destruct r; simpl; [lia|]. destruct k; simpl; auto. apply IH; lia.
    + apply (Nat.mod_unique (r + j) (length a) 1); lia.
Qed.

Lemma jtake_select A (a : list A) idx : Forall (fun i => i < length a) idx -> jtake a idx = Ok (select a idx).
Proof.
  induction idx as [|i idx IH]; intros H; simpl; auto. inversion H; subst.
  unfold jindex. rewrite Nat.min_l by lia. destruct (nth_error a i) eqn:E; [|apply nth_error_None in E; lia].
  simpl. rewrite IH by auto. reflexivity.
Qed.

Lemma nth_error_ext A (l l' : list A) : (forall i, nth_error l i = nth_error l' i) -> l = l'.
Proof.
  revert l'. induction l as [|x l IH]; intros [|y l'] H; auto; try (specialize (H 0); discriminate).
  f_equal; [specialize (H 0); simpl in H; congruence|]. apply IH. intros i. apply (H (S i)).
Qed.

Section Dev.
Context {G obs : Type}.
Variable choice_repl : G -> nat -> nat -> G * list nat.
Variable choice_perm : G -> nat -> G * list nat.
Variable data : list (String.string * list obs).
Variable N : nat.
Hypothesis HN : 0 < N.
Hypothesis Hdata : forall ka, In ka data -> length (snd ka) = N.
Variable bs : nat.
Hypothesis Hbs : 0 < bs.

Lemma idx_in_range f n : Forall (fun i => i < N) (map (fun j => f j mod N) (seq 0 n)).
Proof. apply Forall_forall. intros x Hx. apply in_map_iff in Hx. destruct Hx as (j & <- & _). apply Nat.mod_upper_bound. lia. Qed.

Lemma tree_take_ok idx : Forall (fun i => i < N) idx ->
  tree_take data idx = Ok (map (fun ka => (fst ka, select (snd ka) idx)) data).
Proof.
  intros Hi. clear Hbs. induction data as [|[k a] d IH]; simpl; auto.
  assert (Ha : length a = N) by (apply (Hdata (k, a)); simpl; auto).
  rewrite jtake_select by now rewrite Ha. simpl. rewrite IH by (intros; apply Hdata; simpl; auto). reflexivity.
Qed.

Lemma select_rotate (a : list obs) r i : length a = N -> r < N ->
  select a (map (fun j => (j + (r + i * bs) mod N) mod N) (seq 0 bs))
  = select (rotate a r) (map (fun j => (i * bs + j) mod N) (seq 0 bs)) .
Proof.
  intros Ha Hr. unfold select. rewrite !flat_map_concat_map, !map_map. f_equal. apply map_ext. intros j.
  rewrite rotate_nth; rewrite ?Ha; auto; [|apply Nat.mod_upper_bound; lia].
  rewrite Nat.add_mod_idemp_r by lia. rewrite Nat.add_mod_idemp_r by lia.
  replace (j + (r + i * bs)) with (r + (i * bs + j)) by lia. reflexivity.
Qed.

Notation pass r := (map (access_batch choice_repl choice_perm (rotate_data data r) N (ROrd bs)) (seq 0 (ceil_div N bs))).

Lemma dev_batch_ok r i : r < N -> i < ceil_div N bs ->
  dev_batch data N bs ((r + i * bs) mod N)
  = Ok ((r + S i * bs) mod N, (fst (access_batch choice_repl choice_perm (rotate_data data r) N (ROrd bs) i), repeat true bs)).
Proof.
  intros Hr Hi. unfold dev_batch. unfold jindex at 1. rewrite map_length, seq_length, Nat.min_id.
  rewrite nth_error_map_seq by lia. cbn [bind].
  rewrite tree_take_ok by apply (idx_in_range (fun j => j + (r + i * bs) mod N)). cbn [bind]. f_equal. f_equal.
  - rewrite Nat.add_mod_idemp_r by lia. rewrite Nat.add_mod_idemp_l by lia. f_equal. lia.
  - f_equal. unfold DataSpec.access_batch, spec_batch, rotate_data. cbn [fst snd]. rewrite map_map.
    rewrite (Nat.mod_small i) by assumption. apply map_ext_in. intros ka Hka. cbn [fst snd]. f_equal.
    apply select_rotate; auto.
Qed.

Lemma dev_scan_ok C R (fn : mbatch obs -> list bool -> C -> R * C) r n : r < N -> forall it c, it + n = ceil_div N bs ->
  dev_scan data N fn bs n it ((r + it * bs) mod N) c
  = Ok ((r + (it + n) * bs) mod N,
        scan_spec (fun b c => fn (fst b, repeat true bs) (snd b) c)
          (map (access_batch choice_repl choice_perm (rotate_data data r) N (ROrd bs)) (seq it n)) c).
Proof.
  intros Hr. induction n as [|n IH]; intros it c Hin; cbn [dev_scan seq map scan_spec].
  - now rewrite Nat.add_0_r.
  - rewrite dev_batch_ok by lia. cbn [bind fst snd].
    assert (Hm : snd (access_batch choice_repl choice_perm (rotate_data data r) N (ROrd bs) it) = map_mask N bs it).
    { unfold DataSpec.access_batch, spec_batch, map_mask. cbn [snd]. now rewrite Nat.mod_small by lia. }
    rewrite Hm. destruct (fn _ (map_mask N bs it) c) as [x c'].
    rewrite IH by lia. destruct (scan_spec _ (map _ (seq (S it) n)) c') as [rs c2].
    cbn [bind fst snd]. f_equal. f_equal. f_equal. f_equal. lia.
Qed.

Lemma rotate_data_ok r ka : In ka (rotate_data data r) -> length (snd ka) = N.
Proof.
  unfold rotate_data. intros H. apply in_map_iff in H. destruct H as (kb & <- & Hkb). cbn [snd].
  rewrite rotate_length. auto.
Qed.

(** the start position of the k-th map *)
Definition start (offset k : nat) : nat := (offset + k * (ceil_div N bs * bs)) mod N.

Lemma dev_maps_ok C R jobs : forall offset, offset < N ->
  dev_maps (C := C) (R := R) data N bs offset jobs
  = map (fun kj => Ok (scan_spec (fun b c => fst (snd kj) (fst b, repeat true bs) (snd b) c) (pass (start offset (fst kj))) (snd (snd kj))))
        (combine (seq 0 (length jobs)) jobs).
Proof.
  assert (Hgen : forall jobs offset k line, offset < N -> line = start offset k ->
    dev_maps (C := C) (R := R) data N bs line jobs
    = map (fun kj => Ok (scan_spec (fun b c => fst (snd kj) (fst b, repeat true bs) (snd b) c) (pass (start offset (fst kj))) (snd (snd kj))))
        (combine (seq k (length jobs)) jobs)).
  { clear jobs. induction jobs as [|[fn c] jobs IH]; intros offset k line Ho Hl; cbn [dev_maps length seq combine map]; auto.
    unfold dev_map. assert (Hline : line < N) by (subst; apply Nat.mod_upper_bound; lia).
    replace line with ((line + 0 * bs) mod N) at 1 by (rewrite Nat.add_0_r; apply Nat.mod_small; lia).
    rewrite dev_scan_ok by (unfold num_iterations; auto). cbn [fst snd]. rewrite Nat.add_0_l.
    f_equal; [unfold num_iterations; now rewrite Hl|]. apply IH; auto. rewrite Hl. unfold start, num_iterations. rewrite Nat.add_mod_idemp_l by lia.
    f_equal. lia. }
  intros offset Ho. apply Hgen; auto. unfold start. simpl. rewrite Nat.add_0_r. symmetry. apply Nat.mod_small. lia.
Qed.

Lemma pass_ok (rng_of_seed : nat -> G) r : is_pass (rotate_data data r) N bs (pass r).
Proof. apply ord_is_pass; auto. intros ka H. eapply rotate_data_ok; eauto. Qed.

Lemma start_in_order : (N mod bs = 0 -> forall k, start 0 k = 0) /\ start 0 0 = 0.
Proof.
  assert (Hc : N mod bs = 0 -> ceil_div N bs * bs = N).
  { intros Hm. pose proof (ceil_div_spec N Hbs) as [H1 H2].
    pose proof (Nat.div_mod N bs ltac:(lia)) as Hd. rewrite Hm in Hd. 
    assert (ceil_div N bs = N / bs) by nia. nia. }
  split; [|unfold start; simpl; apply Nat.mod_0_l; lia].
  intros Hm k. unfold start. rewrite Hc by auto. simpl. apply Nat.mod_mul. lia.
Qed.
End Dev.

Lemma rotate_data_0 obs (data : list (String.string * list obs)) : rotate_data data 0 = data.
Proof. unfold rotate_data. rewrite <- (map_id data) at 2. apply map_ext. intros [k a]. cbn [fst snd]. now rewrite rotate_0. Qed.

Lemma final_device_rotation C R obs (data : list (String.string * list obs)) N ca mb bs offset line :
  0 < N -> (forall ka, In ka data -> length (snd ka) = N) ->
  dev_full N ca mb = Ok bs -> dev_init N offset = Ok line ->
  exists (r : nat -> nat) (pass : nat -> list (mbatch obs)),
  r 0 = offset /\
  (forall k, is_pass (rotate_data data (r k)) N bs (pass k)) /\
  (offset = 0 -> N mod bs = 0 -> forall k, r k = 0) /\
  forall jobs : list ((mbatch obs -> list bool -> C -> R * C) * C),
    dev_maps data N bs line jobs
    = map (fun kj => let '(k, (fn, c)) := kj in
             Ok (scan_spec (fun b c => fn (fst b, repeat true bs) (snd b) c) (pass k) c))
          (combine (seq 0 (length jobs)) jobs).
Proof.
  intros HN Hd Hf Hi. unfold dev_full in Hf. destruct (_ <? _); [discriminate|].
  destruct (Nat.eqb_spec ca 0) as [|Hca]; [discriminate|]. inversion Hf; subst bs. clear Hf.
  unfold dev_init in Hi. destruct (Nat.leb_spec N offset) as [|Ho]; [discriminate|]. inversion Hi; subst line.
  set (cr := fun (g : unit) (_ _ : nat) => (g, @nil nat)). set (cp := fun (g : unit) (_ : nat) => (g, @nil nat)).
  exists (start N ca offset). exists (fun k => map (access_batch cr cp (rotate_data data (start N ca offset k)) N (ROrd ca)) (seq 0 (ceil_div N ca))).
  split; [unfold start; simpl; rewrite Nat.add_0_r; apply Nat.mod_small; lia|].
  split; [intros k; apply pass_ok; auto; try lia; exact (fun _ => tt)|]. split.
  - intros -> Hm. apply (start_in_order cr cp HN); auto; lia.
  - intros jobs. rewrite (dev_maps_ok cr cp data HN Hd) by (auto; lia). apply map_ext. intros [k [fn c]]. reflexivity.
Qed.

Section Random.
Context {obs K : Type}.
Variable split : K -> K * K.
Variable randint : K -> nat -> nat -> list nat.
Hypothesis Hrand : forall k n m, length (randint k n m) = n /\ (0 < m -> Forall (fun i => i < m) (randint k n m)).

Lemma final_device_random (data : list (String.string * list obs)) N mb n key :
  0 < N -> (forall ka, In ka data -> length (snd ka) = N) ->
  exists idx : nat -> list nat,
  (forall i, length (idx i) = mb /\ Forall (fun j => j < N) (idx i)) /\
  dev_random_batches data N split randint mb n key
  = Ok (map (fun i => (map (fun ka => (fst ka, select (snd ka) (idx i))) data, repeat true mb)) (seq 0 n)).
Proof.
  intros HN Hd.
  exists (fun i => randint (snd (split (Nat.iter i (fun k => fst (split k)) key))) mb N).
  split; [intros i; split; apply Hrand; auto|].
  revert key. induction n as [|n IH]; intros key; cbn [dev_random_batches]; auto.
  unfold dev_random_batch. destruct (split key) as [key' sub] eqn:E.
  rewrite (tree_take_ok data Hd) by (apply Hrand; auto). cbn [bind fst snd].
  rewrite IH. cbn [bind]. f_equal. cbn [seq map]. f_equal; [simpl; now rewrite E|].
  rewrite <- seq_shift, map_map. apply map_ext. intros i. f_equal. f_equal.
  assert (Hs : Nat.iter (S i) (fun k => fst (split k)) key = Nat.iter i (fun k => fst (split k)) key').
  { clear -E. induction i as [|i IHi]; [simpl; now rewrite E|].
    change (fst (split (Nat.iter (S i) (fun k => fst (split k)) key)) = fst (split (Nat.iter i (fun k => fst (split k)) key'))).
    now rewrite IHi. }
  rewrite Hs. reflexivity.
Qed.
End Random.

Lemma final_check_random kind N ca mb : kind <> OtherKind ->
  (check_random kind N ca mb = Ok tt <->
     (mb <= N /\ 0 < ca /\ 0 < mb /\ (kind = DeviceKind -> ca = 1))%Z) /\
  (check_random kind N ca mb = Ok tt \/ check_random kind N ca mb = Exc ValueError).
Proof.
  intros Hk. unfold check_random.
  destruct (Z.ltb_spec N mb), (Z.leb_spec ca 0), (Z.leb_spec mb 0); simpl;
   destruct kind; try congruence; try (destruct (Z.eqb_spec ca 1));
   (split; [|auto]); (split; [intros; try discriminate; repeat split; try lia; try congruence|
     intros (A & B & C & D); try lia; auto; try (specialize (D eq_refl); lia)]).
Qed.

Lemma rotate_seq N r j : r < N -> j < N -> nth j (rotate (seq 0 N) r) 0 = (r + j) mod N.
Proof.
  intros Hr Hj. apply nth_error_nth. rewrite rotate_nth by (rewrite seq_length; auto). rewrite seq_length.
  assert ((r + j) mod N < N) by (apply Nat.mod_upper_bound; lia).
  rewrite nth_error_nth' with (d := 0) by (rewrite seq_length; auto). rewrite seq_nth; auto.
Qed.

(** results of an unmasked map of a pointwise function that starts at position r *)
Lemma final_device_unmasked C R obs (data : list (String.string * list obs)) N bs r (g : list (String.string * option obs) -> R) (c : C) :
  0 < N -> 0 < bs -> (forall ka, In ka data -> length (snd ka) = N) -> r < N ->
  dev_map_unmasked data N (fun b c => pointwise g bs b c) bs r c
  = Ok ((r + ceil_div N bs * bs) mod N, (map (fun j => g (row data j)) (rotate (seq 0 N) r), c)).
Proof.
  intros HN Hbs Hd Hr. unfold dev_map_unmasked, dev_map.
  set (cr := fun (g : unit) (_ _ : nat) => (g, @nil nat)). set (cp := fun (g : unit) (_ : nat) => (g, @nil nat)).
  replace r with ((r + 0 * bs) mod N) at 1 by (rewrite Nat.add_0_r; apply Nat.mod_small; lia).
  rewrite (dev_scan_ok cr cp data HN Hd Hbs (fun b _ c => pointwise g bs b c)) by auto. cbn [bind fst snd].
  rewrite Nat.add_0_l. unfold num_iterations.
  pose proof (@pass_ok unit obs cr cp data N HN Hd bs Hbs (fun _ => tt) r) as Hp.
  pose proof (@pass_pointwise obs _ N bs _ Hp Hbs R C g c HN) as H.
  assert (E : scan_spec (fun (b : mbatch obs) (c : C) => pointwise g bs (fst b, repeat true bs) c)
     (map (access_batch cr cp (rotate_data data r) N (ROrd bs)) (seq 0 (ceil_div N bs))) c
     = scan_spec (fun (b : mbatch obs) (c : C) => pointwise g bs b c)
     (map (access_batch cr cp (rotate_data data r) N (ROrd bs)) (seq 0 (ceil_div N bs))) c).
  { apply scan_spec_ext_in. reflexivity. }
  unfold mbatch in *. rewrite E. destruct (scan_spec _ _ c) as [rs c']. destruct H as [H1 ->]. cbn [fst snd]. rewrite H1.
  f_equal. f_equal. f_equal.
  apply nth_error_ext. intros i. destruct (lt_dec i N) as [Hi|Hi].
  - rewrite nth_error_map_seq by auto. rewrite nth_error_map.
    rewrite rotate_nth by (rewrite seq_length; auto). rewrite seq_length.
    assert (Hm : (r + i) mod N < N) by (apply Nat.mod_upper_bound; lia).
    rewrite nth_error_nth' with (d := 0) by (rewrite seq_length; auto). rewrite seq_nth by auto. cbn [option_map Nat.add].
    f_equal. f_equal. unfold row, rotate_data. rewrite map_map. apply map_ext_in. intros ka Hka. cbn [fst snd]. f_equal.
    rewrite rotate_nth; rewrite (Hd ka Hka); auto.
  - rewrite !(proj2 (nth_error_None _ _)); auto; rewrite map_length; rewrite ?rotate_length; rewrite seq_length; lia.
Qed.
