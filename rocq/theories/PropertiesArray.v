(** C60: announced and delivered arrays.
    Reading guide: an array ([nd]) is a dtype, a shape and its elements in row-major order;
    [format_of] is the list of (name, (dtype, shape)); [canonical x64] replaces 64 bit dtypes if
    jax_enable_x64 is off; [batch_array x64 cast a idx] is the array of the observations idx of a;
    [expected_batch] is the batch of a stream as arrays, with the mini-batch information. *)
From Coq Require Import String.
From Verif Require Import Base ListUtil NumpyLoader LoaderSpec DataCore DataSpec ArrayData ArraySpec ArrayProofs ArrayFinal GenInstance.

Section Arrays.
Context {G V : Type}.
Variable choice_repl : G -> nat -> nat -> G * list nat.
Variable choice_perm : G -> nat -> G * list nat.
Variable rng_of_seed : nat -> G.
Hypothesis Hperm : perm_oracle choice_perm.
Hypothesis Hrepl : repl_oracle choice_repl.
Variable x64 : bool.
Variable cast : dtype -> V -> V.
Variable zero : V.
Notation step := (@awstep G V choice_repl choice_perm rng_of_seed x64 cast).

(** every batch call of a data access succeeds and returns, for every array of the data set, the
    observations of its stream as one array of the converted elements, the mask, the number of
    observations of the data set and the batch size -- whatever the cache size and whatever else
    happens to the loader *)
Theorem C60_batches :
  forall (data : list (string * nd V)) l0 h1 w1 o1 o r mb ca w2 k h2,
  (forall ka, In ka data -> is_array (snd ka)) -> make_aloader data = Ok l0 ->
  run step (aw_init l0) h1 = (w1, o1) ->
  creates rng_of_seed (length (al_chains (aw_loader w1))) o r mb ca -> step w1 o = (w2, AwInit (Ok k)) ->
  no_loads h1 -> no_loads h2 -> hands_off (length (al_chains (aw_loader w1))) h2 ->
  abatch_answers k h2 (snd (run step w2 h2))
  = map (fun i => Ok (expected_batch choice_repl choice_perm x64 cast data (al_count l0) r i))
        (seq 0 (num_batches k h2)).
Proof. exact (@final_batches G V choice_repl choice_perm rng_of_seed Hperm Hrepl x64 cast). Qed.

(** hence a model that accepts the batch announced by initializer_batch(mb_size) accepts every
    batch: same names, dtypes and shapes *)
Theorem C60_same_format_as_initializer :
  forall (data : list (string * nd V)) l0 h1 w1 o1 o r mb ca w2 k h2,
  (forall ka, In ka data -> is_array (snd ka)) -> make_aloader data = Ok l0 ->
  run step (aw_init l0) h1 = (w1, o1) ->
  creates rng_of_seed (length (al_chains (aw_loader w1))) o r mb ca -> step w1 o = (w2, AwInit (Ok k)) ->
  no_loads h1 -> no_loads h2 -> hands_off (length (al_chains (aw_loader w1))) h2 ->
  forall answer, In answer (abatch_answers k h2 (snd (run step w2 h2))) ->
  exists b, answer = Ok b /\
    format_of (ab_data b) = format_of (initializer_batch x64 zero l0 (Some mb)) /\
    (forall ka, In ka (ab_data b) -> is_array (snd ka)) /\
    nd_struct (ab_mask b) = (DBool, [mb]) /\ length (nd_data (ab_mask b)) = mb /\
    ab_count b = al_count l0 /\ ab_size b = mb.
Proof.
  intros data l0 h1 w1 o1 o r mb ca w2 k h2 Hw Hm Hr Hcr Hs Hn1 Hn2 Hoff answer Hin.
  rewrite (@C60_batches data l0 h1 w1 o1 o r mb ca w2 k h2 Hw Hm Hr Hcr Hs Hn1 Hn2 Hoff) in Hin.
  apply in_map_iff in Hin. destruct Hin as (i & <- & _). eexists. split; [reflexivity|].
  destruct (@make_ok G V x64 cast data l0 Hm Hw) as (Ha & Hd & _ & _). rewrite Hd in Ha.
  destruct (@creates_accesses G V rng_of_seed x64 cast w1 o r mb ca Hcr) as (_ & Hmb).
  destruct (@make_ok G V x64 cast data l0 Hm Hw) as (Ha' & _ & Hch & _).
  pose proof (@run_sim G V choice_repl choice_perm rng_of_seed Hperm Hrepl x64 cast h1 (aw_init l0)
                (@init_inv G V choice_repl choice_perm x64 l0 Ha' Hch) Hn1) as Hsim.
  rewrite Hr in Hsim. destruct Hsim as (_ & I1 & La & _).
  destruct La as (L1 & _).
  assert (Hok : NumpyLoaderProofs.reg_ok (al_count l0) r).
  { cbn in L1. rewrite <- L1. destruct Hcr as [ca mb ie sh sd st|ca mb]; cbn [awstep] in Hs.
    - unfold a_random_init in Hs. destruct (Nat.ltb_spec (al_count (aw_loader w1)) mb); [discriminate|].
      destruct ((ca =? 0) || (mb =? 0)) eqn:Eb; [discriminate|]. apply Bool.orb_false_iff in Eb. destruct Eb as [_ Eb].
      apply Nat.eqb_neq in Eb. unfold NumpyLoaderProofs.reg_ok, reg_random. destruct ie; [|destruct sh]; simpl; lia.
    - unfold a_full_init in Hs. destruct (Nat.ltb_spec (al_count (aw_loader w1)) mb); [discriminate|].
      unfold NumpyLoaderProofs.reg_ok; simpl; lia. }
  destruct (@NumpyLoaderFinal.shape G choice_repl choice_perm Hperm Hrepl (al_count l0) r i Hok) as (S1 & S2 & S3).
  unfold expected_batch. destruct (spec_batch choice_repl choice_perm (al_count l0) r i) as [idx mask].
  cbn [fst snd] in *. cbn [ab_data ab_mask ab_count ab_size nd_struct nd_dtype nd_shape nd_data].
  rewrite Hmb in S1, S2. split; [|split; [|split; [|split; [|split]]]]; auto; try congruence.
  - unfold initializer_batch, obs_format, format_of. rewrite !map_map, Hd. apply map_ext. intros ka. unfold nd_struct, batch_array. cbn [fst snd nd_dtype nd_shape]. now rewrite S1.
  - intros ka Hin. apply in_map_iff in Hin. destruct Hin as (ka0 & <- & Hin). destruct (Ha ka0 Hin) as (Wa & sh & Hsh).
    unfold is_array, batch_array. cbn [snd nd_data nd_shape]. rewrite map_length, Hsh. cbn [tl prod fold_right]. fold (prod sh).
    clear - S3 Wa Hsh. induction S3 as [|i idx Hi _ IH]; [reflexivity|]. cbn [flat_map length]. rewrite app_length, IH.
    rewrite (nd_obs_len Hsh Wa Hi). reflexivity.
  - unfold nd_struct. cbn [nd_dtype nd_shape]. now rewrite S2.
Qed.

(** the direct answers of get_batches have the format that batch_format announces (with the dtypes
    jax uses), which is what the compiled callback requires *)
Theorem C60_get_batches :
  forall (data : list (string * nd V)) l0 h1 w1 o1 op ca mb w2 cid h2 w3 o3,
  (forall ka, In ka data -> is_array (snd ka)) -> make_aloader data = Ok l0 ->
  run step (aw_init l0) h1 = (w1, o1) -> no_loads h1 -> no_loads h2 ->
  (op = RegOrdered ca mb \/ exists ie sh sd, op = RegRandom ca mb ie sh sd) ->
  step w1 (WLoader op) = (w2, AwLoader (AId (Ok cid))) -> run step w2 h2 = (w3, o3) -> 0 < ca ->
  exists w4 d m, step w3 (WLoader (GetBatches cid)) = (w4, AwLoader (ABatch (Ok (d, m)))) /\
    format_of d = canonical_format x64 (batch_format l0 ca mb) /\ nd_struct m = (DBool, [ca; mb]) /\
    is_array m /\ (forall ka, In ka d -> is_array (snd ka)).
Proof. exact (@final_get G V choice_repl choice_perm rng_of_seed Hperm Hrepl x64 cast). Qed.

(** initializer_batch: for every array of the data set a zero array with the shape of mb
    observations (of one observation without an argument) and the dtype jax uses *)
Theorem C60_initializer_batch :
  forall (data : list (string * nd V)) l0 mb, make_aloader (G := G) data = Ok l0 ->
  length (initializer_batch x64 zero l0 mb) = length data /\
  forall j name a, nth_error data j = Some (name, a) -> exists b,
    nth_error (initializer_batch x64 zero l0 mb) j = Some (name, b) /\
    nd_dtype b = canonical x64 (nd_dtype a) /\
    nd_shape b = (match mb with Some m => [m] | None => [] end) ++ tl (nd_shape a) /\
    is_array b /\ forall v, In v (nd_data b) -> v = zero.
Proof.
  intros data l0 mb Hm.
  assert (Hd : al_data l0 = data).
  { unfold make_aloader in Hm. destruct (nd_lens data) as [[|n0 ns]|e]; cbn [bind] in Hm; [inversion Hm; reflexivity| |discriminate].
    destruct (existsb _ _); [discriminate|]. inversion Hm. reflexivity. }
  unfold initializer_batch, obs_format. rewrite Hd, !map_length. split; [reflexivity|].
  intros j name a Hj. rewrite !nth_error_map, Hj. cbn [option_map fst snd]. eexists. split; [reflexivity|].
  cbn [nd_dtype nd_shape nd_data]. split; [reflexivity|]. split; [destruct mb; reflexivity|]. split.
  - unfold is_array. cbn [nd_data nd_shape]. apply repeat_length.
  - intros v Hv. now apply repeat_spec in Hv.
Qed.

(** device loader: the random batches *)
Theorem C60_device :
  forall (data : list (string * nd V)) l0 K (split : K -> K * K) (randint : K -> nat -> nat -> list nat) mb key,
  (forall ka, In ka data -> is_array (snd ka)) -> make_device (G := G) x64 cast data = Ok l0 -> 0 < al_count l0 ->
  (forall k n m, 0 < m -> length (randint k n m) = n /\ Forall (fun i => i < m) (randint k n m)) ->
  exists b, a_device_batch split randint l0 mb key = Ok (fst (split key), b) /\
    ab_data b = map (fun ka => (fst ka, batch_array x64 cast (snd ka) (randint (snd (split key)) mb (al_count l0)))) data /\
    format_of (ab_data b) = format_of (initializer_batch x64 zero l0 (Some mb)) /\
    ab_mask b = mkNd DBool [mb] (repeat true mb) /\ ab_count b = al_count l0 /\ ab_size b = mb.
Proof.
  intros data l0 K split randint mb key Hw Hm HN Hri. unfold make_device in Hm.
  set (data' := map (fun ka => (fst ka, jnp_array x64 cast (snd ka))) data) in Hm.
  assert (Hw' : forall ka, In ka data' -> is_array (snd ka)).
  { intros ka Hin. apply in_map_iff in Hin. destruct Hin as (ka0 & <- & Hin). specialize (Hw ka0 Hin).
    unfold is_array, jnp_array in *. cbn [snd nd_data nd_shape]. now rewrite map_length. }
  destruct (@make_ok G V x64 cast data' l0 Hm Hw') as (Ha & Hd & _ & _).
  unfold a_device_batch. destruct (split key) as [key' sub]. cbn [fst snd].
  destruct (Hri sub mb (al_count l0) HN) as (Hl & Hi). set (idx := randint sub mb (al_count l0)) in *.
  assert (Ht : jax_tree_take (al_data l0) idx = Ok (map (fun ka => (fst ka, batch_array x64 cast (snd ka) idx)) data)).
  { rewrite Hd in Ha |- *. unfold data' in Ha |- *. clear Hm Hw' Hd. clearbody idx. clear data'.
    induction data as [|[k a] data IH]; [reflexivity|]. cbn [map jax_tree_take fst snd].
    destruct (Ha (k, jnp_array x64 cast a)) as (_ & sh & Hs); [left; reflexivity|]. cbn [snd] in Hs.
    unfold jax_take. rewrite Hs. destruct (al_count l0) as [|n] eqn:En; [lia|]. cbn [bind].
    rewrite IH; [|intros; apply Hw; right; assumption|intros ka Hka; apply Ha; right; assumption]. cbn [bind].
    f_equal. f_equal. f_equal. unfold batch_array, jnp_array. cbn [nd_dtype nd_shape] in *. f_equal; [change (nd_shape (jnp_array x64 cast a)) with (nd_shape a) in Hs; now rewrite Hs|].
    clear - Hi. induction Hi as [|i idx Hi _ IH]; [reflexivity|]. cbn [flat_map]. rewrite map_app, <- IH. f_equal.
    rewrite Nat.min_l by lia. unfold nd_obs. cbn [nd_shape nd_data]. apply slice_map. }
  rewrite Ht. cbn [bind]. eexists. split; [reflexivity|]. cbn [ab_data ab_mask ab_count ab_size].
  split; [reflexivity|]. split; [|auto].
  unfold initializer_batch, obs_format, format_of. rewrite Hd. unfold data'. rewrite !map_map. apply map_ext. intros ka.
  unfold nd_struct, batch_array, jnp_array. cbn [fst snd nd_dtype nd_shape]. rewrite Hl.
  assert (Hcc : canonical x64 (canonical x64 (nd_dtype (snd ka))) = canonical x64 (nd_dtype (snd ka))) by
    (unfold canonical; destruct x64, (nd_dtype (snd ka)); reflexivity).
  now rewrite Hcc.
Qed.
End Arrays.


(** ** Non-vacuity: a data set with two arrays (float64, shape (5, 2, 2), and int64, shape (5,)), two
    accesses with different caches and orders, interleaved calls. *)
Definition ex_x : nd nat := mkNd DFloat64 [5; 2; 2] (seq 100 20).
Definition ex_y : nd nat := mkNd DInt64 [5] [10; 11; 12; 13; 14].
Definition ex_data : list (string * nd nat) := [("x"%string, ex_x); ("y"%string, ex_y)].
Definition ex_cast (d : dtype) (v : nat) : nat := match d with DFloat32 => v + 1000 | _ => v end.
Definition ex_step := @awstep nat nat lin_repl rot_perm (fun s => s) false ex_cast.
Definition ex_l0 : aloader nat nat := match make_aloader ex_data with Ok l => l | Exc _ => mkAL 0 [] [] end.
Definition ex_h1 : list (wop nat) := [WRandom 2 3 false true (Some 1) true; WBatch 0; WLoader (RegOrdered 2 2)].
Definition ex_w1 := fst (run ex_step (aw_init ex_l0) ex_h1).
Definition ex_op : wop nat := WFull 3 2.
Definition ex_w2 := fst (ex_step ex_w1 ex_op).
Definition ex_h2 : list (wop nat) := [WBatch 1; WBatch 0; WBatch 1; WLoader (GetBatches 1); WBatch 1; WBatch 1; WBatch 0].

Example C60_nonvacuous :
  (forall ka, In ka ex_data -> is_array (snd ka)) /\ make_aloader ex_data = Ok ex_l0 /\
  run ex_step (aw_init ex_l0) ex_h1 = (ex_w1, snd (run ex_step (aw_init ex_l0) ex_h1)) /\
  creates (fun s => s) (length (al_chains (aw_loader ex_w1))) ex_op (ROrd 2) 2 3 /\
  ex_step ex_w1 ex_op = (ex_w2, AwInit (Ok 1)) /\ no_loads ex_h1 /\ no_loads ex_h2 /\
  hands_off (length (al_chains (aw_loader ex_w1))) ex_h2 /\
  abatch_answers 1 ex_h2 (snd (run ex_step ex_w2 ex_h2)) =
   [Ok (mkAB [("x"%string, mkNd DFloat32 [2; 2; 2] [1100; 1101; 1102; 1103; 1104; 1105; 1106; 1107]);
              ("y"%string, mkNd DInt32 [2] [10; 11])] 5 2 (mkNd DBool [2] [true; true]));
    Ok (mkAB [("x"%string, mkNd DFloat32 [2; 2; 2] [1108; 1109; 1110; 1111; 1112; 1113; 1114; 1115]);
              ("y"%string, mkNd DInt32 [2] [12; 13])] 5 2 (mkNd DBool [2] [true; true]));
    Ok (mkAB [("x"%string, mkNd DFloat32 [2; 2; 2] [1116; 1117; 1118; 1119; 1100; 1101; 1102; 1103]);
              ("y"%string, mkNd DInt32 [2] [14; 10])] 5 2 (mkNd DBool [2] [true; false]));
    Ok (mkAB [("x"%string, mkNd DFloat32 [2; 2; 2] [1100; 1101; 1102; 1103; 1104; 1105; 1106; 1107]);
              ("y"%string, mkNd DInt32 [2] [10; 11])] 5 2 (mkNd DBool [2] [true; true]))].
Proof.
  split; [intros ka [<- | [<- | []]]; reflexivity|]. split; [reflexivity|].
  split; [unfold ex_w1; destruct (run ex_step (aw_init ex_l0) ex_h1); reflexivity|].
  split; [constructor|]. split; [vm_compute; reflexivity|].
  split; [intros cid ck H; repeat (destruct H as [H|H]; [discriminate|]); exact H|].
  split; [intros cid ck H; repeat (destruct H as [H|H]; [discriminate|]); exact H|].
  split; [|vm_compute; reflexivity].
  intros op H. repeat (destruct H as [H|H]; [inversion H; subst op; split; [intros c E; inversion E; vm_compute; lia|discriminate] || discriminate|]).
  destruct H.
Qed.
Example C60_initializer_nonvacuous :
  initializer_batch false 0 ex_l0 (Some 2)
  = [("x"%string, mkNd DFloat32 [2; 2; 2] [0; 0; 0; 0; 0; 0; 0; 0]); ("y"%string, mkNd DInt32 [2] [0; 0])] /\
  initializer_batch true 0 ex_l0 None
  = [("x"%string, mkNd DFloat64 [2; 2] [0; 0; 0; 0]); ("y"%string, mkNd DInt64 [] [0])].
Proof. vm_compute. auto. Qed.
Example C60_device_nonvacuous :
  exists l0, make_device (G := nat) false ex_cast ex_data = Ok l0 /\ 0 < al_count l0 /\
  forall k n m, 0 < m -> length (map (fun i => (k + i) mod m) (seq 0 n)) = n /\
                Forall (fun i => i < m) (map (fun i => (k + i) mod m) (seq 0 n)).
Proof.
  eexists. split; [reflexivity|]. cbn. split; [lia|]. intros k n m Hm. split; [now rewrite map_length, seq_length|].
  apply Forall_forall. intros x Hx. apply in_map_iff in Hx. destruct Hx as (i & <- & _). apply Nat.mod_upper_bound. lia.
Qed.
