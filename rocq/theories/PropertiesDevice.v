(** C11, C15, C16, C50: device data access, HDF5 loader, tokens, argument checks. *)
From Verif Require Import Base NumpyLoader LoaderSpec DataCore DataSpec Hdf5Loader DeviceData DeviceDataProofs Uuid GenInstance.
From Coq Require String.
From Coq Require Import ZArith.

(** C11, what holds: with the batch size bs that is really used, the k-th of any number of successive maps is a
    pass over the data rotated by r k; r is 0 for the first map without offset, and always if bs divides N. *)
Theorem C11_device_map_partial :
  forall C R obs (data : list (String.string * list obs)) N ca mb bs offset line,
  0 < N -> (forall ka, In ka data -> length (snd ka) = N) ->
  dev_full N ca mb = Ok bs -> dev_init N offset = Ok line ->
  exists (r : nat -> nat) (pass : nat -> list (mbatch obs)),
  r 0 = offset /\
  (forall k, is_pass (rotate_data data (r k)) N bs (pass k)) /\
  (offset = 0 -> N mod bs = 0 -> forall k, r k = 0) /\
  forall jobs : list ((mbatch obs -> list bool -> C -> R * C) * C),
    dev_maps data N bs line jobs
    = map (fun kj => let '(k, (fn, c)) := kj in
             Ok (scan_spec (fun b c => fn (fst b, repeat true bs) (snd b) c) (pass k) c))
          (combine (seq 0 (length jobs)) jobs).
Proof. exact final_device_rotation. Qed.

(** the rotated data contain every observation exactly once *)
Theorem C11_rotation_is_permutation :
  forall obs (a : list obs) r, Permutation (rotate a r) a /\ rotate a 0 = a.
Proof. intros. split; [apply rotate_perm|apply rotate_0]. Qed.

(** per-observation results of a map that starts at position r *)
Theorem C11_device_results_partial :
  forall C R obs (data : list (String.string * list obs)) N bs r (g : list (String.string * option obs) -> R) (c : C),
  0 < N -> 0 < bs -> (forall ka, In ka data -> length (snd ka) = N) -> r < N ->
  dev_map_unmasked data N (fun b c => pointwise g bs b c) bs r c
  = Ok ((r + ceil_div N bs * bs) mod N, (map (fun j => g (row data j)) (rotate (seq 0 N) r), c)).
Proof. exact final_device_unmasked. Qed.

(** C11, what fails (1): on the second pass the results are in another order than the observations *)
Theorem C11_later_pass_in_order_refuted :
  exists (data : list (String.string * list nat)) N ca mb bs line1 line2,
    dev_full N ca mb = Ok bs /\ dev_init N 0 = Ok line1 /\
    let f := fun (b : mbatch nat) (_ : unit) => pointwise (fun r => match r with (_, Some x) :: _ => x | _ => 0 end) bs b tt in
    dev_map_unmasked data N f bs line1 tt = Ok (line2, ([7; 8; 9], tt)) /\
    exists line3, dev_map_unmasked data N f bs line2 tt = Ok (line3, ([8; 9; 7], tt)).
Proof.
  exists [(String.EmptyString, [7; 8; 9])], 3, 2, 2, 2, 0, 1. vm_compute. repeat split. exists 2. reflexivity.
Qed.
(** (2): batches have cached_batches_count observations, not mb_size *)
Theorem C11_batch_size_refuted :
  exists N ca mb bs, dev_full N ca mb = Ok bs /\ bs <> mb.
Proof. exists 10, 5, 2, 5. split; [reflexivity|discriminate]. Qed.

(** random device batches: mb existing observations, the same for all arrays, all valid *)
Theorem C04_device_random_batches :
  forall (obs K : Type) (split : K -> K * K) (randint : K -> nat -> nat -> list nat),
  (forall k n m, length (randint k n m) = n /\ (0 < m -> Forall (fun i => i < m) (randint k n m))) ->
  forall (data : list (String.string * list obs)) N mb n key,
  0 < N -> (forall ka, In ka data -> length (snd ka) = N) ->
  exists idx : nat -> list nat,
  (forall i, length (idx i) = mb /\ Forall (fun j => j < N) (idx i)) /\
  dev_random_batches data N split randint mb n key
  = Ok (map (fun i => (map (fun ka => (fst ka, select (snd ka) (idx i))) data, repeat true mb)) (seq 0 n)).
Proof. exact (@final_device_random). Qed.

(** C15: reading through unique, sorted indices and restoring = direct selection, for any index list *)
Theorem C15_restore : forall A (dataset : list A) idx, h5_batch dataset idx = gather dataset idx.
Proof. exact (@h5_batch_ok unit (fun g _ _ => (g, [])) (fun g _ => (g, [])) (fun _ => tt)). Qed.
(** hence the HDF5 loader delivers what a NumpyDataLoader with the stored data delivers, for every
    history of registrations and batch requests *)
Theorem C15_hdf5_loader_is_numpy_loader :
  forall (G obs : Type) choice_repl choice_perm (rng_of_seed : nat -> G) h,
  (forall cid ck, ~ In (LoadState cid ck) h) -> forall l : loader G obs,
  run (h5_step choice_repl choice_perm rng_of_seed) l h = run (lstep choice_repl choice_perm rng_of_seed) l h.
Proof. exact (@h5_run_ok). Qed.

(** C16 *)
Theorem C16_uuid_roundtrip :
  forall u, (0 <= u < 2 ^ 128)%Z ->
  length (to_words u) = 4 /\ Forall word (to_words u) /\ as_uuid (to_words u) = Ok u /\
  (let* ints := tree_unflatten (tree_flatten (to_words u)) in as_uuid ints) = Ok u.
Proof.
  intros u Hu. destruct (final_uuid_roundtrip Hu) as (H1 & H2 & H3). split; [exact H1|]. split; [exact H2|]. split; [exact H3|].
  exact H3.
Qed.
Theorem C16_uuid_injective :
  forall ws ws', length ws = 4 -> length ws' = 4 -> Forall word ws -> Forall word ws' ->
  (as_uuid ws = as_uuid ws' <-> ws = ws').
Proof. exact final_uuid_injective. Qed.

(** C50 *)
Theorem C50_random_reference_data_sizes :
  forall kind N ca mb, kind <> OtherKind ->
  (check_random kind N ca mb = Ok tt <->
     (mb <= N /\ 0 < ca /\ 0 < mb /\ (kind = DeviceKind -> ca = 1))%Z) /\
  (check_random kind N ca mb = Ok tt \/ check_random kind N ca mb = Exc ValueError).
Proof. exact final_check_random. Qed.

Print Assumptions C11_device_map_partial.
Print Assumptions C11_device_results_partial.
Print Assumptions C04_device_random_batches.
Print Assumptions C15_restore.
Print Assumptions C15_hdf5_loader_is_numpy_loader.
Print Assumptions C16_uuid_roundtrip.
Print Assumptions C16_uuid_injective.
Print Assumptions C50_random_reference_data_sizes.

(** ** Non-vacuity *)
Example W11 : dev_full 5 2 3 = Ok 2 /\ dev_init 5 4 = Ok 4 /\ dev_init 5 5 = Exc ValueError. Proof. repeat split. Qed.
Example W15 : h5_batch [10; 11; 12; 13; 14] [3; 1; 3; 0] = Ok [13; 11; 13; 10]. Proof. reflexivity. Qed.
Example W15_unique : np_unique_inverse [3; 1; 3; 0] = ([0; 1; 3], [2; 1; 2; 0]). Proof. reflexivity. Qed.
Example W15_h5py_needs_sorted : h5_read [10; 11; 12; 13] [3; 1] = Exc TypeError. Proof. reflexivity. Qed.
Example W16 : to_words 0x0123456789abcdef00000000deadbeef = [0xdeadbeef; 0; 0x89abcdef; 0x01234567]%Z.
Proof. reflexivity. Qed.
(** the sign is dropped: words must be unsigned *)
Example W16_signed_words_collide : as_uuid [1; 0; 0; 0]%Z = as_uuid [-1; 0; 0; 0]%Z. Proof. vm_compute. reflexivity. Qed.
Example W50 : check_random DeviceKind 10 1 10 = Ok tt /\ check_random HostKind 10 3 11 = Exc ValueError. Proof. split; reflexivity. Qed.
