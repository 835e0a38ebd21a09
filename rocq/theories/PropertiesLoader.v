(** C01 - C08: data access through NumpyDataLoader.
    Reading guide: [run (lstep …) l h] executes a history h of public calls on loader l;
    [client_batches … i cid l h] is the list of (batch, mask) pairs that the get_batches(cid)
    calls in h deliver for the i-th data array; [valid] keeps the entries with mask True;
    [slice xs a b] is python's xs[a:b]; [perm_oracle]/[repl_oracle] state what numpy documents about
    Generator.choice (LoaderSpec.v). *)
From Verif Require Import Base NumpyLoader LoaderSpec NumpyLoaderFinal GenInstance.
From Coq Require String.

Section Loader.
Context {G obs : Type}.
Variable choice_repl : G -> nat -> nat -> G * list nat.
Variable choice_perm : G -> nat -> G * list nat.
Variable rng_of_seed : nat -> G.
Hypothesis Hperm : perm_oracle choice_perm.
Hypothesis Hrepl : repl_oracle choice_repl.
Notation step := (lstep choice_repl choice_perm rng_of_seed).
Notation client := (client_batches choice_repl choice_perm rng_of_seed).

(** C01: history h1, then an ordered chain, then any history h2: every complete group of
    ceil(N/mb) batches of the chain contains array [a] itself, in order; masks as documented. *)
Theorem C01_ordered_pass :
  forall (data : list (String.string * list obs)) l0 h1 l1 o1 cache mb l2 cid h2 i name a,
  make_loader data = Ok l0 -> run step l0 h1 = (l1, o1) -> 0 < mb ->
  register_ordered l1 cache mb = (l2, Ok cid) -> no_load cid h2 -> nth_error data i = Some (name, a) ->
  let bs := client i cid l2 h2 in
  let C := ceil_div (length a) mb in
  length bs = num_gets cid h2 * cache /\
  (forall e, (e + 1) * C <= length bs -> concat (map valid (slice bs (e * C) ((e + 1) * C))) = a) /\
  (forall k b, nth_error bs k = Some b -> length (fst b) = mb /\ snd b = padded_mask (length a) mb k).
Proof. exact (@final_ordered G obs choice_repl choice_perm rng_of_seed Hperm Hrepl). Qed.

(** C02: the drawn observations are a concatenation of permutations of the data set. *)
Theorem C02_shuffle_is_concatenation_of_permutations :
  forall (data : list (String.string * list obs)) l0 h1 l1 o1 cache mb seed l2 cid h2 i name a,
  make_loader data = Ok l0 -> run step l0 h1 = (l1, o1) ->
  register_random rng_of_seed l1 cache mb false true seed = (l2, Ok cid) -> no_load cid h2 ->
  nth_error data i = Some (name, a) ->
  let bs := client i cid l2 h2 in
  let drawn := concat (map fst bs) in
  length bs = num_gets cid h2 * cache /\ length drawn = length bs * mb /\
  (forall e, (e + 1) * length a <= length drawn ->
     Permutation (slice drawn (e * length a) ((e + 1) * length a)) a) /\
  (forall k b, nth_error bs k = Some b -> length (fst b) = mb /\ snd b = repeat true mb).
Proof. exact (@final_shuffle G obs choice_repl choice_perm rng_of_seed Hperm Hrepl). Qed.

(** C03: in-epoch shuffling. *)
Theorem C03_in_epochs :
  forall (data : list (String.string * list obs)) l0 h1 l1 o1 cache mb seed l2 cid h2 i name a,
  make_loader data = Ok l0 -> run step l0 h1 = (l1, o1) ->
  register_random rng_of_seed l1 cache mb true true seed = (l2, Ok cid) -> no_load cid h2 ->
  nth_error data i = Some (name, a) ->
  let bs := client i cid l2 h2 in
  let C := ceil_div (length a) mb in
  length bs = num_gets cid h2 * cache /\
  (forall e, (e + 1) * C <= length bs ->
     Permutation (concat (map valid (slice bs (e * C) ((e + 1) * C)))) a) /\
  (forall k b, nth_error bs k = Some b -> length (fst b) = mb /\ snd b = padded_mask (length a) mb k).
Proof. exact (@final_epochs G obs choice_repl choice_perm rng_of_seed Hperm Hrepl). Qed.

(** C04: every random mode delivers full batches of existing observations, and all arrays of the
    data set are indexed consistently (the same observations for every array). *)
Theorem C04_full_aligned_batches :
  forall (data : list (String.string * list obs)) l0 h1 l1 o1 cache mb in_epochs shuffle seed l2 cid h2,
  make_loader data = Ok l0 -> run step l0 h1 = (l1, o1) ->
  register_random rng_of_seed l1 cache mb in_epochs shuffle seed = (l2, Ok cid) -> no_load cid h2 ->
  exists (idx : nat -> list nat) (mask : nat -> list bool),
   (forall k, length (idx k) = mb /\ length (mask k) = mb /\ Forall (fun j => j < l_count l0) (idx k)) /\
   (in_epochs = false -> forall k, mask k = repeat true mb) /\
   (forall i name a, nth_error data i = Some (name, a) ->
      length a = l_count l0 /\
      client i cid l2 h2 = map (fun k => (select a (idx k), mask k)) (seq 0 (num_gets cid h2 * cache))).
Proof. exact (@final_aligned G obs choice_repl choice_perm rng_of_seed Hperm Hrepl). Qed.

(** C05: the k-th batch does not depend on the cache size (nor on anything else than data, batch
    size, mode and seed), random and ordered chains. *)
Theorem C05_cache_size_irrelevant_random :
  forall (data : list (String.string * list obs)) l0
    h1 l1 o1 cache mb in_epochs shuffle seed l2 cid h2
    h1' l1' o1' cache' l2' cid' h2' i k,
  make_loader data = Ok l0 ->
  run step l0 h1 = (l1, o1) ->
  register_random rng_of_seed l1 cache mb in_epochs shuffle (Some seed) = (l2, Ok cid) -> no_load cid h2 ->
  run step l0 h1' = (l1', o1') ->
  register_random rng_of_seed l1' cache' mb in_epochs shuffle (Some seed) = (l2', Ok cid') -> no_load cid' h2' ->
  k < length (client i cid l2 h2) -> k < length (client i cid' l2' h2') ->
  nth_error (client i cid l2 h2) k = nth_error (client i cid' l2' h2') k.
Proof. exact (@final_reproducible G obs choice_repl choice_perm rng_of_seed Hperm Hrepl). Qed.

Theorem C05_cache_size_irrelevant_ordered :
  forall (data : list (String.string * list obs)) l0
    h1 l1 o1 cache mb l2 cid h2 h1' l1' o1' cache' l2' cid' h2' i k,
  make_loader data = Ok l0 ->
  run step l0 h1 = (l1, o1) -> register_ordered l1 cache mb = (l2, Ok cid) -> no_load cid h2 ->
  run step l0 h1' = (l1', o1') -> register_ordered l1' cache' mb = (l2', Ok cid') -> no_load cid' h2' ->
  k < length (client i cid l2 h2) -> k < length (client i cid' l2' h2') ->
  nth_error (client i cid l2 h2) k = nth_error (client i cid' l2' h2') k.
Proof. exact (@final_cache_ordered G obs choice_repl choice_perm rng_of_seed Hperm Hrepl). Qed.

(** C06: whatever happened before and whatever else happens in between, the answers to the
    get_batches calls of a chain are given by the closed formula [chain_output], i.e. by data,
    registration arguments and the number of the call. *)
Theorem C06_chain_isolation :
  forall (data : list (String.string * list obs)) l0 h1 l1 o1 cache r l2 cid h2,
  make_loader data = Ok l0 -> run step l0 h1 = (l1, o1) ->
  registered rng_of_seed l1 cache r l2 cid -> no_load cid h2 ->
  cid = length (l_chains l1) /\
  gets cid h2 (snd (run step l2 h2))
  = map (chain_output choice_repl choice_perm data (l_count l0) r cache) (seq 0 (num_gets cid h2)).
Proof. exact (@final_isolation G obs choice_repl choice_perm rng_of_seed Hperm Hrepl). Qed.

(** C07: save, do anything, load: the chain continues as if nothing had happened in between and
    the other chains are not affected.  (The checkpoint dictionary is emptied: [None].) *)
Theorem C07_checkpoint_restores_partial :
  forall (data : list (String.string * list obs)) l0 h0 l o0 cid ck h1 l1 o1,
  make_loader data = Ok l0 -> run step l0 h0 = (l, o0) -> loads_wf h0 ->
  save_state l cid = Ok ck -> run step l h1 = (l1, o1) ->
  exists l2, load_state l1 cid (Some ck) = ((l2, None), Ok tt) /\
    (forall h, gets cid h (snd (run step l2 h)) = gets cid h (snd (run step l h))) /\
    (forall j, j <> cid -> j < length (l_chains l1) ->
       forall h, gets j h (snd (run step l2 h)) = gets j h (snd (run step l1 h))).
Proof. exact (@final_checkpoint G obs choice_repl choice_perm rng_of_seed). Qed.

(** C08: exact admissibility of registrations and of the data. *)
Theorem C08_register_random :
  forall (l : loader G obs) cache mb in_epochs shuffle seed,
  let N := l_count l in
  ((exists l' cid, register_random rng_of_seed l cache mb in_epochs shuffle seed = (l', Ok cid)) <->
     (0 < mb <= N /\ (in_epochs = true -> shuffle = true))) /\
  (N < mb \/ (in_epochs = true /\ shuffle = false) ->
     register_random rng_of_seed l cache mb in_epochs shuffle seed = (l, Exc ValueError)) /\
  (mb = 0 -> (in_epochs = true -> shuffle = true) ->
     register_random rng_of_seed l cache mb in_epochs shuffle seed = (l, Exc ZeroDivisionError)) /\
  (forall (l' : loader G obs) cid,
     register_random rng_of_seed l cache mb in_epochs shuffle seed = (l', Ok cid) ->
     cid = length (l_chains l) /\ length (l_chains l') = S cid /\
     forall j, j < cid -> nth_error (l_chains l') j = nth_error (l_chains l) j).
Proof.
  intros l cache mb in_epochs shuffle seed N. destruct (@final_register G obs rng_of_seed l cache mb in_epochs shuffle seed) as (H1 & H2 & H3).
  split; [exact H1|]. split; [exact H2|]. split; [|exact H3]. intros -> Hs. unfold register_random. replace (l_count l <? 0) with false by (symmetry; apply Nat.ltb_ge; lia).
  destruct in_epochs; [rewrite (Hs eq_refl)|destruct shuffle]; reflexivity.
Qed.

Theorem C08_register_ordered :
  forall (l : loader G obs) cache mb,
  ((exists l' cid, register_ordered l cache mb = (l', Ok cid)) <-> mb <= l_count l) /\
  (l_count l < mb -> register_ordered l cache mb = (l, Exc AssertionError)) /\
  (forall l' cid, register_ordered l cache mb = (l', Ok cid) ->
     cid = length (l_chains l) /\ length (l_chains l') = S cid /\
     forall j, j < cid -> nth_error (l_chains l') j = nth_error (l_chains l) j).
Proof. exact (@final_register_ordered G obs rng_of_seed). Qed.

Theorem C08_construction :
  forall data : list (String.string * list obs),
  ((exists N, forall ka, In ka data -> length (snd ka) = N) ->
     exists l : loader G obs, make_loader data = Ok l /\ l_chains l = [] /\
        (forall ka, In ka data -> length (snd ka) = l_count l)) /\
  (~ (exists N, forall ka, In ka data -> length (snd ka) = N) ->
     make_loader (G := G) data = Exc ValueError).
Proof. exact (@final_construct G obs). Qed.
End Loader.

Print Assumptions C01_ordered_pass.
Print Assumptions C02_shuffle_is_concatenation_of_permutations.
Print Assumptions C03_in_epochs.
Print Assumptions C04_full_aligned_batches.
Print Assumptions C05_cache_size_irrelevant_random.
Print Assumptions C05_cache_size_irrelevant_ordered.
Print Assumptions C06_chain_isolation.
Print Assumptions C07_checkpoint_restores_partial.
Print Assumptions C08_register_random.
Print Assumptions C08_register_ordered.
Print Assumptions C08_construction.

(** C07, the part that fails: the second load_state with the same checkpoint dictionary raises
    KeyError because [data.popitem()] (numpy_loader.py:220) emptied it. *)
Theorem C07_checkpoint_reusable_refuted :
  exists (l : loader nat nat) cid ck l1 dict1,
    save_state l cid = Ok ck /\
    load_state l cid (Some ck) = ((l1, dict1), Ok tt) /\
    snd (load_state l1 cid dict1) = Exc KeyError.
Proof.
  exists (mkLoader 3 [] [new_ordered_chain 1 2]), 0, (CkOrdered (Some 0)).
  eexists. eexists. repeat split.
Qed.
Print Assumptions C07_checkpoint_reusable_refuted.

(** ** Non-vacuity: a concrete loader with two arrays of 5 observations, another chain interleaved,
    runs through the model with a generator that satisfies the oracle assumptions. *)
Section Witness.
Import String.
Local Open Scope string_scope.
Definition w_data : list (string * list nat) := [("x", [10;11;12;13;14]); ("y", [20;21;22;23;24])].
Definition w_step' : loader nat nat -> lop nat -> loader nat nat * lout nat :=
  lstep lin_repl rot_perm (fun s => s).
Definition w_l0 : loader nat nat := match make_loader w_data with Ok l => l | Exc _ => mkLoader 0 [] [] end.
Definition w_h1 : list (lop nat) := [RegRandom 1 2 false false None; GetBatches 0].
Definition w_h2 : list (lop nat) := [GetBatches 1; GetBatches 0; GetBatches 1; RegOrdered 1 1; GetBatches 1].
Definition w_l1 := fst (run w_step' w_l0 w_h1).

Example W_construct : make_loader w_data = Ok w_l0. Proof. reflexivity. Qed.
Example W_no_load : no_load 1 w_h2.
Proof. unfold w_h2. intros ck H. repeat (destruct H as [H|H]; [discriminate H|]). destruct H. Qed.
Example W_perm : perm_oracle rot_perm. Proof. exact rot_perm_oracle. Qed.
Example W_repl : repl_oracle lin_repl. Proof. exact lin_repl_oracle. Qed.
Example W_ordered_registers : snd (register_ordered w_l1 2 2) = Ok 1. Proof. reflexivity. Qed.
Example W_ordered_batches :
  client_batches lin_repl rot_perm (fun s => s) 1 1 (fst (register_ordered w_l1 2 2)) w_h2
  = [([20;21],[true;true]); ([22;23],[true;true]); ([24;20],[true;false]);
     ([20;21],[true;true]); ([22;23],[true;true]); ([24;20],[true;false])].
Proof. reflexivity. Qed.
Example W_shuffle_batches :
  client_batches lin_repl rot_perm (fun s => s) 0 1
    (fst (register_random (fun s => s) w_l1 2 2 false true (Some 3))) w_h2
  = [([13;14],[true;true]); ([10;11],[true;true]); ([12;14],[true;true]);
     ([10;11],[true;true]); ([12;13],[true;true]); ([10;11],[true;true])].
Proof. vm_compute. reflexivity. Qed.
Example W_epoch_batches :
  client_batches lin_repl rot_perm (fun s => s) 0 1
    (fst (register_random (fun s => s) w_l1 2 2 true true (Some 3))) w_h2
  = [([13;14],[true;true]); ([10;11],[true;true]); ([12;10],[true;false]);
     ([14;10],[true;true]); ([11;12],[true;true]); ([13;10],[true;false])].
Proof. vm_compute. reflexivity. Qed.
Example W_save : exists ck, save_state w_l1 0 = Ok ck. Proof. eexists. vm_compute. reflexivity. Qed.
End Witness.
