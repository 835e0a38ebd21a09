(** C09, C10, C12, C13, C14: jit-compatible data access (data/core.py) on host loaders.
    Reading guide: [run wstep (w_init l) h] executes any history h of creating data accesses, drawing
    batches through them and direct loader calls; [wouts k h outs] are the answers to the batch
    calls of access k; [hands_off c h]: nobody calls the loader directly for chain c in h. *)
From Verif Require Import Base NumpyLoader Requests RequestsSpec RequestsProofs RequestsHist LoaderSpec
  DataCore DataSpec DataFinal FullMapper FullMapperSpec FullMapperProofs GenInstance.
From Coq Require String.

Section Data.
Context {G obs : Type}.
Variable choice_repl : G -> nat -> nat -> G * list nat.
Variable choice_perm : G -> nat -> G * list nat.
Variable rng_of_seed : nat -> G.
Hypothesis Hperm : perm_oracle choice_perm.
Hypothesis Hrepl : repl_oracle choice_repl.
Notation step := (@DataCore.wstep G obs choice_repl choice_perm rng_of_seed).

(** C09: the batch calls of an access deliver batch 0, 1, 2, ... of the chain, whatever the cache
    size and whatever other programs do in between. *)
Theorem C09_batch_stream :
  forall (data : list (String.string * list obs)) l0 h1 w1 o1 o r ca w2 k h2,
  make_loader data = Ok l0 -> run step (w_init l0) h1 = (w1, o1) ->
  accesses w1 rng_of_seed o r ca -> step w1 o = (w2, WoInit (Ok k)) ->
  hands_off (length (l_chains (w_loader w1))) h2 ->
  wouts k h2 (snd (run step w2 h2))
  = map (fun i => Ok (access_batch choice_repl choice_perm data (l_count l0) r i)) (seq 0 (num_batches k h2)).
Proof. exact (@final_access G obs choice_repl choice_perm rng_of_seed Hperm Hrepl). Qed.

(** the same stream that a client calling get_batches directly sees *)
Theorem C09_same_as_direct_client :
  forall (data : list (String.string * list obs)) l0 h1 w1 o1 o r ca w2 k h2,
  make_loader data = Ok l0 -> run step (w_init l0) h1 = (w1, o1) ->
  accesses w1 rng_of_seed o r ca -> step w1 o = (w2, WoInit (Ok k)) ->
  hands_off (length (l_chains (w_loader w1))) h2 ->
  forall l lreg cid m i name a, make_loader data = Ok l -> registered rng_of_seed l ca r lreg cid ->
  num_batches k h2 <= m * ca -> nth_error data i = Some (name, a) ->
  map (array_batch i) (wouts k h2 (snd (run step w2 h2)))
  = map Some (firstn (num_batches k h2)
      (client_batches choice_repl choice_perm rng_of_seed i cid lreg (repeat (GetBatches cid) m))).
Proof. exact (@final_access_direct G obs choice_repl choice_perm rng_of_seed Hperm Hrepl). Qed.

(** C10: masked maps: each of any number of successive maps is the left-to-right scan of the function over one
    pass over the data; the mask handed to the function is the mask of the batch. *)
Theorem C10_full_map :
  forall C R (data : list (String.string * list obs)) l0 h1 w1 o1 ca mb w2 k,
  make_loader data = Ok l0 -> run step (w_init l0) h1 = (w1, o1) ->
  step w1 (WFull ca mb) = (w2, WoInit (Ok k)) ->
  exists bs, is_pass data (l_count l0) mb bs /\
  forall jobs : list (mapjob (G := G) (obs := obs) (C := C) (R := R)),
   (forall fn c env, In (fn, c, env) jobs ->
      forall i, hands_off (length (l_chains (w_loader w1))) (env i) /\ not_used k (env i)) ->
   snd (run_maps choice_repl choice_perm rng_of_seed k (l_count l0) mb w2 jobs)
   = map (fun job => let '(fn, c, _) := job in Ok (scan_spec (fun b c => fn b (snd b) c) bs c)) jobs.
Proof. exact (@final_full_map G obs choice_repl choice_perm rng_of_seed Hperm Hrepl). Qed.

(** unmasked maps, after any number of earlier maps *)
Theorem C10_full_map_unmasked :
  forall C R (data : list (String.string * list obs)) l0 h1 w1 o1 ca mb w2 k,
  make_loader data = Ok l0 -> run step (w_init l0) h1 = (w1, o1) ->
  step w1 (WFull ca mb) = (w2, WoInit (Ok k)) ->
  forall (jobs : list (mapjob (G := G) (obs := obs) (C := C) (R := R))) w3 outs fn c env,
   (forall fn c env, In (fn, c, env) jobs ->
      forall i, hands_off (length (l_chains (w_loader w1))) (env i) /\ not_used k (env i)) ->
   run_maps choice_repl choice_perm rng_of_seed k (l_count l0) mb w2 jobs = (w3, outs) ->
   (forall i, hands_off (length (l_chains (w_loader w1))) (env i) /\ not_used k (env i)) ->
   exists bs, is_pass data (l_count l0) mb bs /\
   snd (map_unmasked (C := C) (R := R) choice_repl choice_perm rng_of_seed fn k (l_count l0) mb env w3 c)
   = let (rs, c') := scan_spec fn bs c in Ok (slice (concat rs) 0 (l_count l0), c').
Proof. exact (@final_full_map_unmasked G obs choice_repl choice_perm rng_of_seed Hperm Hrepl). Qed.
End Data.

(** C10, consequences of being a pass: a function applied observation by observation returns, after
    truncation, its value at observations 0..N-1; a masked reduction folds the observations in order. *)
Theorem C10_pointwise_results :
  forall (obs : Type) (data : list (String.string * list obs)) N mb bs, is_pass data N mb bs -> 0 < mb ->
  forall R C (g : list (String.string * option obs) -> R) (c : C), 0 < N ->
  let (rs, c') := scan_spec (fun b c => pointwise g mb b c) bs c in
  slice (concat rs) 0 N = map (fun j => g (row data j)) (seq 0 N) /\ c' = c.
Proof. exact (@pass_pointwise). Qed.
Theorem C10_reduction :
  forall (obs : Type) (data : list (String.string * list obs)) N mb bs, is_pass data N mb bs -> 0 < mb ->
  forall C (op : C -> list (String.string * option obs) -> C) (c : C), 0 < N ->
  snd (scan_spec (fun b c => reduction op mb b (snd b) c) bs c)
  = fold_left (fun c j => op c (row data j)) (seq 0 N) c.
Proof. exact (@pass_reduction). Qed.

(** C10 + C14: full_data_mapper used by any number of concurrent callers, with arbitrary
    interleaving of their host interactions, each other use of the loader included. *)
Section Mapper.
Context {G obs C R : Type}.
Variable choice_repl : G -> nat -> nat -> G * list nat.
Variable choice_perm : G -> nat -> G * list nat.
Variable rng_of_seed : nat -> G.
Hypothesis Hperm : perm_oracle choice_perm.
Hypothesis Hrepl : repl_oracle choice_repl.
Notation wstep := (@DataCore.wstep G obs choice_repl choice_perm rng_of_seed).
Notation mstep := (@FullMapper.mstep G obs C R choice_repl choice_perm rng_of_seed).

(** results are those of a pass; running maps use pairwise different caches; before release a map can
    always start, proceed and finish; after release no map can start *)
Theorem C14_concurrent_maps :
  forall (data : list (String.string * list obs)) l0 h1 w1 o1 ca mb (m m' : mapper G obs C R) h outs,
  make_loader data = Ok l0 -> run wstep (w_init l0) h1 = (w1, o1) ->
  make_mapper choice_repl choice_perm ca mb w1 = Ok m ->
  all_polite (mstep ca mb) m h -> run (mstep ca mb) m h = (m', outs) ->
  (exists bs, is_pass data (l_count l0) mb bs /\
     forall i v, nth_error outs i = Some (MoFinish (Ok v)) ->
       exists j fn c, nth_error h i = Some (MFinish j) /\ nth_error (started h outs) j = Some (fn, c) /\
         v = scan_spec (fun b c => fn b (snd b) c) bs c) /\
  NoDup (active_chains m') /\
  (~ In MRelease h -> NoDup (held_chains m') /\
     (forall fn c, snd (mstep ca mb m' (MStart fn c)) = MoStart (Ok (length (started h outs)))) /\
     (forall j rn, nth_error (m_run m') j = Some (Some rn) ->
        (rn_it rn < ceil_div (l_count l0) mb -> snd (mstep ca mb m' (MIter j)) = MoIter (Ok tt)) /\
        (rn_it rn = ceil_div (l_count l0) mb -> exists v, snd (mstep ca mb m' (MFinish j)) = MoFinish (Ok v)))) /\
  (In MRelease h -> forall fn c, snd (mstep ca mb m' (MStart fn c)) = MoStart (Exc TypeError)).
Proof. exact (@final_mapper G obs C R choice_repl choice_perm rng_of_seed Hperm Hrepl). Qed.

(** returned caches are used again: if fewer maps run than caches were created (m_tok), starting a map
    registers no new chain *)
Theorem C14_caches_reused :
  forall (data : list (String.string * list obs)) l0 h1 w1 o1 ca mb (m m' : mapper G obs C R) h outs fn c,
  make_loader data = Ok l0 -> run wstep (w_init l0) h1 = (w1, o1) ->
  make_mapper choice_repl choice_perm ca mb w1 = Ok m ->
  all_polite (mstep ca mb) m h -> ~ In MRelease h -> run (mstep ca mb) m h = (m', outs) ->
  length (active_chains m') < m_tok m' ->
  l_chains (w_loader (m_world (fst (mstep ca mb m' (MStart fn c))))) = l_chains (w_loader (m_world m')).
Proof. exact (@final_pool_reuse G obs C R choice_repl choice_perm rng_of_seed Hperm Hrepl). Qed.
End Mapper.

(** C12: d replicas of any number of chains, each presenting its own latest token, in any order. *)
Theorem C12_replicas :
  forall (D : Type) (stream : nat -> nat -> D) d, 0 < d -> forall strict sched,
  Forall (fun ji => snd ji < d) sched ->
  let (s, outs) := run (sys_step stream d strict) (sys_init (D := D)) sched in
  Forall (fun o => exists x, o = Ok x) outs /\
  (forall j i, i < d -> y_log s j i = map (stream j) (seq 0 (count j i sched))) /\
  (forall j, r_loader (y_req s) j = max_count d j sched) /\
  (forall j i i', i < d -> i' < d -> count j i sched = count j i' sched -> y_tok s j i = y_tok s j i') /\
  ((forall j i i', i < d -> i' < d -> count j i sched = count j i' sched) -> r_cached (y_req s) = []).
Proof. exact (@replicas_ok). Qed.

(** C13: after any history of requests with any tokens (traces newest first, RequestsHist.v): a token
    with outstanding replicas gets the same answer again without advancing the loader; otherwise a
    request is served iff the chain has no expected token yet or the token is the expected one; an
    outdated token raises RuntimeError and changes nothing. *)
Theorem C13_outdated_token_partial :
  forall (L D : Type) (ld_get : L -> nat -> L * res D) d, 0 < d ->
  forall (strict : bool) l h s outs c t,
  run (req_step ld_get d strict) (requests_init l) h = (s, outs) ->
  let tr := trace h outs in
  let '(s', o) := req_step ld_get d strict s (c, t) in
  let served := r_loader s' = fst (ld_get (r_loader s) c) /\
     match snd (ld_get (r_loader s) c) with
     | Ok x => exists n, o = Ok (x, TNew n) /\
         (forall e c' t' x' , In (e : event) tr -> e = ((c', t'), Ok (x', TNew n)) -> False)
     | Exc e => o = Exc e end in
  (outstanding d t tr = true -> exists a, latest t tr = Some a /\ o = Ok a /\ r_loader s' = r_loader s) /\
  (outstanding d t tr = false -> expected d c tr = None \/ expected d c tr = Some t -> served) /\
  (outstanding d t tr = false -> (exists t0, expected d c tr = Some t0 /\ t0 <> t) ->
     s' = s /\ o = Exc (if strict then RuntimeError else UnboundLocalError)).
Proof. exact (@final_requests). Qed.

(** C13, the part that fails: with verify_calls=False an outdated token does not return data; after
    the warning line 463 reads unassigned locals. *)
Theorem C13_nonstrict_returns_data_refuted :
  exists (h : list (nat * token)) c t,
    let ld (n : nat) (c : nat) := (S n, Ok n) in
    let s := fst (run (req_step ld 1 false) (requests_init 0) h) in
    snd (req_step ld 1 false s (c, t)) = Exc UnboundLocalError.
Proof. exists [(0, TInit 0)], 0, (TInit 0). reflexivity. Qed.

Print Assumptions C09_batch_stream.
Print Assumptions C09_same_as_direct_client.
Print Assumptions C10_full_map.
Print Assumptions C10_full_map_unmasked.
Print Assumptions C10_pointwise_results.
Print Assumptions C10_reduction.
Print Assumptions C12_replicas.
Print Assumptions C13_outdated_token_partial.
Print Assumptions C13_nonstrict_returns_data_refuted.
Print Assumptions C14_concurrent_maps.
Print Assumptions C14_caches_reused.

(** ** Non-vacuity: concrete runs of the model (5 observations, batches of 2, cache of 2). *)
Section Witness.
Import String.
Local Open Scope string_scope.
Definition wd : list (string * list nat) := [("x", [10;11;12;13;14]); ("y", [20;21;22;23;24])].
Definition wst : world nat nat -> wop nat -> world nat nat * wout nat := DataCore.wstep lin_repl rot_perm (fun s => s).
Definition wl0 : loader nat nat := match make_loader wd with Ok l => l | Exc _ => mkLoader 0 [] [] end.
Definition wh1 : list (wop nat) := [WRandom 2 3 false true (Some 1) true; WBatch 0; WFull 2 2; WBatch 1].
Definition ww1 := fst (run wst (w_init wl0) wh1).
Definition wnew : wop nat := WRandom 2 2 false true (Some 3) true.
Definition ww2 := fst (wst ww1 wnew).
Definition wh2 : list (wop nat) := [WBatch 2; WBatch 0; WLoader (GetBatches 1); WBatch 2; WBatch 2; WBatch 1].
Example W09_created : snd (wst ww1 wnew) = WoInit (Ok 2). Proof. vm_compute. reflexivity. Qed.
Example W09_chain : List.length (l_chains (w_loader ww1)) = 2. Proof. vm_compute. reflexivity. Qed.
Example W09_hands_off : hands_off (List.length (l_chains (w_loader ww1))) wh2.
Proof.
  rewrite W09_chain. intros op H. unfold wh2 in H.
  repeat (destruct H as [H|H]; [try discriminate H; injection H as <-; split; congruence|]). destruct H.
Qed.
Example W09_batches : map (array_batch 0) (wouts 2 wh2 (snd (run wst ww2 wh2)))
  = [Some ([13;14],[true;true]); Some ([10;11],[true;true]); Some ([12;14],[true;true])].
Proof. vm_compute. reflexivity. Qed.

(** two successive sums over the data (second map starts in the middle of a cache) *)
Definition wsum : mbatch nat -> list bool -> nat -> list nat * nat :=
  fun b m c => let xs := match fst b with nil => nil | cons (_, xs) _ => xs end in
               (xs, c + list_sum (map (fun xm : nat * bool => if snd xm then fst xm else 0) (combine xs m))).
Definition wf2 : world nat nat := fst (wst (w_init wl0) (WFull 2 2)).
Example W10_created : snd (wst (w_init wl0) (WFull 2 2)) = WoInit (Ok 0). Proof. vm_compute. reflexivity. Qed.
Example W10_maps :
  snd (run_maps lin_repl rot_perm (fun s => s) 0 5 2 wf2 [(wsum, 0, fun _ => []); (wsum, 100, fun _ => [])])
  = [Ok ([[10;11];[12;13];[14;10]], 60); Ok ([[10;11];[12;13];[14;10]], 160)].
Proof. vm_compute. reflexivity. Qed.

(** two overlapping maps of one mapper *)
Definition wm : mapper nat nat nat (list nat) :=
  match make_mapper lin_repl rot_perm 2 2 (w_init wl0) with Ok m => m | Exc _ => mkM (w_init wl0) None 0 [] end.
Definition wmh : list (mop nat nat nat (list nat)) :=
  [MStart wsum 0; MIter 0; MStart wsum 7; MIter 1; MIter 0; MIter 1; MIter 1; MFinish 1; MIter 0; MFinish 0].
Example W14_created : make_mapper lin_repl rot_perm 2 2 (w_init wl0) = Ok wm. Proof. vm_compute. reflexivity. Qed.
Example W14_run : map (fun o => match o with MoFinish r => Some r | _ => None end)
   (snd (run (FullMapper.mstep lin_repl rot_perm (fun s => s) 2 2) wm wmh))
  = [None; None; None; None; None; None; None; Some (Ok ([[10;11];[12;13];[14;10]], 67)); None;
     Some (Ok ([[10;11];[12;13];[14;10]], 60))].
Proof. vm_compute. reflexivity. Qed.
Example W14_polite : all_polite (FullMapper.mstep lin_repl rot_perm (fun s => s) 2 2) wm wmh.
Proof. cbn [all_polite wmh polite]. repeat split. Qed.

(** two replicas of one chain, interleaved *)
Example W12_run : y_log (fst (run (sys_step (fun j r => 10 * j + r) 2 true) sys_init [(3,0);(3,1);(3,1);(3,0)])) 3 0 = [30; 31].
Proof. vm_compute. reflexivity. Qed.
(** an outdated token: chain 0 was served with TInit 0, then TNew 0 is expected *)
Example W13_stale : let ld (n : nat) (c : nat) := (S n, Ok n) in
  let outs := snd (run (req_step ld 1 true) (requests_init 0) [(0, TInit 0); (1, TInit 1)]) in
  expected 1 0 (trace [(0, TInit 0); (1, TInit 1)] outs) = Some (TNew 0) /\
  outstanding 1 (TInit 0) (trace [(0, TInit 0); (1, TInit 1)] outs) = false.
Proof. vm_compute. auto. Qed.
End Witness.
