(** C17 - C23: pytree names and sample collection. *)
From Coq Require Import String Ascii.
From Verif Require Import Base Pytree PytreeSpec PytreeProofs PytreeNames Io IoSpec IoProofs IoFinal JsonProofs
  Hdf5Collector Hdf5CollectorProofs IoThreads.

(** ** C17 *)
(** What holds: every leaf returns to its place if lists and tuples have at most 10 elements, fields of namedtuples are
    in alphabetical order and there are no empty containers besides {} and None.  In general (second part) the result
    has the structure of t and the same leaves in some order. *)
Theorem C17_roundtrip_partial : forall A (t : tree A), wf t -> no_empty t ->
  (order_ok t -> dict_to_pytree (to_dict t) t = Ok t) /\
  exists t', dict_to_pytree (to_dict t) t = Ok t' /\ same_structure t' t /\ Permutation (leaves t') (leaves t).
Proof.
  intros A t Hw He. split; [exact (fun Ho => final_roundtrip t Hw He Ho)|].
  destruct (roundtrip_general t Hw He) as (t' & H1 & H2 & _ & H3). exists t'. auto.
Qed.
(** every value is found in the dictionary under its position, for all trees *)
Theorem C17_dict_positions : forall A (t : tree A), wf t -> no_empty t -> forall p a, In (p, a) (positions t) ->
  path_get (to_dict t) p = Ok (Leaf a).
Proof. exact final_to_dict. Qed.

Definition list11 : tree nat := Node KList (map Leaf (seq 0 11)).
Definition nt_ba : tree nat := Node (KNamed ["b"; "a"]%string) [Leaf 1; Leaf 2].
Example C17_nonvacuous : let t := Node (KDict ["w"; "x"]%string) [Node KList [Leaf 1; Leaf 2]; Node (KNamed ["a"; "b"]%string) [Leaf 3; Node KNone []]] in
  wf t /\ no_empty t /\ order_ok t /\ dict_to_pytree (to_dict t) t = Ok t.
Proof.
  cbn. repeat split; auto; try lia; try (intros; discriminate).
  repeat constructor; simpl; intuition discriminate.
Qed.
(** What fails: a list of 11 elements comes back permuted, a namedtuple with fields (b, a) comes back swapped, an empty
    list raises *)
Theorem C17_long_list_refuted : exists t : tree nat, wf t /\ no_empty t /\
  dict_to_pytree (to_dict t) t = Ok (Node KList (map Leaf [0; 1; 10; 2; 3; 4; 5; 6; 7; 8; 9])) /\ dict_to_pytree (to_dict t) t <> Ok t.
Proof. exists list11. split; [vm_compute; intuition|]. split; [cbn; repeat split; auto; intros; discriminate|]. split; [vm_compute; reflexivity|vm_compute; discriminate]. Qed.
Theorem C17_namedtuple_refuted : exists t : tree nat, wf t /\ no_empty t /\
  dict_to_pytree (to_dict t) t = Ok (Node (KNamed ["b"; "a"]%string) [Leaf 2; Leaf 1]) /\ t = Node (KNamed ["b"; "a"]%string) [Leaf 1; Leaf 2].
Proof.
  exists nt_ba. cbn. repeat split; auto; try (intros; discriminate).
  repeat constructor; simpl; intuition discriminate.
Qed.
Theorem C17_empty_list_refuted : exists t : tree nat, wf t /\ dict_to_pytree (to_dict t) t = Exc AttributeError.
Proof. exists (Node (KDict ["a"; "b"]%string) [Node KList []; Leaf 0]). vm_compute. auto. Qed.

(** ** C18 *)
(** What holds: one name per leaf, all different, every name is a position; in tree order for order_ok trees *)
Theorem C18_names_partial : forall A (t : tree A), wf t -> no_empty t ->
  exists ks, dict_keys t = Ok ks /\ NoDup ks /\ Permutation ks (map fst (positions t)) /\
    length ks = length (leaves t) /\ (order_ok t -> ks = map fst (positions t)) /\
    ((forall p a s, In (p, a) (positions t) -> In s p -> slash_free s) -> NoDup (map (join "/") ks)).
Proof.
  intros A t Hw He. destruct (final_keys t Hw He) as (ks & H1 & H2 & H3 & H4 & H5). exists ks.
  split; [exact H1|]. split; [exact H2|]. split; [exact H3|]. split; [exact H4|]. split; [exact H5|].
  exact (joined_nodup t Hw He H1).
Qed.
(** the npz file written by finalize holds the rows of every leaf under the name of its position, for every history
    before the registration, between registration and finalize and after finalize *)
Theorem C18_npz_file_partial : forall V (zeros_like : V -> V) h1 (sample : tree V) K c a b,
  wf sample -> no_empty sample -> order_ok sample ->
  (forall p v s, In (p, v) (positions sample) -> In s p -> slash_free s) ->
  let m1 := fst (run (mstep zeros_like) (mc_new true) h1) in
  snd (mstep zeros_like m1 (MRegister sample K)) = OutId (Ok c) ->
  Forall (fun vs => length vs = length (leaves sample)) (saves_of c a) ->
  ~ In (MFinalize c) a ->
  let m := fst (run (mstep zeros_like) (mc_new true) (h1 ++ MRegister sample K :: a ++ MFinalize c :: b)) in
  exists f, mc_file m c = Some f /\ length f = length (leaves sample) /\
    forall j p leaf, nth_error (positions sample) j = Some (p, leaf) ->
      dget (join "/" p) f = Some (column j (firstn K (saves_of c a)) ++ repeat (zeros_like leaf) (K - length (saves_of c a))).
Proof. exact (@final_npz_names). Qed.
Example C18_nonvacuous :
  let sample := Node (KDict ["w"; "x"]%string) [Node KList [Leaf 1; Leaf 2]; Leaf 3] in
  let m := fst (run (mstep (fun _ => 0)) (mc_new true) [MRegister sample 2; MSave 0 [4; 5; 6]; MFinalize 0]) in
  mc_file m 0 = Some [("w/list_element_0", [4; 0]); ("w/list_element_1", [5; 0]); ("x", [6; 0])]%string.
Proof. reflexivity. Qed.
(** What fails: with 11 list elements leaf 2 is stored under the name of element 10 *)
Theorem C18_mislabelled_refuted : exists (sample : tree nat) h f, wf sample /\ no_empty sample /\
  mc_file (fst (run (mstep (fun _ => 0)) (mc_new true) (MRegister sample 1 :: h))) 0 = Some f /\
  saves_of 0 h = [seq 0 11] /\ dget "list_element_2" f = Some [3] /\ dget "list_element_10" f = Some [2].
Proof.
  exists list11, [MSave 0 (seq 0 11); MFinalize 0]. eexists. split; [vm_compute; intuition|].
  split; [cbn; repeat split; auto; intros; discriminate|]. split; [vm_compute; reflexivity|]. vm_compute. auto.
Qed.
(** ... and keys containing a slash can coincide: one of the two leaves is lost *)
Theorem C18_slash_clash_refuted : exists (sample : tree nat) h f, wf sample /\ no_empty sample /\ order_ok sample /\
  mc_file (fst (run (mstep (fun _ => 0)) (mc_new true) (MRegister sample 1 :: h))) 0 = Some f /\
  length (leaves sample) = 2 /\ length f = 1.
Proof.
  exists (Node (KDict ["a"; "a/b"]%string) [Node (KDict ["b"]%string) [Leaf 0]; Leaf 0]), [MSave 0 [1; 2]; MFinalize 0].
  eexists. split; [cbn; intuition|]. split; [cbn; intuition discriminate|]. split; [cbn; auto|]. split; [vm_compute; reflexivity|]. auto.
Qed.

(** ** C19 *)
(** rows 0.. hold the kept samples in order; holds_samples: unused rows are zero, samples beyond row K are dropped *)
Theorem C19_no_save : forall V (zeros_like : V -> V) (sample : tree V) K calls,
  Forall (fun ks => same_structure (snd ks) sample) calls ->
  exists st, ns_run (ns_init zeros_like sample K) calls = Ok st /\
    fst (ns_postprocess st) = length (kept calls) /\
    holds_samples zeros_like sample K (map leaves (kept calls)) (snd (ns_postprocess st)) /\
    (length (kept calls) <= K -> forall j leaf, nth_error (leaves sample) j = Some leaf ->
       nth_error (leaves (snd (ns_postprocess st))) j =
       Some (column j (map leaves (kept calls)) ++ repeat (zeros_like leaf) (K - length (kept calls)))).
Proof.
  intros V zl sample K calls H. destruct (final_no_save zl K H) as (st & H1 & H2 & H3). exists st.
  split; [exact H1|]. split; [exact H2|]. split; [exact H3|]. intros Hle j leaf Hj. destruct H3 as [_ H3].
  rewrite (H3 j leaf Hj), firstn_all2, map_length; [reflexivity|rewrite map_length; exact Hle].
Qed.
Example C19_nonvacuous :
  ns_run (ns_init (fun _ => 0) (Node KTuple [Leaf 0; Leaf 0]) 3)
    [(true, Node KTuple [Leaf 1; Leaf 2]); (false, Node KTuple [Leaf 3; Leaf 4]); (true, Node KTuple [Leaf 5; Leaf 6])]
  = Ok (mkNs 2 (Node KTuple [Leaf [1; 5; 0]; Leaf [2; 6; 0]])).
Proof. reflexivity. Qed.

(** ** C20 *)
(** chain i, started after any history h1, delivers what no_save delivers for the calls of chain i alone, whatever the
    other chains do in between (registrations, saves, failing saves, postprocessing) *)
Theorem C20_save_equals_no_save : forall V (zeros_like : V -> V) dir h1 (sample : tree V) K i h2,
  let start := (mc_new dir, []) in
  snd (sv_step zeros_like (fst (run (sv_step zeros_like) start h1)) (SvInit sample K)) = SvId (Ok i) ->
  Forall (fun ks => same_structure (snd ks) sample) (calls_of i h2) ->
  exists st, ns_run (ns_init zeros_like sample K) (calls_of i h2) = Ok st /\
    snd (sv_step zeros_like (fst (run (sv_step zeros_like) start (h1 ++ SvInit sample K :: h2))) (SvPost i)) =
      SvResult (Some (Ok (ns_postprocess st))).
Proof. exact (@final_save). Qed.
(** batched callbacks are the same as single callbacks in order *)
Theorem C20_batched_callback : forall V (zeros_like : V -> V) rows m m', host_save_batched m rows = (m', Ok tt) ->
  m' = fst (run (mstep zeros_like) m (map (fun cv => MSave (fst cv) (snd cv)) rows)).
Proof. exact (@host_batched). Qed.
Example C20_nonvacuous :
  let h := [SvInit (Leaf 0) 2; SvInit (Leaf 0) 2; SvSave 1 true (Leaf 7); SvSave 0 true (Leaf 5); SvSave 1 false (Leaf 9); SvSave 1 true (Leaf 8); SvPost 0] in
  snd (sv_step (fun _ => 0) (fst (run (sv_step (fun _ => 0)) (mc_new false, []) h)) (SvPost 1)) = SvResult (Some (Ok (2, Leaf [7; 8])))
  /\ last (snd (run (sv_step (fun _ => 0)) (mc_new false, []) h)) (SvId (Ok 0)) = SvResult (Some (Ok (1, Leaf [5; 0]))).
Proof. split; reflexivity. Qed.

(** ** C21 *)
(** crash: any state of the file system before, during or after the call o.  Every file (c, k*w) with k*w at most the
    number of samples saved before o is complete, except the one that is rewritten by finalize; every complete file
    (c, n) holds exactly the first n samples. *)
Theorem C21_json_crash_partial : forall V w h0 h1 o (s0 : tree V) crash, let c := jchains h0 in
  Forall (fun s => same_structure s s0) (jsaves_of c (h1 ++ [o])) ->
  let j := fst (run (jstep (V := V)) (j_new w) (h0 ++ JRegister :: h1)) in
  crash = j \/ In crash (fst (fst (jstep_micro j o))) ->
  (forall k, 0 < k -> 0 < w -> k * w <= length (jsaves_of c h1) -> o <> JFinalize c \/ k * w <> length (jsaves_of c h1) ->
     exists t, j_file crash c (k * w) = Some (JFull t) /\ exactly_samples (firstn (k * w) (jsaves_of c h1)) t) /\
  (forall n t, j_file crash c n = Some (JFull t) -> exactly_samples (firstn n (jsaves_of c (h1 ++ [o]))) t /\ 0 < n <= length (jsaves_of c (h1 ++ [o]))).
Proof. exact (@final_json_crash). Qed.
Theorem C21_json_finalize : forall V w h0 h1 (s0 : tree V), let c := jchains h0 in
  Forall (fun s => same_structure s s0) (jsaves_of c h1) -> jsaves_of c h1 <> [] ->
  let (j, out) := run (jstep (V := V)) (j_new w) (h0 ++ JRegister :: h1 ++ [JFinalize c]) in
  last out (JId 0) = JUnit (Ok tt) /\
  exists t, j_file j c (length (jsaves_of c h1)) = Some (JFull t) /\ exactly_samples (jsaves_of c h1) t.
Proof. exact (@final_json_finalize). Qed.
Example C21_nonvacuous :
  let j := fst (run (jstep (V := nat)) (j_new 2) [JRegister; JSave 0 (Leaf 1); JSave 0 (Leaf 2); JSave 0 (Leaf 3)]) in
  j_file j 0 2 = Some (JFull (Leaf [1; 2])) /\ j_file j 0 3 = None.
Proof. split; reflexivity. Qed.
(** What fails: 4 samples with w = 2; a crash during finalize leaves no complete file with the 4 samples although it was
    complete before *)
Theorem C21_crash_in_finalize_refuted : exists w h crash (t : tree (list nat)),
  let j := fst (run (jstep (V := nat)) (j_new w) h) in
  0 < w /\ length (jsaves_of 0 h) mod w = 0 /\
  j_file j 0 (length (jsaves_of 0 h)) = Some (JFull t) /\ exactly_samples (jsaves_of 0 h) t /\
  In crash (fst (fst (jstep_micro j (JFinalize 0)))) /\
  j_file crash 0 (length (jsaves_of 0 h)) = Some JEmpty.
Proof.
  exists 2, [JRegister; JSave 0 (Leaf 1); JSave 0 (Leaf 2); JSave 0 (Leaf 3); JSave 0 (Leaf 4)].
  eexists _, (Leaf [1; 2; 3; 4]). split; [lia|]. split; [reflexivity|]. split; [reflexivity|]. split.
  - split; [repeat constructor|]. intros [|j] H; [reflexivity|simpl in H; lia].
  - split; [right; left; reflexivity|reflexivity].
Qed.

(** ** C22 *)
(** the callback thread executes the program pre ++ release ++ post; the main thread waits in finished(c).  In every
    reachable state: if finished has returned, release was executed before, and the result holds all samples saved for c;
    there is no deadlock. *)
Theorem C22_wait_partial : forall V (zeros_like : V -> V) m sample K c m0 pre post s,
  mc_register zeros_like m sample K = (m0, Ok c) ->
  let prog := pre ++ TRelease c :: post in
  Forall (fun vs => length vs = length (leaves sample)) (tsaves c prog) ->
  ~ In (TRelease c) pre -> ~ In (TRelease c) post -> tsaves c post = [] ->
  treach c (mkSys m0 prog WStart) s ->
  (forall r, sy_w s = WDone r -> (exists done, prog = done ++ sy_prog s /\ In (TRelease c) done) /\
     exists t, r = Ok t /\ holds_samples zeros_like sample K (tsaves c prog) t) /\
  ((exists r, sy_w s = WDone r) \/ exists s', tstep c s s').
Proof. exact (@final_wait). Qed.
(** sequential view: finished waits exactly until finalize *)
Theorem C22_blocks_until_finalize : forall V (zeros_like : V -> V) dir h1 (sample : tree V) K c h2,
  let m1 := fst (run (mstep zeros_like) (mc_new dir) h1) in
  snd (mstep zeros_like m1 (MRegister sample K)) = OutId (Ok c) ->
  Forall (fun vs => length vs = length (leaves sample)) (saves_of c h2) ->
  let m := fst (run (mstep zeros_like) (mc_new dir) (h1 ++ MRegister sample K :: h2)) in
  (~ In (MFinalize c) h2 -> mc_finished m c = None) /\
  (In (MFinalize c) h2 -> exists t, mc_finished m c = Some (Ok t) /\ holds_samples zeros_like sample K (saves_of c h2) t).
Proof. exact (@final_memory). Qed.
Definition c22_m : mcollector nat := fst (mc_register (fun _ => 0) (mc_new true) (Leaf 0) 1).
Definition c22_prog : list (hostop nat) := TSave 0 [5] :: finalize_steps 0.
Definition c22_end : sys nat :=
  mkSys (mkMcoll true [mkMc false [[5]] 1 (Leaf tt) [EmptyString]] []) [TSavez 0] (WDone (Ok (Leaf [5]))).
Lemma c22_reach : treach 0 (mkSys c22_m c22_prog WStart) c22_end.
Proof.
  eapply Tr_step; [eapply Tr_step; [eapply Tr_step; [eapply Tr_step; [eapply Tr_step; [apply Tr_refl|]|]|]|]|].
  - apply St_host.
  - apply St_host.
  - eapply St_acquire; reflexivity.
  - apply St_release.
  - apply (@St_return nat 0 _ [TSavez 0] (mkMc false [[5]] 1 (Leaf tt) [EmptyString])). reflexivity.
Qed.
Example C22_nonvacuous : mc_register (fun _ => 0) (mc_new true) (Leaf 0) 1 = (c22_m, Ok 0) /\
  treach 0 (mkSys c22_m c22_prog WStart) c22_end /\ exists r, sy_w c22_end = WDone r.
Proof. split; [reflexivity|]. split; [exact c22_reach|]. eexists. reflexivity. Qed.
(** What fails: finished can return before the npz file is written (release comes before savez in finalize) *)
Theorem C22_file_complete_refuted : exists m0 s r, mc_register (fun _ : nat => 0) (mc_new true) (Leaf 0) 1 = (m0, Ok 0) /\
  treach 0 (mkSys m0 ([TSave 0 [5]] ++ finalize_steps 0) WStart) s /\ sy_w s = WDone r /\ mc_file (sy_m s) 0 = None.
Proof. exists c22_m, c22_end, (Ok (Leaf [5])). split; [reflexivity|]. split; [exact c22_reach|]. split; reflexivity. Qed.

(** ** C23 *)
(** reading the subtree at path p of chain c with HDF5Loader gives the collected subtrees, for every history; no
    restriction on list lengths or order of fields.  p = [] is the property; subdir is any path that HDF5 resolves to
    the group of the chain, e.g. "/chain~c" *)
Theorem C23_hdf5_roundtrip : forall V (zeros_like : V -> V) ops1 (sample : tree V) K c ops2 (ss : list (tree V)) p sub subdir,
  let h1 := fst (run (hstep zeros_like) (hc_new (V := V)) ops1) in
  wf sample -> no_empty sample ->
  snd (hstep zeros_like h1 (HRegister sample K)) = HoId (Ok c) ->
  Forall (fun s => same_structure s sample) ss -> hsaves_of c ops2 = map leaves ss ->
  subtree p sample = Some sub -> leaves sub <> [] ->
  h5_path subdir = h5_path (chain_dir c) ++ flat_map h5_path p ->
  let h := fst (run (hstep zeros_like) (hc_new (V := V)) (ops1 ++ HRegister sample K :: ops2)) in
  exists us t, map (subtree p) ss = map Some us /\ h5_open (h_file h) subdir sub = Ok (K, t) /\
    holds_samples zeros_like sub K (map leaves us) t.
Proof. exact (@final_h5). Qed.
(** registration succeeds if the names have no slash, are not empty and not "." *)
Theorem C23_registration : forall V (zeros_like : V -> V) ops (s : tree V) k,
  (forall s' k', In (HRegister s' k') (ops ++ [HRegister s k]) -> good_sample s') ->
  exists c, snd (hstep zeros_like (fst (run (hstep zeros_like) (hc_new (V := V)) ops)) (HRegister s k)) = HoId (Ok c).
Proof. exact (@final_h5_register). Qed.
Example C23_nonvacuous :
  let sample := Node (KDict ["w"; "x"]%string) [Node KList [Leaf 0; Leaf 0]; Leaf 0] in
  let h := fst (run (hstep (fun _ => 0)) (hc_new (V := nat)) [HRegister sample 2; HSave 0 [1; 2; 3]; HSave 0 [4; 5; 6]]) in
  h5_open (h_file h) "/chain~0" sample = Ok (2, Node (KDict ["w"; "x"]%string) [Node KList [Leaf [1; 4]; Leaf [2; 5]]; Leaf [3; 6]]) /\
  h5_open (h_file h) "/chain~0/w" (Node KList [Leaf 0; Leaf 0]) = Ok (2, Node KList [Leaf [1; 4]; Leaf [2; 5]]).
Proof. split; vm_compute; reflexivity. Qed.
(** names with slashes that collide raise ValueError at registration *)
Theorem C23_slash_clash_rejected : exists (sample : tree nat) e, wf sample /\ no_empty sample /\
  snd (hc_register (fun _ => 0) (hc_new (V := nat)) sample 1) = Exc e.
Proof.
  exists (Node (KDict ["a"; "a/b"]%string) [Node (KDict ["b"]%string) [Leaf 0]; Leaf 0]), ValueError.
  split; [cbn; intuition|]. split; [cbn; intuition discriminate|]. vm_compute. reflexivity.
Qed.
Print Assumptions C17_roundtrip_partial. Print Assumptions C18_npz_file_partial. Print Assumptions C19_no_save.
Print Assumptions C20_save_equals_no_save. Print Assumptions C21_json_crash_partial. Print Assumptions C22_wait_partial.
Print Assumptions C23_hdf5_roundtrip.
