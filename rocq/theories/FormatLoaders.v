(** HDF5Loader and TensorflowDataLoader with dtypes and shapes, as instances of HostFormat.v: hdf5_loader.py:47-116, tensorflow_loader.py:63-185.

    Simplifications as in ArrayData.v, Hdf5Loader.v and TfLoader.v; the leaves of the sample are named; the conversion of elements to the dtype that jax uses is done when a dataset is
    read; shapes of excluded tensorflow columns play no role. *)
From Coq Require Import String.
From Verif Require Import Base ListUtil NumpyLoader LoaderSpec NumpyLoaderProofs NumpyLoaderApi NumpyLoaderFinal Requests DataCore ArrayData ArrayProofs Hdf5Loader TfLoader TfSpec TfProofs HostFormat HostComplete.
Set Implicit Arguments.

(** ** HDF5Loader *)
Section H5.
Context {G V : Type}.
Variable choice_repl : G -> nat -> nat -> G * list nat.
Variable choice_perm : G -> nat -> G * list nat.
Variable rng_of_seed : nat -> G.
Variable x64 : bool.
Variable cast : dtype -> V -> V.

(** the stored dataset as jax rows, hdf5_loader.py:88-89 *)
Definition h5a_rows (a : nd V) : list (list V) :=
  let d := canonical x64 (nd_dtype a) in
  match nd_shape a with [] => [] | n :: _ => map (fun i => map (cast d) (nd_obs a i)) (seq 0 n) end.
(** one leaf: all batches, stacked, hdf5_loader.py:87-96 *)
Definition h5a_leaf (a : nd V) (rows : list (list nat)) : res (nd V) :=
  let* bs := h5_rows (h5a_rows a) rows in
  let* st := np_stack bs in
  Ok (mkNd (canonical x64 (nd_dtype a)) (fst st ++ tl (nd_shape a)) (concat (snd st))).
(** hdf5_loader.py:86-98 *)
Fixpoint h5a_data (data : list (string * nd V)) (rows : list (list nat)) : res (list (string * nd V)) :=
  match data with
  | [] => Ok []
  | (k, a) :: rest => let* x := h5a_leaf a rows in let* xs := h5a_data rest rows in Ok ((k, x) :: xs)
  end.
(** [get_batches], hdf5_loader.py:65-100 *)
Definition h5a_get (l : aloader G V) (cid : nat) : aloader G V * res (hbatches V) :=
  match nth_error (al_chains l) cid with
  | None => (l, Exc IndexError)
  | Some c =>
      match get_indices choice_repl choice_perm (al_count l) c with
      | Exc e => (l, Exc e)
      | Ok (c', bs) =>
          (mkAL (al_count l) (al_data l) (upd (al_chains l) cid c'),
           let* d := h5a_data (al_data l) (map fst bs) in
           let* mm := np_stack (map snd bs) in
           Ok (d, Some (mkNd DBool (fst mm) (snd mm))))
      end
  end.
(** [__init__], hdf5_loader.py:47-63: the number of observations is that of the first dataset; the stored arrays are given by name *)
Definition make_h5 (stored : list (string * nd V)) : res (aloader G V) :=
  let* counts := nd_lens stored in
  match counts with [] => Exc IndexError | n :: _ => Ok (mkAL n stored []) end.
(** the loader, hdf5_loader.py:30-116; _format is the format of the sample (lines 56-58, 108-111), registration is inherited (numpy_loader.py:186-312) *)
Definition h5_hloader (sample : format) (N : nat) : hloader (aloader G V) (bool * bool * option nat) V :=
  mkHL (fun l ca mb kw => let '(ie, sh, sd) := kw in let (b, r) := register_random rng_of_seed (bare l) ca mb ie sh sd in (rechain l b, r))
       (fun l ca mb => let (b, r) := register_ordered (bare l) ca mb in (rechain l b, r))
       h5a_get sample N.

(** *** proofs *)
Hypothesis Hperm : perm_oracle choice_perm.
Hypothesis Hrepl : repl_oracle choice_repl.
(** at least N rows *)
Definition rows_ok (N : nat) (data : list (string * nd V)) : Prop := forall ka, In ka data -> exists n sh, nd_shape (snd ka) = n :: sh /\ N <= n.
(** auxiliary definition of a statement or a proof; models no code of /repo *)
Definition stored_format (ca mb : nat) (data : list (string * nd V)) : format := map (fun ka => (fst ka, (canonical x64 (nd_dtype (snd ka)), ca :: mb :: tl (nd_shape (snd ka))))) data.
Lemma h5_rows_in_range (a : list (list V)) rows mb : Forall (fun r => length r = mb) rows -> Forall (Forall (fun i => i < length a)) rows ->
  exists bs, h5_rows a rows = Ok bs /\ length bs = length rows /\ Forall (fun b => length b = mb) bs.
Proof using choice_repl choice_perm rng_of_seed.
  induction rows as [|r rows IH]; intros H1 H2; cbn [h5_rows]; [exists []; auto|]. inversion H1; inversion H2; subst. rewrite (@h5_batch_ok G choice_repl choice_perm rng_of_seed _ a r). destruct (gather_ok a H7) as (xs & -> & Hl & _).
  destruct (IH H4 H8) as (bs & -> & Hb & Hf). cbn [bind]. exists (xs :: bs). cbn. repeat split; auto.
Qed.
Lemma h5a_leaf_ok a n sh N rows ca mb : nd_shape a = n :: sh -> N <= n -> length rows = ca -> 0 < ca -> Forall (fun r => length r = mb) rows -> Forall (Forall (fun i => i < N)) rows ->
  exists b, h5a_leaf a rows = Ok b /\ nd_struct b = (canonical x64 (nd_dtype a), ca :: mb :: sh).
Proof using choice_repl choice_perm rng_of_seed.
  intros Hs Hn Hl Hca H1 H2. unfold h5a_leaf, h5a_rows. rewrite Hs. set (dataset := map _ (seq 0 n)).
  assert (Hd : length dataset = n) by (unfold dataset; now rewrite map_length, seq_length).
  destruct (@h5_rows_in_range dataset rows mb H1) as (bs & E & Hb & Hf).
  { rewrite Hd. eapply Forall_impl; [|exact H2]. intros r Hr. eapply Forall_impl; [|exact Hr]. cbn. intros; lia. }
  rewrite E. cbn [bind]. rewrite (@np_stack_ok _ bs ca mb) by (auto; lia). cbn [bind fst snd]. eexists. split; [reflexivity|]. reflexivity.
Qed.
Lemma h5a_data_ok N data rows ca mb : rows_ok N data -> length rows = ca -> 0 < ca -> Forall (fun r => length r = mb) rows -> Forall (Forall (fun i => i < N)) rows ->
  exists d, h5a_data data rows = Ok d /\ format_of d = stored_format ca mb data.
Proof using choice_repl choice_perm rng_of_seed.
  intros Hd Hl Hca H1 H2. induction data as [|[k a] data IH]; [exists []; auto|]. destruct IH as (d & E & F); [intros ka Hka; apply Hd; right; exact Hka|].
  destruct (Hd (k, a) (or_introl eq_refl)) as (n & sh & Hs & Hn). cbn [snd] in Hs. cbn [h5a_data].
  destruct (@h5a_leaf_ok a n sh N rows ca mb Hs Hn Hl Hca H1 H2) as (b & Eb & Sb). rewrite Eb. cbn [bind]. rewrite E. cbn [bind]. eexists. split; [reflexivity|].
  cbn [format_of map stored_format fst snd]. rewrite Sb, Hs. cbn [tl]. f_equal. exact F.
Qed.
Notation chain_ok := (@ArrayProofs.chain_ok G choice_repl choice_perm).
Lemma chain_indices N c : chain_ok N c -> (c_cache c = 0 -> get_indices choice_repl choice_perm N c = Exc ValueError) /\
  (0 < c_cache c -> exists c' bs, get_indices choice_repl choice_perm N c = Ok (c', bs) /\ chain_ok N c' /\ c_cache c' = c_cache c /\ c_mb c' = c_mb c /\ length bs = c_cache c /\
    Forall (fun r => length r = c_mb c) (map fst bs) /\ Forall (fun r => length r = c_mb c) (map snd bs) /\ Forall (Forall (fun i => i < N)) (map fst bs)).
Proof using Hperm Hrepl rng_of_seed.
  intros (r & n & Hok & Hinv). assert (Hmb : c_mb c = reg_mb r) by (destruct Hinv as (E & _); exact E). unfold get_indices. split.
  - intros ->. reflexivity.
  - intros Hc. destruct (Nat.eqb_spec (c_cache c) 0); [lia|].
    destruct (@chain_steps G choice_repl choice_perm rng_of_seed Hperm N r (c_cache c) (c_cache c) n c Hok Hinv) as (c' & E & Hinv'). rewrite E. exists c', (map (LoaderSpec.spec_batch choice_repl choice_perm N r) (seq n (c_cache c))).
    assert (Hsh : forall b, In b (map (LoaderSpec.spec_batch choice_repl choice_perm N r) (seq n (c_cache c))) -> length (fst b) = c_mb c /\ length (snd b) = c_mb c /\ Forall (fun i => i < N) (fst b)).
    { intros b Hb. apply in_map_iff in Hb. destruct Hb as (k & <- & _). rewrite Hmb. apply (@shape G choice_repl choice_perm Hperm Hrepl N r k Hok). }
    assert (Hcc : c_cache c' = c_cache c) by (destruct Hinv' as (_ & Ec & _); exact Ec).
    assert (Hcm : c_mb c' = c_mb c) by (destruct Hinv' as (Ec & _); congruence).
    split; [reflexivity|]. split; [exists r, (n + c_cache c); split; [exact Hok|rewrite Hcc; exact Hinv']|]. split; [exact Hcc|]. split; [exact Hcm|]. split; [now rewrite map_length, seq_length|].
    repeat split; apply Forall_forall; intros x Hx; apply in_map_iff in Hx; destruct Hx as (b & <- & Hb); apply Hsh; exact Hb.
Qed.
(** auxiliary definition of a statement or a proof; models no code of /repo *)
Definition h5_ok (stored : list (string * nd V)) (N : nat) (l : aloader G V) : Prop := al_count l = N /\ al_data l = stored /\ Forall (chain_ok N) (al_chains l).
(** auxiliary definition of a statement or a proof; models no code of /repo *)
Definition h5_chains (l : aloader G V) : list (nat * nat) := map (fun c => (c_cache c, c_mb c)) (al_chains l).
Lemma h5_get_spec stored N l c ca mb : rows_ok N stored -> h5_ok stored N l -> nth_error (h5_chains l) c = Some (ca, mb) ->
  h5_ok stored N (fst (h5a_get l c)) /\ h5_chains (fst (h5a_get l c)) = h5_chains l /\
  match snd (h5a_get l c) with
  | Ok (d, m) => 0 < ca /\ format_of d = stored_format ca mb stored /\ nd_struct (h_mask [ca; mb] m) = (DBool, [ca; mb])
  | Exc _ => ca = 0
  end.
Proof using Hperm Hrepl rng_of_seed.
  intros Hr (O1 & O2 & O3) Hc. unfold h5_chains in Hc. rewrite nth_error_map in Hc. destruct (nth_error (al_chains l) c) as [ch|] eqn:Ec; [|discriminate]. injection Hc as <- <-.
  unfold h5a_get. rewrite Ec, O1. assert (Hch : chain_ok N ch) by (rewrite Forall_forall in O3; apply O3; eapply nth_error_In; exact Ec).
  destruct (chain_indices Hch) as [Z P]. destruct (Nat.eq_dec (c_cache ch) 0) as [E0|E0].
  - rewrite (Z E0). cbn [fst snd]. split; [repeat split; auto|]. split; [reflexivity|exact E0].
  - destruct (P ltac:(lia)) as (c' & bs & E & K1 & K2 & K3 & K4 & K5 & K6 & K7). rewrite E, O2.
    destruct (@h5a_data_ok N stored (map fst bs) (c_cache ch) (c_mb ch) Hr ltac:(rewrite map_length; exact K4) ltac:(lia) K5 K7) as (d & Ed & Fd).
    rewrite Ed. cbn [bind]. rewrite (@np_stack_ok _ (map snd bs) (c_cache ch) (c_mb ch)); [|rewrite map_length; exact K4|lia|exact K6]. cbn [bind fst snd h_mask]. split; [|split].
    + split; [reflexivity|]. split; [reflexivity|]. cbn [al_chains]. apply Forall_forall. intros x Hx. apply In_nth_error in Hx. destruct Hx as [j Hj]. destruct (Nat.eq_dec j c) as [-> |Hn].
      * rewrite (@nth_upd_same' _ _ _ _ _ Ec) in Hj. injection Hj as <-. exact K1.
      * rewrite nth_upd_other' in Hj by exact Hn. rewrite Forall_forall in O3. apply O3. eapply nth_error_In. exact Hj.
    + unfold h5_chains. cbn [al_chains]. apply (@map_upd_same _ _ _ _ _ _ ch Ec). rewrite K2, K3. reflexivity.
    + split; [lia|]. split; [exact Fd|reflexivity].
Qed.
Lemma h5_register_spec stored N l ca mb ie sh sd sample : h5_ok stored N l -> registers (h5_ok stored N) h5_chains l ca mb (h_random (h5_hloader sample N) l ca mb (ie, sh, sd)).
Proof using.
  intros (O1 & O2 & O3). cbn [h_random h5_hloader]. unfold registers, register_random. cbn [bare l_count l_chains l_data]. rewrite O1.
  assert (I : rechain l (bare l) = l) by (destruct l; reflexivity).
  destruct (Nat.ltb_spec N mb); [cbn [fst snd]; rewrite I; split; [repeat split; auto|reflexivity]|].
  destruct (negb sh && ie); [cbn [fst snd]; rewrite I; split; [repeat split; auto|reflexivity]|].
  destruct (Nat.eqb_spec mb 0); [cbn [fst snd]; rewrite I; split; [repeat split; auto|reflexivity]|].
  cbn [fst snd rechain l_chains al_chains]. split.
  - split; [exact O1|]. split; [exact O2|]. cbn [al_chains]. apply Forall_app. split; [exact O3|]. constructor; [|constructor].
    exists (reg_random rng_of_seed mb ie sh (match sd with Some s => s | None => length (al_chains l) end)), 0. split.
    + unfold reg_ok, reg_random. destruct ie; [|destruct sh]; simpl; lia.
    + apply inv_new_random.
  - unfold h5_chains, rechain. cbn [al_chains l_chains fst snd]. rewrite map_app, ?map_length. split; reflexivity.
Qed.
Lemma h5_ordered_spec stored N l ca mb sample : h5_ok stored N l -> registers (h5_ok stored N) h5_chains l ca mb (h_ordered (h5_hloader sample N) l ca mb).
Proof using.
  intros (O1 & O2 & O3). cbn [h_ordered h5_hloader]. unfold registers, register_ordered. cbn [bare l_count l_chains l_data]. rewrite O1.
  assert (I : rechain l (bare l) = l) by (destruct l; reflexivity).
  destruct (Nat.leb_spec mb N); [|cbn [fst snd]; rewrite I; split; [repeat split; auto|reflexivity]].
  cbn [fst snd rechain l_chains al_chains]. split.
  - split; [exact O1|]. split; [exact O2|]. cbn [al_chains]. apply Forall_app. split; [exact O3|]. constructor; [|constructor].
    exists (ROrd mb), 0. split; [unfold reg_ok; simpl; auto|apply inv_new_ordered].
  - unfold h5_chains, rechain. cbn [al_chains l_chains fst snd]. rewrite map_app, ?map_length. split; reflexivity.
Qed.
Lemma h5_regular stored N sample : rows_ok N stored -> (forall ca mb, stored_format ca mb stored = canonical_format x64 (h_batch_format (h5_hloader sample N) ca mb)) ->
  regular (h5_hloader sample N) x64 (h5_ok stored N) h5_chains.
Proof using Hperm Hrepl.
  intros Hr Hf. split; [|split].
  - intros l ca mb [[ie sh] sd] Ho _ _. apply h5_register_spec. exact Ho.
  - intros l ca mb Ho _. apply h5_ordered_spec. exact Ho.
  - intros l c ca mb Ho Hc. cbn [h_get h5_hloader]. destruct (h5_get_spec c Hr Ho Hc) as (S1 & S2 & S3). split; [exact S1|]. split; [exact S2|].
    destruct (snd (h5a_get l c)) as [[d m]|e]; [|exact S3]. rewrite <- Hf. exact S3.
Qed.
End H5.

(** ** TensorflowDataLoader *)
Section Tf.
Context {V : Type}.
Variable pick : nat -> nat -> nat.
Variable x64 : bool.
Variable cast : dtype -> V -> V.

(** [element_spec] of the pipeline: dtype and shape of every entry, None for unknown dimensions (tensorflow_loader.py:163) *)
Definition tf_spec := list (string * (dtype * list (option nat))).
(** the known dimensions, tensorflow_loader.py:171 *)
Definition known (s : list (option nat)) : list nat := flat_map (fun o => match o with Some n => [n] | None => [] end) s.
(** [_format], tensorflow_loader.py:161-177 *)
Definition tf_format (spec : tf_spec) (exclude : list string) : format :=
  map (fun ks => (fst ks, (fst (snd ks), known (snd (snd ks))))) (filter (fun ks => negb (existsb (String.eqb (fst ks)) exclude)) spec).
(** ca batches of mb elements as one array (tensorflow's batch, tensorflow_loader.py:109-110; jnp.array, line 159); elements of different shapes cannot be stacked *)
Definition tf_pack (els : list (list (nd V))) : res (nd V) :=
  match concat els with
  | [] => Exc ValueError
  | e0 :: _ =>
      if forallb (fun e => if struct_eq_dec (nd_struct e) (nd_struct e0) then true else false) (concat els)
      then let d := canonical x64 (nd_dtype e0) in
           Ok (mkNd d (length els :: length (hd [] els) :: nd_shape e0) (map (cast d) (flat_map (@nd_data V) (concat els))))
      else Exc ValueError
  end.
(** tensorflow_loader.py:155-159 *)
Fixpoint tf_pack_all (b : list (string * list (list (nd V)))) : res (list (string * nd V)) :=
  match b with
  | [] => Ok []
  | (k, els) :: rest => let* x := tf_pack els in let* xs := tf_pack_all rest in Ok ((k, x) :: xs)
  end.
(** [get_batches], tensorflow_loader.py:138-159 *)
Definition tfa_get (l : tloader (nd V)) (c : nat) : tloader (nd V) * res (hbatches V) :=
  let (l', o) := tf_get pick l c in (l', let* b := o in let* d := tf_pack_all b in Ok (d, None)).
(** the loader, tensorflow_loader.py:41-185; the keyword tells whether there are additional arguments *)
Definition tf_hloader (spec : tf_spec) (exclude : list string) (N : nat) : hloader (tloader (nd V)) bool V :=
  mkHL (fun l ca mb extra => tf_register l ca mb extra) (fun l ca mb => tf_register_ordered l ca mb) tfa_get (tf_format spec exclude) N.

(** *** proofs *)
(** the elements 0 .. N - 1 of a column agree with the specification of the column *)
Definition conforms (N : nat) (ds : dtype * list (option nat)) (column : nat -> nd V) : Prop :=
  forall i, i < N -> nd_dtype (column i) = fst ds /\ Forall2 (fun o n => o = None \/ o = Some n) (snd ds) (nd_shape (column i)).
(** the columns and the specification list the same entries *)
Definition describes (N : nat) (spec : tf_spec) (columns : list (string * (nat -> nd V))) : Prop :=
  Forall2 (fun ks kc => fst ks = fst kc /\ conforms N (snd ks) (snd kc)) spec columns.
(** all elements of the column have one shape *)
Definition one_shape (N : nat) (kc : string * (nat -> nd V)) : Prop := forall i j, i < N -> j < N -> nd_struct (snd kc i) = nd_struct (snd kc j).

Lemma iter_out_inv X Y (f : X -> X * Y) (P : X -> Prop) (Q : Y -> Prop) : (forall s, P s -> P (fst (f s)) /\ Q (snd (f s))) ->
  forall n s, P s -> P (fst (iter_out f n s)) /\ Forall Q (snd (iter_out f n s)) /\ length (snd (iter_out f n s)) = n.
Proof using.
  intros H. induction n as [|n IH]; intros s Hs; cbn [iter_out]; [cbn; auto|]. destruct (H s Hs) as [H1 H2]. destruct (f s) as [s1 o]. cbn [fst snd] in *. specialize (IH s1 H1).
  destruct (iter_out f n s1) as [s2 os]. cbn [fst snd] in *. destruct IH as (I1 & I2 & I3). repeat split; auto. cbn. now rewrite I3.
Qed.
(** auxiliary definition of a statement or a proof; models no code of /repo *)
Definition tc_ok (N : nat) (ca mb : nat) (c : tchain) : Prop := Forall (fun i => i < N) (tc_buf c) /\ tc_buf c <> [] /\ tc_ca c = ca /\ tc_mb c = mb.
Lemma draw_inv N id ca mb : 0 < N -> forall c, tc_ok N ca mb c -> tc_ok N ca mb (fst (tf_draw pick N id c)) /\ snd (tf_draw pick N id c) < N.
Proof using.
  intros HN c (H1 & H2 & H3 & H4). unfold tf_draw. cbn [fst snd]. set (i := pick id (tc_taken c) mod length (tc_buf c)).
  assert (Hi : i < length (tc_buf c)) by (apply Nat.mod_upper_bound; destruct (tc_buf c); [contradiction|discriminate]). split.
  - repeat split; cbn [tc_buf tc_ca tc_mb]; auto.
    + apply Forall_forall. intros x Hx. apply In_nth_error in Hx. destruct Hx as [j Hj]. destruct (Nat.eq_dec j i) as [-> |Hn].
      * destruct (nth_error (tc_buf c) i) eqn:E; [|apply nth_error_None in E; lia]. rewrite (@nth_upd_same' _ _ _ _ _ E) in Hj. injection Hj as <-. apply Nat.mod_upper_bound. lia.
      * rewrite nth_upd_other' in Hj by exact Hn. rewrite Forall_forall in H1. apply H1. eapply nth_error_In. exact Hj.
    + intros E. apply (f_equal (@length nat)) in E. rewrite length_upd in E. cbn in E. lia.
  - rewrite Forall_forall in H1. apply H1. apply nth_In. exact Hi.
Qed.
Lemma next_inv N id ca mb c : 0 < N -> tc_ok N ca mb c -> tc_ok N ca mb (fst (tf_next pick N id c)) /\
  Forall (fun r => length r = mb /\ Forall (fun i => i < N) r) (snd (tf_next pick N id c)) /\ length (snd (tf_next pick N id c)) = ca.
Proof using.
  intros HN Hc. pose proof Hc as (_ & _ & E1 & E2). unfold tf_next. rewrite E1, E2. apply iter_out_inv with (P := tc_ok N ca mb); [|exact Hc].
  intros s Hs. destruct (@iter_out_inv _ _ (tf_draw pick N id) (tc_ok N ca mb) (fun i => i < N) (@draw_inv N id ca mb HN) mb s Hs) as (I1 & I2 & I3). auto.
Qed.

Lemma pack_ok N (col : nat -> nd V) idx ca mb : 0 < ca -> 0 < mb -> 0 < N -> (forall i j, i < N -> j < N -> nd_struct (col i) = nd_struct (col j)) -> length idx = ca -> Forall (fun r => length r = mb /\ Forall (fun i => i < N) r) idx ->
  exists a, tf_pack (map (map col) idx) = Ok a /\ nd_struct a = (canonical x64 (nd_dtype (col 0)), ca :: mb :: nd_shape (col 0)).
Proof using.
  clear pick. intros Hca Hmb HN Hs Hl Hf. unfold tf_pack.
  assert (Hin : forall e, In e (concat (map (map col) idx)) -> nd_struct e = nd_struct (col 0)).
  { intros e He. apply in_concat in He. destruct He as (r & Hr & He). apply in_map_iff in Hr. destruct Hr as (r0 & <- & Hr). apply in_map_iff in He. destruct He as (i & <- & Hi).
    rewrite Forall_forall in Hf. destruct (Hf r0 Hr) as [_ F]. rewrite Forall_forall in F. apply Hs; auto. }
  destruct (concat (map (map col) idx)) as [|e0 es] eqn:E.
  - exfalso. destruct idx as [|r0 idx]; [cbn in Hl; lia|]. inversion Hf; subst. destruct H1 as [H1 _]. destruct r0; [cbn in H1; lia|discriminate].
  - pose proof (Hin e0 (or_introl eq_refl)) as E0. destruct (forallb _ _) eqn:Ef.
    + eexists. split; [reflexivity|]. unfold nd_struct in *. cbn [nd_dtype nd_shape]. injection E0 as D S. rewrite D, S, map_length, Hl. repeat f_equal.
      destruct idx as [|r0 idx]; [cbn in Hl; lia|]. inversion Hf; subst. cbn. rewrite map_length. tauto.
    + exfalso. rewrite <- not_true_iff_false in Ef. apply Ef. apply forallb_forall. intros e He. destruct (struct_eq_dec _ _) as [|n]; [reflexivity|]. exfalso. apply n. rewrite E0. apply Hin. exact He.
Qed.
(** auxiliary definition of a statement or a proof; models no code of /repo *)
Definition column_format (ca mb : nat) (columns : list (string * (nat -> nd V))) : format := map (fun kc => (fst kc, (canonical x64 (nd_dtype (snd kc 0)), ca :: mb :: nd_shape (snd kc 0)))) columns.
Lemma pack_all_ok N columns idx ca mb : 0 < ca -> 0 < mb -> 0 < N -> Forall (one_shape N) columns -> length idx = ca -> Forall (fun r => length r = mb /\ Forall (fun i => i < N) r) idx ->
  exists d, tf_pack_all (map (fun kf => (fst kf, map (map (snd kf)) idx)) columns) = Ok d /\ format_of d = column_format ca mb columns.
Proof using.
  intros Hca Hmb HN Hc Hl Hf. induction columns as [|kc columns IH]; [exists []; auto|]. destruct kc as [k col]. pose proof (Forall_inv Hc) as H1. destruct (IH (Forall_inv_tail Hc)) as (d & E & F). cbn [map tf_pack_all fst snd].
  destruct (@pack_ok N col idx ca mb Hca Hmb HN H1 Hl Hf) as (a & Ea & Sa). rewrite Ea. cbn [bind]. rewrite E. cbn [bind]. eexists. split; [reflexivity|].
  cbn [format_of column_format map fst snd]. rewrite Sa. f_equal. exact F.
Qed.

Variable columns : list (string * (nat -> nd V)).
Variable N B : nat.
Variable exclude : list string.
Hypothesis HB : 0 < B.
Hypothesis Hex1 : NoDup exclude.
Hypothesis Hex2 : incl exclude (map fst columns).
Hypothesis Hone : Forall (one_shape N) (remaining exclude columns).
(** auxiliary definition of a statement or a proof; models no code of /repo *)
Definition tf_ok (l : tloader (nd V)) : Prop := tl_columns l = columns /\ tl_count l = N /\ tl_exclude l = exclude /\ tl_buffer l = B /\
  Forall (fun c => tc_ok N (tc_ca c) (tc_mb c) c /\ 0 < tc_ca c /\ 0 < tc_mb c /\ 0 < N) (tl_chains l).
(** auxiliary definition of a statement or a proof; models no code of /repo *)
Definition tf_chains (l : tloader (nd V)) : list (nat * nat) := map (fun c => (tc_ca c, tc_mb c)) (tl_chains l).
Lemma tf_get_spec l c ca mb : tf_ok l -> nth_error (tf_chains l) c = Some (ca, mb) -> tf_ok (fst (tfa_get l c)) /\ tf_chains (fst (tfa_get l c)) = tf_chains l /\
  exists d, snd (tfa_get l c) = Ok (d, None) /\ 0 < ca /\ format_of d = column_format ca mb (remaining exclude columns).
Proof using Hex1 Hex2 Hone.
  intros (O1 & O2 & O3 & O4 & O5) Hc. unfold tf_chains in Hc. rewrite nth_error_map in Hc. destruct (nth_error (tl_chains l) c) as [ch|] eqn:Ec; [|discriminate]. injection Hc as <- <-.
  assert (Hch : tc_ok N (tc_ca ch) (tc_mb ch) ch /\ 0 < tc_ca ch /\ 0 < tc_mb ch /\ 0 < N) by (rewrite Forall_forall in O5; apply O5; eapply nth_error_In; exact Ec). destruct Hch as (C1 & C2 & C3 & C4).
  unfold tfa_get, tf_get. rewrite Ec, O2. destruct (@next_inv N c (tc_ca ch) (tc_mb ch) ch C4 C1) as (N1 & N2 & N3). destruct (tf_next pick N c ch) as [c' idx]. cbn [fst snd] in *.
  rewrite O1, O3. rewrite del_keys_ok; [|exact Hex1|rewrite map_map; exact Hex2]. cbn [bind]. rewrite remaining_map with (f := fun col => map (map col) idx).
  destruct (@pack_all_ok N (remaining exclude columns) idx (tc_ca ch) (tc_mb ch) C2 C3 C4 Hone N3 N2) as (d & Ed & Fd). rewrite Ed. cbn [bind fst snd].
  pose proof N1 as (_ & _ & M1 & M2). split; [|split].
  - repeat split; cbn [tl_columns tl_count tl_exclude tl_buffer tl_chains]; auto. apply Forall_forall. intros x Hx. apply In_nth_error in Hx. destruct Hx as [j Hj]. destruct (Nat.eq_dec j c) as [-> |Hn].
    + rewrite (@nth_upd_same' _ _ _ _ _ Ec) in Hj. injection Hj as <-. rewrite M1, M2. auto.
    + rewrite nth_upd_other' in Hj by exact Hn. rewrite Forall_forall in O5. apply O5. eapply nth_error_In. exact Hj.
  - unfold tf_chains. cbn [tl_chains]. apply (@map_upd_same _ _ _ _ _ _ ch Ec). rewrite M1, M2. reflexivity.
  - exists d. auto.
Qed.
Lemma tf_register_spec spec l ca mb extra : tf_ok l -> 0 < ca -> 0 < mb <= N -> registers tf_ok tf_chains l ca mb (h_random (tf_hloader spec exclude N) l ca mb extra).
Proof using HB.
  intros (O1 & O2 & O3 & O4 & O5) Hca Hmb. cbn [h_random tf_hloader h_count]. unfold registers, tf_register. destruct extra; cbn [fst snd]; [split; [repeat split; auto|reflexivity]|]. split.
  + repeat split; cbn [tl_columns tl_count tl_exclude tl_buffer tl_chains]; auto. apply Forall_app. split; [exact O5|]. constructor; [|constructor]. cbn [tc_ca tc_mb]. rewrite O2, O4.
    split; [|lia]. repeat split; cbn [tc_buf].
    * apply Forall_forall. intros x Hx. apply in_map_iff in Hx. destruct Hx as (i & <- & _). apply Nat.mod_upper_bound. lia.
    * destruct B; [lia|discriminate].
  + unfold tf_chains. cbn [tl_chains]. rewrite map_app, map_length. split; reflexivity.
Qed.
Lemma tf_regular spec : (forall ca mb, column_format ca mb (remaining exclude columns) = canonical_format x64 (h_batch_format (tf_hloader spec exclude N) ca mb)) ->
  regular (tf_hloader spec exclude N) x64 tf_ok tf_chains.
Proof using Hex1 Hex2 Hone HB.
  intros Hf. split; [|split].
  - intros l ca mb extra Ho Hca Hmb. apply tf_register_spec; assumption.
  - intros l ca mb Ho _. unfold registers. cbn. auto.
  - intros l c ca mb Ho Hc. cbn [h_get tf_hloader]. destruct (tf_get_spec c Ho Hc) as (S1 & S2 & d & S3 & S4 & S5). split; [exact S1|]. split; [exact S2|]. rewrite S3. split; [exact S4|]. split; [rewrite <- Hf; exact S5|reflexivity].
Qed.
Lemma tf_new_ok : tf_ok (tl_new columns N exclude B).
Proof using. repeat split. constructor. Qed.
End Tf.
