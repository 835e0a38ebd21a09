From Verif Require Import Base ListUtil NumpyLoader LoaderSpec NumpyLoaderProofs NumpyLoaderApi
  Requests RequestsProofs DataCore DataSpec.
From Coq Require String.
From Coq Require Import ZifyNat ZifyBool.
Set Implicit Arguments.

Lemma jindex_map_seq A (f : nat -> A) a n i : i < n -> jindex (map f (seq a n)) i = Ok (f (a + i)).
Proof.
  intros H. unfold jindex. rewrite map_length, seq_length.
  replace (Nat.min i (n - 1)) with i by lia.
  rewrite map_seq_shift, nth_error_map_seq by assumption. reflexivity.
Qed.

Lemma tree_index_map K B A (f : B -> nat -> A) (g : B -> K) data a n i : i < n ->
  tree_index (map (fun ka => (g ka, map (f ka) (seq a n))) data) i = Ok (map (fun ka => (g ka, f ka (a + i))) data).
Proof.
  intros H. induction data as [|ka data IH]; cbn [map tree_index]; auto.
  rewrite jindex_map_seq by assumption. cbn [bind]. rewrite IH. reflexivity.
Qed.

Lemma nth_error_app_cases A (l : list A) x k y : nth_error (l ++ [x]) k = Some y ->
  nth_error l k = Some y \/ (k = length l /\ y = x).
Proof.
  intros H. destruct (Nat.lt_ge_cases k (length l)).
  - rewrite nth_error_app1 in H by assumption. auto.
  - rewrite nth_error_app2 in H by assumption. destruct (k - length l) as [|m] eqn:E; simpl in H.
    + inversion H; subst. right. split; auto. lia.
    + destruct m; discriminate.
Qed.

Section Core.
Context {G obs : Type}.
Variable choice_repl : G -> nat -> nat -> G * list nat.
Variable choice_perm : G -> nat -> G * list nat.
Variable rng_of_seed : nat -> G.
Hypothesis Hperm : perm_oracle choice_perm.
Hypothesis Hrepl : repl_oracle choice_repl.
Notation get_batches := (NumpyLoader.get_batches choice_repl choice_perm (obs := obs)).
Notation lstep := (NumpyLoader.lstep choice_repl choice_perm rng_of_seed (obs := obs)).
Notation wstep := (@DataCore.wstep G obs choice_repl choice_perm rng_of_seed).
Notation AtChain := (@AtChain G obs choice_repl choice_perm).
Notation chain_output := (@chain_output G obs choice_repl choice_perm).
Notation access_batch := (@access_batch G obs choice_repl choice_perm).
Notation batch_fn := (@DataCore.batch_fn G obs choice_repl choice_perm).
Notation client_batch := (@DataCore.client_batch G obs choice_repl choice_perm).
Notation refresh := (@DataCore.refresh G obs choice_repl choice_perm).
Notation world := (world G obs).

Definition nchains (w : world) : nat := length (l_chains (w_loader w)).

Record GI (w : world) : Prop := {
  gi_cached : r_cached (w_req w) = [];
  gi_chain : forall k cl, nth_error (w_clients w) k = Some cl -> cs_chain (cl_state cl) < nchains w;
  gi_cur : forall c, nchains w <= c -> clookup c (r_current (w_req w)) = None }.

Lemma get_is_lstep l c : get_batches l c = (fst (lstep l (GetBatches c)), snd (get_batches l c)).
Proof. simpl. destruct (get_batches l c); reflexivity. Qed.

Lemma request_shape r c t strict : r_cached r = [] ->
  let (r', o) := request get_batches r c t 1 strict in
  r_cached r' = [] /\ (r_loader r' = r_loader r \/ r_loader r' = fst (lstep (r_loader r) (GetBatches c))) /\
  (forall c', c' <> c -> clookup c' (r_current r') = clookup c' (r_current r)).
Proof.
  intros H. unfold request. rewrite H. simpl tlookup. cbv iota.
  destruct (match clookup c (r_current r) with Some _ => _ | None => _ end).
  - destruct strict; repeat split; auto.
  - rewrite get_is_lstep. destruct (snd (get_batches (r_loader r) c)); simpl r_cached; simpl r_loader; simpl r_current; auto.
    all: repeat split; auto. intros c' Hc. apply clookup_set_other. auto.
Qed.

Lemma batch_fn_shape r cs strict : r_cached r = [] ->
  let (r', o) := batch_fn r cs strict in
  r_cached r' = [] /\
  (r_loader r' = r_loader r \/ r_loader r' = fst (lstep (r_loader r) (GetBatches (cs_chain cs)))) /\
  (forall c', c' <> cs_chain cs -> clookup c' (r_current r') = clookup c' (r_current r)) /\
  (forall cs' b, o = Ok (cs', b) -> cs_chain cs' = cs_chain cs).
Proof.
  intros H. unfold DataCore.batch_fn, DataCore.refresh.
  assert (Hfin : forall cs1 : cstate obs, cs_chain cs1 = cs_chain cs -> forall cs' b,
    (let* mini_batch := tree_index (cs_data cs1) (cs_line cs1 mod cs_count cs1) in
       let* mask := jindex (cs_valid cs1) (cs_line cs1 mod cs_count cs1) in
       Ok (mkC (cs_data cs1) (cs_count cs1) (cs_line cs1 mod cs_count cs1 + 1) (cs_chain cs1) (cs_valid cs1) (cs_token cs1),
           (mini_batch, mask))) = Ok (cs', b) -> cs_chain cs' = cs_chain cs).
  { intros cs1 Hc cs' b. destruct (tree_index _ _); [|discriminate]. simpl.
    destruct (jindex _ _); [|discriminate]. simpl. intros E; inversion E; subst. exact Hc. }
  destruct (cs_line cs =? cs_count cs).
  - pose proof (@request_shape r (cs_chain cs) (cs_token cs) strict H) as Hr.
    destruct (request get_batches r (cs_chain cs) (cs_token cs) 1 strict) as [r' [[[data masks] tok]|e]].
    + destruct Hr as (H1 & H2 & H3). repeat split; auto. intros cs' b. apply (Hfin (mkC data (cs_count cs) 0 (cs_chain cs) masks tok)). reflexivity.
    + destruct Hr as (H1 & H2 & H3). repeat split; auto. intros; discriminate.
  - repeat split; auto. intros cs' b. apply Hfin. reflexivity.
Qed.

(** shape of one call of a batch function *)
Lemma client_batch_shape w k : GI w ->
  let (w', o) := client_batch w k in
  GI w' /\ length (w_clients w') = length (w_clients w) /\
  (forall k', k' <> k -> nth_error (w_clients w') k' = nth_error (w_clients w) k') /\
  (forall c, (forall cl, nth_error (w_clients w) k = Some cl -> cs_chain (cl_state cl) <> c) ->
     clookup c (r_current (w_req w')) = clookup c (r_current (w_req w)) /\
     (w_loader w' = w_loader w \/ exists op, w_loader w' = fst (lstep (w_loader w) op) /\ ~ targets c op)) /\
  (forall cl', nth_error (w_clients w') k = Some cl' -> exists cl, nth_error (w_clients w) k = Some cl /\
     cs_chain (cl_state cl') = cs_chain (cl_state cl)).
Proof.
  intros HG. unfold DataCore.client_batch. destruct (nth_error (w_clients w) k) as [cl|] eqn:Ek.
  2:{ repeat split; auto; try apply HG. intros cl' H; congruence. }
  pose proof (@batch_fn_shape (w_req w) (cl_state cl) (cl_strict cl) (gi_cached HG)) as Hb.
  destruct (batch_fn (w_req w) (cl_state cl) (cl_strict cl)) as [r' o].
  destruct Hb as (H1 & H2 & H3 & H4).
  assert (Hlt : cs_chain (cl_state cl) < nchains w) by (eapply gi_chain; eauto).
  assert (Hgrow : length (l_chains (r_loader r')) = nchains w \/ nchains w <= length (l_chains (r_loader r'))).
  { destruct H2 as [-> | ->]; [left; reflexivity|right]. apply chains_grow. }
  assert (Hgrow' : nchains w <= length (l_chains (r_loader r'))) by lia. clear Hgrow.
  assert (Hcur : forall c, length (l_chains (r_loader r')) <= c -> clookup c (r_current r') = None).
  { intros c Hc. rewrite H3 by lia. apply (gi_cur HG). lia. }
  assert (Hl : forall c, cs_chain (cl_state cl) <> c -> 
     r_loader r' = w_loader w \/ exists op, r_loader r' = fst (lstep (w_loader w) op) /\ ~ targets c op).
  { intros c Hc. destruct H2 as [-> | ->]; [left; reflexivity|right]. eexists. split; [reflexivity|]. simpl. auto. }
  destruct o as [[cs' b]|e].
  - specialize (H4 cs' b eq_refl).
    assert (Hup : forall k' cl', nth_error (upd (w_clients w) k (mkClient cs' (cl_strict cl))) k' = Some cl' ->
        exists cl0, nth_error (w_clients w) k' = Some cl0 /\ cs_chain (cl_state cl') = cs_chain (cl_state cl0)).
    { intros k' cl' H. destruct (Nat.eq_dec k k') as [<-|Hne].
      - rewrite nth_error_upd_same in H by (apply nth_error_Some; congruence). inversion H; subst.
        exists cl. simpl. auto.
      - rewrite nth_error_upd_other in H by assumption. exists cl'. auto. }
    split; [|split; [|split; [|split]]].
    + constructor; cbn [w_req w_clients]; auto.
      intros k' cl' H. apply Hup in H. destruct H as (cl0 & H0 & ->). unfold nchains, w_loader. simpl.
      pose proof (gi_chain HG k' H0). unfold nchains in *. lia.
    + cbn [w_clients]. apply length_upd.
    + intros k' Hne. cbn [w_clients]. apply nth_error_upd_other. auto.
    + intros c Hc. cbn [w_req]. specialize (Hc cl eq_refl). split; [apply H3; auto|]. exact (Hl c Hc).
    + intros cl' H. cbn [w_clients] in H. rewrite nth_error_upd_same in H by (apply nth_error_Some; congruence).
      inversion H; subst. exists cl. simpl. auto.
  - split; [|split; [|split; [|split]]]; cbn [w_clients]; auto.
    + constructor; cbn [w_req w_clients]; auto.
      intros k' cl' H. unfold nchains, w_loader. simpl. pose proof (gi_chain HG k' H). lia.
    + intros c Hc. cbn [w_req]. specialize (Hc cl eq_refl). split; [apply H3; auto|]. exact (Hl c Hc).
    + intros cl' H. exists cl'. split; [congruence|reflexivity].
Qed.

(** shape of creating an access / using the loader: the loader performs a list of operations that
    do not touch existing chains (except for direct loader operations) *)
Lemma with_loader_GI w ops : GI w -> 
  GI (mkW (with_loader (w_req w) (fst (run lstep (w_loader w) ops))) (w_clients w)).
Proof.
  intros HG.
  assert (Hg : nchains w <= length (l_chains (fst (run lstep (w_loader w) ops)))).
  { unfold nchains. generalize (w_loader w) as l. induction ops as [|op ops IH]; intros l; simpl; auto.
    pose proof (@chains_grow _ _ choice_repl choice_perm rng_of_seed op l) as Hc.
    destruct (lstep l op) as [l1 o]. simpl in Hc. specialize (IH l1). destruct (run lstep l1 ops). simpl in *. lia. }
  constructor; cbn [w_req w_clients with_loader r_cached r_current].
  - apply HG.
  - intros k cl H. pose proof (gi_chain HG k H) as Hk. eapply Nat.lt_le_trans; [exact Hk|exact Hg].
  - intros c Hc. apply (gi_cur HG). eapply Nat.le_trans; [exact Hg|exact Hc].
Qed.

Lemma init_cache_shape w l ca cid st op1 : GI w -> l = fst (lstep (w_loader w) op1) ->
  cid = nchains w -> length (l_chains l) = S cid ->
  let (w', o) := DataCore.init_cache choice_repl choice_perm w l ca cid st in
  GI w' /\ w_loader w' = fst (run lstep (w_loader w) [op1; GetBatches cid]) /\
  r_current (w_req w') = r_current (w_req w) /\
  (w_clients w' = w_clients w \/ exists cl, w_clients w' = w_clients w ++ [cl] /\ cs_chain (cl_state cl) = cid).
Proof.
  intros HG Hl Hcid Hlen. unfold DataCore.init_cache.
  rewrite get_is_lstep.
  assert (Hrun : fst (run lstep (w_loader w) [op1; GetBatches cid]) = fst (lstep l (GetBatches cid))).
  { rewrite Hl. cbn [run]. destruct (lstep (w_loader w) op1) as [l1 o1]. cbn [fst].
    destruct (lstep l1 (GetBatches cid)). reflexivity. }
  pose proof (with_loader_GI [op1; GetBatches cid] HG) as HG'. rewrite Hrun in HG'.
  rewrite Hrun.
  destruct (snd (get_batches l cid)) as [[data masks]|e].
  - split; [|split; [|split]]; auto.
    + destruct HG' as [A B C]. constructor; auto.
      cbn [w_clients]. intros k cl H. apply nth_error_app_cases in H. destruct H as [H|[-> ->]].
      * specialize (B k cl H). exact B.
      * cbn [cl_state cs_chain]. unfold nchains, w_loader. simpl.
        pose proof (@chains_grow _ _ choice_repl choice_perm rng_of_seed (GetBatches cid) l) as Hc. simpl in Hc.
        lia.
    + right. eexists. split; reflexivity.
  - split; [|split; [|split]]; auto.
Qed.

(** one step of the world: what it does to a chain [c] and to the accesses *)
Definition wtargets (w : world) (c : nat) (o : wop G) : Prop :=
  match o with
  | WBatch k => exists cl, nth_error (w_clients w) k = Some cl /\ cs_chain (cl_state cl) = c
  | WLoader op => targets c op
  | _ => False
  end.

Lemma reg_random_shape (l : loader G obs) ca mb ie sh sd : 
  let (l', o) := register_random rng_of_seed l ca mb ie sh sd in
  l' = fst (lstep l (RegRandom ca mb ie sh sd)) /\
  match o with Ok cid => cid = length (l_chains l) /\ length (l_chains l') = S cid | Exc _ => l' = l end.
Proof.
  simpl. unfold register_random. destruct (_ <? _); [auto|]. destruct (_ && _); [auto|]. destruct (_ =? _); [auto|].
  split; auto. split; auto. simpl. rewrite app_length. simpl. lia.
Qed.
Lemma reg_ordered_shape (l : loader G obs) ca mb : 
  let (l', o) := register_ordered l ca mb in
  l' = fst (lstep l (RegOrdered ca mb)) /\
  match o with Ok cid => cid = length (l_chains l) /\ length (l_chains l') = S cid | Exc _ => l' = l end.
Proof.
  simpl. unfold register_ordered. destruct (_ <=? _); [|auto].
  split; auto. split; auto. simpl. rewrite app_length. simpl. lia.
Qed.

Lemma wstep_shape w o : GI w ->
  let w' := fst (wstep w o) in
  GI w' /\
  (forall c, ~ wtargets w c o -> c < nchains w ->
     clookup c (r_current (w_req w')) = clookup c (r_current (w_req w)) /\
     exists ops, w_loader w' = fst (run lstep (w_loader w) ops) /\ Forall (fun op => ~ targets c op) ops) /\
  (forall k, o <> WBatch k -> k < length (w_clients w) -> nth_error (w_clients w') k = nth_error (w_clients w) k) /\
  (forall k cl', nth_error (w_clients w') k = Some cl' ->
     (exists cl, nth_error (w_clients w) k = Some cl /\ cs_chain (cl_state cl') = cs_chain (cl_state cl))
     \/ nchains w <= cs_chain (cl_state cl')).
Proof.
  intros HG.
  assert (Hinit : forall l' ca cid st op1, l' = fst (lstep (w_loader w) op1) -> (forall c, ~ targets c op1) -> 
     cid = length (l_chains (w_loader w)) -> length (l_chains l') = S cid ->
     let w' := fst (DataCore.init_cache choice_repl choice_perm w l' ca cid st) in
     GI w' /\
  (forall c, c < nchains w ->
     clookup c (r_current (w_req w')) = clookup c (r_current (w_req w)) /\
     exists ops, w_loader w' = fst (run lstep (w_loader w) ops) /\ Forall (fun op => ~ targets c op) ops) /\
  (forall k, k < length (w_clients w) -> nth_error (w_clients w') k = nth_error (w_clients w) k) /\
  (forall k cl', nth_error (w_clients w') k = Some cl' ->
     (exists cl, nth_error (w_clients w) k = Some cl /\ cs_chain (cl_state cl') = cs_chain (cl_state cl))
     \/ nchains w <= cs_chain (cl_state cl'))).
  { intros l' ca cid st op1 Hl' Hop Hcid Hlen.
    pose proof (@init_cache_shape w l' ca cid st op1 HG Hl' Hcid Hlen) as H.
    destruct (DataCore.init_cache _ _ _ _ _ _ _) as [w' o']. cbn [fst].
    destruct H as (H1 & H2 & H3 & H4). split; [exact H1|]. split; [|split].
    - intros c Hc. split; [now rewrite H3|]. exists [op1; GetBatches cid]. split; auto.
      constructor; auto. constructor; auto. simpl. unfold nchains in Hc. lia.
    - intros k Hk. destruct H4 as [->|(cl & -> & _)]; auto. now apply nth_error_app1.
    - intros k cl' H. destruct H4 as [H4|(cl & H4 & Hcl)]; rewrite H4 in H.
      + left. exists cl'. auto.
      + apply nth_error_app_cases in H. destruct H as [H|[-> ->]].
        * left. exists cl'. auto.
        * right. rewrite Hcl, Hcid. unfold nchains. lia. }
  assert (Hid : GI w /\
     (forall c, c < nchains w -> clookup c (r_current (w_req w)) = clookup c (r_current (w_req w)) /\
     exists ops, w_loader w = fst (run lstep (w_loader w) ops) /\ Forall (fun op => ~ targets c op) ops) /\
     (forall k cl', nth_error (w_clients w) k = Some cl' ->
     (exists cl, nth_error (w_clients w) k = Some cl /\ cs_chain (cl_state cl') = cs_chain (cl_state cl))
     \/ nchains w <= cs_chain (cl_state cl'))).
  { split; auto. split; eauto. intros c Hc. split; auto. exists []. split; auto. }
  assert (Hsame : mkW (with_loader (w_req w) (w_loader w)) (w_clients w) = w)
    by (destruct w as [[] ?]; reflexivity).
  destruct Hid as (Hi1 & Hi2 & Hi3).
  destruct o as [ca mb ie sh sd st|ca mb|k|op]; simpl.
  - unfold random_init. destruct (_ <? _); [simpl; split; [exact Hi1|split; [intros; apply Hi2; auto|split; auto]]|].
    destruct (_ || _); [simpl; split; [exact Hi1|split; [intros; apply Hi2; auto|split; auto]]|].
    pose proof (@reg_random_shape (w_loader w) ca mb ie sh sd) as Hr.
    destruct (register_random _ _ _ _ _ _ _) as [l' [cid|e]]; destruct Hr as (Hr1 & Hr2).
    + destruct Hr2 as (Hr2 & Hr3).
      specialize (Hinit l' ca cid st _ Hr1 ltac:(simpl; tauto) Hr2 Hr3).
      destruct (DataCore.init_cache _ _ _ _ _ _ _) as [w' o']. cbn [fst] in *.
      destruct Hinit as (A & B & C & D). split; [exact A|split; [intros; apply B; auto|split; auto]].
    + subst l'. rewrite Hr2, Hsame. simpl. split; [exact Hi1|split; [intros; apply Hi2; auto|split; auto]].
  - unfold full_init. destruct (_ <? _); [simpl; split; [exact Hi1|split; [intros; apply Hi2; auto|split; auto]]|].
    destruct (_ =? _); [simpl; split; [exact Hi1|split; [intros; apply Hi2; auto|split; auto]]|].
    pose proof (@reg_ordered_shape (w_loader w) ca mb) as Hr.
    destruct (register_ordered _ _ _) as [l' [cid|e]]; destruct Hr as (Hr1 & Hr2).
    + destruct Hr2 as (Hr2 & Hr3).
      specialize (Hinit l' ca cid true _ Hr1 ltac:(simpl; tauto) Hr2 Hr3).
      destruct (DataCore.init_cache _ _ _ _ _ _ _) as [w' o']. cbn [fst] in *.
      destruct Hinit as (A & B & C & D). split; [exact A|split; [intros; apply B; auto|split; auto]].
    + subst l'. rewrite Hr2, Hsame. simpl. split; [exact Hi1|split; [intros; apply Hi2; auto|split; auto]].
  - pose proof (@client_batch_shape w k HG) as H. destruct (client_batch w k) as [w' o']. cbn [fst].
    destruct H as (H1 & H2 & H3 & H4 & H5). split; [exact H1|]. split; [|split].
    + intros c Hc Hlt. destruct (H4 c) as (Ha & Hb).
      { intros cl Hcl E. apply Hc. exists cl. auto. }
      split; auto. destruct Hb as [->|(op & -> & Hop)].
      * exists []. split; auto.
      * exists [op]. split; [cbn [run]; destruct (lstep (w_loader w) op); reflexivity|]. constructor; auto.
    + intros k' Hk _. apply H3. congruence.
    + intros k' cl' H. left. destruct (Nat.eq_dec k' k) as [->|Hne]; [auto|].
      rewrite H3 in H by assumption. exists cl'. auto.
  - pose proof (with_loader_GI [op] HG) as HG'. cbn [run] in HG'.
    destruct (lstep (w_loader w) op) as [l' o'] eqn:El. cbn [fst] in *. split; [exact HG'|]. split; [|split].
    + intros c Hc Hlt. split; auto. exists [op]. split; [|constructor; auto].
      unfold w_loader at 1. simpl. rewrite El. reflexivity.
    + auto.
    + intros k cl' H. left. exists cl'. auto.
Qed.

(** ** one access *)
Section Access.
Variable data : list (String.string * list obs).
Variables N cid ca k : nat.
Variable r : reg G.
Hypothesis Hreg : reg_ok N r.
Hypothesis Hca : 0 < ca.

Record CInv (n : nat) (w : world) : Prop := {
  ci_gi : GI w;
  ci_cl : exists cl g, nth_error (w_clients w) k = Some cl /\
     AtChain data N r ca cid (S g) (w_loader w) /\
     cs_chain (cl_state cl) = cid /\ cs_count (cl_state cl) = ca /\
     chain_output data N r ca g = Ok (cs_data (cl_state cl), cs_valid (cl_state cl)) /\
     n = g * ca + cs_line (cl_state cl) /\ cs_line (cl_state cl) <= ca /\
     match clookup cid (r_current (w_req w)) with None => True | Some t => t = cs_token (cl_state cl) end;
  ci_uniq : forall k' cl', k' <> k -> nth_error (w_clients w) k' = Some cl' -> cs_chain (cl_state cl') <> cid }.

Lemma chain_output_index g : chain_output data N r ca g =
  Ok (map (fun ka => (fst ka, map (fun j => select (snd ka) (fst (spec_batch choice_repl choice_perm N r j))) (seq (g * ca) ca))) data,
      map (fun j => snd (spec_batch choice_repl choice_perm N r j)) (seq (g * ca) ca)).
Proof.
  unfold LoaderSpec.chain_output. destruct (Nat.eqb_spec ca 0); [lia|]. rewrite map_map.
  f_equal. f_equal. apply map_ext. intros ka. now rewrite map_map.
Qed.

Lemma cache_read g cs line : chain_output data N r ca g = Ok (cs_data cs, cs_valid cs) -> line < ca ->
  tree_index (cs_data cs) line = Ok (fst (access_batch data N r (g * ca + line))) /\
  jindex (cs_valid cs) line = Ok (snd (access_batch data N r (g * ca + line))).
Proof.
  intros H Hl. rewrite chain_output_index in H. inversion H as [[H1 H2]]. clear H.
  split.
  - rewrite (tree_index_map (fun ka j => select (snd ka) (fst (spec_batch choice_repl choice_perm N r j))) (fun ka => fst ka)) by assumption. reflexivity.
  - rewrite jindex_map_seq by assumption. reflexivity.
Qed.

Lemma step_own n w : CInv n w ->
  let (w', o) := client_batch w k in
  o = Ok (access_batch data N r n) /\ CInv (S n) w'.
Proof.
  intros [HG (cl & g & Hk & Hat & Hch & Hco & Hout & Hn & Hle & Htok) Hu].
  pose proof (@client_batch_shape w k HG) as Hshape.
  unfold DataCore.client_batch in *. rewrite Hk in *.
  unfold DataCore.batch_fn, DataCore.refresh in *. rewrite Hco in *.
  assert (Hlenk : k < length (w_clients w)) by (apply nth_error_Some; congruence).
  destruct (Nat.eqb_spec (cs_line (cl_state cl)) ca) as [Hline|Hline].
  - clear Hshape. unfold request in *. rewrite (gi_cached HG) in *. simpl tlookup in *. cbv iota in *. rewrite Hch in *.
    assert (Hinv : match clookup cid (r_current (w_req w)) with
                   | None => false | Some t => negb (token_eqb t (cs_token (cl_state cl))) end = false).
    { destruct (clookup cid _); auto. subst t. now rewrite token_eqb_refl. }
    rewrite Hinv in *.
    destruct (@get_step G obs choice_repl choice_perm rng_of_seed Hperm Hrepl data N r ca cid (S g) (w_loader w) Hreg Hat) as (Hg1 & Hg2).
    change (r_loader (w_req w)) with (w_loader w) in *.
    destruct (get_batches (w_loader w) cid) as [l' o] eqn:Eg. cbn [fst snd] in Hg1, Hg2. subst o.
    change (@tlookup (nat * batches obs * token) (cs_token (cl_state cl)) []) with (@None (nat * batches obs * token)). rewrite (chain_output_index (S g)). cbn beta iota zeta delta [bind cs_line cs_count cs_data cs_valid cs_chain cs_token Nat.eqb].
    rewrite Nat.mod_0_l by lia.
    assert (Hr := @cache_read (S g) (mkC
      (map (fun ka => (fst ka, map (fun j => select (snd ka) (fst (spec_batch choice_repl choice_perm N r j))) (seq (S g * ca) ca))) data)
      ca 0 cid (map (fun j => snd (spec_batch choice_repl choice_perm N r j)) (seq (S g * ca) ca)) (TNew 0)) 0
      (chain_output_index (S g)) Hca).
    cbn [cs_data cs_valid] in Hr. destruct Hr as [Hr1 Hr2]. rewrite Hr1, Hr2. cbn [bind].
    assert (S g * ca + 0 = n) as En by lia. rewrite En.
    split; [now rewrite <- surjective_pairing|].
    assert (Hgr : length (l_chains l') = nchains w \/ nchains w <= length (l_chains l')).
    { right. replace l' with (fst (lstep (w_loader w) (GetBatches cid))) by (simpl; now rewrite Eg). apply chains_grow. }
    assert (Hcl : cid < nchains w) by (rewrite <- Hch; eapply gi_chain; eauto).
    constructor; cbn [w_req w_clients r_cached r_current r_loader].
    + constructor; cbn [w_req w_clients r_cached r_current]; auto.
      * intros k' cl' H. unfold nchains, w_loader. cbn [w_req r_loader].
        destruct (Nat.eq_dec k k') as [<-|Hne].
        -- rewrite nth_error_upd_same in H by assumption. inversion H; subst cl'. cbn [cl_state cs_chain]. lia.
        -- rewrite nth_error_upd_other in H by assumption. pose proof (gi_chain HG k' H). lia.
      * unfold nchains, w_loader. cbn [w_req r_loader]. intros c Hc.
        rewrite clookup_set_other by lia. apply (gi_cur HG). lia.
    + eexists. exists (S g). rewrite nth_error_upd_same by assumption. split; [reflexivity|].
      cbn [cl_state cs_chain cs_count cs_data cs_valid cs_line cs_token].
      unfold w_loader. cbn [w_req r_loader]. repeat split; auto.
      * apply Hg2.
      * apply Hg2.
      * apply Hg2.
      * apply Hg2.
      * now rewrite chain_output_index.
      * lia.
      * rewrite clookup_set_same. reflexivity.
    + intros k' cl' Hne H. rewrite nth_error_upd_other in H by auto. eauto.
  - cbn beta iota zeta delta [bind] in Hshape |- *. rewrite Hco in *. rewrite (Nat.mod_small (cs_line (cl_state cl)) ca) in * by lia.
    destruct (@cache_read g (cl_state cl) (cs_line (cl_state cl)) Hout ltac:(lia)) as [Hr1 Hr2].
    rewrite Hr1, Hr2 in *. cbn beta iota zeta delta [bind] in Hshape |- *. rewrite <- Hn in *.
    split; [now rewrite <- surjective_pairing|].
    destruct Hshape as (HG' & _ & Hoth & _).
    constructor; [exact HG'| |].
    + eexists. exists g. cbn [w_clients]. rewrite nth_error_upd_same by assumption. split; [reflexivity|].
      cbn [cl_state cs_chain cs_count cs_data cs_valid cs_line cs_token]. repeat split; auto.
      * apply Hat.
      * apply Hat.
      * apply Hat.
      * apply Hat.
      * lia.
      * lia.
    + intros k' cl' Hne H. cbn [w_clients] in H. rewrite nth_error_upd_other in H by auto. eauto.
Qed.

Lemma AtChain_other n l ops : AtChain data N r ca cid n l -> Forall (fun op => ~ targets cid op) ops ->
  AtChain data N r ca cid n (fst (run lstep l ops)).
Proof.
  revert l. induction ops as [|op ops IH]; intros l Hat Hf; simpl; auto.
  inversion Hf; subst.
  assert (AtChain data N r ca cid n (fst (lstep l op))) as H.
  { destruct Hat as [Hd (c & Hc & Hi)]. split; [now apply DataOk_step|].
    exists c. split; auto. rewrite other_step; auto. apply nth_error_Some; congruence. }
  destruct (lstep l op) as [l1 o]. simpl in H. specialize (IH l1 H ltac:(assumption)).
  destruct (run lstep l1 ops). exact IH.
Qed.

Lemma step_foreign n w o : CInv n w -> o <> WBatch k -> (forall op, o = WLoader op -> ~ targets cid op) ->
  CInv n (fst (wstep w o)).
Proof.
  intros [HG (cl & g & Hk & Hat & Hch & Hco & Hout & Hn & Hle & Htok) Hu] Hne Hl.
  destruct (@wstep_shape w o HG) as (H1 & H2 & H3 & H4).
  assert (Hlt : cid < nchains w) by (rewrite <- Hch; eapply gi_chain; eauto).
  assert (Hnt : ~ wtargets w cid o).
  { destruct o as [? ? ? ? ? ?|? ?|k'|op]; simpl; try tauto.
    - intros (cl' & Hcl' & E). exact (Hu k' cl' ltac:(congruence) Hcl' E).
    - apply Hl. reflexivity. }
  destruct (H2 cid Hnt Hlt) as (Hc & ops & Hops & Hf).
  constructor; auto.
  - exists cl, g. rewrite H3, Hc, Hops by (auto; apply nth_error_Some; congruence). repeat split; auto;
    apply (AtChain_other Hat Hf).
  - intros k' cl' Hk' H. destruct (H4 k' cl' H) as [(cl0 & Hcl0 & ->)|Hge]; [eauto|]. lia.
Qed.

Lemma run_access h : forall n w, CInv n w -> hands_off cid h ->
  wouts k h (snd (run wstep w h)) = map (fun i => Ok (access_batch data N r i)) (seq n (num_batches k h)) /\
  CInv (n + num_batches k h) (fst (run wstep w h)).
Proof.
  induction h as [|o h IH]; intros n w HC Hh; simpl.
  - rewrite Nat.add_0_r. auto.
  - assert (Hh' : hands_off cid h) by (intros op Hop; apply Hh; simpl; auto).
    assert (Hforeign : o <> WBatch k -> CInv n (fst (wstep w o))).
    { intros Hne. apply step_foreign; auto. intros op ->. destruct (Hh op (or_introl eq_refl)) as [Ha Hb].
      destruct op as [? ? ? ? ?|? ?|c|c ck]; simpl; try tauto; [exact (Ha c eq_refl)|exact (Hb c ck eq_refl)]. }
    destruct o as [ca' mb ie sh sd st|ca' mb|k'|op].
    + specialize (Hforeign ltac:(discriminate)). destruct (wstep w _) as [w1 o1] eqn:E1. simpl in Hforeign.
      destruct (IH n w1 Hforeign Hh'). destruct (run wstep w1 h). simpl. auto.
    + specialize (Hforeign ltac:(discriminate)). destruct (wstep w _) as [w1 o1] eqn:E1. simpl in Hforeign.
      destruct (IH n w1 Hforeign Hh'). destruct (run wstep w1 h). simpl. auto.
    + destruct (Nat.eqb_spec k' k) as [->|Hne].
      * simpl wstep. pose proof (step_own HC) as Hown. destruct (client_batch w k) as [w1 o1].
        destruct Hown as [-> HC1]. destruct (IH (S n) w1 HC1 Hh') as [I1 I2].
        destruct (run wstep w1 h) as [w2 outs]. simpl in *. rewrite ?Nat.eqb_refl. rewrite I1.
        replace (n + S (num_batches k h)) with (S n + num_batches k h) by lia. auto.
      * specialize (Hforeign ltac:(congruence)). simpl wstep in *. destruct (client_batch w k') as [w1 o1].
        simpl in Hforeign. destruct (IH n w1 Hforeign Hh') as [I1 I2]. destruct (run wstep w1 h). simpl in *.
        destruct (Nat.eqb_spec k' k); [congruence|]. auto.
    + specialize (Hforeign ltac:(discriminate)). destruct (wstep w _) as [w1 o1] eqn:E1. simpl in Hforeign.
      destruct (IH n w1 Hforeign Hh'). destruct (run wstep w1 h). simpl. auto.
Qed.
End Access.

Lemma GI_run h : forall w, GI w -> GI (fst (run wstep w h)).
Proof.
  induction h as [|o h IH]; intros w HG; simpl; auto.
  destruct (@wstep_shape w o HG) as (H1 & _). destruct (wstep w o) as [w1 o1]. simpl in H1.
  specialize (IH w1 H1). destruct (run wstep w1 h). exact IH.
Qed.

Lemma DataOk_wrun data N h : forall w, GI w -> DataOk data N (w_loader w) ->
  DataOk data N (w_loader (fst (run wstep w h))).
Proof.
  induction h as [|o h IH]; intros w HG HD; simpl; auto.
  destruct (@wstep_shape w o HG) as (H1 & _).
  assert (HD1 : DataOk data N (w_loader (fst (wstep w o)))).
  { assert (Hget : forall l c, DataOk data N l -> DataOk data N (fst (get_batches l c))).
    { intros l c H. pose proof (@DataOk_step _ _ choice_repl choice_perm rng_of_seed data N l (GetBatches c) H) as H'.
      simpl in H'. destruct (get_batches l c). exact H'. }
    assert (Hinit : forall l' ca cid st, DataOk data N l' ->
      DataOk data N (w_loader (fst (DataCore.init_cache choice_repl choice_perm w l' ca cid st)))).
    { intros l' ca cid st H. unfold DataCore.init_cache. pose proof (Hget l' cid H) as Hg.
      destruct (get_batches l' cid) as [l2 [[d m]|e]]; exact Hg. }
    destruct o as [ca mb ie sh sd st|ca mb|k|op]; simpl.
    - unfold random_init. destruct (_ <? _); [exact HD|]. destruct (_ || _); [exact HD|].
      pose proof (@reg_random_shape (w_loader w) ca mb ie sh sd) as Hr.
      destruct (register_random _ _ _ _ _ _ _) as [l' [cid|e]]; destruct Hr as (Hr1 & _).
      + specialize (Hinit l' ca cid st). destruct (DataCore.init_cache _ _ _ _ _ _ _). apply Hinit.
        rewrite Hr1. now apply DataOk_step.
      + unfold w_loader; simpl. rewrite Hr1. now apply (@DataOk_step _ _ choice_repl choice_perm).
    - unfold full_init. destruct (_ <? _); [exact HD|]. destruct (_ =? _); [exact HD|].
      pose proof (@reg_ordered_shape (w_loader w) ca mb) as Hr.
      destruct (register_ordered _ _ _) as [l' [cid|e]]; destruct Hr as (Hr1 & _).
      + specialize (Hinit l' ca cid true). destruct (DataCore.init_cache _ _ _ _ _ _ _). apply Hinit.
        rewrite Hr1. now apply DataOk_step.
      + unfold w_loader; simpl. rewrite Hr1. now apply (@DataOk_step _ _ choice_repl choice_perm).
    - unfold DataCore.client_batch. destruct (nth_error (w_clients w) k) as [cl|]; [|exact HD].
      pose proof (@batch_fn_shape (w_req w) (cl_state cl) (cl_strict cl) (gi_cached HG)) as Hb.
      destruct (batch_fn (w_req w) (cl_state cl) (cl_strict cl)) as [r' [[cs' b]|e]];
      destruct Hb as (_ & Hl & _); unfold w_loader; simpl.
      + destruct Hl as [-> | ->]; [exact HD|]. now apply (@DataOk_step _ _ choice_repl choice_perm rng_of_seed data N (r_loader (w_req w)) (GetBatches (cs_chain (cl_state cl)))).
      + destruct Hl as [-> | ->]; [exact HD|]. now apply (@DataOk_step _ _ choice_repl choice_perm rng_of_seed data N (r_loader (w_req w)) (GetBatches (cs_chain (cl_state cl)))).
    - pose proof (@DataOk_step _ _ choice_repl choice_perm rng_of_seed data N (w_loader w) op HD) as H.
      destruct (lstep (w_loader w) op). exact H. }
  destruct (wstep w o) as [w1 o1]. simpl in *. specialize (IH w1 H1 HD1). destruct (run wstep w1 h). exact IH.
Qed.

Lemma GI_init l : l_chains l = [] -> GI (w_init l).
Proof.
  intros H. constructor; simpl; auto. intros k cl Hk. destruct k; discriminate.
Qed.

(** creating an access establishes the invariant *)
Lemma access_created data N w o r ca w' k : GI w -> DataOk data N (w_loader w) ->
  accesses w rng_of_seed o r ca -> wstep w o = (w', WoInit (Ok k)) ->
  reg_ok N r /\ 0 < ca /\ k = length (w_clients w) /\ CInv data N (nchains w) ca k r 0 w'.
Proof.
  intros HG HD Ha Hw.
  assert (Hmain : forall l' op1 cid st, l' = fst (lstep (w_loader w) op1) ->
     cid = nchains w -> length (l_chains l') = S cid -> reg_ok N r -> AtChain data N r ca cid 0 l' ->
     DataCore.init_cache choice_repl choice_perm w l' ca cid st = (w', Ok k) ->
     0 < ca /\ k = length (w_clients w) /\ CInv data N cid ca k r 0 w').
  { intros l' op1 cid st Hl' Hcid Hlen Hreg Hat Hi.
    pose proof (@init_cache_shape w l' ca cid st op1 HG Hl' Hcid Hlen) as Hs. rewrite Hi in Hs.
    destruct Hs as (HG' & _ & Hcur & _).
    unfold DataCore.init_cache in Hi.
    destruct (@get_step G obs choice_repl choice_perm rng_of_seed Hperm Hrepl data N r ca cid 0 l' Hreg Hat) as (Hg1 & Hg2).
    destruct (get_batches l' cid) as [l2 [[d m]|e]]; [|discriminate].
    cbn [fst snd] in Hg1, Hg2. inversion Hi; subst w' k. clear Hi.
    assert (Hca : 0 < ca).
    { symmetry in Hg1. unfold LoaderSpec.chain_output in Hg1. destruct (Nat.eqb_spec ca 0); [discriminate|lia]. }
    split; [exact Hca|]. split; [reflexivity|]. constructor; auto.
    - eexists. exists 0. cbn [w_clients]. rewrite nth_error_app2, Nat.sub_diag by lia. split; [reflexivity|].
      cbn [cl_state cs_chain cs_count cs_data cs_valid cs_line cs_token].
      unfold w_loader. cbn [w_req with_loader r_loader r_current].
      split; [exact Hg2|]. repeat split; auto; try lia.
      rewrite (gi_cur HG) by (rewrite Hcid; unfold nchains; lia). exact I.
    - intros k' cl' Hne H. cbn [w_clients] in H. apply nth_error_app_cases in H.
      destruct H as [H|[-> ->]]; [|congruence]. pose proof (gi_chain HG k' H). lia. }
  inversion Ha; subst o r ca0; subst; simpl in Hw.
  - unfold random_init in Hw. destruct (_ <? _); [discriminate|]. destruct (_ || _); [discriminate|].
    pose proof (@reg_random_shape (w_loader w) ca mb ie sh sd) as Hr.
    destruct (register_random _ _ _ _ _ _ _) as [l' [cid|e]] eqn:Er; [|discriminate].
    destruct Hr as (Hr1 & Hr2 & Hr3).
    destruct (@register_random_ok G obs choice_repl choice_perm rng_of_seed data N (w_loader w) ca mb ie sh sd l' cid HD Er) as (_ & Hok & Hat).
    rewrite Hr2 in Hok, Hat.
    destruct (DataCore.init_cache _ _ _ _ _ _ _) as [w2 o2] eqn:Ei. inversion Hw; subst w2 o2.
    rewrite Hr2 in Ei. split; [exact Hok|].
    eapply Hmain; eauto. unfold nchains. lia.
  - unfold full_init in Hw. destruct (_ <? _); [discriminate|]. destruct (_ =? _); [discriminate|].
    pose proof (@reg_ordered_shape (w_loader w) ca mb) as Hr.
    destruct (register_ordered _ _ _) as [l' [cid|e]] eqn:Er; [|discriminate].
    destruct Hr as (Hr1 & Hr2 & Hr3).
    destruct (@register_ordered_ok G obs choice_repl choice_perm rng_of_seed data N (w_loader w) ca mb l' cid HD Er) as (_ & Hok & Hat).
    rewrite Hr2 in Hat.
    destruct (DataCore.init_cache _ _ _ _ _ _ _) as [w2 o2] eqn:Ei. inversion Hw; subst w2 o2.
    rewrite Hr2 in Ei. split; [exact Hok|].
    eapply Hmain; eauto. unfold nchains. lia.
Qed.
End Core.
