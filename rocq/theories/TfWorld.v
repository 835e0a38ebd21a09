(** Proofs about random data access on a tensorflow loader: the stream of batches. *)
From Coq Require String.
From Verif Require Import Base ListUtil Requests RequestsProofs DataCore DataProofs TfLoader TfSpec TfProofs.
Set Implicit Arguments.

Section World.
Notation string := String.string.
Context {obs : Type}.
Variable pick : nat -> nat -> nat.
Variable columns : list (string * (nat -> obs)).
Variables N B : nat.
Variable exclude : list string.
Hypothesis Hex : NoDup exclude.
Hypothesis Hin : incl exclude (map fst columns).
Notation tf_get := (tf_get pick (obs := obs)).
Notation tstep := (tstep pick (obs := obs)).
Notation answer := (tf_answer columns exclude).
Notation idx := (tf_idx pick N B).

(** auxiliary definition of a statement or a proof; models no code of /repo *)
Definition static (l : tloader obs) : Prop :=
  tl_columns l = columns /\ tl_count l = N /\ tl_exclude l = exclude /\ tl_buffer l = B.

(** auxiliary definition of a statement or a proof; models no code of /repo *)
Definition AtC (c ca mb n : nat) (l : tloader obs) : Prop :=
  nth_error (tl_chains l) c = Some (tc_at pick N B c ca mb (n * ca * mb)).

Lemma answer_eq c ca mb n :
  del_keys exclude (map (fun kf => (fst kf, map (map (snd kf))
     (map (fun b => map (fun j => idx c ((n * ca + b) * mb + j)) (seq 0 mb)) (seq 0 ca)))) columns) =
  Ok (answer ca mb (idx c) n).
Proof.
  rewrite del_keys_ok; [|exact Hex|].
  - f_equal. unfold tf_answer.
    rewrite (@remaining_map _ _ (fun f => map (map f)
      (map (fun b => map (fun j => idx c ((n * ca + b) * mb + j)) (seq 0 mb)) (seq 0 ca)))).
    apply map_ext. intros kf. f_equal. rewrite map_map. apply map_ext. intros b. rewrite map_map. reflexivity.
  - rewrite map_map. exact Hin.
Qed.

Lemma get_at l c ca mb n : static l -> AtC c ca mb n l ->
  exists l', tf_get l c = (l', Ok (answer ca mb (idx c) n)) /\ static l' /\
    AtC c ca mb (S n) l' /\ length (tl_chains l') = length (tl_chains l) /\
    (forall c', c' <> c -> nth_error (tl_chains l') c' = nth_error (tl_chains l) c').
Proof.
  intros (S1 & S2 & S3 & S4) A. unfold TfLoader.tf_get. rewrite A, S2, next_at, S1, S3, answer_eq.
  eexists; split; [reflexivity|]. split; [repeat split; assumption|]. unfold AtC. cbn [tl_chains].
  split; [|split].
  - apply nth_error_upd_same. apply nth_error_Some. unfold AtC in A. congruence.
  - apply length_upd.
  - intros c' Hc. apply nth_error_upd_other. auto.
Qed.

Lemma get_any l c l' o : static l -> tf_get l c = (l', o) -> static l' /\
    length (tl_chains l') = length (tl_chains l) /\
    (forall c', c' <> c -> nth_error (tl_chains l') c' = nth_error (tl_chains l) c').
Proof.
  intros (S1 & S2 & S3 & S4) E. unfold TfLoader.tf_get in E.
  destruct (nth_error (tl_chains l) c) as [ch|].
  - destruct (tf_next _ _ _ _) as [c1 ix]. injection E as <- <-. cbn [tl_chains].
    split; [repeat split; assumption|]. split; [apply length_upd|].
    intros c' Hc. apply nth_error_upd_other. auto.
  - injection E as <- <-. split; [repeat split; assumption|]. split; [reflexivity|auto].
Qed.

Lemma register_any (l : tloader obs) ca mb ex l' o : static l -> tf_register l ca mb ex = (l', o) ->
  static l' /\
  ((ex = true /\ o = Exc AssertionError /\ l' = l) \/
   (ex = false /\ o = Ok (length (tl_chains l)) /\ length (tl_chains l') = S (length (tl_chains l)) /\
    AtC (length (tl_chains l)) ca mb 0 l' /\
    (forall c', c' < length (tl_chains l) -> nth_error (tl_chains l') c' = nth_error (tl_chains l) c'))).
Proof.
  intros (S1 & S2 & S3 & S4) E. unfold tf_register in E. destruct ex; injection E as <- <-.
  - split; [repeat split; assumption|]. left. auto.
  - split; [repeat split; assumption|]. right. cbn [tl_chains]. repeat split.
    + rewrite app_length. cbn. lia.
    + unfold AtC. cbn [tl_chains]. rewrite nth_error_app2, Nat.sub_diag by lia. cbn.
      rewrite S2, S4. reflexivity.
    + intros c' Hc. apply nth_error_app1. exact Hc.
Qed.

Notation loader_of w := (r_loader (tw_req w)).
Notation nchains w := (length (tl_chains (loader_of w))).

(** auxiliary definition of a statement or a proof; models no code of /repo *)
Definition GI (w : tworld obs) : Prop :=
  r_cached (tw_req w) = [] /\ static (loader_of w) /\
  Forall (fun cl => cs_chain (tcl_state cl) < nchains w) (tw_clients w) /\
  (forall c t, clookup c (r_current (tw_req w)) = Some t -> c < nchains w).

Lemma GI_init : GI (tw_init (tl_new columns N exclude B)).
Proof.
  split; [reflexivity|]. split; [repeat split|]. split; [constructor|]. intros c t. discriminate.
Qed.

(** a request with an empty request cache and one device *)
Lemma request_any (r : rstate (tloader obs) (list (string * list (list obs)))) c t strict r' o :
  r_cached r = [] -> static (r_loader r) -> request tf_get r c t 1 strict = (r', o) ->
  r_cached r' = [] /\ static (r_loader r') /\ 
  length (tl_chains (r_loader r')) = length (tl_chains (r_loader r)) /\
  (forall c', c' <> c -> nth_error (tl_chains (r_loader r')) c' = nth_error (tl_chains (r_loader r)) c' /\
                         clookup c' (r_current r') = clookup c' (r_current r)) /\
  (forall c' t', c < length (tl_chains (r_loader r)) -> 
     (forall c t, clookup c (r_current r) = Some t -> c < length (tl_chains (r_loader r))) ->
     clookup c' (r_current r') = Some t' -> c' < length (tl_chains (r_loader r'))).
Proof.
  intros C S E. unfold request in E. rewrite C in E. cbn [tlookup option_map find] in E.
  set (inv := match clookup c (r_current r) with None => false | Some t0 => negb (token_eqb t0 t) end) in E.
  destruct inv.
  - destruct strict; injection E as <- <-; repeat split; try assumption; try reflexivity; try (apply S); eauto.
  - destruct (tf_get (r_loader r) c) as [l' [d | e]] eqn:G;
      apply get_any in G as (S' & L' & O'); try exact S; cbn in E; injection E as <- <-; cbn;
      (split; [try exact C; reflexivity|]; split; [exact S'|]; split; [exact L'|]; split).
    + intros c' Hc. split; [apply O'; exact Hc|]. apply clookup_set_other. auto.
    + intros c' t' Hc HI. destruct (Nat.eq_dec c c') as [<- | Hn]; [lia|].
      rewrite clookup_set_other by auto. intros H. apply HI in H. lia.
    + intros c' Hc. split; [apply O'; exact Hc|reflexivity].
    + intros c' t' Hc HI H. apply HI in H. lia.
Qed.

Lemma refresh_any r mb cs strict r' o : r_cached r = [] -> static (r_loader r) ->
  tf_refresh pick r mb cs strict = (r', o) ->
  r_cached r' = [] /\ static (r_loader r') /\ 
  length (tl_chains (r_loader r')) = length (tl_chains (r_loader r)) /\
  (forall c', c' <> cs_chain cs -> nth_error (tl_chains (r_loader r')) c' = nth_error (tl_chains (r_loader r)) c' /\
                         clookup c' (r_current r') = clookup c' (r_current r)) /\
  (forall c' t', cs_chain cs < length (tl_chains (r_loader r)) -> 
     (forall c t, clookup c (r_current r) = Some t -> c < length (tl_chains (r_loader r))) ->
     clookup c' (r_current r') = Some t' -> c' < length (tl_chains (r_loader r'))) /\
  (forall cs1, o = Ok cs1 -> cs_chain cs1 = cs_chain cs).
Proof.
  intros C S E. unfold tf_refresh in E. destruct (cs_line cs =? cs_count cs).
  - destruct (request tf_get r (cs_chain cs) (cs_token cs) 1 strict) as [r1 [[d t] | e]] eqn:Q;
      apply request_any in Q as (A1 & A2 & A3 & A4 & A5); try assumption; injection E as <- <-;
      (split; [exact A1|]; split; [exact A2|]; split; [exact A3|]; split; [exact A4|]; split; [exact A5|]).
    + intros cs1 H. injection H as <-. reflexivity.
    + intros cs1 H. discriminate.
  - injection E as <- <-. repeat split; try assumption; try (apply S); eauto.
    intros cs1 H. injection H as <-. reflexivity.
Qed.

(** auxiliary definition of a statement or a proof; models no code of /repo *)
Definition foreign (c : nat) (w w' : tworld obs) : Prop :=
  nth_error (tl_chains (loader_of w')) c = nth_error (tl_chains (loader_of w)) c /\
  clookup c (r_current (tw_req w')) = clookup c (r_current (tw_req w)).

(** auxiliary definition of a statement or a proof; models no code of /repo *)
Definition chain_of (w : tworld obs) (k : nat) : option nat :=
  option_map (fun cl => cs_chain (tcl_state cl)) (nth_error (tw_clients w) k).

Lemma nth_error_map_f A C (f : A -> C) l k : nth_error (map f l) k = option_map f (nth_error l k).
Proof. revert k. induction l as [|x l IH]; intros [|k]; cbn; auto. Qed.

Lemma Forall_upd A (P : A -> Prop) l i x : Forall P l -> P x -> Forall P (upd l i x).
Proof.
  intros H Hx. revert i. induction H as [|y l Hy H IH]; intros i; cbn; [constructor|].
  destruct i; constructor; auto.
Qed.

Lemma step_any w o w' r : GI w -> tstep w o = (w', r) -> GI w' /\
  nchains w' = registered [r] + nchains w /\
  (forall c, c < nchains w -> o <> TGet c -> (forall k, o = TBatch k -> chain_of w k <> Some c) -> foreign c w w') /\
  (forall k, k < length (tw_clients w) -> o <> TBatch k -> nth_error (tw_clients w') k = nth_error (tw_clients w) k) /\
  length (tw_clients w) <= length (tw_clients w') /\
  (forall k, k < length (tw_clients w) -> chain_of w' k = chain_of w k) /\
  (forall k c, length (tw_clients w) <= k -> chain_of w' k = Some c -> nchains w <= c).
Proof.
  intros G E. pose proof G as (C & S & F & I).
  assert (none : forall k, length (tw_clients w) <= k -> nth_error (tw_clients w) k = None)
    by (intros; apply nth_error_None; assumption).
  destruct o as [ca mb ex st | ca mb | k | ca mb ex | c]; cbn [TfLoader.tstep] in E.
  - (* TRandom *)
    destruct (tf_random_init pick w ca mb ex st) as [w1 r1] eqn:R. injection E as <- <-.
    unfold tf_random_init in R.
    destruct (tl_count (loader_of w) <? mb).
    { injection R as <- <-. cbn. split; [exact G|]. split; [reflexivity|].
      repeat split; auto. intros k c Hk. unfold chain_of. rewrite none by exact Hk. discriminate. }
    destruct ((ca =? 0) || (mb =? 0)).
    { injection R as <- <-. cbn. split; [exact G|]. split; [reflexivity|].
      repeat split; auto. intros k c Hk. unfold chain_of. rewrite none by exact Hk. discriminate. }
    destruct (tf_register (loader_of w) ca mb ex) as [l1 q1] eqn:Q.
    apply register_any in Q as (S1 & [(-> & -> & ->) | (-> & -> & L1 & A1 & O1)]); [| |exact S].
    { injection R as <- <-. cbn. split; [exact G|]. split; [reflexivity|].
      repeat split; auto. intros k c Hk. unfold chain_of. cbn. rewrite none by exact Hk. discriminate. }
    destruct (get_at S1 A1) as (l2 & GA & S2 & A2 & L2 & O2). rewrite GA in R. injection R as <- <-.
    cbn [tw_req tf_with_loader r_cached r_current r_loader tw_clients registered].
    split; [|split; [|split; [|split; [|split; [|split]]]]].
    + split; [exact C|]. split; [exact S2|].
      cbn [tw_req tf_with_loader r_cached r_current r_loader tw_clients registered]. rewrite L2, L1. split.
      * apply Forall_app. split; [eapply Forall_impl; [|exact F]; cbn; intros; lia|].
        constructor; [cbn; lia|constructor].
      * intros c t H. apply I in H. lia.
    + lia.
    + intros c Hc _ _. split; [|reflexivity]. cbn. rewrite O2 by lia. apply O1. exact Hc.
    + intros k Hk _. apply nth_error_app1. exact Hk.
    + rewrite app_length. lia.
    + intros k Hk. unfold chain_of. cbn. rewrite nth_error_app1 by exact Hk. reflexivity.
    + intros k c Hk. unfold chain_of. cbn. rewrite nth_error_app2 by exact Hk.
      destruct (k - length (tw_clients w)) as [|[|m]]; cbn; try discriminate. intros H. injection H as <-. lia.
  - (* TFull *)
    destruct (tf_full_init w ca mb) as [w1 r1] eqn:R. injection E as <- <-. unfold tf_full_init in R.
    assert (R' : r1 <> Ok (nchains w) /\ (exists e, r1 = Exc e) /\
                 w1 = mkTw (tf_with_loader (tw_req w) (loader_of w)) (tw_clients w)).
    { assert (Ew : w = mkTw (tf_with_loader (tw_req w) (loader_of w)) (tw_clients w))
        by (destruct w as [[? ? ? ?] ?]; reflexivity).
      destruct (tl_count (loader_of w) <? mb); [injection R as <- <-; repeat split; [discriminate|eauto|exact Ew]|].
      destruct (mb =? 0); [injection R as <- <-; repeat split; [discriminate|eauto|exact Ew]|].
      cbn in R. injection R as <- <-. repeat split; [discriminate|eauto]. }
    destruct R' as (_ & (e & ->) & ->). cbn. split; [exact G|]. split; [reflexivity|].
    repeat split; auto. intros k c Hk. unfold chain_of. cbn. rewrite none by exact Hk. discriminate.
  - (* TBatch *)
    destruct (tf_client_batch pick w k) as [w1 r1] eqn:R. injection E as <- <-. unfold tf_client_batch in R.
    destruct (nth_error (tw_clients w) k) as [cl|] eqn:Ek.
    2:{ injection R as <- <-. cbn. split; [exact G|]. split; [reflexivity|].
        repeat split; auto. intros k' c Hk. unfold chain_of. rewrite none by exact Hk. discriminate. }
    assert (Hcl : cs_chain (tcl_state cl) < nchains w).
    { rewrite Forall_forall in F. apply F. eapply nth_error_In. exact Ek. }
    assert (Hk : k < length (tw_clients w)) by (apply nth_error_Some; congruence).
    unfold tf_batch_fn in R.
    destruct (tf_refresh pick (tw_req w) (tcl_mb cl) (tcl_state cl) (tcl_strict cl)) as [r2 o2] eqn:Q.
    apply refresh_any in Q as (C2 & S2 & L2 & O2 & I2 & K2); [|exact C|exact S].
    assert (GG : forall cls, length cls = length (tw_clients w) ->
       Forall (fun c => cs_chain (tcl_state c) < nchains w) cls -> GI (mkTw r2 cls)).
    { intros cls _ HF. split; [exact C2|]. split; [exact S2|]. split.
      - cbn. rewrite L2. exact HF.
      - cbn. intros c t H. eapply I2; eauto. }
    assert (FF : forall cls c, c < nchains w -> (forall k', TBatch k = TBatch k' -> chain_of w k' <> Some c) ->
      foreign c w (mkTw r2 cls)).
    { intros cls c Hc HH. apply O2. intros ->. apply (HH k eq_refl). unfold chain_of. rewrite Ek. reflexivity. }
    destruct (let* cs1 := o2 in _) as [[cs' b] | e] eqn:T.
    + injection R as <- <-. cbn [tw_req tw_clients registered].
      assert (K3 : cs_chain cs' = cs_chain (tcl_state cl)).
      { destruct o2 as [cs1 | e]; [|discriminate]. cbn [bind] in T.
        destruct (tree_index _ _); [|discriminate]. cbn [bind] in T.
        destruct (jindex _ _); [|discriminate]. cbn [bind] in T. injection T as <- <-. cbn. apply K2. reflexivity. }
      split; [apply GG; [apply length_upd|apply Forall_upd; [exact F|cbn; lia]]|].
      split; [cbn; lia|]. split; [intros c Hc _ HH; apply FF; assumption|].
      assert (CH : forall k', chain_of (mkTw r2 (upd (tw_clients w) k (mkTcl cs' (tcl_mb cl) (tcl_strict cl)))) k'
        = chain_of w k').
      { intros k'. unfold chain_of. cbn. destruct (Nat.eq_dec k k') as [<- | Hn].
        - rewrite nth_error_upd_same, Ek by exact Hk. cbn. rewrite K3. reflexivity.
        - rewrite nth_error_upd_other by exact Hn. reflexivity. }
      split; [|split; [|split]].
      * intros k' Hk' Hne. apply nth_error_upd_other. congruence.
      * rewrite length_upd. lia.
      * intros k' _. apply CH.
      * intros k' c Hk'. rewrite CH. unfold chain_of. rewrite none by exact Hk'. discriminate.
    + injection R as <- <-. cbn [tw_req tw_clients registered].
      split; [apply GG; [reflexivity|exact F]|]. split; [cbn; lia|].
      split; [intros c Hc _ HH; apply FF; assumption|]. split; [auto|]. split; [lia|]. split; [reflexivity|].
      intros k' c Hk'. unfold chain_of. cbn. rewrite none by exact Hk'. discriminate.
  - (* TRegister *)
    destruct (tf_register (loader_of w) ca mb ex) as [l1 q1] eqn:Q. injection E as <- <-.
    apply register_any in Q as (S1 & [(-> & -> & ->) | (-> & -> & L1 & A1 & O1)]); [| |exact S].
    + cbn. split; [exact G|]. split; [reflexivity|].
      repeat split; auto. intros k c Hk. unfold chain_of. cbn. rewrite none by exact Hk. discriminate.
    + cbn [tw_req tf_with_loader r_cached r_current r_loader tw_clients registered].
      split; [|split; [lia|split; [|split; [auto|split; [lia|split; [reflexivity|]]]]]].
      * split; [exact C|]. split; [exact S1|]. cbn. rewrite L1. split.
        -- eapply Forall_impl; [|exact F]. cbn. intros; lia.
        -- intros c t H. apply I in H. lia.
      * intros c Hc _ _. split; [|reflexivity]. cbn. apply O1. exact Hc.
      * intros k c Hk. unfold chain_of. cbn. rewrite none by exact Hk. discriminate.
  - (* TGet *)
    destruct (tf_get (loader_of w) c) as [l1 q1] eqn:Q. injection E as <- <-.
    apply get_any in Q as (S1 & L1 & O1); [|exact S].
    cbn [tw_req tf_with_loader r_cached r_current r_loader tw_clients registered].
    split; [|split; [lia|split; [|split; [auto|split; [lia|split; [reflexivity|]]]]]].
    + split; [exact C|]. split; [exact S1|]. cbn. rewrite L1. split; [exact F|exact I].
    + intros c' Hc Hne _. split; [|reflexivity]. cbn. apply O1. congruence.
    + intros k c' Hk. unfold chain_of. cbn. rewrite none by exact Hk. discriminate.
Qed.

Lemma run_any h : forall w w' outs, GI w -> run tstep w h = (w', outs) -> GI w' /\
  nchains w' = registered outs + nchains w.
Proof.
  induction h as [|o h IH]; intros w w' outs G E; cbn [run] in E.
  - injection E as <- <-. split; [exact G|reflexivity].
  - destruct (tstep w o) as [w1 r] eqn:E1. destruct (run tstep w1 h) as [w2 os] eqn:E2. injection E as <- <-.
    apply step_any in E1 as (G1 & L1 & _); [|exact G]. apply IH in E2 as [G2 L2]; [|exact G1].
    split; [exact G2|]. cbn [registered] in *. destruct r as [[?|?]|?|?]; cbn in *; lia.
Qed.

(** ** the stream of one access *)
Section Access.
Variables k c ca mb : nat.
Hypothesis Hca : 0 < ca.

(** auxiliary definition of a statement or a proof; models no code of /repo *)
Definition CInv (n : nat) (w : tworld obs) : Prop :=
  GI w /\ c < nchains w /\ k < length (tw_clients w) /\
  (forall k', k' <> k -> chain_of w k' <> Some c) /\
  exists g line strict tok, n = g * ca + line /\ line <= ca /\
    AtC c ca mb (S g) (loader_of w) /\
    nth_error (tw_clients w) k =
      Some (mkTcl (mkC (answer ca mb (idx c) g) ca line c (repeat (repeat true mb) ca) tok) mb strict) /\
    (clookup c (r_current (tw_req w)) = None \/ clookup c (r_current (tw_req w)) = Some tok).

Lemma nth_error_repeat A (x : A) n i : i < n -> nth_error (repeat x n) i = Some x.
Proof. revert i. induction n as [|n IH]; intros i H; [lia|]. destruct i; cbn; [reflexivity|]. apply IH. lia. Qed.

Lemma read_line g line : line < ca ->
  tree_index (answer ca mb (idx c) g) line = Ok (fst (tf_batch columns exclude mb (idx c) (g * ca + line))) /\
  jindex (repeat (repeat true mb) ca) line = Ok (repeat true mb).
Proof.
  intros H. split.
  - unfold tf_answer.
    rewrite (@tree_index_map _ _ _ (fun kf b => map (fun j => snd kf (idx c ((g * ca + b) * mb + j))) (seq 0 mb))
      (@fst _ _) (remaining exclude columns) 0 ca line H).
    reflexivity.
  - unfold jindex. rewrite repeat_length. rewrite Nat.min_l by lia. rewrite nth_error_repeat by exact H. reflexivity.
Qed.

Lemma step_own n w : CInv n w -> exists w', tstep w (TBatch k) =
  (w', ToBatch (Ok (tf_batch columns exclude mb (idx c) n))) /\ CInv (S n) w'.
Proof.
  intros (G & Hc & Hk & Ho & g & line & strict & tok & En & Hl & A & Ecl & Et).
  destruct (tstep w (TBatch k)) as [w' r] eqn:E. pose proof (@step_any w (TBatch k) w' r G E) as (G' & L' & _ & N' & M' & CH & _).
  cbn [TfLoader.tstep] in E. unfold tf_client_batch in E. rewrite Ecl in E. cbn [tcl_mb tcl_state tcl_strict] in E.
  unfold tf_batch_fn, tf_refresh in E. cbn [cs_line cs_count cs_chain cs_token cs_data cs_valid] in E.
  assert (Ho' : forall k', k' <> k -> chain_of w' k' <> Some c).
  { intros k' Hne. destruct (Nat.lt_ge_cases k' (length (tw_clients w))) as [H1 | H1].
    - rewrite CH by exact H1. apply Ho. exact Hne.
    - assert (length (tw_clients w') = length (tw_clients w)) as EL.
      { clear - E. destruct (line =? ca) eqn:EE.
        - destruct (request _ _ _ _ _ _) as [r1 [[d t]|e]].
          + destruct (let* cs1 := Ok _ in _) as [[cs' b]|e]; injection E as <- <-; cbn; [apply length_upd|reflexivity].
          + cbn in E. injection E as <- <-. reflexivity.
        - destruct (let* cs1 := Ok _ in _) as [[cs' b]|e]; injection E as <- <-; cbn; [apply length_upd|reflexivity]. }
      unfold chain_of. rewrite (proj2 (nth_error_None _ _)) by lia. discriminate. }
  assert (Hnc : c < nchains w').
  { rewrite L'. lia. }
  assert (Hkc : k < length (tw_clients w')) by lia.
  destruct (line =? ca) eqn:EL.
  - apply Nat.eqb_eq in EL. subst line.
    unfold request in E. destruct G as (C & S & _). rewrite C in E. cbn [tlookup option_map find] in E.
    assert (Inv : match clookup c (r_current (tw_req w)) with
                  | None => false | Some t => negb (token_eqb t tok) end = false).
    { destruct Et as [-> | ->]; [reflexivity|]. rewrite token_eqb_refl. reflexivity. }
    rewrite Inv in E. destruct (get_at S A) as (l2 & GG & S2 & A2 & L2 & O2). rewrite GG in E.
    cbn [cs_line cs_count cs_chain cs_token cs_data cs_valid bind] in E.
    rewrite (Nat.mod_small 0 ca) in E by exact Hca.
    destruct (@read_line (Datatypes.S g) 0 Hca) as [R1 R2]. rewrite R1, R2 in E. cbn [bind] in E. cbn [Nat.eqb] in E.
    rewrite Nat.add_0_r in E. injection E as <- <-. 
    assert (En' : n = Datatypes.S g * ca) by (subst n; cbn; lia). rewrite En'. clear En.
    eexists; split; [reflexivity|].
    split; [exact G'|]. split; [exact Hnc|]. split; [exact Hkc|]. split; [exact Ho'|].
    exists (Datatypes.S g), 1, strict, (TNew (r_fresh (tw_req w))). split; [lia|]. split; [lia|].
    cbn [tw_req r_loader tw_clients r_current]. split; [exact A2|].
    split; [rewrite nth_error_upd_same by exact Hk; reflexivity|]. right. apply clookup_set_same.
  - apply Nat.eqb_neq in EL. cbn [cs_line cs_count cs_chain cs_token cs_data cs_valid bind] in E.
    rewrite (Nat.mod_small line ca) in E by lia.
    destruct (@read_line g line ltac:(lia)) as [R1 R2]. rewrite R1, R2 in E. cbn [bind] in E.
    injection E as <- <-. subst n.
    eexists; split; [reflexivity|].
    split; [exact G'|]. split; [exact Hnc|]. split; [exact Hkc|]. split; [exact Ho'|].
    exists g, (line + 1), strict, tok. split; [lia|]. split; [lia|]. cbn [tw_req tw_clients].
    split; [exact A|]. split; [rewrite nth_error_upd_same by exact Hk; reflexivity|exact Et].
Qed.

Lemma step_foreign n w o w' r : CInv n w -> o <> TBatch k -> o <> TGet c -> tstep w o = (w', r) -> CInv n w'.
Proof.
  intros (G & Hc & Hk & Ho & g & line & strict & tok & En & Hl & A & Ecl & Et) H1 H2 E.
  apply step_any in E as (G' & L' & F' & N' & M' & CH & CN); [|exact G].
  assert (FF : foreign c w w').
  { apply F'; [exact Hc|exact H2|]. intros k' ->. apply Ho. congruence. }
  destruct FF as [F1 F2].
  split; [exact G'|]. split; [lia|]. split; [lia|]. split.
  - intros k' Hne. destruct (Nat.lt_ge_cases k' (length (tw_clients w))) as [H3 | H3].
    + rewrite CH by exact H3. apply Ho. exact Hne.
    + intros H. apply CN in H; [lia|exact H3].
  - exists g, line, strict, tok. split; [exact En|]. split; [exact Hl|].
    split; [unfold AtC; rewrite F1; exact A|]. split; [rewrite N' by assumption; exact Ecl|]. rewrite F2. exact Et.
Qed.

Lemma run_access h : forall n w, CInv n w -> ~ In (TGet c) h ->
  tbatch_outs k h (snd (run tstep w h)) =
  map (fun i => Ok (tf_batch columns exclude mb (idx c) (n + i))) (seq 0 (calls (TBatch k) h)).
Proof.
  induction h as [|o h IH]; intros n w I Hh; [reflexivity|].
  cbn [run]. destruct (tstep w o) as [w1 r] eqn:E. destruct (run tstep w1 h) as [w2 os] eqn:E2.
  cbn [snd].
  assert (IH1 : forall n', CInv n' w1 -> tbatch_outs k h os =
     map (fun i => Ok (tf_batch columns exclude mb (idx c) (n' + i))) (seq 0 (calls (TBatch k) h))).
  { intros n' I'. specialize (IH n' w1 I' (fun H => Hh (or_intror H))). rewrite E2 in IH. exact IH. }
  destruct o as [ca' mb' ex st | ca' mb' | k' | ca' mb' ex | c'].
  all: try (assert (I1 : CInv n w1) by (eapply step_foreign; [exact I| | |exact E]; discriminate)).
  - cbn [tbatch_outs]. unfold calls. cbn. apply (IH1 _ I1).
  - cbn [tbatch_outs]. unfold calls. cbn. apply (IH1 _ I1).
  - destruct (Nat.eq_dec k' k) as [-> | Hne].
    + destruct (step_own I) as (w1' & E' & I1). rewrite E' in E. injection E as <- <-.
      cbn [tbatch_outs]. unfold calls. cbn [filter]. rewrite Nat.eqb_refl. cbn [length seq map].
      rewrite Nat.add_0_r. f_equal. rewrite (IH1 _ I1). unfold calls.
      rewrite <- seq_shift, map_map. apply map_ext. intros i. do 2 f_equal. lia.
    + assert (I1 : CInv n w1) by (eapply step_foreign; [exact I| | |exact E]; congruence).
      assert (exists q, r = ToBatch q) as [q ->].
      { cbn in E. destruct (tf_client_batch pick w k'). injection E as <- <-. eauto. }
      cbn [tbatch_outs]. unfold calls. cbn [filter]. apply Nat.eqb_neq in Hne. rewrite Hne. apply (IH1 _ I1).
  - cbn [tbatch_outs]. unfold calls. cbn. apply (IH1 _ I1).
  - assert (I1 : CInv n w1).
    { eapply step_foreign; [exact I| | |exact E]; [discriminate|]. intros H. apply Hh. left. exact H. }
    cbn [tbatch_outs]. unfold calls. cbn. apply (IH1 _ I1).
Qed.

End Access.

(** ** a chain that is used directly *)
Lemma step_other_chain c ca mb n w o w' r : GI w -> c < nchains w -> AtC c ca mb n (loader_of w) ->
  (forall k, chain_of w k <> Some c) -> o <> TGet c -> tstep w o = (w', r) ->
  GI w' /\ c < nchains w' /\ AtC c ca mb n (loader_of w') /\ (forall k, chain_of w' k <> Some c).
Proof.
  intros G Hc A Ho H2 E. apply step_any in E as (G' & L' & F' & N' & M' & CH & CN); [|exact G].
  assert (FF : foreign c w w') by (apply F'; [exact Hc|exact H2|]; intros k' _; apply Ho).
  destruct FF as [F1 F2]. split; [exact G'|]. split; [lia|].
  split; [unfold AtC; rewrite F1; exact A|].
  intros k'. destruct (Nat.lt_ge_cases k' (length (tw_clients w))) as [H3 | H3].
  + rewrite CH by exact H3. apply Ho.
  + intros H. apply CN in H; [lia|exact H3].
Qed.

Lemma run_direct c ca mb h : forall n w, GI w -> c < nchains w -> AtC c ca mb n (loader_of w) ->
  (forall k, chain_of w k <> Some c) ->
  tget_outs c h (snd (run tstep w h)) =
  map (fun i => Ok (answer ca mb (idx c) (n + i))) (seq 0 (calls (TGet c) h)).
Proof.
  induction h as [|o h IH]; intros n w G Hc A Ho; [reflexivity|].
  cbn [run]. destruct (tstep w o) as [w1 r] eqn:E. destruct (run tstep w1 h) as [w2 os] eqn:E2.
  cbn [snd].
  assert (IH1 : forall n', GI w1 -> c < nchains w1 -> AtC c ca mb n' (loader_of w1) ->
     (forall k, chain_of w1 k <> Some c) -> tget_outs c h os =
     map (fun i => Ok (answer ca mb (idx c) (n' + i))) (seq 0 (calls (TGet c) h))).
  { intros n' X1 X2 X3 X4. specialize (IH n' w1 X1 X2 X3 X4). rewrite E2 in IH. exact IH. }
  destruct o as [ca' mb' ex st | ca' mb' | k' | ca' mb' ex | c'].
  1-4: destruct (fun H => @step_other_chain c ca mb n w _ w1 r G Hc A Ho H E) as (X1 & X2 & X3 & X4); [discriminate|].
  1-4: cbn [tget_outs]; unfold calls; cbn; apply (IH1 _ X1 X2 X3 X4).
  destruct (Nat.eq_dec c' c) as [-> | Hne].
  - pose proof (@step_any w (TGet c) w1 r G E) as (G' & L' & _ & _ & _ & CH & CN).
    cbn in E. destruct (get_at (proj1 (proj2 G)) A) as (l2 & GG & S2 & A2 & L2 & O2). rewrite GG in E.
    injection E as <- <-. cbn [tget_outs]. unfold calls. cbn [filter]. rewrite Nat.eqb_refl. cbn [length seq map].
    rewrite Nat.add_0_r. f_equal. cbn in L'. rewrite (IH1 (S n)).
    + unfold calls. rewrite <- seq_shift, map_map. apply map_ext. intros i. do 2 f_equal. lia.
    + exact G'.
    + cbn. lia.
    + exact A2.
    + exact Ho.
  - destruct (@step_other_chain c ca mb n w (TGet c') w1 r G Hc A Ho ltac:(congruence) E) as (X1 & X2 & X3 & X4).
    assert (exists q, r = ToGet q) as [q ->].
    { cbn in E. destruct (tf_get (loader_of w) c'). injection E as <- <-. eauto. }
    cbn [tget_outs]. unfold calls. cbn [filter]. apply Nat.eqb_neq in Hne. rewrite Hne. apply (IH1 _ X1 X2 X3 X4).
Qed.

Lemma chain_bound w k c : GI w -> chain_of w k = Some c -> c < nchains w.
Proof.
  intros (_ & _ & F & _) H. unfold chain_of in H. destruct (nth_error (tw_clients w) k) eqn:E; [|discriminate].
  cbn in H. injection H as <-. rewrite Forall_forall in F. apply F. eapply nth_error_In. exact E.
Qed.

Lemma init_CInv w ca mb strict w' k : GI w -> tstep w (TRandom ca mb false strict) = (w', ToInit (Ok k)) ->
  0 < ca /\ 0 < mb /\ mb <= N /\ CInv k (nchains w) ca mb 0 w'.
Proof.
  intros G E. pose proof (@step_any w _ w' _ G E) as (G' & L' & _ & _ & _ & CH & CN).
  cbn [TfLoader.tstep] in E. destruct (tf_random_init pick w ca mb false strict) as [w1 r1] eqn:R.
  injection E as -> ->. unfold tf_random_init in R.
  destruct G as (C & S & F & I).
  assert (EN : tl_count (loader_of w) = N) by apply S. rewrite EN in R.
  destruct (N <? mb) eqn:E1; [discriminate|]. apply Nat.ltb_ge in E1.
  destruct ((ca =? 0) || (mb =? 0)) eqn:E2; [discriminate|]. apply orb_false_iff in E2 as [E2 E3].
  apply Nat.eqb_neq in E2, E3.
  destruct (tf_register (loader_of w) ca mb false) as [l1 q1] eqn:Q.
  apply register_any in Q as (S1 & [(? & ? & ?) | (_ & -> & L1 & A1 & O1)]); [discriminate| |exact S].
  destruct (get_at S1 A1) as (l2 & GG & S2 & A2 & L2 & O2). rewrite GG in R. injection R as <- <-.
  split; [lia|]. split; [lia|]. split; [exact E1|]. split; [exact G'|].
  split; [cbn in L'; cbn; lia|]. split; [cbn; rewrite app_length; cbn; lia|]. split.
  - intros k' Hne. destruct (Nat.lt_ge_cases k' (length (tw_clients w))) as [H3 | H3].
    + rewrite CH by exact H3. intros H. apply chain_bound in H; [lia|]. repeat split; assumption || apply S.
    + unfold chain_of. cbn. rewrite nth_error_app2 by exact H3.
      destruct (k' - length (tw_clients w)) as [|[|m]] eqn:Ek; cbn; try discriminate. lia.
  - exists 0, 0, strict, (TInit (length (tw_clients w))). split; [reflexivity|]. split; [lia|].
    cbn [tw_req tf_with_loader r_loader tw_clients r_current]. split; [exact A2|].
    split; [rewrite nth_error_app2, Nat.sub_diag by lia; reflexivity|].
    left. destruct (clookup (nchains w) (r_current (tw_req w))) eqn:EE; [|reflexivity]. apply I in EE. lia.
Qed.
End World.
