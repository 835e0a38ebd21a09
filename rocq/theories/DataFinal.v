From Verif Require Import Base ListUtil NumpyLoader LoaderSpec NumpyLoaderProofs NumpyLoaderApi NumpyLoaderFinal
  Requests RequestsProofs DataCore DataSpec DataProofs.
From Coq Require String.
From Coq Require Import ZifyNat ZifyBool.
Set Implicit Arguments.

Lemma nth_error_select A (a : list A) idx j : Forall (fun i => i < length a) idx -> j < length idx ->
  nth_error (select a idx) j = nth_error a (nth j idx 0).
Proof.
  revert j. induction idx as [|i idx IH]; intros j Hf Hj; simpl in *; [lia|].
  inversion Hf; subst. destruct (nth_error a i) as [x|] eqn:E.
  - destruct j as [|j]; simpl; auto. apply IH; auto. lia.
  - apply nth_error_None in E. lia.
Qed.

Section PassFacts.
Context {obs : Type}.
Variable data : list (String.string * list obs).
Variables N mb : nat.
Variable bs : list (mbatch obs).
Hypothesis Hpass : is_pass data N mb bs.
Hypothesis Hmb : 0 < mb.

Lemma pass_mapi X (h : nat -> mbatch obs -> X) (h' : nat -> X) : 
  (forall i b, i < ceil_div N mb -> nth_error bs i = Some b -> h i b = h' i) ->
  map (fun ib => h (fst ib) (snd ib)) (combine (seq 0 (ceil_div N mb)) bs) = map h' (seq 0 (ceil_div N mb)).
Proof.
  destruct Hpass as [Hl _]. intros H.
  assert (forall s l, (forall i b, nth_error l i = Some b -> h (s + i) b = h' (s + i)) ->
    map (fun ib => h (fst ib) (snd ib)) (combine (seq s (length l)) l) = map h' (seq s (length l))) as Hg.
  { intros s l. revert s. induction l as [|b l IH]; intros s Hs; simpl; auto. f_equal.
    - specialize (Hs 0 b eq_refl). now rewrite Nat.add_0_r in Hs.
    - apply IH. intros i b' Hb. specialize (Hs (S i) b' Hb). now rewrite Nat.add_succ_r in Hs. }
  rewrite <- Hl. apply Hg. intros i b Hb. simpl. apply H; auto. rewrite <- Hl. apply nth_error_Some. congruence.
Qed.

(** the concatenated, truncated results of a pointwise function *)
Lemma pass_pointwise R C (g : list (String.string * option obs) -> R) (c : C) : 0 < N ->
  let (rs, c') := scan_spec (fun b c => pointwise g mb b c) bs c in
  slice (concat rs) 0 N = map (fun j => g (row data j)) (seq 0 N) /\ c' = c.
Proof.
  intros HN.
  assert (Hs : forall l, scan_spec (fun b (c : C) => pointwise g mb b c) l c = 
     (map (fun b => map (fun j => g (row (fst b) j)) (seq 0 mb)) l, c)).
  { induction l as [|b l IH]; simpl; auto. rewrite IH. reflexivity. }
  rewrite Hs. split; auto.
  pose proof (ceil_div_spec N Hmb) as [Hc1 Hc2].
  assert (Hm : map (fun b : mbatch obs => map (fun j => g (row (fst b) j)) (seq 0 mb)) bs
     = map (fun i => map (fun j => g (row data ((i * mb + j) mod N))) (seq 0 mb)) (seq 0 (ceil_div N mb))).
  { rewrite <- (@pass_mapi _ (fun i (b : mbatch obs) => map (fun j => g (row (fst b) j)) (seq 0 mb))).
    - destruct Hpass as [Hl _]. rewrite <- Hl.
      assert (forall s (l : list (mbatch obs)), map (fun ib : nat * mbatch obs => map (fun j => g (row (fst (snd ib)) j)) (seq 0 mb)) (combine (seq s (length l)) l)
        = map (fun b => map (fun j => g (row (fst b) j)) (seq 0 mb)) l) as Hx.
      { intros s l. revert s. induction l as [|x l IH]; intros s; simpl; auto. now rewrite IH. }
      symmetry. apply Hx.
    - intros i b Hi Hb. destruct Hpass as [_ Hp]. destruct (Hp i Hi) as (b' & Hb' & _ & _ & _ & Hr).
      rewrite Hb in Hb'. inversion Hb'; subst b'. apply map_ext_in. intros j Hj. apply in_seq in Hj. rewrite Hr by lia. reflexivity. }
  etransitivity; [exact (f_equal (fun l => slice (concat l) 0 N) Hm)|]. cbv beta. rewrite (concat_map_seq_blocks (fun x => g (row data (x mod N))) mb).
  rewrite slice_map_seq by lia. rewrite Nat.sub_0_r. apply map_ext_in. intros j Hj. apply in_seq in Hj.
  rewrite Nat.mod_small by lia. reflexivity.
Qed.

(** reductions over valid observations fold over the data set in order *)
Lemma pass_reduction C (op : C -> list (String.string * option obs) -> C) (c : C) : 0 < N ->
  snd (scan_spec (fun b c => reduction op mb b (snd b) c) bs c) 
  = fold_left (fun c j => op c (row data j)) (seq 0 N) c.
Proof.
  intros HN. pose proof (ceil_div_spec N Hmb) as [Hc1 Hc2].
  set (f := fun c x => if x <? N then op c (row data x) else c).
  assert (Hstep : forall i b c, i < ceil_div N mb -> nth_error bs i = Some b ->
     snd (reduction op mb b (snd b) c) = fold_left f (seq (i * mb) mb) c).
  { intros i b c0 Hi Hb. destruct Hpass as [_ Hp]. destruct (Hp i Hi) as (b' & Hb' & Hm & _ & _ & Hr).
    rewrite Hb in Hb'. inversion Hb'; subst b'. unfold reduction; simpl. rewrite Hm.
    rewrite (seq_plus_map (i * mb) mb).
    assert (forall l, (forall j, In j l -> j < mb) -> forall c0,
      fold_left (fun c j => if nth j (map (fun j => i * mb + j <? N) (seq 0 mb)) false then op c (row (fst b) j) else c) l c0
      = fold_left f (map (fun j => i * mb + j) l) c0) as Hx.
    { induction l as [|j l IH]; intros Hl c1; simpl; auto. rewrite IH by (intros; apply Hl; simpl; auto).
      f_equal. unfold f. rewrite nth_map_seq by (apply Hl; simpl; auto).
      destruct (Nat.ltb_spec (i * mb + j) N); auto. rewrite Hr by (apply Hl; simpl; auto).
      now rewrite Nat.mod_small by lia. }
    apply Hx. intros j Hj. apply in_seq in Hj. lia. }
  assert (Hall : forall n i c, i + n = ceil_div N mb ->
     snd (scan_spec (fun b c => reduction op mb b (snd b) c) (skipn i bs) c) = fold_left f (seq (i * mb) (n * mb)) c).
  { induction n as [|n IH]; intros i c0 Hin.
    - destruct Hpass as [Hl _]. rewrite skipn_all2 by lia. reflexivity.
    - destruct (nth_error bs i) as [b|] eqn:Eb.
      2:{ apply nth_error_None in Eb. destruct Hpass as [Hl _]. lia. }
      assert (skipn i bs = b :: skipn (S i) bs) as ->.
      { clear -Eb. revert bs Eb. induction i as [|i IH]; intros [|x l] H; simpl in *; try discriminate.
        - congruence.
        - apply IH. exact H. }
      cbn [scan_spec].
      pose proof (Hstep i b c0 ltac:(lia) Eb) as Hs.
      destruct (reduction op mb b (snd b) c0) as [u c1]. simpl in Hs. subst c1.
      specialize (IH (S i) (fold_left f (seq (i * mb) mb) c0) ltac:(lia)).
      destruct (scan_spec _ (skipn (S i) bs) _) as [rs c2]. simpl in IH. simpl snd. rewrite IH.
      replace (S n * mb) with (mb + n * mb) by lia. rewrite seq_app, fold_left_app. f_equal. f_equal. lia. }
  specialize (Hall (ceil_div N mb) 0 c ltac:(lia)). rewrite skipn_O in Hall. rewrite Hall. simpl.
  replace (ceil_div N mb * mb) with (N + (ceil_div N mb * mb - N)) by lia. rewrite seq_app, fold_left_app.
  assert (forall l c, (forall x, In x l -> N <= x) -> fold_left f l c = c) as Hid.
  { induction l as [|x l IH]; intros c0 Hl; simpl; auto. unfold f at 2.
    destruct (Nat.ltb_spec x N). { specialize (Hl x (or_introl eq_refl)). lia. }
    apply IH. intros; apply Hl; simpl; auto. }
  rewrite Hid by (intros x Hx; apply in_seq in Hx; lia).
  assert (forall l c, (forall x, In x l -> x < N) -> fold_left f l c = fold_left (fun c j => op c (row data j)) l c) as He.
  { induction l as [|x l IH]; intros c0 Hl; simpl; auto. unfold f at 2.
    destruct (Nat.ltb_spec x N). 2:{ specialize (Hl x (or_introl eq_refl)). lia. }
    apply IH. intros; apply Hl; simpl; auto. }
  apply He. intros x Hx. apply in_seq in Hx. lia.
Qed.
End PassFacts.

Section Final.
Context {G obs : Type}.
Variable choice_repl : G -> nat -> nat -> G * list nat.
Variable choice_perm : G -> nat -> G * list nat.
Variable rng_of_seed : nat -> G.
Hypothesis Hperm : perm_oracle choice_perm.
Hypothesis Hrepl : repl_oracle choice_repl.
Notation lstep := (NumpyLoader.lstep choice_repl choice_perm rng_of_seed (obs := obs)).
Notation wstep := (@DataCore.wstep G obs choice_repl choice_perm rng_of_seed).
Notation access_batch := (@access_batch G obs choice_repl choice_perm).
Notation world := (world G obs).
Notation CInv := (@CInv G obs choice_repl choice_perm).

Lemma world_reach data l0 h1 w1 o1 : make_loader data = Ok l0 -> run wstep (w_init l0) h1 = (w1, o1) ->
  GI w1 /\ DataOk data (l_count l0) (w_loader w1).
Proof.
  intros Hm Hr. destruct (@make_loader_ok G obs data l0 Hm) as [Hd Hc].
  pose proof (GI_init l0 Hc) as HG.
  pose proof (@GI_run G obs choice_repl choice_perm rng_of_seed h1 (w_init l0) HG) as H1.
  pose proof (@DataOk_wrun G obs choice_repl choice_perm rng_of_seed data (l_count l0) h1 (w_init l0) HG Hd) as H2.
  rewrite Hr in *. auto.
Qed.

(** C09 *)
Lemma final_access data l0 h1 w1 o1 o r ca w2 k h2 :
  make_loader data = Ok l0 -> run wstep (w_init l0) h1 = (w1, o1) ->
  accesses w1 rng_of_seed o r ca -> wstep w1 o = (w2, WoInit (Ok k)) ->
  hands_off (length (l_chains (w_loader w1))) h2 ->
  wouts k h2 (snd (run wstep w2 h2)) = map (fun i => Ok (access_batch data (l_count l0) r i)) (seq 0 (num_batches k h2)).
Proof.
  intros Hm Hr Ha Hw Hh. destruct (@world_reach data l0 h1 w1 o1 Hm Hr) as [HG HD].
  destruct (@access_created G obs choice_repl choice_perm rng_of_seed Hperm Hrepl data (l_count l0) w1 o r ca w2 k HG HD Ha Hw) as (Hok & Hca & _ & HC).
  destruct (@run_access G obs choice_repl choice_perm rng_of_seed Hperm Hrepl data (l_count l0) (nchains w1) ca k r Hok Hca h2 0 w2 HC Hh) as [H _].
  exact H.
Qed.

(** the same stream as seen by a direct client of the loader *)
Lemma final_access_direct data l0 h1 w1 o1 o r ca w2 k h2 :
  make_loader data = Ok l0 -> run wstep (w_init l0) h1 = (w1, o1) ->
  accesses w1 rng_of_seed o r ca -> wstep w1 o = (w2, WoInit (Ok k)) ->
  hands_off (length (l_chains (w_loader w1))) h2 ->
  forall l lreg cid m i name a, make_loader data = Ok l -> registered rng_of_seed l ca r lreg cid ->
  num_batches k h2 <= m * ca -> nth_error data i = Some (name, a) ->
  map (array_batch i) (wouts k h2 (snd (run wstep w2 h2)))
  = map Some (firstn (num_batches k h2)
      (client_batches choice_repl choice_perm rng_of_seed i cid lreg (repeat (GetBatches cid) m))).
Proof.
  intros Hm Hr Ha Hw Hh l lreg cid m i name a Hl Hreg Hle Hi.
  rewrite (@final_access data l0 h1 w1 o1 o r ca w2 k h2 Hm Hr Ha Hw Hh).
  assert (Hnl : no_load cid (repeat (@GetBatches G cid) m)).
  { intros ck Hin. apply repeat_spec in Hin. discriminate. }
  assert (Hrl : run lstep l [] = (l, [])) by reflexivity.
  destruct (stream Hperm Hrepl Hl Hrl Hreg Hnl Hi) as (Hlen & Hok & Hs).
  unfold client_batches. rewrite Hs.
  assert (Hng : num_gets cid (repeat (@GetBatches G cid) m) = m).
  { clear. induction m; simpl; auto. rewrite Nat.eqb_refl. lia. }
  rewrite Hng, firstn_map, map_map, map_map.
  replace (firstn (num_batches k h2) (seq 0 (m * ca))) with (seq 0 (num_batches k h2)).
  2:{ replace (m * ca) with (num_batches k h2 + (m * ca - num_batches k h2)) by lia.
      rewrite seq_app, firstn_app, seq_length, Nat.sub_diag, firstn_all2 by (rewrite seq_length; lia).
      simpl. now rewrite app_nil_r. }
  apply map_ext. intros n. unfold array_batch, DataSpec.access_batch.
  rewrite nth_error_map, Hi. simpl. replace (l_count l0) with (length a); auto.
  congruence.
Qed.

(** ** full data maps *)
Lemma ord_is_pass data N mb : 0 < mb -> 0 < N -> (forall ka, In ka data -> length (snd ka) = N) ->
  is_pass data N mb (map (access_batch data N (ROrd mb)) (seq 0 (ceil_div N mb))).
Proof.
  intros Hmb HN Hd. pose proof (ceil_div_spec N Hmb) as [Hc1 Hc2].
  split; [now rewrite map_length, seq_length|].
  intros i Hi. rewrite nth_error_map_seq by assumption. eexists. split; [reflexivity|].
  unfold DataSpec.access_batch, spec_batch. rewrite (Nat.mod_small i) by assumption.
  cbn [fst snd]. split; [reflexivity|]. split; [now rewrite map_map|]. 
  assert (Hf : Forall (fun x => x < N) (map (fun j => (i * mb + j) mod N) (seq 0 mb))).
  { apply Forall_forall. intros x Hx. apply in_map_iff in Hx. destruct Hx as (y & <- & _).
    apply Nat.mod_upper_bound. lia. }
  split.
  - intros ka Hka. apply in_map_iff in Hka. destruct Hka as (kb & <- & Hkb). cbn [snd].
    rewrite select_length; [now rewrite map_length, seq_length|]. now rewrite (Hd kb Hkb).
  - intros j Hj. unfold row. rewrite map_map. apply map_ext_in. intros ka Hka. cbn [fst snd]. f_equal.
    rewrite nth_error_select.
    + now rewrite nth_map_seq.
    + now rewrite (Hd ka Hka).
    + now rewrite map_length, seq_length.
Qed.

Lemma ord_periodic data N mb e i : i < ceil_div N mb ->
  access_batch data N (ROrd mb) (e * ceil_div N mb + i) = access_batch data N (ROrd mb) i.
Proof.
  intros H. unfold DataSpec.access_batch, spec_batch.
  rewrite Nat.add_comm, Nat.mod_add by lia. reflexivity.
Qed.

Section Map.
Context {C R : Type}.
Variable fn : mbatch obs -> list bool -> C -> R * C.

Lemma scan_ok data N cid ca k mb : reg_ok (G := G) N (ROrd mb) -> 0 < ca ->
  forall env n it w c e, it + n = ceil_div N mb ->
  (forall i, hands_off cid (env i) /\ not_used k (env i)) ->
  CInv data N cid ca k (ROrd mb) (e * ceil_div N mb + it) w ->
  let (w', o) := scan_body choice_repl choice_perm rng_of_seed fn k N mb env n it w c in
  o = Ok (scan_spec (fun i c => fn (access_batch data N (ROrd mb) i) (map_mask N mb i) c) (seq it n) c) /\
  CInv data N cid ca k (ROrd mb) (e * ceil_div N mb + it + n) w'.
Proof.
  intros Hok Hca env. induction n as [|n IH]; intros it w c e Hin Henv HC; cbn [scan_body seq scan_spec].
  - rewrite Nat.add_0_r. auto.
  - destruct (Henv it) as [He1 He2].
    assert (Hnb : num_batches k (env it) = 0).
    { clear -He2. unfold not_used in He2. induction (env it) as [|o h IH]; simpl; auto.
      destruct o; try (apply IH; intros H; apply He2; simpl; auto).
      destruct (Nat.eqb_spec k0 k) as [->|]; [exfalso; apply He2; simpl; auto|].
      apply IH; intros H; apply He2; simpl; auto. }
    destruct (@run_access G obs choice_repl choice_perm rng_of_seed Hperm Hrepl data N cid ca k (ROrd mb) Hok Hca (env it) _ w HC He1) as [_ H1].
    rewrite Hnb, Nat.add_0_r in H1.
    destruct (run wstep w (env it)) as [w1 o1]. cbn [fst] in H1.
    pose proof (@step_own G obs choice_repl choice_perm rng_of_seed Hperm Hrepl data N cid ca k (ROrd mb) Hok Hca _ w1 H1) as H2.
    destruct (client_batch choice_repl choice_perm w1 k) as [w2 o2]. destruct H2 as [-> H2].
    rewrite ord_periodic by lia.
    destruct (fn (access_batch data N (ROrd mb) it) (map_mask N mb it) c) as [res c'].
    specialize (IH (S it) w2 c' e ltac:(lia) Henv).
    replace (e * ceil_div N mb + S it) with (S (e * ceil_div N mb + it)) in IH by lia.
    specialize (IH H2).
    destruct (scan_body choice_repl choice_perm rng_of_seed fn k N mb env n (S it) w2 c') as [w3 o3].
    destruct IH as [-> IH]. cbn [bind].
    destruct (scan_spec _ (seq (S it) n) c') as [rs c2]. split; [reflexivity|].
    replace (e * ceil_div N mb + it + S n) with (S (e * ceil_div N mb + it) + n) by lia. exact IH.
Qed.
End Map.

Lemma scan_spec_map X Y C R (f : Y -> C -> R * C) (g : X -> Y) l : forall c,
  scan_spec (fun x c => f (g x) c) l c = scan_spec f (map g l) c.
Proof. induction l as [|x l IH]; intros c; simpl; auto. destruct (f (g x) c). rewrite IH. reflexivity. Qed.

Lemma scan_spec_ext_in X C R (f f' : X -> C -> R * C) l : (forall x c, In x l -> f x c = f' x c) -> forall c,
  scan_spec f l c = scan_spec f' l c.
Proof.
  induction l as [|x l IH]; intros H c; simpl; auto. rewrite H by (simpl; auto).
  destruct (f' x c). rewrite IH by (intros; apply H; simpl; auto). reflexivity.
Qed.

(** successive maps of an access *)
Section Maps.
Context {C R : Type}.
Variables k N mb : nat.
(** a map with its function, initial carry and what other programs do meanwhile *)
Definition mapjob := ((mbatch obs -> list bool -> C -> R * C) * C * (nat -> list (wop G)))%type.
Fixpoint run_maps (w : world) (jobs : list mapjob) : world * list (res (list R * C)) :=
  match jobs with
  | [] => (w, [])
  | (fn, c, env) :: jobs' =>
      let (w1, o) := map_masked choice_repl choice_perm rng_of_seed fn k N mb env w c in
      let (w2, os) := run_maps w1 jobs' in (w2, o :: os)
  end.
End Maps.

Lemma final_full_map C R data l0 h1 w1 o1 ca mb w2 k :
  make_loader data = Ok l0 -> run wstep (w_init l0) h1 = (w1, o1) ->
  wstep w1 (WFull ca mb) = (w2, WoInit (Ok k)) ->
  exists bs, is_pass data (l_count l0) mb bs /\
  forall jobs : list (mapjob (C := C) (R := R)),
   (forall fn c env, In (fn, c, env) jobs ->
      forall i, hands_off (length (l_chains (w_loader w1))) (env i) /\ not_used k (env i)) ->
   snd (run_maps k (l_count l0) mb w2 jobs)
   = map (fun job => let '(fn, c, _) := job in Ok (scan_spec (fun b c => fn b (snd b) c) bs c)) jobs.
Proof.
  intros Hm Hr Hw. destruct (@world_reach data l0 h1 w1 o1 Hm Hr) as [HG HD].
  assert (Ha : accesses w1 rng_of_seed (WFull ca mb) (ROrd mb) ca) by constructor.
  destruct (@access_created G obs choice_repl choice_perm rng_of_seed Hperm Hrepl data (l_count l0) w1 _ _ ca w2 k HG HD Ha Hw) as (Hok & Hca & _ & HC).
  set (N := l_count l0) in *.
  assert (Hmb : 0 < mb).
  { simpl in Hw. unfold full_init in Hw. destruct (_ <? _); [discriminate|].
    destruct (Nat.eqb_spec mb 0); [discriminate|lia]. }
  exists (map (access_batch data N (ROrd mb)) (seq 0 (ceil_div N mb))). split.
  { apply ord_is_pass; auto; [destruct Hok; simpl in *; lia|]. apply HD. }
  intros jobs.
  assert (Hgen : forall e w, CInv data N (nchains w1) ca k (ROrd mb) (e * ceil_div N mb) w ->
     (forall fn c env, In (fn, c, env) jobs ->
      forall i, hands_off (length (l_chains (w_loader w1))) (env i) /\ not_used k (env i)) ->
     snd (run_maps (R := R) k N mb w jobs) = map (fun job : mapjob => let '(fn, c, _) := job in
       Ok (scan_spec (fun b c => fn b (snd b) c) (map (access_batch data N (ROrd mb)) (seq 0 (ceil_div N mb))) c)) jobs).
  { induction jobs as [|[[fn c] env] jobs IH]; intros e w HCw Hj; cbn [run_maps map]; auto.
    unfold map_masked, num_iterations.
    rewrite <- (Nat.add_0_r (e * ceil_div N mb)) in HCw.
    pose proof (@scan_ok C R fn data N (nchains w1) ca k mb Hok Hca env (ceil_div N mb) 0 w c e eq_refl
      (Hj fn c env (or_introl eq_refl)) HCw) as Hs.
    destruct (scan_body choice_repl choice_perm rng_of_seed fn k N mb env (ceil_div N mb) 0 w c) as [w' o].
    destruct Hs as [-> Hs].
    rewrite Nat.add_0_r in Hs. replace (e * ceil_div N mb + ceil_div N mb) with (S e * ceil_div N mb) in Hs by lia.
    specialize (IH (S e) w' Hs ltac:(intros; eapply Hj; simpl; eauto)).
    destruct (run_maps k N mb w' jobs) as [w3 os]. cbn [snd] in *. rewrite IH. f_equal. f_equal.
    rewrite <- (scan_spec_map (fun b c => fn b (snd b) c) (access_batch data N (ROrd mb))).
    apply scan_spec_ext_in. intros i c0 Hi. apply in_seq in Hi. f_equal.
    unfold DataSpec.access_batch, spec_batch, map_mask. rewrite Nat.mod_small by lia. reflexivity. }
  apply (Hgen 0). simpl. exact HC.
Qed.

(** masking=False *)
Lemma final_full_map_unmasked C R data l0 h1 w1 o1 ca mb w2 k :
  make_loader data = Ok l0 -> run wstep (w_init l0) h1 = (w1, o1) ->
  wstep w1 (WFull ca mb) = (w2, WoInit (Ok k)) ->
  forall (jobs : list (mapjob (C := C) (R := R))) w3 outs fn c env,
   (forall fn c env, In (fn, c, env) jobs ->
      forall i, hands_off (length (l_chains (w_loader w1))) (env i) /\ not_used k (env i)) ->
   run_maps k (l_count l0) mb w2 jobs = (w3, outs) ->
   (forall i, hands_off (length (l_chains (w_loader w1))) (env i) /\ not_used k (env i)) ->
   exists bs, is_pass data (l_count l0) mb bs /\
   snd (map_unmasked (C := C) (R := R) choice_repl choice_perm rng_of_seed fn k (l_count l0) mb env w3 c)
   = let (rs, c') := scan_spec fn bs c in Ok (slice (concat rs) 0 (l_count l0), c').
Proof.
  intros Hm Hr Hw jobs w3 outs fn c env Hj Hrun Henv.
  destruct (@world_reach data l0 h1 w1 o1 Hm Hr) as [HG HD].
  assert (Ha : accesses w1 rng_of_seed (WFull ca mb) (ROrd mb) ca) by constructor.
  destruct (@access_created G obs choice_repl choice_perm rng_of_seed Hperm Hrepl data (l_count l0) w1 _ _ ca w2 k HG HD Ha Hw) as (Hok & Hca & _ & HC).
  set (N := l_count l0) in *.
  assert (Hmb : 0 < mb).
  { simpl in Hw. unfold full_init in Hw. destruct (_ <? _); [discriminate|].
    destruct (Nat.eqb_spec mb 0); [discriminate|lia]. }
  exists (map (access_batch data N (ROrd mb)) (seq 0 (ceil_div N mb))). split.
  { apply ord_is_pass; auto; [destruct Hok; simpl in *; lia|]. apply HD. }
  assert (Hgen : forall e w outs, CInv data N (nchains w1) ca k (ROrd mb) (e * ceil_div N mb) w ->
     run_maps k N mb w jobs = (w3, outs) ->
     exists e', CInv data N (nchains w1) ca k (ROrd mb) (e' * ceil_div N mb) w3).
  { clear Hrun outs. induction jobs as [|[[fn' c'] env'] jobs IH]; intros e w outs HCw Hrun; cbn [run_maps] in Hrun.
    - inversion Hrun; subst. eauto.
    - unfold map_masked, num_iterations in Hrun.
      rewrite <- (Nat.add_0_r (e * ceil_div N mb)) in HCw.
      pose proof (@scan_ok C R fn' data N (nchains w1) ca k mb Hok Hca env' (ceil_div N mb) 0 w c' e eq_refl
        (Hj fn' c' env' (or_introl eq_refl)) HCw) as Hs.
      destruct (scan_body choice_repl choice_perm rng_of_seed fn' k N mb env' (ceil_div N mb) 0 w c') as [w' o].
      destruct Hs as [_ Hs].
      rewrite Nat.add_0_r in Hs. replace (e * ceil_div N mb + ceil_div N mb) with (S e * ceil_div N mb) in Hs by lia.
      destruct (run_maps k N mb w' jobs) as [w4 os] eqn:E4. inversion Hrun; subst.
      eapply (IH ltac:(intros; eapply Hj; simpl; eauto) (S e)); eauto. }
  destruct (Hgen 0 w2 outs HC Hrun) as (e' & HC3).
  unfold map_unmasked, num_iterations.
  rewrite <- (Nat.add_0_r (e' * ceil_div N mb)) in HC3.
  pose proof (@scan_ok C (list R) (fun b _ c => fn b c) data N (nchains w1) ca k mb Hok Hca env (ceil_div N mb) 0 w3 c e' eq_refl Henv HC3) as Hs.
  destruct (scan_body choice_repl choice_perm rng_of_seed (fun b _ c => fn b c) k N mb env (ceil_div N mb) 0 w3 c) as [w' o].
  destruct Hs as [-> _]. cbn [snd bind].
  rewrite (scan_spec_map fn (access_batch data N (ROrd mb))).
  destruct (scan_spec fn _ c) as [rs c2]. reflexivity.
Qed.
End Final.
