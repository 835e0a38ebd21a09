From Verif Require Import Base ListUtil NumpyLoader LoaderSpec NumpyLoaderProofs NumpyLoaderApi Requests RequestsProofs
  DataCore DataSpec DataProofs Hub HubSpec.
From Coq Require String.
Set Implicit Arguments.

Section Hub.
Context {G obs : Type}.
Variable choice_repl : G -> nat -> nat -> G * list nat.
Variable choice_perm : G -> nat -> G * list nat.
Variable rng_of_seed : nat -> G.
Hypothesis Hperm : perm_oracle choice_perm.
Hypothesis Hrepl : repl_oracle choice_repl.
Notation get_batches := (NumpyLoader.get_batches choice_repl choice_perm (obs := obs)).
Notation lstep := (NumpyLoader.lstep choice_repl choice_perm rng_of_seed (obs := obs)).
Notation hstep := (@Hub.hstep G obs choice_repl choice_perm rng_of_seed).
Notation AtChain := (@AtChain G obs choice_repl choice_perm).
Notation chain_output := (@chain_output G obs choice_repl choice_perm).
Notation access_batch := (@access_batch G obs choice_repl choice_perm).
Notation hub := (hub G obs).
Notation reg_get := (@Hub.reg_get G obs choice_repl choice_perm).

Definition nch (l : loader G obs) := length (l_chains l).

(** invariant of all reachable hubs *)
Record HI (h : hub) : Prop := {
  hi_cached : hb_cached h = [];
  hi_acc : forall ai a, nth_error (hb_accesses h) ai = Some a -> exists l, nth_error (hb_loaders h) (ac_loader a) = Some l /\
      (forall c, nch l <= c -> clookup c (ac_current a) = None) /\ 0 < ac_mb a <= l_count l;
  hi_cl : forall k c, nth_error (hb_clients h) k = Some c -> exists a l, nth_error (hb_accesses h) (hc_access c) = Some a /\
      nth_error (hb_loaders h) (ac_loader a) = Some l /\ cs_chain (hc_state c) < nch l }.

(** two accesses differ at most in the liveness and the expected tokens *)
Definition acc_static (a a' : access) : Prop :=
  ac_loader a' = ac_loader a /\ ac_ca a' = ac_ca a /\ ac_mb a' = ac_mb a /\ ac_random a' = ac_random a /\ ac_strict a' = ac_strict a.
Lemma acc_static_refl a : acc_static a a. Proof. repeat split. Qed.

(** operations that a hub operation performs on loader i; chain c of it is not affected *)
Definition foreign (h : hub) (i c : nat) (o : hop G) : Prop :=
  match o with
  | HLoader i' op => i' = i -> ~ targets c op
  | HBatch k => forall cl a, nth_error (hb_clients h) k = Some cl -> nth_error (hb_accesses h) (hc_access cl) = Some a ->
                  ac_loader a = i -> cs_chain (hc_state cl) <> c
  | _ => True
  end.

(** effect of a step *)
Record Shape (h : hub) (o : hop G) (h' : hub) : Prop := {
  sh_loaders : forall i l, nth_error (hb_loaders h) i = Some l -> exists ops, nth_error (hb_loaders h') i = Some (fst (run lstep l ops)) /\
      forall c, c < nch l -> foreign h i c o -> Forall (fun op => ~ targets c op) ops;
  sh_len : length (hb_loaders h') = length (hb_loaders h);
  sh_acc : forall ai a, nth_error (hb_accesses h) ai = Some a -> exists a', nth_error (hb_accesses h') ai = Some a' /\ acc_static a a' /\
      (o <> HRelease ai -> ac_live a' = ac_live a) /\ (ac_live a = false -> ac_live a' = false) /\
      forall c, (forall k cl, o = HBatch k -> nth_error (hb_clients h) k = Some cl -> hc_access cl = ai -> cs_chain (hc_state cl) <> c) ->
        clookup c (ac_current a') = clookup c (ac_current a);
  sh_acc_new : forall ai a', nth_error (hb_accesses h') ai = Some a' -> nth_error (hb_accesses h) ai = None ->
      ac_current a' = [] /\ ac_live a' = true /\ (exists l, nth_error (hb_loaders h) (ac_loader a') = Some l /\ 0 < ac_mb a' <= l_count l);
  sh_cl : forall k, o <> HBatch k -> k < length (hb_clients h) -> nth_error (hb_clients h') k = nth_error (hb_clients h) k;
  sh_cl_own : forall k cl, o = HBatch k -> nth_error (hb_clients h) k = Some cl ->
      exists cl', nth_error (hb_clients h') k = Some cl' /\ hc_access cl' = hc_access cl /\ cs_chain (hc_state cl') = cs_chain (hc_state cl);
  sh_cl_new : forall k cl, nth_error (hb_clients h') k = Some cl -> nth_error (hb_clients h) k = None ->
      exists a l l', nth_error (hb_accesses h) (hc_access cl) = Some a /\ nth_error (hb_loaders h) (ac_loader a) = Some l /\
        nth_error (hb_loaders h') (ac_loader a) = Some l' /\
        nch l = cs_chain (hc_state cl) /\ nch l < nch l' /\ exists ai ie sh sd, o = HInit ai ie sh sd;
  sh_cached : hb_cached h = [] -> hb_cached h' = [] }.

Lemma run_grow ops : forall l, nch l <= nch (fst (run lstep l ops)).
Proof.
  induction ops as [|op ops IH]; intros l; cbn [run]; [apply le_n|].
  pose proof (@chains_grow G obs choice_repl choice_perm rng_of_seed op l) as Hc. unfold nch in *.
  destruct (lstep l op) as [l1 o1]. cbn [fst] in Hc. specialize (IH l1). destruct (run lstep l1 ops) as [l2 o2]. cbn [fst] in *. lia.
Qed.

Lemma count_step op (l : loader G obs) : l_count (fst (lstep l op)) = l_count l.
Proof.
  destruct op as [ca mb ie sh sd|ca mb|cid|cid ck]; simpl.
  - unfold register_random. destruct (_ <? _); [reflexivity|]. destruct (_ && _); [reflexivity|]. destruct (_ =? _); reflexivity.
  - unfold register_ordered. destruct (_ <=? _); reflexivity.
  - unfold NumpyLoader.get_batches. destruct (nth_error _ _); [|reflexivity].
    destruct (get_indices _ _ _ _) as [[c' bs]|e]; [|reflexivity]. destruct (slice_data _ _); reflexivity.
  - unfold load_state. destruct (nth_error _ _); [|reflexivity]. destruct ck; [destruct (c_rng c)|]; reflexivity.
Qed.
Lemma count_run ops : forall l : loader G obs, l_count (fst (run lstep l ops)) = l_count l.
Proof.
  induction ops as [|op ops IH]; intros l; cbn [run]; [reflexivity|]. pose proof (count_step op l) as Hc.
  destruct (lstep l op) as [l1 o1]. cbn [fst] in Hc. specialize (IH l1). destruct (run lstep l1 ops). cbn [fst] in *. congruence.
Qed.

Lemma Shape_HI h o h' : HI h -> Shape h o h' -> HI h'.
Proof.
  intros [H1 H2 H3] S. constructor.
  - apply (sh_cached S H1).
  - intros ai a' Ha. destruct (nth_error (hb_accesses h) ai) as [a|] eqn:E.
    + destruct (sh_acc S _ E) as (a2 & E2 & (Q1 & _ & Q1' & _) & _ & _ & Q2). rewrite Ha in E2. injection E2 as <-.
      destruct (H2 _ _ E) as (l & El & Hl & Hsz). destruct (sh_loaders S _ El) as (ops & El' & _). rewrite Q1, Q1'. eexists. split; [exact El'|]. rewrite count_run. split; [|exact Hsz].
      intros c Hc. pose proof (run_grow ops l) as Hg. rewrite Q2; [apply Hl; lia|].
      intros k cl -> Hk Hac Ech. destruct (H3 _ _ Hk) as (a0 & l0 & E0 & El0 & Hlt). rewrite Hac, E in E0. injection E0 as <-.
      rewrite El in El0. injection El0 as <-. lia.
    + destruct (sh_acc_new S _ Ha E) as (Q1 & _ & (l & El & Hsz)). destruct (sh_loaders S _ El) as (ops & El' & _). eexists. split; [exact El'|]. rewrite count_run. split; [|exact Hsz].
      intros c _. rewrite Q1. reflexivity.
  - intros k cl' Hk. destruct (nth_error (hb_clients h) k) as [cl|] eqn:E.
    + assert (Hsame : exists cl0, nth_error (hb_clients h) k = Some cl0 /\ hc_access cl' = hc_access cl0 /\ cs_chain (hc_state cl') = cs_chain (hc_state cl0)).
      { assert (Hd : o = HBatch k \/ o <> HBatch k) by (destruct o; try (right; discriminate); destruct (Nat.eq_dec k0 k); [left; congruence|right; congruence]).
        destruct Hd as [Ho|Ho].
        - destruct (sh_cl_own S Ho E) as (cl2 & E2 & Q1 & Q2). exists cl. rewrite Hk in E2. injection E2 as <-. auto.
        - pose proof (sh_cl S Ho) as Hq. rewrite Hq in Hk by (apply nth_error_Some; congruence). exists cl'. auto. }
      destruct Hsame as (cl0 & E0 & Q1 & Q2). rewrite E in E0. injection E0 as <-.
      destruct (H3 _ _ E) as (a & l & Ea & El & Hlt). destruct (sh_acc S _ Ea) as (a' & Ea' & (Q3 & _) & _).
      destruct (sh_loaders S _ El) as (ops & El' & _). exists a'. eexists. rewrite Q1, Q2, Q3. split; [exact Ea'|]. split; [exact El'|].
      pose proof (run_grow ops l). lia.
    + destruct (sh_cl_new S _ Hk E) as (a & l & l' & Ea & El & El' & Hc & Hlt & _). destruct (sh_acc S _ Ea) as (a' & Ea' & (Q3 & _) & _).
      exists a', l'. rewrite Q3. split; [exact Ea'|]. split; [exact El'|]. lia.
Qed.

(** a step that only changes loader i by ops *)
Lemma Shape_loader h o i l op : nth_error (hb_loaders h) i = Some l -> (forall k, o <> HBatch k) -> (forall c, c < nch l -> foreign h i c o -> ~ targets c op) ->
  Shape h o (set_loader h i (fst (lstep l op))).
Proof.
  intros El Ho Hf. assert (Hi : i < length (hb_loaders h)) by (apply nth_error_Some; congruence).
  constructor; cbn [set_loader hb_loaders hb_accesses hb_clients hb_cached]; auto.
  - intros i' l' E'. destruct (Nat.eq_dec i i') as [<-|Hne].
    + rewrite El in E'. injection E' as <-. exists [op]. rewrite nth_error_upd_same by exact Hi. cbn [run]. destruct (lstep l op) as [l1 o1] eqn:Es. cbn [fst]. split; [reflexivity|].
      intros c Hc Hfo. constructor; [|constructor]. auto.
    + exists []. rewrite nth_error_upd_other by exact Hne. split; [exact E'|]. constructor.
  - apply length_upd.
  - intros ai a Ea. exists a. split; [exact Ea|]. split; [apply acc_static_refl|]. auto.
  - intros ai a' E1 E2. congruence.
  - intros k cl -> . exfalso. apply (Ho k). reflexivity.
  - intros k cl E1 E2. congruence.
Qed.

Lemma Shape_refl h o : (forall k, o = HBatch k -> True) -> Shape h o h.
Proof.
  intros _. constructor; auto.
  - intros i l El. exists []. split; [exact El|]. constructor.
  - intros ai a Ea. exists a. split; [exact Ea|]. split; [apply acc_static_refl|]. auto.
  - intros ai a' E1 E2. congruence.
  - intros k cl _ E. exists cl. auto.
  - intros k cl E1 E2. congruence.
Qed.

Lemma Shape_new_access h o a : (forall k, o <> HBatch k) -> ac_current a = [] -> ac_live a = true -> (exists l, nth_error (hb_loaders h) (ac_loader a) = Some l /\ 0 < ac_mb a <= l_count l) ->
  Shape h o (new_access h a).
Proof.
  intros Ho Hc Hl He. constructor; cbn [new_access hb_loaders hb_accesses hb_clients hb_cached]; auto.
  - intros i l El. exists []. split; [exact El|]. constructor.
  - intros ai a0 Ea. exists a0. split; [rewrite nth_error_app1; [exact Ea|apply nth_error_Some; congruence]|]. split; [apply acc_static_refl|]. auto.
  - intros ai a' E1 E2. apply nth_error_app_cases in E1. destruct E1 as [E1|[-> ->]]; [congruence|]. auto.
  - intros k cl -> . exfalso. apply (Ho k). reflexivity.
  - intros k cl E1 E2. congruence.
Qed.

Lemma reg_get_cases a ls c : 
  (ac_live a = false /\ reg_get a ls c = (ls, Exc KeyError)) \/
  (ac_live a = true /\ nth_error ls (ac_loader a) = None /\ reg_get a ls c = (ls, Exc KeyError)) \/
  (ac_live a = true /\ exists l, nth_error ls (ac_loader a) = Some l /\
     reg_get a ls c = (upd ls (ac_loader a) (fst (get_batches l c)), snd (get_batches l c))).
Proof.
  unfold Hub.reg_get. destruct (ac_live a); [|auto]. destruct (nth_error ls (ac_loader a)) as [l|] eqn:E; [|auto].
  right. right. split; auto. exists l. split; auto. destruct (get_batches l c); reflexivity.
Qed.

Lemma get_lstep l c : fst (get_batches l c) = fst (lstep l (GetBatches c)).
Proof. simpl. destruct (get_batches l c); reflexivity. Qed.

Lemma first_cache_shape h ai a cid o l op1 : HI h -> nth_error (hb_accesses h) ai = Some a -> nth_error (hb_loaders h) (ac_loader a) = Some l ->
  (exists ai ie sh sd, o = HInit ai ie sh sd) -> (forall c, ~ targets c op1) -> cid = nch l -> nch (fst (lstep l op1)) = S cid ->
  Shape h o (fst (hub_first_cache choice_repl choice_perm (set_loader h (ac_loader a) (fst (lstep l op1))) ai a cid)).
Proof.
  intros HH Ea El Ho Ht Hcid Hl1. assert (Hi : ac_loader a < length (hb_loaders h)) by (apply nth_error_Some; congruence).
  assert (Hob : forall k, o <> HBatch k) by (destruct Ho as (? & ? & ? & ? & ->); discriminate).
  set (l1 := fst (lstep l op1)) in *. unfold hub_first_cache. cbn [set_loader hb_loaders hb_accesses hb_cached hb_fresh hb_clients].
  assert (E1 : nth_error (upd (hb_loaders h) (ac_loader a) l1) (ac_loader a) = Some l1) by (apply nth_error_upd_same; exact Hi).
  assert (Hrun : forall ops, fst (run lstep l (op1 :: ops)) = fst (run lstep l1 ops)).
  { intros ops. cbn [run]. unfold l1. destruct (lstep l op1) as [x y]. cbn [fst]. destruct (run lstep x ops). reflexivity. }
  assert (Hgen : forall ls ops cls, nth_error ls (ac_loader a) = Some (fst (run lstep l1 ops)) ->
     (forall i, i <> ac_loader a -> nth_error ls i = nth_error (hb_loaders h) i) -> length ls = length (hb_loaders h) ->
     Forall (fun op => forall c, c < nch l -> ~ targets c op) ops ->
     (forall k, k < length (hb_clients h) -> nth_error cls k = nth_error (hb_clients h) k) ->
     (forall k cl, nth_error cls k = Some cl -> nth_error (hb_clients h) k = None -> hc_access cl = ai /\ cs_chain (hc_state cl) = cid) ->
     Shape h o (mkHub ls (hb_accesses h) (hb_cached h) (hb_fresh h) cls)).
  { intros ls ops cls G1 G2 G3 G4 G5 G6. constructor; cbn [hb_loaders hb_accesses hb_clients hb_cached]; auto.
    - intros i l' E'. destruct (Nat.eq_dec i (ac_loader a)) as [->|Hne].
      + rewrite El in E'. injection E' as <-. exists (op1 :: ops). rewrite Hrun. split; [exact G1|]. intros c Hc _. constructor; [apply Ht|].
        eapply Forall_impl; [|exact G4]. intros op Hop. auto.
      + exists []. rewrite G2 by exact Hne. split; [exact E'|]. constructor.
    - intros ai' a' Ea'. exists a'. split; [exact Ea'|]. split; [apply acc_static_refl|]. auto.
    - intros ai' a' X1 X2. congruence.
    - intros k cl -> . exfalso. apply (Hob k). reflexivity.
    - intros k cl X1 X2. destruct (G6 _ _ X1 X2) as [-> ->]. exists a, l, (fst (run lstep l1 ops)). repeat split; auto.
      pose proof (run_grow ops l1). lia. }
  destruct (reg_get_cases a (upd (hb_loaders h) (ac_loader a) l1) cid) as [[_ ->]|[(_ & X & _)|(_ & l2 & X & ->)]]; [|congruence|].
  - cbn [fst]. apply (Hgen _ []); auto.
    + intros i Hne. apply nth_error_upd_other. congruence.
    + apply length_upd.
    + intros k cl X1 X2. congruence.
  - rewrite E1 in X. injection X as <-. 
    assert (Hls : forall cls, (forall k, k < length (hb_clients h) -> nth_error cls k = nth_error (hb_clients h) k) ->
       (forall k cl, nth_error cls k = Some cl -> nth_error (hb_clients h) k = None -> hc_access cl = ai /\ cs_chain (hc_state cl) = cid) ->
       Shape h o (mkHub (upd (upd (hb_loaders h) (ac_loader a) l1) (ac_loader a) (fst (get_batches l1 cid))) (hb_accesses h) (hb_cached h) (hb_fresh h) cls)).
    { intros cls Q1 Q2. apply (Hgen _ [GetBatches cid]); auto.
      - rewrite nth_error_upd_same by (rewrite length_upd; exact Hi). rewrite get_lstep. cbn [run]. destruct (lstep l1 (GetBatches cid)); reflexivity.
      - intros i Hne. rewrite !nth_error_upd_other by congruence. reflexivity.
      - rewrite !length_upd. reflexivity.
      - constructor; [|constructor]. intros c Hc. cbn [targets]. lia. }
    destruct (snd (get_batches l1 cid)) as [[d m]|e]; cbn [fst]; apply Hls; auto.
    + intros k Hk. apply nth_error_app1. exact Hk.
    + intros k cl X1 X2. apply nth_error_app_cases in X1. destruct X1 as [X1|[-> ->]]; [congruence|]. cbn. auto.
    + intros k cl X1 X2. congruence.
Qed.

Lemma request_effect h ai a c t : hb_cached h = [] -> nth_error (hb_accesses h) ai = Some a ->
  let (h', o) := hub_request choice_repl choice_perm h ai a c t in
  hb_cached h' = [] /\ hb_clients h' = hb_clients h /\
  (hb_loaders h' = hb_loaders h \/ exists l, nth_error (hb_loaders h) (ac_loader a) = Some l /\
     hb_loaders h' = upd (hb_loaders h) (ac_loader a) (fst (get_batches l c))) /\
  exists a', hb_accesses h' = upd (hb_accesses h) ai a' /\ acc_static a a' /\ ac_live a' = ac_live a /\
    forall c', c' <> c -> clookup c' (ac_current a') = clookup c' (ac_current a).
Proof.
  intros Hc Ea. unfold hub_request, request. cbn [r_cached r_current r_fresh r_loader]. rewrite Hc.
  change (@tlookup (nat * batches obs * token) t []) with (@None (nat * batches obs * token)). cbv iota.
  assert (Hst : forall cur, acc_static a (mkAcc (ac_loader a) (ac_ca a) (ac_mb a) (ac_random a) (ac_strict a) (ac_live a) cur)) by (intros; repeat split).
  destruct (match clookup c (ac_current a) with Some _ => _ | None => _ end).
  - destruct (ac_strict a); cbn [r_cached r_current r_fresh r_loader hb_cached hb_clients hb_loaders hb_accesses]; 
      (split; [reflexivity|]; split; [reflexivity|]; split; [left; reflexivity|]; eexists; split; [reflexivity|]; split; [apply Hst|]; split; [reflexivity|]; auto).
  - destruct (reg_get_cases a (hb_loaders h) c) as [[_ ->]|[(_ & _ & ->)|(_ & l & El & ->)]].
    1,2: cbn [r_cached r_current r_fresh r_loader hb_cached hb_clients hb_loaders hb_accesses];
      (split; [reflexivity|]; split; [reflexivity|]; split; [left; reflexivity|]; eexists; split; [reflexivity|]; split; [apply Hst|]; split; [reflexivity|]; auto).
    destruct (snd (get_batches l c)) as [d|e]; cbn [r_cached r_current r_fresh r_loader hb_cached hb_clients hb_loaders hb_accesses Nat.eqb];
      (split; [reflexivity|]; split; [reflexivity|]; split; [right; exists l; auto|]; eexists; split; [reflexivity|]; split; [apply Hst|]; split; [reflexivity|]); auto.
    intros c' Hne. cbn [ac_current]. apply clookup_set_other. congruence.
Qed.

Lemma batch_shape h k : HI h -> Shape h (HBatch k) (fst (hub_batch choice_repl choice_perm h k)).
Proof.
  intros HH. unfold hub_batch. destruct (nth_error (hb_clients h) k) as [cl|] eqn:Ek; [|apply Shape_refl; auto].
  destruct (nth_error (hb_accesses h) (hc_access cl)) as [a|] eqn:Ea; [|apply Shape_refl; auto].
  assert (Hk : k < length (hb_clients h)) by (apply nth_error_Some; congruence).
  assert (Hai : hc_access cl < length (hb_accesses h)) by (apply nth_error_Some; congruence).
  (* the state after the refresh *)
  assert (Href : forall h' o, hub_refresh choice_repl choice_perm h (hc_access cl) a (hc_state cl) = (h', o) ->
     Shape h (HBatch k) h' /\ hb_clients h' = hb_clients h /\ forall cs, o = Ok cs -> cs_chain cs = cs_chain (hc_state cl)).
  { intros h' o. unfold hub_refresh. destruct (_ =? _).
    2:{ intros E; injection E as <- <-. split; [apply Shape_refl; auto|]. split; auto. intros cs E; injection E as <-. reflexivity. }
    pose proof (@request_effect h (hc_access cl) a (cs_chain (hc_state cl)) (cs_token (hc_state cl)) (hi_cached HH) Ea) as Hr.
    destruct (hub_request _ _ h (hc_access cl) a _ _) as [h1 o1]. destruct Hr as (R1 & R2 & R3 & a' & R4 & R5 & R6 & R7).
    assert (HS : Shape h (HBatch k) h1).
    { constructor.
      - intros i l El. destruct R3 as [-> | (l0 & El0 & ->)]; [exists []; split; [exact El|constructor]|].
        destruct (Nat.eq_dec (ac_loader a) i) as [<-|Hne].
        + rewrite El in El0. injection El0 as <-. exists [GetBatches (cs_chain (hc_state cl))].
          rewrite nth_error_upd_same by (apply nth_error_Some; congruence). rewrite get_lstep. cbn [run]. split; [destruct (lstep l _); reflexivity|].
          intros c Hc Hf. constructor; [|constructor]. cbn [targets]. cbn [foreign] in Hf. intros E. exact (Hf cl a Ek Ea eq_refl E).
        + exists []. rewrite nth_error_upd_other by exact Hne. split; [exact El|constructor].
      - destruct R3 as [-> | (l0 & El0 & ->)]; [reflexivity|apply length_upd].
      - intros ai a0 Ea0. rewrite R4. destruct (Nat.eq_dec (hc_access cl) ai) as [<-|Hne].
        + rewrite Ea in Ea0. injection Ea0 as <-. exists a'. rewrite nth_error_upd_same by exact Hai. split; [reflexivity|]. split; [exact R5|].
          split; [auto|]. split; [congruence|]. intros c Hc. apply R7. specialize (Hc k cl eq_refl Ek eq_refl). congruence.
        + exists a0. rewrite nth_error_upd_other by exact Hne. split; [exact Ea0|]. split; [apply acc_static_refl|]. auto.
      - intros ai a0 X1 X2. rewrite R4 in X1. apply nth_error_None in X2. assert (ai < length (upd (hb_accesses h) (hc_access cl) a')) by (apply nth_error_Some; congruence).
        rewrite length_upd in H. lia.
      - intros k' _ _. now rewrite R2.
      - intros k' cl' E E'. rewrite R2. exists cl'. auto.
      - intros k' cl' X1 X2. rewrite R2 in X1. congruence.
      - intros _. exact R1. }
    destruct o1 as [[[d m] tok]|e]; intros E; injection E as <- <-; (split; [exact HS|]; split; [exact R2|]).
    - intros cs E; injection E as <-. reflexivity.
    - discriminate. }
  destruct (hub_refresh choice_repl choice_perm h (hc_access cl) a (hc_state cl)) as [h' o]. destruct (Href _ _ eq_refl) as (HS & Hcl & Hch). clear Href.
  destruct o as [cs1|e]; cbn [bind fst]; [|exact HS]. specialize (Hch _ eq_refl).
  destruct (tree_index (cs_data cs1) (cs_line cs1 mod cs_count cs1)) as [mb|e]; cbn [bind fst]; [|exact HS].
  destruct (jindex (cs_valid cs1) (cs_line cs1 mod cs_count cs1)) as [mk|e]; cbn [bind fst]; [|exact HS].
  destruct HS as [S1 S2 S3 S4 S5 S6 S7 S8].
  constructor; cbn [hb_loaders hb_accesses hb_clients hb_cached]; auto.
  - intros k' Hne Hk'. rewrite nth_error_upd_other by congruence. rewrite Hcl. reflexivity.
  - intros k' cl' E E'. injection E as <-. rewrite Ek in E'. injection E' as <-. rewrite Hcl, nth_error_upd_same by exact Hk. eexists. split; [reflexivity|]. cbn. auto.
  - intros k' cl' X1 X2. apply nth_error_None in X2. assert (X3 : k' < length (upd (hb_clients h') k (mkHC (hc_access cl)
       (mkC (cs_data cs1) (cs_count cs1) (cs_line cs1 mod cs_count cs1 + 1) (cs_chain cs1) (cs_valid cs1) (cs_token cs1))))) by (apply nth_error_Some; congruence).
    rewrite length_upd, Hcl in X3. lia.
Qed.

Lemma hstep_shape h o : HI h -> Shape h o (fst (hstep h o)).
Proof.
  intros HH. destruct o as [i ca mb st|i ca mb|ai ie sh sd|k|ai|i op]; cbn [Hub.hstep].
  - unfold hub_random. destruct (nth_error (hb_loaders h) i) as [l|] eqn:El; [|apply Shape_refl; auto].
    destruct (Nat.ltb_spec (l_count l) mb); [apply Shape_refl; auto|]. destruct (ca =? 0); [apply Shape_refl; auto|]. destruct (Nat.eqb_spec mb 0); [apply Shape_refl; auto|]. apply Shape_new_access; auto; [discriminate|]. exists l. cbn [ac_loader ac_mb]. split; [exact El|lia].
  - unfold hub_full. destruct (nth_error (hb_loaders h) i) as [l|] eqn:El; [|apply Shape_refl; auto].
    destruct (Nat.ltb_spec (l_count l) mb); [apply Shape_refl; auto|]. destruct (Nat.eqb_spec mb 0); [apply Shape_refl; auto|]. apply Shape_new_access; auto; [discriminate|]. exists l. cbn [ac_loader ac_mb]. split; [exact El|lia].
  - unfold hub_new_state. destruct (nth_error (hb_accesses h) ai) as [a|] eqn:Ea; [|apply Shape_refl; auto].
    destruct (nth_error (hb_loaders h) (ac_loader a)) as [l|] eqn:El; [|apply Shape_refl; auto].
    destruct (ac_random a).
    + pose proof (@reg_random_shape G obs choice_repl choice_perm rng_of_seed l (ac_ca a) (ac_mb a) ie sh sd) as Hr.
      destruct (register_random _ l _ _ _ _ _) as [l' [cid|e]]; destruct Hr as (-> & Hr).
      * destruct Hr as (Hc & Hl). 
        pose proof (@first_cache_shape h ai a cid (HInit ai ie sh sd) l (RegRandom (ac_ca a) (ac_mb a) ie sh sd) HH Ea El) as HF.
        destruct (hub_first_cache _ _ _ _ _ _) as [h2 o2] eqn:E2. cbn [fst] in *. apply HF; auto. { repeat eexists. }
      * cbn [fst]. apply Shape_loader; auto; discriminate.
    + destruct (ac_live a); [|apply Shape_refl; auto].
      pose proof (@reg_ordered_shape G obs choice_repl choice_perm rng_of_seed l (ac_ca a) (ac_mb a)) as Hr.
      destruct (register_ordered l _ _) as [l' [cid|e]]; destruct Hr as (-> & Hr).
      * destruct Hr as (Hc & Hl). 
        pose proof (@first_cache_shape h ai a cid (HInit ai ie sh sd) l (RegOrdered (ac_ca a) (ac_mb a)) HH Ea El) as HF.
        destruct (hub_first_cache _ _ _ _ _ _) as [h2 o2] eqn:E2. cbn [fst] in *. apply HF; auto. { repeat eexists. }
      * cbn [fst]. apply Shape_loader; auto; discriminate.
  - pose proof (@batch_shape h k HH) as Hb. destruct (hub_batch _ _ h k). exact Hb.
  - unfold hub_release. destruct (nth_error (hb_accesses h) ai) as [a|] eqn:Ea; [|apply Shape_refl; auto].
    destruct (ac_live a) eqn:El; [|apply Shape_refl; auto]. cbn [fst].
    assert (Hai : ai < length (hb_accesses h)) by (apply nth_error_Some; congruence).
    constructor; cbn [hb_loaders hb_accesses hb_clients hb_cached]; auto.
    + intros i l E. exists []. split; [exact E|constructor].
    + intros ai' a' E. destruct (Nat.eq_dec ai ai') as [<-|Hne].
      * rewrite Ea in E. injection E as <-. rewrite nth_error_upd_same by exact Hai. eexists. split; [reflexivity|]. split; [repeat split|]. split; [congruence|]. split; auto.
      * rewrite nth_error_upd_other by exact Hne. exists a'. split; [exact E|]. split; [apply acc_static_refl|]. auto.
    + intros ai' a' X1 X2. apply nth_error_None in X2. assert (X3 : ai' < length (upd (hb_accesses h) ai
        (mkAcc (ac_loader a) (ac_ca a) (ac_mb a) (ac_random a) (ac_strict a) false (ac_current a)))) by (apply nth_error_Some; congruence). rewrite length_upd in X3. lia.
    + discriminate.
    + intros k cl X1 X2. congruence.
  - destruct (nth_error (hb_loaders h) i) as [l|] eqn:El; [|apply Shape_refl; auto].
    pose proof (@Shape_loader h (HLoader i op) i l op El) as HS. destruct (lstep l op) as [l' r]. cbn [fst] in *. apply HS; [discriminate|].
    intros c _ Hf. cbn [foreign] in Hf. auto.
Qed.
End Hub.
