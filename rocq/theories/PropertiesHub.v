(** C61: programs with several data loaders, data accesses and data states; releasing an access.
    Reading guide: [run step (hub_init ls) h] executes any history h of creating accesses
    (random_reference_data, full_reference_data), calling their init functions, drawing batches,
    releasing accesses and direct loader calls; [opened ... hD ai k i cid ca data N r]: in state hD
    the init function of access ai (cache size ca, on loader i holding N observations [data]) has
    just returned data state k, which is to deliver stream r; [state_answers k h outs] are the
    answers to the batch calls with data state k. *)
From Verif Require Import Base ListUtil NumpyLoader LoaderSpec NumpyLoaderProofs NumpyLoaderApi Requests RequestsProofs
  DataCore DataSpec DataProofs Hub HubSpec HubProofs HubFinal GenInstance.
From Coq Require String.
Set Implicit Arguments.
Import String.StringSyntax. Delimit Scope string_scope with string.

Lemma Forall2_nth_error_l A B (P : A -> B -> Prop) l1 l2 i a : Forall2 P l1 l2 -> nth_error l1 i = Some a ->
  exists b, nth_error l2 i = Some b /\ P a b.
Proof.
  intros H. revert i. induction H as [|x y l1 l2 Hp _ IH]; intros [|i] E; try discriminate; cbn in *.
  - injection E as <-. eauto.
  - apply IH. exact E.
Qed.

Section Hub.
Context {G obs : Type}.
Variable choice_repl : G -> nat -> nat -> G * list nat.
Variable choice_perm : G -> nat -> G * list nat.
Variable rng_of_seed : nat -> G.
Hypothesis Hperm : perm_oracle choice_perm.
Hypothesis Hrepl : repl_oracle choice_repl.
Notation get_batches := (NumpyLoader.get_batches choice_repl choice_perm (obs := obs)).
Notation lstep := (NumpyLoader.lstep choice_repl choice_perm rng_of_seed (obs := obs)).
Notation step := (@Hub.hstep G obs choice_repl choice_perm rng_of_seed).
Notation access_batch := (@access_batch G obs choice_repl choice_perm).
Notation hub := (hub G obs).
Notation SInv := (@SInv G obs choice_repl choice_perm).

Lemma HI_init ls : HI (hub_init (G := G) (obs := obs) ls).
Proof. constructor; [reflexivity| |]; intros x y E; destruct x; discriminate. Qed.

Lemma run_effect h : forall (s : hub), HI s ->
  let s' := fst (run step s h) in HI s' /\
  (forall i l, nth_error (hb_loaders s) i = Some l -> exists ops, nth_error (hb_loaders s') i = Some (fst (run lstep l ops))) /\
  (forall ai a, nth_error (hb_accesses s) ai = Some a -> exists a', nth_error (hb_accesses s') ai = Some a' /\ acc_static a a' /\
      (ac_live a = false -> ac_live a' = false)).
Proof.
  induction h as [|o h IH]; intros s HH; cbn [run].
  - cbn [fst]. split; [exact HH|]. split.
    + intros i l E. exists []. exact E.
    + intros ai a E. exists a. split; [exact E|]. split; [apply acc_static_refl|auto].
  - pose proof (@hstep_shape G obs choice_repl choice_perm rng_of_seed s o HH) as S. pose proof (Shape_HI HH S) as H1.
    destruct (step s o) as [s1 o1]. cbn [fst] in *. destruct (IH s1 H1) as (I1 & I2 & I3). destruct (run step s1 h) as [s2 o2]. cbn [fst] in *.
    split; [exact I1|]. split.
    + intros i l E. destruct (sh_loaders S _ E) as (ops & E1 & _). destruct (I2 _ _ E1) as (ops2 & E2). exists (ops ++ ops2).
      rewrite E2, run_app. destruct (run lstep l ops) as [l1 ol]. cbn [fst]. destruct (run lstep l1 ops2); reflexivity.
    + intros ai a E. destruct (sh_acc S _ E) as (a1 & E1 & (Q1 & Q2 & Q3 & Q4 & Q5) & _ & Q6 & _). destruct (I3 _ _ E1) as (a2 & E2 & (P1 & P2 & P3 & P4 & P5) & P6).
      exists a2. split; [exact E2|]. split; [repeat split; congruence|auto].
Qed.

Lemma create_effect (s : hub) i ca mb random oc s' ai : creates_access i ca mb random oc -> step s oc = (s', HoAccess (Ok ai)) ->
  exists a, nth_error (hb_accesses s') ai = Some a /\ ac_loader a = i /\ ac_ca a = ca /\ ac_mb a = mb /\ ac_random a = random.
Proof.
  intros [st|]; cbn [Hub.hstep]; unfold hub_random, hub_full; destruct (nth_error (hb_loaders s) i); try discriminate;
    destruct (_ <? _); try discriminate.
  - destruct (_ || _); [discriminate|]. intros E; injection E as <- <-. cbn [new_access hb_accesses]. eexists. rewrite nth_error_app2, Nat.sub_diag by lia. split; [reflexivity|]. auto.
  - destruct (_ =? _); [discriminate|]. intros E; injection E as <- <-. cbn [new_access hb_accesses]. eexists. rewrite nth_error_app2, Nat.sub_diag by lia. split; [reflexivity|]. auto.
Qed.

Lemma first_cache_inv data N (s : hub) ai a l l1 cid r op1 s' k : HI s -> nth_error (hb_accesses s) ai = Some a -> nth_error (hb_loaders s) (ac_loader a) = Some l ->
  HI s' -> (forall k' cl a', k' <> length (hb_clients s) -> nth_error (hb_clients s') k' = Some cl -> nth_error (hb_accesses s') (hc_access cl) = Some a' ->
     ac_loader a' = ac_loader a -> cs_chain (hc_state cl) <> cid) ->
  l1 = fst (lstep l op1) -> cid = length (l_chains l) -> reg_ok N r -> @AtChain G obs choice_repl choice_perm data N r (ac_ca a) cid 0 l1 ->
  hub_first_cache choice_repl choice_perm (set_loader s (ac_loader a) l1) ai a cid = (s', Ok k) ->
  0 < ac_ca a /\ k = length (hb_clients s) /\ SInv data N (ac_loader a) cid (ac_ca a) k ai r true 0 s'.
Proof.
  intros HH Ea El HH' Hoth Hl1 Hcid Hok Hat. unfold hub_first_cache. cbn [set_loader hb_loaders hb_accesses hb_cached hb_fresh hb_clients].
  assert (Hi : ac_loader a < length (hb_loaders s)) by (apply nth_error_Some; congruence).
  destruct (@get_step G obs choice_repl choice_perm rng_of_seed Hperm Hrepl data N r (ac_ca a) cid 0 l1 Hok Hat) as (Hg1 & Hg2).
  unfold reg_get. destruct (ac_live a) eqn:Elv; [|discriminate]. rewrite nth_error_upd_same by exact Hi.
  destruct (get_batches l1 cid) as [l2 [[d m]|e]]; [|discriminate]. cbn [fst snd] in Hg1, Hg2. intros E. injection E as <- <-.
  assert (Hca : 0 < ac_ca a). { symmetry in Hg1. unfold LoaderSpec.chain_output in Hg1. destruct (Nat.eqb_spec (ac_ca a) 0); [discriminate|lia]. }
  split; [exact Hca|]. split; [reflexivity|]. constructor; auto.
  eexists. exists a, l2, 0. cbn [hb_clients hb_accesses hb_loaders]. rewrite nth_error_app2, Nat.sub_diag by lia. split; [reflexivity|].
  split; [exact Ea|]. split; [reflexivity|]. split; [exact Elv|]. split; [rewrite nth_error_upd_same by (rewrite length_upd; exact Hi); reflexivity|].
  split; [exact Hg2|]. cbn [cs_chain cs_count cs_data cs_valid cs_line cs_token]. repeat (split; [first [reflexivity | lia | now symmetry]|]).
  destruct (hi_acc HH _ Ea) as (l0 & El0 & Hcur & _). rewrite El in El0. injection El0 as <-. rewrite Hcur by (unfold nch; lia). exact I.
Qed.

Lemma init_inv data N (s : hub) ai a l ie sh sd s' k : HI s -> nth_error (hb_accesses s) ai = Some a -> nth_error (hb_loaders s) (ac_loader a) = Some l -> DataOk data N l ->
  step s (HInit ai ie sh sd) = (s', HoState (Ok k)) ->
  let cid := length (l_chains l) in let r := state_stream rng_of_seed (ac_random a) (ac_mb a) cid ie sh sd in
  0 < ac_ca a /\ reg_ok N r /\ SInv data N (ac_loader a) cid (ac_ca a) k ai r true 0 s'.
Proof.
  intros HH Ea El HD Hs. cbv zeta. pose proof (@hstep_shape G obs choice_repl choice_perm rng_of_seed s (HInit ai ie sh sd) HH) as S. rewrite Hs in S. cbn [fst] in S.
  pose proof (Shape_HI HH S) as HH'.
  assert (Hoth : forall k' cl a', k' <> length (hb_clients s) -> nth_error (hb_clients s') k' = Some cl -> nth_error (hb_accesses s') (hc_access cl) = Some a' ->
     ac_loader a' = ac_loader a -> cs_chain (hc_state cl) <> length (l_chains l)).
  { intros k' cl a' Hne Hcl Ha' Hl. destruct (nth_error (hb_clients s) k') as [cl0|] eqn:E0.
    - rewrite (sh_cl S (k := k')) in Hcl by (try discriminate; apply nth_error_Some; congruence).
      destruct (hi_cl HH _ Hcl) as (a0 & l0 & Ea0 & El0 & Hlt). destruct (sh_acc S _ Ea0) as (a1 & Ea1 & (Q & _) & _). rewrite Ea1 in Ha'. injection Ha' as <-.
      rewrite Q in Hl. rewrite Hl, El in El0. injection El0 as <-. unfold nch in Hlt. lia.
    - exfalso. apply nth_error_None in E0. cbn [Hub.hstep] in Hs. unfold hub_new_state in Hs. rewrite Ea, El in Hs.
      assert (Hone : forall l1 cid s2 o, hub_first_cache choice_repl choice_perm (set_loader s (ac_loader a) l1) ai a cid = (s2, o) -> length (hb_clients s2) <= length (hb_clients s) + 1).
      { intros l1 cid s2 o. unfold hub_first_cache. destruct (reg_get _ _ _ _ _) as [ls [[d m]|e]]; intros E; injection E as <- <-; cbn [hb_clients set_loader]; [rewrite app_length; cbn; lia|lia]. }
      assert (Hk' : k' < length (hb_clients s')) by (apply nth_error_Some; congruence).
      destruct (ac_random a).
      + destruct (register_random _ _ _ _ _ _ _) as [l1 [cid|e]]; [|discriminate]. destruct (hub_first_cache _ _ _ _ _ _) as [s2 o2] eqn:E2. injection Hs as -> ->. specialize (Hone _ _ _ _ E2). lia.
      + destruct (ac_live a); [|discriminate]. destruct (register_ordered _ _ _) as [l1 [cid|e]]; [|discriminate]. destruct (hub_first_cache _ _ _ _ _ _) as [s2 o2] eqn:E2. injection Hs as -> ->. specialize (Hone _ _ _ _ E2). lia. }
  cbn [Hub.hstep] in Hs. unfold hub_new_state in Hs. rewrite Ea, El in Hs. unfold state_stream. destruct (ac_random a) eqn:Er.
  - pose proof (@reg_random_shape G obs choice_repl choice_perm rng_of_seed l (ac_ca a) (ac_mb a) ie sh sd) as Hr.
    destruct (register_random rng_of_seed l _ _ _ _ _) as [l1 [cid|e]] eqn:Ereg; [|discriminate]. destruct Hr as (Hr1 & Hr2 & Hr3).
    destruct (@register_random_ok G obs choice_repl choice_perm rng_of_seed data N l (ac_ca a) (ac_mb a) ie sh sd l1 cid HD Ereg) as (_ & Hok & Hat).
    rewrite Hr2 in Hok, Hat, Hs. destruct (hub_first_cache _ _ _ _ _ _) as [s2 o2] eqn:E2. injection Hs as -> ->.
    destruct (@first_cache_inv data N s ai a l l1 _ _ _ _ _ HH Ea El HH' Hoth Hr1 eq_refl Hok Hat E2) as (F1 & F2 & F3). auto.
  - destruct (ac_live a) eqn:Elv; [|discriminate].
    pose proof (@reg_ordered_shape G obs choice_repl choice_perm rng_of_seed l (ac_ca a) (ac_mb a)) as Hr.
    destruct (register_ordered l _ _) as [l1 [cid|e]] eqn:Ereg; [|discriminate]. destruct Hr as (Hr1 & Hr2 & Hr3).
    destruct (@register_ordered_ok G obs choice_repl choice_perm rng_of_seed data N l (ac_ca a) (ac_mb a) l1 cid HD Ereg) as (_ & Hok & Hat).
    rewrite Hr2 in Hat, Hs. destruct (hub_first_cache _ _ _ _ _ _) as [s2 o2] eqn:E2. injection Hs as -> ->.
    destruct (@first_cache_inv data N s ai a l l1 _ _ _ _ _ HH Ea El HH' Hoth Hr1 eq_refl Hok Hat E2) as (F1 & F2 & F3). auto.
Qed.

Lemma opened_inv datas hD ai k i cid ca data N r : opened step datas rng_of_seed hD ai k i cid ca data N r ->
  0 < ca /\ reg_ok N r /\ SInv data N i cid ca k ai r true 0 hD.
Proof.
  intros (ls0 & h0 & hA & o0 & oc & mb & random & hB & h1 & hC & o1 & l & l0 & ie & sh & sd & H1 & H2 & H3 & H4 & H5 & H6 & H7 & H8 & H9 & H10 & H11 & H12).
  assert (HA := run_effect h0 (HI_init ls0)). rewrite H2 in HA. cbn [fst] in HA. destruct HA as (HA & LA & _).
  pose proof (@hstep_shape G obs choice_repl choice_perm rng_of_seed hA oc HA) as SB. rewrite H4 in SB. cbn [fst] in SB. pose proof (Shape_HI HA SB) as HB.
  destruct (@create_effect _ _ _ _ _ _ _ _ H3 H4) as (a & Ea & A1 & A2 & A3 & A4).
  assert (HC := run_effect h1 HB). rewrite H5 in HC. cbn [fst] in HC. destruct HC as (HC & LC & AC).
  destruct (AC _ _ Ea) as (a' & Ea' & (B1 & B2 & B3 & B4 & _) & _).
  assert (HD : DataOk data N l).
  { destruct (Forall2_nth_error_l _ H1 H7) as (l0' & E0 & Hmk). rewrite H8 in E0. injection E0 as <-.
    destruct (@make_loader_ok G obs data l0 Hmk) as (HD & _). rewrite <- H9 in HD.
    destruct (LA _ _ H8) as (ops1 & E1). destruct (sh_loaders SB _ E1) as (ops2 & E2 & _). destruct (LC _ _ E2) as (ops3 & E3). rewrite H10 in E3. injection E3 as ->.
    repeat apply DataOk_run. exact HD. }
  assert (El : nth_error (hb_loaders hC) (ac_loader a') = Some l) by (rewrite B1, A1; exact H10).
  pose proof (@init_inv data N hC ai a' l ie sh sd hD k HC Ea' El HD H6) as HI. cbv zeta in HI.
  rewrite B1, B2, B3, B4, A1, A2, A3, A4, <- H11, <- H12 in HI. exact HI.
Qed.

(** every data state delivers exactly its stream, whatever else happens: other loaders, other
    accesses, other states of the same access, releases of other accesses *)
Theorem C61_streams :
  forall datas hD ai k i cid ca data N r h2, opened step datas rng_of_seed hD ai k i cid ca data N r ->
  untouched i cid h2 -> never_released ai h2 ->
  state_answers k h2 (snd (run step hD h2)) = map (fun j => Ok (access_batch data N r j)) (seq 0 (state_calls k h2)).
Proof.
  intros datas hD ai k i cid ca data N r h2 Ho Hu Hn. destruct (@opened_inv _ _ _ _ _ _ _ _ _ _ Ho) as (Hca & Hok & HS).
  apply (@run_live G obs choice_repl choice_perm rng_of_seed Hperm Hrepl data N i cid ca k ai r Hok Hca h2 0 hD HS Hu Hn).
Qed.

(** release (after any use of the state): it succeeds; the batches that are already in the cache are
    still delivered, every later call raises KeyError *)
Theorem C61_release :
  forall datas hD ai k i cid ca data N r h2 hE o2 h3, opened step datas rng_of_seed hD ai k i cid ca data N r ->
  untouched i cid h2 -> never_released ai h2 -> run step hD h2 = (hE, o2) -> untouched i cid h3 ->
  exists hF, step hE (HRelease ai) = (hF, HoRelease (Ok tt)) /\
  let n := state_calls k h2 in
  state_answers k h3 (snd (run step hF h3))
  = map (fun j => if j <? cached_until ca n then Ok (access_batch data N r j) else Exc KeyError) (seq n (state_calls k h3)).
Proof.
  intros datas hD ai k i cid ca data N r h2 hE o2 h3 Ho Hu Hn Hr Hu3. destruct (@opened_inv _ _ _ _ _ _ _ _ _ _ Ho) as (Hca & Hok & HS).
  destruct (@run_live G obs choice_repl choice_perm rng_of_seed Hperm Hrepl data N i cid ca k ai r Hok Hca h2 0 hD HS Hu Hn) as (_ & HE).
  rewrite Hr in HE. cbn [fst plus] in HE.
  destruct (@release_own G obs choice_repl choice_perm rng_of_seed data N i cid ca k ai r Hca _ hE HE) as (R1 & R2).
  destruct (step hE (HRelease ai)) as [hF oF]. cbn [fst snd] in R1, R2. subst oF. exists hF. split; [reflexivity|].
  apply (@run_released G obs choice_repl choice_perm rng_of_seed Hperm Hrepl data N i cid ca k ai r Hok Hca h3 _ hF R2 Hu3).
Qed.

(** a released access stays released: releasing it again raises KeyError, its init function does not
    return a data state any more *)
Theorem C61_released_for_good :
  forall ls0 h1 hA o1 ai hB h2 hC o2, run step (hub_init ls0) h1 = (hA, o1) ->
  step hA (HRelease ai) = (hB, HoRelease (Ok tt)) -> run step hB h2 = (hC, o2) ->
  step hC (HRelease ai) = (hC, HoRelease (Exc KeyError)) /\
  (forall ie sh sd, exists hD e, step hC (HInit ai ie sh sd) = (hD, HoState (Exc e)) /\
     hb_clients hD = hb_clients hC /\ ((ie = true -> sh = true) -> e = KeyError)).
Proof.
  intros ls0 h1 hA o1 ai hB h2 hC o2 H1 H2 H3.
  assert (HA := run_effect h1 (HI_init ls0)). rewrite H1 in HA. cbn [fst] in HA. destruct HA as (HA & _ & _).
  pose proof (@hstep_shape G obs choice_repl choice_perm rng_of_seed hA (HRelease ai) HA) as SB. rewrite H2 in SB. cbn [fst] in SB. pose proof (Shape_HI HA SB) as HB.
  assert (Hrel : exists a, nth_error (hb_accesses hB) ai = Some a /\ ac_live a = false).
  { cbn [Hub.hstep] in H2. unfold hub_release in H2. destruct (nth_error (hb_accesses hA) ai) as [a|] eqn:Ea; [|discriminate]. destruct (ac_live a); [|discriminate].
    injection H2 as <-. cbn [hb_accesses]. rewrite nth_error_upd_same by (apply nth_error_Some; congruence). eexists. split; reflexivity. }
  destruct Hrel as (a & Ea & Hl). assert (HC := run_effect h2 HB). rewrite H3 in HC. cbn [fst] in HC. destruct HC as (HC & _ & AC).
  destruct (AC _ _ Ea) as (a' & Ea' & _ & Hl'). specialize (Hl' Hl). cbn [Hub.hstep]. unfold hub_release, hub_new_state. rewrite Ea', Hl'. split; [reflexivity|].
  intros ie sh sd. destruct (hi_acc HC _ Ea') as (l & El & _ & Hsz). rewrite El. destruct (ac_random a').
  - unfold register_random. destruct (Nat.ltb_spec (l_count l) (ac_mb a')); [lia|].
    destruct (negb sh && ie) eqn:Eb.
    { do 2 eexists; split; [reflexivity|]. split; [reflexivity|]. intros Hi. destruct ie, sh; try discriminate. specialize (Hi eq_refl). discriminate. }
    destruct (Nat.eqb_spec (ac_mb a') 0); [lia|].
    unfold hub_first_cache, reg_get. rewrite Hl'. cbn [hb_loaders set_loader]. do 2 eexists; split; [reflexivity|]. split; [reflexivity|]. auto.
  - do 2 eexists; split; [reflexivity|]. split; [reflexivity|]. auto.
Qed.
End Hub.
(** The hypotheses are met by a program with two loaders, an ordered and a random access, three data
    states, and releases of both accesses. *)
Definition ex_datas : list (list (String.string * list nat)) := [[("x"%string, [10; 11; 12])]; [("y"%string, [20; 21])]].
Notation ex_step := (@Hub.hstep nat nat lin_repl rot_perm (fun s => s)).
Definition ex_hub : hub nat nat :=
  fst (run ex_step (hub_init (map (fun d => match make_loader d with Ok l => l | Exc _ => mkLoader 0 [] [] end) ex_datas))
    [HFull 0 2 2; HRandom 1 2 1 true; HInit 0 false true None; HInit 1 false false None; HInit 1 false false None]).
Example C61_opened_nonvacuous : opened ex_step ex_datas (fun s => s) ex_hub 1 2 1 1 2 [("y"%string, [20; 21])] 2 (RDraw 1 1).
Proof.
  exists (map (fun d => match make_loader d with Ok l => l | Exc _ => mkLoader 0 [] [] end) ex_datas), [HFull 0 2 2].
  do 2 eexists. exists (HRandom 1 2 1 true), 1, true. eexists. exists [HInit 0 false true None; HInit 1 false false None].
  do 4 eexists. exists false, false, None.
  split; [repeat constructor|]. split; [vm_compute; reflexivity|]. split; [constructor|]. split; [vm_compute; reflexivity|].
  split; [vm_compute; reflexivity|]. split; [vm_compute; reflexivity|]. split; [reflexivity|]. split; [reflexivity|].
  split; [reflexivity|]. split; [vm_compute; reflexivity|]. split; reflexivity.
Qed.
Example C61_nonvacuous :
  let h2 := [HBatch 0; HBatch 2; HBatch 1; HRelease 0; HBatch 2; HBatch 2; HLoader 1 (GetBatches 0)] in
  let h3 := [HBatch 2; HBatch 0; HBatch 2; HBatch 2; HBatch 1] in
  untouched 1 1 h2 /\ never_released 1 h2 /\ untouched 1 1 h3 /\
  let hE := fst (run ex_step ex_hub h2) in let hF := fst (ex_step hE (HRelease 1)) in
  state_calls 2 h2 = 3 /\ state_calls 2 h3 = 3 /\ cached_until 2 3 = 4 /\
  map (fun r => match r with Ok _ => true | Exc _ => false end) (state_answers 2 h3 (snd (run ex_step hF h3))) = [true; false; false].
Proof.
  cbv zeta. split.
  { intros op [E|[E|[E|[E|[E|[E|[E|[]]]]]]]]; try discriminate. injection E as <-. split; intros c; [|intros ck]; intros E; [injection E as <-; lia|discriminate]. }
  split. { intros [E|[E|[E|[E|[E|[E|[E|[]]]]]]]]; discriminate. }
  split. { intros op [E|[E|[E|[E|[E|[]]]]]]; discriminate. }
  split; [reflexivity|]. split; [reflexivity|]. split; [reflexivity|]. vm_compute. reflexivity.
Qed.
Print Assumptions C61_streams.
Print Assumptions C61_release.
Print Assumptions C61_released_for_good.
