(** alias.sgld, alias.obabo, alias.sghmc on a data loader that holds the data on the host: the data source of the integrators is the access of data/core.py. *)
From Coq Require Import Reals Lra ZArith String.
From Verif Require Import Base ListUtil NumpyLoader LoaderSpec NumpyLoaderProofs NumpyLoaderApi Requests DataCore DataSpec Hub HubSpec HubProofs HubFinal PropertiesHub GenInstance.
From Verif Require Import Pytree PytreeSpec PytreeProofs Io IoSpec IoProofs TreeUtil TreeUtilSpec TreeUtilProofs Integrator IntegratorSpec IntegratorBasics PropertiesIntegrator
  Xreal Scheduler SchedulerSpec PropertiesScheduler Solver SolverSpec Adaption Alias PropertiesAlias AliasSgld AliasRun AliasHmc.
Open Scope nat_scope.
Set Implicit Arguments.

Section Source.
Context {G obs : Type}.
Variable choice_repl : G -> nat -> nat -> G * list nat.
Variable choice_perm : G -> nat -> G * list nat.
Variable rng_of_seed : nat -> G.
Notation step := (@Hub.hstep G obs choice_repl choice_perm rng_of_seed).
Notation access_batch := (@access_batch G obs choice_repl choice_perm).
Notation hub := (hub G obs).

(** ** The data source of a chain.
    State: everything in the process (the hub), the number of the data state of the chain, and what the rest of the program does between two batches
    ([ls_env n] happens before batch n); [ls_calls] counts the batches.  (An exception would abort the program; the empty batch stands for it.) *)
Record lsource := mkLS { ls_hub : hub; ls_state : nat; ls_env : nat -> list (hop G); ls_calls : nat }.
(** batch_fn of random_reference_data, core.py:736-790, called by the integrators *)
Definition loader_source (d : lsource) : lsource * mbatch obs :=
  let h1 := fst (run step (ls_hub d) (ls_env d (ls_calls d))) in
  let (h2, r) := hub_batch choice_repl choice_perm h1 (ls_state d) in
  (mkLS h2 (ls_state d) (ls_env d) (Datatypes.S (ls_calls d)), match r with Ok b => b | Exc _ => ([], []) end).

(** ** Specification: the stream of batches of the data set [data] with N observations; the random number generator is seeded with the chain id *)
Definition stream_source (data : list (string * list obs)) (N mb : nat) (cid : nat) (n : nat) : nat * mbatch obs :=
  (Datatypes.S n, access_batch data N (RDraw mb (rng_of_seed cid)) n).

(** A program that has constructed loaders holding [datas], constructs the alias on loader i with cache_size = ca, batch_size = mb (this calls
    random_reference_data), and later calls its run function with n initial samples: first the n data states are initialised (numbers k0, k0 + 1, ...);
    hD is the situation afterwards. cid0 is the number of chains of the loader before. *)
Definition alias_started (datas : list (list (string * list obs))) (hD : hub) (ai i ca mb cid0 k0 n : nat) (data : list (string * list obs)) (N : nat) : Prop :=
  exists ls0 h0 hA o0 hB h1 hC o1 l l0,
    Forall2 (fun d l => make_loader d = Ok l) datas ls0 /\
    run step (hub_init ls0) h0 = (hA, o0) /\
    step hA (HRandom i ca mb false) = (hB, HoAccess (Ok ai)) /\
    run step hB h1 = (hC, o1) /\
    nth_error datas i = Some data /\ nth_error ls0 i = Some l0 /\ N = l_count l0 /\
    nth_error (hb_loaders hC) i = Some l /\ cid0 = length (l_chains l) /\
    run step hC (repeat (HInit ai false false None) n) = (hD, map (fun c => HoState (Ok (k0 + c))) (seq 0 n)).
(** other parts of the program leave the access ai, the data state k and the loader chain cid alone *)
Definition elsewhere (i ai k cid : nat) (h : list (hop G)) : Prop := untouched i cid h /\ never_released ai h /\ state_calls k h = 0.
(** d is the data state of chain number c when this chain is started: after other chains ran, or anything else happened *)
Definition chain_source (hD : hub) (ai i cid0 k0 c : nat) (d : lsource) : Prop :=
  ls_state d = k0 + c /\ ls_calls d = 0 /\ (forall j, elsewhere i ai (k0 + c) (cid0 + c) (ls_env d j)) /\
  exists h, elsewhere i ai (k0 + c) (cid0 + c) h /\ ls_hub d = fst (run step hD h).

Hypothesis Hperm : perm_oracle choice_perm.
Hypothesis Hrepl : repl_oracle choice_repl.

Lemma get_batches_chains (l : loader G obs) c : length (l_chains (fst (NumpyLoader.get_batches choice_repl choice_perm l c))) = length (l_chains l).
Proof.
  unfold NumpyLoader.get_batches. destruct (nth_error (l_chains l) c) as [ch|]; [|reflexivity]. destruct (get_indices _ _ _ _) as [[c' bs]|e]; [|reflexivity].
  destruct (slice_data _ _) as [d|e]; cbn [fst l_chains]; apply length_upd.
Qed.
Lemma register_random_chains (l : loader G obs) ca mb ie sh sd l' cid : register_random rng_of_seed l ca mb ie sh sd = (l', Ok cid) -> length (l_chains l') = Datatypes.S (length (l_chains l)).
Proof.
  unfold register_random. destruct (_ <? _); [discriminate|]. destruct (_ && _); [discriminate|]. destruct (_ =? _); [discriminate|]. intros E. injection E as <- <-. cbn [l_chains]. rewrite app_length. cbn. lia.
Qed.
Lemma init_chains (s : hub) ai a l ie sh sd s' k : nth_error (hb_accesses s) ai = Some a -> ac_random a = true -> nth_error (hb_loaders s) (ac_loader a) = Some l ->
  step s (HInit ai ie sh sd) = (s', HoState (Ok k)) ->
  exists l', nth_error (hb_loaders s') (ac_loader a) = Some l' /\ length (l_chains l') = Datatypes.S (length (l_chains l)).
Proof.
  intros Ea Er El Hs. cbn [Hub.hstep] in Hs. unfold hub_new_state in Hs. rewrite Ea, El, Er in Hs.
  destruct (register_random rng_of_seed l _ _ _ _ _) as [l1 [cid|e]] eqn:E1; [|discriminate]. apply register_random_chains in E1.
  assert (Hi : ac_loader a < length (hb_loaders s)) by (apply nth_error_Some; congruence).
  unfold hub_first_cache, reg_get in Hs. cbn [set_loader hb_loaders] in Hs. destruct (ac_live a); [|discriminate]. rewrite nth_error_upd_same in Hs by exact Hi.
  pose proof (get_batches_chains l1 cid) as E2. destruct (NumpyLoader.get_batches choice_repl choice_perm l1 cid) as [l2 [[d m]|e]]; [|discriminate]. injection Hs as <- _. cbn [hb_loaders fst] in *.
  exists l2. split; [rewrite nth_error_upd_same by (rewrite length_upd; exact Hi); reflexivity|]. congruence.
Qed.

(** all inits: chain c has loader chain cid0 + c *)
Lemma started_opened datas hD ai i ca mb cid0 k0 n data N : alias_started datas hD ai i ca mb cid0 k0 n data N ->
  forall c, c < n -> exists hE h2, opened step datas rng_of_seed hE ai (k0 + c) i (cid0 + c) ca data N (RDraw mb (rng_of_seed (cid0 + c))) /\
    hD = fst (run step hE h2) /\ untouched i (cid0 + c) h2 /\ never_released ai h2 /\ state_calls (k0 + c) h2 = 0.
Proof.
  intros (ls0 & h0 & hA & o0 & hB & h1 & hC & o1 & l & l0 & H1 & H2 & H3 & H4 & H5 & H6 & H7 & H8 & H9 & H10) c Hc.
  set (oi := HInit ai false false None) in *.
  (* the state before init number c *)
  assert (Hcr : creates_access i ca mb true (HRandom (G := G) i ca mb false)) by constructor.
  assert (HA := run_effect choice_repl choice_perm rng_of_seed h0 (HI_init ls0)). rewrite H2 in HA. cbn [fst] in HA. destruct HA as (HA & LA & _).
  pose proof (@hstep_shape G obs choice_repl choice_perm rng_of_seed hA (HRandom i ca mb false) HA) as SB. rewrite H3 in SB. cbn [fst] in SB. pose proof (Shape_HI HA SB) as HB.
  destruct (@create_effect G obs choice_repl choice_perm rng_of_seed _ _ _ _ _ _ _ _ Hcr H3) as (a & Ea & A1 & A2 & A3 & A4).
  assert (PRE : forall m hX oX, m <= n -> run step hC (repeat oi m) = (hX, oX) ->
     (forall j, j < m -> nth_error oX j = Some (HoState (Ok (k0 + j)))) -> exists lX, nth_error (hb_loaders hX) i = Some lX /\ length (l_chains lX) = cid0 + m).
  { induction m as [|m IH]; intros hX oX Hm Hr Ho.
    - cbn in Hr. injection Hr as <- <-. exists l. split; [exact H8|lia].
    - replace (Datatypes.S m) with (m + 1) in Hr by lia. rewrite repeat_app, run_app in Hr. destruct (run step hC (repeat oi m)) as [hY oY] eqn:EY. cbn [repeat run] in Hr.
      destruct (step hY oi) as [hZ oZ] eqn:EZ. injection Hr as <- <-.
      assert (LY : length oY = m). { pose proof (f_equal snd EY) as Q. cbn [snd] in Q. rewrite <- Q, run_length, repeat_length. reflexivity. }
      destruct (IH hY oY ltac:(lia) eq_refl) as (lY & EL & LL). { intros j Hj. rewrite <- (Ho j) by lia. symmetry. apply nth_error_app1. lia. }
      assert (OZ : oZ = HoState (Ok (k0 + m))). { specialize (Ho m ltac:(lia)). rewrite nth_error_app2 in Ho by lia. rewrite LY, Nat.sub_diag in Ho. cbn in Ho. congruence. }
      subst oZ.
      assert (HC := run_effect choice_repl choice_perm rng_of_seed (h1 ++ repeat oi m) HB). rewrite run_app, H4, EY in HC. cbn [fst] in HC. destruct HC as (_ & _ & AC).
      destruct (AC _ _ Ea) as (a' & Ea' & (B1 & B2 & B3 & B4 & _) & _).
      destruct (@init_chains hY ai a' lY false false None hZ (k0 + m) Ea' ltac:(congruence) ltac:(rewrite B1, A1; exact EL) EZ) as (l' & E1 & E2).
      rewrite B1, A1 in E1. exists l'. split; [exact E1|]. lia. }
  replace n with (c + (1 + (n - c - 1))) in H10 by lia. rewrite repeat_app, run_app in H10. destruct (run step hC (repeat oi c)) as [hX oX] eqn:EX.
  cbn [plus repeat run] in H10. destruct (step hX oi) as [hY oY] eqn:EY. destruct (run step hY (repeat oi (n - c - 1))) as [hZ oZ] eqn:EZ. injection H10 as E1 E2. subst hZ.
  assert (LX : length oX = c). { pose proof (f_equal snd EX) as Q. cbn [snd] in Q. rewrite <- Q, run_length, repeat_length. reflexivity. }
  assert (OUT : forall j, j < c + (1 + (n - c - 1)) -> nth_error (oX ++ oY :: oZ) j = Some (HoState (Ok (k0 + j)))).
  { intros j Hj. rewrite E2. rewrite nth_error_map_seq by lia. reflexivity. }
  destruct (PRE c hX oX ltac:(lia) EX) as (lX & EL & LL). { intros j Hj. rewrite <- (OUT j) by lia. symmetry. apply nth_error_app1. lia. }
  assert (OY : oY = HoState (Ok (k0 + c))). { specialize (OUT c ltac:(lia)). rewrite nth_error_app2 in OUT by lia. rewrite LX, Nat.sub_diag in OUT. cbn in OUT. congruence. }
  subst oY. exists hY, (repeat oi (n - c - 1)). split; [|split; [|split; [|split]]].
  - exists ls0, h0, hA, o0, (HRandom i ca mb false), mb, true, hB, (h1 ++ repeat oi c), hX. do 3 eexists. exists false, false, None.
    split; [exact H1|]. split; [exact H2|]. split; [exact Hcr|]. split; [exact H3|]. split; [rewrite run_app, H4, EX; reflexivity|]. split; [exact EY|].
    split; [exact H5|]. split; [exact H6|]. split; [exact H7|]. split; [exact EL|]. split; [lia|]. reflexivity.
  - rewrite EZ. reflexivity.
  - intros op Hin. apply repeat_spec in Hin. discriminate.
  - intros Hin. apply repeat_spec in Hin. discriminate.
  - clear. induction (n - c - 1) as [|m IH]; [reflexivity|]. cbn. exact IH.
Qed.

(** the batches that a chain sees *)
Lemma source_batches datas hD ai i ca mb cid0 k0 n data N c d : alias_started datas hD ai i ca mb cid0 k0 n data N -> c < n -> chain_source hD ai i cid0 k0 c d ->
  forall j, batch_no loader_source d j = batch_no (stream_source data N mb (cid0 + c)) 0 j.
Proof.
  intros Hst Hc (D1 & D2 & D3 & (h & (U1 & U2 & U3) & D4)).
  destruct (started_opened Hst Hc) as (hE & h2 & Ho & E & V1 & V2 & V3).
  destruct (@opened_inv G obs choice_repl choice_perm rng_of_seed Hperm Hrepl _ _ _ _ _ _ _ _ _ _ Ho) as (Hca & Hok & HS).
  pose proof (@run_live G obs choice_repl choice_perm rng_of_seed Hperm Hrepl data N i (cid0 + c) ca (k0 + c) ai _ Hok Hca) as RL.
  destruct (RL h2 0 hE HS V1 V2) as (_ & S1). rewrite V3, Nat.add_0_r, <- E in S1.
  destruct (RL h 0 hD S1 U1 U2) as (_ & S2). rewrite U3, Nat.add_0_r, <- D4 in S2.
  assert (INV : forall j, ls_state (drawn loader_source d j) = k0 + c /\ ls_env (drawn loader_source d j) = ls_env d /\ ls_calls (drawn loader_source d j) = j /\
     SInv choice_repl choice_perm data N i (cid0 + c) ca (k0 + c) ai (RDraw mb (rng_of_seed (cid0 + c))) true j (ls_hub (drawn loader_source d j))).
  { induction j as [|j (I1 & I2 & I3 & I4)]; [cbn; auto|]. cbn [drawn]. unfold loader_source at 1 3 5 7. rewrite I1, I2, I3.
    destruct (D3 j) as (W1 & W2 & W3). destruct (RL _ _ _ I4 W1 W2) as (_ & J1). rewrite W3, Nat.add_0_r in J1.
    destruct (RL [HBatch (k0 + c)] j _ J1) as (_ & J2); [intros op [Q|[]]; discriminate|intros [Q|[]]; discriminate|]. cbn [run Hub.hstep fst state_calls] in J2. rewrite Nat.eqb_refl in J2.
    destruct (hub_batch choice_repl choice_perm _ (k0 + c)) as [h' r]. cbn [fst ls_state ls_env ls_calls ls_hub] in *. rewrite Nat.add_0_r, Nat.add_1_r in J2. auto. }
  intros j. destruct (INV j) as (I1 & I2 & I3 & I4). unfold batch_no at 1. unfold loader_source at 1. rewrite I1, I2, I3.
  destruct (D3 j) as (W1 & W2 & W3). destruct (RL _ _ _ I4 W1 W2) as (_ & J1). rewrite W3, Nat.add_0_r in J1.
  destruct (RL [HBatch (k0 + c)] j _ J1) as (J2 & _); [intros op [Q|[]]; discriminate|intros [Q|[]]; discriminate|]. cbn [run Hub.hstep snd state_answers state_calls] in J2.
  destruct (hub_batch choice_repl choice_perm _ (k0 + c)) as [h' r]. cbn [snd state_answers] in J2. rewrite Nat.eqb_refl in J2. cbn in J2. injection J2 as ->. cbn [snd].
  unfold batch_no, stream_source. cbn [snd]. f_equal. clear. induction j as [|j IH]; [reflexivity|]. cbn [drawn fst]. rewrite <- IH. reflexivity.
Qed.
End Source.

(** ** The trajectories depend on the data source only through the batches *)
Section Convert.
Open Scope R_scope.
Variable s : vtree.
Variable normal : key -> list nat -> list R.
Variables (D1 D2 Batch : Type).
Variables (g1 : D1 -> D1 * Batch) (g2 : D2 -> D2 * Batch).
Variables (d1 : D1) (d2 : D2).
Hypothesis Hb : forall j, batch_no g1 d1 j = batch_no g2 d2 j.
Variables (pot_value : vtree -> Batch -> vtree -> R) (pot_model : vtree -> Batch -> vtree -> vtree) (pot_grad : vtree -> Batch -> vtree -> vtree).
Lemma sgld_convert rms alpha lmbd model0 x0 its eps theta model :
  sgld_trajectory s normal g1 pot_model pot_grad rms alpha lmbd d1 model0 x0 its eps theta model -> sgld_trajectory s normal g2 pot_model pot_grad rms alpha lmbd d2 model0 x0 its eps theta model.
Proof.
  intros [T1 T2 T3 T4]. split; auto.
  - intros i Hi. rewrite <- Hb. auto.
  - intros i c Hi Hc. specialize (T4 i c Hi Hc). cbv beta zeta in *. rewrite <- (Hb i). rewrite T4. destruct rms; [|reflexivity].
    assert (E : AdaptionSpec.weighted_square alpha (fun k => el (pot_grad (theta k) (batch_no g1 d1 k) (model k)) c) (Datatypes.S i) = AdaptionSpec.weighted_square alpha (fun k => el (pot_grad (theta k) (batch_no g2 d2 k) (model k)) c) (Datatypes.S i)).
    { unfold AdaptionSpec.weighted_square. do 2 f_equal. apply sum_upto_ext. intros j Hj. now rewrite <- (Hb j). }
    rewrite E. reflexivity.
Qed.
Lemma sgld_saved_convert theta model i : saved_sample g1 pot_value d1 theta model i = saved_sample g2 pot_value d2 theta model i.
Proof. unfold saved_sample. now rewrite Hb. Qed.
Lemma obabo_convert steps mass friction model0 x0 its eps x model p r h e :
  obabo_trajectory s normal g1 pot_model pot_grad steps mass friction d1 model0 x0 its eps x model p r h e -> obabo_trajectory s normal g2 pot_model pot_grad steps mass friction d2 model0 x0 its eps x model p r h e.
Proof. intros [T1 T2 T3]. split; auto. intros t Ht. specialize (T3 t Ht). cbv zeta in *. rewrite <- !Hb. exact T3. Qed.
Lemma obabo_saved_convert steps x model i : obabo_saved g1 pot_value steps d1 x model i = obabo_saved g2 pot_value steps d2 x model i.
Proof. unfold obabo_saved. now rewrite !Hb. Qed.
Lemma sghmc_convert steps mass friction model0 x0 its eps x model p :
  sghmc_trajectory s normal g1 pot_model pot_grad steps mass friction d1 model0 x0 its eps x model p -> sghmc_trajectory s normal g2 pot_model pot_grad steps mass friction d2 model0 x0 its eps x model p.
Proof. intros [T1 T2 T3 T4 T5]. split; auto. intros i k Hi Hk. specialize (T5 i k Hi Hk). cbv zeta in *. rewrite <- Hb. exact T5. Qed.
Lemma sghmc_saved_convert steps x model i : sghmc_saved g1 pot_value steps d1 x model i = sghmc_saved g2 pot_value steps d2 x model i.
Proof. unfold sghmc_saved. now rewrite Hb. Qed.
End Convert.

Lemma Forall2_seq A C (P : A -> C -> Prop) (Q : nat * A -> C -> Prop) a (l : list A) rs :
  Forall2 P l rs -> (forall c x r, nth_error l c = Some x -> P x r -> Q (a + c, x) r) -> Forall2 Q (combine (seq a (length l)) l) rs.
Proof.
  revert a rs. induction l as [|x l IH]; intros a rs H HQ; inversion H as [|? r ? rs' H1 H2]; subst; cbn; constructor.
  - specialize (HQ 0 x r eq_refl H1). now rewrite Nat.add_0_r in HQ.
  - apply (IH (Datatypes.S a)); auto. intros c y r' Hy Hp. replace (Datatypes.S a + c) with (a + Datatypes.S c) by lia. apply HQ; auto.
Qed.

Section Final.
Open Scope R_scope.
Variables (G obs : Type).
Variable choice_repl : G -> nat -> nat -> G * list nat.
Variable choice_perm : G -> nat -> G * list nat.
Variable rng_of_seed : nat -> G.
Hypothesis Hperm : perm_oracle choice_perm.
Hypothesis Hrepl : repl_oracle choice_repl.
Variable s : vtree.
Hypothesis Hs : wfv s.
Variable normal : key -> list nat -> list R.
Hypothesis Hn : normal_ok normal.
Notation batch := (mbatch obs).
Variables (pot_value : vtree -> batch -> vtree -> R) (pot_likelihoods : vtree -> batch -> vtree -> list R) (pot_model : vtree -> batch -> vtree -> vtree) (pot_grad : vtree -> batch -> vtree -> vtree).
Hypothesis Hg : forall t b m, like s t -> like s (pot_grad t b m).
Hypothesis Hm : forall t b m, same_structure (pot_model t b m) m.
Variables (Key : Type) (choice : Key -> list xr -> nat -> list nat) (tk : Key) (z : arr -> arr).
Hypothesis Hc : choice_ok choice.
Notation source := (loader_source choice_repl choice_perm rng_of_seed).
Notation stream := (stream_source choice_repl choice_perm rng_of_seed).
(** schedule arguments of the alias, number n of accepted samples, iterations *)
Variables (a : alias_args) (f l : R) (n its : nat).
Hypothesis Hf : al_first a = Fin f.
Hypothesis Hl : al_last a = Fin l.
Hypothesis Ha : al_adaptive a = None.
Hypothesis Hacc : al_accepted a = Some n.
Hypothesis Hhot : al_hot a = None.
Hypothesis Hfl : 0 < l < f.
Hypothesis Hits : (2 <= its)%nat.
Hypothesis Hburn : (al_burn_in a + n <= its)%nat.
(** auxiliary definition of a statement or a proof; models no code of /repo *)
Definition chosen (L : list nat) : Prop := length L = n /\ increasing L /\ forall i, In i L -> (al_burn_in a <= i < its)%nat.

(** alias.sgld on a loader with data set [data] of N observations: chain c sees the batches of the loader chain cid0 + c, i.e. mb indices drawn with replacement
    with the generator seeded by cid0 + c, whatever else the program does with the data between these batches (the other chains, other aliases, direct use of the loader). *)
Theorem C64_sgld : forall rms alpha lmbd model0, (rms = true -> 0 <= alpha <= 1 /\ 0 < lmbd) -> exists eps, falling its f l eps /\
  forall datas hD ai i ca mb cid0 k0 data N, forall starts, alias_started choice_repl choice_perm rng_of_seed datas hD ai i ca mb cid0 k0 (length starts) data N ->
  (forall c x d, nth_error starts c = Some (x, d) -> like s x /\ chain_source choice_repl choice_perm rng_of_seed hD ai i cid0 k0 c d) ->
  forall h, exists results, snd (al_run choice tk a z (sgld_solver normal source pot_value pot_likelihoods pot_model pot_grad rms) (fst (run (mstep z) (mc_new false) h))
      (map (fun xd => sgld_init rms alpha lmbd (snd xd) model0 (fst xd)) starts) its) = Some (Ok results) /\
    Forall2 (fun cx r => let cid := (cid0 + fst cx)%nat in exists theta model L,
      sgld_trajectory s normal (stream data N mb cid) pot_model pot_grad rms alpha lmbd 0%nat model0 (fst (snd cx)) its eps theta model /\ chosen L /\
      fst r = n /\ exactly_samples (map (saved_sample (stream data N mb cid) pot_value 0%nat theta model) L) (snd r)) (combine (seq 0 (length starts)) starts) results.
Proof.
  intros rms alpha lmbd model0 Hr.
  destruct (@C51_sgld s normal _ _ source pot_value pot_likelihoods pot_model pot_grad Hs Hn Hg Hm Key choice tk z Hc rms alpha lmbd model0 Hr a f l n its Hf Hl Ha Hacc Hhot Hfl Hits Hburn) as (eps & E1 & E2).
  exists eps. split; auto. intros datas hD ai i ca mb cid0 k0 data N starts Hst Hx h.
  destruct (E2 h starts) as (rs & R1 & R2).
  { apply Forall_forall. intros [x d] Hin. apply In_nth_error in Hin. destruct Hin as [c Hc']. apply (Hx _ _ _ Hc'). }
  exists rs. split; [exact R1|]. eapply Forall2_seq; [exact R2|]. intros c [x0 d] r Ec (theta & model & L & T & L1 & L2 & L3 & L4 & L5). cbn [fst snd plus] in *.
  destruct (Hx _ _ _ Ec) as [_ Hsrc]. assert (Hlt : (c < length starts)%nat) by (apply nth_error_Some; congruence).
  pose proof (@source_batches G obs choice_repl choice_perm rng_of_seed Hperm Hrepl datas hD ai i ca mb cid0 k0 _ data N c d Hst Hlt Hsrc) as Hb.
  exists theta, model, L. split; [eapply sgld_convert; [exact Hb|exact T]|]. split; [split; auto|]. split; [exact L4|].
  erewrite map_ext; [exact L5|]. intros j. symmetry. apply sgld_saved_convert. exact Hb.
Qed.
Theorem C64_obabo : forall steps friction mass model0, (0 < steps)%nat -> (forall m, mass = Some m -> like s m) -> exists eps, falling its f l eps /\
  forall datas hD ai i ca mb cid0 k0 data N, forall starts, alias_started choice_repl choice_perm rng_of_seed datas hD ai i ca mb cid0 k0 (length starts) data N ->
  (forall c x d, nth_error starts c = Some (x, d) -> like s x /\ chain_source choice_repl choice_perm rng_of_seed hD ai i cid0 k0 c d) ->
  forall h, exists results, snd (al_run choice tk a z (obabo_solver normal source pot_value pot_model pot_grad steps mass friction) (fst (run (mstep z) (mc_new false) h))
      (map (fun xd => obabo_init (snd xd) model0 (fst xd)) starts) its) = Some (Ok results) /\
    Forall2 (fun cx r => let cid := (cid0 + fst cx)%nat in exists x model p r' h' e L,
      obabo_trajectory s normal (stream data N mb cid) pot_model pot_grad steps mass friction 0%nat model0 (fst (snd cx)) its eps x model p r' h' e /\ chosen L /\
      fst r = n /\ exactly_samples (map (obabo_saved (stream data N mb cid) pot_value steps 0%nat x model) L) (snd r)) (combine (seq 0 (length starts)) starts) results.
Proof.
  intros steps friction mass model0 Hst' Hma.
  destruct (@C63_obabo s normal _ _ source pot_value pot_model pot_grad Hs Hn Hg Hm Key choice tk z Hc steps friction mass model0 Hst' Hma a f l n its Hf Hl Ha Hacc Hhot Hfl Hits Hburn) as (eps & E1 & E2).
  exists eps. split; auto. intros datas hD ai i ca mb cid0 k0 data N starts Hst Hx h.
  destruct (E2 h starts) as (rs & R1 & R2).
  { apply Forall_forall. intros [x d] Hin. apply In_nth_error in Hin. destruct Hin as [c Hc']. apply (Hx _ _ _ Hc'). }
  exists rs. split; [exact R1|]. eapply Forall2_seq; [exact R2|]. intros c [x0 d] r Ec (x & model & p & r' & h' & e & L & T & L1 & L2 & L3 & L4 & L5). cbn [fst snd plus] in *.
  destruct (Hx _ _ _ Ec) as [_ Hsrc]. assert (Hlt : (c < length starts)%nat) by (apply nth_error_Some; congruence).
  pose proof (@source_batches G obs choice_repl choice_perm rng_of_seed Hperm Hrepl datas hD ai i ca mb cid0 k0 _ data N c d Hst Hlt Hsrc) as Hb.
  exists x, model, p, r', h', e, L. split; [eapply obabo_convert; [exact Hb|exact T]|]. split; [split; auto|]. split; [exact L4|].
  erewrite map_ext; [exact L5|]. intros j. symmetry. apply obabo_saved_convert. exact Hb.
Qed.
Theorem C64_sghmc : forall steps friction mass model0, (0 < steps)%nat -> (forall t, friction = FTree t -> like s t) -> (forall m, mass = Some m -> like s m) -> exists eps, falling its f l eps /\
  forall datas hD ai i ca mb cid0 k0 data N, forall starts, alias_started choice_repl choice_perm rng_of_seed datas hD ai i ca mb cid0 k0 (length starts) data N ->
  (forall c x d, nth_error starts c = Some (x, d) -> like s x /\ chain_source choice_repl choice_perm rng_of_seed hD ai i cid0 k0 c d) ->
  forall h, exists results, snd (al_run choice tk a z (sghmc_solver normal source pot_value pot_model pot_grad steps mass friction) (fst (run (mstep z) (mc_new false) h))
      (map (fun xd => sghmc_init batch (snd xd) model0 (fst xd)) starts) its) = Some (Ok results) /\
    Forall2 (fun cx r => let cid := (cid0 + fst cx)%nat in exists x model p L,
      sghmc_trajectory s normal (stream data N mb cid) pot_model pot_grad steps mass friction 0%nat model0 (fst (snd cx)) its eps x model p /\ chosen L /\
      fst r = n /\ exactly_samples (map (sghmc_saved (stream data N mb cid) pot_value steps 0%nat x model) L) (snd r)) (combine (seq 0 (length starts)) starts) results.
Proof.
  intros steps friction mass model0 Hst' Hfr Hma.
  destruct (@C63_sghmc s normal _ _ source pot_value pot_model pot_grad Hs Hn Hg Hm Key choice tk z Hc steps friction mass model0 Hst' Hfr Hma a f l n its Hf Hl Ha Hacc Hhot Hfl Hits Hburn) as (eps & E1 & E2).
  exists eps. split; auto. intros datas hD ai i ca mb cid0 k0 data N starts Hst Hx h.
  destruct (E2 h starts) as (rs & R1 & R2).
  { apply Forall_forall. intros [x d] Hin. apply In_nth_error in Hin. destruct Hin as [c Hc']. apply (Hx _ _ _ Hc'). }
  exists rs. split; [exact R1|]. eapply Forall2_seq; [exact R2|]. intros c [x0 d] r Ec (x & model & p & L & T & L1 & L2 & L3 & L4 & L5). cbn [fst snd plus] in *.
  destruct (Hx _ _ _ Ec) as [_ Hsrc]. assert (Hlt : (c < length starts)%nat) by (apply nth_error_Some; congruence).
  pose proof (@source_batches G obs choice_repl choice_perm rng_of_seed Hperm Hrepl datas hD ai i ca mb cid0 k0 _ data N c d Hst Hlt Hsrc) as Hb.
  exists x, model, p, L. split; [eapply sghmc_convert; [exact Hb|exact T]|]. split; [split; auto|]. split; [exact L4|].
  erewrite map_ext; [exact L5|]. intros j. symmetry. apply sghmc_saved_convert. exact Hb.
Qed.
End Final.
Print Assumptions C64_sgld.
Print Assumptions C64_obabo.
Print Assumptions C64_sghmc.

(** The hypotheses are met: two loaders, the alias works on the second one (two observations, minibatches of one, two batches are cached), other data states were
    and are used in between; two chains of five iterations; the second chain starts after the first one has drawn its five batches. *)
Definition ex_pre : list (hop nat) := [HFull 0 2 2; HInit 0 false true None; HRandom 1 3 2 true; HInit 1 false true None].
(** auxiliary definition of a statement or a proof; models no code of /repo *)
Definition ex_alias_hub : hub nat nat := fst (run ex_step (hub_init (map (fun d => match make_loader d with Ok l => l | Exc _ => mkLoader 0 [] [] end) ex_datas))
  (ex_pre ++ [HRandom 1 2 1 false; HBatch 0; HInit 2 false false None; HInit 2 false false None])).
(** auxiliary definition of a statement or a proof; models no code of /repo *)
Definition ex_source0 : lsource (G := nat) (obs := nat) := mkLS ex_alias_hub 2 (fun n => [HBatch 1; HBatch 0]) 0.
(** auxiliary definition of a statement or a proof; models no code of /repo *)
Definition ex_source1 : lsource (G := nat) (obs := nat) := mkLS (fst (run ex_step ex_alias_hub (flat_map (fun _ => [HBatch 1; HBatch 0; HBatch 2]) (seq 0 5)))) 3 (fun n => [HBatch 2]) 0.
Lemma ex_started : alias_started lin_repl rot_perm (fun s => s) ex_datas ex_alias_hub 2 1 2 1 1 2 2 [("y"%string, [20; 21])] 2.
Proof.
  exists (map (fun d => match make_loader d with Ok l => l | Exc _ => mkLoader 0 [] [] end) ex_datas), ex_pre.
  do 3 eexists. exists [HBatch 0]. do 4 eexists.
  split; [repeat constructor|]. split; [vm_compute; reflexivity|]. split; [vm_compute; reflexivity|].
  split; [vm_compute; reflexivity|]. split; [reflexivity|]. split; [reflexivity|]. split; [reflexivity|]. split; [vm_compute; reflexivity|]. split; [reflexivity|]. vm_compute. reflexivity.
Qed.
Lemma ex_chains : chain_source lin_repl rot_perm (fun s => s) ex_alias_hub 2 1 1 2 0 ex_source0 /\ chain_source lin_repl rot_perm (fun s => s) ex_alias_hub 2 1 1 2 1 ex_source1.
Proof.
  split; (split; [reflexivity|]); (split; [reflexivity|]); split.
  - intros j. split; [|split; [|reflexivity]]; cbn; [intros op [E|[E|[]]]; discriminate|intros [E|[E|[]]]; discriminate].
  - exists []. split; [|unfold ex_source0; cbn [ls_hub run fst]; generalize ex_alias_hub; reflexivity]. split; [intros op []|]. split; [intros []|reflexivity].
  - intros j. split; [|split; [|reflexivity]]; cbn; [intros op [E|[]]; discriminate|intros [E|[]]; discriminate].
  - exists (flat_map (fun _ => [HBatch 1; HBatch 0; HBatch 2]) (seq 0 5)). split; [|unfold ex_source1; cbn [ls_hub]; generalize ex_alias_hub; reflexivity]. split; [|split; [|reflexivity]].
    + intros op Hin. apply in_flat_map in Hin. destruct Hin as (x & _ & [E|[E|[E|[]]]]); discriminate.
    + intros Hin. apply in_flat_map in Hin. destruct Hin as (x & _ & [E|[E|[E|[]]]]); discriminate.
Qed.
Section Example_.
Open Scope R_scope.
Example C64_nonvacuous : let s := tree_ab 0 0 in let a := mkAlias (Fin 0.5) (Fin 0.1) None 1 (Some 3%nat) true false None in
  let z := fun x => mkArr (ashape x) (map (fun _ => 0) (adata x)) in let starts := [(tree_ab 1 2, ex_source0); (tree_ab 3 4, ex_source1)] in
  (exists results, snd (al_run first_choice tt a z
      (sgld_solver (fun _ sh => repeat 0 (size sh)) (loader_source lin_repl rot_perm (fun s => s)) (fun x b m => tdot x x / 2) (fun x b m => []) (fun x b m => m) (fun x b m => x) true)
      (mc_new false) (map (fun xd => sgld_init true 0.9 1 (snd xd) (Leaf (mkArr [] [0])) (fst xd)) starts) 5) = Some (Ok results) /\
    Forall2 (fun (x0 : nat * (vtree * lsource (G := nat) (obs := nat))) (r : result arr) => fst r = 3%nat) (combine (seq 0 2) starts) results).
Proof.
  intros s a z starts.
  assert (LK : forall u v, like s (tree_ab u v)) by (intros u v; split; [apply tree_ab_wf|split; reflexivity]).
  destruct (@C64_sgld nat nat lin_repl rot_perm (fun s => s) rot_perm_oracle lin_repl_oracle s (tree_ab_wf _ _) (fun _ sh => repeat 0 (size sh)) (fun k sh => repeat_length _ _)
    (fun x b m => tdot x x / 2) (fun x b m => []) (fun x b m => m) (fun x b m => x) (fun t b m H => H) (fun t b m => eq_refl)) with
      (choice := first_choice) (tk := tt) (z := z) (rms := true) (alpha := 0.9) (lmbd := 1) (model0 := Leaf (mkArr [] [0]))
      (a := a) (f := 0.5) (l := 0.1) (n := 3%nat) (its := 5%nat) as (eps & _ & H); try reflexivity; try lra; try (cbn; lia); auto using first_choice_ok.
  destruct (H _ _ _ _ _ _ _ _ _ _ starts ex_started) with (h := @nil (mop arr)) as (rs & R1 & R2).
  { intros [|[|c]] x d E; [injection E as <- <-|injection E as <- <-|destruct c; discriminate]; (split; [apply LK|]); apply ex_chains. }
  exists rs. split; [exact R1|]. eapply Forall2_impl; [|exact R2]. intros x0 r (th & mo & L & _ & _ & E & _). exact E.
Qed.
End Example_.
