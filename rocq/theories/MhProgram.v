(** The data accesses of alias.amagold and alias.sggmc (alias.py:279-280, 396-397; solver.py:339-348, 470-480): which data states and which chains of the loader the MCMC chains get. *)
From Coq Require Import Reals Lra ZArith String.
From Verif Require Import Base ListUtil NumpyLoader LoaderSpec NumpyLoaderProofs NumpyLoaderApi Requests DataCore DataSpec DataFinal Hub HubSpec HubProofs HubFinal PropertiesHub.
From Verif Require Import Integrator IntegratorSpec AliasData SourceReads MhUserSpec.
Open Scope nat_scope.
Set Implicit Arguments.

Section Program.
Context {G obs : Type}.
Variable choice_repl : G -> nat -> nat -> G * list nat.
Variable choice_perm : G -> nat -> G * list nat.
Variable rng_of_seed : nat -> G.
Notation step := (@Hub.hstep G obs choice_repl choice_perm rng_of_seed).
Notation hub := (hub G obs).

(** init_fn of solver.amagold (solver.py:335-352) and of solver.sggmc (solver.py:466-486) for the chains 0, ..., n - 1: the full data state is initialised, the full potential
    reads one pass of it, then the integrator initialises its random data state.  k0: number of data states that existed before *)
Definition mh_program (af ar k0 passes n : nat) : list (hop G) :=
  flat_map (fun c => HInit af false false None :: repeat (HBatch (k0 + 2 * c)) passes ++ [HInit ar false false None]) (seq 0 n).
(** no operation failed; auxiliary definition of a statement, models no code of /repo *)
Definition succeeds (o : hout obs) : Prop := match o with HoState (Exc _) | HoBatch (Exc _) | HoAccess (Exc _) => False | _ => True end.

(** ** Effect of operations on the numbers of data states and chains *)
(** auxiliary definition of a statement or a proof; models no code of /repo *)
Definition nstates (h : hub) : nat := length (hb_clients h).
(** auxiliary definition of a statement or a proof; models no code of /repo *)
Definition nchains_of (h : hub) (i : nat) : nat := match nth_error (hb_loaders h) i with Some l => length (l_chains l) | None => 0 end.
Lemma reg_get_chains a ls c i : match nth_error (fst (reg_get choice_repl choice_perm a ls c)) i with Some l => length (l_chains l) | None => 0 end =
  match nth_error ls i with Some l => length (l_chains (obs := obs) l) | None => 0 end.
Proof.
  unfold reg_get. destruct (ac_live a); [|reflexivity]. destruct (nth_error ls (ac_loader a)) as [l|] eqn:E; [|reflexivity].
  pose proof (get_batches_chains choice_repl choice_perm l c) as Q. destruct (NumpyLoader.get_batches choice_repl choice_perm l c) as [l' o]. cbn [fst] in *.
  destruct (Nat.eq_dec i (ac_loader a)) as [-> |Hne].
  - rewrite nth_error_upd_same by (apply nth_error_Some; congruence). rewrite E, Q. reflexivity.
  - rewrite nth_error_upd_other by auto. reflexivity.
Qed.
Lemma batch_counts h k i : nstates (fst (step h (HBatch k))) = nstates h /\ nchains_of (fst (step h (HBatch k))) i = nchains_of h i.
Proof.
  cbn [Hub.hstep]. unfold hub_batch. destruct (nth_error (hb_clients h) k) as [c|]; [|split; reflexivity]. destruct (nth_error (hb_accesses h) (hc_access c)) as [a|]; [|split; reflexivity].
  assert (Q : nstates (fst (hub_refresh choice_repl choice_perm h (hc_access c) a (hc_state c))) = nstates h /\ nchains_of (fst (hub_refresh choice_repl choice_perm h (hc_access c) a (hc_state c))) i = nchains_of h i).
  { unfold hub_refresh. destruct (_ =? _); [|split; reflexivity]. unfold hub_request, request. cbn [r_cached r_current r_fresh r_loader].
    destruct (tlookup _ _) as [[[cn [rs1 rs2]] nt]|]; [split; reflexivity|]. destruct (match clookup _ _ with Some _ => _ | None => _ end); [destruct (ac_strict a); split; reflexivity|].
    pose proof (reg_get_chains a (hb_loaders h) (cs_chain (hc_state c)) i) as E. destruct (reg_get choice_repl choice_perm a (hb_loaders h) _) as [ls [[dd mm]|e]]; split; try reflexivity; exact E. }
  destruct (hub_refresh _ _ h _ a _) as [h' o]. cbn [fst] in Q. destruct o as [cs|e]; cbn [bind]; [|exact Q].
  destruct (tree_index _ _); cbn [bind]; [|exact Q]. destruct (jindex _ _); cbn [bind]; [|exact Q]. cbn [fst]. destruct Q as [Q1 Q2]. split; [|exact Q2]. unfold nstates. cbn [hb_clients]. rewrite length_upd. exact Q1.
Qed.
Lemma batches_counts k i n : forall h, nstates (fst (run step h (repeat (HBatch k) n))) = nstates h /\ nchains_of (fst (run step h (repeat (HBatch k) n))) i = nchains_of h i.
Proof.
  induction n as [|n IH]; intros h; cbn [repeat run]; [split; reflexivity|]. pose proof (batch_counts h k i) as [B1 B2]. destruct (step h (HBatch k)) as [h1 o1]. cbn [fst] in B1, B2.
  specialize (IH h1). destruct (run step h1 (repeat (HBatch k) n)) as [h2 o2]. cbn [fst] in *. split; destruct IH; congruence.
Qed.
Lemma init_counts h ai a i ie sh sd h' k : nth_error (hb_accesses h) ai = Some a -> ac_loader a = i -> step h (HInit ai ie sh sd) = (h', HoState (Ok k)) ->
  k = nstates h /\ nstates h' = S (nstates h) /\ nchains_of h' i = S (nchains_of h i) /\ exists l, nth_error (hb_loaders h) i = Some l.
Proof.
  intros Ea <- Hs. cbn [Hub.hstep] in Hs. unfold hub_new_state in Hs. rewrite Ea in Hs. destruct (nth_error (hb_loaders h) (ac_loader a)) as [l|] eqn:El; [|discriminate].
  assert (Hi : ac_loader a < length (hb_loaders h)) by (apply nth_error_Some; congruence).
  assert (H : forall l1 cid, length (l_chains l1) = S (length (l_chains l)) -> hub_first_cache choice_repl choice_perm (set_loader h (ac_loader a) l1) ai a cid = (h', Ok k) ->
     k = nstates h /\ nstates h' = S (nstates h) /\ nchains_of h' (ac_loader a) = S (nchains_of h (ac_loader a))).
  { intros l1 cid L1 E. unfold hub_first_cache in E. cbn [set_loader hb_loaders hb_clients hb_accesses hb_cached hb_fresh] in E.
    pose proof (reg_get_chains a (upd (hb_loaders h) (ac_loader a) l1) cid (ac_loader a)) as Q. destruct (reg_get _ _ a _ cid) as [ls [[dd mm]|e]]; [|discriminate]. injection E as <- <-.
    unfold nstates, nchains_of. cbn [hb_clients hb_loaders fst] in *. rewrite app_length. split; [reflexivity|]. split; [cbn; lia|]. rewrite Q, nth_error_upd_same by exact Hi. rewrite El. exact L1. }
  assert (H' : k = nstates h /\ nstates h' = S (nstates h) /\ nchains_of h' (ac_loader a) = S (nchains_of h (ac_loader a))).
  { destruct (ac_random a).
    - destruct (register_random _ _ _ _ _ _ _) as [l1 [cid|e]] eqn:E1; [|discriminate]. apply register_random_chains in E1. destruct (hub_first_cache _ _ _ ai a cid) as [hh [kk|e]] eqn:E2; [|discriminate].
      injection Hs as <- <-. eapply H; eauto.
    - destruct (ac_live a); [|discriminate]. unfold register_ordered in Hs. destruct (_ <=? _); [|discriminate].
      destruct (hub_first_cache _ _ _ ai a _) as [hh [kk|e]] eqn:E2; [|discriminate]. injection Hs as <- <-. eapply H; [|exact E2]. cbn [l_chains]. rewrite app_length. cbn. lia. }
  destruct H' as (A & B & C). eauto.
Qed.

(** ** The data states of the chains *)
Section Started.
Variables (datas : list (list (string * list obs))) (ls0 : list (loader G obs)) (h0 h1 : list (hop G)) (hA hB hB' hC : hub) (o0 o1 : list (hout obs)).
Variables (i ca mb ar af : nat) (data : list (string * list obs)) (l0 lo : loader G obs).
Hypothesis H1 : Forall2 (fun d l => make_loader d = Ok l) datas ls0.
Hypothesis H2 : run step (hub_init ls0) h0 = (hA, o0).
Hypothesis H3 : step hA (HRandom i ca mb false) = (hB, HoAccess (Ok ar)).
Hypothesis H4 : step hB (HFull i ca mb) = (hB', HoAccess (Ok af)).
Hypothesis H5 : run step hB' h1 = (hC, o1).
Hypothesis H6 : nth_error datas i = Some data.
Hypothesis H7 : nth_error ls0 i = Some l0.
Hypothesis H8 : nth_error (hb_loaders hC) i = Some lo.
Notation k0 := (nstates hC).
Notation cid0 := (length (l_chains lo)).
Variables (passes n : nat).
Notation program := (mh_program af ar k0 passes).
Hypothesis Hok : Forall succeeds (snd (run step hC (program n))).

Lemma program_S c : program (S c) = program c ++ HInit af false false None :: repeat (HBatch (k0 + 2 * c)) passes ++ [HInit ar false false None].
Proof. unfold mh_program. rewrite seq_S, flat_map_app. cbn [flat_map plus]. now rewrite app_nil_r. Qed.
Lemma program_le c : c <= n -> exists rest, program n = program c ++ rest.
Proof.
  intros H. replace n with (c + (n - c)) by lia. unfold mh_program. rewrite seq_app, flat_map_app. eauto.
Qed.
Lemma prefix_ok h rest : program n = h ++ rest -> Forall succeeds (snd (run step hC h)).
Proof. intros E. rewrite E, run_app in Hok. destruct (run step hC h) as [hX oX]. destruct (run step hX rest) as [hY oY]. cbn [snd] in *. apply Forall_app in Hok. tauto. Qed.
Lemma accesses_stay h : (exists a, nth_error (hb_accesses (fst (run step hC h))) ar = Some a /\ ac_loader a = i) /\ (exists a, nth_error (hb_accesses (fst (run step hC h))) af = Some a /\ ac_loader a = i).
Proof.
  assert (HA := run_effect choice_repl choice_perm rng_of_seed h0 (HI_init ls0)). rewrite H2 in HA. cbn [fst] in HA. destruct HA as (HA & _ & _).
  pose proof (@hstep_shape G obs choice_repl choice_perm rng_of_seed hA (HRandom i ca mb false) HA) as SB. rewrite H3 in SB. cbn [fst] in SB. pose proof (Shape_HI HA SB) as HB.
  pose proof (@hstep_shape G obs choice_repl choice_perm rng_of_seed hB (HFull i ca mb) HB) as SB'. rewrite H4 in SB'. cbn [fst] in SB'. pose proof (Shape_HI HB SB') as HB'.
  destruct (@create_effect G obs choice_repl choice_perm rng_of_seed _ _ _ _ _ _ _ _ (CreatesRandom i ca mb false) H3) as (a & Ea & A1 & _).
  destruct (@create_effect G obs choice_repl choice_perm rng_of_seed _ _ _ _ _ _ _ _ (@CreatesFull G i ca mb) H4) as (b & Eb & B1 & _).
  destruct (sh_acc SB' _ Ea) as (a' & Ea' & (A2 & _) & _).
  assert (HC := run_effect choice_repl choice_perm rng_of_seed (h1 ++ h) HB'). rewrite run_app, H5 in HC. destruct (run step hC h) as [hX oX]. cbn [fst] in HC |- *. destruct HC as (_ & _ & AC).
  destruct (AC _ _ Ea') as (a2 & Ea2 & (A3 & _) & _). destruct (AC _ _ Eb) as (b2 & Eb2 & (B2 & _) & _).
  split; [exists a2|exists b2]; (split; [assumption|congruence]).
Qed.
Lemma init_ok h ai : Forall succeeds (snd (run step hC (h ++ [HInit ai false false None]))) -> ai = ar \/ ai = af ->
  let hX := fst (run step hC h) in let hY := fst (run step hC (h ++ [HInit ai false false None])) in
  step hX (HInit ai false false None) = (hY, HoState (Ok (nstates hX))) /\ nstates hY = S (nstates hX) /\ nchains_of hY i = S (nchains_of hX i) /\ exists l, nth_error (hb_loaders hX) i = Some l.
Proof.
  intros Hs Hai. rewrite run_app in *. pose proof (accesses_stay h) as [Aar Aaf]. destruct (run step hC h) as [hX oX]. cbn [fst run] in *.
  destruct (step hX (HInit ai false false None)) as [hY oY] eqn:EY. cbn [fst snd] in *. apply Forall_app in Hs. destruct Hs as [_ Hs]. inversion Hs as [|? ? Hs1 _]; subst.
  assert (exists k, oY = HoState (Ok k)) as [k ->].
  { cbn [Hub.hstep] in EY. destruct (hub_new_state _ _ _ hX ai false false None) as [hh [k|e]]; injection EY as <- <-; [eauto|contradiction]. }
  assert (exists a, nth_error (hb_accesses hX) ai = Some a /\ ac_loader a = i) as (a & Ea & Ai) by (destruct Hai as [-> | ->]; assumption).
  destruct (@init_counts hX ai a i false false None hY k Ea Ai EY) as (-> & B & C & D). auto.
Qed.
(** the situation before chain c *)
Lemma program_counts c : c <= n -> nstates (fst (run step hC (program c))) = k0 + 2 * c /\ nchains_of (fst (run step hC (program c))) i = cid0 + 2 * c.
Proof.
  induction c as [|c IH]; intros Hc.
  - cbn. unfold nchains_of. rewrite H8. lia.
  - destruct (IH ltac:(lia)) as [I1 I2]. destruct (program_le Hc) as (rest & Er). rewrite program_S in Er |- *.
    set (P := program c) in *. set (B := repeat (HBatch (k0 + 2 * c)) passes) in *.
    replace (P ++ HInit af false false None :: B ++ [HInit ar false false None]) with (((P ++ [HInit af false false None]) ++ B) ++ [HInit ar false false None]) in * by (rewrite <- !app_assoc; reflexivity).
    destruct (@init_ok ((P ++ [HInit af false false None]) ++ B) ar (prefix_ok _ _ Er) (or_introl eq_refl)) as (_ & E1 & E2 & _). cbv zeta in E1, E2. rewrite E1, E2.
    rewrite <- !app_assoc in Er. cbn [app] in Er. 
    destruct (@init_ok P af) as (_ & E3 & E4 & _); [eapply prefix_ok; rewrite Er, <- app_assoc; reflexivity|auto|]. cbv zeta in E3, E4.
    rewrite run_app. destruct (run step hC (P ++ [HInit af false false None])) as [hX oX]. cbn [fst] in E3, E4.
    pose proof (batches_counts (k0 + 2 * c) i passes hX) as [E5 E6]. fold B in E5, E6. destruct (run step hX B) as [hY oY]. cbn [fst] in *. lia.
Qed.
Lemma opened_here h h2 hX hY ai oc random (hBx : hub) h1x hZ : h1x = h2 ++ h -> creates_access i ca mb random oc -> step hZ oc = (hBx, HoAccess (Ok ai)) -> (exists h0x o0x, run step (hub_init ls0) h0x = (hZ, o0x)) ->
  run step hBx h2 = (hC, snd (run step hBx h2)) -> hX = fst (run step hC h) ->
  step hX (HInit ai false false None) = (hY, HoState (Ok (nstates hX))) -> (exists l, nth_error (hb_loaders hX) i = Some l) ->
  opened step datas rng_of_seed hY ai (nstates hX) i (nchains_of hX i) ca data (l_count l0) (state_stream rng_of_seed random mb (nchains_of hX i) false false None).
Proof.
  intros -> Hcr Hst (h0x & o0x & Hz) Hr -> HI (l & El). destruct (run step hC h) as [hX oX] eqn:EX. cbn [fst] in *.
  exists ls0, h0x, hZ, o0x, oc, mb, random, hBx, (h2 ++ h), hX, (snd (run step hBx (h2 ++ h))), l, l0, false, false, None.
  split; [exact H1|]. split; [exact Hz|]. split; [exact Hcr|]. split; [exact Hst|]. split; [rewrite run_app, Hr, EX; reflexivity|]. split; [exact HI|].
  split; [exact H6|]. split; [exact H7|]. split; [reflexivity|]. split; [exact El|]. split; [|reflexivity]. unfold nchains_of. rewrite El. reflexivity.
Qed.
(** chain c of the MCMC solver reads its minibatches from data state k0 + 2 c + 1 on chain cid0 + 2 c + 1 of the loader, and the full data from data state k0 + 2 c *)
Theorem program_sources c d fd : c < n ->
  source_since choice_repl choice_perm rng_of_seed (fst (run step hC (program (S c)))) ar i (k0 + 2 * c + 1) (cid0 + 2 * c + 1) d ->
  source_since choice_repl choice_perm rng_of_seed (fst (run step hC (program c ++ [HInit af false false None]))) af i (k0 + 2 * c) (cid0 + 2 * c) fd ->
  mh_sources choice_repl choice_perm rng_of_seed datas data (l_count l0) mb (cid0 + 2 * c + 1) d fd.
Proof.
  intros Hc Hd Hfd. destruct (@program_counts c ltac:(lia)) as [I1 I2]. destruct (@program_le (S c) Hc) as (rest & Er). rewrite program_S in Er, Hd.
  set (P := program c) in *. set (B := repeat (HBatch (k0 + 2 * c)) passes) in *.
  replace (P ++ HInit af false false None :: B ++ [HInit ar false false None]) with (((P ++ [HInit af false false None]) ++ B) ++ [HInit ar false false None]) in * by (rewrite <- !app_assoc; reflexivity).
  destruct (@init_ok ((P ++ [HInit af false false None]) ++ B) ar (prefix_ok _ _ Er) (or_introl eq_refl)) as (E0 & _ & _ & EL). cbv zeta in E0, EL.
  rewrite <- !app_assoc in Er. cbn [app] in Er.
  destruct (@init_ok P af) as (F0 & F1 & F2 & FL); [eapply prefix_ok; rewrite Er, <- app_assoc; reflexivity|auto|]. cbv zeta in F0, F1, F2, FL.
  assert (X : nstates (fst (run step hC ((P ++ [HInit af false false None]) ++ B))) = k0 + 2 * c + 1 /\ nchains_of (fst (run step hC ((P ++ [HInit af false false None]) ++ B))) i = cid0 + 2 * c + 1).
  { rewrite run_app. destruct (run step hC (P ++ [HInit af false false None])) as [hX oX]. cbn [fst] in F1, F2.
    pose proof (batches_counts (k0 + 2 * c) i passes hX) as [E5 E6]. fold B in E5, E6. destruct (run step hX B) as [hY oY]. cbn [fst] in *. lia. }
  destruct X as [X1 X2]. split.
  - exists (fst (run step hC (((P ++ [HInit af false false None]) ++ B) ++ [HInit ar false false None]))), ar, (k0 + 2 * c + 1), i, ca. split; [|exact Hd].
    rewrite <- X1, <- X2.
    match goal with |- opened _ _ _ ?y _ _ _ ?cc _ _ _ _ => change (opened step datas rng_of_seed y ar (nstates (fst (run step hC ((P ++ [HInit af false false None]) ++ B)))) i cc ca data (l_count l0) (state_stream rng_of_seed true mb cc false false None)) end.
    eapply opened_here with (h := (P ++ [HInit af false false None]) ++ B) (h2 := HFull i ca mb :: h1) (hBx := hB) (hZ := hA);
      [reflexivity|exact (CreatesRandom i ca mb false)|exact H3|exact (ex_intro _ h0 (ex_intro _ o0 H2))| |reflexivity|exact E0|exact EL]. cbn [run]. rewrite H4, H5. reflexivity.
  - exists (fst (run step hC (P ++ [HInit af false false None]))), af, (k0 + 2 * c), i, (cid0 + 2 * c), ca. split; [|exact Hfd].
    rewrite <- I1, <- I2.
    match goal with |- opened _ _ _ ?y _ _ _ ?cc _ _ _ _ => change (opened step datas rng_of_seed y af (nstates (fst (run step hC P))) i cc ca data (l_count l0) (state_stream rng_of_seed false mb cc false false None)) end.
    eapply opened_here with (h := P) (h2 := h1) (hBx := hB') (hZ := hB);
      [reflexivity|exact (@CreatesFull G i ca mb)|exact H4| |rewrite H5; reflexivity|reflexivity|exact F0|exact FL].
    exists (h0 ++ [HRandom i ca mb false]). eexists. rewrite run_app, H2. cbn [run]. rewrite H3. reflexivity.
Qed.
End Started.
End Program.
