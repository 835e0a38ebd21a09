(** C13 at the level of the user program: an outdated data state of random_reference_data /
    full_reference_data.  Reading guide: as in PropertiesHub.v; [put_back h k c]: the program draws
    with the earlier copy c of data state k again. *)
From Verif Require Import Base ListUtil NumpyLoader LoaderSpec NumpyLoaderProofs NumpyLoaderApi Requests RequestsProofs
  DataCore DataSpec DataProofs Hub HubSpec HubProofs HubFinal GenInstance PropertiesHub.
From Coq Require String.
Set Implicit Arguments.
Import String.StringSyntax. Delimit Scope string_scope with string.

Section Outdated.
Context {G obs : Type}.
Variable choice_repl : G -> nat -> nat -> G * list nat.
Variable choice_perm : G -> nat -> G * list nat.
Variable rng_of_seed : nat -> G.
Notation step := (@Hub.hstep G obs choice_repl choice_perm rng_of_seed).
Notation hub_batch := (@Hub.hub_batch G obs choice_repl choice_perm).
Notation access_batch := (@access_batch G obs choice_repl choice_perm).
Notation hub := (hub G obs).
Notation SInv := (@SInv G obs choice_repl choice_perm).

(** auxiliary definition of a statement or a proof; models no code of /repo: data states are
    immutable values, a copy kept by the program can be used again *)
Definition put_back (h : hub) (k : nat) (c : hclient obs) : hub :=
  mkHub (hb_loaders h) (hb_accesses h) (hb_cached h) (hb_fresh h) (upd (hb_clients h) k c).

(** auxiliary definition of a statement or a proof; models no code of /repo: the argument
    verify_calls of the call that creates an access (core.py:480; full_reference_data passes True) *)
Definition verify_calls (o : hop G) : bool := match o with HRandom _ _ _ st => st | _ => true end.

Lemma fresh_mono h o : hb_fresh h <= hb_fresh (fst (step h o)).
Proof.
  destruct o as [i ca mb st|i ca mb|ai ie sh sd|k|ai|i op]; cbn [Hub.hstep].
  - unfold hub_random. destruct (nth_error _ _); [|apply le_n]. destruct (_ <? _); [apply le_n|]. destruct (_ || _); apply le_n.
  - unfold hub_full. destruct (nth_error _ _); [|apply le_n]. destruct (_ <? _); [apply le_n|]. destruct (_ =? _); apply le_n.
  - unfold hub_new_state. destruct (nth_error (hb_accesses h) ai) as [a|]; [|apply le_n]. destruct (nth_error _ _); [|apply le_n].
    destruct (ac_random a).
    + destruct (register_random _ _ _ _ _ _ _) as [l1 [cid|e]]; [|apply le_n]. unfold hub_first_cache. destruct (reg_get _ _ _ _ _) as [ls [[d m]|e]]; apply le_n.
    + destruct (ac_live a); [|apply le_n]. destruct (register_ordered _ _ _) as [l1 [cid|e]]; [|apply le_n].
      unfold hub_first_cache. destruct (reg_get _ _ _ _ _) as [ls [[d m]|e]]; apply le_n.
  - assert (X : hb_fresh h <= hb_fresh (fst (hub_batch h k))).
    { unfold Hub.hub_batch. destruct (nth_error _ _) as [c|]; [|apply le_n]. destruct (nth_error _ _) as [a|]; [|apply le_n].
      assert (Y : hb_fresh h <= hb_fresh (fst (hub_refresh choice_repl choice_perm h (hc_access c) a (hc_state c)))).
      { unfold hub_refresh. destruct (_ =? _); [|apply le_n]. unfold hub_request, request. cbn [r_cached r_current r_fresh r_loader].
        destruct (tlookup _ _) as [[[x y] z]|].
        - destruct y as [d m]. apply le_n.
        - destruct (match clookup _ _ with Some _ => _ | None => _ end); [destruct (ac_strict a); apply le_n|].
          destruct (reg_get _ _ _ _ _) as [ls [[d m]|e]]; cbn; auto. }
      destruct (hub_refresh _ _ _ _ _ _) as [h' o]. cbn [fst] in Y. destruct (bind _ _) as [[cs' b]|e]; exact Y. }
    destruct (hub_batch h k). exact X.
  - unfold hub_release. destruct (nth_error _ _) as [a|]; [|apply le_n]. destruct (ac_live a); apply le_n.
  - destruct (nth_error _ _) as [l|]; [|apply le_n]. destruct (NumpyLoader.lstep _ _ _ _ _). apply le_n.
Qed.

(** one successful draw *)
Lemma batch_state h k ai cs a h' b : hb_cached h = [] -> nth_error (hb_clients h) k = Some (mkHC ai cs) -> nth_error (hb_accesses h) ai = Some a ->
  hub_batch h k = (h', Ok b) ->
  exists cs' a', nth_error (hb_clients h') k = Some (mkHC ai cs') /\ nth_error (hb_accesses h') ai = Some a' /\ cs_chain cs' = cs_chain cs /\ acc_static a a' /\
    (cs_line cs <> cs_count cs -> cs_token cs' = cs_token cs /\ a' = a /\ hb_fresh h' = hb_fresh h) /\
    (cs_line cs = cs_count cs -> cs_token cs' = TNew (hb_fresh h) /\ clookup (cs_chain cs) (ac_current a') = Some (TNew (hb_fresh h)) /\ hb_fresh h' = S (hb_fresh h)).
Proof.
  intros Hc Ek Ea. unfold Hub.hub_batch. rewrite Ek. cbn [hc_access hc_state]. rewrite Ea.
  assert (Hk : k < length (hb_clients h)) by (apply nth_error_Some; congruence).
  assert (Hai : ai < length (hb_accesses h)) by (apply nth_error_Some; congruence).
  unfold hub_refresh. destruct (Nat.eqb_spec (cs_line cs) (cs_count cs)) as [E|E].
  - unfold hub_request, request. cbn [r_cached r_current r_fresh r_loader]. rewrite Hc. match goal with |- context[tlookup ?t []] => change (tlookup t []) with (@None (nat * batches obs * token)) end. cbv iota.
    destruct (match clookup _ _ with Some _ => _ | None => _ end); [destruct (ac_strict a); discriminate|].
    destruct (reg_get _ _ _ _ _) as [ls [[d m]|e]]; [|discriminate]. cbn [bind cs_line cs_count cs_data cs_valid cs_chain cs_token].
    match goal with |- context[tree_index ?x ?y] => destruct (tree_index x y) as [mb|]; [|discriminate] end. cbn [bind]. destruct (jindex _ _) as [mk|]; [|discriminate]. cbn [bind].
    intros X. injection X as <- _. cbn [hb_clients hb_accesses hb_fresh]. do 2 eexists.
    rewrite nth_error_upd_same by exact Hk. split; [reflexivity|]. rewrite nth_error_upd_same by exact Hai. split; [reflexivity|].
    cbn [cs_chain cs_token ac_current]. split; [reflexivity|]. split; [repeat split|]. split; [congruence|]. intros _. split; [reflexivity|]. split; [|reflexivity].
    apply clookup_set_same.
  - cbn [bind]. match goal with |- context[tree_index ?x ?y] => destruct (tree_index x y) as [mb|]; [|discriminate] end. cbn [bind]. destruct (jindex _ _) as [mk|]; [|discriminate]. cbn [bind].
    intros X. injection X as <- _. cbn [hb_clients hb_accesses hb_fresh]. do 2 eexists.
    rewrite nth_error_upd_same by exact Hk. split; [reflexivity|]. split; [exact Ea|].
    cbn [cs_chain cs_token]. split; [reflexivity|]. split; [repeat split|]. split; [auto|]. congruence.
Qed.

(** auxiliary definition of a statement or a proof; models no code of /repo *)
Definition rank (t : token) : nat := match t with TInit _ => 0 | TNew n => S n end.

Section Run.
Hypothesis Hperm : perm_oracle choice_perm.
Hypothesis Hrepl : repl_oracle choice_repl.
Variable data : list (String.string * list obs).
Variables N i cid ca k ai : nat.
Variable r : reg G.
Hypothesis Hreg : reg_ok N r.
Hypothesis Hca : 0 < ca.
Variables (F n0 : nat) (tok0 : token) (st : bool).

(** auxiliary definition of a statement or a proof; models no code of /repo *)
Definition Tok (n : nat) (h : hub) : Prop :=
  exists cs a, nth_error (hb_clients h) k = Some (mkHC ai cs) /\ nth_error (hb_accesses h) ai = Some a /\ ac_strict a = st /\ cs_chain cs = cid /\
    F <= hb_fresh h /\ rank (cs_token cs) <= hb_fresh h /\
    ((cs_token cs = tok0 /\ cached_until ca n = cached_until ca n0) \/
     (exists m, cs_token cs = TNew m /\ F <= m /\ clookup cid (ac_current a) = Some (cs_token cs) /\ cached_until ca n0 < cached_until ca n)).

Lemma cached_until_fix n c : c * ca < n -> n <= S c * ca -> cached_until ca n = S c * ca.
Proof.
  intros H1 H2. unfold cached_until. destruct (Nat.eqb_spec n 0); [lia|]. pose proof (ceil_div_spec n Hca) as [C1 C2]. f_equal. nia.
Qed.

Lemma cached_until_at g line : line <= ca -> (line = 0 -> g = 0) -> cached_until ca (g * ca + line) = S g * ca.
Proof.
  intros H1 H2. destruct line as [|line].
  - rewrite (H2 eq_refl). cbn. unfold cached_until. cbn. lia.
  - apply cached_until_fix; nia.
Qed.

Lemma run_tok h2 : forall n h, SInv data N i cid ca k ai r true n h -> Tok n h -> untouched i cid h2 -> never_released ai h2 ->
  Tok (n + state_calls k h2) (fst (run step h h2)).
Proof.
  induction h2 as [|o h2 IH]; intros n h HS HT Hu Hr; cbn [run state_calls].
  - rewrite Nat.add_0_r. exact HT.
  - assert (Hu' : untouched i cid h2) by (intros op Hop; apply Hu; simpl; auto).
    assert (Hr' : never_released ai h2) by (intros X; apply Hr; simpl; auto).
    pose proof (si_hi HS) as HH. pose proof (@hstep_shape G obs choice_repl choice_perm rng_of_seed h o HH) as Sh.
    pose proof (fresh_mono h o) as Hfm.
    destruct HT as (cs & a & Ek & Ea & Hst & Hch & HF & Hrk & HT).
    destruct (si_cl HS) as (cs2 & a2 & l & g & Ek2 & Ea2 & Hi & Hlive & El & Hat & Hch2 & Hco & Hout & Hn & Hle & Hz & Htok).
    rewrite Ek in Ek2. injection Ek2 as <-. rewrite Ea in Ea2. injection Ea2 as <-.
    destruct (step h o) as [h' out] eqn:E. cbn [fst] in Sh, Hfm.
    assert (Hdec : o = HBatch k \/ o <> HBatch k) by (destruct o; try (right; discriminate); destruct (Nat.eq_dec k0 k); [left; congruence|right; congruence]).
    destruct Hdec as [-> | Hne].
    + cbn [Hub.hstep] in E. destruct (proj1 (@own_batch G obs choice_repl choice_perm rng_of_seed Hperm Hrepl data N i cid ca k ai r Hreg Hca _ n h HS)) as (H1 & H2); [auto|].
      destruct (hub_batch h k) as [h1 o1] eqn:Eb. injection E as <- <-. cbn [fst snd] in H1, H2. subst o1.
      assert (HT1 : Tok (S n) h1).
      { destruct (@batch_state _ _ _ _ _ _ _ (hi_cached HH) Ek Ea Eb) as (cs' & a' & Ek' & Ea' & Hc' & (_ & _ & _ & _ & Hst') & B1 & B2).
        assert (Hcu : cached_until ca n = S g * ca) by (rewrite Hn; apply cached_until_at; auto).
        exists cs', a'. split; [exact Ek'|]. split; [exact Ea'|]. split; [congruence|]. split; [congruence|].
        destruct (Nat.eq_dec (cs_line cs) (cs_count cs)) as [El'|El'].
        - destruct (B2 El') as (-> & L & ->). split; [lia|]. split; [cbn; lia|]. right. exists (hb_fresh h). split; [reflexivity|]. split; [exact HF|].
          rewrite Hch in L. split; [exact L|].
          assert (Hn1 : cached_until ca (S n) = S (S g) * ca) by (apply cached_until_fix; nia). rewrite Hn1.
          destruct HT as [(_ & Q)|(m & _ & _ & _ & Q)]; rewrite Hcu in Q; nia.
        - destruct (B1 El') as (-> & -> & ->). split; [exact HF|]. split; [exact Hrk|].
          assert (Hn1 : cached_until ca (S n) = S g * ca) by (apply cached_until_fix; nia). rewrite Hn1, <- Hcu. exact HT. }
      specialize (IH _ _ H2 HT1 Hu' Hr'). destruct (run step h1 h2) as [h3 outs]. cbn [fst] in IH |- *. rewrite Nat.eqb_refl.
      replace (n + (1 + state_calls k h2)) with (S n + state_calls k h2) by lia. exact IH.
    + assert (HS1 : SInv data N i cid ca k ai r true n h').
      { replace h' with (fst (step h o)) by (rewrite E; reflexivity). apply (@foreign_step G obs choice_repl choice_perm rng_of_seed data N i cid ca k ai r); auto.
        - intros op ->. destruct (Hu op (or_introl eq_refl)) as [U1 U2]. destruct op; cbn [targets]; auto; intros ->; first [eapply U1; reflexivity | eapply U2; reflexivity].
        - left. intros ->. apply Hr. left. reflexivity. }
      assert (HT1 : Tok n h').
      { destruct (sh_acc Sh _ Ea) as (a' & Ea' & (_ & _ & _ & _ & Hst') & _ & _ & Hcur).
        exists cs, a'. split. { rewrite (sh_cl Sh Hne) by (apply nth_error_Some; congruence). exact Ek. }
        split; [exact Ea'|]. split; [congruence|]. split; [exact Hch|]. split; [lia|]. split; [lia|].
        rewrite Hcur; [exact HT|]. intros k' cl -> Hk' Hacc. apply (si_other HS) with (k' := k') (a := a); auto; congruence. }
      specialize (IH _ _ HS1 HT1 Hu' Hr'). destruct (run step h' h2) as [h3 outs]. cbn [fst] in IH |- *.
      destruct o; cbn [state_calls]; auto. assert (k0 <> k) by congruence. destruct (Nat.eqb_spec k0 k); [congruence|]. exact IH.
Qed.

Lemma stale_step h cs a tk : hb_cached h = [] -> nth_error (hb_clients h) k = Some (mkHC ai cs) -> nth_error (hb_accesses h) ai = Some a -> ac_strict a = st ->
  cs_line cs = cs_count cs -> clookup (cs_chain cs) (ac_current a) = Some tk -> tk <> cs_token cs ->
  exists h' a', hub_batch h k = (h', Exc (if st then RuntimeError else UnboundLocalError)) /\ hb_loaders h' = hb_loaders h /\
    hb_cached h' = [] /\ nth_error (hb_clients h') k = Some (mkHC ai cs) /\ nth_error (hb_accesses h') ai = Some a' /\ ac_strict a' = st /\
    clookup (cs_chain cs) (ac_current a') = Some tk.
Proof.
  intros Hc Ek Ea Hst El Hcl Hne. unfold Hub.hub_batch. rewrite Ek. cbn [hc_access hc_state]. rewrite Ea.
  assert (Hai : ai < length (hb_accesses h)) by (apply nth_error_Some; congruence).
  unfold hub_refresh. rewrite El, Nat.eqb_refl. unfold hub_request, request. cbn [r_cached r_current r_fresh r_loader]. rewrite Hc. match goal with |- context[tlookup ?t []] => change (tlookup t []) with (@None (nat * batches obs * token)) end. cbv iota.
  rewrite Hcl. assert (X : token_eqb tk (cs_token cs) = false).
  { destruct (token_eqb tk (cs_token cs)) eqn:Et; [|reflexivity]. exfalso. apply Hne. destruct tk, (cs_token cs); cbn in Et; try discriminate; apply Nat.eqb_eq in Et; congruence. }
  rewrite X. cbn [negb]. rewrite Hst. destruct st; cbn [bind]; do 2 eexists; (split; [reflexivity|]); cbn [hb_loaders hb_cached hb_clients hb_accesses r_loader r_cached r_current];
    (split; [reflexivity|]); (split; [reflexivity|]); (split; [exact Ek|]); (split; [apply nth_error_upd_same; exact Hai|]); (split; [first [reflexivity|exact Hst]|exact Hcl]).
Qed.

Lemma stale_draws t : forall h cs a tk, hb_cached h = [] -> nth_error (hb_clients h) k = Some (mkHC ai cs) -> nth_error (hb_accesses h) ai = Some a -> ac_strict a = st ->
  cs_line cs = cs_count cs -> clookup (cs_chain cs) (ac_current a) = Some tk -> tk <> cs_token cs ->
  snd (run step h (repeat (HBatch k) t)) = repeat (HoBatch (Exc (if st then RuntimeError else UnboundLocalError))) t /\
  hb_loaders (fst (run step h (repeat (HBatch k) t))) = hb_loaders h.
Proof.
  induction t as [|t IH]; intros h cs a tk H1 H2 H3 H4 H5 H6 H7; cbn [repeat run]; [split; reflexivity|].
  destruct (stale_step _ H1 H2 H3 H4 H5 H6 H7) as (h' & a' & E & L & B1 & B2 & B3 & B4 & B5). cbn [Hub.hstep]. rewrite E.
  destruct (IH h' cs a' tk B1 B2 B3 B4 H5 B5 H7) as (I1 & I2). destruct (run step h' (repeat (HBatch k) t)) as [h2 os]. cbn [fst snd] in *. rewrite I1, I2, L. split; reflexivity.
Qed.

(** a draw from the cache depends on the data state only *)
Lemma cached_draw h h' h1 cs a a1 b : nth_error (hb_clients h) k = Some (mkHC ai cs) -> nth_error (hb_accesses h) ai = Some a ->
  nth_error (hb_clients h1) k = Some (mkHC ai cs) -> nth_error (hb_accesses h1) ai = Some a1 -> cs_line cs <> cs_count cs -> hub_batch h k = (h', Ok b) ->
  exists h1', hub_batch h1 k = (h1', Ok b) /\ hb_loaders h1' = hb_loaders h1 /\ hb_cached h1' = hb_cached h1 /\ hb_accesses h1' = hb_accesses h1 /\
    nth_error (hb_clients h1') k = nth_error (hb_clients h') k.
Proof.
  intros Ek Ea Ek1 Ea1 Hl. unfold Hub.hub_batch. rewrite Ek, Ek1. cbn [hc_access hc_state]. rewrite Ea, Ea1. unfold hub_refresh.
  destruct (Nat.eqb_spec (cs_line cs) (cs_count cs)); [congruence|]. cbn [bind].
  match goal with |- context[tree_index ?x ?y] => destruct (tree_index x y) as [mb|]; [|discriminate] end. cbn [bind].
  destruct (jindex _ _) as [mk|]; [|discriminate]. cbn [bind]. intros X. injection X as <- <-. eexists. split; [reflexivity|]. cbn [hb_loaders hb_cached hb_accesses hb_clients].
  repeat (split; [reflexivity|]). rewrite !nth_error_upd_same; [reflexivity| |]; apply nth_error_Some; congruence.
Qed.

Lemma copy_draws t : forall n h h1 cs a1 tk, SInv data N i cid ca k ai r true n h -> nth_error (hb_clients h) k = Some (mkHC ai cs) ->
  hb_cached h1 = [] -> nth_error (hb_clients h1) k = Some (mkHC ai cs) -> nth_error (hb_accesses h1) ai = Some a1 -> ac_strict a1 = st ->
  clookup cid (ac_current a1) = Some tk -> tk <> cs_token cs ->
  snd (run step h1 (repeat (HBatch k) t)) = map (fun x => HoBatch (if x <? cached_until ca n then Ok (access_batch data N r x) else Exc (if st then RuntimeError else UnboundLocalError))) (seq n t) /\
  hb_loaders (fst (run step h1 (repeat (HBatch k) t))) = hb_loaders h1.
Proof.
  induction t as [|t IH]; intros n h h1 cs a1 tk HS Ek Hc1 Ek1 Ea1 Hst Hcl Hne; [split; reflexivity|].
  pose proof (si_hi HS) as HH.
  destruct (si_cl HS) as (cs2 & a & l & g & Ek2 & Ea & Hi & Hlive & El & Hat & Hch & Hco & Hout & Hn & Hle & Hz & Htok).
  rewrite Ek in Ek2. injection Ek2 as <-.
  assert (Hcu : cached_until ca n = S g * ca) by (rewrite Hn; apply cached_until_at; auto).
  destruct (Nat.eq_dec (cs_line cs) (cs_count cs)) as [E|E].
  - assert (Hcl' : clookup (cs_chain cs) (ac_current a1) = Some tk) by (rewrite Hch; exact Hcl).
    destruct (@stale_draws (S t) h1 cs a1 tk Hc1 Ek1 Ea1 Hst E Hcl' Hne) as (I1 & I2). split; [|exact I2]. rewrite I1.
    assert (Hge : cached_until ca n <= n) by (rewrite Hcu; nia). clear -Hge. revert Hge. generalize (cached_until ca n) as u. generalize (S t). intros t' u. revert n.
    induction t' as [|t' IH]; intros n Hge; cbn [repeat seq map]; [reflexivity|]. rewrite (IH (S n)) by lia. destruct (Nat.ltb_spec n u); [lia|]. reflexivity.
  - destruct (proj1 (@own_batch G obs choice_repl choice_perm rng_of_seed Hperm Hrepl data N i cid ca k ai r Hreg Hca _ n h HS)) as (H1 & H2); [auto|].
    destruct (hub_batch h k) as [h' o1] eqn:Eb. cbn [fst snd] in H1, H2. subst o1.
    destruct (@batch_state _ _ _ _ _ _ _ (hi_cached HH) Ek Ea Eb) as (cs' & a' & Ek' & Ea' & Hc' & _ & B1 & _). destruct (B1 E) as (Q1 & _).
    destruct (@cached_draw h h' h1 cs a a1 _ Ek Ea Ek1 Ea1 E Eb) as (h1' & Eb1 & L1 & L2 & L3 & L4).
    assert (Hn1 : cached_until ca (S n) = cached_until ca n) by (rewrite Hcu; apply cached_until_fix; nia).
    destruct (IH (S n) h' h1' cs' a1 tk H2 Ek') as (I1 & I2); try congruence.
    cbn [repeat run Hub.hstep]. rewrite Eb1. destruct (run step h1' (repeat (HBatch k) t)) as [h3 os]. cbn [fst snd] in *. rewrite I1, I2, L1, Hn1. cbn [seq map].
    destruct (Nat.ltb_spec n (cached_until ca n)); [split; reflexivity|]. rewrite Hcu in *. nia.
Qed.
End Run.

Lemma new_state_token h ai ie sh sd h' k cs : step h (HInit ai ie sh sd) = (h', HoState (Ok k)) -> nth_error (hb_clients h') k = Some (mkHC ai cs) -> rank (cs_token cs) = 0.
Proof.
  cbn [Hub.hstep]. unfold hub_new_state. destruct (nth_error (hb_accesses h) ai) as [a|]; [|discriminate]. destruct (nth_error (hb_loaders h) _) as [l|]; [|discriminate].
  assert (X : forall hh cid h' k, hub_first_cache choice_repl choice_perm hh ai a cid = (h', Ok k) -> nth_error (hb_clients h') k = Some (mkHC ai cs) -> rank (cs_token cs) = 0).
  { clear. intros hh cid h' k. unfold hub_first_cache. destruct (reg_get _ _ _ _ _) as [ls [[d m]|e]]; [|discriminate]. intros E. injection E as <- <-. cbn [hb_clients].
    rewrite nth_error_app2, Nat.sub_diag by lia. intros E. injection E as <-. reflexivity. }
  destruct (ac_random a).
  - destruct (register_random _ _ _ _ _ _ _) as [l1 [cid|e]]; [|discriminate]. destruct (hub_first_cache _ _ _ _ _ _) as [s o] eqn:E. intros Y. injection Y as <- ->. eapply X; eauto.
  - destruct (ac_live a); [|discriminate]. destruct (register_ordered _ _ _) as [l1 [cid|e]]; [|discriminate]. destruct (hub_first_cache _ _ _ _ _ _) as [s o] eqn:E. intros Y. injection Y as <- ->. eapply X; eauto.
Qed.

(** A program creates access ai (oc) on loader i, opens data state k, draws j batches with it and
    keeps the data state c.  It goes on with the newer data states, beyond the batches that are in
    the cache of c.  Using c again, it gets the remaining batches of the cache of c, the same as
    before; then every call raises RuntimeError (with verify_calls=False: UnboundLocalError after
    the warning), and no data loader is advanced by any of these calls. *)
Theorem C13_outdated_data_state :
  perm_oracle choice_perm -> repl_oracle choice_repl ->
  forall datas ls0 h0 hA o0 i ca mb random oc ai hB h1 hC o1 ie sh sd hD k data l0 l h2 hE o2 c h3 hF o3 t,
  Forall2 (fun d l => make_loader d = Ok l) datas ls0 -> run step (hub_init ls0) h0 = (hA, o0) ->
  creates_access i ca mb random oc -> step hA oc = (hB, HoAccess (Ok ai)) -> run step hB h1 = (hC, o1) ->
  step hC (HInit ai ie sh sd) = (hD, HoState (Ok k)) ->
  nth_error datas i = Some data -> nth_error ls0 i = Some l0 -> nth_error (hb_loaders hC) i = Some l ->
  let cid := length (l_chains l) in let r := state_stream rng_of_seed random mb cid ie sh sd in
  untouched i cid h2 -> never_released ai h2 -> run step hD h2 = (hE, o2) -> nth_error (hb_clients hE) k = Some c ->
  untouched i cid h3 -> never_released ai h3 -> run step hE h3 = (hF, o3) ->
  let j := state_calls k h2 in cached_until ca j < j + state_calls k h3 ->
  let (hG, outs) := run step (put_back hF k c) (repeat (HBatch k) t) in
  outs = map (fun x => HoBatch (if x <? cached_until ca j then Ok (access_batch data (l_count l0) r x)
                                else Exc (if verify_calls oc then RuntimeError else UnboundLocalError))) (seq j t) /\
  hb_loaders hG = hb_loaders hF.
Proof.
  intros Hperm Hrepl datas ls0 h0 hA o0 i ca mb random oc ai hB h1 hC o1 ie sh sd hD k data l0 l h2 hE o2 c h3 hF o3 t H1 H2 H3 H4 H5 H6 H7 E0 H8 cid r U2 R2 E2 Ec U3 R3 E3 j Hj.
  destruct (Forall2_nth_error_l _ H1 H7) as (l0' & E0' & Hmk). rewrite E0 in E0'. injection E0' as <-.
  assert (Ho : opened step datas rng_of_seed hD ai k i cid ca data (l_count l0) r).
  { exists ls0, h0, hA, o0, oc, mb, random, hB, h1, hC, o1, l, l0, ie, sh, sd. repeat (split; [assumption || reflexivity|]). reflexivity. }
  destruct (@opened_inv G obs choice_repl choice_perm rng_of_seed Hperm Hrepl _ _ _ _ _ _ _ _ _ _ Ho) as (Hca & Hok & HSD).
  assert (Hstrict : exists aD, nth_error (hb_accesses hD) ai = Some aD /\ ac_strict aD = verify_calls oc).
  { pose proof (@run_effect G obs choice_repl choice_perm rng_of_seed h0 _ (HI_init ls0)) as HA. rewrite H2 in HA. cbn [fst] in HA. destruct HA as (HA & _ & _).
    pose proof (@hstep_shape G obs choice_repl choice_perm rng_of_seed hA oc HA) as SB. rewrite H4 in SB. cbn [fst] in SB. pose proof (Shape_HI HA SB) as HB.
    assert (Hcr : exists a, nth_error (hb_accesses hB) ai = Some a /\ ac_strict a = verify_calls oc).
    { destruct H3 as [st|]; cbn [Hub.hstep verify_calls] in *; unfold hub_random, hub_full in H4; destruct (nth_error (hb_loaders hA) i); try discriminate; destruct (_ <? _); try discriminate.
      - destruct (_ || _); [discriminate|]. injection H4 as <- <-. cbn [new_access hb_accesses]. eexists. rewrite nth_error_app2, Nat.sub_diag by lia. split; reflexivity.
      - destruct (_ =? _); [discriminate|]. injection H4 as <- <-. cbn [new_access hb_accesses]. eexists. rewrite nth_error_app2, Nat.sub_diag by lia. split; reflexivity. }
    destruct Hcr as (a & Ea & Hs). pose proof (@run_effect G obs choice_repl choice_perm rng_of_seed h1 _ HB) as HC. rewrite H5 in HC. cbn [fst] in HC. destruct HC as (HC & _ & AC).
    destruct (AC _ _ Ea) as (a' & Ea' & (_ & _ & _ & _ & Hs') & _).
    pose proof (@hstep_shape G obs choice_repl choice_perm rng_of_seed hC (HInit ai ie sh sd) HC) as SD. rewrite H6 in SD. cbn [fst] in SD.
    destruct (sh_acc SD _ Ea') as (a2 & Ea2 & (_ & _ & _ & _ & Hs2) & _). exists a2. split; [exact Ea2|congruence]. }
  destruct Hstrict as (aD & EaD & HsD).
  destruct (si_cl HSD) as (csD & aD' & lD & gD & EkD & EaD' & _ & _ & _ & _ & HchD & _ & _ & HnD & HleD & HzD & _).
  assert (HTD : Tok cid ca k ai 0 0 (cs_token csD) (verify_calls oc) 0 hD).
  { exists csD, aD. split; [exact EkD|]. split; [exact EaD|]. split; [exact HsD|]. split; [exact HchD|]. split; [lia|].
    split; [rewrite (@new_state_token _ _ _ _ _ _ _ _ H6 EkD); lia|]. left. split; reflexivity. }
  pose proof (@run_live G obs choice_repl choice_perm rng_of_seed Hperm Hrepl data (l_count l0) i cid ca k ai r Hok Hca h2 0 hD HSD U2 R2) as (_ & HSE).
  pose proof (@run_tok Hperm Hrepl data (l_count l0) i cid ca k ai r Hok Hca _ _ _ _ h2 0 hD HSD HTD U2 R2) as HTE.
  rewrite E2 in HSE, HTE. cbn [fst plus] in HSE, HTE. fold j in HSE, HTE.
  destruct HTE as (csE & aE & EkE & EaE & HsE & HchE & _ & HrE & _). rewrite EkE in Ec. injection Ec as <-.
  assert (HTE : Tok cid ca k ai (hb_fresh hE) j (cs_token csE) (verify_calls oc) j hE).
  { exists csE, aE. split; [exact EkE|]. split; [exact EaE|]. split; [exact HsE|]. split; [exact HchE|]. split; [lia|]. split; [exact HrE|]. left. split; reflexivity. }
  pose proof (@run_live G obs choice_repl choice_perm rng_of_seed Hperm Hrepl data (l_count l0) i cid ca k ai r Hok Hca h3 j hE HSE U3 R3) as (_ & HSF).
  pose proof (@run_tok Hperm Hrepl data (l_count l0) i cid ca k ai r Hok Hca _ _ _ _ h3 j hE HSE HTE U3 R3) as HTF.
  rewrite E3 in HSF, HTF. cbn [fst] in HSF, HTF.
  destruct HTF as (csF & aF & EkF & EaF & HsF & HchF & _ & HrF & HT).
  destruct HT as [(_ & Q)|(m & Q1 & Q2 & Q3 & Q4)].
  { exfalso. assert (j + state_calls k h3 <= cached_until ca (j + state_calls k h3)).
    { unfold cached_until. destruct (Nat.eqb_spec (j + state_calls k h3) 0); [lia|]. apply (ceil_div_spec (j + state_calls k h3) Hca). }
    lia. }
  assert (Hne : cs_token csF <> cs_token csE) by (intros X; rewrite Q1 in X; rewrite <- X in HrE; cbn [rank] in HrE; lia).
  destruct (@copy_draws Hperm Hrepl data (l_count l0) i cid ca k ai r Hok Hca (verify_calls oc) t j hE (put_back hF k (mkHC ai csE)) csE aF (cs_token csF) HSE EkE) as (I1 & I2).
  - exact (hi_cached (si_hi HSF)).
  - cbn [put_back hb_clients]. apply nth_error_upd_same. apply nth_error_Some. congruence.
  - exact EaF.
  - exact HsF.
  - exact Q3.
  - exact Hne.
  - destruct (run step (put_back hF k (mkHC ai csE)) (repeat (HBatch k) t)) as [hG outs]. cbn [fst snd] in I1, I2. split; [exact I1|exact I2].
Qed.
End Outdated.

(** The hypotheses are met; the answers in a concrete program: caches of two batches, a copy after
    one draw, three further draws.  The copy delivers one more batch and raises then. *)
Notation ex_step := (@Hub.hstep nat nat lin_repl rot_perm (fun s => s)).
(** auxiliary definition of a statement or a proof; models no code of /repo *)
Definition ex_outdated (st : bool) : list (hout nat) :=
  let hD := fst (run ex_step (hub_init (map (fun d => match make_loader d with Ok l => l | Exc _ => mkLoader 0 [] [] end) ex_datas)) [HFull 0 2 2; HRandom 1 2 1 st; HInit 1 false false None]) in
  let hE := fst (run ex_step hD [HBatch 0]) in
  let hF := fst (run ex_step hE [HBatch 0; HBatch 0; HInit 0 false false None; HBatch 1; HBatch 0]) in
  match nth_error (hb_clients hE) 0 with
  | Some c => snd (run ex_step (put_back hF 0 c) (repeat (HBatch 0) 3))
  | None => []
  end.
Example C13_outdated_nonvacuous :
  state_calls 0 [HBatch (G := nat) 0] = 1 /\ cached_until 2 1 = 2 /\
  state_calls 0 [HBatch 0; HBatch 0; HInit (G := nat) 0 false false None; HBatch 1; HBatch 0] = 3 /\
  map (fun o => match o with HoBatch (Ok _) => None | HoBatch (Exc e) => Some e | _ => None end) (ex_outdated true) = [None; Some RuntimeError; Some RuntimeError] /\
  map (fun o => match o with HoBatch (Ok _) => None | HoBatch (Exc e) => Some e | _ => None end) (ex_outdated false) = [None; Some UnboundLocalError; Some UnboundLocalError].
Proof. repeat split; vm_compute; reflexivity. Qed.
Print Assumptions C13_outdated_data_state.
