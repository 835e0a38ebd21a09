From Verif Require Import Base ListUtil NumpyLoader LoaderSpec NumpyLoaderProofs NumpyLoaderApi Requests RequestsProofs
  DataCore DataSpec DataProofs Hub HubSpec HubProofs.
From Coq Require String.
Set Implicit Arguments.

Section Hub.
Context {G obs : Type}.
Variable choice_repl : G -> nat -> nat -> G * list nat.
Variable choice_perm : G -> nat -> G * list nat.
Variable rng_of_seed : nat -> G.
Hypothesis Hperm : perm_oracle choice_perm.
Hypothesis Hrepl : repl_oracle choice_repl.
Notation get_batches := (NumpyLoader.get_batches choice_repl choice_perm (obs := obs)).
Notation lstep := (NumpyLoader.lstep choice_repl choice_perm rng_of_seed (obs := obs)).
Notation hstep := (@Hub.hstep G obs choice_repl choice_perm rng_of_seed).
Notation AtChain := (@AtChain G obs choice_repl choice_perm).
Notation chain_output := (@chain_output G obs choice_repl choice_perm).
Notation access_batch := (@access_batch G obs choice_repl choice_perm).
Notation hub := (hub G obs).
Notation hub_batch := (@Hub.hub_batch G obs choice_repl choice_perm).
Notation shape := (@hstep_shape G obs choice_repl choice_perm rng_of_seed).

Section Client.
Variable data : list (String.string * list obs).
Variables N i cid ca k ai : nat.
Variable r : reg G.
Hypothesis Hreg : reg_ok N r.
Hypothesis Hca : 0 < ca.

(** data state k of access ai on chain cid of loader i has handed out n batches *)
Record SInv (live : bool) (n : nat) (h : hub) : Prop := {
  si_hi : HI h;
  si_cl : exists cs a l g, nth_error (hb_clients h) k = Some (mkHC ai cs) /\ nth_error (hb_accesses h) ai = Some a /\
     ac_loader a = i /\ ac_live a = live /\ nth_error (hb_loaders h) i = Some l /\
     AtChain data N r ca cid (S g) l /\ cs_chain cs = cid /\ cs_count cs = ca /\
     chain_output data N r ca g = Ok (cs_data cs, cs_valid cs) /\
     n = g * ca + cs_line cs /\ cs_line cs <= ca /\ (cs_line cs = 0 -> g = 0) /\
     match clookup cid (ac_current a) with None => True | Some t => t = cs_token cs end;
  si_other : forall k' cl a, k' <> k -> nth_error (hb_clients h) k' = Some cl ->
     nth_error (hb_accesses h) (hc_access cl) = Some a -> ac_loader a = i -> cs_chain (hc_state cl) <> cid }.

Lemma cached_until_eq g line : line <= ca -> (line = 0 -> g = 0) -> cached_until ca (g * ca + line) = S g * ca.
Proof.
  intros H1 H2. unfold cached_until. destruct (Nat.eqb_spec (g * ca + line) 0) as [E|E].
  - assert (line = 0) by lia. rewrite (H2 H). lia.
  - assert (Hl : 0 < line). { destruct line; [|lia]. rewrite (H2 eq_refl) in E. lia. }
    pose proof (ceil_div_spec (g * ca + line) Hca) as [C1 C2]. f_equal.
    assert (ceil_div (g * ca + line) ca > g) by nia. nia.
Qed.

Lemma others_kept h o : SInv true 0 h \/ True -> HI h -> (forall k' cl a, k' <> k -> nth_error (hb_clients h) k' = Some cl ->
     nth_error (hb_accesses h) (hc_access cl) = Some a -> ac_loader a = i -> cs_chain (hc_state cl) <> cid) ->
  (exists l, nth_error (hb_loaders h) i = Some l /\ cid < nch l) -> k < length (hb_clients h) ->
  forall k' cl a, k' <> k -> nth_error (hb_clients (fst (hstep h o))) k' = Some cl ->
     nth_error (hb_accesses (fst (hstep h o))) (hc_access cl) = Some a -> ac_loader a = i -> cs_chain (hc_state cl) <> cid.
Proof.
  intros _ HH Hu (l & El & Hlt) Hk k' cl a Hne Hcl Ha Hl. pose proof (@shape h o HH) as S.
  destruct (nth_error (hb_clients h) k') as [cl0|] eqn:E.
  - assert (Hs : hc_access cl = hc_access cl0 /\ cs_chain (hc_state cl) = cs_chain (hc_state cl0)).
    { assert (Hd : o = HBatch k' \/ o <> HBatch k') by (destruct o; try (right; discriminate); destruct (Nat.eq_dec k0 k'); [left; congruence|right; congruence]).
      destruct Hd as [Ho|Ho].
      - destruct (sh_cl_own S Ho E) as (cl2 & E2 & Q1 & Q2). rewrite Hcl in E2. injection E2 as <-. auto.
      - pose proof (sh_cl S Ho) as Hq. rewrite Hq in Hcl by (apply nth_error_Some; congruence). split; congruence. }
    destruct Hs as [Hs1 Hs2]. destruct (hi_cl HH _ E) as (a0 & l0 & Ea0 & El0 & _).
    destruct (sh_acc S _ Ea0) as (a1 & Ea1 & (Q & _) & _). rewrite Hs1, Ea1 in Ha. injection Ha as <-.
    rewrite Hs2. eapply Hu; eauto. congruence.
  - destruct (sh_cl_new S _ Hcl E) as (a0 & l0 & l' & Ea0 & El0 & _ & Hc & _).
    destruct (sh_acc S _ Ea0) as (a1 & Ea1 & (Q & _) & _). rewrite Ea1 in Ha. injection Ha as <-.
    rewrite Q in Hl. rewrite Hl in El0. rewrite El in El0. injection El0 as <-. lia.
Qed.

Lemma sinv_lt live n h : SInv live n h -> (exists l, nth_error (hb_loaders h) i = Some l /\ cid < nch l) /\ k < length (hb_clients h).
Proof.
  intros [HH (cs & a & l & g & Ek & Ea & Hi & _ & El & Hat & Hch & _) _]. destruct (hi_cl HH _ Ek) as (a0 & l0 & E0 & E1 & E2).
  cbn [hc_access hc_state] in *. rewrite Ea in E0. injection E0 as <-. rewrite Hi, El in E1. injection E1 as <-. split; [|apply nth_error_Some; congruence].
  exists l. split; auto. lia.
Qed.

(** a call with this data state *)
Lemma own_batch live n h : SInv live n h ->
  (n < cached_until ca n \/ live = true ->
     snd (hub_batch h k) = Ok (access_batch data N r n) /\ SInv live (S n) (fst (hub_batch h k))) /\
  (cached_until ca n <= n -> live = false ->
     snd (hub_batch h k) = Exc KeyError /\ SInv live n (fst (hub_batch h k))).
Proof.
  intros HS. destruct (sinv_lt HS) as [Hlt Hk]. pose proof HS as HS0.
  destruct HS as [HH (cs & a & l & g & Ek & Ea & Hi & Hlive & El & Hat & Hch & Hco & Hout & Hn & Hle & Hz & Htok) Hu].
  pose proof (@others_kept h (HBatch k) (or_intror I) HH Hu Hlt Hk) as Hoth. cbn [Hub.hstep] in Hoth.
  assert (Hbf : fst (let (h', r) := hub_batch h k in (h', HoBatch r)) = fst (hub_batch h k)) by (destruct (hub_batch h k); reflexivity).
  rewrite Hbf in Hoth. clear Hbf.
  assert (HH' : HI (fst (hub_batch h k))).
  { pose proof (@batch_shape G obs choice_repl choice_perm rng_of_seed h k HH) as S. eapply Shape_HI; eauto. }
  assert (Hcu : cached_until ca n = S g * ca) by (rewrite Hn; apply cached_until_eq; auto).
  assert (Hai : ai < length (hb_accesses h)) by (apply nth_error_Some; congruence).
  assert (Hil : i < length (hb_loaders h)) by (apply nth_error_Some; congruence).
  assert (Hfin : forall cs' l' a' g', nth_error (hb_clients (fst (hub_batch h k))) k = Some (mkHC ai cs') ->
     nth_error (hb_accesses (fst (hub_batch h k))) ai = Some a' -> ac_loader a' = i -> ac_live a' = live ->
     nth_error (hb_loaders (fst (hub_batch h k))) i = Some l' -> AtChain data N r ca cid (S g') l' ->
     cs_chain cs' = cid -> cs_count cs' = ca -> chain_output data N r ca g' = Ok (cs_data cs', cs_valid cs') ->
     cs_line cs' <= ca -> (cs_line cs' = 0 -> g' = 0) -> 
     match clookup cid (ac_current a') with None => True | Some t => t = cs_token cs' end ->
     SInv live (g' * ca + cs_line cs') (fst (hub_batch h k))).
  { intros cs' l' a' g' E1 E2 E3 E4 E5 E6 E7 E8 E9 E10 E11 E12. constructor; auto. exists cs', a', l', g'. repeat (split; [assumption || reflexivity|]). exact E12. }
  destruct (Nat.eq_dec (cs_line cs) ca) as [Hline|Hline].
  - (* refresh *)
    assert (Ereq : hub_batch h k = 
       match live with
       | true => hub_batch h k
       | false => (mkHub (hb_loaders h) (upd (hb_accesses h) ai (mkAcc (ac_loader a) (ac_ca a) (ac_mb a) (ac_random a) (ac_strict a) (ac_live a) (ac_current a))) [] (S (hb_fresh h)) (hb_clients h), Exc KeyError)
       end).
    { destruct live; [reflexivity|]. unfold Hub.hub_batch. rewrite Ek. cbn [hc_access hc_state]. rewrite Ea. unfold hub_refresh. rewrite Hline, Hco, Nat.eqb_refl.
      unfold hub_request, request. cbn [r_cached r_current r_fresh r_loader]. rewrite (hi_cached HH). rewrite Hch.
      change (@tlookup (nat * batches obs * token) (cs_token cs) []) with (@None (nat * batches obs * token)). cbv iota.
      assert (Hinv : match clookup cid (ac_current a) with None => false | Some t => negb (token_eqb t (cs_token cs)) end = false).
      { destruct (clookup cid _); auto. subst t. now rewrite token_eqb_refl. }
      rewrite Hinv. unfold reg_get. rewrite Hlive. cbn [r_cached r_current r_fresh r_loader bind]. reflexivity. }
    destruct live.
    + clear Ereq. split; [|intros _ X; discriminate]. intros _.
      assert (E : hub_batch h k = (mkHub (upd (hb_loaders h) i (fst (get_batches l cid)))
            (upd (hb_accesses h) ai (mkAcc (ac_loader a) (ac_ca a) (ac_mb a) (ac_random a) (ac_strict a) (ac_live a) (cset cid (TNew (hb_fresh h)) (ac_current a)))) [] (S (hb_fresh h))
            (upd (hb_clients h) k (mkHC ai (mkC (map (fun ka => (fst ka, map (fun j => select (snd ka) (fst (spec_batch choice_repl choice_perm N r j))) (seq (S g * ca) ca))) data)
                ca 1 cid (map (fun j => snd (spec_batch choice_repl choice_perm N r j)) (seq (S g * ca) ca)) (TNew (hb_fresh h))))), Ok (access_batch data N r n))).
      { unfold Hub.hub_batch. rewrite Ek. cbn [hc_access hc_state]. rewrite Ea. unfold hub_refresh. rewrite Hline, Hco, Nat.eqb_refl.
        unfold hub_request, request. cbn [r_cached r_current r_fresh r_loader]. rewrite (hi_cached HH). rewrite Hch.
        change (@tlookup (nat * batches obs * token) (cs_token cs) []) with (@None (nat * batches obs * token)). cbv iota.
        assert (Hinv : match clookup cid (ac_current a) with None => false | Some t => negb (token_eqb t (cs_token cs)) end = false).
        { destruct (clookup cid _); auto. subst t. now rewrite token_eqb_refl. }
        rewrite Hinv. unfold reg_get. rewrite Hlive, Hi, El.
        destruct (@get_step G obs choice_repl choice_perm rng_of_seed Hperm Hrepl data N r ca cid (S g) l Hreg Hat) as (Hg1 & Hg2).
        destruct (get_batches l cid) as [l' o] eqn:Eg. cbn [fst snd] in Hg1, Hg2 |- *. subst o.
        rewrite (@chain_output_index G obs choice_repl choice_perm rng_of_seed data N ca r Hca (S g)).
        cbn beta iota zeta delta [bind cs_line cs_count cs_data cs_valid cs_chain cs_token Nat.eqb r_cached r_current r_fresh r_loader hb_loaders hb_accesses hb_cached hb_fresh hb_clients].
        rewrite Nat.mod_0_l by lia.
        assert (Hr := @cache_read G obs choice_repl choice_perm rng_of_seed data N ca r Hca (S g) (mkC
          (map (fun ka => (fst ka, map (fun j => select (snd ka) (fst (spec_batch choice_repl choice_perm N r j))) (seq (S g * ca) ca))) data)
          ca 0 cid (map (fun j => snd (spec_batch choice_repl choice_perm N r j)) (seq (S g * ca) ca)) (TNew 0)) 0
          (@chain_output_index G obs choice_repl choice_perm rng_of_seed data N ca r Hca (S g)) Hca).
        cbn [cs_data cs_valid] in Hr. destruct Hr as [Hr1 Hr2]. rewrite Hr1, Hr2. cbn [bind].
        assert (S g * ca + 0 = n) as En by lia. rewrite En. rewrite <- surjective_pairing. reflexivity. }
      split; [rewrite E; reflexivity|].
      replace (S n) with (S g * ca + 1) by lia.
      refine (@Hfin (mkC _ ca 1 cid _ _) _ _ (S g) _ _ _ _ _ _ _ _ _ _ _ _); rewrite ?E; cbn [fst hb_clients hb_accesses hb_loaders].
      * rewrite nth_error_upd_same by exact Hk. reflexivity.
      * rewrite nth_error_upd_same by exact Hai. reflexivity.
      * exact Hi.
      * exact Hlive.
      * rewrite nth_error_upd_same by exact Hil. reflexivity.
      * apply (@get_step G obs choice_repl choice_perm rng_of_seed Hperm Hrepl data N r ca cid (S g) l Hreg Hat).
      * reflexivity.
      * reflexivity.
      * cbn [cs_data cs_valid]. apply (@chain_output_index G obs choice_repl choice_perm rng_of_seed data N ca r Hca).
      * cbn [cs_line]. lia.
      * cbn [cs_line]. lia.
      * cbn [ac_current cs_token]. rewrite clookup_set_same. reflexivity.
    + split; [intros [X|X]; [lia|discriminate]|]. intros _ _. split; [rewrite Ereq; reflexivity|].
      rewrite Hn. refine (@Hfin cs l a g _ _ _ _ _ _ _ _ _ _ _ _); rewrite ?Ereq; cbn [fst hb_clients hb_accesses hb_loaders]; auto.
      rewrite nth_error_upd_same by exact Hai. f_equal. destruct a; reflexivity.
  - (* cached *)
    assert (Hlt' : cs_line cs < ca) by lia.
    assert (E : hub_batch h k = (mkHub (hb_loaders h) (hb_accesses h) (hb_cached h) (hb_fresh h)
          (upd (hb_clients h) k (mkHC ai (mkC (cs_data cs) ca (cs_line cs + 1) cid (cs_valid cs) (cs_token cs)))), Ok (access_batch data N r n))).
    { unfold Hub.hub_batch. rewrite Ek. cbn [hc_access hc_state]. rewrite Ea. unfold hub_refresh. rewrite Hco. destruct (Nat.eqb_spec (cs_line cs) ca); [lia|].
      cbn [bind]. rewrite Hco, Hch. rewrite (Nat.mod_small (cs_line cs) ca) by lia.
      destruct (@cache_read G obs choice_repl choice_perm rng_of_seed data N ca r Hca g cs (cs_line cs) Hout Hlt') as [Hr1 Hr2].
      rewrite Hr1, Hr2. cbn [bind]. rewrite <- Hn, <- surjective_pairing. reflexivity. }
    split; [|intros X; lia]. intros _. split; [rewrite E; reflexivity|].
    replace (S n) with (g * ca + (cs_line cs + 1)) by lia.
    refine (@Hfin (mkC (cs_data cs) ca (cs_line cs + 1) cid (cs_valid cs) (cs_token cs)) l a g _ _ _ _ _ _ _ _ _ _ _ _); rewrite ?E; cbn [fst hb_clients hb_accesses hb_loaders cs_line cs_chain cs_count cs_data cs_valid cs_token]; auto; try lia.
    rewrite nth_error_upd_same by exact Hk. reflexivity.
Qed.

(** any other operation *)
Lemma foreign_step live n h o : SInv live n h -> o <> HBatch k -> (forall op, o = HLoader i op -> ~ targets cid op) ->
  (o <> HRelease ai \/ live = false) -> SInv live n (fst (hstep h o)).
Proof.
  intros HS Hne Hl Hr. destruct (sinv_lt HS) as [Hlt Hk]. 
  destruct HS as [HH (cs & a & l & g & Ek & Ea & Hi & Hlive & El & Hat & Hch & Hco & Hout & Hn & Hle & Hz & Htok) Hu].
  pose proof (@shape h o HH) as S. constructor.
  - eapply Shape_HI; eauto.
  - destruct (sh_acc S _ Ea) as (a' & Ea' & (Q1 & _) & Q2 & Q3 & Q4).
    destruct (sh_loaders S _ El) as (ops & El' & Hops).
    assert (Hf : foreign h i cid o).
    { destruct o as [| | |k'| |i' op]; cbn [foreign]; auto.
      - intros cl a0 E1 E2 E3. apply (Hu k' cl a0); auto; intros ->; apply Hne; reflexivity.
      - intros ->. apply Hl. reflexivity. }
    exists cs, a', (fst (run lstep l ops)), g. split; [rewrite (sh_cl S Hne Hk); exact Ek|]. split; [exact Ea'|]. split; [congruence|].
    split. { destruct Hr as [Hr|Hr]; [rewrite (Q2 Hr); exact Hlive|]. subst live. rewrite Q3; auto. }
    split; [exact El'|]. split.
    { apply AtChain_other; auto. apply Hops; auto. destruct Hlt as (l0 & E0 & H0). rewrite El in E0. injection E0 as <-. exact H0. }
    repeat (split; [assumption|]). rewrite Q4; [exact Htok|].
    intros k' cl -> E1 E2. assert (k' <> k) by congruence. eapply Hu; eauto. rewrite E2. exact Ea.
  - apply others_kept; auto.
Qed.

Lemma run_live h2 : forall n h, SInv true n h -> untouched i cid h2 -> never_released ai h2 ->
  state_answers k h2 (snd (run hstep h h2)) = map (fun j => Ok (access_batch data N r j)) (seq n (state_calls k h2)) /\
  SInv true (n + state_calls k h2) (fst (run hstep h h2)).
Proof.
  induction h2 as [|o h2 IH]; intros n h HS Hu Hr; cbn [run state_answers state_calls].
  - rewrite Nat.add_0_r. auto.
  - assert (Hu' : untouched i cid h2) by (intros op Hop; apply Hu; simpl; auto).
    assert (Hr' : never_released ai h2) by (intros X; apply Hr; simpl; auto).
    destruct (hstep h o) as [h' out] eqn:E.
    assert (Hdec : o = HBatch k \/ o <> HBatch k) by (destruct o; try (right; discriminate); destruct (Nat.eq_dec k0 k); [left; congruence|right; congruence]).
    destruct Hdec as [-> | Hne].
    + cbn [Hub.hstep] in E. destruct (proj1 (@own_batch _ n h HS)) as (H1 & H2); [auto|].
      destruct (hub_batch h k) as [h1 o1]. injection E as <- <-. cbn [fst snd] in H1, H2. subst o1.
      specialize (IH _ _ H2 Hu' Hr'). destruct (run hstep h1 h2) as [h3 outs]. cbn [fst snd] in IH |- *. rewrite Nat.eqb_refl. destruct IH as [-> IH].
      split; [reflexivity|]. replace (n + (1 + state_calls k h2)) with (S n + state_calls k h2) by lia. exact IH.
    + assert (HS1 : SInv true n (fst (hstep h o))).
      { apply foreign_step; auto.
        - intros op ->. destruct (Hu op (or_introl eq_refl)) as [U1 U2]. destruct op; cbn [targets]; auto; intros ->; first [eapply U1; reflexivity | eapply U2; reflexivity].
        - left. intros ->. apply Hr. left. reflexivity. }
      rewrite E in HS1. cbn [fst] in HS1. specialize (IH _ _ HS1 Hu' Hr'). destruct (run hstep h' h2) as [h3 outs]. cbn [fst snd] in IH |- *.
      destruct o; cbn [state_answers state_calls]; auto. assert (k0 <> k) by congruence.
      destruct (Nat.eqb_spec k0 k); [congruence|]. destruct out; auto.
Qed.

Lemma run_released h2 : forall n h, SInv false n h -> untouched i cid h2 ->
  state_answers k h2 (snd (run hstep h h2))
  = map (fun j => if j <? cached_until ca n then Ok (access_batch data N r j) else Exc KeyError) (seq n (state_calls k h2)) /\
  exists n', SInv false n' (fst (run hstep h h2)).
Proof.
  induction h2 as [|o h2 IH]; intros n h HS Hu; cbn [run state_answers state_calls].
  - eauto.
  - assert (Hu' : untouched i cid h2) by (intros op Hop; apply Hu; simpl; auto).
    destruct (hstep h o) as [h' out] eqn:E.
    assert (Hdec : o = HBatch k \/ o <> HBatch k) by (destruct o; try (right; discriminate); destruct (Nat.eq_dec k0 k); [left; congruence|right; congruence]).
    destruct Hdec as [-> | Hne].
    + cbn [Hub.hstep] in E. destruct (Nat.ltb_spec n (cached_until ca n)) as [Hc|Hc].
      * destruct (proj1 (@own_batch _ n h HS)) as (H1 & H2); [auto|].
        destruct (hub_batch h k) as [h1 o1]. injection E as <- <-. cbn [fst snd] in H1, H2. subst o1.
        assert (Hcu : cached_until ca (S n) = cached_until ca n).
        { destruct HS as [_ (cs & a & l & g & _ & _ & _ & _ & _ & _ & _ & _ & _ & Hn & Hle & Hz & _) _].
          rewrite Hn in Hc |- *. rewrite cached_until_eq in Hc |- * by auto.
          replace (S (g * ca + cs_line cs)) with (g * ca + S (cs_line cs)) by lia. apply cached_until_eq; lia. }
        specialize (IH _ _ H2 Hu'). destruct (run hstep h1 h2) as [h3 outs]. cbn [fst snd] in IH |- *. rewrite Nat.eqb_refl. destruct IH as [-> IH].
        split; [|exact IH]. cbn [plus seq map]. rewrite Hcu. destruct (Nat.ltb_spec n (cached_until ca n)); [reflexivity|lia].
      * destruct (proj2 (@own_batch _ n h HS)) as (H1 & H2); [auto|auto|].
        destruct (hub_batch h k) as [h1 o1]. injection E as <- <-. cbn [fst snd] in H1, H2. subst o1.
        specialize (IH _ _ H2 Hu'). destruct (run hstep h1 h2) as [h3 outs]. cbn [fst snd] in IH |- *. rewrite Nat.eqb_refl. destruct IH as [-> IH].
        split; [|exact IH]. cbn [plus seq map]. destruct (Nat.ltb_spec n (cached_until ca n)); [lia|]. f_equal.
        rewrite <- seq_shift, map_map. apply map_ext_in. intros j Hj. apply in_seq in Hj.
        destruct (Nat.ltb_spec j (cached_until ca n)); [lia|]. destruct (Nat.ltb_spec (S j) (cached_until ca n)); [lia|]. reflexivity.
    + assert (HS1 : SInv false n (fst (hstep h o))).
      { apply foreign_step; auto.
        intros op ->. destruct (Hu op (or_introl eq_refl)) as [U1 U2]. destruct op; cbn [targets]; auto; intros ->; first [eapply U1; reflexivity | eapply U2; reflexivity]. }
      rewrite E in HS1. cbn [fst] in HS1. specialize (IH _ _ HS1 Hu'). destruct (run hstep h' h2) as [h3 outs]. cbn [fst snd] in IH |- *.
      destruct o; cbn [state_answers state_calls]; auto. assert (k0 <> k) by congruence.
      destruct (Nat.eqb_spec k0 k); [congruence|]. destruct out; auto.
Qed.

Lemma release_own n h : SInv true n h -> snd (hstep h (HRelease ai)) = HoRelease (Ok tt) /\ SInv false n (fst (hstep h (HRelease ai))).
Proof.
  intros HS. destruct (sinv_lt HS) as [Hlt Hk].
  destruct HS as [HH (cs & a & l & g & Ek & Ea & Hi & Hlive & El & Hat & Hch & Hco & Hout & Hn & Hle & Hz & Htok) Hu].
  pose proof (@others_kept h (HRelease ai) (or_intror I) HH Hu Hlt Hk) as Hoth.
  pose proof (Shape_HI HH (@shape h (HRelease ai) HH)) as HH'.
  cbn [Hub.hstep] in *. unfold hub_release in *. rewrite Ea, Hlive in *. cbn [fst snd] in *. split; [reflexivity|].
  constructor; auto. cbn [hb_clients hb_accesses hb_loaders]. assert (Hai : ai < length (hb_accesses h)) by (apply nth_error_Some; congruence).
  rewrite nth_error_upd_same by exact Hai. exists cs. eexists. exists l, g. split; [exact Ek|]. split; [reflexivity|]. cbn [ac_loader ac_live ac_current]. repeat (split; [assumption || reflexivity|]). exact Htok.
Qed.
End Client.
End Hub.
