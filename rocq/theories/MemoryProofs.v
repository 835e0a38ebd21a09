(** Proofs about the memory of NumpyDataLoader. *)
From Verif Require Import Base ListUtil NumpyLoader MemoryLoader MemorySpec.
From Coq Require String.
Set Implicit Arguments.
Local Arguments upd : simpl never.

Section P.
Context {G obs : Type}.
Variable choice_repl : G -> nat -> nat -> G * list nat.
Variable choice_perm : G -> nat -> G * list nat.
Variable rng_of_seed : nat -> G.
Notation memory := (memory G obs). Notation mchain := (@mchain G).
Notation step := (mem_step choice_repl choice_perm rng_of_seed).
Notation vstep := (value_step choice_repl choice_perm rng_of_seed).

Definition dref (x : option (@mckpt G)) : option nat := match x with Some (MRandom _ mc) => snd mc | _ => None end.
Definition absck (b : list (list nat)) (x : option (@mckpt G)) : option (ckpt G) :=
  match x with Some (MRandom g mc) => Some (CkRandom g (deref b mc)) | Some (MOrdered off) => Some (CkOrdered off) | None => None end.
Definition abs (m : memory) : value_state := (view m, map (absck (m_buffers m)) (m_dicts m)).
(** the reference of a chain (inl) or of a dictionary (inr) *)
Definition ref (m : memory) (s : nat + nat) : option nat :=
  match s with
  | inl i => match nth_error (m_chains m) i with Some mc => snd mc | None => None end
  | inr d => match nth_error (m_dicts m) d with Some x => dref x | None => None end
  end.
Record Sep (m : memory) : Prop := mkSep {
  sep_uniq : forall s1 s2 a, ref m s1 = Some a -> ref m s2 = Some a -> s1 = s2;
  sep_in : forall s a, ref m s = Some a -> a < length (m_buffers m);
  sep_names : forall na, In na (m_names m) -> snd na < length (m_arrays m)
}.
Lemma deref_frame b b' (mc : mchain) : (forall a, snd mc = Some a -> nth a b' [] = nth a b []) -> deref b' mc = deref b mc.
Proof. intros H. unfold deref. destruct (snd mc) as [a|]; [|reflexivity]. cbn. now rewrite (H a eq_refl). Qed.
Lemma absck_frame b b' x : (forall a, dref x = Some a -> nth a b' [] = nth a b []) -> absck b' x = absck b x.
Proof. intros H. destruct x as [[g mc|off]|]; cbn; auto. do 2 f_equal. apply deref_frame. exact H. Qed.
Lemma chains_frame m b' : (forall i a, ref m (inl i) = Some a -> nth a b' [] = nth a (m_buffers m) []) -> map (deref b') (m_chains m) = map (deref (m_buffers m)) (m_chains m).
Proof.
  intros H. apply nth_error_ext. intros i. rewrite !nth_error_map. specialize (H i). cbn in H. destruct (nth_error (m_chains m) i) as [mc|]; cbn; auto. f_equal. apply deref_frame. exact H.
Qed.
Lemma dicts_frame m b' : (forall i a, ref m (inr i) = Some a -> nth a b' [] = nth a (m_buffers m) []) -> map (absck b') (m_dicts m) = map (absck (m_buffers m)) (m_dicts m).
Proof.
  intros H. apply nth_error_ext. intros i. rewrite !nth_error_map. specialize (H i). cbn in H. destruct (nth_error (m_dicts m) i) as [mc|]; cbn; auto. f_equal. apply absck_frame. exact H.
Qed.
Lemma with_indices_self (c : chain G) : with_indices c (c_indices c) = c.
Proof. destruct c. reflexivity. Qed.
Lemma store_ok b (mc : mchain) c b' mc' : store b mc c = (b', mc') -> (forall a, snd mc = Some a -> a < length b) ->
  deref b' mc' = c /\ length b <= length b' /\ (forall a, snd mc <> Some a -> a < length b -> nth a b' [] = nth a b []) /\
  (forall a, snd mc' = Some a -> a < length b' /\ (snd mc = Some a \/ a = length b)).
Proof.
  unfold store. destruct mc as [c0 [a|]], (c_indices c) as [bf|] eqn:E; cbn [fst snd]; intros H Hin; injection H as <- <-; cbn [fst snd].
  - specialize (Hin a eq_refl). repeat split.
    + unfold deref. cbn. rewrite nth_upd_same by auto. rewrite <- (with_indices_self c), E. reflexivity.
    + rewrite length_upd. lia.
    + intros a' Ha _. apply nth_upd_other. congruence.
    + intros; rewrite length_upd; congruence.
    + intros; left; congruence.
  - repeat split; auto; try discriminate. unfold deref. cbn. rewrite <- (with_indices_self c) at 2. now rewrite E.
  - repeat split.
    + unfold deref. cbn. rewrite app_nth2, Nat.sub_diag by lia. cbn. rewrite <- (with_indices_self c) at 2. now rewrite E.
    + rewrite app_length. lia.
    + intros a' _ Ha. now rewrite app_nth1.
    + injection H as <-. rewrite app_length. cbn. lia.
    + injection H as <-. auto.
  - repeat split; auto; try discriminate. unfold deref. cbn. rewrite <- (with_indices_self c) at 2. now rewrite E.
Qed.
Lemma deep_ok b (mc : mchain) b' mc' : deep b mc = (b', mc') -> (forall a, snd mc = Some a -> a < length b) ->
  deref b' mc' = deref b mc /\ length b <= length b' /\ (forall a, a < length b -> nth a b' [] = nth a b []) /\ (forall a, snd mc' = Some a -> a < length b' /\ a = length b) /\ fst mc' = fst mc.
Proof.
  unfold deep. destruct mc as [c0 [a|]]; cbn [fst snd]; intros H Hin; injection H as <- <-; cbn [fst snd].
  - repeat split.
    + unfold deref. cbn. rewrite app_nth2, Nat.sub_diag by lia. reflexivity.
    + rewrite app_length. lia.
    + intros a' Ha. now rewrite app_nth1.
    + injection H as <-. rewrite app_length. cbn. lia.
    + now injection H.
  - repeat split; auto; discriminate.
Qed.

Lemma map_upd A B (f : A -> B) (l : list A) i x : map f (upd l i x) = upd (map f l) i (f x).
Proof.
  apply nth_error_ext. intros j. rewrite nth_error_map. destruct (Nat.eq_dec i j) as [<-|N].
  - destruct (Nat.lt_ge_cases i (length l)) as [H|H].
    + rewrite !nth_error_upd_same; auto. now rewrite map_length.
    + replace (nth_error (upd l i x) i) with (@None A) by (symmetry; apply nth_error_None; rewrite length_upd; lia). symmetry. apply nth_error_None. rewrite length_upd, map_length. lia.
  - rewrite !nth_error_upd_other by auto. now rewrite nth_error_map.
Qed.
(** chain cid is replaced; the buffers of all others stay *)
Lemma set_chain m cid mc b' mc' c : Sep m -> nth_error (m_chains m) cid = Some mc -> deref b' mc' = c -> length (m_buffers m) <= length b' ->
  (forall a, snd mc <> Some a -> a < length (m_buffers m) -> nth a b' [] = nth a (m_buffers m) []) ->
  (forall a, snd mc' = Some a -> a < length b' /\ forall s, s <> inl cid -> ref m s <> Some a) ->
  let m' := mkMem (m_arrays m) b' (m_dicts m) (m_count m) (m_names m) (upd (m_chains m) cid mc') in
  abs m' = (mkLoader (m_count m) (l_data (view m)) (upd (l_chains (view m)) cid c), snd (abs m)) /\ Sep m'.
Proof.
  intros HS E Hc Hl Hf Hr m'. assert (Hcid : cid < length (m_chains m)) by (apply nth_error_Some; congruence).
  assert (Rc : ref m (inl cid) = snd mc) by (cbn; now rewrite E).
  assert (FR : forall s a, s <> inl cid -> ref m s = Some a -> nth a b' [] = nth a (m_buffers m) []).
  { intros s a Hs Ha. apply Hf; [|eapply sep_in; eauto]. intros Hx. apply Hs. eapply (sep_uniq HS); [exact Ha|congruence]. }
  split.
  - unfold abs, m'. cbn [m_buffers m_dicts snd]. f_equal.
    + unfold view. cbn [m_count m_names m_arrays m_chains m_buffers l_data l_chains]. f_equal. apply nth_error_ext. intros i. rewrite nth_error_map. destruct (Nat.eq_dec cid i) as [<-|N].
      * rewrite !nth_error_upd_same by (rewrite ?map_length; auto). cbn. now rewrite Hc.
      * rewrite !nth_error_upd_other by auto. rewrite nth_error_map. destruct (nth_error (m_chains m) i) as [mi|] eqn:Ei; cbn; auto. f_equal. apply deref_frame.
        intros a Ha. apply (FR (inl i)); [congruence|]. cbn. now rewrite Ei.
    + apply dicts_frame. intros i a Ha. apply (FR (inr i)); [discriminate|exact Ha].
  - assert (RN : ref m' (inl cid) = snd mc'). { cbn. now rewrite nth_error_upd_same. }
    assert (RO : forall s, s <> inl cid -> ref m' s = ref m s). { intros [i|d] Hs; [|reflexivity]. cbn. rewrite nth_error_upd_other by congruence. reflexivity. }
    assert (DEC : forall s : nat + nat, s = inl cid \/ s <> inl cid). { intros [i|d]; [|right; discriminate]. destruct (Nat.eq_dec i cid); [left; congruence|right; congruence]. }
    split.
    + intros s1 s2 a H1 H2. destruct (DEC s1) as [-> |N1], (DEC s2) as [-> |N2]; auto.
      * rewrite RN in H1. rewrite RO in H2 by auto. destruct (Hr a H1) as [_ Hx]. destruct (Hx s2 N2 H2).
      * rewrite RN in H2. rewrite RO in H1 by auto. destruct (Hr a H2) as [_ Hx]. destruct (Hx s1 N1 H1).
      * rewrite RO in H1, H2 by auto. eapply sep_uniq; eauto.
    + intros s a H. cbn [m' m_buffers]. destruct (DEC s) as [-> |N]; [rewrite RN in H; apply (Hr a H)|]. rewrite RO in H by auto. pose proof (sep_in HS _ H). lia.
    + apply (sep_names HS).
Qed.
(** a dictionary is added *)
Lemma add_dict m b' x : Sep m -> length (m_buffers m) <= length b' -> (forall a, a < length (m_buffers m) -> nth a b' [] = nth a (m_buffers m) []) ->
  (forall a, dref x = Some a -> a < length b' /\ a = length (m_buffers m)) ->
  let m' := mkMem (m_arrays m) b' (m_dicts m ++ [x]) (m_count m) (m_names m) (m_chains m) in
  abs m' = (view m, snd (abs m) ++ [absck b' x]) /\ Sep m'.
Proof.
  intros HS Hl Hf Hx m'. split.
  - unfold abs, m'. cbn [m_buffers m_dicts snd]. f_equal.
    + unfold view. cbn. f_equal. apply chains_frame. intros i a Ha. apply Hf. eapply sep_in; eauto.
    + rewrite map_app. cbn. f_equal. apply dicts_frame. intros i a Ha. apply Hf. eapply sep_in; eauto.
  - assert (RO : forall s, s <> inr (length (m_dicts m)) -> ref m' s = ref m s).
    { intros [i|d] Hs; [reflexivity|]. cbn. destruct (Nat.lt_ge_cases d (length (m_dicts m))) as [H|H].
      - now rewrite nth_error_app1.
      - rewrite nth_error_app2 by auto. replace (nth_error (m_dicts m) d) with (@None (option (@mckpt G))) by (symmetry; now apply nth_error_None). destruct (d - length (m_dicts m)) as [|k] eqn:Ek; [exfalso; apply Hs; f_equal; lia|]. now destruct k. }
    assert (RN : ref m' (inr (length (m_dicts m))) = dref x). { cbn. rewrite nth_error_app2, Nat.sub_diag by lia. reflexivity. }
    assert (DEC : forall s : nat + nat, s = inr (length (m_dicts m)) \/ s <> inr (length (m_dicts m))). { intros [i|d]; [right; discriminate|]. destruct (Nat.eq_dec d (length (m_dicts m))); [left; congruence|right; congruence]. }
    split.
    + intros s1 s2 a H1 H2. destruct (DEC s1) as [-> |N1], (DEC s2) as [-> |N2]; auto.
      * rewrite RN in H1. rewrite RO in H2 by auto. destruct (Hx a H1). pose proof (sep_in HS _ H2). lia.
      * rewrite RN in H2. rewrite RO in H1 by auto. destruct (Hx a H2). pose proof (sep_in HS _ H1). lia.
      * rewrite RO in H1, H2 by auto. eapply sep_uniq; eauto.
    + intros s a H. cbn [m' m_buffers]. destruct (DEC s) as [-> |N]; [rewrite RN in H; apply (Hx a H)|]. rewrite RO in H by auto. pose proof (sep_in HS _ H). lia.
    + apply (sep_names HS).
Qed.
(** a dictionary is emptied *)
Lemma empty_dict m d : Sep m -> let m' := mkMem (m_arrays m) (m_buffers m) (upd (m_dicts m) d None) (m_count m) (m_names m) (m_chains m) in
  abs m' = (view m, upd (snd (abs m)) d None) /\ Sep m' /\ (forall s, ref m' s <> None -> ref m' s = ref m s) /\ (d < length (m_dicts m) -> ref m' (inr d) = None).
Proof.
  intros HS m'.
  assert (RN : d < length (m_dicts m) -> ref m' (inr d) = None). { intros H. cbn. now rewrite nth_error_upd_same. }
  assert (RO : forall s, ref m' s <> None -> ref m' s = ref m s).
  { intros [i|e] Hs; [reflexivity|]. cbn in *. destruct (Nat.eq_dec d e) as [<-|N]; [|now rewrite nth_error_upd_other in * by auto].
    destruct (Nat.lt_ge_cases d (length (m_dicts m))) as [H|H]; [rewrite nth_error_upd_same in Hs by auto; contradiction|].
    replace (nth_error (upd (m_dicts m) d None) d) with (@None (option (@mckpt G))) in Hs by (symmetry; apply nth_error_None; rewrite length_upd; lia). contradiction. }
  split; [|split; [|split; auto]].
  - unfold abs, m'. cbn [m_buffers m_dicts snd]. f_equal. now rewrite map_upd.
  - split.
    + intros s1 s2 a H1 H2. rewrite RO in H1, H2 by congruence. eapply sep_uniq; eauto.
    + intros s a H. rewrite RO in H by congruence. exact (sep_in HS _ H).
    + apply (sep_names HS).
Qed.

Lemma get_shape (l : loader G obs) cid c0 : nth_error (l_chains l) cid = Some c0 -> exists c, nth_error (l_chains (fst (get_batches choice_repl choice_perm l cid))) cid = Some c /\
  fst (get_batches choice_repl choice_perm l cid) = mkLoader (l_count l) (l_data l) (upd (l_chains l) cid c).
Proof.
  intros E. assert (Hl : cid < length (l_chains l)) by (apply nth_error_Some; congruence). unfold get_batches. rewrite E. destruct (get_indices _ _ _ c0) as [[c bs]|e].
  - exists c. destruct (slice_data _ _); cbn [fst l_chains]; (split; [now apply nth_error_upd_same|reflexivity]).
  - exists c0. cbn [fst]. split; auto. rewrite upd_id by auto. now destruct l.
Qed.
Lemma new_chains m (cs : list (chain G)) : Sep m -> Forall (fun c => c_indices c = None) cs ->
  let m' := set_chains m (m_chains m ++ map (fun c => (c, None)) cs) in
  abs m' = (mkLoader (m_count m) (l_data (view m)) (l_chains (view m) ++ cs), snd (abs m)) /\ Sep m'.
Proof.
  intros HS Hcs m'. split.
  - unfold abs, m', view, set_chains. cbn. do 2 f_equal. rewrite map_app. f_equal. rewrite map_map. rewrite <- (map_id cs) at 2. apply map_ext_in. intros c Hc. rewrite Forall_forall in Hcs. specialize (Hcs c Hc).
    unfold deref. cbn. rewrite <- Hcs. apply with_indices_self.
  - assert (R : forall s a, ref m' s = Some a -> ref m s = Some a).
    { intros [i|d] a H; [|exact H]. cbn in *. destruct (Nat.lt_ge_cases i (length (m_chains m))) as [Hi|Hi]; [now rewrite nth_error_app1 in H|].
      rewrite nth_error_app2, nth_error_map in H by auto. destruct (nth_error cs _); discriminate. }
    split.
    + intros s1 s2 a H1 H2. apply R in H1, H2. eapply sep_uniq; eauto.
    + intros s a H. apply R in H. exact (sep_in HS _ H).
    + apply (sep_names HS).
Qed.
(** one operation *)
Lemma step_refines m o : Sep m -> (forall d, o <> MShallow d) -> (forall a i v, o = MWrite a i v -> ~ In a (map snd (m_names m))) ->
  vstep (abs m) o = (abs (fst (step m o)), snd (step m o)) /\ Sep (fst (step m o)) /\ m_names (fst (step m o)) = m_names m.
Proof.
  intros HS Hsh Hw. change (abs m) with (view m, map (absck (m_buffers m)) (m_dicts m)). assert (LV : length (l_chains (view m)) = length (m_chains m)) by (cbn; now rewrite map_length). destruct o as [a|a i v|ca mb ie sh sd|ca mb|cid|cid|d|d|cid d]; cbn [mem_step value_step].
  - (* MNew *) assert (EV : forall b ds cs, map (fun na : String.string * nat => (fst na, nth (snd na) (m_arrays (mkMem (G := G) (m_arrays m ++ [a]) b ds (m_count m) (m_names m) cs)) [])) (m_names m)
        = map (fun na => (fst na, nth (snd na) (m_arrays m) [])) (m_names m)).
    { intros. apply map_ext_in. intros na Hna. cbn. rewrite app_nth1 by now apply (sep_names HS). reflexivity. }
    split; [|split; [|reflexivity]].
    + cbn [fst snd]. f_equal. unfold abs, view. cbn [m_buffers m_dicts m_count m_names m_chains]. rewrite EV. reflexivity.
    + split; [apply (sep_uniq HS)|apply (sep_in HS)|]. cbn. intros na Hna. rewrite app_length. pose proof (sep_names HS na Hna). lia.
  - (* MWrite *) specialize (Hw a i v eq_refl).
    split; [|split; [|reflexivity]].
    + assert (EV : map (fun na : String.string * nat => (fst na, nth (snd na) (upd (m_arrays m) a (upd (nth a (m_arrays m) []) i v)) [])) (m_names m) = map (fun na => (fst na, nth (snd na) (m_arrays m) [])) (m_names m)).
      { apply map_ext_in. intros na Hna. f_equal. apply nth_upd_other. intros Hx. apply Hw. subst a. now apply in_map. }
      cbn [fst snd]. f_equal. unfold abs, view. cbn [m_buffers m_dicts m_count m_names m_chains m_arrays]. now rewrite EV.
    + split; [apply (sep_uniq HS)|apply (sep_in HS)|]. cbn. intros na Hna. rewrite length_upd. exact (sep_names HS na Hna).
  - (* MRegRandom *) unfold register_random. cbn [l_count view].
    destruct (_ <? mb); [|destruct (negb sh && ie); [|destruct (mb =? 0)]].
    1-3: cbn [fst snd l_chains view]; rewrite skipn_all2 by (rewrite map_length; lia); cbn [map]; rewrite app_nil_r; replace (set_chains m (m_chains m)) with m by (destruct m; reflexivity); (split; [reflexivity|split; [exact HS|reflexivity]]).
    cbn [fst snd l_chains]. rewrite skipn_app, skipn_all2, LV, Nat.sub_diag by (rewrite LV; lia). cbn [app skipn].
    match goal with |- context [l_chains (view m) ++ ?cs] => destruct (@new_chains m cs HS) as [N1 N2]; [constructor; [reflexivity|constructor]|] end.
    cbv zeta in N1, N2. split; [|split; [exact N2|reflexivity]]. rewrite N1. reflexivity.
  - (* MRegOrdered *) unfold register_ordered. cbn [l_count view]. destruct (mb <=? m_count m).
    2: cbn [fst snd l_chains view]; rewrite skipn_all2 by (rewrite map_length; lia); cbn [map]; rewrite app_nil_r; replace (set_chains m (m_chains m)) with m by (destruct m; reflexivity); (split; [reflexivity|split; [exact HS|reflexivity]]).
    cbn [fst snd l_chains]. rewrite skipn_app, skipn_all2, LV, Nat.sub_diag by (rewrite LV; lia). cbn [app skipn].
    match goal with |- context [l_chains (view m) ++ ?cs] => destruct (@new_chains m cs HS) as [N1 N2]; [constructor; [reflexivity|constructor]|] end.
    cbv zeta in N1, N2. split; [|split; [exact N2|reflexivity]]. rewrite N1. reflexivity.
  - (* MGet *) destruct (nth_error (m_chains m) cid) as [mc|] eqn:E.
    + destruct (@get_shape (view m) cid (deref (m_buffers m) mc)) as (c & G1 & G2). { cbn. now rewrite nth_error_map, E. }
      destruct (get_batches choice_repl choice_perm (view m) cid) as [l' r]. cbn [fst snd] in *. rewrite G1.
      destruct (store (m_buffers m) mc c) as [b' mc'] eqn:Es. destruct (@store_ok _ _ _ _ _ Es) as (S1 & S2 & S3 & S4). { intros a Ha. apply (sep_in HS (inl cid)). cbn. now rewrite E. }
      assert (S5 : forall a, snd mc' = Some a -> a < length b' /\ forall s, s <> inl cid -> ref m s <> Some a).
      { intros a Ha. destruct (S4 a Ha) as [X1 [X2|X2]]; (split; [exact X1|]); intros s Hs Hr.
        - apply Hs. eapply (sep_uniq HS); [exact Hr|]. cbn. now rewrite E.
        - pose proof (sep_in HS _ Hr). lia. }
      destruct (@set_chain m cid mc b' mc' c HS E S1 S2 S3 S5) as [N1 N2]. cbv zeta in N1, N2. cbn [fst snd]. split; [|split; [exact N2|reflexivity]]. rewrite N1, G2. reflexivity.
    + unfold get_batches. cbn [l_chains view]. rewrite nth_error_map, E. cbn. split; [reflexivity|split; [exact HS|reflexivity]].
  - (* MSave *) unfold save_state. cbn [l_chains view]. rewrite nth_error_map. destruct (nth_error (m_chains m) cid) as [mc|] eqn:E; cbn [option_map]; [|split; [reflexivity|split; [exact HS|reflexivity]]].
    cbn [deref with_indices c_type c_rng c_offset]. destruct (c_type (fst mc)).
    + destruct (c_rng (fst mc)) as [g|]; [|split; [reflexivity|split; [exact HS|reflexivity]]].
      destruct (deep (m_buffers m) mc) as [b' mc'] eqn:Ed. destruct (@deep_ok _ _ _ _ Ed) as (S1 & S2 & S3 & S4 & _). { intros a Ha. apply (sep_in HS (inl cid)). cbn. now rewrite E. }
      destruct (@add_dict m b' (Some (MRandom g mc')) HS S2 S3 S4) as [N1 N2]. cbv zeta in N1, N2. cbn [fst snd]. split; [|split; [exact N2|reflexivity]]. rewrite N1. cbn [absck]. rewrite S1, map_length. reflexivity.
    + destruct (@add_dict m (m_buffers m) (Some (MOrdered (c_offset (fst mc)))) HS) as [N1 N2]; auto; try discriminate. cbv zeta in N1, N2. cbn [fst snd]. split; [|split; [exact N2|reflexivity]]. rewrite N1. cbn [absck]. rewrite map_length. reflexivity.
  - exfalso. exact (Hsh d eq_refl).
  - (* MDeep *) rewrite nth_error_map. destruct (nth_error (m_dicts m) d) as [[[g mc|off]|]|] eqn:E; cbn [option_map]; [| | |split; [reflexivity|split; [exact HS|reflexivity]]].
    + destruct (deep (m_buffers m) mc) as [b' mc'] eqn:Ed. destruct (@deep_ok _ _ _ _ Ed) as (S1 & S2 & S3 & S4 & _). { intros a Ha. apply (sep_in HS (inr d)). cbn. now rewrite E. }
      destruct (@add_dict m b' (Some (MRandom g mc')) HS S2 S3 S4) as [N1 N2]. cbv zeta in N1, N2. cbn [fst snd]. split; [|split; [exact N2|reflexivity]]. rewrite N1. cbn [absck]. rewrite S1, map_length. reflexivity.
    + destruct (@add_dict m (m_buffers m) (Some (MOrdered off)) HS) as [N1 N2]; auto; try discriminate. cbv zeta in N1, N2. cbn [fst snd]. split; [|split; [exact N2|reflexivity]]. rewrite N1. cbn [absck]. rewrite map_length. reflexivity.
    + destruct (@add_dict m (m_buffers m) None HS) as [N1 N2]; auto; try discriminate. cbv zeta in N1, N2. cbn [fst snd]. split; [|split; [exact N2|reflexivity]]. rewrite N1. cbn [absck]. rewrite map_length. reflexivity.
  - (* MLoad *) rewrite nth_error_map. destruct (nth_error (m_dicts m) d) as [[ck|]|] eqn:E; cbn [option_map]; [| |split; [reflexivity|split; [exact HS|reflexivity]]].
    2:{ cbn. split; [|split; [exact HS|reflexivity]]. rewrite upd_id; [reflexivity|]. now rewrite nth_error_map, E. }
    assert (Hd : d < length (m_dicts m)) by (apply nth_error_Some; congruence).
    destruct (@empty_dict m d HS) as (N1 & N2 & N3 & N4). cbv zeta in N1, N2, N3, N4. specialize (N4 Hd). set (m' := mkMem _ _ (upd (m_dicts m) d None) _ _ _) in *.
    assert (LD : exists ck', absck (m_buffers m) (Some ck) = Some ck'). { destruct ck; cbn; eauto. } destruct LD as (ck' & LD). rewrite LD. cbn [load_state l_chains view]. rewrite nth_error_map.
    destruct (nth_error (m_chains m) cid) as [mc|] eqn:Ec; cbn [option_map].
    2:{ cbn [fst snd]. split; [now rewrite N1|split; [exact N2|reflexivity]]. }
    destruct ck as [g [c a]|off]; cbn in LD; injection LD as <-.
    + cbn [deref with_indices c_rng fst snd]. destruct (c_rng (fst mc)) as [g0|] eqn:Eg; cbn [fst snd].
      2:{ split; [now rewrite N1|split; [exact N2|reflexivity]]. }
      destruct (@set_chain m' cid mc (m_buffers m') (mkChain (c_type c) (Some g) (c_offset c) (c_in_epochs c) (c_shuffle c) (c_remaining c) (c_draws c) None (c_mb c) (c_cache c), a) _ N2 Ec eq_refl) as [P1 P2]; auto.
      { cbn [snd]. intros a0 ->. split; [apply (sep_in HS (inr d)); cbn; now rewrite E|]. intros s Hs Hr. assert (Hr' : ref m s = Some a0) by (rewrite <- N3; congruence).
        assert (s = inr d) by (eapply (sep_uniq HS); [exact Hr'|]; cbn; now rewrite E). subst s. congruence. }
      cbv zeta in P1, P2. split; [|split; [exact P2|reflexivity]]. unfold set_chains. cbn [m_chains]. change (m_chains m) with (m_chains m') at 2. rewrite P1, N1. reflexivity.
    + cbn [fst snd]. destruct (@set_chain m' cid mc (m_buffers m') (mkChain (c_type (fst mc)) (c_rng (fst mc)) off (c_in_epochs (fst mc)) (c_shuffle (fst mc)) (c_remaining (fst mc)) (c_draws (fst mc)) None (c_mb (fst mc)) (c_cache (fst mc)), snd mc) _ N2 Ec eq_refl) as [P1 P2]; auto.
      { cbn [snd]. intros a0 Ha. split; [apply (sep_in N2 (inl cid)); cbn; now rewrite Ec|]. intros s Hs Hr. apply Hs. eapply (sep_uniq N2); [exact Hr|]. cbn. now rewrite Ec. }
      cbv zeta in P1, P2. split; [|split; [exact P2|reflexivity]]. unfold set_chains. cbn [m_chains]. change (m_chains m) with (m_chains m') at 2. rewrite P1, N1. reflexivity.
Qed.
End P.
