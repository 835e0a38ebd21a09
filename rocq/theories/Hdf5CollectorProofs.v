From Coq Require Import String Ascii.
From Verif Require Import Base ListUtil Pytree PytreeSpec PytreeProofs PytreeNames Io IoSpec IoProofs Hdf5Collector.
Set Implicit Arguments.

(** ** paths *)
Lemma split_app l1 l2 : split_slash (l1 ++ "/"%char :: l2) = split_slash l1 ++ split_slash l2.
Proof.
  induction l1 as [|c l1 IH]; simpl; auto. destruct (Ascii.eqb c "/"); [now rewrite IH|]. rewrite IH.
  destruct (split_slash l1) as [|w ws] eqn:E; auto. exfalso. destruct l1 as [|c' l1]; simpl in E; [discriminate|].
  destruct (Ascii.eqb c' "/"); [discriminate|]. destruct (split_slash l1); discriminate.
Qed.
Lemma h5_path_slash a b : h5_path (append a (append "/" b)) = h5_path a ++ h5_path b.
Proof.
  unfold h5_path. rewrite !la_app. simpl list_ascii_of_string. cbn [app].
  rewrite split_app, map_app, filter_app. reflexivity.
Qed.
Lemma h5_path_join x ks : h5_path (join "/" (x :: ks)) = h5_path x ++ flat_map h5_path ks.
Proof.
  revert x. induction ks as [|k ks IH]; intros x; [simpl; now rewrite app_nil_r|].
  rewrite join_cons, h5_path_slash, IH. reflexivity.
Qed.
Lemma split_free l : ~ In "/"%char l -> split_slash l = [l].
Proof.
  induction l as [|c l IH]; intros H; simpl; auto. destruct (Ascii.eqb_spec c "/") as [->|]; [exfalso; apply H; simpl; auto|].
  rewrite IH; auto. intros Hin. apply H. simpl; auto.
Qed.
Lemma h5_path_ok s : h5_ok s -> h5_path s = [s].
Proof.
  intros (H1 & H2 & H3). unfold h5_path. rewrite split_free by auto. simpl. rewrite string_of_list_ascii_of_string.
  destruct (String.eqb_spec s ""); [congruence|]. destruct (String.eqb_spec s "."); [congruence|]. reflexivity.
Qed.
Definition chain_name (c : nat) : string := append "chain~" (dec c).
Lemma chain_name_ok c : h5_ok (chain_name c).
Proof.
  split; [|split; discriminate]. unfold chain_name. apply slash_free_app. split; [|apply dec_slash_free].
  unfold slash_free. simpl. intuition discriminate.
Qed.
Lemma chain_dir_path c : h5_path (chain_dir c) = [chain_name c].
Proof.
  change (chain_dir c) with (append "" (append "/" (chain_name c))). rewrite h5_path_slash, (h5_path_ok (chain_name_ok c)). reflexivity.
Qed.
Lemma chain_name_inj c d : chain_name c = chain_name d -> c = d.
Proof. intros H. apply append_inv_head in H. now apply dec_inj. Qed.
Lemma flat_path_ok ks : Forall h5_ok ks -> flat_map h5_path ks = ks.
Proof. induction 1; simpl; auto. rewrite h5_path_ok, IHForall by auto. reflexivity. Qed.

Lemma is_prefix_spec a : forall b, is_prefix a b = true <-> exists c, b = a ++ c.
Proof.
  induction a as [|x a IH]; intros b; simpl.
  - split; eauto.
  - destruct b as [|y b]; [split; [discriminate|intros [c E]; discriminate]|].
    rewrite Bool.andb_true_iff, String.eqb_eq, IH. split.
    + intros [-> [c ->]]. exists c. reflexivity.
    + intros [c E]. inversion E; subst. eauto.
Qed.
Lemma path_eqb_spec a b : path_eqb a b = true <-> a = b.
Proof.
  unfold path_eqb. rewrite Bool.andb_true_iff, !is_prefix_spec. split.
  - intros [[c ->] [d E]]. rewrite <- app_assoc in E. rewrite <- (app_nil_r a) in E at 1. apply app_inv_head in E.
    symmetry in E. apply app_eq_nil in E. destruct E as [-> _]. now rewrite app_nil_r.
  - intros ->. split; exists []; now rewrite app_nil_r.
Qed.
Lemma path_eqb_refl a : path_eqb a a = true.
Proof. now apply path_eqb_spec. Qed.
Lemma path_eqb_neq a b : a <> b -> path_eqb a b = false.
Proof. intros H. destruct (path_eqb a b) eqn:E; auto. apply path_eqb_spec in E. congruence. Qed.

Section P.
Context {V : Type}.
Variable zeros_like : V -> V.
Implicit Types (f : h5file V).

Lemma find_app_l f g p rows : h5_find f p = Some rows -> h5_find (f ++ g) p = Some rows.
Proof. induction f as [|[q r] f IH]; simpl; [discriminate|]. destruct (path_eqb p q); auto. Qed.
Lemma find_none f p : (forall d, In d f -> fst d <> p) -> h5_find f p = None.
Proof.
  induction f as [|[q r] f IH]; intros H; simpl; auto. rewrite path_eqb_neq; [apply IH; intros; apply H; simpl; auto|].
  intros ->. apply (H (q, r)); simpl; auto.
Qed.
Lemma find_app_r f g p : (forall d, In d f -> fst d <> p) -> h5_find (f ++ g) p = h5_find g p.
Proof.
  induction f as [|[q r] f IH]; intros H; simpl; auto. rewrite path_eqb_neq; [apply IH; intros; apply H; simpl; auto|].
  intros ->. apply (H (q, r)); simpl; auto.
Qed.
Lemma find_write_same f p rows old : h5_find f p = Some old -> h5_find (h5_write f p rows) p = Some rows.
Proof.
  induction f as [|[q r] f IH]; simpl; [discriminate|]. destruct (path_eqb p q) eqn:E; simpl; rewrite E; auto.
Qed.
Lemma find_write_other f p q rows : p <> q -> h5_find (h5_write f p rows) q = h5_find f q.
Proof.
  intros Hn. induction f as [|[r x] f IH]; simpl; auto. destruct (path_eqb p r) eqn:E; simpl.
  - apply path_eqb_spec in E. subst r. now rewrite path_eqb_neq by congruence.
  - now rewrite IH.
Qed.
Lemma write_paths f p rows : map fst (h5_write f p rows) = map fst f.
Proof. induction f as [|[q x] f IH]; simpl; auto. destruct (path_eqb p q); simpl; auto. now rewrite IH. Qed.

(** *** creation *)
Lemma create_all_ok nl : forall f k f', h5_create_all zeros_like f nl k = (f', Ok tt) ->
  (forall p rows, h5_find f p = Some rows -> h5_find f' p = Some rows) /\
  NoDup (map (fun n => h5_path (fst n)) nl) /\
  (forall n l, In (n, l) nl -> h5_find f' (h5_path n) = Some (repeat (zeros_like l) k)) /\
  (forall n d, In n nl -> In d f -> fst d <> h5_path (fst n)).
Proof.
  induction nl as [|[n l] nl IH]; intros f k f' H; cbn [h5_create_all] in H.
  - inversion H; subst. simpl. repeat split; auto; try constructor; try tauto.
  - destruct (h5_create f n (repeat (zeros_like l) k)) as [f1|e] eqn:Ec; [|discriminate].
    assert (Hc : f1 = f ++ [(h5_path n, repeat (zeros_like l) k)] /\ (forall d, In d f -> fst d <> h5_path n)).
    { unfold h5_create in Ec. destruct (h5_path n) as [|x p] eqn:Ep; [discriminate|].
      destruct (existsb (fun d => is_prefix (x :: p) (fst d) || is_prefix (fst d) (x :: p)) f) eqn:Ex; [discriminate|].
      inversion Ec; subst. split; auto. intros d Hd E.
      assert (existsb (fun d => is_prefix (x :: p) (fst d) || is_prefix (fst d) (x :: p)) f = true).
      { apply existsb_exists. exists d. split; auto. rewrite E. apply Bool.orb_true_iff. left. apply is_prefix_spec.
        exists []. now rewrite app_nil_r. }
      congruence. }
    destruct Hc as [-> Hd]. destruct (IH _ _ _ H) as (H1 & H2 & H3 & H4).
    assert (Hself : h5_find f' (h5_path n) = Some (repeat (zeros_like l) k)).
    { apply H1. rewrite find_app_r by auto. simpl. now rewrite path_eqb_refl. }
    split; [intros p rows Hp; apply H1; now apply find_app_l|].
    split; [|split].
    + simpl. constructor; auto. intros Hin. apply in_map_iff in Hin. destruct Hin as (n' & E & Hin).
      apply (H4 n' (h5_path n, repeat (zeros_like l) k) Hin); [apply in_or_app; right; simpl; auto|]. simpl. auto.
    + intros n' l' [E|Hin]; [inversion E; subst; auto|auto].
    + intros n' d [E|Hin] Hdin; [subst; simpl; auto|]. apply H4; auto. apply in_or_app; auto.
Qed.
Lemma create_all_old nl : forall f k f' r, h5_create_all zeros_like f nl k = (f', r) ->
  forall p rows, h5_find f p = Some rows -> h5_find f' p = Some rows.
Proof.
  induction nl as [|[n l] nl IH]; intros f k f' r H p rows Hp; cbn [h5_create_all] in H; [inversion H; subst; auto|].
  destruct (h5_create f n (repeat (zeros_like l) k)) as [f1|e] eqn:Ec; [|inversion H; subst; auto].
  eapply IH; eauto. unfold h5_create in Ec. destruct (h5_path n); [discriminate|].
  destruct (existsb _ f); [discriminate|]. inversion Ec; subst. now apply find_app_l.
Qed.

(** *** writing *)
Lemma set_all_other nv : forall f i f' r, h5_set_all f nv i = (f', r) -> forall q,
  (forall n v, In (n, v) nv -> h5_path n <> q) -> h5_find f' q = h5_find f q.
Proof.
  induction nv as [|[n v] nv IH]; intros f i f' r H q Hq; cbn [h5_set_all] in H; [inversion H; subst; auto|].
  destruct (h5_set f n i v) as [f1|e] eqn:E; [|inversion H; subst; auto].
  rewrite (IH _ _ _ _ H q) by (intros; eapply Hq; simpl; eauto).
  unfold h5_set in E. destruct (h5_get f n) as [rows|]; [|discriminate]. cbn [bind] in E.
  destruct (np_set rows i v) as [rows'|]; [|discriminate]. cbn [bind] in E. inversion E; subst. apply find_write_other.
  eapply Hq. simpl. eauto.
Qed.

Lemma set_all_ok K vss n ls : forall names a vs f, Forall (fun vs => length vs = n) vss -> length vs = n ->
  a + length ls = n -> length names = length ls -> length vss < K ->
  NoDup (map h5_path names) ->
  (forall j name leaf, nth_error names j = Some name -> nth_error ls j = Some leaf ->
     h5_find f (h5_path name) = Some (filled_at zeros_like K vss (a + j) leaf)) ->
  exists f', h5_set_all f (combine names (skipn a vs)) (length vss) = (f', Ok tt) /\
   (forall j name leaf, nth_error names j = Some name -> nth_error ls j = Some leaf ->
     h5_find f' (h5_path name) = Some (filled_at zeros_like K (vss ++ [vs]) (a + j) leaf)).
Proof.
  induction ls as [|l ls IH]; intros names a vs f Hv Hvs Ha Hlen HK Hn Hf.
  - destruct names; [|discriminate]. simpl. exists f. split; auto. intros [|j] name leaf H; discriminate.
  - destruct names as [|nm names]; [discriminate|]. simpl in Ha, Hlen.
    destruct (skipn a vs) as [|v r] eqn:E.
    { apply (f_equal (@length V)) in E. rewrite skipn_length in E. simpl in E. lia. }
    destruct (skipn_cons_inv _ _ E) as [Hnth Hr]. simpl combine. cbn [h5_set_all]. unfold h5_set, h5_get.
    pose proof (Hf 0 nm l eq_refl eq_refl) as H0. rewrite Nat.add_0_r in H0. rewrite H0. cbn [bind]. unfold np_set.
    rewrite (@filled_length V zeros_like K vss n a l) by (auto; lia). rewrite (proj2 (Nat.ltb_lt _ _) HK). cbn [bind].
    rewrite (@filled_step V zeros_like K vss n a l vs v) by (auto; lia).
    simpl in Hn. inversion Hn as [|? ? Hnot Hn']; subst.
    set (f1 := h5_write f (h5_path nm) (filled_at zeros_like K (vss ++ [vs]) a l)).
    destruct (IH names (S a) vs f1) as (f' & E' & Hf'); auto; try lia.
    { intros j name leaf Hj Hl. subst f1. rewrite find_write_other.
      - rewrite (Hf (S j) name leaf Hj Hl). do 2 f_equal. lia.
      - intros Eq. apply Hnot. rewrite Eq. apply in_map. eapply nth_error_In; eauto. }
    exists f'. split; [exact E'|].
    intros [|j] name leaf Hj Hl; cbn [nth_error] in Hj, Hl.
    + inversion Hj; inversion Hl; subst. rewrite Nat.add_0_r. rewrite (set_all_other _ _ _ E').
      * subst f1. eapply find_write_same; eauto.
      * intros n' v' Hin Eq. apply Hnot. rewrite <- Eq. apply in_map. apply in_combine_l in Hin. exact Hin.
    + rewrite (Hf' j name leaf Hj Hl). do 2 f_equal. lia.
Qed.

Lemma set_all_fail K vss n l ls nm names vs f i : Forall (fun vs => length vs = n) vss -> length vs = n -> length (l :: ls) = n ->
  K <= i -> h5_find f (h5_path nm) = Some (filled_at zeros_like K vss 0 l) ->
  h5_set_all f (combine (nm :: names) vs) i = (f, Exc IndexError).
Proof.
  intros Hv Hvs Hl HK Hf. destruct vs as [|v vs]; [simpl in *; lia|]. simpl combine. cbn [h5_set_all]. unfold h5_set, h5_get.
  rewrite Hf. cbn [bind]. unfold np_set. rewrite (@filled_length V zeros_like K vss n 0 l) by (auto; simpl in *; lia).
  rewrite (proj2 (Nat.ltb_ge _ _) HK). reflexivity.
Qed.

(** *** histories *)
(** the names of chain c lie below its directory *)
Definition names_inv (h : h5_coll V) : Prop :=
  forall c ch, nth_error (h_chains h) c = Some ch -> forall nm, In nm (hc_names ch) -> exists q, h5_path nm = chain_name c :: q.

Lemma names_inv_step h o : names_inv h -> names_inv (fst (hstep zeros_like h o)).
Proof.
  intros Hi. destruct o as [s k|c vs|c|c]; cbn [hstep]; auto.
  - unfold hc_register. destruct (dict_keys s) as [ks|]; auto.
    destruct (h5_create_all zeros_like (h_file h) (combine (map (fun kt => join "/" (chain_dir (length (h_chains h)) :: kt)) ks) (leaves s)) k)
      as [f [?|?]]; cbn [fst]; auto.
    intros c ch Hc nm Hin. cbn [h_chains] in Hc. destruct (Nat.lt_ge_cases c (length (h_chains h))) as [Hlt|Hge].
    + rewrite nth_error_app1 in Hc by auto. eapply Hi; eauto.
    + rewrite nth_error_app2 in Hc by auto. destruct (c - length (h_chains h)) as [|d] eqn:Ed; [|destruct d; discriminate].
      assert (c = length (h_chains h)) by lia. subst c. cbn [nth_error] in Hc. injection Hc as <-. cbn [hc_names] in Hin.
      apply in_map_iff in Hin. destruct Hin as (kt & <- & _). change (exists q, h5_path (join "/" (chain_dir (length (h_chains h)) :: kt)) = chain_name (length (h_chains h)) :: q). eexists. rewrite h5_path_join, chain_dir_path. reflexivity.
  - unfold hc_save. destruct (nth_error (h_chains h) c) as [ch|] eqn:Ec; auto.
    destruct (h5_set_all (h_file h) (combine (hc_names ch) vs) (hc_count ch)) as [f [?|?]]; cbn [fst]; auto.
    intros c' ch' Hc' nm Hin. cbn [h_chains] in Hc'. destruct (Nat.eq_dec c c') as [->|Hne].
    + rewrite nth_error_upd_same in Hc' by (apply nth_error_Some; congruence). inversion Hc'; subst. cbn [hc_names] in Hin. eapply Hi; eauto.
    + rewrite nth_error_upd_other in Hc' by auto. eapply Hi; eauto.
Qed.
Lemma names_inv_run ops : forall h, names_inv h -> names_inv (fst (run (hstep zeros_like) h ops)).
Proof.
  induction ops as [|o ops IH]; intros h Hi; simpl; auto. pose proof (names_inv_step o Hi) as H1.
  destruct (hstep zeros_like h o) as [h1 o1]. cbn [fst] in H1. specialize (IH h1 H1).
  destruct (run (hstep zeros_like) h1 ops). auto.
Qed.

Definition chain_data (h : h5_coll V) (c : nat) (ls : list V) (names : list string) (K : nat) (vss : list (list V)) : Prop :=
  exists count, nth_error (h_chains h) c = Some (mkHc count names) /\ (ls <> [] -> count = Nat.min K (length vss)) /\
  forall j name leaf, nth_error names j = Some name -> nth_error ls j = Some leaf ->
     h5_find (h_file h) (h5_path name) = Some (filled_at zeros_like K vss j leaf).

Lemma filled_at_full K (vss w : list (list V)) j l : K <= length vss -> filled_at zeros_like K (vss ++ w) j l = filled_at zeros_like K vss j l.
Proof.
  intros H. pose proof (@filled_full V zeros_like K vss j [l] H w) as E. simpl in E. now inversion E.
Qed.

Lemma chain_data_run c ls names K : length names = length ls -> NoDup (map h5_path names) ->
  forall ops h vss, names_inv h -> chain_data h c ls names K vss ->
  Forall (fun vs => length vs = length ls) vss -> Forall (fun vs => length vs = length ls) (hsaves_of c ops) ->
  chain_data (fst (run (hstep zeros_like) h ops)) c ls names K (vss ++ hsaves_of c ops).
Proof.
  intros Hlen Hnd. induction ops as [|o ops IH]; intros h vss Hi Hd Hv Hs; [simpl; now rewrite app_nil_r|].
  cbn [run]. pose proof (names_inv_step o Hi) as Hi1. destruct (hstep zeros_like h o) as [h1 o1] eqn:Es. cbn [fst] in Hi1.
  destruct (run (hstep zeros_like) h1 ops) as [h2 o2] eqn:Er. cbn [fst].
  assert (Hgen : forall vss', chain_data h1 c ls names K vss' -> vss' ++ hsaves_of c ops = vss ++ hsaves_of c (o :: ops) ->
    Forall (fun vs => length vs = length ls) vss' -> Forall (fun vs => length vs = length ls) (hsaves_of c ops) ->
    chain_data h2 c ls names K (vss ++ hsaves_of c (o :: ops))).
  { intros vss' H1 H2 H3 H4. rewrite <- H2. specialize (IH h1 vss' Hi1 H1 H3 H4). rewrite Er in IH. exact IH. }
  destruct Hd as (count & Hc & Hcount & Hfind). assert (Hin : c < length (h_chains h)) by (apply nth_error_Some; congruence).
  destruct o as [s k|c' vs|c'|c']; cbn [hstep] in Es.
  - apply (Hgen vss); auto. destruct (hc_register zeros_like h s k) as [h1' r] eqn:E. inversion Es; subst h1' o1. clear Es.
    unfold hc_register in E. destruct (dict_keys s) as [ks|]; [|inversion E; subst; exists count; auto].
    destruct (h5_create_all zeros_like (h_file h) (combine (map (fun kt => join "/" (chain_dir (length (h_chains h)) :: kt)) ks) (leaves s)) k)
      as [f [u|e]] eqn:Ec; inversion E; subst.
    + exists count. split; [simpl; rewrite nth_error_app1; auto|]. split; auto. intros. eapply create_all_old; eauto.
    + exists count. split; [simpl; auto|]. split; auto. intros. eapply create_all_old; eauto.
  - destruct (hc_save h c' vs) as [h1' r] eqn:E. inversion Es; subst h1' o1. clear Es. unfold hc_save in E.
    unfold hsaves_of in Hs. cbn [flat_map] in Hs. fold (hsaves_of c ops) in Hs.
    destruct (Nat.eqb_spec c' c) as [->|Hne].
    + simpl in Hs. inversion Hs as [|? ? Hvs Hs']; subst.
      assert (Hsv : hsaves_of c (HSave c vs :: ops) = vs :: hsaves_of c ops).
      { unfold hsaves_of. cbn [flat_map]. rewrite Nat.eqb_refl. reflexivity. }
      apply (Hgen (vss ++ [vs])); auto; [|rewrite Hsv, <- app_assoc; reflexivity|apply Forall_app; auto].
      rewrite Hc in E. cbn [hc_names hc_count] in E.
      destruct ls as [|l ls].
      * destruct names; [|discriminate]. simpl in E. inversion E; subst. exists (S count). simpl.
        split; [now rewrite nth_error_upd_same by auto|]. split; [congruence|]. intros [|j] name leaf H; discriminate.
      * specialize (Hcount ltac:(discriminate)). destruct (Nat.lt_ge_cases (length vss) K) as [Hlt|Hge].
        -- rewrite Nat.min_r in Hcount by lia. subst count. rewrite <- (eq_refl : skipn 0 vs = vs) in E.
           destruct (@set_all_ok K vss (length (l :: ls)) (l :: ls) names 0 vs (h_file h)) as (f' & E' & Hf'); auto.
           rewrite E' in E. inversion E; subst. exists (S (length vss)). simpl h_chains. simpl h_file.
           split; [now rewrite nth_error_upd_same by auto|]. split; [intros _; rewrite app_length; simpl; lia|]. exact Hf'.
        -- rewrite Nat.min_l in Hcount by lia. subst count. destruct names as [|nm names]; [discriminate|].
           rewrite (@set_all_fail K vss (length (l :: ls)) l ls) in E; auto.
           inversion E; subst. exists K. simpl h_chains. simpl h_file. split; auto. split; [intros _; rewrite app_length; lia|].
           intros j name leaf Hj Hl. rewrite filled_at_full by lia. auto.
    + simpl in Hs. assert (Hsv : hsaves_of c (HSave c' vs :: ops) = hsaves_of c ops).
      { unfold hsaves_of. cbn [flat_map]. destruct (Nat.eqb_spec c' c); [congruence|]. reflexivity. }
      apply (Hgen vss); auto; [|now rewrite Hsv]. destruct (nth_error (h_chains h) c') as [ch|] eqn:Ec'; [|inversion E; subst; exists count; auto].
      destruct (h5_set_all (h_file h) (combine (hc_names ch) vs) (hc_count ch)) as [f r'] eqn:Ef.
      assert (Hfile : forall j name leaf, nth_error names j = Some name -> nth_error ls j = Some leaf ->
         h5_find f (h5_path name) = Some (filled_at zeros_like K vss j leaf)).
      { intros j name leaf Hj Hl. rewrite (set_all_other _ _ _ Ef); [eauto|]. intros n v Hnv Eq.
        apply in_combine_l in Hnv. destruct (Hi c' ch Ec' n Hnv) as [q Eq1].
        destruct (Hi c _ Hc name) as [q' Eq2]; [cbn [hc_names]; eapply nth_error_In; eauto|].
        rewrite Eq1, Eq2 in Eq. inversion Eq as [[E1 E2]]. apply dec_inj in E1. congruence. }
      destruct r' as [u|e]; inversion E; subst; exists count; simpl h_chains; simpl h_file; split; auto.
      rewrite nth_error_upd_other; auto.
  - inversion Es; subst. apply (Hgen vss); auto. exists count; auto.
  - inversion Es; subst. apply (Hgen vss); auto. exists count; auto.
Qed.

Lemma nth_combine_map (X Y : Type) (l : list X) (l' : list Y) j x y : nth_error l j = Some x -> nth_error l' j = Some y -> nth_error (combine l l') j = Some (x, y).
Proof. revert l' j. induction l; intros [|? l'] [|j] H1 H2; simpl in *; try discriminate; [congruence|auto]. Qed.

Lemma map_fst_comb_paths (names : list string) (ls : list V) : length names = length ls ->
  map (fun n => h5_path (fst n)) (combine names ls) = map h5_path names.
Proof. intros H. rewrite <- (map_map fst h5_path). now rewrite map_fst_combine. Qed.

Lemma register_data h (sample : tree V) K c h' : names_inv h -> wf sample -> no_empty sample ->
  hc_register zeros_like h sample K = (h', Ok c) ->
  exists ks, dict_keys sample = Ok ks /\ length ks = length (leaves sample) /\
    let names := map (fun kt => join "/" (chain_dir c :: kt)) ks in
    NoDup (map h5_path names) /\ chain_data h' c (leaves sample) names K [] /\ names_inv h'.
Proof.
  intros Hi Hw He H. pose proof (names_inv_step (HRegister sample K) Hi) as Hi'. cbn [hstep] in Hi'. rewrite H in Hi'. cbn [fst] in Hi'.
  unfold hc_register in H. destruct (final_keys sample Hw He) as (ks & Ek & _ & _ & Hlen & _). rewrite Ek in H.
  exists ks. split; auto. split; auto.
  destruct (h5_create_all zeros_like (h_file h) (combine (map (fun kt => join "/" (chain_dir (length (h_chains h)) :: kt)) ks) (leaves sample)) K)
    as [f [[]|e]] eqn:Ec; inversion H; subst. intros names. destruct (create_all_ok _ _ _ Ec) as (H1 & H2 & H3 & _).
  rewrite map_fst_comb_paths in H2 by (now rewrite map_length). split; [exact H2|]. split; auto.
  exists 0. simpl h_chains. simpl h_file. split; [rewrite nth_error_app2, Nat.sub_diag by lia; reflexivity|].
  split; [simpl; lia|]. intros j name leaf Hj Hl. erewrite H3; [|eapply nth_error_In, nth_combine_map; eauto].
  unfold filled_at. rewrite firstn_nil. simpl. now rewrite Nat.sub_0_r.
Qed.

(** *** subtrees *)
(** number of leaves before a subtree *)
Fixpoint off_in {A} (k : string) (kcs : list (string * tree A)) : nat :=
  match kcs with [] => 0 | (k', x) :: r => if String.eqb k k' then 0 else length (leaves x) + off_in k r end.
Fixpoint offset {A} (p : list string) (t : tree A) : nat :=
  match p with
  | [] => 0
  | k :: p' => match t with
               | Node (KDict keys) ch => off_in k (combine keys ch) +
                   match dget k (combine keys ch) with Some x => offset p' x | None => 0 end
               | _ => 0
               end
  end.
Lemma dget_split A k (l : list (string * tree A)) x : dget k l = Some x ->
  exists l1 l2, l = l1 ++ (k, x) :: l2 /\ length (flat_map leaves (map snd l1)) = off_in k l.
Proof.
  induction l as [|[k' x'] l IH]; simpl; [discriminate|]. destruct (String.eqb_spec k k') as [->|].
  - intros E. inversion E; subst. exists [], l. auto.
  - intros E. destruct (IH E) as (l1 & l2 & -> & Hl). exists ((k', x') :: l1), l2. simpl. rewrite app_length, Hl. auto.
Qed.

Lemma subtree_keys A p : forall (t sub : tree A), wf t -> no_empty t -> subtree p t = Some sub ->
  wf sub /\ no_empty sub /\
  exists pre post lpre lpost, map fst (positions (to_dict t)) = pre ++ map (app p) (map fst (positions (to_dict sub))) ++ post /\
    leaves t = lpre ++ leaves sub ++ lpost /\ length pre = length lpre /\ length lpre = offset p t.
Proof.
  induction p as [|k p IH]; intros t sub Hw He H.
  - simpl in H. inversion H; subst. split; auto. split; auto. exists [], [], [], []. simpl. rewrite !app_nil_r. rewrite map_id. auto.
  - destruct t as [|[|keys| | | |] ch]; try discriminate. simpl in H. destruct (dget k (combine keys ch)) as [x|] eqn:Eg; [|discriminate].
    destruct (dget_split _ _ Eg) as (l1 & l2 & Es & Eoff).
    pose proof Hw as [[Hlk Hsorted] _]. pose proof (wf_ch Hw) as Hwc. pose proof (no_empty_ch He) as Hec.
    assert (Hxin : In x ch). { assert (Hc : In (k, x) (combine keys ch)) by (rewrite Es; apply in_or_app; right; simpl; auto). now apply in_combine_r in Hc. }
    rewrite Forall_forall in Hwc, Hec. destruct (IH x sub (Hwc x Hxin) (Hec x Hxin) H) as (Hw' & He' & pre & post & lpre & lpost & Ek & El & Elen & Eoff').
    split; auto. split; auto.
    assert (Hch : ch = map snd l1 ++ x :: map snd l2).
    { rewrite <- (@map_snd_combine _ _ keys ch Hlk), Es, map_app. reflexivity. }
    assert (Hlv : leaves (Node (KDict keys) ch) = (flat_map leaves (map snd l1) ++ lpre) ++ leaves sub ++ lpost ++ flat_map leaves (map snd l2)).
    { simpl. rewrite Hch at 1. rewrite flat_map_app. simpl. rewrite El, <- !app_assoc. reflexivity. }
    assert (Hpos : forall t : tree A, wf t -> length (positions (to_dict t)) = length (leaves t)).
    { intros t Ht. rewrite (Permutation_length (to_dict_positions t Ht)), <- (positions_leaves t Ht), map_length. reflexivity. }
    assert (Hoff : length (flat_map leaves (map snd l1) ++ lpre) = offset (k :: p) (Node (KDict keys) ch)).
    { cbn [offset]. rewrite Eg, app_length. lia. }
    destruct (leaves (Node (KDict keys) ch)) as [|v0 vr] eqn:Elv.
    + pose proof Hlv as Hlv0. symmetry in Hlv. apply app_eq_nil in Hlv. destruct Hlv as [Hl1 Hl2]. apply app_eq_nil in Hl2. destruct Hl2 as [Hl2 _].
      assert (Hp0 : positions (to_dict sub) = []). { apply length_zero_iff_nil. rewrite Hpos, Hl2 by auto. reflexivity. }
      assert (Hp1 : positions (to_dict (Node (KDict keys) ch)) = []). { apply length_zero_iff_nil. rewrite Hpos, Elv by auto. reflexivity. }
      exists [], [], (flat_map leaves (map snd l1) ++ lpre), (lpost ++ flat_map leaves (map snd l2)). rewrite Hp0, Hp1.
      split; [reflexivity|]. split; [exact Hlv0|]. split; [now rewrite Hl1|exact Hoff].
    + rewrite <- Elv in *. destruct (to_dict_shape (KDict keys) ch) as (_ & _ & S3 & _).
      rewrite S3 by (congruence || (rewrite Elv; discriminate)). cbn [child_names]. unfold mk_dict.
      rewrite dict_of_sorted by (rewrite map_fst_combine; auto; now rewrite map_length).
      rewrite positions_dict.
      assert (Ecomb : combine keys (map to_dict ch) = map (fun kt => (fst kt, to_dict (snd kt))) (combine keys ch)).
      { clear. revert ch. induction keys as [|a keys IH]; intros [|b ch]; simpl; auto. now rewrite IH. }
      rewrite Ecomb, Es, map_app, flat_map_app, map_app. cbn [map flat_map fst snd]. rewrite map_app.
      assert (Epre : map fst (prefix k (positions (to_dict x))) = map (cons k) (map fst (positions (to_dict x)))).
      { unfold prefix. rewrite !map_map. reflexivity. }
      rewrite Epre, Ek, !map_app.
      exists (map fst (flat_map (fun nc => prefix (fst nc) (positions (snd nc))) (map (fun kt => (fst kt, to_dict (snd kt))) l1)) ++ map (cons k) pre),
        (map (cons k) post ++ map fst (flat_map (fun nc => prefix (fst nc) (positions (snd nc))) (map (fun kt => (fst kt, to_dict (snd kt))) l2))),
        (flat_map leaves (map snd l1) ++ lpre), (lpost ++ flat_map leaves (map snd l2)).
      split; [|split; [exact Hlv|split; [|exact Hoff]]].
      * rewrite <- !app_assoc. f_equal. f_equal. f_equal. rewrite !map_map. reflexivity.
      * rewrite !app_length, !map_length, Elen. f_equal.
        assert (Hl1 : forall kt, In kt l1 -> wf (snd kt)).
        { intros kt Hkt. apply Hwc. rewrite Hch. apply in_or_app. left. now apply in_map. }
        clear -Hl1 Hpos. induction l1 as [|kt l1 IHl]; simpl; auto. rewrite !app_length. unfold prefix at 1. rewrite map_length, Hpos by (apply Hl1; simpl; auto).
        f_equal. apply IHl. intros; apply Hl1; simpl; auto.
Qed.

Lemma dget_structure A B k keys (ch : list (tree A)) (ch' : list (tree B)) x :
  map (tree_map (fun _ => tt)) ch = map (tree_map (fun _ => tt)) ch' -> dget k (combine keys ch) = Some x ->
  exists y l1 l2 m1 m2, dget k (combine keys ch') = Some y /\ same_structure x y /\ ch = l1 ++ x :: l2 /\ ch' = m1 ++ y :: m2 /\
    length (flat_map leaves l1) = off_in k (combine keys ch) /\ length (flat_map leaves m1) = off_in k (combine keys ch) /\
    off_in k (combine keys ch') = off_in k (combine keys ch).
Proof.
  revert ch ch'. induction keys as [|k' keys IH]; intros [|c ch] [|c' ch'] HS H; simpl in *; try discriminate.
  inversion HS as [[Hc Hch]]. destruct (String.eqb k k').
  - inversion H; subst. exists c', [], ch, [], ch'. repeat split; auto.
  - destruct (IH ch ch' Hch H) as (y & l1 & l2 & m1 & m2 & H1 & H2 & -> & -> & H3 & H4 & H5).
    pose proof (structure_leaves Hc) as Hlc.
    exists y, (c :: l1), l2, (c' :: m1), m2. simpl. rewrite !app_length. repeat split; auto; lia.
Qed.
Lemma subtree_structure A B p : forall (t sub : tree A) (u : tree B), same_structure t u -> subtree p t = Some sub ->
  exists sub' l1 l2 m1 m2, subtree p u = Some sub' /\ same_structure sub sub' /\ leaves t = l1 ++ leaves sub ++ l2 /\
    leaves u = m1 ++ leaves sub' ++ m2 /\ length l1 = offset p t /\ length m1 = offset p t.
Proof.
  induction p as [|k p IH]; intros t sub u HS H.
  - simpl in H. inversion H; subst. exists u, [], [], [], []. simpl. rewrite !app_nil_r. repeat split; auto.
  - destruct t as [|[|keys| | | |] ch]; try discriminate. destruct u as [|k' ch']; [discriminate HS|].
    unfold same_structure in HS. simpl in HS. inversion HS as [[Ek Ech]]. subst k'. simpl in H.
    destruct (dget k (combine keys ch)) as [x|] eqn:Eg; [|discriminate].
    destruct (@dget_structure A B k keys ch ch' x Ech Eg) as (y & a1 & a2 & b1 & b2 & Eg' & Sxy & Ha & Hb & Ela & Elb & _).
    destruct (IH x sub y Sxy H) as (sub' & l1 & l2 & m1 & m2 & E1 & E2 & E3 & E4 & E5 & E6).
    exists sub', (flat_map leaves a1 ++ l1), (l2 ++ flat_map leaves a2), (flat_map leaves b1 ++ m1), (m2 ++ flat_map leaves b2).
    cbn [subtree offset leaves]. rewrite Eg', Eg. split; auto. split; auto. rewrite !app_length, Ela, Elb, E5, E6.
    rewrite Ha at 1. rewrite Hb. rewrite !flat_map_app. cbn [flat_map]. rewrite E3, E4, <- !app_assoc. auto.
Qed.

(** *** the round trip *)
Lemma mapM_nth X Y (g : X -> res Y) l ys : length l = length ys -> (forall j x y, nth_error l j = Some x -> nth_error ys j = Some y -> g x = Ok y) ->
  mapM g l = Ok ys.
Proof.
  revert ys. induction l as [|x l IH]; intros [|y ys] Hl H; simpl in *; try discriminate; auto.
  rewrite (H 0 x y eq_refl eq_refl). cbn [bind]. rewrite (IH ys); auto. intros j. apply (H (S j)).
Qed.

Lemma column_sub off j (vss wss : list (list V)) n : Forall2 (fun vs ws => length ws = n /\ exists a b, vs = a ++ ws ++ b /\ length a = off) vss wss ->
  j < n -> column (off + j) vss = column j wss.
Proof.
  intros H Hj. induction H as [|vs ws vss wss (Hl & a & b & -> & Ha) _ IH]; simpl; auto. rewrite IH. f_equal.
  rewrite nth_error_app2 by lia. replace (off + j - length a) with j by lia. rewrite nth_error_app1 by lia. reflexivity.
Qed.
Lemma Forall2_firstn X Y (R : X -> Y -> Prop) l l' k : Forall2 R l l' -> Forall2 R (firstn k l) (firstn k l').
Proof. intros H. revert k. induction H; intros [|k]; simpl; auto. Qed.
Lemma Forall2_len X Y (R : X -> Y -> Prop) l l' : Forall2 R l l' -> length l = length l'.
Proof. induction 1; simpl; auto. Qed.

Lemma final_h5 ops1 (sample : tree V) K c ops2 (ss : list (tree V)) p sub subdir :
  let h1 := fst (run (hstep zeros_like) (hc_new (V := V)) ops1) in
  wf sample -> no_empty sample ->
  snd (hstep zeros_like h1 (HRegister sample K)) = HoId (Ok c) ->
  Forall (fun s => same_structure s sample) ss -> hsaves_of c ops2 = map leaves ss ->
  subtree p sample = Some sub -> leaves sub <> [] ->
  h5_path subdir = h5_path (chain_dir c) ++ flat_map h5_path p ->
  let h := fst (run (hstep zeros_like) (hc_new (V := V)) (ops1 ++ HRegister sample K :: ops2)) in
  exists us t, map (subtree p) ss = map Some us /\ h5_open (h_file h) subdir sub = Ok (K, t) /\
    holds_samples zeros_like sub K (map leaves us) t.
Proof.
  intros h1 Hw He Hreg Hss Hsv Hsub Hne Hdir h. subst h. rewrite run_app. subst h1.
  assert (Hi0 : names_inv (hc_new (V := V))). { intros c0 ch H. destruct c0; discriminate. }
  pose proof (names_inv_run ops1 Hi0) as Hi1. destruct (run (hstep zeros_like) (hc_new (V := V)) ops1) as [h1 o1]. cbn [fst run] in *.
  cbn [hstep] in *. destruct (hc_register zeros_like h1 sample K) as [h2 r] eqn:Er. cbn [snd] in Hreg. inversion Hreg; subst r.
  destruct (@register_data h1 sample K c h2 Hi1 Hw He Er) as (ks & Ek & Hlk & Hnd & Hd & Hi2).
  set (names := map (fun kt => join "/" (chain_dir c :: kt)) ks) in *.
  assert (Hlsv : Forall (fun vs => length vs = length (leaves sample)) (hsaves_of c ops2)).
  { rewrite Hsv. apply Forall_forall. intros vs Hin. apply in_map_iff in Hin. destruct Hin as (s & <- & Hs).
    rewrite Forall_forall in Hss. apply structure_leaves. auto. }
  assert (Hln : length names = length (leaves sample)) by (subst names; rewrite map_length; auto).
  pose proof (@chain_data_run c (leaves sample) names K Hln Hnd ops2 h2 [] Hi2 Hd (Forall_nil _) Hlsv) as (count & Hc & _ & Hfind).
  destruct (run (hstep zeros_like) h2 ops2) as [h3 o3]. cbn [fst app] in *. rewrite Hsv in Hfind.
  destruct (subtree_keys p sample Hw He Hsub) as (Hw' & He' & pre & post & lpre & lpost & Eks & Els & Elen & Eoff).
  assert (Eks' : ks = pre ++ map (app p) (map fst (positions (to_dict sub))) ++ post).
  { rewrite (dict_keys_ok sample Hw He) in Ek. inversion Ek; subst. exact Eks. }
  (* the subtrees of the samples *)
  assert (Hus : exists us, map (subtree p) ss = map Some us /\
     Forall2 (fun vs ws => length ws = length (leaves sub) /\ exists a b, vs = a ++ ws ++ b /\ length a = length lpre) (map leaves ss) (map leaves us)).
  { clear -Hss Hsub Els Eoff. induction Hss as [|s ss Hs _ IH]; [exists []; split; [reflexivity|constructor]|].
    destruct IH as (us & E1 & E2).
    destruct (@subtree_structure V V p sample sub s (structure_sym Hs) Hsub) as (u & l1 & l2 & m1 & m2 & F1 & F2 & F3 & F4 & F5 & F6).
    exists (u :: us). simpl. rewrite F1, E1. split; auto. constructor; auto. split; [symmetry; now apply structure_leaves|].
    exists m1, m2. split; auto. congruence. }
  destruct Hus as (us & Eus & Hus). exists us.
  set (ks' := map fst (positions (to_dict sub))) in *.
  assert (Hlks : length ks' = length (leaves sub)).
  { subst ks'. rewrite map_length, (Permutation_length (to_dict_positions sub Hw')), <- (positions_leaves sub Hw'), map_length. reflexivity. }
  assert (Hread : forall j kt leaf, nth_error ks' j = Some kt -> nth_error (leaves sub) j = Some leaf ->
    h5_get (h_file h3) (join "/" (subdir :: kt)) = Ok (filled_at zeros_like K (map leaves us) j leaf)).
  { intros j kt leaf Hj Hl. assert (Hjl : j < length (leaves sub)) by (apply nth_error_Some; congruence).
    unfold h5_get. rewrite h5_path_join, Hdir, <- app_assoc, <- flat_map_app, <- h5_path_join.
    rewrite (Hfind (length lpre + j) _ leaf).
    - f_equal. unfold filled_at. f_equal.
      + apply column_sub with (n := length (leaves sub)); auto. now apply Forall2_firstn.
      + f_equal. rewrite (Forall2_len Hus). reflexivity.
    - subst names. rewrite Eks', nth_error_map, <- Elen, nth_error_app2 by lia.
      replace (length pre + j - length pre) with j by lia. rewrite nth_error_app1 by (rewrite map_length; lia).
      rewrite nth_error_map, Hj. reflexivity.
    - rewrite Els, nth_error_app2 by lia. replace (length lpre + j - length lpre) with j by lia. rewrite nth_error_app1 by lia. exact Hl. }
  unfold h5_open. rewrite (dict_keys_ok sub Hw' He'). fold ks'. cbn [bind].
  rewrite (@mapM_nth _ _ (h5_get (h_file h3)) _ (filled_from zeros_like K (map leaves us) 0 (leaves sub))).
  - cbn [bind]. destruct (@unflatten_ok V (list V) sub (filled_from zeros_like K (map leaves us) 0 (leaves sub))) as (t & Eu & Lu & Su).
    { apply filled_from_length. }
    exists t. split; auto. rewrite Eu.
    destruct (leaves sub) as [|l ls] eqn:El; [congruence|]. cbn [filled_from bind]. split.
    + f_equal. f_equal. eapply filled_length with (n := length (l :: ls)); [|simpl; lia].
      clear -Hus. induction Hus as [|? ? ? ? (H & _)]; constructor; auto.
    + apply filled_holds; [auto|]. now rewrite El.
  - rewrite map_length, filled_from_length. exact Hlks.
  - intros j x y Hj Hy. rewrite nth_error_map in Hj. destruct (nth_error ks' j) as [kt|] eqn:Ej; [|discriminate]. inversion Hj; subst x.
    assert (Hjl : j < length (leaves sub)). { rewrite <- Hlks. apply nth_error_Some. congruence. }
    destruct (nth_error (leaves sub) j) as [leaf|] eqn:El; [|apply nth_error_None in El; lia].
    rewrite (@filled_from_nth V zeros_like K (map leaves us) 0 (leaves sub) j leaf El) in Hy. inversion Hy; subst y.
    exact (Hread j kt leaf Ej El).
Qed.

(** *** registration succeeds *)
Lemma positions_prefix_free A (t : tree A) : isdict t -> forall p c, In p (map fst (positions t)) -> In (p ++ c) (map fst (positions t)) -> c = [].
Proof.
  induction t as [a|k ch IH] using tree_ind'; intros H p c Hp Hc.
  - simpl in *. destruct Hp as [<-|[]], Hc as [Hc|[]]. auto.
  - destruct k; try (simpl in H; contradiction); [simpl in H; subst; destruct Hp|].
    apply isdict_ch in H. destruct H as (Hl & Hn & Hf). rewrite positions_node in Hp, Hc by congruence. simpl child_names in Hp, Hc.
    apply in_map_iff in Hp. destruct Hp as ([p0 a0] & <- & Hp). apply in_flat_map in Hp. destruct Hp as ([n x] & Hx & Hp).
    unfold prefix in Hp. apply in_map_iff in Hp. destruct Hp as ([p1 a1] & E1 & Hp). cbn [fst snd] in E1. injection E1 as E1a E1b; subst p0 a0.
    apply in_map_iff in Hc. destruct Hc as ([q0 b0] & Eq & Hc). apply in_flat_map in Hc. destruct Hc as ([n' x'] & Hx' & Hc).
    unfold prefix in Hc. apply in_map_iff in Hc. destruct Hc as ([q1 b1] & E2 & Hc). cbn [fst snd] in E2, Eq. injection E2 as E2a E2b; subst q0 b0.
    cbn [app fst snd] in *. injection E2a as Eqa Eqb; subst n' q1.
    assert (x' = x).
    { assert (Hk : NoDup (map fst (combine keys ch))) by now rewrite map_fst_combine.
      pose proof (dget_in n x (combine keys ch) Hk Hx). pose proof (dget_in n x' (combine keys ch) Hk Hx'). congruence. }
    subst x'. rewrite Forall_forall in IH, Hf. assert (Hxc : In x ch) by (apply in_combine_r in Hx; auto).
    apply (IH x Hxc (Hf x Hxc) p1 c).
    + apply in_map_iff. exists (p1, a1). auto.
    + apply in_map_iff. exists (p1 ++ c, b1). auto.
Qed.

Lemma create_all_succeeds nl : forall f k,
  (forall n d, In n nl -> In d f -> is_prefix (h5_path (fst n)) (fst d) = false /\ is_prefix (fst d) (h5_path (fst n)) = false) ->
  (forall n, In n nl -> h5_path (fst n) <> []) ->
  NoDup (map (fun n => h5_path (fst n)) nl) ->
  (forall n n', In n nl -> In n' nl -> is_prefix (h5_path (fst n)) (h5_path (fst n')) = true -> h5_path (fst n) = h5_path (fst n')) ->
  exists f', h5_create_all zeros_like f nl k = (f', Ok tt) /\ (forall d, In d f' -> In d f \/ exists n, In n nl /\ fst d = h5_path (fst n)).
Proof.
  induction nl as [|[n l] nl IH]; intros f k H1 H2 H3 H4; cbn [h5_create_all]; [exists f; auto|].
  unfold h5_create. pose proof (H2 (n, l) (or_introl eq_refl)) as Hne. cbn [fst] in Hne.
  destruct (h5_path n) as [|x p] eqn:Ep; [congruence|].
  destruct (existsb (fun d => is_prefix (x :: p) (fst d) || is_prefix (fst d) (x :: p)) f) eqn:Ex.
  { apply existsb_exists in Ex. destruct Ex as (d & Hd & Hor). destruct (H1 (n, l) d (or_introl eq_refl) Hd) as [A B].
    cbn [fst] in A, B. rewrite Ep in A, B. rewrite A, B in Hor. discriminate. }
  simpl in H3. inversion H3 as [|? ? Hnot H3']; subst.
  destruct (IH (f ++ [(x :: p, repeat (zeros_like l) k)]) k) as (f' & E & Hf'); auto.
  - intros n' d Hn' Hd. apply in_app_or in Hd. destruct Hd as [Hd|[<-|[]]]; [apply H1; simpl; auto|]. cbn [fst].
    assert (Hd2 : h5_path (fst n') <> x :: p).
    { intros E. apply Hnot. rewrite Ep, <- E. apply in_map_iff. eauto. }
    split.
    + destruct (is_prefix (h5_path (fst n')) (x :: p)) eqn:E; auto. exfalso. apply Hd2. rewrite <- Ep.
      apply (H4 n' (n, l)); simpl; auto. now rewrite Ep.
    + destruct (is_prefix (x :: p) (h5_path (fst n'))) eqn:E; auto. exfalso. apply Hd2. rewrite <- Ep. symmetry.
      apply (H4 (n, l) n'); simpl; auto. now rewrite Ep.
  - intros; apply H2; simpl; auto.
  - intros; apply H4; simpl; auto.
  - exists f'. split; auto. intros d Hd. destruct (Hf' d Hd) as [Hd'|(n' & Hn' & E')].
    + apply in_app_or in Hd'. destruct Hd' as [Hd'|[<-|[]]]; auto. right. exists (n, l). cbn [fst]. rewrite Ep. simpl. auto.
    + right. exists n'. simpl. auto.
Qed.

Definition good_sample (s : tree V) : Prop :=
  wf s /\ no_empty s /\ forall p a x, In (p, a) (positions s) -> In x p -> h5_ok x.
Definition heads_inv (h : h5_coll V) : Prop :=
  forall d, In d (h_file h) -> exists c q, fst d = chain_name c :: q /\ c < length (h_chains h).

Lemma write_in (f : h5file V) p rows d : In d (h5_write f p rows) -> exists d', In d' f /\ fst d' = fst d.
Proof.
  intros H. assert (Hin : In (fst d) (map fst f)) by (rewrite <- (write_paths f p rows); now apply in_map).
  apply in_map_iff in Hin. destruct Hin as (d' & E & Hd'). eauto.
Qed.
Lemma set_all_in nv : forall (f : h5file V) i f' r, h5_set_all f nv i = (f', r) -> forall d, In d f' -> exists d', In d' f /\ fst d' = fst d.
Proof.
  induction nv as [|[n v] nv IH]; intros f i f' r H d Hd; cbn [h5_set_all] in H; [inversion H; subst; eauto|].
  destruct (h5_set f n i v) as [f1|e] eqn:E; [|inversion H; subst; eauto].
  destruct (IH _ _ _ _ H d Hd) as (d1 & Hd1 & E1). unfold h5_set in E. destruct (h5_get f n) as [rows|]; [|discriminate]. cbn [bind] in E.
  destruct (np_set rows i v) as [rows'|]; [|discriminate]. cbn [bind] in E. inversion E; subst.
  destruct (write_in _ _ _ _ Hd1) as (d2 & Hd2 & E2). exists d2. split; auto. congruence.
Qed.

Lemma register_succeeds h s k : heads_inv h -> good_sample s ->
  snd (hc_register zeros_like h s k) = Ok (length (h_chains h)) /\ heads_inv (fst (hc_register zeros_like h s k)).
Proof.
  intros Hi (Hw & He & Hok). unfold hc_register. rewrite (dict_keys_ok s Hw He).
  set (c := length (h_chains h)). set (ks := map fst (positions (to_dict s))).
  set (names := map (fun kt => join "/" (chain_dir c :: kt)) ks).
  assert (Hks : forall kt, In kt ks -> h5_path (join "/" (chain_dir c :: kt)) = chain_name c :: kt).
  { intros kt Hk. rewrite h5_path_join, chain_dir_path. simpl. f_equal. apply flat_path_ok. apply Forall_forall. intros x Hx.
    subst ks. apply in_map_iff in Hk. destruct Hk as ([p a] & <- & Hpa). eapply Hok; [|exact Hx].
    eapply Permutation_in; [apply to_dict_positions; exact Hw|exact Hpa]. }
  assert (Hnl : forall n, In n (combine names (leaves s)) -> exists kt, In kt ks /\ h5_path (fst n) = chain_name c :: kt).
  { intros [n l] Hn. apply in_combine_l in Hn. subst names. apply in_map_iff in Hn. destruct Hn as (kt & <- & Hk). eauto. }
  pose proof (to_dict_isdict s Hw He) as Hd.
  assert (Hlen : length names = length (leaves s)).
  { subst names ks. rewrite !map_length. rewrite (Permutation_length (to_dict_positions s Hw)), <- (positions_leaves s Hw), map_length. reflexivity. }
  destruct (@create_all_succeeds (combine names (leaves s)) (h_file h) k) as (f' & E & Hf').
  - intros n d Hn Hdin. destruct (Hnl n Hn) as (kt & _ & En). destruct (Hi d Hdin) as (c' & q & Ed & Hc'). rewrite En, Ed.
    assert (Hcc : chain_name c <> chain_name c') by (intros Ecc; apply chain_name_inj in Ecc; subst c; lia).
    split; cbn [is_prefix]; apply Bool.andb_false_iff; left; apply String.eqb_neq; congruence.
  - intros n Hn. destruct (Hnl n Hn) as (kt & _ & ->). discriminate.
  - rewrite map_fst_comb_paths by auto. subst names. rewrite map_map.
    rewrite (map_ext_in _ (fun kt => chain_name c :: kt)) by (intros; apply Hks; auto).
    apply FinFun.Injective_map_NoDup; [intros a b Eab; congruence|]. apply positions_nodup. exact Hd.
  - intros n n' Hn Hn' Hp. destruct (Hnl n Hn) as (kt & Hk & En), (Hnl n' Hn') as (kt' & Hk' & En'). rewrite En, En' in *.
    cbn [is_prefix] in Hp. apply Bool.andb_true_iff in Hp. destruct Hp as [_ Hp]. apply is_prefix_spec in Hp. destruct Hp as [e ->].
    rewrite (@positions_prefix_free V (to_dict s) Hd kt e Hk Hk'). now rewrite app_nil_r.
  - rewrite E. cbn [fst snd]. split; auto. intros d Hdin. cbn [h_file h_chains] in *. rewrite app_length. simpl.
    destruct (Hf' d Hdin) as [Ho|(n & Hn & En)].
    + destruct (Hi d Ho) as (c' & q & Ed & Hc'). exists c', q. split; auto. lia.
    + destruct (Hnl n Hn) as (kt & _ & E2). exists c, kt. split; [congruence|]. subst c. lia.
Qed.

Lemma heads_inv_step h o : heads_inv h -> (forall s k, o = HRegister s k -> good_sample s) -> heads_inv (fst (hstep zeros_like h o)).
Proof.
  intros Hi Hg. destruct o as [s k|c vs|c|c]; cbn [hstep]; auto.
  - pose proof (proj2 (@register_succeeds h s k Hi (Hg s k eq_refl))) as H. destruct (hc_register zeros_like h s k). exact H.
  - unfold hc_save. destruct (nth_error (h_chains h) c) as [ch|]; auto.
    destruct (h5_set_all (h_file h) (combine (hc_names ch) vs) (hc_count ch)) as [f [u|e]] eqn:E; cbn [fst];
      intros d Hd; cbn [h_file h_chains] in *; destruct (set_all_in _ _ _ E d Hd) as (d' & Hd' & Ed);
      destruct (Hi d' Hd') as (c' & q & E1 & E2); exists c', q; rewrite ?length_upd; split; congruence || auto.
Qed.
Lemma heads_inv_run ops : forall h, heads_inv h -> (forall s k, In (HRegister s k) ops -> good_sample s) ->
  heads_inv (fst (run (hstep zeros_like) h ops)).
Proof.
  induction ops as [|o ops IH]; intros h Hi Hg; simpl; auto.
  assert (H1 : heads_inv (fst (hstep zeros_like h o))) by (apply heads_inv_step; auto; intros s k ->; eapply Hg; simpl; eauto).
  destruct (hstep zeros_like h o) as [h1 o1]. cbn [fst] in H1. specialize (IH h1 H1).
  destruct (run (hstep zeros_like) h1 ops). apply IH. intros; eapply Hg; simpl; eauto.
Qed.
Lemma final_h5_register ops (s : tree V) k : (forall s' k', In (HRegister s' k') (ops ++ [HRegister s k]) -> good_sample s') ->
  exists c, snd (hstep zeros_like (fst (run (hstep zeros_like) (hc_new (V := V)) ops)) (HRegister s k)) = HoId (Ok c).
Proof.
  intros H. assert (Hi : heads_inv (fst (run (hstep zeros_like) (hc_new (V := V)) ops))).
  { apply heads_inv_run; [intros d []|]. intros; eapply H; apply in_or_app; eauto. }
  cbn [hstep]. destruct (@register_succeeds _ s k Hi) as [E _]; [apply (H s k); apply in_or_app; simpl; auto|].
  destruct (hc_register zeros_like _ s k) as [h' r]. cbn [snd] in *. subst r. eauto.
Qed.
End P.
