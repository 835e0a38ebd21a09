From Coq Require Import String Ascii.
From Verif Require Import Base ListUtil Pytree PytreeSpec PytreeProofs Io IoSpec.
Set Implicit Arguments.

(** ** trees *)
Lemma same_structb_spec A B (t : tree A) : forall u : tree B, same_structb t u = true <-> same_structure t u.
Proof.
  unfold same_structure. induction t as [a|k ch IH] using tree_ind'; intros [b|k' ch']; simpl; try (split; congruence).
  rewrite Bool.andb_true_iff.
  match goal with |- _ /\ ?f ch ch' = true <-> _ => assert (H : forall l', f ch l' = true <-> map (tree_map (fun _ => tt)) ch = map (tree_map (fun _ => tt)) l') end.
  { induction IH as [|x xs Hx _ IHxs]; intros [|y ys]; simpl; try (split; congruence).
    rewrite Bool.andb_true_iff, Hx, IHxs. split; [intros [-> ->]; auto|intros E; inversion E; auto]. }
  rewrite H. destruct (kind_eq_dec k k') as [->|Hn].
  - split; [intros [_ ->]; auto|intros E; inversion E; auto].
  - split; [intros [E _]; discriminate|intros E; inversion E; congruence].
Qed.

Lemma structure_leaves A B (t : tree A) (u : tree B) : same_structure t u -> length (leaves t) = length (leaves u).
Proof.
  intros H. rewrite <- (map_length (fun _ => tt)), <- leaves_map, H, leaves_map, map_length. reflexivity.
Qed.

Lemma zip_with_length A B C (f : A -> B -> C) l l' : length l = length l' -> length (zip_with f l l') = length l.
Proof. revert l'. induction l; intros [|? l'] H; simpl in *; try discriminate; auto. Qed.

Lemma tree_map2_ok A B C (f : A -> B -> C) (t : tree A) (u : tree B) : same_structure t u ->
  exists r, tree_map2 f t u = Ok r /\ same_structure r t /\ leaves r = zip_with f (leaves t) (leaves u).
Proof.
  intros H. unfold tree_map2. rewrite (proj2 (same_structb_spec t u) H).
  destruct (unflatten_ok t (zip_with f (leaves t) (leaves u))) as (r & E & L & S).
  { apply zip_with_length, structure_leaves; auto. }
  exists r. auto.
Qed.
Lemma tree_map2_mismatch A B C (f : A -> B -> C) (t : tree A) (u : tree B) : ~ same_structure t u ->
  tree_map2 f t u = Exc ValueError.
Proof.
  intros H. unfold tree_map2. destruct (same_structb t u) eqn:E; auto. apply same_structb_spec in E. contradiction.
Qed.

(** ** rows *)
Lemma upd_oob A (l : list A) i v : length l <= i -> upd l i v = l.
Proof. revert i. induction l; intros [|i] H; simpl in *; auto; try lia. f_equal. apply IHl. lia. Qed.

Section F.
Context {V : Type}.
Variable zeros_like : V -> V.

Definition filled_at (K : nat) (vss : list (list V)) (j : nat) (leaf : V) : list V :=
  column j (firstn K vss) ++ repeat (zeros_like leaf) (K - length vss).
Fixpoint filled_from (K : nat) (vss : list (list V)) (a : nat) (ls : list V) : list (list V) :=
  match ls with [] => [] | l :: r => filled_at K vss a l :: filled_from K vss (S a) r end.

Lemma filled_from_length K vss a ls : length (filled_from K vss a ls) = length ls.
Proof. revert a. induction ls; intros; simpl; auto. Qed.
Lemma filled_from_nth K vss a ls j leaf : nth_error ls j = Some leaf ->
  nth_error (filled_from K vss a ls) j = Some (filled_at K vss (a + j) leaf).
Proof.
  revert a j. induction ls as [|l ls IH]; intros a [|j] H; simpl in *; try discriminate.
  - inversion H; subst. now rewrite Nat.add_0_r.
  - rewrite (IH _ _ H). f_equal. f_equal. lia.
Qed.

Lemma column_app j (a b : list (list V)) : column j (a ++ b) = column j a ++ column j b.
Proof. unfold column. apply flat_map_app. Qed.
Lemma column_length j n (vss : list (list V)) : Forall (fun vs => length vs = n) vss -> j < n -> length (column j vss) = length vss.
Proof.
  intros H Hj. induction H as [|vs vss Hv _ IH]; simpl; auto. rewrite app_length, IH.
  destruct (nth_error vs j) eqn:E; auto. apply nth_error_None in E. lia.
Qed.

Lemma filled_length K vss n j leaf : Forall (fun vs => length vs = n) vss -> j < n -> length (filled_at K vss j leaf) = K.
Proof.
  intros H Hj. unfold filled_at. rewrite app_length, repeat_length, (@column_length j n), firstn_length; auto; [lia|].
  rewrite Forall_forall in *. intros x Hx. apply H. rewrite <- (firstn_skipn K vss). apply in_or_app; auto.
Qed.

Lemma filled_step K vss n j leaf vs v : Forall (fun vs => length vs = n) vss -> j < n -> nth_error vs j = Some v ->
  upd (filled_at K vss j leaf) (length vss) v = filled_at K (vss ++ [vs]) j leaf.
Proof.
  intros H Hj Hv. destruct (Nat.lt_ge_cases (length vss) K) as [Hlt|Hge].
  - unfold filled_at. rewrite !firstn_all2 by (rewrite ?app_length; simpl; lia).
    rewrite app_length. simpl. replace (K - length vss) with (S (K - (length vss + 1))) by lia. simpl.
    rewrite column_app. unfold column at 3. simpl. rewrite Hv. rewrite app_nil_r, <- app_assoc. simpl.
    pose proof (column_length H Hj) as Hcl. revert Hcl. set (rr := K - (length vss + 1)) in *. clearbody rr. generalize (length vss). generalize (column j vss).
    intros cl. induction cl as [|x cl IHcl]; intros [|m] Hcl; simpl in *; try discriminate; auto. f_equal. apply IHcl. lia.
  - rewrite upd_oob by (rewrite (filled_length _ _ H Hj); lia). unfold filled_at.
    rewrite firstn_app, app_length. replace (K - length vss) with 0 by lia. simpl. rewrite !app_nil_r.
    replace (K - (length vss + 1)) with 0 by lia. simpl. now rewrite app_nil_r.
Qed.

Lemma skipn_cons_inv (vs : list V) a v r : skipn a vs = v :: r -> nth_error vs a = Some v /\ skipn (S a) vs = r.
Proof.
  revert vs. induction a as [|a IH]; intros [|x vs] E; simpl in *; try discriminate.
  - inversion E; auto.
  - destruct vs; [destruct a; discriminate|]. now apply IH.
Qed.

Lemma filled_zip K vss n ls : forall a vs, Forall (fun vs => length vs = n) vss -> length vs = n -> a + length ls = n ->
  zip_with (fun rows v => upd rows (length vss) v) (filled_from K vss a ls) (skipn a vs) = filled_from K (vss ++ [vs]) a ls.
Proof.
  induction ls as [|l ls IH]; intros a vs H Hv Ha; simpl; auto.
  simpl in Ha. destruct (skipn a vs) as [|v r] eqn:E.
  { apply (f_equal (@length V)) in E. rewrite skipn_length in E. simpl in E. lia. }
  destruct (skipn_cons_inv _ _ E) as [Hn Hr]. cbn [zip_with]. f_equal.
  - eapply filled_step; eauto. lia.
  - rewrite <- Hr. apply IH; auto. lia.
Qed.

Lemma filled_np_set K vss n ls : forall a vs, Forall (fun vs => length vs = n) vss -> length vs = n -> a + length ls = n ->
  length vss < K ->
  np_set_all (filled_from K vss a ls) (length vss) (skipn a vs) = Ok (filled_from K (vss ++ [vs]) a ls).
Proof.
  induction ls as [|l ls IH]; intros a vs H Hv Ha HK; simpl; auto.
  - simpl in Ha. destruct (skipn a vs) as [|v r] eqn:E.
    { apply (f_equal (@length V)) in E. rewrite skipn_length in E. simpl in E. lia. }
    destruct (skipn_cons_inv _ _ E) as [Hn Hr]. unfold np_set.
    rewrite (@filled_length K vss n a l) by (auto; lia). rewrite (proj2 (Nat.ltb_lt _ _) HK). cbn [bind].
    rewrite <- Hr, IH by (auto; lia). cbn [bind]. rewrite (@filled_step K vss n a l vs v) by (auto; lia). reflexivity.
Qed.

Lemma filled_np_set_fail K vss n l ls vs i : Forall (fun vs => length vs = n) vss -> length vs = n -> length (l :: ls) = n ->
  K <= i -> np_set_all (filled_from K vss 0 (l :: ls)) i vs = Exc IndexError.
Proof.
  intros H Hv Ha HK. destruct vs as [|v vs]; [simpl in *; lia|]. cbn [filled_from np_set_all]. unfold np_set.
  rewrite (@filled_length K vss n 0 l) by (auto; simpl in *; lia). rewrite (proj2 (Nat.ltb_ge _ _) HK). reflexivity.
Qed.

Lemma filled_full K vss a ls : K <= length vss -> forall w, filled_from K (vss ++ w) a ls = filled_from K vss a ls.
Proof.
  intros H w. revert a. induction ls as [|l ls IH]; intros a; simpl; auto. f_equal; auto.
  unfold filled_at. rewrite firstn_app, app_length. replace (K - length vss) with 0 by lia. simpl. rewrite !app_nil_r.
  replace (K - (length vss + length w)) with 0 by lia. simpl. now rewrite app_nil_r.
Qed.

Lemma filled_init K a ls : filled_from K [] a ls = map (fun l => repeat (zeros_like l) K) ls.
Proof. revert a. induction ls as [|l ls IH]; intros a; simpl; auto. rewrite IH. f_equal. unfold filled_at. rewrite firstn_nil. simpl. now rewrite Nat.sub_0_r. Qed.

Lemma filled_holds (sample : tree V) K vss (t : tree (list V)) : same_structure t sample -> leaves t = filled_from K vss 0 (leaves sample) ->
  holds_samples zeros_like sample K vss t.
Proof.
  intros S L. split; auto. intros j leaf Hj. rewrite L. rewrite (@filled_from_nth K vss 0 _ j leaf Hj). reflexivity.
Qed.

(** ** no_save *)
Lemma structure_trans A B C (a : tree A) (b : tree B) (c : tree C) : same_structure a b -> same_structure b c -> same_structure a c.
Proof. unfold same_structure. congruence. Qed.
Lemma structure_sym A B (a : tree A) (b : tree B) : same_structure a b -> same_structure b a.
Proof. unfold same_structure. congruence. Qed.

Lemma ns_run_ok (sample : tree V) K calls : Forall (fun ks => same_structure (snd ks) sample) calls ->
  forall vss st, Forall (fun vs => length vs = length (leaves sample)) vss ->
  ns_saved st = length vss -> same_structure (ns_data st) sample -> leaves (ns_data st) = filled_from K vss 0 (leaves sample) ->
  exists st', ns_run st calls = Ok st' /\ ns_saved st' = length (vss ++ map leaves (kept calls)) /\
    same_structure (ns_data st') sample /\ leaves (ns_data st') = filled_from K (vss ++ map leaves (kept calls)) 0 (leaves sample).
Proof.
  induction calls as [|[keep s] calls IH]; intros Hc vss st Hv Hn HS HL.
  - exists st. simpl. rewrite app_nil_r. auto.
  - inversion Hc as [|? ? Hs Hcs]; subst. cbn [snd] in Hs. cbn [ns_run]. unfold ns_save. destruct keep.
    + unfold ns_save_sample.
      destruct (@tree_map2_ok (list V) V (list V) (fun rows v => upd rows (ns_saved st) v) (ns_data st) s) as (d & -> & HS' & HL').
      { eapply structure_trans; [exact HS|now apply structure_sym]. }
      cbn [bind]. destruct (IH Hcs (vss ++ [leaves s]) (mkNs (S (ns_saved st)) d)) as (st' & E & H1 & H2 & H3).
      * apply Forall_app. split; auto. constructor; auto. now apply structure_leaves.
      * simpl. rewrite app_length, Hn. simpl. lia.
      * simpl. eapply structure_trans; eauto.
      * simpl. rewrite HL', HL, Hn. change (leaves s) with (skipn 0 (leaves s)) at 1.
        apply filled_zip with (n := length (leaves sample)); auto. now apply structure_leaves.
      * exists st'. unfold kept in *. cbn [filter fst map snd] in *. rewrite <- app_assoc in *. auto.
    + cbn [bind]. apply IH; auto.
Qed.

Lemma final_no_save (sample : tree V) K calls : Forall (fun ks => same_structure (snd ks) sample) calls ->
  exists st, ns_run (ns_init zeros_like sample K) calls = Ok st /\
    fst (ns_postprocess st) = length (kept calls) /\
    holds_samples zeros_like sample K (map leaves (kept calls)) (snd (ns_postprocess st)).
Proof.
  intros H. destruct (@ns_run_ok sample K calls H [] (ns_init zeros_like sample K)) as (st & E & H1 & H2 & H3); auto.
  - simpl. unfold same_structure. symmetry. apply (@same_structure_map V V (list V) (fun leaf => repeat (zeros_like leaf) K) sample sample eq_refl).
  - simpl. rewrite leaves_map. symmetry. apply filled_init.
  - exists st. split; auto. simpl in *. rewrite map_length in H1. split; auto. apply filled_holds; auto.
Qed.

(** ** MemoryCollector *)
Definition lastn_locked (l : bool) (h : list (mop V)) (c : nat) : bool :=
  if existsb (fun o => match o with MFinalize c' => c' =? c | _ => false end) h then false else l.

Lemma mc_run_ok c (sample : tree V) K names : forall h m vss count locked,
  nth_error (mc_chains m) c = Some (mkMc locked (filled_from K vss 0 (leaves sample)) count (tree_map (fun _ => tt) sample) names) ->
  Forall (fun vs => length vs = length (leaves sample)) vss ->
  Forall (fun vs => length vs = length (leaves sample)) (saves_of c h) ->
  (leaves sample <> [] -> count = Nat.min K (length vss)) ->
  let m' := fst (run (mstep zeros_like) m h) in
  exists count', nth_error (mc_chains m') c = Some (mkMc (lastn_locked locked h c) (filled_from K (vss ++ saves_of c h) 0 (leaves sample)) count'
     (tree_map (fun _ => tt) sample) names) /\
    (leaves sample <> [] -> count' = Nat.min K (length (vss ++ saves_of c h))).
Proof.
  induction h as [|o h IH]; intros m vss count locked Hc Hv Hs Hn m'.
  - subst m'. simpl. exists count. rewrite app_nil_r. auto.
  - subst m'. cbn [run]. destruct (mstep zeros_like m o) as [m1 out] eqn:Estep.
    destruct (run (mstep zeros_like) m1 h) as [m2 outs] eqn:Erun. cbn [fst].
    assert (Hin : c < length (mc_chains m)) by (apply nth_error_Some; congruence).
    assert (Hgen : forall vss' count' locked',
      nth_error (mc_chains m1) c = Some (mkMc locked' (filled_from K vss' 0 (leaves sample)) count' (tree_map (fun _ => tt) sample) names) ->
      vss' ++ saves_of c h = vss ++ saves_of c (o :: h) -> Forall (fun vs => length vs = length (leaves sample)) vss' ->
      (leaves sample <> [] -> count' = Nat.min K (length vss')) ->
      lastn_locked locked' h c = lastn_locked locked (o :: h) c ->
      Forall (fun vs => length vs = length (leaves sample)) (saves_of c h) ->
      exists count'', nth_error (mc_chains m2) c = Some (mkMc (lastn_locked locked (o :: h) c)
         (filled_from K (vss ++ saves_of c (o :: h)) 0 (leaves sample)) count'' (tree_map (fun _ => tt) sample) names) /\
       (leaves sample <> [] -> count'' = Nat.min K (length (vss ++ saves_of c (o :: h))))).
    { intros vss' count' locked' H1 H2 H3 H4 H5 H6. destruct (IH m1 vss' count' locked' H1 H3 H6 H4) as (c'' & E1 & E2).
      rewrite Erun in E1. cbn [fst] in E1. rewrite H2, H5 in E1. rewrite H2 in E2. exists c''. auto. }
    destruct o as [s k|c' vs|c'|c']; cbn [mstep] in Estep.
    + destruct (mc_register zeros_like m s k) as [m1' r] eqn:E. inversion Estep; subst m1' out. clear Estep.
      apply (Hgen vss count locked); auto.
      unfold mc_register in E. match type of E with context[match ?x with Ok _ => _ | Exc _ => _ end] => destruct x end;
        inversion E; subst; auto. simpl. rewrite nth_error_app1; auto.
    + destruct (mc_save m c' vs) as [m1' r] eqn:E. inversion Estep; subst m1' out. clear Estep.
      unfold mc_save in E. unfold saves_of in Hs. cbn [flat_map] in Hs. fold (saves_of c h) in Hs.
      destruct (Nat.eqb_spec c' c) as [->|Hne].
      * rewrite Hc in E. cbn [mc_samples mc_count] in E. simpl in Hs. inversion Hs as [|? ? Hvs Hs']; subst.
        assert (Hsv : saves_of c (MSave c vs :: h) = vs :: saves_of c h).
        { unfold saves_of. cbn [flat_map]. rewrite Nat.eqb_refl. reflexivity. }
        assert (Hcases : leaves sample = [] \/ leaves sample <> []) by (destruct (leaves sample); [left; auto|right; discriminate]).
        destruct Hcases as [Hnil|Hne].
        -- rewrite Hnil in E. simpl in E. inversion E; subst. 
           apply (Hgen (vss ++ [vs]) (S count) locked); auto.
           ++ simpl. rewrite nth_error_upd_same by auto. rewrite Hnil. reflexivity.
           ++ rewrite Hsv, <- app_assoc. reflexivity.
           ++ apply Forall_app; auto.
           ++ intros; contradiction.
        -- rewrite (Hn Hne) in E. destruct (Nat.lt_ge_cases (length vss) K) as [Hlt|Hge].
           ++ rewrite Nat.min_r in E by lia. rewrite <- (eq_refl : skipn 0 vs = vs) in E.
              rewrite filled_np_set with (n := length (leaves sample)) in E by auto. 
              inversion E; subst. apply (Hgen (vss ++ [vs]) (S (length vss)) locked); auto.
              ** simpl. rewrite nth_error_upd_same by auto. reflexivity.
              ** rewrite Hsv, <- app_assoc. reflexivity.
              ** apply Forall_app; auto.
              ** intros _. rewrite app_length. simpl. lia.
           ++ rewrite Nat.min_l in E by lia. destruct (leaves sample) as [|l ls] eqn:El; [congruence|].
              rewrite filled_np_set_fail with (n := length (l :: ls)) in E by auto. inversion E; subst.
              apply (Hgen (vss ++ [vs]) count locked); auto.
              ** rewrite (@filled_full K vss 0 (l :: ls)) by lia. exact Hc.
              ** rewrite Hsv, <- app_assoc. reflexivity.
              ** apply Forall_app; auto.
              ** intros _. rewrite (Hn Hne), app_length. simpl. lia.
      * simpl in Hs. assert (Hsv : saves_of c (MSave c' vs :: h) = saves_of c h).
        { unfold saves_of. cbn [flat_map]. destruct (Nat.eqb_spec c' c); [congruence|]. reflexivity. }
        apply (Hgen vss count locked); auto; [|now rewrite Hsv].
        destruct (nth_error (mc_chains m) c') as [ch|]; [|inversion E; subst; auto].
        destruct (np_set_all (mc_samples ch) (mc_count ch) vs); inversion E; subst; auto. simpl.
        rewrite nth_error_upd_other; auto.
    + destruct (mc_finalize m c') as [m1' r] eqn:E. inversion Estep; subst m1' out. clear Estep.
      assert (Hch : mc_chains m1 = mc_chains (fst (mc_release m c'))).
      { unfold mc_finalize in E. destruct (mc_release m c') as [mr [?|?]]; inversion E; subst; auto.
        unfold mc_savez. simpl. destruct (mc_dir mr); auto. destruct (nth_error (mc_chains mr) c'); auto. }
      assert (Hll : forall l, lastn_locked l (MFinalize c' :: h) c = if c' =? c then false else lastn_locked l h c).
      { intros l. unfold lastn_locked. simpl. destruct (c' =? c); auto. }
      assert (Hlf : lastn_locked false h c = false) by (unfold lastn_locked; destruct (existsb _ h); auto).
      unfold mc_release in Hch. destruct (Nat.eqb_spec c' c) as [->|Hne].
      * rewrite Hc in Hch. cbn [mc_locked] in Hch. apply (Hgen vss count false); auto.
        -- rewrite Hch. destruct locked; simpl; [rewrite nth_error_upd_same; auto|exact Hc].
        -- rewrite Hll. rewrite ?Nat.eqb_refl. exact Hlf.
      * apply (Hgen vss count locked); auto.
        -- rewrite Hch. destruct (nth_error (mc_chains m) c') as [ch|]; auto. destruct (mc_locked ch); auto. simpl.
           rewrite nth_error_upd_other; auto.
    + inversion Estep; subst. apply (Hgen vss count locked); auto.
Qed.

(** registration *)
Lemma mc_register_ok m (sample : tree V) K c m' : mc_register zeros_like m sample K = (m', Ok c) ->
  exists names, c = length (mc_chains m) /\
    nth_error (mc_chains m') c = Some (mkMc true (filled_from K [] 0 (leaves sample)) 0 (tree_map (fun _ => tt) sample) names) /\
    (mc_dir m = true -> exists ks, dict_keys sample = Ok ks /\ names = map (join "/") ks) /\ mc_dir m' = mc_dir m /\ mc_npz m' = mc_npz m.
Proof.
  unfold mc_register. intros H.
  match type of H with context[match ?x with Ok _ => _ | Exc _ => _ end] => destruct x as [ns|] eqn:E end; inversion H; subst.
  exists ns. split; auto. simpl. rewrite nth_error_app2, Nat.sub_diag by lia. simpl. rewrite filled_init. split; auto.
  split; auto. intros Hd. rewrite Hd in E. destruct (dict_keys sample) as [ks|]; inversion E; subst. eauto.
Qed.

Lemma mc_result_ok locked (sample : tree V) K vss count names :
  exists t, mc_result (mkMc locked (filled_from K vss 0 (leaves sample)) count (tree_map (fun _ => tt) sample) names) = Ok t /\
    holds_samples zeros_like sample K vss t /\ leaves t = filled_from K vss 0 (leaves sample).
Proof.
  unfold mc_result. cbn [mc_treedef mc_samples].
  destruct (@unflatten_ok unit (list V) (tree_map (fun _ => tt) sample) (filled_from K vss 0 (leaves sample))) as (t & E & L & S).
  { rewrite filled_from_length, leaves_map, map_length. reflexivity. }
  exists t. split; auto. split; auto. apply filled_holds; auto.
  eapply structure_trans; [exact S|]. unfold same_structure.
  symmetry. exact (@same_structure_map V V unit (fun _ => tt) sample sample eq_refl).
Qed.

Lemma final_memory dir h1 (sample : tree V) K c h2 :
  let m1 := fst (run (mstep zeros_like) (mc_new dir) h1) in
  snd (mstep zeros_like m1 (MRegister sample K)) = OutId (Ok c) ->
  Forall (fun vs => length vs = length (leaves sample)) (saves_of c h2) ->
  let m := fst (run (mstep zeros_like) (mc_new dir) (h1 ++ MRegister sample K :: h2)) in
  (~ In (MFinalize c) h2 -> mc_finished m c = None) /\
  (In (MFinalize c) h2 -> exists t, mc_finished m c = Some (Ok t) /\ holds_samples zeros_like sample K (saves_of c h2) t).
Proof.
  intros m1 Hreg Hs m. subst m m1. rewrite run_app.
  destruct (run (mstep zeros_like) (mc_new dir) h1) as [m1' o1] eqn:E1. cbn [fst run] in *.
  cbn [mstep] in Hreg. cbn [mstep]. destruct (mc_register zeros_like m1' sample K) as [m2 r] eqn:Er. cbn [snd] in Hreg.
  inversion Hreg; subst r. destruct (mc_register_ok _ _ _ Er) as (names & Hc & Hn & _).
  destruct (@mc_run_ok c sample K names h2 m2 [] 0 true Hn) as (count' & Hfin & _); auto; [simpl; lia|].
  destruct (run (mstep zeros_like) m2 h2) as [m3 o3] eqn:E3. cbn [fst] in *.
  unfold mc_finished. rewrite Hfin. cbn [mc_locked]. unfold lastn_locked.
  destruct (existsb (fun o => match o with MFinalize c' => c' =? c | _ => false end) h2) eqn:Ex.
  - split.
    + intros Hnot. exfalso. apply existsb_exists in Ex. destruct Ex as (o & Hin & Ho). destruct o; try discriminate.
      apply Nat.eqb_eq in Ho. subst. auto.
    + intros _. destruct (@mc_result_ok false sample K (saves_of c h2) count' names) as (t & E & Ht & _). exists t.
      simpl in E. split; [f_equal; exact E|exact Ht].
  - split; auto. intros Hin. exfalso. assert (Ht : existsb (fun o => match o with MFinalize c' => c' =? c | _ => false end) h2 = true).
    { apply existsb_exists. exists (MFinalize c). split; auto. apply Nat.eqb_refl. }
    rewrite Ht in Ex. discriminate.
Qed.
End F.
