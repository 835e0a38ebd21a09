From Coq Require Import Reals Lra.
From Verif Require Import Base ListUtil Pytree PytreeSpec PytreeProofs Io IoProofs TreeUtil TreeUtilSpec TreeUtilProofs.
Open Scope R_scope.
Set Implicit Arguments.

Definition d0 : arr := mkArr [] [].
Arguments size : simpl never.
(** stacking arrays of one shape and taking a row *)
Lemma stack_ok s (xs : list arr) : xs <> [] -> Forall (fun x => ashape x = s /\ wf_arr x) xs ->
  stack xs = Ok (mkArr (length xs :: s) (flat_map adata xs)).
Proof.
  intros Hne H. unfold stack. destruct xs as [|x xs]; [contradiction|].
  assert (Hs : ashape x = s) by (inversion H; tauto).
  replace (forallb _ _) with true; [now rewrite Hs|]. symmetry. apply forallb_forall. intros y Hy. rewrite Forall_forall in H.
  rewrite Hs. destruct (H y Hy) as [-> _]. apply shape_eqb_refl.
Qed.
Lemma flat_row s (xs : list arr) : Forall (fun x => ashape x = s /\ wf_arr x) xs -> forall i, (i < length xs)%nat ->
  firstn (size s) (skipn (i * size s) (flat_map adata xs)) = adata (nth i xs d0).
Proof.
  induction 1 as [|x xs [Hs Hw] H IH]; intros i Hi; cbn [length] in Hi; [lia|].
  assert (Hl : length (adata x) = size s) by (unfold wf_arr in Hw; congruence).
  destruct i as [|i]; cbn [flat_map nth].
  - cbn [Nat.mul skipn]. rewrite firstn_app, <- Hl, Nat.sub_diag, firstn_all. cbn. apply app_nil_r.
  - replace (S i * size s)%nat with (length (adata x) + i * size s)%nat by (rewrite Hl; lia).
    rewrite skipn_app. rewrite skipn_all2 by lia. cbn [app].
    replace (length (adata x) + i * size s - length (adata x))%nat with (i * size s)%nat by lia. apply IH. lia.
Qed.
Lemma row_stack s (xs : list arr) : Forall (fun x => ashape x = s /\ wf_arr x) xs -> forall i, (i < length xs)%nat ->
  row i (mkArr (length xs :: s) (flat_map adata xs)) = Ok (nth i xs d0).
Proof.
  intros H i Hi. unfold row. cbn [ashape adata]. rewrite flat_row by assumption. f_equal.
  rewrite Forall_forall in H. destruct (H (nth i xs d0)) as [E _]; [now apply nth_In|]. destruct (nth i xs d0); cbn in *; congruence.
Qed.

(** columns of a table of arrays *)
Definition cols (n : nat) (lss : list (list arr)) : list (list arr) := map (fun j => map (fun l => nth j l d0) lss) (seq 0 n).
Lemma heads_ok A (d : A) (ls : list (list A)) : Forall (fun l => l <> []) ls -> heads ls = Some (map (hd d) ls, map (@tl A) ls).
Proof. induction 1 as [|l ls Hl H IH]; cbn; auto. destruct l; [contradiction|]. rewrite IH. reflexivity. Qed.
Lemma transpose_cols n : forall lss, lss <> [] -> Forall (fun l => (n <= length l)%nat) lss -> transpose n lss = cols n lss.
Proof.
  induction n as [|n IH]; intros lss Hne H; [reflexivity|]. cbn [transpose]. destruct lss as [|l0 lss0]; [contradiction|].
  rewrite (heads_ok d0).
  2:{ eapply Forall_impl; [|exact H]. intros l Hl E. subst l. cbn in Hl. lia. }
  rewrite IH.
  - unfold cols. generalize (l0 :: lss0). intros lss. change (seq 0 (S n)) with (0%nat :: seq 1 n).
    match goal with |- _ = map ?f (?a :: ?l) => change (map f (a :: l)) with (f a :: map f l) end. f_equal.
    + apply map_ext. intros [|? ?]; reflexivity.
    + rewrite <- seq_shift, map_map. apply map_ext. intros j. rewrite map_map. apply map_ext. intros [|? ?]; [destruct j|]; reflexivity.
  - cbn. discriminate.
  - apply Forall_forall. intros l Hl. apply in_map_iff in Hl as (l' & <- & Hl'). rewrite Forall_forall in H. specialize (H _ Hl').
    destruct l'; cbn in *; lia.
Qed.
Lemma cols_snoc n lss l : (n <= length l)%nat -> cols n (lss ++ [l]) = zip_with (fun xs x => xs ++ [x]) (cols n lss) (firstn n l).
Proof.
  intros H. unfold cols.
  assert (G : forall a m, (a + m <= length l)%nat -> map (fun j => map (fun l1 => nth j l1 d0) (lss ++ [l])) (seq a m) =
     zip_with (fun xs x => xs ++ [x]) (map (fun j => map (fun l1 => nth j l1 d0) lss) (seq a m)) (firstn m (skipn a l))).
  { intros a m. revert a. induction m as [|m IH]; intros a Hm; [reflexivity|]. cbn [seq map].
    assert (E : skipn a l = nth a l d0 :: skipn (S a) l).
    { clear - Hm. revert a Hm. induction l as [|x l IH]; intros a Hm; cbn in Hm; [lia|]. destruct a; [reflexivity|]. cbn [skipn nth]. apply IH. lia. }
    rewrite E. cbn [firstn zip_with]. rewrite <- IH by lia. rewrite map_app. reflexivity. }
  specialize (G 0%nat n H). cbn [skipn] in G. exact G.
Qed.
Definition table (shapes : list (list nat)) (lss : list (list arr)) : Prop := Forall (fun l => map ashape l = shapes /\ Forall wf_arr l) lss.
Lemma nth_ashape (l : list arr) j : nth j (map ashape l) [] = ashape (nth j l d0).
Proof. change [] with (ashape d0). apply map_nth. Qed.
Lemma table_col shapes lss j : table shapes lss -> (j < length shapes)%nat -> Forall (fun x => ashape x = nth j shapes [] /\ wf_arr x) (map (fun l => nth j l d0) lss).
Proof.
  intros H Hj. apply Forall_forall. intros x Hx. apply in_map_iff in Hx as (l & <- & Hl). unfold table in H. rewrite Forall_forall in H.
  destruct (H l Hl) as [E W]. split; [rewrite <- E; symmetry; apply nth_ashape|]. rewrite Forall_forall in W. apply W, nth_In.
  rewrite <- (map_length ashape), E. exact Hj.
Qed.
Lemma stacked shapes lss : lss <> [] -> table shapes lss ->
  exists SL, mapM stack (cols (length shapes) lss) = Ok SL /\ map ashape SL = map (cons (length lss)) shapes /\ Forall wf_arr SL /\
             forall i, (i < length lss)%nat -> mapM (row i) SL = Ok (nth i lss []).
Proof.
  intros Hne Ht.
  exists (map (fun j => let c := map (fun l => nth j l d0) lss in mkArr (length c :: nth j shapes []) (flat_map adata c)) (seq 0 (length shapes))).
  assert (Hc : forall j, (j < length shapes)%nat -> Forall (fun x => ashape x = nth j shapes [] /\ wf_arr x) (map (fun l => nth j l d0) lss)) by (intros; now apply table_col).
  split; [|split; [|split]].
  - unfold cols. rewrite (mapM_ok stack (fun c => match stack c with Ok r => r | _ => d0 end)).
    + rewrite map_map. f_equal. apply map_ext_in. intros j Hj. apply in_seq in Hj. rewrite (stack_ok (s := nth j shapes [])); auto; [|apply Hc; lia].
      destruct lss; [contradiction|discriminate].
    + intros c Hin. apply in_map_iff in Hin as (j & <- & Hj). apply in_seq in Hj. rewrite (stack_ok (s := nth j shapes [])); auto; [|apply Hc; lia].
      destruct lss; [contradiction|discriminate].
  - rewrite map_map. cbn [ashape]. apply nth_ext with [] []; [now rewrite !map_length, seq_length|].
    intros i Hi. rewrite map_length, seq_length in Hi.
    rewrite nth_indep with (d' := (fun x => length (map (fun l => nth x l d0) lss) :: nth x shapes []) 0%nat) by (rewrite map_length, seq_length; exact Hi).
    rewrite (map_nth (fun x => length (map (fun l => nth x l d0) lss) :: nth x shapes [])), seq_nth by assumption.
    rewrite nth_indep with (l := map (cons (length lss)) shapes) (d' := (cons (length lss)) []) by (rewrite map_length; exact Hi).
    rewrite map_nth, map_length. reflexivity.
  - apply Forall_forall. intros x Hx. apply in_map_iff in Hx as (j & <- & Hj). apply in_seq in Hj. unfold wf_arr. cbn [adata ashape].
    specialize (Hc j ltac:(lia)). set (c := map (fun l => nth j l d0) lss) in *. clearbody c. unfold size at 1. cbn [fold_right]. fold (size (nth j shapes [])).
    induction Hc as [|y c [Hy Wy] Hc IH]; [reflexivity|]. cbn [flat_map length]. rewrite app_length, IH. unfold wf_arr in Wy. rewrite Wy, Hy. lia.
  - intros i Hi.
    rewrite (mapM_ok (row i) (fun x => match row i x with Ok r => r | _ => d0 end)).
    + f_equal. rewrite map_map. assert (Hl : In (nth i lss []) lss) by now apply nth_In.
      unfold table in Ht. rewrite Forall_forall in Ht. destruct (Ht _ Hl) as [E W].
      assert (Hlen : length (nth i lss []) = length shapes) by (rewrite <- E; now rewrite map_length).
      apply nth_ext with d0 d0; [rewrite map_length, seq_length; auto|]. intros j Hj. rewrite map_length, seq_length in Hj.
      match goal with |- nth j (map ?f _) _ = _ => rewrite nth_indep with (d' := f 0%nat) by (rewrite map_length, seq_length; exact Hj); rewrite (map_nth f), seq_nth by assumption end.
      cbn beta zeta. cbn [Nat.add]. rewrite row_stack; [|now apply Hc|now rewrite map_length].
      rewrite nth_indep with (d' := (fun l => nth j l d0) []) by (rewrite map_length; exact Hi). now rewrite (map_nth (fun l => nth j l d0)).
    + intros x Hx. apply in_map_iff in Hx as (j & <- & Hj). apply in_seq in Hj. cbn zeta. rewrite row_stack; auto; [apply Hc; lia|now rewrite map_length].
Qed.

Definition alike (t0 : vtree) (ts : list vtree) : Prop := Forall (fun t => same_shape t t0 /\ wfv t) ts.
Lemma alike_table t0 ts : alike t0 ts -> table (map ashape (leaves t0)) (map leaves ts).
Proof. intros H. unfold table. apply Forall_map. eapply Forall_impl; [|exact H]. intros t [[_ S] W]. auto. Qed.
Lemma list_to_leaves_ok t0 ts : alike t0 (t0 :: ts) ->
  exists u, list_to_leaves (t0 :: ts) = Ok u /\ same_structure u t0 /\ map ashape (leaves u) = map (cons (S (length ts))) (map ashape (leaves t0)) /\ wfv u /\
    forall i, (i < S (length ts))%nat -> mapM (row i) (leaves u) = Ok (leaves (nth i (t0 :: ts) t0)).
Proof.
  intros H. unfold list_to_leaves, pyzip. cbn [map].
  pose proof (alike_table H) as Ht. cbn [map] in Ht.
  rewrite transpose_cols; [|discriminate|].
  2:{ eapply Forall_impl; [|exact Ht]. intros l [E _]. rewrite <- (map_length ashape l), E, map_length. auto. }
  destruct (@stacked (map ashape (leaves t0)) (leaves t0 :: map leaves ts)) as (SL & E & Sh & W & Rw); [discriminate|exact Ht|].
  rewrite map_length in E. rewrite E. cbn [bind].
  destruct (@unflatten_ok _ _ t0 SL) as (u & Eu & Lu & Su).
  { apply mapM_len in E. rewrite E. unfold cols. now rewrite map_length, seq_length. }
  exists u. split; auto. split; auto. unfold wfv. rewrite Lu. cbn [length] in *. rewrite map_length in *. split; auto. split; auto.
  intros i Hi. rewrite Rw by assumption. f_equal. rewrite <- (map_nth leaves (t0 :: ts) t0 i). cbn [map]. apply nth_indep. cbn. rewrite map_length. exact Hi.
Qed.
Lemma map_nth_seq A (l : list A) d : map (fun i => nth i l d) (seq 0 (length l)) = l.
Proof.
  apply nth_ext with d d; [now rewrite map_length, seq_length|]. intros i Hi. rewrite map_length, seq_length in Hi.
  rewrite nth_indep with (d' := nth 0 l d) by (rewrite map_length, seq_length; exact Hi).
  rewrite (map_nth (fun i => nth i l d)), seq_nth by assumption. reflexivity.
Qed.
(** slices of a stacked tree *)
Lemma slices_ok t0 ts (u : vtree) : alike t0 (t0 :: ts) -> same_structure u t0 ->
  (forall i, (i < S (length ts))%nat -> mapM (row i) (leaves u) = Ok (leaves (nth i (t0 :: ts) t0))) ->
  mapM (fun i => tree_mapM (row i) u) (seq 0 (S (length ts))) = Ok (t0 :: ts).
Proof.
  intros H Su Hrow. rewrite (mapM_ok (fun i => tree_mapM (row i) u) (fun i => nth i (t0 :: ts) t0)).
  - f_equal. apply (map_nth_seq (t0 :: ts) t0).
  - intros i Hi. apply in_seq in Hi. unfold tree_mapM. rewrite Hrow by lia. cbn [bind].
    assert (Hin : In (nth i (t0 :: ts) t0) (t0 :: ts)) by (apply nth_In; cbn; lia).
    unfold alike in H. rewrite Forall_forall in H. destruct (H _ Hin) as [[S1 S2] W].
    destruct (@unflatten_ok _ _ u (leaves (nth i (t0 :: ts) t0))) as (v & -> & Lv & Sv).
    { rewrite (structure_leaves S1), <- (structure_leaves Su). reflexivity. }
    f_equal. apply tree_ext; auto. unfold same_structure in *. congruence.
Qed.
Lemma leaves_to_list_ok t0 ts (u : vtree) : alike t0 (t0 :: ts) -> leaves t0 <> [] -> same_structure u t0 ->
  map ashape (leaves u) = map (cons (S (length ts))) (map ashape (leaves t0)) ->
  (forall i, (i < S (length ts))%nat -> mapM (row i) (leaves u) = Ok (leaves (nth i (t0 :: ts) t0))) ->
  leaves_to_list u = Ok (t0 :: ts).
Proof.
  intros H Hne Su Sh Hrow. unfold leaves_to_list. destruct (leaves u) as [|l ls] eqn:El.
  - pose proof (structure_leaves Su) as E. rewrite El in E. destruct (leaves t0); [contradiction|discriminate].
  - destruct (leaves t0) as [|l0 ls0] eqn:E0; [contradiction|]. cbn [map] in Sh. inversion Sh as [[Hs Hss]]. rewrite Hs.
    rewrite <- El. pose proof (@slices_ok t0 ts u H Su) as Hsl. unfold tree_mapM in Hsl. apply Hsl. rewrite El. exact Hrow.
Qed.
Lemma roundtrip t0 ts : alike t0 (t0 :: ts) -> leaves t0 <> [] -> exists u, list_to_leaves (t0 :: ts) = Ok u /\ leaves_to_list u = Ok (t0 :: ts).
Proof.
  intros H Hne. destruct (list_to_leaves_ok H) as (u & E & S1 & S2 & W & Hrow). exists u. split; auto. eapply leaves_to_list_ok; eauto.
Qed.
(** stacking the results inside vmap *)
Lemma stack_fold t0 : forall rest done, alike t0 (t0 :: done) -> alike t0 rest -> forall acc, same_structure acc t0 ->
  leaves acc = cols (length (leaves t0)) (map leaves (t0 :: done)) ->
  exists st, fold_left (fun a r => let* a := a in tree_map2 (fun xs x => xs ++ [x]) a r) rest (Ok acc) = Ok st /\
    same_structure st t0 /\ leaves st = cols (length (leaves t0)) (map leaves (t0 :: done ++ rest)).
Proof.
  induction rest as [|r rest IH]; intros done Hd Hr acc Sa La; cbn [fold_left].
  - exists acc. rewrite app_nil_r. auto.
  - inversion Hr as [|? ? [[S1 S2] W] Hr']; subst. cbn [bind].
    assert (S3 : same_structure acc r) by (unfold same_structure in *; congruence).
    destruct (tree_map2_ok (fun (xs : list arr) x => xs ++ [x]) S3) as (acc' & -> & Sa' & La').
    destruct (IH (done ++ [r])) with (acc := acc') as (st & E & Ss & Ls); auto.
    + unfold alike in *. rewrite app_comm_cons. apply Forall_app. split; auto. constructor; auto. split; auto. split; auto.
    + unfold same_structure in *. congruence.
    + rewrite La', La. rewrite app_comm_cons, map_app. cbn [map].
      rewrite cols_snoc.
      * rewrite (structure_leaves S1 : length (leaves r) = length (leaves t0)) || idtac. f_equal.
        rewrite <- (structure_leaves S1). now rewrite firstn_all.
      * rewrite (structure_leaves S1). auto.
    + exists st. split; auto. split; auto. rewrite Ls. rewrite <- app_assoc. reflexivity.
Qed.
Lemma vmap_ok (f : vtree -> res vtree) t0 ts r0 rs : alike t0 (t0 :: ts) -> leaves t0 <> [] -> mapM f (t0 :: ts) = Ok (r0 :: rs) -> alike r0 (r0 :: rs) ->
  forall u, list_to_leaves (t0 :: ts) = Ok u -> vmap f u = list_to_leaves (r0 :: rs).
Proof.
  intros H Hne Hf Hr u Eu. destruct (list_to_leaves_ok H) as (u' & E & S1 & S2 & W & Hrow). assert (u' = u) by congruence. subst u'.
  unfold vmap. destruct (leaves u) as [|l ls] eqn:El.
  { pose proof (structure_leaves S1) as E'. rewrite El in E'. destruct (leaves t0); [contradiction|discriminate]. }
  assert (Hlead : forall x, In x (l :: ls) -> lead x = Ok (S (length ts))).
  { intros x Hx. assert (Hx' : In (ashape x) (map ashape (l :: ls))) by now apply in_map. rewrite S2 in Hx'.
    apply in_map_iff in Hx' as (s & Es & _). unfold lead. now rewrite <- Es. }
  rewrite (Hlead l) by now left. cbn [bind]. rewrite (mapM_ok lead (fun _ => S (length ts)) (l :: ls)) by exact Hlead. cbn [bind].
  replace (forallb _ _) with true.
  2:{ symmetry. apply forallb_forall. intros x Hx. apply in_map_iff in Hx as (y & <- & _). apply Nat.eqb_refl. }
  rewrite (slices_ok H S1) by (rewrite El; exact Hrow). cbn [bind]. rewrite Hf. cbn [bind].
  destruct (@stack_fold r0 rs [] ) with (acc := tree_map (fun x : arr => [x]) r0) as (st & E2 & Ss & Ls).
  - constructor; auto. unfold alike in Hr. now inversion Hr.
  - unfold alike in *. now inversion Hr.
  - apply same_structure_tree_map.
  - rewrite leaves_tree_map. cbn [map]. unfold cols. cbn [map]. apply nth_ext with [d0] [d0]; [now rewrite !map_length, seq_length|].
    intros i Hi. rewrite map_length in Hi. rewrite (map_nth (fun x : arr => [x])).
    rewrite nth_indep with (l := map _ (seq _ _)) (d' := (fun j => [nth j (leaves r0) d0]) 0%nat) by (rewrite map_length, seq_length; exact Hi).
    rewrite (map_nth (fun j => [nth j (leaves r0) d0])), seq_nth by assumption. reflexivity.
  - rewrite E2. cbn [bind]. unfold tree_mapM, list_to_leaves, pyzip. cbn [app map] in *. rewrite Ls.
    rewrite transpose_cols; [|discriminate|].
    + destruct (mapM stack _) as [SL|]; [|reflexivity]. cbn [bind].
      unfold unflatten. assert (Ef : forall A B C (a : tree A) (b : tree B) (l : list C), same_structure a b -> fill a l = fill b l).
      { clear. unfold same_structure. intros A B C a. induction a as [x|k ch IH] using tree_ind'; intros [y|k' ch'] l S; cbn [tree_map] in S; try discriminate; [reflexivity|].
        inversion S as [[Ek Ech]]. subst k'. rewrite !fill_node. enough (G : fills ch l = fills ch' l) by now rewrite G. clear S.
        revert ch' Ech l. induction IH as [|x ch Hx HF IHl]; intros [|y ch'] Ech l; cbn [map] in Ech; try discriminate; [reflexivity|].
        inversion Ech. cbn [fills]. rewrite (Hx y l) by assumption. destruct (fill y l); cbn [bind]; [|reflexivity]. rewrite (IHl ch') by assumption. reflexivity. }
      now rewrite (Ef _ _ _ st r0 SL Ss).
    + pose proof (alike_table Hr) as Ht. eapply Forall_impl; [|exact Ht]. intros x [Ex _]. rewrite <- (map_length ashape x), Ex, map_length. auto.
Qed.
Lemma final_list_vmap (f : vtree -> res vtree) t0 ts r0 rs : alike t0 (t0 :: ts) -> leaves t0 <> [] -> mapM f (t0 :: ts) = Ok (r0 :: rs) ->
  alike r0 (r0 :: rs) -> leaves r0 <> [] -> list_vmap f (t0 :: ts) = Ok (r0 :: rs).
Proof.
  intros H Hne Hf Hr Hnr. unfold list_vmap. destruct (list_to_leaves_ok H) as (u & E & _). rewrite E. cbn [bind].
  rewrite (@vmap_ok f t0 ts r0 rs H Hne Hf Hr u E). destruct (roundtrip Hr Hnr) as (v & -> & Ev). exact Ev.
Qed.
