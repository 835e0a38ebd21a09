From Coq Require Import String Ascii DecimalString DecimalNat.
From Verif Require Import Base ListUtil Pytree PytreeSpec.
Set Implicit Arguments.

(** ** trees *)
Section Ind.
Context {A : Type}.
Variable P : tree A -> Prop.
Hypothesis Hleaf : forall a, P (Leaf a).
Hypothesis Hnode : forall k ch, Forall P ch -> P (Node k ch).
Fixpoint tree_ind' (t : tree A) : P t :=
  match t with
  | Leaf a => Hleaf a
  | Node k ch => Hnode k ((fix go (l : list (tree A)) : Forall P l :=
                  match l with [] => Forall_nil P | x :: r => Forall_cons x (tree_ind' x) (go r) end) ch)
  end.
End Ind.

(** list version of fill *)
Fixpoint fills {A B} (ts : list (tree A)) (bs : list B) : res (list (tree B) * list B) :=
  match ts with
  | [] => Ok ([], bs)
  | x :: xs => let* xr := fill x bs in let* xsr := fills xs (snd xr) in Ok (fst xr :: fst xsr, snd xsr)
  end.
Lemma fill_node A B k (ch : list (tree A)) (bs : list B) :
  fill (Node k ch) bs = let* cr := fills ch bs in Ok (Node k (fst cr), snd cr).
Proof.
  cbn [fill]. match goal with |- bind (?f ch bs) _ = _ => assert (H : forall bs, f ch bs = fills ch bs) end.
  { clear. induction ch as [|x xs IH]; intros bs; simpl; auto. destruct (fill x bs) as [[y r]|]; simpl; auto. now rewrite IH. }
  now rewrite H.
Qed.

Lemma fill_ok A B (t : tree A) : forall (bs rest : list B), length bs = length (leaves t) ->
  exists t', fill t (bs ++ rest) = Ok (t', rest) /\ leaves t' = bs /\ same_structure t' t.
Proof.
  induction t as [a|k ch IH] using tree_ind'; intros bs rest Hl.
  - destruct bs as [|b [|]]; try discriminate. exists (Leaf b). repeat split.
  - assert (H : exists ch', fills ch (bs ++ rest) = Ok (ch', rest) /\ flat_map leaves ch' = bs /\
                 map (tree_map (fun _ => tt)) ch' = map (tree_map (fun _ => tt)) ch).
    { simpl in Hl. revert bs Hl. induction IH as [|x xs Hx _ IHxs]; intros bs Hl; simpl in Hl.
      - destruct bs; [|discriminate]. exists []. repeat split.
      - rewrite app_length in Hl.
        destruct (Hx (firstn (length (leaves x)) bs) (skipn (length (leaves x)) bs ++ rest)) as (x' & Ex & Lx & Sx).
        { rewrite firstn_length. lia. }
        destruct (IHxs (skipn (length (leaves x)) bs)) as (xs' & Exs & Lxs & Sxs).
        { rewrite skipn_length. lia. }
        exists (x' :: xs'). cbn [fills]. rewrite app_assoc, firstn_skipn in Ex. rewrite Ex. cbn [bind fst snd]. rewrite Exs.
        cbn [bind fst snd]. split; [reflexivity|]. split; [simpl; rewrite Lx, Lxs; apply firstn_skipn|].
        simpl. f_equal; auto. }
    destruct H as (ch' & E & L & S). exists (Node k ch'). rewrite fill_node, E. cbn [bind fst snd].
    split; [reflexivity|]. split; [exact L|]. unfold same_structure. simpl. now rewrite S.
Qed.

Lemma unflatten_ok A B (t : tree A) (bs : list B) : length bs = length (leaves t) ->
  exists t', unflatten t bs = Ok t' /\ leaves t' = bs /\ same_structure t' t.
Proof.
  intros H. destruct (fill_ok t bs [] H) as (t' & E & L & S). rewrite app_nil_r in E.
  exists t'. unfold unflatten. rewrite E. simpl. auto.
Qed.

Lemma leaves_map A B (f : A -> B) (t : tree A) : leaves (tree_map f t) = map f (leaves t).
Proof.
  induction t as [a|k ch IH] using tree_ind'; simpl; auto.
  induction IH as [|x xs Hx _ IHxs]; simpl; auto. now rewrite map_app, Hx, IHxs.
Qed.

(** a tree is determined by its structure and its leaves *)
Lemma tree_ext A (t : tree A) : forall u : tree A, same_structure t u -> leaves t = leaves u -> t = u.
Proof.
  unfold same_structure. induction t as [a|k ch IH] using tree_ind'; intros [b|k' ch'] S L; simpl in *; try discriminate.
  - congruence.
  - inversion S as [[Ek Ech]]; clear S; subst k'. f_equal. revert ch' Ech L.
    induction IH as [|x xs Hx _ IHxs]; intros [|y ys] S L; simpl in *; try discriminate; auto.
    inversion S. assert (Hlen : length (leaves x) = length (leaves y)).
    { rewrite <- (map_length (fun _ => tt)), <- leaves_map, H0, leaves_map, map_length. reflexivity. }
    assert (Hx' : leaves x = leaves y).
    { apply (f_equal (firstn (length (leaves x)))) in L. rewrite firstn_app, Nat.sub_diag, firstn_all in L.
      simpl in L. rewrite app_nil_r in L. rewrite Hlen in L.
      rewrite firstn_app, Nat.sub_diag, firstn_all in L. simpl in L. now rewrite app_nil_r in L. }
    f_equal; [apply Hx; auto|]. apply IHxs; auto. rewrite Hx' in L. now apply app_inv_head in L.
Qed.

Lemma graft_map A (t : tree A) : graft (tree_map Leaf t) = t.
Proof.
  induction t as [a|k ch IH] using tree_ind'; simpl; auto. f_equal.
  induction IH as [|x xs Hx _ IHxs]; simpl; auto. now rewrite Hx, IHxs.
Qed.

Lemma same_structure_map A B C (f : B -> C) (t : tree A) (u : tree B) : same_structure t u -> same_structure t (tree_map f u).
Proof.
  unfold same_structure. intros ->. induction u as [a|k ch IH] using tree_ind'; simpl; auto. f_equal. rewrite map_map.
  induction IH as [|x xs Hx _ IHxs]; simpl; auto. now rewrite Hx, IHxs.
Qed.

(** ** string order *)
Lemma sltb_irrefl a : sltb a a = false.
Proof. induction a; simpl; auto. rewrite Nat.ltb_irrefl, Nat.eqb_refl. exact IHa. Qed.
Lemma sltb_trans a b c : sltb a b = true -> sltb b c = true -> sltb a c = true.
Proof.
  revert b c. induction a as [|x a IH]; intros [|y b] [|z c]; simpl; try congruence; intros H1 H2.
  destruct (Nat.ltb_spec (nat_of_ascii x) (nat_of_ascii y)), (Nat.ltb_spec (nat_of_ascii y) (nat_of_ascii z)),
    (Nat.ltb_spec (nat_of_ascii x) (nat_of_ascii z)), (Nat.eqb_spec (nat_of_ascii x) (nat_of_ascii y)),
    (Nat.eqb_spec (nat_of_ascii y) (nat_of_ascii z)), (Nat.eqb_spec (nat_of_ascii x) (nat_of_ascii z));
    try discriminate; try lia; auto. eapply IH; eauto.
Qed.
Lemma sltb_total a b : sltb a b = false -> a <> b -> sltb b a = true.
Proof.
  revert b. induction a as [|x a IH]; intros [|y b]; simpl; try congruence. intros H Hn.
  destruct (Nat.ltb_spec (nat_of_ascii x) (nat_of_ascii y)); [discriminate|].
  destruct (Nat.ltb_spec (nat_of_ascii y) (nat_of_ascii x)); auto.
  destruct (Nat.eqb_spec (nat_of_ascii x) (nat_of_ascii y)) as [E|]; [|lia]. rewrite E, Nat.eqb_refl.
  apply IH; auto. intros ->. apply Hn. f_equal. 
  rewrite <- (ascii_nat_embedding x), <- (ascii_nat_embedding y). congruence.
Qed.
Lemma sltb_neq a b : sltb a b = true -> a <> b.
Proof. intros H ->. rewrite sltb_irrefl in H. discriminate. Qed.

Lemma sorted_cons a l : strictly_sorted (a :: l) <-> Forall (fun b => sltb a b = true) l /\ strictly_sorted l.
Proof.
  revert a. induction l as [|b l IH]; intros a; [simpl; intuition constructor|].
  change (strictly_sorted (a :: b :: l)) with (sltb a b = true /\ strictly_sorted (b :: l)).
  rewrite (IH b). split.
  - intros (H1 & H2 & H3). repeat split; auto. constructor; auto. eapply Forall_impl; [|exact H2].
    simpl. intros c Hc. eapply sltb_trans; eauto.
  - intros (H1 & H2 & H3). inversion H1; subst. auto.
Qed.
Lemma sorted_nodup l : strictly_sorted l -> NoDup l.
Proof.
  induction l as [|a l IH]; intros H; constructor; apply sorted_cons in H; destruct H as [H1 H2]; auto.
  intros Hin. rewrite Forall_forall in H1. specialize (H1 a Hin). now rewrite sltb_irrefl in H1.
Qed.

(** ** dictionaries *)
Lemma dset_keys V k (v : V) d x : In x (map fst (dset k v d)) <-> x = k \/ In x (map fst d).
Proof.
  induction d as [|[k' v'] d IH]; simpl; [intuition|].
  destruct (sltb k k'); [simpl; intuition|]. destruct (String.eqb_spec k k') as [->|]; simpl; intuition.
Qed.
Lemma dset_sorted V k (v : V) d : strictly_sorted (map fst d) -> strictly_sorted (map fst (dset k v d)).
Proof.
  induction d as [|[k' v'] d IH]; intros H; [simpl; auto|].
  cbn [dset fst]. destruct (sltb k k') eqn:E.
  - cbn [map fst] in *. apply sorted_cons. split; auto. apply sorted_cons in H. destruct H as [H1 H2]. constructor; auto.
    eapply Forall_impl; [|exact H1]. simpl. intros c Hc. eapply sltb_trans; eauto.
  - destruct (String.eqb_spec k k') as [->|Hn]; [exact H|]. cbn [map fst] in *. apply sorted_cons in H. destruct H as [H1 H2].
    apply sorted_cons. split; auto. apply Forall_forall. intros x Hx. apply dset_keys in Hx. destruct Hx as [->|Hx].
    + apply sltb_total; auto.
    + rewrite Forall_forall in H1. auto.
Qed.
Lemma dset_perm V k (v : V) d : ~ In k (map fst d) -> Permutation (dset k v d) ((k, v) :: d).
Proof.
  induction d as [|[k' v'] d IH]; intros H; simpl; auto. simpl in H.
  destruct (sltb k k'); auto. destruct (String.eqb_spec k k') as [->|]; [exfalso; auto|].
  rewrite IH by auto. apply perm_swap.
Qed.
Lemma fold_dset V (kvs : list (string * V)) : forall d, strictly_sorted (map fst d) -> NoDup (map fst kvs) ->
  (forall k, In k (map fst kvs) -> ~ In k (map fst d)) ->
  let d' := fold_left (fun d kv => dset (fst kv) (snd kv) d) kvs d in
  strictly_sorted (map fst d') /\ Permutation d' (kvs ++ d).
Proof.
  induction kvs as [|[k v] kvs IH]; intros d Hs Hn Hd; simpl; auto.
  simpl in Hn. inversion Hn; subst. 
  destruct (IH (dset k v d)) as [H1' H2'].
  - now apply dset_sorted.
  - auto.
  - intros x Hx Hin. apply dset_keys in Hin. destruct Hin as [->|Hin]; [auto|]. eapply Hd; eauto. simpl; auto.
  - split; auto. rewrite H2'. rewrite dset_perm by (apply Hd; simpl; auto). 
    rewrite <- Permutation_middle. reflexivity.
Qed.
Lemma dict_of_ok V (kvs : list (string * V)) : NoDup (map fst kvs) ->
  strictly_sorted (map fst (dict_of kvs)) /\ Permutation (dict_of kvs) kvs.
Proof.
  intros H. unfold dict_of. destruct (@fold_dset V kvs []) as [H1 H2]; simpl; auto. rewrite app_nil_r in H2. auto.
Qed.
Lemma sorted_perm_eq V (d d' : list (string * V)) : strictly_sorted (map fst d) -> strictly_sorted (map fst d') ->
  Permutation d d' -> d = d'.
Proof.
  revert d'. induction d as [|[k v] d IH]; intros d' H1 H2 Hp.
  - apply Permutation_nil in Hp. congruence.
  - destruct d' as [|[k' v'] d']; [apply Permutation_sym, Permutation_nil in Hp; discriminate|].
    simpl map in *. apply sorted_cons in H1, H2. destruct H1 as [F1 S1], H2 as [F2 S2].
    rewrite Forall_forall in F1, F2.
    assert (Hin : In (k, v) ((k', v') :: d')) by (eapply Permutation_in; [exact Hp|simpl; auto]).
    assert (Hin' : In (k', v') ((k, v) :: d)) by (eapply Permutation_in; [apply Permutation_sym; exact Hp|simpl; auto]).
    assert (E : (k, v) = (k', v')).
    { destruct Hin as [E|Hin]; [auto|]. destruct Hin' as [E|Hin']; [auto|].
      assert (sltb k' k = true) by (apply F2; change k with (fst (k, v)); now apply in_map).
      assert (sltb k k' = true) by (apply F1; change k' with (fst (k', v')); now apply in_map).
      assert (sltb k k = true) by (eapply sltb_trans; eauto). rewrite sltb_irrefl in *. discriminate. }
    inversion E; subst. f_equal. apply IH; auto. eapply Permutation_cons_inv; eauto.
Qed.
Lemma dict_of_sorted V (kvs : list (string * V)) : strictly_sorted (map fst kvs) -> dict_of kvs = kvs.
Proof.
  intros H. destruct (@dict_of_ok V kvs) as [H1 H2]; [now apply sorted_nodup|]. now apply sorted_perm_eq.
Qed.

Lemma combine_fst_snd (X Y : Type) (l : list (X * Y)) : combine (map fst l) (map snd l) = l.
Proof. induction l as [|[x y] l IH]; simpl; auto. now rewrite IH. Qed.
Lemma map_fst_combine (X Y : Type) (l : list X) (l' : list Y) : length l = length l' -> map fst (combine l l') = l.
Proof. revert l'. induction l; intros [|? l'] H; simpl in *; try discriminate; auto. f_equal. auto. Qed.
Lemma map_snd_combine (X Y : Type) (l : list X) (l' : list Y) : length l = length l' -> map snd (combine l l') = l'.
Proof. revert l'. induction l; intros [|? l'] H; simpl in *; try discriminate; auto. f_equal. auto. Qed.

(** ** names *)
Lemma append_inv_head s a b : append s a = append s b -> a = b.
Proof. induction s; simpl; auto. intros H. inversion H. auto. Qed.
Lemma dec_inj i j : dec i = dec j -> i = j.
Proof.
  unfold dec. intros H. apply (f_equal NilZero.uint_of_string) in H.
  assert (Hn : forall n, Nat.to_uint n <> Decimal.Nil).
  { intros n E. pose proof (DecimalNat.Unsigned.to_of (Nat.to_uint n)) as _.
    assert (Hu : Decimal.unorm (Nat.to_uint n) = Nat.to_uint n).
    { rewrite <- DecimalNat.Unsigned.to_of, DecimalNat.Unsigned.of_to. reflexivity. }
    rewrite E in Hu. discriminate. }
  rewrite !NilZero.usu in H by apply Hn. inversion H. 
  rewrite <- (DecimalNat.Unsigned.of_to i), <- (DecimalNat.Unsigned.of_to j). congruence.
Qed.
Lemma names_nodup pre n : NoDup (map (fun i => append pre (dec i)) (seq 0 n)).
Proof.
  apply FinFun.Injective_map_NoDup; [|apply seq_NoDup]. intros i j H. apply append_inv_head in H. now apply dec_inj.
Qed.
Lemma sorted_firstn l n : strictly_sorted l -> strictly_sorted (firstn n l).
Proof.
  revert n. induction l as [|a l IH]; intros [|n] H; simpl firstn; try exact I.
  apply sorted_cons in H. destruct H as [H1 H2]. apply sorted_cons. split; auto.
  apply Forall_forall. intros x Hx. rewrite Forall_forall in H1. apply H1. 
  rewrite <- (firstn_skipn n l). apply in_or_app. auto.
Qed.
Lemma names_sorted pre n : n <= 10 -> 
  strictly_sorted (map (fun i => append pre (dec i)) (seq 0 n)).
Proof.
  intros H. assert (E : seq 0 n = firstn n (seq 0 10)).
  { replace 10 with (n + (10 - n)) by lia. rewrite seq_app, firstn_app, seq_length, Nat.sub_diag. simpl.
    rewrite app_nil_r. rewrite firstn_all2; auto. rewrite seq_length; lia. }
  rewrite E, <- firstn_map. apply sorted_firstn.
  induction pre as [|c pre IH].
  - simpl. repeat split.
  - cbn [seq map append] in *. cbn [strictly_sorted] in *. cbn [sltb]. rewrite Nat.ltb_irrefl, Nat.eqb_refl. exact IH.
Qed.

(** ** positions *)
Definition prefix {A} (n : string) (l : list (list string * A)) : list (list string * A) := map (fun pa => (n :: fst pa, snd pa)) l.
Fixpoint poss {A} (names : list string) (ch : list (tree A)) {struct ch} : list (list string * A) :=
  match names, ch with
  | n :: names', c :: ch' => prefix n (positions c) ++ poss names' ch'
  | _, _ => []
  end.
Lemma poss_flat A names (ch : list (tree A)) : poss names ch = flat_map (fun nc => prefix (fst nc) (positions (snd nc))) (combine names ch).
Proof. revert names. induction ch as [|c ch IH]; intros [|n names]; simpl; auto. now rewrite IH. Qed.
Lemma positions_node A k (ch : list (tree A)) : (forall tag, k <> KCustom tag) ->
  positions (Node k ch) = flat_map (fun nc => prefix (fst nc) (positions (snd nc))) (combine (child_names k (length ch)) ch).
Proof. intros H. rewrite <- poss_flat. destruct k; try (exfalso; eapply H; reflexivity); cbn [positions];
    match goal with |- ?f ?n ch = _ => generalize n end; clear H; induction ch as [|c cs IH]; intros [|n ns]; simpl; auto; now rewrite IH.
Qed.
Lemma positions_dict A (kvs : list (string * tree A)) :
  positions (Node (KDict (map fst kvs)) (map snd kvs)) = flat_map (fun nc => prefix (fst nc) (positions (snd nc))) kvs.
Proof. rewrite positions_node by congruence. simpl child_names. now rewrite combine_fst_snd. Qed.

Lemma wf_ch A (k : kind) (ch : list (tree A)) : wf (Node k ch) -> Forall wf ch.
Proof. intros [_ H]. induction ch; simpl in *; constructor; intuition. Qed.
Lemma no_empty_ch A (k : kind) (ch : list (tree A)) : no_empty (Node k ch) -> Forall no_empty ch.
Proof. intros [_ H]. induction ch; simpl in *; constructor; intuition. Qed.
Lemma order_ok_ch A (k : kind) (ch : list (tree A)) : order_ok (Node k ch) -> Forall order_ok ch.
Proof. intros [_ H]. induction ch; simpl in *; constructor; intuition. Qed.

Lemma names_ok A k (ch : list (tree A)) : wf (Node k ch) -> (forall tag, k <> KCustom tag) ->
  length (child_names k (length ch)) = length ch /\ NoDup (child_names k (length ch)).
Proof.
  intros [H _] Hk. destruct k; simpl in *.
  - subst ch. simpl. split; auto. constructor.
  - destruct H. split; auto. now apply sorted_nodup.
  - rewrite map_length, seq_length. split; auto. apply (names_nodup "list_element_").
  - rewrite map_length, seq_length. split; auto. apply (names_nodup "list_element_").
  - destruct H. auto.
  - exfalso; eapply Hk; reflexivity.
Qed.

Lemma prefix_snd A n (l : list (list string * A)) : map snd (prefix n l) = map snd l.
Proof. unfold prefix. rewrite map_map. apply map_ext. auto. Qed.

Lemma positions_leaves A (t : tree A) : wf t -> map snd (positions t) = leaves t.
Proof.
  induction t as [a|k ch IH] using tree_ind'; intros Hw; [reflexivity|].
  assert (Hc : forall tag, k = KCustom tag -> map snd (positions (Node k ch)) = leaves (Node k ch)).
  { intros tag ->. simpl. rewrite map_snd_combine; auto. now rewrite map_length, seq_length. }
  destruct k; try (now eapply Hc); clear Hc.
  all: match goal with |- map snd (positions (Node ?k _)) = _ =>
    destruct (@names_ok A k ch Hw ltac:(congruence)) as [Hlen _]; rewrite positions_node by congruence;
    remember (child_names k (length ch)) as names; clear Heqnames end.
  all: apply wf_ch in Hw; simpl leaves; revert names Hlen;
    induction IH as [|x xs Hx _ IHxs]; intros [|n names] Hlen; try discriminate; auto;
    inversion Hw; subst; simpl; rewrite map_app, prefix_snd, Hx by auto; f_equal; apply IHxs; auto.
Qed.

Lemma flat_map_perm X Y (f : X -> list Y) l l' : Permutation l l' -> Permutation (flat_map f l) (flat_map f l').
Proof.
  induction 1; simpl; auto.
  - now apply Permutation_app_head.
  - rewrite !app_assoc. apply Permutation_app_tail. apply Permutation_app_comm.
  - eapply perm_trans; eauto.
Qed.

(** shape of to_dict on a node that has leaves *)
Lemma to_dict_shape A k (ch : list (tree A)) :
  (ch = [] -> to_dict (Node k ch) = Node k ch) /\
  (ch <> [] -> leaves (Node k ch) = [] -> to_dict (Node k ch) = Node (KDict []) []) /\
  (leaves (Node k ch) <> [] -> (forall tag, k <> KCustom tag) ->
     to_dict (Node k ch) = mk_dict (combine (child_names k (length ch)) (map to_dict ch))) /\
  (leaves (Node k ch) <> [] -> forall tag, k = KCustom tag ->
     to_dict (Node k ch) = mk_dict (combine (map unknown_leaf (seq 0 (length (leaves (Node k ch))))) (map Leaf (leaves (Node k ch))))).
Proof.
  split; [intros ->; reflexivity|]. split; [|split].
  - intros Hc Hl. destruct ch as [|x xs]; [congruence|]. cbn [to_dict]. rewrite Hl. reflexivity.
  - intros Hl Hk. destruct ch as [|x xs]; [simpl in Hl; congruence|]. cbn [to_dict].
    destruct (leaves (Node k (x :: xs))); [congruence|]. destruct k; try reflexivity. exfalso; eapply Hk; reflexivity.
  - intros Hl tag ->. destruct ch as [|x xs]; [simpl in Hl; congruence|]. cbn [to_dict].
    destruct (leaves (Node (KCustom tag) (x :: xs))); [congruence|]. reflexivity.
Qed.

Lemma custom_kvs A (ls : list A) :
  flat_map (fun nc => prefix (fst nc) (positions (snd nc))) (combine (map unknown_leaf (seq 0 (length ls))) (map Leaf ls))
  = combine (map (fun i => [unknown_leaf i]) (seq 0 (length ls))) ls.
Proof.
  generalize 0. induction ls as [|a ls IH]; intros s; simpl; auto. now rewrite IH.
Qed.

Lemma custom_nodup A (ls : list A) : NoDup (map fst (combine (map unknown_leaf (seq 0 (length ls))) (map (@Leaf A) ls))).
Proof. rewrite map_fst_combine by (now rewrite !map_length, seq_length). apply (names_nodup "unknown~pytree~leaf~"). Qed.

Lemma flat_map_positions A (names : list string) (ch : list (tree A)) :
  Forall (fun t => Permutation (positions (to_dict t)) (positions t)) ch ->
  Permutation (flat_map (fun nc => prefix (fst nc) (positions (snd nc))) (combine names (map to_dict ch)))
              (flat_map (fun nc => prefix (fst nc) (positions (snd nc))) (combine names ch)).
Proof.
  intros H. revert names. induction H as [|x xs Hx _ IH]; intros [|n names]; simpl; auto.
  apply Permutation_app; auto. unfold prefix. now apply Permutation_map.
Qed.

Lemma to_dict_positions A (t : tree A) : wf t -> Permutation (positions (to_dict t)) (positions t).
Proof.
  induction t as [a|k ch IH] using tree_ind'; intros Hw; [reflexivity|].
  destruct (to_dict_shape k ch) as (S1 & S2 & S3 & S4).
  destruct ch as [|x xs]; [rewrite S1; auto|].
  destruct (leaves (Node k (x :: xs))) eqn:El.
  - rewrite S2 by congruence. apply positions_leaves in Hw. rewrite El in Hw.
    apply map_eq_nil in Hw. rewrite Hw. simpl. constructor.
  - rewrite <- El in *. assert (Hne : leaves (Node k (x :: xs)) <> []) by (rewrite El; discriminate).
    set (ch := x :: xs) in *.
    assert (Hk : (exists tag, k = KCustom tag) \/ (forall tag, k <> KCustom tag)).
    { destruct k; try (right; congruence). left; eauto. }
    destruct Hk as [[tag ->]|Hk].
    + rewrite (S4 Hne tag eq_refl). unfold mk_dict. rewrite positions_dict.
      destruct (dict_of_ok _ (custom_nodup (leaves (Node (KCustom tag) ch)))) as [_ Hp].
      rewrite (flat_map_perm _ Hp), custom_kvs. reflexivity.
    + rewrite (S3 Hne Hk). unfold mk_dict. rewrite positions_dict.
      destruct (names_ok Hw Hk) as [Hlen Hnd].
      destruct (@dict_of_ok (tree A) (combine (child_names k (length ch)) (map to_dict ch))) as [_ Hp].
      { rewrite map_fst_combine; auto. now rewrite map_length. }
      rewrite (flat_map_perm _ Hp). rewrite (positions_node ch Hk).
      apply flat_map_positions. apply wf_ch in Hw. rewrite Forall_forall in *. auto.
Qed.

(** leaf order is kept for ordered trees *)
Lemma to_dict_order A (t : tree A) : wf t -> order_ok t -> positions (to_dict t) = positions t.
Proof.
  induction t as [a|k ch IH] using tree_ind'; intros Hw Ho; [reflexivity|].
  destruct (to_dict_shape k ch) as (S1 & S2 & S3 & S4).
  destruct ch as [|x xs]; [rewrite S1; auto|].
  destruct (leaves (Node k (x :: xs))) eqn:El.
  - rewrite S2 by congruence. apply positions_leaves in Hw. rewrite El in Hw.
    apply map_eq_nil in Hw. now rewrite Hw.
  - rewrite <- El in *. assert (Hne : leaves (Node k (x :: xs)) <> []) by (rewrite El; discriminate).
    set (ch := x :: xs) in *.
    assert (Hk : (exists tag, k = KCustom tag) \/ (forall tag, k <> KCustom tag)).
    { destruct k; try (right; congruence). left; eauto. }
    destruct Hk as [[tag ->]|Hk].
    + rewrite (S4 Hne tag eq_refl). unfold mk_dict. rewrite positions_dict.
      rewrite dict_of_sorted.
      * rewrite custom_kvs. reflexivity.
      * rewrite map_fst_combine by (now rewrite !map_length, seq_length). apply (names_sorted "unknown~pytree~leaf~").
        destruct Ho as [Ho _]. exact Ho.
    + rewrite (S3 Hne Hk). unfold mk_dict. rewrite positions_dict.
      destruct (names_ok Hw Hk) as [Hlen Hnd].
      assert (Hs : strictly_sorted (child_names k (length ch))).
      { destruct Hw as [Hw _], Ho as [Ho _]. destruct k; cbn [child_names].
        - subst ch. discriminate.
        - apply Hw.
        - now apply (names_sorted "list_element_").
        - now apply (names_sorted "list_element_").
        - exact Ho.
        - exfalso; eapply Hk; reflexivity. }
      rewrite dict_of_sorted by (rewrite map_fst_combine; auto; now rewrite map_length).
      rewrite (positions_node ch Hk). apply wf_ch in Hw. apply order_ok_ch in Ho.
      generalize (child_names k (length ch)). clear -IH Hw Ho.
      induction IH as [|y ys Hy _ IHys]; intros [|n names]; simpl; auto. inversion Hw; inversion Ho; subst.
      rewrite Hy by auto. f_equal. apply IHys; auto.
Qed.

(** ** dictionary trees *)
Fixpoint isdict {A} (t : tree A) : Prop :=
  match t with
  | Leaf _ => True
  | Node KNone ch => ch = []
  | Node (KDict keys) ch => length keys = length ch /\ NoDup keys /\ fold_right and True (map isdict ch)
  | Node _ _ => False
  end.
Lemma isdict_ch A keys (ch : list (tree A)) : isdict (Node (KDict keys) ch) <-> length keys = length ch /\ NoDup keys /\ Forall isdict ch.
Proof.
  simpl. split; intros (H1 & H2 & H3); repeat split; auto; clear H1 H2; induction ch; simpl in *; auto.
  - constructor; intuition.
  - inversion H3; subst. auto.
Qed.

Lemma to_dict_isdict A (t : tree A) : wf t -> no_empty t -> isdict (to_dict t).
Proof.
  induction t as [a|k ch IH] using tree_ind'; intros Hw He; [exact I|].
  destruct (to_dict_shape k ch) as (S1 & S2 & S3 & S4).
  destruct ch as [|x xs].
  - rewrite S1 by auto. destruct He as [He _]. destruct (He eq_refl) as [->|[keys ->]]; [reflexivity|].
    destruct Hw as [[Hl Hs] _]. apply isdict_ch. repeat split; auto. now apply sorted_nodup.
  - destruct (leaves (Node k (x :: xs))) eqn:El.
    + rewrite S2 by congruence. apply isdict_ch. repeat split; auto; constructor.
    + rewrite <- El in *. assert (Hne : leaves (Node k (x :: xs)) <> []) by (rewrite El; discriminate).
      set (ch := x :: xs) in *.
      assert (Hgen : forall kvs : list (string * tree A), NoDup (map fst kvs) -> Forall isdict (map snd kvs) -> isdict (mk_dict kvs)).
      { intros kvs Hnd Hf. unfold mk_dict. destruct (dict_of_ok kvs Hnd) as [Hs Hp]. apply isdict_ch. rewrite !map_length.
        repeat split; auto; [now apply sorted_nodup|]. rewrite Forall_forall in *. intros y Hy. apply Hf.
        eapply Permutation_in; [apply Permutation_map; exact Hp|exact Hy]. }
      assert (Hk : (exists tag, k = KCustom tag) \/ (forall tag, k <> KCustom tag)).
      { destruct k; try (right; congruence). left; eauto. }
      destruct Hk as [[tag ->]|Hk].
      * rewrite (S4 Hne tag eq_refl). apply Hgen; [apply custom_nodup|].
        rewrite map_snd_combine by (now rewrite !map_length, seq_length). apply Forall_forall. intros y Hy.
        apply in_map_iff in Hy. destruct Hy as (a0 & <- & _). exact I.
      * rewrite (S3 Hne Hk). destruct (names_ok Hw Hk) as [Hlen Hnd]. apply Hgen.
        -- rewrite map_fst_combine; auto. now rewrite map_length.
        -- rewrite map_snd_combine by (now rewrite map_length). apply wf_ch in Hw. apply no_empty_ch in He.
           rewrite Forall_forall in *. intros y Hy. apply in_map_iff in Hy. destruct Hy as (z & <- & Hz). auto.
Qed.

Lemma isdict_wf A (t : tree A) : isdict t -> map snd (positions t) = leaves t.
Proof.
  induction t as [a|k ch IH] using tree_ind'; intros H; [reflexivity|].
  destruct k; try (simpl in H; contradiction); [simpl in H; subst; reflexivity|].
  apply isdict_ch in H. destruct H as (Hl & _ & Hf). rewrite positions_node by congruence. simpl child_names. simpl leaves.
  revert keys Hl. induction IH as [|x xs Hx _ IHxs]; intros [|n names] Hl; try discriminate; auto.
  inversion Hf; subst. simpl. rewrite map_app, prefix_snd, Hx by auto. f_equal. apply IHxs; auto.
Qed.

Lemma dget_in V k (v : V) l : NoDup (map fst l) -> In (k, v) l -> dget k l = Some v.
Proof.
  induction l as [|[k' v'] l IH]; intros Hn Hin; [destruct Hin|]. simpl in *. inversion Hn; subst.
  destruct Hin as [E|Hin].
  - inversion E; subst. now rewrite String.eqb_refl.
  - destruct (String.eqb_spec k k') as [->|]; auto. exfalso. apply H1. change k' with (fst (k', v)). now apply in_map.
Qed.

Lemma positions_get A (t : tree A) : isdict t -> forall p a, In (p, a) (positions t) -> path_get t p = Ok (Leaf a).
Proof.
  induction t as [x|k ch IH] using tree_ind'; intros H p a Hin.
  - simpl in Hin. destruct Hin as [E|[]]. inversion E; subst. reflexivity.
  - destruct k; try (simpl in H; contradiction); [simpl in H; subst; destruct Hin|].
    apply isdict_ch in H. destruct H as (Hl & Hn & Hf). rewrite positions_node in Hin by congruence. simpl child_names in Hin.
    apply in_flat_map in Hin. destruct Hin as ([n c] & Hnc & Hin). unfold prefix in Hin. apply in_map_iff in Hin.
    destruct Hin as ([p' a'] & E & Hin'). cbn [fst snd] in E. inversion E; subst. cbn [path_get].
    rewrite (dget_in n c (combine keys ch)); auto.
    + assert (Hc : In c ch) by (apply in_combine_r in Hnc; auto). rewrite Forall_forall in IH, Hf. apply IH; auto.
    + now rewrite map_fst_combine.
Qed.

Lemma positions_nodup A (t : tree A) : isdict t -> NoDup (map fst (positions t)).
Proof.
  induction t as [x|k ch IH] using tree_ind'; intros H; [simpl; constructor; [simpl; tauto|constructor]|].
  destruct k; try (simpl in H; contradiction); [simpl in H; subst; constructor|].
  apply isdict_ch in H. destruct H as (Hl & Hn & Hf). rewrite positions_node by congruence. simpl child_names.
  revert keys Hl Hn. induction IH as [|x xs Hx _ IHxs]; intros [|n names] Hl Hn; try discriminate; [constructor|].
  inversion Hf; inversion Hn; subst. simpl. rewrite map_app. 
  assert (Hdis : forall l l' : list (list string), NoDup l -> NoDup l' -> (forall z, In z l -> ~ In z l') -> NoDup (l ++ l')).
  { clear. induction l; simpl; intros l' H1 H2 H3; auto. inversion H1; subst. constructor.
    - rewrite in_app_iff. intros [Hi|Hi]; auto. eapply H3; eauto.
    - apply IHl; auto. }
  apply Hdis.
  - unfold prefix. rewrite map_map. cbn [fst]. rewrite <- map_map. apply FinFun.Injective_map_NoDup; auto.
    intros a b E. congruence.
  - apply IHxs; auto.
  - intros z Hz Hz'. apply in_map_iff in Hz. destruct Hz as ([p a] & <- & Hz). unfold prefix in Hz. apply in_map_iff in Hz.
    destruct Hz as (pa & E & _). inversion E; subst. apply in_map_iff in Hz'. destruct Hz' as ([p' a'] & E' & Hz').
    apply in_flat_map in Hz'. destruct Hz' as ([n' c'] & Hc & Hz'). unfold prefix in Hz'. apply in_map_iff in Hz'.
    destruct Hz' as (pa' & E'' & _). inversion E''; subst. simpl in E'. inversion E'; subst.
    apply H5. apply in_combine_l in Hc. exact Hc.
Qed.

(** ** the index tree *)
Lemma skipn_plus X (a b : nat) (l : list X) : skipn b (skipn a l) = skipn (a + b) l.
Proof. revert l. induction a; intros [|x l]; simpl; auto. now rewrite skipn_nil. Qed.
Fixpoint key_recs (path : list string) (keys : list string) (ch : list (tree nat)) (kl : list (option (list string))) {struct ch}
  : res (list (option (list string))) :=
  match keys, ch with
  | k :: keys', c :: ch' => let* kl' := key_recurse c (path ++ [k]) kl in key_recs path keys' ch' kl'
  | _, _ => Ok kl
  end.
Lemma key_recurse_dict keys ch path kl : key_recurse (Node (KDict keys) ch) path kl = key_recs path keys ch kl.
Proof.
  cbn [key_recurse]. revert keys kl. induction ch as [|c ch IH]; intros [|k keys] kl; simpl; auto.
  destruct (key_recurse c (path ++ [k]) kl); simpl; auto.
Qed.

Lemma key_ok A (t : tree A) : isdict t -> forall (I : tree nat) s path kl,
  same_structure I t -> leaves I = seq s (length (leaves t)) -> s + length (leaves t) <= length kl ->
  key_recurse I path kl = Ok (firstn s kl ++ map (fun pa => Some (path ++ fst pa)) (positions t) ++ skipn (s + length (leaves t)) kl).
Proof.
  induction t as [a|k ch IH] using tree_ind'; intros H I s path kl HS HL Hlen.
  - destruct I as [i|]; [|discriminate HS]. simpl in *. inversion HL; subst i. f_equal. rewrite app_nil_r.
    replace (s + 1) with (S s) by lia. clear -Hlen. revert s Hlen. induction kl as [|x kl IHk]; intros s Hlen; simpl in *; [lia|].
    destruct s; simpl; auto. f_equal. apply IHk. lia.
  - destruct I as [|k' I]; [discriminate HS|]. unfold same_structure in HS. simpl in HS. inversion HS as [[Ek Ech]]; subst k'.
    destruct k; try (simpl in H; contradiction).
    + simpl in H. subst ch. simpl in *. rewrite Nat.add_0_r. f_equal. symmetry. apply firstn_skipn.
    + apply isdict_ch in H. destruct H as (Hl & Hn & Hf). rewrite key_recurse_dict. rewrite positions_node by congruence.
      simpl child_names. clear Hn HS. simpl leaves in *. revert keys I s kl Hl Ech HL Hlen.
      induction IH as [|x xs Hx _ IHxs]; intros [|n names] [|i I] s kl Hl HI HL Hlen; try discriminate.
      * simpl. rewrite Nat.add_0_r. f_equal. symmetry. apply firstn_skipn.
      * inversion Hf as [|? ? Hx1 Hfx]; subst. simpl in HI. inversion HI as [[Hi HI']]. cbn [key_recs]. simpl in HL, Hlen.
        rewrite app_length in HL, Hlen. rewrite seq_app in HL.
        assert (Hlx : length (leaves i) = length (leaves x)).
        { rewrite <- (map_length (fun _ => tt)), <- leaves_map, Hi, leaves_map, map_length. reflexivity. }
        assert (E1 : leaves i = seq s (length (leaves x))).
        { apply (f_equal (firstn (length (leaves i)))) in HL. rewrite firstn_app, Nat.sub_diag, firstn_all in HL.
          simpl in HL. rewrite app_nil_r in HL. rewrite HL, Hlx. rewrite firstn_app, seq_length, Nat.sub_diag. simpl. rewrite app_nil_r.
          apply firstn_all2. rewrite seq_length. lia. }
        assert (E2 : flat_map leaves I = seq (s + length (leaves x)) (length (flat_map leaves xs))).
        { rewrite E1 in HL. now apply app_inv_head in HL. }
        rewrite (Hx Hx1 i s (path ++ [n]) kl Hi E1) by lia. cbn [bind].
        set (mid := map (fun pa => Some ((path ++ [n]) ++ fst pa)) (positions x)).
        assert (Hmid : length mid = length (leaves x)).
        { subst mid. rewrite map_length, <- (map_length snd), (isdict_wf x Hx1). reflexivity. }
        assert (Hf1 : length (firstn s kl) = s) by (rewrite firstn_length; lia).
        rewrite (IHxs Hfx names I (s + length (leaves x)) (firstn s kl ++ mid ++ skipn (s + length (leaves x)) kl)).
        -- f_equal. simpl flat_map. rewrite map_app. rewrite <- app_assoc.
           replace (firstn (s + length (leaves x)) (firstn s kl ++ mid ++ skipn (s + length (leaves x)) kl)) with (firstn s kl ++ mid).
           2:{ rewrite app_assoc. rewrite firstn_app. rewrite app_length, Hf1, Hmid, Nat.sub_diag. simpl. rewrite app_nil_r.
               symmetry. apply firstn_all2. rewrite app_length. lia. }
           rewrite <- app_assoc. f_equal.
           assert (Em : mid = map (fun pa : list string * A => Some (path ++ fst pa)) (prefix n (positions x))).
           { subst mid. cbn [fst snd]. unfold prefix. rewrite map_map. apply map_ext. intros pa. cbn [fst]. now rewrite <- app_assoc. }
           rewrite <- Em. f_equal. f_equal.
           rewrite app_assoc. rewrite skipn_app. rewrite app_length, Hf1, Hmid.
           rewrite (skipn_all2 (firstn s kl ++ mid)) by (rewrite app_length; lia). simpl.
           match goal with |- context[skipn ?k (skipn ?j kl)] => rewrite (skipn_plus j k kl) end.
           f_equal. rewrite app_length. lia.
        -- simpl in Hl. lia.
        -- assumption.
        -- exact E2.
        -- rewrite !app_length, Hf1, Hmid, skipn_length. lia.
Qed.

Lemma all_some_map X (l : list X) : all_some (map Some l) = Ok l.
Proof. induction l; simpl; auto. now rewrite IHl. Qed.

Lemma dict_keys_ok A (t : tree A) : wf t -> no_empty t ->
  dict_keys t = Ok (map fst (positions (to_dict t))).
Proof.
  intros Hw He. pose proof (to_dict_isdict t Hw He) as Hd. unfold dict_keys.
  set (D := to_dict t) in *. destruct (@unflatten_ok A nat D (seq 0 (length (leaves D)))) as (I & -> & L & S).
  { apply seq_length. }
  cbn [bind]. rewrite (@key_ok A D Hd I 0 [] (repeat None (length (leaves D))) S L) by (rewrite repeat_length; lia).
  cbn [bind firstn app]. rewrite skipn_all2 by (rewrite repeat_length; lia). rewrite app_nil_r.
  rewrite <- all_some_map. f_equal. rewrite map_map. reflexivity.
Qed.

Lemma mapM_ok X Y (f : X -> res Y) (g : X -> Y) l : (forall x, In x l -> f x = Ok (g x)) -> mapM f l = Ok (map g l).
Proof. induction l as [|x l IH]; intros H; simpl; auto. rewrite H by (simpl; auto). simpl. rewrite IH; auto. intros; apply H; simpl; auto. Qed.

Lemma mapM_get A (D : tree A) : isdict D -> mapM (path_get D) (map fst (positions D)) = Ok (map Leaf (leaves D)).
Proof.
  intros Hd. rewrite <- (isdict_wf D Hd).
  assert (H : forall p a, In (p, a) (positions D) -> path_get D p = Ok (Leaf a)) by now apply positions_get.
  revert H. generalize (positions D). induction l as [|[p a] l IH]; intros H; simpl; auto.
  rewrite (H p a) by (simpl; auto). simpl. rewrite IH; auto. intros; apply H; simpl; auto.
Qed.

(** the conversion round trip in general: the leaves come back in the order of the dictionary *)
Lemma roundtrip_general A (t : tree A) : wf t -> no_empty t ->
  exists t', dict_to_pytree (to_dict t) t = Ok t' /\ same_structure t' t /\ leaves t' = leaves (to_dict t) /\
    Permutation (leaves t') (leaves t).
Proof.
  intros Hw He. pose proof (to_dict_isdict t Hw He) as Hd. unfold dict_to_pytree. rewrite dict_keys_ok by auto. cbn [bind].
  rewrite mapM_get by auto. cbn [bind].
  assert (Hp : Permutation (leaves (to_dict t)) (leaves t)).
  { rewrite <- (isdict_wf _ Hd), <- (positions_leaves t Hw). apply Permutation_map. now apply to_dict_positions. }
  destruct (@unflatten_ok A A t (leaves (to_dict t))) as (t' & _ & L & S); [now apply Permutation_length|].
  destruct (@unflatten_ok A (tree A) t (map Leaf (leaves (to_dict t)))) as (u & -> & Lu & Su).
  { rewrite map_length. now apply Permutation_length. }
  assert (Eu : u = tree_map Leaf t').
  { apply tree_ext.
    - unfold same_structure in *. rewrite Su, <- S. pose proof (@same_structure_map A A (tree A) Leaf t' t' eq_refl) as H. exact H.
    - rewrite Lu, leaves_map, L. reflexivity. }
  cbn [bind]. subst u. rewrite graft_map. exists t'. split; [reflexivity|]. split; [exact S|]. split; [exact L|]. now rewrite L.
Qed.

Lemma final_roundtrip A (t : tree A) : wf t -> no_empty t -> order_ok t -> dict_to_pytree (to_dict t) t = Ok t.
Proof.
  intros Hw He Ho. destruct (roundtrip_general t Hw He) as (t' & E & S & L & _). rewrite E. f_equal.
  apply tree_ext; auto. rewrite L. rewrite <- (isdict_wf _ (to_dict_isdict t Hw He)), <- (positions_leaves t Hw).
  now rewrite to_dict_order.
Qed.

Lemma final_keys A (t : tree A) : wf t -> no_empty t ->
  exists ks, dict_keys t = Ok ks /\ NoDup ks /\ Permutation ks (map fst (positions t)) /\
    length ks = length (leaves t) /\ (order_ok t -> ks = map fst (positions t)).
Proof.
  intros Hw He. exists (map fst (positions (to_dict t))). split; [now apply dict_keys_ok|].
  split; [apply positions_nodup; now apply to_dict_isdict|].
  split; [apply Permutation_map; now apply to_dict_positions|]. split.
  - rewrite map_length. rewrite <- (positions_leaves t Hw), map_length. apply Permutation_length. now apply to_dict_positions.
  - intros Ho. now rewrite to_dict_order.
Qed.

Lemma final_to_dict A (t : tree A) : wf t -> no_empty t -> forall p a, In (p, a) (positions t) ->
  path_get (to_dict t) p = Ok (Leaf a).
Proof.
  intros Hw He p a Hin. apply positions_get; [now apply to_dict_isdict|].
  eapply Permutation_in; [apply Permutation_sym, to_dict_positions; auto|exact Hin].
Qed.
