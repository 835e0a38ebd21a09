(** JSONCollector: what is on disk at every crash point. *)
From Coq Require Import String.
From Verif Require Import Base ListUtil Pytree PytreeSpec PytreeProofs Io IoSpec IoProofs.
Set Implicit Arguments.

Section J.
Context {V : Type}.

(** ** stacking *)
Lemma zip_nth A B C (f : A -> B -> C) l l' j a b : nth_error l j = Some a -> nth_error l' j = Some b -> nth_error (zip_with f l l') j = Some (f a b).
Proof. revert l' j. induction l; intros [|? l'] [|j] H1 H2; simpl in *; try discriminate; [congruence|auto]. Qed.

Lemma stack_onto_ok (s0 : tree V) (ss : list (tree V)) : forall done (acc : tree (list V)), Forall (fun s => same_structure s s0) ss -> same_structure acc s0 ->
  (forall j, j < length (leaves s0) -> nth_error (leaves acc) j = Some (column j (map leaves done))) ->
  exists t, stack_onto acc ss = Ok t /\ same_structure t s0 /\
    forall j, j < length (leaves s0) -> nth_error (leaves t) j = Some (column j (map leaves (done ++ ss))).
Proof.
  induction ss as [|s ss IH]; intros done acc Hss Hacc Hcol; simpl.
  - exists acc. rewrite app_nil_r. auto.
  - inversion Hss as [|? ? Hs Hss']; subst.
    destruct (@tree_map2_ok (list V) V (list V) (fun col v => col ++ [v]) acc s) as (acc' & -> & S1 & L1).
    { eapply structure_trans; [exact Hacc|now apply structure_sym]. }
    cbn [bind]. destruct (IH (done ++ [s]) acc' Hss') as (t & E & S2 & L2).
    + eapply structure_trans; eauto.
    + intros j Hj. rewrite L1. rewrite map_app, column_app. simpl. destruct (nth_error (leaves s) j) as [v|] eqn:Ev.
      * rewrite (zip_nth _ _ _ _ (Hcol j Hj) Ev). reflexivity.
      * apply nth_error_None in Ev. rewrite (structure_leaves Hs) in Ev. lia.
    + exists t. split; auto. split; auto. intros j Hj. rewrite (L2 j Hj), <- app_assoc. reflexivity.
Qed.

Lemma stack_samples_ok (s0 : tree V) (ss : list (tree V)) : ss <> [] -> Forall (fun s => same_structure s s0) ss ->
  exists t, stack_samples ss = Ok t /\ exactly_samples ss t.
Proof.
  intros Hne H. destruct ss as [|s ss]; [congruence|]. inversion H as [|? ? Hs Hss]; subst. unfold stack_samples.
  destruct (@stack_onto_ok s0 ss [s] (tree_map (fun v => [v]) s)) as (t & E & S & L); auto.
  - eapply structure_trans; [|exact Hs]. apply structure_sym. apply same_structure_map. reflexivity.
  - intros j Hj. rewrite leaves_map, nth_error_map. simpl. destruct (nth_error (leaves s) j) eqn:Ev; [reflexivity|].
    apply nth_error_None in Ev. rewrite (structure_leaves Hs) in Ev. lia.
  - exists t. split; auto. split.
    + rewrite Forall_forall in *. intros x Hx. eapply structure_trans; [exact S|]. apply structure_sym; auto.
    + intros j Hj. apply L. rewrite (structure_leaves S) in Hj. exact Hj.
Qed.

(** ** files *)
Lemma put_same (j : jcollector V) c n x : j_file (j_put j (c, n) x) c n = Some x.
Proof. unfold j_file, j_put. simpl. rewrite !Nat.eqb_refl. reflexivity. Qed.
Lemma put_other (j : jcollector V) c n x c' n' : (c', n') <> (c, n) -> j_file (j_put j (c, n) x) c' n' = j_file j c' n'.
Proof.
  intros H. unfold j_file, j_put. simpl. destruct (Nat.eqb_spec c' c), (Nat.eqb_spec n' n); simpl; auto. congruence.
Qed.

Lemma write_states (j : jcollector V) c n ms j' r : j_write j c n = (ms, j', r) ->
  (forall x, In x (j' :: ms) -> j_freq x = j_freq j /\ j_samples x = j_samples j /\ j_count x = j_count j /\
    (forall c' n', (c', n') <> (c, n) -> j_file x c' n' = j_file j c' n') /\
    (forall t, j_file x c n = Some (JFull t) -> j_file j c n = Some (JFull t) \/ stack_samples (nth c (j_samples j) []) = Ok t)) /\
  (forall t, stack_samples (nth c (j_samples j) []) = Ok t -> r = Ok tt /\ j_file j' c n = Some (JFull t)).
Proof.
  unfold j_write. intros H.
  set (j1 := match j_file j c n with Some _ => j | None => j_put j (c, n) JEmpty end) in *.
  assert (H1 : j_freq j1 = j_freq j /\ j_samples j1 = j_samples j /\ j_count j1 = j_count j /\
    (forall c' n', (c', n') <> (c, n) -> j_file j1 c' n' = j_file j c' n') /\
    (forall t, j_file j1 c n = Some (JFull t) -> j_file j c n = Some (JFull t))).
  { subst j1. destruct (j_file j c n) eqn:E; [repeat split; auto; now rewrite E|]. simpl. repeat split; auto.
    - intros. now apply put_other.
    - intros t Ht. rewrite put_same in Ht. discriminate. }
  clearbody j1. destruct H1 as (F & S & C & O & L).
  destruct (stack_samples (nth c (j_samples j) [])) as [t|e] eqn:Es; inversion H; subst; clear H.
  - assert (Hput : forall (y : jcollector V) x, (j_freq y = j_freq j /\ j_samples y = j_samples j /\ j_count y = j_count j /\
      (forall c' n', (c', n') <> (c, n) -> j_file y c' n' = j_file j c' n')) ->
      j_freq (j_put y (c, n) x) = j_freq j /\ j_samples (j_put y (c, n) x) = j_samples j /\ j_count (j_put y (c, n) x) = j_count j /\
      (forall c' n', (c', n') <> (c, n) -> j_file (j_put y (c, n) x) c' n' = j_file j c' n')).
    { intros y x (A1 & A2 & A3 & A4). simpl. repeat split; auto. intros. rewrite put_other; auto. }
    pose proof (Hput j1 JEmpty (conj F (conj S (conj C O)))) as P2.
    pose proof (Hput _ JPartial P2) as P3. pose proof (Hput _ (JFull t) P3) as P4.
    split.
    + intros x Hx. 
      assert (Hx' : x = j1 \/ x = j_put j1 (c, n) JEmpty \/ x = j_put (j_put j1 (c, n) JEmpty) (c, n) JPartial \/
        x = j_put (j_put (j_put j1 (c, n) JEmpty) (c, n) JPartial) (c, n) (JFull t)) by (simpl in Hx; intuition congruence).
      destruct Hx' as [ -> | [ -> | [ -> | -> ]]].
      * repeat split; auto; intros t' Ht'; left; auto.
      * destruct P2 as (? & ? & ? & ?). repeat split; auto; intros t' Ht'; rewrite put_same in Ht'; discriminate.
      * destruct P3 as (? & ? & ? & ?). repeat split; auto; intros t' Ht'; rewrite put_same in Ht'; discriminate.
      * destruct P4 as (? & ? & ? & ?). repeat split; auto; intros t' Ht'; rewrite put_same in Ht'; right; congruence.
    + intros t' Ht'. inversion Ht'; subst. split; auto. apply put_same.
  - split; [|congruence]. intros x Hx. assert (x = j') by (simpl in Hx; intuition). subst x. repeat split; auto.
Qed.

(** ** invariant of a chain *)
Section Inv.
Variables (c w : nat) (s0 : tree V).
(** everything written so far is correct and the file of every multiple of w, except perhaps ex, exists *)
Definition files_ok (j : jcollector V) (ss : list (tree V)) (must : nat) (ex : option nat) : Prop :=
  (forall n t, j_file j c n = Some (JFull t) -> 0 < n <= length ss /\ exactly_samples (firstn n ss) t) /\
  (forall k, 0 < k -> 0 < w -> k * w <= must -> ex <> Some (k * w) -> exists t, j_file j c (k * w) = Some (JFull t)).
Definition chain_ok (j : jcollector V) (ss : list (tree V)) : Prop :=
  j_freq j = w /\ length (j_samples j) = length (j_count j) /\ nth_error (j_samples j) c = Some ss /\ nth_error (j_count j) c = Some (length ss) /\
  files_ok j ss (length ss) None.

Lemma files_ok_same j j' ss must ex : (forall n, j_file j' c n = j_file j c n) -> files_ok j ss must ex -> files_ok j' ss must ex.
Proof.
  intros H [H1 H2]. split.
  - intros n t Ht. rewrite H in Ht. auto.
  - intros k Hk Hw Hm He. rewrite H. auto.
Qed.
Lemma exactly_firstn_app n (ss : list (tree V)) x t : n <= length ss -> exactly_samples (firstn n ss) t -> exactly_samples (firstn n (ss ++ x)) t.
Proof. intros Hn H. rewrite firstn_app. replace (n - length ss) with 0 by lia. simpl. now rewrite app_nil_r. Qed.
Lemma files_ok_grow j ss x must ex : files_ok j ss must ex -> files_ok j (ss ++ x) must ex.
Proof.
  intros [H1 H2]. split; auto. intros n t Ht. destruct (H1 n t Ht) as [Hn He]. rewrite app_length. split; [lia|].
  apply exactly_firstn_app; [lia|auto].
Qed.

Lemma step_ok j ss o : chain_ok j ss -> Forall (fun s => same_structure s s0) (ss ++ jsaves_of c [o]) ->
  let '(ms, j', out) := jstep_micro j o in
  (forall x, In x ms -> files_ok x (ss ++ jsaves_of c [o]) (length ss) (match o with JFinalize c' => if c' =? c then Some (length ss) else None | _ => None end)) /\
  chain_ok j' (ss ++ jsaves_of c [o]).
Proof.
  intros (HF & HL & HS & HC & HD) Hst. assert (Hin : c < length (j_samples j)) by (apply nth_error_Some; congruence).
  destruct o as [|c' s|c']; cbn [jstep_micro jsaves_of flat_map].
  - (* register *)
    cbn [app]. rewrite app_nil_r.
    assert (Hf : files_ok (mkJ (j_freq j) (j_samples j ++ [[]]) (j_count j ++ [0]) (j_files j)) ss (length ss) None) by exact HD.
    split; [intros x [<-|[]]; exact Hf|]. unfold chain_ok. cbn [j_freq j_samples j_count].
    split; [auto|]. split; [rewrite !app_length; simpl; lia|]. split; [now rewrite nth_error_app1|].
    split; [rewrite nth_error_app1; auto; congruence|exact Hf].
  - (* save *)
    unfold jsaves_of in Hst. cbn [flat_map] in Hst. rewrite app_nil_r in *.
    destruct (nth_error (j_samples j) c') as [ss'|] eqn:Es'.
    2:{ assert (c' <> c) by congruence. destruct (Nat.eqb_spec c' c); [congruence|]. rewrite app_nil_r. split; [intros x []|]. unfold chain_ok. auto. }
    assert (Hc' : c' < length (j_samples j)) by (apply nth_error_Some; congruence).
    set (n := S (nth c' (j_count j) 0)).
    set (j1 := mkJ (j_freq j) (upd (j_samples j) c' (ss' ++ [s])) (upd (j_count j) c' n) (j_files j)).
    destruct (Nat.eqb_spec c' c) as [->|Hne].
    + (* this chain *)
      rewrite HS in Es'. inversion Es'; subst ss'. assert (Hn : n = length (ss ++ [s])).
      { subst n. rewrite (nth_error_nth _ _ 0 HC), app_length. simpl. lia. }
      assert (Hb : files_ok j1 (ss ++ [s]) (length ss) None) by (apply files_ok_grow; exact HD).
      assert (Hj1 : j_freq j1 = w /\ length (j_samples j1) = length (j_count j1) /\ nth_error (j_samples j1) c = Some (ss ++ [s]) /\ nth_error (j_count j1) c = Some (length (ss ++ [s]))).
      { subst j1. simpl. rewrite !length_upd, !nth_error_upd_same by lia. rewrite Hn. auto. }
      destruct Hj1 as (J1 & J2 & J3 & J4). destruct ((0 <? j_freq j) && (n mod j_freq j =? 0)) eqn:Ew.
      * destruct (j_write j1 c n) as [[ms j''] r] eqn:Ej. destruct (write_states _ _ _ Ej) as [Hst1 Hst2].
        assert (Hnth : nth c (j_samples j1) [] = ss ++ [s]) by (apply nth_error_nth; auto).
        destruct (@stack_samples_ok s0 (ss ++ [s])) as (t & Et & Ht); [destruct ss; discriminate|auto|].
        rewrite Hnth in Hst1, Hst2. destruct (Hst2 t Et) as [Hr Hfull].
        assert (Hkeep : forall x, In x (j'' :: ms) -> files_ok x (ss ++ [s]) (length ss) None).
        { intros x Hx. destruct (Hst1 x Hx) as (F1 & F2 & F3 & F4 & F5). split.
          - intros m t' Hm. destruct (Nat.eq_dec m n) as [->|Hmn].
            + destruct (F5 t' Hm) as [Hold|Hnew]; [now apply Hb in Hold|]. rewrite Hn at 1 3. rewrite firstn_all.
              rewrite Et in Hnew. inversion Hnew; subst. split; auto. rewrite app_length in *. simpl in *. lia.
            + rewrite F4 in Hm by congruence. now apply Hb.
          - intros k Hk Hw Hle _. rewrite F4; [apply Hb; auto; discriminate|]. intros E. inversion E. rewrite app_length in Hn. simpl in Hn. lia. }
        split.
        { intros x [<-|Hx]; [exact Hb|]. apply Hkeep. simpl. auto. }
        destruct (Hst1 j'' (or_introl eq_refl)) as (F1 & F2 & F3 & F4 & F5). destruct (Hkeep j'' (or_introl eq_refl)) as [K1 K2].
        unfold chain_ok. rewrite F1, F2, F3. split; [auto|]. split; [auto|]. split; [auto|]. split; [auto|]. split; [exact K1|].
        intros k Hk Hw Hle _. destruct (Nat.eq_dec (k * w) n) as [->|Hkn]; [eauto|]. apply K2; auto; [|discriminate].
           rewrite app_length in *. simpl in *. lia.
      * split; [intros x [<-|[]]; exact Hb|]. unfold chain_ok. split; [auto|]. split; [auto|]. split; [auto|]. split; [auto|]. split; [apply Hb|].
        intros k Hk Hw Hle _. apply Hb; auto; [|discriminate]. 
           assert (Hkn : k * w <> n).
           { intros E. rewrite Bool.andb_false_iff in Ew. rewrite HF in Ew. destruct Ew as [Ew|Ew].
             - apply Nat.ltb_ge in Ew. lia.
             - apply Nat.eqb_neq in Ew. apply Ew. rewrite <- E. apply Nat.mod_mul. lia. }
           rewrite app_length in *. simpl in *. lia.
    + (* another chain *)
      rewrite app_nil_r in *. assert (Hb : files_ok j1 ss (length ss) None) by exact HD.
      assert (Hj1 : j_freq j1 = w /\ length (j_samples j1) = length (j_count j1) /\ nth_error (j_samples j1) c = Some ss /\ nth_error (j_count j1) c = Some (length ss)).
      { subst j1. simpl. rewrite !length_upd, !nth_error_upd_other by lia. auto. }
      destruct Hj1 as (J1 & J2 & J3 & J4). destruct ((0 <? j_freq j) && (n mod j_freq j =? 0)).
      * destruct (j_write j1 c' n) as [[ms j''] r] eqn:Ej. destruct (write_states _ _ _ Ej) as [Hst1 _].
        assert (Hk : forall x, In x (j'' :: ms) -> files_ok x ss (length ss) None).
        { intros x Hx. destruct (Hst1 x Hx) as (F1 & F2 & F3 & F4 & F5). eapply files_ok_same; [|exact Hb]. intros m. apply F4. congruence. }
        split; [intros x [<-|Hx]; [exact Hb|apply Hk; simpl; auto]|].
        destruct (Hst1 j'' (or_introl eq_refl)) as (F1 & F2 & F3 & _). specialize (Hk j'' (or_introl eq_refl)).
        unfold chain_ok. rewrite F1, F2, F3. auto.
      * split; [intros x [<-|[]]; exact Hb|]. unfold chain_ok. auto.
  - (* finalize *)
    unfold jsaves_of in Hst. cbn [flat_map] in Hst. cbn [app] in *. rewrite app_nil_r in *.
    destruct (nth_error (j_count j) c') as [n|] eqn:En.
    2:{ split; [intros x []|]. unfold chain_ok. auto. }
    destruct (Nat.ltb_spec 0 n) as [Hpos|Hz].
    2:{ split; [intros x []|]. unfold chain_ok. auto. }
    destruct (j_write j c' n) as [[ms j''] r] eqn:Ej. destruct (write_states _ _ _ Ej) as [Hst1 Hst2].
    destruct (Nat.eqb_spec c' c) as [->|Hne].
    + rewrite HC in En. inversion En; subst n. assert (Hnth : nth c (j_samples j) [] = ss) by (apply nth_error_nth; auto).
      destruct (@stack_samples_ok s0 ss) as (t & Et & Ht); [destruct ss; simpl in *; [lia|discriminate]|auto|].
      rewrite Hnth in Hst1, Hst2. destruct (Hst2 t Et) as [Hr Hfull].
      assert (Hkeep : forall x, In x (j'' :: ms) -> files_ok x ss (length ss) (Some (length ss))).
      { intros x Hx. destruct (Hst1 x Hx) as (F1 & F2 & F3 & F4 & F5). split.
        - intros m t' Hm. destruct (Nat.eq_dec m (length ss)) as [->|Hmn].
          + destruct (F5 t' Hm) as [Hold|Hnew]; [now apply HD in Hold|]. rewrite firstn_all.
            rewrite Et in Hnew. inversion Hnew; subst. split; auto.
          + rewrite F4 in Hm by congruence. now apply HD.
        - intros k Hk Hw Hle Hex. rewrite F4 by congruence. apply HD; auto. discriminate. }
      split; [intros x Hx; apply Hkeep; simpl; auto|].
      destruct (Hst1 j'' (or_introl eq_refl)) as (F1 & F2 & F3 & F4 & F5). destruct (Hkeep j'' (or_introl eq_refl)) as [K1 K2].
      unfold chain_ok. rewrite F1, F2, F3. split; [auto|]. split; [auto|]. split; [auto|]. split; [auto|]. split; [exact K1|].
      intros k Hk Hw Hle _. destruct (Nat.eq_dec (k * w) (length ss)) as [->|Hkn]; [eauto|]. apply K2; auto. congruence.
    + assert (Hk : forall x, In x (j'' :: ms) -> files_ok x ss (length ss) None).
      { intros x Hx. destruct (Hst1 x Hx) as (F1 & F2 & F3 & F4 & F5). eapply files_ok_same; [|exact HD]. intros m. apply F4. congruence. }
      split; [intros x Hx; apply Hk; simpl; auto|].
      destruct (Hst1 j'' (or_introl eq_refl)) as (F1 & F2 & F3 & _). specialize (Hk j'' (or_introl eq_refl)).
      unfold chain_ok. rewrite F1, F2, F3. auto.
Qed.

Lemma jsaves_app (a b : list (jop V)) : jsaves_of c (a ++ b) = jsaves_of c a ++ jsaves_of c b.
Proof. apply flat_map_app. Qed.

Lemma run_ok h : forall j ss, chain_ok j ss -> Forall (fun s => same_structure s s0) (ss ++ jsaves_of c h) ->
  chain_ok (fst (run jstep j h)) (ss ++ jsaves_of c h).
Proof.
  induction h as [|o h IH]; intros j ss Hj Hst; cbn [run].
  - unfold jsaves_of. simpl. now rewrite app_nil_r.
  - change (o :: h) with ([o] ++ h) in *. rewrite jsaves_app, app_assoc in *.
    assert (Hst' : Forall (fun s => same_structure s s0) (ss ++ jsaves_of c [o])) by (apply Forall_app in Hst; tauto).
    pose proof (@step_ok j ss o Hj Hst') as Hs. unfold jstep. destruct (jstep_micro j o) as [[ms j'] out]. destruct Hs as [_ Hs].
    specialize (IH j' _ Hs Hst). fold (@jstep V). destruct (run jstep j' h). exact IH.
Qed.
End Inv.

(** the state invariants that do not depend on a chain *)
Lemma run_shape h : forall (j : jcollector V), length (j_samples j) = length (j_count j) ->
  (forall c n, length (j_samples j) <= c -> j_file j c n = None) ->
  let j' := fst (run jstep j h) in
  length (j_samples j') = length (j_count j') /\ j_freq j' = j_freq j /\ length (j_samples j') = length (j_samples j) + jchains h /\
  (forall c n, length (j_samples j') <= c -> j_file j' c n = None).
Proof.
  induction h as [|o h IH]; intros j HL HN; cbn [run fst]; [unfold jchains; simpl; rewrite Nat.add_0_r; auto|].
  assert (Hs : let j1 := fst (jstep j o) in length (j_samples j1) = length (j_count j1) /\ j_freq j1 = j_freq j /\
     length (j_samples j1) = length (j_samples j) + jchains [o] /\ (forall c n, length (j_samples j1) <= c -> j_file j1 c n = None)).
  { unfold jstep, jchains. destruct o as [|c s|c]; cbn [jstep_micro filter length].
    - simpl. rewrite !app_length. simpl. split; [lia|]. split; auto. split; [lia|]. intros c n Hc. apply (HN c n). lia.
    - rewrite Nat.add_0_r. destruct (nth_error (j_samples j) c) as [ss|] eqn:E; [|auto].
      assert (Hc : c < length (j_samples j)) by (apply nth_error_Some; congruence).
      destruct (_ && _).
      + match goal with |- context[j_write ?a ?b ?d] => destruct (j_write a b d) as [[ms j''] r] eqn:Ej end. cbn [fst].
        destruct (write_states _ _ _ Ej) as [Hst1 _]. destruct (Hst1 j'' (or_introl eq_refl)) as (F1 & F2 & F3 & F4 & F5).
        rewrite F1, F2, F3. simpl. rewrite !length_upd. split; auto. split; auto. split; auto. intros c' n' Hc'. rewrite F4 by (intros X; inversion X; lia).
        unfold j_file. simpl. apply (HN c' n'); auto.
      + simpl. rewrite !length_upd. auto.
    - rewrite Nat.add_0_r. destruct (nth_error (j_count j) c) as [n|] eqn:E; [|auto].
      assert (Hc : c < length (j_samples j)) by (rewrite HL; apply nth_error_Some; congruence).
      destruct (0 <? n); [|auto]. destruct (j_write j c n) as [[ms j''] r] eqn:Ej. cbn [fst].
      destruct (write_states _ _ _ Ej) as [Hst1 _]. destruct (Hst1 j'' (or_introl eq_refl)) as (F1 & F2 & F3 & F4 & F5).
      rewrite F1, F2, F3. split; auto. split; auto. split; auto. intros c' n' Hc'. rewrite F4 by (intros X; inversion X; lia). auto. }
  destruct (jstep j o) as [j1 o1]. cbn [fst] in Hs. destruct Hs as (H1 & H2 & H3 & H4). specialize (IH j1 H1 H4).
  destruct (run jstep j1 h) as [j2 o2]. cbn [fst] in *. destruct IH as (A & B & C & D). split; auto. split; [congruence|]. split; auto.
  rewrite C, H3. unfold jchains. simpl. destruct o; simpl; lia.
Qed.

Lemma registered_ok w h0 : chain_ok (jchains h0) w (fst (run (jstep (V := V)) (j_new w) (h0 ++ [JRegister]))) [].
Proof.
  rewrite run_app. destruct (@run_shape h0 (j_new w)) as (A & B & C & D); auto.
  destruct (run (jstep (V := V)) (j_new w) h0) as [j o]. cbn [fst] in *. simpl in C. simpl.
  unfold chain_ok, files_ok. cbn [j_freq j_samples j_count].
  split; [auto|]. split; [rewrite !app_length; simpl; lia|].
  split; [rewrite nth_error_app2 by lia; rewrite C, Nat.sub_diag; reflexivity|].
  split; [rewrite nth_error_app2 by lia; rewrite <- A, C, Nat.sub_diag; reflexivity|]. split.
  - intros n t H. change (j_file j (jchains h0) n = Some (JFull t)) in H. rewrite D in H by lia. discriminate.
  - intros k Hk Hw Hle. simpl in Hle. nia.
Qed.

Lemma final_json_crash w h0 h1 o (s0 : tree V) crash : let c := jchains h0 in
  Forall (fun s => same_structure s s0) (jsaves_of c (h1 ++ [o])) ->
  let j := fst (run (jstep (V := V)) (j_new w) (h0 ++ JRegister :: h1)) in
  crash = j \/ In crash (fst (fst (jstep_micro j o))) ->
  (forall k, 0 < k -> 0 < w -> k * w <= length (jsaves_of c h1) -> o <> JFinalize c \/ k * w <> length (jsaves_of c h1) ->
     exists t, j_file crash c (k * w) = Some (JFull t) /\ exactly_samples (firstn (k * w) (jsaves_of c h1)) t) /\
  (forall n t, j_file crash c n = Some (JFull t) -> exactly_samples (firstn n (jsaves_of c (h1 ++ [o]))) t /\ 0 < n <= length (jsaves_of c (h1 ++ [o]))).
Proof.
  intros c Hst j Hcr. rewrite jsaves_app in *. pose proof (registered_ok w h0) as H0. fold c in H0.
  assert (Hj : chain_ok c w j (jsaves_of c h1)).
  { subst j. replace (h0 ++ JRegister :: h1) with ((h0 ++ [JRegister]) ++ h1) by (rewrite <- app_assoc; reflexivity).
    rewrite run_app. destruct (run (jstep (V := V)) (j_new w) (h0 ++ [JRegister])) as [j0 o0]. cbn [fst] in H0.
    assert (Hst' : Forall (fun s => same_structure s s0) ([] ++ jsaves_of c h1)) by (apply Forall_app in Hst; apply Hst).
    pose proof (@run_ok c w s0 h1 j0 [] H0 Hst') as Hr. destruct (run jstep j0 h1). exact Hr. }
  assert (Hf : files_ok c w crash (jsaves_of c h1 ++ jsaves_of c [o]) (length (jsaves_of c h1))
     (match o with JFinalize c' => if c' =? c then Some (length (jsaves_of c h1)) else None | _ => None end)).
  { pose proof (@step_ok c w s0 j (jsaves_of c h1) o Hj Hst) as Hs. destruct (jstep_micro j o) as [[ms j'] out]. cbn [fst] in Hcr.
    destruct Hs as [Hm _]. destruct Hcr as [->|Hin]; [|now apply Hm].
    destruct Hj as (_ & _ & _ & _ & Hd). apply (files_ok_grow (c := c) (w := w) (jsaves_of c [o])) in Hd. destruct Hd as [D1 D2]. split; auto.
    intros k Hk Hw Hle _. apply D2; auto. discriminate. }
  destruct Hf as [F1 F2]. split.
  - intros k Hk Hw Hle Hex. destruct (F2 k Hk Hw Hle) as [t Ht].
    + destruct o as [|c' s|c']; try discriminate. destruct (Nat.eqb_spec c' c) as [->|]; [|discriminate].
      destruct Hex as [Hex|Hex]; [congruence|]. congruence.
    + exists t. split; auto. destruct (F1 _ _ Ht) as [Hn He]. rewrite firstn_app in He. replace (k * w - length (jsaves_of c h1)) with 0 in He by lia.
      simpl in He. now rewrite app_nil_r in He.
  - intros n t Ht. destruct (F1 n t Ht). auto.
Qed.

Lemma final_json_finalize w h0 h1 (s0 : tree V) : let c := jchains h0 in
  Forall (fun s => same_structure s s0) (jsaves_of c h1) -> jsaves_of c h1 <> [] ->
  let (j, out) := run (jstep (V := V)) (j_new w) (h0 ++ JRegister :: h1 ++ [JFinalize c]) in
  last out (JId 0) = JUnit (Ok tt) /\
  exists t, j_file j c (length (jsaves_of c h1)) = Some (JFull t) /\ exactly_samples (jsaves_of c h1) t.
Proof.
  intros c Hst Hne. pose proof (registered_ok w h0) as H0. fold c in H0.
  replace (h0 ++ JRegister :: h1 ++ [JFinalize c]) with (((h0 ++ [JRegister]) ++ h1) ++ [JFinalize c]) by (rewrite <- !app_assoc; reflexivity).
  rewrite run_app. 
  assert (Hj : chain_ok c w (fst (run (jstep (V := V)) (j_new w) ((h0 ++ [JRegister]) ++ h1))) (jsaves_of c h1)).
  { rewrite run_app. destruct (run (jstep (V := V)) (j_new w) (h0 ++ [JRegister])) as [j0 o0]. cbn [fst] in H0.
    pose proof (@run_ok c w s0 h1 j0 [] H0 Hst) as Hr. destruct (run jstep j0 h1). exact Hr. }
  destruct (run (jstep (V := V)) (j_new w) ((h0 ++ [JRegister]) ++ h1)) as [j oo]. cbn [fst] in Hj.
  destruct Hj as (A & B & C & D & E). cbn [run]. unfold jstep. cbn [jstep_micro]. rewrite D.
  assert (Hpos : 0 < length (jsaves_of c h1)) by (destruct (jsaves_of c h1); [congruence|simpl; lia]).
  rewrite (proj2 (Nat.ltb_lt _ _) Hpos). destruct (j_write j c (length (jsaves_of c h1))) as [[ms j''] r] eqn:Ej.
  destruct (write_states _ _ _ Ej) as [_ Hst2]. rewrite (nth_error_nth _ _ [] C) in Hst2.
  destruct (stack_samples_ok Hne Hst) as (t & Et & Ht). destruct (Hst2 t Et) as [-> Hfull].
  rewrite last_last. split; auto. exists t. auto.
Qed.
End J.
