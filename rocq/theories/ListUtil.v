(** List and arithmetic lemmas used by the proofs (no model content). *)
From Verif Require Import Base.
From Coq Require Import ZifyNat ZifyBool.
Set Implicit Arguments.

Lemma length_upd A (l : list A) i v : length (upd l i v) = length l.
Proof. revert i; induction l as [|x l IH]; intros [|i]; simpl; auto. Qed.

Lemma nth_upd_same A (l : list A) i v d : i < length l -> nth i (upd l i v) d = v.
Proof. revert i; induction l as [|x l IH]; intros [|i] H; simpl in *; auto; try lia. apply IH; lia. Qed.

Lemma nth_upd_other A (l : list A) i j v d : i <> j -> nth j (upd l i v) d = nth j l d.
Proof.
  revert i j; induction l as [|x l IH]; intros [|i] [|j] H; simpl; auto; try lia.
Qed.

Lemma nth_error_upd_same A (l : list A) i v : i < length l -> nth_error (upd l i v) i = Some v.
Proof. revert i; induction l as [|x l IH]; intros [|i] H; simpl in *; auto; try lia. apply IH; lia. Qed.

Lemma nth_error_upd_other A (l : list A) i j v : i <> j -> nth_error (upd l i v) j = nth_error l j.
Proof.
  revert i j; induction l as [|x l IH]; intros [|i] [|j] H; simpl; auto; try lia.
Qed.

Lemma upd_id A (l : list A) i v : nth_error l i = Some v -> upd l i v = l.
Proof.
  revert i; induction l as [|x l IH]; intros [|i] H; simpl in *; try discriminate.
  - now inversion H.
  - now rewrite IH.
Qed.

Lemma upd_upd A (l : list A) i v w : upd (upd l i v) i w = upd l i w.
Proof. revert i; induction l as [|x l IH]; intros [|i]; simpl; auto. now rewrite IH. Qed.

Lemma upd_comm A (l : list A) i j v w : i <> j -> upd (upd l i v) j w = upd (upd l j w) i v.
Proof.
  revert i j; induction l as [|x l IH]; intros [|i] [|j] H; simpl; auto; try lia.
  now rewrite IH by lia.
Qed.

Lemma upd_app_l A (l m : list A) i v : i < length l -> upd (l ++ m) i v = upd l i v ++ m.
Proof. revert i; induction l as [|x l IH]; intros [|i] H; simpl in *; auto; try lia. now rewrite IH by lia. Qed.

(** scatter *)
Lemma length_scatter A (idxs : list nat) : forall (l vals : list A),
  length (scatter l idxs vals) = length l.
Proof.
  unfold scatter. induction idxs as [|i idxs IH]; intros l [|v vals]; simpl; auto.
  rewrite IH. apply length_upd.
Qed.

Lemma nth_scatter_other A (idxs : list nat) : forall (l vals : list A) j d,
  ~ In j idxs -> nth j (scatter l idxs vals) d = nth j l d.
Proof.
  unfold scatter. induction idxs as [|i idxs IH]; intros l [|v vals] j d H; simpl in *; auto.
  rewrite IH by tauto. apply nth_upd_other. intro; subst; tauto.
Qed.

Lemma nth_scatter_hit A (idxs : list nat) : forall (l vals : list A) k d,
  NoDup idxs -> k < length idxs -> length vals = length idxs ->
  (forall i, In i idxs -> i < length l) ->
  nth (nth k idxs 0) (scatter l idxs vals) d = nth k vals d.
Proof.
  unfold scatter. induction idxs as [|i idxs IH]; intros l [|v vals] k d Hnd Hk Hl Hin;
    simpl in *; try lia.
  inversion Hnd as [|? ? Hni Hnd']; subst.
  destruct k as [|k].
  - change (nth i (scatter (upd l i v) idxs vals) d = v).
    rewrite nth_scatter_other by assumption.
    apply nth_upd_same. apply Hin; auto.
  - apply IH; auto; try lia. intros j Hj. rewrite length_upd. apply Hin; auto.
Qed.

(** gather *)
Lemma gather_ok A (l : list A) idxs (d : A) :
  (forall i, In i idxs -> i < length l) -> gather l idxs = Ok (map (fun i => nth i l d) idxs).
Proof.
  induction idxs as [|i idxs IH]; intros H; simpl; auto.
  destruct (nth_error l i) eqn:E.
  - rewrite IH by (intros; apply H; simpl; auto). simpl.
    now rewrite (nth_error_nth _ _ d E).
  - apply nth_error_None in E. specialize (H i (or_introl eq_refl)). lia.
Qed.

Lemma gather_spec A (l : list A) idxs out :
  gather l idxs = Ok out <-> map Some out = map (nth_error l) idxs.
Proof.
  revert out; induction idxs as [|i idxs IH]; intros out; simpl.
  - split; intros H.
    + now inversion H.
    + destruct out; simpl in *; congruence.
  - destruct (nth_error l i) eqn:E.
    + destruct (gather l idxs) as [xs|e] eqn:G; simpl.
      * specialize (IH xs). split; intros H.
        -- inversion H; subst; simpl. f_equal. now apply IH.
        -- destruct out as [|o out]; simpl in H; [discriminate|].
           inversion H as [[H1 H2]]. assert (map Some xs = map (nth_error l) idxs) as Hx by (now apply IH).
           rewrite <- Hx in H2. f_equal. f_equal.
           revert H2. clear. revert xs. induction out as [|a out IHo]; intros [|x xs] H; simpl in *; try congruence.
           inversion H; subst. f_equal. now apply IHo.
      * split; intros H; [discriminate|].
        destruct out as [|o out]; simpl in H; [discriminate|].
        inversion H as [[H1 H2]]. apply IH in H2. discriminate.
    + split; intros H; [discriminate|]. destruct out; simpl in H; discriminate.
Qed.

(** modular arithmetic *)
Lemma mod_eq_close a b B : B <> 0 -> a mod B = b mod B -> a <= b -> b < a + B -> a = b.
Proof.
  intros HB H Hle Hlt.
  pose proof (Nat.div_mod a B HB). pose proof (Nat.div_mod b B HB).
  pose proof (Nat.mod_upper_bound a B HB). 
  assert (a / B = b / B) by nia. nia.
Qed.

Lemma ceil_div_spec n m : 0 < m -> n <= ceil_div n m * m /\ ceil_div n m * m < n + m.
Proof.
  intros Hm. unfold ceil_div.
  pose proof (Nat.div_mod (n + m - 1) m ltac:(lia)).
  pose proof (Nat.mod_upper_bound (n + m - 1) m ltac:(lia)).
  nia.
Qed.

Lemma ceil_div_unique n m c : 0 < m -> n <= c * m -> c * m < n + m -> ceil_div n m = c.
Proof.
  intros Hm H1 H2. pose proof (ceil_div_spec n Hm) as [H3 H4]. nia.
Qed.

Lemma ceil_div_pos n m : 0 < m -> 0 < n -> 0 < ceil_div n m.
Proof. intros Hm Hn. pose proof (ceil_div_spec n Hm). nia. Qed.

Lemma div_mod_unique_nat a b q r : r < b -> a = b * q + r -> a / b = q /\ a mod b = r.
Proof.
  intros Hr H. split.
  - symmetry. eapply Nat.div_unique; eauto.
  - symmetry. eapply Nat.mod_unique; eauto.
Qed.

(** misc lists *)
Lemma nth_error_map_seq A (f : nat -> A) n i : i < n -> nth_error (map f (seq 0 n)) i = Some (f i).
Proof.
  intros H. rewrite nth_error_map.
  rewrite (nth_error_nth' _ 0) by (rewrite seq_length; lia).
  simpl. now rewrite seq_nth by lia.
Qed.

Lemma nth_map_seq A (f : nat -> A) n i d : i < n -> nth i (map f (seq 0 n)) d = f i.
Proof.
  intros H. rewrite nth_indep with (d' := f 0) by (rewrite map_length, seq_length; lia).
  rewrite map_nth, seq_nth by lia. reflexivity.
Qed.

Lemma list_eq_nth A (d : A) (l m : list A) :
  length l = length m -> (forall i, i < length l -> nth i l d = nth i m d) -> l = m.
Proof.
  revert m; induction l as [|x l IH]; intros [|y m] Hl H; simpl in *; try lia; auto.
  f_equal.
  - apply (H 0); lia.
  - apply IH; [lia|]. intros i Hi. apply (H (S i)); lia.
Qed.

Lemma map_nth_seq A (d : A) (l : list A) : map (fun i => nth i l d) (seq 0 (length l)) = l.
Proof.
  apply list_eq_nth with (d := d).
  - now rewrite map_length, seq_length.
  - intros i Hi. rewrite map_length, seq_length in Hi. now rewrite nth_map_seq by lia.
Qed.

Lemma map_seq_shift A (f : nat -> A) a n : map f (seq a n) = map (fun i => f (a + i)) (seq 0 n).
Proof.
  revert a; induction n as [|n IH]; intros a; simpl; auto.
  rewrite Nat.add_0_r. f_equal. rewrite IH. rewrite <- seq_shift, map_map.
  apply map_ext. intros i. f_equal. lia.
Qed.

Lemma concat_map_seq_blocks A (f : nat -> A) m n :
  concat (map (fun b => map (fun j => f (b * m + j)) (seq 0 m)) (seq 0 n)) = map f (seq 0 (n * m)).
Proof.
  induction n as [|n IH]; [reflexivity|].
  rewrite seq_S, map_app, concat_app, IH. simpl.
  rewrite app_nil_r, (Nat.add_comm m), seq_app, map_app. simpl.
  f_equal. rewrite (map_seq_shift f (n * m)). reflexivity.
Qed.

Lemma repeat_map_seq A (x : A) n : repeat x n = map (fun _ => x) (seq 0 n).
Proof.
  induction n as [|n IH]; [reflexivity|]. rewrite seq_S, map_app, <- IH. simpl.
  rewrite <- repeat_cons. reflexivity.
Qed.

Lemma combine_map2 A B C (f : C -> A) (g : C -> B) l : combine (map f l) (map g l) = map (fun x => (f x, g x)) l.
Proof. induction l; simpl; congruence. Qed.

Lemma filter_seq_lt n k : n <= k -> filter (fun i => i <? n) (seq 0 k) = seq 0 n.
Proof.
  intros H. replace k with (n + (k - n)) by lia. rewrite seq_app, filter_app.
  replace (filter (fun i => i <? n) (seq 0 n)) with (seq 0 n).
  - replace (filter (fun i => i <? n) (seq (0 + n) (k - n))) with (@nil nat); [apply app_nil_r|].
    symmetry. assert (forall a m, n <= a -> filter (fun i => i <? n) (seq a m) = []) as Haux.
    { intros a m; revert a; induction m as [|m IH]; intros a Ha; simpl; auto.
      destruct (Nat.ltb_spec a n); [lia|]. apply IH; lia. }
    apply Haux; lia.
  - symmetry. clear H k. 
    assert (forall a m, a + m <= n -> filter (fun i => i <? n) (seq a m) = seq a m) as Haux.
    { intros a m; revert a; induction m as [|m IH]; intros a Ha; simpl; auto.
      destruct (Nat.ltb_spec a n); [|lia]. f_equal. apply IH; lia. }
    apply Haux; lia.
Qed.

Lemma filter_map_comm A B (f : A -> B) (p : B -> bool) l :
  filter p (map f l) = map f (filter (fun x => p (f x)) l).
Proof.
  induction l as [|x l IH]; simpl; auto. destruct (p (f x)); simpl; now rewrite IH.
Qed.

Lemma seq_plus_map a n : seq a n = map (fun i => a + i) (seq 0 n).
Proof. rewrite <- (map_id (seq a n)). rewrite map_seq_shift. reflexivity. Qed.

Lemma NoDup_map_inj_in A B (f : A -> B) l :
  NoDup l -> (forall x y, In x l -> In y l -> f x = f y -> x = y) -> NoDup (map f l).
Proof.
  induction l as [|x l IH]; intros Hnd Hinj; simpl; constructor; inversion Hnd; subst.
  - intros Hin. apply in_map_iff in Hin. destruct Hin as (y & Hy & Hyl).
    assert (y = x) by (apply Hinj; simpl; auto). subst; contradiction.
  - apply IH; auto. intros; apply Hinj; simpl; auto.
Qed.

Lemma iter_res_app S O (f : S -> res (S * O)) n m s :
  iter_res f (n + m) s =
  (let* so := iter_res f n s in
   let* so2 := iter_res f m (fst so) in Ok (fst so2, snd so ++ snd so2)).
Proof.
  revert s; induction n as [|n IH]; intros s; simpl.
  - destruct (iter_res f m s) as [[s' o]|e]; reflexivity.
  - destruct (f s) as [[s1 o]|e]; simpl; auto. rewrite IH.
    destruct (iter_res f n s1) as [[s2 os]|e]; simpl; auto.
    destruct (iter_res f m s2) as [[s3 os']|e]; simpl; auto.
Qed.

Lemma run_app S Op O (step : S -> Op -> S * O) a b s :
  run step s (a ++ b) =
  (let (s1, o1) := run step s a in let (s2, o2) := run step s1 b in (s2, o1 ++ o2)).
Proof.
  revert s; induction a as [|op a IH]; intros s; simpl.
  - destruct (run step s b); reflexivity.
  - destruct (step s op) as [s1 o]. rewrite IH.
    destruct (run step s1 a) as [s2 o2]. destruct (run step s2 b); reflexivity.
Qed.

Lemma run_length S Op O (step : S -> Op -> S * O) ops s : length (snd (run step s ops)) = length ops.
Proof.
  revert s; induction ops as [|op ops IH]; intros s; simpl; auto.
  destruct (step s op) as [s1 o]. specialize (IH s1). destruct (run step s1 ops). simpl in *. lia.
Qed.

Lemma concat_repeat_nil A n : concat (repeat (@nil A) n) = [].
Proof. induction n; simpl; auto. Qed.

Lemma nth_error_ext A : forall l m : list A, (forall i, nth_error l i = nth_error m i) -> l = m.
Proof.
  induction l as [|x l IH]; intros [|y m] H; auto; try (specialize (H 0); discriminate).
  pose proof (H 0) as H0. simpl in H0. inversion H0; subst. f_equal. apply IH. intros i. exact (H (S i)).
Qed.

Lemma NoDup_firstn A k (l : list A) : NoDup l -> NoDup (firstn k l).
Proof.
  revert k. induction l as [|x l IH]; intros [|k] H; simpl; try constructor; inversion H; subst; auto.
  intros Hin. apply H2. rewrite <- (firstn_skipn k l). apply in_or_app. auto.
Qed.
