(** Names of the leaves as strings: joining, splitting, numbers. *)
From Coq Require Import String Ascii DecimalString DecimalNat.
From Verif Require Import Base ListUtil Pytree PytreeSpec PytreeProofs.
Set Implicit Arguments.

(** the string contains no slash *)
Definition slash_free (s : string) : Prop := ~ In "/"%char (list_ascii_of_string s).

Lemma la_app a b : list_ascii_of_string (append a b) = (list_ascii_of_string a ++ list_ascii_of_string b)%list.
Proof. induction a; simpl; auto. now rewrite IHa. Qed.
Lemma la_inj a b : list_ascii_of_string a = list_ascii_of_string b -> a = b.
Proof. intros H. apply (f_equal string_of_list_ascii) in H. now rewrite !string_of_list_ascii_of_string in H. Qed.

Lemma split_unique (a b r r' : list ascii) c : ~ In c a -> ~ In c b -> (a ++ c :: r = b ++ c :: r')%list -> a = b /\ r = r'.
Proof.
  revert b. induction a as [|x a IH]; intros [|y b] Ha Hb H; simpl in *.
  - inversion H; auto.
  - inversion H; subst. exfalso; auto.
  - inversion H; subst. exfalso; auto.
  - inversion H; subst. destruct (IH b) as [-> ->]; auto.
Qed.

Lemma join_cons p q ps : join "/" (p :: q :: ps) = append p (append "/" (join "/" (q :: ps))).
Proof. reflexivity. Qed.

Lemma join_inj p : forall q, p <> [] -> q <> [] -> Forall slash_free p -> Forall slash_free q ->
  join "/" p = join "/" q -> p = q.
Proof.
  induction p as [|a p IH]; intros [|b q] Hp Hq Fp Fq E; try congruence.
  inversion Fp as [|? ? Sa Fp']; inversion Fq as [|? ? Sb Fq']; subst.
  destruct p as [|a' p], q as [|b' q].
  - simpl in E. congruence.
  - exfalso. change (join "/" [a]) with a in E. rewrite join_cons in E. apply Sa. rewrite E, la_app. apply in_or_app. right. simpl. auto.
  - exfalso. change (join "/" [b]) with b in E. rewrite join_cons in E. apply Sb. rewrite <- E, la_app. apply in_or_app. right. simpl. auto.
  - rewrite !join_cons in E. apply (f_equal list_ascii_of_string) in E. rewrite !la_app in E.
    change (list_ascii_of_string "/") with ["/"%char] in E. cbn [app] in E. destruct (@split_unique _ _ _ _ _ Sa Sb E) as [E1 E2]. apply la_inj in E1. apply la_inj in E2. subst b. f_equal.
    apply IH; auto; discriminate.
Qed.

(** decimal numbers contain only digits *)
Lemma uint_digits u c : In c (list_ascii_of_string (NilEmpty.string_of_uint u)) -> 48 <= nat_of_ascii c <= 57.
Proof.
  induction u; simpl; [tauto|..]; intros [<-|H]; auto; vm_compute; lia.
Qed.
Lemma dec_digits n c : In c (list_ascii_of_string (dec n)) -> 48 <= nat_of_ascii c <= 57.
Proof.
  unfold dec, NilZero.string_of_uint. intros H. destruct (Nat.to_uint n) eqn:E; try (rewrite <- E in H; now apply uint_digits in H).
  - simpl in H. destruct H as [<-|[]]. vm_compute. lia.
  all: now apply (uint_digits (_ _)) in H.
Qed.
Lemma dec_no_char n c : nat_of_ascii c < 48 \/ 57 < nat_of_ascii c -> ~ In c (list_ascii_of_string (dec n)).
Proof. intros H Hin. apply dec_digits in Hin. lia. Qed.
Lemma slash_free_app a b : slash_free (append a b) <-> slash_free a /\ slash_free b.
Proof. unfold slash_free. rewrite la_app, in_app_iff. tauto. Qed.
Lemma dec_slash_free n : slash_free (dec n).
Proof. apply dec_no_char. vm_compute. lia. Qed.
Lemma list_element_slash_free i : slash_free (list_element i).
Proof. apply slash_free_app. split; [|apply dec_slash_free]. unfold slash_free. simpl. intuition discriminate. Qed.

Lemma classic_custom (k : kind) : (exists tag, k = KCustom tag) \/ (forall tag, k <> KCustom tag).
Proof. destruct k; try (right; congruence). left; eauto. Qed.

(** the positions of a node are non-empty paths *)
Lemma positions_nonempty A k (ch : list (tree A)) p a : In (p, a) (positions (Node k ch)) -> p <> [].
Proof.
  intros H. destruct (classic_custom k) as [[tag ->]|Hk].
  - cbn [positions] in H. apply in_combine_l in H. apply in_map_iff in H. destruct H as (i & <- & _). discriminate.
  - rewrite positions_node in H by auto. apply in_flat_map in H. destruct H as ([n c] & _ & H). unfold prefix in H.
    apply in_map_iff in H. destruct H as (pa & E & _). inversion E. discriminate.
Qed.

(** joined names are different *)
Lemma joined_nodup A (t : tree A) ks : wf t -> no_empty t -> dict_keys t = Ok ks ->
  (forall p a s, In (p, a) (positions t) -> In s p -> slash_free s) -> NoDup (map (join "/") ks).
Proof.
  intros Hw He Hk Hs. destruct (final_keys t Hw He) as (ks' & E & Hn & Hp & _). rewrite Hk in E. inversion E; subst ks'.
  destruct t as [a|k ch].
  - simpl in Hp. apply Permutation_sym, Permutation_length_1_inv in Hp. subst ks. simpl. constructor; [simpl; tauto|constructor].
  - apply NoDup_map_inj_in; auto. intros p q Hpin Hqin Ej.
    assert (Hin : forall r, In r ks -> r <> [] /\ Forall slash_free r).
    { intros r Hr. apply (Permutation_in _ Hp) in Hr. apply in_map_iff in Hr. destruct Hr as ([r' a] & <- & Hr). cbn [fst].
      split; [eapply positions_nonempty; eauto|]. apply Forall_forall. intros s Hsin. eapply Hs; eauto. }
    destruct (Hin p Hpin), (Hin q Hqin). apply join_inj; auto.
Qed.
