(** Proofs about the tensorflow data loader. *)
From Coq Require String.
From Verif Require Import Base ListUtil Requests RequestsProofs DataCore DataProofs TfLoader TfSpec.
Set Implicit Arguments.

Lemma iter_out_S S O (f : S -> S * O) n s :
  iter_out f (Datatypes.S n) s =
  (let (s1, o) := f s in let (s2, os) := iter_out f n s1 in (s2, o :: os)).
Proof. reflexivity. Qed.

Lemma iter_out_app S O (f : S -> S * O) n m : forall s,
  iter_out f (n + m) s = (let (s1, o1) := iter_out f n s in
                          let (s2, o2) := iter_out f m s1 in (s2, o1 ++ o2)).
Proof.
  induction n as [|n IH]; intros s; cbn [iter_out Nat.add].
  - destruct (iter_out f m s); reflexivity.
  - destruct (f s) as [s1 o]. rewrite IH. destruct (iter_out f n s1) as [s2 o1].
    destruct (iter_out f m s2) as [s3 o2]. reflexivity.
Qed.

(** ** one chain: the sequence of states and of outputs *)
Section Chain.
Variable pick : nat -> nat -> nat.
Variables N B : nat.
Variable id : nat.
Notation draw := (tf_draw pick N id).

Definition tc_start ca mb := mkTc (map (fun i => i mod N) (seq 0 B)) B ca mb.
Definition tc_at ca mb k := Nat.iter k (fun c => fst (draw c)) (tc_start ca mb).
(** the k-th output does not depend on ca and mb *)
Definition tf_idx k := snd (draw (tc_at 0 0 k)).

Lemma tc_at_sizes ca mb k : tc_ca (tc_at ca mb k) = ca /\ tc_mb (tc_at ca mb k) = mb.
Proof. induction k as [|k IH]; [split; reflexivity|]. exact IH. Qed.

Lemma tc_at_indep ca mb k : tc_buf (tc_at ca mb k) = tc_buf (tc_at 0 0 k) /\
  tc_taken (tc_at ca mb k) = tc_taken (tc_at 0 0 k).
Proof.
  induction k as [|k [IH1 IH2]]; [split; reflexivity|].
  change (tc_at ca mb (S k)) with (fst (draw (tc_at ca mb k))).
  change (tc_at 0 0 (S k)) with (fst (draw (tc_at 0 0 k))).
  unfold tf_draw; cbn [fst tc_buf tc_taken].
  rewrite IH1, IH2. split; reflexivity.
Qed.

Lemma draw_at ca mb k : draw (tc_at ca mb k) = (tc_at ca mb (S k), tf_idx k).
Proof.
  unfold tf_idx. destruct (tc_at_indep ca mb k) as [E1 E2].
  change (tc_at ca mb (S k)) with (fst (draw (tc_at ca mb k))). rewrite (surjective_pairing (draw (tc_at ca mb k))). f_equal.
  unfold tf_draw; cbn [snd]. rewrite E1, E2. reflexivity.
Qed.

Lemma draws_at ca mb n : forall k,
  iter_out draw n (tc_at ca mb k) = (tc_at ca mb (k + n), map (fun j => tf_idx (k + j)) (seq 0 n)).
Proof.
  induction n as [|n IH]; intros k; cbn [iter_out].
  - rewrite Nat.add_0_r. reflexivity.
  - rewrite draw_at, IH. cbn [seq map]. f_equal; [f_equal; lia|]. rewrite Nat.add_0_r. f_equal.
    rewrite <- seq_shift, map_map. apply map_ext. intros j. f_equal. lia.
Qed.

Lemma batches_at ca mb n : forall b m, 
  iter_out (iter_out draw m) n (tc_at ca mb (b * m)) =
  (tc_at ca mb ((b + n) * m), map (fun i => map (fun j => tf_idx ((b + i) * m + j)) (seq 0 m)) (seq 0 n)).
Proof.
  induction n as [|n IH]; intros b m; cbn [iter_out].
  - rewrite Nat.add_0_r. reflexivity.
  - rewrite draws_at. replace (b * m + m) with (S b * m) by lia. rewrite IH. cbn [seq map].
    f_equal; [f_equal; lia|]. rewrite Nat.add_0_r. f_equal.
    rewrite <- seq_shift, map_map. apply map_ext. intros i. apply map_ext. intros j. f_equal. lia.
Qed.

Lemma next_at ca mb n : tf_next pick N id (tc_at ca mb (n * ca * mb)) =
  (tc_at ca mb (S n * ca * mb),
   map (fun b => map (fun j => tf_idx ((n * ca + b) * mb + j)) (seq 0 mb)) (seq 0 ca)).
Proof.
  unfold tf_next. destruct (tc_at_sizes ca mb (n * ca * mb)) as [E1 E2]. rewrite E1, E2, batches_at.
  do 2 f_equal. lia.
Qed.

Lemma upd_permutation l i (y : nat) : i < length l -> Permutation (nth i l 0 :: upd l i y) (y :: l).
Proof.
  revert i. induction l as [|x l IH]; intros i Hi; [cbn in Hi; lia|].
  destruct i as [|i]; cbn.
  - apply perm_swap.
  - cbn in Hi. rewrite perm_swap, (IH i) by lia. apply perm_swap.
Qed.

Lemma tc_at_spec : 0 < B -> forall k, length (tc_buf (tc_at 0 0 k)) = B /\ tc_taken (tc_at 0 0 k) = k + B /\
  Permutation (map tf_idx (seq 0 k) ++ tc_buf (tc_at 0 0 k)) (repeated N (k + B)).
Proof.
  intros HB. induction k as [|k (L & T & P)].
  - cbn. rewrite map_length, seq_length. repeat split; reflexivity.
  - pose proof (draw_at 0 0 k) as E. 
    assert (E1 : tc_at 0 0 (S k) = fst (draw (tc_at 0 0 k))) by reflexivity.
    set (c := tc_at 0 0 k) in *. 
    set (i := pick id (tc_taken c) mod length (tc_buf c)).
    assert (Hi : i < length (tc_buf c)) by (apply Nat.mod_upper_bound; lia).
    assert (EI : tf_idx k = nth i (tc_buf c) 0) by reflexivity.
    rewrite E1. unfold tf_draw. cbn [fst tc_buf tc_taken]. fold i. repeat split.
    + rewrite length_upd. exact L.
    + rewrite T. lia.
    + rewrite seq_S, map_app. cbn [map Nat.add]. rewrite <- app_assoc. cbn [app]. rewrite EI.
      rewrite upd_permutation by exact Hi. 
      unfold repeated. cbn [Nat.add]. rewrite seq_S, map_app. cbn [map Nat.add]. rewrite T.
      fold (repeated N (k + B)). rewrite <- P. rewrite <- Permutation_cons_append.
      rewrite <- Permutation_middle. reflexivity.
Qed.

Lemma remove_nth l i : i < length l ->
  exists rest : list nat, Permutation l (nth i l 0 :: rest) /\ S (length rest) = length l.
Proof.
  revert i. induction l as [|x l IH]; intros i Hi; [cbn in Hi; lia|].
  destruct i as [|i]; cbn in *.
  - exists l. split; reflexivity.
  - destruct (IH i ltac:(lia)) as (r & P & L). exists (x :: r). split; [|cbn; lia].
    rewrite P at 1. apply perm_swap.
Qed.

Lemma tf_idx_shuffled : 0 < B -> shuffled N B tf_idx.
Proof.
  intros HB [|k].
  - exists (repeated N (B - 1)). unfold repeated. rewrite map_length, seq_length. split; [lia|]. reflexivity.
  - destruct (tc_at_spec HB k) as (L & T & P). set (c := tc_at 0 0 k) in *.
    set (i := pick id (tc_taken c) mod length (tc_buf c)).
    assert (Hi : i < length (tc_buf c)) by (apply Nat.mod_upper_bound; lia).
    destruct (remove_nth (tc_buf c) Hi) as (r & PR & LR). exists r. split; [lia|].
    replace (S k + length r) with (k + B) by lia. rewrite <- P, seq_S, map_app, <- app_assoc.
    apply Permutation_app_head. rewrite PR. reflexivity.
Qed.

Lemma upd_0 (l : list nat) x : upd l 0 x = match l with [] => [] | _ :: t => x :: t end.
Proof. destruct l; reflexivity. Qed.
End Chain.

(** always choosing the first buffer element *)
Lemma tf_idx_first N B id k : 0 < B -> 0 < N ->
  tf_idx (fun _ _ => 0) N B id k = match k with 0 => 0 | S k' => (B + k') mod N end.
Proof.
  intros HB HN.
  assert (H : forall k, tc_taken (tc_at (fun _ _ => 0) N B id 0 0 k) = k + B /\
    exists t, tc_buf (tc_at (fun _ _ => 0) N B id 0 0 k) = (match k with 0 => 0 | S k' => (B + k') mod N end) :: t).
  { induction k0 as [|k0 (T & t & E)].
    - split; [reflexivity|]. destruct B as [|b]; [lia|]. cbn. rewrite Nat.mod_0_l by lia. eexists; reflexivity.
    - change (tc_at (fun _ _ => 0) N B id 0 0 (S k0)) with
        (fst (tf_draw (fun _ _ => 0) N id (tc_at (fun _ _ => 0) N B id 0 0 k0))).
      unfold tf_draw. cbn [fst tc_taken tc_buf]. rewrite T, E. split; [lia|].
      rewrite Nat.mod_0_l by (cbn; lia). cbn [upd]. exists t. do 2 f_equal. lia. }
  destruct (H k) as (T & t & E). unfold tf_idx, tf_draw. cbn [snd]. rewrite E.
  rewrite Nat.mod_0_l by (cbn; lia). reflexivity.
Qed.

(** ** excluded keys *)
Section Keys.
Notation string := String.string.
Context {V : Type}.

Lemma remaining_nil (d : list (string * V)) : remaining [] d = d.
Proof. unfold remaining. cbn. induction d as [|x d IH]; [reflexivity|]. cbn. rewrite IH. reflexivity. Qed.

Lemma del_keys_ok ks : forall d : list (string * V), NoDup ks -> incl ks (map fst d) ->
  del_keys ks d = Ok (remaining ks d).
Proof.
  induction ks as [|k ks IH]; intros d ND I; cbn [del_keys].
  - rewrite remaining_nil. reflexivity.
  - inversion ND as [|? ? NI ND']; subst. unfold del_key.
    destruct (existsb (fun kv => String.eqb (fst kv) k) d) eqn:E.
    + cbn [bind]. rewrite IH.
      * f_equal. unfold remaining. clear. induction d as [|[n v] d IHd]; [reflexivity|]. cbn [filter fst existsb].
        destruct (String.eqb n k); cbn [negb orb]; [exact IHd|]. cbn [filter fst].
        destruct (existsb (String.eqb n) ks); cbn [negb]; [exact IHd|]. f_equal. exact IHd.
      * exact ND'.
      * intros k' Hk'. assert (In k' (map fst d)) as Hin by (apply I; right; exact Hk').
        apply in_map_iff in Hin as [[n v] [En Hin]]. apply in_map_iff. exists (n, v). split; [exact En|].
        apply filter_In. split; [exact Hin|]. cbn in En |- *. subst n.
        destruct (String.eqb k' k) eqn:E2; [|reflexivity]. apply String.eqb_eq in E2. subst. contradiction.
    + exfalso. assert (In k (map fst d)) as Hin by (apply I; left; reflexivity).
      apply in_map_iff in Hin as [[n v] [En Hin]]. cbn in En. subst n.
      assert (existsb (fun kv => String.eqb (fst kv) k) d = true); [|congruence].
      apply existsb_exists. exists (k, v). split; [exact Hin|]. apply String.eqb_refl.
Qed.

Lemma del_keys_missing ks : forall d : list (string * V), ~ (NoDup ks /\ incl ks (map fst d)) ->
  del_keys ks d = Exc KeyError.
Proof.
  induction ks as [|k ks IH]; intros d H; cbn [del_keys].
  - exfalso. apply H. split; [constructor|]. intros x [].
  - unfold del_key. destruct (existsb (fun kv => String.eqb (fst kv) k) d) eqn:E; [|reflexivity].
    cbn [bind]. apply IH. intros [ND I]. apply H. split.
    + constructor; [|exact ND]. intros Hk. apply I in Hk. apply in_map_iff in Hk as [[n v] [En Hin]].
      apply filter_In in Hin as [_ Hin]. cbn in *. subst n. rewrite String.eqb_refl in Hin. discriminate.
    + intros k' [<- | Hk'].
      * apply existsb_exists in E as [[n v] [Hin En]]. apply String.eqb_eq in En. cbn in En. subst n.
        apply in_map_iff. exists (k, v). split; [reflexivity|exact Hin].
      * apply I in Hk'. apply in_map_iff in Hk' as [x [En Hin]]. apply filter_In in Hin as [Hin _].
        apply in_map_iff. exists x. split; assumption.
Qed.

Lemma remaining_map W (f : V -> W) ks (d : list (string * V)) :
  remaining ks (map (fun kv => (fst kv, f (snd kv))) d) = map (fun kv => (fst kv, f (snd kv))) (remaining ks d).
Proof.
  unfold remaining. induction d as [|[n v] d IH]; [reflexivity|]. cbn [map filter fst snd].
  destruct (existsb (String.eqb n) ks); cbn [negb map]; [exact IH|]. cbn [fst snd]. f_equal. exact IH.
Qed.
End Keys.
