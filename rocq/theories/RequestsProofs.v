From Verif Require Import Base ListUtil Requests RequestsSpec.
From Coq Require Import ZifyNat ZifyBool.
Set Implicit Arguments.

Lemma token_eqb_spec a b : reflect (a = b) (token_eqb a b).
Proof.
  destruct a as [x|x], b as [y|y]; simpl; try (constructor; congruence);
    destruct (Nat.eqb_spec x y); constructor; congruence.
Qed.
Lemma token_eqb_refl t : token_eqb t t = true.
Proof. destruct (token_eqb_spec t t); congruence. Qed.

Lemma tlookup_set_same V t (v : V) d : tlookup t (tset t v d) = Some v.
Proof.
  unfold tlookup. induction d as [|[k w] d IH]; simpl.
  - now rewrite token_eqb_refl.
  - destruct (token_eqb t k) eqn:E; simpl; [now rewrite token_eqb_refl|]. now rewrite E.
Qed.
Lemma tlookup_set_other V t t' (v : V) d : t <> t' -> tlookup t' (tset t v d) = tlookup t' d.
Proof.
  intros Hne. unfold tlookup. induction d as [|[k w] d IH]; simpl.
  - destruct (token_eqb_spec t' t); simpl; congruence.
  - destruct (token_eqb_spec t k); simpl.
    + subst. destruct (token_eqb_spec t' k); simpl; congruence.
    + destruct (token_eqb_spec t' k); auto.
Qed.
Lemma tlookup_del_same V t (d : list (token * V)) : tlookup t (tdel t d) = None.
Proof.
  unfold tlookup, tdel. induction d as [|[k w] d IH]; simpl; auto.
  destruct (token_eqb t k) eqn:E; simpl; auto. now rewrite E.
Qed.
Lemma tlookup_del_other V t t' (d : list (token * V)) : t <> t' -> tlookup t' (tdel t d) = tlookup t' d.
Proof.
  intros Hne. unfold tlookup, tdel. induction d as [|[k w] d IH]; simpl; auto.
  destruct (token_eqb_spec t k); simpl.
  - subst. destruct (token_eqb_spec t' k); [congruence|]. exact IH.
  - destruct (token_eqb_spec t' k); auto.
Qed.
Lemma tlookup_none_nil V (d : list (token * V)) : (forall t, tlookup t d = None) -> d = [].
Proof.
  destruct d as [|[k w] d]; auto. intros H. specialize (H k). unfold tlookup in H. simpl in H.
  rewrite token_eqb_refl in H. discriminate.
Qed.
Lemma clookup_set_same V c (v : V) d : clookup c (cset c v d) = Some v.
Proof.
  unfold clookup. induction d as [|[k w] d IH]; simpl.
  - now rewrite Nat.eqb_refl.
  - destruct (c =? k) eqn:E; simpl; [now rewrite Nat.eqb_refl|]. now rewrite E.
Qed.
Lemma clookup_set_other V c c' (v : V) d : c <> c' -> clookup c' (cset c v d) = clookup c' d.
Proof.
  intros Hne. unfold clookup. induction d as [|[k w] d IH]; simpl.
  - destruct (Nat.eqb_spec c' c); simpl; congruence.
  - destruct (Nat.eqb_spec c k); simpl.
    + subst. destruct (Nat.eqb_spec c' k); simpl; congruence.
    + destruct (Nat.eqb_spec c' k); auto.
Qed.

Section R.
Context {D : Type}.
Variable stream : nat -> nat -> D.
Variable d : nat.
Hypothesis Hd : 0 < d.
Variable strict : bool.

(** replicas that have not yet passed round r *)
Definition behind (n : nat -> nat) (r : nat) : nat :=
  length (filter (fun i => n i <=? r) (seq 0 d)).

Record Inv (n : nat -> nat -> nat) (s : sys (D := D)) (hist : nat -> list token) : Prop := {
  iA : forall j, nth_error (hist j) 0 = Some (TInit j);
  iB : forall j r j' r' t, nth_error (hist j) r = Some t -> nth_error (hist j') r' = Some t -> j = j' /\ r = r';
  iC : forall j r t, nth_error (hist j) r = Some t -> 0 < r -> exists m, t = TNew m /\ m < r_fresh (y_req s);
  iD : forall j i, i < d -> nth_error (hist j) (n j i) = Some (y_tok s j i);
  iE : forall j, exists i, i < d /\ S (n j i) = length (hist j);
  iF : forall j, clookup j (r_current (y_req s)) =
         (if length (hist j) =? 1 then None else nth_error (hist j) (length (hist j) - 1));
  iG : forall j r t, nth_error (hist j) r = Some t ->
         tlookup t (r_cached (y_req s)) =
         match nth_error (hist j) (S r) with
         | Some t' => if behind (n j) r =? 0 then None else Some (behind (n j) r, stream j r, t')
         | None => None end;
  iG' : forall t v, tlookup t (r_cached (y_req s)) = Some v -> exists j r, nth_error (hist j) r = Some t;
  iH : forall j, S (r_loader (y_req s) j) = length (hist j);
  iI : forall j i, i < d -> y_log s j i = map (stream j) (seq 0 (n j i)) }.

Definition bump (n : nat -> nat -> nat) (j i : nat) : nat -> nat -> nat :=
  fun x y => if (x =? j) && (y =? i) then S (n j i) else n x y.

Lemma bump_same n j i : bump n j i j i = S (n j i).
Proof. unfold bump. now rewrite !Nat.eqb_refl. Qed.
Lemma bump_other n j i x y : (x, y) <> (j, i) -> bump n j i x y = n x y.
Proof.
  unfold bump. intros H. destruct (Nat.eqb_spec x j), (Nat.eqb_spec y i); simpl; auto. subst; congruence.
Qed.

Lemma behind_other n j i r j' : j' <> j -> behind (bump n j i j') r = behind (n j') r.
Proof.
  intros H. unfold behind. f_equal. apply filter_ext. intros y. rewrite bump_other; auto. congruence.
Qed.

(** counting with one replica moved from round r to r+1 *)
Lemma filter_count_bump (f : nat -> nat) i r0 : i < d -> f i = r0 ->
  let f' := fun y => if y =? i then S r0 else f y in
  (behind f' r0 = behind f r0 - 1) /\ 0 < behind f r0 /\ (forall r, r <> r0 -> behind f' r = behind f r).
Proof.
  intros Hi Hf f'. unfold behind.
  assert (Hsplit : seq 0 d = seq 0 i ++ i :: seq (S i) (d - S i)).
  { replace d with (i + S (d - S i)) at 1 by lia. rewrite seq_app. reflexivity. }
  rewrite Hsplit.
  assert (Hout : forall r l, ~ In i l -> filter (fun y => f' y <=? r) l = filter (fun y => f y <=? r) l).
  { intros r l Hl. apply filter_ext_in. intros y Hy. unfold f'. destruct (Nat.eqb_spec y i); auto. subst; contradiction. }
  assert (N1 : ~ In i (seq 0 i)) by (rewrite in_seq; lia).
  assert (N2 : ~ In i (seq (S i) (d - S i))) by (rewrite in_seq; lia).
  assert (Hfi : f' i = S r0) by (unfold f'; now rewrite Nat.eqb_refl).
  repeat split.
  - rewrite !filter_app, !app_length. cbn [filter]. rewrite !Hout by assumption. rewrite Hfi, Hf.
    destruct (Nat.leb_spec (S r0) r0); [lia|]. destruct (Nat.leb_spec r0 r0); [|lia]. simpl. lia.
  - rewrite !filter_app, !app_length. cbn [filter]. rewrite Hf.
    destruct (Nat.leb_spec r0 r0); [|lia]. simpl. lia.
  - intros r Hr. rewrite !filter_app, !app_length. cbn [filter]. rewrite !Hout by assumption. rewrite Hfi, Hf.
    destruct (Nat.leb_spec (S r0) r); destruct (Nat.leb_spec r0 r); simpl; lia.
Qed.

Lemma behind_bump n j i : i < d -> 
  behind (bump n j i j) (n j i) = behind (n j) (n j i) - 1 /\ 0 < behind (n j) (n j i) /\
  (forall r, r <> n j i -> behind (bump n j i j) r = behind (n j) r).
Proof.
  intros Hi. destruct (@filter_count_bump (n j) i (n j i) Hi eq_refl) as (H1 & H2 & H3).
  assert (E : forall r, behind (bump n j i j) r = behind (fun y => if y =? i then S (n j i) else n j y) r).
  { intros r. unfold behind. f_equal. apply filter_ext. intros y. unfold bump. now rewrite Nat.eqb_refl. }
  repeat split; auto.
  - rewrite E. exact H1.
  - intros r Hr. rewrite E. auto.
Qed.

Lemma behind_all f r : (forall i, i < d -> f i <= r) -> behind f r = d.
Proof.
  intros H. unfold behind. rewrite (filter_ext_in _ (fun _ => true)).
  - clear H. assert (forall l, filter (fun _ : nat => true) l = l) as Hid.
    { induction l; simpl; congruence. }
    rewrite Hid. apply seq_length.
  - intros i Hi. apply in_seq in Hi. apply Nat.leb_le. apply H. lia.
Qed.

Lemma hist_bound n s hist j i : Inv n s hist -> i < d -> n j i < length (hist j).
Proof. intros HI Hi. apply nth_error_Some. rewrite (iD HI j Hi). congruence. Qed.

Lemma step_inv n s hist j i : i < d -> Inv n s hist ->
  let (s', out) := sys_step stream d strict s (j, i) in
  out = Ok (stream j (n j i)) /\ exists hist', Inv (bump n j i) s' hist'.
Proof.
  intros Hi HI. unfold sys_step.
  set (t := y_tok s j i). set (r := n j i).
  assert (Ht : nth_error (hist j) r = Some t) by (apply (iD HI); auto).
  pose proof (iG HI j r Ht) as Hc.
  destruct (@behind_bump n j i Hi) as (Hb1 & Hb2 & Hb3). fold r in Hb1, Hb2, Hb3.
  destruct (nth_error (hist j) (S r)) as [t'|] eqn:Et'.
  - (* the data of this round is still held *)
    destruct (Nat.eqb_spec (behind (n j) r) 0); [lia|].
    unfold request. rewrite Hc. cbv iota zeta beta.
    set (cached' := if behind (n j) r =? 1 then tdel t (r_cached (y_req s))
                    else tset t (behind (n j) r - 1, stream j r, t') (r_cached (y_req s))).
    split; [reflexivity|]. exists hist.
    assert (Hother : forall t0, t0 <> t -> tlookup t0 cached' = tlookup t0 (r_cached (y_req s))).
    { intros t0 Hne. unfold cached'. destruct (_ =? 1);
        [now apply tlookup_del_other; auto | now apply tlookup_set_other; auto]. }
    constructor; cbn [y_req y_tok y_log r_fresh r_current r_cached r_loader].
    + apply (iA HI).
    + apply (iB HI).
    + apply (iC HI).
    + intros x y Hy. unfold upd2, bump. destruct ((x =? j) && (y =? i)) eqn:E.
      * assert (x = j /\ y = i) as [-> ->] by lia. fold r. exact Et'.
      * apply (iD HI); auto.
    + intros x. destruct (iE HI x) as (y & Hy & Hn).
      destruct (Nat.eq_dec x j) as [->|Hx].
      * destruct (Nat.eq_dec y i) as [->|Hyi].
        -- exfalso. fold r in Hn. assert (nth_error (hist j) (S r) <> None) as Hs by congruence.
           apply nth_error_Some in Hs. lia.
        -- exists y. split; auto. rewrite bump_other; auto. congruence.
      * exists y. split; auto. rewrite bump_other; auto. congruence.
    + apply (iF HI).
    + intros x q tq Hq. destruct (token_eqb_spec tq t) as [->|Hne].
      * destruct (iB HI j r x q Ht Hq) as [<- <-]. rewrite Et'.
        unfold cached'. rewrite Hb1.
        destruct (Nat.eqb_spec (behind (n j) r) 1) as [E1|E1].
        -- rewrite tlookup_del_same. rewrite E1. reflexivity.
        -- rewrite tlookup_set_same. destruct (Nat.eqb_spec (behind (n j) r - 1) 0); [lia|reflexivity].
      * rewrite Hother by assumption. rewrite (iG HI x q Hq).
        destruct (nth_error (hist x) (S q)); auto.
        destruct (Nat.eq_dec x j) as [->|Hx].
        -- rewrite Hb3; auto. intros ->. congruence.
        -- now rewrite behind_other.
    + intros t0 v H0. destruct (token_eqb_spec t0 t) as [->|Hne]; [exists j, r; exact Ht|].
      rewrite Hother in H0 by assumption. eapply (iG' HI); eauto.
    + apply (iH HI).
    + intros x y Hy. unfold upd2, bump. destruct ((x =? j) && (y =? i)) eqn:E.
      * assert (x = j /\ y = i) as [-> ->] by lia. fold r. rewrite (iI HI) by auto. fold r.
        rewrite seq_S, map_app. reflexivity.
      * apply (iI HI); auto.
  - (* first request of this round *)
    assert (HR : S r = length (hist j)).
    { apply nth_error_None in Et'. pose proof (@hist_bound n s hist j i HI Hi). fold r in H. lia. }
    unfold request. rewrite Hc.
    assert (Hcur : match clookup j (r_current (y_req s)) with None => false | Some t0 => negb (token_eqb t0 t) end = false).
    { rewrite (iF HI j). destruct (length (hist j) =? 1); auto.
      rewrite <- HR. simpl. rewrite Nat.sub_0_r, Ht, token_eqb_refl. reflexivity. }
    rewrite Hcur. unfold stream_get.
    assert (Hl : r_loader (y_req s) j = r) by (pose proof (iH HI j); lia).
    rewrite Hl. cbv iota zeta beta. split; [reflexivity|].
    set (nt := TNew (r_fresh (y_req s))).
    set (cached' := if d =? 1 then r_cached (y_req s)
                    else tset t (d - 1, stream j r, nt) (r_cached (y_req s))).
    exists (fun x => if x =? j then hist j ++ [nt] else hist x).
    assert (Hother : forall t0, t0 <> t -> tlookup t0 cached' = tlookup t0 (r_cached (y_req s))).
    { intros t0 Hne. unfold cached'. destruct (_ =? 1); auto. apply tlookup_set_other; auto. }
    assert (Hnew : forall x q, nth_error (hist x) q <> Some nt).
    { intros x q H. destruct q as [|q].
      - rewrite (iA HI) in H. discriminate.
      - destruct (iC HI x H ltac:(lia)) as (m & Hm & Hlt). unfold nt in Hm. inversion Hm. lia. }
    assert (Hh : forall x q tq, nth_error (if x =? j then hist j ++ [nt] else hist x) q = Some tq ->
        nth_error (hist x) q = Some tq \/ (x = j /\ q = S r /\ tq = nt)).
    { intros x q tq. destruct (Nat.eqb_spec x j) as [->|]; auto. intros H.
      destruct (Nat.lt_ge_cases q (length (hist j))).
      - rewrite nth_error_app1 in H by assumption. auto.
      - rewrite nth_error_app2 in H by assumption.
        destruct (q - length (hist j)) eqn:Eq; simpl in H; [|destruct n0; discriminate].
        inversion H; subst. right. repeat split; auto. lia. }
    assert (Hh' : forall x q tq, nth_error (hist x) q = Some tq ->
        nth_error (if x =? j then hist j ++ [nt] else hist x) q = Some tq).
    { intros x q tq H. destruct (Nat.eqb_spec x j) as [->|]; auto. rewrite nth_error_app1; auto.
      apply nth_error_Some. congruence. }
    constructor; cbn [y_req y_tok y_log r_fresh r_current r_cached r_loader].
    + intros x. apply Hh'. apply (iA HI).
    + intros x q x' q' t0 H1 H2. apply Hh in H1, H2.
      destruct H1 as [H1|(-> & -> & ->)], H2 as [H2|(-> & -> & E)].
      * eapply (iB HI); eauto.
      * subst. exfalso. eapply Hnew; eauto.
      * exfalso. eapply Hnew; eauto.
      * auto.
    + intros x q t0 H1 H2. apply Hh in H1. destruct H1 as [H1|(-> & -> & ->)].
      * destruct (iC HI x H1 H2) as (m & -> & Hm). exists m. split; auto.
      * eexists. split; [reflexivity|]. lia.
    + intros x y Hy. unfold upd2, bump. destruct ((x =? j) && (y =? i)) eqn:E.
      * assert (x = j /\ y = i) as [-> ->] by lia. fold r. rewrite Nat.eqb_refl.
        rewrite nth_error_app2 by lia. replace (S r - length (hist j)) with 0 by lia. reflexivity.
      * apply Hh'. apply (iD HI); auto.
    + intros x. destruct (Nat.eqb_spec x j) as [->|Hx].
      * exists i. split; auto. rewrite bump_same, app_length. fold r. simpl. lia.
      * destruct (iE HI x) as (y & Hy & Hn). exists y. split; auto. rewrite bump_other; auto. congruence.
    + intros x. destruct (Nat.eqb_spec x j) as [->|Hx].
      * rewrite clookup_set_same. rewrite app_length. simpl.
        destruct (Nat.eqb_spec (length (hist j) + 1) 1) as [E|E]; [lia|].
        rewrite nth_error_app2 by lia. replace (length (hist j) + 1 - 1 - length (hist j)) with 0 by lia.
        reflexivity.
      * rewrite clookup_set_other by auto. apply (iF HI).
    + intros x q tq Hq. apply Hh in Hq. destruct Hq as [Hq|(-> & -> & ->)].
      * destruct (token_eqb_spec tq t) as [->|Hne].
        -- destruct (iB HI j r x q Ht Hq) as [<- <-]. rewrite Nat.eqb_refl.
           rewrite nth_error_app2 by lia. replace (S r - length (hist j)) with 0 by lia. cbn [nth_error].
           rewrite Hb1. rewrite behind_all.
           2:{ intros y Hy. pose proof (@hist_bound n s hist j y HI Hy). lia. }
           unfold cached'. destruct (Nat.eqb_spec d 1) as [->|Hd1].
           ++ rewrite Hc. reflexivity.
           ++ rewrite tlookup_set_same. destruct (Nat.eqb_spec (d - 1) 0); [lia|reflexivity].
        -- rewrite Hother by assumption. rewrite (iG HI x q Hq).
           destruct (Nat.eqb_spec x j) as [->|Hx].
           ++ assert (S q <> length (hist j)) as Hq'.
              { intros E. assert (q = r) by lia. subst q. congruence. }
              assert (q < length (hist j)) by (apply nth_error_Some; congruence).
              rewrite nth_error_app1 by lia.
              destruct (nth_error (hist j) (S q)); auto.
              rewrite Hb3; auto. intros ->. congruence.
           ++ destruct (nth_error (hist x) (S q)); auto. now rewrite behind_other.
      * rewrite Nat.eqb_refl. replace (nth_error (hist j ++ [nt]) (S (S r))) with (@None token).
        2:{ symmetry. apply nth_error_None. rewrite app_length. simpl. lia. }
        rewrite Hother. 
        -- destruct (tlookup nt (r_cached (y_req s))) eqn:En; auto.
           destruct (iG' HI _ En) as (x & q & Hx). exfalso. eapply Hnew; eauto.
        -- intros E. apply (Hnew j r). rewrite E. exact Ht.
    + intros t0 v H0. destruct (token_eqb_spec t0 t) as [->|Hne].
      * exists j, r. apply Hh'. exact Ht.
      * rewrite Hother in H0 by assumption. destruct (iG' HI _ H0) as (x & q & Hx).
        exists x, q. now apply Hh'.
    + intros x. destruct (Nat.eqb_spec x j) as [->|Hx].
      * rewrite app_length. simpl. lia.
      * apply (iH HI).
    + intros x y Hy. unfold upd2, bump. destruct ((x =? j) && (y =? i)) eqn:E.
      * assert (x = j /\ y = i) as [-> ->] by lia. rewrite (iI HI) by auto. fold r.
        rewrite seq_S, map_app. reflexivity.
      * apply (iI HI); auto.
Qed.

Lemma inv_init : Inv (fun _ _ => 0) (sys_init (D := D)) (fun j => [TInit j]).
Proof.
  constructor; simpl; auto.
  - intros j [|r] j' [|r'] t H1 H2; simpl in *; try (destruct r; discriminate); try (destruct r'; discriminate).
    inversion H1; inversion H2; subst. split; congruence.
  - intros j [|r] t H H0; [lia|]. destruct r; discriminate.
  - intros j. exists 0. auto.
  - intros j [|r] t H; simpl in *; [|destruct r; discriminate]. reflexivity.
  - intros t v H. discriminate.
Qed.

Lemma run_inv sched : forall n s hist, Forall (fun ji => snd ji < d) sched -> Inv n s hist ->
  let (s', outs) := run (sys_step stream d strict) s sched in
  Forall (fun o => exists x, o = Ok x) outs /\
  exists hist', Inv (fun j i => n j i + count j i sched) s' hist'.
Proof.
  induction sched as [|[j i] sched IH]; intros n s hist Hs HI; cbn [run].
  - split; auto. exists hist. 
    assert (forall j i, n j i + 0 = n j i) as E by (intros; lia).
    unfold count; simpl.
    destruct HI as [A B C D' E' F G G' H I].
    constructor; auto.
    + intros x y Hy. rewrite E. auto.
    + intros x. destruct (E' x) as (y & Hy & Hn). exists y. rewrite E. auto.
    + intros x q t Hq. rewrite (G x q t Hq). destruct (nth_error (hist x) (S q)); auto.
      assert (behind (fun i => n x i + 0) q = behind (n x) q) as ->; auto.
      unfold behind. f_equal. apply filter_ext. intros. now rewrite E.
    + intros x y Hy. rewrite E. auto.
  - inversion Hs as [|? ? Hi Hs']; subst. simpl in Hi.
    pose proof (@step_inv n s hist j i Hi HI) as Hstep.
    destruct (sys_step stream d strict s (j, i)) as [s1 o]. destruct Hstep as (Ho & hist1 & HI1).
    specialize (IH (bump n j i) s1 hist1 Hs' HI1).
    destruct (run (sys_step stream d strict) s1 sched) as [s2 os]. destruct IH as (Hos & hist2 & HI2).
    split.
    + constructor; eauto.
    + exists hist2.
      assert (E : forall x y, bump n j i x y + count x y sched = n x y + count x y ((j, i) :: sched)).
      { intros x y. unfold bump, count. simpl. rewrite (Nat.eqb_sym j x), (Nat.eqb_sym i y).
        destruct (Nat.eqb_spec x j), (Nat.eqb_spec y i); simpl; subst; lia. }
      destruct HI2 as [A B C D' E' F G G' H I].
      constructor; auto.
      * intros x y Hy. rewrite <- E. auto.
      * intros x. destruct (E' x) as (y & Hy & Hn). exists y. rewrite <- E. auto.
      * intros x q t Hq. rewrite (G x q t Hq). destruct (nth_error (hist2 x) (S q)); auto.
        assert (behind (fun y => bump n j i x y + count x y sched) q
                = behind (fun y => n x y + count x y ((j, i) :: sched)) q) as ->; auto.
        unfold behind. f_equal. apply filter_ext. intros. now rewrite E.
      * intros x y Hy. rewrite <- E. auto.
Qed.

Lemma max_count_ge sched j i : i < d -> count j i sched <= max_count d j sched.
Proof.
  intros Hi. unfold max_count.
  assert (In i (seq 0 d)) as Hin by (apply in_seq; lia).
  induction (seq 0 d) as [|x l IH]; simpl in *; [tauto|]. destruct Hin as [->|Hin]; [lia|].
  specialize (IH Hin). lia.
Qed.
Lemma max_count_le sched j m : (forall i, i < d -> count j i sched <= m) -> max_count d j sched <= m.
Proof.
  intros H. unfold max_count.
  assert (forall i, In i (seq 0 d) -> count j i sched <= m) as H' by (intros i Hi; apply in_seq in Hi; apply H; lia).
  clear H. induction (seq 0 d) as [|x l IH]; simpl in *; [lia|].
  assert (count j x sched <= m) by auto. assert (fold_right Nat.max 0 (map (fun i => count j i sched) l) <= m) by auto. lia.
Qed.

(** C12 *)
Lemma replicas_ok sched : Forall (fun ji => snd ji < d) sched ->
  let (s, outs) := run (sys_step stream d strict) (sys_init (D := D)) sched in
  Forall (fun o => exists x, o = Ok x) outs /\
  (forall j i, i < d -> y_log s j i = map (stream j) (seq 0 (count j i sched))) /\
  (forall j, r_loader (y_req s) j = max_count d j sched) /\
  (forall j i i', i < d -> i' < d -> count j i sched = count j i' sched -> y_tok s j i = y_tok s j i') /\
  ((forall j i i', i < d -> i' < d -> count j i sched = count j i' sched) -> r_cached (y_req s) = []).
Proof.
  intros Hs. pose proof (@run_inv sched (fun _ _ => 0) (sys_init (D:=D)) (fun j => [TInit j]) Hs inv_init) as H.
  destruct (run (sys_step stream d strict) (sys_init (D:=D)) sched) as [s outs].
  destruct H as (Hok & hist & HI). simpl in HI. repeat split; auto.
  - intros j i Hi. rewrite (iI HI) by auto. reflexivity.
  - intros j. apply Nat.le_antisymm.
    + destruct (iE HI j) as (i & Hi & Hn). simpl in Hn. pose proof (iH HI j).
      pose proof (@max_count_ge sched j i Hi). lia.
    + apply max_count_le. intros i Hi.
      pose proof (@hist_bound _ s hist j i HI Hi) as Hb. simpl in Hb. pose proof (iH HI j). lia.
  - intros j i i' Hi Hi' Hc. pose proof (iD HI j Hi) as H1. pose proof (iD HI j Hi') as H2. simpl in *. congruence.
  - intros Heq. apply tlookup_none_nil. intros t.
    destruct (tlookup t (r_cached (y_req s))) eqn:E; auto. exfalso.
    pose proof (iG' HI _ E) as Hin.
    destruct Hin as (j & r & Hjr). rewrite (iG HI j r Hjr) in E.
    destruct (nth_error (hist j) (S r)) eqn:Es; [|discriminate].
    match type of E with context [?b =? 0] => destruct (Nat.eqb_spec b 0) as [|Hb]; [congruence|] end.
    apply Hb. unfold behind.
    assert (Hr : S r < length (hist j)) by (apply nth_error_Some; congruence).
    destruct (iE HI j) as (i & Hi & Hn). simpl in Hn.
    rewrite (filter_ext_in _ (fun _ => false)).
    + clear. induction (seq 0 d); simpl; auto.
    + intros y Hy. apply in_seq in Hy. apply Nat.leb_gt. simpl. rewrite (Heq j y i) by lia. lia.
Qed.
End R.
