(** C13: which requests are answered, after any history of requests (any chains, any tokens, any
    data loader).  Specification on the trace of calls and answers only. *)
From Verif Require Import Base Requests.
Set Implicit Arguments.

Section Hist.
Context {L D : Type}.
Variable ld_get : L -> nat -> L * res D.
Variable d : nat.
Variable strict : bool.

(** one call (chain, token) with its answer (data, next token) *)
Definition event := ((nat * token) * res (D * token))%type.
(** auxiliary definition of a statement or a proof; models no code of /repo *)
Definition req_step (s : rstate L D) (ct : nat * token) : rstate L D * res (D * token) :=
  request ld_get s (fst ct) (snd ct) d strict.

(** traces are listed newest event first *)
Definition trace (h : list (nat * token)) (outs : list (res (D * token))) : list event :=
  rev (combine h outs).

(** how often token t was answered *)
Fixpoint answered (t : token) (tr : list event) : nat :=
  match tr with
  | [] => 0
  | ((_, t'), Ok _) :: older => (if token_eqb t t' then 1 else 0) + answered t older
  | _ :: older => answered t older
  end.
(** the most recent answer given to token t *)
Fixpoint latest (t : token) (tr : list event) : option (D * token) :=
  match tr with
  | [] => None
  | ((_, t'), Ok a) :: older => if token_eqb t t' then Some a else latest t older
  | _ :: older => latest t older
  end.
(** replicas that have not yet fetched the data belonging to token t *)
Definition outstanding (t : token) (tr : list event) : bool := negb (answered t tr mod d =? 0).
(** the token a chain is expected to present: the one issued with its newest data *)
Fixpoint expected (c : nat) (tr : list event) : option token :=
  match tr with
  | [] => None
  | ((c', t), Ok (_, t')) :: older =>
      if (c =? c') && negb (outstanding t older) then Some t' else expected c older
  | _ :: older => expected c older
  end.
End Hist.

Lemma token_eqb_spec a b : reflect (a = b) (token_eqb a b).
Proof.
  destruct a, b; simpl; try (constructor; congruence);
  match goal with |- context[?x =? ?y] => destruct (Nat.eqb_spec x y); constructor; congruence end.
Qed.

Lemma tlookup_tset V t (v : V) m u : tlookup u (tset t v m) = if token_eqb u t then Some v else tlookup u m.
Proof.
  unfold tlookup. induction m as [|[k w] m IH]; simpl.
  - destruct (token_eqb_spec u t); simpl; auto.
  - destruct (token_eqb_spec t k) as [->|Hn]; simpl.
    + destruct (token_eqb_spec u k); simpl; auto.
    + destruct (token_eqb_spec u k) as [->|Hn2]; simpl; auto.
      destruct (token_eqb_spec k t); congruence.
Qed.
Lemma tlookup_tdel V t (m : list (token * V)) u : tlookup u (tdel t m) = if token_eqb u t then None else tlookup u m.
Proof.
  unfold tlookup, tdel. induction m as [|[k w] m IH]; simpl.
  - destruct (token_eqb u t); auto.
  - destruct (token_eqb_spec t k) as [->|Hn]; simpl.
    + rewrite IH. destruct (token_eqb u k); auto.
    + destruct (token_eqb_spec u k) as [->|Hn2]; simpl.
      * destruct (token_eqb_spec k t); congruence.
      * exact IH.
Qed.
Lemma clookup_cset V c (v : V) m u : clookup u (cset c v m) = if u =? c then Some v else clookup u m.
Proof.
  unfold clookup. induction m as [|[k w] m IH]; simpl.
  - destruct (Nat.eqb_spec u c); simpl; auto.
  - destruct (Nat.eqb_spec c k) as [->|Hn]; simpl.
    + destruct (Nat.eqb_spec u k); simpl; auto.
    + destruct (Nat.eqb_spec u k) as [->|Hn2]; simpl; auto.
      destruct (Nat.eqb_spec k c); congruence.
Qed.

Section HistProofs.
Context {L D : Type}.
Variable ld_get : L -> nat -> L * res D.
Variable d : nat.
Hypothesis Hd : 0 < d.
Variable strict : bool.
Notation event := (@event D).

(** auxiliary definition of a statement or a proof; models no code of /repo *)
Record HInv (tr : list event) (s : rstate L D) : Prop := {
  hi_cached : forall t, tlookup t (r_cached s) =
     if outstanding d t tr then match latest t tr with Some (x, t') => Some (d - answered t tr mod d, x, t') | None => None end
     else None;
  hi_latest : forall t, 0 < answered t tr -> latest t tr <> None;
  hi_cur : forall c, clookup c (r_current s) = expected d c tr;
  hi_tok : forall e c t t' x, In (e : event) tr -> e = ((c, t), Ok (x, t')) -> exists n, t' = TNew n /\ n < r_fresh s }.

Lemma HInv_init l : HInv [] (requests_init l).
Proof.
  split; simpl; intros; try tauto; try lia; auto.
  unfold outstanding. simpl. rewrite Nat.mod_0_l by lia. reflexivity.
Qed.

Lemma mod_succ_case n : (S n mod d = 0 /\ n mod d = d - 1) \/ (S n mod d = S (n mod d) /\ n mod d < d - 1).
Proof.
  pose proof (Nat.div_mod n d ltac:(lia)) as H. pose proof (Nat.mod_upper_bound n d ltac:(lia)) as Hb.
  destruct (Nat.eq_dec (n mod d) (d - 1)) as [E|E].
  - left. split; auto. replace (S n) with (0 + (n / d + 1) * d) by lia. rewrite Nat.mod_add by lia. apply Nat.mod_0_l. lia.
  - right. split; [|lia]. replace (S n) with (S (n mod d) + (n / d) * d) by lia.
    rewrite Nat.mod_add by lia. rewrite Nat.mod_small; lia.
Qed.

(** what one request does, in terms of the trace of the past *)
Lemma req_ok tr s c t : HInv tr s ->
  let (s', o) := req_step ld_get d strict s (c, t) in
  HInv (((c, t), o) :: tr) s' /\
  (if outstanding d t tr
   then o = match latest t tr with Some a => Ok a | None => Exc RuntimeError end /\ latest t tr <> None /\ r_loader s' = r_loader s
   else match expected d c tr with
        | Some t0 => if token_eqb t0 t
                     then r_loader s' = fst (ld_get (r_loader s) c) /\
                          match snd (ld_get (r_loader s) c) with
                          | Ok x => exists n, o = Ok (x, TNew n) /\ (forall e c' t' x' , In (e : event) tr -> e = ((c', t'), Ok (x', TNew n)) -> False)
                          | Exc e => o = Exc e end
                     else s' = s /\ o = Exc (if strict then RuntimeError else UnboundLocalError)
        | None => r_loader s' = fst (ld_get (r_loader s) c) /\
                  match snd (ld_get (r_loader s) c) with
                  | Ok x => exists n, o = Ok (x, TNew n) /\ (forall e c' t' x' , In (e : event) tr -> e = ((c', t'), Ok (x', TNew n)) -> False)
                  | Exc e => o = Exc e end
        end).
Proof.
  intros HI. unfold req_step, request. cbn [fst snd]. rewrite (hi_cached HI), (hi_cur HI).
  destruct (outstanding d t tr) eqn:Eo.
  - (* cached *)
    assert (Hpos : 0 < answered t tr).
    { unfold outstanding in Eo. destruct (answered t tr); [|lia]. rewrite Nat.mod_0_l in Eo by lia. discriminate. }
    pose proof (hi_latest HI t Hpos) as Hl. destruct (latest t tr) as [[x t']|] eqn:El; [|congruence].
    split; [|split; [reflexivity|split; [congruence|reflexivity]]].
    unfold outstanding in Eo. apply Bool.negb_true_iff, Nat.eqb_neq in Eo.
    pose proof (mod_succ_case (answered t tr)) as Hms.
    pose proof (Nat.mod_upper_bound (answered t tr) d ltac:(lia)) as Hb.
    split; cbn [r_cached r_current r_fresh r_loader].
    + intros u. unfold outstanding. cbn [answered latest].
      destruct (token_eqb_spec u t) as [->|Hn].
      * simpl. destruct (Nat.eqb_spec (d - answered t tr mod d) 1) as [E1|E1].
        -- rewrite tlookup_tdel. destruct (token_eqb_spec t t); [|congruence].
           destruct Hms as [[-> _]|[_ ?]]; [|lia]. rewrite Nat.eqb_refl. reflexivity.
        -- rewrite tlookup_tset. destruct (token_eqb_spec t t); [|congruence].
           destruct Hms as [[_ ?]|[-> _]]; [lia|]. simpl. f_equal. f_equal. f_equal. lia.
      * cbn [Nat.add].
        assert (Hu : tlookup u (r_cached s) = if outstanding d u tr then match latest u tr with Some (x0, t'0) => Some (d - answered u tr mod d, x0, t'0) | None => None end else None) by apply (hi_cached HI).
        destruct (d - answered t tr mod d =? 1).
        -- rewrite tlookup_tdel. destruct (token_eqb_spec u t); [congruence|]. exact Hu.
        -- rewrite tlookup_tset. destruct (token_eqb_spec u t); [congruence|]. exact Hu.
    + intros u. cbn [answered latest]. destruct (token_eqb u t); [congruence|]. simpl. apply (hi_latest HI).
    + intros c0. cbn [expected]. unfold outstanding at 1. destruct (Nat.eqb_spec (answered t tr mod d) 0); [congruence|].
      simpl. rewrite Bool.andb_false_r. apply (hi_cur HI).
    + intros e c0 t0 t'0 x0 [<-|Hin] E; [|eapply (hi_tok HI); eauto].
      inversion E; subst. clear -El HI. revert El.
      assert (H : forall tr' : list event, (forall e, In e tr' -> In e tr) -> latest t0 tr' = Some (x0, t'0) ->
         exists n, t'0 = TNew n /\ n < r_fresh s).
      { induction tr' as [|[[c1 t1] [[x1 t1']|e1]] tr' IH]; intros Hs H; simpl in H; try discriminate.
        - destruct (token_eqb t0 t1).
          + inversion H; subst. eapply (hi_tok HI); [apply Hs; left; reflexivity|reflexivity].
          + apply IH; auto. intros; apply Hs; simpl; auto.
        - apply IH; auto. intros; apply Hs; simpl; auto. }
      intros El. apply (H tr); auto.
  - assert (Hnew : 
      let p := (let new_token := TNew (r_fresh s) in
        match ld_get (r_loader s) c with
        | (l', Exc e) => (mkR (r_cached s) (r_current s) (S (r_fresh s)) l', Exc e)
        | (l', Ok response) =>
            let cached' := if d =? 1 then r_cached s
                           else tset t (d - 1, response, new_token) (r_cached s) in
            (mkR cached' (cset c new_token (r_current s)) (S (r_fresh s)) l',
             Ok (response, new_token))
        end) in
      HInv (((c, t), snd p) :: tr) (fst p) /\
      r_loader (fst p) = fst (ld_get (r_loader s) c) /\
      match snd (ld_get (r_loader s) c) with
      | Ok x => exists n, snd p = Ok (x, TNew n) /\ (forall e c' t' x' , In (e : event) tr -> e = ((c', t'), Ok (x', TNew n)) -> False)
      | Exc e => snd p = Exc e end).
    { destruct (ld_get (r_loader s) c) as [l' [x|e]]; cbn [fst snd].
      - unfold outstanding in Eo. apply Bool.negb_false_iff, Nat.eqb_eq in Eo.
        pose proof (mod_succ_case (answered t tr)) as Hms. split; [|split; [reflexivity|]].
        + split; cbn [r_cached r_current r_fresh r_loader].
          * intros u. unfold outstanding. cbn [answered latest].
            destruct (token_eqb_spec u t) as [->|Hn].
            -- simpl. destruct (Nat.eqb_spec d 1) as [E1|E1].
               ++ rewrite (hi_cached HI). unfold outstanding. rewrite Eo. simpl.
                  destruct Hms as [[-> _]|[_ ?]]; [|lia]. reflexivity.
               ++ rewrite tlookup_tset. destruct (token_eqb_spec t t); [|congruence].
                  destruct Hms as [[_ ?]|[-> _]]; [lia|]. rewrite Eo. reflexivity.
            -- cbn [Nat.add].
               assert (Hu : tlookup u (r_cached s) = if outstanding d u tr then match latest u tr with Some (x0, t'0) => Some (d - answered u tr mod d, x0, t'0) | None => None end else None) by apply (hi_cached HI).
               destruct (d =? 1); [exact Hu|]. rewrite tlookup_tset. destruct (token_eqb_spec u t); [congruence|]. exact Hu.
          * intros u. cbn [answered latest]. destruct (token_eqb u t); [congruence|]. simpl. apply (hi_latest HI).
          * intros c0. rewrite clookup_cset. cbn [expected]. unfold outstanding at 1. rewrite Eo. simpl.
            rewrite Bool.andb_true_r. destruct (c0 =? c); auto. apply (hi_cur HI).
          * intros e c0 t0 t'0 x0 [<-|Hin] E.
            -- inversion E; subst. eauto.
            -- edestruct (hi_tok HI) as (n & -> & Hlt); [exact Hin|exact E|]. exists n. auto.
        + eexists. split; [reflexivity|]. intros e c' t' x' Hin E.
          edestruct (hi_tok HI) as (n & Hn & Hlt); [exact Hin|exact E|]. inversion Hn; subst. lia.
      - split; [|auto]. split; cbn [r_cached r_current r_fresh r_loader].
        + intros u. apply (hi_cached HI).
        + apply (hi_latest HI).
        + apply (hi_cur HI).
        + intros e0 c0 t0 t'0 x0 [<-|Hin] E; [discriminate|].
          edestruct (hi_tok HI) as (n & -> & Hlt); [exact Hin|exact E|]. exists n. auto. }
    cbv zeta in Hnew.
    assert (Hst : forall s' o, (s, Exc (if strict then RuntimeError else UnboundLocalError)) = (s', o) -> HInv (((c, t), o) :: tr) s').
    { intros s' o E. inversion E; subst. split.
      - intros u. apply (hi_cached HI).
      - apply (hi_latest HI).
      - apply (hi_cur HI).
      - intros e0 c0 t0 t'0 x0 [<-|Hin] E0; [discriminate|]. eapply (hi_tok HI); eauto. }
    destruct (expected d c tr) as [t0|].
    + destruct (token_eqb t0 t); simpl.
      * destruct (ld_get (r_loader s) c) as [l' [x|e]]; exact Hnew.
      * destruct strict; (split; [eapply Hst; reflexivity|split; reflexivity]).
    + destruct (ld_get (r_loader s) c) as [l' [x|e]]; exact Hnew.
Qed.

Lemma combine_snoc (A B : Type) (l : list A) (l' : list B) a b : length l = length l' ->
  combine (l ++ [a]) (l' ++ [b]) = combine l l' ++ [(a, b)].
Proof. revert l'. induction l; intros [|? l'] H; simpl in *; try lia; auto. f_equal. apply IHl. lia. Qed.

Lemma req_run h : forall tr s, HInv tr s ->
  let (s', outs) := run (req_step ld_get d strict) s h in
  length outs = length h /\ HInv (trace h outs ++ tr) s'.
Proof.
  induction h as [|[c t] h IH]; intros tr s HI; cbn [run].
  - simpl. auto.
  - pose proof (@req_ok tr s c t HI) as H1.
    destruct (req_step ld_get d strict s (c, t)) as [s1 o]. destruct H1 as [H1 _].
    specialize (IH _ s1 H1). destruct (run (req_step ld_get d strict) s1 h) as [s2 outs].
    destruct IH as [Hl IH]. split; [simpl; lia|].
    unfold trace in *. simpl. rewrite <- app_assoc. exact IH.
Qed.

Lemma final_requests l h s outs c t :
  run (req_step ld_get d strict) (requests_init l) h = (s, outs) ->
  let tr := trace h outs in
  let '(s', o) := req_step ld_get d strict s (c, t) in
  let served := r_loader s' = fst (ld_get (r_loader s) c) /\
     match snd (ld_get (r_loader s) c) with
     | Ok x => exists n, o = Ok (x, TNew n) /\ (forall e c' t' x' , In (e : event) tr -> e = ((c', t'), Ok (x', TNew n)) -> False)
     | Exc e => o = Exc e end in
  (outstanding d t tr = true -> exists a, latest t tr = Some a /\ o = Ok a /\ r_loader s' = r_loader s) /\
  (outstanding d t tr = false -> expected d c tr = None \/ expected d c tr = Some t -> served) /\
  (outstanding d t tr = false -> (exists t0, expected d c tr = Some t0 /\ t0 <> t) ->
     s' = s /\ o = Exc (if strict then RuntimeError else UnboundLocalError)).
Proof.
  intros Hr tr. pose proof (@req_run h [] (requests_init l) (HInv_init l)) as H. rewrite Hr in H.
  destruct H as [_ HI]. rewrite app_nil_r in HI. fold tr in HI.
  pose proof (@req_ok tr s c t HI) as H. destruct (req_step ld_get d strict s (c, t)) as [s' o].
  destruct H as [_ H]. cbv zeta. split; [|split].
  - intros E. rewrite E in H. destruct H as (H1 & H2 & H3). destruct (latest t tr) as [a|]; [|congruence]. eauto.
  - intros E Hexp. rewrite E in H. destruct Hexp as [Ex|Ex]; rewrite Ex in H; auto.
    destruct (token_eqb_spec t t); [auto|congruence].
  - intros E (t0 & Ex & Hn). rewrite E, Ex in H. destruct (token_eqb_spec t0 t); [congruence|]. exact H.
Qed.
End HistProofs.
