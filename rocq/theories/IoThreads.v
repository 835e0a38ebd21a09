(** Interleavings of the callback thread (which executes save and finalize of a MemoryCollector) and of the
    main thread (which waits in finished), io.py:563-613, 761-771. *)
From Coq Require Import String.
From Verif Require Import Base ListUtil Pytree PytreeSpec PytreeProofs Io IoSpec IoProofs.
Set Implicit Arguments.

Section T.
Context {V : Type}.
Variable zeros_like : V -> V.

(** steps of the callback thread; finalize = release, then write the npz file (io.py:583-591) *)
Inductive hostop := TSave (c : nat) (values : list V) | TRelease (c : nat) | TSavez (c : nat).
(** io.py:576-591 *)
Definition finalize_steps (c : nat) : list hostop := [TRelease c; TSavez c].
(** io.py:563-591 *)
Definition host_exec (m : mcollector V) (o : hostop) : mcollector V :=
  match o with
  | TSave c vs => fst (mc_save m c vs)
  | TRelease c => fst (mc_release m c)
  | TSavez c => mc_savez m c
  end.

(** main thread in finished(c): acquire, release, return *)
(** io.py:593-613 *)
Inductive waiter := WStart | WAcquired | WReleased | WDone (r : res (tree (list V))).
(** the two threads of io.py:563-613 *)
Record sys := mkSys { sy_m : mcollector V; sy_prog : list hostop; sy_w : waiter }.

(** io.py:593-613 *)
Definition set_lock (m : mcollector V) (c : nat) (b : bool) : mcollector V :=
  match nth_error (mc_chains m) c with
  | None => m
  | Some ch => mkMcoll (mc_dir m) (upd (mc_chains m) c (mkMc b (mc_samples ch) (mc_count ch) (mc_treedef ch) (mc_names ch))) (mc_npz m)
  end.

(** io.py:563-613 *)
Inductive tstep (c : nat) : sys -> sys -> Prop :=
| St_host : forall m o p w, tstep c (mkSys m (o :: p) w) (mkSys (host_exec m o) p w)
| St_acquire : forall m p ch, nth_error (mc_chains m) c = Some ch -> mc_locked ch = false ->
    tstep c (mkSys m p WStart) (mkSys (set_lock m c true) p WAcquired)
| St_release : forall m p, tstep c (mkSys m p WAcquired) (mkSys (set_lock m c false) p WReleased)
| St_return : forall m p ch, nth_error (mc_chains m) c = Some ch ->
    tstep c (mkSys m p WReleased) (mkSys m p (WDone (mc_result ch))).

(** reachability; no code of /repo *)
Inductive treach (c : nat) (s0 : sys) : sys -> Prop :=
| Tr_refl : treach c s0 s0
| Tr_step : forall s s', treach c s0 s -> tstep c s s' -> treach c s0 s'.

(** the values saved for chain c by a program *)
(** specification, no code of /repo *)
Definition tsaves (c : nat) (p : list hostop) : list (list V) :=
  flat_map (fun o => match o with TSave c' vs => if c' =? c then [vs] else [] | _ => [] end) p.
End T.
Arguments hostop : clear implicits.
Arguments sys : clear implicits.
Arguments waiter : clear implicits.

Section P.
Context {V : Type}.
Variable zeros_like : V -> V.

Lemma tsaves_app c (a b : list (hostop V)) : tsaves c (a ++ b) = tsaves c a ++ tsaves c b.
Proof. apply flat_map_app. Qed.

(** effect of one callback step on chain c *)
Lemma host_chain c (sample : tree V) K names m vss count locked o :
  nth_error (mc_chains m) c = Some (mkMc locked (filled_from zeros_like K vss 0 (leaves sample)) count (tree_map (fun _ => tt) sample) names) ->
  Forall (fun vs => length vs = length (leaves sample)) vss ->
  Forall (fun vs => length vs = length (leaves sample)) (tsaves c [o]) ->
  (leaves sample <> [] -> count = Nat.min K (length vss)) ->
  exists count' locked', nth_error (mc_chains (host_exec m o)) c = Some (mkMc locked' (filled_from zeros_like K (vss ++ tsaves c [o]) 0 (leaves sample)) count'
     (tree_map (fun _ => tt) sample) names) /\ (leaves sample <> [] -> count' = Nat.min K (length (vss ++ tsaves c [o]))) /\
    (o <> TRelease c -> locked' = locked) /\ (o = TRelease c -> locked' = false).
Proof.
  intros Hc Hv Hs Hn. assert (Hin : c < length (mc_chains m)) by (apply nth_error_Some; congruence).
  destruct o as [c' vs|c'|c'].
  - pose proof (@mc_run_ok V zeros_like c sample K names [MSave c' vs] m vss count locked Hc Hv) as H.
    assert (Hsv : saves_of c [MSave c' vs] = tsaves c [TSave c' vs]) by reflexivity.
    rewrite Hsv in H. specialize (H Hs Hn). cbn [run mstep] in H. cbn [host_exec].
    destruct (mc_save m c' vs) as [m1 r]. cbn [fst] in *. destruct H as (count' & H1 & H2). exists count', locked.
    unfold lastn_locked in H1. simpl in H1. split; [exact H1|]. split; [exact H2|]. split; [auto|discriminate].
  - assert (Hsv : tsaves c [@TRelease V c'] = []) by reflexivity. rewrite Hsv, app_nil_r. cbn [host_exec]. unfold mc_release.
    destruct (Nat.eq_dec c' c) as [->|Hne].
    + rewrite Hc. cbn [mc_locked]. destruct locked; cbn [fst mc_chains].
      * rewrite nth_error_upd_same by auto. exists count, false. split; [auto|]. split; [auto|]. split; [congruence|auto].
      * exists count, false. split; [auto|]. split; [auto|]. split; auto.
    + exists count, locked. split; [|split; [auto|split; [auto|intros E; congruence]]].
      destruct (nth_error (mc_chains m) c') as [ch|]; auto. destruct (mc_locked ch); auto. cbn [fst mc_chains]. rewrite nth_error_upd_other; auto.
  - assert (Hsv : tsaves c [@TSavez V c'] = []) by reflexivity. rewrite Hsv, app_nil_r. cbn [host_exec]. unfold mc_savez.
    exists count, locked. split; [|split; [auto|split; [auto|discriminate]]].
    destruct (mc_dir m); auto. destruct (nth_error (mc_chains m) c'); auto.
Qed.

(** invariant of the system *)
Section I.
Variables (c K : nat) (sample : tree V) (names : list string) (prog : list (hostop V)) (m0 : mcollector V).
Hypothesis Hm0 : nth_error (mc_chains m0) c = Some (mkMc true (filled_from zeros_like K [] 0 (leaves sample)) 0 (tree_map (fun _ => tt) sample) names).
Hypothesis Hsv : Forall (fun vs => length vs = length (leaves sample)) (tsaves c prog).
(** finalize is called once, after all saves *)
Variables (pre post : list (hostop V)).
Hypothesis Hprog : prog = pre ++ TRelease c :: post.
Hypothesis Hpre : ~ In (TRelease c) pre.
Hypothesis Hpost : ~ In (TRelease c) post.
Hypothesis Hpost' : tsaves c post = [].

(** invariant of the proof, no code of /repo *)
Definition inv (s : sys V) : Prop :=
  exists done, prog = done ++ sy_prog s /\
  (exists count locked, nth_error (mc_chains (sy_m s)) c = Some (mkMc locked (filled_from zeros_like K (tsaves c done) 0 (leaves sample)) count
     (tree_map (fun _ => tt) sample) names) /\ (leaves sample <> [] -> count = Nat.min K (length (tsaves c done))) /\
   match sy_w s with
   | WStart => if locked then ~ In (TRelease c) done else In (TRelease c) done
   | WAcquired => In (TRelease c) done /\ locked = true
   | WReleased => In (TRelease c) done /\ locked = false
   | WDone r => In (TRelease c) done /\ locked = false /\
       exists t, r = Ok t /\ holds_samples zeros_like sample K (tsaves c prog) t
   end).

Lemma released_complete done rest : prog = done ++ rest -> In (TRelease c) done -> tsaves c done = tsaves c prog /\ ~ In (TRelease c) rest.
Proof.
  intros E Hin. apply in_split in Hin. destruct Hin as (d1 & d2 & ->).
  assert (E2 : pre ++ TRelease c :: post = d1 ++ TRelease c :: (d2 ++ rest)) by (rewrite <- Hprog, E, <- app_assoc; reflexivity).
  assert (H : pre = d1 /\ post = d2 ++ rest).
  { clear -E2 Hpre Hpost. revert d1 E2 Hpre. induction pre as [|x pre' IH]; intros [|y d1] E2 Hpre; cbn [app] in E2.
    - inversion E2; auto.
    - injection E2 as Ea Eb. exfalso. apply Hpost. rewrite Eb. apply in_or_app. right. simpl. auto.
    - injection E2 as Ea Eb. exfalso. apply Hpre. rewrite Ea. simpl. auto.
    - injection E2 as Ea Eb. destruct (IH d1 Eb) as [-> ->]; [intros Hx; apply Hpre; simpl; auto|]. rewrite Ea. auto. }
  destruct H as [H1 H2]. split.
  - rewrite E, (tsaves_app c (d1 ++ TRelease c :: d2)). assert (Hr : tsaves c rest = []).
    { rewrite H2, tsaves_app in Hpost'. apply app_eq_nil in Hpost'. tauto. }
    now rewrite Hr, app_nil_r.
  - intros Hx. apply Hpost. rewrite H2. apply in_or_app. auto.
Qed.

Lemma inv_init : inv (mkSys m0 prog WStart).
Proof. exists []. split; auto. exists 0, true. cbn [sy_m sy_w]. split; [exact Hm0|]. split; [simpl; lia|simpl; tauto]. Qed.

Lemma inv_step s s' : inv s -> tstep c s s' -> inv s'.
Proof.
  intros (done & Hd & count & locked & Hc & Hn & Hw) Hstep. inversion Hstep; subst; cbn [sy_m sy_prog sy_w] in *.
  - (* host *)
    assert (Hsv1 : Forall (fun vs => length vs = length (leaves sample)) (tsaves c done) /\ Forall (fun vs => length vs = length (leaves sample)) (tsaves c [o])).
    { clear -Hsv Hd. rewrite Hd in Hsv. change (o :: p) with ([o] ++ p) in Hsv. rewrite !tsaves_app in Hsv. apply Forall_app in Hsv.
      destruct Hsv as [H1 H2]. apply Forall_app in H2. destruct H2. auto. }
    destruct Hsv1 as [S1 S2].
    destruct (@host_chain c sample K names m (tsaves c done) count locked o Hc S1 S2 Hn) as (count' & locked' & A & B & C & D).
    exists (done ++ [o]). split; [rewrite <- app_assoc; exact Hd|]. rewrite tsaves_app. exists count', locked'. split; auto. split; auto.
    assert (Hdec : o = TRelease c \/ o <> TRelease c).
    { destruct o as [c1 v1|c1|c1]; try (right; discriminate). destruct (Nat.eq_dec c1 c) as [->|Hne]; [left; auto|right; congruence]. }
    assert (Hnot : In (TRelease c) done -> o <> TRelease c).
    { intros Hin E. destruct (@released_complete done (o :: p) Hd Hin) as [_ Hx]. apply Hx. rewrite E. simpl. auto. }
    destruct w as [| | |r].
    + destruct Hdec as [E|E].
      * pose proof (D E) as DE. clear C D A. subst locked'. cbn [sy_w]. rewrite E. apply in_or_app. right. simpl. auto.
      * pose proof (C E) as CE. clear C D A. subst locked'. cbn [sy_w]. destruct locked.
        -- rewrite in_app_iff. simpl. intros [Hx|[Hx|[]]]; auto.
        -- apply in_or_app. auto.
    + destruct Hw as [Hw1 Hw2]. pose proof (C (Hnot Hw1)) as E. split; [apply in_or_app; auto|congruence].
    + destruct Hw as [Hw1 Hw2]. pose proof (C (Hnot Hw1)) as E. split; [apply in_or_app; auto|congruence].
    + destruct Hw as (Hw1 & Hw2 & Hw3). pose proof (C (Hnot Hw1)) as E. split; [apply in_or_app; auto|]. split; [congruence|exact Hw3].
  - (* acquire *)
    exists done. split; auto. match goal with H : nth_error (mc_chains m) c = Some ch |- _ => rewrite Hc in H; inversion H; subst ch end.
    cbn [mc_locked] in *. subst locked. unfold set_lock. rewrite Hc. cbn [mc_chains mc_samples mc_count mc_treedef mc_names].
    exists count, true. cbn [sy_m sy_w sy_prog mc_chains]; rewrite nth_error_upd_same by (apply nth_error_Some; congruence). auto.
  - (* release *)
    exists done. split; auto. destruct Hw as [Hw1 ->]. unfold set_lock. rewrite Hc. cbn [mc_chains mc_samples mc_count mc_treedef mc_names].
    exists count, false. cbn [sy_m sy_w sy_prog mc_chains]; rewrite nth_error_upd_same by (apply nth_error_Some; congruence). auto.
  - (* return *)
    exists done. split; auto. destruct Hw as [Hw1 ->].
    match goal with H : nth_error (mc_chains m) c = Some ch |- _ => rewrite Hc in H; inversion H; subst ch end.
    exists count, false. split; auto. split; auto. split; auto. split; auto.
    destruct (@released_complete done p Hd Hw1) as [Es _]. rewrite <- Es.
    destruct (@mc_result_ok V zeros_like false sample K (tsaves c done) count names) as (t & E & Ht & _). exists t. auto.
Qed.

Lemma inv_reach s : treach c (mkSys m0 prog WStart) s -> inv s.
Proof. induction 1; [apply inv_init|eapply inv_step; eauto]. Qed.

Lemma no_deadlock s : treach c (mkSys m0 prog WStart) s -> (exists r, sy_w s = WDone r) \/ exists s', tstep c s s'.
Proof.
  intros H. destruct (inv_reach H) as (done & Hd & count & locked & Hc & Hn & Hw). destruct s as [m p w]. cbn [sy_m sy_prog sy_w] in *.
  destruct w as [| | |r].
  - destruct p as [|o p]; [|right; eexists; constructor]. right. rewrite app_nil_r in Hd.
    destruct locked.
    + exfalso. apply Hw. rewrite <- Hd, Hprog. apply in_or_app. right. simpl. auto.
    + eexists. eapply St_acquire; eauto.
  - right. eexists. constructor.
  - right. eexists. econstructor; eauto.
  - left. eauto.
Qed.
End I.

Lemma final_wait m sample K c m0 pre post s :
  mc_register zeros_like m sample K = (m0, Ok c) ->
  let prog := pre ++ TRelease c :: post in
  Forall (fun vs => length vs = length (leaves sample)) (tsaves c prog) ->
  ~ In (TRelease c) pre -> ~ In (TRelease c) post -> tsaves c post = [] ->
  treach c (mkSys m0 prog WStart) s ->
  (forall r, sy_w s = WDone r -> (exists done, prog = done ++ sy_prog s /\ In (TRelease c) done) /\
     exists t, r = Ok t /\ holds_samples zeros_like sample K (tsaves c prog) t) /\
  ((exists r, sy_w s = WDone r) \/ exists s', tstep c s s').
Proof.
  intros Hreg prog Hsv Hpre Hpost Hpost' Hr. destruct (mc_register_ok zeros_like m sample K Hreg) as (names & _ & Hm0 & _).
  split.
  - intros r Hw. destruct (@inv_reach c K sample names prog m0 Hm0 Hsv pre post eq_refl Hpre Hpost Hpost' s Hr) as (done & Hd & count & locked & Hc & Hn & Hi).
    rewrite Hw in Hi. destruct Hi as (H1 & _ & H2). split; eauto.
  - apply (@no_deadlock c K sample names prog m0 Hm0 Hsv pre post eq_refl Hpre Hpost Hpost' s Hr).
Qed.
End P.
