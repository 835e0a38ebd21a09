From Coq Require Import String Reals Lra.
From Verif Require Import Base ListUtil Pytree PytreeProofs Io TreeUtil TreeUtilSpec TreeUtilProofs Integrator NumpyLoader LoaderSpec DataCore DataSpec DataFinal Potential PotentialSpec.
Open Scope R_scope.
Set Implicit Arguments.

Lemma rsum_map_seq f n : rsum (map f (seq 0 n)) = sum_upto n f.
Proof.
  induction n as [|n IH]; [reflexivity|]. rewrite sum_upto_S, seq_S, map_app, rsum_app, IH. cbn. unfold rsum. cbn. lra.
Qed.
Lemma zip_mult_mask (f : nat -> R) (mask : list bool) : forall n, length mask = n ->
  rsum (zip_with Rmult (map f (seq 0 n)) (map (fun v : bool => if v then 1 else 0) mask)) = sum_upto n (fun j => if nth j mask false then f j else 0).
Proof.
  intros n H. pose proof (dot_sum (map f (seq 0 n)) (map (fun v : bool => if v then 1 else 0) mask)) as D. unfold dot in D. rewrite D by (rewrite !map_length, seq_length; auto).
  rewrite map_length, seq_length. apply sum_upto_ext. intros i Hi. rewrite (nth_indep _ 0 (f O)) by (rewrite map_length, seq_length; auto). rewrite map_nth, seq_nth by auto. cbn [plus].
  rewrite (map_nth (fun v : bool => if v then 1 else 0) mask false i). destruct (nth i mask false); lra.
Qed.

Section P.
Variables (obs Sample State : Type).
Variable likelihood : lik_fn obs Sample State.
Variable l : Sample -> orow obs -> R.
Variable has_state : bool.
Hypothesis Hl : evaluates likelihood l.

Lemma squeeze_shape n : n <> 1%nat -> squeeze [n] = [n] /\ squeeze [n; 1%nat] = [n].
Proof. intros H. unfold squeeze. cbn. destruct (Nat.eqb_spec n 1); [lia|auto]. Qed.
Lemma lks_ok state x b n : batch_of b n ->
  let r := batched_likelihood likelihood has_state state x b in
  snd (fst r) = map (fun j => l x (row (fst b) j)) (seq 0 n) /\
  (fst (fst r) = [n] \/ (is_batched likelihood = true /\ n = 1%nat /\ fst (fst r) = [])).
Proof.
  intros (H1 & H2 & H3). unfold batched_likelihood. unfold evaluates in Hl. destruct likelihood as [f|f].
  - cbn. rewrite H1, map_map. split; [apply map_ext; auto|auto].
  - specialize (Hl (call_state has_state state) x (fst b) n H2 H3). destruct (f _ x (fst b)) as [lks s]. cbn in *. destruct Hl as [Hs Hv]. split; auto.
    destruct (Nat.eq_dec n 1) as [->|Hn]; [right; split; auto; split; auto; destruct Hs as [-> | ->]; reflexivity|left].
    destruct (squeeze_shape Hn) as [E1 E2]. destruct Hs as [-> | ->]; auto.
Qed.
Lemma state_ok state x b n : state_fits likelihood has_state state -> batch_of b n -> (0 < n)%nat ->
  exists st, new_state likelihood state (snd (batched_likelihood likelihood has_state state x b)) = Ok st /\ state_fits likelihood has_state st.
Proof.
  intros Hf (H1 & _ & _) Hn. unfold new_state, batched_likelihood, state_fits in *. destruct likelihood as [f|f]; cbn [is_batched].
  - destruct state as [s|]; [|exists None; split; auto; destruct has_state; auto].
    destruct has_state eqn:Eh; [|discriminate]. rewrite H1. destruct n as [|n]; [lia|]. cbn [seq map call_state snd].
    destruct (snd (f (Some s) x (row (fst b) 0%nat))) as [s'|] eqn:Es; [|exfalso; eapply Hf; eauto]. cbn [call_state]. eauto.
  - destruct (f _ x (fst b)) as [lks s]. cbn. eauto.
Qed.
(** ** C41 *)
Lemma minibatch_value prior T N x b n state : state_fits likelihood has_state state -> batch_of b n -> (0 < n)%nat -> (is_batched likelihood = true -> n <> 1%nat) ->
  exists st, potential_function prior likelihood has_state T N x b state None
    = Ok ((- INR N * (sum_upto n (fun j => l x (row (fst b) j)) / INR n) - prior x) / T, map (fun j => l x (row (fst b) j)) (seq 0 n), st).
Proof.
  intros Hf Hb Hn Hbat. destruct (state_ok state x Hf Hb Hn) as (st & E & _). pose proof (lks_ok state x Hb) as [E1 E2]. exists st.
  unfold potential_function, batch_potential. destruct (batched_likelihood _ _ state x b) as [lks states]. cbn [fst snd] in *. rewrite E. cbn [bind].
  unfold mean_axis0. destruct E2 as [E2|(Hx & Hy & _)]; [|exfalso; apply Hbat; auto]. rewrite E2, E1. cbn [bind]. unfold mean. rewrite rsum_map_seq, map_length, seq_length. reflexivity.
Qed.
(** ** C42: one batch *)
Lemma masked_value N x b n mask state : state_fits likelihood has_state state -> batch_of b n -> (0 < n)%nat -> (0 < N)%nat -> length mask = n ->
  exists st, batch_evaluation likelihood has_state N x b mask state = (Ok (- sum_upto n (fun j => if nth j mask false then l x (row (fst b) j) else 0)), st)
             /\ state_fits likelihood has_state st.
Proof.
  intros Hf Hb Hn HN Hm. destruct (state_ok state x Hf Hb Hn) as (st & E & Hst). pose proof (lks_ok state x Hb) as [E1 E2]. exists st. split; auto.
  unfold batch_evaluation, potential_function, batch_potential. destruct (batched_likelihood _ _ state x b) as [lks states]. cbn [fst snd] in *. rewrite E. cbn [bind].
  assert (D : dot_mask lks mask = Ok (sum_upto n (fun j => if nth j mask false then l x (row (fst b) j) else 0))).
  { unfold dot_mask. destruct E2 as [E2|(_ & -> & E2)]; rewrite E2.
    - rewrite Hm, Nat.eqb_refl, E1. f_equal. now apply zip_mult_mask.
    - rewrite E1. destruct mask as [|v [|? ?]]; try discriminate. cbn. f_equal. unfold sum_upto. cbn. destruct v; lra. }
  rewrite D. cbn [bind]. destruct Hb as [-> _]. f_equal. f_equal. field. split; apply not_0_INR; lia.
Qed.

Lemma mapM_Ok A (rs : list A) : mapM (fun x => x) (map Ok rs) = Ok rs.
Proof. induction rs as [|r rs IH]; cbn; [reflexivity|now rewrite IH]. Qed.
(** a list of batches: the function sees batch (g b) with the mask of b *)
Lemma scan_value N x mb (g : mbatch obs -> mbatch obs) : (0 < mb)%nat -> (0 < N)%nat -> forall bs state c0, state_fits likelihood has_state state ->
  Forall (fun b => fst (g b) = fst b /\ batch_of (g b) mb /\ length (snd b) = mb) bs ->
  exists vs st, scan_spec (fun b c => batch_evaluation likelihood has_state N x (g b) (snd b) c) bs state = (map Ok vs, st) /\
    c0 - rsum vs = snd (scan_spec (fun b c => reduction (fun c r => c + l x r) mb b (snd b) c) bs c0).
Proof.
  intros Hmb HN. induction bs as [|b bs IH]; intros state c0 Hf HF; cbn [scan_spec].
  - exists [], state. split; auto. cbn. rewrite rsum_nil. lra.
  - inversion HF as [|? ? HFb HF']; subst. destruct HFb as (Hg & Hb & Hm). destruct (@masked_value N x (g b) mb (snd b) state Hf Hb Hmb HN Hm) as (st1 & E & Hf1). rewrite E.
    set (v := - sum_upto mb (fun j => if nth j (snd b) false then l x (row (fst (g b)) j) else 0)) in *.
    destruct (IH st1 (c0 - v) Hf1 HF') as (vs & st & E2 & E3). rewrite E2. exists (v :: vs), st. split; [reflexivity|].
    assert (ER : reduction (fun c r => c + l x r) mb b (snd b) c0 = (tt, c0 - v)).
    { unfold reduction. f_equal. unfold v. rewrite Hg. generalize mb as k. induction k as [|k IHk]; [cbn; lra|]. rewrite seq_S, fold_left_app, sum_upto_S. cbn [fold_left plus]. rewrite IHk.
      destruct (nth k (snd b) false); lra. }
    rewrite ER. rewrite rsum_cons. destruct (scan_spec (fun b c => reduction (fun c r => c + l x r) mb b (snd b) c) bs (c0 - v)) as [rs c']. cbn [snd] in *. lra.
Qed.
Lemma fold_sum (f : nat -> R) N c : fold_left (fun c j => c + f j) (seq 0 N) c = c + sum_upto N f.
Proof. induction N as [|N IH]; [cbn; lra|]. rewrite seq_S, fold_left_app, sum_upto_S. cbn. rewrite IH. lra. Qed.
(** one pass over the data *)
Lemma pass_value prior T (data : list (string * list obs)) N x mb bs (g : mbatch obs -> mbatch obs) state :
  (0 < mb)%nat -> (0 < N)%nat -> state_fits likelihood has_state state -> is_pass data N mb bs -> data <> [] ->
  (forall b, fst (g b) = fst b /\ (length (snd b) = mb -> length (snd (g b)) = mb)) ->
  full_value prior T x (fst (scan_spec (fun b c => batch_evaluation likelihood has_state N x (g b) (snd b) c) bs state))
  = Ok (posterior_potential prior l T data N x).
Proof.
  intros Hmb HN Hf Hp Hd Hg.
  assert (HF : Forall (fun b => fst (g b) = fst b /\ batch_of (g b) mb /\ length (snd b) = mb) bs).
  { apply Forall_forall. intros b Hb. destruct Hp as [Hlen Hp]. apply In_nth_error in Hb. destruct Hb as [i Hi].
    assert (Hi' : (i < ceil_div N mb)%nat) by (rewrite <- Hlen; apply nth_error_Some; congruence).
    destruct (Hp i Hi') as (b' & Eb & Hm & Hn & Hk & _). rewrite Hi in Eb. injection Eb as <-. destruct (Hg b) as [G1 G2].
    assert (Hm' : length (snd b) = mb) by (rewrite Hm, map_length, seq_length; auto).
    split; auto. split; auto. split; auto. split.
    - rewrite G1. intros X. rewrite X in Hn. destruct data; [congruence|discriminate].
    - rewrite G1. exact Hk. }
  destruct (@scan_value N x mb g Hmb HN bs state 0 Hf HF) as (vs & st & E & E2). rewrite E. cbn [fst]. unfold full_value. rewrite mapM_Ok. cbn [bind].
  rewrite (@pass_reduction obs data N mb bs Hp Hmb R (fun c r => c + l x r) 0 HN) in E2.
  rewrite fold_sum in E2. unfold posterior_potential. f_equal. f_equal. lra.
Qed.
End P.
