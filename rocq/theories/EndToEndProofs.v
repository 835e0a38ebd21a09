From Coq Require Import Reals Lra ZArith String.
From Verif Require Import Base ListUtil NumpyLoader LoaderSpec NumpyLoaderProofs NumpyLoaderApi Requests Hub HubSpec HubProofs HubFinal PropertiesHub.
From Verif Require Import Pytree PytreeSpec PytreeProofs Io IoSpec IoProofs TreeUtil TreeUtilSpec TreeUtilProofs Integrator IntegratorSpec IntegratorBasics
  DataCore DataSpec DataFinal Potential PotentialSpec PotentialProofs UnbiasedProofs PropertiesPotential LeapfrogVolume AliasSgld AliasHmc AliasData EndToEndSpec.
Open Scope R_scope.
Set Implicit Arguments.

Lemma sum_upto_derivable n (f : nat -> R -> R) (d : nat -> R) t : (forall j, (j < n)%nat -> derivable_pt_lim (f j) t (d j)) ->
  derivable_pt_lim (fun u => sum_upto n (fun j => f j u)) t (sum_upto n d).
Proof.
  induction n as [|n IH]; intros H.
  - apply (derivable_pt_lim_const 0).
  - rewrite sum_upto_S. apply (derivable_pt_lim_ext (fun u => sum_upto n (fun j => f j u) + f n u)); [intros u; now rewrite sum_upto_S|].
    apply derivable_pt_lim_plus; [apply IH; intros; apply H; lia|apply H; lia].
Qed.

Section Pot.
Variable obs : Type.
Variables (prior : vtree -> R) (likelihood : lik_fn obs vtree vtree) (has_state : bool) (T : R).
Variable strategy : pot_strategy.
Variable pot : nat -> vtree -> mbatch obs -> option vtree -> option (list bool) -> res (R * list R * option vtree).
Hypothesis Hpot : minibatch_potential prior likelihood has_state T strategy = Ok pot.
Variable l : option vtree -> vtree -> orow obs -> R.
Hypothesis Hl : evaluates_with likelihood l.
Hypothesis Hk : keeps_state likelihood has_state.

(** the likelihood for a fixed state *)
Definition fix_state (st : option vtree) : lik_fn obs vtree vtree :=
  match likelihood with Single f => Single (fun _ x r => f st x r) | Batched f => Batched (fun _ x d => f st x d) end.
Lemma fix_evaluates st : evaluates (fix_state st) (l st).
Proof. unfold evaluates_with, evaluates, fix_state in *. destruct likelihood as [f|f]; intros; apply Hl; auto. Qed.
Lemma pot_fixed N x b m : pot N x b (state_of has_state m) None = potential_function prior (fix_state (state_of has_state m)) has_state T N x b (state_of has_state m) None.
Proof.
  rewrite (pot_is prior likelihood has_state T strategy _ Hpot). unfold state_of, potential_function, batch_potential, batched_likelihood, new_state, fix_state.
  destruct likelihood as [f|f]; destruct has_state; reflexivity.
Qed.
Lemma fix_fits m : state_fits (fix_state (state_of has_state m)) has_state (state_of has_state m).
Proof.
  unfold state_fits, fix_state, state_of, keeps_state in *. destruct likelihood as [f|f]; auto. destruct has_state; auto.
  intros _ x r E. destruct (Hk eq_refl m x r) as (m' & E' & _). congruence.
Qed.
Lemma user_model_structure N x b m : same_structure (user_model has_state pot N x b m) m.
Proof.
  unfold user_model. destruct (pot N x b (state_of has_state m) None) as [[[v lks] [m'|]]|e] eqn:E; try reflexivity.
  rewrite (pot_is prior likelihood has_state T strategy _ Hpot) in E. unfold potential_function, batch_potential, batched_likelihood, new_state, call_state, state_of, keeps_state in *.
  destruct likelihood as [f|f], has_state; cbn in E.
  - destruct (snd b) as [|b0 bs]; cbn in E; [discriminate|]. destruct (Hk eq_refl m x (row (fst b) 0)) as (m'' & E' & Sm). rewrite E' in E. cbn in E.
    injection E as _ _ <-. exact Sm.
  - discriminate.
  - destruct (Hk eq_refl m x (fst b)) as (m'' & E' & Sm). destruct (f (Some m) x (fst b)) as [lks' st']. cbn [snd] in E'. subst st'. cbn in E.
    destruct (mean_axis0 _) in E; cbn in E; [|discriminate]. injection E as _ _ <-. exact Sm.
  - destruct (f None x (fst b)) as [lks' st']. cbn in E. destruct (mean_axis0 _) in E; cbn in E; discriminate.
Qed.

Section Data.
Variable data : list (string * list obs).
Variable N : nat.
Hypothesis Hd : data <> [].
Hypothesis HN : forall ka, In ka data -> length (snd ka) = N.
Variables (idx : list nat) (mask : list bool).
Hypothesis Hi : Forall (fun i => (i < N)%nat) idx.
Hypothesis Hm : length mask = length idx.
Hypothesis Hpos : (0 < length idx)%nat.
Hypothesis Hone : is_batched likelihood = true -> length idx <> 1%nat.
Notation b := (map (fun ka => (fst ka, select (snd ka) idx)) data, mask).
Lemma user_value_is x m : user_value has_state pot N x b m = posterior_value prior has_state T N data l x idx m.
Proof.
  unfold user_value. rewrite pot_fixed.
  destruct (@indexed_value obs data N Hd HN vtree vtree (fix_state (state_of has_state m)) (l (state_of has_state m)) has_state (fix_evaluates _) prior T x idx mask (state_of has_state m)
    (fix_fits m) Hi Hm Hpos) as ([[v lks] st] & E & V).
  { unfold fix_state. destruct likelihood; exact Hone. }
  rewrite E. exact V.
Qed.
Lemma user_model_is x m : user_model has_state pot N x b m = next_state likelihood has_state data x idx m.
Proof.
  unfold user_model, next_state. rewrite pot_fixed.
  destruct (batch_at_of Hd HN mask Hi Hm) as [B1 B2].
  destruct (@minibatch_value _ _ _ (fix_state (state_of has_state m)) (l (state_of has_state m)) has_state (fix_evaluates _) prior T N x b _ (state_of has_state m) (fix_fits m) B1 Hpos) as (st & E).
  { unfold fix_state. destruct likelihood; exact Hone. }
  rewrite E. revert E. unfold potential_function, batch_potential, batched_likelihood, new_state, fix_state, state_of, call_state, keeps_state in *.
  destruct likelihood as [f|f]; destruct has_state; cbn [is_batched fst snd].
  - rewrite Hm. destruct idx as [|i0 is]; [cbn in Hpos; lia|]. cbn [length seq map].
    rewrite (B2 0%nat Hpos). cbn [nth]. destruct (Hk eq_refl m x (row data i0)) as (m' & E' & _). rewrite E'. cbn [bind fst snd].
    intros E. destruct (mean_axis0 _) in E; cbn [bind] in E; [|discriminate]. apply (f_equal (fun r : res (R * list R * option vtree) => match r with Ok p => snd p | Exc _ => None end)) in E; cbn [snd] in E; rewrite <- E; clear E. reflexivity.
  - cbn [bind]. intros E. destruct (mean_axis0 _) in E; cbn [bind] in E; [|discriminate]. apply (f_equal (fun r : res (R * list R * option vtree) => match r with Ok p => snd p | Exc _ => None end)) in E; cbn [snd] in E; rewrite <- E; clear E. reflexivity.
  - match goal with |- context [f (Some m) x ?d] => destruct (f (Some m) x d) as [lks' st'] end. cbn [bind fst snd]. intros E. destruct (mean_axis0 _) in E; cbn [bind] in E; [|discriminate]. apply (f_equal (fun r : res (R * list R * option vtree) => match r with Ok p => snd p | Exc _ => None end)) in E; cbn [snd] in E; rewrite <- E; clear E.
    reflexivity.
  - match goal with |- context [f None x ?d] => destruct (f None x d) as [lks' st'] end. cbn [bind fst snd]. intros E. destruct (mean_axis0 _) in E; cbn [bind] in E; [|discriminate]. apply (f_equal (fun r : res (R * list R * option vtree) => match r with Ok p => snd p | Exc _ => None end)) in E; cbn [snd] in E; rewrite <- E; clear E.
    reflexivity.
Qed.

Variable s : vtree.
Hypothesis Hs : wfv s.
Variable jgrad : (vtree -> R) -> vtree -> vtree.
Hypothesis Hj : exact_gradients s jgrad.
Lemma user_grad_is dl dp x m : like s x -> smooth_at prior has_state N data l s dl dp x m ->
  forall c, (c < dim s)%nat -> el (user_grad has_state pot N jgrad x b m) c = el (posterior_grad has_state T N data s dl dp x idx m) c.
Proof.
  intros Hx [S1 S2] c Hc. unfold user_grad, posterior_grad. rewrite (proj2 (tree_of_ok _ Hs)) by auto.
  destruct (Hj (fun y => user_value has_state pot N y b m) Hx) as [_ H].
  apply (H (fun c => (- INR N * (sum_upto (length idx) (fun j => dl (state_of has_state m) x (row data (nth j idx 0%nat)) c) / INR (length idx)) - dp x c) / T)); auto.
  clear c Hc H. intros c Hc.
  apply (derivable_pt_lim_ext (fun t => (- INR N * (sum_upto (length idx) (fun j => l (state_of has_state m) (at_coordinate s x c t) (row data (nth j idx 0%nat))) / INR (length idx)) - prior (at_coordinate s x c t)) * / T)).
  { intros t. rewrite user_value_is. reflexivity. }
  match goal with |- derivable_pt_lim _ _ (?u / T) => replace (u / T) with (/ T * u) by (unfold Rdiv; ring) end.
  apply (derivable_pt_lim_ext (fun t => / T * (- INR N * (sum_upto (length idx) (fun j => l (state_of has_state m) (at_coordinate s x c t) (row data (nth j idx 0%nat))) / INR (length idx)) - prior (at_coordinate s x c t)))).
  { intros t. unfold Rdiv. ring. }
  apply derivable_pt_lim_scal. apply derivable_pt_lim_minus; [|apply S1; exact Hc].
  apply derivable_pt_lim_scal.
  match goal with |- derivable_pt_lim _ _ (?u / ?v) => replace (u / v) with (/ v * u) by (unfold Rdiv; ring) end.
  apply (derivable_pt_lim_ext (fun t => / INR (length idx) * sum_upto (length idx) (fun j => l (state_of has_state m) (at_coordinate s x c t) (row data (nth j idx 0%nat))))).
  { intros t. unfold Rdiv. ring. }
  apply derivable_pt_lim_scal.
  apply (sum_upto_derivable (fun j t => l (state_of has_state m) (at_coordinate s x c t) (row data (nth j idx 0%nat)))).
  intros j Hj'. apply S2; auto. rewrite Forall_forall in Hi. apply Hi. apply nth_In. exact Hj'.
Qed.
End Data.
End Pot.

(** ** Trajectories on another source of batches, with another gradient that agrees along the trajectory *)
Section Convert.
Variable s : vtree.
Variable normal : key -> list nat -> list R.
Variables (D1 D2 B1 B2 : Type).
Variables (g1 : D1 -> D1 * B1) (g2 : D2 -> D2 * B2) (d1 : D1) (d2 : D2).
Variables (pv1 : vtree -> B1 -> vtree -> R) (pm1 pg1 : vtree -> B1 -> vtree -> vtree).
Variables (pv2 : vtree -> B2 -> vtree -> R) (pm2 pg2 : vtree -> B2 -> vtree -> vtree).
Notation b1 := (batch_no g1 d1).
Notation b2 := (batch_no g2 d2).
Hypothesis Hv : forall x m k, pv1 x (b1 k) m = pv2 x (b2 k) m.
Hypothesis Hmo : forall x m k, pm1 x (b1 k) m = pm2 x (b2 k) m.
(** where the gradients agree *)
Variable ok : vtree -> vtree -> Prop.
Hypothesis Hgr : forall x m k c, like s x -> ok x m -> (c < dim s)%nat -> el (pg1 x (b1 k) m) c = el (pg2 x (b2 k) m) c.
Lemma sgld_batches rms alpha lmbd model0 x0 its eps theta model : (forall i, (i < its)%nat -> ok (theta i) (model i)) ->
  sgld_trajectory s normal g1 pm1 pg1 rms alpha lmbd d1 model0 x0 its eps theta model -> sgld_trajectory s normal g2 pm2 pg2 rms alpha lmbd d2 model0 x0 its eps theta model.
Proof.
  intros Hok [T1 T2 T3 T4]. split; auto.
  - intros i Hi. rewrite <- Hmo. auto.
  - intros i c Hi Hc. specialize (T4 i c Hi Hc). cbv beta zeta in *.
    assert (E : forall k, (k <= i)%nat -> el (pg2 (theta k) (b2 k) (model k)) c = el (pg1 (theta k) (b1 k) (model k)) c).
    { intros k Hk. symmetry. apply Hgr; auto; [apply T2; lia|apply Hok; lia]. }
    rewrite (E i) by lia. rewrite T4. destruct rms; [|reflexivity].
    assert (W : AdaptionSpec.weighted_square alpha (fun k => el (pg1 (theta k) (b1 k) (model k)) c) (Datatypes.S i) = AdaptionSpec.weighted_square alpha (fun k => el (pg2 (theta k) (b2 k) (model k)) c) (Datatypes.S i)).
    { unfold AdaptionSpec.weighted_square. do 2 f_equal. apply sum_upto_ext. intros j Hj. rewrite (E j) by lia. reflexivity. }
    rewrite W. reflexivity.
Qed.
Lemma sgld_saved_batches theta model i : saved_sample g1 pv1 d1 theta model i = saved_sample g2 pv2 d2 theta model i.
Proof. unfold saved_sample. now rewrite Hv. Qed.
Lemma obabo_batches steps mass friction model0 x0 its eps x model p r h e : (forall t, (t < its * steps)%nat -> ok (x t) (model (2 * t)%nat) /\ ok (x (S t)) (model (2 * t + 1)%nat)) ->
  obabo_trajectory s normal g1 pm1 pg1 steps mass friction d1 model0 x0 its eps x model p r h e -> obabo_trajectory s normal g2 pm2 pg2 steps mass friction d2 model0 x0 its eps x model p r h e.
Proof.
  intros Hok [T1 T2 T3]. split; auto. intros t Ht. specialize (T3 t Ht). destruct (Hok t Ht) as [K1 K2]. cbv zeta in *. rewrite <- !Hmo.
  destruct T3 as (M1 & M2 & T3). split; [exact M1|]. split; [exact M2|]. intros c Hc. rewrite <- !Hgr by (auto; apply T2; lia). apply T3. exact Hc.
Qed.
Lemma obabo_saved_batches steps x model i : obabo_saved g1 pv1 steps d1 x model i = obabo_saved g2 pv2 steps d2 x model i.
Proof. unfold obabo_saved. now rewrite !Hv. Qed.
Lemma sghmc_batches steps mass friction model0 x0 its eps x model p : (forall i k, (i < its)%nat -> (k < steps)%nat -> ok (x i (S k)) (model (i * steps + k)%nat)) ->
  sghmc_trajectory s normal g1 pm1 pg1 steps mass friction d1 model0 x0 its eps x model p -> sghmc_trajectory s normal g2 pm2 pg2 steps mass friction d2 model0 x0 its eps x model p.
Proof.
  intros Hok [T1 T2 T3 T4 T5]. split; auto. intros i k Hi Hk. specialize (T5 i k Hi Hk). cbv zeta in *. rewrite <- Hmo.
  destruct T5 as [M T5]. split; [exact M|]. intros c Hc. rewrite <- Hgr by (auto; apply T2; lia). apply T5. exact Hc.
Qed.
Lemma sghmc_saved_batches steps x model i : sghmc_saved g1 pv1 steps d1 x model i = sghmc_saved g2 pv2 steps d2 x model i.
Proof. unfold sghmc_saved. now rewrite !Hv. Qed.
End Convert.

(** ** what is known about the data set of an alias *)
Section Started.
Context {G obs : Type}.
Variable choice_repl : G -> nat -> nat -> G * list nat.
Variable choice_perm : G -> nat -> G * list nat.
Variable rng_of_seed : nat -> G.
Hypothesis Hperm : perm_oracle choice_perm.
Hypothesis Hrepl : repl_oracle choice_repl.
Lemma started_data (datas : list (list (string * list obs))) hD ai i ca mb cid0 k0 n data N : (0 < n)%nat ->
  alias_started choice_repl choice_perm rng_of_seed datas hD ai i ca mb cid0 k0 n data N ->
  (0 < mb <= N)%nat /\ data <> [] /\ forall ka, In ka data -> length (snd ka) = N.
Proof.
  intros Hn Hst. destruct (@started_opened G obs choice_repl choice_perm rng_of_seed datas hD ai i ca mb cid0 k0 n data N Hst 0 Hn) as (hE & h2 & Ho & _).
  destruct (@opened_inv G obs choice_repl choice_perm rng_of_seed Hperm Hrepl _ _ _ _ _ _ _ _ _ _ Ho) as (Hca & Hok & _).
  destruct Hok as [O1 O2]. cbn in O1, O2.
  destruct Hst as (ls0 & h0 & hA & o0 & hB & h1 & hC & o1 & lo & l0 & H1 & H2 & H3 & H4 & H5 & H6 & H7 & _).
  destruct (Forall2_nth_error_l _ H1 H5) as (l0' & E0 & Hmk). rewrite H6 in E0. injection E0 as <-.
  destruct (make_loader_ok _ Hmk) as [(DO1 & DO2 & DO3) _].
  split; [lia|]. split; [apply (loader_nonempty _ _ Hmk); lia|]. intros ka Hka. rewrite H7. auto.
Qed.
Lemma drawn_indices_ok N mb cid k : (0 < N)%nat -> length (drawn_indices choice_repl rng_of_seed N mb cid k) = mb /\ Forall (fun i => (i < N)%nat) (drawn_indices choice_repl rng_of_seed N mb cid k).
Proof. intros HN. unfold drawn_indices. match goal with |- context [choice_repl ?g N mb] => destruct (Hrepl g N mb) as [A B] end. split; auto. Qed.
Lemma drawn_count B (g : nat -> nat * B) n0 k : (forall n, fst (g n) = S n) -> drawn g n0 k = (n0 + k)%nat.
Proof. intros H. induction k as [|k IH]; cbn; [lia|]. rewrite H, IH. lia. Qed.
Lemma index_no N mb cid k : batch_no (index_source choice_repl rng_of_seed N mb cid) 0%nat k = drawn_indices choice_repl rng_of_seed N mb cid k.
Proof. unfold batch_no. rewrite drawn_count by reflexivity. reflexivity. Qed.
Lemma stream_no (data : list (string * list obs)) N mb cid k : batch_no (stream_source choice_repl choice_perm rng_of_seed data N mb cid) 0%nat k =
  (map (fun ka => (fst ka, select (snd ka) (drawn_indices choice_repl rng_of_seed N mb cid k))) data, repeat true mb).
Proof. unfold batch_no. rewrite drawn_count by reflexivity. reflexivity. Qed.
End Started.
