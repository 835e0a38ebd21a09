(** C92: the mean of the samples that alias.sgld returns estimates the posterior mean. *)
From Coq Require Import Reals Lra ZArith String.
From Verif Require Import Base ListUtil NumpyLoader LoaderSpec NumpyLoaderProofs NumpyLoaderApi Requests Hub HubSpec HubProofs HubFinal PropertiesHub GenInstance DeviceData DeviceDataProofs.
From Verif Require Import Pytree PytreeSpec PytreeProofs Io IoSpec IoProofs TreeUtil TreeUtilSpec TreeUtilProofs Integrator IntegratorSpec IntegratorBasics PropertiesIntegrator
  Xreal Scheduler SchedulerSpec PropertiesScheduler Solver SolverSpec Adaption Alias PropertiesAlias AliasSgld AliasRun AliasHmc AliasData.
From Verif Require Import DataCore DataSpec Potential PotentialSpec PotentialProofs UnbiasedProofs VarianceProofs PropertiesPotential LeapfrogVolume EndToEndSpec EndToEndProofs PropertiesEndToEnd PropertiesDeviceAlias.
From Verif Require Import ExpectSpec ExpectProofs GaussianLimit GaussianMatrix GaussianSpec PropertiesGaussian MinibatchSpec MinibatchProofs PropertiesMinibatchGaussian AverageProofs PropertiesAverages AverageAlias.
Open Scope R_scope.
Set Implicit Arguments.

Section C92.
Variable s : vtree.
Hypothesis Hs : wfv s.
Variable obs : Type.
(** the setting of C91: a user's model with Gaussian likelihood and prior *)
Variables (prior : vtree -> R) (likelihood : lik_fn obs vtree vtree) (has_state : bool) (Tp : R) (strategy : pot_strategy).
Variable pot : nat -> vtree -> mbatch obs -> option vtree -> option (list bool) -> res (R * list R * option vtree).
Hypothesis Hpot : minibatch_potential prior likelihood has_state Tp strategy = Ok pot.
Variable l : option vtree -> vtree -> orow obs -> R.
Hypothesis Hl : evaluates_with likelihood l.
Hypothesis Hk : keeps_state likelihood has_state.
Variable jgrad : (vtree -> R) -> vtree -> vtree.
Hypothesis Hj : exact_gradients s jgrad.
Hypothesis HTp : 0 < Tp.
Variables (data : list (string * list obs)) (N mb : nat).
Hypothesis Hd : data <> [].
Hypothesis HN : forall ka, In ka data -> length (snd ka) = N.
Hypothesis HN0 : (0 < N)%nat.
Hypothesis Hmb : (0 < mb)%nat.
Hypothesis Hone : is_batched likelihood = true -> mb <> 1%nat.
Variables (c0 : option vtree -> orow obs -> R) (b0 : orow obs -> nat -> R) (H0 : orow obs -> nat -> nat -> R) (cp : R) (bp : nat -> R) (Hp : nat -> nat -> R).
Hypothesis Hlq : forall st k, (k < N)%nat -> quadratic s (fun x => l st x (row data k)) (c0 st (row data k)) (b0 (row data k)) (H0 (row data k)).
Hypothesis Hpq : quadratic s prior cp bp Hp.
(** precision matrix A, covariance matrix B and mean mu of the posterior *)
Variables (A B : nat -> nat -> R) (mu : nat -> R) (lam : R).
Hypothesis HA : forall i j, (i < dim s)%nat -> (j < dim s)%nat -> A i j = (sum_upto N (fun k => H0 (row data k) i j) + Hp i j) / Tp.
Hypothesis Hpd : positive_definite (dim s) A lam.
Hypothesis HB : inverse_matrix (dim s) A B.
Hypothesis Hmu : forall i, (i < dim s)%nat -> matvec (dim s) A mu i = (sum_upto N (fun k => b0 (row data k) i) + bp i) / Tp.
Notation uvalue := (user_value has_state pot N).
Notation ulikelihoods := (user_likelihoods has_state pot N).
Notation umodel := (user_model has_state pot N).
Notation ugrad := (user_grad has_state pot N jgrad).
(** the initial sample of the chain and the initial state of the model *)
Variables (x0 model0 : vtree).
Hypothesis Hx : like s x0.
(** jax.random.choice of the thinning; zeros_like *)
Variables (Key : Type) (choice : Key -> list xr -> nat -> list nat) (tk : Key) (zl : arr -> arr).
Hypothesis Hc : choice_ok choice.

(** the answer of the run function of alias.sgld *)
Notation answer normal source a its h starts :=
  (snd (al_run choice tk a zl (sgld_solver normal source uvalue ulikelihoods umodel ugrad false) (fst (run (mstep zl) (mc_new false) h))
     (map (fun xd => sgld_init false 0 0 (snd xd) model0 (fst xd)) starts) its)).
(** With step sizes falling from f to l' <= f below a threshold e1, every chain of alias.sgld that returns all samples after burn-in returns samples whose mean has
    mean square error at most K / (number of samples); K depends on f and l' and on the model, not on the number of iterations and the burn-in.
    Here for every source of batches with independent, uniformly distributed index lists. *)
Theorem C92_source : exists e1, 0 < e1 /\ forall f l', 0 < l' < f -> f <= e1 -> exists K, 0 <= K /\
  forall a its, al_first a = Fin f -> al_last a = Fin l' -> al_adaptive a = None -> al_hot a = None -> (2 <= its)%nat -> (al_burn_in a < its)%nat ->
  let m := (its - al_burn_in a)%nat in al_accepted a = Some m ->
  forall W (E : (W -> R) -> R) (normal : W -> key -> list nat -> list R) Data (source : W -> Data -> Data * mbatch obs) (idx : nat -> W -> list nat),
  (forall w, normal_ok (normal w)) -> (forall k w, length (idx k w) = mb /\ Forall (fun i => (i < N)%nat) (idx k w)) ->
  independent_run idx (fun k w => xi (normal w) (Sub (chain (PRNGKey 0) k) 1) s) (dim s) E N mb (Datatypes.S its) ->
  forall c (starts : W -> list (vtree * Data)) (h : W -> list (mop arr)), (forall w, Forall (fun xd => like s (fst xd)) (starts w)) ->
    (forall w, exists d, nth_error (starts w) c = Some (x0, d) /\ forall k, batch_no (source w) d k = batch_at data (idx k w)) ->
    (forall w, exists results r, answer (normal w) (source w) a its (h w) (starts w) = Some (Ok results) /\ length results = length (starts w) /\ nth_error results c = Some r /\ fst r = m) /\
    forall r : W -> result arr, (forall w, exists results, answer (normal w) (source w) a its (h w) (starts w) = Some (Ok results) /\ nth_error results c = Some (r w)) ->
      forall j, (j < dim s)%nat -> let mean := fun w => sum_upto m (fun k => returned (r w) k j) / INR m in
        E (fun w => (mean w - mu j) * (mean w - mu j)) <= K / INR m.
Proof.
  destruct (@C91_bounded_steps s Hs obs prior likelihood has_state Tp strategy pot Hpot l Hl Hk jgrad Hj HTp data N mb Hd HN HN0 Hmb Hone c0 b0 H0 cp bp Hp Hlq Hpq A B mu lam HA Hpd HB Hmu 1 x0 model0 (PRNGKey 0) ltac:(lra) Hx) as (e1 & He1 & HE).
  exists e1. split; [exact He1|]. intros f l' Hfl Hfe. destruct (HE l' (proj1 Hfl)) as (K & HK & HM). exists K. split; [exact HK|].
  intros a its Af Al Aa Ah Hits Hburn m Hacc W E normal Data source idx Hnorm Hidx HI c starts h Hlk Hcx.
  destruct (@alias_main_schedule Key choice tk a its f l' Aa Af Al Hfl Hits) as (eps & (F1 & F2 & F3 & F4) & HS).
  set (eps' := fun k => if (k <? its)%nat then eps k else l').
  assert (EE : forall k, (k < its)%nat -> eps' k = eps k) by (intros k Hkk; unfold eps'; now rewrite (proj2 (Nat.ltb_lt k its))).
  assert (EM : forall i j, (i <= j)%nat -> eps j <= eps i) by (intros i0 j0 Hij; destruct (Nat.eq_dec i0 j0) as [->|]; [lra|left; apply F4; lia]).
  assert (EB : forall k, l' <= eps' k <= e1).
  { intros k. unfold eps'. destruct (k <? its)%nat eqn:Ek; [|lra]. apply Nat.ltb_lt in Ek. split; [rewrite <- F2; apply EM; lia|]. eapply Rle_trans; [|exact Hfe]. rewrite <- F1. apply EM. lia. }
  assert (ED : forall k, eps' (Datatypes.S k) <= eps' k).
  { intros k. unfold eps' at 1. destruct (Datatypes.S k <? its)%nat eqn:Ek; [|apply EB]. apply Nat.ltb_lt in Ek. rewrite EE by lia. apply EM. lia. }
  assert (Hg : forall t b m, like s t -> like s (ugrad t b m)) by (intros t b m0 H; apply Hj; exact H).
  assert (Hmo : forall t b m, same_structure (umodel t b m) m) by (intros t b m0; eapply user_model_structure; eauto).
  set (seqs := fun (w : W) (k : nat) => batch_at data (idx k w)).
  assert (RUN : forall w, exists results, answer (normal w) (source w) a its (h w) (starts w) = Some (Ok results) /\ length results = length (starts w) /\
     exists r, nth_error results c = Some r /\ fst r = m /\ forall k j, (k < m)%nat ->
       returned r k j = el (l_pos (sgld_state (normal w) sequence_source uvalue ulikelihoods umodel ugrad eps' 1 (lv_init x0 (Some (PRNGKey 0)) None (seqs w) model0) (Datatypes.S (al_burn_in a + k)))) j).
  { intros w. destruct (@C51_steps s (normal w) _ _ (source w) uvalue ulikelihoods umodel ugrad Hs (Hnorm w) Hg Hmo Key choice tk zl Hc false 0 0 model0 ltac:(discriminate) a f l' m its eps Af Al Aa Hacc Ah Hfl Hits ltac:(unfold m; lia) HS (h w) (starts w) (Hlk w)) as (rs & R1 & R2).
    exists rs. split; [exact R1|]. split; [clear -R2; induction R2; cbn; congruence|]. destruct (Hcx w) as (d & Ec & Hb).
    destruct (Forall2_nth_error_l _ R2 Ec) as (r & Er & (theta & model & L & Tr & (L1 & L2 & L3) & Hr1 & Hr2)). cbn [fst snd] in *.
    exists r. split; [exact Er|]. split; [exact Hr1|]. intros k j Hkm.
    assert (EL : L = seq (al_burn_in a) m) by (apply increasing_all; auto; intros i0 Hi0; specialize (L3 i0 Hi0); unfold m; lia).
    rewrite (@returned_position _ _ _ _ _ _ _ _ r k (al_burn_in a + k)%nat j Hr2); [|rewrite EL; now apply seq_at].
    f_equal. apply (@trajectory_state s Hs (normal w) (Hnorm w) _ _ sequence_source uvalue ulikelihoods umodel ugrad Hg 0 0 (seqs w) model0 x0 its eps eps' theta model Hx EE); [|unfold m in Hkm; lia].
    eapply sgld_convert; [|exact Tr]. intros k'. rewrite sequence_no. apply Hb. }
  split. { intros w. destruct (RUN w) as (rs & R1 & RL & r & R2 & R3 & _). exists rs, r. auto. }
  intros r Hr j Hj' mean.
  pose proof (HM eps' EB ED (Datatypes.S (al_burn_in a)) (Datatypes.S its) ltac:(lia) W E normal (nat -> mbatch obs) (fun _ => sequence_source) seqs idx Hnorm Hidx) as F.
  specialize (F ltac:(intros; apply sequence_no) HI j Hj'). cbv zeta beta in F. replace (Datatypes.S its - Datatypes.S (al_burn_in a))%nat with m in F by (unfold m; lia).
  assert (HX := proj1 HI). match type of F with E ?g <= _ => replace (E (fun w => (mean w - mu j) * (mean w - mu j))) with (E g); [exact F|] end.
  apply (E_ext HX). intros w. destruct (Hr w) as (rs' & Q1 & Q2). destruct (RUN w) as (rs & R1 & _ & r0 & R2 & R3 & R4). rewrite R1 in Q1. injection Q1 as <-. rewrite R2 in Q2. injection Q2 as Q2.
  unfold mean. rewrite <- Q2. rewrite (@sum_upto_ext m (fun k => returned r0 k j) _ (fun k Hk => R4 k j Hk)). reflexivity.
Qed.
(** ... on a NumpyDataLoader: the chain with number c uses the loader chain cid0 + c, whatever else the program does *)
Theorem C92_host : forall (G : Type) (choice_perm : G -> nat -> G * list nat) (rng_of_seed : nat -> G), perm_oracle choice_perm ->
  exists e1, 0 < e1 /\ forall f l', 0 < l' < f -> f <= e1 -> exists K, 0 <= K /\
  forall a its, al_first a = Fin f -> al_last a = Fin l' -> al_adaptive a = None -> al_hot a = None -> (2 <= its)%nat -> (al_burn_in a < its)%nat ->
  let m := (its - al_burn_in a)%nat in al_accepted a = Some m ->
  forall W (E : (W -> R) -> R) (normal : W -> key -> list nat -> list R) (choice_repl : W -> G -> nat -> nat -> G * list nat), (forall w, normal_ok (normal w)) -> (forall w, repl_oracle (choice_repl w)) ->
  forall c cid0, independent_run (fun k w => drawn_indices (choice_repl w) rng_of_seed N mb (cid0 + c) k) (fun k w => xi (normal w) (Sub (chain (PRNGKey 0) k) 1) s) (dim s) E N mb (Datatypes.S its) ->
  forall datas (hD : W -> hub G obs) ai i ca k0 (starts : W -> list (vtree * lsource (G := G) (obs := obs))) (h : W -> list (mop arr)),
    (forall w, alias_started (choice_repl w) choice_perm rng_of_seed datas (hD w) ai i ca mb cid0 k0 (length (starts w)) data N) ->
    (forall w c' x d, nth_error (starts w) c' = Some (x, d) -> like s x /\ chain_source (choice_repl w) choice_perm rng_of_seed (hD w) ai i cid0 k0 c' d) ->
    (forall w, exists d, nth_error (starts w) c = Some (x0, d)) ->
    let source := fun w => loader_source (choice_repl w) choice_perm rng_of_seed in
    (forall w, exists results r, answer (normal w) (source w) a its (h w) (starts w) = Some (Ok results) /\ length results = length (starts w) /\ nth_error results c = Some r /\ fst r = m) /\
    forall r : W -> result arr, (forall w, exists results, answer (normal w) (source w) a its (h w) (starts w) = Some (Ok results) /\ nth_error results c = Some (r w)) ->
      forall j, (j < dim s)%nat -> let mean := fun w => sum_upto m (fun k => returned (r w) k j) / INR m in
        E (fun w => (mean w - mu j) * (mean w - mu j)) <= K / INR m.
Proof.
  intros G choice_perm rng_of_seed Hperm. destruct C92_source as (e1 & He1 & HE). exists e1. split; [exact He1|]. intros f l' Hfl Hfe. destruct (HE f l' Hfl Hfe) as (K & HK & HM). exists K. split; [exact HK|].
  intros a its Af Al Aa Ah Hits Hburn m Hacc W E normal choice_repl Hnorm Hrepl c cid0 HI datas hD ai i ca k0 starts h Hst Hch Hcx source.
  assert (OK := fun k w => @drawn_indices_ok G (choice_repl w) rng_of_seed (Hrepl w) N mb (cid0 + c) k HN0).
  apply (HM a its Af Al Aa Ah Hits Hburn Hacc W E normal _ source (fun k w => drawn_indices (choice_repl w) rng_of_seed N mb (cid0 + c) k) Hnorm OK HI c starts h).
  - intros w. apply Forall_forall. intros [x d] Hin. apply In_nth_error in Hin. destruct Hin as [c' Hc']. apply (Hch w _ _ _ Hc').
  - intros w. destruct (Hcx w) as (d & Ec). exists d. split; [exact Ec|]. intros k. destruct (Hch w _ _ _ Ec) as [_ Hsrc]. assert (Hlt : (c < length (starts w))%nat) by (apply nth_error_Some; congruence).
    unfold source. rewrite (@source_batches G obs (choice_repl w) choice_perm rng_of_seed Hperm (Hrepl w) datas (hD w) ai i ca mb cid0 k0 _ data N c d (Hst w) Hlt Hsrc).
    rewrite stream_no. unfold batch_at. f_equal. f_equal. symmetry. apply OK.
Qed.
(** ... on a DeviceNumpyDataLoader: all chains start with the key of the seed *)
Theorem C92_device : forall (G K : Type) (lo : loader G obs) (ca : nat) (split : K -> K * K) (dkey : K), make_loader data = Ok lo -> N = l_count lo ->
  check_random DeviceKind (Z.of_nat (l_count lo)) (Z.of_nat ca) (Z.of_nat mb) = Ok tt ->
  exists e1, 0 < e1 /\ forall f l', 0 < l' < f -> f <= e1 -> exists K', 0 <= K' /\
  forall a its, al_first a = Fin f -> al_last a = Fin l' -> al_adaptive a = None -> al_hot a = None -> (2 <= its)%nat -> (al_burn_in a < its)%nat ->
  let m := (its - al_burn_in a)%nat in al_accepted a = Some m ->
  forall W (E : (W -> R) -> R) (normal : W -> key -> list nat -> list R) (randint : W -> K -> nat -> nat -> list nat),
    (forall w, normal_ok (normal w)) -> (forall w k n m, length (randint w k n m) = n /\ ((0 < m)%nat -> Forall (fun i => (i < m)%nat) (randint w k n m))) ->
    independent_run (fun k w => batch_no (device_indices split (randint w) N mb) dkey k) (fun k w => xi (normal w) (Sub (chain (PRNGKey 0) k) 1) s) (dim s) E N mb (Datatypes.S its) ->
  forall c (samples : list vtree) (h : W -> list (mop arr)), Forall (like s) samples -> nth_error samples c = Some x0 ->
    let starts := map (fun x => (x, dkey)) samples in let source := fun w => device_source split (randint w) data N mb in
    (forall w, exists results r, answer (normal w) (source w) a its (h w) starts = Some (Ok results) /\ length results = length samples /\ nth_error results c = Some r /\ fst r = m) /\
    forall r : W -> result arr, (forall w, exists results, answer (normal w) (source w) a its (h w) starts = Some (Ok results) /\ nth_error results c = Some (r w)) ->
      forall j, (j < dim s)%nat -> let mean := fun w => sum_upto m (fun k => returned (r w) k j) / INR m in
        E (fun w => (mean w - mu j) * (mean w - mu j)) <= K' / INR m.
Proof.
  intros G K lo ca split dkey Hlo HNlo Hacc'. destruct C92_source as (e1 & He1 & HE). exists e1. split; [exact He1|]. intros f l' Hfl Hfe. destruct (HE f l' Hfl Hfe) as (K' & HK & HM). exists K'. split; [exact HK|].
  intros a its Af Al Aa Ah Hits Hburn m Hacc W E normal randint Hnorm Hrand HI c samples h Hlk Hcx starts source.
  destruct (HM a its Af Al Aa Ah Hits Hburn Hacc W E normal K source (fun k w => batch_no (device_indices split (randint w) N mb) dkey k) Hnorm) with (c := c) (starts := fun _ : W => starts) (h := h) as (P1 & P2); [| | | |split; [|exact P2]].
  - intros k w. unfold batch_no, device_indices. cbn [snd]. split; apply Hrand. exact HN0.
  - exact HI.
  - intros w. unfold starts. apply Forall_map. exact Hlk.
  - intros w. exists dkey. split; [unfold starts; now rewrite (map_nth_error _ _ _ Hcx)|]. intros k.
    pose proof (@dev_batch_no G K obs split (randint w) (Hrand w) likelihood data lo ca mb Hlo Hacc' Hone dkey k) as D. rewrite <- HNlo in D. unfold source. rewrite D. unfold batch_at. f_equal. f_equal.
    symmetry. unfold batch_no, device_indices. cbn [snd]. apply Hrand.
  - intros w. destruct (P1 w) as (rs & r & Q1 & Q2 & Q3). exists rs, r. split; [exact Q1|]. split; [|exact Q3]. rewrite Q2. unfold starts. apply map_length.
Qed.
End C92.
Print Assumptions C92_source. Print Assumptions C92_host. Print Assumptions C92_device.
(** ** the hypotheses can be met: the model of C91_nonvacuous (posterior mean 41/3), one chain of alias.sgld on a loader with two observations, batches of one; the random numbers are coins *)
(** auxiliary definition of a statement or a proof; models no code of /repo *)
Definition coin_repl (w : list (bool * bool)) (g n m : nat) : nat * list nat := (Datatypes.S g, repeat (if fst (nth g w (true, true)) then Nat.min 1 (n - 1) else 0%nat) m).
Lemma coin_repl_oracle w : repl_oracle (coin_repl w).
Proof.
  intros g n k. unfold coin_repl. cbn [snd]. split; [apply repeat_length|]. intros Hn. apply Forall_forall. intros x Hx. apply repeat_spec in Hx. subst x. destruct (fst _); lia.
Qed.
Lemma coin_drawn w k : drawn_indices (coin_repl w) (fun c => c) 2 1 0 k = coin_idx k w.
Proof.
  unfold drawn_indices. assert (E : Nat.iter k (fun g => fst (coin_repl w g 2 1)) 0%nat = k) by (induction k as [|k IH]; [reflexivity|]; cbn [Nat.iter nat_rect]; unfold Nat.iter in IH; rewrite IH; reflexivity).
  rewrite E. unfold coin_repl, coin_idx. cbn. reflexivity.
Qed.
(** auxiliary definition of a statement or a proof; models no code of /repo *)
Definition coin_data : list (string * list nat) := [("y"%string, [20; 21]%nat)].
(** auxiliary definition of a statement or a proof; models no code of /repo *)
Definition coin_loader : NumpyLoader.loader nat nat := match make_loader coin_data with Ok l => l | Exc _ => mkLoader 0 [] [] end.
(** auxiliary definition of a statement or a proof; models no code of /repo *)
Definition coin_hub (w : list (bool * bool)) : hub nat nat := fst (run (@Hub.hstep nat nat (coin_repl w) rot_perm (fun c => c)) (hub_init [coin_loader]) [HRandom 0 1 1 false; HInit 0 false false None]).
(** auxiliary definition of a statement or a proof; models no code of /repo *)
Definition coin_chain (w : list (bool * bool)) : lsource (G := nat) (obs := nat) := mkLS (coin_hub w) 0 (fun _ => []) 0.
Lemma coin_started w : alias_started (coin_repl w) rot_perm (fun c => c) [coin_data] (coin_hub w) 0 0 1 1 0 0 1 coin_data 2.
Proof.
  exists [coin_loader], []. do 3 eexists. exists []. do 4 eexists. split; [repeat constructor|]. split; [reflexivity|]. split; [vm_compute; reflexivity|].
  split; [reflexivity|]. split; [reflexivity|]. split; [reflexivity|]. split; [reflexivity|]. split; [vm_compute; reflexivity|]. split; [reflexivity|].
  destruct w as [|[[] b] w]; vm_compute; reflexivity.
Qed.
Example C92_nonvacuous : let s := Leaf (mkArr [] [0]) in let pot := potential_function ex_prior ex_lik true 1 in let zl := fun x => mkArr (ashape x) (map (fun _ => 0) (adata x)) in
  exists e1, 0 < e1 /\ forall f l', 0 < l' < f -> f <= e1 -> exists K, 0 <= K /\ forall b its, (2 <= its)%nat -> (b < its)%nat -> let m := (its - b)%nat in
  let answer := fun w => snd (al_run first_choice tt (mkAlias (Fin f) (Fin l') None b (Some m) true false None) zl
    (sgld_solver (coin_normal w) (loader_source (coin_repl w) rot_perm (fun c => c)) (user_value true pot 2) (user_likelihoods true pot 2) (user_model true pot 2) (user_grad true pot 2 (derive_grad s)) false)
    (mc_new false) [sgld_init false 0 0 (coin_chain w) (Leaf (mkArr [] [1])) (Leaf (mkArr [] [7]))] its) in
  (forall w, exists r, answer w = Some (Ok [r])) /\
  forall r, (forall w, answer w = Some (Ok [r w])) -> let mean := fun w => sum_upto m (fun k => returned (r w) k 0) / INR m in coins (Datatypes.S its) (fun w => (mean w - 41 / 3) * (mean w - 41 / 3)) <= K / INR m.
Proof.
  intros s pot zl.
  assert (Hs : wfv s) by (constructor; [reflexivity|constructor]).
  assert (D : dim s = 1%nat) by reflexivity.
  assert (Q : forall y : R, quadratic s (fun x => - (y - el x 0) * (y - el x 0) / 2) (- y * y / 2) (fun _ => y) (fun _ _ => 1)) by (intros y; split; [reflexivity|]; intros x _; rewrite D; unfold sum_upto; cbn; field).
  assert (Hx : like s (Leaf (mkArr [] [7]))) by (split; [repeat constructor|split; reflexivity]).
  destruct (@C92_host s Hs nat ex_prior ex_lik true 1 PMap pot eq_refl ex_l) with (jgrad := derive_grad s) (data := coin_data) (N := 2%nat) (mb := 1%nat)
    (c0 := fun (_ : option vtree) r => - ex_obs r * ex_obs r / 2) (b0 := fun r (_ : nat) => ex_obs r) (H0 := fun (_ : orow nat) (_ _ : nat) => 1) (cp := 0) (bp := fun _ : nat => 0) (Hp := fun _ _ : nat => 1)
    (A := fun _ _ : nat => 3) (B := fun _ _ : nat => 1 / 3) (mu := fun _ : nat => 41 / 3) (lam := 3) (x0 := Leaf (mkArr [] [7])) (model0 := Leaf (mkArr [] [1]))
    (Key := unit) (choice := first_choice) (tk := tt) (zl := zl) (G := nat) (choice_perm := rot_perm) (rng_of_seed := fun c : nat => c) as (e1 & He1 & H); try lra; try lia; auto using first_choice_ok, rot_perm_oracle.
  { intros st x r. reflexivity. }
  { intros _ m x r. exists (ex_double m). split; [reflexivity|]. destruct m; reflexivity. }
  { apply derive_grad_exact. exact Hs. }
  { discriminate. }
  { intros ka [<-|[]]. reflexivity. }
  { intros st k _. apply Q. }
  { destruct (Q 0) as [Q1 Q2]. split; [exact Q1|]. intros x Hx'. unfold ex_prior. specialize (Q2 x Hx'). cbv beta in Q2. transitivity (- (0 - el x 0) * (0 - el x 0) / 2); [field|]. rewrite Q2. f_equal. f_equal. field. }
  { intros i j _ _. unfold sum_upto. cbn. field. }
  { split; [auto|]. split; [lra|]. intros v. rewrite D. unfold norm2, matvec, sum_upto. cbn. right. ring. }
  { intros i j Hi Hj. rewrite D in *. assert (i = O) by lia. assert (j = O) by lia. subst. unfold sum_upto, unit_matrix. cbn. lra. }
  { intros i _. rewrite D. unfold matvec, sum_upto. cbn. field. }
  exists e1. split; [exact He1|]. intros f l' Hf1 Hf2. destruct (H f l' Hf1 Hf2) as (K & HK & HM). exists K. split; [exact HK|]. intros b its Hits Hb m answer.
  destruct (HM (mkAlias (Fin f) (Fin l') None b (Some m) true false None) its eq_refl eq_refl eq_refl eq_refl Hits Hb eq_refl (list (bool * bool)) (coins (Datatypes.S its)) coin_normal coin_repl) with
    (c := 0%nat) (cid0 := 0%nat) (datas := [coin_data]) (hD := coin_hub) (ai := 0%nat) (i := 0%nat) (ca := 1%nat) (k0 := 0%nat) (starts := fun w => [(Leaf (mkArr [] [7]), coin_chain w)]) (h := fun _ : list (bool * bool) => @nil (mop arr)) as (R1 & R2).
  - intros w k sh. apply repeat_length.
  - apply coin_repl_oracle.
  - cbn [plus]. destruct (coin_independent (Datatypes.S its)) as (I1 & I2 & I3 & I4).
    assert (KN : forall a c F, known (fun k w => drawn_indices (coin_repl w) (fun c => c) 2 1 0 k) (fun k w => xi (coin_normal w) (Sub (chain (PRNGKey 0) k) 1) s) (dim s) a c F -> known coin_idx (fun k w => xi (coin_normal w) (Sub (chain (PRNGKey 0) k) 1) s) 1 a c F).
    { intros a c F HF. induction HF as [c1|k g Hk|k i Hk Hi|F1 F2 _ IF1 _ IF2|F1 F2 _ IF1 _ IF2|F1 F2 HE _ IF].
      - apply known_const.
      - apply (@known_ext _ coin_idx _ 1 a c (fun w => g (coin_idx k w))); [intros w; now rewrite coin_drawn|]. now apply known_idx.
      - apply (@known_noise _ coin_idx (fun k w => xi (coin_normal w) (Sub (chain (PRNGKey 0) k) 1) s) 1 a c k i); auto.
      - now apply known_plus.
      - now apply known_mult.
      - eapply known_ext; eauto. }
    split; [exact I1|]. split; [exact I2|]. split; [intros F HF; apply I3, KN, HF|]. intros k Hk. destruct (I4 k Hk) as [J1 J2]. split.
    + intros F g HF. rewrite <- (J1 F g (KN _ _ _ HF)). apply (E_ext I1). intros w. now rewrite coin_drawn.
    + intros F HF i j Hi Hj. apply J2; auto.
  - apply coin_started.
  - intros w [|c'] x d E; [injection E as <- <-|destruct c'; discriminate]. split; [exact Hx|]. split; [reflexivity|]. split; [reflexivity|]. split.
    + intros j. split; [intros op []|]. split; [intros []|reflexivity].
    + exists []. split; [split; [intros op []|split; [intros []|reflexivity]]|reflexivity].
  - intros w. exists (coin_chain w). reflexivity.
  - assert (LEN : forall w, exists r, answer w = Some (Ok [r])).
    { intros w. destruct (R1 w) as ([|r [|]] & r' & Q1 & Q2 & Q3 & _); try discriminate. exists r. exact Q1. }
    split; [exact LEN|]. intros r Hr. apply (R2 r) with (j := 0%nat); [|rewrite D; lia]. intros w. exists [r w]. split; [apply Hr|reflexivity].
Qed.
Print Assumptions C92_nonvacuous.
