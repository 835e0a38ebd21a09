(** C74: alias.re_sgld on a host data loader, with the potential built by minibatch_potential from the user's log likelihood and log prior. *)
From Coq Require Import Reals Lra ZArith String.
From Verif Require Import Base ListUtil NumpyLoader LoaderSpec NumpyLoaderProofs NumpyLoaderApi Requests Hub HubSpec HubProofs HubFinal PropertiesHub GenInstance.
From Verif Require Import Pytree PytreeSpec PytreeProofs Io IoSpec IoProofs TreeUtil TreeUtilSpec TreeUtilProofs Integrator IntegratorSpec IntegratorBasics PropertiesIntegrator
  Xreal Scheduler SchedulerSpec PropertiesScheduler Solver SolverSpec Mh MhIntegrators Adaption Alias PropertiesAlias AliasSgld AliasRun AliasHmc AliasData AliasReSgld.
From Verif Require Import DataCore DataSpec Potential PotentialSpec PotentialProofs UnbiasedProofs PropertiesPotential LeapfrogVolume EndToEndSpec EndToEndProofs PropertiesEndToEnd PropertiesNoise.
Open Scope R_scope.
Set Implicit Arguments.

(** ** Specification *)
(** the log likelihoods of the drawn observations *)
Definition posterior_likelihoods obs (has_state : bool) (data : list (string * list obs)) (l : option vtree -> vtree -> orow obs -> R) (x : vtree) (idx : list nat) (m : vtree) : list R :=
  map (fun i => l (state_of has_state m) x (row data i)) idx.
(** the index lists drawn by the loader chain with id cid, as a source of batches of several chains: its state is the id and the number of batches so far *)
Definition indexed_source {G} (choice_repl : G -> nat -> nat -> G * list nat) (rng_of_seed : nat -> G) (N mb : nat) (cn : nat * nat) : (nat * nat) * list nat :=
  ((fst cn, S (snd cn)), drawn_indices choice_repl rng_of_seed N mb (fst cn) (snd cn)).
(** the start of a pair of replicas in the specification: the data states are replaced by the ids of the loader chains *)
Definition pair_start Data (cid : nat) (x0 : (vtree * Data) * (vtree * Data)) : (vtree * (nat * nat)) * (vtree * (nat * nat)) :=
  ((fst (fst x0), (cid, 0%nat)), (fst (snd x0), (S cid, 0%nat))).

(** ** Trajectories on two sources with the same batches *)
Section Convert.
Variable s : vtree.
Variable normal : key -> list nat -> list R.
Variable uniform : key -> R.
Variables (D1 D2 B1 B2 : Type).
Variables (g1 : D1 -> D1 * B1) (g2 : D2 -> D2 * B2) (x1 : (vtree * D1) * (vtree * D1)) (x2 : (vtree * D2) * (vtree * D2)).
Variables (pv1 : vtree -> B1 -> vtree -> R) (pv2 : vtree -> B2 -> vtree -> R).
Variables (pl1 : vtree -> B1 -> vtree -> list R) (pl2 : vtree -> B2 -> vtree -> list R).
Variables (pm1 pg1 : vtree -> B1 -> vtree -> vtree) (pm2 pg2 : vtree -> B2 -> vtree -> vtree).
Notation b1 j := (batch_no g1 (snd (of_pair x1 j))).
Notation b2 j := (batch_no g2 (snd (of_pair x2 j))).
Hypothesis Hx : forall j, fst (of_pair x1 j) = fst (of_pair x2 j).
Hypothesis HV : forall j x m k, pv1 x (b1 j k) m = pv2 x (b2 j k) m.
Hypothesis HL : forall j x m k, pl1 x (b1 j k) m = pl2 x (b2 j k) m.
Hypothesis HM : forall j x m k, pm1 x (b1 j k) m = pm2 x (b2 j k) m.
Variable ok : vtree -> vtree -> Prop.
Hypothesis HG : forall j x m k c, like s x -> ok x m -> (c < dim s)%nat -> el (pg1 x (b1 j k) m) c = el (pg2 x (b2 j k) m) c.
Lemma re_batches ex tau model0 its eps theta model cold : (forall j i, (i < its)%nat -> ok (theta j i) (model j i)) ->
  re_sgld_trajectory s normal uniform g1 pv1 pl1 pm1 pg1 ex tau model0 x1 its eps theta model cold ->
  re_sgld_trajectory s normal uniform g2 pv2 pl2 pm2 pg2 ex tau model0 x2 its eps theta model cold.
Proof.
  intros Hok [[R1 R1'] R2 R3 R4 R5]. split.
  - split; [exact R1|]. intros j. rewrite <- Hx. apply R1'.
  - exact R2.
  - intros j i Hi. rewrite <- HM. apply R3. exact Hi.
  - intros j i c Hi Hc. cbv zeta. rewrite <- HG by (auto; apply R2; lia). apply R4; auto.
  - intros i Hi. specialize (R5 i Hi). cbv beta zeta in R5 |- *. rewrite <- !HV.
    match type of R5 with context [sum_upto (S i) ?f] => match goal with |- context [sum_upto (S i) ?g] => replace (sum_upto (S i) g) with (sum_upto (S i) f); [exact R5|] end end.
    apply sum_upto_ext. intros k Hk. cbv beta. now rewrite HL.
Qed.
Lemma re_saved_batches theta model cold i : re_saved g1 pv1 x1 theta model cold i = re_saved g2 pv2 x2 theta model cold i.
Proof. unfold re_saved. now rewrite HV. Qed.
End Convert.

Lemma indexed_no G (choice_repl : G -> nat -> nat -> G * list nat) rng_of_seed N mb cid k :
  batch_no (indexed_source choice_repl rng_of_seed N mb) (cid, 0%nat) k = drawn_indices choice_repl rng_of_seed N mb cid k.
Proof.
  unfold batch_no. assert (E : drawn (indexed_source choice_repl rng_of_seed N mb) (cid, 0%nat) k = (cid, k)). { induction k as [|k IH]; [reflexivity|]. cbn [drawn]. rewrite IH. reflexivity. }
  rewrite E. reflexivity.
Qed.

Lemma user_likelihoods_is obs (prior : vtree -> R) (likelihood : lik_fn obs vtree vtree) has_state T strategy pot :
  minibatch_potential prior likelihood has_state T strategy = Ok pot -> forall l, evaluates_with likelihood l -> keeps_state likelihood has_state ->
  forall data N, data <> [] -> (forall ka, In ka data -> length (snd ka) = N) -> forall idx mask, Forall (fun i => (i < N)%nat) idx -> length mask = length idx -> (0 < length idx)%nat ->
  (is_batched likelihood = true -> length idx <> 1%nat) ->
  forall x m, user_likelihoods has_state pot N x (map (fun ka => (fst ka, select (snd ka) idx)) data, mask) m = posterior_likelihoods has_state data l x idx m.
Proof.
  intros Hpot l Hl Hk data N Hd HN idx mask Hi Hm Hpos Hone x m. unfold user_likelihoods.
  rewrite (pot_fixed prior T strategy Hpot l Hl Hk).
  destruct (batch_at_of Hd HN mask Hi Hm) as [B1 B2].
  destruct (@minibatch_value _ _ _ (fix_state likelihood (state_of has_state m)) (l (state_of has_state m)) has_state (fix_evaluates prior T strategy Hpot l Hl Hk _) prior T N x _ _ (state_of has_state m) (fix_fits prior T strategy Hpot l Hl Hk m) B1 Hpos) as (st & E).
  { unfold fix_state. destruct likelihood; exact Hone. }
  rewrite E. unfold posterior_likelihoods. clear E. transitivity (map (fun j => l (state_of has_state m) x (row data (nth j idx 0%nat))) (seq 0 (length idx))).
  - apply map_ext_in. intros j Hj. apply in_seq in Hj. cbn [fst]. rewrite B2 by lia. reflexivity.
  - rewrite <- (map_map (fun j => nth j idx 0%nat) (fun i => l (state_of has_state m) x (row data i))). f_equal. apply map_nth_seq.
Qed.

(** ** C74 *)
Lemma Forall2_nth A B (R : A -> B -> Prop) l1 l2 : Forall2 R l1 l2 -> forall k (Q : nat * A -> B -> Prop), (forall c a b, nth_error l1 c = Some a -> R a b -> Q ((k + c)%nat, a) b) -> Forall2 Q (combine (seq k (length l1)) l1) l2.
Proof.
  intros H. induction H as [|a b l1 l2 Hab _ IH]; intros k Q HQ; [constructor|]. cbn. constructor.
  - replace k with (k + 0)%nat by lia. apply HQ; auto.
  - apply IH. intros c a' b' E. replace (S k + c)%nat with (k + S c)%nat by lia. apply HQ. exact E.
Qed.

(** the property for an exchange rule *)
Definition re_sgld_user_claim (exchange : R -> R -> bool -> bool -> Prop) : Prop :=
  forall (G obs : Type) (choice_repl : G -> nat -> nat -> G * list nat) (choice_perm : G -> nat -> G * list nat) (rng_of_seed : nat -> G), perm_oracle choice_perm -> repl_oracle choice_repl ->
  forall (s : vtree) (normal : key -> list nat -> list R) (uniform : key -> R), wfv s -> normal_ok normal -> (forall k, 0 <= uniform k < 1) ->
  forall (prior : vtree -> R) (likelihood : lik_fn obs vtree vtree) (has_state : bool) (T : R) (strategy : pot_strategy) pot, minibatch_potential prior likelihood has_state T strategy = Ok pot ->
  forall l, evaluates_with likelihood l -> keeps_state likelihood has_state -> forall jgrad, exact_gradients s jgrad ->
  forall N mb, (is_batched likelihood = true -> mb <> 1%nat) ->
  forall Key (choice : Key -> list xr -> nat -> list nat) (tk : Key) (z : arr -> arr), choice_ok choice ->
  forall a f l' n its tau model0, al_first a = Fin f -> al_last a = Fin l' -> al_adaptive a = None -> al_accepted a = Some n -> al_hot a = Some (Fin tau) -> 0 < tau ->
  0 < l' < f -> (2 <= its)%nat -> (al_burn_in a + n <= its)%nat ->
  exists eps, falling its f l' eps /\
  forall datas hD ai i ca cid0 k0 data starts, alias_started choice_repl choice_perm rng_of_seed datas hD ai i ca mb cid0 k0 (2 * length starts) data N ->
  (forall c x0, nth_error starts c = Some x0 -> forall j : bool, like s (fst (of_pair x0 j)) /\
     chain_source choice_repl choice_perm rng_of_seed hD ai i cid0 k0 (2 * c + if j then 1 else 0) (snd (of_pair x0 j))) ->
  forall h, exists results,
    snd (al_run choice tk a z (re_sgld_solver normal uniform (loader_source choice_repl choice_perm rng_of_seed) (user_value has_state pot N) (user_likelihoods has_state pot N) (user_model has_state pot N) (user_grad has_state pot N jgrad))
      (fst (run (mstep z) (mc_new false) h)) (map (re_sgld_init model0) starts) its) = Some (Ok results) /\
    Forall2 (fun cx r => let start := pair_start (cid0 + 2 * fst cx) (snd cx) in
      exists theta model cold L, length L = n /\ increasing L /\ (forall i, In i L -> (al_burn_in a <= i < its)%nat) /\ fst r = n /\
        exactly_samples (map (re_saved (indexed_source choice_repl rng_of_seed N mb) (posterior_value prior has_state T N data l) start theta model cold) L) (snd r) /\
        forall dl dp, (forall j i, (i < its)%nat -> smooth_at prior has_state N data l s dl dp (theta j i) (model j i)) ->
          re_sgld_trajectory s normal uniform (indexed_source choice_repl rng_of_seed N mb) (posterior_value prior has_state T N data l) (posterior_likelihoods has_state data l)
            (next_state likelihood has_state data) (posterior_grad has_state T N data s dl dp) exchange tau model0 start its eps theta model cold)
      (combine (seq 0 (length starts)) starts) results.

Theorem C74_user_partial : re_sgld_user_claim implemented_exchange.
Proof.
  intros G obs choice_repl choice_perm rng_of_seed Hperm Hrepl s normal uniform Hs Hn Hu prior likelihood has_state T strategy pot Hpot l Hl Hk jgrad Hj N mb Hone Key choice tk z Hc
    a f l' n its tau model0 Hf Hl' Ha Hacc Hhot Htau Hfl Hits Hburn.
  destruct (@C67_re_sgld_partial s normal uniform _ _ (loader_source choice_repl choice_perm rng_of_seed) (user_value has_state pot N) (user_likelihoods has_state pot N) (user_model has_state pot N) (user_grad has_state pot N jgrad) Hs Hn Hu)
    with (choice := choice) (tk := tk) (z := z) (a := a) (f := f) (l := l') (n := n) (its := its) (tau := tau) (model0 := model0) as (eps & E1 & E2); auto.
  { intros t b m Ht. apply Hj. exact Ht. }
  { intros t b m. eapply user_model_structure; eauto. }
  exists eps. split; auto. intros datas hD ai i ca cid0 k0 data starts Hst Hx h.
  destruct (E2 h starts) as (rs & R1 & R2).
  { apply Forall_forall. intros x0 Hin. apply In_nth_error in Hin. destruct Hin as [c E]. split; [apply (Hx _ _ E false)|apply (Hx _ _ E true)]. }
  exists rs. split; [exact R1|]. apply (Forall2_nth R2). clear R1 R2 E2. intros c x0 r Ec (theta & model & cold & L & Tr & L1 & L2 & L3 & L4 & L5). cbn [fst snd plus]. cbv zeta.
  assert (Hlt : (c < length starts)%nat) by (apply nth_error_Some; congruence).
  destruct (@started_data G obs choice_repl choice_perm rng_of_seed Hperm Hrepl datas hD ai i ca mb cid0 k0 (2 * length starts) data N ltac:(lia) Hst) as (Hmb & Hd & HN).
  assert (HB : forall j k, batch_no (loader_source choice_repl choice_perm rng_of_seed) (snd (of_pair x0 j)) k =
     (map (fun ka => (fst ka, select (snd ka) (batch_no (indexed_source choice_repl rng_of_seed N mb) (snd (of_pair (pair_start (cid0 + 2 * c) x0) j)) k))) data, repeat true mb)).
  { intros j k. destruct (Hx _ _ Ec j) as [_ Hsrc].
    rewrite (@source_batches G obs choice_repl choice_perm rng_of_seed Hperm Hrepl datas hD ai i ca mb cid0 k0 (2 * length starts) data N _ _ Hst) with (2 := Hsrc) by (destruct j; lia).
    rewrite stream_no. destruct j; cbn [of_pair pair_start fst snd]; rewrite indexed_no; [replace (cid0 + (2 * c + 1))%nat with (S (cid0 + 2 * c)) by lia|replace (cid0 + (2 * c + 0))%nat with (cid0 + 2 * c)%nat by lia]; reflexivity. }
  assert (HI : forall j k, length (batch_no (indexed_source choice_repl rng_of_seed N mb) (snd (of_pair (pair_start (cid0 + 2 * c) x0) j)) k) = mb /\
     Forall (fun i => (i < N)%nat) (batch_no (indexed_source choice_repl rng_of_seed N mb) (snd (of_pair (pair_start (cid0 + 2 * c) x0) j)) k)).
  { intros j k. destruct j; cbn [of_pair pair_start fst snd]; rewrite indexed_no; apply drawn_indices_ok; auto; lia. }
  assert (HV : forall j x m k, user_value has_state pot N x (batch_no (loader_source choice_repl choice_perm rng_of_seed) (snd (of_pair x0 j)) k) m =
     posterior_value prior has_state T N data l x (batch_no (indexed_source choice_repl rng_of_seed N mb) (snd (of_pair (pair_start (cid0 + 2 * c) x0) j)) k) m).
  { intros j x m k. rewrite HB. destruct (HI j k) as [I1 I2]. eapply user_value_is; eauto; rewrite ?repeat_length, ?I1; auto; lia. }
  exists theta, model, cold, L. split; [exact L1|]. split; [exact L2|]. split; [exact L3|]. split; [exact L4|]. split.
  - erewrite map_ext; [exact L5|]. intros k. symmetry. apply re_saved_batches. exact HV.
  - intros dl dp Hsm. eapply re_batches with (ok := smooth_at prior has_state N data l s dl dp); [|exact HV| | | |exact Hsm|exact Tr].
    + intros [|]; reflexivity.
    + intros j x m k. rewrite HB. destruct (HI j k) as [I1 I2]. eapply user_likelihoods_is; eauto; rewrite ?repeat_length, ?I1; auto; lia.
    + intros j x m k. rewrite HB. destruct (HI j k) as [I1 I2]. eapply user_model_is; eauto; rewrite ?repeat_length, ?I1; auto; lia.
    + intros j x m k c' Hx' Hok Hc'. rewrite HB. destruct (HI j k) as [I1 I2]. eapply user_grad_is; eauto; rewrite ?repeat_length, ?I1; auto; lia.
Qed.
Print Assumptions C74_user_partial.

(** ** The hypotheses are met: the example of C72, two data states for the two replicas of one pair *)
Example C74_nonvacuous : let s := tree_ab 0 0 in let a := mkAlias (Fin 0.5) (Fin 0.1) None 1 (Some 3%nat) true false (Some (Fin 10)) in
  let z := fun x => mkArr (ashape x) (map (fun _ => 0) (adata x)) in let starts := [((tree_ab 1 2, exn_source0), (tree_ab 3 4, exn_source1))] in
  let model0 := Leaf (mkArr [] [1]) in let normal := fun (_ : key) sh => repeat 0 (size sh) in let uniform := fun _ : key => 1 / 2 in
  let pot := potential_function (fun _ => 0) exn_lik true 1 in
  exists results, snd (al_run first_choice tt a z
      (re_sgld_solver normal uniform (loader_source lin_repl rot_perm (fun s => s)) (user_value true pot 2) (user_likelihoods true pot 2) (user_model true pot 2) (user_grad true pot 2 (derive_grad s)))
      (mc_new false) (map (re_sgld_init model0) starts) 5) = Some (Ok results) /\ length results = 1%nat /\
  exists theta model cold eps, re_sgld_trajectory s normal uniform (indexed_source lin_repl (fun s => s) 2 2) (posterior_value (fun _ => 0) true 1 2 [("y"%string, [20%nat; 21%nat])] exn_l)
    (posterior_likelihoods true [("y"%string, [20%nat; 21%nat])] exn_l) (next_state exn_lik true [("y"%string, [20%nat; 21%nat])]) (posterior_grad true 1 2 [("y"%string, [20%nat; 21%nat])] s exn_dl (fun _ _ => 0))
    implemented_exchange 10 model0 ((tree_ab 1 2, (1%nat, 0%nat)), (tree_ab 3 4, (2%nat, 0%nat))) 5 eps theta model cold.
Proof.
  intros s a z starts model0 normal uniform pot.
  assert (LK : forall u v, like s (tree_ab u v)) by (intros u v; split; [apply tree_ab_wf|split; reflexivity]).
  assert (HL : evaluates_with exn_lik exn_l) by (intros st x r; reflexivity).
  assert (HK : keeps_state exn_lik true) by (intros _ m x r; exists (ex_double m); split; [reflexivity|]; destruct m; reflexivity).
  assert (HG : exact_gradients s (derive_grad s)) by (apply derive_grad_exact; apply tree_ab_wf).
  destruct (@C74_user_partial nat nat lin_repl rot_perm (fun s => s) rot_perm_oracle lin_repl_oracle s normal uniform (tree_ab_wf _ _) (fun k sh => repeat_length _ _) ltac:(intros; unfold uniform; lra)
    (fun _ => 0) exn_lik true 1 PMap pot eq_refl exn_l HL HK (derive_grad s) HG 2%nat 2%nat ltac:(discriminate) unit first_choice tt z first_choice_ok a 0.5 0.1 3%nat 5%nat 10 model0
    eq_refl eq_refl eq_refl eq_refl eq_refl ltac:(lra) ltac:(lra) ltac:(lia) ltac:(cbn; lia)) as (eps & _ & H).
  destruct (H _ _ _ _ _ _ _ _ starts exn_started) with (h := @nil (mop arr)) as (rs & R1 & R2).
  { intros [|c] x0 E; [injection E as <-|destruct c; discriminate]. intros [|]; (split; [apply LK|]); apply exn_chains. }
  exists rs. split; [exact R1|]. clear R1. cbn [length seq combine starts] in R2. inversion R2 as [|? r ? rs' (theta & model & cold & L & _ & _ & _ & _ & _ & Tr) R3]; subst. inversion R3; subst. split; [reflexivity|].
  exists theta, model, cold, eps. apply Tr. intros j i Hi. apply exn_smooth; [apply tree_ab_wf|cbn; lia].
Qed.

(** ** With the documented exchange the property is false: a likelihood that does not depend on the sample (rate one, so that the replicas should be exchanged in every iteration), no noise *)
(** auxiliary definition of a statement or a proof; models no code of /repo *)
Definition flat_lik : lik_fn nat vtree vtree := Single (fun st x r => (0, None)).
(** auxiliary definition of a statement or a proof; models no code of /repo *)
Definition flat_example (exchange : R -> R -> bool -> bool -> Prop) (theta : bool -> nat -> vtree) model cold (eps : nat -> R) : Prop :=
  re_sgld_trajectory (tree_ab 0 0) (fun _ sh => repeat 0 (size sh)) (fun _ => 1/2) (indexed_source lin_repl (fun s => s) 2 2) (posterior_value (fun _ => 0) false 1 2 [("y"%string, [20%nat; 21%nat])] (fun _ _ _ => 0))
    (posterior_likelihoods false [("y"%string, [20%nat; 21%nat])] (fun _ _ _ => 0)) (next_state flat_lik false [("y"%string, [20%nat; 21%nat])])
    (posterior_grad false 1 2 [("y"%string, [20%nat; 21%nat])] (tree_ab 0 0) (fun _ _ _ _ => 0) (fun _ _ => 0))
    exchange 10 (Leaf (mkArr [] [0])) ((tree_ab 1 2, (1%nat, 0%nat)), (tree_ab 3 4, (2%nat, 0%nat))) 2 eps theta model cold.
Lemma flat_value x idx m : posterior_value (fun _ => 0) false 1 2 [("y"%string, [20%nat; 21%nat])] (fun _ _ _ => 0) x idx m = 0.
Proof. unfold posterior_value. rewrite sum_upto_zero by reflexivity. unfold Rdiv. ring. Qed.
Lemma variance_const (L : list nat) : population_variance (map (fun _ => 0) L) = 0.
Proof.
  assert (Z : forall M : list R, (forall x, In x M -> x = 0) -> mean M = 0).
  { intros M HM. unfold mean. replace (rsum M) with 0; [unfold Rdiv; ring|]. symmetry. induction M as [|x M IH]; [reflexivity|].
    rewrite rsum_cons. rewrite (HM x) by (left; reflexivity). rewrite IH by (intros; apply HM; right; assumption). ring. }
  rewrite <- LangevinProofs.variance_population. unfold variance. apply Z. intros x Hin. apply in_map_iff in Hin. destruct Hin as (y & <- & Hin). rewrite (Z (map _ L)).
  - apply in_map_iff in Hin. destruct Hin as (w & <- & _). ring.
  - intros w Hw. apply in_map_iff in Hw. destruct Hw as (v & <- & _). reflexivity.
Qed.
Lemma flat_first ex theta model cold eps : flat_example ex theta model cold eps -> (forall j, el (theta j 1%nat) 0%nat = if j then 3 else 1) /\ (forall j, model j 1%nat = Leaf (mkArr [] [0])) /\ ex (1/2) 1 false (cold 1%nat).
Proof.
  intros [[Hc H0] H1 H2 H3 H4]. split; [|split].
  - intros j. pose proof (H3 j 0%nat 0%nat ltac:(lia) ltac:(cbn; lia)) as E. cbv zeta in E. rewrite E. destruct (H0 j) as [-> _].
    unfold posterior_grad. rewrite (proj2 (tree_of_ok _ (tree_ab_wf 0 0))) by (cbn; lia). rewrite sum_upto_zero by reflexivity.
    unfold xi. cbn. destruct j; cbn; unfold el; cbn; rewrite ?nth_repeat0; lra.
  - intros j. rewrite H2 by lia. apply H0.
  - specialize (H4 0%nat ltac:(lia)). cbv beta zeta in H4. rewrite Hc in H4. rewrite !flat_value in H4. unfold posterior_likelihoods in H4. unfold sum_upto in H4. cbn [seq map] in H4. rewrite variance_const in H4.
    match type of H4 with ex _ ?e _ _ => replace e with 1 in H4; [exact H4|] end. rewrite <- exp_0. f_equal. unfold TreeUtil.rsum. cbn. field.
Qed.
Theorem C74_user_refuted : ~ re_sgld_user_claim documented_exchange.
Proof.
  intros H. pose proof C74_user_partial as H'. set (s := tree_ab 0 0).
  set (a := mkAlias (Fin 0.5) (Fin 0.1) None 0 (Some 2%nat) true false (Some (Fin 10))).
  assert (LK : forall u v, like s (tree_ab u v)) by (intros u v; split; [apply tree_ab_wf|split; reflexivity]).
  set (normal := fun (_ : key) sh => repeat 0 (size sh)). set (uniform := fun _ : key => 1 / 2). set (model0 := Leaf (mkArr [] [0])).
  assert (HN : normal_ok normal) by (intros k sh; apply repeat_length).
  assert (HU : forall k : key, 0 <= uniform k < 1) by (intros; unfold uniform; lra).
  assert (HL : evaluates_with flat_lik (fun _ _ _ => 0)) by (intros st x r; reflexivity).
  assert (HK : keeps_state flat_lik false) by (intros E; discriminate).
  assert (HG : exact_gradients s (derive_grad s)) by (apply derive_grad_exact; apply tree_ab_wf).
  set (pot := potential_function (fun _ => 0) flat_lik false 1).
  specialize (H nat nat lin_repl rot_perm (fun s => s) rot_perm_oracle lin_repl_oracle s normal uniform (tree_ab_wf _ _) HN HU (fun _ => 0) flat_lik false 1 PMap pot eq_refl (fun _ _ _ => 0) HL HK (derive_grad s) HG 2%nat 2%nat
    ltac:(discriminate) unit first_choice tt (fun x => x) first_choice_ok a 0.5 0.1 2%nat 2%nat 10 model0 eq_refl eq_refl eq_refl eq_refl eq_refl ltac:(lra) ltac:(lra) ltac:(lia) ltac:(cbn; lia)).
  specialize (H' nat nat lin_repl rot_perm (fun s => s) rot_perm_oracle lin_repl_oracle s normal uniform (tree_ab_wf _ _) HN HU (fun _ => 0) flat_lik false 1 PMap pot eq_refl (fun _ _ _ => 0) HL HK (derive_grad s) HG 2%nat 2%nat
    ltac:(discriminate) unit first_choice tt (fun x => x) first_choice_ok a 0.5 0.1 2%nat 2%nat 10 model0 eq_refl eq_refl eq_refl eq_refl eq_refl ltac:(lra) ltac:(lra) ltac:(lia) ltac:(cbn; lia)).
  destruct H as (e1 & _ & H). destruct H' as (e2 & _ & H').
  set (x0 := ((tree_ab 1 2, exn_source0), (tree_ab 3 4, exn_source1))).
  assert (HX : forall c x, nth_error [x0] c = Some x -> forall j : bool, like s (fst (of_pair x j)) /\ chain_source lin_repl rot_perm (fun s => s) exn_hub 2 1 1 2 (2 * c + if j then 1 else 0) (snd (of_pair x j))).
  { intros [|c] x E; [injection E as <-|destruct c; discriminate]. intros [|]; (split; [apply LK|]); apply exn_chains. }
  specialize (H _ _ _ _ _ _ _ _ [x0] exn_started HX (@nil (mop arr))). specialize (H' _ _ _ _ _ _ _ _ [x0] exn_started HX (@nil (mop arr))).
  destruct H as (r1 & R1 & F1). destruct H' as (r2 & R2 & F2). rewrite R1 in R2. injection R2 as <-. clear R1.
  cbn [length seq combine] in F1, F2. inversion F1 as [|? r ? rs (th1 & mo1 & c1 & L1 & LL1 & I1 & B1 & _ & E1 & T1) F1']; subst. inversion F2 as [|? ? ? ? (th2 & mo2 & c2 & L2 & LL2 & I2 & B2 & _ & E2 & T2) F2']; subst.
  rewrite (first_two LL1 I1 B1) in E1. rewrite (first_two LL2 I2 B2) in E2. cbn [map] in E1, E2. pose proof (exactly_first E1 E2) as E.
  assert (SM : forall x m, smooth_at (fun _ : vtree => 0) false 2 [("y"%string, [20%nat; 21%nat])] (fun _ _ _ => 0) s (fun _ _ _ _ => 0) (fun _ _ => 0) x m).
  { intros x m. split; [|intros j _]; intros c Hc; apply (derivable_pt_lim_const 0). }
  specialize (T1 (fun _ _ _ _ => 0) (fun _ _ => 0) (fun j i _ => SM _ _)). specialize (T2 (fun _ _ _ _ => 0) (fun _ _ => 0) (fun j i _ => SM _ _)).
  destruct (flat_first T1) as (A1 & A2 & A3). destruct (flat_first T2) as (C1 & C2 & C3).
  assert (D1 : c1 1%nat = true) by (apply A3; lra). assert (D2 : c2 1%nat = false) by (apply C3; lra).
  unfold re_saved in E. rewrite D1, D2, A2, C2, !flat_value in E. cbn in E. rewrite !app_nil_r in E. injection E as E.
  specialize (A1 true). specialize (C1 false). unfold el, ravel in A1, C1. rewrite E in A1. rewrite A1 in C1. lra.
Qed.
Print Assumptions C74_user_refuted.
