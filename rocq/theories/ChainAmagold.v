(** Several steps of AMAGOLD as maps of the phase space. *)
From Coq Require Import Reals Lra Lia List Permutation FunctionalExtensionality.
From Verif Require Import Base ListUtil Pytree PytreeSpec Io TreeUtil TreeUtilSpec TreeUtilProofs Xreal Scheduler Solver Mh MhProofs PropertiesMh
  Integrator IntegratorSpec IntegratorBasics ObaboProofs LeapfrogFinal ObaboFinal BalanceSpec BalanceProofs MhIntegrators PropertiesIntegrator KeyBasics PropertiesBalance
  VolumeSpec VolumeProofs LeapfrogVolume ObaboVolume Stationary PropertiesVolume RiemannSpec RiemannProofs RiemannWeight StationaryChain ChainSpec.
Open Scope R_scope.
Set Implicit Arguments.
Local Arguments Nat.ltb : simpl never.
Local Arguments Nat.leb : simpl never.
Local Arguments Nat.mul : simpl never.
Local Arguments Nat.sub : simpl never.

(** ** exchange of two blocks of random vectors *)
Definition bidx (n o j : nat) : nat := if (j <? n)%nat then (o + j)%nat else if (o <=? j)%nat && (j <? o + n)%nat then (j - o)%nat else j.
Lemma bidx_bidx n o j : (o = 0 \/ n <= o)%nat -> bidx n o (bidx n o j) = j.
Proof.
  intros Ho. unfold bidx.
  destruct (Nat.ltb_spec j n).
  - destruct (Nat.ltb_spec (o + j) n); [lia|]. destruct (Nat.leb_spec o (o + j)); [|lia]. destruct (Nat.ltb_spec (o + j) (o + n)); [|lia]. cbn. lia.
  - destruct (Nat.leb_spec o j); cbn [andb].
    + destruct (Nat.ltb_spec j (o + n)); cbn.
      * destruct (Nat.ltb_spec (j - o) n); lia.
      * destruct (Nat.ltb_spec j n); [lia|]. destruct (Nat.leb_spec o j); [|lia]. destruct (Nat.ltb_spec j (o + n)); [lia|reflexivity].
    + destruct (Nat.ltb_spec j n); [lia|]. destruct (Nat.leb_spec o j); [lia|]. reflexivity.
Qed.
Lemma bidx_lt n o m j : (o + n <= m)%nat -> (j < m)%nat -> (bidx n o j < m)%nat.
Proof. intros Ho Hj. unfold bidx. destruct (Nat.ltb_spec j n); [lia|]. destruct (Nat.leb_spec o j); cbn; [|lia]. destruct (Nat.ltb_spec j (o + n)); lia. Qed.
Lemma bidx_far n o j : (n <= j)%nat -> (j < o \/ o + n <= j)%nat -> bidx n o j = j.
Proof. intros H1 H2. unfold bidx. destruct (Nat.ltb_spec j n); [lia|]. destruct (Nat.leb_spec o j); cbn; [|lia]. destruct (Nat.ltb_spec j (o + n)); [lia|reflexivity]. Qed.
Lemma bidx_near n o j : (j < n)%nat -> bidx n o j = (o + j)%nat.
Proof. intros H. unfold bidx. destruct (Nat.ltb_spec j n); [reflexivity|lia]. Qed.
(** auxiliary definition of a statement or a proof; models no code of /repo *)
Definition bswap (d n o : nat) (c : coord) : coord := match c with CNoise j i => if (i <? d)%nat then CNoise (bidx n o j) i else c | _ => c end.
(** auxiliary definition of a statement or a proof; models no code of /repo *)
Definition sig (d n o : nat) (z : phase) : phase := fun c => z (bswap d n o c).
Section Sig.
Variables d n o m : nat.
Hypothesis Ho : (o = 0 \/ n <= o)%nat.
Hypothesis Hm : (o + n <= m)%nat.
Lemma bswap_bswap c : bswap d n o (bswap d n o c) = c.
Proof. destruct c as [i|i|j i]; auto. cbn. destruct (i <? d)%nat eqn:E; cbn; rewrite E; [now rewrite bidx_bidx|reflexivity]. Qed.
Lemma sig_sig z : sig d n o (sig d n o z) = z.
Proof. extensionality c. unfold sig. now rewrite bswap_bswap. Qed.
Lemma sig_volume : preserves_volume d m (sig d n o).
Proof.
  apply pv_exchange; [apply bswap_bswap| |].
  - intros [i|i|j i]; cbn; auto. intros [H1 H2]. apply Nat.ltb_lt in H2 as H2'. rewrite H2'. cbn. split; auto. now apply bidx_lt.
  - intros [i|i|j i] H; cbn in *; auto. destruct (Nat.ltb_spec i d); auto. f_equal. apply bidx_far; lia.
Qed.
Lemma sig_noise z j i : (i < d)%nat -> sig d n o z (CNoise j i) = z (CNoise (bidx n o j) i).
Proof. intros Hi. apply Nat.ltb_lt in Hi. unfold sig. cbn. now rewrite Hi. Qed.
End Sig.
Lemma prod_upto_list n f : prod_upto n f = fold_right Rmult 1 (map f (seq 0 n)).
Proof. reflexivity. Qed.
Lemma fold_mult_perm l l' : Permutation l l' -> fold_right Rmult 1 l = fold_right Rmult 1 l'.
Proof. induction 1; cbn; try lra. rewrite IHPermutation. reflexivity. Qed.
Lemma prod_upto_perm n p f : (forall j, (j < n)%nat -> (p j < n)%nat) -> (forall j, p (p j) = j) -> prod_upto n (fun j => f (p j)) = prod_upto n f.
Proof.
  intros H1 H2. rewrite !prod_upto_list. rewrite <- (map_map p f). apply fold_mult_perm, Permutation_map. symmetry. apply NoDup_Permutation_bis; [apply seq_NoDup|now rewrite map_length|].
  intros j Hj. apply in_seq in Hj. apply in_map_iff. exists (p j). split; auto. apply in_seq. specialize (H1 j). lia.
Qed.
Lemma Rmin_scale r a b : 0 < r -> Rmin (r * a) (r * b) = r * Rmin a b.
Proof.
  intros Hr. unfold Rmin. destruct (Rle_dec (r * a) (r * b)) as [H|H], (Rle_dec a b) as [H'|H']; auto.
  - apply Rmult_le_reg_l in H; lra.
  - exfalso. apply H. apply Rmult_le_compat_l; lra.
Qed.
Lemma prod_upto_plus n r f : prod_upto (n + r) f = prod_upto n f * prod_upto r (fun j => f (n + j)%nat).
Proof. induction r as [|r IH]; [rewrite Nat.add_0_r, prod_upto_0; ring|]. rewrite Nat.add_succ_r, !prod_upto_S, IH. ring. Qed.

(** ** the proposal map *)
Section Map.
Variable s : vtree.
Hypothesis Hs : wfv s.
Variables (Batch : Type).
Variable G : vtree -> Batch -> vtree.
Hypothesis HG : forall t b, like s t -> like s (G t b).
Variables (friction eps : R) (vi sq : vtree).
Lemma runs_noise d v a sg g l n z j i : Forall (op_ok n) l -> (n <= j)%nat -> runs d v a sg g l z (CNoise j i) = z (CNoise j i).
Proof.
  intros Hl Hj. revert z. induction Hl as [|o l Ho Hl IH]; intros z; [reflexivity|]. cbn [runs fold_left]. change (runs d v a sg g l (do d v a sg g o z) (CNoise j i) = z (CNoise j i)). rewrite IH.
  destruct o as [h|k|k u e q]; cbn in Ho |- *; unfold do; cbn; auto. destruct (Nat.eqb_spec j k) as [->|]; [lia|reflexivity].
Qed.
Lemma lf_map_noise n (b : nat -> Batch) z j i : (n <= j)%nat -> lf_map s G friction eps vi sq n b z (CNoise j i) = z (CNoise j i).
Proof.
  intros Hj. unfold lf_map, whole, refl. cbn [is_mom swap]. destruct (Nat.ltb_spec j n); [lia|]. cbn [andb]. apply (@runs_noise _ _ _ _ _ _ n); auto. apply lf_ops_ok.
Qed.
Lemma lf_map_batches n (b b' : nat -> Batch) : (forall j, (j < n)%nat -> b j = b' j) -> lf_map s G friction eps vi sq n b = lf_map s G friction eps vi sq n b'.
Proof.
  intros H. extensionality z. set (r := fun j => b (n - 1 - j)%nat).
  rewrite <- (@lf_map_involution s Batch unit (fun _ _ m => m) G HG friction eps vi sq n r b' ltac:(intros k Hk; unfold r; rewrite <- H by lia; f_equal; lia) (lf_map s G friction eps vi sq n b z)).
  rewrite (@lf_map_involution s Batch unit (fun _ _ m => m) G HG friction eps vi sq n b r ltac:(intros k Hk; reflexivity) z). reflexivity.
Qed.
End Map.

Lemma tree_scale_one s t : wfv s -> like s t -> tree_scale 1 t = t.
Proof. intros Hs L. apply (like_ext Hs); auto with like. intros i Hi. rewrite (el_scale' Hs) by auto. ring. Qed.
Section MH.
Variable s : vtree.
Hypothesis Hs : wfv s.
Variables (Data Batch Model Full MassState : Type).
Variable get_data : Data -> Data * Batch.
Variable pot_model : vtree -> Batch -> Model -> Model.
Variable G : vtree -> Batch -> vtree.
Hypothesis HG : forall t b, like s t -> like s (G t b).
Hypothesis HC : continuous_gradient s G.
Variable U : vtree -> R.
Variable full_potential : vtree -> Full -> Model -> xr * (Full * Model).
Hypothesis HU : forall p fd m, fst (full_potential p fd m) = Fin (U p).
Variables (steps : nat) (friction : R) (const_mass : option vtree).
Local Notation state := (am_state key vtree vtree Model Data Full MassState).
Local Notation amstep u := (am_step get_data pot_model G full_potential (@None ((vtree -> MassState) * (MassState -> vtree -> MassState) * (MassState -> mass_matrix))) steps friction const_mass (fun _ => u)).
Local Notation starts n := (@am_starts s Data Model Full MassState U n None).
Variables vi sq : vtree.
Local Notation M := (rl_mass const_mass None s).
Hypothesis E1 : m_inv M = Tens1 vi.
Hypothesis E2 : m_sqrt M = Tens1 sq.
Hypothesis Lvi : like s vi.
Hypothesis Lsq : like s sq.
Hypothesis Hvs : forall i, (i < dim s)%nat -> el vi i * (el sq i * el sq i) = 1.
Lemma M_diagonal : diagonal s M. Proof. exists vi, sq. auto. Qed.
Local Notation wt n := (@am_weight s MassState U None n const_mass None).
Local Notation mp eps d := (lf_map s G friction eps vi sq steps (batch_no get_data d)).

(** what a step does to the state that belongs to the point z *)
Lemma am_outcome sch eps d d' z normal (st : state) : sch_step sch = Fin eps -> 0 < eps * friction -> starts steps d z normal st -> reversed_batches get_data steps d d' ->
  exists a, 0 < a <= 1 /\ wt steps z * a = Rmin (wt steps z) (wt steps (mp eps d z)) /\
  forall u, 0 <= u < 1 -> let nx := fst (amstep u normal st sch) in
    lf_data (am_integrator nx) = drawn get_data d steps /\ lf_key (am_integrator nx) = chain (lf_key (am_integrator st)) steps /\ am_mass nx = None /\
    am_potential nx = Fin (U (lf_positions (am_integrator nx))) /\ like s (lf_positions (am_integrator nx)) /\ like s (lf_momentum (am_integrator nx)) /\
    let z' := if Rlt_dec u a then flip (dim s) (mp eps d z) else flip (dim s) z in
    forall i, (i < dim s)%nat -> z' (CPos i) = el (lf_positions (am_integrator nx)) i /\ z' (CMom i) = el (lf_momentum (am_integrator nx)) i.
Proof.
  intros He Hpos Hst Hr.
  destruct (@am_reverse_map s Hs Data Batch Model Full MassState get_data pot_model G HG HC U full_potential HU None steps friction const_mass None sch eps He Hpos M_diagonal vi sq E1 E2 Lvi Lsq Hvs) as (_ & _ & Hbal).
  destruct (@am_states_exist s Hs Data Model Full MassState U steps None (lf_model (am_integrator st)) (am_full st) (am_key st) (am_key st)) as (normal' & st' & Hst').
  pose proof Hst as (Hn & Lx & Lp & Em & EU & Ed & Hz).
  set (pr := am_proposal get_data pot_model G None steps friction const_mass normal st sch).
  set (r0 := rl_of (am_integrator st)). set (fin := fst (rl_integrate normal get_data pot_model (fun t b _ => G t b) steps friction const_mass eps None r0)).
  assert (Epr : pr = lf_of fin) by (unfold pr, am_proposal, leapfrog_update; rewrite He; reflexivity).
  assert (Hg0 : forall t b (m : Model), like s t -> like s (G t b)) by (intros; auto).
  assert (EM : rl_mass const_mass None (r_pos r0) = M) by (apply (rl_mass_same (s := s)); auto using like_refl).
  assert (Hd' : diagonal s (rl_mass const_mass None (r_pos r0))) by (rewrite EM; apply M_diagonal). destruct (diagonal_fits Hd') as [Hinv0 Hsq0].
  destruct (@rl_integrate_like s Hs const_mass None Data Batch Model get_data pot_model (fun t b _ => G t b) Hg0 friction eps normal Hn r0 Lx Lp Hinv0 Hsq0 steps) as [Lx' Lp'].
  destruct (rl_integrate_data const_mass None get_data pot_model (fun t b _ => G t b) friction eps normal r0 steps) as [D1 D2].
  fold fin in Lx', Lp', D1, D2. rewrite <- Ed.
  destruct (full_potential (lf_positions pr) (am_full st) (lf_model pr)) as [new [full model']] eqn:Ef.
  assert (En : new = Fin (U (r_pos fin))) by (pose proof (HU (lf_positions pr) (am_full st) (lf_model pr)) as H; rewrite Ef in H; cbn in H; rewrite H, Epr; reflexivity).
  set (p := Rmin 1 (exp (U (r_pos r0) - U (r_pos fin) + r_pot fin))).
  assert (C : forall u, 0 <= u < 1 -> let nx := fst (amstep u normal st sch) in st_acceptance (snd (amstep u normal st sch)) = Some (Fin p) /\ 0 < p <= 1 /\
     lf_data (am_integrator nx) = r_data fin /\ lf_key (am_integrator nx) = r_key fin /\ am_mass nx = None /\
     (u < p -> lf_positions (am_integrator nx) = r_pos fin /\ lf_momentum (am_integrator nx) = r_mom fin /\ am_potential nx = Fin (U (r_pos fin))) /\
     (p <= u -> lf_positions (am_integrator nx) = r_pos r0 /\ lf_momentum (am_integrator nx) = tneg (r_mom r0) /\ am_potential nx = Fin (U (r_pos r0)))).
  { intros u Hu nx.
    destruct (@am_step_fin key vtree vtree Model Data Full mass_matrix MassState split2 (fun _ => u) (fun _ => Hu) tree_scale full_potential None
      (leapfrog_update normal get_data pot_model (fun t b _ => G t b) steps friction const_mass) st sch new full model' (U (r_pos r0)) (U (r_pos fin)) (r_pot fin) Ef EU En) as (A1 & _ & _ & _ & A5 & A6 & A7 & A8 & A9).
    { change (lf_potential pr = Fin (r_pot fin)). now rewrite Epr. }
    change (leapfrog_update normal get_data pot_model (fun t b _ => G t b) steps friction const_mass (am_integrator st) sch (mass_get None (am_mass st))) with pr in *.
    rewrite Epr in *. split; [exact A1|]. split; [apply min_exp_range|]. split; [exact A5|]. split; [exact A6|]. split; [exact A9|]. split.
    - intros H. destruct (A7 H) as (B1 & B2 & B3 & _). split; [exact B1|]. split; [|rewrite <- En; exact B3]. etransitivity; [exact B2|]. apply (tree_scale_one Hs). exact Lp'.
    - intros H. destruct (A8 H) as (B1 & B2 & B3 & _). split; [exact B1|]. split; [exact B2|]. etransitivity; [exact B3|exact EU]. }
  exists p. destruct (C 0 ltac:(lra)) as (_ & Hp & _). split; [exact Hp|].
  destruct (Hbal (fun _ => 0) ltac:(intros; lra) d z normal st Hst) as [Hphi Hb].
  destruct (Hb d' _ _ Hr (Hst' d' (mp eps d z))) as (a & a' & A1 & _ & _ & A4).
  rewrite (proj1 (C 0 ltac:(lra))) in A1. injection A1 as <-.
  rewrite (am_weight_ok Hs None const_mass Hst), (am_weight_ok Hs None const_mass (Hst' d' (mp eps d z))) in A4. split; [rewrite Ed; exact A4|].
  intros u Hu. destruct (C u Hu) as (_ & _ & C1 & C2 & C3 & C4 & C5). set (nx := fst (amstep u normal st sch)) in *. cbv zeta.
  split; [now rewrite C1|]. split; [now rewrite C2|]. split; [exact C3|].
  destruct (Rlt_dec u p) as [Hlt|Hge].
  - destruct (C4 Hlt) as (-> & -> & ->). split; [reflexivity|]. split; [exact Lx'|]. split; [exact Lp'|]. intros i Hi. destruct (Hphi i Hi) as [F1 F2]. change (lf_positions (am_proposal get_data pot_model G None steps friction const_mass normal st sch)) with (lf_positions pr) in F1.
    change (lf_momentum (am_proposal get_data pot_model G None steps friction const_mass normal st sch)) with (lf_momentum pr) in F2. rewrite Epr in F1, F2. rewrite <- Ed in F1, F2. split; [exact F1|].
    cbn [flip]. apply Nat.ltb_lt in Hi as Hi'. rewrite Hi', F2. cbn [lf_of lf_momentum]. ring.
  - destruct (C5 ltac:(lra)) as (-> & -> & ->). split; [reflexivity|]. split; [exact Lx|]. split; [apply like_neg; exact Lp|]. intros i Hi. destruct (Hz i Hi) as (F1 & F2 & _). split; [exact F1|].
    cbn [flip]. apply Nat.ltb_lt in Hi as Hi'. rewrite Hi', F2. symmetry. apply (el_neg Hs Lp Hi).
Qed.

(** ** several steps *)
Variable N : nat.
Variables (schs : nat -> schedule) (eps : nat -> R).
Hypothesis He : forall k, (k < N)%nat -> sch_step (schs k) = Fin (eps k) /\ 0 < eps k * friction.
Local Notation sg k := (sig (dim s) steps (k * steps)).
(** auxiliary definition of a statement or a proof; models no code of /repo *)
Definition smap (k : nat) (x : Data) (z : phase) : phase := sg k (mp (eps k) (drawn get_data x (k * steps)) (sg k z)).
Local Notation W := (wt (N * steps)).
Lemma offset_ok k : (k * steps = 0 \/ steps <= k * steps)%nat.
Proof. destruct k; [left; reflexivity|right; lia]. Qed.
Lemma offset_le k : (k < N)%nat -> (k * steps + steps <= N * steps)%nat.
Proof. intros H. assert (S k * steps <= N * steps)%nat by (apply Nat.mul_le_mono_r; lia). lia. Qed.
Lemma drawn_drawn x a b : drawn get_data (drawn get_data x a) b = drawn get_data x (a + b).
Proof. induction b as [|b IH]; [now rewrite Nat.add_0_r|]. rewrite Nat.add_succ_r. cbn [drawn]. now rewrite IH. Qed.
Lemma batch_drawn x a b : batch_no get_data (drawn get_data x a) b = batch_no get_data x (a + b).
Proof. unfold batch_no. now rewrite drawn_drawn. Qed.
Lemma chain_chain k a b : chain (chain k a) b = chain k (a + b).
Proof. induction b as [|b IH]; [now rewrite Nat.add_0_r|]. rewrite Nat.add_succ_r. cbn [chain]. now rewrite IH. Qed.
Lemma smap_volume k x : (k < N)%nat -> preserves_volume (dim s) (N * steps) (smap k x).
Proof.
  intros Hk. pose proof (offset_le Hk). apply (@pv_compose _ _ (fun z => mp (eps k) (drawn get_data x (k * steps)) (sg k z)) (sg k)).
  - apply (@pv_compose _ _ (sg k) (mp (eps k) (drawn get_data x (k * steps)))); [apply sig_volume; auto using offset_ok|].
    apply (@pv_mono (dim s) steps (N * steps)); [lia|]. now apply lf_map_volume.
  - apply sig_volume; auto using offset_ok.
Qed.
Lemma smap_back k x y z : (forall j, (j < steps)%nat -> batch_no get_data y (k * steps + j) = batch_no get_data x (k * steps + (steps - 1 - j))) -> smap k y (smap k x z) = z.
Proof.
  intros H. unfold smap. rewrite (sig_sig (dim s) (offset_ok k)). rewrite (@lf_map_involution s Batch unit (fun _ _ m => m) G HG friction (eps k) vi sq steps); [apply (sig_sig (dim s) (offset_ok k))|].
  intros j Hj. rewrite !batch_drawn. now apply H.
Qed.
Lemma smap_same k x y : (forall j, (j < steps)%nat -> batch_no get_data y (k * steps + j) = batch_no get_data x (k * steps + j)) -> smap k y = smap k x.
Proof. intros H. extensionality z. unfold smap. f_equal. rewrite (@lf_map_batches s Batch G HG friction (eps k) vi sq steps _ (batch_no get_data (drawn get_data x (k * steps)))); [reflexivity|]. intros j Hj. rewrite !batch_drawn. now apply H. Qed.
(** the density *)
Definition noise (z : phase) (j : nat) : R := exp (- sum_upto (dim s) (fun i => z (CNoise j i) * z (CNoise j i) / 2)).
(** auxiliary definition of a statement or a proof; models no code of /repo *)
Definition energy (z : phase) : R := exp (- (U (pos_tree s z) + kinetic s M (mom_tree s z))).
Lemma wt_eq n z : wt n z = energy z * prod_upto n (noise z). Proof. reflexivity. Qed.
Lemma W_sig k z : (k < N)%nat -> W (sg k z) = W z.
Proof.
  intros Hk. rewrite !wt_eq. change (energy (sg k z)) with (energy z). f_equal.
  rewrite <- (@prod_upto_perm (N * steps) (bidx steps (k * steps)) (noise z)).
  - apply PropertiesVolume.prod_upto_ext. intros j Hj. unfold noise. do 2 f_equal. apply sum_upto_ext. intros i Hi. now rewrite sig_noise.
  - intros j Hj. apply bidx_lt; auto. now apply offset_le.
  - intros j. apply bidx_bidx, offset_ok.
Qed.
(** auxiliary definition of a statement or a proof; models no code of /repo *)
Definition rest (z : phase) : R := prod_upto (N * steps - steps) (fun j => noise z (steps + j)).
Lemma W_rest z : (0 < N)%nat -> W z = wt steps z * rest z.
Proof.
  intros HN. rewrite !wt_eq. assert (E : (N * steps = steps + (N * steps - steps))%nat) by (pose proof (@offset_le 0 HN); lia).
  rewrite E at 1. rewrite prod_upto_plus. unfold rest. ring.
Qed.
Lemma rest_pos z : 0 < rest z. Proof. apply prod_upto_pos. intros. apply exp_pos. Qed.
Lemma rest_map e b z : rest (lf_map s G friction e vi sq steps b z) = rest z.
Proof.
  apply PropertiesVolume.prod_upto_ext. intros j Hj. unfold noise. do 2 f_equal. apply sum_upto_ext. intros i Hi. rewrite lf_map_noise by (first [exact HG|lia]). reflexivity.
Qed.
Lemma wt_pos n z : 0 < wt n z.
Proof. rewrite wt_eq. apply Rmult_lt_0_compat; [apply exp_pos|]. apply prod_upto_pos. intros. apply exp_pos. Qed.
Lemma accept_eq k x z a : (k < N)%nat -> wt steps (sg k z) * a = Rmin (wt steps (sg k z)) (wt steps (mp (eps k) (drawn get_data x (k * steps)) (sg k z))) -> accept W (smap k x) z = a.
Proof.
  intros Hk H. unfold accept, smap. rewrite (W_sig _ Hk). rewrite <- (W_sig z Hk). assert (HN : (0 < N)%nat) by lia. rewrite !(W_rest _ HN), rest_map.
  set (y := sg k z) in *. pose proof (rest_pos y) as Hr. pose proof (wt_pos steps y) as Hw. rewrite (Rmult_comm (wt steps y)), (Rmult_comm (wt steps (mp (eps k) (drawn get_data x (k * steps)) y))).
  rewrite (Rmin_scale _ _ Hr), <- H. field. lra.
Qed.

(** the state st before step k belongs to the point z *)
Definition am_at (k : nat) (x : Data) (z : phase) (normal : key -> list nat -> list R) (k0 : key) (st : state) : Prop :=
  normal_ok normal /\ like s (lf_positions (am_integrator st)) /\ like s (lf_momentum (am_integrator st)) /\ am_mass st = None /\
  am_potential st = Fin (U (lf_positions (am_integrator st))) /\ lf_data (am_integrator st) = drawn get_data x (k * steps) /\ lf_key (am_integrator st) = chain k0 (k * steps) /\
  forall i, (i < dim s)%nat -> z (CPos i) = el (lf_positions (am_integrator st)) i /\ z (CMom i) = el (lf_momentum (am_integrator st)) i /\
    forall j, (k * steps <= j < N * steps)%nat -> z (CNoise j i) = xi normal (Sub (chain k0 j) 1) s i.
Lemma am_at_starts k x z normal k0 st : (k < N)%nat -> am_at k x z normal k0 st -> starts steps (drawn get_data x (k * steps)) (sg k z) normal st.
Proof.
  intros Hk (Hn & Lx & Lp & Em & EU & Ed & Ek & Hz). split; [exact Hn|]. split; [exact Lx|]. split; [exact Lp|]. split; [exact Em|]. split; [exact EU|]. split; [exact Ed|].
  intros i Hi. destruct (Hz i Hi) as (H1 & H2 & H3). split; [exact H1|]. split; [exact H2|]. intros j Hj. rewrite sig_noise, bidx_near by auto. pose proof (offset_le Hk). rewrite H3 by lia. rewrite Ek, chain_chain. reflexivity.
Qed.
Lemma smap_noise k x z j i : (i < dim s)%nat -> (k * steps + steps <= j)%nat -> smap k x z (CNoise j i) = z (CNoise j i).
Proof. intros Hi Hj. unfold smap. rewrite sig_noise by auto. rewrite bidx_far by (pose proof (offset_ok k); lia). rewrite lf_map_noise by (first [exact HG|lia]). rewrite sig_noise by auto. now rewrite bidx_far by lia. Qed.
Lemma am_at_step k x x' z normal k0 st : (k < N)%nat -> am_at k x z normal k0 st -> step_reversed get_data steps (N * steps) k x x' ->
  forall u, 0 <= u < 1 -> am_at (S k) x (if Rlt_dec u (accept W (smap k x) z) then flip (dim s) (smap k x z) else flip (dim s) z) normal k0 (fst (amstep u normal st (schs k))).
Proof.
  intros Hk Hat [Hr _] u Hu. destruct (He Hk) as [He1 He2]. pose proof Hat as (Hn & _ & _ & _ & _ & _ & Ek & Hz).
  destruct (@am_outcome (schs k) (eps k) (drawn get_data x (k * steps)) (drawn get_data x' (k * steps)) (sg k z) normal st He1 He2 (am_at_starts Hk Hat)) as (a & Ha & Hw & H).
  { intros j Hj. rewrite !batch_drawn. now apply Hr. }
  rewrite (accept_eq x Hk Hw). destruct (H u Hu) as (D1 & D2 & D3 & D4 & D5 & D6 & D7). clear H. rewrite drawn_drawn in D1. rewrite Ek, chain_chain in D2.
  assert (ES : (S k * steps = k * steps + steps)%nat) by lia. unfold am_at. rewrite ES.
  split; [exact Hn|]. split; [exact D5|]. split; [exact D6|]. split; [exact D3|]. split; [exact D4|]. split; [exact D1|]. split; [exact D2|].
  intros i Hi. destruct (D7 i Hi) as [P1 P2]. destruct (Hz i Hi) as (_ & _ & P3). destruct (Rlt_dec u a).
  - split; [exact P1|]. split; [exact P2|]. intros j Hj. cbn [flip]. rewrite smap_noise by (auto; lia). apply P3. lia.
  - split; [exact P1|]. split; [exact P2|]. intros j Hj. cbn [flip]. apply P3. lia.
Qed.
Variable f : vtree -> vtree -> R.
(** auxiliary definition of a statement or a proof; models no code of /repo *)
Definition obs (z : phase) : R := f (pos_tree s z) (mom_tree s z).
Variable revs : nat -> Data -> Data.
(** auxiliary definition of a statement or a proof; models no code of /repo *)
Definition stages (k n : nat) : list (stage Data) := map (fun k => mkStage (smap k) (revs k)) (seq k n).
Local Notation run normal := (fun u i st => fst (amstep u normal st (schs i))).
Local Notation ob := (fun st : state => f (lf_positions (am_integrator st)) (lf_momentum (am_integrator st))).
Lemma am_at_obs k x z normal k0 st : am_at k x z normal k0 st -> ob st = obs z.
Proof. intros (Hn & Lx & Lp & _ & _ & _ & _ & Hz). unfold obs, pos_tree, mom_tree. f_equal; symmetry; apply tree_of_el; auto; intros i Hi; apply (Hz i Hi). Qed.
(** the mean after the remaining steps exists, and it is the mean for the maps *)
Lemma mean_is n : forall k x z normal k0 st, (k + n <= N)%nat -> (forall i, (i < N)%nat -> step_reversed get_data steps (N * steps) i x (revs i x)) -> am_at k x z normal k0 st ->
  forall v, mean_of_chain (run normal) ob k n st v -> v = mean_after (dim s) W obs (stages k n) x z.
Proof.
  induction n as [|n IH]; intros k x z normal k0 st Hk Hx Hat v Hv.
  - cbn in Hv |- *. rewrite Hv. exact (am_at_obs Hat).
  - destruct Hv as (g & Hg & Hm). cbn [stages seq map mean_after s_map]. set (a := accept W (smap k x) z).
    assert (Ha : 0 < a <= 1) by (apply accept_range; apply wt_pos).
    assert (Hstep : forall u, 0 <= u < 1 -> g u = mean_after (dim s) W obs (stages (S k) n) x (if Rlt_dec u a then flip (dim s) (smap k x z) else flip (dim s) z)).
    { intros u Hu. apply (IH (S k) x _ normal k0 (fst (amstep u normal st (schs k)))); auto; [lia|]. apply (am_at_step (x' := revs k x)); auto; [lia|]. apply Hx. lia. }
    apply (@uniform_mean_unique g v a); [lra| | |exact Hm].
    + intros u Hu. rewrite Hstep by lra. destruct (Rlt_dec u a); [reflexivity|lra].
    + intros u Hu. rewrite Hstep by lra. destruct (Rlt_dec u a); [lra|reflexivity].
Qed.
Lemma mean_exists n : forall k x z normal k0 st, (k + n <= N)%nat -> (forall i, (i < N)%nat -> step_reversed get_data steps (N * steps) i x (revs i x)) -> am_at k x z normal k0 st ->
  mean_of_chain (run normal) ob k n st (mean_after (dim s) W obs (stages k n) x z).
Proof.
  induction n as [|n IH]; intros k x z normal k0 st Hk Hx Hat.
  - cbn. symmetry. exact (am_at_obs Hat).
  - cbn [stages seq map mean_after s_map mean_of_chain]. set (a := accept W (smap k x) z).
    assert (Ha : 0 < a <= 1) by (apply accept_range; apply wt_pos).
    exists (fun u => mean_after (dim s) W obs (stages (S k) n) x (if Rlt_dec u a then flip (dim s) (smap k x z) else flip (dim s) z)). split.
    + intros u Hu. apply (IH (S k) x _ normal k0); auto; [lia|]. apply (am_at_step (x' := revs k x)); auto; [lia|]. apply Hx. lia.
    + exists a, (mean_after (dim s) W obs (stages (S k) n) x (flip (dim s) (smap k x z))), (mean_after (dim s) W obs (stages (S k) n) x (flip (dim s) z)). split; [lra|]. split; [|split; [|reflexivity]].
      * intros u Hu. destruct (Rlt_dec u a); [reflexivity|lra].
      * intros u Hu. destruct (Rlt_dec u a); [lra|reflexivity].
Qed.
Variable ds : list Data.
Hypothesis Hrev : forall k, (k < N)%nat -> Permutation (map (revs k) ds) ds /\ forall d, In d ds -> step_reversed get_data steps (N * steps) k d (revs k d).
Lemma stages_good n : forall k, (k + n <= N)%nat -> good_stages (dim s) (N * steps) ds (stages k n).
Proof.
  induction n as [|n IH]; intros k Hk; [exact Logic.I|]. cbn [stages seq map good_stages s_map s_rev]. destruct (@Hrev k ltac:(lia)) as [H1 H2].
  split; [intros x Hx; apply smap_volume; lia|]. split; [exact H1|]. split; [|split].
  - intros x z Hx. apply smap_back. apply (H2 x Hx).
  - intros st' x Hin Hx. apply in_map_iff in Hin. destruct Hin as (k' & <- & Hin). apply in_seq in Hin. cbn [s_map]. apply smap_same. intros j Hj. destruct (H2 x Hx) as [_ H3]. apply H3.
    + pose proof (@offset_le k' ltac:(lia)). lia.
    + right. assert (S k * steps <= k' * steps)%nat by (apply Nat.mul_le_mono_r; lia). lia.
  - apply (IH (S k)). lia.
Qed.
End MH.
