(** One proposal of obabo as a map of the phase space. *)
From Coq Require Import Reals Lra FunctionalExtensionality.
From Verif Require Import Base ListUtil Pytree PytreeSpec Io TreeUtil TreeUtilSpec TreeUtilProofs Integrator IntegratorSpec IntegratorBasics ObaboProofs LeapfrogFinal ObaboFinal
  BalanceSpec BalanceProofs VolumeSpec VolumeProofs LeapfrogVolume.
Open Scope R_scope.
Set Implicit Arguments.
Local Arguments Nat.ltb : simpl never.
Local Arguments Nat.eqb : simpl never.
Local Arguments Nat.sub : simpl never.
Local Arguments Nat.mul : simpl never.

(** auxiliary definition of a statement or a proof; models no code of /repo *)
Definition ob_step_ops (h c : R) (j : nat) : list op :=
  let a := (2 * j)%nat in let b := S (2 * j) in
  [Nsh a; Push a 1 0 a; Nsh a; Push a 0 c a; Drift h; Push b 0 c b; Nsh b; Push b 1 0 b; Nsh b].
(** auxiliary definition of a statement or a proof; models no code of /repo *)
Definition ob_ops (h c : R) (n : nat) : list op := flat_map (ob_step_ops h c) (seq 0 n).
Lemma ob_ops_ok h c n : Forall (op_ok (2 * n)) (ob_ops h c n) /\ Forall (idx_ok (2 * n)) (ob_ops h c n).
Proof.
  split; apply Forall_forall; intros o Ho; apply in_flat_map in Ho; destruct Ho as (k & Hk & Ho); apply in_seq in Hk;
    unfold ob_step_ops in Ho; cbn [In] in Ho; decompose [or] Ho; subst; cbn [op_ok idx_ok]; auto; try lia; contradiction.
Qed.
Lemma ob_ops_palindrome h c n : rev (map (mirror (2 * n)) (ob_ops h c n)) = ob_ops h c n.
Proof.
  apply palindrome. intros j Hj. unfold ob_step_ops. cbn [map mirror rev app].
  replace (2 * n - 1 - 2 * (n - 1 - j))%nat with (S (2 * j)) by lia. replace (2 * n - 1 - S (2 * (n - 1 - j)))%nat with (2 * j)%nat by lia. reflexivity.
Qed.
Ltac ev NA NA' := repeat first [rewrite drift_mom | rewrite drift_noise | rewrite nsh_pos | rewrite nsh_mom | rewrite push_pos | rewrite push_noise | rewrite nsh_pos_of | rewrite push_pos_of
  | rewrite drift_pos by auto | rewrite push_mom by auto | rewrite nsh_noise by auto | rewrite Nat.eqb_refl | rewrite NA | rewrite NA'].
Lemma ob_step_effect d vi a sg g h c j z i : (i < d)%nat ->
  let z' := runs d vi a sg g (ob_step_ops h c j) z in
  let r := fun i => z (CMom i) + sg i * (z (CNoise (2 * j) i) + a i * z (CMom i)) in
  let f := fun i => r i + c * g (2 * j)%nat (pos_of z) i in
  exists x', (forall q, (q < d)%nat -> x' q = z (CPos q) + h * vi q * f q) /\
  let sm := fun i => f i + c * g (S (2 * j)) x' i in
  z' (CPos i) = x' i /\
  z' (CMom i) = sm i + sg i * (z (CNoise (S (2 * j)) i) + a i * sm i) /\
  z' (CNoise (2 * j) i) = z (CNoise (2 * j) i) + a i * (z (CMom i) + r i) /\
  z' (CNoise (S (2 * j)) i) = z (CNoise (S (2 * j)) i) + a i * (sm i + z' (CMom i)) /\
  (forall q, q <> (2 * j)%nat -> q <> S (2 * j) -> z' (CNoise q i) = z (CNoise q i)).
Proof.
  intros Hi z' r f. set (A := (2 * j)%nat) in *. set (D := do d vi a sg g).
  set (y := D (Drift h) (D (Push A 0 c A) (D (Nsh A) (D (Push A 1 0 A) (D (Nsh A) z))))).
  assert (Ez : z' = D (Nsh (S A)) (D (Push (S A) 1 0 (S A)) (D (Nsh (S A)) (D (Push (S A) 0 c (S A)) y)))) by reflexivity. clearbody z'.
  assert (NA : (S A =? A)%nat = false) by (apply Nat.eqb_neq; lia). assert (NA' : (A =? S A)%nat = false) by (apply Nat.eqb_neq; lia).
  assert (Ey : forall q, (q < d)%nat -> y (CMom q) = f q).
  { intros q Hq. unfold y, D. ev NA NA'. unfold f, r. ring. }
  assert (En : forall q, (q < d)%nat -> y (CNoise (S A) q) = z (CNoise (S A) q)) by (intros q Hq; unfold y, D; ev NA NA'; reflexivity).
  assert (En' : forall q, (q < d)%nat -> y (CNoise A q) = z (CNoise A q) + a q * (z (CMom q) + r q)) by (intros q Hq; unfold y, D; ev NA NA'; unfold r; ring).
  assert (Ex : forall q, (q < d)%nat -> y (CPos q) = z (CPos q) + h * vi q * f q).
  { intros q Hq. unfold y, D. ev NA NA'. unfold f, r. ring. }
  assert (Eo : forall q, q <> A -> y (CNoise q i) = z (CNoise q i)).
  { intros q H1. apply Nat.eqb_neq in H1. unfold y, D. ev NA NA'. repeat (rewrite H1; ev NA NA'). reflexivity. }
  exists (pos_of y). split; [exact Ex|]. clearbody y. intros sm. subst z'. unfold D, sm. split; [|split; [|split; [|split]]].
  - ev NA NA'. reflexivity.
  - ev NA NA'. rewrite Ey, En by auto. ring.
  - ev NA NA'. auto.
  - ev NA NA'. rewrite Ey, En by auto. ring.
  - intros q H1 H2. apply Nat.eqb_neq in H2. ev NA NA'. repeat (rewrite H2; ev NA NA'). auto.
Qed.

(** keys of the random vectors of one proposal: two in every step *)
Definition ob_keys (k : key) (m : nat) : key := Sub (chain k (Nat.div2 m)) (if Nat.even m then 1 else 2).
Lemma ob_keys_even k j : ob_keys k (2 * j) = Sub (chain k j) 1.
Proof. unfold ob_keys. rewrite Nat.div2_double. assert (Nat.even (2 * j) = true) as -> by (apply Nat.even_spec; exists j; lia). reflexivity. Qed.
Lemma ob_keys_odd k j : ob_keys k (S (2 * j)) = Sub (chain k j) 2.
Proof. unfold ob_keys. rewrite Nat.div2_succ_double. assert (Nat.even (2 * j) = true) as Ev by (apply Nat.even_spec; exists j; lia). rewrite Nat.even_succ, <- Nat.negb_even, Ev. reflexivity. Qed.

Section OB.
Variable s : vtree.
Hypothesis Hs : wfv s.
Variables (const_mass : option vtree) (mo : option mass_matrix).
Variables (Data Batch Model : Type).
Variable get_data : Data -> Data * Batch.
Variable pot_value : vtree -> Batch -> Model -> R.
Variable pot_model : vtree -> Batch -> Model -> Model.
Variable G : vtree -> Batch -> vtree.
Hypothesis HG : forall t b, like s t -> like s (G t b).
Variables (friction eps T : R).
Hypothesis Hpos : 0 < friction * eps.
Hypothesis HT : 0 < T.
Variables vi sq : vtree.
Local Notation cc := (sqrt (exp (- friction * eps))).
Local Notation sv := (sqrt ((1 - exp (- friction * eps)) * T)).
Local Notation aa := (fun i => (cc - 1) / (sv * el sq i)).
Local Notation ss := (fun i => sv * el sq i).
(** auxiliary definition of a statement or a proof; models no code of /repo *)
Definition ob_map (n : nat) (b : nat -> Batch) : phase -> phase :=
  whole (dim s) (2 * n) (el vi) aa ss (grads s G b) (ob_ops eps (- (1 / 2 * eps)) n).
Lemma ob_map_volume n b : continuous_gradient s G -> preserves_volume (dim s) (2 * n) (ob_map n b).
Proof. intros Hc. apply whole_volume; [apply ob_ops_ok|now apply grads_continuous|apply grads_ext]. Qed.
Lemma ob_map_involution n b b' : (forall k, (k < 2 * n)%nat -> b' k = b (2 * n - 1 - k)%nat) -> forall z, ob_map n b' (ob_map n b z) = z.
Proof.
  intros Hb z. unfold ob_map. apply whole_involution; [|apply ob_ops_ok|apply ob_ops_palindrome].
  intros k Hk. extensionality x. extensionality i. unfold grads. rewrite Hb by lia. do 2 f_equal. f_equal. lia.
Qed.
Hypothesis Hvi : like s vi.
Hypothesis Hsq : like s sq.
Hypothesis Hvs : forall i, (i < dim s)%nat -> el vi i * (el sq i * el sq i) = 1.
Variable normal : key -> list nat -> list R.
Hypothesis Hn : normal_ok normal.
Variable st : ob_st Data Model.
Hypothesis Lp : like s (o_pos st).
Hypothesis Lm : like s (o_mom st).
Local Notation M := (ob_mass const_mass mo (o_pos st)).
Hypothesis E1 : m_inv M = Tens1 vi.
Hypothesis E2 : m_sqrt M = Tens1 sq.
Local Notation intg nrm n x := (fst (ob_integrate nrm get_data pot_value pot_model (fun t b _ => G t b) n friction const_mass eps T mo x)).
Local Notation F := (ob_at M normal get_data pot_value pot_model (fun t b _ => G t b) friction eps T st).
Local Notation fr q := (ob_r M normal friction eps T (F q)).
Local Notation fs q := (ob_s M normal get_data pot_model (fun t b _ => G t b) friction eps T (F q)).
Local Notation x1 j := (xi normal (Sub (chain (o_key st) j) 1) s).
Local Notation x2 j := (xi normal (Sub (chain (o_key st) j) 2) s).
Variable n : nat.
Variable z : phase.
Hypothesis Hz : consists_of s (2 * n) z (o_pos st) (o_mom st) normal (ob_keys (o_key st)).
Local Notation gg := (grads s G (batch_no get_data (o_data st))).
Lemma ob_fits : tens_fits (m_inv M) s /\ tens_fits (m_sqrt M) s.
Proof. rewrite E1, E2. destruct Hvi, Hsq. cbn. auto. Qed.
Lemma sv_pos : 0 < sv.
Proof. apply sqrt_lt_R0. apply Rmult_lt_0_compat; auto. now apply perm_lt. Qed.
Lemma sv_neq i : (i < dim s)%nat -> sv <> 0 /\ el sq i <> 0.
Proof. intros Hi. specialize (Hvs Hi). pose proof sv_pos. split; [lra|]. intros E. rewrite E in Hvs. lra. Qed.
Lemma ob_prefix k : (k <= n)%nat -> forall i, (i < dim s)%nat ->
  let zk := runs (dim s) (el vi) aa ss gg (flat_map (ob_step_ops eps (- (1 / 2 * eps))) (seq 0 k)) z in
  zk (CPos i) = el (o_pos (F k)) i /\ zk (CMom i) = el (o_mom (F k)) i /\
  forall j, (j < n)%nat ->
    zk (CNoise (2 * j) i) = x1 j i + (if (j <? k)%nat then aa i * (el (o_mom (F j)) i + el (fr j) i) else 0) /\
    zk (CNoise (S (2 * j)) i) = x2 j i + (if (j <? k)%nat then aa i * (el (fs j) i + el (o_mom (F (S j))) i) else 0).
Proof.
  destruct ob_fits as [F1 F2]. assert (Hg : forall t b (m : Model), like s t -> like s (G t b)) by (intros; auto).
  induction k as [|k IH]; intros Hk i Hi zk.
  - unfold zk. cbn [seq flat_map runs fold_left]. destruct (Hz Hi) as (Z1 & Z2 & Z3). split; [exact Z1|]. split; [exact Z2|]. intros j Hj.
    rewrite (Z3 (2 * j)%nat), (Z3 (S (2 * j))), ob_keys_even, ob_keys_odd by lia. change (j <? 0)%nat with false. cbn iota. split; ring.
  - unfold zk. rewrite seq_S, flat_map_app, runs_app. cbn [Nat.add flat_map]. rewrite app_nil_r.
    set (y := runs (dim s) (el vi) aa ss gg (flat_map (ob_step_ops eps (- (1 / 2 * eps))) (seq 0 k)) z) in *.
    assert (IH' := fun i Hi => IH ltac:(lia) i Hi). clear IH. cbv zeta in IH'. fold y in IH'.
    destruct (@ob_step_effect (dim s) (el vi) aa ss gg eps (- (1 / 2 * eps)) k y i Hi) as (x' & X1 & X2 & X3 & X4 & X5 & X6).
    set (y' := runs (dim s) (el vi) aa ss gg (ob_step_ops eps (- (1 / 2 * eps)) k) y) in *.
    destruct (@F_like s Hs const_mass mo Data Batch Model get_data pot_value pot_model (fun t b _ => G t b) Hg friction eps T normal Hn st Lp Lm F1 F2 k) as [L3 L4].
    destruct (@ob_parts_like s Hs M F1 F2 normal Hn Data Batch Model get_data pot_model (fun t b _ => G t b) Hg friction eps T (F k) L3 L4) as (P1 & P2 & P3 & P4 & P5 & P6).
    pose proof (fun q i Hi => @el_r s Hs const_mass mo Data Batch Model get_data pot_value pot_model (fun t b _ => G t b) Hg friction eps T normal Hn st Lp Lm F1 F2 q i Hi) as Er.
    pose proof (fun q i Hi => @el_p s Hs const_mass mo Data Batch Model get_data pot_value pot_model (fun t b _ => G t b) Hg friction eps T normal Hn st Lp Lm F1 F2 q i Hi) as Ep.
    assert (Kdat : o_data (F k) = drawn get_data (o_data st) (2 * k)) by apply (@ob_at_data s M normal Data Batch Model get_data pot_value pot_model (fun t b _ => G t b) Hg friction eps T st k).
    assert (EposS : o_pos (F (S k)) = ob_x M normal get_data (fun t b _ => G t b) friction eps T (F k)) by (rewrite ob_at_S, ob_step_eq; reflexivity).
    assert (Hkk : (k <? k)%nat = false) by apply Nat.ltb_irrefl.
    assert (Hr : forall q, (q < dim s)%nat -> y (CMom q) + sv * el sq q * (y (CNoise (2 * k) q) + (cc - 1) / (sv * el sq q) * y (CMom q)) = el (fr k) q).
    { intros q Hq. destruct (IH' q Hq) as (_ & I2 & I3). destruct (I3 k ltac:(lia)) as [I4 _]. rewrite I4, I2, Hkk, (Er k q Hq), E2, diag_mulv by auto. destruct (sv_neq Hq). field. auto. }
    assert (Hgr1 : forall q, (q < dim s)%nat -> gg (2 * k)%nat (pos_of y) q = el (ob_g1 get_data (fun t b _ => G t b) (F k)) q).
    { intros q Hq. assert (Ht : tree_of s (pos_of y) = o_pos (F k)) by (apply tree_of_el; auto; intros q' Hq'; apply (IH' q' Hq')). set (X := pos_of y) in *. clearbody X. unfold grads, ob_g1. rewrite Ht, Kdat. reflexivity. }
    assert (Hf : forall q, (q < dim s)%nat -> y (CMom q) + sv * el sq q * (y (CNoise (2 * k) q) + (cc - 1) / (sv * el sq q) * y (CMom q)) + - (1 / 2 * eps) * gg (2 * k)%nat (pos_of y) q = el (ob_f M normal get_data (fun t b _ => G t b) friction eps T (F k)) q).
    { intros q Hq. rewrite Hr, Hgr1 by auto. unfold ob_f. rewrite (el_ob_mom Hs) by auto. ring. }
    assert (Hx' : forall q, (q < dim s)%nat -> x' q = el (ob_x M normal get_data (fun t b _ => G t b) friction eps T (F k)) q).
    { intros q Hq. rewrite (X1 q Hq), Hf by auto. destruct (IH' q Hq) as (I1 & _). rewrite I1. unfold ob_x. rewrite (el_pos_update Hs _ F1), (el_mat Hs), E1, diag_mulv by auto. ring. }
    assert (Hgr2 : gg (S (2 * k)) x' i = el (ob_g2 M normal get_data pot_model (fun t b _ => G t b) friction eps T (F k)) i).
    { unfold grads, ob_g2. rewrite (@tree_of_el s _ _ Hs P4 Hx'), Kdat. reflexivity. }
    assert (Hsm : y (CMom i) + sv * el sq i * (y (CNoise (2 * k) i) + (cc - 1) / (sv * el sq i) * y (CMom i)) + - (1 / 2 * eps) * gg (2 * k)%nat (pos_of y) i + - (1 / 2 * eps) * gg (S (2 * k)) x' i = el (fs k) i).
    { rewrite Hf, Hgr2 by auto. unfold ob_s. rewrite (el_ob_mom Hs) by auto. ring. }
    destruct (IH' i Hi) as (I1 & I2 & I3). destruct (I3 k ltac:(lia)) as [I4 I5]. rewrite Hkk in I4, I5.
    rewrite Hsm, I5 in X3. rewrite Hsm, I5 in X5. rewrite Hr, I4 in X4 by auto.
    assert (Em : y' (CMom i) = el (o_mom (F (S k))) i).
    { rewrite X3, (Ep k i Hi), E2, diag_mulv by auto. destruct (sv_neq Hi). field. auto. }
    split; [rewrite X2, Hx', EposS by auto; reflexivity|]. split; [exact Em|]. intros j Hj. destruct (Nat.eq_dec j k) as [->|Hne].
    + assert ((k <? S k)%nat = true) as -> by (apply Nat.ltb_lt; lia). rewrite X4, X5, Em, I2. split; ring.
    + rewrite !X6 by lia. destruct (I3 j Hj) as [J1 J2]. rewrite J1, J2. destruct (Nat.ltb_spec j k), (Nat.ltb_spec j (S k)); try lia; auto.
Qed.
Lemma ob_map_effect i : (i < dim s)%nat ->
  let y := ob_map n (batch_no get_data (o_data st)) z in
  y (CPos i) = el (o_pos (F n)) i /\ y (CMom i) = - el (o_mom (F n)) i /\
  forall j, (j < n)%nat -> y (CNoise (2 * j) i) = x2 (n - 1 - j) i + aa i * (el (fs (n - 1 - j)) i + el (o_mom (F (n - j))) i) /\
                           y (CNoise (S (2 * j)) i) = x1 (n - 1 - j) i + aa i * (el (o_mom (F (n - 1 - j))) i + el (fr (n - 1 - j)) i).
Proof.
  intros Hi y. unfold y, ob_map, whole. destruct (@ob_prefix n (Nat.le_refl n) i Hi) as (Q1 & Q2 & Q3).
  fold (ob_ops eps (- (1 / 2 * eps)) n) in Q1, Q2, Q3. set (w := runs _ _ _ _ _ (ob_ops eps (- (1 / 2 * eps)) n) z) in *.
  destruct (@refl_effect (dim s) (2 * n) w i Hi) as (R1 & R2 & R3). rewrite R1, R2, Q1, Q2. split; [reflexivity|]. split; [reflexivity|]. intros j Hj.
  rewrite !R3 by lia. replace (2 * n - 1 - 2 * j)%nat with (S (2 * (n - 1 - j))) by lia. replace (2 * n - 1 - S (2 * j))%nat with (2 * (n - 1 - j))%nat by lia.
  destruct (Q3 (n - 1 - j)%nat ltac:(lia)) as [-> ->]. assert ((n - 1 - j <? n)%nat = true) as -> by (apply Nat.ltb_lt; lia). replace (S (n - 1 - j)) with (n - j)%nat by lia. auto.
Qed.
Lemma ob_map_back x' p' normal' k' : like s x' -> like s p' -> consists_of s (2 * n) (ob_map n (batch_no get_data (o_data st)) z) x' p' normal' (ob_keys k') ->
  x' = o_pos (intg normal n st) /\ opposite s (o_mom (intg normal n st)) p' /\ ob_noise_back s const_mass mo get_data pot_value pot_model G friction eps T normal st n k' normal'.
Proof.
  intros Lx Lp' H. destruct ob_fits as [F1 F2]. assert (Hg : forall t b (m : Model), like s t -> like s (G t b)) by (intros; auto).
  destruct (@F_like s Hs const_mass mo Data Batch Model get_data pot_value pot_model (fun t b _ => G t b) Hg friction eps T normal Hn st Lp Lm F1 F2 n) as [La Lb].
  split; [|split; [split; auto|]].
  - apply (like_ext Hs); auto. intros i Hi. destruct (H i Hi) as (H1 & _). destruct (@ob_map_effect i Hi) as (Q1 & _). now rewrite <- H1, Q1.
  - intros i Hi. destruct (H i Hi) as (_ & H1 & _). destruct (@ob_map_effect i Hi) as (_ & Q1 & _). now rewrite <- H1, Q1.
  - intros j i Hj Hi. destruct (H i Hi) as (_ & _ & H1). destruct (@ob_map_effect i Hi) as (_ & _ & Q1). destruct (Q1 j Hj) as [A1 A2].
    assert (B1 := H1 (2 * j)%nat ltac:(lia)). assert (B2 := H1 (S (2 * j)) ltac:(lia)). rewrite ob_keys_even, A1 in B1. rewrite ob_keys_odd, A2 in B2.
    rewrite E2, !diag_mulv, <- B1, <- B2 by auto.
    pose proof (@el_r s Hs const_mass mo Data Batch Model get_data pot_value pot_model (fun t b _ => G t b) Hg friction eps T normal Hn st Lp Lm F1 F2 (n - 1 - j) i Hi) as Er.
    pose proof (@el_p s Hs const_mass mo Data Batch Model get_data pot_value pot_model (fun t b _ => G t b) Hg friction eps T normal Hn st Lp Lm F1 F2 (n - 1 - j) i Hi) as Ep.
    replace (S (n - 1 - j)) with (n - j)%nat in Ep by lia. rewrite E2, diag_mulv in Er, Ep by auto. destruct (sv_neq Hi) as [N1 N2].
    change (fst (ob_integrate normal get_data pot_value pot_model (fun t b _ => G t b) (n - j) friction const_mass eps T mo st)) with (F (n - j)).
    change (fst (ob_integrate normal get_data pot_value pot_model (fun t b _ => G t b) (n - 1 - j) friction const_mass eps T mo st)) with (F (n - 1 - j)).
    pose proof (c_sq friction eps) as Hc.
    set (v := sv) in *. set (c := cc) in *. set (w := el sq i) in *. set (p0 := el (o_mom (F (n - 1 - j))) i) in *. set (p1 := el (o_mom (F (n - j))) i) in *.
    set (rr := el (fr (n - 1 - j)) i) in *. set (sm := el (fs (n - 1 - j)) i) in *. set (u1 := x1 (n - 1 - j) i) in *. set (u2 := x2 (n - 1 - j) i) in *.
    clearbody c v w p0 p1 rr sm u1 u2. rewrite <- Hc, Er, Ep. split; field; auto.
Qed.
End OB.
