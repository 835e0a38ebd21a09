(** A Metropolis-Hastings step with a reversible, volume preserving proposal leaves the density invariant. *)
From Coq Require Import Reals Lra Permutation.
From Verif Require Import Base VolumeSpec VolumeProofs.
Open Scope R_scope.
Set Implicit Arguments.
Local Arguments Nat.ltb : simpl never.

Lemma sum_over_perm A (f : A -> R) l l' : Permutation l l' -> sum_over l f = sum_over l' f.
Proof. unfold sum_over. induction 1; cbn; lra. Qed.
Lemma sum_over_map A B (f : B -> R) (h : A -> B) l : sum_over (map h l) f = sum_over l (fun x => f (h x)).
Proof. unfold sum_over. now rewrite map_map. Qed.
Lemma sum_over_ext A (f g : A -> R) l : (forall x, In x l -> f x = g x) -> sum_over l f = sum_over l g.
Proof. intros H. unfold sum_over. f_equal. apply map_ext_in. exact H. Qed.
Lemma sum_over_add A (f g : A -> R) l : sum_over l (fun x => f x + g x) = sum_over l f + sum_over l g.
Proof. unfold sum_over. induction l; cbn in *; lra. Qed.
Lemma sum_over_const A (c : R) (l : list A) : sum_over l (fun _ => c) = INR (length l) * c.
Proof. unfold sum_over. induction l as [|x l IH]; [cbn; lra|]. cbn [map fold_right length]. rewrite S_INR, IH. lra. Qed.
Lemma sum_over_opp A (f : A -> R) l : sum_over l (fun x => - f x) = - sum_over l f.
Proof. unfold sum_over. induction l; cbn in *; lra. Qed.

(** momentum with the opposite sign *)
Definition flip (d : nat) (z : phase) : phase := fun c => match c with CMom i => if (i <? d)%nat then - z c else z c | _ => z c end.
Lemma flip_volume d m : preserves_volume d m (flip d).
Proof.
  eapply pv_ext; [apply (@pv_flip d m (fun c => match c with CMom i => (i <? d)%nat | _ => false end))|].
  - intros [i|i|j i]; cbn; try discriminate. intros H. now apply Nat.ltb_lt.
  - intros z [i|i|j i]; reflexivity.
Qed.
Lemma flip_flip d z c : flip d (flip d z) c = z c.
Proof. destruct c as [i|i|j i]; cbn; auto. destruct (i <? d)%nat; [lra|auto]. Qed.

Lemma int_ext d m L I f g : integral d m L I -> L f -> (forall z : phase, f z = g z) -> L g /\ I f = I g.
Proof. intros H Hf E. apply (integral_ext H); auto. Qed.
Section Stationary.
Variables (d m : nat) (L : (phase -> R) -> Prop) (I : (phase -> R) -> R).
Hypothesis HI : integral d m L I.
Variables (Data : Type) (ds : list Data) (rev : Data -> Data) (Phi : Data -> phase -> phase) (rho : phase -> R) (al : Data -> phase -> R).
Hypothesis Hperm : Permutation (map rev ds) ds.
Hypothesis Hvol : forall x, In x ds -> preserves_volume d m (Phi x).
Hypothesis Hbal : forall x z, In x ds -> rho z * al x z = rho (Phi x z) * al (rev x) (Phi x z).
Lemma rev_in x : In x ds -> In (rev x) ds.
Proof. intros H. apply (Permutation_in _ Hperm). now apply in_map. Qed.

Lemma move (g : phase -> R) x : In x ds -> L (fun z => rho z * al (rev x) z * g z) ->
  L (fun z => rho z * al x z * g (Phi x z)) /\ I (fun z => rho z * al x z * g (Phi x z)) = I (fun z => rho z * al (rev x) z * g z).
Proof.
  intros Hx Hg. destruct (@integral_volume _ _ _ _ HI _ _ (Hvol x Hx) Hg) as [L1 I1].
  destruct (@int_ext _ _ _ _ _ (fun z => rho z * al x z * g (Phi x z)) HI L1) as [L2 I2]; [intros z; rewrite (Hbal x z Hx); ring|].
  split; auto. now rewrite <- I2, I1.
Qed.
(** accepted part, exchanged with the rejected part of the reversed batches *)
Lemma stationary_accept (g r : phase -> R) : (forall x, In x ds -> L (fun z => rho z * al x z * g z)) ->
  (forall x, In x ds -> L (fun z => rho z * al x z * r z)) -> L (fun z => rho z * r z) ->
  (forall x, In x ds -> L (fun z => rho z * (al x z * g (Phi x z) + (1 - al x z) * r z))) /\
  sum_over ds (fun x => I (fun z => rho z * (al x z * g (Phi x z) + (1 - al x z) * r z))) =
  INR (length ds) * I (fun z => rho z * r z) + sum_over ds (fun x => I (fun z => rho z * al x z * g z) - I (fun z => rho z * al x z * r z)).
Proof.
  intros Hg Hr H0.
  assert (E : forall x, In x ds -> L (fun z => rho z * (al x z * g (Phi x z) + (1 - al x z) * r z)) /\
    I (fun z => rho z * (al x z * g (Phi x z) + (1 - al x z) * r z)) = I (fun z => rho z * al (rev x) z * g z) + (I (fun z => rho z * r z) + - I (fun z => rho z * al x z * r z))).
  { intros x Hx. destruct (@move g x Hx (Hg _ (rev_in x Hx))) as [L1 I1]. destruct (@integral_scale _ _ _ _ HI (-1) _ (Hr x Hx)) as [L2 I2].
    destruct (@integral_add _ _ _ _ HI _ _ H0 L2) as [L3 I3]. destruct (@integral_add _ _ _ _ HI _ _ L1 L3) as [L4 I4].
    destruct (@int_ext _ _ _ _ _ (fun z => rho z * (al x z * g (Phi x z) + (1 - al x z) * r z)) HI L4) as [L5 I5]; [intros z; ring|].
    split; auto. rewrite <- I5, I4, I3, I2, I1. ring. }
  split; [intros x Hx; apply (E x Hx)|].
  rewrite (sum_over_ext _ _ _ (fun x Hx => proj2 (E x Hx))), sum_over_add, sum_over_add, sum_over_const.
  rewrite <- (sum_over_map (fun x => I (fun z => rho z * al x z * g z)) rev ds), (sum_over_perm _ Hperm).
  unfold Rminus. rewrite sum_over_add. ring.
Qed.
End Stationary.

Lemma uniform_mean_unique g v p A B : 0 <= p <= 1 -> (forall u, 0 <= u < p -> g u = A) -> (forall u, p <= u < 1 -> g u = B) -> uniform_mean g v -> v = p * A + (1 - p) * B.
Proof.
  intros Hp HA HB (q & A' & B' & Hq & HA' & HB' & ->).
  destruct (Rtotal_order q p) as [H|[->|H]].
  - assert (E1 : B' = A) by (rewrite <- (HB' q), <- (HA q) by lra; reflexivity). subst B'.
    assert (E2 : q = 0 \/ A' = A). { destruct (Req_dec q 0); [auto|right]. rewrite <- (HA' 0), <- (HA 0) by lra. reflexivity. }
    assert (E3 : p = 1 \/ B = A). { destruct (Req_dec p 1); [auto|right]. rewrite <- (HB' p), <- (HB p) by lra. reflexivity. }
    destruct E2 as [E2|E2], E3 as [E3|E3]; first [exfalso; lra|rewrite E2, E3; ring|rewrite ?E2, ?E3; ring].
  - assert (E2 : p = 0 \/ A' = A). { destruct (Req_dec p 0); [auto|right]. rewrite <- (HA' 0), <- (HA 0) by lra. reflexivity. }
    assert (E3 : p = 1 \/ B = B'). { destruct (Req_dec p 1); [auto|right]. rewrite <- (HB' p), <- (HB p) by lra. reflexivity. }
    destruct E2 as [E2|E2], E3 as [E3|E3]; first [exfalso; lra|rewrite E2, E3; ring|rewrite ?E2, ?E3; ring].
  - assert (E1 : A' = B) by (rewrite <- (HA' p), <- (HB p) by lra; reflexivity). subst A'.
    assert (E2 : p = 0 \/ A = B). { destruct (Req_dec p 0); [auto|right]. rewrite <- (HA' 0), <- (HA 0) by lra. reflexivity. }
    assert (E3 : q = 1 \/ B' = B). { destruct (Req_dec q 1); [auto|right]. rewrite <- (HB' q), <- (HB q) by lra. reflexivity. }
    destruct E2 as [E2|E2], E3 as [E3|E3]; first [exfalso; lra|rewrite E2, E3; ring|rewrite ?E2, ?E3; ring].
Qed.
