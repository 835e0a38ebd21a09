From Coq Require Import Reals Lra.
From Verif Require Import Base ListUtil Pytree PytreeSpec Io TreeUtil TreeUtilSpec TreeUtilProofs Integrator IntegratorSpec IntegratorBasics ObaboProofs LeapfrogFinal KeyBasics ObaboFinal.
Open Scope R_scope.
Set Implicit Arguments.

(** noise that reverses a leapfrog path *)
Lemma rl_reverse_noise s (M : mass_matrix) vi sq friction eps n (K K' : nat -> key) normal (P : nat -> nat -> R) : wfv s ->
  m_inv M = Tens1 vi -> m_sqrt M = Tens1 sq -> (forall i, (i < dim s)%nat -> el vi i * (el sq i * el sq i) = 1) -> 0 < eps * friction ->
  (forall a b, (a < n)%nat -> (b < n)%nat -> K' a = K' b -> a = b) ->
  exists normal', normal_ok normal' /\ forall j i, (j < n)%nat -> (i < dim s)%nat ->
  sqrt (4 * friction * eps) * mulv (m_sqrt M) (dim s) (xi normal' (K' j) s) i =
  sqrt (4 * friction * eps) * mulv (m_sqrt M) (dim s) (xi normal (K (n - 1 - j)%nat) s) i
    - 2 * eps * friction * (P (n - 1 - j)%nat i + P (n - j)%nat i).
Proof.
  intros Hs E1 E2 E3 Hpos HK.
  destruct (@realise s n K' (fun j i => xi normal (K (n - 1 - j)%nat) s i - 2 * eps * friction * (P (n - 1 - j)%nat i + P (n - j)%nat i) / (sqrt (4 * friction * eps) * el sq i)) Hs HK) as (normal' & Hn & H).
  exists normal'. split; auto. intros j i Hj Hi. rewrite E2, !diag_mulv, H by auto. field.
  assert (0 < sqrt (4 * friction * eps)) by (apply sqrt_lt_R0; lra). specialize (E3 i Hi). split; [intros E0; rewrite E0 in E3; lra|lra].
Qed.
(** noise that reverses a path of the OBABO scheme *)
Definition pick (K1 K2 : nat -> key) (m : nat) : key := if Nat.even m then K1 (Nat.div2 m) else K2 (Nat.div2 m).
Lemma ob_reverse_noise s (M : mass_matrix) vi sq friction eps T n (K1 K2 K1' K2' : nat -> key) normal (P : nat -> nat -> R) : wfv s ->
  m_inv M = Tens1 vi -> m_sqrt M = Tens1 sq -> (forall i, (i < dim s)%nat -> el vi i * (el sq i * el sq i) = 1) -> 0 < friction * eps -> 0 < T ->
  (forall a b, K1' a = K1' b -> a = b) -> (forall a b, K2' a = K2' b -> a = b) -> (forall a b, K1' a <> K2' b) ->
  let c := sqrt (exp (- friction * eps)) in let sv := sqrt ((1 - exp (- friction * eps)) * T) in
  exists normal', normal_ok normal' /\ forall j i, (j < n)%nat -> (i < dim s)%nat ->
  c * (sv * mulv (m_sqrt M) (dim s) (xi normal' (K1' j) s) i) =
    sv * mulv (m_sqrt M) (dim s) (xi normal (K2 (n - 1 - j)%nat) s) i - (1 - exp (- friction * eps)) * P (n - j)%nat i /\
  sv * mulv (m_sqrt M) (dim s) (xi normal' (K2' j) s) i =
    c * (sv * mulv (m_sqrt M) (dim s) (xi normal (K1 (n - 1 - j)%nat) s) i) - (1 - exp (- friction * eps)) * P (n - 1 - j)%nat i.
Proof.
  intros Hs E1 E2 E3 Hpos HT HK1 HK2 HK12 c sv.
  assert (Hc : 0 < c) by (apply sqrt_lt_R0, exp_pos).
  assert (Hsv : 0 < sv) by (apply sqrt_lt_R0; apply Rmult_lt_0_compat; auto; now apply perm_lt).
  set (V1 := fun j i => (xi normal (K2 (n - 1 - j)%nat) s i - (1 - exp (- friction * eps)) * P (n - j)%nat i / (sv * el sq i)) / c).
  set (V2 := fun j i => c * xi normal (K1 (n - 1 - j)%nat) s i - (1 - exp (- friction * eps)) * P (n - 1 - j)%nat i / (sv * el sq i)).
  destruct (@realise s (2 * n) (pick K1' K2') (fun m i => if Nat.even m then V1 (Nat.div2 m) i else V2 (Nat.div2 m) i) Hs) as (normal' & Hn & H).
  { intros a b _ _. unfold pick. destruct (Nat.even a) eqn:Ea, (Nat.even b) eqn:Eb; intros E.
    - apply HK1 in E. apply Nat.even_spec in Ea, Eb. destruct Ea as [x ->], Eb as [y ->]. rewrite !Nat.div2_double in E. lia.
    - now apply HK12 in E.
    - symmetry in E. now apply HK12 in E.
    - apply HK2 in E. rewrite (Nat.div2_odd a), (Nat.div2_odd b), E, <- !Nat.negb_even, Ea, Eb. reflexivity. }
  exists normal'. split; auto. intros j i Hj Hi. rewrite E2, !diag_mulv by auto.
  assert (A1 := H (2 * j)%nat i ltac:(lia) Hi). assert (A2 := H (S (2 * j)) i ltac:(lia) Hi). unfold pick in A1, A2.
  assert (Ev : Nat.even (2 * j) = true) by (apply Nat.even_spec; exists j; lia).
  assert (Od : Nat.even (S (2 * j)) = false) by (rewrite Nat.even_succ, <- Nat.negb_even, Ev; reflexivity).
  rewrite Ev, Nat.div2_double in A1. rewrite Od, Nat.div2_succ_double in A2. rewrite A1, A2.
  assert (Hw : el sq i <> 0) by (specialize (E3 i Hi); intros E0; rewrite E0 in E3; lra).
  unfold V1, V2. clear H A1 A2. clearbody c sv. split; field; lra.
Qed.
