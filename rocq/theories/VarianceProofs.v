(** Second moments of sums over all index tuples and over all permutations (for C80). *)
From Coq Require Import String Reals Lra Permutation.
From Verif Require Import Base ListUtil Pytree Io TreeUtil TreeUtilSpec TreeUtilProofs Integrator IntegratorSpec LoaderSpec DataCore DataSpec Potential PotentialSpec PotentialProofs UnbiasedProofs.
Open Scope R_scope.
Set Implicit Arguments.

Lemma sum_const n c : sum_upto n (fun _ => c) = INR n * c.
Proof. induction n as [|n IH]; [unfold sum_upto; cbn; lra|]. rewrite sum_upto_S, IH, S_INR. lra. Qed.
Lemma sum_scale_r n f a : sum_upto n (fun i => f i * a) = sum_upto n f * a.
Proof. rewrite (@sum_upto_ext n _ (fun i => a * f i)) by (intros; lra). rewrite sum_upto_scale. lra. Qed.
Lemma sum_square n f : (sum_upto n f)^2 = sum_upto n (fun i => sum_upto n (fun j => f i * f j)).
Proof. rewrite (@sum_upto_ext n (fun i => sum_upto n (fun j => f i * f j)) (fun i => f i * sum_upto n f)) by (intros; apply sum_upto_scale). rewrite sum_scale_r. lra. Qed.
Lemma rsum_sum_swap A (L : list A) n (f : A -> nat -> R) : rsum (map (fun t => sum_upto n (f t)) L) = sum_upto n (fun j => rsum (map (fun t => f t j) L)).
Proof.
  induction L as [|t L IH]; [cbn [map]; rewrite rsum_nil, sum_upto_zero; auto|]. cbn [map]. rewrite rsum_cons, IH.
  rewrite (@sum_upto_ext n (fun j => rsum (f t j :: map (fun t0 => f t0 j) L)) (fun j => f t j + rsum (map (fun t0 => f t0 j) L))) by (intros; apply rsum_cons). now rewrite sum_upto_plus.
Qed.
Lemma sum_pick n i A B : (i < n)%nat -> sum_upto n (fun j => if (i =? j)%nat then A else B) = A + (INR n - 1) * B.
Proof.
  intros Hi. rewrite (@sum_upto_ext n _ (fun j => B + (if (i =? j)%nat then (fun _ => A - B) j else 0))) by (intros j _; destruct (i =? j)%nat; lra).
  rewrite sum_upto_plus, sum_const, sum_upto_delta by auto. lra.
Qed.

Section Pair.
Variables (L : list (list nat)) (n : nat) (h : nat -> R) (A B : R).
Hypothesis HA : forall j, (j < n)%nat -> rsum (map (fun t => (h (nth j t 0%nat))^2) L) = INR (length L) * A.
Hypothesis HB : forall i j, (i < n)%nat -> (j < n)%nat -> i <> j -> rsum (map (fun t => h (nth i t 0%nat) * h (nth j t 0%nat)) L) = INR (length L) * B.
Lemma pair_square : rsum (map (fun t => (sum_upto n (fun j => h (nth j t 0%nat)))^2) L) = INR (length L) * (INR n * A + INR n * (INR n - 1) * B).
Proof.
  rewrite (map_ext _ (fun t => sum_upto n (fun i => sum_upto n (fun j => h (nth i t 0%nat) * h (nth j t 0%nat))))) by (intros; apply sum_square).
  rewrite rsum_sum_swap.
  rewrite (@sum_upto_ext n _ (fun i => INR (length L) * (A + (INR n - 1) * B))).
  - rewrite sum_const. ring.
  - intros i Hi. rewrite rsum_sum_swap. rewrite (@sum_upto_ext n _ (fun j => if (i =? j)%nat then INR (length L) * A else INR (length L) * B)).
    + rewrite sum_pick by auto. ring.
    + intros j Hj. destruct (Nat.eqb_spec i j) as [->|Hne]; [|apply HB; auto]. rewrite <- (HA Hj). f_equal. apply map_ext. intros. ring.
Qed.
Lemma pair_squares : rsum (map (fun t => sum_upto n (fun j => (h (nth j t 0%nat))^2)) L) = INR (length L) * (INR n * A).
Proof.
  rewrite rsum_sum_swap. rewrite (@sum_upto_ext n _ (fun i => INR (length L) * A)) by (intros; apply HA; auto). rewrite sum_const. ring.
Qed.
End Pair.

(** ** all tuples *)
Lemma tuples_first (N n : nat) (F : nat -> list nat -> R) : 
  rsum (map (fun t => F (hd 0%nat t) (tl t)) (tuples (S n) N)) = sum_upto N (fun i => rsum (map (F i) (tuples n N))).
Proof.
  cbn [tuples]. unfold sum_upto. generalize (seq 0 N). induction l as [|i l IH]; [reflexivity|]. cbn [flat_map map fold_right]. rewrite rsum_map_app, IH, map_map. cbn [hd tl]. reflexivity.
Qed.
Lemma tuples_single (f : nat -> R) N n j : (j < n)%nat -> INR N * rsum (map (fun t => f (nth j t 0%nat)) (tuples n N)) = INR (length (tuples n N)) * sum_upto N f.
Proof.
  revert j. induction n as [|n IH]; intros j Hj; [lia|]. rewrite length_tuples. destruct j as [|j].
  - rewrite (map_ext_in (fun t => f (nth 0 t 0%nat)) (fun t => (fun i _ => f i) (hd 0%nat t) (tl t))).
    2:{ intros t Ht. apply tuples_spec in Ht. destruct Ht as [Ht _]. destruct t; [discriminate|reflexivity]. }
    rewrite (tuples_first N n (fun i _ => f i)). rewrite (@sum_upto_ext N _ (fun i => INR (N ^ n) * f i)).
    + rewrite sum_upto_scale, Nat.pow_succ_r', mult_INR. ring.
    + intros i _. rewrite (map_ext (fun _ : list nat => f i) (fun _ => f i + 0)) by (intros; lra). rewrite (rsum_map_const_plus (fun _ => 0)), length_tuples.
      rewrite (map_ext (fun _ : list nat => 0) (fun _ => 0 * 0)) by (intros; lra). rewrite (rsum_map_scale (fun _ => 0)). lra.
  - rewrite (map_ext_in (fun t => f (nth (S j) t 0%nat)) (fun t => (fun _ u => f (nth j u 0%nat)) (hd 0%nat t) (tl t))).
    2:{ intros t Ht. apply tuples_spec in Ht. destruct Ht as [Ht _]. destruct t; [discriminate|reflexivity]. }
    rewrite (tuples_first N n (fun _ u => f (nth j u 0%nat))), sum_const. rewrite IH by lia. rewrite length_tuples, Nat.pow_succ_r', mult_INR. ring.
Qed.
Lemma tuples_single0 (f : nat -> R) N n j : (0 < N)%nat -> sum_upto N f = 0 -> (j < n)%nat -> rsum (map (fun t => f (nth j t 0%nat)) (tuples n N)) = 0.
Proof.
  intros HN H0 Hj. assert (E := tuples_single f N Hj). rewrite H0, Rmult_0_r in E. apply Rmult_integral in E. destruct E as [E|E]; auto.
  apply (not_0_INR N) in E; [tauto|lia].
Qed.
Lemma tuples_pair0 (f : nat -> R) N n i j : (0 < N)%nat -> sum_upto N f = 0 -> (i < n)%nat -> (j < n)%nat -> i <> j ->
  rsum (map (fun t => f (nth i t 0%nat) * f (nth j t 0%nat)) (tuples n N)) = 0.
Proof.
  intros HN H0. revert i j. induction n as [|n IH]; intros i j Hi Hj Hne; [lia|].
  assert (Y : forall i t, In t (tuples (S n) N) -> nth i t 0%nat = match i with O => hd 0%nat t | S i' => nth i' (tl t) 0%nat end).
  { intros k t Ht. apply tuples_spec in Ht. destruct Ht as [Ht _]. destruct t; [discriminate|destruct k; reflexivity]. }
  rewrite (map_ext_in _ (fun t => (fun a u => f (match i with O => a | S i' => nth i' u 0%nat end) * f (match j with O => a | S j' => nth j' u 0%nat end)) (hd 0%nat t) (tl t))).
  2:{ intros t Ht. rewrite (Y i t Ht), (Y j t Ht). reflexivity. }
  rewrite (tuples_first N n (fun a u => f (match i with O => a | S i' => nth i' u 0%nat end) * f (match j with O => a | S j' => nth j' u 0%nat end))). destruct i as [|i], j as [|j]; try lia.
  - rewrite (@sum_upto_ext N _ (fun a => 0)); [rewrite sum_upto_zero; auto|]. intros a _. rewrite (rsum_map_scale (fun u => f (nth j u 0%nat))), tuples_single0 by (auto; lia). lra.
  - rewrite (@sum_upto_ext N _ (fun a => 0)); [rewrite sum_upto_zero; auto|]. intros a _. rewrite (map_ext (fun u => f (nth i u 0%nat) * f a) (fun u => f a * f (nth i u 0%nat))) by (intros; lra).
    rewrite (rsum_map_scale (fun u => f (nth i u 0%nat))), tuples_single0 by (auto; lia). lra.
  - rewrite sum_const, IH by lia. lra.
Qed.

(** ** all permutations: exchanging two positions *)
(** auxiliary definition of a statement or a proof; models no code of /repo *)
Definition tr (i j k : nat) : nat := if (k =? i)%nat then j else if (k =? j)%nat then i else k.
Lemma tr_invol i j k : tr i j (tr i j k) = k.
Proof. unfold tr. destruct (Nat.eqb_spec k i); [|destruct (Nat.eqb_spec k j)]; subst; [destruct (Nat.eqb_spec j i); [auto|]| |]; rewrite ?Nat.eqb_refl; auto. destruct (Nat.eqb_spec k i); [congruence|]. destruct (Nat.eqb_spec k j); congruence. Qed.
Lemma tr_lt i j k N : (i < N)%nat -> (j < N)%nat -> (k < N)%nat -> (tr i j k < N)%nat.
Proof. unfold tr. intros. destruct (k =? i)%nat, (k =? j)%nat; auto. Qed.
Section Swap.
Variable N : nat.
(** auxiliary definition of a statement or a proof; models no code of /repo *)
Definition exchange (i j : nat) (p : list nat) : list nat := map (fun k => nth (tr i j k) p 0%nat) (seq 0 N).
Lemma exchange_nth i j p k : (k < N)%nat -> nth k (exchange i j p) 0%nat = nth (tr i j k) p 0%nat.
Proof.
  intros Hk. unfold exchange. rewrite (@nth_indep _ _ k 0%nat ((fun k => nth (tr i j k) p 0%nat) 0%nat)) by (rewrite map_length, seq_length; auto).
  rewrite (map_nth (fun k => nth (tr i j k) p 0%nat)), seq_nth by auto. reflexivity.
Qed.
Lemma exchange_perm i j p : (i < N)%nat -> (j < N)%nat -> Permutation p (seq 0 N) -> Permutation (exchange i j p) (seq 0 N).
Proof.
  intros Hi Hj Hp. assert (Hl : length p = N) by (rewrite (Permutation_length Hp); apply seq_length).
  transitivity p; [|exact Hp]. unfold exchange. rewrite <- (map_map (tr i j) (fun k => nth k p 0%nat)).
  transitivity (map (fun k => nth k p 0%nat) (seq 0 N)); [|rewrite <- Hl, map_nth_seq; reflexivity]. apply Permutation_map.
  apply NoDup_Permutation_bis; [|rewrite map_length; auto|].
  - apply FinFun.Injective_map_NoDup; [|apply seq_NoDup]. intros a b H. rewrite <- (tr_invol i j a), H, tr_invol. reflexivity.
  - intros k Hk. apply in_map_iff in Hk. destruct Hk as (a & <- & Ha). apply in_seq in Ha. apply in_seq. split; [lia|]. apply tr_lt; lia.
Qed.
Lemma exchange_invol i j p : (i < N)%nat -> (j < N)%nat -> length p = N -> exchange i j (exchange i j p) = p.
Proof.
  intros Hi Hj Hl. transitivity (map (fun k => nth k p 0%nat) (seq 0 N)); [|rewrite <- Hl; apply map_nth_seq]. unfold exchange at 1. apply map_ext_in. intros k Hk. apply in_seq in Hk.
  rewrite exchange_nth by (apply tr_lt; lia). now rewrite tr_invol.
Qed.
Variable ps : list (list nat).
Hypothesis Hnd : NoDup ps.
Hypothesis Hall : forall p, In p ps <-> Permutation p (seq 0 N).
Lemma perm_length p : In p ps -> length p = N.
Proof. intros Hp. apply Hall in Hp. rewrite (Permutation_length Hp). apply seq_length. Qed.
Lemma exchange_all i j : (i < N)%nat -> (j < N)%nat -> Permutation (map (exchange i j) ps) ps.
Proof.
  intros Hi Hj. apply NoDup_Permutation_bis; [|rewrite map_length; auto|].
  - assert (X : forall p, In p ps -> length p = N) by (intros; apply perm_length; auto).
    assert (Y : forall l, NoDup l -> (forall p, In p l -> length p = N) -> NoDup (map (exchange i j) l)).
    { induction 1 as [|p l Hp Hl IH]; intros H; cbn; constructor.
      - intros Hin. apply in_map_iff in Hin. destruct Hin as (q & E & Hq). apply Hp. replace p with q; auto.
        rewrite <- (@exchange_invol i j q), E, exchange_invol; auto; apply H; cbn; auto.
      - apply IH. intros q Hq. apply H. cbn. auto. }
    apply Y; auto.
  - intros q Hq. apply in_map_iff in Hq. destruct Hq as (p & <- & Hp). apply Hall, exchange_perm; auto. now apply Hall.
Qed.
Lemma pair_exchange (f : nat -> R) i j k : (i < N)%nat -> (j < N)%nat -> (k < N)%nat -> i <> j -> i <> k ->
  rsum (map (fun p => f (nth i p 0%nat) * f (nth k p 0%nat)) ps) = rsum (map (fun p => f (nth i p 0%nat) * f (nth j p 0%nat)) ps).
Proof.
  intros Hi Hj Hk H1 H2. rewrite <- (rsum_perm (Permutation_map (fun p => f (nth i p 0%nat) * f (nth k p 0%nat)) (exchange_all Hj Hk))). rewrite map_map. f_equal. apply map_ext.
  intros p. rewrite !exchange_nth by auto. replace (tr j k i) with i by (unfold tr; rewrite (proj2 (Nat.eqb_neq i j)), (proj2 (Nat.eqb_neq i k)); auto).
  replace (tr j k k) with j; auto. unfold tr. destruct (Nat.eqb_spec k j); auto. now rewrite Nat.eqb_refl.
Qed.
Lemma perms_pair (f : nat -> R) i j : sum_upto N f = 0 -> (i < N)%nat -> (j < N)%nat -> i <> j ->
  (INR N - 1) * rsum (map (fun p => f (nth i p 0%nat) * f (nth j p 0%nat)) ps) = - rsum (map (fun p => (f (nth i p 0%nat))^2) ps).
Proof.
  intros H0 Hi Hj Hne. set (B := rsum (map (fun p => f (nth i p 0%nat) * f (nth j p 0%nat)) ps)). set (A := rsum (map (fun p => (f (nth i p 0%nat))^2) ps)).
  assert (E : sum_upto N (fun k => rsum (map (fun p => f (nth i p 0%nat) * f (nth k p 0%nat)) ps)) = 0).
  { rewrite <- (rsum_sum_swap ps N (fun p k => f (nth i p 0%nat) * f (nth k p 0%nat))). rewrite (map_ext_in _ (fun _ => 0 * 0)).
    - rewrite (rsum_map_scale (fun _ => 0)). lra.
    - intros p Hp. rewrite sum_upto_scale. rewrite (@sum_perm f N p), H0 by (now apply Hall). lra. }
  rewrite (@sum_upto_ext N _ (fun k => if (i =? k)%nat then A else B)) in E.
  - rewrite sum_pick in E by auto. lra.
  - intros k Hk. destruct (Nat.eqb_spec i k) as [<-|Hik]; [unfold A; f_equal; apply map_ext; intros; ring|]. unfold B. apply pair_exchange; auto.
Qed.
End Swap.

(** ** population variance *)
Lemma variance_about (l : list R) (c : R) : l <> [] ->
  population_variance l = sum_upto (length l) (fun j => (nth j l 0 - c)^2) / INR (length l) - (sum_upto (length l) (fun j => nth j l 0 - c) / INR (length l))^2.
Proof.
  intros Hl. unfold population_variance. cbv zeta. assert (Hn : INR (length l) <> 0) by (apply not_0_INR; destruct l; [congruence|discriminate]).
  set (n := length l) in *. set (S1 := sum_upto n (fun i => nth i l 0)).
  assert (X : forall d, sum_upto n (fun j => (nth j l 0 - d)^2) = sum_upto n (fun j => (nth j l 0)^2) - 2 * d * S1 + INR n * d^2).
  { intros d. rewrite (@sum_upto_ext n _ (fun j => (nth j l 0)^2 + ((-2 * d) * nth j l 0 + d^2))) by (intros; ring). rewrite !sum_upto_plus, sum_upto_scale, sum_const. fold S1. ring. }
  rewrite !X. rewrite (@sum_upto_ext n (fun j => nth j l 0 - c) (fun j => nth j l 0 + - c)) by (intros; ring). rewrite sum_upto_plus, sum_const. fold S1. field. auto.
Qed.
