From Coq Require Import Reals.
From Verif Require Import Base ListUtil Pytree PytreeSpec Io TreeUtil TreeUtilSpec TreeUtilProofs Integrator IntegratorSpec IntegratorBasics.
Open Scope nat_scope.
Set Implicit Arguments.

Lemma key_eq_dec : forall a b : key, {a = b} + {a <> b}.
Proof. decide equality; apply Nat.eq_dec. Defined.

(** auxiliary definition of a statement or a proof; models no code of /repo *)
Fixpoint depth (k : key) : nat := match k with PRNGKey _ => 0 | Sub k _ => S (depth k) end.
Lemma depth_chain k n : depth (chain k n) = depth k + n.
Proof. induction n; cbn; lia. Qed.
Lemma chain_inj k a b : chain k a = chain k b -> a = b.
Proof. intros H. apply (f_equal depth) in H. rewrite !depth_chain in H. lia. Qed.

(** any values of the random vectors of different keys are the values of some function [random.normal] *)
Definition sizes (shs : list (list nat)) : nat := list_sum (map size shs).
Lemma sizes_app a b : sizes (a ++ b) = sizes a + sizes b.
Proof. unfold sizes. now rewrite map_app, list_sum_app. Qed.
Lemma slices (f : nat -> R) all : forall shs pre, all = pre ++ shs ->
  flat_map (fun jsh => map (fun a => f (sizes (firstn (fst jsh) all) + a)) (seq 0 (size (snd jsh)))) (combine (seq (length pre) (length shs)) shs)
  = map f (seq (sizes pre) (sizes shs)).
Proof.
  induction shs as [|sh shs IH]; intros pre E; [reflexivity|]. cbn [length seq combine flat_map fst snd].
  assert (Ea : firstn (length pre) all = pre) by (rewrite E, firstn_app, Nat.sub_diag, firstn_all; cbn; apply app_nil_r).
  rewrite Ea. specialize (IH (pre ++ [sh])). rewrite app_length in IH. cbn [length] in IH. rewrite Nat.add_1_r in IH.
  rewrite IH by (rewrite <- app_assoc; exact E). rewrite sizes_app.
  replace (sizes (sh :: shs)) with (size sh + sizes shs) by reflexivity. replace (sizes [sh]) with (size sh) by (unfold sizes; cbn; lia).
  rewrite seq_app, map_app. f_equal. rewrite (seq_plus_map (sizes pre) (size sh)), map_map. reflexivity.
Qed.
Lemma dim_sizes s : wfv s -> dim s = sizes (map ashape (leaves s)).
Proof.
  intros H. unfold dim, ravel, sizes. unfold wfv in H. induction (leaves s) as [|x l IH]; [reflexivity|].
  inversion H as [|? ? Hx Hl]; subst. unfold wf_arr in Hx. change (length (adata x ++ flat_map adata l) = size (ashape x) + list_sum (map size (map ashape l))). rewrite app_length, Hx. f_equal. now apply IH.
Qed.
(** random numbers such that the keys K 0, K 1, ... give the vectors V 0, V 1, ... *)
Definition realised (s : vtree) (m : nat) (K : nat -> key) (V : nat -> nat -> R) : key -> list nat -> list R :=
  let shs := map ashape (leaves s) in
  fun k sh => match k with
    | Sub k0 l => match find (fun j => if key_eq_dec k0 (K j) then true else false) (seq 0 m) with
                  | Some j => map (fun a => V j (sizes (firstn l shs) + a)) (seq 0 (size sh)) | None => repeat 0%R (size sh) end
    | PRNGKey _ => repeat 0%R (size sh) end.
Lemma realised_ok s m (K : nat -> key) (V : nat -> nat -> R) : wfv s -> (forall a b, a < m -> b < m -> K a = K b -> a = b) ->
  normal_ok (realised s m K V) /\ forall j i, j < m -> i < dim s -> xi (realised s m K V) (K j) s i = V j i.
Proof.
  intros Hs HK. unfold realised. set (shs := map ashape (leaves s)).
  split.
  - intros [n|k l] sh; [apply repeat_length|]. destruct (find _ _); [rewrite map_length; apply seq_length|apply repeat_length].
  - intros j i Hj Hi. unfold xi.
    assert (Hf : find (fun j0 => if key_eq_dec (K j) (K j0) then true else false) (seq 0 m) = Some j).
    { destruct (find _ (seq 0 m)) as [j'|] eqn:E.
      - apply find_some in E. destruct E as [E1 E2]. apply in_seq in E1. destruct (key_eq_dec (K j) (K j')) as [e|]; [|discriminate]. f_equal. symmetry. apply HK; auto; lia.
      - exfalso. assert (X := find_none _ _ E j ltac:(apply in_seq; lia)). cbv beta in X. destruct (key_eq_dec (K j) (K j)); congruence. }
    rewrite Hf. fold shs. rewrite <- (map_length ashape (leaves s)). fold shs.
    pose proof (@slices (V j) shs shs [] eq_refl) as E. cbn [length] in E. rewrite E.
    rewrite (nth_indep _ 0%R (V j 0)); [rewrite map_nth, seq_nth; auto|rewrite map_length, seq_length].
    + unfold shs. rewrite <- dim_sizes; auto.
    + unfold shs. rewrite <- dim_sizes; auto.
Qed.
Lemma realise s m (K : nat -> key) (V : nat -> nat -> R) : wfv s -> (forall a b, a < m -> b < m -> K a = K b -> a = b) ->
  exists normal, normal_ok normal /\ forall j i, j < m -> i < dim s -> xi normal (K j) s i = V j i.
Proof. intros Hs HK. exists (realised s m K V). now apply realised_ok. Qed.
