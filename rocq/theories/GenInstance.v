(** A concrete generator that satisfies the oracle assumptions: shows that the hypotheses of the
    loader theorems are satisfiable (and lets the model be executed). *)
From Verif Require Import Base ListUtil NumpyLoader LoaderSpec.

(** permutation number g of seq 0 n: rotation by g mod n *)
Definition rot_perm (g n : nat) : nat * list nat :=
  (S g, skipn (g mod n) (seq 0 n) ++ firstn (g mod n) (seq 0 n)).
(** auxiliary definition of a statement or a proof; models no code of /repo *)
Definition lin_repl (g n k : nat) : nat * list nat :=
  (S g, map (fun j => (3 * g + 2 * j) mod n) (seq 0 k)).

Lemma rot_perm_oracle : perm_oracle rot_perm.
Proof.
  intros g n. simpl. rewrite Permutation_app_comm. now rewrite firstn_skipn.
Qed.
Lemma lin_repl_oracle : repl_oracle lin_repl.
Proof.
  intros g n k. simpl. rewrite map_length, seq_length. split; auto. intros Hn.
  apply Forall_forall. intros x Hx. apply in_map_iff in Hx. destruct Hx as (j & <- & _).
  apply Nat.mod_upper_bound. lia.
Qed.
