From Coq Require Import Reals Lra.
From Verif Require Import Base TreeUtil TreeUtilSpec TreeUtilProofs Integrator IntegratorSpec IntegratorBasics ExpectSpec.
Open Scope R_scope.
Set Implicit Arguments.
Section E.
Variables (W : Type) (E : (W -> R) -> R).
Hypothesis HE : expectation E.
Lemma E_ext X Y : (forall w, X w = Y w) -> E X = E Y. Proof. apply HE. Qed.
Lemma E_plus X Y : E (fun w => X w + Y w) = E X + E Y. Proof. apply HE. Qed.
Lemma E_scale a X : E (fun w => a * X w) = a * E X. Proof. apply HE. Qed.
Lemma E_zero : E (fun _ => 0) = 0.
Proof. rewrite (@E_ext (fun _ => 0) (fun _ => 0 * 0)) by (intros; ring). rewrite (E_scale 0 (fun _ => 0)). ring. Qed.
Lemma E_sum n (X : nat -> W -> R) : E (fun w => sum_upto n (fun k => X k w)) = sum_upto n (fun k => E (X k)).
Proof.
  induction n as [|n IH]; [unfold sum_upto; cbn; apply E_zero|]. rewrite sum_upto_S.
  rewrite (@E_ext _ (fun w => sum_upto n (fun k => X k w) + X n w)) by (intros; now rewrite sum_upto_S). rewrite E_plus, IH. reflexivity.
Qed.
(** second moments of a x + b S y *)
Lemma moments_affine n a b m (x y : W -> nat -> R) (C : nat -> nat -> R) :
  second_moments E n x x C -> second_moments E n y y unit_matrix -> second_moments E n x y (fun _ _ => 0) ->
  second_moments E n (fun w i => a * x w i + b * mulv m n (y w) i) (fun w i => a * x w i + b * mulv m n (y w) i)
    (fun i j => a * a * C i j + b * b * outer n (tens_entry m) i j).
Proof.
  intros Hx Hy Hxy i j Hi Hj.
  rewrite (@E_ext _ (fun w => a * a * (x w i * x w j) + (a * b * (x w i * mulv m n (y w) j) + (a * b * (x w j * mulv m n (y w) i) + b * b * (mulv m n (y w) i * mulv m n (y w) j))))) by (intros; ring).
  rewrite !E_plus.
  assert (Z : forall p q, (p < n)%nat -> (q < n)%nat -> E (fun w => x w p * mulv m n (y w) q) = 0).
  { intros p q Hp Hq. unfold mulv. rewrite (@E_ext _ (fun w => sum_upto n (fun k => tens_entry m q k * (x w p * y w k)))) by (intros; rewrite <- sum_upto_scale; apply sum_upto_ext; intros; ring).
    rewrite (E_sum n (fun k w => tens_entry m q k * (x w p * y w k))). rewrite (@sum_upto_ext n _ (fun _ => 0)); [apply sum_upto_zero; reflexivity|].
    intros k Hk. rewrite E_scale, (Hxy p k) by auto. ring. }
  rewrite (E_scale (a * a) (fun w => x w i * x w j)), (E_scale (a * b) (fun w => x w i * mulv m n (y w) j)), (E_scale (a * b) (fun w => x w j * mulv m n (y w) i)).
  rewrite (E_scale (b * b) (fun w => mulv m n (y w) i * mulv m n (y w) j)).
  rewrite !Z, (Hx i j) by auto.
  assert (Q : E (fun w => mulv m n (y w) i * mulv m n (y w) j) = outer n (tens_entry m) i j).
  { unfold mulv. rewrite (@E_ext _ (fun w => sum_upto n (fun k => sum_upto n (fun l => tens_entry m i k * tens_entry m j l * (y w k * y w l))))).
    2:{ intros w. rewrite Rmult_comm, <- sum_upto_scale. apply sum_upto_ext. intros k Hk. rewrite Rmult_comm, <- sum_upto_scale. apply sum_upto_ext. intros l Hl. ring. }
    rewrite (E_sum n (fun k w => sum_upto n (fun l => tens_entry m i k * tens_entry m j l * (y w k * y w l)))). unfold outer. apply sum_upto_ext. intros k Hk.
    rewrite (E_sum n (fun l w => tens_entry m i k * tens_entry m j l * (y w k * y w l))).
    rewrite (@sum_upto_ext n _ (fun l => if (k =? l)%nat then tens_entry m i k * tens_entry m j l else 0)).
    2:{ intros l Hl. rewrite E_scale, (Hy k l) by auto. unfold unit_matrix. destruct (k =? l)%nat; ring. }
    rewrite (@sum_upto_delta n (fun l => tens_entry m i k * tens_entry m j l) k Hk). reflexivity. }
  rewrite Q. ring.
Qed.
End E.
