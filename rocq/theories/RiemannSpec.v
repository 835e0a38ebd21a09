(** The improper Riemann integral over the phase space of VolumeSpec.v: a concrete integral for C58 and C59.

    Continuous functions with bounded support are integrated by Riemann sums over cubes; a nonnegative continuous function by the supremum of the integrals of the
    continuous functions with bounded support below it; other continuous functions by positive and negative part. *)
From Coq Require Import Reals List.
From Coquelicot Require Rbar Lub.
From Verif Require Import Base TreeUtil TreeUtilSpec Integrator IntegratorSpec BalanceSpec VolumeSpec.
Open Scope R_scope.
Set Implicit Arguments.

Definition coord_dec (a b : coord) : {a = b} + {a <> b}.
Proof. decide equality; apply Nat.eq_dec. Defined.
(** all coordinates *)
Definition coords (d m : nat) : list coord :=
  map CPos (seq 0 d) ++ map CMom (seq 0 d) ++ flat_map (fun j => map (CNoise j) (seq 0 d)) (seq 0 m).
(** change coordinate c to t *)
Definition put (z : phase) (c : coord) (t : R) : phase := fun c' => if coord_dec c' c then t else z c'.
(** Riemann sum of f over the cube [-M, M)^cs with cubes of edge length 2^-k, in the coordinates cs *)
Fixpoint riemann_sum (M k : nat) (cs : list coord) (f : phase -> R) (z : phase) : R :=
  match cs with
  | [] => f z
  | c :: r => sum_upto (2 * M * 2 ^ k) (fun i => / 2 ^ k * riemann_sum M k r f (put z c (INR i / 2 ^ k - INR M)))
  end.
Section Dim.
Variables d m : nat.
(** f vanishes outside of the open cube (-M, M)^(2 d + m d) *)
Definition supported (M : nat) (f : phase -> R) : Prop := forall z c, inside d m c -> INR M <= Rabs (z c) -> f z = 0.
(** continuous with bounded support *)
Definition test_function (f : phase -> R) : Prop := continuous d m f /\ exists M, supported M f.
(** v is the limit of the Riemann sums of f for larger and larger cubes that are divided finer and finer *)
Definition riemann_limit (f : phase -> R) (v : R) : Prop := forall e, 0 < e -> exists K, forall M k, (K <= M)%nat -> (K <= k)%nat ->
  Rabs (riemann_sum M k (coords d m) f (fun _ => 0) - v) < e.
(** integrals of the test functions between 0 and f *)
Definition below (f : phase -> R) (v : R) : Prop := exists g, test_function g /\ (forall z, 0 <= g z <= f z) /\ riemann_limit g v.
(** integral of a nonnegative function *)
Definition upper (f : phase -> R) : R := Rbar.real (Lub.Lub_Rbar (below f)).
Definition riemann_integral (f : phase -> R) : R := upper (fun z => Rmax (f z) 0) - upper (fun z => Rmax (- f z) 0).
Definition riemann_integrable (f : phase -> R) : Prop := continuous d m f /\ exists B, forall v, below (fun z => Rabs (f z)) v -> v <= B.
End Dim.
(** product over coordinates *)
Definition prod_over (l : list coord) (g : coord -> R) : R := fold_right Rmult 1 (map g l).
(** a function of the phase space that decays fast enough: 1 / (1 + |t|)^2 in every coordinate *)
Definition decay (l : list coord) (z : phase) : R := prod_over l (fun c => / (1 + Rabs (z c)) ^ 2).

(** U is a continuous function of the elements of a pytree like s *)
Definition continuous_function (s : vtree) (U : vtree -> R) : Prop := forall t, like s t -> forall e, 0 < e -> exists del, 0 < del /\
  forall t', like s t' -> (forall i, (i < dim s)%nat -> Rabs (el t' i - el t i) < del) -> Rabs (U t' - U t) < e.
(** f is a continuous function of the elements of two pytrees like s *)
Definition continuous_observable (s : vtree) (f : vtree -> vtree -> R) : Prop := forall x p, like s x -> like s p -> forall e, 0 < e -> exists del, 0 < del /\
  forall x' p', like s x' -> like s p' -> (forall i, (i < dim s)%nat -> Rabs (el x' i - el x i) < del /\ Rabs (el p' i - el p i) < del) -> Rabs (f x' p' - f x p) < e.
(** the density exp(-U / T) decays fast enough *)
Definition decays (s : vtree) (U : vtree -> R) (T : R) : Prop := exists C, forall x, like s x -> exp (- U x / T) <= C * prod_upto (dim s) (fun i => / (1 + Rabs (el x i)) ^ 2).
