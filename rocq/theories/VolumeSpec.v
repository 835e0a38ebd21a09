(** Vocabulary of the statements about the Metropolis-Hastings steps as maps of the phase space. *)
From Coq Require Import Reals.
From Verif Require Import Base TreeUtil TreeUtilSpec Integrator IntegratorSpec.
Open Scope R_scope.
Set Implicit Arguments.

(** Coordinates of the extended phase space: elements of the position, of the momentum and of the random vectors 0, 1, ... *)
Inductive coord := CPos (i : nat) | CMom (i : nat) | CNoise (j i : nat).
Definition phase := coord -> R.
(** the coordinates if position and momentum have d elements and m random vectors are drawn: 2 d + m d coordinates *)
Definition inside (d m : nat) (c : coord) : Prop :=
  match c with CPos i => (i < d)%nat | CMom i => (i < d)%nat | CNoise j i => (j < m)%nat /\ (i < d)%nat end.
Definition continuous (d m : nat) (f : phase -> R) : Prop := forall z e, 0 < e -> exists del, 0 < del /\
  forall z', (forall c, inside d m c -> Rabs (z' c - z c) < del) -> Rabs (f z' - f z) < e.
(** The maps which are composed of elementary maps with Jacobian determinant 1 or -1: shears, sign changes, exchanges of coordinates.
    (They preserve the Lebesgue measure on R^(2 d + m d) by the transformation formula / Fubini.) *)
Inductive preserves_volume (d m : nat) : (phase -> phase) -> Prop :=
  (** add to some coordinates continuous functions of the other coordinates *)
| pv_shear : forall (S : coord -> bool) (f : coord -> phase -> R),
    (forall c, S c = true -> inside d m c) ->
    (forall c, S c = true -> continuous d m (f c)) ->
    (forall c z z', S c = true -> (forall c', inside d m c' -> S c' = false -> z c' = z' c') -> f c z = f c z') ->
    preserves_volume d m (fun z c => if S c then z c + f c z else z c)
  (** change the sign of some coordinates *)
| pv_flip : forall S : coord -> bool, (forall c, S c = true -> inside d m c) -> preserves_volume d m (fun z c => if S c then - z c else z c)
  (** exchange coordinates *)
| pv_exchange : forall p : coord -> coord, (forall c, p (p c) = c) -> (forall c, inside d m c -> inside d m (p c)) -> (forall c, ~ inside d m c -> p c = c) ->
    preserves_volume d m (fun z c => z (p c))
| pv_compose : forall f g, preserves_volume d m f -> preserves_volume d m g -> preserves_volume d m (fun z => g (f z))
| pv_ext : forall f g, preserves_volume d m f -> (forall z c, f z c = g z c) -> preserves_volume d m g.

(** the gradient depends continuously on the position *)
Definition continuous_gradient {Batch} (s : vtree) (G : vtree -> Batch -> vtree) : Prop := forall b t, like s t -> forall e, 0 < e -> exists del, 0 < del /\
  forall t', like s t' -> (forall i, (i < dim s)%nat -> Rabs (el t' i - el t i) < del) -> forall i, (i < dim s)%nat -> Rabs (el (G t' b) i - el (G t b) i) < e.
(** z consists of the elements of position x and momentum p and the random vectors that are drawn with the keys K 0, ..., K (m - 1) *)
Definition consists_of (s : vtree) (m : nat) (z : phase) (x p : vtree) (normal : key -> list nat -> list R) (K : nat -> key) : Prop :=
  forall i, (i < dim s)%nat -> z (CPos i) = el x i /\ z (CMom i) = el p i /\ forall j, (j < m)%nat -> z (CNoise j i) = xi normal (K j) s i.

(** An integral over the phase space: linear, and invariant under the maps that preserve the volume, on its domain of integrable functions.
    (Lebesgue integral with the integrable functions; or sums over finite subsets.) *)
Record integral (d m : nat) (integrable : (phase -> R) -> Prop) (I : (phase -> R) -> R) : Prop := mkIntegral {
  integral_ext : forall f g, (forall z, f z = g z) -> integrable f -> integrable g /\ I f = I g;
  integral_add : forall f g, integrable f -> integrable g -> integrable (fun z => f z + g z) /\ I (fun z => f z + g z) = I f + I g;
  integral_scale : forall c f, integrable f -> integrable (fun z => c * f z) /\ I (fun z => c * f z) = c * I f;
  integral_volume : forall F f, preserves_volume d m F -> integrable f -> integrable (fun z => f (F z)) /\ I (fun z => f (F z)) = I f }.
(** mean over a uniformly distributed u of a function that has one value below some threshold and another one above it *)
Definition uniform_mean (g : R -> R) (v : R) : Prop := exists p A B, 0 <= p <= 1 /\ (forall u, 0 <= u < p -> g u = A) /\ (forall u, p <= u < 1 -> g u = B) /\ v = p * A + (1 - p) * B.
Definition sum_over {A} (l : list A) (f : A -> R) : R := fold_right Rplus 0 (map f l).
