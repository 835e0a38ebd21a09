(** Floating point numbers without rounding: a real, an infinity or NaN; operations as in IEEE 754 / numpy. *)
From Coq Require Import Reals Lra.
Open Scope R_scope.

(** numbers of jax and numpy without rounding; no code of /repo *)
Inductive xr := Fin (r : R) | PInf | NInf | NaN.

(** IEEE addition; no code of /repo *)
Definition xadd (x y : xr) : xr :=
  match x, y with
  | Fin a, Fin b => Fin (a + b)
  | NaN, _ | _, NaN => NaN
  | PInf, NInf | NInf, PInf => NaN
  | PInf, _ | _, PInf => PInf
  | NInf, _ | _, NInf => NInf
  end.
(** IEEE negation; no code of /repo *)
Definition xopp (x : xr) : xr := match x with Fin a => Fin (- a) | PInf => NInf | NInf => PInf | NaN => NaN end.
(** IEEE subtraction; no code of /repo *)
Definition xsub (x y : xr) : xr := xadd x (xopp y).
(** sign of a nonzero number times infinity *)
(** IEEE rules; no code of /repo *)
Definition xinf (r : R) : xr := if Rlt_dec 0 r then PInf else if Rlt_dec r 0 then NInf else NaN.
(** IEEE multiplication; no code of /repo *)
Definition xmul (x y : xr) : xr :=
  match x, y with
  | Fin a, Fin b => Fin (a * b)
  | NaN, _ | _, NaN => NaN
  | Fin a, PInf | PInf, Fin a => xinf a
  | Fin a, NInf | NInf, Fin a => xopp (xinf a)
  | PInf, PInf | NInf, NInf => PInf
  | PInf, NInf | NInf, PInf => NInf
  end.
(** x / y (zero is positive) *)
(** IEEE division; no code of /repo *)
Definition xdiv (x y : xr) : xr :=
  match x, y with
  | Fin a, Fin b => if Req_EM_T b 0 then xinf a else Fin (a / b)
  | NaN, _ | _, NaN => NaN
  | Fin _, _ => Fin 0
  | PInf, Fin b => if Rlt_dec b 0 then NInf else PInf
  | NInf, Fin b => if Rlt_dec b 0 then PInf else NInf
  | _, _ => NaN
  end.
(** x ** y; negative bases are not needed, the value for them is NaN (numpy differs for integral y) *)
(** jnp.power (scheduler.py:479, 513-518) *)
Definition xpow (x y : xr) : xr :=
  match x, y with
  | Fin a, Fin b =>
      if Rlt_dec 0 a then Fin (Rpower a b)
      else if Req_EM_T a 0 then (if Rlt_dec 0 b then Fin 0 else if Rlt_dec b 0 then PInf else Fin 1)
      else NaN
  | PInf, Fin b => if Rlt_dec 0 b then PInf else if Rlt_dec b 0 then Fin 0 else Fin 1
  | _, _ => NaN
  end.
(** comparisons; False if one is NaN *)
(** IEEE comparison; no code of /repo *)
Definition xlt (x y : xr) : Prop :=
  match x, y with
  | Fin a, Fin b => a < b
  | NaN, _ | _, NaN => False
  | NInf, NInf | PInf, _ | _, NInf => False
  | NInf, _ | _, PInf => True
  end.
(** IEEE comparison; no code of /repo *)
Definition xle (x y : xr) : Prop := xlt x y \/ (x = y /\ x <> NaN).
(** IEEE comparison as a boolean; no code of /repo *)
Definition xlt_dec x y : {xlt x y} + {~ xlt x y}.
Proof. destruct x, y; simpl; auto using Rlt_dec. Defined.
(** IEEE comparison as a boolean; no code of /repo *)
Definition xle_dec x y : {xle x y} + {~ xle x y}.
Proof.
  destruct (xlt_dec x y) as [H|H]; [left; left; exact H|].
  destruct x as [a| | |], y as [b| | |]; try (right; intros [H1|[H1 H2]]; congruence || contradiction).
  - destruct (Req_EM_T a b) as [->|Hn]; [left; right; split; congruence|right; intros [H1|[H1 H2]]; congruence || contradiction].
  - left; right; split; congruence.
  - left; right; split; congruence.
Defined.
(** specification, no code of /repo *)
Definition xfinite (x : xr) : Prop := exists r, x = Fin r.

Lemma xle_fin a b : xle (Fin a) (Fin b) <-> a <= b.
Proof.
  unfold xle. simpl. split.
  - intros [H|[H _]]; [lra|inversion H; lra].
  - intros H. destruct (Req_dec a b) as [->|]; [right; split; congruence|left; lra].
Qed.
Lemma xpow_pos a b : 0 < a -> xpow (Fin a) (Fin b) = Fin (Rpower a b).
Proof. intros H. simpl. destruct (Rlt_dec 0 a); [reflexivity|contradiction]. Qed.
Lemma xpow_zero_neg b : b < 0 -> xpow (Fin 0) (Fin b) = PInf.
Proof. intros H. simpl. destruct (Rlt_dec 0 0); [lra|]. destruct (Req_EM_T 0 0); [|lra]. destruct (Rlt_dec 0 b); [lra|]. destruct (Rlt_dec b 0); [reflexivity|lra]. Qed.
Lemma xpow_inf_neg b : b < 0 -> xpow PInf (Fin b) = Fin 0.
Proof. intros H. simpl. destruct (Rlt_dec 0 b); [lra|]. destruct (Rlt_dec b 0); [reflexivity|lra]. Qed.
Lemma xdiv_fin a b : b <> 0 -> xdiv (Fin a) (Fin b) = Fin (a / b).
Proof. intros H. simpl. destruct (Req_EM_T b 0); [contradiction|reflexivity]. Qed.
Lemma xinf_pos r : 0 < r -> xinf r = PInf.
Proof. intros H. unfold xinf. destruct (Rlt_dec 0 r); [reflexivity|contradiction]. Qed.
Lemma xinf_0 : xinf 0 = NaN.
Proof. unfold xinf. destruct (Rlt_dec 0 0); [lra|reflexivity]. Qed.
