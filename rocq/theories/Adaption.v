(** Model of jax_sgmc/adaption.py:92-457: the adaption decorator, rms_prop, mass_matrix and fisher_information.

    Simplifications: real numbers instead of floats; divisions that may be by zero and square roots of possibly negative numbers use
    the extended numbers of Xreal.v; arrays of different size would be broadcast or raise, here the longer one is cut (the theorems
    assume equal sizes); jnp.linalg.eigh and svd are parameters; the gradients of the log likelihoods of the observations are given. *)
From Coq Require Import Reals.
From Verif Require Import Base Pytree Io TreeUtil Integrator Xreal.
Open Scope R_scope.
Set Implicit Arguments.

Notation vec := (list R) (only parsing).
Notation mat := (list (list R)) (only parsing).
(** jnp [a + b] of vectors (adaption.py:349) *)
Definition vadd (a b : vec) : vec := zip_with Rplus a b.
(** jnp [a - b] of vectors (adaption.py:351, 423) *)
Definition vsub (a b : vec) : vec := zip_with Rminus a b.
(** jnp.multiply (adaption.py:351) *)
Definition vmul (a b : vec) : vec := zip_with Rmult a b.
(** number times vector (adaption.py:349) *)
Definition vscale (c : R) (a : vec) : vec := map (Rmult c) a.

(** [jnp.sqrt]: NaN for negative numbers *)
(** adaption.py:313, 334, 442 *)
Definition xsqrt (x : xr) : xr := match x with Fin a => if Rlt_dec a 0 then NaN else Fin (sqrt a) | PInf => PInf | _ => NaN end.

(** ** The decorator, adaption.py:120-222: arguments are flattened, one-dimensional results are given the structure of the initial
    sample again, others are returned as they are *)
Record ad_state (S : Type) := mkAd { ad_inner : S; ad_template : vtree }.
Arguments mkAd {S}. Arguments ad_inner {S}. Arguments ad_template {S}.

(** ** rms_prop, adaption.py:225-293 *)
Record rms_st := mkRms { rms_v : vec; rms_alpha : R; rms_lmbd : R }.
(** init, adaption.py:238-252 (defaults alpha = 0.9, lmbd = 1e-5), and new_init *)
Definition rms_init (x0 : vtree) (alpha lmbd : R) : ad_state rms_st := mkAd (mkRms (map (fun _ => 1) (ravel x0)) alpha lmbd) x0.
(** update, adaption.py:254-272 *)
Definition rms_update (st : ad_state rms_st) (sample grad : vtree) : ad_state rms_st :=
  let s := ad_inner st in
  mkAd (mkRms (vadd (vscale (rms_alpha s) (rms_v s)) (vscale (1 - rms_alpha s) (map (fun g => g * g) (ravel grad)))) (rms_alpha s) (rms_lmbd s)) (ad_template st).
(** get, adaption.py:274-291 *)
Definition rms_get (st : ad_state rms_st) (sample grad : vtree) : manifold :=
  let s := ad_inner st in
  let g := map (fun v => / (rms_lmbd s + sqrt v)) (rms_v s) in
  let u := fun q => ok_or (ad_template st) (unravel (ad_template st) q) in
  mkManifold (Tens1 (u g)) (Tens1 (u (map sqrt g))) (u (map (fun _ => 0) g)).

(** ** mass_matrix, adaption.py:296-369 *)
Inductive quantity := QVec (v : list xr) | QMat (m : list (list xr)).
(** jnp.outer (adaption.py:353, 426) *)
Definition outer (a b : vec) : mat := map (fun x => map (Rmult x) b) a.
(** sum of matrices (adaption.py:353) *)
Definition madd (a b : mat) : mat := zip_with vadd a b.
(** column of a matrix, for jnp.transpose and jnp.matmul (adaption.py:318) *)
Definition column (m : mat) (j : nat) : vec := map (fun r => nth j r 0) m.
(** jnp.transpose (adaption.py:318) *)
Definition mtranspose (m : mat) : mat := map (column m) (seq 0 (length m)).
(** jnp.matmul (adaption.py:318) *)
Definition mmul (a b : mat) : mat := map (fun r => map (fun j => dot r (column b j)) (seq 0 (length b))) a.
(** jnp.diag (adaption.py:318, 449) *)
Definition mdiag (v : vec) : mat := map (fun i => map (fun j => if (i =? j)%nat then nth i v 0 else 0) (seq 0 (length v))) (seq 0 (length v)).
(** jnp.diag of possibly infinite numbers (adaption.py:336-337) *)
Definition xdiag (v : list xr) : list (list xr) := map (fun i => map (fun j => if (i =? j)%nat then nth i v NaN else Fin 0) (seq 0 (length v))) (seq 0 (length v)).
(** the array ssq: a vector or a matrix (adaption.py:324-327) *)
Inductive ssq_t := SDiag (v : vec) | SFull (m : mat).
(** state of mass_matrix (adaption.py:339) *)
Record mm_st := mkMM { mm_it : nat; mm_mean : vec; mm_ssq : ssq_t; mm_inv : quantity; mm_sqrt : quantity }.
Section Mass.
Variable eigh : mat -> vec * mat.          (* eigenvalues and the matrix whose columns are the eigenvectors *)
Variables (diagonal : bool) (burn_in : nat).
(** _update_matrix, adaption.py:309-319 *)
Definition update_matrix (it : nat) (ssq : ssq_t) : quantity * quantity :=
  match ssq with
  | SDiag s => (QVec (map (fun v => Fin (v / INR it)) s), QVec (map (fun v => xsqrt (xdiv (Fin (INR it)) (Fin v))) s))
  | SFull m => let c := map (map (fun v => v / INR it)) m in
               let (w, v) := eigh c in
               let root := mmul (mtranspose v) (mmul (mdiag (map sqrt w)) v) in
               (QMat (map (map Fin) c), QMat (map (map Fin) root))
  end.
(** init, adaption.py:321-339; the initial covariance is flattened by the decorator, None to the array without elements *)
Definition mm_init (x0 : vtree) (init_cov : option vtree) : ad_state mm_st :=
  let n := length (ravel x0) in
  let cov := match init_cov with Some t => map Fin (ravel t) | None => [] end in
  let root := map (fun c => xdiv (Fin 1) (xsqrt c)) cov in
  mkAd (mkMM 0 (repeat 0 n) (if diagonal then SDiag (repeat 0 n) else SFull (repeat (repeat 0 n) n))
          (if diagonal then QVec cov else QMat (xdiag cov)) (if diagonal then QVec root else QMat (xdiag root))) x0.
(** update, adaption.py:341-362 *)
Definition mm_update (st : ad_state mm_st) (sample : vtree) : ad_state mm_st :=
  let s := ad_inner st in let x := ravel sample in
  let it := S (mm_it s) in
  let mean := vadd (vscale ((INR it - 1) / INR it) (mm_mean s)) (vscale (1 / INR it) x) in
  let ssq := match mm_ssq s with
             | SDiag q => SDiag (vadd q (vmul (vsub x (mm_mean s)) (vsub x mean)))
             | SFull q => SFull (madd q (outer (vsub x (mm_mean s)) (vsub x mean)))
             end in
  let (inv, root) := if (it =? burn_in)%nat then update_matrix it ssq else (mm_inv s, mm_sqrt s) in
  mkAd (mkMM it mean ssq inv root) (ad_template st).
(** get, adaption.py:364-367, and new_get: a vector of the wrong size cannot be unravelled (TypeError) *)
Definition fits_template (t : vtree) (q : quantity) : bool := match q with QVec v => (length v =? length (ravel t))%nat | QMat _ => true end.
(** get with new_get of the decorator (adaption.py:364-367, 194-222) *)
Definition mm_get (st : ad_state mm_st) : res (quantity * quantity) :=
  let s := ad_inner st in
  if (fits_template (ad_template st) (mm_inv s) && fits_template (ad_template st) (mm_sqrt s))%bool then Ok (mm_inv s, mm_sqrt s) else Exc TypeError.
End Mass.

(** ** fisher_information, adaption.py:371-457 *)
Section Fisher.
(** [jnp.linalg.svd]: u and the singular values *)
Variable svd : mat -> mat * vec.
Variable grad_at : nat -> vec.             (* gradient of the log likelihood of observation i of the batch *)
Variables (N n : nat) (sample_grad friction : vec) (step_size : R).
(** adaption.py:411, 413-426: the deviation of observation i *)
Definition deviation (i : nat) : vec := vsub (grad_at i) (map (fun g => g / INR N) sample_grad).
(** adaption.py:428: the sum over the observations of the batch *)
Definition vsum (d : nat) (f : nat -> vec) : vec := fold_left vadd (map f (seq 0 n)) (repeat 0 d).
(** sum over the first axis of matrices (adaption.py:428) *)
Definition msum (d : nat) (f : nat -> mat) : mat := fold_left madd (map f (seq 0 n)) (repeat (repeat 0 d) d).
(** [1 / (n - 1) * ssq], then [0.5 * step_size * v]; for one observation 1 / 0 is inf *)
(** adaption.py:431-432 *)
Definition b_of (ssq : R) : xr := xmul (Fin (0.5 * step_size)) (xmul (xdiv (Fin 1) (Fin (INR n - 1))) (Fin ssq)).
(** adaption.py:423, 428, 431-432 *)
Definition fi_b : list xr := map b_of (vsum (length sample_grad) (fun i => map (fun x => x * x) (deviation i))).
(** [jnp.min]: NaN if an element is NaN *)
(** adaption.py:436 *)
Definition xmin (l : list xr) : xr :=
  fold_left (fun m x => match m, x with NaN, _ | _, NaN => NaN | _, _ => if xlt_dec x m then x else m end) l PInf.
(** diagonal noise, adaption.py:430-443; [where(correction <= 0, ..)] keeps NaN *)
Definition fisher_diag : list xr * list xr :=
  let correction := zip_with (fun f b => xsub (Fin f) b) friction fi_b in
  let smallest := xmin (map (fun c => if xle_dec c (Fin 0) then PInf else c) correction) in
  let positive := map (fun c => if xle_dec c (Fin 0) then smallest else c) correction in
  let corrected := zip_with (fun f p => xsub (Fin f) p) friction positive in
  (map xsqrt positive, map xsqrt corrected).
(** full noise matrix, adaption.py:444-453, for n > 1: products of a matrix and the *vector* of the roots of the singular values *)
Definition fi_b_full : mat :=
  map (map (fun s => 0.5 * step_size * (1 / (INR n - 1) * s))) (msum (length sample_grad) (fun i => outer (deviation i) (deviation i))).
(** adaption.py:449-453 *)
Definition fisher_full : vec * vec :=
  let (u_cb, s_cb) := svd (zip_with vsub (mdiag friction) fi_b_full) in
  let (u, s) := svd fi_b_full in
  (map (fun r => dot r (map sqrt s_cb)) u_cb, map (fun r => dot r (map sqrt s)) u).
End Fisher.
