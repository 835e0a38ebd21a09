(** Model of parallel_tempering, amagold and sggmc, jax_sgmc/solver.py:220-577.

    Simplifications: the integrator, the full potential and the mass adaption are arbitrary functions; numbers are reals,
    infinities or NaN; [random.split], [random.uniform] are functions of the key; the types of positions, momenta, model states and
    data states are abstract. *)
From Coq Require Import Reals ZArith.
From Verif Require Import Base Pytree Xreal Scheduler Solver.
Open Scope R_scope.
Set Implicit Arguments.

(** [jnp.log] of a uniform random number in [0,1), [jnp.exp] *)
(** solver.py:284, 391, 532 *)
Definition xlog (u : R) : xr := if Rlt_dec 0 u then Fin (ln u) else NInf.
(** solver.py:419, 422, 563, 565 *)
Definition xexp (x : xr) : xr := match x with Fin r => Fin (exp r) | PInf => PInf | NInf => Fin 0 | NaN => NaN end.
(** solver.py:288, 391, 532 *)
Definition xltb (x y : xr) : bool := if xlt_dec x y then true else false.
(** IEEE comparison; no code of /repo *)
Definition xleb (x y : xr) : bool := if xle_dec x y then true else false.

Section Random.
Variable Key : Type.
Variables (split2 : Key -> Key * Key) (split3 : Key -> Key * Key * Key).
Variable uniform : Key -> R.

(** ** parallel_tempering, solver.py:220-299 *)
Section Tempering.
Variables (V Sample Chain : Type).
Variable init_integrator : Sample -> Key -> Chain.
Variable update_integrator : Chain -> schedule -> Chain.
Variable get_integrator : Chain -> tree V.
Variables (variance potential : Chain -> xr).
Variable sa_schedule : nat -> xr.

(** solver.py:259 *)
Record pt_state := mkPt {
  pt_normal : Chain; pt_hot : Chain; pt_ssq : xr; pt_F : xr; pt_step : nat; pt_key : Key
}.
(** init, solver.py:248-260 *)
Definition pt_init (normal_sample tempered_sample : Sample) (ssq_init : xr) (key : Key) (F : xr) : pt_state :=
  let '(k, k1, k2) := split3 key in
  mkPt (init_integrator normal_sample k1) (init_integrator tempered_sample k2) ssq_init F 0 k.
(** the new estimate, solver.py:274-277 *)
Definition pt_new_ssq (st : pt_state) (normal : Chain) : xr :=
  let step_size := sa_schedule (S (pt_step st)) in
  xadd (xmul (xsub (Fin 1) step_size) (pt_ssq st)) (xmul step_size (variance normal)).
(** log_s, solver.py:280-282 *)
Definition pt_log_s (tn th : xr) (ssq F : xr) (normal hot : Chain) : xr :=
  let temps := xsub (xdiv (Fin 1) tn) (xdiv (Fin 1) th) in
  let correction := xdiv (xmul temps ssq) F in
  xmul temps (xsub (xsub (potential normal) (potential hot)) correction).
(** update, solver.py:264-294 *)
Definition pt_update (st : pt_state) (normal_schedule hot_schedule : schedule) : pt_state :=
  let normal := update_integrator (pt_normal st) normal_schedule in
  let hot := update_integrator (pt_hot st) hot_schedule in
  let ssq := pt_new_ssq st normal in
  let log_s := pt_log_s (sch_temperature normal_schedule) (sch_temperature hot_schedule) ssq (pt_F st) normal hot in
  let (key, split) := split2 (pt_key st) in
  let log_u := xlog (uniform split) in
  let (normal', hot') := if xltb log_u log_s then (normal, hot) else (hot, normal) in
  mkPt normal' hot' ssq (pt_F st) (S (pt_step st)) key.
(** get, solver.py:296-297 *)
Definition pt_get (st : pt_state) : tree V := get_integrator (pt_normal st).
(** solver.py:220-299 *)
Definition parallel_tempering : solver V :=
  mkSolver 2 (fun st schs => match schs with n :: h :: _ => (pt_update st n h, None) | _ => (st, None) end) pt_get.
End Tempering.

(** ** amagold, solver.py:301-432, and sggmc, solver.py:434-577 *)
Section MH.
Variables (V Pos Mom Model Data Full Mass MassState : Type).
(** [util.tree_scale] of a momentum *)
Variable scale : R -> Mom -> Mom.
Variable full_potential : Pos -> Full -> Model -> xr * (Full * Model).
Variable init_full : Full.
(** mass adaption: init, update, get *)
Variable mass_adaption : option ((Pos -> MassState) * (MassState -> Pos -> MassState) * (MassState -> Mass)).
(** solver.py:325-362, 462-498 *)
Definition mass_init (p : Pos) : option MassState := match mass_adaption with Some (i, _, _) => Some (i p) | None => None end.
(** solver.py:365-424, 501-567 *)
Definition mass_update (m : option MassState) (p : Pos) : option MassState :=
  match mass_adaption, m with Some (_, u, _), Some s => Some (u s p) | _, _ => None end.
(** solver.py:365-424, 501-567 *)
Definition mass_get (m : option MassState) : option Mass :=
  match mass_adaption, m with Some (_, _, g), Some s => Some (g s) | _, _ => None end.

(** integrator.LeapfrogState *)
(** integrator.py:35-52 *)
Record lf_state := mkLf { lf_positions : Pos; lf_momentum : Mom; lf_model : Model; lf_potential : xr; lf_data : Data; lf_key : Key }.
Section Amagold.
Variable lf_init : Pos -> Key -> option Mass -> Model -> lf_state.
Variable lf_update : lf_state -> schedule -> option Mass -> lf_state.
Variable lf_get : lf_state -> tree V.

(** solver.py:27-44 *)
Record am_state := mkAm {
  am_integrator : lf_state; am_potential : xr; am_full : Full; am_key : Key; am_ratio : xr * xr; am_mass : option MassState
}.
(** init, solver.py:325-361 *)
Definition am_init (sample : Pos) (key : Key) (model : Model) : am_state :=
  let mass_state := mass_init sample in
  let mass := mass_get mass_state in
  let '(u, (full, model')) := full_potential sample init_full model in
  let (k, split) := split2 key in
  mkAm (lf_init sample k mass model') u full split (Fin 0, Fin 0) mass_state.
(** log_alpha, solver.py:385-386 *)
Definition am_log_alpha (old new energy : xr) : xr :=
  let l := xadd (xsub old new) energy in if xltb (Fin 0) l then Fin 0 else l.
(** update, solver.py:364-424 *)
Definition am_update (st : am_state) (sch : schedule) : am_state * stats :=
  let mass := mass_get (am_mass st) in
  let (key, split) := split2 (am_key st) in
  let proposal := lf_update (am_integrator st) sch mass in
  let '(new, (full, model')) := full_potential (lf_positions proposal) (am_full st) (lf_model proposal) in
  let log_alpha := am_log_alpha (am_potential st) new (lf_potential proposal) in
  let accept := xltb (xlog (uniform split)) log_alpha in
  let '(mh, potential, direction, mh_model) :=
    if accept then (proposal, new, 1, model') else (am_integrator st, am_potential st, -1, lf_model (am_integrator st)) in
  let integrator := mkLf (lf_positions mh) (scale direction (lf_momentum mh)) mh_model (lf_potential mh) (lf_data proposal) (lf_key proposal) in
  (mkAm integrator potential full key (xexp log_alpha, sch_step sch) (mass_update (am_mass st) (lf_positions mh)),
   mkStats (Some (xexp log_alpha))).
(** get, solver.py:426-430: the sample of the integrator with additional entries *)
Variable am_extend : tree V -> xr * xr -> tree V.
(** solver.py:426-430 *)
Definition am_get (st : am_state) : tree V := am_extend (lf_get (am_integrator st)) (am_ratio st).
(** solver.py:301-432 *)
Definition amagold : solver V :=
  mkSolver 1 (fun st schs => match schs with sch :: _ => let (st', x) := am_update st sch in (st', Some x) | [] => (st, None) end) am_get.
End Amagold.

(** integrator.ObaboState *)
(** integrator.py:55-75 *)
Record ob_state := mkOb { ob_positions : Pos; ob_momentum : Mom; ob_model : Model; ob_potential : xr; ob_data : Data; ob_key : Key;
                          ob_kin_start : xr; ob_kin_end : xr }.
Section Sggmc.
Variable ob_init : Pos -> Key -> Model -> ob_state.
Variable ob_update : ob_state -> schedule -> option Mass -> ob_state.
Variable ob_get : ob_state -> tree V.

(** solver.py:46-63 *)
Record sg_state := mkSg {
  sg_integrator : ob_state; sg_potential : xr; sg_full : Full; sg_key : Key; sg_ratio : xr * xr * xr; sg_mass : option MassState
}.
(** init, solver.py:462-498 *)
Definition sg_init (sample : Pos) (key : Key) (model : Model) : sg_state :=
  let '(u, (full, model')) := full_potential sample init_full model in
  let (k, split) := split2 key in
  mkSg (ob_init sample k model') u full split (Fin 0, Fin 0, Fin 0) (mass_init sample).
(** log_alpha, solver.py:518-523 *)
Definition sg_log_alpha (temperature old new kin_start kin_end : xr) : xr :=
  let l := xmul (xdiv (Fin (-1)) temperature) (xsub (xadd (xsub new old) kin_end) kin_start) in
  if xleb l (Fin 0) then l else Fin 0.
(** update, solver.py:500-567 *)
Definition sg_update (st : sg_state) (sch : schedule) : sg_state * stats :=
  let mass := mass_get (sg_mass st) in
  let (key, split) := split2 (sg_key st) in
  let proposal := ob_update (sg_integrator st) sch mass in
  let '(new, (full, model')) := full_potential (ob_positions proposal) (sg_full st) (ob_model proposal) in
  let log_alpha := sg_log_alpha (sch_temperature sch) (sg_potential st) new (ob_kin_start proposal) (ob_kin_end proposal) in
  let accept := xltb (xlog (uniform split)) log_alpha in
  let '(mh, potential, mh_model) :=
    if accept then (proposal, new, model') else (sg_integrator st, sg_potential st, ob_model (sg_integrator st)) in
  let integrator := mkOb (ob_positions mh) (ob_momentum mh) mh_model (ob_potential mh) (ob_data proposal) (ob_key proposal) (Fin 0) (Fin 0) in
  (mkSg integrator potential full key (xexp log_alpha, sch_step sch, xsub (ob_kin_end proposal) (ob_kin_start proposal))
        (mass_update (sg_mass st) (ob_positions mh)),
   mkStats (Some (xexp log_alpha))).
(** get, solver.py:569-575 *)
Variable sg_extend : tree V -> xr * xr * xr -> xr -> tree V.
(** solver.py:569-575 *)
Definition sg_get (st : sg_state) : tree V := sg_extend (ob_get (sg_integrator st)) (sg_ratio st) (sg_potential st).
(** solver.py:434-577 *)
Definition sggmc : solver V :=
  mkSolver 1 (fun st schs => match schs with sch :: _ => let (st', x) := sg_update st sch in (st', Some x) | [] => (st, None) end) sg_get.
End Sggmc.
End MH.
End Random.
