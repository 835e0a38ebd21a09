(** Model of jax_sgmc/scheduler.py.

    Simplifications: numbers are reals, infinities or NaN (no rounding); cyclic schedules and the cyclic temperature
    only raise NotImplementedError in the code and are not modelled; what the progress bar prints is in Progress.v, its
    counter is.  [state[iteration]] clamps an index that is out of range, as jax does. *)
From Coq Require Import Reals Lra ZArith.
From Verif Require Import Base Xreal.
Open Scope R_scope.

(** statistics of the solver that are passed to update (solver.py:111-116) *)
Record stats := mkStats { st_acceptance : option xr }.
(** no keyword argument acceptance_ratio (scheduler.py:173) *)
Definition no_stats : stats := mkStats None.

(** specific_scheduler, scheduler.py:60-90: a triplet; [sp_kw] are the keyword arguments of init, [sp_nokw] none.  init of
    burn-in and thinning additionally returns a number of samples (X = Z), the others nothing (X = unit). *)
Record specific (F X : Type) := mkSpecific {
  sp_state : Type;
  sp_kw : Type;
  sp_nokw : sp_kw;
  sp_init : nat -> sp_kw -> res (sp_state * X);
  sp_update : sp_state -> nat -> stats -> sp_state;
  sp_get : sp_state -> nat -> stats -> F
}.
Arguments mkSpecific {F X}. Arguments sp_state {F X}. Arguments sp_kw {F X}. Arguments sp_nokw {F X}.
Arguments sp_init {F X}. Arguments sp_update {F X}. Arguments sp_get {F X}.

(** an argument of init overrides the value given at construction *)
(** scheduler.py:140-145, 160-165 *)
Definition kwarg {A} (kw : option A) (default : A) : A := match kw with Some x => x | None => default end.

(** ** constant_temperature, scheduler.py:245-276 *)
Definition constant_temperature (tau : xr) : specific xr unit :=
  mkSpecific xr (option xr) None (fun _ kw => Ok (kwarg kw tau, tt)) (fun s _ _ => s) (fun s _ _ => s).

(** ** polynomial_step_size, scheduler.py:447-491 *)
(** [jnp.arange(iterations)] and the formula, scheduler.py:479-482 *)
Definition poly_schedule (iterations : nat) (a b gamma : xr) : list xr :=
  map (fun n => xmul a (xpow (xadd b (Fin (INR n))) (xopp gamma))) (seq 0 iterations).
(** scheduler.py:469-481 *)
Definition poly_init (iterations : nat) (a b gamma : xr) : res (list xr) :=
  if negb (if xle_dec (Fin 0) gamma then true else false) then Exc AssertionError
  else if negb (if xlt_dec (Fin 0) a then true else false) then Exc AssertionError
  else if negb (if xlt_dec (Fin 0) b then true else false) then Exc AssertionError
  else Ok (poly_schedule iterations a b gamma).
(** [state[iteration]] *)
(** jax indexing clamps (scheduler.py:487-489, 538-540) *)
Definition clamp_get (s : list xr) (i : nat) : xr := nth (Nat.min i (length s - 1)) s NaN.
(** scheduler.py:469-473 *)
Definition poly_kw : Type := option xr * option xr * option xr.
(** scheduler.py:447-491 *)
Definition polynomial_step_size (a b gamma : xr) : specific xr unit :=
  mkSpecific (list xr) poly_kw (None, None, None)
    (fun n kw => let '(ka, kb, kg) := kw in
                 let* s := poly_init n (kwarg ka a) (kwarg kb b) (kwarg kg gamma) in Ok (s, tt))
    (fun s _ _ => s) (fun s i _ => clamp_get s i).

(** ** polynomial_step_size_first_last, scheduler.py:494-542 *)
Definition find_ab (its : nat) (gamma first last : xr) : xr * xr :=
  let ginv := xpow gamma (Fin (-1)) in
  let fpow := xpow first (xopp ginv) in
  let lpow := xpow last (xopp ginv) in
  let apow := xdiv (xsub lpow fpow) (Fin (INR its - 1)) in
  let a := xpow apow (xopp gamma) in
  let b := xpow (xdiv first a) (xopp ginv) in
  (a, b).
(** scheduler.py:521-532 *)
Definition first_last_init (iterations : nat) (first last gamma : xr) : res (list xr) :=
  if negb (if xlt_dec (Fin 0) gamma then true else false) then Exc AssertionError
  else if negb (if xle_dec last first then true else false) then Exc AssertionError
  else let (a, b) := find_ab iterations gamma first last in poly_init iterations a b gamma.
(** scheduler.py:494-542 *)
Definition polynomial_step_size_first_last (first last gamma : xr) : specific xr unit :=
  mkSpecific (list xr) poly_kw (None, None, None)
    (fun n kw => let '(kf, kl, kg) := kw in
                 let* s := first_last_init n (kwarg kf first) (kwarg kl last) (kwarg kg gamma) in Ok (s, tt))
    (fun s _ _ => s) (fun s i _ => clamp_get s i).

(** ** adaptive_step_size, scheduler.py:376-444 *)
Record ad_params := mkAd {
  ad_burn_in : nat; ad_initial : R; ad_t0 : R; ad_kappa : R; ad_speed : R; ad_target : R
}.
(** scheduler.py:403-417 *)
Record ad_state := mkAs {
  as_burn_in : nat; as_xbar : R; as_hbar : R; as_alpha : R; as_t0 : R; as_kappa : R; as_gamma : R; as_mu : R
}.
(** scheduler.py:403-417 *)
Definition ad_init (p : ad_params) : ad_state :=
  mkAs (ad_burn_in p) (ln (ad_initial p)) 0 (ad_target p) (ad_t0 p) (ad_kappa p) (ad_speed p) (ln (10 * ad_initial p)).
(** [target] is the argument of adaptive_step_size (closure), scheduler.py:424-425 *)
Definition ad_update (target : R) (s : ad_state) (iteration : nat) (acceptance : R) : ad_state :=
  let m := INR (iteration + 1) in
  let h1 := as_hbar s * (1 - 1 / (m + as_t0 s)) in
  let h2 := h1 + 1 / (m + as_t0 s) * (target - acceptance) in
  let x := as_mu s - sqrt m / as_gamma s * h2 in
  let lr := Rpower m (- as_kappa s) in
  let x1 := as_xbar s * (1 - lr) + lr * x in
  let x2 := if (iteration <? as_burn_in s)%nat then x1 else as_xbar s in
  mkAs (as_burn_in s) x2 h2 (as_alpha s) (as_t0 s) (as_kappa s) (as_gamma s) (as_mu s).
(** scheduler.py:440-443 *)
Definition ad_get (s : ad_state) : R := exp (as_xbar s).
(** NaN: an acceptance ratio that is not a number makes h_bar NaN for ever, and x_bar if it is still adapted (NaN plus or times
    anything is NaN); the flags say that h_bar / x_bar are NaN.  (An infinite ratio does not occur, it is treated as NaN.) *)
(** scheduler.py:419-438 with a NaN acceptance ratio *)
Record adx_state := mkAdx { adx_state_of : ad_state; adx_h_nan : bool; adx_x_nan : bool }.
(** scheduler.py:419-438 *)
Definition adx_update (target : R) (s : adx_state) (iteration : nat) (acceptance : xr) : adx_state :=
  let h := match acceptance with Fin _ => adx_h_nan s | _ => true end in
  let a := match acceptance with Fin a => a | _ => 0 end in
  mkAdx (ad_update target (adx_state_of s) iteration a) h
        (if (iteration <? as_burn_in (adx_state_of s))%nat then adx_x_nan s || h else adx_x_nan s).
(** scheduler.py:440-443 *)
Definition adx_get (s : adx_state) : xr := if adx_x_nan s then NaN else Fin (ad_get (adx_state_of s)).
(** scheduler.py:376-445 *)
Definition adaptive_step_size (p : ad_params) : specific xr unit :=
  mkSpecific adx_state (option ad_params) None
    (fun _ kw => Ok (mkAdx (ad_init (kwarg kw p)) false false, tt))
    (fun s i st => adx_update (ad_target p) s i (kwarg (st_acceptance st) (Fin 0)))
    (fun s _ _ => adx_get s).

(** ** initial_burn_in, scheduler.py:567-593; true: not subject to burn-in *)
Definition initial_burn_in (n : nat) : specific bool Z :=
  mkSpecific nat (option nat) None
    (fun iterations kw => Ok (kwarg kw n, (Z.of_nat iterations - Z.of_nat (kwarg kw n))%Z))
    (fun s _ _ => s) (fun s i _ => (s <=? i)%nat).

(** ** default thinning, scheduler.py:124-129 *)
Definition accept_all : specific bool Z :=
  mkSpecific unit unit tt (fun iterations _ => Ok (tt, Z.of_nat iterations)) (fun s _ _ => s) (fun _ _ _ => true).

(** ** random_thinning, scheduler.py:599-666 *)
Section Thinning.
Variable Key : Type.
(** [random.choice(key, jnp.arange(len(p)), shape=(k,), replace=False, p=p)] *)
Variable choice : Key -> list xr -> nat -> list nat.

(** the scan over the schedules, scheduler.py:632-645 *)
Fixpoint th_probs {X Y} (ss : specific xr X) (bi : specific bool Y) (s : sp_state ss) (b : sp_state bi) (its : list nat) : list xr :=
  match its with
  | [] => []
  | i :: r => xmul (sp_get ss s i no_stats) (if sp_get bi b i no_stats then Fin 1 else Fin 0)
              :: th_probs ss bi (sp_update ss s i no_stats) (sp_update bi b i no_stats) r
  end.
(** [jnp.count_nonzero] *)
(** scheduler.py:647 *)
Definition xnonzero (x : xr) : bool := match x with Fin r => if Req_EM_T r 0 then false else true | _ => true end.
(** jnp.count_nonzero (scheduler.py:647) *)
Definition count_nonzero (p : list xr) : nat := length (filter xnonzero p).

(** scheduler.py:621-655 *)
Definition th_init {X Y} (ss : specific xr X) (bi : specific bool Y) (selections : nat) (key : Key) (iterations : nat) : res (list nat * Z) :=
  let* s := sp_init ss iterations (sp_nokw ss) in
  let* b := sp_init bi iterations (sp_nokw bi) in
  let probs := th_probs ss bi (fst s) (fst b) (seq 0 iterations) in
  if (selections <=? count_nonzero probs)%nat then Ok (choice key probs selections, Z.of_nat selections)
  else Exc AssertionError.
(** keyword arguments: other selections (other schedules and keys can be given too; not modelled) *)
(** scheduler.py:599-666 *)
Definition random_thinning {X Y} (ss : specific xr X) (bi : specific bool Y) (selections : nat) (key : Key) : specific bool Z :=
  mkSpecific (list nat) (option nat) None
    (fun iterations kw => th_init ss bi (kwarg kw selections) key iterations)
    (fun s _ _ => s) (fun s i _ => existsb (Nat.eqb i) s).
End Thinning.

(** ** init_scheduler, scheduler.py:93-237 *)
Record schedule := mkSchedule { sch_step : xr; sch_temperature : xr; sch_burn_in : bool; sch_accept : bool }.

Section Scheduler.
Variables (ss te : specific xr unit) (bi th : specific bool Z) (progress_bar : bool).

(** scheduler.py:63-69 *)
Record sched_state := mkSched {
  sc_iteration : nat; sc_total : nat;
  sc_step : sp_state ss; sc_temp : sp_state te; sc_burn : sp_state bi; sc_thin : sp_state th;
  sc_collected : option nat      (* counter of the progress bar *)
}.
(** argument scheduler_kwargs, scheduler.py:134-136 *)
Record sched_kw := mkKw { kw_step : sp_kw ss; kw_temp : sp_kw te; kw_burn : sp_kw bi; kw_thin : sp_kw th }.
(** scheduler.py:142, 145, 162, 165 *)
Definition no_kw : sched_kw := mkKw (sp_nokw ss) (sp_nokw te) (sp_nokw bi) (sp_nokw th).

(** init_fn, scheduler.py:134-174; the second component is static_information.samples_collected *)
Definition sched_init (iterations : nat) (kw : sched_kw) : res (sched_state * Z) :=
  let* t := sp_init th iterations (kw_thin kw) in
  let* b := sp_init bi iterations (kw_burn kw) in
  let total_samples := Z.min (snd t) (snd b) in
  let* s := sp_init ss iterations (kw_step kw) in
  let* tm := sp_init te iterations (kw_temp kw) in
  Ok (mkSched 0 iterations (fst s) (fst tm) (fst b) (fst t) (if progress_bar then Some 0%nat else None), total_samples).

(** update_fn, scheduler.py:173-212, with step_fn of the progress bar, scheduler.py:332-364: burn-in and thinning are
    evaluated for the old iteration with the new states *)
Definition sched_update (st : sched_state) (x : stats) : sched_state :=
  let i := sc_iteration st in
  let b := sp_update bi (sc_burn st) i x in
  let t := sp_update th (sc_thin st) i x in
  mkSched (S i) (sc_total st) (sp_update ss (sc_step st) i x) (sp_update te (sc_temp st) i x) b t
    (match sc_collected st with
     | None => None
     | Some c => Some (c + (if sp_get bi b i x && sp_get th t i x then 1 else 0))%nat
     end).

(** get_fn, scheduler.py:214-235 *)
Definition sched_get (st : sched_state) : schedule :=
  let i := sc_iteration st in
  mkSchedule (sp_get ss (sc_step st) i no_stats) (sp_get te (sc_temp st) i no_stats)
             (sp_get bi (sc_burn st) i no_stats) (sp_get th (sc_thin st) i no_stats).
End Scheduler.

(** default arguments of init_scheduler, scheduler.py:118-129 *)
Definition default_step : specific xr unit := polynomial_step_size (Fin 1) (Fin 1) (Fin 0).
(** scheduler.py:120-121 *)
Definition default_temperature : specific xr unit := constant_temperature (Fin 1).
(** scheduler.py:122-123 *)
Definition default_burn_in : specific bool Z := initial_burn_in 0.
(** scheduler.py:124-129 *)
Definition default_thinning : specific bool Z := accept_all.
