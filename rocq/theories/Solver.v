(** Model of mcmc and sgmc, jax_sgmc/solver.py:65-217.

    Simplifications: a solver is given by the type of its states, the number of schedules its update takes, and the
    functions update and get; a wrong number of schedules raises when the loop is traced, before it is executed (lax.scan
    traces its body even for zero iterations).  [list_vmap] over the scheduler states is [map] (C48).  jit is the identity.
    [loading] (NotImplementedError) is not modelled. *)
From Coq Require Import Reals ZArith.
From Verif Require Import Base Pytree Io Xreal Scheduler.
Open Scope nat_scope.
Set Implicit Arguments.

(** the triplet returned by a solver (init is called by the user); stats is None or a dictionary *)
(** solver.py:188-218 *)
Record solver (V : Type) := mkSolver {
  so_state : Type;
  so_schedules : nat;
  so_update : so_state -> list schedule -> so_state * option stats;
  so_get : so_state -> tree V
}.

(** result of postprocess: sample_count and samples *)
(** io.py:761-772, 874-880 *)
Definition result (V : Type) : Type := nat * tree (list V).

(** the triplet of a saving strategy; W is the state of the world (the data collector on the host).  postprocess can wait for
    ever (None). *)
(** io.py:245-252 *)
Record saving (V W : Type) := mkSaving {
  sa_state : Type;
  sa_init : W -> tree V -> Z -> W * res sa_state;
  sa_save : W -> sa_state -> bool -> tree V -> W * res sa_state;
  sa_post : W -> sa_state -> W * option (res (result V))
}.

Section Savings.
Context {V : Type}.
Variable zeros_like : V -> V.
(** io.no_save; [jnp.zeros] with a negative dimension raises (the class of the exception depends on the version of jax) *)
(** io.py:775-879 *)
Definition no_saving : saving V unit :=
  mkSaving
    (fun _ sample k => (tt, if (k <? 0)%Z then Exc TypeError else Ok (ns_init zeros_like sample (Z.to_nat k))))
    (fun _ st keep sample => (tt, ns_save st keep sample))
    (fun _ st => (tt, Some (Ok (ns_postprocess st)))).
(** io.save with a MemoryCollector; [onp.zeros] with a negative dimension raises ValueError.  The result of the callback is
    not seen by the loop. *)
(** io.py:626-773 *)
Definition collector_saving : saving V (mcollector V) :=
  mkSaving
    (fun m sample k => if (k <? 0)%Z then (m, Exc ValueError) else sv_init zeros_like m sample (Z.to_nat k))
    (fun m st keep sample => let '(m', _, st') := sv_save m st keep sample in (m', Ok st'))
    (fun m st => sv_postprocess m st).
End Savings.

(** python's map over chains (solver.py:162-184) *)
Fixpoint map_res {A B} (f : A -> res B) (l : list A) : res (list B) :=
  match l with
  | [] => Ok []
  | x :: r => let* y := f x in let* ys := map_res f r in Ok (y :: ys)
  end.

Section Mcmc.
Variable V : Type.
Variables (ss te : specific xr unit) (bi th : specific bool Z) (pb : bool).
Variable so : solver V.
Notation sched := (sched_state ss te bi th).
Notation kwargs := (sched_kw ss te bi th).

(** [partial(scheduler_next, **stats)] if there are statistics, solver.py:111-116 *)
Definition stats_of (x : option stats) : stats := match x with Some s => s | None => no_stats end.
(** [keep], solver.py:102-104 *)
Definition keep_of (schedules : list schedule) : bool :=
  match schedules with s :: _ => sch_burn_in s && sch_accept s | [] => false end.

Section Strategy.
Variable W : Type.
Variable sa : saving V W.

(** [_init], solver.py:130-151; schedulers=None is the empty list of helper schedulers *)
Definition mcmc_init (w : W) (s : so_state so) (iterations : nat) (schedulers : list kwargs) : W * res (list sched * sa_state sa) :=
  match sched_init ss te bi th pb iterations (no_kw ss te bi th) with
  | Exc e => (w, Exc e)
  | Ok (main, samples_collected) =>
      match map_res (fun kw => let* r := sched_init ss te bi th pb iterations kw in Ok (fst r)) schedulers with
      | Exc e => (w, Exc e)
      | Ok helpers =>
          match sa_init sa w (so_get so s) samples_collected with
          | (w', Ok st) => (w', Ok (main :: helpers, st))
          | (w', Exc e) => (w', Exc e)
          end
      end
  end.

(** [_uninitialized_update], solver.py:94-123 *)
Definition mcmc_step (w : W) (c : so_state so * list sched * sa_state sa) : W * res (so_state so * list sched * sa_state sa) :=
  let '(s, scs, st) := c in
  let schedules := map (sched_get ss te bi th) scs in
  let (s', x) := so_update so s schedules in
  let keep := keep_of schedules in
  match sa_save sa w st keep (so_get so s') with
  | (w', Exc e) => (w', Exc e)
  | (w', Ok st') => (w', Ok (s', map (fun c => sched_update ss te bi th c (stats_of x)) scs, st'))
  end.

(** [lax.scan], solver.py:153-160 *)
Fixpoint mcmc_loop (n : nat) (w : W) (c : so_state so * list sched * sa_state sa) : W * res (so_state so * list sched * sa_state sa) :=
  match n with
  | 0 => (w, Ok c)
  | S n' => match mcmc_step w c with
            | (w', Ok c') => mcmc_loop n' w' c'
            | (w', Exc e) => (w', Exc e)
            end
  end.
(** [_run] with the check at tracing *)
(** solver.py:94-128, 152-160 *)
Definition mcmc_scan (w : W) (iterations : nat) (c : so_state so * list sched * sa_state sa) : W * res (sa_state sa) :=
  if length (snd (fst c)) =? so_schedules so then
    match mcmc_loop iterations w c with
    | (w', Ok c') => (w', Ok (snd c'))
    | (w', Exc e) => (w', Exc e)
    end
  else (w, Exc TypeError).

(** one pass of the loop in run_single, solver.py:166-170 *)
Definition mcmc_chain (w : W) (s : so_state so) (iterations : nat) (schedulers : list kwargs) : W * option (res (result V)) :=
  match mcmc_init w s iterations schedulers with
  | (w1, Exc e) => (w1, Some (Exc e))
  | (w1, Ok (scs, st)) =>
      match mcmc_scan w1 iterations (s, scs, st) with
      | (w2, Exc e) => (w2, Some (Exc e))
      | (w2, Ok st') => sa_post sa w2 st'
      end
  end.

(** run with strategy "map", solver.py:162-171 *)
Fixpoint mcmc_map (w : W) (states : list (so_state so)) (iterations : nat) (schedulers : list kwargs) : W * option (res (list (result V))) :=
  match states with
  | [] => (w, Some (Ok []))
  | s :: r =>
      match mcmc_chain w s iterations schedulers with
      | (w1, None) => (w1, None)
      | (w1, Some (Exc e)) => (w1, Some (Exc e))
      | (w1, Some (Ok y)) =>
          match mcmc_map w1 r iterations schedulers with
          | (w2, Some (Ok ys)) => (w2, Some (Ok (y :: ys)))
          | (w2, o) => (w2, o)
          end
      end
  end.

(** sequential initialisation of all chains, solver.py:173-175 *)
Fixpoint mcmc_init_all (w : W) (states : list (so_state so)) (iterations : nat) (schedulers : list kwargs)
  : W * res (list (so_state so * list sched * sa_state sa)) :=
  match states with
  | [] => (w, Ok [])
  | s :: r =>
      match mcmc_init w s iterations schedulers with
      | (w1, Exc e) => (w1, Exc e)
      | (w1, Ok (scs, st)) =>
          match mcmc_init_all w1 r iterations schedulers with
          | (w2, Exc e) => (w2, Exc e)
          | (w2, Ok cs) => (w2, Ok ((s, scs, st) :: cs))
          end
      end
  end.
(** an unknown strategy, solver.py:173-182; unpacking zip() of no chains raises ValueError *)
Definition mcmc_unknown (w : W) (states : list (so_state so)) (iterations : nat) (schedulers : list kwargs) : W * res (list (result V)) :=
  match mcmc_init_all w states iterations schedulers with
  | (w', Exc e) => (w', Exc e)
  | (w', Ok []) => (w', Exc ValueError)
  | (w', Ok _) => (w', Exc NotImplementedError)
  end.
End Strategy.

(** ** strategy "vmap", solver.py:172-184.
    All chains advance in lock step.  stop_vmap (util/stop_vmap.py:3-4) is the identity, so vmap turns the [lax.cond] in save
    into a selection: both branches are executed for all chains. *)
Section Vmap.
Variables (W St : Type).
(** save for all chains at once: saving states, keep flags and samples *)
Variable vsave : W -> list (St * bool * tree V) -> W * res (list St).

(** solver.py:94-128 under list_vmap (solver.py:169-176) *)
Definition vmap_step (w : W) (cs : list (so_state so * list sched * St)) : W * res (list (so_state so * list sched * St)) :=
  let news := map (fun c => let '(s, scs, st) := c in
                            let schedules := map (sched_get ss te bi th) scs in
                            let (s', x) := so_update so s schedules in
                            (s', map (fun c => sched_update ss te bi th c (stats_of x)) scs, (st, keep_of schedules, so_get so s'))) cs in
  match vsave w (map snd news) with
  | (w', Exc e) => (w', Exc e)
  | (w', Ok sts) => (w', Ok (combine (map fst news) sts))
  end.
(** lax.scan in solver.py:152-160 *)
Fixpoint vmap_loop (n : nat) (w : W) (cs : list (so_state so * list sched * St)) : W * res (list (so_state so * list sched * St)) :=
  match n with
  | 0 => (w, Ok cs)
  | S n' => match vmap_step w cs with
            | (w', Ok cs') => vmap_loop n' w' cs'
            | (w', Exc e) => (w', Exc e)
            end
  end.
End Vmap.

(** postprocess_saving mapped over the chains, solver.py:184 *)
Fixpoint post_all (W : Type) (sa : saving V W) (w : W) (sts : list (sa_state sa)) : W * option (res (list (result V))) :=
  match sts with
  | [] => (w, Some (Ok []))
  | st :: r => match sa_post sa w st with
               | (w1, Some (Ok y)) => match post_all sa w1 r with
                                      | (w2, Some (Ok ys)) => (w2, Some (Ok (y :: ys)))
                                      | (w2, o) => (w2, o)
                                      end
               | (w1, Some (Exc e)) => (w1, Some (Exc e))
               | (w1, None) => (w1, None)
               end
  end.

(** solver.py:162-184 with strategy='vmap' *)
Definition mcmc_vmap (W : Type) (sa : saving V W) (vsave : W -> list (sa_state sa * bool * tree V) -> W * res (list (sa_state sa)))
    (w : W) (states : list (so_state so)) (iterations : nat) (schedulers : list kwargs) : W * option (res (list (result V))) :=
  match mcmc_init_all sa w states iterations schedulers with
  | (w1, Exc e) => (w1, Some (Exc e))
  | (w1, Ok []) => (w1, Some (Exc ValueError))
  | (w1, Ok cs) =>
      if length (schedulers) + 1 =? so_schedules so then
        match vmap_loop vsave iterations w1 cs with
        | (w2, Exc e) => (w2, Some (Exc e))
        | (w2, Ok cs') => post_all sa w2 (map snd cs')
        end
      else (w1, Some (Exc TypeError))
  end.
End Mcmc.

Section VmapSave.
Context {V : Type}.
Variable zeros_like : V -> V.
(** no_save under vmap: the updated data are computed for every chain, then selected by keep *)
(** io.py:854-872 under vmap *)
Definition ns_vsave (w : unit) (rows : list (@ns_state V * bool * tree V)) : unit * res (list (@ns_state V)) :=
  (w, map_res (fun row => let '(st, keep, sample) := row in
                          let* a := ns_save_sample st sample in Ok (if keep : bool then a else st)) rows).
(** save under vmap: the callback is executed with the batched arguments of all chains (io.py:691-694), only the counter is
    selected by keep *)
Definition sv_vsave (m : mcollector V) (rows : list (sv_state * bool * tree V)) : mcollector V * res (list sv_state) :=
  let m' := fst (host_save_batched m (map (fun row => let '(st, _, sample) := row in (sv_chain st, leaves sample)) rows)) in
  (m', Ok (map (fun row => let '(st, keep, _) := row in if keep : bool then mkSv (sv_chain st) (S (sv_saved st)) else st) rows)).

(** run, solver.py:162-184, for the two saving strategies *)
Inductive strategy := StMap | StVmap | StOther.
Section Run.
Variables (ss te : specific xr unit) (bi th : specific bool Z) (pb : bool) (so : solver V).
(** solver.py:65-186 with io.no_save *)
Definition run_no_save (strat : strategy) (states : list (so_state so)) (iterations : nat) (schedulers : list (sched_kw ss te bi th))
  : option (res (list (result V))) :=
  match strat with
  | StMap => snd (mcmc_map pb so (no_saving zeros_like) tt states iterations schedulers)
  | StVmap => snd (mcmc_vmap pb so (no_saving zeros_like) ns_vsave tt states iterations schedulers)
  | StOther => Some (snd (mcmc_unknown pb so (no_saving zeros_like) tt states iterations schedulers))
  end.
(** solver.py:65-186 with io.save(MemoryCollector) *)
Definition run_collector (strat : strategy) (m : mcollector V) (states : list (so_state so)) (iterations : nat) (schedulers : list (sched_kw ss te bi th))
  : mcollector V * option (res (list (result V))) :=
  match strat with
  | StMap => mcmc_map pb so (collector_saving zeros_like) m states iterations schedulers
  | StVmap => mcmc_vmap pb so (collector_saving zeros_like) sv_vsave m states iterations schedulers
  | StOther => let (m', r) := mcmc_unknown pb so (collector_saving zeros_like) m states iterations schedulers in (m', Some r)
  end.
End Run.
End VmapSave.

(** sgmc, solver.py:188-217: update and get of the integrator *)
Definition sgmc {V St : Type} (update_integrator : St -> schedule -> St) (get_integrator : St -> tree V) : solver V :=
  mkSolver 1 (fun s schs => match schs with sch :: _ => (update_integrator s sch, None) | [] => (s, None) end) get_integrator.
