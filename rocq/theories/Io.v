(** Model of the sample collection, jax_sgmc/io.py:240-879: JSONCollector, HDF5Collector, MemoryCollector,
    save and no_save.

    Simplifications: the value of a leaf (an array) is an element of a type V; [zeros_like v] is the array of
    zeros of v's shape and dtype.  An array with samples_collected rows is the list of its rows.  Conversions
    between jax and numpy arrays are the identity.  Host callbacks run in program order (host_callback.id_tap). *)
From Coq Require Import String Ascii.
From Verif Require Import Base Pytree PytreeSpec.
Set Implicit Arguments.

(** ** jax.tree_util on several trees *)
(** equality of node types; behaviour of jax.tree_util *)
Definition kind_eq_dec (a b : kind) : {a = b} + {a <> b}.
Proof. decide equality; try apply (list_eq_dec string_dec); apply Nat.eq_dec. Defined.

(** equality of tree structures; behaviour of jax.tree_util *)
Fixpoint same_structb {A B} (t : tree A) (u : tree B) : bool :=
  match t, u with
  | Leaf _, Leaf _ => true
  | Node k ch, Node k' ch' =>
      (if kind_eq_dec k k' then true else false) &&
      (fix go (l : list (tree A)) (l' : list (tree B)) : bool :=
         match l, l' with
         | [], [] => true
         | x :: r, y :: r' => same_structb x y && go r r'
         | _, _ => false
         end) ch ch'
  | _, _ => false
  end.

(** python's zip; behaviour of jax.tree_util *)
Fixpoint zip_with {A B C} (f : A -> B -> C) (l : list A) (l' : list B) : list C :=
  match l, l' with x :: r, y :: r' => f x y :: zip_with f r r' | _, _ => [] end.

(** [tree_map(f, t, u)]: both trees are flattened, the results unflattened with the structure of t; different
    structures raise ValueError.  (jax also accepts a u that has subtrees at the leaves of t.) *)
(** jax.tree_util.tree_map (io.py:841-851) *)
Definition tree_map2 {A B C} (f : A -> B -> C) (t : tree A) (u : tree B) : res (tree C) :=
  if same_structb t u then unflatten t (zip_with f (leaves t) (leaves u)) else Exc ValueError.

Section IO.
Context {V : Type}.
Variable zeros_like : V -> V.

(** ** no_save, io.py:775-879 *)
Record ns_state := mkNs { ns_saved : nat; ns_data : tree (list V) }.

(** [init], io.py:812-836 *)
Definition ns_init (sample : tree V) (samples_collected : nat) : ns_state :=
  mkNs 0 (tree_map (fun leaf => repeat (zeros_like leaf) samples_collected) sample).

(** [_save_sample], io.py:838-852; [data.at[i].set] drops updates that are out of range ([upd] does) *)
Definition ns_save_sample (st : ns_state) (sample : tree V) : res ns_state :=
  let* d := tree_map2 (fun rows v => upd rows (ns_saved st) v) (ns_data st) sample in
  Ok (mkNs (S (ns_saved st)) d).

(** [save], io.py:853-873 *)
Definition ns_save (st : ns_state) (keep : bool) (sample : tree V) : res ns_state :=
  if keep then ns_save_sample st sample else Ok st.

(** the loop that calls save *)
(** repeated calls of io.py:860-872 *)
Fixpoint ns_run (st : ns_state) (calls : list (bool * tree V)) : res ns_state :=
  match calls with
  | [] => Ok st
  | (keep, s) :: r => let* st' := ns_save st keep s in ns_run st' r
  end.

(** [postprocess], io.py:874-877: sample_count and samples *)
Definition ns_postprocess (st : ns_state) : nat * tree (list V) := (ns_saved st, ns_data st).

(** ** MemoryCollector, io.py:502-619 *)
Record mc_chain := mkMc {
  mc_locked : bool;                 (* self._finished[i] *)
  mc_samples : list (list V);       (* self._samples[i] *)
  mc_count : nat;                   (* self._samples_count[i] *)
  mc_treedef : tree unit;           (* self._treedefs[i] *)
  mc_names : list string            (* self._leafnames[i] *)
}.
(** io.py:514-520 *)
Record mcollector := mkMcoll {
  mc_dir : bool;                    (* save_dir was given *)
  mc_chains : list mc_chain;
  mc_npz : list (nat * list (string * list V))   (* written files chain_{i}.npz, newest first *)
}.
(** io.py:514-520 *)
Definition mc_new (dir : bool) : mcollector := mkMcoll dir [] [].

(** ["/".join(s)] for a string s puts a slash between its characters (the names without save_dir) *)
(** io.py:553, 560 *)
Definition join_chars (s : string) : string :=
  join "/" (map (fun c => String c EmptyString) (list_ascii_of_string s)).

(** [register_chain], io.py:525-561 *)
Definition mc_register (m : mcollector) (sample : tree V) (samples_collected : nat) : mcollector * res nat :=
  let ls := leaves sample in
  let names := if mc_dir m then let* ks := dict_keys sample in Ok (map (join "/") ks)
               else Ok (map (fun i => join_chars (append "leaf~" (dec i))) (seq 0 (length ls))) in
  match names with
  | Exc e => (m, Exc e)
  | Ok ns =>
      (mkMcoll (mc_dir m)
         (mc_chains m ++ [mkMc true (map (fun l => repeat (zeros_like l) samples_collected) ls) 0
                            (tree_map (fun _ => tt) sample) ns]) (mc_npz m),
       Ok (length (mc_chains m)))
  end.

(** [leaf[i] = value] for numpy arrays *)
(** io.py:563-574 *)
Definition np_set (rows : list V) (i : nat) (v : V) : res (list V) :=
  if i <? length rows then Ok (upd rows i v) else Exc IndexError.
(** the loop of [save], io.py:572-573; the leaves after the shorter list are untouched *)
Fixpoint np_set_all (cache : list (list V)) (i : nat) (values : list V) : res (list (list V)) :=
  match cache, values with
  | c :: cs, v :: vs => let* c' := np_set c i v in let* cs' := np_set_all cs i vs in Ok (c' :: cs')
  | _, _ => Ok cache
  end.

(** [save], io.py:563-574.  All arrays have the same number of rows, therefore an IndexError is raised before
    anything is written. *)
Definition mc_save (m : mcollector) (c : nat) (values : list V) : mcollector * res unit :=
  match nth_error (mc_chains m) c with
  | None => (m, Exc IndexError)
  | Some ch =>
      match np_set_all (mc_samples ch) (mc_count ch) values with
      | Exc e => (m, Exc e)
      | Ok s => (mkMcoll (mc_dir m)
                   (upd (mc_chains m) c (mkMc (mc_locked ch) s (S (mc_count ch)) (mc_treedef ch) (mc_names ch)))
                   (mc_npz m), Ok tt)
      end
  end.

(** [finalize], io.py:576-591, in two steps: [release] and the write of the npz file *)
Definition mc_release (m : mcollector) (c : nat) : mcollector * res unit :=
  match nth_error (mc_chains m) c with
  | None => (m, Exc IndexError)
  | Some ch =>
      if mc_locked ch
      then (mkMcoll (mc_dir m)
              (upd (mc_chains m) c (mkMc false (mc_samples ch) (mc_count ch) (mc_treedef ch) (mc_names ch)))
              (mc_npz m), Ok tt)
      else (m, Exc RuntimeError)                       (* release unlocked lock *)
  end.
(** io.py:585-591 *)
Definition mc_savez (m : mcollector) (c : nat) : mcollector :=
  if mc_dir m then
    match nth_error (mc_chains m) c with
    | None => m
    | Some ch => mkMcoll (mc_dir m) (mc_chains m)
                   ((c, dict_of (combine (mc_names ch) (mc_samples ch))) :: mc_npz m)
    end
  else m.
(** io.py:576-591 *)
Definition mc_finalize (m : mcollector) (c : nat) : mcollector * res unit :=
  match mc_release m c with
  | (m', Ok _) => (mc_savez m' c, Ok tt)
  | (m', Exc e) => (m', Exc e)
  end.

(** [finished], io.py:593-613; None: the call waits for the lock *)
Definition mc_result (ch : mc_chain) : res (tree (list V)) := unflatten (mc_treedef ch) (mc_samples ch).
(** io.py:593-613 *)
Definition mc_finished (m : mcollector) (c : nat) : option (res (tree (list V))) :=
  match nth_error (mc_chains m) c with
  | None => Some (Exc IndexError)
  | Some ch => if mc_locked ch then None else Some (mc_result ch)
  end.

(** content of the file chain_{c}.npz *)
(** contents of the directory; no code of /repo *)
Fixpoint file_of {X} (c : nat) (fs : list (nat * X)) : option X :=
  match fs with [] => None | (c', x) :: r => if c =? c' then Some x else file_of c r end.
(** contents of the directory; no code of /repo *)
Definition mc_file (m : mcollector) (c : nat) : option (list (string * list V)) := file_of c (mc_npz m).

(** operations on the collector *)
(** the methods of io.py:502-613 *)
Inductive mop := MRegister (sample : tree V) (k : nat) | MSave (c : nat) (values : list V) | MFinalize (c : nat) | MFinished (c : nat).
(** results of io.py:502-613 *)
Inductive mout := OutId (r : res nat) | OutUnit (r : res unit) | OutSamples (r : option (res (tree (list V)))).
(** io.py:502-613 *)
Definition mstep (m : mcollector) (o : mop) : mcollector * mout :=
  match o with
  | MRegister s k => let (m', r) := mc_register m s k in (m', OutId r)
  | MSave c vs => let (m', r) := mc_save m c vs in (m', OutUnit r)
  | MFinalize c => let (m', r) := mc_finalize m c in (m', OutUnit r)
  | MFinished c => (m, OutSamples (mc_finished m c))
  end.

(** ** save, io.py:626-771, with a MemoryCollector *)
(** saving_state: chain id and counter *)
(** io.py:240-243 *)
Record sv_state := mkSv { sv_chain : nat; sv_saved : nat }.

(** [_save] on the host, io.py:686-694: a scalar chain id or batched chain ids and leaves *)
Definition host_save (m : mcollector) (c : nat) (values : list V) : mcollector * res unit := mc_save m c values.
(** io.py:686-694 *)
Fixpoint host_save_batched (m : mcollector) (rows : list (nat * list V)) : mcollector * res unit :=
  match rows with
  | [] => (m, Ok tt)
  | (c, vs) :: r => match mc_save m c vs with
                    | (m', Ok _) => host_save_batched m' r
                    | (m', Exc e) => (m', Exc e)
                    end
  end.

(** [init], io.py:706-728 *)
Definition sv_init (m : mcollector) (sample : tree V) (samples_collected : nat) : mcollector * res sv_state :=
  match mc_register m sample samples_collected with
  | (m', Ok c) => (m', Ok (mkSv c 0))
  | (m', Exc e) => (m', Exc e)
  end.
(** [save], io.py:731-759: the callback is executed only if keep; an exception in the callback is raised in the
    thread of the callback, the counter on the device is incremented nevertheless (io.py:703 result=1).  The second
    component is the result of the callback. *)
Definition sv_save (m : mcollector) (st : sv_state) (keep : bool) (sample : tree V) : mcollector * res unit * sv_state :=
  if keep then (host_save m (sv_chain st) (leaves sample), mkSv (sv_chain st) (S (sv_saved st)))
  else (m, Ok tt, st).
(** [postprocess], io.py:761-771: finalize in a callback, then finished; None: waits for ever *)
Definition sv_postprocess (m : mcollector) (st : sv_state) : mcollector * option (res (nat * tree (list V))) :=
  let m' := fst (mc_finalize m (sv_chain st)) in
  (m', match mc_finished m' (sv_chain st) with
       | Some (Ok t) => Some (Ok (sv_saved st, t))
       | Some (Exc e) => Some (Exc e)
       | None => None
       end).

(** several chains share a collector; calls in any order.  The i-th successful init returns the saving state i. *)
(** the functions of io.py:706-772 *)
Inductive svop := SvInit (sample : tree V) (k : nat) | SvSave (i : nat) (keep : bool) (sample : tree V) | SvPost (i : nat).
(** results of io.py:706-772 *)
Inductive svout := SvId (r : res nat) | SvUnit (r : res unit) | SvResult (r : option (res (nat * tree (list V)))).
(** io.py:706-772 *)
Definition sv_step (s : mcollector * list sv_state) (o : svop) : (mcollector * list sv_state) * svout :=
  let (m, sts) := s in
  match o with
  | SvInit sample k => match sv_init m sample k with
                       | (m', Ok st) => ((m', sts ++ [st]), SvId (Ok (length sts)))
                       | (m', Exc e) => ((m', sts), SvId (Exc e))
                       end
  | SvSave i keep sample => match nth_error sts i with
                            | None => (s, SvUnit (Exc IndexError))
                            | Some st => let '(m', r, st') := sv_save m st keep sample in ((m', upd sts i st'), SvUnit r)
                            end
  | SvPost i => match nth_error sts i with
                | None => (s, SvResult (Some (Exc IndexError)))
                | Some st => let (m', r) := sv_postprocess m st in ((m', sts), SvResult r)
                end
  end.

(** [save(data_collector, checkpoint_every)], io.py:680-682 *)
Definition sv_check (checkpoint_every : nat) : res unit :=
  if checkpoint_every =? 0 then Ok tt else Exc NotImplementedError.

(** ** JSONCollector, io.py:301-375 *)
(** content of a file; [JEmpty]: created or truncated, [JPartial]: being written *)
(** io.py:358-371 *)
Inductive jfile := JEmpty | JPartial | JFull (t : tree (list V)).
(** io.py:310-316 *)
Record jcollector := mkJ {
  j_freq : nat;
  j_samples : list (list (tree V));            (* self._collected_samples *)
  j_count : list nat;                          (* self._sample_count *)
  j_files : list ((nat * nat) * jfile)         (* file (chain, iteration), newest state first *)
}.
(** io.py:310-316 *)
Definition j_new (w : nat) : jcollector := mkJ w [] [] [].

(** contents of the directory; no code of /repo *)
Fixpoint jlookup (key : nat * nat) (fs : list ((nat * nat) * jfile)) : option jfile :=
  match fs with
  | [] => None
  | (k, x) :: r => if (fst key =? fst k) && (snd key =? snd k) then Some x else jlookup key r
  end.
(** contents of the directory; no code of /repo *)
Definition j_file (j : jcollector) (c n : nat) : option jfile := jlookup (c, n) (j_files j).
(** io.py:359-371 *)
Definition j_put (j : jcollector) (key : nat * nat) (x : jfile) : jcollector :=
  mkJ (j_freq j) (j_samples j) (j_count j) ((key, x) :: j_files j).

(** stacking of the samples, io.py:362-365 *)
Fixpoint stack_onto (acc : tree (list V)) (ss : list (tree V)) : res (tree (list V)) :=
  match ss with
  | [] => Ok acc
  | s :: r => let* acc' := tree_map2 (fun col v => col ++ [v]) acc s in stack_onto acc' r
  end.
(** io.py:362-365 *)
Definition stack_samples (ss : list (tree V)) : res (tree (list V)) :=
  match ss with
  | [] => Exc TypeError
  | s :: r => stack_onto (tree_map (fun v => [v]) s) r
  end.

(** [_write_file], io.py:358-371, with the states of the file system in between: touch, open (truncates),
    partially dumped, complete *)
Definition j_write (j : jcollector) (c n : nat) : list jcollector * jcollector * res unit :=
  let j1 := match j_file j c n with Some _ => j | None => j_put j (c, n) JEmpty end in        (* touch *)
  match stack_samples (nth c (j_samples j) []) with
  | Exc e => ([j1], j1, Exc e)
  | Ok t =>
      let j2 := j_put j1 (c, n) JEmpty in                                                     (* open(.., "w") *)
      let j3 := j_put j2 (c, n) JPartial in                                                   (* ujson.dump *)
      let j4 := j_put j3 (c, n) (JFull t) in
      ([j1; j2; j3; j4], j4, Ok tt)
  end.

(** the methods of io.py:322-348 *)
Inductive jop := JRegister | JSave (c : nat) (s : tree V) | JFinalize (c : nat).
(** results of io.py:322-348 *)
Inductive jout := JId (n : nat) | JUnit (r : res unit).

(** one call: the states the system passes through (possible crash points), the final state, the result *)
(** io.py:322-371 *)
Definition jstep_micro (j : jcollector) (o : jop) : list jcollector * jcollector * jout :=
  match o with
  | JRegister =>                                                                    (* io.py:322-331 *)
      let j' := mkJ (j_freq j) (j_samples j ++ [[]]) (j_count j ++ [0]) (j_files j) in
      ([j'], j', JId (length (j_samples j)))
  | JSave c s =>                                                                    (* io.py:333-343 *)
      match nth_error (j_samples j) c with
      | None => ([], j, JUnit (Exc IndexError))
      | Some ss =>
          let n := S (nth c (j_count j) 0) in
          let j' := mkJ (j_freq j) (upd (j_samples j) c (ss ++ [s])) (upd (j_count j) c n) (j_files j) in
          if (0 <? j_freq j) && (n mod j_freq j =? 0) then
            let '(ms, j'', r) := j_write j' c n in (j' :: ms, j'', JUnit r)
          else ([j'], j', JUnit (Ok tt))
      end
  | JFinalize c =>                                                                  (* io.py:345-348 *)
      match nth_error (j_count j) c with
      | None => ([], j, JUnit (Exc IndexError))
      | Some n => if 0 <? n then let '(ms, j', r) := j_write j c n in (ms, j', JUnit r) else ([], j, JUnit (Ok tt))
      end
  end.
(** io.py:322-371 *)
Definition jstep (j : jcollector) (o : jop) : jcollector * jout :=
  let '(_, j', r) := jstep_micro j o in (j', r).

End IO.
Arguments mkNs {V}. Arguments mkMc {V}. Arguments mkMcoll {V}. Arguments mkJ {V}.
Arguments ns_saved {V}. Arguments ns_data {V}.
Arguments mcollector : clear implicits.
Arguments mop : clear implicits.
Arguments mout : clear implicits.
Arguments svop : clear implicits.
Arguments svout : clear implicits.
Arguments jcollector : clear implicits.
Arguments jop : clear implicits.
Arguments jfile : clear implicits.
