(** Model of the device variants of the data access functions, jax_sgmc/data/core.py:838-863,
    912-961, with DeviceNumpyDataLoader (numpy_loader.py:122-144), and of the checks of
    random_reference_data (core.py:499-520) and full_reference_data (core.py:541-560).

    Simplifications: as in DataCore.v; random.split and random.randint are parameters. *)
From Verif Require Import Base NumpyLoader DataCore Hdf5Loader.
From Coq Require String.
Set Implicit Arguments.

(** [tree_index] with an index array, core.py:642-660 *)
Fixpoint tree_take {obs} (t : list (String.string * list obs)) (idx : list nat) : res (list (String.string * list obs)) :=
  match t with
  | [] => Ok []
  | (k, rows) :: t' => let* r := jtake rows idx in let* rest := tree_take t' idx in Ok ((k, r) :: rest)
  end.

(** the isinstance tests, core.py:509-520, 548-556 *)
Inductive loader_kind := HostKind | DeviceKind | OtherKind.

(** sizes are python integers *)
(** core.py:500-520 *)
Definition check_random (kind : loader_kind) (N ca mb : Z) : res unit :=
  if (N <? mb)%Z then Exc ValueError                                   (* core.py:501-503 *)
  else if ((ca <=? 0)%Z || (mb <=? 0)%Z)%bool then Exc ValueError       (* core.py:504-506 *)
  else match kind with
       | HostKind => Ok tt
       | DeviceKind => if (ca =? 1)%Z then Ok tt else Exc ValueError    (* core.py:513-514 *)
       | OtherKind => Exc TypeError                                     (* core.py:518-520 *)
       end.

Section Device.
Context {obs : Type}.
Variable data : list (String.string * list obs).     (* get_full_data() *)
Variable N : nat.                                    (* observation_count *)

(** [full_reference_data(loader, ca, mb)] for a device loader, core.py:541-558: returns the
    batch size that is used, which is cached_batches_count (line 552-553: second argument of
    [_full_reference_data_device] is mb_size) *)
Definition dev_full (ca mb : nat) : res nat :=
  if N <? mb then Exc ValueError
  else if ca =? 0 then Exc ZeroDivisionError else Ok ca.

(** [init_fn(offset)], core.py:931-938 *)
Definition dev_init (offset : nat) : res nat :=
  if N <=? offset then Exc ValueError else Ok offset.

(** [batch_fn], core.py:940-956; mask = onp.ones(mb_size) (core.py:928) *)
Definition dev_batch (bs line : nat) : res (nat * mbatch obs) :=
  let indices := map (fun j => (j + line) mod N) (seq 0 bs) in
  let* last := jindex indices (bs - 1) in
  let* sel := tree_take data indices in
  Ok ((last + 1) mod N, (sel, repeat true bs)).

Section Scan.
Context {C R : Type}.
Variable fn : mbatch obs -> list bool -> C -> R * C.
Variable bs : nat.
(** [lax.scan] of the body, core.py:562-587, 609-612 *)
Fixpoint dev_scan (n it line : nat) (carry : C) : res (nat * (list R * C)) :=
  match n with
  | 0 => Ok (line, ([], carry))
  | S n' =>
      let* lb := dev_batch bs line in
      let (r, carry') := fn (snd lb) (map_mask N bs it) carry in
      let* rest := dev_scan n' (S it) (fst lb) carry' in
      Ok (fst rest, (r :: fst (snd rest), snd (snd rest)))
  end.
(** masking=True, core.py:589-615 *)
Definition dev_map (line : nat) (carry : C) : res (nat * (list R * C)) :=
  dev_scan (num_iterations N bs) 0 line carry.
End Scan.

(** masking=False, core.py:617-627: concatenate and truncate *)
Definition dev_map_unmasked {C R} (fn : mbatch obs -> C -> list R * C) (bs line : nat) (carry : C)
  : res (nat * (list R * C)) :=
  let* rest := dev_map (fun b _ c => fn b c) bs line carry in
  Ok (fst rest, (slice (concat (fst (snd rest))) 0 N, snd (snd rest))).

(** successive maps, threading the data state *)
(** repeated calls of core.py:586-628 with the state of core.py:931-955 *)
Fixpoint dev_maps {C R} (bs line : nat) (jobs : list ((mbatch obs -> list bool -> C -> R * C) * C))
  : list (res (list R * C)) :=
  match jobs with
  | [] => []
  | (fn, c) :: jobs' =>
      match dev_map fn bs line c with
      | Ok (line', r) => Ok r :: dev_maps bs line' jobs'
      | Exc e => [Exc e]
      end
  end.

(** [get_random_data], numpy_loader.py:128-141, and [batch_fn] of the random device variant,
    core.py:847-858 *)
Section Random.
Context {K : Type}.
Variable split : K -> K * K.
Variable randint : K -> nat -> nat -> list nat.     (* key, count, maxval *)
(** numpy_loader.py:128-141, core.py:847-858 *)
Definition dev_random_batch (mb : nat) (key : K) : res (K * mbatch obs) :=
  let (key', sub) := split key in
  let* sel := tree_take data (randint sub mb N) in
  Ok (key', (sel, repeat true mb)).
(** repeated calls of core.py:847-858 *)
Fixpoint dev_random_batches (mb n : nat) (key : K) : res (list (mbatch obs)) :=
  match n with
  | 0 => Ok []
  | S n' => let* kb := dev_random_batch mb key in
            let* rest := dev_random_batches mb n' (fst kb) in Ok (snd kb :: rest)
  end.
End Random.
End Device.
