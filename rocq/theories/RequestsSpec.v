(** What clients of [_Requests] observe: chains j, each executed by d replicas that hold a token
    of their own, call in an arbitrary interleaving. *)
From Verif Require Import Base Requests.
Set Implicit Arguments.

Section Replicas.
Context {D : Type}.
(** the r-th cache content that the data loader produces for chain j *)
Variable stream : nat -> nat -> D.

(** A data loader whose chains are independent streams (this is what C06 proves for
    NumpyDataLoader): the state counts how often each chain was advanced. *)
Definition stream_get (c : nat -> nat) (j : nat) : (nat -> nat) * res D :=
  (fun x => if x =? j then S (c j) else c x, Ok (stream j (c j))).

Record sys := mkSys {
  y_req : rstate (nat -> nat) D;
  y_tok : nat -> nat -> token;          (* chain -> replica -> token it holds *)
  y_log : nat -> nat -> list D }.       (* chain -> replica -> data received so far *)

Definition sys_init : sys :=
  mkSys (requests_init (fun _ => 0)) (fun j _ => TInit j) (fun _ _ => []).

Definition upd2 {A} (f : nat -> nat -> A) (j i : nat) (v : A) : nat -> nat -> A :=
  fun x y => if (x =? j) && (y =? i) then v else f x y.

(** replica i of chain j requests its next cache *)
Definition sys_step (d : nat) (strict : bool) (s : sys) (ji : nat * nat) : sys * res D :=
  let (j, i) := ji in
  let (r', out) := request stream_get (y_req s) j (y_tok s j i) d strict in
  match out with
  | Ok (data, t) => (mkSys r' (upd2 (y_tok s) j i t) (upd2 (y_log s) j i (y_log s j i ++ [data])), Ok data)
  | Exc e => (mkSys r' (y_tok s) (y_log s), Exc e)
  end.

(** number of requests replica i of chain j makes in a schedule *)
Definition count (j i : nat) (sched : list (nat * nat)) : nat :=
  length (filter (fun x => (fst x =? j) && (snd x =? i)) sched).
Definition max_count (d j : nat) (sched : list (nat * nat)) : nat :=
  fold_right Nat.max 0 (map (fun i => count j i sched) (seq 0 d)).
End Replicas.
