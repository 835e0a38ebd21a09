(** Shared vocabulary of the model: exceptions as values, small list helpers that
    correspond to numpy / python primitives.  Definitions only. *)
From Coq Require Export List Arith ZArith Bool Lia Permutation.
Export ListNotations.
Set Implicit Arguments.

(** Python exception classes that the modelled code raises (or that the python /
    numpy / jax runtime raises at the cited place). *)
(** no code of /repo *)
Inductive exc : Type :=
| ValueError | TypeError | KeyError | IndexError | AttributeError | AssertionError
| RuntimeError | NotImplementedError | UnboundLocalError | ZeroDivisionError.

(** Result of a python call: value or raised exception. *)
(** no code of /repo *)
Inductive res (A : Type) : Type :=
| Ok  (a : A)
| Exc (e : exc).
Arguments Ok {A} a.
Arguments Exc {A} e.

(** python's propagation of exceptions; no code of /repo *)
Definition bind {A B} (x : res A) (f : A -> res B) : res B :=
  match x with Ok a => f a | Exc e => Exc e end.
Notation "'let*' x ':=' e 'in' f" :=
  (bind e (fun x => f)) (at level 61, x pattern, e at next level, right associativity).

(** [l[i] = v] for an in-range index; out-of-range is the identity (callers prove the
    index is in range, numpy would raise IndexError). *)
(** used for numpy_loader.py:391-430 and io.py:563-574 *)
Fixpoint upd {A} (l : list A) (i : nat) (v : A) : list A :=
  match l, i with
  | [], _ => []
  | _ :: t, 0 => v :: t
  | x :: t, S i' => x :: upd t i' v
  end.

(** numpy [l[idxs] = vals] (integer array assignment, sequential, last wins). *)
(** used for numpy_loader.py:391-430 *)
Definition scatter {A} (l : list A) (idxs : list nat) (vals : list A) : list A :=
  fold_left (fun acc iv => upd acc (fst iv) (snd iv)) (combine idxs vals) l.

(** numpy [l[idxs]] (integer array indexing): IndexError if an index is out of range. *)
(** used for numpy_loader.py:332-339 *)
Fixpoint gather {A} (l : list A) (idxs : list nat) : res (list A) :=
  match idxs with
  | [] => Ok []
  | i :: is =>
      match nth_error l i with
      | None => Exc IndexError
      | Some x => let* xs := gather l is in Ok (x :: xs)
      end
  end.

(** python slice [l[a:b]] for [0 <= a <= b] (never raises, truncates). *)
(** used for numpy_loader.py:382-480 *)
Definition slice {A} (l : list A) (a b : nat) : list A := firstn (b - a) (skipn a l).

(** [math.ceil(n / m)] for [m > 0]  (python float division; exact for n, m < 2^53). *)
(** numpy_loader.py:276, core.py:558-559 *)
Definition ceil_div (n m : nat) : nat := (n + m - 1) / m.

(** repeat a state transformer with output [n] times, collecting outputs. *)
(** repeated calls of a python function; no code of /repo *)
Fixpoint iter_out {S O} (f : S -> S * O) (n : nat) (s : S) : S * list O :=
  match n with
  | 0 => (s, [])
  | S n' => let (s1, o) := f s in let (s2, os) := iter_out f n' s1 in (s2, o :: os)
  end.

(** repeated calls of a python function; no code of /repo *)
Fixpoint iter_res {S O} (f : S -> res (S * O)) (n : nat) (s : S) : res (S * list O) :=
  match n with
  | 0 => Ok (s, [])
  | S n' => let* so := f s in
            let* sos := iter_res f n' (fst so) in
            Ok (fst sos, snd so :: snd sos)
  end.

(** run a list of operations, collecting outputs. *)
(** repeated calls of python functions; no code of /repo *)
Fixpoint run {S Op O} (step : S -> Op -> S * O) (s : S) (ops : list Op) : S * list O :=
  match ops with
  | [] => (s, [])
  | op :: rest => let (s1, o) := step s op in
                  let (s2, os) := run step s1 rest in (s2, o :: os)
  end.
