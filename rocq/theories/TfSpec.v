(** Specification vocabulary for the tensorflow data loader. *)
From Coq Require String.
From Verif Require Import Base Requests DataCore TfLoader.
Set Implicit Arguments.

(** the first m elements of the endlessly repeated data set of N observations *)
Definition repeated (N m : nat) : list nat := map (fun i => i mod N) (seq 0 m).

(** [idx] is a shuffling of the repeated data set with a buffer of B elements: the first k elements
    handed out, together with B - 1 elements that wait in the buffer, are exactly the first
    k + B - 1 elements of the repeated data set *)
Definition shuffled (N B : nat) (idx : nat -> nat) : Prop :=
  forall k, exists waiting, S (length waiting) = B /\
    Permutation (map idx (seq 0 k) ++ waiting) (repeated N (k + length waiting)).

(** how often observation i is among the first k elements *)
Definition times (idx : nat -> nat) (k i : nat) : nat := count_occ Nat.eq_dec (map idx (seq 0 k)) i.

Section Spec.
Context {obs : Type}.
Notation string := String.string.

(** the arrays that are not excluded *)
Definition remaining {V} (exclude : list string) (columns : list (string * V)) : list (string * V) :=
  filter (fun kv => negb (existsb (String.eqb (fst kv)) exclude)) columns.

(** the n-th batch of mb observations of the index stream idx *)
Definition tf_batch (columns : list (string * (nat -> obs))) (exclude : list string) (mb : nat)
    (idx : nat -> nat) (n : nat) : mbatch obs :=
  (map (fun kf => (fst kf, map (fun j => snd kf (idx (n * mb + j))) (seq 0 mb)))
       (remaining exclude columns),
   repeat true mb).

(** the n-th answer of a directly used chain: ca such batches *)
Definition tf_answer (columns : list (string * (nat -> obs))) (exclude : list string) (ca mb : nat)
    (idx : nat -> nat) (n : nat) : list (string * list (list obs)) :=
  map (fun kf => (fst kf, map (fun b => map (fun j => snd kf (idx ((n * ca + b) * mb + j))) (seq 0 mb))
                              (seq 0 ca)))
      (remaining exclude columns).

(** answers to the batch calls of access k *)
Fixpoint tbatch_outs (k : nat) (h : list top) (outs : list (tout obs)) : list (res (mbatch obs)) :=
  match h, outs with
  | TBatch k' :: h', ToBatch r :: outs' =>
      if k' =? k then r :: tbatch_outs k h' outs' else tbatch_outs k h' outs'
  | _ :: h', _ :: outs' => tbatch_outs k h' outs'
  | _, _ => []
  end.

(** answers to the direct calls get_batches(c) *)
Fixpoint tget_outs (c : nat) (h : list top) (outs : list (tout obs))
  : list (res (list (string * list (list obs)))) :=
  match h, outs with
  | TGet c' :: h', ToGet r :: outs' =>
      if c' =? c then r :: tget_outs c h' outs' else tget_outs c h' outs'
  | _ :: h', _ :: outs' => tget_outs c h' outs'
  | _, _ => []
  end.

(** number of chains registered by the operations with these outcomes *)
Fixpoint registered (outs : list (tout obs)) : nat :=
  match outs with
  | [] => 0
  | ToInit (Ok _) :: outs' => S (registered outs')
  | _ :: outs' => registered outs'
  end.

Definition calls (o : top) (h : list top) : nat :=
  length (filter (fun x => match o, x with
                           | TBatch k, TBatch k' => k' =? k
                           | TGet c, TGet c' => c' =? c
                           | _, _ => false end) h).
End Spec.
