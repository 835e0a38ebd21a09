(** Specification vocabulary for programs with several loaders, accesses and data states. *)
From Verif Require Import Base NumpyLoader Requests LoaderSpec DataCore DataSpec Hub.
From Coq Require String.
Set Implicit Arguments.

Section Spec.
Context {G obs : Type}.

(** the answers to the batch calls with data state k, and their number *)
Fixpoint state_answers (k : nat) (h : list (hop G)) (outs : list (hout obs)) : list (res (mbatch obs)) :=
  match h, outs with
  | HBatch k' :: h', HoBatch r :: outs' => if k' =? k then r :: state_answers k h' outs' else state_answers k h' outs'
  | _ :: h', _ :: outs' => state_answers k h' outs'
  | _, _ => []
  end.
Fixpoint state_calls (k : nat) (h : list (hop G)) : nat :=
  match h with
  | [] => 0
  | HBatch k' :: h' => (if k' =? k then 1 else 0) + state_calls k h'
  | _ :: h' => state_calls k h'
  end.

(** nobody uses chain cid of loader i directly *)
Definition untouched (i cid : nat) (h : list (hop G)) : Prop :=
  forall op, In (HLoader i op) h ->
    (forall c, op = GetBatches c -> c <> cid) /\ (forall c ck, op = LoadState c ck -> c <> cid).
Definition never_released (ai : nat) (h : list (hop G)) : Prop := ~ In (HRelease ai) h.

(** the stream that a data state must deliver: of a random access (with the keyword arguments of
    init and, by default, the chain id as seed) or of an ordered access *)
Definition state_stream (rng_of_seed : nat -> G) (random : bool) (mb cid : nat) (ie sh : bool) (sd : option nat) : reg G :=
  if random then reg_random rng_of_seed mb ie sh (match sd with Some s => s | None => cid end) else ROrd mb.

(** o is a call of random_reference_data / full_reference_data on loader i *)
Inductive creates_access (i ca mb : nat) : bool -> hop G -> Prop :=
| CreatesRandom st : creates_access i ca mb true (HRandom i ca mb st)
| CreatesFull : creates_access i ca mb false (HFull i ca mb).

(** In the program h0; creation of access ai; h1; init function of ai with the keyword arguments
    (ie, sh, sd), data state k was opened on chain cid of loader i, which holds [data]. *)
Definition opened (step : hub G obs -> hop G -> hub G obs * hout obs) (datas : list (list (String.string * list obs)))
    (rng_of_seed : nat -> G) (hD : hub G obs) (ai k i cid ca : nat) (data : list (String.string * list obs)) (N : nat) (r : reg G) : Prop :=
  exists ls0 h0 hA o0 oc mb random hB h1 hC o1 l l0 ie sh sd,
    Forall2 (fun d l => make_loader d = Ok l) datas ls0 /\
    run step (hub_init ls0) h0 = (hA, o0) /\
    creates_access i ca mb random oc /\ step hA oc = (hB, HoAccess (Ok ai)) /\
    run step hB h1 = (hC, o1) /\
    step hC (HInit ai ie sh sd) = (hD, HoState (Ok k)) /\
    nth_error datas i = Some data /\ nth_error ls0 i = Some l0 /\ N = l_count l0 /\
    nth_error (hb_loaders hC) i = Some l /\ cid = length (l_chains l) /\
    r = state_stream rng_of_seed random mb cid ie sh sd.

(** after n batches were drawn, this many batches of the stream have been loaded into the cache *)
Definition cached_until (ca n : nat) : nat := if n =? 0 then ca else ceil_div n ca * ca.
End Spec.
