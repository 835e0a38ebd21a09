(** C60, dtypes of the delivered batches spelled out: kind and width. *)
From Coq Require Import String.
From Verif Require Import Base ListUtil NumpyLoader LoaderSpec DataCore DataSpec ArrayData ArraySpec ArrayProofs ArrayFinal PropertiesArray.
Set Implicit Arguments.

(** kinds of numbers *)
Inductive kind := KBool | KSigned | KUnsigned | KFloat | KComplex.
(** kind and bits of an element *)
Definition kind_of (d : dtype) : kind * nat :=
  match d with
  | DBool => (KBool, 8) | DInt8 => (KSigned, 8) | DInt16 => (KSigned, 16) | DInt32 => (KSigned, 32) | DInt64 => (KSigned, 64)
  | DUInt8 => (KUnsigned, 8) | DUInt16 => (KUnsigned, 16) | DUInt32 => (KUnsigned, 32) | DUInt64 => (KUnsigned, 64)
  | DFloat16 => (KFloat, 16) | DFloat32 => (KFloat, 32) | DFloat64 => (KFloat, 64) | DComplex64 => (KComplex, 64) | DComplex128 => (KComplex, 128)
  end.
(** the widest element without 64 bit support (a complex number has two parts) *)
Definition widest (k : kind) : nat := match k with KComplex => 64 | _ => 32 end.

(** every batch a data access delivers has, for every array of the data set, an array of the same name and the same kind of numbers, of the same width with jax_enable_x64 and otherwise of the same width up to 32 bits
    (64 for complex numbers), and the shape of the observations *)
Theorem C60_dtypes : forall (G V : Type) choice_repl choice_perm (rng_of_seed : nat -> G), perm_oracle choice_perm -> repl_oracle choice_repl ->
  forall x64 (cast : dtype -> V -> V) (data : list (string * nd V)) l0 h1 w1 o1 o r mb ca w2 k h2,
  (forall ka, In ka data -> is_array (snd ka)) -> make_aloader data = Ok l0 ->
  run (awstep choice_repl choice_perm rng_of_seed x64 cast) (aw_init l0) h1 = (w1, o1) ->
  creates rng_of_seed (length (al_chains (aw_loader w1))) o r mb ca -> awstep choice_repl choice_perm rng_of_seed x64 cast w1 o = (w2, AwInit (Ok k)) ->
  no_loads h1 -> no_loads h2 -> hands_off (length (al_chains (aw_loader w1))) h2 ->
  forall answer, In answer (abatch_answers k h2 (snd (run (awstep choice_repl choice_perm rng_of_seed x64 cast) w2 h2))) ->
  exists b, answer = Ok b /\ length (ab_data b) = length data /\
    forall j name a, nth_error data j = Some (name, a) -> exists a', nth_error (ab_data b) j = Some (name, a') /\
      fst (kind_of (nd_dtype a')) = fst (kind_of (nd_dtype a)) /\
      snd (kind_of (nd_dtype a')) = (if x64 then snd (kind_of (nd_dtype a)) else Nat.min (snd (kind_of (nd_dtype a))) (widest (fst (kind_of (nd_dtype a))))) /\
      tl (nd_shape a') = tl (nd_shape a).
Proof.
  intros G V cr cp rs Hp Hr x64 cast data l0 h1 w1 o1 o r mb ca w2 k h2 Hw Hm Hrun Hcr Hs Hn1 Hn2 Hoff answer Hin.
  rewrite (@C60_batches G V cr cp rs Hp Hr x64 cast data l0 h1 w1 o1 o r mb ca w2 k h2 Hw Hm Hrun Hcr Hs Hn1 Hn2 Hoff) in Hin.
  apply in_map_iff in Hin. destruct Hin as (i & <- & _). eexists. split; [reflexivity|]. unfold expected_batch. destruct (spec_batch cr cp (al_count l0) r i) as [idx mask]. cbn [ab_data].
  rewrite map_length. split; [reflexivity|]. intros j name a Hj. exists (batch_array x64 cast a idx). rewrite nth_error_map, Hj. split; [reflexivity|].
  cbn [batch_array nd_dtype nd_shape tl]. destruct x64, (nd_dtype a); repeat split; reflexivity.
Qed.
Print Assumptions C60_dtypes.
