(** Data access on an arbitrary host data loader, with dtypes and shapes: core.py:86-109 (initializer_batch), 120-238 (class
    HostDataLoader), 477-560, 664-830, 886-904.

    A loader is given by its state (any type), its methods (any functions) and the format of one observation that its property
    _format announces.  Direct calls of further methods of the loader are arbitrary changes of its state.  Simplifications as in
    ArrayData.v; a loader returns numeric arrays. *)
From Coq Require Import String.
From Verif Require Import Base Requests DataCore ArrayData.
Set Implicit Arguments.

(** what [get_batches] returns: a dictionary of arrays and a mask or None, core.py:206-208 *)
Definition hbatches (V : Type) := (list (string * nd V) * option (nd bool))%type.
(** the methods of a host data loader, core.py:136-208; [KW] are additional keyword arguments *)
Record hloader (L KW V : Type) := mkHL {
  h_random : L -> nat -> nat -> KW -> L * res nat;   (* register_random_pipeline, core.py:168-186 *)
  h_ordered : L -> nat -> nat -> L * res nat;        (* register_ordered_pipeline, core.py:188-203 *)
  h_get : L -> nat -> L * res (hbatches V);          (* get_batches, core.py:205-208 *)
  h_format : format;                                 (* _format, core.py:82-84 *)
  h_count : nat }.                                   (* static_information["observation_count"], core.py:76-80 *)

Section Host.
Context {L KW V : Type}.
Variable hl : hloader L KW V.
Variable x64 : bool.
Variable zero : V.
Notation requests := (rstate L (hbatches V)).

(** [batch_format], core.py:210-238 *)
Definition h_batch_format (ca mb : nat) : format := map (fun kf => (fst kf, (fst (snd kf), ca :: mb :: snd (snd kf)))) (h_format hl).
(** [initializer_batch(mb_size)], core.py:86-109 *)
Definition h_initializer_batch (mb : option nat) : list (string * nd V) :=
  map (fun kf => let sh := match mb with None => snd (snd kf) | Some m => m :: snd (snd kf) end in
                 (fst kf, mkNd (canonical x64 (fst (snd kf))) sh (repeat zero (prod sh)))) (h_format hl).
(** a missing mask is replaced by ones, core.py:688-691, 819-820 *)
Definition h_mask (shape : list nat) (m : option (nd bool)) : nd bool := match m with Some m => m | None => mkNd DBool shape (repeat true (prod shape)) end.
(** [jxp.io_callback(get_data, result_shape_dtypes, ...)], core.py:678-714: the runtime raises if the returned arrays do not have the announced format *)
Definition h_callback (acc : access V) (r : requests) : requests * res (list (string * nd V) * nd bool * token) :=
  let cs := acc_state acc in
  match request (h_get hl) r (ac_chain cs) (ac_token cs) 1 (acc_strict acc) with
  | (r', Exc e) => (r', Exc e)
  | (r', Ok ((data, m), tok)) =>
      let mask := h_mask (acc_mask acc) m in
      if format_eq_dec (format_of data) (canonical_format x64 (acc_format acc))
      then if struct_eq_dec (nd_struct mask) (DBool, acc_mask acc) then (r', Ok (data, mask, tok)) else (r', Exc RuntimeError)
      else (r', Exc RuntimeError)
  end.
(** [_data_state_helper], core.py:694-733: lax.cond raises TypeError if its branches differ in format *)
Definition h_refresh (acc : access V) (r : requests) : requests * res (acstate V) :=
  let cs := acc_state acc in
  if format_eq_dec (format_of (ac_data cs)) (canonical_format x64 (acc_format acc)) then
    if struct_eq_dec (nd_struct (ac_valid cs)) (DBool, acc_mask acc) then
      if ac_line cs =? ac_count cs then
        match h_callback acc r with
        | (r', Ok (data, mask, tok)) => (r', Ok (mkAC data (ac_count cs) 0 (ac_chain cs) mask tok))
        | (r', Exc e) => (r', Exc e)
        end
      else (r, Ok cs)
    else (r, Exc TypeError)
  else (r, Exc TypeError).
(** [batch_fn], core.py:736-790 *)
Definition h_batch_fn (acc : access V) (r : requests) : requests * res (acstate V * abatch V) :=
  let (r', o) := h_refresh acc r in
  (r', let* cs1 := o in
       let line := ac_line cs1 mod ac_count cs1 in
       let* mini_batch := nd_tree_index (ac_data cs1) line in
       let* mask := jax_index (ac_valid cs1) line in
       Ok (mkAC (ac_data cs1) (ac_count cs1) (line + 1) (ac_chain cs1) (ac_valid cs1) (ac_token cs1),
           mkAB mini_batch (fst (acc_info acc)) (snd (acc_info acc)) mask)).

(** core.py:406-413 and 794-835: the requests and the accesses *)
Record hworld := mkHW { hw_req : requests; hw_accesses : list (access V) }.
(** core.py:411 *)
Definition hw_loader (w : hworld) : L := r_loader (hw_req w).
(** core.py:411 *)
Definition hw_with (w : hworld) (l : L) : requests := mkR (r_cached (hw_req w)) (r_current (hw_req w)) (r_fresh (hw_req w)) l.
(** core.py:408-413 *)
Definition hw_init (l : L) : hworld := mkHW (requests_init l) [].
(** core.py:812-830 and 886-904 *)
Definition h_init_cache (w : hworld) (l : L) (ca mb cid : nat) (strict : bool) : hworld * res nat :=
  match h_get hl l cid with
  | (l', Exc e) => (mkHW (hw_with w l') (hw_accesses w), Exc e)
  | (l', Ok (data, m)) =>
      let k := length (hw_accesses w) in
      (mkHW (hw_with w l') (hw_accesses w ++ [mkAcc (mkAC data ca 0 cid (h_mask [ca; mb] m) (TInit k)) strict (h_batch_format ca mb) [ca; mb] (h_count hl, mb)]), Ok k)
  end.
(** [random_reference_data] + [init_fn], core.py:499-520, 812-830 *)
Definition h_random_init (w : hworld) (ca mb : nat) (kw : KW) (strict : bool) : hworld * res nat :=
  if h_count hl <? mb then (w, Exc ValueError)
  else if (ca =? 0) || (mb =? 0) then (w, Exc ValueError)
  else match h_random hl (hw_loader w) ca mb kw with
       | (l', Exc e) => (mkHW (hw_with w l') (hw_accesses w), Exc e)
       | (l', Ok cid) => h_init_cache w l' ca mb cid strict
       end.
(** [full_reference_data] + [init_fn], core.py:541-560, 886-904 *)
Definition h_full_init (w : hworld) (ca mb : nat) : hworld * res nat :=
  if h_count hl <? mb then (w, Exc ValueError)
  else if mb =? 0 then (w, Exc ZeroDivisionError)
  else match h_ordered hl (hw_loader w) ca mb with
       | (l', Exc e) => (mkHW (hw_with w l') (hw_accesses w), Exc e)
       | (l', Ok cid) => h_init_cache w l' ca mb cid true
       end.
(** one call of the batch function of access k, core.py:736-791 *)
Definition h_access_batch (w : hworld) (k : nat) : hworld * res (abatch V) :=
  match nth_error (hw_accesses w) k with
  | None => (w, Exc KeyError)
  | Some acc =>
      match h_batch_fn acc (hw_req w) with
      | (r', Exc e) => (mkHW r' (hw_accesses w), Exc e)
      | (r', Ok (cs', b)) => (mkHW r' (upd (hw_accesses w) k (mkAcc cs' (acc_strict acc) (acc_format acc) (acc_mask acc) (acc_info acc))), Ok b)
      end
  end.

(** what a program does: open an access, draw a batch, call a method of the loader directly (core.py:477-628) *)
Inductive hop := HRandom (ca mb : nat) (kw : KW) (strict : bool) | HFull (ca mb : nat) | HBatch (k : nat) | HCall (f : L -> L).
(** results of core.py:477-628 *)
Inductive hout := HoInit (r : res nat) | HoBatch (r : res (abatch V)) | HoCall.
(** core.py:477-628 *)
Definition hstep (w : hworld) (o : hop) : hworld * hout :=
  match o with
  | HRandom ca mb kw st => let (w', r) := h_random_init w ca mb kw st in (w', HoInit r)
  | HFull ca mb => let (w', r) := h_full_init w ca mb in (w', HoInit r)
  | HBatch k => let (w', r) := h_access_batch w k in (w', HoBatch r)
  | HCall f => (mkHW (hw_with w (f (hw_loader w))) (hw_accesses w), HoCall)
  end.

(** ** Specification *)
(** the call opens an access with this cache size and batch size *)
Inductive opens : hop -> nat -> nat -> Prop :=
| OpRandom ca mb kw st : opens (HRandom ca mb kw st) ca mb
| OpFull ca mb : opens (HFull ca mb) ca mb.
(** the answers to the batch calls of access k *)
Fixpoint h_answers (k : nat) (h : list hop) (outs : list hout) : list (res (abatch V)) :=
  match h, outs with
  | HBatch k' :: h', HoBatch r :: outs' => if k' =? k then r :: h_answers k h' outs' else h_answers k h' outs'
  | _ :: h', _ :: outs' => h_answers k h' outs'
  | _, _ => []
  end.
(** the number of batch calls of access k *)
Definition h_calls (k : nat) (h : list hop) : nat := length (filter (fun o => match o with HBatch k' => k' =? k | _ => false end) h).
(** a batch with the names, dtypes and shapes of the initializer batch, with a mask and the sizes *)
Definition as_announced (mb : nat) (b : abatch V) : Prop :=
  format_of (ab_data b) = format_of (h_initializer_batch (Some mb)) /\ nd_struct (ab_mask b) = (DBool, [mb]) /\ ab_count b = h_count hl /\ ab_size b = mb.

(** ** Proofs *)
Lemma tree_index_format (data : list (string * nd V)) : forall f ca mb i out,
  format_of data = map (fun kf => (fst kf, (fst (snd kf), ca :: mb :: snd (snd kf)))) f -> nd_tree_index data i = Ok out ->
  format_of out = map (fun kf : string * struct => (fst kf, (fst (snd kf), mb :: snd (snd kf)))) f.
Proof using.
  induction data as [|[n a] data IH]; intros f ca mb i out Hf Ho; destruct f as [|[n' [d sh]] f]; cbn in Hf; try discriminate.
  - cbn in Ho. injection Ho as <-. reflexivity.
  - injection Hf as Hn Ha Hsh Hr. cbn [nd_tree_index] in Ho. unfold jax_index in Ho. rewrite Hsh in Ho. destruct ca as [|ca]; [discriminate|]. cbn [bind] in Ho.
    destruct (nd_tree_index data i) as [xs|] eqn:E; [|discriminate]. cbn [bind] in Ho. injection Ho as <-. cbn [format_of map fst snd]. f_equal; [unfold nd_struct; cbn; rewrite Hn, Ha; reflexivity|]. apply (IH f (S ca) mb i xs Hr E).
Qed.
Lemma canonical_batch_format ca mb : canonical_format x64 (h_batch_format ca mb) =
  map (fun kf => (fst kf, (fst (snd kf), ca :: mb :: snd (snd kf)))) (map (fun kf => (fst kf, (canonical x64 (fst (snd kf)), snd (snd kf)))) (h_format hl)).
Proof using. unfold canonical_format, h_batch_format. rewrite !map_map. reflexivity. Qed.
Lemma initializer_format mb : format_of (h_initializer_batch (Some mb)) =
  map (fun kf => (fst kf, (fst (snd kf), mb :: snd (snd kf)))) (map (fun kf => (fst kf, (canonical x64 (fst (snd kf)), snd (snd kf)))) (h_format hl)).
Proof using. unfold format_of, h_initializer_batch. rewrite !map_map. reflexivity. Qed.

(** the fixed parts of an access *)
Definition opened (acc : access V) (ca mb : nat) : Prop := acc_format acc = h_batch_format ca mb /\ acc_mask acc = [ca; mb] /\ acc_info acc = (h_count hl, mb).
Lemma batch_fn_sound acc r ca mb r' cs b : opened acc ca mb -> h_batch_fn acc r = (r', Ok (cs, b)) -> as_announced mb b.
Proof using.
  intros (F & M & I) H. unfold h_batch_fn in H.
  assert (S : forall r1 cs1, h_refresh acc r = (r1, Ok cs1) -> format_of (ac_data cs1) = canonical_format x64 (h_batch_format ca mb) /\ nd_struct (ac_valid cs1) = (DBool, [ca; mb])).
  { intros r1 cs1 H1. unfold h_refresh in H1. rewrite F, M in H1. destruct (format_eq_dec _ _) as [E1|]; [|discriminate]. destruct (struct_eq_dec _ _) as [E2|]; [|discriminate].
    destruct (_ =? _); [|injection H1 as <- <-; auto]. unfold h_callback in H1. destruct (request _ _ _ _ _ _) as [r2 [[[data m] tok]|e]]; [|discriminate].
    rewrite F, M in H1. destruct (format_eq_dec _ _) as [E3|]; [|discriminate]. destruct (struct_eq_dec _ _) as [E4|]; [|discriminate]. injection H1 as <- <-. auto. }
  destruct (h_refresh acc r) as [r1 [cs1|e]]; [|discriminate]. destruct (S r1 cs1 eq_refl) as [S1 S2]. clear S. cbn [bind] in H.
  destruct (nd_tree_index (ac_data cs1) _) as [d|] eqn:Ed; [|discriminate]. cbn [bind] in H. destruct (jax_index (ac_valid cs1) _) as [m|] eqn:Em; [|discriminate]. cbn [bind] in H.
  injection H as <- <- <-. unfold as_announced. cbn [ab_data ab_mask ab_count ab_size]. rewrite I. cbn [fst snd]. split; [|split; [|auto]].
  - rewrite canonical_batch_format in S1. rewrite initializer_format. apply (tree_index_format _ _ _ _ _ S1 Ed).
  - injection S2 as D Sh. unfold jax_index in Em. rewrite Sh in Em. destruct ca; [discriminate|]. injection Em as <-. unfold nd_struct. cbn. now rewrite D.
Qed.

Lemma nth_upd_other' A (l : list A) k j x : j <> k -> nth_error (upd l k x) j = nth_error l j.
Proof using. revert k j. induction l as [|y l IH]; intros [|k] [|j] H; cbn; auto; try contradiction. Qed.
Lemma nth_upd_same' A (l : list A) k x y : nth_error l k = Some y -> nth_error (upd l k x) k = Some x.
Proof using. revert k. induction l as [|z l IH]; intros [|k] H; cbn in *; try discriminate; auto. Qed.
(** accesses are only added; the fixed parts never change *)
Lemma step_opened w o w' out k acc : hstep w o = (w', out) -> nth_error (hw_accesses w) k = Some acc ->
  exists acc', nth_error (hw_accesses w') k = Some acc' /\ acc_format acc' = acc_format acc /\ acc_mask acc' = acc_mask acc /\ acc_info acc' = acc_info acc /\
    ((forall j, o = HBatch j -> j <> k) -> acc' = acc).
Proof using.
  intros H Hk.
  assert (App : forall l, nth_error (hw_accesses w ++ l) k = Some acc) by (intros l; rewrite nth_error_app1; [exact Hk|apply nth_error_Some; congruence]).
  assert (C : forall l ca mb cid st w1 r1, h_init_cache w l ca mb cid st = (w1, r1) -> nth_error (hw_accesses w1) k = Some acc).
  { intros l ca mb cid st w1 r1 H1. unfold h_init_cache in H1. destruct (h_get hl l cid) as [l1 [[d m]|e]]; injection H1 as <- <-; cbn [hw_accesses]; auto. }
  destruct o as [ca mb kw st|ca mb|j|f]; cbn in H.
  - exists acc. assert (E : nth_error (hw_accesses w') k = Some acc); [|auto]. unfold h_random_init in H. destruct (_ <? _); [injection H as <- <-; auto|]. destruct (_ || _); [injection H as <- <-; auto|].
    destruct (h_random hl _ ca mb kw) as [l1 [c|e]]; [|injection H as <- <-; auto]. destruct (h_init_cache w l1 ca mb c st) as [w1 r1] eqn:E. injection H as <- <-. eapply C. exact E.
  - exists acc. assert (E : nth_error (hw_accesses w') k = Some acc); [|auto]. unfold h_full_init in H. destruct (_ <? _); [injection H as <- <-; auto|]. destruct (_ =? _); [injection H as <- <-; auto|].
    destruct (h_ordered hl _ ca mb) as [l1 [c|e]]; [|injection H as <- <-; auto]. destruct (h_init_cache w l1 ca mb c true) as [w1 r1] eqn:E. injection H as <- <-. eapply C. exact E.
  - unfold h_access_batch in H. destruct (nth_error (hw_accesses w) j) as [acc0|] eqn:Ej; [|injection H as <- <-; eauto 10].
    destruct (h_batch_fn acc0 (hw_req w)) as [r1 [[cs b]|e]]; injection H as <- <-; cbn [hw_accesses]; [|eauto 10].
    destruct (Nat.eq_dec k j) as [-> |Hn].
    + rewrite Hk in Ej. injection Ej as <-. eexists. split; [eapply nth_upd_same'; exact Hk|]. repeat split; auto. intros Hj. exfalso. exact (Hj j eq_refl eq_refl).
    + exists acc. rewrite nth_upd_other' by auto. auto.
  - injection H as <- <-. eauto 10.
Qed.
Lemma init_opened w o ca mb w' k : opens o ca mb -> hstep w o = (w', HoInit (Ok k)) -> exists acc, nth_error (hw_accesses w') k = Some acc /\ opened acc ca mb.
Proof using.
  intros Ho H.
  assert (C : forall l cid st w1, h_init_cache w l ca mb cid st = (w1, Ok k) -> exists acc, nth_error (hw_accesses w1) k = Some acc /\ opened acc ca mb).
  { intros l cid st w1 H1. unfold h_init_cache in H1. destruct (h_get hl l cid) as [l1 [[d m]|e]]; [|discriminate]. injection H1 as <- <-. cbn [hw_accesses].
    eexists. split; [rewrite nth_error_app2, Nat.sub_diag by lia; reflexivity|]. repeat split. }
  inversion Ho; subst; cbn in H.
  - unfold h_random_init in H. destruct (_ <? _); [discriminate|]. destruct (_ || _); [discriminate|]. destruct (h_random hl _ ca mb kw) as [l1 [c|e]]; [|discriminate].
    destruct (h_init_cache w l1 ca mb c st) as [w1 r1] eqn:E. injection H as <- ->. eapply C. exact E.
  - unfold h_full_init in H. destruct (_ <? _); [discriminate|]. destruct (_ =? _); [discriminate|]. destruct (h_ordered hl _ ca mb) as [l1 [c|e]]; [|discriminate].
    destruct (h_init_cache w l1 ca mb c true) as [w1 r1] eqn:E. injection H as <- ->. eapply C. exact E.
Qed.
Lemma run_sound k ca mb h : forall w acc, nth_error (hw_accesses w) k = Some acc -> opened acc ca mb -> forall b, In (Ok b) (h_answers k h (snd (run hstep w h))) -> as_announced mb b.
Proof using.
  induction h as [|o h IH]; intros w acc Hk Ho b Hb; [contradiction|]. cbn [run] in Hb. destruct (hstep w o) as [w1 x] eqn:E1. destruct (run hstep w1 h) as [w2 xs] eqn:E2. cbn [snd] in Hb.
  destruct (@step_opened _ _ _ _ _ _ E1 Hk) as (acc' & Hk' & F & M & I & _). assert (Ho' : opened acc' ca mb) by (unfold opened; rewrite F, M, I; exact Ho).
  specialize (IH w1 acc' Hk' Ho' b). rewrite E2 in IH. cbn [snd] in IH. destruct o as [? ? ? ?|? ?|j|?]; cbn [h_answers] in Hb; auto.
  destruct x as [|r|]; auto. destruct (Nat.eqb_spec j k) as [-> |]; auto. destruct Hb as [-> |Hb]; auto. cbn in E1. unfold h_access_batch in E1. rewrite Hk in E1.
  destruct (h_batch_fn acc (hw_req w)) as [r1 [[cs b1]|e]] eqn:Eb; cbn in E1; [|congruence]. injection E1 as _ <-. exact (batch_fn_sound _ Ho Eb).
Qed.
Lemma run_rejects k h : forall w acc, nth_error (hw_accesses w) k = Some acc -> format_of (ac_data (acc_state acc)) <> canonical_format x64 (acc_format acc) ->
  h_answers k h (snd (run hstep w h)) = repeat (Exc TypeError) (h_calls k h).
Proof using.
  induction h as [|o h IH]; intros w acc Hk Ho; [reflexivity|]. cbn [run]. destruct (hstep w o) as [w1 x] eqn:E1. destruct (run hstep w1 h) as [w2 xs] eqn:E2. cbn [snd].
  assert (Hb : h_batch_fn acc (hw_req w) = (hw_req w, Exc TypeError)) by (unfold h_batch_fn, h_refresh; destruct (format_eq_dec _ _); [contradiction|reflexivity]).
  assert (K : nth_error (hw_accesses w1) k = Some acc).
  { destruct (@step_opened _ _ _ _ _ _ E1 Hk) as (acc' & Hk' & _ & _ & _ & Hs). destruct o as [? ? ? ?|? ?|j|?]; try (rewrite Hs in Hk' by discriminate; exact Hk').
    destruct (Nat.eq_dec j k) as [-> |Hn]; [|rewrite Hs in Hk' by (intros j' E; injection E as <-; exact Hn); exact Hk']. cbn in E1. unfold h_access_batch in E1. rewrite Hk, Hb in E1. injection E1 as <- <-. exact Hk. }
  specialize (IH w1 acc K Ho). rewrite E2 in IH. cbn [snd] in IH. destruct o as [? ? ? ?|? ?|j|?]; cbn [h_answers]; unfold h_calls; cbn [filter]; fold (h_calls k h); auto.
  cbn in E1. destruct (h_access_batch w j) as [w3 r3] eqn:E3. injection E1 as <- <-. destruct (Nat.eqb_spec j k) as [-> |]; auto. cbn [length repeat]. unfold h_access_batch in E3. rewrite Hk, Hb in E3. injection E3 as _ <-.
  f_equal. exact IH.
Qed.
End Host.
Arguments hout : clear implicits.
Arguments hop : clear implicits.
Arguments hworld : clear implicits.
