(** C84, masks: a host data loader that returns no mask; every observation of a delivered batch is marked as valid.
    The reading guide of PropertiesFormat.v applies. *)
From Coq Require Import String.
From Verif Require Import Base ListUtil NumpyLoader LoaderSpec Requests DataCore ArrayData ArrayProofs Hdf5Loader TfLoader TfSpec TfProofs HostFormat HostComplete FormatLoaders GenInstance PropertiesFormat.
Set Implicit Arguments.

Lemma skipn_repeat' (A : Type) (x : A) n k : skipn k (repeat x n) = repeat x (n - k).
Proof. revert k; induction n as [|n IH]; intros [|k]; cbn; [reflexivity..|apply IH]. Qed.
Lemma firstn_repeat' (A : Type) (x : A) n k : firstn k (repeat x n) = repeat x (min k n).
Proof. revert k; induction n as [|n IH]; intros [|k]; cbn; [reflexivity..|f_equal; apply IH]. Qed.
Section Any.
Context {L KW V : Type}.
Variable hl : hloader L KW V.
Variable x64 : bool.
Hypothesis Hnone : forall l c l' d m, h_get hl l c = (l', Ok (d, m)) -> m = None.
Notation step := (hstep hl x64).
(** the caches of the data accesses hold masks of ones, and there are no responses in store *)
(** auxiliary definition of a statement or a proof; models no code of /repo *)
Definition unmasked (w : hworld L V) : Prop :=
  r_cached (hw_req w) = [] /\ forall k acc, nth_error (hw_accesses w) k = Some acc -> exists ca mb, acc_mask acc = [ca; mb] /\ acc_info acc = (h_count hl, mb) /\ ac_valid (acc_state acc) = mkNd DBool [ca; mb] (repeat true (prod [ca; mb])).
Lemma request_unmasked (r : rstate L (hbatches V)) c t st r' d m t' : r_cached r = [] -> request (h_get hl) r c t 1 st = (r', Ok (d, m, t')) -> m = None.
Proof.
  intros Hr H. unfold request in H. rewrite Hr in H. cbn [tlookup find option_map] in H. destruct (match clookup _ _ with None => false | Some t0 => _ end); [destruct st; discriminate|].
  destruct (h_get hl (r_loader r) c) as [l' [[d1 m1]|e]] eqn:E; [|discriminate]. injection H as _ _ Hm _. subst m1. exact (Hnone _ _ E).
Qed.
Lemma request_cached (r : rstate L (hbatches V)) c t st r' o : r_cached r = [] -> request (h_get hl) r c t 1 st = (r', o) -> r_cached r' = [].
Proof.
  intros Hr H. unfold request in H. rewrite Hr in H. cbn [tlookup find option_map] in H. destruct (match clookup _ _ with None => false | Some t0 => _ end); [destruct st; injection H as <- _; exact Hr|].
  destruct (h_get hl (r_loader r) c) as [l' [[d1 m1]|e]]; injection H as <- _; reflexivity.
Qed.
Lemma ones_row ca mb i : i < ca -> nd_obs (mkNd DBool [ca; mb] (repeat true (prod [ca; mb]))) i = repeat true mb.
Proof.
  intros Hi. unfold nd_obs. cbn [nd_shape nd_data tl prod fold_right]. rewrite !Nat.mul_1_r. unfold slice. rewrite skipn_repeat', firstn_repeat'. f_equal. nia.
Qed.
Lemma batch_unmasked acc r r' o ca mb : r_cached r = [] -> acc_mask acc = [ca; mb] -> acc_info acc = (h_count hl, mb) -> ac_valid (acc_state acc) = mkNd DBool [ca; mb] (repeat true (prod [ca; mb])) ->
  h_batch_fn hl x64 acc r = (r', o) -> r_cached r' = [] /\ forall cs b, o = Ok (cs, b) -> ac_valid cs = mkNd DBool [ca; mb] (repeat true (prod [ca; mb])) /\ ab_mask b = mkNd DBool [mb] (repeat true mb).
Proof.
  intros Hr Hm Hi Hv H. unfold h_batch_fn in H.
  assert (S : forall r1 o1, h_refresh hl x64 acc r = (r1, o1) -> r_cached r1 = [] /\ forall cs1, o1 = Ok cs1 -> ac_valid cs1 = mkNd DBool [ca; mb] (repeat true (prod [ca; mb]))).
  { intros r1 o1 H1. unfold h_refresh in H1. destruct (format_eq_dec _ _); [|injection H1 as <- <-; split; [exact Hr|discriminate]]. destruct (struct_eq_dec _ _); [|injection H1 as <- <-; split; [exact Hr|discriminate]].
    destruct (_ =? _); [|injection H1 as <- <-; split; [exact Hr|intros cs1 E; injection E as <-; exact Hv]]. unfold h_callback in H1.
    destruct (request _ _ _ _ _ _) as [r2 [[[data m] tok]|exc]] eqn:Er.
    - assert (Hm0 : m = None) by (eapply request_unmasked; eassumption). subst m. assert (C : r_cached r2 = []) by (eapply request_cached; eassumption). cbn [h_mask] in H1. rewrite Hm in H1.
      destruct (format_eq_dec _ _); [|injection H1 as <- <-; split; [exact C|discriminate]]. destruct (struct_eq_dec _ _); injection H1 as <- <-; (split; [exact C|]); [intros cs1 E; injection E as <-; reflexivity|discriminate].
    - injection H1 as <- <-. split; [eapply request_cached; eassumption|discriminate]. }
  destruct (h_refresh hl x64 acc r) as [r1 o1]. destruct (S r1 o1 eq_refl) as [S1 S2]. injection H as <- <-. split; [exact S1|]. intros cs b H. destruct o1 as [cs1|e]; [|discriminate]. specialize (S2 cs1 eq_refl). cbn [bind] in H.
  destruct (nd_tree_index _ _) as [d|]; [|discriminate]. cbn [bind] in H. destruct (jax_index (ac_valid cs1) _) as [m|] eqn:Em; [|discriminate]. cbn [bind] in H. injection H as <- <-. cbn [ac_valid ab_mask]. split; [exact S2|].
  rewrite S2 in Em. unfold jax_index in Em. cbn [nd_shape] in Em. destruct ca as [|ca]; [discriminate|]. injection Em as <-. cbn [nd_dtype]. f_equal. apply ones_row. lia.
Qed.
Lemma cache_unmasked w l ca mb cid st w' o : unmasked w -> h_init_cache hl w l ca mb cid st = (w', o) -> unmasked w'.
Proof.
  intros [U1 U2] H. unfold h_init_cache in H. destruct (h_get hl l cid) as [l' [[d m]|e]] eqn:E; injection H as <- <-; (split; [exact U1|]); cbn [hw_accesses]; [|exact U2].
  intros k acc Hk. destruct (Nat.lt_ge_cases k (length (hw_accesses w))) as [Hlt|Hge]; [rewrite nth_error_app1 in Hk by exact Hlt; exact (U2 k acc Hk)|].
  rewrite nth_error_app2 in Hk by exact Hge. destruct (k - length (hw_accesses w)) as [|q]; [|destruct q; discriminate]. injection Hk as <-. exists ca, mb. cbn [acc_mask acc_info acc_state ac_valid]. rewrite (Hnone _ _ E). auto.
Qed.
Lemma step_unmasked w o w' x : unmasked w -> step w o = (w', x) -> unmasked w' /\ forall k b, o = HBatch k -> x = HoBatch (Ok b) -> forall acc ca mb, nth_error (hw_accesses w) k = Some acc -> opened hl acc ca mb -> ab_mask b = mkNd DBool [mb] (repeat true mb).
Proof.
  intros U H. destruct o as [ca mb kw st|ca mb|j|f]; cbn [hstep] in H.
  - split; [|discriminate]. destruct (h_random_init hl w ca mb kw st) as [w1 r1] eqn:E. injection H as <- _. unfold h_random_init in E. destruct (_ <? _); [injection E as <- _; exact U|]. destruct (_ || _); [injection E as <- _; exact U|].
    destruct (h_random hl _ ca mb kw) as [l1 [c|e]]; [|injection E as <- _; exact U]. exact (cache_unmasked _ _ _ _ _ U E).
  - split; [|discriminate]. destruct (h_full_init hl w ca mb) as [w1 r1] eqn:E. injection H as <- _. unfold h_full_init in E. destruct (_ <? _); [injection E as <- _; exact U|]. destruct (_ =? _); [injection E as <- _; exact U|].
    destruct (h_ordered hl _ ca mb) as [l1 [c|e]]; [|injection E as <- _; exact U]. exact (cache_unmasked _ _ _ _ _ U E).
  - destruct U as [U1 U2]. destruct (h_access_batch hl x64 w j) as [w1 r1] eqn:E. injection H as <- <-. unfold h_access_batch in E. destruct (nth_error (hw_accesses w) j) as [acc|] eqn:Ej.
    2:{ injection E as <- <-. split; [split; assumption|]. intros k b Ho Hx. discriminate. }
    destruct (U2 j acc Ej) as (ca & mb & M & I & Vd). destruct (h_batch_fn hl x64 acc (hw_req w)) as [r2 o2] eqn:Eb. destruct (batch_unmasked acc _ U1 M I Vd Eb) as [B1 B2].
    destruct o2 as [[cs b]|e]; injection E as <- <-.
    + specialize (B2 cs b eq_refl). destruct B2 as [B2 B3]. split.
      * split; [exact B1|]. cbn [hw_accesses]. intros k acc' Hk. destruct (Nat.eq_dec k j) as [-> |Hn]; [|rewrite nth_upd_other' in Hk by exact Hn; exact (U2 k acc' Hk)].
        rewrite (@nth_upd_same' _ _ _ _ _ Ej) in Hk. injection Hk as <-. exists ca, mb. auto.
      * intros k b' Ho Hx acc' ca' mb' Hk (_ & M' & _). injection Ho as <-. injection Hx as <-. rewrite Ej in Hk. injection Hk as <-. rewrite M in M'. injection M' as _ <-. exact B3.
    + split; [split; [exact B1|exact U2]|]. intros k b Ho Hx. discriminate.
  - injection H as <- <-. split; [|discriminate]. exact U.
Qed.
Lemma run_unmasked k ca mb h : forall w acc, unmasked w -> nth_error (hw_accesses w) k = Some acc -> opened hl acc ca mb -> forall b, In (Ok b) (h_answers k h (snd (run step w h))) -> ab_mask b = mkNd DBool [mb] (repeat true mb).
Proof.
  induction h as [|o h IH]; intros w acc U Hk Ho b Hb; [contradiction|]. cbn [run] in Hb. destruct (step w o) as [w1 x] eqn:E1. destruct (run step w1 h) as [w2 xs] eqn:E2. cbn [snd] in Hb.
  destruct (step_unmasked _ U E1) as [U' SB]. destruct (@step_opened _ _ _ _ _ _ _ _ _ _ _ E1 Hk) as (acc' & Hk' & F & M & I & _). assert (Ho' : opened hl acc' ca mb) by (unfold opened; rewrite F, M, I; exact Ho).
  specialize (IH w1 acc' U' Hk' Ho' b). rewrite E2 in IH. cbn [snd] in IH. destruct o as [? ? ? ?|? ?|j|?]; cbn [h_answers] in Hb; auto.
  destruct x as [|r|]; auto. destruct (Nat.eqb_spec j k) as [-> |]; auto. destruct Hb as [-> |Hb]; auto. exact (SB k b eq_refl eq_refl acc ca mb Hk Ho).
Qed.
(** A loader that returns no mask: every observation of every batch is valid, whatever happens before and after the access is opened *)
Theorem C84_missing_mask l h1 op ca mb k h2 b :
  opens op ca mb -> snd (step (fst (run step (hw_init l) h1)) op) = HoInit (Ok k) ->
  In (Ok b) (h_answers k h2 (snd (run step (fst (step (fst (run step (hw_init l) h1)) op)) h2))) -> ab_mask b = mkNd DBool [mb] (repeat true mb).
Proof.
  intros Ho Hs Hb.
  assert (U0 : unmasked (hw_init l)) by (split; [reflexivity|]; intros [|q] acc Hq; discriminate).
  assert (UR : forall h w, unmasked w -> unmasked (fst (run step w h))).
  { induction h as [|o h IH]; intros w U; [exact U|]. cbn [run]. destruct (step w o) as [w1 x] eqn:E1. specialize (IH w1 (proj1 (step_unmasked _ U E1))). destruct (run step w1 h). exact IH. }
  specialize (UR h1 _ U0). destruct (step (fst (run step (hw_init l) h1)) op) as [w o] eqn:E. cbn [fst snd] in *. subst o.
  destruct (@init_opened _ _ _ _ _ _ _ _ _ _ _ Ho E) as (acc & Hk & Ha). eapply run_unmasked; [exact (proj1 (step_unmasked _ UR E))|exact Hk|exact Ha|exact Hb].
Qed.
End Any.
(** the TensorflowDataLoader is such a loader: every observation of every batch that it delivers is valid *)
Corollary C84_tf_mask (V : Type) (pick : nat -> nat -> nat) (b64 x64 : bool) (cast : dtype -> V -> V) (spec : tf_spec) exclude N (l : tloader (nd V)) h1 op ca mb k h2 b :
  let hl := tf_hloader pick b64 cast spec exclude N in
  opens op ca mb -> snd (hstep hl x64 (fst (run (hstep hl x64) (hw_init l) h1)) op) = HoInit (Ok k) ->
  In (Ok b) (h_answers k h2 (snd (run (hstep hl x64) (fst (hstep hl x64 (fst (run (hstep hl x64) (hw_init l) h1)) op)) h2))) -> ab_mask b = mkNd DBool [mb] (repeat true mb).
Proof.
  intros hl Ho Hs Hb. apply (@C84_missing_mask _ _ _ hl x64) with (l := l) (h1 := h1) (op := op) (ca := ca) (k := k) (h2 := h2); auto.
  intros l0 c l' d m H. subst hl. cbn [h_get tf_hloader] in H. unfold tfa_get in H. destruct (tf_get pick l0 c) as [l2 [o|e]]; [|discriminate]. cbn [bind] in H. destruct (tf_pack_all _ _ o) as [d2|]; [|discriminate]. injection H as _ _ <-. reflexivity.
Qed.
(** ** the hypotheses are met: a session with the loader of C84_tf_nonvacuous in which a batch is delivered *)
Example C84_mask_nonvacuous : exists b, 
  let hl := tf_hloader (fun _ n => n) false (fun (_ : dtype) (v : nat) => v) ex_spec ["id"%string] 5 in
  let w := fst (run (hstep hl false) (hw_init (tl_new ex_columns 5 ["id"%string] 3)) [HFull 1 2]) in
  opens (HRandom (L := tloader (nd nat)) 2 3 false true) 2 3 /\ snd (hstep hl false w (HRandom 2 3 false true)) = HoInit (Ok 0) /\
  In (Ok b) (h_answers (L := tloader (nd nat)) (KW := bool) 0 [HBatch 0; HBatch 0] (snd (run (hstep hl false) (fst (hstep hl false w (HRandom 2 3 false true))) [HBatch 0; HBatch 0]))) /\ ab_mask b = mkNd DBool [3] [true; true; true].
Proof. eexists. cbv zeta. split; [|split; [vm_compute; reflexivity|split; [vm_compute; left; reflexivity|reflexivity]]]. constructor. Qed.

Print Assumptions C84_missing_mask.
Print Assumptions C84_tf_mask.
