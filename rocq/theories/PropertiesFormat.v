(** C84: announced and delivered formats for every host data loader, and for HDF5 and tensorflow data.
    Reading guide: a host data loader ([hloader]) is a state with methods register_random_pipeline, register_ordered_pipeline, get_batches and an announced
    format of one observation; [hstep] performs one call of a program (opening a data access, drawing a batch, calling a method of the loader directly);
    [as_announced hl x64 zero mb b]: the batch b has the names, dtypes and shapes of initializer_batch(mb), a mask of mb booleans, the number of
    observations of the loader and the batch size mb; [h_answers k h outs] are the answers to the batch calls of access k, [h_calls k h] is their number. *)
From Coq Require Import String.
From Verif Require Import Base ListUtil NumpyLoader LoaderSpec Requests DataCore ArrayData ArrayProofs Hdf5Loader TfLoader TfSpec TfProofs HostFormat HostComplete FormatLoaders GenInstance.
Set Implicit Arguments.

Section Any.
Context {L KW V : Type}.
Variable hl : hloader L KW V.
Variable x64 : bool.
Variable zero : V.
Notation step := (hstep hl x64).
(** the state of a program before the access is opened *)
Notation before l h1 := (fst (run step (hw_init l) h1)).
(** ... and after *)
Notation after l h1 op := (fst (step (fst (run step (hw_init l) h1)) op)).

(** No batch of another format is ever delivered: whatever the loader does, whatever happens before and after *)
Theorem C84_sound l h1 op ca mb k h2 b :
  opens op ca mb -> snd (step (before l h1) op) = HoInit (Ok k) ->
  In (Ok b) (h_answers k h2 (snd (run step (after l h1 op) h2))) -> as_announced hl x64 zero mb b.
Proof.
  intros Ho Hs Hb. destruct (step (before l h1) op) as [w o] eqn:E. cbn [fst snd] in *. subst o.
  destruct (@init_opened _ _ _ _ _ _ _ _ _ _ _ Ho E) as (acc & Hk & Ha). eapply run_sound; eassumption.
Qed.

(** A first cache of another format: every batch call raises TypeError *)
Theorem C84_wrong_format_raises l h1 ca mb kw strict k h2 l1 c l2 d m :
  snd (step (before l h1) (HRandom ca mb kw strict)) = HoInit (Ok k) ->
  h_random hl (hw_loader (before l h1)) ca mb kw = (l1, Ok c) -> h_get hl l1 c = (l2, Ok (d, m)) ->
  format_of d <> canonical_format x64 (h_batch_format hl ca mb) ->
  h_answers k h2 (snd (run step (after l h1 (HRandom ca mb kw strict)) h2)) = repeat (Exc TypeError) (h_calls k h2).
Proof.
  intros Hs Hr Hg Hf. cbn [hstep] in *. unfold h_random_init in *. destruct (h_count hl <? mb); [discriminate|]. destruct ((ca =? 0) || (mb =? 0)); [discriminate|].
  rewrite Hr in *. unfold h_init_cache in *. rewrite Hg in *. cbn [fst snd] in *. injection Hs as <-.
  eapply run_rejects; [cbn [hw_accesses]; rewrite nth_error_app2, Nat.sub_diag by lia; reflexivity|]. exact Hf.
Qed.

(** calls of the methods of the loader itself, with the sizes that the data access functions admit *)
Inductive own_call : (L -> L) -> Prop :=
| OwnRandom ca mb kw : 0 < ca -> 0 < mb <= h_count hl -> own_call (fun l => fst (h_random hl l ca mb kw))
| OwnOrdered ca mb : 0 < mb <= h_count hl -> own_call (fun l => fst (h_ordered hl l ca mb))
| OwnGet c : own_call (fun l => fst (h_get hl l c)).

(** a property of the loader that its methods preserve *)
Lemma loader_inv (P : L -> Prop) : (forall l ca mb kw, P l -> 0 < ca -> 0 < mb <= h_count hl -> P (fst (h_random hl l ca mb kw))) ->
  (forall l ca mb, P l -> 0 < mb <= h_count hl -> P (fst (h_ordered hl l ca mb))) -> (forall l c, P l -> P (fst (h_get hl l c))) ->
  forall h w, (forall f, In (HCall f) h -> own_call f) -> P (hw_loader w) -> P (hw_loader (fst (run step w h))).
Proof using.
  intros H1 H2 H3. induction h as [|o h IH]; intros w Hf Hw; [exact Hw|]. cbn [run]. destruct (step w o) as [w1 x] eqn:E1. specialize (IH w1 (fun f H => Hf f (or_intror H))).
  destruct (run step w1 h) as [w2 xs]. cbn [fst] in *. apply IH. clear IH.
  assert (C : forall l ca mb cid st, P l -> P (hw_loader (fst (h_init_cache hl w l ca mb cid st)))).
  { intros l ca mb cid st Hl. unfold h_init_cache. specialize (H3 l cid Hl). destruct (h_get hl l cid) as [l' [[d m]|e]]; exact H3. }
  destruct o as [ca mb kw st|ca mb|k|f]; cbn [hstep] in E1.
  - unfold h_random_init in E1. destruct (Nat.ltb_spec (h_count hl) mb); [injection E1 as <- _; exact Hw|]. destruct (Nat.eqb_spec ca 0); [injection E1 as <- _; exact Hw|]. destruct (Nat.eqb_spec mb 0); [injection E1 as <- _; exact Hw|]. cbn [orb] in E1.
    specialize (H1 (hw_loader w) ca mb kw Hw ltac:(lia) ltac:(lia)). destruct (h_random hl (hw_loader w) ca mb kw) as [l' [c|e]]; [|injection E1 as <- _; exact H1].
    specialize (C l' ca mb c st H1). destruct (h_init_cache hl w l' ca mb c st) as [w3 r3]. injection E1 as <- _. exact C.
  - unfold h_full_init in E1. destruct (Nat.ltb_spec (h_count hl) mb); [injection E1 as <- _; exact Hw|]. destruct (Nat.eqb_spec mb 0); [injection E1 as <- _; exact Hw|].
    specialize (H2 (hw_loader w) ca mb Hw ltac:(lia)). destruct (h_ordered hl (hw_loader w) ca mb) as [l' [c|e]]; [|injection E1 as <- _; exact H2].
    specialize (C l' ca mb c true H2). destruct (h_init_cache hl w l' ca mb c true) as [w3 r3]. injection E1 as <- _. exact C.
  - unfold h_access_batch in E1. destruct (nth_error (hw_accesses w) k) as [acc|]; [|injection E1 as <- _; exact Hw].
    assert (B : P (r_loader (fst (h_batch_fn hl x64 acc (hw_req w))))).
    { unfold h_batch_fn, h_refresh. destruct (format_eq_dec _ _); [|exact Hw]. destruct (struct_eq_dec _ _); [|exact Hw]. destruct (_ =? _); [|exact Hw]. unfold h_callback, request.
      destruct (tlookup _ _) as [[[? [? ?]] ?]|]; cbn [fst].
      - destruct (format_eq_dec _ _); [|exact Hw]. destruct (struct_eq_dec _ _); exact Hw.
      - set (bad := match clookup _ _ with Some _ => _ | None => _ end). destruct bad; [destruct (acc_strict acc); exact Hw|].
        specialize (H3 (hw_loader w) (ac_chain (acc_state acc)) Hw). unfold hw_loader in H3. destruct (h_get hl (r_loader (hw_req w)) (ac_chain (acc_state acc))) as [l' [[d m]|err]]; [|exact H3].
        destruct (format_eq_dec _ _); [|exact H3]. destruct (struct_eq_dec _ _); exact H3. }
    destruct (h_batch_fn hl x64 acc (hw_req w)) as [r' [[cs b]|e]]; injection E1 as <- _; exact B.
  - injection E1 as <- _. specialize (Hf f (or_introl eq_refl)). unfold hw_loader, hw_with. cbn [hw_req r_loader]. destruct Hf; auto.
Qed.

(** A loader that keeps its promises: every batch call succeeds, with a batch as announced *)
Theorem C84_complete (ok : L -> Prop) (chains : L -> list (nat * nat)) l h1 op ca mb k h2 :
  regular hl x64 ok chains -> ok l -> (forall f, In (HCall f) (h1 ++ h2) -> harmless ok chains f) ->
  opens op ca mb -> snd (step (before l h1) op) = HoInit (Ok k) ->
  exists bs, h_answers k h2 (snd (run step (after l h1 op) h2)) = map Ok bs /\ length bs = h_calls k h2 /\ Forall (as_announced hl x64 zero mb) bs.
Proof.
  intros Hr Hl Hf Ho Hs. pose proof (@run_inv _ _ _ _ _ _ _ Hr h1 (fun f H => Hf f (in_or_app _ _ _ (or_introl H))) _ (@start_inv _ _ _ hl x64 ok chains l Hl)) as Hw.
  assert (Hop : forall f, op = HCall f -> harmless ok chains f) by (intros f ->; inversion Ho).
  destruct (step (before l h1) op) as [w o] eqn:E. cbn [fst snd] in *. subst o.
  destruct (@init_opened _ _ _ _ _ _ _ _ _ _ _ Ho E) as (acc & Hk & Ha). destruct (@step_inv _ _ _ _ _ _ _ Hr _ _ _ _ Hw Hop E) as [Hw' _].
  destruct (@run_complete _ _ _ _ _ _ _ Hr k h2 (fun f H => Hf f (in_or_app _ _ _ (or_intror H))) w acc Hw' Hk) as (bs & B1 & B2). exists bs. split; [exact B1|]. split; [exact B2|].
  apply Forall_forall. intros b Hb. eapply run_sound; [exact Hk|exact Ha|]. rewrite B1. apply in_map. exact Hb.
Qed.
Lemma own_harmless (ok : L -> Prop) (chains : L -> list (nat * nat)) f : regular hl x64 ok chains ->
  (forall l c, ok l -> nth_error (chains l) c = None -> fst (h_get hl l c) = l) -> own_call f -> harmless ok chains f.
Proof.
  intros (R1 & R2 & R3) Hn Hf l Hl. destruct Hf as [ca mb kw Hca Hmb|ca mb Hmb|c].
  - specialize (R1 l ca mb kw Hl Hca Hmb). unfold registers in R1. destruct R1 as [A B]. split; [exact A|]. destruct (snd _); [exists [(ca, mb)]; tauto|exists []; rewrite app_nil_r; exact B].
  - specialize (R2 l ca mb Hl Hmb). unfold registers in R2. destruct R2 as [A B]. split; [exact A|]. destruct (snd _); [exists [(ca, mb)]; tauto|exists []; rewrite app_nil_r; exact B].
  - destruct (nth_error (chains l) c) as [[ca mb]|] eqn:E.
    + destruct (R3 l c ca mb Hl E) as (A & B & _). split; [exact A|]. exists []. rewrite app_nil_r. exact B.
    + rewrite (Hn l c Hl E). split; [exact Hl|]. exists []. now rewrite app_nil_r.
Qed.
End Any.

(** ** HDF5 *)
Section H5.
Context {G V : Type}.
Variable choice_repl : G -> nat -> nat -> G * list nat.
Variable choice_perm : G -> nat -> G * list nat.
Variable rng_of_seed : nat -> G.
Hypothesis Hperm : perm_oracle choice_perm.
Hypothesis Hrepl : repl_oracle choice_repl.
Variable x64 : bool.
Variable cast : dtype -> V -> V.
Variable zero : V.
Notation loader := (h5_hloader choice_repl choice_perm rng_of_seed x64 cast).
Notation step sample N := (hstep (loader sample N) x64).

(** what one observation of the file looks like to jax *)
Definition file_format (stored : list (string * nd V)) : format := map (fun ka => (fst ka, (canonical x64 (nd_dtype (snd ka)), tl (nd_shape (snd ka))))) stored.

Lemma stored_batch_format (sample : format) stored N ca mb : file_format stored = canonical_format x64 sample ->
  stored_format x64 ca mb stored = canonical_format x64 (h_batch_format (loader sample N) ca mb).
Proof using.
  unfold file_format, stored_format, canonical_format, h_batch_format. cbn [h_format h5_hloader]. rewrite map_map. cbn [fst snd]. revert sample.
  induction stored as [|[n a] stored IH]; intros [|[n' [d sh]] sample] H; cbn in H; try discriminate; [reflexivity|]. cbn [map fst snd]. cbn in H. injection H as -> -> -> H. f_equal. apply IH. exact H.
Qed.
Lemma make_h5_rows (stored : list (string * nd V)) (l : aloader G V) : make_h5 stored = Ok l -> al_data l = stored /\ al_chains l = [] /\ (exists ka rest n sh, stored = ka :: rest /\ nd_shape (snd ka) = n :: sh /\ al_count l = n).
Proof using.
  unfold make_h5. destruct stored as [|[k a] rest]; cbn [nd_lens bind]; [discriminate|]. unfold nd_len. destruct (nd_shape a) as [|n sh] eqn:E; cbn [bind]; [discriminate|].
  destruct (nd_lens rest) as [ns|]; cbn [bind]; [|discriminate]. intros [= <-]. cbn [al_data al_chains al_count]. repeat split. exists (k, a), rest, n, sh. auto.
Qed.
Lemma h5_get_none (l : aloader G V) sample N c : nth_error (h5_chains l) c = None -> fst (h_get (loader sample N) l c) = l.
Proof using.
  unfold h5_chains. rewrite nth_error_map. destruct (nth_error (al_chains l) c) eqn:E; [discriminate|]. intros _. cbn [h_get h5_hloader]. unfold h5a_get. rewrite E. reflexivity.
Qed.

(** HDF5Loader: if the sample describes one observation of the file (up to the conversion of dtypes) and no dataset is shorter than the first, every batch
    call of every data access succeeds, as announced *)
Theorem C84_hdf5 (stored : list (string * nd V)) (sample : format) (l : aloader G V) h1 op ca mb k h2 :
  make_h5 stored = Ok l -> rows_ok (al_count l) stored -> file_format stored = canonical_format x64 sample ->
  (forall f, In (HCall f) (h1 ++ h2) -> own_call (loader sample (al_count l)) f) ->
  let w := fst (run (step sample (al_count l)) (hw_init l) h1) in
  opens op ca mb -> snd (step sample (al_count l) w op) = HoInit (Ok k) ->
  exists bs, h_answers k h2 (snd (run (step sample (al_count l)) (fst (step sample (al_count l) w op)) h2)) = map Ok bs /\ length bs = h_calls k h2 /\
    Forall (as_announced (loader sample (al_count l)) x64 zero mb) bs.
Proof using Hperm Hrepl.
  intros Hm Hr Hf Hc w Ho Hs. destruct (make_h5_rows _ Hm) as (D & C & _).
  pose proof (@h5_regular G V choice_repl choice_perm rng_of_seed x64 cast Hperm Hrepl stored (al_count l) sample Hr (fun ca mb => stored_batch_format sample stored (al_count l) ca mb Hf)) as Hreg.
  apply (@C84_complete _ _ _ _ x64 zero _ _ l h1 op ca mb k h2 Hreg); auto.
  - repeat split; [exact D|]. rewrite C. constructor.
  - intros f Hin. eapply own_harmless; [exact Hreg| |apply Hc; exact Hin]. intros l' c _ Hn. apply h5_get_none. exact Hn.
Qed.

(** ... otherwise every batch call raises TypeError: the user never sees wrong arrays *)
Theorem C84_hdf5_mismatch (stored : list (string * nd V)) (sample : format) (l : aloader G V) h1 ca mb kw strict k h2 :
  make_h5 stored = Ok l -> rows_ok (al_count l) stored -> file_format stored <> canonical_format x64 sample ->
  (forall f, In (HCall f) h1 -> own_call (loader sample (al_count l)) f) ->
  let w := fst (run (step sample (al_count l)) (hw_init l) h1) in
  snd (step sample (al_count l) w (HRandom ca mb kw strict)) = HoInit (Ok k) ->
  h_answers k h2 (snd (run (step sample (al_count l)) (fst (step sample (al_count l) w (HRandom ca mb kw strict))) h2)) = repeat (Exc TypeError) (h_calls k h2).
Proof using Hperm Hrepl.
  intros Hm Hr Hf Hcalls w Hs. destruct (make_h5_rows _ Hm) as (D & C & _). set (N := al_count l) in *.
  assert (Hok0 : h5_ok choice_repl choice_perm stored N l) by (repeat split; [exact D|rewrite C; constructor]).
  assert (Hok : h5_ok choice_repl choice_perm stored N (hw_loader w)).
  { apply loader_inv; [| | |exact Hcalls|exact Hok0].
    - intros l' ca' mb' [[ie sh] sd] H _ _. exact (proj1 (@h5_register_spec G V choice_repl choice_perm rng_of_seed x64 cast stored N l' ca' mb' ie sh sd sample H)).
    - intros l' ca' mb' H _. exact (proj1 (@h5_ordered_spec G V choice_repl choice_perm rng_of_seed x64 cast stored N l' ca' mb' sample H)).
    - intros l' c H. destruct (nth_error (h5_chains l') c) as [[ca' mb']|] eqn:E; [|rewrite h5_get_none by exact E; exact H].
      exact (proj1 (@h5_get_spec G V choice_repl choice_perm rng_of_seed x64 cast Hperm Hrepl stored N l' c ca' mb' Hr H E)). }
  destruct kw as [[ie sh] sd]. pose proof (@h5_register_spec G V choice_repl choice_perm rng_of_seed x64 cast stored N (hw_loader w) ca mb ie sh sd sample Hok) as [R1 R2].
  destruct (h_random (loader sample N) (hw_loader w) ca mb (ie, sh, sd)) as [l1 [c|e]] eqn:Er; cbn [fst snd] in R1, R2.
  2:{ exfalso. cbn [hstep] in Hs. unfold h_random_init in Hs. destruct (_ <? _); [discriminate|]. destruct (_ || _); [discriminate|]. rewrite Er in Hs. discriminate. }
  destruct R2 as [Ec R2]. assert (Hn : nth_error (h5_chains l1) c = Some (ca, mb)) by (rewrite R2, Ec, nth_error_app2, Nat.sub_diag by lia; reflexivity).
  destruct (@h5_get_spec G V choice_repl choice_perm rng_of_seed x64 cast Hperm Hrepl stored N l1 c ca mb Hr R1 Hn) as (_ & _ & S3).
  destruct (h5a_get choice_repl choice_perm x64 cast l1 c) as [l2 [[d m]|e]] eqn:Eg; cbn [snd] in S3.
  - destruct S3 as (_ & S3 & _). eapply (@C84_wrong_format_raises _ _ _ (loader sample N) x64 l h1 ca mb (ie, sh, sd) strict k h2 l1 c l2 d m); [exact Hs|exact Er|exact Eg|].
    rewrite S3. intros E. apply Hf. clear - E. unfold file_format, stored_format, canonical_format, h_batch_format in *. cbn [h_format h5_hloader] in E. rewrite map_map in E. cbn [fst snd] in E. revert sample E.
    induction stored as [|[n a] stored IH]; intros [|[n' [d sh]] sample] H; cbn in H; try discriminate; [reflexivity|]. cbn [map fst snd]. injection H as -> -> -> H. f_equal. apply IH. exact H.
  - exfalso. subst ca. cbn [hstep] in Hs. unfold h_random_init in Hs. destruct (_ <? _); [discriminate|]. cbn [Nat.eqb orb] in Hs. discriminate.
Qed.
End H5.

(** ** tensorflow *)
(** all dimensions are known *)
Definition all_known (s : list (option nat)) : Prop := forall o, In o s -> o <> None.

Lemma known_cons o s : known (o :: s) = match o with Some n => [n] | None => [] end ++ known s.
Proof. reflexivity. Qed.
Lemma known_shape s sh : all_known s -> Forall2 (fun o n => o = None \/ o = Some n) s sh -> known s = sh.
Proof.
  intros H F. induction F as [|o n s sh Ho F IH]; [reflexivity|]. destruct Ho as [-> | ->]; [exfalso; apply (H None); [left; reflexivity|reflexivity]|].
  cbn. f_equal. apply IH. intros o Hin. apply H. right. exact Hin.
Qed.
Lemma unknown_length s sh : ~ all_known s -> Forall2 (fun o n => o = None \/ o = Some n) s sh -> length (known s) < length sh.
Proof.
  intros H F. assert (W : forall s sh, Forall2 (fun o n => o = None \/ o = Some n) s sh -> length (known s) <= length sh).
  { clear. intros s sh F. induction F as [|o n s sh Ho F IH]; [cbn; lia|]. rewrite known_cons, app_length. destruct o; cbn [length]; lia. }
  induction F as [|o n s sh Ho F IH].
  - exfalso. apply H. intros o [].
  - rewrite known_cons, app_length. destruct o as [m|]; [|specialize (W _ _ F); cbn [length]; lia]. cbn [length]. apply -> Nat.succ_lt_mono. apply IH. intros A. apply H. intros o [<- |Hin]; [discriminate|apply A; exact Hin].
Qed.
Section Tf.
Context {V : Type}.
Variable pick : nat -> nat -> nat.
Variable x64 : bool.
Variable cast : dtype -> V -> V.
Variable zero : V.
Notation loader := (tf_hloader pick x64 cast).
Notation step spec exclude N := (hstep (loader spec exclude N) x64).

Lemma remaining_describes N (spec : tf_spec) (columns : list (string * (nat -> nd V))) exclude : describes N spec columns -> describes N (remaining exclude spec) (remaining exclude columns).
Proof using.
  intros F. unfold remaining. induction F as [|ks kc spec columns [E C] F IH]; [constructor|]. cbn [filter]. rewrite E. destruct (negb _); [constructor; [split; assumption|exact IH]|exact IH].
Qed.
Lemma column_batch_format N spec exclude (columns : list (string * (nat -> nd V))) ca mb : 0 < N -> describes N spec columns -> (forall ks, In ks (remaining exclude spec) -> all_known (snd (snd ks))) ->
  column_format x64 ca mb (remaining exclude columns) = canonical_format x64 (h_batch_format (loader spec exclude N) ca mb).
Proof using.
  intros HN Hd Hk. pose proof (remaining_describes exclude Hd) as F. unfold h_batch_format, canonical_format, column_format. cbn [h_format tf_hloader]. unfold tf_format. rewrite !map_map. cbn [fst snd].
  change (filter _ spec) with (remaining exclude spec). induction F as [|ks kc s c [E C] F IH]; [reflexivity|]. cbn [map]. f_equal.
  - destruct (C 0 HN) as [C1 C2]. rewrite C1, E. rewrite (known_shape (Hk ks (or_introl eq_refl)) C2). reflexivity.
  - apply IH. intros x Hx. apply Hk. right. exact Hx.
Qed.
Lemma known_one_shape N spec exclude (columns : list (string * (nat -> nd V))) : describes N spec columns -> (forall ks, In ks (remaining exclude spec) -> all_known (snd (snd ks))) -> Forall (one_shape N) (remaining exclude columns).
Proof using.
  intros Hd Hk. pose proof (remaining_describes exclude Hd) as F. induction F as [|ks kc s c [E C] F IH]; [constructor|]. constructor.
  - intros i j Hi Hj. unfold nd_struct. destruct (C i Hi) as [A1 A2]. destruct (C j Hj) as [B1 B2]. pose proof (Hk ks (or_introl eq_refl)) as K.
    rewrite A1, B1, <- (known_shape K A2), <- (known_shape K B2). reflexivity.
  - apply IH. intros x Hx. apply Hk. right. exact Hx.
Qed.
Lemma tf_get_none (l : tloader (nd V)) spec exclude N c : nth_error (tf_chains l) c = None -> fst (h_get (loader spec exclude N) l c) = l.
Proof using.
  unfold tf_chains. rewrite nth_error_map. destruct (nth_error (tl_chains l) c) eqn:E; [discriminate|]. intros _. cbn [h_get tf_hloader]. unfold tfa_get, tf_get. rewrite E. reflexivity.
Qed.

(** TensorflowDataLoader: if the pipeline knows all dimensions of the entries that are not excluded, every batch call of every data access succeeds, as
    announced *)
Theorem C84_tf (columns : list (string * (nat -> nd V))) spec exclude N B h1 op ca mb k h2 :
  0 < N -> 0 < B -> NoDup exclude -> incl exclude (map fst columns) -> describes N spec columns ->
  (forall ks, In ks (remaining exclude spec) -> all_known (snd (snd ks))) ->
  (forall f, In (HCall f) (h1 ++ h2) -> own_call (loader spec exclude N) f) ->
  let w := fst (run (step spec exclude N) (hw_init (tl_new columns N exclude B)) h1) in
  opens op ca mb -> snd (step spec exclude N w op) = HoInit (Ok k) ->
  exists bs, h_answers k h2 (snd (run (step spec exclude N) (fst (step spec exclude N w op)) h2)) = map Ok bs /\ length bs = h_calls k h2 /\
    Forall (as_announced (loader spec exclude N) x64 zero mb) bs.
Proof using.
  intros HN HB He1 He2 Hd Hk Hc w Ho Hs.
  pose proof (@tf_regular V pick x64 cast columns N B exclude HB He1 He2 (known_one_shape exclude Hd Hk) spec (fun ca mb => column_batch_format exclude ca mb HN Hd Hk)) as Hreg.
  apply (@C84_complete _ _ _ _ x64 zero _ _ (tl_new columns N exclude B) h1 op ca mb k h2 Hreg); auto.
  - apply tf_new_ok.
  - intros f Hin. eapply own_harmless; [exact Hreg| |apply Hc; exact Hin]. intros l' c _ Hn. apply tf_get_none. exact Hn.
Qed.

(** an unknown dimension (variable number of features, padded batches of one length): the announced shape has a dimension less than the data, and although all
    observations have one and the same shape every batch call raises TypeError *)
Theorem C84_tf_unknown_dims (columns : list (string * (nat -> nd V))) spec exclude N B h1 ca mb strict k h2 ks :
  0 < N -> 0 < B -> NoDup exclude -> incl exclude (map fst columns) -> describes N spec columns -> Forall (one_shape N) (remaining exclude columns) ->
  In ks (remaining exclude spec) -> ~ all_known (snd (snd ks)) ->
  (forall f, In (HCall f) h1 -> own_call (loader spec exclude N) f) ->
  let w := fst (run (step spec exclude N) (hw_init (tl_new columns N exclude B)) h1) in
  snd (step spec exclude N w (HRandom ca mb false strict)) = HoInit (Ok k) ->
  h_answers k h2 (snd (run (step spec exclude N) (fst (step spec exclude N w (HRandom ca mb false strict))) h2)) = repeat (Exc TypeError) (h_calls k h2).
Proof using.
  intros HN HB He1 He2 Hd Hone Hin Hk Hcalls w Hs. set (l := tl_new columns N exclude B) in *.
  assert (Hok : tf_ok columns N B exclude (hw_loader w)).
  { apply loader_inv; [| | |exact Hcalls|apply tf_new_ok].
    - intros l' ca' mb' extra H Hca Hmb. exact (proj1 (@tf_register_spec V pick x64 cast columns N B exclude HB spec l' ca' mb' extra H Hca Hmb)).
    - intros l' ca' mb' H _. exact H.
    - intros l' c H. destruct (nth_error (tf_chains l') c) as [[ca' mb']|] eqn:E; [|rewrite tf_get_none by exact E; exact H].
      exact (proj1 (@tf_get_spec V pick x64 cast columns N B exclude He1 He2 Hone l' c ca' mb' H E)). }
  assert (Hsz : 0 < ca /\ 0 < mb <= N).
  { cbn [hstep] in Hs. unfold h_random_init in Hs. cbn [h_count tf_hloader] in Hs. destruct (Nat.ltb_spec N mb); [discriminate|]. destruct (Nat.eqb_spec ca 0); [discriminate|]. destruct (Nat.eqb_spec mb 0); [discriminate|]. lia. }
  destruct Hsz as (Hca & Hmb).
  pose proof (@tf_register_spec V pick x64 cast columns N B exclude HB spec (hw_loader w) ca mb false Hok Hca Hmb) as [R1 R2].
  destruct (h_random (loader spec exclude N) (hw_loader w) ca mb false) as [l1 [c|e]] eqn:Er; cbn [fst snd] in R1, R2; [|discriminate Er].
  destruct R2 as [Ec R2]. assert (Hn : nth_error (tf_chains l1) c = Some (ca, mb)) by (rewrite R2, Ec, nth_error_app2, Nat.sub_diag by lia; reflexivity).
  destruct (@tf_get_spec V pick x64 cast columns N B exclude He1 He2 Hone l1 c ca mb R1 Hn) as (_ & _ & d & Ed & _ & Fd).
  destruct (tfa_get pick x64 cast l1 c) as [l2 o2] eqn:Eg. cbn [snd] in Ed. subst o2.
  eapply (@C84_wrong_format_raises _ _ _ (loader spec exclude N) x64 l h1 ca mb false strict k h2 l1 c l2 d None); [exact Hs|exact Er|exact Eg|].
  rewrite Fd. intros E. pose proof (remaining_describes exclude Hd) as F. unfold h_batch_format, canonical_format, column_format in E. cbn [h_format tf_hloader] in E. unfold tf_format in E. rewrite !map_map in E. cbn [fst snd] in E.
  change (filter _ spec) with (remaining exclude spec) in E. clear - HN Hin Hk E F. induction F as [|k1 kc s c [En C] F IH]; [contradiction|]. cbn [map] in E. injection E as _ _ E1 E2.
  destruct Hin as [<- |Hin]; [|apply IH; assumption]. destruct (C 0 HN) as [_ C2]. pose proof (unknown_length Hk C2) as Hl. rewrite <- E1 in Hl. lia.
Qed.
End Tf.

(** ** refuted: a dataset that is shorter than the first is not noticed at construction (a NumpyDataLoader with the same arrays raises ValueError, C01); the
    access to the data fails with an IndexError in the middle of a run *)
Definition short_file : list (string * nd nat) := [("x"%string, mkNd DFloat32 [4] [0; 1; 2; 3]); ("y"%string, mkNd DFloat32 [2] [10; 11])].
(** auxiliary definition of a statement or a proof; models no code of /repo *)
Definition short_sample : format := [("x"%string, (DFloat32, [])); ("y"%string, (DFloat32, []))].
(** auxiliary definition of a statement or a proof; models no code of /repo *)
Definition short_step := hstep (h5_hloader lin_repl rot_perm (fun s => s) false (fun (_ : dtype) (v : nat) => v) short_sample 4) false.
Theorem C84_hdf5_shorter_refuted : exists (l : aloader nat nat) w b, make_h5 short_file = Ok l /\ al_count l = 4 /\ file_format false short_file = canonical_format false short_sample /\
  @make_aloader nat nat short_file = Exc ValueError /\ short_step (hw_init l) (HFull 1 2) = (w, HoInit (Ok 0)) /\
  snd (run short_step w [HBatch 0; HBatch 0]) = [HoBatch (Ok b); HoBatch (Exc IndexError)].
Proof. do 3 eexists. split; [reflexivity|]. split; [reflexivity|]. split; [reflexivity|]. split; [reflexivity|]. split; vm_compute; reflexivity. Qed.

(** ** the hypotheses are met *)
(** auxiliary definition of a statement or a proof; models no code of /repo *)
Definition ex_file : list (string * nd nat) := [("x"%string, mkNd DFloat64 [3; 2] [0; 1; 2; 3; 4; 5]); ("y"%string, mkNd DInt32 [4] [10; 11; 12; 13])].
(** auxiliary definition of a statement or a proof; models no code of /repo *)
Definition ex_sample : format := [("x"%string, (DFloat32, [2])); ("y"%string, (DInt32, []))].
(** auxiliary definition of a statement or a proof; models no code of /repo *)
Definition ex_h5 := h5_hloader lin_repl rot_perm (fun s : nat => s) false (fun (_ : dtype) (v : nat) => v) ex_sample 3.
Example C84_hdf5_nonvacuous : exists (l : aloader nat nat), make_h5 ex_file = Ok l /\ al_count l = 3 /\ rows_ok (al_count l) ex_file /\ file_format false ex_file = canonical_format false ex_sample /\
  own_call ex_h5 (fun l => fst (h_get ex_h5 l 0)) /\
  snd (hstep ex_h5 false (fst (run (hstep ex_h5 false) (hw_init l) [HFull 1 2; HCall (fun l => fst (h_get ex_h5 l 0))])) (HRandom 2 2 (false, false, None) true)) = HoInit (Ok 1).
Proof.
  eexists. split; [reflexivity|]. split; [reflexivity|]. split; [|split; [reflexivity|split; [constructor|vm_compute; reflexivity]]].
  intros ka [<- |[<- |[]]]; [exists 3, [2]|exists 4, []]; cbn; split; auto.
Qed.
(** a sample with another number of features: the access opens, every batch call raises *)
Example C84_hdf5_mismatch_nonvacuous : exists (l : aloader nat nat), make_h5 ex_file = Ok l /\ file_format false ex_file <> canonical_format false [("x"%string, (DFloat32, [3])); ("y"%string, (DInt32, []))] /\
  snd (hstep (h5_hloader lin_repl rot_perm (fun s : nat => s) false (fun (_ : dtype) (v : nat) => v) [("x"%string, (DFloat32, [3])); ("y"%string, (DInt32, []))] 3) false (hw_init l) (HRandom 2 2 (false, false, None) true)) = HoInit (Ok 0).
Proof. eexists. split; [reflexivity|]. split; [discriminate|vm_compute; reflexivity]. Qed.
(** auxiliary definition of a statement or a proof; models no code of /repo *)
Definition ex_columns : list (string * (nat -> nd nat)) := [("id"%string, fun i => mkNd DInt64 [] [i]); ("x"%string, fun i => mkNd DFloat64 [2] [i; 10 * i])].
(** auxiliary definition of a statement or a proof; models no code of /repo *)
Definition ex_spec : tf_spec := [("id"%string, (DInt64, [])); ("x"%string, (DFloat64, [Some 2]))].
(** auxiliary definition of a statement or a proof; models no code of /repo *)
Definition ex_spec_unknown : tf_spec := [("id"%string, (DInt64, [])); ("x"%string, (DFloat64, [None]))].
Example C84_tf_nonvacuous : NoDup ["id"%string] /\ incl ["id"%string] (map fst ex_columns) /\ describes 5 ex_spec ex_columns /\ describes 5 ex_spec_unknown ex_columns /\
  Forall (one_shape 5) (remaining ["id"%string] ex_columns) /\
  (forall ks, In ks (remaining ["id"%string] ex_spec) -> all_known (snd (snd ks))) /\ ~ all_known [@None nat] /\ In ("x"%string, (DFloat64, [None])) (remaining ["id"%string] ex_spec_unknown) /\
  snd (hstep (tf_hloader (fun _ n => n) false (fun (_ : dtype) (v : nat) => v) ex_spec ["id"%string] 5) false (hw_init (tl_new ex_columns 5 ["id"%string] 3)) (HRandom 2 2 false true)) = HoInit (Ok 0) /\
  snd (hstep (tf_hloader (fun _ n => n) false (fun (_ : dtype) (v : nat) => v) ex_spec_unknown ["id"%string] 5) false (hw_init (tl_new ex_columns 5 ["id"%string] 3)) (HRandom 2 2 false true)) = HoInit (Ok 0).
Proof.
  split; [constructor; [intros []|constructor]|]. split; [intros x [<- |[]]; cbn; auto|].
  split; [repeat apply Forall2_cons; try apply Forall2_nil; (split; [reflexivity|]); intros i _; (split; [reflexivity|]); cbn; repeat (apply Forall2_cons; [auto|]); apply Forall2_nil|].
  split; [repeat apply Forall2_cons; try apply Forall2_nil; (split; [reflexivity|]); intros i _; (split; [reflexivity|]); cbn; repeat (apply Forall2_cons; [auto|]); apply Forall2_nil|]. split; [constructor; [intros i j _ _; reflexivity|constructor]|].
  split; [intros ks [<- |[]] o [<- |[]]; discriminate|]. split; [intros H; apply (H None); [left; reflexivity|reflexivity]|]. split; [left; reflexivity|].
  split; vm_compute; reflexivity.
Qed.

Print Assumptions C84_sound.
Print Assumptions C84_wrong_format_raises.
Print Assumptions C84_complete.
Print Assumptions C84_hdf5.
Print Assumptions C84_hdf5_mismatch.
Print Assumptions C84_tf.
Print Assumptions C84_tf_unknown_dims.
Print Assumptions C84_hdf5_shorter_refuted.
