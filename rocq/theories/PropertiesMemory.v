(** C68: memory of NumpyDataLoader. *)
From Verif Require Import Base ListUtil NumpyLoader LoaderSpec GenInstance MemoryLoader MemorySpec MemoryProofs.
From Coq Require String.
Set Implicit Arguments.

Section C68.
Context {G obs : Type}.
Variable choice_repl : G -> nat -> nat -> G * list nat.
Variable choice_perm : G -> nat -> G * list nat.
Variable rng_of_seed : nat -> G.
Notation step := (mem_step choice_repl choice_perm rng_of_seed).
Notation vstep := (value_step choice_repl choice_perm rng_of_seed).
Notation named arrays args := (map (fun na : String.string * nat => (fst na, nth (snd na) arrays [])) args).
(** the arguments are arrays that exist *)
Definition valid_args (arrays : list (list obs)) (args : list (String.string * nat)) : Prop := forall na, In na args -> snd na < length arrays.

Lemma make_sep copy (arrays : list (list obs)) args (m : memory G obs) : valid_args arrays args -> mem_make copy arrays args = Ok m -> Sep m /\ exists l, make_loader (named arrays args) = Ok l /\ abs m = (l, []) /\
  (copy = true -> forall a, In a (map snd (m_names m)) <-> length arrays <= a < length arrays + length args) /\ (copy = false -> m_names m = args /\ m_arrays m = arrays).
Proof.
  intros Hv H. unfold mem_make in H. destruct (make_loader (named arrays args)) as [l|] eqn:El; [|discriminate]. cbn [bind] in H.
  assert (Hl : l_chains l = [] /\ l_data l = named arrays args).
  { unfold make_loader in El. destruct (named arrays args) as [|[n0 a0] r]; [now injection El as <-|]. destruct (existsb _ _); [discriminate|]. now injection El as <-. }
  destruct Hl as [Hl1 Hl2]. destruct copy; injection H as <-.
  - split.
    + split; try (intros [i|d] **; destruct i || destruct d; discriminate); try (intros [[|i]|[|d]]; discriminate). cbn. intros [n a] Hna. apply in_combine_r in Hna. apply in_seq in Hna. cbn. rewrite app_length, map_length. lia.
    + exists l. split; auto. split; [|split; [|discriminate]].
      * unfold abs, view. cbn. f_equal. destruct l as [c d ch]. cbn in *. subst. f_equal.
        assert (X : forall k pre suf, length pre = k -> suf = map (fun na : String.string * nat => nth (snd na) arrays []) args ->
          map (fun na : String.string * nat => (fst na, nth (snd na) (pre ++ suf) [])) (combine (map fst args) (seq k (length args))) = named arrays args).
        { clear. induction args as [|[n a] args IH]; intros k pre suf Hk Hs; [reflexivity|]. cbn [map length seq combine fst snd]. f_equal.
          - f_equal. subst suf. cbn [map snd]. rewrite app_nth2 by lia. now rewrite Hk, Nat.sub_diag.
          - subst suf. cbn [map snd]. replace (pre ++ nth a arrays [] :: map _ args) with ((pre ++ [nth a arrays []]) ++ map (fun na : String.string * nat => nth (snd na) arrays []) args) by (now rewrite <- app_assoc).
            apply IH; auto. rewrite app_length. cbn. lia. }
        now apply X.
      * intros _ a. cbn. assert (E : map snd (combine (map fst args) (seq (length arrays) (length args))) = seq (length arrays) (length args)).
        { assert (X : forall A B (x : list A) (y : list B), length x = length y -> map snd (combine x y) = y) by (induction x; destruct y; intros; cbn in *; try discriminate; auto; f_equal; auto).
          apply X. now rewrite map_length, seq_length. }
        rewrite E, in_seq. lia.
  - split.
    + split; try (intros [[|i]|[|d]]; discriminate). exact Hv.
    + exists l. split; auto. split; [|split; [discriminate|auto]]. unfold abs, view. cbn. f_equal. destruct l. cbn in *. now subst.
Qed.
Lemma run_refines : forall (h : list (mop obs)) (m : memory G obs), Sep m -> no_shallow h -> writes_outside (map snd (m_names m)) h ->
  run vstep (abs m) h = (abs (fst (run step m h)), snd (run step m h)) /\ Sep (fst (run step m h)) /\ m_names (fst (run step m h)) = m_names m.
Proof.
  induction h as [|o h IH]; intros m HS Hn Hw; [auto|]. destruct (@step_refines _ _ choice_repl choice_perm rng_of_seed m o HS) as (R1 & R2 & R3).
  { intros d ->. apply (Hn d). now left. }
  { intros a i v ->. apply (Hw a i v). now left. }
  cbn [run]. rewrite R1. destruct (step m o) as [m1 out]. cbn [fst snd] in *. destruct (IH m1 R2) as (I1 & I2 & I3).
  { intros d Hd. apply (Hn d). now right. }
  { intros a i v Hx. rewrite R3. apply (Hw a i v). now right. }
  rewrite I1. destruct (run step m1 h) as [m2 os]. cbn [fst snd] in *. split; auto. split; auto. congruence.
Qed.
(** With copy=True (and without, for arrays that were not given to the loader) nothing the user writes into his arrays is seen by the loader, chains and checkpoints do not influence each other
    through shared memory: all answers are those of a loader without memory, built from the arrays as they were at construction - provided checkpoints are not duplicated with dict().
    The arrays of the loader are new ones. *)
Theorem C68_isolated : forall copy (arrays : list (list obs)) args (m : memory G obs), valid_args arrays args -> mem_make copy arrays args = Ok m ->
  (copy = true -> forall a, In a (map snd (m_names m)) <-> length arrays <= a < length arrays + length args) /\
  exists l, make_loader (named arrays args) = Ok l /\
  forall h, no_shallow h -> writes_outside (map snd (m_names m)) h -> snd (run step m h) = snd (run vstep (l, []) h).
Proof.
  intros copy arrays args m Hv H. destruct (@make_sep copy arrays args m Hv H) as (HS & l & El & A & C1 & C2). split; auto. exists l. split; auto. intros h Hn Hw.
  destruct (@run_refines h m HS Hn Hw) as (R & _). rewrite A in R. now rewrite R.
Qed.
(** in particular writes can be left out of the history: same answers to everything else *)
Definition not_write (o : mop obs) : bool := match o with MWrite _ _ _ => false | _ => true end.
Corollary C68_writes_invisible : forall (arrays : list (list obs)) args (m : memory G obs) h, valid_args arrays args -> mem_make true arrays args = Ok m -> no_shallow h ->
  (forall a i v, In (MWrite a i v) h -> a < length arrays) ->
  snd (run step m (filter not_write h)) = map snd (filter (fun oo => not_write (fst oo)) (combine h (snd (run step m h)))).
Proof.
  intros arrays args m h Hv H Hn Hw. destruct (@C68_isolated true arrays args m Hv H) as (C1 & l & El & R). specialize (C1 eq_refl).
  rewrite R.
  2:{ intros d Hd. apply filter_In in Hd. apply (Hn d). tauto. }
  2:{ intros a i v Hx. apply filter_In in Hx. destruct Hx; discriminate. }
  rewrite R; [|exact Hn|intros a i v Hx; rewrite C1; specialize (Hw a i v Hx); lia]. clear.
  generalize (l, @nil (option (ckpt G))). induction h as [|o h IH]; intros s; [reflexivity|]. cbn [filter run].
  destruct (not_write o) eqn:Eo.
  - cbn [run]. destruct (vstep s o) as [s1 out]. specialize (IH s1). destruct (run vstep s1 h) as [s2 os]. destruct (run vstep s1 (filter not_write h)) as [s3 os3]. cbn in *. rewrite Eo. cbn. now rewrite IH.
  - destruct o; try discriminate. destruct s as [l0 cks]. cbn [run value_step]. specialize (IH (l0, cks)). destruct (run vstep (l0, cks) h) as [s2 os]. destruct (run vstep (l0, cks) (filter not_write h)) as [s3 os3]. cbn in *. now rewrite IH.
Qed.
(** ** copy=False *)
(** contents of the arrays after a history *)
Definition contents (arrays : list (list obs)) (h : list (mop obs)) : list (list obs) :=
  fold_left (fun A o => match o with MNew a => A ++ [a] | MWrite a i v => upd A a (upd (nth a A []) i v) | _ => A end) h arrays.
Definition same_but_data (s1 s2 : value_state (G := G) (obs := obs)) : Prop := l_count (fst s1) = l_count (fst s2) /\ l_chains (fst s1) = l_chains (fst s2) /\ snd s1 = snd s2.
Lemma data_irrelevant s1 s2 o : same_but_data s1 s2 -> same_but_data (fst (vstep s1 o)) (fst (vstep s2 o)).
Proof.
  destruct s1 as [[n1 d1 c1] k1], s2 as [[n2 d2 c2] k2]. intros (E1 & E2 & E3). cbn in E1, E2, E3. subst n2 c2 k2.
  assert (HR : same_but_data (mkLoader n1 d1 c1, k1) (mkLoader n1 d2 c1, k1)) by (repeat split).
  destruct o as [a|a i v|ca mb ie sh sd|ca mb|cid|cid|d|d|cid d]; cbn [value_step]; auto.
  - unfold register_random. cbn [l_count l_chains]. destruct (n1 <? mb); auto. destruct (negb sh && ie); auto. destruct (mb =? 0); auto. repeat split.
  - unfold register_ordered. cbn [l_count l_chains]. destruct (mb <=? n1); auto. repeat split.
  - unfold get_batches. cbn [l_count l_chains l_data]. destruct (nth_error c1 cid) as [c|]; auto. destruct (get_indices _ _ _ c) as [[c' bs]|]; auto. destruct (slice_data d1 _), (slice_data d2 _); repeat split.
  - unfold save_state. cbn [l_chains]. destruct (nth_error c1 cid) as [c|]; auto. destruct (c_type c); [destruct (c_rng c); auto|]; repeat split.
  - destruct (nth_error k1 d); auto. repeat split.
  - destruct (nth_error k1 d); auto. repeat split.
  - destruct (nth_error k1 d) as [[[g c|off]|]|]; auto; cbn [load_state l_chains]; destruct (nth_error c1 cid) as [c0|]; try (repeat split; fail). destruct (c_rng c0); repeat split.
Qed.
Lemma no_copy_run args : forall (h : list (mop obs)) (m : memory G obs) s, Sep m -> m_names m = args -> no_shallow h -> same_but_data (abs m) s ->
  Sep (fst (run step m h)) /\ m_names (fst (run step m h)) = args /\ m_arrays (fst (run step m h)) = contents (m_arrays m) h /\ same_but_data (abs (fst (run step m h))) (fst (run vstep s h)).
Proof.
  induction h as [|o h IH]; intros m s HS Hm Hn HR; [auto|].
  assert (X : Sep (fst (step m o)) /\ m_names (fst (step m o)) = args /\ m_arrays (fst (step m o)) = contents (m_arrays m) [o] /\ same_but_data (abs (fst (step m o))) (fst (vstep s o))).
  { assert (AR : m_arrays (fst (step m o)) = contents (m_arrays m) [o]).
    { destruct o as [a|a i v|ca mb ie sh sd|ca mb|cid|cid|d|d|cid d]; cbn; auto.
      - destruct (register_random _ _ _ _ _ _ _); reflexivity.
      - destruct (register_ordered _ _ _); reflexivity.
      - destruct (get_batches _ _ _ _) as [l' r]. destruct (nth_error (m_chains m) cid) as [mc|]; [|reflexivity]. destruct (nth_error (l_chains l') cid); [|reflexivity]. destruct (store _ _ _). reflexivity.
      - destruct (nth_error (m_chains m) cid) as [mc|]; [|reflexivity]. destruct (c_type (fst mc)); [|reflexivity]. destruct (c_rng (fst mc)); [|reflexivity]. destruct (deep _ _). reflexivity.
      - destruct (nth_error (m_dicts m) d); reflexivity.
      - destruct (nth_error (m_dicts m) d) as [[[g mc|off]|]|]; try reflexivity. destruct (deep _ _). reflexivity.
      - destruct (nth_error (m_dicts m) d) as [[ck|]|]; try reflexivity. destruct (nth_error (m_chains m) cid) as [mc|]; [|reflexivity]. destruct ck as [g [c a]|off]; [|reflexivity]. destruct (c_rng (fst mc)); reflexivity. }
    destruct (not_write o) eqn:Eo.
    - destruct (@step_refines _ _ choice_repl choice_perm rng_of_seed m o HS) as (R1 & R2 & R3).
      { intros d ->. apply (Hn d). now left. }
      { intros a i v ->. discriminate. }
      split; auto. split; [congruence|]. split; auto. replace (abs (fst (step m o))) with (fst (vstep (abs m) o)) by now rewrite R1. now apply data_irrelevant.
    - destruct o as [|a i v| | | | | | |]; try discriminate. split; [|split; [exact Hm|split; [exact AR|]]].
      + cbn [mem_step fst]. split; [apply (sep_uniq HS)|apply (sep_in HS)|]. cbn. intros na Hna. rewrite length_upd. exact (sep_names HS na Hna).
      + destruct s as [l cks]. exact HR. }
  destruct X as (X1 & X2 & X3 & X4). cbn [run]. destruct (step m o) as [m1 out]. destruct (vstep s o) as [s1 out']. cbn [fst] in *.
  destruct (IH m1 s1 X1 X2) as (Y1 & Y2 & Y3 & Y4); [intros d Hd; apply (Hn d); now right|exact X4|].
  destruct (run step m1 h) as [m2 os]. destruct (run vstep s1 h) as [s2 os2]. cbn [fst] in *. split; auto. split; auto. split; [|exact Y4]. rewrite Y3, X3. reflexivity.
Qed.
(** With copy=False the arrays are shared: a batch consists of the current contents of the arrays, at the positions that do not depend on the writes *)
Theorem C68_no_copy : forall (arrays : list (list obs)) args (m : memory G obs), valid_args arrays args -> mem_make false arrays args = Ok m ->
  exists l, make_loader (named arrays args) = Ok l /\
  forall h cid, no_shallow h -> let '(l1, _) := fst (run vstep (l, []) h) in
    snd (step (fst (run step m h)) (MGet cid)) = UBatch (snd (get_batches choice_repl choice_perm (mkLoader (l_count l1) (named (contents arrays h) args) (l_chains l1)) cid)).
Proof.
  intros arrays args m Hv H. destruct (@make_sep false arrays args m Hv H) as (HS & l & El & A & _ & C2). destruct (C2 eq_refl) as [Hm1 Hm2]. exists l. split; auto. intros h cid Hn.
  destruct (@no_copy_run args h m (l, []) HS Hm1 Hn) as (Y1 & Y2 & Y3 & Y4). { rewrite A. repeat split. }
  destruct (fst (run vstep (l, []) h)) as [l1 cks]. set (m1 := fst (run step m h)) in *. clearbody m1. destruct Y4 as (Z1 & Z2 & _). cbn [abs fst] in Z1, Z2. rewrite Hm2 in Y3.
  replace (mkLoader (l_count l1) (named (contents arrays h) args) (l_chains l1)) with (view m1).
  2:{ rewrite <- Z1, <- Z2, <- Y3, <- Y2. reflexivity. }
  cbn [mem_step]. destruct (get_batches choice_repl choice_perm (view m1) cid) as [l' r]. destruct (nth_error (m_chains m1) cid) as [mc|]; [|reflexivity]. destruct (nth_error (l_chains l') cid) as [c|]; [|reflexivity]. destruct (store _ _ _). reflexivity.
Qed.
End C68.

(** ** dict(checkpoint) is not enough: the copies share the array random_indices *)
Definition sh_arrays : list (list nat) := [[10; 11; 12; 13]].
Import String.StringSyntax. Delimit Scope string_scope with string.
(** Two in_epochs chains; after the first batch of chain 0 its state is saved, the checkpoint copied, and both chains are restored from it. Then two batches of chain 0, one batch of chain 1. *)
Definition sh_history (copy_dict : nat -> mop nat) : list (mop nat) :=
  [MRegRandom 1 2 true true (Some 0); MRegRandom 1 2 true true (Some 0); MGet 0; MSave 0; copy_dict 0; MLoad 0 0; MLoad 1 1; MGet 0; MGet 0; MGet 1].
Definition sh_batch (rows : list nat) : mout nat := UBatch (Ok ([("x"%string, [rows])], [[true; true]])).
Theorem C68_shallow_copy_refuted : exists m, mem_make true sh_arrays [("x"%string, 0)] = Ok m /\
  let outs c := map (fun i => nth i (snd (run (mem_step lin_repl rot_perm (fun s => s)) m (sh_history c))) UNone) [2; 7; 9] in
  (** with deepcopy both chains complete the epoch *)
  outs (fun d => MDeep d) = map sh_batch [[10; 11]; [12; 13]; [12; 13]] /\
  (** with dict() chain 1 gets observation 10 a second time and never observation 12 *)
  outs (fun d => MShallow d) = map sh_batch [[10; 11]; [12; 13]; [13; 10]].
Proof. eexists. split; [reflexivity|]. split; vm_compute; reflexivity. Qed.
(** The hypotheses of the positive theorems are met: a history with writes, two chains and a checkpoint, whose answers are not trivial. *)
Example C68_nonvacuous : exists m, mem_make true [[1; 2; 3]; [4; 5; 6]] [("x"%string, 0); ("y"%string, 1)] = Ok m /\
  let h := [MRegOrdered 1 2; MGet 0; MWrite 0 2 99; MSave 0; MDeep 0; MGet 0; MLoad 0 1; MGet 0] in
  valid_args [[1; 2; 3]; [4; 5; 6]] [("x"%string, 0); ("y"%string, 1)] /\ no_shallow h /\ writes_outside (map snd (m_names m)) h /\
  snd (run (mem_step lin_repl rot_perm (fun s => s)) m h) =
    [UReg (Ok 0); UBatch (Ok ([("x"%string, [[1; 2]]); ("y"%string, [[4; 5]])], [[true; true]])); UNone; USaved (Ok 0); USaved (Ok 1);
     UBatch (Ok ([("x"%string, [[3; 1]]); ("y"%string, [[6; 4]])], [[true; false]])); ULoaded (Ok tt);
     UBatch (Ok ([("x"%string, [[3; 1]]); ("y"%string, [[6; 4]])], [[true; false]]))].
Proof.
  eexists. split; [reflexivity|]. cbv zeta. split; [|split; [|split; [|vm_compute; reflexivity]]].
  - intros na Hna. cbn in Hna. destruct Hna as [<-|[<-|[]]]; cbn; lia.
  - intros d Hd. cbn in Hd. repeat (destruct Hd as [Hd|Hd]; [discriminate|]). contradiction.
  - intros a i v Hd. cbn in Hd. repeat (destruct Hd as [Hd|Hd]; [first [discriminate|injection Hd as <- <- <-; cbn; lia]|]). contradiction.
Qed.
Print Assumptions C68_isolated. Print Assumptions C68_writes_invisible. Print Assumptions C68_no_copy. Print Assumptions C68_shallow_copy_refuted.
