(** C62: mapping a function of a single observation over the data set (full_data_mapper, batched=False).
    Reading guide: [run mstep m h]: any interleaving of map calls, of which the one that started with
    [unbatched mb g] and carry c is call j; [scan_spec g rows c] threads the carry through the
    observations from left to right; [row data i] is observation i. *)
From Verif Require Import Base ListUtil Pytree NumpyLoader LoaderSpec Requests DataCore DataSpec DataFinal FullMapper FullMapperSpec FullMapperProofs
  GenInstance Io PropertiesData MapUnbatched.
From Coq Require String.
Import String.StringSyntax. Delimit Scope string_scope with string.
Set Implicit Arguments.

(** a leafless tree is determined by its structure *)
Lemma leafless_eq A (t : tree A) : forall u : tree A, leaves t = [] -> same_structb u t = true -> u = t.
Proof.
  revert t. fix IH 1. intros [a|k ch] [b|k' ch'] Hl Hs; try discriminate. cbn in Hs.
  apply andb_prop in Hs. destruct Hs as [Hk Hc]. destruct (kind_eq_dec k' k) as [->|]; [|discriminate]. f_equal.
  cbn [leaves] in Hl. clear Hk. revert ch' Hl Hc. induction ch as [|t ch IHc]; intros [|u ch'] Hl Hc; try discriminate; [reflexivity|].
  cbn [flat_map] in Hl. apply app_eq_nil in Hl. destruct Hl as [Hl1 Hl2]. apply andb_prop in Hc. destruct Hc as [Hc1 Hc2].
  f_equal; [apply IH; assumption|apply IHc; assumption].
Qed.

Section Unbatched.
Context {G obs A R : Type}.
Variable choice_repl : G -> nat -> nat -> G * list nat.
Variable choice_perm : G -> nat -> G * list nat.
Variable rng_of_seed : nat -> G.
Hypothesis Hperm : perm_oracle choice_perm.
Hypothesis Hrepl : repl_oracle choice_repl.
Notation wstep := (@DataCore.wstep G obs choice_repl choice_perm rng_of_seed).
Notation mstep := (@FullMapper.mstep G obs (tree A) (list R) choice_repl choice_perm rng_of_seed).
Notation single := (@single obs A R).

Lemma scan_ext X C R' (f f' : X -> C -> R' * C) xs : (forall x c, In x xs -> f x c = f' x c) -> forall c, scan_spec f xs c = scan_spec f' xs c.
Proof.
  induction xs as [|x xs IH]; intros H c; cbn [scan_spec]; [reflexivity|]. rewrite H by (left; reflexivity). destruct (f' x c) as [r c1].
  rewrite IH; [reflexivity|]. intros y c' Hy. apply H. right. exact Hy.
Qed.

Lemma scan_map X Y C R' (f : Y -> C -> R' * C) (h : X -> Y) xs : forall c, scan_spec f (map h xs) c = scan_spec (fun x => f (h x)) xs c.
Proof. induction xs as [|x xs IH]; intros c; cbn [scan_spec map]; [reflexivity|]. destruct (f (h x) c). rewrite IH. reflexivity. Qed.

(** the carry structure is preserved (a requirement of lax.scan) *)
Definition keeps_structure (g : single) (c : tree A) : Prop := forall x c', same_structb c' c = true -> same_structb (snd (g x c')) c = true.

Lemma same_struct_refl (t : tree A) : same_structb t t = true.
Proof.
  revert t. fix IH 1. intros [a|k ch]; [reflexivity|]. cbn. destruct (kind_eq_dec k k) as [_|n]; [|now elim n]. cbn.
  induction ch as [|x ch IHc]; [reflexivity|]. rewrite IH. exact IHc.
Qed.

Lemma slice_all (X : Type) (l : list X) n : length l = n -> slice l 0 n = l.
Proof. intros <-. unfold slice. cbn [skipn]. rewrite ?Nat.sub_0_r. apply firstn_all. Qed.
Lemma concat_map_single X (Y : Type) (f : X -> Y) l : concat (map (fun x => [f x]) l) = map f l.
Proof. induction l; cbn; congruence. Qed.

Lemma scan_length X C R' (f : X -> C -> R' * C) xs : forall c, length (fst (scan_spec f xs c)) = length xs.
Proof. induction xs as [|x xs IH]; intros c; cbn [scan_spec]; [reflexivity|]. destruct (f x c) as [r c1]. specialize (IH c1). destruct (scan_spec f xs c1). cbn in *. congruence. Qed.
Lemma scan_single X C R' (f : X -> C -> R' * C) xs : forall c,
  let v := scan_spec (fun x c => let (r, c') := f x c in ([r], c')) xs c in
  (concat (fst v), snd v) = scan_spec f xs c.
Proof.
  induction xs as [|x xs IH]; intros c; cbn [scan_spec]; [reflexivity|]. destruct (f x c) as [r c1]. specialize (IH c1). cbv zeta in IH.
  destruct (scan_spec _ xs c1) as [rs c2]. cbn [fst snd concat app] in *. rewrite <- IH. reflexivity.
Qed.

(** one map: what the batched function computes on a pass *)
Lemma unbatched_pass (data : list (String.string * list obs)) N mb bs (g : single) c : is_pass data N mb bs -> 0 < mb -> 0 < N ->
  (mb = 1 \/ leaves c = []) -> keeps_structure g c ->
  unmasked_result N (scan_spec (fun b c => unbatched mb g b (snd b) c) bs c) = scan_spec g (map (row data) (seq 0 N)) c.
Proof.
  intros Hp Hmb HN Hcase Hk. unfold unmasked_result, unbatched.
  destruct (Nat.eqb_spec mb 1) as [->|Hne].
  - assert (Hbs : map (fun b : mbatch obs => row (fst b) 0) bs = map (row data) (seq 0 N)).
    { destruct Hp as [Hl Hp]. assert (Hc : ceil_div N 1 = N) by (unfold ceil_div; rewrite Nat.div_1_r; lia). rewrite Hc in *.
      apply nth_error_ext. intros i. destruct (Nat.lt_ge_cases i N) as [Hi|Hi].
      - destruct (Hp i Hi) as (b & Hb & _ & _ & _ & Hr). rewrite nth_error_map, Hb. rewrite nth_error_map_seq by exact Hi. cbn [option_map].
        rewrite (Hr 0) by lia. rewrite Nat.mul_1_r, Nat.add_0_r, Nat.mod_small by exact Hi. reflexivity.
      - transitivity (@None (list (String.string * option obs))); [|symmetry]; apply nth_error_None; rewrite map_length, ?seq_length; lia. }
    rewrite <- Hbs, scan_map.
    pose proof (@scan_single _ _ _ (fun (b : mbatch obs) => g (row (fst b) 0)) bs c) as Hs. cbv zeta in Hs.
    destruct (scan_spec (fun (b : mbatch obs) c => let (r, c') := g (row (fst b) 0) c in ([r], c')) bs c) as [rs c2] eqn:E. cbn [fst snd] in *.
    rewrite slice_all; [exact Hs|]. pose proof (@scan_length _ _ _ (fun (b : mbatch obs) => g (row (fst b) 0)) bs c) as Hl. rewrite <- Hs in Hl. cbn [fst] in Hl.
    rewrite Hl. destruct Hp as [Hl' _]. rewrite Hl'. unfold ceil_div. rewrite Nat.div_1_r. lia.
  - destruct Hcase as [|Hlv]; [contradiction|].
    assert (Hfix : forall x, snd (g x c) = c). { intros x. apply leafless_eq; [exact Hlv|]. apply Hk, same_struct_refl. }
    assert (Hs : forall l, scan_spec (fun (b : mbatch obs) c => (map (fun j => fst (g (row (fst b) j) c)) (seq 0 mb), snd (g (row (fst b) 0) c))) l c
                 = scan_spec (fun b c => pointwise (fun x => fst (g x c)) mb b c) l c).
    { induction l as [|b l IH]; cbn [scan_spec]; [reflexivity|]. unfold pointwise at 1. rewrite Hfix, IH. reflexivity. }
    assert (Hs' : forall l, scan_spec (fun b c' => pointwise (fun x => fst (g x c')) mb b c') l c = scan_spec (fun (b : mbatch obs) c' => pointwise (fun x => fst (g x c)) mb b c') l c).
    { induction l as [|b l IH]; cbn [scan_spec]; [reflexivity|]. unfold pointwise at 1 3. rewrite IH. reflexivity. }
    rewrite Hs, Hs'. pose proof (@C10_pointwise_results obs data N mb bs Hp Hmb _ _ (fun x => fst (g x c)) c HN) as Hq.
    destruct (scan_spec _ bs c) as [rs c2]. destruct Hq as [Hq ->]. cbn [fst snd]. rewrite Hq.
    assert (Hr : forall l, scan_spec g l c = (map (fun x => fst (g x c)) l, c)).
    { induction l as [|x l IH]; cbn [scan_spec map]; [reflexivity|]. pose proof (Hfix x). destruct (g x c) as [r c1]. cbn [snd fst] in *. subst c1. rewrite IH. reflexivity. }
    rewrite Hr, map_map. reflexivity.
Qed.

(** every finished call with a function of single observations returns the results of the
    observations 0, ..., N-1 in this order, with the carry threaded through them *)
Theorem C62_results :
  forall (data : list (String.string * list obs)) l0 h1 w1 o1 ca mb (m m' : mapper G obs (tree A) (list R)) h outs i j v (g : single) c,
  make_loader data = Ok l0 -> run wstep (w_init l0) h1 = (w1, o1) ->
  make_mapper choice_repl choice_perm ca mb w1 = Ok m ->
  all_polite (mstep ca mb) m h -> run (mstep ca mb) m h = (m', outs) ->
  nth_error h i = Some (MFinish j) -> nth_error outs i = Some (MoFinish (Ok v)) -> nth_error (started h outs) j = Some (unbatched mb g, c) ->
  (mb = 1 \/ leaves c = []) -> keeps_structure g c ->
  unmasked_result (l_count l0) v = scan_spec g (map (row data) (seq 0 (l_count l0))) c.
Proof.
  intros data l0 h1 w1 o1 ca mb m m' h outs i j v g c H1 H2 H3 H4 H5 H6 H7 H8 Hc Hk.
  destruct (@C14_concurrent_maps G obs (tree A) (list R) choice_repl choice_perm rng_of_seed Hperm Hrepl data l0 h1 w1 o1 ca mb m m' h outs H1 H2 H3 H4 H5) as ((bs & Hp & Hv) & _).
  destruct (Hv i v H7) as (j' & fn & c' & E1 & E2 & E3). rewrite H6 in E1. injection E1 as <-. rewrite H8 in E2. injection E2 as <- <-.
  destruct (@make_mapper_ok G obs (tree A) (list R) choice_repl choice_perm rng_of_seed Hperm Hrepl data l0 h1 w1 o1 ca mb m H1 H2 H3) as (Hmb & HN & _).
  rewrite E3. apply unbatched_pass; auto; lia.
Qed.

(** outcome of a call that is made while the mapper is not released, after any history *)
Theorem C62_call :
  forall (data : list (String.string * list obs)) l0 h1 w1 o1 ca mb (m m' : mapper G obs (tree A) (list R)) h outs masking (g : single) c,
  make_loader data = Ok l0 -> run wstep (w_init l0) h1 = (w1, o1) ->
  make_mapper choice_repl choice_perm ca mb w1 = Ok m ->
  all_polite (mstep ca mb) m h -> ~ In MRelease h -> run (mstep ca mb) m h = (m', outs) ->
  snd (call_unbatched choice_repl choice_perm ca mb m' masking g c)
  = (if masking then Exc ValueError
     else if (mb =? 1) || (length (leaves c) =? 0) then Ok (length (started h outs)) else Exc ValueError).
Proof.
  intros data l0 h1 w1 o1 ca mb m m' h outs masking g c H1 H2 H3 H4 Hnr H5.
  destruct (@C14_concurrent_maps G obs (tree A) (list R) choice_repl choice_perm rng_of_seed Hperm Hrepl data l0 h1 w1 o1 ca mb m m' h outs H1 H2 H3 H4 H5) as (_ & _ & Hn & _).
  destruct (Hn Hnr) as (_ & Hs & _). specialize (Hs (unbatched mb g) c). cbn [FullMapper.mstep] in Hs. unfold call_unbatched.
  destruct (m_start choice_repl choice_perm ca mb m' (unbatched mb g) c) as [m2 r]. cbn [snd] in *. injection Hs as ->. cbn.
  destruct masking; [reflexivity|]. unfold take_first_raises. destruct (mb =? 1), (length (leaves c) =? 0); reflexivity.
Qed.
End Unbatched.

(** The comment in the code promises that with larger batches "only the first resulting state is
    passed to the next iteration": instead every carry with leaves is rejected ... *)
Definition um_data : list (String.string * list nat) := [("x"%string, [10; 11; 12])].
Definition um_l0 : loader nat nat := match make_loader um_data with Ok l => l | Exc _ => mkLoader 0 [] [] end.
Definition um_step := @FullMapper.mstep nat nat (tree nat) (list nat) lin_repl rot_perm (fun s => s).
Definition um_mapper (mb : nat) : mapper nat nat (tree nat) (list nat) :=
  match make_mapper lin_repl rot_perm 2 mb (w_init um_l0) with Ok m => m | Exc _ => mkM (w_init um_l0) None 0 [] end.
(** the value of the observation plus the carry; the carry counts the observations *)
Definition um_fun : @single nat nat nat :=
  fun r c => match r, c with [(_, Some x)], Leaf n => (x + n, Leaf (S n)) | [(_, Some x)], _ => (x, c) | _, _ => (0, c) end.
Theorem C62_first_state_refuted : exists (m : mapper nat nat (tree nat) (list nat)) carry,
  make_mapper lin_repl rot_perm 2 2 (w_init um_l0) = Ok m /\ keeps_structure um_fun carry /\
  snd (call_unbatched lin_repl rot_perm 2 2 m false um_fun carry) = Exc ValueError.
Proof.
  exists (um_mapper 2), (Leaf 100). split; [vm_compute; reflexivity|]. split; [|vm_compute; reflexivity].
  intros x [n|k ch] H; [|discriminate]. cbn. destruct x as [|[s [o|]] [|]]; reflexivity.
Qed.
(** ... and a rejected call loses its cache: although no map is running, the next call has to register
    a new chain with the loader (compare C14_caches_reused) *)
Theorem C62_cache_reused_after_error_refuted : exists (m : mapper nat nat (tree nat) (list nat)),
  make_mapper lin_repl rot_perm 2 2 (w_init um_l0) = Ok m /\
  let (m1, r1) := call_unbatched lin_repl rot_perm 2 2 m true um_fun (Node KNone []) in
  let (m2, r2) := call_unbatched lin_repl rot_perm 2 2 m1 false um_fun (Node KNone []) in
  r1 = Exc ValueError /\ r2 = Ok 1 /\
  length (l_chains (w_loader (m_world m))) = 1 /\ length (l_chains (w_loader (m_world m1))) = 1 /\ length (l_chains (w_loader (m_world m2))) = 2.
Proof. exists (um_mapper 2). split; [vm_compute; reflexivity|]. vm_compute. auto. Qed.

(** concrete maps: batches of one observation with a carry, batches of two without *)
Example C62_nonvacuous_one :
  let h := [MStart (unbatched 1 um_fun) (Leaf 100); MIter 0; MIter 0; MIter 0; MFinish 0] in
  all_polite (um_step 2 1) (um_mapper 1) h /\ keeps_structure um_fun (Leaf 100) /\
  exists v, nth_error (snd (run (um_step 2 1) (um_mapper 1) h)) 4 = Some (MoFinish (Ok v)) /\ unmasked_result 3 v = ([110; 112; 114], Leaf 103).
Proof.
  cbv zeta. split; [cbn; auto 10|]. split. { intros x [n|k ch] H; [|discriminate]. cbn. destruct x as [|[s [o|]] [|]]; reflexivity. }
  eexists. split; vm_compute; reflexivity.
Qed.
Example C62_nonvacuous_two :
  let h := [MStart (unbatched 2 um_fun) (Node KNone []); MIter 0; MIter 0; MFinish 0] in
  exists v, nth_error (snd (run (um_step 2 2) (um_mapper 2) h)) 3 = Some (MoFinish (Ok v)) /\ unmasked_result 3 v = ([10; 11; 12], Node KNone []).
Proof. eexists. split; vm_compute; reflexivity. Qed.
Print Assumptions C62_results.
Print Assumptions C62_call.
Print Assumptions C62_first_state_refuted.
Print Assumptions C62_cache_reused_after_error_refuted.
