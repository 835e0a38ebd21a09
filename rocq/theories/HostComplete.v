(** Data access on a host data loader whose methods keep their promises: every batch call succeeds (C84). *)
From Coq Require Import String.
From Verif Require Import Base ListUtil Requests RequestsProofs DataCore ArrayData HostFormat.
Set Implicit Arguments.

Section Complete.
Context {L KW V : Type}.
Variable hl : hloader L KW V.
Variable x64 : bool.
Variable zero : V.
(** auxiliary definition of a statement or a proof; models no code of /repo *)
Definition registers (ok : L -> Prop) (chains : L -> list (nat * nat)) (l : L) (ca mb : nat) (x : L * res nat) : Prop :=
  ok (fst x) /\ match snd x with Ok c => c = length (chains l) /\ chains (fst x) = chains l ++ [(ca, mb)] | Exc _ => chains (fst x) = chains l end.
(** a loader that keeps its promises, as long as its state satisfies ok: chains lists the cache size and batch size of its chains; registering adds a chain with a new number;
    get_batches of a chain with a positive cache size returns the announced format *)
Definition regular (ok : L -> Prop) (chains : L -> list (nat * nat)) : Prop :=
  (forall l ca mb kw, ok l -> 0 < ca -> 0 < mb <= h_count hl -> registers ok chains l ca mb (h_random hl l ca mb kw)) /\
  (forall l ca mb, ok l -> 0 < mb <= h_count hl -> registers ok chains l ca mb (h_ordered hl l ca mb)) /\
  (forall l c ca mb, ok l -> nth_error (chains l) c = Some (ca, mb) -> ok (fst (h_get hl l c)) /\ chains (fst (h_get hl l c)) = chains l /\
     match snd (h_get hl l c) with
     | Ok (d, m) => 0 < ca /\ format_of d = canonical_format x64 (h_batch_format hl ca mb) /\ nd_struct (h_mask [ca; mb] m) = (DBool, [ca; mb])
     | Exc _ => ca = 0
     end).
(** a direct call that does not touch existing chains *)
Definition harmless (ok : L -> Prop) (chains : L -> list (nat * nat)) (f : L -> L) : Prop :=
  forall l, ok l -> ok (f l) /\ exists more, chains (f l) = chains l ++ more.

Variable ok : L -> Prop.
Variable chains : L -> list (nat * nat).
Hypothesis Hreg : regular ok chains.
Notation step := (hstep hl x64).
Notation world := (hworld L V).

(** auxiliary definition of a statement or a proof; models no code of /repo *)
Definition acc_ok (w : world) (acc : access V) : Prop := exists ca mb, 0 < ca /\ opened hl acc ca mb /\
  nth_error (chains (hw_loader w)) (ac_chain (acc_state acc)) = Some (ca, mb) /\
  format_of (ac_data (acc_state acc)) = canonical_format x64 (h_batch_format hl ca mb) /\ nd_struct (ac_valid (acc_state acc)) = (DBool, [ca; mb]) /\
  ac_count (acc_state acc) = ca /\ ac_line (acc_state acc) <= ca /\
  (forall t, clookup (ac_chain (acc_state acc)) (r_current (hw_req w)) = Some t -> t = ac_token (acc_state acc)).
(** auxiliary definition of a statement or a proof; models no code of /repo *)
Definition HInv (w : world) : Prop :=
  ok (hw_loader w) /\ r_cached (hw_req w) = [] /\ Forall (acc_ok w) (hw_accesses w) /\ NoDup (map (fun acc => ac_chain (acc_state acc)) (hw_accesses w)) /\
  (forall c t, clookup c (r_current (hw_req w)) = Some t -> c < length (chains (hw_loader w))).

Lemma clookup_cset_any A c (v : A) d u : clookup u (cset c v d) = if u =? c then Some v else clookup u d.
Proof using.
  induction d as [|[k x] d IH]; cbn [cset]; [unfold clookup; cbn [find fst]; destruct (u =? c); reflexivity|]. cbn [fst]. destruct (Nat.eqb_spec c k) as [-> |Hn]; unfold clookup in *; cbn [find fst].
  - destruct (Nat.eqb_spec u k); reflexivity.
  - destruct (Nat.eqb_spec u k) as [-> |]; [destruct (Nat.eqb_spec k c); [congruence|reflexivity]|exact IH].
Qed.
Lemma clookup_cset_other A c (v : A) d u : u <> c -> clookup u (cset c v d) = clookup u d.
Proof using. intros H. rewrite clookup_cset_any. destruct (Nat.eqb_spec u c); [contradiction|reflexivity]. Qed.
Lemma clookup_cset_same A c (v : A) d : clookup c (cset c v d) = Some v.
Proof using. rewrite clookup_cset_any, Nat.eqb_refl. reflexivity. Qed.
Lemma nth_more A (l more : list A) k x : nth_error l k = Some x -> nth_error (l ++ more) k = Some x.
Proof using. intros H. rewrite nth_error_app1; [exact H|]. apply nth_error_Some. congruence. Qed.
Lemma inv_loader w l more : HInv w -> ok l -> chains l = chains (hw_loader w) ++ more -> HInv (mkHW (hw_with w l) (hw_accesses w)).
Proof using.
  intros (H1 & H2 & H3 & H4 & H5) Ho Hc. unfold HInv, hw_loader, hw_with. cbn [hw_req hw_accesses r_loader r_cached r_current]. split; [exact Ho|]. split; [exact H2|]. split; [|split; [exact H4|]].
  - eapply Forall_impl; [|exact H3]. intros acc (ca & mb & A1 & A2 & A3 & A4). exists ca, mb. unfold hw_loader. cbn [hw_req r_loader r_current]. split; [exact A1|]. split; [exact A2|]. split; [rewrite Hc; apply nth_more; exact A3|exact A4].
  - intros c t H. rewrite Hc, app_length. specialize (H5 c t H). lia.
Qed.
Lemma init_inv w l ca mb st : HInv w -> ok l -> chains l = chains (hw_loader w) ++ [(ca, mb)] -> HInv (fst (h_init_cache hl w l ca mb (length (chains (hw_loader w))) st)).
Proof using Hreg.
  intros Hw Ho Hc. destruct Hreg as (_ & _ & Hget). assert (Hn : nth_error (chains l) (length (chains (hw_loader w))) = Some (ca, mb)) by (rewrite Hc, nth_error_app2, Nat.sub_diag by lia; reflexivity).
  specialize (Hget l _ ca mb Ho Hn). unfold h_init_cache. destruct (h_get hl l (length (chains (hw_loader w)))) as [l' [[d m]|e]]; cbn [fst snd] in *.
  - destruct Hget as (G1 & G2 & G3 & G4 & G5). rewrite Hc in G2. pose proof (@inv_loader w l' [(ca, mb)] Hw G1 G2) as I. destruct I as (I1 & I2 & I3 & I4 & I5). unfold hw_loader, hw_with in *. cbn [hw_req hw_accesses r_loader r_cached r_current] in *.
    split; [exact I1|]. split; [exact I2|]. split; [|split; [|exact I5]].
    + cbn [hw_accesses]. apply Forall_app. split; [exact I3|]. constructor; [|constructor]. exists ca, mb. unfold hw_loader. cbn [hw_req r_loader r_current acc_state ac_chain ac_data ac_valid ac_count ac_line ac_token].
      split; [exact G3|]. split; [repeat split|]. split; [rewrite G2, nth_error_app2, Nat.sub_diag by lia; reflexivity|]. split; [exact G4|]. split; [exact G5|]. split; [reflexivity|]. split; [lia|].
      intros t Ht. destruct Hw as (_ & _ & _ & _ & W). specialize (W _ _ Ht). unfold hw_loader in W. lia.
    + cbn [hw_accesses]. rewrite map_app. cbn [map acc_state ac_chain]. apply (Permutation_NoDup (l := length (chains (r_loader (hw_req w))) :: map (fun acc => ac_chain (acc_state acc)) (hw_accesses w))); [apply Permutation_cons_append|]. constructor; [|exact I4].
      intros Hin. apply in_map_iff in Hin. destruct Hin as (acc & E & Hin). destruct Hw as (_ & _ & W & _). rewrite Forall_forall in W. destruct (W acc Hin) as (a & b & _ & _ & N & _).
      unfold hw_loader in N. assert (ac_chain (acc_state acc) < length (chains (r_loader (hw_req w)))) by (apply nth_error_Some; congruence). lia.
  - destruct Hget as (G1 & G2 & G3). rewrite Hc in G2. exact (@inv_loader w l' [(ca, mb)] Hw G1 G2).
Qed.
Lemma format_index (data : list (string * nd V)) : forall f ca mb i, 0 < ca -> format_of data = map (fun kf : string * struct => (fst kf, (fst (snd kf), ca :: mb :: snd (snd kf)))) f -> exists out, nd_tree_index data i = Ok out.
Proof using.
  induction data as [|[n a] data IH]; intros f ca mb i Hca Hf; destruct f as [|[n' [d sh]] f]; cbn in Hf; try discriminate; [exists []; reflexivity|].
  injection Hf as Hn Ha Hsh Hr. destruct (IH f ca mb i Hca Hr) as [out E]. cbn [nd_tree_index]. unfold jax_index. rewrite Hsh. destruct ca as [|ca]; [lia|]. cbn [bind]. rewrite E. cbn [bind]. eauto.
Qed.
Lemma batch_ok w acc : HInv w -> acc_ok w acc -> exists r cs b, h_batch_fn hl x64 acc (hw_req w) = (r, Ok (cs, b)) /\ ok (r_loader r) /\ chains (r_loader r) = chains (hw_loader w) /\ r_cached r = [] /\
  (forall c, c <> ac_chain (acc_state acc) -> clookup c (r_current r) = clookup c (r_current (hw_req w))) /\ ac_chain cs = ac_chain (acc_state acc) /\
  (forall c t, clookup c (r_current r) = Some t -> c < length (chains (hw_loader w))) /\
  acc_ok (mkHW r []) (mkAcc cs (acc_strict acc) (acc_format acc) (acc_mask acc) (acc_info acc)).
Proof using Hreg.
  intros (W1 & W2 & _ & _ & W5) (ca & mb & A1 & A2 & A3 & A4 & A5 & A6 & A7 & A8). pose proof A2 as (F & M & I).
  assert (Rd : forall r cs1, ok (r_loader r) -> chains (r_loader r) = chains (hw_loader w) -> r_cached r = [] -> (forall c, c <> ac_chain (acc_state acc) -> clookup c (r_current r) = clookup c (r_current (hw_req w))) ->
     (forall c t, clookup c (r_current r) = Some t -> c < length (chains (hw_loader w))) -> h_refresh hl x64 acc (hw_req w) = (r, Ok cs1) -> ac_chain cs1 = ac_chain (acc_state acc) -> ac_count cs1 = ca -> ac_line cs1 < ca ->
     format_of (ac_data cs1) = canonical_format x64 (h_batch_format hl ca mb) -> nd_struct (ac_valid cs1) = (DBool, [ca; mb]) -> (forall t, clookup (ac_chain cs1) (r_current r) = Some t -> t = ac_token cs1) ->
     exists r cs b, h_batch_fn hl x64 acc (hw_req w) = (r, Ok (cs, b)) /\ ok (r_loader r) /\ chains (r_loader r) = chains (hw_loader w) /\ r_cached r = [] /\
       (forall c, c <> ac_chain (acc_state acc) -> clookup c (r_current r) = clookup c (r_current (hw_req w))) /\ ac_chain cs = ac_chain (acc_state acc) /\
       (forall c t, clookup c (r_current r) = Some t -> c < length (chains (hw_loader w))) /\ acc_ok (mkHW r []) (mkAcc cs (acc_strict acc) (acc_format acc) (acc_mask acc) (acc_info acc))).
  { intros r cs1 R1 R2 R3 R4 R5 R6 R7 R8 R9 R10 R11 R12. unfold h_batch_fn. rewrite R6. cbn [bind]. rewrite R8. rewrite Nat.mod_small by exact R9.
    pose proof R10 as R10'. rewrite canonical_batch_format in R10'. destruct (@format_index (ac_data cs1) _ ca mb (ac_line cs1) A1 R10') as [out E]. rewrite E. cbn [bind].
    unfold jax_index. pose proof R11 as R11'. injection R11' as Dm Sm. rewrite Sm. destruct ca as [|ca']; [lia|]. cbn [bind].
    do 3 eexists. split; [reflexivity|]. split; [exact R1|]. split; [exact R2|]. split; [exact R3|]. split; [exact R4|]. split; [cbn; exact R7|]. split; [exact R5|].
    exists (S ca'), mb. unfold hw_loader. cbn [acc_state ac_chain ac_data ac_valid ac_count ac_line ac_token hw_req].
    split; [lia|]. split; [repeat split; auto|]. split; [rewrite R2, R7; exact A3|]. split; [exact R10|]. split; [exact R11|]. split; [reflexivity|]. split; [lia|exact R12]. }
  destruct (Nat.eqb_spec (ac_line (acc_state acc)) (ac_count (acc_state acc))) as [El|El].
  - (* the cache is refreshed *)
    destruct Hreg as (_ & _ & Hget). specialize (Hget _ _ _ _ W1 A3).
    assert (Rq : exists l' d m, h_get hl (hw_loader w) (ac_chain (acc_state acc)) = (l', Ok (d, m)) /\ ok l' /\ chains l' = chains (hw_loader w) /\ format_of d = canonical_format x64 (h_batch_format hl ca mb) /\ nd_struct (h_mask [ca; mb] m) = (DBool, [ca; mb])).
    { destruct (h_get hl (hw_loader w) (ac_chain (acc_state acc))) as [l' [[d m]|e]]; cbn [fst snd] in Hget; destruct Hget as (G1 & G2 & G3); [|lia]. exists l', d, m. tauto. }
    destruct Rq as (l' & d & m & Eg & G1 & G2 & G3 & G4).
    assert (Er : request (h_get hl) (hw_req w) (ac_chain (acc_state acc)) (ac_token (acc_state acc)) 1 (acc_strict acc) =
      (mkR [] (cset (ac_chain (acc_state acc)) (TNew (r_fresh (hw_req w))) (r_current (hw_req w))) (S (r_fresh (hw_req w))) l', Ok ((d, m), TNew (r_fresh (hw_req w))))).
    { unfold request. rewrite W2. cbn [tlookup find option_map]. destruct (clookup (ac_chain (acc_state acc)) (r_current (hw_req w))) as [t|] eqn:Et.
      - rewrite (A8 t eq_refl), token_eqb_refl. cbn [negb]. unfold hw_loader in Eg. rewrite Eg. reflexivity.
      - unfold hw_loader in Eg. rewrite Eg. reflexivity. }
    apply (Rd (mkR [] (cset (ac_chain (acc_state acc)) (TNew (r_fresh (hw_req w))) (r_current (hw_req w))) (S (r_fresh (hw_req w))) l')
             (mkAC d ca 0 (ac_chain (acc_state acc)) (h_mask [ca; mb] m) (TNew (r_fresh (hw_req w))))); cbn [r_loader r_cached r_current ac_chain ac_count ac_line ac_data ac_valid ac_token].
    + exact G1.
    + exact G2.
    + reflexivity.
    + intros c Hc. apply clookup_cset_other. exact Hc.
    + intros c t Ht. destruct (Nat.eq_dec c (ac_chain (acc_state acc))) as [-> |Hn]; [apply nth_error_Some; congruence|]. rewrite clookup_cset_other in Ht by exact Hn. exact (W5 c t Ht).
    + unfold h_refresh. rewrite F, M. destruct (format_eq_dec _ _) as [_|]; [|contradiction]. destruct (struct_eq_dec _ _) as [_|]; [|contradiction]. destruct (Nat.eqb_spec (ac_line (acc_state acc)) (ac_count (acc_state acc))); [|contradiction].
      unfold h_callback. rewrite Er, F, M. destruct (format_eq_dec _ _) as [_|]; [|contradiction]. destruct (struct_eq_dec _ _) as [_|]; [|contradiction]. rewrite A6. reflexivity.
    + reflexivity.
    + reflexivity.
    + exact A1.
    + exact G3.
    + exact G4.
    + intros t Ht. rewrite clookup_cset_same in Ht. injection Ht as <-. reflexivity.
  - apply (Rd (hw_req w) (acc_state acc)); auto; [|lia].
    unfold h_refresh. rewrite F, M. destruct (format_eq_dec _ _) as [_|]; [|contradiction]. destruct (struct_eq_dec _ _) as [_|]; [|contradiction]. destruct (Nat.eqb_spec (ac_line (acc_state acc)) (ac_count (acc_state acc))); [contradiction|]. reflexivity.
Qed.
Lemma map_upd_same A B (f : A -> B) l k x y : nth_error l k = Some y -> f x = f y -> map f (upd l k x) = map f l.
Proof using. revert k. induction l as [|z l IH]; intros [|k] H E; cbn in *; try discriminate; [injection H as ->; now rewrite E|]. f_equal. now apply IH. Qed.
Lemma step_inv w o w' out : HInv w -> (forall f, o = HCall f -> harmless ok chains f) -> step w o = (w', out) -> HInv w' /\ (forall k acc, o = HBatch k -> nth_error (hw_accesses w) k = Some acc -> exists b, out = HoBatch (Ok b)).
Proof using Hreg.
  intros Hw Hf H. destruct o as [ca mb kw st|ca mb|k|f]; cbn in H.
  - split; [|discriminate]. unfold h_random_init in H. destruct (Nat.ltb_spec (h_count hl) mb); [injection H as <- <-; exact Hw|]. destruct (Nat.eqb_spec ca 0); [injection H as <- <-; exact Hw|]. destruct (Nat.eqb_spec mb 0); [injection H as <- <-; exact Hw|]. cbn [orb] in H.
    destruct Hreg as (R1 & _ & _). destruct Hw as (W & W'). specialize (R1 (hw_loader w) ca mb kw W ltac:(lia) ltac:(lia)). destruct R1 as [R1 R2]. destruct (h_random hl (hw_loader w) ca mb kw) as [l' [c|e]]; cbn [fst snd] in *.
    + destruct R2 as [-> R2]. pose proof (@init_inv w l' ca mb st (conj W W') R1 R2) as I. destruct (h_init_cache hl w l' ca mb _ st) as [w1 r1]. injection H as <- <-. exact I.
    + injection H as <- <-. apply (@inv_loader w l' []); [exact (conj W W')|exact R1|rewrite app_nil_r; exact R2].
  - split; [|discriminate]. unfold h_full_init in H. destruct (Nat.ltb_spec (h_count hl) mb); [injection H as <- <-; exact Hw|]. destruct (Nat.eqb_spec mb 0); [injection H as <- <-; exact Hw|].
    destruct Hreg as (_ & R1 & _). destruct Hw as (W & W'). specialize (R1 (hw_loader w) ca mb W ltac:(lia)). destruct R1 as [R1 R2]. destruct (h_ordered hl (hw_loader w) ca mb) as [l' [c|e]]; cbn [fst snd] in *.
    + destruct R2 as [-> R2]. pose proof (@init_inv w l' ca mb true (conj W W') R1 R2) as I. destruct (h_init_cache hl w l' ca mb _ true) as [w1 r1]. injection H as <- <-. exact I.
    + injection H as <- <-. apply (@inv_loader w l' []); [exact (conj W W')|exact R1|rewrite app_nil_r; exact R2].
  - unfold h_access_batch in H. destruct (nth_error (hw_accesses w) k) as [acc|] eqn:Ek; [|injection H as <- <-; split; [exact Hw|intros k' acc E; injection E as <-; congruence]].
    pose proof Hw as (W1 & W2 & W3 & W4 & W5). assert (Ha : acc_ok w acc) by (rewrite Forall_forall in W3; apply W3; eapply nth_error_In; exact Ek).
    destruct (@batch_ok w acc Hw Ha) as (r & cs & b & Eb & B1 & B2 & B3 & B4 & B5 & B6 & B7). rewrite Eb in H. injection H as <- <-. split; [|eauto].
    unfold HInv, hw_loader. cbn [hw_req hw_accesses]. split; [exact B1|]. split; [exact B3|]. split; [|split].
    + rewrite Forall_forall. intros x Hx. apply In_nth_error in Hx. destruct Hx as [j Hj]. destruct (Nat.eq_dec j k) as [-> |Hn].
      * rewrite (@nth_upd_same' _ _ _ _ _ Ek) in Hj. injection Hj as <-. destruct B7 as (ca & mb & Q). exists ca, mb. exact Q.
      * rewrite nth_upd_other' in Hj by exact Hn. rewrite Forall_forall in W3. destruct (W3 x (nth_error_In _ _ Hj)) as (ca & mb & Q1 & Q2 & Q3 & Q4 & Q5 & Q6 & Q7 & Q8). exists ca, mb. unfold hw_loader. cbn [hw_req].
        rewrite B2. repeat (split; [assumption|]). intros t Ht. apply Q8. rewrite <- B4; [exact Ht|]. intros E. apply Hn.
        assert (N : forall i1 i2, nth_error (map (fun acc => ac_chain (acc_state acc)) (hw_accesses w)) i1 = nth_error (map (fun acc => ac_chain (acc_state acc)) (hw_accesses w)) i2 -> i1 < length (hw_accesses w) -> i1 = i2).
        { intros i1 i2 E12 L1. rewrite NoDup_nth_error in W4. apply W4; [rewrite map_length; exact L1|exact E12]. }
        apply N; [rewrite !nth_error_map, Hj, Ek; cbn; congruence|apply nth_error_Some; congruence].
    + rewrite (@map_upd_same _ _ _ _ _ _ acc Ek); [exact W4|exact B5].
    + intros c t Ht. rewrite B2. exact (B6 c t Ht).
  - split; [|discriminate]. injection H as <- <-. destruct Hw as (W & W'). destruct (Hf f eq_refl (hw_loader w) W) as [F1 [more F2]]. exact (@inv_loader w (f (hw_loader w)) more (conj W W') F1 F2).
Qed.
(** every batch call of an open access succeeds *)
Lemma run_complete k h : (forall f, In (HCall f) h -> harmless ok chains f) -> forall w acc, HInv w -> nth_error (hw_accesses w) k = Some acc ->
  exists bs, h_answers k h (snd (run step w h)) = map Ok bs /\ length bs = h_calls k h.
Proof using Hreg.
  induction h as [|o h IH]; intros Hf w acc Hw Hk; [exists []; auto|]. cbn [run]. destruct (hstep hl x64 w o) as [w1 x] eqn:E1. destruct (run step w1 h) as [w2 xs] eqn:E2. cbn [snd].
  destruct (@step_inv w o w1 x Hw (fun f E => Hf f (or_introl E)) E1) as [I1 I2]. destruct (@step_opened _ _ _ _ _ _ _ _ _ _ _ E1 Hk) as (acc' & Hk' & _).
  destruct (IH (fun f Hin => Hf f (or_intror Hin)) w1 acc' I1 Hk') as (bs & B1 & B2). rewrite E2 in B1. cbn [snd] in B1.
  destruct o as [? ? ? ?|? ?|j|?]; cbn [h_answers]; unfold h_calls; cbn [filter]; fold (h_calls k h); eauto.
  cbn in E1. destruct (h_access_batch hl x64 w j) as [w3 r3] eqn:E3. injection E1 as <- <-. destruct (Nat.eqb_spec j k) as [-> |]; eauto.
  destruct (I2 k acc eq_refl Hk) as [b Eb]. injection Eb as ->. exists (b :: bs). cbn [map length]. split; [f_equal; exact B1|f_equal; exact B2].
Qed.
Lemma run_inv h : (forall f, In (HCall f) h -> harmless ok chains f) -> forall w, HInv w -> HInv (fst (run step w h)).
Proof using Hreg.
  induction h as [|o h IH]; intros Hf w Hw; [exact Hw|]. cbn [run]. destruct (hstep hl x64 w o) as [w1 x] eqn:E1. specialize (IH (fun f Hin => Hf f (or_intror Hin)) w1).
  destruct (@step_inv w o w1 x Hw (fun f E => Hf f (or_introl E)) E1) as [I1 _]. specialize (IH I1). destruct (run step w1 h) as [w2 xs]. exact IH.
Qed.
Lemma start_inv l : ok l -> HInv (hw_init l).
Proof using. intros H. unfold HInv, hw_init, hw_loader, requests_init. cbn. split; [exact H|]. split; [reflexivity|]. split; [constructor|]. split; [constructor|]. intros c t E. discriminate. Qed.
End Complete.
