(** C50 for accesses on a host loader: which arguments are accepted, after any history. *)
From Verif Require Import Base ListUtil NumpyLoader LoaderSpec NumpyLoaderProofs NumpyLoaderApi Requests DataCore DataSpec
  DataProofs DataFinal GenInstance.
From Coq Require String.
Import String.StringSyntax. Delimit Scope string_scope with string.
Set Implicit Arguments.

Section Host.
Context {G obs : Type}.
Variable choice_repl : G -> nat -> nat -> G * list nat.
Variable choice_perm : G -> nat -> G * list nat.
Variable rng_of_seed : nat -> G.
Hypothesis Hperm : perm_oracle choice_perm.
Hypothesis Hrepl : repl_oracle choice_repl.
Notation step := (@DataCore.wstep G obs choice_repl choice_perm rng_of_seed).

Lemma init_cache_ok data N r ca cid (w : world G obs) l' st : reg_ok N r -> @AtChain G obs choice_repl choice_perm data N r ca cid 0 l' ->
  snd (DataCore.init_cache choice_repl choice_perm w l' ca cid st)
  = if ca =? 0 then Exc ValueError else Ok (length (w_clients w)).
Proof.
  intros Hok Hat. destruct (@get_step G obs choice_repl choice_perm rng_of_seed Hperm Hrepl data N r ca cid 0 l' Hok Hat) as (Hg & _).
  unfold DataCore.init_cache. destruct (get_batches choice_repl choice_perm l' cid) as [l2 o]. cbn [snd] in Hg. subst o.
  unfold LoaderSpec.chain_output. destruct (Nat.eqb_spec ca 0); reflexivity.
Qed.

(** random access: rejected (nothing changes) iff mb > N, ca = 0, mb = 0 or epochs without
    shuffling are demanded; otherwise it is created *)
Theorem C50_host_access :
  forall (data : list (String.string * list obs)) l0 h1 w1 o1 ca mb ie sh sd st,
  make_loader data = Ok l0 -> run step (w_init l0) h1 = (w1, o1) ->
  ((l_count l0 < mb \/ ca = 0 \/ mb = 0) ->
     step w1 (WRandom ca mb ie sh sd st) = (w1, WoInit (Exc ValueError))) /\
  (ie = true -> sh = false -> exists w2,
     step w1 (WRandom ca mb ie sh sd st) = (w2, WoInit (Exc ValueError)) /\ w_clients w2 = w_clients w1) /\
  (mb <= l_count l0 -> 0 < ca -> 0 < mb -> (ie = true -> sh = true) -> exists w2,
     step w1 (WRandom ca mb ie sh sd st) = (w2, WoInit (Ok (length (w_clients w1))))).
Proof.
  intros data l0 h1 w1 o1 ca mb ie sh sd st Hm Hr.
  destruct (@world_reach G obs choice_repl choice_perm rng_of_seed data l0 h1 w1 o1 Hm Hr) as [_ HD].
  assert (Hc : l_count (w_loader w1) = l_count l0) by apply HD.
  cbn [DataCore.wstep]. unfold random_init. rewrite Hc. split; [|split].
  - intros H. destruct (Nat.ltb_spec (l_count l0) mb); [reflexivity|].
    destruct (Nat.eqb_spec ca 0); [reflexivity|]. destruct (Nat.eqb_spec mb 0); [reflexivity|]. lia.
  - intros -> ->. destruct (Nat.ltb_spec (l_count l0) mb) as [|Hn]; [eexists; split; reflexivity|].
    destruct ((ca =? 0) || (mb =? 0)); [eexists; split; reflexivity|].
    unfold register_random. rewrite Hc. destruct (Nat.ltb_spec (l_count l0) mb); [lia|]. cbn [negb andb].
    eexists; split; reflexivity.
  - intros H1 H2 H3 H4. destruct (Nat.ltb_spec (l_count l0) mb); [lia|].
    destruct (Nat.eqb_spec ca 0); [lia|]. destruct (Nat.eqb_spec mb 0); [lia|]. cbn [orb].
    destruct (register_random rng_of_seed (w_loader w1) ca mb ie sh sd) as [l' [cid|e]] eqn:Er.
    + destruct (@register_random_ok G obs choice_repl choice_perm rng_of_seed data (l_count l0) (w_loader w1) ca mb ie sh sd l' cid HD Er) as (_ & Hok & Hat).
      pose proof (init_cache_ok w1 st Hok Hat) as Hi. destruct (DataCore.init_cache _ _ _ _ _ _ _) as [w2 o2].
      cbn [snd] in Hi. rewrite Hi. destruct (Nat.eqb_spec ca 0); [lia|]. eexists; reflexivity.
    + exfalso. revert Er. unfold register_random. rewrite Hc. destruct (Nat.ltb_spec (l_count l0) mb); [lia|].
      destruct (negb sh && ie) eqn:Eb.
      { destruct ie, sh; try discriminate. specialize (H4 eq_refl). discriminate. }
      destruct (Nat.eqb_spec mb 0); [lia|]. discriminate.
Qed.

(** mapping over the full data set *)
Theorem C50_host_full_access :
  forall (data : list (String.string * list obs)) l0 h1 w1 o1 ca mb,
  make_loader data = Ok l0 -> run step (w_init l0) h1 = (w1, o1) ->
  (l_count l0 < mb -> step w1 (WFull ca mb) = (w1, WoInit (Exc ValueError))) /\
  (mb = 0 -> step w1 (WFull ca mb) = (w1, WoInit (Exc ZeroDivisionError))) /\
  (0 < mb <= l_count l0 -> exists w2,
     step w1 (WFull ca mb) = (w2, WoInit (if ca =? 0 then Exc ValueError else Ok (length (w_clients w1))))).
Proof.
  intros data l0 h1 w1 o1 ca mb Hm Hr.
  destruct (@world_reach G obs choice_repl choice_perm rng_of_seed data l0 h1 w1 o1 Hm Hr) as [_ HD].
  assert (Hc : l_count (w_loader w1) = l_count l0) by apply HD.
  cbn [DataCore.wstep]. unfold full_init. rewrite Hc. split; [|split].
  - intros H. destruct (Nat.ltb_spec (l_count l0) mb); [reflexivity|lia].
  - intros ->. destruct (Nat.ltb_spec (l_count l0) 0); [lia|]. reflexivity.
  - intros [H1 H2]. destruct (Nat.ltb_spec (l_count l0) mb); [lia|]. destruct (Nat.eqb_spec mb 0); [lia|].
    destruct (register_ordered (w_loader w1) ca mb) as [l' [cid|e]] eqn:Er.
    + destruct (@register_ordered_ok G obs choice_repl choice_perm rng_of_seed data (l_count l0) (w_loader w1) ca mb l' cid HD Er) as (_ & Hok & Hat).
      pose proof (init_cache_ok w1 true Hok Hat) as Hi. destruct (DataCore.init_cache _ _ _ _ _ _ _) as [w2 o2].
      cbn [snd] in Hi. rewrite Hi. eexists; reflexivity.
    + exfalso. revert Er. unfold register_ordered. rewrite Hc. destruct (Nat.leb_spec mb (l_count l0)); [discriminate|lia].
Qed.
End Host.

Example C50_host_nonvacuous :
  let data := [("x"%string, [10; 11; 12])] in
  exists l0, make_loader (G := nat) data = Ok l0 /\ l_count l0 = 3 /\
  let s := @DataCore.wstep nat nat lin_repl rot_perm (fun s => s) in
  let w1 := fst (run s (w_init l0) [WRandom 2 2 false true None true; WBatch 0]) in
  map (fun o => snd (s w1 o)) [WRandom 1 4 false true None true; WRandom 0 1 false true None true;
     WRandom 5 3 true true None true; WFull 2 3; WFull 0 3; WFull 1 0]
  = [WoInit (Exc ValueError); WoInit (Exc ValueError); WoInit (Ok 1); WoInit (Ok 1); WoInit (Exc ValueError);
     WoInit (Exc ZeroDivisionError)].
Proof. eexists. split; [reflexivity|]. split; [reflexivity|]. vm_compute. reflexivity. Qed.
Print Assumptions C50_host_access.
Print Assumptions C50_host_full_access.
