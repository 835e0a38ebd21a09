(** Data states of a program (random or ordered) as sources of batches of a chain; alias.amagold, alias.sggmc and alias.re_sgld open several of them. *)
From Coq Require Import Reals Lra ZArith String.
From Verif Require Import Base ListUtil NumpyLoader LoaderSpec NumpyLoaderProofs NumpyLoaderApi Requests DataCore DataSpec DataFinal Hub HubSpec HubProofs HubFinal PropertiesHub.
From Verif Require Import Integrator IntegratorSpec IntegratorBasics AliasData.
Open Scope nat_scope.
Set Implicit Arguments.

Section Source.
Context {G obs : Type}.
Variable choice_repl : G -> nat -> nat -> G * list nat.
Variable choice_perm : G -> nat -> G * list nat.
Variable rng_of_seed : nat -> G.
Notation step := (@Hub.hstep G obs choice_repl choice_perm rng_of_seed).
Notation access_batch := (@access_batch G obs choice_repl choice_perm).
Notation hub := (hub G obs).
Notation source := (@loader_source G obs choice_repl choice_perm rng_of_seed).

(** d is the data state number k of access ai, on chain cid of loader i, in a program whose situation was h0 right after the data state was initialised, and which did
    anything else since then and does anything else between the batches *)
Definition source_since (h0 : hub) (ai i k cid : nat) (d : lsource (G := G) (obs := obs)) : Prop :=
  ls_state d = k /\ ls_calls d = 0 /\ (forall j, elsewhere i ai k cid (ls_env d j)) /\ exists h, elsewhere i ai k cid h /\ ls_hub d = fst (run step h0 h).

Hypothesis Hperm : perm_oracle choice_perm.
Hypothesis Hrepl : repl_oracle choice_repl.

Lemma opened_batches datas hE ai k i cid ca data N r d : opened step datas rng_of_seed hE ai k i cid ca data N r -> source_since hE ai i k cid d ->
  forall j, batch_no source d j = access_batch data N r j.
Proof.
  intros Ho (D1 & D2 & D3 & (h & (U1 & U2 & U3) & D4)).
  destruct (@opened_inv G obs choice_repl choice_perm rng_of_seed Hperm Hrepl _ _ _ _ _ _ _ _ _ _ Ho) as (Hca & Hok & HS).
  pose proof (@run_live G obs choice_repl choice_perm rng_of_seed Hperm Hrepl data N i cid ca k ai _ Hok Hca) as RL.
  destruct (RL h 0 hE HS U1 U2) as (_ & S2). rewrite U3, Nat.add_0_r, <- D4 in S2.
  assert (INV : forall j, ls_state (drawn source d j) = k /\ ls_env (drawn source d j) = ls_env d /\ ls_calls (drawn source d j) = j /\
     SInv choice_repl choice_perm data N i cid ca k ai r true j (ls_hub (drawn source d j))).
  { induction j as [|j (I1 & I2 & I3 & I4)]; [cbn; auto|]. cbn [drawn]. unfold loader_source at 1 3 5 7. rewrite I1, I2, I3.
    destruct (D3 j) as (W1 & W2 & W3). destruct (RL _ _ _ I4 W1 W2) as (_ & J1). rewrite W3, Nat.add_0_r in J1.
    destruct (RL [HBatch k] j _ J1) as (_ & J2); [intros op [Q|[]]; discriminate|intros [Q|[]]; discriminate|]. cbn [run Hub.hstep fst state_calls] in J2. rewrite Nat.eqb_refl in J2.
    destruct (hub_batch choice_repl choice_perm _ k) as [h' r']. cbn [fst ls_state ls_env ls_calls ls_hub] in *. rewrite Nat.add_0_r, Nat.add_1_r in J2. auto. }
  intros j. destruct (INV j) as (I1 & I2 & I3 & I4). unfold batch_no at 1. unfold loader_source at 1. rewrite I1, I2, I3.
  destruct (D3 j) as (W1 & W2 & W3). destruct (RL _ _ _ I4 W1 W2) as (_ & J1). rewrite W3, Nat.add_0_r in J1.
  destruct (RL [HBatch k] j _ J1) as (J2 & _); [intros op [Q|[]]; discriminate|intros [Q|[]]; discriminate|]. cbn [run Hub.hstep snd state_answers state_calls] in J2.
  destruct (hub_batch choice_repl choice_perm _ k) as [h' r']. cbn [snd state_answers] in J2. rewrite Nat.eqb_refl in J2. cbn in J2. injection J2 as ->. reflexivity.
Qed.

(** what is known about the data of an opened state *)
Lemma opened_data datas hE ai k i cid ca data N r : opened step datas rng_of_seed hE ai k i cid ca data N r ->
  0 < ca /\ reg_ok N r /\ (0 < N -> data <> []) /\ (forall ka, In ka data -> length (snd ka) = N).
Proof.
  intros Ho. destruct (@opened_inv G obs choice_repl choice_perm rng_of_seed Hperm Hrepl _ _ _ _ _ _ _ _ _ _ Ho) as (Hca & Hok & _).
  destruct Ho as (ls0 & h0 & hA & o0 & oc & mb & random & hB & h1 & hC & o1 & l & l0 & ie & sh & sd & H1 & _ & _ & _ & _ & _ & H5 & H6 & H7 & _).
  destruct (Forall2_nth_error_l _ H1 H5) as (l0' & E0 & Hmk). rewrite H6 in E0. injection E0 as <-.
  destruct (make_loader_ok _ Hmk) as [(DO1 & DO2 & DO3) _].
  split; auto. split; auto. split; [|intros ka Hka; rewrite H7; auto].
  intros HN ->. cbn in Hmk. inversion Hmk; subst. cbn in HN. lia.
Qed.

End Source.
