From Coq Require Import Reals Lra.
From Verif Require Import Base ListUtil Pytree PytreeSpec Io TreeUtil TreeUtilSpec TreeUtilProofs Integrator IntegratorSpec IntegratorBasics.
Open Scope R_scope.
Set Implicit Arguments.

Lemma rsum_sum_upto (l : list R) : rsum l = sum_upto (length l) (fun i => nth i l 0).
Proof. induction l as [|x l IH]; [reflexivity|]. cbn [length]. rewrite rsum_cons, sum_upto_shift, IH. reflexivity. Qed.
Lemma variance_population (l : list R) : variance l = population_variance l.
Proof.
  unfold variance, population_variance, mean. cbv zeta. rewrite (rsum_sum_upto (map _ l)), map_length, <- rsum_sum_upto. set (m := rsum l / INR (length l)). f_equal. apply sum_upto_ext. intros i Hi.
  set (f := fun x => (x - m) * (x - m)). rewrite (nth_indep _ 0 (f 0)) by (rewrite map_length; exact Hi). rewrite map_nth. unfold f. ring.
Qed.

Section L.
Variable s : vtree.
Hypothesis Hs : wfv s.
Variable normal : key -> list nat -> list R.
Hypothesis Hn : normal_ok normal.
Variables (Data Batch Model Adapt : Type).
Variable get_data : Data -> Data * Batch.
Variable pot_value : vtree -> Batch -> Model -> R.
Variable pot_likelihoods : vtree -> Batch -> Model -> list R.
Variable pot_model : vtree -> Batch -> Model -> Model.
Variable pot_grad : vtree -> Batch -> Model -> vtree.
Hypothesis Hg : forall t b m, like s t -> like s (pot_grad t b m).
Variable adaption : option ((Adapt -> vtree -> vtree -> Batch -> Adapt) * (Adapt -> vtree -> vtree -> Batch -> manifold)).
Definition fits_manifold (m : manifold) : Prop := tens_fits (g_inv m) s /\ tens_fits (sqrt_g_inv m) s /\ like s (g_gamma m).
Hypothesis Ha : match adaption with Some (_, get) => forall a t g b, like s t -> like s g -> fits_manifold (get a t g b) | None => True end.

Local Notation upd := (lv_update normal get_data pot_value pot_likelihoods pot_model pot_grad adaption).
Lemma lv_plain eps T (st : lv_st Data Model Adapt) : like s (l_pos st) -> adaption = None \/ l_adapt st = None ->
  let st' := fst (upd eps T st) in
  let b := snd (get_data (l_data st)) in
  like s (l_pos st') /\
  (forall i, (i < dim s)%nat -> el (l_pos st') i = el (l_pos st) i - eps * el (pot_grad (l_pos st) b (l_model st)) i + sqrt (2 * T * eps) * xi normal (Sub (l_key st) 1) s i) /\
  l_adapt st' = None.
Proof.
  intros Hp Hno st' b. unfold st', lv_update. fold b. destruct (get_data (l_data st)) as [d b0] eqn:Ed. cbn in b. subst b.
  destruct (@random_tree_ok s normal (Sub (l_key st) 1) (l_pos st) Hn Hp) as (Hl & Hx & _).
  destruct (random_tree normal (Sub (l_key st) 1) (l_pos st)) as [noise used]. cbn [fst] in *.
  match goal with |- context [let '(x, y) := ?e in _] => replace e with (tadd (tree_scale (- eps) (pot_grad (l_pos st) b0 (l_model st))) (tree_scale (sqrt (2 * T * eps)) noise), @None Adapt) end.
  2:{ destruct Hno as [-> | ->]; [reflexivity|]. destruct adaption as [[? ?]|]; reflexivity. }
  cbn [fst l_pos l_adapt].
  assert (L1 : like s (tree_scale (- eps) (pot_grad (l_pos st) b0 (l_model st)))) by (apply like_scale; auto).
  assert (L2 : like s (tree_scale (sqrt (2 * T * eps)) noise)) by (apply like_scale; auto).
  split; [repeat (apply like_add; auto)|]. split; [|reflexivity]. intros i Hi.
  rewrite (el_add Hs), (el_add Hs), !(el_scale' Hs), Hx; auto; try lra. now apply like_add.
Qed.
Lemma lv_adapted eps T (st : lv_st Data Model Adapt) au ag a : like s (l_pos st) -> adaption = Some (au, ag) -> l_adapt st = Some a ->
  let st' := fst (upd eps T st) in
  let b := snd (get_data (l_data st)) in
  let g := pot_grad (l_pos st) b (l_model st) in
  let a' := au a (l_pos st) g b in
  let m := ag a' (l_pos st) g b in
  l_adapt st' = Some a' /\ like s (l_pos st') /\
  (forall i, (i < dim s)%nat -> el (l_pos st') i = el (l_pos st) i - eps * mulv (g_inv m) (dim s) (el g) i + eps * el (g_gamma m) i
       + sqrt (2 * T * eps) * mulv (sqrt_g_inv m) (dim s) (xi normal (Sub (l_key st) 1) s) i).
Proof.
  intros Hp Ea El st' b g a' m. unfold st', lv_update. subst a'. revert m. fold b. destruct (get_data (l_data st)) as [d b0] eqn:Ed. cbn in b. subst b.
  fold g. rewrite Ea, El. rewrite Ea in Ha. intros m.
  destruct (@random_tree_ok s normal (Sub (l_key st) 1) (l_pos st) Hn Hp) as (Hl & Hx & _).
  destruct (random_tree normal (Sub (l_key st) 1) (l_pos st)) as [noise used]. cbn [fst] in *. fold m.
  cbn [l_adapt l_pos]. split; auto. assert (Hgl : like s g) by (apply Hg; auto).
  assert (Hm : fits_manifold m) by (apply Ha; auto). destruct Hm as (M1 & M2 & M3).
  assert (L0 : like s (tree_scale eps (g_gamma m))) by (apply like_scale; auto).
  assert (L1 : like s (tree_scale (- eps) g)) by (apply like_scale; auto).
  assert (L2 : like s (tree_scale (sqrt (2 * T * eps)) noise)) by (apply like_scale; auto).
  assert (L3 : like s (tmat (g_inv m) (tree_scale (- eps) g))) by (apply like_mat; auto).
  assert (L4 : like s (tmat (sqrt_g_inv m) (tree_scale (sqrt (2 * T * eps)) noise))) by (apply like_mat; auto).
  split; [repeat (apply like_add; auto)|]. intros i Hi.
  rewrite (el_add Hs), (el_add Hs), (el_add Hs), !(el_mat Hs), (el_scale' Hs); auto; try (repeat (apply like_add; auto)).
  rewrite (@mulv_ext (g_inv m) (dim s) _ (fun j => - eps * el g j) i) by (intros; now rewrite (el_scale' Hs)).
  rewrite (@mulv_ext (sqrt_g_inv m) (dim s) _ (fun j => sqrt (2 * T * eps) * xi normal (Sub (l_key st) 1) s j) i) by (intros; rewrite (el_scale' Hs), Hx; auto).
  rewrite !mulv_scale. lra.
Qed.
Lemma lv_common eps T (st : lv_st Data Model Adapt) : like s (l_pos st) ->
  let st' := fst (upd eps T st) in
  let b := snd (get_data (l_data st)) in
  like s (l_pos st') /\ l_data st' = fst (get_data (l_data st)) /\ l_pot st' = pot_value (l_pos st) b (l_model st) /\
  l_model st' = pot_model (l_pos st) b (l_model st) /\ l_var st' = population_variance (pot_likelihoods (l_pos st) b (l_model st)) /\
  l_key st' = Sub (l_key st) 0 /\ snd (upd eps T st) = map (Sub (Sub (l_key st) 1)) (seq 0 (length (leaves s))).
Proof.
  intros Hp st' b. rewrite <- variance_population. split.
  - assert (Hc : (exists au ag a, adaption = Some (au, ag) /\ l_adapt st = Some a) \/ (adaption = None \/ l_adapt st = None)).
    { clear. destruct adaption as [[au ag]|]; [|auto]. destruct (l_adapt st) as [a|]; [|auto]. left. eauto. }
    destruct Hc as [(au & ag & a & Ea & El)|Hno].
    + destruct (@lv_adapted eps T st au ag a Hp Ea El) as (_ & H & _). exact H.
    + destruct (@lv_plain eps T st Hp Hno) as (H & _). exact H.
  - destruct (@random_tree_ok s normal (Sub (l_key st) 1) (l_pos st) Hn Hp) as (_ & _ & Hu).
    unfold st', b, lv_update. destruct (get_data (l_data st)) as [d b0]. destruct (random_tree normal (Sub (l_key st) 1) (l_pos st)) as [noise used].
    cbn [snd] in Hu. match goal with |- context [let '(x, y) := ?e in _] => destruct e as [us ad] end. cbn. auto 10.
Qed.
Lemma lv_run (st : lv_st Data Model Adapt) : like s (l_pos st) -> forall scheds : list (R * R),
  let st' := fold_left (fun a p => fst (upd (fst p) (snd p) a)) scheds st in
  like s (l_pos st') /\ l_data st' = drawn get_data (l_data st) (length scheds) /\ l_key st' = chain (l_key st) (length scheds).
Proof.
  intros Hp scheds. induction scheds as [|[e T] l IH] using rev_ind; [cbn; auto|]. rewrite fold_left_app, app_length, Nat.add_comm. cbn [fold_left length Nat.add drawn chain].
  destruct IH as (H1 & H2 & H3). cbn [fst snd]. destruct (lv_common e T _ H1) as (G1 & G2 & _ & _ & _ & G6 & _). rewrite <- H2, <- H3. auto.
Qed.
End L.
