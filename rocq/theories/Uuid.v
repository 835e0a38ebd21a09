(** Model of jax_sgmc/util/uuid.py: JaxUUID. *)
From Verif Require Import Base.
From Coq Require Import NArith ZArith Lia.
Set Implicit Arguments.
Local Open Scope Z_scope.

(** [JaxUUID.__init__] without argument, uuid.py:27-33, for the integer of a uuid4 *)
Definition to_words (uuid_int : Z) : list Z :=
  map (fun bits => Z.land (Z.shiftr uuid_int bits) 0xFFFFFFFF) [0; 32; 64; 96].

(** python's [hex] of a natural number without the prefix: digits, most significant first, no leading
    zeros ("0" for 0); the fuel is the bit length *)
(** python's hex; uuid.py:43 *)
Fixpoint hex_digits (fuel : nat) (n : Z) (acc : list Z) : list Z :=
  match fuel with
  | O => n :: acc
  | S f => if n <? 16 then n :: acc else hex_digits f (n / 16) (n mod 16 :: acc)
  end.
(** [hex(i).replace('0x','').replace('-','')]: the sign is dropped *)
(** uuid.py:43 *)
Definition hex (i : Z) : list Z := hex_digits (Z.to_nat (Z.log2 (Z.abs i))) (Z.abs i) [].
(** [s.zfill(32)] *)
(** uuid.py:43 *)
Definition zfill32 (s : list Z) : list Z := repeat 0 (32 - length s) ++ s.
(** [uuid.UUID(hex)]: exactly 32 hexadecimal digits, read as a number *)
(** uuid.py:44 *)
Definition parse_uuid (s : list Z) : res Z :=
  if (length s =? 32)%nat then Ok (fold_left (fun a d => 16 * a + d) s 0) else Exc ValueError.

(** [as_uuid], uuid.py:36-47; words may be any integers *)
Definition as_uuid (words : list Z) : res Z :=
  let shifted := map (fun wb => Z.shiftl (fst wb) (snd wb)) (combine words [0; 32; 64; 96]) in
  parse_uuid (zfill32 (hex (fold_left Z.add shifted 0))).

(** [tree_flatten] / [tree_unflatten], uuid.py:53-62: the words are the single child *)
Definition tree_flatten (words : list Z) : list (list Z) := [words].
(** uuid.py:60-62 *)
Definition tree_unflatten (children : list (list Z)) : res (list Z) :=
  match children with [ints] => Ok ints | _ => Exc ValueError end.

(** *** proofs *)
Lemma fold_digits s a : fold_left (fun a d => 16 * a + d) s a = a * 16 ^ Z.of_nat (length s) + fold_left (fun a d => 16 * a + d) s 0.
Proof.
  revert a. induction s as [|d s IH]; intros a; cbn [fold_left length].
  - simpl. lia.
  - rewrite IH. rewrite (IH (16 * 0 + d)). rewrite Nat2Z.inj_succ, Z.pow_succ_r by lia. ring.
Qed.

Lemma hex_digits_ok fuel : forall n acc, 0 <= n -> n < 2 * 2 ^ Z.of_nat fuel ->
  fold_left (fun a d => 16 * a + d) (hex_digits fuel n acc) 0
  = n * 16 ^ Z.of_nat (length acc) + fold_left (fun a d => 16 * a + d) acc 0.
Proof.
  induction fuel as [|f IH]; intros n acc Hn Hlt; cbn [hex_digits].
  - cbn [fold_left]. rewrite fold_digits. lia.
  - destruct (Z.ltb_spec n 16).
    + cbn [fold_left]. rewrite fold_digits. lia.
    + rewrite IH.
      * cbn [length fold_left]. rewrite (fold_digits acc (16 * 0 + n mod 16)). rewrite Nat2Z.inj_succ, Z.pow_succ_r by lia.
        rewrite (Z.div_mod n 16) at 3 by lia. ring.
      * apply Z.div_pos; lia.
      * rewrite Nat2Z.inj_succ, Z.pow_succ_r in Hlt by lia. apply Z.div_lt_upper_bound; lia.
Qed.

Lemma hex_digits_len fuel : forall n acc k, 0 <= n -> n < 16 ^ Z.of_nat (S k) -> 
  (length (hex_digits fuel n acc) <= S k + length acc)%nat \/ 2 * 2 ^ Z.of_nat fuel <= n.
Proof.
  induction fuel as [|f IH]; intros n acc k Hn Hlt; cbn [hex_digits].
  - left. simpl. lia.
  - destruct (Z.ltb_spec n 16); [left; simpl; lia|].
    destruct k as [|k]; [simpl in Hlt; lia|].
    destruct (IH (n / 16) (n mod 16 :: acc) k) as [Hl|Hl].
    + apply Z.div_pos; lia.
    + rewrite (Nat2Z.inj_succ (S k)), Z.pow_succ_r in Hlt by lia. apply Z.div_lt_upper_bound; lia.
    + left. simpl in *. lia.
    + right. rewrite Nat2Z.inj_succ, Z.pow_succ_r by lia.
      pose proof (Z.mul_div_le n 16 ltac:(lia)). nia.
Qed.

Lemma log2_fuel n : 0 <= n -> n < 2 * 2 ^ Z.of_nat (Z.to_nat (Z.log2 n)).
Proof.
  intros Hn. rewrite Z2Nat.id by apply Z.log2_nonneg. rewrite <- Z.pow_succ_r by apply Z.log2_nonneg.
  destruct (Z.eq_dec n 0) as [->|H]; [reflexivity|]. apply Z.log2_spec. lia.
Qed.

Lemma parse_hex n : 0 <= n < 2 ^ 128 -> parse_uuid (zfill32 (hex n)) = Ok n.
Proof.
  intros Hn. unfold parse_uuid, zfill32, hex. rewrite (Z.abs_eq n) by lia.
  set (s := hex_digits _ n []). assert (Hl : (length s <= 32)%nat).
  { destruct (@hex_digits_len (Z.to_nat (Z.log2 n)) n [] 31%nat ltac:(lia)) as [H|H].
    - change (16 ^ Z.of_nat 32) with (2 ^ 128). lia.
    - subst s. simpl in H. lia.
    - pose proof (@log2_fuel n). lia. }
  rewrite app_length, repeat_length. replace (32 - length s + length s)%nat with 32%nat by lia. cbn [Nat.eqb].
  f_equal. rewrite fold_left_app.
  assert (Hz : forall k, fold_left (fun a d => 16 * a + d) (repeat 0 k) 0 = 0) by (induction k; simpl; auto).
  rewrite Hz. subst s. rewrite hex_digits_ok; [simpl; lia|lia|apply log2_fuel; lia].
Qed.

(** specification, no code of /repo: a 32 bit word *)
Definition word (w : Z) : Prop := 0 <= w < 2 ^ 32.

Lemma as_uuid_words w0 w1 w2 w3 : word w0 -> word w1 -> word w2 -> word w3 ->
  as_uuid [w0; w1; w2; w3] = Ok (w0 + 2 ^ 32 * w1 + 2 ^ 64 * w2 + 2 ^ 96 * w3).
Proof.
  unfold word. intros H0 H1 H2 H3. unfold as_uuid. cbn [combine map fst snd fold_left].
  rewrite !Z.shiftl_mul_pow2 by lia.
  replace (0 + w0 * 2 ^ 0 + w1 * 2 ^ 32 + w2 * 2 ^ 64 + w3 * 2 ^ 96)
    with (w0 + 2 ^ 32 * w1 + 2 ^ 64 * w2 + 2 ^ 96 * w3) by ring.
  apply parse_hex. change (2 ^ 32) with 4294967296 in *. change (2^64) with (4294967296 * 4294967296).
  change (2 ^ 96) with (4294967296 * 4294967296 * 4294967296).
  change (2 ^ 128) with (4294967296 * 4294967296 * 4294967296 * 4294967296). lia.
Qed.

Lemma land_ones32 x : Z.land x 0xFFFFFFFF = x mod 2 ^ 32.
Proof. change 0xFFFFFFFF with (Z.ones 32). apply Z.land_ones. lia. Qed.

Lemma final_uuid_roundtrip u : 0 <= u < 2 ^ 128 ->
  length (to_words u) = 4%nat /\ Forall word (to_words u) /\ as_uuid (to_words u) = Ok u.
Proof.
  intros Hu. unfold to_words. cbn [map]. rewrite !land_ones32, !Z.shiftr_div_pow2 by lia.
  assert (Hw : forall x, word (x mod 2 ^ 32)) by (intros x; apply Z.mod_pos_bound; lia).
  split; [reflexivity|]. split; [repeat (constructor; auto)|].
  rewrite as_uuid_words by auto. f_equal. change (2 ^ 0) with 1. rewrite Z.div_1_r.
  change (2 ^ 96) with (2 ^ 32 * 2 ^ 32 * 2 ^ 32). change (2 ^ 64) with (2 ^ 32 * 2 ^ 32).
  rewrite <- !Z.div_div by lia.
  change (2 ^ 128) with (2 ^ 32 * 2 ^ 32 * 2 ^ 32 * 2 ^ 32) in Hu.
  set (b := 2 ^ 32) in *. assert (Hb : 0 < b) by (unfold b; lia).
  assert (H3 : (u / b / b / b) mod b = u / b / b / b).
  { apply Z.mod_small. rewrite !Z.div_div by nia. split; [apply Z.div_pos; nia|apply Z.div_lt_upper_bound; nia]. }
  rewrite H3.
  pose proof (Z.div_mod u b ltac:(lia)). pose proof (Z.div_mod (u / b) b ltac:(lia)).
  pose proof (Z.div_mod (u / b / b) b ltac:(lia)). nia.
Qed.

Lemma final_uuid_injective ws ws' : length ws = 4%nat -> length ws' = 4%nat -> Forall word ws -> Forall word ws' ->
  (as_uuid ws = as_uuid ws' <-> ws = ws').
Proof.
  intros Hl Hl' Hf Hf'. split; [|intros ->; reflexivity].
  destruct ws as [|a0 [|a1 [|a2 [|a3 [|]]]]]; try discriminate.
  destruct ws' as [|b0 [|b1 [|b2 [|b3 [|]]]]]; try discriminate.
  repeat match goal with H : Forall word (_ :: _) |- _ => inversion H; clear H; subst end.
  rewrite !as_uuid_words by assumption. intros H. inversion H as [E]. unfold word in *.
  assert (Hs : forall x y p q, 0 <= x < 2 ^ 32 -> 0 <= y < 2 ^ 32 -> x + 2 ^ 32 * p = y + 2 ^ 32 * q -> x = y /\ p = q).
  { change (2 ^ 32) with 4294967296. clear. intros. lia. }
  assert (E' : a0 + 2 ^ 32 * (a1 + 2 ^ 32 * (a2 + 2 ^ 32 * a3)) = b0 + 2 ^ 32 * (b1 + 2 ^ 32 * (b2 + 2 ^ 32 * b3))).
  { change (2 ^ 96) with (2 ^ 32 * (2 ^ 32 * 2 ^ 32)) in E. change (2 ^ 64) with (2 ^ 32 * 2 ^ 32) in E.
    rewrite !Z.mul_add_distr_l, !Z.add_assoc, !Z.mul_assoc in *. exact E. }
  apply Hs in E'; [|assumption|assumption]. destruct E' as [-> E'].
  apply Hs in E'; [|assumption|assumption]. destruct E' as [-> E'].
  apply Hs in E'; [|assumption|assumption]. destruct E' as [-> ->]. reflexivity.
Qed.
