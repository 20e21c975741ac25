From stdpp Require Import base list.
From Coq Require Import NArith ZArith Lia.
From Verif Require Import KeySer KeySerSpec.
Local Open Scope N_scope.

Lemma pow8 w : 2 ^ (8 * N.of_nat w) = 256 ^ N.of_nat w.
Proof. rewrite N.pow_mul_r. done. Qed.

Lemma pow256_S w : 256 ^ N.of_nat (S w) = 256 ^ N.of_nat w * 256.
Proof. rewrite Nat2N.inj_succ, N.pow_succ_r'. lia. Qed.

Lemma pow256_pos w : 256 ^ N.of_nat w ≠ 0.
Proof. apply N.pow_nonzero. lia. Qed.

Lemma be_bytes_length w n : length (be_bytes w n) = w.
Proof. induction w; simpl; congruence. Qed.

Lemma be_bytes_range w n : Forall (λ b, b < 256) (be_bytes w n).
Proof.
  induction w; simpl; constructor; [|done]. apply N.mod_lt. lia.
Qed.

Lemma mod_split w n :
  n mod 256 ^ N.of_nat (S w) = n mod 256 ^ N.of_nat w + 256 ^ N.of_nat w * ((n / 256 ^ N.of_nat w) mod 256).
Proof. rewrite pow256_S. rewrite N.mod_mul_r; [done|apply pow256_pos|lia]. Qed.

Lemma from_be_acc w n acc :
  fold_left (λ acc b, acc * 256 + b) (be_bytes w n) acc
  = acc * 256 ^ N.of_nat w + n mod 256 ^ N.of_nat w.
Proof.
  revert acc. induction w as [|w IH]; intros acc.
  - cbn [be_bytes fold_left]. change (256 ^ N.of_nat 0) with 1. rewrite N.mod_1_r. lia.
  - cbn [be_bytes fold_left]. rewrite IH, mod_split, pow256_S. lia.
Qed.

Lemma from_be_be w n : fits w n → from_be (be_bytes w n) = n.
Proof.
  unfold fits, from_be. rewrite pow8. intros Hf. rewrite from_be_acc.
  rewrite N.mod_small by done. lia.
Qed.

Lemma uint_roundtrip w n rest : fits w n → uint_parse_key w (uint_create_key w n ++ rest) = Ok n.
Proof.
  intros Hf. unfold uint_parse_key, uint_create_key.
  rewrite decide_True by (rewrite app_length, be_bytes_length; lia).
  rewrite take_app_alt by (by rewrite be_bytes_length). by rewrite from_be_be.
Qed.

Lemma lex_be_mod w a b :
  lex_compare (be_bytes w a) (be_bytes w b)
  = (a mod 256 ^ N.of_nat w ?= b mod 256 ^ N.of_nat w).
Proof.
  induction w as [|w IH].
  - cbn. change (256 ^ 0) with 1. by rewrite !N.mod_1_r.
  - cbn [be_bytes lex_compare]. rewrite IH, !mod_split.
    pose proof (N.mod_lt a _ (pow256_pos w)) as Ha.
    pose proof (N.mod_lt b _ (pow256_pos w)) as Hb.
    set (p := 256 ^ N.of_nat w) in *.
    set (x := (a / p) mod 256). set (y := (b / p) mod 256).
    clearbody x y p. clear IH. generalize dependent (a mod p); intros am Ha; generalize dependent (b mod p); intros bm Hb.
    destruct (N.compare_spec x y) as [->|Hlt|Hgt].
    + destruct (N.compare_spec am bm); symmetry;
        [apply N.compare_eq_iff|apply N.compare_lt_iff|apply N.compare_gt_iff]; lia.
    + symmetry; apply N.compare_lt_iff.
      assert (p * (x + 1) <= p * y) by (apply N.mul_le_mono_l; lia). lia.
    + symmetry; apply N.compare_gt_iff.
      assert (p * (y + 1) <= p * x) by (apply N.mul_le_mono_l; lia). lia.
Qed.

Lemma uint_order w a b : fits w a → fits w b →
  lex_compare (uint_create_key w a) (uint_create_key w b) = (a ?= b).
Proof.
  unfold fits, uint_create_key. rewrite pow8. intros Ha Hb.
  rewrite lex_be_mod, !N.mod_small; done.
Qed.

Lemma lex_app_same a a' b b' : length a = length b →
  lex_compare (a ++ a') (b ++ b') =
  match lex_compare a b with Eq => lex_compare a' b' | c => c end.
Proof.
  revert b. induction a as [|x a IH]; intros [|y b] Hl; simpl in *; try done.
  destruct (x ?= y); try done. apply IH. lia.
Qed.

Lemma edge_key_length e : length (edge_create_key e) = 16%nat.
Proof. unfold edge_create_key. by rewrite app_length, !be_bytes_length. Qed.

Lemma edge_roundtrip e : fits 8 (source e) → fits 8 (target e) →
  edge_parse_key (edge_create_key e) = Ok e.
Proof.
  intros Hs Ht. unfold edge_parse_key.
  rewrite decide_True by (rewrite edge_key_length; lia).
  rewrite decide_True by (rewrite drop_length, edge_key_length; lia).
  unfold edge_create_key.
  rewrite take_app_alt, drop_app_alt by (by rewrite be_bytes_length).
  rewrite !from_be_be by done. by destruct e.
Qed.

Lemma edge_order e f :
  fits 8 (source e) → fits 8 (target e) → fits 8 (source f) → fits 8 (target f) →
  lex_compare (edge_create_key e) (edge_create_key f) = edge_compare e f.
Proof.
  intros. unfold edge_create_key, edge_compare.
  rewrite lex_app_same by (by rewrite !be_bytes_length).
  pose proof (uint_order 8 (source e) (source f)) as Q1.
  pose proof (uint_order 8 (target e) (target f)) as Q2.
  unfold uint_create_key in *. rewrite Q1, Q2 by done. done.
Qed.

Lemma int_roundtrip w z rest : (0 < w)%nat → sfits w z →
  int_parse_key w (int_create_key w z ++ rest) = Ok z.
Proof.
  intros Hw [Hlo Hhi]. unfold int_parse_key, int_create_key.
  set (k := (8 * Z.of_nat w)%Z) in *.
  assert (2 ^ k = 2 * 2 ^ (k - 1))%Z as E.
  { rewrite <- Z.pow_succ_r by lia. f_equal. lia. }
  assert (0 < 2 ^ (k - 1))%Z as Hp by (apply Z.pow_pos_nonneg; lia).
  assert (0 <= z mod 2 ^ k < 2 ^ k)%Z as Hm by (apply Z.mod_pos_bound; lia).
  assert (fits w (Z.to_N (z mod 2 ^ k))) as Hf.
  { unfold fits. replace (2 ^ (8 * N.of_nat w)) with (Z.to_N (2 ^ k)); [lia|].
    unfold k. rewrite Z2N.inj_pow by lia. f_equal. lia. }
  pose proof (uint_roundtrip w _ rest Hf) as HR. unfold uint_create_key in HR. rewrite HR.
  rewrite Z2N.id by lia. f_equal.
  assert (2 ^ k / 2 = 2 ^ (k - 1))%Z as E2.
  { rewrite E, Z.mul_comm. apply Z.div_mul. lia. }
  rewrite E2.
  destruct (Z_lt_le_dec z 0) as [Hneg|Hpos].
  - assert (z mod 2 ^ k = z + 2 ^ k)%Z as ->.
    { symmetry. apply Z.mod_unique with (q := (-1)%Z); lia. }
    destruct (Z.ltb_spec (z + 2 ^ k) (2 ^ (k - 1))); lia.
  - rewrite Z.mod_small by lia.
    destruct (Z.ltb_spec z (2 ^ (k - 1))); lia.
Qed.
