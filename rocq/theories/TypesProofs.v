From stdpp Require Import base list.
From Coq Require Import NArith Lia.
From Verif Require Import KeySer KeySerSpec SortedMap Types.

Global Instance nat_compare_order : CmpOrder Nat.compare.
Proof.
  constructor.
  - apply Nat.compare_eq_iff.
  - intros a b. by rewrite Nat.compare_antisym.
  - intros a b c. rewrite !Nat.compare_lt_iff. lia.
Qed.

(** Lexicographic combination of two orders *)
Definition lex2 {A B} (ca : A → A → comparison) (cb : B → B → comparison) (x y : A * B) : comparison :=
  match ca x.1 y.1 with Eq => cb x.2 y.2 | c => c end.
Global Instance lex2_order {A B} (ca : A → A → comparison) (cb : B → B → comparison) :
  CmpOrder ca → CmpOrder cb → CmpOrder (lex2 ca cb).
Proof.
  intros Ha Hb. constructor.
  - intros [a b] [a' b']. unfold lex2; simpl. destruct (ca a a') eqn:E.
    + rewrite (cmp_eq cb). apply (cmp_eq ca) in E. naive_solver.
    + split; [done|]. intros [= <- <-]. by rewrite (cmp_refl ca) in E.
    + split; [done|]. intros [= <- <-]. by rewrite (cmp_refl ca) in E.
  - intros [a b] [a' b']. unfold lex2; simpl. rewrite (cmp_anti ca a a').
    destruct (ca a a'); simpl; [apply (cmp_anti cb)|done|done].
  - intros [a b] [a' b'] [a'' b'']. unfold lex2; simpl.
    destruct (ca a a') eqn:E1; try done; destruct (ca a' a'') eqn:E2; try done; intros H1 H2.
    + apply (cmp_eq ca) in E1, E2. subst. rewrite (cmp_refl ca). by eapply (cmp_trans cb).
    + apply (cmp_eq ca) in E1. subst. by rewrite E2.
    + apply (cmp_eq ca) in E2. subst. by rewrite E1.
    + by rewrite (cmp_trans ca _ _ _ E1 E2).
Qed.

Lemma anno_key_compare_lex a b :
  anno_key_compare a b = lex2 lex_compare lex_compare (ak_name a, ak_ns a) (ak_name b, ak_ns b).
Proof. done. Qed.
Global Instance anno_key_compare_order : CmpOrder anno_key_compare.
Proof.
  constructor.
  - intros a b. rewrite anno_key_compare_lex, (cmp_eq (lex2 _ _)).
    destruct a, b; simpl. naive_solver.
  - intros a b. rewrite !anno_key_compare_lex. apply (cmp_anti (lex2 _ _)).

  - intros a b c. rewrite !anno_key_compare_lex. apply (cmp_trans (lex2 _ _)).
Qed.

Lemma lex_nil_le b : lex_compare [] b ≠ Gt.
Proof. by destruct b. Qed.
