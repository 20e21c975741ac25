(** Proofs about the keys of the import. *)
From stdpp Require Import base list.
From Coq Require Import NArith Lia.
From Verif Require Import KeySer KeySerSpec KeySerProofs SortedMap DiskMap DiskMapSpec RelAnnisKeys RelAnnisKeysSpec.

(** ** Orders *)
Lemma then_order {A B C} (f : A → B) (g : A → C) (cb : B → B → comparison) (cc : C → C → comparison)
  `{!CmpOrder cb} `{!CmpOrder cc} : (∀ x y, f x = f y → g x = g y → x = y) →
  CmpOrder (λ x y, then_compare (cb (f x) (f y)) (cc (g x) (g y))).
Proof.
  intros Hinj. split.
  - intros x y. split.
    + destruct (cb (f x) (f y)) eqn:E; cbn; try discriminate. intros E2. apply (cmp_eq cb) in E. apply (cmp_eq cc) in E2. by apply Hinj.
    + intros ->. rewrite (proj2 (cmp_eq cb _ _) eq_refl). cbn. by apply (cmp_eq cc).
  - intros x y. rewrite (cmp_anti cb (f x) (f y)), (cmp_anti cc (g x) (g y)). by destruct (cb (f x) (f y)).
  - intros x y z. destruct (cb (f x) (f y)) eqn:E1; cbn; [|intros _|discriminate].
    + apply (cmp_eq cb) in E1. rewrite E1. destruct (cb (f y) (f z)); cbn; [|done..]. apply (cmp_trans cc).
    + destruct (cb (f y) (f z)) eqn:E2; cbn; [|intros _|discriminate].
      * apply (cmp_eq cb) in E2. rewrite <- E2, E1. done.
      * by rewrite (cmp_trans cb _ _ _ E1 E2).
Qed.
Global Instance opt_order : CmpOrder opt_compare.
Proof.
  split.
  - intros [a|] [b|]; cbn; try done. rewrite N.compare_eq_iff. split; congruence.
  - intros [a|] [b|]; cbn; try done. apply N.compare_antisym.
  - intros [a|] [b|] [c|]; cbn; try done. rewrite !N.compare_lt_iff. lia.
Qed.
Lemma lex_be_app w a b x y : fits w a → fits w b →
  lex_compare (be_bytes w a ++ x) (be_bytes w b ++ y) = then_compare (a ?= b)%N (lex_compare x y).
Proof.
  intros Ha Hb. rewrite lex_app_same by (by rewrite !be_bytes_length).
  pose proof (uint_order w a b Ha Hb) as E. unfold uint_create_key in E. rewrite E. unfold then_compare. by destruct (a ?= b)%N.
Qed.
Lemma lex_be w a b : fits w a → fits w b → lex_compare (be_bytes w a) (be_bytes w b) = (a ?= b)%N.
Proof. apply uint_order. Qed.
Lemma lex_nul_then v1 v2 a b : 0%N ∉ v1 → 0%N ∉ v2 →
  lex_compare (v1 ++ 0%N :: a) (v2 ++ 0%N :: b) = then_compare (lex_compare v1 v2) (lex_compare a b).
Proof.
  revert v2. induction v1 as [|x v1 IH]; intros [|y v2] H1 H2; cbn; [done|..].
  - rewrite not_elem_of_cons in H2. destruct y; [by destruct H2|done].
  - rewrite not_elem_of_cons in H1. destruct x; [by destruct H1|done].
  - rewrite not_elem_of_cons in H1, H2. destruct (x ?= y)%N; cbn; [|done..]. apply IH; tauto.
Qed.
Lemma until_nul_app v r : 0%N ∉ v → until_nul (v ++ 0%N :: r) = v.
Proof.
  induction v as [|x v IH]; intros H; [done|]. rewrite not_elem_of_cons in H. cbn.
  destruct (N.eqb_spec x 0); [by subst; destruct H|]. f_equal. apply IH. tauto.
Qed.

Local Instance pair_order : CmpOrder (λ a b : N * N, then_compare (a.1 ?= b.1)%N (a.2 ?= b.2)%N).
Proof. apply (then_order fst snd N.compare N.compare). intros [] []; cbn; congruence. Qed.
Local Instance triple_order : CmpOrder (λ a b : N * (N * N), then_compare (a.1 ?= b.1)%N (then_compare (a.2.1 ?= b.2.1)%N (a.2.2 ?= b.2.2)%N)).
Proof.
  apply (then_order (fst : N * (N * N) → N) snd N.compare (λ a b : N * N, then_compare (a.1 ?= b.1)%N (a.2 ?= b.2)%N)).
  intros [] []; cbn; congruence.
Qed.

(** ** The keys of the three maps *)
Lemma tp_key_ok : key_ok tp_ok tp_compare tp_create_key tp_parse_key.
Proof.
  split.
  - apply (then_order tp_segmentation (λ p, (tp_corpus p, (tp_text p, tp_val p))) lex_compare
      (λ a b : N * (N * N), then_compare (a.1 ?= b.1)%N (then_compare (a.2.1 ?= b.2.1)%N (a.2.2 ?= b.2.2)%N))).
    intros [] []; cbn; congruence.
  - intros [seg c t v] [(Hc & Ht & Hv) Hn]. cbn [tp_segmentation tp_corpus tp_text tp_val] in *. unfold tp_parse_key, tp_create_key. cbn [tp_segmentation tp_corpus tp_text tp_val].
    unfold create_str_vec_key. cbn [map concat]. rewrite app_nil_r.
    assert (length ((seg ++ [0%N]) ++ be_bytes 4 c ++ be_bytes 4 t ++ be_bytes 4 v) = length (seg ++ [0%N]) + 12) as Hl.
    { rewrite !app_length, !be_bytes_length. cbn. lia. }
    rewrite decide_True by lia. rewrite Hl. cbv zeta. replace (length (seg ++ [0%N]) + 12 - 12) with (length (seg ++ [0%N])) by lia.
    rewrite <- (assoc_L (++) seg [0%N]) at 1. cbn [app]. rewrite until_nul_app by done.
    rewrite drop_app, <- !drop_drop, drop_app.
    rewrite (take_app_alt _ _ 4) by (by rewrite be_bytes_length). rewrite from_be_be by done.
    rewrite (drop_app_alt _ _ 4) by (by rewrite be_bytes_length).
    rewrite (take_app_alt _ _ 4) by (by rewrite be_bytes_length). rewrite from_be_be by done.
    rewrite (assoc_L (++) (be_bytes 4 c)). rewrite (drop_app_alt _ _ 8) by (by rewrite app_length, !be_bytes_length).
    rewrite take_ge by (by rewrite be_bytes_length). by rewrite from_be_be.
  - intros a b [(Hc & Ht & Hv) Hn] [(Hc' & Ht' & Hv') Hn']. unfold tp_create_key, create_str_vec_key, tp_compare. cbn [map concat].
    rewrite !app_nil_r, <- !(assoc_L (++) _ [0%N]). cbn [app]. rewrite lex_nul_then by done.
    by rewrite !lex_be_app, lex_be by done.
Qed.
Lemma tk_key_ok : key_ok tk_ok tk_compare tk_create_key tk_parse_key.
Proof.
  split.
  - apply (then_order tk_id tk_corpus N.compare opt_compare). intros [] []; cbn; congruence.
  - intros [i c] [Hi Hc]. unfold tk_parse_key, tk_create_key. cbn [tk_id tk_corpus] in *.
    rewrite decide_True by (rewrite app_length, be_bytes_length; lia).
    rewrite (take_app_alt _ _ 4), from_be_be by (done || by rewrite be_bytes_length). do 2 f_equal.
    destruct c as [c|].
    + rewrite decide_True by (by rewrite app_length, !be_bytes_length).
      rewrite (drop_app_alt _ _ 4) by (by rewrite be_bytes_length). rewrite from_be_be; [done|by apply Hc].
    + rewrite decide_False; [done|]. rewrite app_length, be_bytes_length. cbn. lia.
  - intros [i c] [i' c'] [Hi Hc] [Hi' Hc']. unfold tk_create_key, tk_compare. cbn [tk_id tk_corpus] in *.
    rewrite lex_be_app by done. f_equal. destruct c as [c|], c' as [c'|]; try done. cbn [opt_compare]. apply lex_be; auto.
Qed.
Lemma nt_key_ok : key_ok nt_ok nt_compare nt_create_key nt_parse_key.
Proof.
  split.
  - apply (then_order nt_text (λ p, (nt_corpus p, nt_node p)) N.compare (λ a b : N * N, then_compare (a.1 ?= b.1)%N (a.2 ?= b.2)%N)).
    intros [] []; cbn; congruence.
  - intros [t c n] (Ht & Hc & Hn). unfold nt_parse_key, nt_create_key. cbn [nt_text nt_corpus nt_node] in *.
    rewrite decide_True by (rewrite !app_length, !be_bytes_length; lia).
    rewrite (take_app_alt _ _ 4), from_be_be by (done || by rewrite be_bytes_length).
    rewrite (drop_app_alt _ _ 4) by (by rewrite be_bytes_length).
    rewrite (take_app_alt _ _ 4), from_be_be by (done || by rewrite be_bytes_length).
    rewrite (assoc_L (++) (be_bytes 4 t)). rewrite (drop_app_alt _ _ 8) by (by rewrite app_length, !be_bytes_length).
    rewrite decide_True by (by rewrite be_bytes_length). by rewrite from_be_be.
  - intros a b (Ht & Hc & Hn) (Ht' & Hc' & Hn'). unfold nt_create_key, nt_compare. by rewrite !lex_be_app, lex_be by done.
Qed.
