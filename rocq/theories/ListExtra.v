(** Additional lemmas about lists. *)
From stdpp Require Import base list.
From Coq Require Import Lia.

Section filter.
Context {A : Type} (Q R : A → Prop) `{!∀ x, Decision (Q x), !∀ x, Decision (R x)}.
Implicit Types l : list A.

Lemma list_filter_ext_in l : (∀ x, x ∈ l → Q x ↔ R x) → filter Q l = filter R l.
Proof.
  intros Hx. induction l as [|x l IH]; [done|]. rewrite !filter_cons.
  assert (Q x ↔ R x) as Hi by (apply Hx; by left).
  rewrite IH by (intros y Hy; apply Hx; by right).
  destruct (decide (Q x)), (decide (R x)); tauto.
Qed.
Lemma list_filter_none l : (∀ x, x ∈ l → ¬ Q x) → filter Q l = [].
Proof.
  induction l as [|x l IH]; intros Hx; [done|]. rewrite filter_cons_False by (apply Hx; by left).
  apply IH. intros y Hy. apply Hx. by right.
Qed.
Lemma list_filter_all l : (∀ x, x ∈ l → Q x) → filter Q l = l.
Proof.
  induction l as [|x l IH]; intros Hx; [done|]. rewrite filter_cons_True by (apply Hx; by left).
  f_equal. apply IH. intros y Hy. apply Hx. by right.
Qed.
End filter.

Lemma NoDup_bind_ext {A B} (f : A → list B) (l : list A) :
  NoDup l → (∀ x, x ∈ l → NoDup (f x)) →
  (∀ x y z, x ∈ l → y ∈ l → z ∈ f x → z ∈ f y → x = y) → NoDup (l ≫= f).
Proof.
  induction 1 as [|x l Hx Hl IH]; intros Hf Hd; simpl; [constructor|].
  apply NoDup_app. split_and!.
  - apply Hf. by left.
  - intros z Hz [y [Hz' Hy]]%elem_of_list_bind.
    assert (x = y) as -> by (apply (Hd x y z); [by left|by right|done|done]). done.
  - apply IH; [intros y Hy; apply Hf; by right|]. intros y y' z ? ?. apply Hd; by right.
Qed.

Lemma NoDup_omap_inj {A B} (f : A → option B) (l : list A) :
  NoDup l → (∀ x y z, x ∈ l → y ∈ l → f x = Some z → f y = Some z → x = y) → NoDup (omap f l).
Proof.
  induction 1 as [|x l Hx Hl IH]; intros Hd; simpl; [constructor|].
  destruct (f x) as [z|] eqn:E.
  - constructor.
    + intros [y [Hy Hz]]%elem_of_list_omap.
      assert (x = y) as -> by (apply (Hd x y z); [by left|by right|done|done]). done.
    + apply IH. intros y y' z' ? ?. apply Hd; by right.
  - apply IH. intros y y' z' ? ?. apply Hd; by right.
Qed.

Lemma NoDup_fmap_inj_on {A B} (f : A → B) (l : list A) :
  NoDup l → (∀ x y, x ∈ l → y ∈ l → f x = f y → x = y) → NoDup (f <$> l).
Proof.
  induction 1 as [|x l Hx Hl IH]; intros Hd; simpl; [constructor|]. constructor.
  - intros [y [Hz Hy]]%elem_of_list_fmap.
    assert (x = y) as -> by (apply Hd; [by left|by right|done]). done.
  - apply IH. intros y y' ? ?. apply Hd; by right.
Qed.
