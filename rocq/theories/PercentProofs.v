From stdpp Require Import base list.
From Coq Require Import NArith Lia.
From Verif Require Import KeySer Percent.
Local Open Scope N_scope.

Definition is_byte (b : N) : Prop := b < 256.

Lemma forall_lt_N (P : N → bool) (n : nat) :
  forallb P (map N.of_nat (seq 0 n)) = true → ∀ x, x < N.of_nat n → P x = true.
Proof.
  rewrite forallb_forall. intros Hf x Hx. apply Hf. apply in_map_iff.
  exists (N.to_nat x). split; [lia|]. apply in_seq. lia.
Qed.

Lemma unhex_hex n : n < 16 → unhex (hex_digit n) = Some n.
Proof.
  intros Hn.
  assert ((match unhex (hex_digit n) with Some m => m =? n | None => false end) = true) as HH.
  { apply (forall_lt_N (λ n, match unhex (hex_digit n) with Some m => m =? n | None => false end) 16).
    - vm_compute. done.
    - done. }
  destruct (unhex (hex_digit n)); [|done]. apply N.eqb_eq in HH. by subst.
Qed.

Lemma hex_digit_spec n : n < 16 →
  (48 <= hex_digit n <= 57) ∨ (65 <= hex_digit n <= 70).
Proof. unfold hex_digit. intros. destruct (N.ltb_spec n 10); lia. Qed.

Lemma pct_decode_encode set s :
  set 37 = true → Forall is_byte s → pct_decode (pct_encode set s) = s.
Proof.
  intros Hset. induction 1 as [|b s Hb Hs IH]; [done|].
  cbn [pct_encode]. destruct (should_encode set b) eqn:E.
  - unfold pct_byte. cbn [app pct_decode]. rewrite N.eqb_refl.
    rewrite !unhex_hex.
    + rewrite IH. f_equal. pose proof (N.div_mod b 16). lia.
    + apply N.mod_lt. lia.
    + unfold is_byte in Hb. apply N.div_lt_upper_bound; lia.
  - cbn [app pct_decode]. destruct (N.eqb_spec b 37) as [->|].
    + unfold should_encode in E. rewrite Hset in E. by rewrite orb_true_r in E.
    + by rewrite IH.
Qed.

Lemma pct_encode_inj set s t :
  set 37 = true → Forall is_byte s → Forall is_byte t →
  pct_encode set s = pct_encode set t → s = t.
Proof.
  intros Hset Hs Ht E. rewrite <- (pct_decode_encode set s), <- (pct_decode_encode set t) by done.
  by rewrite E.
Qed.

(** Bytes of the output: either '%', an upper case hex digit or a byte that needs no encoding. *)
Lemma pct_encode_bytes set s b : Forall is_byte s → b ∈ pct_encode set s →
  b = 37 ∨ (48 <= b <= 57) ∨ (65 <= b <= 70) ∨ (b ∈ s ∧ should_encode set b = false).
Proof.
  induction 1 as [|c s Hc Hs IH]; cbn [pct_encode]; [by intros ?%elem_of_nil|].
  rewrite elem_of_app. intros [Hin|Hin].
  - destruct (should_encode set c) eqn:E.
    + unfold pct_byte in Hin.
      assert (c / 16 < 16) as H1 by (unfold is_byte in Hc; apply N.div_lt_upper_bound; lia).
      assert (c mod 16 < 16) as H2 by (apply N.mod_lt; lia).
      apply hex_digit_spec in H1, H2.
      rewrite !elem_of_cons, elem_of_nil in Hin. destruct Hin as [->|[->|[->|[]]]]; tauto.
    + apply elem_of_list_singleton in Hin as ->. right; right; right. split; [by left|done].
  - destruct (IH Hin) as [?|[?|[?|[? ?]]]]; auto. right; right; right. split; [by right|done].
Qed.

Lemma pct_encode_nil_inv set s : pct_encode set s = [] → s = [].
Proof. destruct s as [|b s]; [done|]. cbn. destruct (should_encode set b); done. Qed.

Lemma pct_encode_id set s :
  Forall (λ b, should_encode set b = false) s → pct_encode set s = s.
Proof. induction 1 as [|b s Hb Hs IH]; cbn; [done|]. rewrite Hb. cbn. by rewrite IH. Qed.

Lemma pct_encode_no set s c : Forall is_byte s → set c = true → c ≠ 37 →
  ¬ (48 <= c <= 57) → ¬ (65 <= c <= 70) → c ∉ pct_encode set s.
Proof.
  intros Hs Hc H1 H2 H3 Hin. apply pct_encode_bytes in Hin; [|done].
  destruct Hin as [?|[?|[?|[_ E]]]]; try done. unfold should_encode in E.
  rewrite Hc, orb_true_r in E. done.
Qed.
