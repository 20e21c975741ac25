From stdpp Require Import base list.
From Coq Require Import NArith Lia.
From Verif Require Import KeySer Percent PercentProofs QName.
Local Open Scope N_scope.

Lemma find_sep_none s : 58 ∉ s → find_sep s = None.
Proof.
  induction s as [|b s IH]; [done|]. intros Hn. cbn [find_sep].
  destruct s as [|c s]; [done|].
  destruct (N.eqb_spec b 58) as [->|Hb]; [destruct Hn; by left|]. cbn [andb].
  rewrite IH; [done|]. intros Hin. apply Hn. by right.
Qed.

Lemma find_sep_app x y : 58 ∉ x → find_sep (x ++ [58; 58] ++ y) = Some (x, y).
Proof.
  induction x as [|b x IH]; intros Hn.
  - done.
  - assert (b ≠ 58) as Hb by (intros ->; apply Hn; by left).
    assert (58 ∉ x) as Hx by (intros ?; apply Hn; by right).
    specialize (IH Hx). cbn [app find_sep] in *.
    destruct (x ++ [58; 58] ++ y) as [|c l] eqn:E.
    + by destruct x.
    + cbn [app] in E. rewrite E. apply N.eqb_neq in Hb. rewrite Hb. cbn [andb].
      rewrite E in IH. rewrite IH. done.
Qed.

Lemma qname_no_colon s : Forall is_byte s → 58 ∉ pct_encode qname_set s.
Proof. intros Hs. apply pct_encode_no; try done; lia. Qed.

Lemma split_join ns name : Forall is_byte ns → Forall is_byte name →
  split_qname (join_qname ns name) =
    ((match ns with [] => None | _ => Some (pct_encode qname_set ns) end), pct_encode qname_set name).
Proof.
  intros Hns Hname. unfold split_qname, join_qname. destruct ns as [|b ns].
  - cbn [app]. rewrite find_sep_none; [done|]. by apply qname_no_colon.
  - rewrite <- app_assoc. rewrite find_sep_app; [done|]. by apply qname_no_colon.
Qed.

Lemma join_inj ns1 n1 ns2 n2 :
  Forall is_byte ns1 → Forall is_byte n1 → Forall is_byte ns2 → Forall is_byte n2 →
  join_qname ns1 n1 = join_qname ns2 n2 → ns1 = ns2 ∧ n1 = n2.
Proof.
  intros H1 H2 H3 H4 E.
  pose proof (split_join ns1 n1 H1 H2) as S1. pose proof (split_join ns2 n2 H3 H4) as S2.
  rewrite E in S1. rewrite S1 in S2. injection S2 as Ens En.
  split; [|by apply pct_encode_inj in En].
  destruct ns1 as [|b1 ns1], ns2 as [|b2 ns2]; try done.
  assert (pct_encode qname_set (b1 :: ns1) = pct_encode qname_set (b2 :: ns2)) as Ens' by congruence.
  by apply pct_encode_inj in Ens'.
Qed.

Lemma split_join_plain ns name :
  Forall (λ b, should_encode qname_set b = false) ns →
  Forall (λ b, should_encode qname_set b = false) name →
  split_qname (join_qname ns name) = ((match ns with [] => None | _ => Some ns end), name).
Proof.
  assert (∀ s, Forall (λ b, should_encode qname_set b = false) s → Forall is_byte s) as Hb.
  { intros s Hs. eapply Forall_impl; [exact Hs|]. intros b. unfold should_encode, is_byte.
    destruct (N.leb_spec 128 b); [done|]. lia. }
  intros Hns Hn. rewrite split_join by auto. rewrite !pct_encode_id by done. done.
Qed.

Lemma split_join_decode ns name : Forall is_byte ns → Forall is_byte name →
  (λ p, (from_option pct_decode [] p.1, pct_decode p.2)) (split_qname (join_qname ns name)) = (ns, name).
Proof.
  intros Hns Hn. rewrite split_join by done. cbn. rewrite pct_decode_encode by done.
  f_equal. destruct ns; [done|]. cbn [from_option]. by rewrite pct_decode_encode.
Qed.

Lemma split_join_ascii ns name :
  Forall (λ b, (32 < b < 127 ∧ b ≠ 58 ∧ b ≠ 37)%N) ns →
  Forall (λ b, (32 < b < 127 ∧ b ≠ 58 ∧ b ≠ 37)%N) name →
  split_qname (join_qname ns name) = ((match ns with [] => None | _ => Some ns end), name).
Proof.
  assert (∀ b, (32 < b < 127 ∧ b ≠ 58 ∧ b ≠ 37)%N → should_encode qname_set b = false) as E.
  { intros b [[H1 H2] [H3 H4]]. unfold should_encode, qname_set, is_control.
    repeat (apply orb_false_iff; split); try (apply N.leb_gt; lia); apply N.eqb_neq; lia. }
  intros H1 H2. apply split_join_plain; (eapply Forall_impl; [eassumption|exact E]).
Qed.
