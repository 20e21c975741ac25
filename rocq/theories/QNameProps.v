(** C03: qualified names. *)
From stdpp Require Import base list.
From Coq Require Import NArith.
From Verif Require Import KeySer Percent PercentProofs QName QNameProofs.

(** [is_byte b] is [b < 256]. *)
Theorem C03_join_qname_injective ns1 n1 ns2 n2 :
  Forall is_byte ns1 → Forall is_byte n1 → Forall is_byte ns2 → Forall is_byte n2 →
  join_qname ns1 n1 = join_qname ns2 n2 → ns1 = ns2 ∧ n1 = n2.
Proof. exact (join_inj ns1 n1 ns2 n2). Qed.
Print Assumptions C03_join_qname_injective.

(** The literal round trip through [split_qname] holds for names without bytes that need escaping
    (ASCII, no control character, space, ':' or '%') ... *)
Theorem C03_split_join_partial ns name :
  Forall (λ b, (32 < b < 127 ∧ b ≠ 58 ∧ b ≠ 37)%N) ns →
  Forall (λ b, (32 < b < 127 ∧ b ≠ 58 ∧ b ≠ 37)%N) name →
  split_qname (join_qname ns name) = ((match ns with [] => None | _ => Some ns end), name).
Proof. exact (split_join_ascii ns name). Qed.
Print Assumptions C03_split_join_partial.

(** ... and for all names after percent-decoding both parts (which [split_qname] leaves to its
    callers). *)
Theorem C03_split_join_decoded ns name :
  Forall is_byte ns → Forall is_byte name →
  (λ p, (from_option pct_decode [] p.1, pct_decode p.2)) (split_qname (join_qname ns name)) = (ns, name).
Proof. exact (split_join_decode ns name). Qed.
Print Assumptions C03_split_join_decoded.

(** The literal round trip fails for a name with a space ("a b" becomes "a%20b"). *)
Theorem C03_split_join_refuted :
  ∃ ns name, Forall is_byte ns ∧ Forall is_byte name ∧ ns ≠ [] ∧
    split_qname (join_qname ns name) ≠ (Some ns, name).
Proof.
  exists [110]%N, [97; 32; 98]%N. repeat split; try (repeat constructor; done).
Qed.
Print Assumptions C03_split_join_refuted.

Example C03_example :
  join_qname [97; 58]%N [98]%N = [97; 37; 51; 65; 58; 58; 98]%N ∧
  split_qname [97; 37; 51; 65; 58; 58; 98]%N = (Some [97; 37; 51; 65], [98])%N.
Proof. vm_compute. done. Qed.
