(** C02 and C04 for the keys of the maps that are used while a relANNIS corpus is imported. *)
From stdpp Require Import base list.
From Coq Require Import NArith.
From Verif Require Import KeySer KeySerSpec SortedMap DiskMap DiskMapSpec RelAnnisKeys RelAnnisKeysSpec RelAnnisKeysProofs.

(** Positions in a text, by the name of the segmentation. Missing: names with NUL characters, see below. *)
Theorem C02_text_property_roundtrip_partial : ∀ p, tp_ok p → tp_parse_key (tp_create_key p) = Ok p.
Proof. exact (key_parse _ _ _ _ tp_key_ok). Qed.
Print Assumptions C02_text_property_roundtrip_partial.
Theorem C02_text_property_order_partial : ∀ p q, tp_ok p → tp_ok q → lex_compare (tp_create_key p) (tp_create_key q) = tp_compare p q.
Proof. exact (key_order _ _ _ _ tp_key_ok). Qed.
Print Assumptions C02_text_property_order_partial.

(** Texts, with or without the number of a corpus *)
Theorem C02_text_key_roundtrip : ∀ k, tk_ok k → tk_parse_key (tk_create_key k) = Ok k.
Proof. exact (key_parse _ _ _ _ tk_key_ok). Qed.
Print Assumptions C02_text_key_roundtrip.
Theorem C02_text_key_order : ∀ k l, tk_ok k → tk_ok l → lex_compare (tk_create_key k) (tk_create_key l) = tk_compare k l.
Proof. exact (key_order _ _ _ _ tk_key_ok). Qed.
Print Assumptions C02_text_key_order.

(** Nodes by text *)
Theorem C02_node_by_text_roundtrip : ∀ e, nt_ok e → nt_parse_key (nt_create_key e) = Ok e.
Proof. exact (key_parse _ _ _ _ nt_key_ok). Qed.
Print Assumptions C02_node_by_text_roundtrip.
Theorem C02_node_by_text_order : ∀ e f, nt_ok e → nt_ok f → lex_compare (nt_create_key e) (nt_create_key f) = nt_compare e f.
Proof. exact (key_order _ _ _ _ nt_key_ok). Qed.
Print Assumptions C02_node_by_text_order.

(** So the theorems about on-disk maps (C04, C05, C07) hold for these maps. *)
Theorem C04_relannis_keys_ok :
  key_ok tp_ok tp_compare tp_create_key tp_parse_key ∧ key_ok tk_ok tk_compare tk_create_key tk_parse_key ∧
  key_ok nt_ok nt_compare nt_create_key nt_parse_key.
Proof. exact (conj tp_key_ok (conj tk_key_ok nt_key_ok)). Qed.
Print Assumptions C04_relannis_keys_ok.

Local Open Scope N_scope.
(** A name with a NUL character is cut off when the key is read, and keys are in a different order than the values. *)
Theorem C02_text_property_nul_refuted :
  (∃ p, tp_numbers p ∧ tp_parse_key (tp_create_key p) = Ok (TextProperty [97] (tp_corpus p) (tp_text p) (tp_val p)) ∧
     tp_segmentation p = [97; 0; 98]) ∧
  ∃ p q, tp_numbers p ∧ tp_numbers q ∧ tp_compare p q = Lt ∧ lex_compare (tp_create_key p) (tp_create_key q) = Gt.
Proof.
  split.
  - exists (TextProperty [97; 0; 98] 1 2 3). split; [repeat split|]. split; vm_compute; reflexivity.
  - exists (TextProperty [] 16777216 0 0), (TextProperty [0] 0 0 0). split; [repeat split|]. split; [repeat split|].
    split; vm_compute; reflexivity.
Qed.
Print Assumptions C02_text_property_nul_refuted.

Example C02_relannis_example :
  tp_ok (TextProperty [100; 105; 112; 108] 3 0 4294967295) ∧ tk_ok (TextKey 7 None) ∧ tk_ok (TextKey 7 (Some 8)) ∧
  nt_ok (NodeByText 1 2 18446744073709551615) ∧
  tp_compare (TextProperty [97] 3 0 4294967295) (TextProperty [97; 98] 0 0 0) = Lt ∧
  lex_compare (tk_create_key (TextKey 7 None)) (tk_create_key (TextKey 7 (Some 8))) = Lt.
Proof.
  split; [split; [repeat split|]|].
  - apply (bool_decide_unpack _); vm_compute; exact I.
  - split; [split; [reflexivity|discriminate 1]|]. split; [split; [reflexivity|]|].
    + intros c H. injection H as <-. reflexivity.
    + split; [repeat split|]. split; vm_compute; reflexivity.
Qed.
