(** C04-C07: disk based map. In all theorems [key_ok P cmp ser parse] says that the key type is
    sensible (proved for the key types of graphANNIS, see the end of this file), [n] is the eviction
    threshold and [ops] an arbitrary history of inserts, removes, clears, compactions and
    write-and-reopen steps. *)
From stdpp Require Import base list.
From Coq Require Import NArith.
From Verif Require Import KeySer KeySerSpec SortedMap DiskMap DiskMapSpec DiskMapProofs.

(** C04: no operation fails, [remove] returns what the specification says and [get] returns the
    specified content. *)
Theorem C04_diskmap_refines_map {K V} `{EqDecision K} (P : K → Prop) kcmp ser parse :
  key_ok P kcmp ser parse →
  ∀ (n : nat) (ops : list (dm_op K V)), Forall (op_keys_ok P) ops →
  ∃ m, dm_run kcmp ser parse (dm_new n None) ops = Some (m, spec_outs empty_content ops) ∧
    ∀ k, P k → dm_get kcmp ser m k = spec_run empty_content ops k.
Proof. exact (diskmap_run_get P kcmp ser parse). Qed.
Print Assumptions C04_diskmap_refines_map.

(** C05: iteration yields exactly the content, strictly ascending. *)
Theorem C05_diskmap_iter_exact {K V} `{EqDecision K} (P : K → Prop) kcmp ser parse :
  key_ok P kcmp ser parse →
  ∀ (n : nat) (ops : list (dm_op K V)) m outs, Forall (op_keys_ok P) ops →
  dm_run kcmp ser parse (dm_new n None) ops = Some (m, outs) →
  ∃ l, dm_iter kcmp ser parse m = Some l ∧ al_sorted kcmp l ∧
    (∀ k v, (k, v) ∈ l ↔ spec_run empty_content ops k = Some v).
Proof. exact (diskmap_run_iter P kcmp ser parse). Qed.
Print Assumptions C05_diskmap_iter_exact.

(** C05: the same for ranges (for inverted bounds Rust's [BTreeMap::range] may panic). *)
Theorem C05_diskmap_range_exact {K V} `{EqDecision K} (P : K → Prop) kcmp ser parse :
  key_ok P kcmp ser parse →
  ∀ (n : nat) (ops : list (dm_op K V)) m outs s e, Forall (op_keys_ok P) ops →
  dm_run kcmp ser parse (dm_new n None) ops = Some (m, outs) →
  bound_ok P s → bound_ok P e → range_panics kcmp s e = false →
  ∃ l, dm_range kcmp ser parse m s e = Some l ∧ al_sorted kcmp l ∧
    (∀ k v, (k, v) ∈ l ↔ spec_run empty_content ops k = Some v ∧ lower_ok kcmp s k ∧ upper_ok kcmp e k).
Proof. exact (diskmap_run_range P kcmp ser parse). Qed.
Print Assumptions C05_diskmap_range_exact.

Theorem C05_diskmap_is_empty {K V} `{EqDecision K} (P : K → Prop) kcmp ser parse :
  key_ok P kcmp ser parse →
  ∀ (n : nat) (ops : list (dm_op K V)) m outs, Forall (op_keys_ok P) ops →
  dm_run kcmp ser parse (dm_new n None) ops = Some (m, outs) →
  ∃ b, dm_is_empty kcmp ser parse m = Some b ∧ (b = true ↔ ∀ k, spec_run empty_content ops k = None).
Proof. exact (diskmap_run_is_empty P kcmp ser parse). Qed.
Print Assumptions C05_diskmap_is_empty.

(** C06: a present key is always reported ... *)
Theorem C06_present_key_is_contained {K V} `{EqDecision K} (P : K → Prop) kcmp ser parse :
  key_ok P kcmp ser parse →
  ∀ (n : nat) (ops : list (dm_op K V)) m outs k, Forall (op_keys_ok P) ops → P k →
  dm_run kcmp ser parse (dm_new n None) ops = Some (m, outs) →
  is_Some (dm_get kcmp ser m k) → dm_contains_key kcmp ser m k = true.
Proof. exact (diskmap_get_contains P kcmp ser parse). Qed.
Print Assumptions C06_present_key_is_contained.

(** ... and for keys that were never removed the two agree. Missing for the full C06: keys that were
    removed, where it is false, see below. *)
Theorem C06_contains_key_agrees_partial {K V} `{EqDecision K} (P : K → Prop) kcmp ser parse :
  key_ok P kcmp ser parse →
  ∀ (n : nat) (ops : list (dm_op K V)) m outs k, Forall (op_keys_ok P) ops → P k →
  dm_run kcmp ser parse (dm_new n None) ops = Some (m, outs) → DmRemove k ∉ ops →
  dm_contains_key kcmp ser m k = true ↔ is_Some (dm_get kcmp ser m k).
Proof. exact (diskmap_contains_no_remove P kcmp ser parse). Qed.
Print Assumptions C06_contains_key_agrees_partial.

(** C06 is violated: insert, remove, compact; the tombstone in C1 is taken for an entry. *)
Theorem C06_contains_key_refuted :
  ∃ (ops : list (dm_op N bool)) m outs k,
    dm_run N.compare (uint_create_key 8) (uint_parse_key 8) (dm_new 10 None) ops = Some (m, outs) ∧
    dm_get N.compare (uint_create_key 8) m k = None ∧
    dm_contains_key N.compare (uint_create_key 8) m k = true.
Proof.
  exists [DmInsert 1%N true; DmRemove 1%N; DmCompact]. eexists _, _, 1%N.
  split; [vm_compute; reflexivity|]. vm_compute. done.
Qed.
Print Assumptions C06_contains_key_refuted.

(** C07: writing and opening. *)
Theorem C07_diskmap_write_roundtrip {K V} `{EqDecision K} (P : K → Prop) kcmp ser parse :
  key_ok P kcmp ser parse →
  ∀ (n n' : nat) (ops : list (dm_op K V)) m outs, Forall (op_keys_ok P) ops →
  dm_run kcmp ser parse (dm_new n None) ops = Some (m, outs) →
  ∃ t, dm_write_to kcmp ser parse m = Some t ∧
    Forall (λ e, is_Some e.2) t ∧
    (∀ k, P k → dm_get kcmp ser (dm_new n' (Some t)) k = dm_get kcmp ser m k).
Proof. exact (diskmap_run_write P kcmp ser parse). Qed.
Print Assumptions C07_diskmap_write_roundtrip.

(** The hypothesis on the key type holds for node ids, edges and byte strings. *)
Theorem C04_node_id_keys_ok : key_ok (fits 8) N.compare (uint_create_key 8) (uint_parse_key 8).
Proof. exact u64_key_ok. Qed.
Print Assumptions C04_node_id_keys_ok.
Theorem C04_edge_keys_ok :
  key_ok (λ e, fits 8 (source e) ∧ fits 8 (target e)) edge_compare edge_create_key edge_parse_key.
Proof. exact edge_key_ok. Qed.
Print Assumptions C04_edge_keys_ok.
Theorem C04_byte_keys_ok : key_ok (λ _, True) lex_compare (λ b : bytes, b) (λ b, Ok b).
Proof. exact bytes_key_ok. Qed.
Print Assumptions C04_byte_keys_ok.

(** A history that uses all three levels with overwriting and deletions. *)
Definition C04_history : list (dm_op N N) :=
  [DmInsert 5 1; DmInsert 3 2; DmInsert 9 3; DmReopen; DmInsert 3 4; DmRemove 9; DmCompact;
   DmInsert 5 6; DmInsert 1 7; DmRemove 3; DmInsert 9 8; DmRemove 1]%N.
Example C04_example :
  Forall (op_keys_ok (fits 8)) C04_history ∧
  ∃ m outs, dm_run N.compare (uint_create_key 8) (uint_parse_key 8) (dm_new 4 None) C04_history = Some (m, outs) ∧
   dm_iter N.compare (uint_create_key 8) (uint_parse_key 8) m = Some [(5, 6); (9, 8)]%N ∧
   dm_range N.compare (uint_create_key 8) (uint_parse_key 8) m (Excluded 5%N) Unbounded = Some [(9, 8)]%N ∧
   dm_c0 m ≠ [] ∧ dm_c1 m ≠ None ∧ dm_c2 m ≠ None.
Proof.
  split; [repeat constructor|]. eexists _, _. split; [vm_compute; reflexivity|]. by vm_compute.
Qed.
