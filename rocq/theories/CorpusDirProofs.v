(** Proofs about the directories of corpora. *)
From Coq Require Import NArith String Lia.
From stdpp Require Import base list.
From Verif Require Import KeySer Percent PercentProofs CompPath CompPathSpec CompPathProofs CorpusDir.

Lemma escaped_no_slash name : Forall is_byte name → slash ∉ escaped_corpus_name name.
Proof. intros Hb. apply pct_encode_no; [done|vm_compute; reflexivity|unfold slash; lia..]. Qed.
Lemma escaped_inj name name' : Forall is_byte name → Forall is_byte name' → escaped_corpus_name name = escaped_corpus_name name' → name = name'.
Proof. intros H1 H2. by apply pct_encode_inj. Qed.
Lemma escaped_decode name : Forall is_byte name → pct_decode (escaped_corpus_name name) = name.
Proof. intros H. by apply pct_decode_encode. Qed.
Lemma escaped_id s : Forall (λ b, should_encode path_encode_set b = false) s → escaped_corpus_name s = s.
Proof. apply pct_encode_id. Qed.
Lemma escaped_file_name name : Forall is_byte name → name ≠ [] → name ≠ str "." → name ≠ str ".." →
  file_name (escaped_corpus_name name) ∧ escaped_corpus_name name ≠ [].
Proof.
  intros Hb H0 H1 H2. split; [split; [by apply escaped_no_slash|]|intros H; by apply pct_encode_nil_inv in H].
  assert (∀ s, Forall is_byte s → Forall (λ b, should_encode path_encode_set b = false) s → name ≠ s → escaped_corpus_name name ≠ s) as Hd.
  { intros s Hs Hn Hne E. apply Hne. apply escaped_inj; [done|done|]. rewrite E. symmetry. by apply escaped_id. }
  split; apply Hd; try done; repeat constructor.
Qed.
Lemma parts_snoc p x : slash ∉ x → ∀ cur, parts (p ++ slash :: x) cur = parts p cur ++ [x].
Proof.
  intros Hx. induction p as [|b p IH]; intros cur; cbn [app parts].
  - rewrite decide_True by done. cbn. f_equal. by rewrite parts_plain.
  - destruct (decide (b = slash)); cbn [app]; [f_equal|]; apply IH.
Qed.
Lemma push_resolve p x : p ≠ [] → x ≠ [] → file_name x → resolve (push p x) = ((resolve p).1, (resolve p).2 ++ [x]).
Proof.
  intros Hp Hx (Hs & H1 & H2). 
  assert (∀ q, q ≠ [] → resolve (q ++ slash :: x) = ((resolve q).1, (resolve q).2 ++ [x])) as Hr.
  { intros q Hq. unfold resolve. rewrite parts_snoc by done. rewrite fold_left_app. cbn [fold_left fst snd]. rewrite walk_plain by done. rewrite reverse_cons.
    f_equal. by destruct q. }
  assert (∀ q, q ≠ [] → resolve (q ++ [slash]) = resolve q) as Hr0.
  { intros q Hq. unfold resolve. rewrite parts_snoc by (apply not_elem_of_nil). rewrite fold_left_app. cbn [fold_left]. unfold walk_part at 1. rewrite decide_True by (by left).
    f_equal. by destruct q. }
  destruct x as [|b x]; [done|]. cbn [push]. rewrite decide_False by (intros ->; apply Hs; left).
  destruct (last p) as [e|] eqn:El; [|by apply last_None in El]. destruct (decide (e = slash)) as [->|He]; [|by apply Hr].
  apply last_Some in El as [q ->]. rewrite <- app_assoc. cbn [app]. destruct q as [|b0 q].
  - cbn [app]. unfold resolve. assert (parts (slash :: b :: x) [] = [[]; b :: x]) as ->.
    { cbn [parts]. rewrite decide_True by done. f_equal. by apply (parts_plain (b :: x) []). }
    cbn [fold_left fst snd parts]. rewrite decide_True by done. cbn [fold_left].
    assert (walk_part [] (reverse []) = []) as -> by (vm_compute; reflexivity). rewrite walk_plain by done. f_equal.
  - rewrite Hr, Hr0 by done. done.
Qed.
Lemma directory_spec db_dir name : db_dir ≠ [] → Forall is_byte name → name ≠ [] → name ≠ str "." → name ≠ str ".." →
  resolve (corpus_directory_on_disk db_dir name) = ((resolve db_dir).1, (resolve db_dir).2 ++ [escaped_corpus_name name]).
Proof.
  intros Hd Hb H0 H1 H2. unfold corpus_directory_on_disk. destruct (escaped_file_name name Hb H0 H1 H2) as [Hf Hne].
  assert (push [] db_dir = db_dir) as ->. { destruct db_dir as [|b r]; [done|]. cbn. by destruct (decide (b = slash)). }
  by apply push_resolve.
Qed.
