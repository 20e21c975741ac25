From stdpp Require Import base list gmap sorting.
From Coq Require Import NArith.
From Verif Require Import KeySer Types SymbolTable AnnoMem AnnoMemQueries QName SortMatches Joins Query Frequency FrequencySpec.

Section proofs.
Context (pos : bytes → option nat) (defs : list freq_def).
Implicit Types freq : gmap (list bytes) nat.

Definition row (cg : fcorpus * group) : list bytes := tuple_val cg.1 cg.2 <$> anno_keys_of pos cg.1 defs.
Definition add freq (t : list bytes) : gmap (list bytes) nat := <[t := S (default 0 (freq !! t))]> freq.

Lemma count_items_eq c items freq :
  count_items c (anno_keys_of pos c defs) items freq =
  l ← mapM (λ i, match i with IOk g => Some (c, g) | _ => None end) items; Some (fold_left add (row <$> l) freq).
Proof.
  revert freq. induction items as [|[g| |] items IH]; intros freq; [done| |done|done]. cbn [count_items]. rewrite IH.
  simpl. destruct (mapM _ items) as [l|]; simpl; done.
Qed.
Lemma count_corpora_eq cs freq :
  count_corpora pos defs cs freq = l ← all_matches cs; Some (fold_left add (row <$> l) freq).
Proof.
  unfold all_matches. revert freq. induction cs as [|c cs IH]; intros freq; [done|]. cbn [count_corpora]. simpl. unfold matches_of.
  destruct (fc_plan c) as [items|]; [|done]. simpl. rewrite count_items_eq.
  destruct (mapM _ items) as [l1|]; [|done]. simpl. rewrite IH.
  destruct (mapM _ cs) as [l2|]; [|done]. simpl. by rewrite fmap_app, fold_left_app.
Qed.
Definition times (t : list bytes) (l : list (list bytes)) : nat := length (filter (λ x, x = t) l).
Lemma fold_add l freq t : fold_left add l freq !! t =
  if decide (times t l = 0) then freq !! t else Some (times t l + default 0 (freq !! t)).
Proof.
  revert freq. induction l as [|x l IH]; intros freq; [done|]. cbn [fold_left]. rewrite IH. unfold add, times.
  rewrite filter_cons. destruct (decide (x = t)) as [->|Hne].
  - rewrite lookup_insert. cbn [length]. repeat case_decide; try lia; f_equal; unfold default, id; simpl; lia.
  - by rewrite lookup_insert_ne.
Qed.
Lemma sum_list_perm (l k : list nat) : l ≡ₚ k → sum_list l = sum_list k.
Proof. induction 1; simpl; unfold id in *; lia. Qed.
Lemma sum_add l freq : sum_list ((map_to_list (fold_left add l freq)).*2) = length l + sum_list ((map_to_list freq).*2).
Proof.
  revert freq. induction l as [|x l IH]; intros freq; [done|]. cbn [fold_left length]. rewrite IH.
  enough (sum_list ((map_to_list (add freq x)).*2) = S (sum_list ((map_to_list freq).*2))) by lia.
  unfold add. destruct (freq !! x) as [n|] eqn:E.
  - assert (map_to_list freq ≡ₚ (x, n) :: map_to_list (delete x freq)) as Hf by (symmetry; by apply map_to_list_delete).
    rewrite (sum_list_perm _ _ (fmap_Permutation snd _ _ Hf)).
    rewrite <- insert_delete_insert.
    rewrite (sum_list_perm _ _ (fmap_Permutation snd _ _ (map_to_list_insert (delete x freq) x _ (lookup_delete freq x)))). done.
  - rewrite (sum_list_perm _ _ (fmap_Permutation snd _ _ (map_to_list_insert freq x _ E))). done.
Qed.
Lemma frequency_spec cs :
  match all_matches cs with
  | None => frequency pos defs cs = None
  | Some l => ∃ table, frequency pos defs cs = Some table ∧
      sum_list table.*2 = length l ∧ NoDup table.*1 ∧
      StronglySorted (λ a b, b.2 ≤ a.2) table ∧
      ∀ t n, (t, n) ∈ table ↔ n = times t (row <$> l) ∧ n ≠ 0
  end.
Proof.
  unfold frequency. rewrite count_corpora_eq. destruct (all_matches cs) as [l|]; [|done]. simpl.
  set (freq := fold_left add (row <$> l) ∅). eexists. split; [done|]. set (cmp := λ a b : list bytes * nat, _).
  pose proof (sort_list_perm cmp (map_to_list freq)) as Hp. split_and!.
  - rewrite (sum_list_perm _ (map_to_list freq).*2) by (by rewrite Hp).
    unfold freq. rewrite sum_add, map_to_list_empty, fmap_length. simpl. lia.
  - rewrite Hp. apply NoDup_fst_map_to_list.
  - apply sort_list_sorted; [intros a b c ??; lia| |]; unfold cmp; intros a b; destruct (Nat.compare_spec a.2 b.2); simpl; first [done|lia].
  - intros t n. rewrite Hp, elem_of_map_to_list. unfold freq. rewrite fold_add, lookup_empty. simpl. rewrite Nat.add_0_r.
    destruct (decide _); naive_solver.
Qed.

(** The rows *)
Lemma fold_value c (n : N) ks v0 : let v := fold_left (λ v k, match fc_value c n k with Some x => x | None => v end) ks v0 in
  (∃ k, k ∈ ks ∧ fc_value c n k = Some v) ∨ ((∀ k, k ∈ ks → fc_value c n k = None) ∧ v = v0).
Proof.
  revert v0. induction ks as [|k ks IH]; intros v0; cbn [fold_left].
  - right. split; [by intros ? ?%elem_of_nil|done].
  - destruct (fc_value c n k) as [x|] eqn:E.
    + destruct (IH x) as [(k' & Hk' & Hv)|[Hn Hv]]; left; [exists k'; split; [by right|done]|].
      exists k. split; [left|]. by rewrite Hv.
    + destruct (IH v0) as [(k' & Hk' & Hv)|[Hn Hv]]; [left; exists k'; split; [by right|done]|right].
      split; [|done]. intros k' [->|?]%elem_of_cons; auto.
Qed.
Lemma row_spec c g : qnames_ok c → row_of pos defs c g (row (c, g)).
Proof.
  intros Q. unfold row_of, row, anno_keys_of. simpl. induction defs as [|d ds IH]; [constructor|].
  rewrite filter_cons. destruct (decide (is_Some (pos (fd_node_ref d)))) as [[p E]|Hn]; simpl.
  - rewrite E. simpl. constructor; [|exact IH]. intros p' Ep. rewrite E in Ep. injection Ep as <-.
    unfold tuple_val. simpl. destruct (g !! p) as [m|]; [|done]. unfold label_value. destruct (fd_ns d) as [ns|].
    + simpl. by destruct (fc_value c m.1 _).
    + destruct (fold_value c m.1 (fc_qnames c (fd_name d)) []) as [(k & Hk & Hv)|[Hn Hv]].
      * left. exists k. split; [by apply Q in Hk as [? _]|done].
      * right. split; [|done]. intros k Hk. destruct (fc_value c m.1 k) eqn:Ek; [|done].
        rewrite Hn in Ek; [done|]. apply Q. split; [done|]. exists m.1. by rewrite Ek.
  - destruct (pos (fd_node_ref d)); [by destruct Hn|]. exact IH.
Qed.
End proofs.

Lemma split_colon_app a b : 58%N ∉ a → split_colon (a ++ 58%N :: b) = Some (a, b).
Proof.
  induction a as [|x a IH]; intros Ha; [done|]. simpl. rewrite decide_False by (intros ->; apply Ha; left).
  rewrite IH; [done|]. intros ?; apply Ha; by right.
Qed.
Lemma split_colon_None s : split_colon s = None ↔ 58%N ∉ s.
Proof.
  induction s as [|x s IH]; simpl; [split; [intros _; apply not_elem_of_nil|done]|].
  rewrite not_elem_of_cons. destruct (decide (x = 58%N)) as [->|]; [naive_solver|].
  destruct (split_colon s); simpl; naive_solver.
Qed.
Lemma find_sep_app a b : 58%N ∉ a → find_sep (a ++ 58%N :: 58%N :: b) = Some (a, b).
Proof.
  induction a as [|x a IH]; intros Ha; [done|]. rewrite not_elem_of_cons in Ha. destruct Ha as [Hx Ha]. specialize (IH Ha).
  change ((x :: a) ++ 58%N :: 58%N :: b) with (x :: (a ++ 58%N :: 58%N :: b)). cbn [find_sep].
  destruct (a ++ 58%N :: 58%N :: b) as [|c r] eqn:E; [by destruct a|].
  destruct (N.eqb_spec x 58) as [->|]; [done|]. cbn [andb]. by rewrite IH.
Qed.
Lemma find_sep_None a : 58%N ∉ a → find_sep a = None.
Proof.
  induction a as [|x a IH]; intros Ha; [done|]. rewrite not_elem_of_cons in Ha. destruct Ha as [Hx Ha]. specialize (IH Ha).
  cbn [find_sep]. destruct a as [|c r]; [done|]. destruct (N.eqb_spec x 58) as [->|]; [done|]. cbn [andb]. by rewrite IH.
Qed.

Lemma matches_in c l : matches_of c = Some l → ∀ x, x ∈ l → x.1 = c.
Proof.
  unfold matches_of. destruct (fc_plan c) as [items|]; [|done]. simpl. intros E x Hx.
  apply mapM_Some in E. apply elem_of_list_lookup in Hx as [i Hx].
  destruct (Forall2_lookup_r _ _ _ _ _ E Hx) as (y & _ & Ey). destruct y; [|done|done]. by injection Ey as <-.
Qed.
Lemma all_matches_in cs l : all_matches cs = Some l → ∀ x, x ∈ l → x.1 ∈ cs.
Proof.
  unfold all_matches. destruct (mapM matches_of cs) as [ll|] eqn:E; [|done]. simpl. intros [= <-] x Hx.
  apply mapM_Some in E.
  revert Hx. induction E as [|c k cs ll Hc E IH]; simpl; [by intros ?%elem_of_nil|].
  intros [Hx|Hx]%elem_of_app; [|right; by apply IH]. rewrite (matches_in _ _ Hc _ Hx). left.
Qed.
Lemma frequency_full pos defs cs : Forall qnames_ok cs →
  match all_matches cs with
  | None => frequency pos defs cs = None
  | Some ms => ∃ table rows, frequency pos defs cs = Some table ∧
      Forall2 (λ m row, row_of pos defs m.1 m.2 row) ms rows ∧
      sum_list table.*2 = length ms ∧ NoDup table.*1 ∧
      StronglySorted (λ a b, b.2 ≤ a.2) table ∧
      ∀ t n, (t, n) ∈ table ↔ n = length (filter (λ r, r = t) rows) ∧ n ≠ 0
  end.
Proof.
  intros Q. pose proof (frequency_spec pos defs cs) as F. destruct (all_matches cs) as [ms|] eqn:E; [|done].
  destruct F as (table & Ef & ? & ? & ? & ?). exists table, (row pos defs <$> ms). split_and!; [done| |done|done|done|done].
  apply Forall2_fmap_r, Forall2_same_length_lookup_2; [done|]. intros i [c g] y Hi Hy. assert (y = (c, g)) as -> by congruence.
  apply row_spec. rewrite Forall_forall in Q. apply Q. apply (all_matches_in _ _ E (c, g)). by eapply elem_of_list_lookup_2.
Qed.
