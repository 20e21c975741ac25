(** C40: frequency tables. *)
From stdpp Require Import base list gmap sorting.
From Coq Require Import NArith.
From Verif Require Import KeySer Types QName SortMatches Joins Query Frequency FrequencySpec FrequencyProofs.

(** C40: there is a table unless the query fails for a corpus. It has one row for each combination of values that occurs, with
    the number of matches with these values; the numbers add up to the number of matches, and the rows are in descending order.
    [pos] is the position of the nodes that the definitions refer to. *)
Theorem C40_frequency : ∀ pos defs cs, Forall qnames_ok cs →
  match all_matches cs with
  | None => frequency pos defs cs = None
  | Some ms => ∃ table rows, frequency pos defs cs = Some table ∧
      Forall2 (λ m row, row_of pos defs m.1 m.2 row) ms rows ∧
      sum_list table.*2 = length ms ∧ NoDup table.*1 ∧
      StronglySorted (λ a b, b.2 ≤ a.2) table ∧
      ∀ t n, (t, n) ∈ table ↔ n = length (filter (λ r, r = t) rows) ∧ n ≠ 0
  end.
Proof. exact frequency_full. Qed.
Print Assumptions C40_frequency.

(** C40: the text form of a definition, "node:name" or "node:namespace::name". *)
Theorem C40_definition : ∀ node ns name, 58%N ∉ node → 58%N ∉ ns →
  freq_def_from_str (node ++ 58%N :: ns ++ 58%N :: 58%N :: name) = Some (FreqDef (Some ns) name node) ∧
  (58%N ∉ name → freq_def_from_str (node ++ 58%N :: name) = Some (FreqDef None name node) ∧
                 freq_def_from_str name = None).
Proof.
  intros node ns name Hn Hs. unfold freq_def_from_str, split_qname. split.
  - rewrite split_colon_app by exact Hn. simpl. rewrite find_sep_app by exact Hs. reflexivity.
  - intros Hm. rewrite split_colon_app by exact Hn. simpl. rewrite find_sep_None by exact Hm.
    rewrite (proj2 (split_colon_None name) Hm). split; reflexivity.
Qed.
Print Assumptions C40_definition.

(** The position of a variable of the first alternative is the one in its matches. *)
Theorem C40_position_of_first_alternative {S B U} : ∀ (q : qconj S B U) r v i, c_offset q = 0 → c_variables q !! v = Some i →
  get_variable_pos (q :: r) v = Some i.
Proof. intros q r v i Ho Hv. simpl. unfold resolve_variable_pos. rewrite Hv, Ho. simpl. f_equal. lia. Qed.
Print Assumptions C40_position_of_first_alternative.

(** The position of a variable of another alternative is its number in the whole query, and not the one in the matches of the
    alternative: the label of a matched node is not found, and the table shows an empty value. *)
Theorem C40_values_of_second_alternative_refuted :
  ∃ qs : list (qconj unit unit unit), map_alternatives 0 [[LNode tt 0 None false]; [LNode tt 1 None false]] = Some qs ∧
  let node := (7%N, AnnoKey [] []) in
  let key := AnnoKey [97%N] [] in
  let c := FCorpus (λ n k, if bool_decide (n = 7%N ∧ k = key) then Some [98%N] else None) (λ _, [key]) (Some [IOk [node]]) in
  fc_value c 7%N key = Some [98%N] ∧
  frequency (λ _, get_variable_pos qs (Num 2)) [FreqDef None [97%N] [50%N]] [c] = Some [([[]], 1)].
Proof.
  eexists. split; [vm_compute; reflexivity|]. vm_compute. split; reflexivity.
Qed.
Print Assumptions C40_values_of_second_alternative_refuted.

(** An example: two corpora, three matches. *)
Definition C40_corpus (vs : list (N * bytes)) (gs : list item) : fcorpus :=
  FCorpus (λ n k, if bool_decide (k = AnnoKey [97%N] []) then snd <$> (snd <$> list_find (λ p, p.1 = n) vs) else None)
    (λ name, if bool_decide (name = [97%N]) then [AnnoKey [97%N] []] else []) (Some gs).
Example C40_case :
  let m n := (n, AnnoKey [] []) in
  frequency (λ r, if bool_decide (r = [49%N]) then Some 0 else if bool_decide (r = [50%N]) then Some 1 else None)
    [FreqDef None [97%N] [50%N]; FreqDef None [97%N] [51%N]; FreqDef (Some []) [97%N] [49%N]]
    [C40_corpus [(1%N, [65%N]); (2%N, [66%N])] [IOk [m 1%N; m 2%N]; IOk [m 2%N; m 2%N]]; C40_corpus [(5%N, [66%N])] [IOk [m 5%N; m 5%N]]]
  = Some [([[66%N]; [66%N]], 2); ([[66%N]; [65%N]], 1)].
Proof. vm_compute. reflexivity. Qed.
Example C40_case_qnames : qnames_ok (C40_corpus [(1%N, [65%N]); (2%N, [66%N])] []).
Proof.
  intros name k. unfold C40_corpus. cbn [fc_qnames fc_value]. destruct (bool_decide_reflect (name = [97%N])) as [->|Hn].
  - rewrite elem_of_list_singleton. split.
    + intros ->. split; [reflexivity|]. exists 1%N. vm_compute. eauto.
    + intros [_ [n Hx]]. destruct (bool_decide_reflect (k = AnnoKey [97%N] [])) as [->|Hk]; [reflexivity|]. destruct Hx as [? [=]].
  - split; [intros Hx; inversion Hx|]. intros [E [n Hx]]. destruct (bool_decide_reflect (k = AnnoKey [97%N] [])) as [->|Hk].
    + destruct Hn. exact (eq_sym E).
    + destruct Hx as [? [=]].
Qed.
