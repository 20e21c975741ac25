(** Property theorems for the descriptions of the nodes of a query (C71). *)
From Coq Require Import NArith String.
From stdpp Require Import base list gmap.
From Verif Require Import KeySer CompPath NodeSearch Query QuerySpec QueryProofs AqlLexer AqlGrammar AqlParser AqlSpec Descriptions DescriptionsSpec DescriptionsProofs.

(** The descriptions of an accepted query are those of the node searches of its alternatives, alternative by alternative and in the order
    of the text, without gaps; the numbers of unnamed nodes count all the descriptions *)
Theorem C71_descriptions simplify s e ds : simplifies simplify → parse_aql s = Parsed e → node_descriptions simplify s = Described ds →
  ∃ startss, Forall2 positions (get_alternatives_from_dnf (simplify e)) startss ∧ length ds = sum_list (length <$> startss) ∧
    ∀ i alt starts k p, get_alternatives_from_dnf (simplify e) !! i = Some alt → startss !! i = Some starts → starts !! k = Some p →
      ∃ n d, node_at alt p (search_meaning (n_search n), n_var n, n_optional n) ∧ node_ok n ∧
        ds !! (sum_list (length <$> take i startss) + k) = Some d ∧ describes i (sum_list (length <$> take i startss) + k) n d.
Proof. exact (descriptions_spec simplify s e ds). Qed.
(** There are descriptions iff the query is parsed and its alternatives are accepted *)
Theorem C71_accepted simplify s : (∃ ds, node_descriptions simplify s = Described ds) ↔ ∃ e qs, parse_aql s = Parsed e ∧ map_alternatives 0 (get_alternatives_from_dnf (simplify e)) = Some qs.
Proof.
  unfold node_descriptions. destruct (parse_aql s) as [e| |]; [|split; [by intros [? ?]|by intros (? & ? & ? & _)]..].
  destruct (map_alternatives 0 _) as [qs|] eqn:E; split; [intros _; by exists e, qs|intros _; by eexists|by intros [? ?]|]. intros (e' & qs & [= <-] & H). congruence.
Qed.
(** The variables of the descriptions of an alternative are different if the names in the query are *)
Theorem C71_variables_distinct simplify s e ds j j' d d' : simplifies simplify → parse_aql s = Parsed e → distinct_names (QuerySpec.terminals e) → node_descriptions simplify s = Described ds →
  ds !! j = Some d → ds !! j' = Some d' → d_alternative d = d_alternative d' → d_variable d = d_variable d' → j = j'.
Proof. exact (variables_distinct simplify s e ds j j' d d'). Qed.
(** The fragment of a description is a query for the same node search. Missing: qualified names that start with arity, see below *)
Theorem C71_fragment_partial simplify s e ds j d : simplifies simplify → parse_aql s = Parsed e → node_descriptions simplify s = Described ds → ds !! j = Some d →
  ∃ p n, node_at (QuerySpec.terminals e) p (search_meaning (n_search n), n_var n, n_optional n) ∧ describes (d_alternative d) j n d ∧
    (¬ starts_with_arity (n_search n) → parse_aql (d_fragment d) = Parsed (Terminal (LNode (search_meaning (n_search n)) 0 None false))).
Proof.
  intros Hs Hp H Hj. destruct (description_inv simplify s e ds j d Hs Hp H Hj) as (alt & p & n & _ & Hsub & Hn & Hok & Hd). exists p, n. split_and!; [by eapply node_at_sub|done|].
  intros Ha. rewrite (ds_fragment _ _ _ _ Hd). apply fragment_parsed; [apply Hok|done].
Qed.

(** ** Findings *)
(** The fragment of the search for an annotation whose name starts with arity is not a query: the spaces of the query are lost *)
Theorem C71_fragment_refuted : ∃ d, node_descriptions normalize (str "ns: aritys=""a""") = Described [d] ∧ d_fragment d = str "ns:aritys=""a""" ∧ parse_aql (d_fragment d) = SyntaxError.
Proof. eexists. split; [vm_compute; reflexivity|]. split; vm_compute; reflexivity. Qed.
(** Negated searches have no annotation name *)
Theorem C71_anno_name_refuted : ∃ d d', node_descriptions normalize (str "pos=""NN"" & pos!=""NN"" & #1 . #2") = Described [d; d'] ∧ d_anno_name d = Some (str "pos") ∧ d_anno_name d' = None.
Proof. eexists _, _. split; [vm_compute; reflexivity|]. split; reflexivity. Qed.

(** ** Example *)
Example example_descriptions : node_descriptions normalize (str "a# salt : pos != /N.*/ & #a !->dep tok? & #a . meta :x | ""the"" . node & _ = ""v""") = Described [
  Description 0 (str "salt:pos!=/N.*/") (str "a") None false; Description 0 (str "tok") (str "2") None true; Description 0 (str "meta:x") (str "3") (Some (str "x")) false;
  Description 1 (str """the""") (str "4") None false; Description 1 (str "node") (str "5") None false; Description 1 (str "_=""v""") (str "6") (Some (str "_")) false].
Proof. vm_compute. reflexivity. Qed.
Print Assumptions C71_descriptions. Print Assumptions C71_accepted. Print Assumptions C71_variables_distinct. Print Assumptions C71_fragment_partial. Print Assumptions C71_fragment_refuted. Print Assumptions C71_anno_name_refuted.
