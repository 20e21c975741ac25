(** Property theorems for the quirks mode of queries (C72). *)
From Coq Require Import NArith String.
From stdpp Require Import base list gmap sorting.
From Verif Require Import KeySer CompPath NodeSearch TokenOps EdgeOps Query QuerySpec QueryProofs AqlLexer AqlGrammar AqlParser AqlSpec Quirks QuirksSpec QuirksProofs.

(** Matches of the node searches of an alternative can be extended to the nodes of its conjunction iff they satisfy the literals without the
    metadata searches, where unlimited distances are at most 50, and a document that contains the first node matches all the metadata searches
    of the query. [bop] is any meaning of the operators in which the operators of this mode compare nodes.
    Missing: optional nodes and alternatives without node, see below *)
Theorem C72_meaning_partial {X : Type} (sat : spec → X → Prop) (bop : aql_bop → X → X → Prop) (uop : aql_uop → X → Prop) (node : X → N) (above : N → N → Prop) simplify s e qs :
  same_node_operator bop node → part_of_operator bop node above →
  simplifies simplify → parse_aql s = Parsed e → distinct_names (QuerySpec.terminals e) → no_optional (QuerySpec.terminals e) → quirks_query simplify e = Some qs →
  let alts := get_alternatives_from_dnf (simplify e) in length qs = length alts ∧
  ∀ i c q, alts !! i = Some c → qs !! i = Some q → (∃ s e, node_at c s e) → let off := sum_list (length <$> (c_nodes <$> take i qs)) in
    ∃ starts s0, positions c starts ∧ starts !! 0 = Some s0 ∧
    ∀ env, (∃ a, (∀ k s, starts !! k = Some s → a k = env s) ∧ conj_holds sat bop uop q a) ↔
      (∀ l, l ∈ without_metadata c → literal_holds sat bop uop off (without_metadata c) env l) ∧ metadata_holds sat node above (metadata alts) (env s0).
Proof.
  intros H1 H2 H3 H4 H5 H6 H7. destruct (quirks_query_spec sat bop uop node above H1 H2 simplify s e qs H3 H4 H5 H6 H7) as [Hl H]. split; [exact Hl|]. intros i c q Hi Hq Hne.
  destruct (H i c q Hi Hq Hne) as (nodes & uses & s0 & A1 & A2 & A3 & _ & _ & _ & A4). exists (nodes.*1), s0. split_and!; [|exact A3|exact A4]. split; [exact A1|]. intros x. rewrite elem_of_list_fmap. split.
  - intros ([x' sp] & -> & Hin). apply A2 in Hin as [var Hin]. by eexists.
  - intros [[[sp var] o] Hin]. exists (x, sp). split; [done|]. apply A2. exists var. destruct o; [|done]. exfalso. eapply H6. eapply node_at_sub; [|exact Hin]. destruct (H3 e (proj1 (AqlPositions.parsed_well_formed s e H4))) as (_ & _ & Hsub).
    intros t Ht. apply Hsub. eapply alternatives_terminals; [|exact Ht]. by eapply elem_of_list_lookup_2.
Qed.
(** The nodes of the conjunction: the node searches in the order of the text, a copy of a node for each of its dominance and pointing relations
    but the first one, and the metadata searches with the search for a document. The output has all but the latter *)
Theorem C72_nodes_partial simplify s e qs : simplifies simplify → parse_aql s = Parsed e → distinct_names (QuerySpec.terminals e) → no_optional (QuerySpec.terminals e) →
  quirks_query simplify e = Some qs → let alts := get_alternatives_from_dnf (simplify e) in
  ∀ i c q, alts !! i = Some c → qs !! i = Some q → (∃ s e, node_at c s e) → let off := sum_list (length <$> (c_nodes <$> take i qs)) in
    ∃ nodes uses, StronglySorted lt (nodes.*1) ∧ (∀ s sp, (s, sp) ∈ nodes ↔ ∃ var, node_at c s (sp, var, false)) ∧
      Forall2 (operand_at off (without_metadata c)) (joined_operands c) uses ∧ c_offset q = off ∧
      let copies := concat ((λ p : nat * spec, replicate (count p.1 uses - 1) p.2) <$> nodes) in
      snd ∘ fst <$> c_nodes q = nodes.*2 ++ copies ++ hidden_nodes (metadata alts) ∧
      ∀ k v sp o, c_nodes q !! k = Some (v, sp, o) → v ∈ c_output q ↔ k < length nodes + length copies.
Proof.
  intros H3 H4 H5 H6 H7. destruct (quirks_query_spec (X := N) (λ _ _, True) (λ op x y, match op with BIdentNode => x = y | _ => True end) (λ _ _, True) (λ x, x) (λ _ _, True) ltac:(done) ltac:(done) simplify s e qs H3 H4 H5 H6 H7) as [_ H].
  intros alts i c q Hi Hq Hne off. destruct (H i c q Hi Hq Hne) as (nodes & uses & s0 & A1 & A2 & _ & A3 & A4 & A5 & _). exists nodes, uses. split_and!; [exact A1|exact A2|exact A3|exact A4|exact A5].
Qed.
(** An alternative is accepted iff its literals without the metadata searches are *)
Theorem C72_accepted_partial off c metas : consistent (without_metadata c) → distinct_names (without_metadata c) → no_optional c →
  is_Some (q ← quirks_conjunction off c; add_metadata metas None (variable_by_node_nr q off) q) ↔ ∀ l, l ∈ without_metadata c → literal_ok off (without_metadata c) l.
Proof. exact (quirks_accepted (X := N) (λ _ _, True) (λ op x y, match op with BIdentNode => x = y | _ => True end) (λ _ _, True) (λ x, x) (λ _ _, True) ltac:(done) ltac:(done) off c metas). Qed.

(** ** Findings *)
Definition conjunctions (s : string) : option (list conjunction) := match parse_aql (str s) with Parsed e => quirks_query normalize e | _ => None end.
Definition specs (q : conjunction) : list spec := snd ∘ fst <$> c_nodes q.
Definition anno (name value : string) : spec := SExact None (str name) (Some (str value)) true.
Definition doc : spec := SExact (Some (str "annis")) (str "doc") None true.
(** Metadata searches that are combined by "or" have to hold all *)
Theorem C72_disjunction_refuted : map specs <$> conjunctions "tok & (meta::a=""x"" | meta::b=""y"")" =
  Some [[SAnyTok; anno "a" "x"; doc; anno "b" "y"]; [SAnyTok; anno "a" "x"; doc; anno "b" "y"]].
Proof. vm_compute. reflexivity. Qed.
(** The nodes of the metadata searches have numbers: references of later alternatives by number are wrong *)
Theorem C72_numbers_refuted : is_Some (conjunctions "tok | node & node & #2 . #3") ∧ conjunctions "tok & meta::a=""x"" | node & node & #2 . #3" = None ∧
  is_Some (conjunctions "tok & meta::a=""x"" | node & node & #4 . #5").
Proof. split_and!; [eexists; vm_compute; reflexivity|vm_compute; reflexivity|eexists; vm_compute; reflexivity]. Qed.
(** An alternative that has only metadata searches has matches without nodes *)
Theorem C72_only_metadata_refuted : map (λ q, (specs q, elements (c_output q))) <$> conjunctions "tok | meta::a=""x""" = Some [([SAnyTok; anno "a" "x"; doc], [Num 1]); ([anno "a" "x"], [])].
Proof. vm_compute. reflexivity. Qed.
(** A node that must not exist is copied, and the copy has to exist *)
Theorem C72_optional_refuted : map (λ q, (c_nodes q, c_binary q)) <$> conjunctions "node !> b#node? & #1 !->dep #b" =
  Some [([(Num 1, SAnyNode, false); (Name (str "b"), SAnyNode, true); (Num 3, SAnyNode, false); (Num 4, SAnyNode, false)], [(BIdentNode, false, 0, 2); (BIdentNode, false, 1, 3)])].
Proof. vm_compute. reflexivity. Qed.

(** ** Example *)
(** Two joins between the same nodes: both are copied and the copies are part of the output; the hidden nodes are not *)
Definition example : string := "node > a#node & #1 ->dep #a & #a .* tok & meta::x=""y""".
Example example_nodes : map (λ q, (c_nodes q, c_binary q)) <$> conjunctions example = Some [(
  [(Num 1, SAnyNode, false); (Name (str "a"), SAnyNode, false); (Num 3, SAnyTok, false); (Num 4, SAnyNode, false); (Num 5, SAnyNode, false); (Num 6, anno "x" "y", false); (Num 7, doc, false)],
  [(BDominance [] (RBound 1 1) None, false, 0, 1); (BPointing (str "dep") (RBound 1 1) None, false, 0, 1); (BPrecedence None (RBound 1 50), false, 1, 2);
   (BIdentNode, false, 0, 3); (BIdentNode, false, 1, 4); (BPartOf RUnbound, false, 0, 5); (BIdentNode, false, 5, 6)])].
Proof. vm_compute. reflexivity. Qed.
(** ... and it meets the conditions of the theorems *)
Example example_conditions : ∃ e c, parse_aql (str example) = Parsed e ∧ simplifies (normalize (T := aql_literal)) ∧ distinct_names (QuerySpec.terminals e) ∧ no_optional (QuerySpec.terminals e) ∧ is_Some (quirks_query normalize e) ∧
  get_alternatives_from_dnf (normalize e) = [c] ∧ ∃ s n, node_at c s n.
Proof.
  eexists _, _. split; [vm_compute; reflexivity|]. split; [exact normalize_ok|].
  assert (∀ s n, node_at (QuerySpec.terminals (match parse_aql (str example) with Parsed e => e | _ => Terminal (LMeta doc) end)) s n →
    (s, n) ∈ [(0, (SAnyNode, None, false)); (7, (SAnyNode, Some (str "a"), false)); (36, (SAnyTok, None, false))]) as H.
  { intros s n (l & Hl & Hn). revert Hl. intros Hl. cbv in Hl. repeat (apply elem_of_cons in Hl as [-> |Hl]; [cbv in Hn; destruct_or? Hn; try done; destruct Hn as [-> ->]; cbv; apply elem_of_list_In; cbn; tauto|]). inversion Hl. }
  split_and!.
  - intros s s' sp sp' o o' nm H1 H2. apply H in H1, H2. apply elem_of_list_In in H1, H2. cbn in H1, H2. naive_solver.
  - intros s sp var H1. apply H in H1. apply elem_of_list_In in H1. cbn in H1. naive_solver.
  - eexists. vm_compute. reflexivity.
  - vm_compute. reflexivity.
  - exists 0, (SAnyNode, None, false). eexists. split; [apply elem_of_list_In; cbn; left; reflexivity|]. cbn. left. done.
Qed.
Print Assumptions C72_meaning_partial. Print Assumptions C72_nodes_partial. Print Assumptions C72_accepted_partial. Print Assumptions C72_disjunction_refuted. Print Assumptions C72_numbers_refuted.
Print Assumptions C72_only_metadata_refuted. Print Assumptions C72_optional_refuted.
