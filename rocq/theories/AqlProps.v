(** Property theorems for the syntax of queries (C66). *)
From Coq Require Import NArith String.
From stdpp Require Import base list sorting.
From Verif Require Import KeySer KeySerSpec CompPath RelAnnis NodeSearch TokenOps EdgeOps Query QuerySpec QueryProofs AqlLexer AqlLexerSpec AqlTokens AqlGrammar AqlParser AqlParserRules AqlSpec AqlWritten AqlPositions AqlShapes.

(** The tokens of a text are unique and are the longest matches of the terminals of the grammar, with the earlier terminal of two *)
Theorem C66_tokens s ts : tokens s = Some ts ↔ Tokenized 0 s ts.
Proof. exact (tokens_spec s ts). Qed.
(** A text is parsed to an expression iff it has tokens and the grammar derives the expression from them and the numbers of references have
    64 bits; it is a syntax error iff there is no derivation *)
Theorem C66_outcome s :
  match parse_aql s with
  | Parsed e => ∃ ts, Tokenized 0 s ts ∧ GDisjunction ts e ∧ ∀ p d, (p, TNodeRef d) ∈ ts → (digits_number d <= u64_max)%N
  | Panic => ∃ ts e, Tokenized 0 s ts ∧ GDisjunction ts e ∧ ∃ p d, (p, TNodeRef d) ∈ ts ∧ (u64_max < digits_number d)%N
  | SyntaxError => ¬ ∃ ts e, Tokenized 0 s ts ∧ GDisjunction ts e
  end.
Proof. exact (outcome_spec s). Qed.
(** The grammar is unambiguous *)
Theorem C66_unambiguous ts e e' : GDisjunction ts e → GDisjunction ts e' → e = e'.
Proof. exact (grammar_unambiguous ts e e'). Qed.
(** A query that is written down, in any layout of its words, is parsed to its meaning *)
Theorem C66_written q s ps : query_ok q → LaidOut 0 (words 0 q) s ps → parse_aql s = Parsed (meaning 0 ps q).
Proof. exact (parse_written q s ps). Qed.
(** Spaces between all the words are one of the layouts *)
Theorem C66_spaces q : query_ok q → ∃ ps, parse_aql (concat ((λ w, 32%N :: w) <$> words 0 q)) = Parsed (meaning 0 ps q).
Proof.
  intros Hq. assert (∀ ws off, ∃ ps, LaidOut off ws (concat ((λ w, 32%N :: w) <$> ws)) ps) as H.
  { induction ws as [|w ws IH]; intros off; [exists []; constructor; constructor|]. destruct (IH (off + 1 + length w)) as (ps & H). exists ((off + 1) :: ps). cbn [fmap list_fmap concat].
    apply (laid_word off [32%N] w ws _ ps); [apply (spaces_cons [32%N]); [apply (bool_decide_unpack _); vm_compute; exact I|constructor]| |exact H]. destruct ws; exact I. }
  destruct (H (words 0 q) 0) as (ps & Hl). exists ps. by apply parse_written.
Qed.
(** Parsed queries have no negation or constants of expressions, and one node search at a position *)
Theorem C66_well_formed s e : parse_aql s = Parsed e → positive e ∧ consistent (QuerySpec.terminals e).
Proof. exact (parsed_well_formed s e). Qed.
(** Their node searches are those of descriptions that can be written: in particular, values have no quotation mark *)
Theorem C66_node_searches s e p sp var o : parse_aql s = Parsed e → node_at (QuerySpec.terminals e) p (sp, var, o) →
  ∃ n, node_ok n ∧ search_meaning (n_search n) = sp ∧ n_var n = var ∧ n_optional n = o.
Proof. exact (parsed_shape s e p sp var o). Qed.
(** From texts to conjunctions (see C49_query_partial): without references by number and with distinct variables, matches of the node
    searches satisfy the query iff they satisfy one of its conjunctions *)
Theorem C66_meaning_partial {X : Type} (sat : spec → X → Prop) (bop : aql_bop → X → X → Prop) (uop : aql_uop → X → Prop) simplify s e qs :
  parse_aql s = Parsed e → simplifies simplify → distinct_names (QuerySpec.terminals e) → (∀ l, l ∈ QuerySpec.terminals e → no_numbers l) →
  map_alternatives 0 (get_alternatives_from_dnf (simplify e)) = Some qs →
  ∃ startss, Forall2 (λ q starts, length (c_nodes q) = length starts ∧ StronglySorted lt starts) qs startss ∧
    ∀ env, holds (literal_holds sat bop uop 0 (QuerySpec.terminals e) env) e ↔
      ∃ i q starts, qs !! i = Some q ∧ startss !! i = Some starts ∧
        ∀ a, (∀ k s, starts !! k = Some s → a k = env s) → conj_holds sat bop uop q a.
Proof. intros Hp Hs Hd Hn Hm. destruct (parsed_well_formed s e Hp) as [H1 H2]. exact (query_spec sat bop uop simplify e qs Hs H1 H2 Hd Hn Hm). Qed.

(** ** Findings *)
(** A reference with a large number panics *)
Theorem C66_panic_refuted : parse_aql (str "tok & #1 . #18446744073709551616") = Panic.
Proof. lazy. reflexivity. Qed.
(** A distance with a large number is the distance 0 *)
Theorem C66_large_distance_refuted : parse_aql (str "tok .1,99999999999999999999 tok") = parse_aql (str "tok .1,00000000000000000000 tok") ∧ parse_aql (str "tok .1,0 tok") ≠ SyntaxError.
Proof. split; [vm_compute; reflexivity|]. assert (match parse_aql (str "tok .1,0 tok") with SyntaxError => false | _ => true end = true) as H by (vm_compute; reflexivity). intros E. rewrite E in H. discriminate. Qed.
(** Without space, the pointing relation after a name is read as a name that ends with - and a dominance relation *)
Theorem C66_pointing_without_space_refuted :
  parse_aql (str "node->dep node") = Parsed (Terminal (LBin (OLit (SExact None (str "node-") None false) 0 None false) (BDominance (str "dep") (RBound 1 1) None) (OLit SAnyNode 10 None false) false)) ∧
  parse_aql (str "node ->dep node") = Parsed (Terminal (LBin (OLit SAnyNode 0 None false) (BPointing (str "dep") (RBound 1 1) None) (OLit SAnyNode 11 None false) false)).
Proof. split; vm_compute; reflexivity. Qed.
(** Qualified names tok, node and those that start with arity cannot be searched *)
Theorem C66_names_refuted : parse_aql (str "ns:tok=""a""") = SyntaxError ∧ parse_aql (str "ns:node=""a""") = SyntaxError ∧ parse_aql (str "ns:arity=""a""") = SyntaxError ∧
  parse_aql (str "ns:aritys=""a""") = SyntaxError ∧ id_ok (str "aritys").
Proof.
  split_and!; [vm_compute; reflexivity..|]. split; [by apply AqlLexerProofs.id_matches|apply (bool_decide_unpack _); vm_compute; exact I].
Qed.
(** No query searches for the exact value of an annotation with a quotation mark *)
Theorem C66_quotation_mark_refuted s e p ns name v m var o : parse_aql s = Parsed e → node_at (QuerySpec.terminals e) p (SExact ns name (Some v) m, var, o) → 34%N ∉ v.
Proof.
  intros Hp Hn. destruct (parsed_shape _ _ _ _ _ _ Hp Hn) as (n & [_ Hs] & E & _). destruct (n_search n) as [| |[] []|[]|q [] []|q]; try discriminate. cbn in E. injection E as _ _ -> _. exact (proj2 Hs).
Qed.

(** ** Examples *)
Definition example : query :=
  QOr (QAnd (QAnd (QPart (PNode (MkNode (Some (str "a")) (FindAnno (Some (str "salt"), str "pos") false (Pattern (str "N.*"))) false)))
                  (QPart (PChain (TermRef (ByName (str "a"))) (true, PointsBy (str "dep") (None, str "func") true (Plain (str "obj")), TermNode (MkNode None FindTok true))
                     [(false, Precedes (Some (str "norm")) (Between true 1 50), TermNode (MkNode None (FindValue (Plain (str "the"))) false))])))
            (QOr (QPart (PArity (ByNumber 3) (Exactly false 2))) (QPart (PCompare (ByName (str "a")) (false, ByNumber 2) []))))
      (QPart (PMeta (None, str "author") true (Plain (str "Goethe")))).
Example example_ok : query_ok example.
Proof.
  assert (∀ s, AqlLexerProofs.id_pred s = true → bool_decide (s ∈ keywords) = false → id_ok s) as Hid by (intros s H1 H2; split; [by apply AqlLexerProofs.id_matches|by apply bool_decide_eq_false in H2]).
  assert (∀ s, AqlLexerProofs.alnum_pred s = true → var_ok s) as Hvar by (intros s H; by apply AqlLexerProofs.alnum_matches).
  assert (∀ s, forallb (none_of [47; 92]%N) s = true → value_ok (Pattern s)) as Hpat by (intros s H; cbn; rewrite <- (app_nil_r s); apply m_seq; [by apply AqlLexerProofs.star_chars|constructor]).
  assert (∀ s, AqlLexerProofs.id_pred s = true → name_ok s) as Hname by (intros s H; by apply AqlLexerProofs.id_matches).
  cbn [example query_ok part_ok node_ok n_var n_search search_ok term_ok reference_ok]. unfold node_ok, step_ok, distance_ok, number_ok, qualified_ok. cbn [n_var n_search search_ok fst snd].
  split_and!; try (by apply Hvar; vm_compute); try (by apply Hid; vm_compute); try (by apply Hpat; vm_compute); try (by apply (bool_decide_unpack _); vm_compute); try done.
  - split; [by apply Hid; vm_compute|by apply Hid; vm_compute].
  - apply List.Forall_cons; [|apply List.Forall_cons; [|apply List.Forall_nil]]; cbn [fst snd operator_ok term_ok]; unfold node_ok, qualified_ok, distance_ok, number_ok; cbn [n_var n_search search_ok fst snd value_ok];
      split_and!; try done; try (by apply Hname; vm_compute); try (by apply Hid; vm_compute); try (by apply (bool_decide_unpack _); vm_compute).
  - apply List.Forall_cons; [|apply List.Forall_nil]. by apply (bool_decide_unpack _); vm_compute.
Qed.
Example example_parsed : parse_aql (str "a#salt:pos!=/N.*/ & #a !->dep[func=""obj""]tok? .norm,1,50""the"" &(#3:arity=2|#a != #2)| meta::author=""Goethe""") =
  Parsed (Or (And (And (Terminal (LNode (SNotRegex (Some (str "salt")) (str "pos") (str "N.*") false) 0 (Some (str "a")) false))
                       (And (Terminal (LBin (ORef (Name (str "a"))) (BPointing (str "dep") (RBound 1 1) (Some (LExact None (str "func") (Some (str "obj"))))) (OLit SAnyTok 41 None true) true))
                            (Terminal (LBin (OLit SAnyTok 41 None true) (BPrecedence (Some (str "norm")) (RBound 1 50)) (OLit (STokExact (str "the") false) 56 None false) false))))
                  (Or (Terminal (LUn (Num 3) (UArity (RBound 2 2)))) (Terminal (LBin (ORef (Name (str "a"))) (BCompare false) (ORef (Num 2)) false))))
             (Terminal (LMeta (SExact None (str "author") (Some (str "Goethe")) true)))).
Proof. vm_compute. reflexivity. Qed.
Example example_spaced : ∃ ps, parse_aql (concat ((λ w, 32%N :: w) <$> words 0 example)) = Parsed (meaning 0 ps example).
Proof. exact (C66_spaces example example_ok). Qed.
(** Bytes 226 128 135 are a white space character of Unicode, the same bytes in another order are not *)
Example example_white_space : parse_aql ([226; 128; 135]%N ++ str "tok") = Parsed (Terminal (LNode SAnyTok 3 None false)) ∧ parse_aql ([128; 226; 135]%N ++ str "tok") = SyntaxError.
Proof. split; vm_compute; reflexivity. Qed.
(** & binds more tightly than | *)
Example example_precedence : match parse_aql (str "tok|tok&tok|tok") with Parsed (Or (Or (Terminal _) (And (Terminal _) (Terminal _))) (Terminal _)) => true | _ => false end = true.
Proof. vm_compute; reflexivity. Qed.

Print Assumptions C66_tokens. Print Assumptions C66_outcome. Print Assumptions C66_unambiguous. Print Assumptions C66_written. Print Assumptions C66_spaces.
Print Assumptions C66_well_formed. Print Assumptions C66_node_searches. Print Assumptions C66_meaning_partial. Print Assumptions C66_quotation_mark_refuted.
