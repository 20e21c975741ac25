(** Property theorems for queries from their text to their results (C73). *)
From Coq Require Import NArith String Lia.
From stdpp Require Import base list gmap sorting.
From Verif Require Import KeySer CompPath Types SymbolTable SortMatches Joins JoinsSpec JoinsProofs Conjunction ConjunctionSpec Plan PlanSpec NodeSearch TokenOps Query QuerySpec QueryProofs AqlLexer AqlLexerSpec AqlGrammar AqlParser AqlPositions EndToEnd EndToEndSpec EndToEndProofs EndToEndResults EndToEndText.

(** The results of a query are the results of its alternatives, each once: for each result, the alternative has an assignment of matches
    to its searches that satisfies it, and the result consists of the matches of the mandatory searches in the order of the text. Each
    satisfying assignment is among the results if the operators are reflexive or its matches are pairwise different. This holds for any
    order of operators and any decision of the optimizer, with and without parallel joins *)
Theorem C73_alternatives_partial {Op : Type} (sat : spec → match_ → Prop) bop uop (E : engine spec aql_bop aql_uop Op) parallel loop_buffer index_buffer outer_left switch simplify text e alts out :
  let lits := get_alternatives_from_dnf (simplify e) in
  engine_ok sat bop uop E lits → few_annotation_keys sat lits → 0 < loop_buffer → 0 < index_buffer → simplifies simplify →
  parse_aql text = Parsed e → distinct_names (QuerySpec.terminals e) →
  (∀ c, c ∈ lits → ∃ s sp var, node_at c s (sp, var, false)) →
  (∀ i c off, lits !! i = Some c → offset_of lits i off → unary_mandatory off c) →
  (∀ c, c ∈ lits → no_optional c) ∨ length lits = 1 →
  answers E parallel loop_buffer index_buffer outer_left switch lits alts out →
  no_error out ∧ NoDup (oks out) ∧
  (∀ g, g ∈ oks out → ∃ i c off, lits !! i = Some c ∧ offset_of lits i off ∧ alternative_result sat bop uop off c g) ∧
  (∀ i c off g, lits !! i = Some c → offset_of lits i off → alternative_result sat bop uop off c g → all_reflexive E c ∨ NoDup g → g ∈ oks out).
Proof. exact (text_answers sat bop uop E parallel loop_buffer index_buffer outer_left switch simplify text e alts out). Qed.
(** If searches are not referred to by number, a result of the query is a list of matches that satisfy the expression of the text, and
    matches that satisfy it are among the results for one of the alternatives *)
Theorem C73_query_partial {Op : Type} (sat : spec → match_ → Prop) bop uop (E : engine spec aql_bop aql_uop Op) parallel loop_buffer index_buffer outer_left switch simplify text e alts out :
  let lits := get_alternatives_from_dnf (simplify e) in
  engine_ok sat bop uop E lits → few_annotation_keys sat lits → 0 < loop_buffer → 0 < index_buffer → simplifies simplify →
  parse_aql text = Parsed e → distinct_names (QuerySpec.terminals e) → (∀ l, l ∈ QuerySpec.terminals e → no_numbers l) →
  (∀ c, c ∈ lits → ∃ s sp var, node_at c s (sp, var, false)) →
  (∀ i c off, lits !! i = Some c → offset_of lits i off → unary_mandatory off c) →
  (∀ c, c ∈ lits → no_optional c) ∨ length lits = 1 →
  answers E parallel loop_buffer index_buffer outer_left switch lits alts out →
  (∀ g, g ∈ oks out → ∃ env c starts, holds (literal_holds sat bop uop 0 (QuerySpec.terminals e) env) e ∧ c ∈ lits ∧ found_positions c starts ∧ g = env <$> starts) ∧
  (∀ env, holds (literal_holds sat bop uop 0 (QuerySpec.terminals e) env) e →
    ∃ c starts, c ∈ lits ∧ found_positions c starts ∧ (all_reflexive E c ∨ NoDup (env <$> starts) → env <$> starts ∈ oks out)).
Proof. exact (text_query sat bop uop E parallel loop_buffer index_buffer outer_left switch simplify text e alts out). Qed.
(** There is such an answer for each query with connected alternatives, for all orders of the operators and decisions of the optimizer *)
Theorem C73_answered {Op : Type} (sat : spec → match_ → Prop) bop uop (E : engine spec aql_bop aql_uop Op) parallel loop_buffer index_buffer outer_left switch simplify text e qs orders :
  let lits := get_alternatives_from_dnf (simplify e) in
  engine_ok sat bop uop E lits → few_annotation_keys sat lits → 0 < loop_buffer → 0 < index_buffer → simplifies simplify →
  parse_aql text = Parsed e → distinct_names (QuerySpec.terminals e) →
  (∀ c, c ∈ lits → ∃ s sp var, node_at c s (sp, var, false)) →
  (∀ i c off, lits !! i = Some c → offset_of lits i off → unary_mandatory off c) →
  map_alternatives 0 lits = Some qs → (∀ q, q ∈ qs → check_components_connected (compile E q) = None) →
  (∀ i q, qs !! i = Some q → orders i ≡ₚ seq 0 (length (c_binary q))) →
  ∃ alts out, answers E parallel loop_buffer index_buffer outer_left switch lits alts out.
Proof. exact (text_answered sat bop uop E parallel loop_buffer index_buffer outer_left switch simplify text e qs orders). Qed.

(** ** Examples *)
(** A corpus with three tokens in a row *)
Definition token (n : N) : match_ := (n, AnnoKey (str "tok") (str "annis")).
Definition tokens_of (sp : spec) : list match_ := match sp with SAnyTok => [token 1; token 2; token 3] | _ => [] end.
Definition row_op (o : aql_bop) (x y : match_) : bool := match o with BPrecedence _ _ => (x.1 + 1 =? y.1)%N | _ => false end.
Definition row_sat (sp : spec) (m : match_) : Prop := m ∈ tokens_of sp.
Definition row_bop (o : aql_bop) (x y : match_) : Prop := row_op o x y = true.
Definition row_uop (o : aql_uop) (x : match_) : Prop := False.
Definition row_engine : engine spec aql_bop aql_uop (aql_bop * bool) :=
  Engine (λ sp, Some (Conjunction.Search ((λ m, IOk [m]) <$> tokens_of sp) (λ n, snd <$> filter (λ m, m.1 = n) (tokens_of sp)) [] None))
    (λ u m, Some match u with
                 | UOp _ => false
                 | UNonExisting o target is_left => negb (existsb (λ y, if is_left : bool then row_op o y m else row_op o m y) (tokens_of target))
                 end)
    id (λ o, negb o.2)
    (λ o x y, Some (if o.2 : bool then negb (row_op o.1 x y) else row_op o.1 x y)) (λ _, false) (λ _, None) (λ _, None).
Example row_engine_ok lits : engine_ok row_sat row_bop row_uop row_engine lits ∧ few_annotation_keys row_sat lits.
Proof.
  split.
  - constructor.
    + intros o a b H. discriminate.
    + intros o n x y _. unfold row_bop. destruct n; cbn; destruct (row_op o x y); split; intros H; try done; by destruct H.
    + intros o o' H. discriminate.
    + intros sp _. eexists. split; [reflexivity|]. split.
      * exists (tokens_of sp). split_and!; [done|intros f m H; inversion H| |intros o f _ H; discriminate]. intros n k. cbn. split.
        -- intros H. exists k. split_and!; [|constructor|done]. apply elem_of_list_fmap. exists (n, k). split; [done|]. by apply elem_of_list_filter.
        -- intros (k' & H & _ & ->). apply elem_of_list_fmap in H as ([n' k''] & -> & H). apply elem_of_list_filter in H as [<- H]. exact H.
      * intros m. cbn. rewrite elem_of_list_fmap. split; [intros (m' & [= ->] & H); exact H|intros H; eauto].
    + intros u m _. split; [intros H; discriminate|]. destruct u as [o|o target is_left]; cbn; [split; [intros H; discriminate|intros []]|].
      unfold row_sat, row_bop. destruct (existsb (λ y, if is_left then row_op o y m else row_op o m y) (tokens_of target)) eqn:Ex; cbn.
      * split; [intros H; discriminate|]. intros H. destruct H. apply existsb_exists in Ex as (y & Hy & Ho). exists y. split; [by apply elem_of_list_In|]. by destruct is_left.
      * split; [intros _|done]. intros (y & Hy & Ho). apply not_true_iff_false in Ex. apply Ex, existsb_exists. exists y. split; [by apply elem_of_list_In|]. by destruct is_left.
  - exists [AnnoKey [] []; AnnoKey (str "tok") (str "annis")]. split_and!; [vm_compute; discriminate|left|]. intros sp m _ H. destruct sp; try by inversion H. cbn in H.
    repeat (apply elem_of_cons in H as [-> |H]; [right; left|]). inversion H.
Qed.
(** Two alternatives *)
Definition pairs_or_tokens : bytes := str "x#tok & y#tok & #x . #y | z#tok".
Definition pairs_or_tokens_expr : aql_expr :=
  Or (And (And (Terminal (LNode SAnyTok 0 (Some (str "x")) false)) (Terminal (LNode SAnyTok 8 (Some (str "y")) false)))
          (Terminal (LBin (ORef (Name (str "x"))) (BPrecedence None (RBound 1 1)) (ORef (Name (str "y"))) false)))
     (Terminal (LNode SAnyTok 26 (Some (str "z")) false)).
Definition first_alternative : list aql_literal :=
  [LNode SAnyTok 0 (Some (str "x")) false; LNode SAnyTok 8 (Some (str "y")) false; LBin (ORef (Name (str "x"))) (BPrecedence None (RBound 1 1)) (ORef (Name (str "y"))) false].
Definition second_alternative : list aql_literal := [LNode SAnyTok 26 (Some (str "z")) false].
Example pairs_parsed : parse_aql pairs_or_tokens = Parsed pairs_or_tokens_expr.
Proof. vm_compute. reflexivity. Qed.
Example pairs_alternatives : get_alternatives_from_dnf (normalize pairs_or_tokens_expr) = [first_alternative; second_alternative].
Proof. vm_compute. reflexivity. Qed.
Lemma pairs_nodes s e : node_at (QuerySpec.terminals pairs_or_tokens_expr) s e →
  (s = 0 ∧ e = (SAnyTok, Some (str "x"), false)) ∨ (s = 8 ∧ e = (SAnyTok, Some (str "y"), false)) ∨ (s = 26 ∧ e = (SAnyTok, Some (str "z"), false)).
Proof.
  intros (l & Hl & Hn). cbn in Hl. repeat (apply elem_of_cons in Hl as [-> |Hl]; [cbn in Hn; tauto|]). inversion Hl.
Qed.
Lemma first_nodes s e : node_at first_alternative s e ↔ (s = 0 ∧ e = (SAnyTok, Some (str "x"), false)) ∨ (s = 8 ∧ e = (SAnyTok, Some (str "y"), false)).
Proof.
  split.
  - intros (l & Hl & Hn). unfold first_alternative in Hl. repeat (apply elem_of_cons in Hl as [-> |Hl]; [cbn in Hn; tauto|]). inversion Hl.
  - intros [[-> ->]|[-> ->]]; [exists (LNode SAnyTok 0 (Some (str "x")) false)|exists (LNode SAnyTok 8 (Some (str "y")) false)]; (split; [|by cbn]); [left|right; left].
Qed.
Lemma second_nodes s e : node_at second_alternative s e ↔ s = 26 ∧ e = (SAnyTok, Some (str "z"), false).
Proof.
  split.
  - intros (l & Hl & Hn). apply elem_of_list_singleton in Hl as ->. exact Hn.
  - intros [-> ->]. exists (LNode SAnyTok 26 (Some (str "z")) false). split; [left|by cbn].
Qed.
Example pairs_hypotheses : let lits := get_alternatives_from_dnf (normalize pairs_or_tokens_expr) in
  distinct_names (QuerySpec.terminals pairs_or_tokens_expr) ∧ (∀ l, l ∈ QuerySpec.terminals pairs_or_tokens_expr → no_numbers l) ∧
  (∀ c, c ∈ lits → ∃ s sp var, node_at c s (sp, var, false)) ∧ (∀ i c off, lits !! i = Some c → offset_of lits i off → unary_mandatory off c) ∧
  (∀ c, c ∈ lits → no_optional c).
Proof.
  cbv zeta. rewrite pairs_alternatives. split_and!.
  - intros s s' sp sp' o o' n H1%pairs_nodes H2%pairs_nodes.
    assert (str "x" ≠ str "y" ∧ str "x" ≠ str "z" ∧ str "y" ≠ str "z") as (N1 & N2 & N3) by (split_and!; vm_compute; discriminate).
    destruct H1 as [[-> H1]|[[-> H1]|[-> H1]]], H2 as [[-> H2]|[[-> H2]|[-> H2]]]; congruence.
  - intros l Hl. cbn in Hl. repeat (apply elem_of_cons in Hl as [-> |Hl]; [cbn; try done; split; intros k; discriminate|]). inversion Hl.
  - intros c Hc. apply elem_of_cons in Hc as [-> |Hc]; [exists 0, SAnyTok, (Some (str "x")); apply first_nodes; auto|]. apply elem_of_list_singleton in Hc as ->.
    exists 26, SAnyTok, (Some (str "z")). by apply second_nodes.
  - intros i c off Hi _ v o s e Hl. apply elem_of_list_lookup_2 in Hi. apply elem_of_cons in Hi as [-> |Hi]; [|apply elem_of_list_singleton in Hi as ->];
      repeat (apply elem_of_cons in Hl as [Hl|Hl]; [discriminate|]); inversion Hl.
  - intros c Hc s e Ha. apply elem_of_cons in Hc as [-> |Hc]; [apply first_nodes in Ha as [[_ ->]|[_ ->]]; done|]. apply elem_of_list_singleton in Hc as ->. by apply second_nodes in Ha as [_ ->].
Qed.
Lemma first_positions starts : found_positions first_alternative starts → starts = [0; 8].
Proof.
  intros [H1 H2]. apply (RelAnnisMaps.strict_sorted_ext lt); [intros x; lia|intros x y z; lia|done|repeat constructor|]. intros x. rewrite H2. setoid_rewrite first_nodes. rewrite !elem_of_cons, elem_of_nil. split.
  - intros (sp & var & [[-> _]|[-> _]]); auto.
  - intros [-> |[-> |[]]]; eauto 8.
Qed.
Lemma second_positions starts : found_positions second_alternative starts → starts = [26].
Proof.
  intros [H1 H2]. apply (RelAnnisMaps.strict_sorted_ext lt); [intros x; lia|intros x y z; lia|done|repeat constructor|]. intros x. rewrite H2. setoid_rewrite second_nodes. rewrite !elem_of_cons, elem_of_nil. split.
  - intros (sp & var & -> & _). auto.
  - intros [-> |[]]. eauto.
Qed.
(** The results are the pairs of neighbours and the single tokens *)

Example pairs_answered parallel outer_left switch : ∃ alts out,
  answers row_engine parallel 1 1 outer_left switch (get_alternatives_from_dnf (normalize pairs_or_tokens_expr)) alts out ∧
  ∀ g, g ∈ oks out ↔ g ∈ [[token 1; token 2]; [token 2; token 3]; [token 1]; [token 2]; [token 3]].
Proof.
  destruct (row_engine_ok (get_alternatives_from_dnf (normalize pairs_or_tokens_expr))) as [HE HK]. destruct pairs_hypotheses as (Hd & Hn & Hm & Hu & Ho).
  assert (∃ qs, map_alternatives 0 (get_alternatives_from_dnf (normalize pairs_or_tokens_expr)) = Some qs ∧ forallb (λ q, match check_components_connected (compile row_engine q) with None => true | _ => false end) qs = true ∧
    length <$> (c_binary <$> qs) = [1; 0]) as (qs & Hqs & Hc & Hb).
  { eexists. split; [reflexivity|]. split; vm_compute; reflexivity. }
  destruct (C73_answered row_sat row_bop row_uop row_engine parallel 1 1 outer_left switch normalize pairs_or_tokens pairs_or_tokens_expr qs (λ i, seq 0 (1 - i))) as (alts & out & Ha); [done|done|lia|lia|apply normalize_ok|exact pairs_parsed|done|done|done|done| | |].
  { intros q Hq. apply elem_of_list_In in Hq. rewrite forallb_forall in Hc. specialize (Hc q Hq). by destruct (check_components_connected (compile row_engine q)). }
  { intros i q Hi. assert ((length <$> (c_binary <$> qs)) !! i = Some (length (c_binary q))) as H by (rewrite !list_lookup_fmap, Hi; done). rewrite Hb in H. destruct i as [|[|i]]; cbn in H; [injection H as H; rewrite <- H; done..|discriminate]. }
  exists alts, out. split; [done|].
  destruct (C73_query_partial row_sat row_bop row_uop row_engine parallel 1 1 outer_left switch normalize pairs_or_tokens pairs_or_tokens_expr alts out) as [S C]; [done|done|lia|lia|apply normalize_ok|exact pairs_parsed|done|done|done|done|by left|done|].
  destruct (C73_alternatives_partial row_sat row_bop row_uop row_engine parallel 1 1 outer_left switch normalize pairs_or_tokens pairs_or_tokens_expr alts out) as (_ & _ & S' & C'); [done|done|lia|lia|apply normalize_ok|exact pairs_parsed|done|done|done|by left|done|].
  rewrite pairs_alternatives in S, C, S', C'.
  intros g. split.
  - intros Hg. destruct (S' g Hg) as (i & c & off & Hi & _ & env & starts & Hlit & Hfp & ->). destruct i as [|[|i]]; cbn in Hi; [| |done]; injection Hi as <-.
    + apply first_positions in Hfp as ->. cbn [fmap list_fmap].
      destruct (Hlit (LBin (ORef (Name (str "x"))) (BPrecedence None (RBound 1 1)) (ORef (Name (str "y"))) false)) as [_ (sl & el & sr & er & (spl & o_l & Rl) & _ & (spr & o_r & Rr) & _ & Hop)]; [right; right; left|].
      destruct (Hlit (LNode SAnyTok 0 (Some (str "x")) false)) as [Fx _]; [left|]. destruct (Hlit (LNode SAnyTok 8 (Some (str "y")) false)) as [Fy _]; [right; left|].
      destruct (Fx 0 (SAnyTok, Some (str "x"), false)) as [?|Hx]; [by cbn|done|]. destruct (Fy 8 (SAnyTok, Some (str "y"), false)) as [?|Hy]; [by cbn|done|].
      assert (sl = 0) as -> by (apply first_nodes in Rl as [[-> _]|[_ [=]]]; done). assert (sr = 8) as -> by (apply first_nodes in Rr as [[_ [=]]|[-> _]]; done).
      assert (row_bop (BPrecedence None (RBound 1 1)) (env 0) (env 8)) as Hp by (unfold operator_holds in Hop; destruct (el.2), (er.2); try done). clear Hop.
      unfold row_sat, tokens_of in Hx, Hy. cbn in Hx, Hy. rewrite !elem_of_cons, elem_of_nil in Hx. rewrite !elem_of_cons, elem_of_nil in Hy. rewrite !elem_of_cons, elem_of_nil.
      destruct Hx as [Ex|[Ex|[Ex|[]]]], Hy as [Ey|[Ey|[Ey|[]]]]; rewrite Ex, Ey in Hp |- *; try discriminate Hp; auto 10.
    + apply second_positions in Hfp as ->. cbn [fmap list_fmap]. destruct (Hlit (LNode SAnyTok 26 (Some (str "z")) false)) as [Fz _]; [left|].
      destruct (Fz 26 (SAnyTok, Some (str "z"), false)) as [?|Hz]; [by cbn|done|]. unfold row_sat, tokens_of in Hz. cbn in Hz. rewrite !elem_of_cons, elem_of_nil in Hz. rewrite !elem_of_cons, elem_of_nil.
      destruct Hz as [Ez|[Ez|[Ez|[]]]]; rewrite Ez; auto 10.
  - assert (offset_of [first_alternative; second_alternative] 0 0) as O0 by (exists []; split; [constructor|done]).
    assert (offset_of [first_alternative; second_alternative] 1 2) as O1.
    { exists [[0; 8]]. split; [|done]. constructor; [|constructor]. split; [repeat constructor|]. intros s. setoid_rewrite first_nodes. rewrite !elem_of_cons, elem_of_nil. naive_solver. }
    assert (found_positions first_alternative [0; 8]) as P0.
    { split; [repeat constructor|]. intros s. setoid_rewrite first_nodes. rewrite !elem_of_cons, elem_of_nil. naive_solver. }
    assert (found_positions second_alternative [26]) as P1.
    { split; [repeat constructor|]. intros s. setoid_rewrite second_nodes. rewrite elem_of_list_singleton. naive_solver. }
    assert (∀ x y, x ∈ tokens_of SAnyTok → y ∈ tokens_of SAnyTok → row_op (BPrecedence None (RBound 1 1)) x y = true → [x; y] ∈ oks out) as Hpair.
    { intros x y Hx Hy Hp. eapply (C' 0 first_alternative 0); [done|exact O0| |right].
      - exists (λ s, if decide (s = 0) then x else y), [0; 8]. split_and!; [|done|done]. intros l Hl. unfold first_alternative in Hl.
        apply elem_of_cons in Hl as [-> |Hl]; [split; [intros s e [-> ->]; right; exact Hx|done]|]. apply elem_of_cons in Hl as [-> |Hl]; [split; [intros s e [-> ->]; right; exact Hy|done]|].
        apply elem_of_list_singleton in Hl as ->. split; [intros s e [[]|[]]|]. exists 0, (SAnyTok, Some (str "x"), false), 8, (SAnyTok, Some (str "y"), false).
        split_and!; [exists SAnyTok, false; apply first_nodes; auto|apply first_nodes; auto|exists SAnyTok, false; apply first_nodes; auto|apply first_nodes; auto|exact Hp].
      - apply NoDup_cons. split; [|apply NoDup_singleton]. intros Hin%elem_of_list_singleton. subst y. cbn in Hp. apply N.eqb_eq in Hp. lia. }
    assert (∀ x, x ∈ tokens_of SAnyTok → [x] ∈ oks out) as Hone.
    { intros x Hx. eapply (C' 1 second_alternative 2); [done|exact O1| |right; apply NoDup_singleton]. exists (λ _, x), [26]. split_and!; [|done|done].
      intros l Hl. apply elem_of_list_singleton in Hl as ->. split; [intros s e [-> ->]; right; exact Hx|done]. }
    assert (token 1 ∈ tokens_of SAnyTok ∧ token 2 ∈ tokens_of SAnyTok ∧ token 3 ∈ tokens_of SAnyTok) as (T1 & T2 & T3).
    { split_and!; [left|right; left|right; right; left]. }
    rewrite !elem_of_cons, elem_of_nil. intros [-> |[-> |[-> |[-> |[-> |[]]]]]]; [apply Hpair; done|apply Hpair; done|by apply Hone..].
Qed.
Print Assumptions C73_alternatives_partial.
Print Assumptions C73_query_partial.
Print Assumptions C73_answered.
