(** The tokens of a description have the description's meaning in the grammar *)
From Coq Require Import NArith String Lia.
From stdpp Require Import base list pretty.
From Verif Require Import KeySer KeySerSpec CompPath RelAnnis RelAnnisFiles NodeSearch TokenOps EdgeOps Query AqlLexer AqlLexerSpec AqlLexerProofs AqlTokens AqlGrammar AqlParser AqlParserProofs AqlParserRules AqlSpec AqlLayout AqlWords.
Set Default Proof Using "Type".

Notation fit ps ts := (length (ps : list nat) = length (ts : list token)).
Lemma zip_cut (ps : list nat) (a b : list token) : zip ps (a ++ b) = zip (take (length a) ps) a ++ zip (drop (length a) ps) b.
Proof. apply zip_with_app_r. Qed.
Lemma fit_take ps a b : fit ps (a ++ b) → fit (take (length a) ps) a.
Proof. rewrite app_length, take_length. lia. Qed.
Lemma fit_drop ps a b : fit ps (a ++ b) → fit (drop (length a) ps) b.
Proof. rewrite app_length, drop_length. lia. Qed.
Lemma fit_cons ps t a : fit ps (t :: a) → ∃ p ps', ps = p :: ps' ∧ fit ps' a.
Proof. destruct ps as [|p ps]; intros [=]; eauto. Qed.
Lemma fit_one ps (t : token) : fit ps [t] → ∃ p, ps = [p].
Proof. intros H. apply fit_cons in H as (p & ps' & -> & H). destruct ps'; [eauto|done]. Qed.
Lemma first_take n ps : n ≠ 0 → first (take n ps) = first ps.
Proof. destruct n, ps; done. Qed.
Ltac cut_in H := rewrite zip_cut; pose proof (fit_take _ _ _ H); apply fit_drop in H.

Lemma qualified_reads q ps : fit ps (qualified_toks q) → GQName (zip ps (qualified_toks q)) q.
Proof. destruct q as [[ns|] name]; cbn [qualified_toks]; intros H; [|apply fit_one in H as (p & ->); constructor]. apply fit_cons in H as (p & ps1 & -> & H). apply fit_cons in H as (p2 & ps2 & -> & H). apply fit_one in H as (p3 & ->). constructor. Qed.
Lemma equal_reads e ps : fit ps (equal_toks e) → GComparison (zip ps (equal_toks e)) e.
Proof. intros H. apply fit_one in H as (p & ->). destruct e; constructor. Qed.
Lemma value_reads v ps : fit ps [value_tok v] → GTextSearch (zip ps [value_tok v]) (value_pair v).
Proof. intros H. apply fit_one in H as (p & ->). destruct v; constructor. Qed.
Lemma anno_search_spec m q e v : anno_spec m q e (value_pair v) = anno_search m q e v.
Proof. by destruct v, e. Qed.
Lemma by_spec q e v : edge_spec q e (value_pair v) = by_meaning q e v.
Proof. by destruct v, e. Qed.
Lemma search_reads s ps : fit ps (search_toks s) → GNodeSearch (zip ps (search_toks s)) (search_meaning s).
Proof.
  destruct s as [| |e v|v|q e v|q]; cbn [search_toks]; intros H.
  - apply fit_one in H as (p & ->). constructor.
  - apply fit_one in H as (p & ->). constructor.
  - apply fit_cons in H as (p & ps' & -> & H). cbn [zip_with]. cut_in H. assert (search_meaning (FindTokValue e v) = tok_spec e (value_pair v)) as -> by (by destruct v, e). apply g_tok; [by apply equal_reads|by apply value_reads].
  - assert (search_meaning (FindValue v) = span_spec (value_pair v)) as -> by (by destruct v). by apply g_span, value_reads.
  - cut_in H. cut_in H. cbn [search_meaning]. rewrite <- anno_search_spec. apply g_anno; [by apply qualified_reads|by apply equal_reads|by apply value_reads].
  - by apply g_anno_name, qualified_reads.
Qed.
Lemma search_toks_nonempty s : search_toks s ≠ [].
Proof. by destruct s as [| |e v|v|[[ns|] name] e v|[[ns|] name]]. Qed.
Lemma node_toks_nonempty n : node_toks n ≠ [].
Proof. unfold node_toks. pose proof (search_toks_nonempty (n_search n)). destruct (n_var n), (search_toks (n_search n)); done. Qed.
Lemma zip_first ps t (ts : list token) : fit ps (t :: ts) → ∃ ts', zip ps (t :: ts) = (first ps, t) :: ts'.
Proof. intros H. apply fit_cons in H as (p & ps' & -> & H). cbn. eauto. Qed.
Lemma node_reads n ps : fit ps (node_toks n) → GNode (zip ps (node_toks n)) (first ps, search_meaning (n_search n), n_var n, n_optional n).
Proof.
  intros H. pose proof (node_toks_nonempty n) as Hne. assert (∃ t ts', zip ps (node_toks n) = (first ps, t) :: ts') as (t & ts' & E).
  { destruct (node_toks n) as [|t ts] eqn:E; [done|]. exists t. by apply zip_first. }
  unfold node_toks in *. rewrite zip_cut in E |- *. pose proof (fit_take _ _ _ H). apply fit_drop in H. rewrite zip_cut in E |- *. pose proof (fit_take _ _ _ H). apply fit_drop in H.
  eapply g_node; [..|exact E].
  - destruct (n_var n) as [v|]; [|by left]. right. apply fit_one in H0 as (p & ->). by exists p, v.
  - by apply search_reads.
  - destruct (n_optional n); [|by left; rewrite zip_with_nil_r]. right. apply fit_one in H as (p & E'). rewrite E'. by exists p.
Qed.
Lemma reference_reads r ps : reference_ok r → fit ps [reference_tok r] → GNodeRef (zip ps [reference_tok r]) (reference_meaning r).
Proof.
  intros Hr H. apply fit_one in H as (p & ->). destruct r as [n|s]; [|constructor]. destruct (number_word_spec n Hr) as (_ & _ & E & _). cbn. rewrite <- E at 2. constructor.
Qed.
Lemma term_reads t ps : term_ok t → fit ps (term_toks t) → GOperand (zip ps (term_toks t)) (term_meaning ps t).
Proof. destruct t as [r|n]; cbn [term_toks term_meaning]; intros Ht H; [by apply g_operand_ref, reference_reads|by apply g_operand_node, node_reads]. Qed.
Lemma number_value n : number_ok n → usize_or_zero (number_word n) = n.
Proof. intros H. destruct (number_word_spec n H) as (_ & _ & _ & E). unfold usize_or_zero. by rewrite E. Qed.
Lemma distance_reads d ps : distance_ok d → d ≠ Direct → fit ps (distance_toks d) → GRange (zip ps (distance_toks d)) (distance_meaning d).
Proof.
  assert (∀ c (qs : list nat), length qs = length (comma_toks c) → zip qs (comma_toks c) = [] ∨ ∃ o, zip qs (comma_toks c) = [(o, TComma)]) as Hc.
  { intros [] qs Hq; [apply fit_one in Hq as (o & ->); right; by exists o|left; by destruct qs]. }
  destruct d as [| |c n|c a b]; cbn [distance_ok distance_toks distance_meaning]; intros Hd Hne H; [done|..].
  - apply fit_one in H as (p & ->). constructor.
  - cut_in H. apply fit_one in H as (p & E). rewrite E. rewrite <- (number_value n Hd) at 2 3. apply g_exactly. by apply Hc.
  - cut_in H. apply fit_cons in H as (p & ps1 & E & H). apply fit_cons in H as (p2 & ps2 & -> & H). apply fit_one in H as (p3 & ->). rewrite E. destruct Hd as [Ha Hb]. rewrite <- (number_value a Ha) at 2. rewrite <- (number_value b Hb) at 2. apply g_min_max. by apply Hc.
Qed.
Lemma opt_distance_reads d ps : distance_ok d → fit ps (distance_toks d) → GOptRange (zip ps (distance_toks d)) (distance_meaning d).
Proof. intros Hd H. assert (d = Direct ∨ d ≠ Direct) as [-> |Hne] by (destruct d; auto); [destruct ps; [constructor|done]|]. by apply g_range, distance_reads. Qed.
Lemma by_reads q e v ps : fit ps (by_toks q e v) → GEdgeAnno (zip ps (by_toks q e v)) (by_meaning q e v).
Proof.
  intros H. unfold by_toks in *. apply fit_cons in H as (p & ps1 & -> & H). cbn [zip_with]. cut_in H. cut_in H. cut_in H. apply fit_one in H as (p' & ->). rewrite <- by_spec. apply g_edge_anno; [by apply qualified_reads|by apply equal_reads|by apply value_reads].
Qed.
Lemma name_nonempty s : name_ok s → s ≠ [].
Proof. intros H ->. apply id_matches in H. discriminate. Qed.
Lemma operator_reads o ps : operator_ok o → fit ps (operator_toks o) → GBinaryOp (zip ps (operator_toks o)) (operator_meaning o).
Proof.
  assert (∀ seg, match seg with Some s => name_ok s | None => True end → seg = segmentation (default [] seg)) as Hseg.
  { intros [s|]; [|done]. intros H%name_nonempty. by destruct s. }
  destruct o as [name d|name q eq v|name d|name q eq v|seg d|seg d|d| | | | | |]; cbn [operator_ok operator_toks operator_meaning]; intros Ho H; apply fit_cons in H as (p & ps1 & -> & H); cbn [zip_with].
  - destruct Ho. by apply g_dom, opt_distance_reads.
  - by apply g_dom_anno, by_reads.
  - destruct Ho. by apply g_point, opt_distance_reads.
  - by apply g_point_anno, by_reads.
  - destruct Ho as [Hs Hd]. rewrite (Hseg _ Hs) at 2. by apply g_prec, opt_distance_reads.
  - destruct Ho as [Hs Hd]. rewrite (Hseg _ Hs) at 2. by apply g_near, opt_distance_reads.
  - by apply g_part_of, opt_distance_reads.
  - destruct ps1; [constructor|done].
  - destruct ps1; [constructor|done].
  - destruct ps1; [constructor|done].
  - destruct ps1; [constructor|done].
  - destruct ps1; [constructor|done].
  - destruct ps1; [constructor|done].
Qed.
Lemma negation_reads b ps : fit ps (negation_toks b) → GNeg (zip ps (negation_toks b)) b.
Proof. intros H. destruct b; [|left; by destruct ps]. apply fit_one in H as (p & ->). right. eauto. Qed.
Lemma operator_length b o : operator_ok o → length (negation_words b ++ operator_words o) = length (negation_toks b ++ operator_toks o).
Proof. intros H. rewrite !app_length, (Forall2_length _ _ _ (operator_read _ H)). by destruct b. Qed.
Lemma chain_reads l : ∀ s ts1 ps lhs before, Forall step_ok (s :: l) → fit ps (concat (step_toks <$> s :: l)) →
  match before with Some e => GChain ts1 e lhs | None => GOperand ts1 lhs end →
  ∃ last, GChain (ts1 ++ zip ps (concat (step_toks <$> s :: l))) (chain_meaning ps lhs s l before) last.
Proof.
  induction l as [|s' l IH]; intros s ts1 ps lhs before Hok H Hb; apply Forall_cons in Hok as [Hs Hl]; change (concat (step_toks <$> s :: ?x)) with (step_toks s ++ concat (step_toks <$> x)) in *; pose proof Hs as [Ho Ht].
  - rewrite fmap_nil in *. cbn [concat] in *. rewrite app_nil_r in *. cbn [chain_meaning]. rewrite operator_length by done. unfold step_toks in *. rewrite (assoc_L (++)) in H |- *. pose proof (fit_take _ _ _ H) as H1. rewrite zip_cut. apply fit_drop in H. rewrite zip_cut. pose proof (fit_take _ _ _ H1) as H2. apply fit_drop in H1. rewrite <- (assoc_L (++)).
    exists (term_meaning (drop (length (negation_toks s.1.1 ++ operator_toks s.1.2)) ps) s.2). destruct before as [e|]; [apply g_chain_more|apply g_chain]; first [done|by apply negation_reads|by apply operator_reads|by apply term_reads].
  - rewrite zip_cut. pose proof (fit_take _ _ _ H) as H1. apply fit_drop in H. rewrite (assoc_L (++)). cbn [chain_meaning]. rewrite (Forall2_length _ _ _ (step_read _ Hs)). apply IH; [done|done|]. rewrite operator_length by done.
    unfold step_toks in H1 |- *. rewrite (assoc_L (++)) in H1 |- *. set (n := length ((negation_toks s.1.1 ++ operator_toks s.1.2) ++ term_toks s.2)) in H1 |- *. rewrite zip_cut. pose proof (fit_take _ _ _ H1) as H2. apply fit_drop in H1. rewrite zip_cut. pose proof (fit_take _ _ _ H2) as H3. apply fit_drop in H2. rewrite <- (assoc_L (++)).
    assert (term_meaning (drop (length (negation_toks s.1.1 ++ operator_toks s.1.2)) ps) s.2 = term_meaning (drop (length (negation_toks s.1.1 ++ operator_toks s.1.2)) (take n ps)) s.2) as ->.
    { destruct (s.2) as [r|nd] eqn:E; [done|]. cbn [term_meaning]. f_equal. rewrite skipn_firstn_comm, first_take; [done|]. unfold n. rewrite !app_length. cbn [term_toks]. pose proof (node_toks_nonempty nd). destruct (node_toks nd); [done|]. cbn. lia. }
    destruct before as [e|]; [apply g_chain_more|apply g_chain]; first [done|by apply negation_reads|by apply operator_reads|by apply term_reads].
Qed.
Lemma compare_reads l : ∀ s ts1 ps lhs before, Forall (λ s : bool * reference, reference_ok s.2) (s :: l) → fit ps (concat (compare_toks <$> s :: l)) →
  match before with Some e => GFilter ts1 e lhs | None => GNodeRef ts1 lhs end →
  ∃ last, GFilter (ts1 ++ zip ps (concat (compare_toks <$> s :: l))) (compare_meaning lhs s l before) last.
Proof.
  induction l as [|s' l IH]; intros s ts1 ps lhs before Hok H Hb; apply Forall_cons in Hok as [Hs Hl]; change (concat (compare_toks <$> s :: ?x)) with (compare_toks s ++ concat (compare_toks <$> x)) in *.
  - rewrite fmap_nil in *. cbn [concat] in *. rewrite app_nil_r in *. apply fit_cons in H as (p & ps1 & -> & H). exists (reference_meaning s.2). cbn [compare_meaning]. change (zip (p :: ps1) (compare_toks s)) with ([(p, if s.1 then TEqEq else TNotEq)] ++ zip ps1 [reference_tok s.2]).
    assert (GFilterOp [(p, if s.1 then TEqEq else TNotEq)] (BCompare s.1)) by (destruct (s.1); constructor).
    destruct before as [e|]; [apply g_filter_more|apply g_filter]; first [done|by apply reference_reads].
  - rewrite zip_cut. pose proof (fit_take _ _ _ H) as H1. apply fit_drop in H. rewrite (assoc_L (++)). cbn [compare_meaning]. apply IH; [done|done|]. apply fit_cons in H1 as (p & ps1 & -> & H1). change (zip (p :: ps1) (compare_toks s)) with ([(p, if s.1 then TEqEq else TNotEq)] ++ zip ps1 [reference_tok s.2]).
    assert (GFilterOp [(p, if s.1 then TEqEq else TNotEq)] (BCompare s.1)) by (destruct (s.1); constructor).
    destruct before as [e|]; [apply g_filter_more|apply g_filter]; first [done|by apply reference_reads].
Qed.
Lemma term_toks_nonempty t : length (term_toks t) ≠ 0.
Proof. destruct t as [r|n]; [done|]. cbn. pose proof (node_toks_nonempty n). by destruct (node_toks n). Qed.
Lemma part_reads p ps : part_ok p → fit ps (part_toks p) → GLiteral (zip ps (part_toks p)) (part_meaning ps p).
Proof.
  destruct p as [n|t s l|r s l|r d|q eq v]; cbn [part_ok part_toks part_meaning]; intros Hp H.
  - by apply g_search, node_reads.
  - destruct Hp as [Ht Hl]. cut_in H. rewrite (Forall2_length _ _ _ (term_read _ Ht)).
    assert (term_meaning ps t = term_meaning (take (length (term_toks t)) ps) t) as -> by (destruct t as [r|n]; [done|]; cbn [term_meaning]; f_equal; symmetry; apply first_take, (term_toks_nonempty (TermNode n))).
    edestruct (chain_reads l s (zip (take (length (term_toks t)) ps) (term_toks t)) (drop (length (term_toks t)) ps) (term_meaning (take (length (term_toks t)) ps) t) None Hl H) as (last & Hc); [by apply term_reads|]. by eapply g_binary.
  - destruct Hp as [Ht Hl]. cut_in H. edestruct (compare_reads l s (zip (take (length [reference_tok r]) ps) [reference_tok r]) _ (reference_meaning r) None Hl H) as (last & Hc); [by apply reference_reads|]. by eapply g_binary_filter.
  - destruct Hp as (Hr & Hd & Hne). cut_in H. apply fit_cons in H as (p & ps1 & E & H). rewrite E. apply fit_cons in H as (p2 & ps2 & -> & H). apply g_unary; [by apply reference_reads|by apply distance_reads].
  - destruct Hp as [Hq Hv]. apply fit_cons in H as (p & ps1 & -> & H). cbn [zip_with]. cut_in H. cut_in H. rewrite <- anno_search_spec. apply g_meta; [by apply qualified_reads|by apply equal_reads|by apply value_reads].
Qed.

(** ** Meanings depend on the positions of the words only *)
Lemma term_meaning_app t ps qs : length ps = length (term_words t) → term_ok t → term_meaning (ps ++ qs) t = term_meaning ps t.
Proof.
  intros H Ht. destruct t as [r|n]; [done|]. cbn [term_meaning]. f_equal. pose proof (term_toks_nonempty (TermNode n)). rewrite <- (Forall2_length _ _ _ (term_read _ Ht)) in H0. destruct ps; [done|done].
Qed.
Lemma chain_meaning_app l : ∀ s ps qs lhs before, Forall step_ok (s :: l) → length ps = length (concat (step_words <$> s :: l)) → chain_meaning (ps ++ qs) lhs s l before = chain_meaning ps lhs s l before.
Proof.
  induction l as [|s' l IH]; intros s ps qs lhs before Hok H; apply Forall_cons in Hok as [Hs Hl]; change (concat (step_words <$> s :: ?x)) with (step_words s ++ concat (step_words <$> x)) in *; rewrite app_length in H; cbn [chain_meaning];
    assert (length (step_words s) = length (negation_words s.1.1 ++ operator_words s.1.2) + length (term_words s.2)) as E by (unfold step_words; rewrite (assoc_L (++)); apply app_length).
  - cbn in H. rewrite drop_app_le by lia. rewrite term_meaning_app; [done|rewrite drop_length; lia|by destruct Hs].
  - rewrite (drop_app_le ps qs (length (step_words s))) by lia. rewrite IH; [|done|rewrite drop_length; lia].
    assert (term_meaning (drop (length (negation_words s.1.1 ++ operator_words s.1.2)) (ps ++ qs)) s.2 = term_meaning (drop (length (negation_words s.1.1 ++ operator_words s.1.2)) ps) s.2) as ->; [|done].
    rewrite drop_app_le by lia. destruct Hs as [_ Ht]. destruct (s.2) as [r|n] eqn:En; [done|]. cbn [term_meaning]. f_equal. rewrite <- En in *.
    assert (length (term_words s.2) ≠ 0) by (rewrite (Forall2_length _ _ _ (term_read _ Ht)); apply term_toks_nonempty).
    destruct (drop _ ps) eqn:Ed; [|done]. apply (f_equal length) in Ed. rewrite drop_length in Ed. cbn in Ed. lia.
Qed.
Lemma part_meaning_app p ps qs : part_ok p → length ps = length (part_words p) → part_meaning (ps ++ qs) p = part_meaning ps p.
Proof.
  destruct p as [n|t s l|r s l|r d|q eq v]; cbn [part_ok part_words part_meaning]; intros Hp H; try done.
  - f_equal. f_equal. rewrite (Forall2_length _ _ _ (node_read _ Hp)) in H. pose proof (node_toks_nonempty n). destruct ps; [by destruct (node_toks n)|done].
  - destruct Hp as [Ht Hl]. rewrite app_length in H. rewrite drop_app_le by lia. rewrite chain_meaning_app; [|done|rewrite drop_length; lia]. f_equal. destruct t as [r|n]; [done|]. cbn [term_meaning]. f_equal.
    pose proof (term_toks_nonempty (TermNode n)) as Hne. rewrite <- (Forall2_length _ _ _ (term_read _ Ht)) in Hne. destruct ps; [cbn [length] in H; lia|done].
Qed.
Lemma meaning_app q : ∀ level ps qs, query_ok q → length ps = length (words level q) → meaning level (ps ++ qs) q = meaning level ps q.
Proof.
  induction q as [p|a IHa b IHb|a IHa b IHb]; intros level ps qs Hok H; cbn [words meaning] in *; [by apply part_meaning_app|..]; destruct Hok as [Ha Hb]; cbv zeta.
  - destruct (Nat.leb 2 level); cbn [in_parentheses] in H; repeat (rewrite app_length in H; cbn [length] in H); cbn [length] in H.
    + destruct ps as [|p ps]; [done|]. cbn [app drop length] in *. rewrite ?drop_0. repeat (rewrite app_length in H; cbn [length] in H). rewrite (drop_app_le ps qs) by lia. f_equal.
      * assert (ps = take (length (words 1 a)) ps ++ drop (length (words 1 a)) ps) as E by (by rewrite take_drop). rewrite E, <- (assoc_L (++)). rewrite !(IHa 1) by (done || rewrite take_length; lia). done.
      * set (r := drop _ ps). assert (r = take (length (words 2 b)) r ++ drop (length (words 2 b)) r) as E by (by rewrite take_drop). assert (length r = S (length (words 2 b))) by (unfold r; rewrite drop_length; lia). rewrite E, <- (assoc_L (++)). rewrite !(IHb 2) by (done || rewrite take_length; lia). done.
    + rewrite !drop_0. rewrite (drop_app_le ps qs) by lia. f_equal.
      * assert (ps = take (length (words 1 a)) ps ++ drop (length (words 1 a)) ps) as E by (by rewrite take_drop). rewrite E, <- (assoc_L (++)). rewrite !(IHa 1) by (done || rewrite take_length; lia). done.
      * apply IHb; [done|]. rewrite drop_length. lia.
  - destruct (Nat.leb 1 level); cbn [in_parentheses] in H; repeat (rewrite app_length in H; cbn [length] in H); cbn [length] in H.
    + destruct ps as [|p ps]; [done|]. cbn [app drop length] in *. rewrite ?drop_0. repeat (rewrite app_length in H; cbn [length] in H). rewrite (drop_app_le ps qs) by lia. f_equal.
      * assert (ps = take (length (words 0 a)) ps ++ drop (length (words 0 a)) ps) as E by (by rewrite take_drop). rewrite E, <- (assoc_L (++)). rewrite !(IHa 0) by (done || rewrite take_length; lia). done.
      * set (r := drop _ ps). assert (r = take (length (words 1 b)) r ++ drop (length (words 1 b)) r) as E by (by rewrite take_drop). assert (length r = S (length (words 1 b))) by (unfold r; rewrite drop_length; lia). rewrite E, <- (assoc_L (++)). rewrite !(IHb 1) by (done || rewrite take_length; lia). done.
    + rewrite !drop_0. rewrite (drop_app_le ps qs) by lia. f_equal.
      * assert (ps = take (length (words 0 a)) ps ++ drop (length (words 0 a)) ps) as E by (by rewrite take_drop). rewrite E, <- (assoc_L (++)). rewrite !(IHa 0) by (done || rewrite take_length; lia). done.
      * apply IHb; [done|]. rewrite drop_length. lia.
Qed.
Lemma words_length q level : query_ok q → length (words level q) = length (toks level q).
Proof. intros H. exact (Forall2_length _ _ _ (query_read q H level)). Qed.
Lemma query_reads q : query_ok q → ∀ level ps, fit ps (toks level q) →
  match level with 0 => GDisjunction | 1 => GConjunction | _ => GFactor end (zip ps (toks level q)) (meaning level ps q).
Proof.
  induction q as [p|a IHa b IHb|a IHa b IHb]; intros Hok level ps H.
  - assert (GFactor (zip ps (toks level (QPart p))) (meaning level ps (QPart p))) by (by apply g_literal, part_reads). destruct level as [|[|level]]; [by apply g_disjunction, g_conjunction|by apply g_conjunction|done].
  - destruct Hok as [Ha Hb]. assert (∀ ps, fit ps (toks 1 a ++ TAnd :: toks 2 b) → GConjunction (zip ps (toks 1 a ++ TAnd :: toks 2 b)) (And (meaning 1 ps a) (meaning 2 (drop (S (length (words 1 a))) ps) b))) as Hin.
    { clear H. intros qs H. rewrite words_length by done. cut_in H. set (n := length (toks 1 a)) in *. pose proof H as H'. apply fit_cons in H' as (p & ps1 & E & H'). rewrite E. cbn [zip_with].
      assert (meaning 1 qs a = meaning 1 (take n qs) a) as ->. { rewrite <- (take_drop n qs) at 1. apply meaning_app; [done|]. rewrite words_length by done. done. }
      assert (drop (S n) qs = ps1) as ->. { replace (S n) with (n + 1) by lia. by rewrite <- drop_drop, E. }
      apply g_and; [by apply (IHa Ha 1)|by apply (IHb Hb 2)]. }
    cbn [toks meaning] in *. destruct level as [|[|level]]; cbn [Nat.leb toks_in_parentheses] in *.
    + rewrite drop_0. by apply g_disjunction, Hin.
    + rewrite drop_0. by apply Hin.
    + apply fit_cons in H as (p & ps1 & -> & H). cbn [zip_with drop]. rewrite drop_0. rewrite zip_cut. pose proof (fit_take _ _ _ H) as H1. apply fit_drop in H. set (n := length (toks 1 a ++ _)) in *. apply fit_one in H as (p' & E). rewrite E. apply g_group, g_disjunction.
      pose proof (Hin _ H1) as Hd. revert Hd. assert (length (words 1 a) = length (toks 1 a)) as El by (by apply words_length). assert (n = length (toks 1 a) + S (length (toks 2 b))) as En by (unfold n; by rewrite app_length).
      assert (And (meaning 1 ps1 a) (meaning 2 (drop (S (length (words 1 a))) ps1) b) = And (meaning 1 (take n ps1) a) (meaning 2 (drop (S (length (words 1 a))) (take n ps1)) b)) as ->; [|done]. f_equal.
      * rewrite <- (take_drop n ps1) at 1. assert (take n ps1 = take (length (words 1 a)) (take n ps1) ++ drop (length (words 1 a)) (take n ps1)) as E2 by (by rewrite take_drop). rewrite E2, <- (assoc_L (++)). rewrite !meaning_app by (done || rewrite take_length; lia). done.
      * rewrite <- (take_drop n ps1) at 1. rewrite drop_app_le by lia. apply meaning_app; [done|]. rewrite drop_length, !words_length by done. lia.
  - destruct Hok as [Ha Hb]. assert (∀ ps, fit ps (toks 0 a ++ TOr :: toks 1 b) → GDisjunction (zip ps (toks 0 a ++ TOr :: toks 1 b)) (Or (meaning 0 ps a) (meaning 1 (drop (S (length (words 0 a))) ps) b))) as Hin.
    { clear H. intros qs H. rewrite words_length by done. cut_in H. set (n := length (toks 0 a)) in *. pose proof H as H'. apply fit_cons in H' as (p & ps1 & E & H'). rewrite E. cbn [zip_with].
      assert (meaning 0 qs a = meaning 0 (take n qs) a) as ->. { rewrite <- (take_drop n qs) at 1. apply meaning_app; [done|]. rewrite words_length by done. done. }
      assert (drop (S n) qs = ps1) as ->. { replace (S n) with (n + 1) by lia. by rewrite <- drop_drop, E. }
      apply g_or; [by apply (IHa Ha 0)|by apply (IHb Hb 1)]. }
    cbn [toks meaning] in *. destruct level as [|level]; cbn [Nat.leb toks_in_parentheses] in *.
    + rewrite drop_0. by apply Hin.
    + assert (GFactor (zip ps (TLPar :: (toks 0 a ++ TOr :: toks 1 b) ++ [TRPar])) (Or (meaning 0 (drop 1 ps) a) (meaning 1 (drop (S (length (words 0 a))) (drop 1 ps)) b))); [|destruct level; [by apply g_conjunction|done]].
      apply fit_cons in H as (p & ps1 & -> & H). cbn [zip_with drop]. rewrite drop_0. rewrite zip_cut. pose proof (fit_take _ _ _ H) as H1. apply fit_drop in H. set (n := length (toks 0 a ++ _)) in *. apply fit_one in H as (p' & E). rewrite E. apply g_group.
      pose proof (Hin _ H1) as Hd. revert Hd. assert (length (words 0 a) = length (toks 0 a)) as El by (by apply words_length). assert (n = length (toks 0 a) + S (length (toks 1 b))) as En by (unfold n; by rewrite app_length).
      assert (Or (meaning 0 ps1 a) (meaning 1 (drop (S (length (words 0 a))) ps1) b) = Or (meaning 0 (take n ps1) a) (meaning 1 (drop (S (length (words 0 a))) (take n ps1)) b)) as ->; [|done]. f_equal.
      * rewrite <- (take_drop n ps1) at 1. assert (take n ps1 = take (length (words 0 a)) (take n ps1) ++ drop (length (words 0 a)) (take n ps1)) as E2 by (by rewrite take_drop). rewrite E2, <- (assoc_L (++)). rewrite !meaning_app by (done || rewrite take_length; lia). done.
      * rewrite <- (take_drop n ps1) at 1. rewrite drop_app_le by lia. apply meaning_app; [done|]. rewrite drop_length, !words_length by done. lia.
Qed.
Lemma zip_fits ts : ∀ ps, forallb fits ts = true → existsb too_large (zip ps ts) = false.
Proof.
  induction ts as [|t ts IH]; intros [|p ps] H; cbn [zip_with existsb forallb] in *; try done. apply andb_true_iff in H as [H1 H2]. rewrite IH by done. rewrite orb_false_r. unfold too_large, fits in *. cbn [snd]. destruct t; try done. destruct (parse_num _ _); done.
Qed.
Lemma parse_written q s ps : query_ok q → LaidOut 0 (words 0 q) s ps → parse_aql s = Parsed (meaning 0 ps q).
Proof.
  intros Hq Hs. destruct (laid_out_tokens _ _ _ _ Hs (toks 0 q) (query_read q Hq 0)) as [Ht Hl]. apply tokens_spec in Ht. unfold parse_aql. rewrite Ht.
  pose proof (query_reads q Hq 0 ps Hl) as Hg. apply parser_grammar in Hg. rewrite Hg. by rewrite zip_fits by (by apply query_fits).
Qed.
