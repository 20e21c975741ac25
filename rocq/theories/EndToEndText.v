From Coq Require Import NArith String Lia.
From stdpp Require Import base list gmap sorting.
From Verif Require AqlSpec AqlShapes AqlLexerProofs.
From Verif Require Import KeySer CompPath Types SymbolTable SortMatches Joins JoinsSpec JoinsProofs Conjunction ConjunctionSpec Plan PlanSpec NodeSearch TokenOps Query QuerySpec QueryProofs AqlLexer AqlLexerSpec AqlGrammar AqlParser AqlPositions EndToEnd EndToEndSpec EndToEndProofs EndToEndResults.

Section Text.
Context (sat : spec → match_ → Prop) (bop : aql_bop → match_ → match_ → Prop) (uop : aql_uop → match_ → Prop).
Context {Op : Type} (E : engine spec aql_bop aql_uop Op) (parallel : bool) (loop_buffer index_buffer : nat).
Context (outer_left : exec (Op := Op) → exec (Op := Op) → bool) (switch : bin (Op := Op) → bool).
Context (simplify : aql_expr → aql_expr) (text : bytes) (e : aql_expr).
Notation lits := (get_alternatives_from_dnf (simplify e)).
Notation answers := (answers E parallel loop_buffer index_buffer outer_left switch lits).

Lemma parsed_names c : parse_aql text = Parsed e → c ⊆ QuerySpec.terminals e → EndToEndSpec.names_no_numbers c.
Proof.
  intros Hp Hs s sp n o Ha. apply (node_at_sub c (QuerySpec.terminals e) s _ Hs) in Ha. destruct (AqlShapes.parsed_shape _ _ _ _ _ _ Hp Ha) as (nd & [Hv _] & _ & Hn & _). rewrite Hn in Hv.
  apply AqlLexerProofs.alnum_matches in Hv. destruct n as [|b r]; [done|]. exists b, r. split; [done|]. cbn in Hv. apply andb_true_iff in Hv as [Hb _].
  unfold is_alpha, between in Hb. rewrite ?orb_true_iff, ?andb_true_iff, ?N.leb_le in Hb. lia.
Qed.
Lemma parsed_alternatives : simplifies simplify → parse_aql text = Parsed e → distinct_names (QuerySpec.terminals e) →
  (∀ c, c ∈ lits → ∃ s sp var, node_at c s (sp, var, false)) → ∀ c, c ∈ lits → c ⊆ QuerySpec.terminals e ∧ alternative_fine c.
Proof.
  intros Hs Hp Hd Hm c Hc. destruct (parsed_well_formed _ _ Hp) as [Hpos Hcons]. destruct (Hs e Hpos) as (_ & _ & Ht).
  assert (c ⊆ QuerySpec.terminals e) as Hsub by (intros l Hl; apply Ht; by eapply alternatives_terminals).
  split; [done|]. constructor; [by eapply consistent_sub|by eapply distinct_names_sub|by apply Hm].
Qed.
Theorem text_answers alts out : engine_ok sat bop uop E lits → few_annotation_keys sat lits → 0 < loop_buffer → 0 < index_buffer → simplifies simplify →
  parse_aql text = Parsed e → distinct_names (QuerySpec.terminals e) →
  (∀ c, c ∈ lits → ∃ s sp var, node_at c s (sp, var, false)) →
  (∀ i c off, lits !! i = Some c → offset_of lits i off → unary_mandatory off c) →
  (∀ c, c ∈ lits → no_optional c) ∨ length lits = 1 → answers alts out →
  no_error out ∧ NoDup (oks out) ∧
  (∀ g, g ∈ oks out → ∃ i c off, lits !! i = Some c ∧ offset_of lits i off ∧ alternative_result sat bop uop off c g) ∧
  (∀ i c off g, lits !! i = Some c → offset_of lits i off → alternative_result sat bop uop off c g → all_reflexive E c ∨ NoDup g → g ∈ oks out).
Proof.
  intros HE HK Hl Hi Hs Hp Hd Hm Hu Ho Ha. pose proof (parsed_alternatives Hs Hp Hd Hm) as Hf.
  eapply (answers_spec sat bop uop E lits HE parallel loop_buffer index_buffer Hl Hi outer_left switch alts out HK); [intros c Hc; by apply Hf|exact Hu| |exact Ha].
  destruct Ho as [Ho|Ho]; [by left|right]. destruct lits as [|c [|c2 r]] eqn:El; [done| |done]. exists c. split; [done|]. apply parsed_names; [done|]. apply Hf. left.
Qed.
Theorem text_query alts out : engine_ok sat bop uop E lits → few_annotation_keys sat lits → 0 < loop_buffer → 0 < index_buffer → simplifies simplify →
  parse_aql text = Parsed e → distinct_names (QuerySpec.terminals e) → (∀ l, l ∈ QuerySpec.terminals e → no_numbers l) →
  (∀ c, c ∈ lits → ∃ s sp var, node_at c s (sp, var, false)) →
  (∀ i c off, lits !! i = Some c → offset_of lits i off → unary_mandatory off c) →
  (∀ c, c ∈ lits → no_optional c) ∨ length lits = 1 → answers alts out →
  (∀ g, g ∈ oks out → ∃ env c starts, holds (literal_holds sat bop uop 0 (QuerySpec.terminals e) env) e ∧ c ∈ lits ∧ found_positions c starts ∧ g = env <$> starts) ∧
  (∀ env, holds (literal_holds sat bop uop 0 (QuerySpec.terminals e) env) e →
    ∃ c starts, c ∈ lits ∧ found_positions c starts ∧ (all_reflexive E c ∨ NoDup (env <$> starts) → env <$> starts ∈ oks out)).
Proof.
  intros HE HK Hl Hi Hs Hp Hd Hn Hm Hu Ho Ha. pose proof (parsed_alternatives Hs Hp Hd Hm) as Hf.
  destruct (text_answers alts out HE HK Hl Hi Hs Hp Hd Hm Hu Ho Ha) as (_ & _ & S & C). destruct (parsed_well_formed _ _ Hp) as [Hpos Hcons]. destruct (Hs e Hpos) as (Hsum & Hv & _).
  destruct Ha as (qs & Hqs & _). destruct (alternatives_lookup _ _ _ Hqs) as [Lq Hq].
  assert (∀ c, c ∈ lits → consistent c ∧ distinct_names c) as Hcd by (intros c Hc; destruct (Hf c Hc) as [_ []]; done).
  assert (∀ i c, lits !! i = Some c → ∃ q, offset_of lits i (c_offset q) ∧ map_conjunction (c_offset q) c = Some q ∧ ∀ env l, l ∈ c →
    literal_holds sat bop uop (c_offset q) c env l ↔ literal_holds sat bop uop 0 (QuerySpec.terminals e) env l) as Hmap.
  { intros i c Hc. destruct (lookup_lt_is_Some_2 qs i) as [q Hqi]; [rewrite Lq; by eapply lookup_lt_Some|]. destruct (Hq _ _ Hqi) as (c' & Hc' & Ec). assert (c' = c) as -> by congruence.
    exists q. split_and!; [by eapply (alternatives_offset sat bop uop)|done|]. intros env l Hlc. pose proof (elem_of_list_lookup_2 _ _ _ Hc) as Hin.
    destruct (Hf c Hin) as [Hsub [Hc1 Hc2 _]]. apply literal_transfer; [done|done|done|apply Hn; by apply Hsub|].
    destruct (map_conjunction_spec sat bop uop (c_offset q) c Hc1 Hc2) as [[E' _]|(q' & ? & E' & Hok & _)]; [congruence|]. by apply Hok. }
  split.
  - intros g Hg. destruct (S g Hg) as (i & c & off & Hc & Hoff & env & starts & Hlit & Hfp & ->). destruct (Hmap i c Hc) as (q & Hoff' & _ & Htr).
    rewrite (offset_unique _ _ _ _ Hoff Hoff') in Hlit. pose proof (elem_of_list_lookup_2 _ _ _ Hc) as Hin. exists env, c, starts. split_and!; [|done|done|done].
    apply Hv, alternatives_spec; [done|]. exists c. split; [done|]. intros l Hlc. apply (Htr env l Hlc). by apply Hlit.
  - intros env Henv. apply Hv, alternatives_spec in Henv as (c & Hin & Hlit); [|done]. pose proof Hin as Hin'. apply elem_of_list_lookup in Hin' as [i Hc].
    destruct (Hmap i c Hc) as (q & Hoff & Ec & Htr). destruct (Hf c Hin) as [Hsub Hfine].
    destruct (alternative_mapped sat bop uop (c_offset q) c q Hfine (Hu _ _ _ Hc Hoff) Ec) as (starts & _ & _ & _ & _ & Hfp & _).
    eexists c, _. split_and!; [done|exact Hfp|]. intros Hcond. eapply C; [exact Hc|exact Hoff| |exact Hcond]. eexists env, _. split_and!; [|exact Hfp|done].
    intros l Hlc. apply (Htr env l Hlc). by apply Hlit.
Qed.
Theorem text_answered qs orders : engine_ok sat bop uop E lits → few_annotation_keys sat lits → 0 < loop_buffer → 0 < index_buffer → simplifies simplify →
  parse_aql text = Parsed e → distinct_names (QuerySpec.terminals e) →
  (∀ c, c ∈ lits → ∃ s sp var, node_at c s (sp, var, false)) →
  (∀ i c off, lits !! i = Some c → offset_of lits i off → unary_mandatory off c) →
  map_alternatives 0 lits = Some qs → (∀ q, q ∈ qs → check_components_connected (compile E q) = None) →
  (∀ i q, qs !! i = Some q → orders i ≡ₚ seq 0 (length (c_binary q))) →
  ∃ alts out, answers alts out.
Proof.
  intros HE HK Hl Hi Hs Hp Hd Hm Hu Hqs Hc Ho. pose proof (parsed_alternatives Hs Hp Hd Hm) as Hf.
  eapply (answers_exist sat bop uop E lits HE parallel loop_buffer index_buffer Hl Hi outer_left switch qs orders HK); [intros c Hin; by apply Hf|done..].
Qed.
End Text.
