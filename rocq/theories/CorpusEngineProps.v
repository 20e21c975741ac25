(** Property theorems for the results of queries in a stored corpus (C74). *)
From Coq Require Import NArith String Lia.
From stdpp Require Import base list gmap sorting.
From Verif Require Import KeySer CompPath SortedMap Types SymbolTable AnnoMem AnnoSpec GraphSpec Adjacency AdjacencySpec Storage StorageSpec GraphApply
  TokenHelper TokenSearchSpec ContextSpec QuickSort TokenSearch ExampleStorages ExampleCorpus ExampleAligned NodeSearch NodeSearchSpec NodeSearchProps NonExisting NonExistingSpec
  SortMatches Joins JoinsSpec TokenOps TokenOpsSpec TokenOpsProps EdgeOps EdgeOpsSpec EdgeOpsProofs ExampleGraph EdgeOpsProps Conjunction ConjunctionSpec Plan PlanSpec Query QuerySpec QueryProofs
  AqlLexer AqlGrammar AqlParser EndToEnd EndToEndSpec EndToEndProps CorpusEngine CorpusEngineSpec CorpusEngineProofs.

(** The searches, operators and unary operators that are created for a query do what they mean for the corpus: this is what C73 requires *)
Theorem C74_engine rx c W exact db cs hash fuel rnd cheap same_cost narrow th order lits :
  corpus_fine rx c W exact db cs hash th order → query_fine rx c W db cs fuel rnd lits →
  engine_ok (found_for rx c) (operator_meaning rx c W) (unary_meaning W)
    (corpus_engine rx exact db cs hash fuel rnd cheap same_cost narrow th order) lits ∧
  few_annotation_keys (found_for rx c) lits.
Proof.
  intros F Q. split; [by apply (corpus_engine_ok rx c W exact db cs hash fuel rnd cheap same_cost narrow th order F lits Q)|
    by apply (corpus_few_keys rx c W exact db cs hash th order F lits)].
Qed.
(** The results for a text: nodes of the corpus which meet the descriptions and are related as the operators say, each result once *)
Theorem C74_alternatives_partial rx c W exact db cs hash fuel rnd cheap same_cost narrow th order parallel loop_buffer index_buffer outer_left switch simplify text e alts out :
  let lits := get_alternatives_from_dnf (simplify e) in
  let E := corpus_engine rx exact db cs hash fuel rnd cheap same_cost narrow th order in
  corpus_fine rx c W exact db cs hash th order → query_fine rx c W db cs fuel rnd lits → 0 < loop_buffer → 0 < index_buffer → simplifies simplify →
  parse_aql text = Parsed e → distinct_names (QuerySpec.terminals e) →
  (∀ c, c ∈ lits → ∃ s sp var, node_at c s (sp, var, false)) →
  (∀ i c off, lits !! i = Some c → offset_of lits i off → unary_mandatory off c) →
  (∀ c, c ∈ lits → no_optional c) ∨ length lits = 1 →
  answers E parallel loop_buffer index_buffer outer_left switch lits alts out →
  no_error out ∧ NoDup (oks out) ∧
  (∀ g, g ∈ oks out → ∃ i alt off, lits !! i = Some alt ∧ offset_of lits i off ∧
     alternative_result (found_for rx c) (operator_meaning rx c W) (unary_meaning W) off alt g) ∧
  (∀ i alt off g, lits !! i = Some alt → offset_of lits i off →
     alternative_result (found_for rx c) (operator_meaning rx c W) (unary_meaning W) off alt g → all_reflexive E alt ∨ NoDup g → g ∈ oks out).
Proof.
  intros lits E F Q. destruct (C74_engine rx c W exact db cs hash fuel rnd cheap same_cost narrow th order lits F Q) as [HE HK].
  exact (C73_alternatives_partial _ _ _ E parallel loop_buffer index_buffer outer_left switch simplify text e alts out HE HK).
Qed.
(** ... in terms of the expression of the text, if searches are not referred to by number *)
Theorem C74_query_partial rx c W exact db cs hash fuel rnd cheap same_cost narrow th order parallel loop_buffer index_buffer outer_left switch simplify text e alts out :
  let lits := get_alternatives_from_dnf (simplify e) in
  let E := corpus_engine rx exact db cs hash fuel rnd cheap same_cost narrow th order in
  let means env := holds (literal_holds (found_for rx c) (operator_meaning rx c W) (unary_meaning W) 0 (QuerySpec.terminals e) env) e in
  corpus_fine rx c W exact db cs hash th order → query_fine rx c W db cs fuel rnd lits → 0 < loop_buffer → 0 < index_buffer → simplifies simplify →
  parse_aql text = Parsed e → distinct_names (QuerySpec.terminals e) → (∀ l, l ∈ QuerySpec.terminals e → no_numbers l) →
  (∀ c, c ∈ lits → ∃ s sp var, node_at c s (sp, var, false)) →
  (∀ i c off, lits !! i = Some c → offset_of lits i off → unary_mandatory off c) →
  (∀ c, c ∈ lits → no_optional c) ∨ length lits = 1 →
  answers E parallel loop_buffer index_buffer outer_left switch lits alts out →
  (∀ g, g ∈ oks out → ∃ env alt starts, means env ∧ alt ∈ lits ∧ found_positions alt starts ∧ g = env <$> starts) ∧
  (∀ env, means env → ∃ alt starts, alt ∈ lits ∧ found_positions alt starts ∧ (all_reflexive E alt ∨ NoDup (env <$> starts) → env <$> starts ∈ oks out)).
Proof.
  intros lits E means F Q. destruct (C74_engine rx c W exact db cs hash fuel rnd cheap same_cost narrow th order lits F Q) as [HE HK].
  exact (C73_query_partial _ _ _ E parallel loop_buffer index_buffer outer_left switch simplify text e alts out HE HK).
Qed.
(** Such queries are answered *)
Theorem C74_answered rx c W exact db cs hash fuel rnd cheap same_cost narrow th order parallel loop_buffer index_buffer outer_left switch simplify text e qs orders :
  let lits := get_alternatives_from_dnf (simplify e) in
  let E := corpus_engine rx exact db cs hash fuel rnd cheap same_cost narrow th order in
  corpus_fine rx c W exact db cs hash th order → query_fine rx c W db cs fuel rnd lits → 0 < loop_buffer → 0 < index_buffer → simplifies simplify →
  parse_aql text = Parsed e → distinct_names (QuerySpec.terminals e) →
  (∀ c, c ∈ lits → ∃ s sp var, node_at c s (sp, var, false)) →
  (∀ i c off, lits !! i = Some c → offset_of lits i off → unary_mandatory off c) →
  map_alternatives 0 lits = Some qs → (∀ q, q ∈ qs → check_components_connected (compile E q) = None) →
  (∀ i q, qs !! i = Some q → orders i ≡ₚ seq 0 (length (c_binary q))) →
  ∃ alts out, answers E parallel loop_buffer index_buffer outer_left switch lits alts out.
Proof.
  intros lits E F Q. destruct (C74_engine rx c W exact db cs hash fuel rnd cheap same_cost narrow th order lits F Q) as [HE HK].
  exact (C73_answered _ _ _ E parallel loop_buffer index_buffer outer_left switch simplify text e qs orders HE HK).
Qed.

(** ** Example *)
(** The texts and spans of TokenOpsProps.v, and a dominance relation with the edges 10→1 and 12→2 *)
Definition tree_graph : chain_graph := [(CName 2 [] [97%N], ([[10; 1]; [12; 2]]%N, []))].
Lemma tree_ok : graph_ok tree_graph = true.
Proof. vm_compute. reflexivity. Qed.
Notation tree_W := (graph_content tree_graph).
Notation ex_c := (content_of ops_ex).
Notation ex_db := (corpus_of ops_ex ops_check).
Notation ex_engine := (corpus_engine plain_rx plain_exact ex_db (graph_components tree_graph) elements 100 (λ _, 0)).
Lemma example_fine : corpus_fine plain_rx ex_c tree_W plain_exact ex_db (graph_components tree_graph) elements (th_of ops_ex ops_check) (lin_of (ex_chains ops_ex)).
Proof.
  destruct ops_corpus as (H1 & H2 & H3 & _). constructor; [exact H1|exact H2|exact H3|exact (graph_holds tree_graph tree_ok)|exact plain_ok|exact hash_elements|reflexivity|apply th_of_new|].
  apply N.leb_le. vm_compute. reflexivity.
Qed.
(** A node which dominates a token, and the token after it *)
Definition dominated : bytes := str "x#annis:node_name & y#tok & z#tok & #x > #y & #y . #z".
Definition name_search : spec := SExact (Some (str "annis")) (str "node_name") None false.
Definition dominated_alt : list aql_literal :=
  [LNode name_search 0 (Some (str "x")) false; LNode SAnyTok 20 (Some (str "y")) false; LNode SAnyTok 28 (Some (str "z")) false;
   LBin (ORef (Name (str "x"))) (BDominance [] (RBound 1 1) None) (ORef (Name (str "y"))) false;
   LBin (ORef (Name (str "y"))) (BPrecedence None (RBound 1 1)) (ORef (Name (str "z"))) false].
Definition dominated_expr : aql_expr := match parse_aql dominated with Parsed e => e | _ => Terminal (LNode SAnyTok 0 None false) end.
Example dominated_parsed : parse_aql dominated = Parsed dominated_expr.
Proof. vm_compute. reflexivity. Qed.
Example dominated_alts : get_alternatives_from_dnf (normalize dominated_expr) = [dominated_alt].
Proof. vm_compute. reflexivity. Qed.
Example dominated_terminals : QuerySpec.terminals dominated_expr = dominated_alt.
Proof. vm_compute. reflexivity. Qed.
Lemma dominated_nodes s e : node_at dominated_alt s e ↔
  (s = 0 ∧ e = (name_search, Some (str "x"), false)) ∨ (s = 20 ∧ e = (SAnyTok, Some (str "y"), false)) ∨ (s = 28 ∧ e = (SAnyTok, Some (str "z"), false)).
Proof.
  split.
  - intros (l & Hl & Hn). unfold dominated_alt in Hl. repeat (apply elem_of_cons in Hl as [-> |Hl]; [cbn in Hn; tauto|]). inversion Hl.
  - intros H. destruct H as [[-> ->]|[[-> ->]|[-> ->]]];
      [exists (LNode name_search 0 (Some (str "x")) false)|exists (LNode SAnyTok 20 (Some (str "y")) false)|exists (LNode SAnyTok 28 (Some (str "z")) false)];
      (split; [|by cbn]); [left|right; left|right; right; left].
Qed.
Lemma tree_component n C : tree_W n = Some C → n = CName 2 [] [97%N] ∧ C = chain_component [[10; 1]; [12; 2]]%N [].
Proof.
  intros HW. unfold graph_content in HW. destruct (al_get cname_compare tree_graph n) as [v|] eqn:Ev; [|discriminate HW]. injection HW as <-.
  apply al_get_in in Ev; [|apply _]. apply elem_of_list_singleton in Ev. injection Ev as -> ->. split; reflexivity.
Qed.
Lemma tree_limit d : (d <= 1000)%N → in_limit (co_edges (chain_component [[10; 1]; [12; 2]]%N [])) (Included d).
Proof. intros Hd. apply chain_limit; [done|]. vm_compute. reflexivity. Qed.
Example dominated_fine : query_fine plain_rx ex_c tree_W ex_db (graph_components tree_graph) 100 (λ _, 0) [dominated_alt].
Proof.
  constructor.
  - intros sp (a & s & var & o & ->%elem_of_list_singleton & Hn). apply dominated_nodes in Hn.
    assert (sp = name_search ∨ sp = SAnyTok) as [-> | ->].
    { destruct Hn as [[_ [=]]|[[_ [=]]|[_ [=]]]]; auto. }
    + split; [intros p [=]|intros [=]].
    + split; [intros p [=]|intros _]. split_and!; [intros [=]| |].
      * intros gs n _ Ht Hn'. destruct Hn'. by apply ops_in_order.
      * assert (match token_search 100 (λ _, 0) ex_db with Done _ => true | _ => false end = true) as Hd by (vm_compute; reflexivity).
        destruct (token_search 100 (λ _, 0) ex_db) as [items| |]; [by exists items|discriminate Hd..].
  - intros o (a & l & r & n & ->%elem_of_list_singleton & Ho).
    unfold dominated_alt in Ho. do 3 (apply elem_of_cons in Ho as [Ho|Ho]; [discriminate Ho|]).
    apply elem_of_cons in Ho as [Ho|Ho]; [|apply elem_of_list_singleton in Ho]; injection Ho as _ -> _ _.
    + split_and!; [| |exact I].
      * intros n' o Hin _. apply elem_of_list_singleton in Hin. injection Hin as _ ->. by eexists.
      * intros x y n' C _ HW. apply tree_component in HW as [_ ->]. split_and!; [apply tree_limit; cbn; lia|cbn; lia|left; cbn; lia].
    + split; [apply small_limit; [exact ops_check|lia]|]. split; [cbn; lia|left; cbn; lia].
  - intros v o a ->%elem_of_list_singleton Ho. unfold dominated_alt in Ho. repeat (apply elem_of_cons in Ho as [Ho|Ho]; [discriminate Ho|]). inversion Ho.
Qed.
Example dominated_hypotheses :
  distinct_names dominated_alt ∧ (∀ c, c ∈ [dominated_alt] → ∃ s sp var, node_at c s (sp, var, false)) ∧
  (∀ i c off, [dominated_alt] !! i = Some c → offset_of [dominated_alt] i off → unary_mandatory off c) ∧ (∀ c, c ∈ [dominated_alt] → no_optional c).
Proof.
  split_and!.
  - intros s s' sp sp' o o' n H1%dominated_nodes H2%dominated_nodes.
    assert (str "x" ≠ str "y" ∧ str "x" ≠ str "z" ∧ str "y" ≠ str "z") as (N1 & N2 & N3) by (split_and!; vm_compute; discriminate).
    destruct H1 as [[-> H1]|[[-> H1]|[-> H1]]], H2 as [[-> H2]|[[-> H2]|[-> H2]]]; congruence.
  - intros c ->%elem_of_list_singleton. exists 0, name_search, (Some (str "x")). apply dominated_nodes. auto.
  - intros i c off Hi%elem_of_list_lookup_2 _ v o s e Hl. apply elem_of_list_singleton in Hi as ->.
    repeat (apply elem_of_cons in Hl as [Hl|Hl]; [discriminate|]); inversion Hl.
  - intros c ->%elem_of_list_singleton s e Ha. by apply dominated_nodes in Ha as [[_ ->]|[[_ ->]|[_ ->]]].
Qed.
Lemma dominated_positions starts : found_positions dominated_alt starts ↔ starts = [0; 20; 28].
Proof.
  assert (StronglySorted lt [0; 20; 28]) as HS by (repeat constructor; lia).
  assert (∀ s, s ∈ [0; 20; 28] ↔ ∃ sp var, node_at dominated_alt s (sp, var, false)) as HI.
  { intros s. setoid_rewrite dominated_nodes. rewrite !elem_of_cons, elem_of_nil. split; [intros [-> |[-> |[-> |[]]]]; eauto 10|]. intros (sp & var & [[-> _]|[[-> _]|[-> _]]]); auto. }
  split; [|intros ->; split; done]. intros [H1 H2]. apply (RelAnnisMaps.strict_sorted_ext lt); [intros x; lia|intros x y z; lia|done|done|]. intros x. by rewrite H2, HI.
Qed.
Lemma tree_linked a b : EdgeOpsSpec.linked plain_rx tree_W (QDominance [] (RBound 1 1) None) a b ↔ (a = 10 ∧ b = 1)%N ∨ (a = 12 ∧ b = 2)%N.
Proof.
  assert (∀ a b, edge_rel (co_edges (chain_component [[10; 1]; [12; 2]]%N [])) a b ↔ (a = 10 ∧ b = 1)%N ∨ (a = 12 ∧ b = 2)%N) as HE.
  { intros x y. unfold edge_rel. cbn [co_edges chain_component]. rewrite elem_of_list_to_set.
    change (chain_edges [[10; 1]; [12; 2]]%N) with [Edge 10 1; Edge 12 2]%N. rewrite !elem_of_cons, elem_of_nil. split; [intros [[= -> ->]|[[= -> ->]|[]]]; auto|].
    intros [[-> ->]|[-> ->]]; auto. }
  split.
  - intros (n & C & _ & HW & (p & [Hp _] & Hl) & _). apply tree_component in HW as [_ ->]. apply HE.
    destruct p as [|x [|y p]]; cbn in Hl; [lia| |lia]. destruct Hp as [Hx Hy]. cbn in Hy. subst x. exact Hx.
  - intros H. exists (CName 2 [] [97%N]), (chain_component [[10; 1]; [12; 2]]%N []). split_and!; [done|reflexivity| |done]. exists [b]. split; [|cbn; lia]. split.
    + split; [by apply HE|reflexivity].
    + apply NoDup_cons. split; [|apply NoDup_singleton]. intros ->%elem_of_list_singleton. destruct H as [[? ?]|[? ?]]; lia.
Qed.
Lemma tree_precedes a b : op_holds ex_c no_segmentation (OPrecedence None (RBound 1 1)) a b ↔
  op_filter (th_of ops_ex ops_check) (lin_of (ex_chains ops_ex)) (OPrecedence None (RBound 1 1)) (a, tok_key) (b, tok_key) = true.
Proof.
  destruct ops_corpus as (H1 & H2 & H3 & _). symmetry. apply (C38_check_partial ex_db ex_c H1 H2 H3); [reflexivity|apply th_of_new| |intros [=]].
  split; [apply small_limit; [exact ops_check|lia]|]. split; [cbn; lia|left; cbn; lia].
Qed.
Definition named_match (n : N) : match_ := (n, node_name_key).
Definition token_match (n : N) : match_ := (n, node_type_key).
Lemma token_found n k : found_for plain_rx ex_c SAnyTok (n, k) ↔ n ∈ [1; 2; 3; 4; 5; 6]%N ∧ k = node_type_key.
Proof.
  assert (Forall (λ n, Forall (λ e, source e ≠ n) (ex_cov ops_ex)) [1; 2; 3; 4; 5; 6]%N) as HF by (apply (bool_decide_eq_true _); vm_compute; reflexivity).
  unfold found_for. cbn. split.
  - intros (k' & [_ Ht] & ->). apply (ex_token ops_ex ops_check) in Ht as [Ht _]. done.
  - intros [Hn ->]. exists tok_key. split; [|done]. split; [done|]. apply (ex_token ops_ex ops_check). split; [exact Hn|]. rewrite Forall_forall in HF. by apply HF.
Qed.
Lemma name_found n k : found_for plain_rx ex_c name_search (n, k) → k = node_name_key.
Proof. intros (k' & ([H1 H2] & _) & Hk). cbn in H1, H2, Hk. destruct k' as [nm ns]. cbn in H1, H2. rewrite Hk, H1, H2. vm_compute. reflexivity. Qed.
Lemma dominated_named s sp n o : node_at dominated_alt s (sp, Some n, o) → (n = str "x" → s = 0) ∧ (n = str "y" → s = 20) ∧ (n = str "z" → s = 28).
Proof.
  assert (str "x" ≠ str "y" ∧ str "x" ≠ str "z" ∧ str "y" ≠ str "z") as (N1 & N2 & N3) by (split_and!; vm_compute; discriminate).
  intros H%dominated_nodes. destruct H as [[-> H]|[[-> H]|[-> H]]]; injection H as _ -> _; split_and!; congruence.
Qed.
Lemma dominated_mandatory s e : node_at dominated_alt s e → e.2 = false.
Proof. intros H%dominated_nodes. by destruct H as [[_ ->]|[[_ ->]|[_ ->]]]. Qed.
Lemma tree_next y z : y ∈ [1; 2]%N → z ∈ [1; 2; 3; 4; 5; 6]%N → op_holds ex_c no_segmentation (OPrecedence None (RBound 1 1)) y z → (z = y + 1)%N.
Proof.
  assert (forallb (λ y, forallb (λ z, implb (op_filter (th_of ops_ex ops_check) (lin_of (ex_chains ops_ex)) (OPrecedence None (RBound 1 1)) (y, tok_key) (z, tok_key))
    (z =? y + 1)%N) [1; 2; 3; 4; 5; 6]%N) [1; 2]%N = true) as HF by (vm_compute; reflexivity).
  intros Hy Hz H%tree_precedes. rewrite forallb_forall in HF. apply elem_of_list_In in Hy, Hz. specialize (HF y Hy). rewrite forallb_forall in HF. specialize (HF z Hz).
  rewrite H in HF. by apply N.eqb_eq.
Qed.
Example dominated_connected cheap same_cost narrow : ∃ qs, map_alternatives 0 [dominated_alt] = Some qs ∧ length <$> (c_binary <$> qs) = [2] ∧
  ∀ q, q ∈ qs → check_components_connected (compile (ex_engine cheap same_cost narrow (th_of ops_ex ops_check) (lin_of (ex_chains ops_ex))) q) = None.
Proof.
  eexists. split; [vm_compute; reflexivity|]. split; [vm_compute; reflexivity|]. intros q ->%elem_of_list_singleton. vm_compute. reflexivity.
Qed.
(** The results, for any decision of the optimizer *)
Example dominated_answered cheap same_cost narrow parallel outer_left switch : ∃ alts out,
  answers (ex_engine cheap same_cost narrow (th_of ops_ex ops_check) (lin_of (ex_chains ops_ex))) parallel 1 1 outer_left switch
    (get_alternatives_from_dnf (normalize dominated_expr)) alts out ∧
  ∀ g, g ∈ oks out ↔ g ∈ [[named_match 10; token_match 1; token_match 2]; [named_match 12; token_match 2; token_match 3]].
Proof.
  pose proof example_fine as F. pose proof dominated_fine as Q. destruct dominated_hypotheses as (Hd & Hm & Hu & Ho).
  rewrite <- dominated_alts in Q, Hm, Hu, Ho. rewrite <- dominated_terminals in Hd.
  set (E := ex_engine cheap same_cost narrow (th_of ops_ex ops_check) (lin_of (ex_chains ops_ex))).
  destruct (dominated_connected cheap same_cost narrow) as (qs & Hqs & Hb & Hc). rewrite <- dominated_alts in Hqs.
  destruct (C74_answered plain_rx ex_c tree_W plain_exact ex_db (graph_components tree_graph) elements 100 (λ _, 0) cheap same_cost narrow (th_of ops_ex ops_check) (lin_of (ex_chains ops_ex))
    parallel 1 1 outer_left switch normalize dominated dominated_expr qs (λ _, [1; 0])) as (alts & out & Ha); [exact F|exact Q|lia|lia|apply normalize_ok|exact dominated_parsed|exact Hd|exact Hm|exact Hu|exact Hqs|exact Hc| |].
  { intros i q Hi. assert ((length <$> (c_binary <$> qs)) !! i = Some (length (c_binary q))) as H by (rewrite !list_lookup_fmap, Hi; reflexivity). rewrite Hb in H.
    destruct i as [|i]; cbn in H; [|discriminate]. injection H as H. rewrite <- H. apply (Permutation_swap 0 1 []). }
  exists alts, out. split; [exact Ha|].
  destruct (C74_alternatives_partial plain_rx ex_c tree_W plain_exact ex_db (graph_components tree_graph) elements 100 (λ _, 0) cheap same_cost narrow (th_of ops_ex ops_check) (lin_of (ex_chains ops_ex))
    parallel 1 1 outer_left switch normalize dominated dominated_expr alts out) as (_ & _ & HS & HC); [exact F|exact Q|lia|lia|apply normalize_ok|exact dominated_parsed|exact Hd|exact Hm|exact Hu|by left|exact Ha|].
  rewrite dominated_alts in HS, HC. clear Ha Hc Hqs Hb Q. intros g. split.
  - intros Hg. destruct (HS g Hg) as (i & alt & off & Hi & _ & env & starts & Hlit & Hfp & ->). destruct i as [|i]; [|discriminate Hi]. injection Hi as <-.
    apply dominated_positions in Hfp as ->. cbn [fmap list_fmap].
    destruct (Hlit (LNode name_search 0 (Some (str "x")) false)) as [Fx _]; [left|]. destruct (Hlit (LNode SAnyTok 20 (Some (str "y")) false)) as [Fy _]; [right; left|].
    destruct (Hlit (LNode SAnyTok 28 (Some (str "z")) false)) as [Fz _]; [right; right; left|].
    destruct (Fx 0 (name_search, Some (str "x"), false)) as [Hx|Hx]; [by cbn|discriminate Hx|]. destruct (Fy 20 (SAnyTok, Some (str "y"), false)) as [Hy|Hy]; [by cbn|discriminate Hy|].
    destruct (Fz 28 (SAnyTok, Some (str "z"), false)) as [Hz|Hz]; [by cbn|discriminate Hz|]. cbn [fst snd] in Hx, Hy, Hz.
    destruct (Hlit (LBin (ORef (Name (str "x"))) (BDominance [] (RBound 1 1) None) (ORef (Name (str "y"))) false)) as [_ (sl & el & sr & er & (sp1 & o1 & R1) & E1 & (sp2 & o2 & R2) & E2 & H1)]; [right; right; right; left|].
    destruct (Hlit (LBin (ORef (Name (str "y"))) (BPrecedence None (RBound 1 1)) (ORef (Name (str "z"))) false)) as [_ (sl' & el' & sr' & er' & (sp3 & o3 & R3) & E3 & (sp4 & o4 & R4) & E4 & H2)]; [right; right; right; right; left|].
    assert (sl = 0 ∧ sr = 20 ∧ sl' = 20 ∧ sr' = 28) as (-> & -> & -> & ->).
    { apply dominated_named in R1, R2, R3, R4. split_and!; [by apply R1|by apply R2|by apply R3|by apply R4]. }
    assert (el.2 = false ∧ er.2 = false ∧ el'.2 = false ∧ er'.2 = false) as (Q1 & Q2 & Q3 & Q4).
    { split_and!; eapply dominated_mandatory; [exact E1|exact E2|exact E3|exact E4]. }
    unfold operator_holds in H1, H2. rewrite Q1, Q2 in H1. rewrite Q3, Q4 in H2. unfold operator_meaning in H1, H2. cbn [related] in H1, H2. clear - Hx Hy Hz H1 H2.
    destruct (env 0) as [x kx], (env 20) as [y ky], (env 28) as [z kz]. cbn [fst] in H1, H2.
    apply name_found in Hx as ->. apply token_found in Hy as [_ ->]. apply token_found in Hz as [Hz ->]. apply tree_linked in H1.
    assert (z = y + 1)%N as -> by (apply tree_next; [destruct H1 as [[_ ->]|[_ ->]]; [left|right; left]|exact Hz|exact H2]).
    destruct H1 as [[-> ->]|[-> ->]]; [left|right; left].
  - intros Hg. assert (∃ x y z, g = [named_match x; token_match y; token_match z] ∧ (x = 10 ∧ y = 1 ∧ z = 2 ∨ x = 12 ∧ y = 2 ∧ z = 3)%N) as (x & y & z & -> & Hxyz).
    { apply elem_of_cons in Hg as [-> |Hg]; [|apply elem_of_list_singleton in Hg as ->]; eexists _, _, _; split; try reflexivity; auto. }
    clear Hg. apply (HC 0 dominated_alt 0); [reflexivity|exists []; split; [constructor|reflexivity]| |].
    + exists (λ s, if decide (s = 0) then named_match x else if decide (s = 20) then token_match y else token_match z), [0; 20; 28]. split_and!; [|by apply dominated_positions|reflexivity].
      intros l Hl. unfold dominated_alt in Hl. apply elem_of_cons in Hl as [-> |Hl].
      { split; [|exact I]. intros s e [-> ->]. right. cbn [fst snd]. rewrite decide_True by done. exists node_name_key. split; [|by vm_compute].
        split; [vm_compute; split; reflexivity|]. exists [110; x]%N. split; [|by left]. destruct Hxyz as [(-> & _)|(-> & _)]; vm_compute; reflexivity. }
      apply elem_of_cons in Hl as [-> |Hl].
      { split; [|exact I]. intros s e [-> ->]. right. cbn [fst snd]. rewrite decide_False, decide_True by done. apply token_found. split; [|done].
        repeat setoid_rewrite elem_of_cons. destruct Hxyz as [(_ & -> & _)|(_ & -> & _)]; auto. }
      apply elem_of_cons in Hl as [-> |Hl].
      { split; [|exact I]. intros s e [-> ->]. right. cbn [fst snd]. rewrite !decide_False by done. apply token_found. split; [|done].
        repeat setoid_rewrite elem_of_cons. destruct Hxyz as [(_ & _ & ->)|(_ & _ & ->)]; auto. }
      apply elem_of_cons in Hl as [-> |Hl]; [|apply elem_of_list_singleton in Hl as ->]; (split; [intros s e [[]|[]]|]).
      * exists 0, (name_search, Some (str "x"), false), 20, (SAnyTok, Some (str "y"), false). split_and!; [exists name_search, false; apply dominated_nodes; auto|apply dominated_nodes; auto|exists SAnyTok, false; apply dominated_nodes; auto|apply dominated_nodes; auto|].
        unfold operator_holds. cbn [snd]. rewrite decide_True by done. rewrite decide_False, decide_True by done. apply tree_linked. cbn. destruct Hxyz as [(-> & -> & _)|(-> & -> & _)]; auto.
      * exists 20, (SAnyTok, Some (str "y"), false), 28, (SAnyTok, Some (str "z"), false). split_and!; [exists SAnyTok, false; apply dominated_nodes; auto|apply dominated_nodes; auto|exists SAnyTok, false; apply dominated_nodes; auto|apply dominated_nodes; auto|].
        unfold operator_holds. cbn [snd]. rewrite decide_False, decide_True by done. rewrite !decide_False by done. apply tree_precedes. cbn [fst named_match token_match].
        destruct Hxyz as [(_ & -> & ->)|(_ & -> & ->)]; vm_compute; reflexivity.
    + right. destruct Hxyz as [(-> & -> & ->)|(-> & -> & ->)]; apply (bool_decide_unpack _); vm_compute; exact I.
Qed.
Print Assumptions C74_engine.
Print Assumptions C74_alternatives_partial.
Print Assumptions C74_query_partial.
Print Assumptions C74_answered.
