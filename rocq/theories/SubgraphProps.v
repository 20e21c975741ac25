(** C67: a subgraph is a copy of the matched nodes and of the edges between them. *)
From stdpp Require Import base list gmap.
From Coq Require Import NArith Lia.
From Verif Require Import KeySer KeySerSpec SortedMap Types SymbolTable AnnoMem AnnoSpec GraphSpec Adjacency AdjacencySpec Storage StorageSpec GraphApply
  TokenHelper TokenSearchSpec SortMatches Joins EdgeOps EdgeOpsSpec Context ContextSpec ContextGaps Subgraph SubgraphSpec SubgraphProofs SubgraphTotal
  ExampleStorages ExampleCorpus ExampleGraph ContextProps.

(** C67: the nodes of the copy are the nodes at the chosen positions of the matches, with all their labels and no other ones. *)
Theorem C67_nodes : ∀ labels cs th order it idx ctype L W st, gives_labels labels L → holds_graph cs W → plain W →
  subgraph labels cs th order it idx ctype = Some st →
  ∀ n k v, am_get_value (g_node_annos st) n k = Some v ↔ chosen it idx n ∧ L !! (n, k) = Some v.
Proof. intros labels cs th order it idx ctype L W st HL HG HP HS. exact (final_nodes _ _ _ _ _ _ _ _ _ _ HL HG HP HS). Qed.
Print Assumptions C67_nodes.

(** C67: the copied components have the edges of the original between chosen nodes (the target has a label), and these have the same
    labels. This is stated for all loaded components; the callers load all components of the requested type before. *)
Theorem C67_edges : ∀ labels cs th order it idx ctype L W st, gives_labels labels L → holds_graph cs W → plain W →
  subgraph labels cs th order it idx ctype = Some st →
  ∀ c C gs, W c = Some C → get_storage cs c = Some gs → copied W ctype c → comp_of c ≠ gap_comp → ∀ a b,
  (b ∈ adj_out (writable st (comp_of c)) a ↔ Edge a b ∈ co_edges C ∧ chosen it idx a ∧ chosen it idx b ∧ labelled L b) ∧
  ∀ k v, am_get_value (g_annos (writable st (comp_of c))) (Edge a b) k = Some v ↔
    b ∈ adj_out (writable st (comp_of c)) a ∧ co_labels C !! (Edge a b, k) = Some v.
Proof.
  intros labels cs th order it idx ctype L W st HL HG HP HS c C gs HC Hgs Hc Hg a b.
  pose proof (final_edges _ _ _ _ _ _ _ _ _ _ HL HG HP HS c a b) as He.
  assert (old_edge cs it idx ctype L W c a b ↔ Edge a b ∈ co_edges C ∧ chosen it idx a ∧ chosen it idx b ∧ labelled L b) as Ho.
  { unfold old_edge. split; [|intros (H1 & H2 & H3 & H4); exists C, gs; split_and!; done]. intros (C' & gs' & HC' & _ & _ & H). assert (C' = C) as -> by congruence. exact H. }
  split; [rewrite He, Ho; naive_solver|]. intros k v. rewrite (final_labels _ _ _ _ _ _ _ _ _ _ HL HG HP HS), He. split.
  - intros (H1 & C' & HC' & Hv). assert (C' = C) as -> by congruence. split; [by left|done].
  - intros ([H1|[H1 _]] & Hv); [|done]. split; [done|]. by exists C.
Qed.
Print Assumptions C67_edges.

(** C67: apart from the marked gaps the copy has no other components and edges: index components, components of other types than the
    requested one and components without edges between chosen nodes do not occur in it. *)
Theorem C67_nothing_else : ∀ labels cs th order it idx ctype L W st, gives_labels labels L → holds_graph cs W → plain W →
  subgraph labels cs th order it idx ctype = Some st →
  ∀ k, is_Some (g_comps st !! k) → k = gap_comp ∨
  ∃ c C a b, k = comp_of c ∧ copied W ctype c ∧ W c = Some C ∧ Edge a b ∈ co_edges C ∧ chosen it idx a ∧ chosen it idx b.
Proof.
  intros labels cs th order it idx ctype L W st HL HG HP HS k Hk.
  destruct (final_comps _ _ _ _ _ _ _ _ _ _ HL HG HP HS k Hk) as [?|(c & a & b & -> & C & gs & HC & _ & Hc & He & Ha & Hb & _)]; [by left|].
  right. exists c, C, a, b. done.
Qed.
Print Assumptions C67_nothing_else.

(** C67: chosen tokens which follow each other in the matches, but not in the text, are connected by an edge that marks the gap, and
    there are no other such edges (unless the original graph had this component already). *)
Theorem C67_gaps : ∀ db c, holds_content db c → texts_ok c → ∀ order, cp_order db = Some order → ∀ th, th_new db = Some th →
  ∀ labels cs it idx ctype L W st, gives_labels labels L → holds_graph cs W → plain W → W (name_of gap_comp) = None →
  subgraph labels cs (Some th) (Some order) it idx ctype = Some st →
  ∀ a b, b ∈ adj_out (writable st gap_comp) a ↔ next_after_gap c (chosen_list it idx) a b.
Proof.
  intros db c H T order Eo th Eth labels cs it idx ctype L W st HL HG HP HN HS a b.
  pose proof (final_edges _ _ _ _ _ _ _ _ _ _ HL HG HP HS (name_of gap_comp) a b) as He. rewrite comp_name in He.
  rewrite He, (apart_next db c H T order Eo th Eth). split; [|by right]. intros [(C & gs & HC & _)|[_ Hx]]; [congruence|exact Hx].
Qed.
Print Assumptions C67_gaps.

(** C67: a copy is made iff all matches can be computed, as long as there are less than 2^64 labels. *)
Theorem C67_succeeds : ∀ labels cs th order it idx ctype L W, gives_labels labels L → holds_graph cs W → plain W →
  (N.of_nat (node_labels labels (chosen_list it idx)) <= usize_max)%N → (N.of_nat (edge_labels cs (chosen_list it idx)) <= usize_max)%N →
  is_Some (subgraph labels cs th order it idx ctype) ↔ IErr ∉ it ∧ IPanic ∉ it.
Proof.
  intros labels cs th order it idx ctype L W HL HG HP Hn He. split.
  - intros [st Hs]. split; intros Hin; rewrite final_error in Hs by tauto; discriminate Hs.
  - intros [H1 H2]. exact (final_some _ _ _ _ _ _ _ _ _ HL HG HP H1 H2 Hn He).
Qed.
Print Assumptions C67_succeeds.

(** C67: the subgraph of matches with their context contains exactly the nodes of the context, and the gaps between its tokens are
    marked. Missing for the full property: as for [C45_gaps_partial], no two contexts overlap and each match is from one text. *)
Theorem C67_context_partial : ∀ db c, holds_content db c → texts_ok c →
  ∀ order, cp_order db = Some order → at_most_itself order (ct_order c) → ∀ th, th_new db = Some th → ∀ hash, hash_order hash →
  ∀ fuel rnd l r ns, (∀ n m, n ∈ ns → m ∈ ns → apart c l r n m) → (∀ n, n ∈ ns → one_text c n) →
  in_limit (ct_order c) (Included (N.of_nat l)) → in_limit (ct_order c) (Included (N.of_nat r)) →
  ∀ part_of P out, implements part_of P → (∀ n, is_target P n → ¬ token c n) →
  subgraph_nodes hash fuel rnd db part_of ns l r None out →
  ∀ labels cs L W st, gives_labels labels L → holds_graph cs W → plain W → W (name_of gap_comp) = None →
  subgraph labels cs (Some th) (Some order) ((λ n, IOk [(n, node_name_key)]) <$> out) [0] None = Some st →
  (∀ n k v, am_get_value (g_node_annos st) n k = Some v ↔ n ∈ out ∧ L !! (n, k) = Some v) ∧
  ∀ a b, b ∈ adj_out (writable st gap_comp) a ↔ gap c out a b.
Proof. exact context_copy. Qed.
Print Assumptions C67_context_partial.

(** ** Examples *)
(** Nodes 1 to 4 with a name; dominance edges 1→2→3→4, the first one with a label, an index component and a pointing relation. *)
Definition sub_graph : chain_graph :=
  [ (CName 2 [] [97%N], ([[1; 2; 3; 4]%N], [(Edge 1 2, AnnoKey [102%N] [], [120%N]); (Edge 3 4, AnnoKey [102%N] [], [121%N])]));
    (CName 3 [] [], ([[3; 1]%N], []));
    (CName 6 [] annis, ([[1; 3]%N], [])) ].
Lemma sub_ok : graph_ok sub_graph = true.
Proof. vm_compute. reflexivity. Qed.
Definition sub_labels (n : N) : list (anno_key * bytes) := if decide (n ∈ [1; 2; 3; 4]%N) then [(node_name_key, [n])] else [].
Definition sub_L : gmap (N * anno_key) bytes := list_to_map ((λ n, ((n, node_name_key), [n])) <$> [1; 2; 3; 4]%N).
Lemma sub_gives : gives_labels sub_labels sub_L.
Proof.
  intros n. unfold sub_labels, sub_L. destruct (decide (n ∈ [1; 2; 3; 4]%N)) as [Hn|Hn].
  - split; [apply NoDup_singleton|]. intros k v. rewrite elem_of_list_singleton. rewrite <- elem_of_list_to_map.
    + rewrite elem_of_list_fmap. split; [intros [= -> ->]; by exists n|]. by intros (m & [= -> -> ->] & _).
    + apply (bool_decide_unpack _). vm_compute. exact I.
  - split; [apply NoDup_nil_2|]. intros k v. split; [intros H; by apply elem_of_nil in H|]. intros H. apply elem_of_list_to_map_2 in H.
    apply elem_of_list_fmap in H as (m & [= -> -> ->] & Hm). done.
Qed.
Definition plain_check (g : chain_graph) : bool :=
  forallb (λ x, bool_decide (Forall (λ e, source e ≠ target e) (chain_edges x.2.1)) &&
                bool_decide (Forall (λ l, l.1.1 ∈ chain_edges x.2.1) (map_to_list (labels_map x.2.2)))) g.
Lemma plain_ok g : plain_check g = true → plain (graph_content g).
Proof.
  intros H c C HC. unfold graph_content in HC. destruct (al_get cname_compare g c) as [x|] eqn:E; [|done]. injection HC as <-.
  apply al_get_in in E; [|apply _]. unfold plain_check in H. rewrite forallb_forall in H. specialize (H (c, x) (proj1 (elem_of_list_In _ _) E)).
  rewrite andb_true_iff, !bool_decide_eq_true, !Forall_forall in H. destruct H as [H1 H2]. cbn [fst snd] in *. split.
  - intros y Hy. apply elem_of_list_to_set in Hy. by apply H1 in Hy.
  - intros e k [v Hv]. apply elem_of_list_to_set. apply (H2 ((e, k), v)). by apply elem_of_map_to_list.
Qed.
Lemma sub_plain : plain (graph_content sub_graph).
Proof. apply plain_ok. vm_compute. reflexivity. Qed.
(** Two matches of two nodes: the nodes 1, 2 and 4, and the edge 1→2 with its label *)
Definition sub_items : list item := [IOk [(1, node_name_key); (2, node_name_key)]; IOk [(1, node_name_key); (4, node_name_key)]]%N.
Definition sub_copy : option gstate := subgraph sub_labels (graph_components sub_graph) None None sub_items [0; 1] None.
Definition sub_view (st : option gstate) : option (list (option bytes) * list comp * list (list N) * option bytes) :=
  st ← st; Some ((λ n, am_get_value (g_node_annos st) n node_name_key) <$> [1; 2; 3; 4]%N, (map_to_list (g_comps st)).*1,
    adj_out (writable st (2, [97], [])%N) <$> [1; 2; 3]%N, am_get_value (g_annos (writable st (2, [97], [])%N)) (Edge 1 2) (AnnoKey [102%N] [])).
Example sub_example : sub_view sub_copy =
  Some ([Some [1]; Some [2]; None; Some [4]]%N, [(2, [97], [])%N], [[2]; []; []]%N, Some [120%N]).
Proof. vm_compute. reflexivity. Qed.
(** The hypotheses of the theorems are met *)
Example sub_hypotheses : gives_labels sub_labels sub_L ∧ holds_graph (graph_components sub_graph) (graph_content sub_graph) ∧ plain (graph_content sub_graph) ∧
  is_Some sub_copy ∧ copied (graph_content sub_graph) None (CName 2 [] [97%N]) ∧ comp_of (CName 2 [] [97%N]) ≠ gap_comp ∧
  chosen sub_items [0; 1] 4 ∧ ¬ chosen sub_items [0] 4.
Proof.
  split_and!; [exact sub_gives|exact (graph_holds sub_graph sub_ok)|exact sub_plain|apply (bool_decide_unpack _); vm_compute; exact I| |discriminate| |].
  - split_and!; [apply (bool_decide_unpack _); vm_compute; exact I| |done]. unfold index_component. cbn. intros [?|[?|[? _]]]; discriminate.
  - exists [(1, node_name_key); (4, node_name_key)]%N, 1, node_name_key. split_and!; [right; left|right; left|reflexivity].
  - intros (r & i & k & Hr & Hi & E). apply elem_of_list_singleton in Hi as ->. unfold sub_items in Hr. rewrite !elem_of_cons, elem_of_nil in Hr.
    destruct Hr as [[= ->]|[[= ->]|[]]]; discriminate E.
Qed.
(** Only the requested type of components *)
Example sub_typed : sub_view (subgraph sub_labels (graph_components sub_graph) None None [IOk [(1, node_name_key); (3, node_name_key)]]%N [0; 1] (Some 3%N)) =
  Some ([Some [1]; None; Some [3]; None]%N, [(3, [], [])%N], [[]; []; []]%N, None).
Proof. vm_compute. reflexivity. Qed.
(** Tokens 5 and 8 of the text 5→3→8 with the span 30: the gap is marked *)
Definition gap_copy (ms : list N) : option (list (list N)) :=
  st ← subgraph (λ n, [(node_name_key, [n])]) [] (Some ctx_th) (Some ctx_order) ((λ n, IOk [(n, node_name_key)]) <$> ms) [0] None;
  Some (adj_out (writable st gap_comp) <$> [5; 3; 8]%N).
Example gap_example : gap_copy [5; 30; 8; 1]%N = Some [[8]; []; []]%N.
Proof. vm_compute. reflexivity. Qed.

(** C67: for the matches of a query the marked gaps depend on the order of the matches: the same nodes in another order have another
    gap or none, and a gap can be marked although the tokens in between are in the copy. *)
Theorem C67_gaps_refuted : ∃ db c order th, holds_content db c ∧ texts_ok c ∧ cp_order db = Some order ∧ th_new db = Some th ∧
  ∃ labels L cs W, gives_labels labels L ∧ holds_graph cs W ∧ plain W ∧ W (name_of gap_comp) = None ∧
  ∃ ns ns' st st' a b, ns ≡ₚ ns' ∧
    subgraph labels cs (Some th) (Some order) ((λ n, IOk [(n, node_name_key)]) <$> ns) [0] None = Some st ∧
    subgraph labels cs (Some th) (Some order) ((λ n, IOk [(n, node_name_key)]) <$> ns') [0] None = Some st' ∧
    b ∈ adj_out (writable st gap_comp) a ∧ b ∉ adj_out (writable st' gap_comp) a ∧ ¬ gap c ns a b.
Proof.
  exists ctx_corpus, ctx_content, ctx_order, ctx_th. split_and!; [exact (corpus_of_holds ctx_ex ctx_check)|exact (ex_texts_ok ctx_ex ctx_check)|reflexivity|exact ctx_th_new|].
  exists sub_labels, sub_L, [], (λ _, None). split_and!.
  - exact sub_gives.
  - constructor; [constructor| |].
    + intros c. split; [intros H; by apply elem_of_nil in H|by intros [? ?]].
    + intros c gs C H. by apply elem_of_nil in H.
  - intros c C H. discriminate H.
  - reflexivity.
  - set (ns := [5; 8; 3]%N). set (ns'' := [5; 3; 8]%N).
    destruct (subgraph sub_labels [] (Some ctx_th) (Some ctx_order) ((λ n, IOk [(n, node_name_key)]) <$> ns) [0] None) as [st|] eqn:E; [|vm_compute in E; discriminate E].
    destruct (subgraph sub_labels [] (Some ctx_th) (Some ctx_order) ((λ n, IOk [(n, node_name_key)]) <$> ns'') [0] None) as [st'|] eqn:E'; [|vm_compute in E'; discriminate E'].
    exists ns, ns'', st, st', 5%N, 8%N. split_and!; [|exact E|exact E'| | |].
    + unfold ns, ns''. constructor. constructor.
    + assert ((λ st, adj_out (writable st gap_comp) 5%N) <$> Some st = Some [8%N]) as H by (rewrite <- E; vm_compute; reflexivity).
      injection H as ->. by left.
    + assert ((λ st, adj_out (writable st gap_comp) 5%N) <$> Some st' = Some []) as H by (rewrite <- E'; vm_compute; reflexivity).
      injection H as ->. apply not_elem_of_nil.
    + intros (_ & _ & _ & _ & _ & _ & H). apply (H 3%N).
      * right. right. left.
      * apply ctx_token. right. left.
      * apply (ex_precedes ctx_ex ctx_check). vm_compute. reflexivity.
      * apply (ex_precedes ctx_ex ctx_check). vm_compute. reflexivity.
Qed.
Print Assumptions C67_gaps_refuted.
