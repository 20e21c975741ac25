(** C54: the operators on edges (EdgeOpsSpec.v): dominance, pointing relations and part-of relations. *)
From stdpp Require Import base list gmap.
From Coq Require Import NArith Lia.
From Verif Require Import KeySer KeySerSpec SortedMap Types SymbolTable AnnoMem AnnoSpec GraphSpec Adjacency AdjacencySpec Storage StorageSpec
  StorageProofs ExampleStorages GraphApply TokenOps EdgeOps EdgeOpsSpec EdgeOpsProofs ExampleGraph.

(** The lookup of components finds each component of the type and name once. *)
Theorem C54_components : ∀ cs W ctype name, holds_graph cs W →
  NoDup (all_components cs ctype name) ∧
  ∀ c, c ∈ all_components cs ctype name ↔
    is_Some (W c) ∧ (∀ t, ctype = Some t → cn_type c = t) ∧ (∀ n, name = Some n → cn_name c = n).
Proof. intros cs W ctype name H. split; [by eapply all_components_nodup|]. by apply all_components_in. Qed.
Print Assumptions C54_components.

(** An operator is refused if a component it needs is not loaded (or if there is no part-of relation). *)
Theorem C54_created : ∀ cs W cheap q, holds_graph cs W →
  is_Some (create cs cheap q) ↔
  loaded cs (q_component q) ∧ match q with QPartOf _ => is_Some (W (CName 7 [] annis)) | _ => True end.
Proof. intros cs W cheap q H. exact (create_some cs W H cheap q). Qed.
Print Assumptions C54_created.

(** The test of two nodes, and the candidates for one node. *)
Theorem C54_check_partial : ∀ rx cs W cheap q op a b, holds_graph cs W → create cs cheap q = Some op → q_usable W q a b →
  edge_filter rx op a b = true ↔ linked rx W q a b.
Proof.
  intros rx cs W cheap q op a b H E Hu. destruct (create_made cs W H cheap q op E) as [M Hi].
  pose proof (filter_lemma rx cs W H q op a b M) as HH. rewrite Hi in HH. by apply HH.
Qed.
Print Assumptions C54_check_partial.
Theorem C54_candidates_partial : ∀ rx cs W cheap q op a b, holds_graph cs W → create cs cheap q = Some op → q_usable W q a b →
  b ∈ edge_retrieve rx op a ↔ linked rx W q a b.
Proof.
  intros rx cs W cheap q op a b H E Hu. destruct (create_made cs W H cheap q op E) as [M Hi].
  pose proof (retrieve_lemma rx cs W H q op a b M) as HH. rewrite Hi in HH. by apply HH.
Qed.
Print Assumptions C54_candidates_partial.
(** No candidate is found twice, even if it is reached in several components. *)
Theorem C54_candidates_once : ∀ rx cs W cheap q op a, holds_graph cs W → create cs cheap q = Some op →
  (∀ c C, q_component q c → W c = Some C → in_limit (co_edges C) (max_dist (q_dist q)) ∧ range_ok (min_dist (q_dist q)) (max_dist (q_dist q))) →
  NoDup (edge_retrieve rx op a).
Proof. intros rx cs W cheap q op a H E Hu. destruct (create_made cs W H cheap q op E) as [M _]. by eapply retrieve_nodup. Qed.
Print Assumptions C54_candidates_once.

(** The inverse operator holds for exchanged operands, whatever decides if there is one. *)
Theorem C54_inverse_partial : ∀ rx cs W cheap q op op' same_cost narrow a b, holds_graph cs W → create cs cheap q = Some op →
  edge_inverse same_cost narrow op = Some op' → q_usable W q a b →
  (edge_filter rx op' b a = true ↔ linked rx W q a b) ∧ (a ∈ edge_retrieve rx op' b ↔ linked rx W q a b).
Proof.
  intros rx cs W cheap q op op' sc nw a b H E E' Hu. destruct (create_made cs W H cheap q op E) as [M Hi].
  destruct (inverse_made cs W q op op' sc nw M E') as [M' Hi']. rewrite Hi in Hi'. cbn in Hi'.
  pose proof (filter_lemma rx cs W H q op' b a M') as HH. pose proof (retrieve_lemma rx cs W H q op' b a M') as HH'.
  rewrite Hi' in HH, HH'. split; [by apply HH|by apply HH'].
Qed.
Print Assumptions C54_inverse_partial.
(** The test of the inverse operator is the test of the operator, without any condition. *)
Theorem C54_inverse_check : ∀ rx op op' same_cost narrow a b, edge_inverse same_cost narrow op = Some op' →
  edge_filter rx op' b a = edge_filter rx op a b.
Proof.
  intros rx op op' sc nw a b. unfold edge_inverse. destruct (forallb _ _); [|done]. intros [= <-].
  unfold edge_filter. cbn. by destruct (eo_inverse op).
Qed.
Print Assumptions C54_inverse_check.

(** ":arity": the number of different children in all dominance and pointing relations. *)
Theorem C54_arity : ∀ cs W range n, holds_graph cs W → loaded cs (λ c, cn_type c = 2%N ∨ cn_type c = 3%N) →
  arity_filter cs range n = true ↔ ∃ S, children W n S ∧ allowed range (size S).
Proof. intros cs W range n H Hl. by apply arity_lemma. Qed.
Print Assumptions C54_arity.
(** The same node *)
Theorem C54_same_node : ∀ a b, (identical_node_filter a b = true ↔ a = b) ∧ (b ∈ identical_node_retrieve a ↔ a = b).
Proof.
  intros a b. split; [apply bool_decide_eq_true|]. unfold identical_node_retrieve. rewrite elem_of_list_singleton. naive_solver.
Qed.
Print Assumptions C54_same_node.

(** Example: dominance relations in two layers, the second one with a label, and a pointing relation. *)
Definition dom_graph : chain_graph :=
  [ (CName 2 [] [97%N], ([[1; 2; 3]%N; [5; 6]%N], []));
    (CName 2 [] [98%N], ([[1; 3]%N], [(Edge 1 3, AnnoKey [102%N] [], [120%N])]));
    (CName 2 [99%N] [97%N], ([[1; 4]%N], []));
    (CName 3 [] [], ([[3; 1; 4]%N], []));
    (CName 7 [] annis, ([[1; 10; 11]%N], [])) ].
Definition no_rx : bytes → option (bytes → bool) := λ _, None.
Lemma dom_ok : graph_ok dom_graph = true.
Proof. vm_compute. reflexivity. Qed.
Definition dom_holds := graph_holds dom_graph dom_ok.
Definition found (q : edge_query) (a : N) : option (list N) := (λ op, edge_retrieve no_rx op a) <$> create (graph_components dom_graph) false q.
Example dom_candidates :
  found (QDominance [] (RBound 1 2) None) 1 = Some [2; 3]%N ∧
  found (QDominance [] (RBound 2 2) None) 1 = Some [3%N] ∧
  found (QDominance [] (RBound 1 1) (Some (LExact None [102%N] (Some [120%N])))) 1 = Some [3%N] ∧
  found (QDominance [] (RBound 1 1) (Some (LNotExact None [102%N] [120%N]))) 1 = Some [] ∧
  found (QPointing [] RUnbound None) 3 = Some [1; 4]%N ∧
  found (QPartOf (RBound 1 1)) 1 = Some [10%N] ∧
  arity_filter (graph_components dom_graph) (RBound 3 3) 1 = true.
Proof. split_and!; vm_compute; reflexivity. Qed.
Lemma chain_limit m cs ls : (m <= 1000)%N → chain_ok cs = true → in_limit (co_edges (chain_component cs ls)) (Included m).
Proof.
  intros Hm Hc. unfold chain_ok in Hc. rewrite !andb_true_iff, !bool_decide_eq_true in Hc. destruct Hc as [[[H1 H2] _] _].
  pose proof (chain_size cs H1 H2) as Hs. unfold in_limit. cbn [co_edges chain_component].
  assert (m + N.of_nat (size (all_nodes (list_to_set (chain_edges cs)))) <= 2000)%N as Hle by (clear -Hm Hs; lia).
  etrans; [exact Hle|]. apply N.leb_le. vm_compute. reflexivity.
Qed.
Example dom_usable : ∀ a b, q_usable (graph_content dom_graph) (QDominance [] (RBound 1 2) None) a b.
Proof.
  intros a b c C Hc HW. split_and!; [| |left].
  - unfold graph_content in HW. destruct (al_get cname_compare dom_graph c) as [v|] eqn:E; [|discriminate HW]. injection HW as <-.
    apply al_get_in in E; [|apply _]. apply chain_limit; [by apply N.leb_le; vm_compute|].
    assert (forallb (λ x, chain_ok x.2.1) dom_graph = true) as Hf by (vm_compute; reflexivity).
    rewrite forallb_forall in Hf. exact (Hf (c, v) (proj1 (elem_of_list_In _ _) E)).
  - apply N.leb_le. vm_compute. reflexivity.
  - apply N.leb_le. vm_compute. reflexivity.
Qed.

(** "A >0 B": for nodes which are not in the component, the result depends on how the component is stored. *)
Definition zero_edges : list edge := chain_edges [[1; 2]%N].
Definition zero_name : cname := CName 2 [] [].
Lemma zero_ok : edges_ok zero_edges = true.
Proof. vm_compute. reflexivity. Qed.
Theorem C54_distance_zero_refuted : ∃ cs cs' W q op op' n, holds_graph cs W ∧ holds_graph cs' W ∧
  create cs false q = Some op ∧ create cs' false q = Some op' ∧ n ∈ edge_retrieve no_rx op n ∧ n ∉ edge_retrieve no_rx op' n.
Proof.
  set (g := [(zero_name, ([[1; 2]%N], []))] : chain_graph).
  set (cs := [(zero_name, Some (with_labels (adj_of zero_edges zero_ok) (labels_am []).1))] : components).
  assert (graph_ok g = true) as Hok by (vm_compute; reflexivity). pose proof (graph_holds g Hok) as Hg.
  assert (holds_graph cs (graph_content g)) as Hc.
  { constructor.
    - apply names_sorted_al. reflexivity.
    - intros c. rewrite <- (hg_names _ _ Hg). reflexivity.
    - intros c gs C Hin HW. apply elem_of_list_singleton in Hin as [= -> ->].
      assert (graph_content g zero_name = Some (chain_component [[1; 2]%N] [])) as E by reflexivity. rewrite E in HW. injection HW as <-. split.
      + apply with_labels_implements. apply (adj_of_implements zero_edges zero_ok).
      + exists (label_ops []), (labels_am []).2. split; [apply surjective_pairing|reflexivity]. }
  exists cs, (graph_components g), (graph_content g), (QDominance [] (RBound 0 1) None).
  eexists _, _, 9%N. split_and!; [exact Hc|exact Hg|reflexivity|reflexivity| |].
  - apply elem_of_list_filter. split; [reflexivity|].
    apply (adj_connected_spec _ _ (graph_of_ginv zero_edges) (graph_of_ids zero_edges zero_ok) 9 0 (Included 1%N)); [exact Logic.I|].
    exists []. split; [split; [reflexivity|apply NoDup_singleton]|]. split; [apply N.leb_le; reflexivity|apply N.leb_le; reflexivity].
  - match goal with |- _ ∉ ?l => assert (l = []) as -> by (vm_compute; reflexivity) end. apply not_elem_of_nil.
Qed.
Print Assumptions C54_distance_zero_refuted.
