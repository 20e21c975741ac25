(** C42: a graph survives the export to and the import from GraphML. *)
From Coq Require Import NArith String.
From stdpp Require Import base list gmap.
From Verif Require Import KeySer Types SymbolTable AnnoMem Adjacency CompPath GraphUpdate GraphApply GraphApplySpec GraphApplyProofs GraphApplyHistory
  GraphApplyProps GraphML GraphMLSpec GraphMLFinal.

(** C42: the graph after any history of updates, exported with or without a stable order of all elements and imported again, has the same nodes with the
    same labels, the same edges with the same labels and the same configuration; labels may have any value. [sort_comps], [sort_keys] and
    [sort_nodes] are the orders in which elements are exported, [drain] the order in which labels are taken out of a hash map. Missing for the full
    property: names which have to be escaped, nodes without a type, and configurations with the end mark of CDATA, which are all changed or lost, see the
    refutations below; and the histories which are excluded from C22. *)
Theorem C42_round_trip_partial :
  ∀ ct ctname auto sort_comps sort_keys sort_nodes drain us st A config D,
  (∀ l, sort_comps l ≡ₚ l) → (∀ l, sort_keys l ≡ₚ l) → (∀ l, sort_nodes l ≡ₚ l) → (∀ d, drain d ≡ₚ map_to_list d) →
  apply_updates ct g_empty us = Some st → history_ok ct lg_empty (events_of us) →
  A = lg_history ct lg_empty (events_of us) →
  exportable ct ctname auto A → match config with Some c => no_cdata_end c | None => True end →
  (N.of_nat (2 * (size (lg_labels A) + size (lg_edges A) + size (lg_elabels A))) <= usize_max)%N →
  observes st A ∧
  ∃ es st', export ctname auto sort_comps sort_keys sort_nodes config st = Some es ∧
    import ct ctname drain (g_start D) (transfer 0 false es) = Some (st', config) ∧ observes st' (written auto D A).
Proof.
  intros ct ctname auto sc sk sn dr us st A config D Hsc Hsk Hsn Hdr Hu Hok -> HX Hc Hb.
  destruct (history_okR ct us _ _ _ _ _ _ R_empty Hok Hu) as (ι & M & Gs & HR). split; [exact (R_observes _ _ _ _ _ HR)|].
  exact (round_trip ct ctname auto sc sk sn dr st _ ι M Gs config D Hsc Hsk Hsn Hdr HR HX Hc Hb).
Qed.
Print Assumptions C42_round_trip_partial.

(** The default component type *)
Definition dname (t : N) : bytes := str "Edge".
Definition exp (config : option bytes) (st : gstate) : option (list wevent) := export dname [] id id id config st.
Definition imp (es : list wevent) : option (gstate * option bytes) := import default_ctype dname map_to_list (g_start ∅) (transfer 0 false es).
Definition round_of (config : option bytes) (us : list (list (N * event))) : option (gstate * gstate * option bytes) :=
  match apply_updates default_ctype g_empty us with
  | Some st => match exp config st with Some es => match imp es with Some (st', c) => Some (st, st', c) | None => None end | None => None end
  | None => None
  end.
Lemma round_of_Some config us st st' c : round_of config us = Some (st, st', c) →
  apply_updates default_ctype g_empty us = Some st ∧ ∃ es, exp config st = Some es ∧ imp es = Some (st', c).
Proof.
  unfold round_of. destruct (apply_updates default_ctype g_empty us) as [s|] eqn:E1; [|discriminate 1].
  destruct (exp config s) as [es|] eqn:E2; [|discriminate 1]. destruct (imp es) as [[s' c']|] eqn:E3; [|discriminate 1].
  intros H. injection H as H1 H2 H3. subst. split; [reflexivity|]. exists es. split; assumption.
Qed.

(** C42: a node whose name contains & is imported with a different name. *)
Definition amp_u : list (list (N * event)) := [[(1%N, AddNode (str "a&b") (str "node"))]].
Theorem C42_node_name_refuted :
  ∃ us st es st', apply_updates default_ctype g_empty us = Some st ∧ exp None st = Some es ∧ imp es = Some (st', None) ∧
  is_Some (id_of st (str "a&b")) ∧ id_of st' (str "a&b") = None ∧ is_Some (id_of st' (str "a&amp;b")).
Proof.
  assert (match round_of None amp_u with
    | Some (st, st', None) => bool_decide (is_Some (id_of st (str "a&b"))) && bool_decide (id_of st' (str "a&b") = None) && bool_decide (is_Some (id_of st' (str "a&amp;b")))
    | _ => false end = true) as H by (vm_compute; reflexivity).
  destruct (round_of None amp_u) as [[[st st'] [c|]]|] eqn:E; [discriminate H| |discriminate H].
  apply round_of_Some in E as (E1 & es & E2 & E3). apply andb_true_iff in H as [[H1 H2]%andb_true_iff H3]. apply bool_decide_eq_true in H1, H2, H3.
  exists amp_u, st, es, st'. split; [exact E1|]. split; [exact E2|]. split; [exact E3|]. split; [exact H1|]. split; [exact H2|exact H3].
Qed.
Print Assumptions C42_node_name_refuted.

(** C42: a label whose name has a space is imported with a different name. *)
Definition key_u : list (list (N * event)) := [[(1%N, AddNode (str "a") (str "node")); (2%N, AddNodeLabel (str "a") (str "ns") (str "b c") (str "v"))]].
Theorem C42_label_name_refuted :
  ∃ us st es st' i i', apply_updates default_ctype g_empty us = Some st ∧ exp None st = Some es ∧ imp es = Some (st', None) ∧
  id_of st (str "a") = Some i ∧ am_get_value (g_node_annos st) i (AnnoKey (str "b c") (str "ns")) = Some (str "v") ∧
  id_of st' (str "a") = Some i' ∧ am_get_value (g_node_annos st') i' (AnnoKey (str "b c") (str "ns")) = None ∧
  am_get_value (g_node_annos st') i' (AnnoKey (str "b%20c") (str "ns")) = Some (str "v").
Proof.
  assert (match round_of None key_u with
    | Some (st, st', None) => bool_decide (id_of st (str "a") = Some 0%N) && bool_decide (am_get_value (g_node_annos st) 0%N (AnnoKey (str "b c") (str "ns")) = Some (str "v")) &&
        bool_decide (id_of st' (str "a") = Some 0%N) && bool_decide (am_get_value (g_node_annos st') 0%N (AnnoKey (str "b c") (str "ns")) = None) &&
        bool_decide (am_get_value (g_node_annos st') 0%N (AnnoKey (str "b%20c") (str "ns")) = Some (str "v"))
    | _ => false end = true) as H by (vm_compute; reflexivity).
  destruct (round_of None key_u) as [[[st st'] [c|]]|] eqn:E; [discriminate H| |discriminate H].
  apply round_of_Some in E as (E1 & es & E2 & E3). apply andb_true_iff in H as [[[[H1 H2]%andb_true_iff H3]%andb_true_iff H4]%andb_true_iff H5].
  apply bool_decide_eq_true in H1, H2, H3, H4, H5.
  exists key_u, st, es, st', 0%N, 0%N. split; [exact E1|]. split; [exact E2|]. split; [exact E3|]. split; [exact H1|]. split; [exact H2|].
  split; [exact H3|]. split; [exact H4|exact H5].
Qed.
Print Assumptions C42_label_name_refuted.

(** C42: an edge in a component whose layer contains a slash is imported into a different component. *)
Definition layer_u : list (list (N * event)) := [[(1%N, AddNode (str "a") (str "node")); (2%N, AddNode (str "b") (str "node"));
  (3%N, GraphUpdate.AddEdge (str "a") (str "b") (str "x/y") (str "Edge") (str "z"))]].
Theorem C42_layer_refuted :
  ∃ us st es st', apply_updates default_ctype g_empty us = Some st ∧ exp None st = Some es ∧ imp es = Some (st', None) ∧
  (∃ g, g_comps st !! (0%N, str "x/y", str "z") = Some g ∧ 1%N ∈ adj_out g 0%N) ∧ g_comps st' !! (0%N, str "x/y", str "z") = None ∧
  ∃ g, g_comps st' !! (0%N, str "x", str "y/z") = Some g ∧ 1%N ∈ adj_out g 0%N.
Proof.
  assert (match round_of None layer_u with
    | Some (st, st', None) => match g_comps st !! (0%N, str "x/y", str "z") with Some g => bool_decide (1%N ∈ adj_out g 0%N) | None => false end &&
        bool_decide (g_comps st' !! (0%N, str "x/y", str "z") = None) &&
        match g_comps st' !! (0%N, str "x", str "y/z") with Some g => bool_decide (1%N ∈ adj_out g 0%N) | None => false end
    | _ => false end = true) as H by (vm_compute; reflexivity).
  destruct (round_of None layer_u) as [[[st st'] [c|]]|] eqn:E; [discriminate H| |discriminate H].
  apply round_of_Some in E as (E1 & es & E2 & E3). apply andb_true_iff in H as [[H1 H2]%andb_true_iff H3]. apply bool_decide_eq_true in H2.
  exists layer_u, st, es, st'. split; [exact E1|]. split; [exact E2|]. split; [exact E3|]. split; [|split; [exact H2|]].
  - destruct (g_comps st !! (0%N, str "x/y", str "z")) as [g|]; [|discriminate H1]. exists g. split; [reflexivity|]. apply bool_decide_eq_true in H1. exact H1.
  - destruct (g_comps st' !! (0%N, str "x", str "y/z")) as [g|]; [|discriminate H3]. exists g. split; [reflexivity|]. apply bool_decide_eq_true in H3. exact H3.
Qed.
Print Assumptions C42_layer_refuted.

(** C42: a node without the label annis::node_type is lost, with all its edges. *)
Definition type_u : list (list (N * event)) := [[(1%N, AddNode (str "a") (str "node")); (2%N, AddNode (str "b") (str "node"));
  (3%N, GraphUpdate.AddEdge (str "a") (str "b") [] (str "Edge") []); (4%N, DeleteNodeLabel (str "a") (str "annis") (str "node_type"))]].
Theorem C42_node_type_refuted :
  ∃ us st es st', apply_updates default_ctype g_empty us = Some st ∧ exp None st = Some es ∧ imp es = Some (st', None) ∧
  is_Some (id_of st (str "a")) ∧ (∃ g, g_comps st !! (0%N, [], []) = Some g ∧ 1%N ∈ adj_out g 0%N) ∧
  id_of st' (str "a") = None ∧ g_comps st' !! (0%N, [], []) = None.
Proof.
  assert (match round_of None type_u with
    | Some (st, st', None) => bool_decide (is_Some (id_of st (str "a"))) &&
        match g_comps st !! (0%N, [], []) with Some g => bool_decide (1%N ∈ adj_out g 0%N) | None => false end &&
        bool_decide (id_of st' (str "a") = None) && bool_decide (g_comps st' !! (0%N, [], []) = None)
    | _ => false end = true) as H by (vm_compute; reflexivity).
  destruct (round_of None type_u) as [[[st st'] [c|]]|] eqn:E; [discriminate H| |discriminate H].
  apply round_of_Some in E as (E1 & es & E2 & E3). apply andb_true_iff in H as [[[H1 H2]%andb_true_iff H3]%andb_true_iff H4].
  apply bool_decide_eq_true in H1, H3, H4.
  exists type_u, st, es, st'. split; [exact E1|]. split; [exact E2|]. split; [exact E3|]. split; [exact H1|]. split; [|split; [exact H3|exact H4]].
  destruct (g_comps st !! (0%N, [], [])) as [g|]; [|discriminate H2]. exists g. split; [reflexivity|]. apply bool_decide_eq_true in H2. exact H2.
Qed.
Print Assumptions C42_node_type_refuted.

(** C42: a configuration with the end mark of CDATA is cut off. *)
Theorem C42_configuration_refuted :
  ∃ us st es st', apply_updates default_ctype g_empty us = Some st ∧ exp (Some (str "a = ']]>'")) st = Some es ∧ imp es = Some (st', Some (str "a = '")).
Proof.
  assert (match round_of (Some (str "a = ']]>'")) amp_u with Some (st, st', Some c) => bool_decide (c = str "a = '") | _ => false end = true) as H
    by (vm_compute; reflexivity).
  destruct (round_of (Some (str "a = ']]>'")) amp_u) as [[[st st'] [c|]]|] eqn:E; [|discriminate H|discriminate H].
  apply round_of_Some in E as (E1 & es & E2 & E3). apply bool_decide_eq_true in H. rewrite H in E3.
  exists amp_u, st, es, st'. split; [exact E1|]. split; [exact E2|exact E3].
Qed.
Print Assumptions C42_configuration_refuted.

(** The hypotheses hold for the history of the example of C22, which leaves three nodes and an edge with a label. *)
Global Instance xml_plain_dec s : Decision (xml_plain s).
Proof. unfold xml_plain. apply _. Defined.
Global Instance key_plain_dec s : Decision (key_plain s).
Proof. unfold key_plain. apply _. Defined.
Definition key_b (k : anno_key) : bool := bool_decide (key_plain (ak_ns k)) && bool_decide (key_plain (ak_name k)).
Definition label_b (L : gmap (bytes * anno_key) bytes) (x : bytes * anno_key * bytes) : bool :=
  implb (bool_decide (x.1.2 = node_name_key)) (bool_decide (xml_plain x.1.1) && match L !! (x.1.1, node_type_key) with Some _ => true | None => false end) && key_b x.1.2.
Definition edge_b (x : comp * (bytes * bytes)) : bool :=
  bool_decide (x.1.1.1 = 0%N) && bool_decide (slash ∉ x.1.1.2) && bool_decide (xml_plain x.1.1.2) && bool_decide (xml_plain x.1.2).
Definition exportable_b (A : lgraph) : bool :=
  forallb (label_b (lg_labels A)) (map_to_list (lg_labels A)) && forallb (λ x, key_b x.1.2) (map_to_list (lg_elabels A)) && forallb edge_b (elements (lg_edges A)) &&
  bool_decide (slash ∉ dname 0) && bool_decide (xml_plain (dname 0)).
Lemma forallb_in {X} (f : X → bool) l x : forallb f l = true → x ∈ l → f x = true.
Proof. intros H Hx. rewrite forallb_forall in H. by apply H, elem_of_list_In. Qed.
Lemma exportable_b_ok A : exportable_b A = true → exportable default_ctype dname [] A.
Proof.
  unfold exportable_b. intros [[[[H1 H2]%andb_true_iff H3]%andb_true_iff H4]%andb_true_iff H5]%andb_true_iff. apply bool_decide_eq_true in H4, H5.
  assert (∀ k, key_b k = true → key_plain (ak_ns k) ∧ key_plain (ak_name k)) as Hk.
  { intros k [E1 E2]%andb_true_iff. by apply bool_decide_eq_true in E1, E2. }
  split.
  - intros n [v Hv]. apply elem_of_map_to_list in Hv. pose proof (forallb_in _ _ _ H1 Hv) as [E _]%andb_true_iff. cbn [fst snd] in E.
    rewrite bool_decide_true in E by done. cbn [implb] in E. apply andb_true_iff in E as [E1 E2]. apply bool_decide_eq_true in E1. split; [done|].
    destruct (lg_labels A !! (n, node_type_key)) as [t|]; [by exists t|done].
  - intros n k [v Hv]. apply elem_of_map_to_list in Hv. pose proof (forallb_in _ _ _ H1 Hv) as [_ E]%andb_true_iff. by apply Hk.
  - intros c p k _ [v Hv]. apply elem_of_map_to_list in Hv. pose proof (forallb_in _ _ _ H2 Hv) as E. by apply Hk.
  - intros t l n p Hp _. apply elem_of_elements in Hp. pose proof (forallb_in _ _ _ H3 Hp) as E. unfold edge_b in E. cbn [fst snd] in E.
    apply andb_true_iff in E as [[[E1 E2]%andb_true_iff E3]%andb_true_iff E4]. apply bool_decide_eq_true in E1, E2, E3, E4. subst t. by split_and!.
Qed.
Definition ex_A : lgraph := lg_history default_ctype lg_empty (events_of ex_history).
Example exportable_example : exportable default_ctype dname [] ex_A.
Proof. apply exportable_b_ok. vm_compute. reflexivity. Qed.
Example round_trip_example : ∃ st es st', apply_updates default_ctype g_empty ex_history = Some st ∧
  exp (Some (str "[context]")) st = Some es ∧ imp es = Some (st', Some (str "[context]")) ∧ observes st' (written [] ∅ ex_A) ∧ size (lg_edges ex_A) = 1.
Proof.
  destruct history_succeeds as [st Hst].
  destruct (C42_round_trip_partial default_ctype dname [] id id id map_to_list ex_history st ex_A (Some (str "[context]")) ∅) as (_ & es & st' & E1 & E2 & E3).
  - reflexivity.
  - reflexivity.
  - reflexivity.
  - reflexivity.
  - exact Hst.
  - exact history_ok_example.
  - unfold ex_A. reflexivity.
  - exact exportable_example.
  - intros a b H. apply (f_equal (λ s, bool_decide (62%N ∈ s))) in H. assert (bool_decide (62%N ∈ str "[context]") = false) as E by (vm_compute; reflexivity).
    rewrite E in H. symmetry in H. apply bool_decide_eq_false in H. apply H. apply elem_of_app. right. apply elem_of_app. left. repeat constructor.
  - assert (bool_decide (size (lg_labels ex_A) + size (lg_edges ex_A) + size (lg_elabels ex_A) <= 100) = true) as H by (vm_compute; reflexivity).
    apply bool_decide_eq_true in H. revert H. generalize (size (lg_labels ex_A) + size (lg_edges ex_A) + size (lg_elabels ex_A)). intros n H. unfold usize_max. lia.
  - exists st, es, st'. split; [exact Hst|]. split; [exact E1|]. split; [exact E2|]. split; [exact E3|]. vm_compute. reflexivity.
Qed.
