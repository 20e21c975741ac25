(** C69: the size of a corpus. *)
From stdpp Require Import base list gmap.
From Coq Require Import NArith.
From Verif Require Import KeySer SortedMap Types SymbolTable AnnoMem AnnoSpec GraphSpec Adjacency AdjacencySpec AdjacencyProofs LinearProps Storage StorageSpec StorageProofs GraphApply
  TokenHelper SortMatches QuickSort TokenSearch TokenSearchSpec TokenSearchProps CorpusSize CorpusSizeSpec CorpusSizeProofs.

(** Statistics can be calculated for each corpus. *)
Theorem C69_statistics_exist : ∀ db c orders, holds_content db c → ∃ st, is_statistics db orders st.
Proof. exact statistics_exist. Qed.

(** The number of tokens in the statistics is the number of tokens of the corpus, if there is a component for their order. *)
Theorem C69_tokens_partial : ∀ db c orders st, holds_content db c → is_Some (cp_order db) → is_statistics db orders st →
  ∃ n segs, gl_size st = Tokens_counted n segs ∧ counts (token c) n.
Proof. exact tokens_counted. Qed.

(** It is the number of results of the search for all tokens, if all tokens are part of the order. *)
Theorem C69_search_agrees_partial : ∀ db c orders st fuel rnd l, holds_content db c → texts_ok c → is_Some (cp_order db) →
  (∀ n, token c n → n ∈ all_nodes (ct_order c)) → is_statistics db orders st → token_search fuel rnd db = Done l →
  ∃ segs, gl_size st = Tokens_counted (length l) segs.
Proof. exact search_agrees. Qed.

(** The number for a segmentation is the number of nodes in its order, if there is one component with this name and no edges have
    been deleted; otherwise it is at least this number. *)
Theorem C69_segmentation_partial : ∀ db orders st layer s gs ops oks, is_statistics db orders st → s ≠ [] →
  ((layer, s), gs) ∈ orders → (∀ layer' gs', ((layer', s), gs') ∈ orders → gs' = gs) → segmentation gs ops oks →
  ∃ tokens segs n, gl_size st = Tokens_counted tokens segs ∧ segs !! s = Some n ∧
    (adds_only ops → counts (λ x, x ∈ all_nodes (gr_edges (graph_run empty_graph ops oks))) n) ∧
    ∀ k, counts (λ x, x ∈ all_nodes (gr_edges (graph_run empty_graph ops oks))) k → k ≤ n.
Proof. exact segmentation_counted. Qed.

(** There are no other segmentations, and none is left out. *)
Theorem C69_segmentations : ∀ db orders st s, is_statistics db orders st → s ≠ [] →
  ∃ tokens segs, gl_size st = Tokens_counted tokens segs ∧
    (∀ n, segs !! s = Some n → ∃ layer gs, ((layer, s), gs) ∈ orders ∧ gs_nodes gs = Some n) ∧
    (segs !! s = None → ∀ layer gs, ((layer, s), gs) ∈ orders → gs_nodes gs = None).
Proof. exact segmentation_count. Qed.

(** The configuration: the size has the configured unit, or that of the displayed text, or tokens, with the number of the statistics;
    without a number for this unit there is no size. Nothing else is changed. *)
Theorem C69_configuration : ∀ cfg st tokens segs cfg' changed, gl_size st = Tokens_counted tokens segs →
  update_corpus_size_info cfg (Some st) = (cfg', changed) →
  changed = true ∧ sc_base_text cfg' = sc_base_text cfg ∧
  let u := match sc_size cfg, sc_base_text cfg with
           | Some i, _ => si_unit i
           | None, Some s => Segmentation s
           | None, None => Tokens
           end in
  sc_size cfg' = match size_in tokens (λ s, segs !! s) u with Some q => Some (SizeInfo q u) | None => None end.
Proof. exact update_size. Qed.

(** A configured unit is kept and the update can be repeated, if the statistics have a number for it. *)
Theorem C69_unit_kept_partial : ∀ cfg st tokens segs i, gl_size st = Tokens_counted tokens segs → sc_size cfg = Some i →
  is_Some (size_in tokens (λ s, segs !! s) (si_unit i)) →
  let cfg' := (update_corpus_size_info cfg (Some st)).1 in
  (∃ q, sc_size cfg' = Some (SizeInfo q (si_unit i)) ∧ size_in tokens (λ s, segs !! s) (si_unit i) = Some q) ∧
  (update_corpus_size_info cfg' (Some st)).1 = cfg'.
Proof. exact unit_kept. Qed.

(** * Examples and counterexamples *)
(** The corpus of TokenSearchProps.v with a segmentation of three nodes *)
Definition ex_ops : list adj_op := [AddEdge (Edge 31 32); AddEdge (Edge 32 33)]%N.
Definition with_nodes (n : nat) : storage :=
  Storage (gs_out empty_adj) (gs_in empty_adj) (gs_sources empty_adj) (gs_roots empty_adj) (gs_connected empty_adj)
    (gs_connected_inverse empty_adj) (gs_distance empty_adj) (gs_is_connected empty_adj) (gs_annos empty_adj) (Some n).
Definition ex_seg : bytes := [100]%N.
Definition ex_orders : list (order_name * storage) := [((annis, []), order_adj); (([], ex_seg), with_nodes 3)].
Definition ex_stats : global_stats := GlobalStats true (Tokens_counted 7 {[ex_seg := 3]}).
Example statistics_example : is_statistics (ex_corpus order_adj None) ex_orders ex_stats.
Proof. exists (seg_entries ex_orders). split; [done|]. vm_compute. reflexivity. Qed.
Example tokens_example : holds_content (ex_corpus order_adj None) ex_content ∧ is_Some (cp_order (ex_corpus order_adj None)) ∧ counts (token ex_content) 7.
Proof.
  split; [apply ex_holds_adj|]. split; [by eexists|]. exists [7; 5; 3; 8; 1; 20; 21]%N. split; [apply (bool_decide_eq_true _); vm_compute; reflexivity|].
  split; [|reflexivity]. intros n. symmetry. apply ex_tokens.
Qed.
Example segmentation_example : segmentation (with_nodes 3) ex_ops [true; true] ∧ adds_only ex_ops.
Proof.
  split; [|repeat constructor]. eexists _, 10, _. split; [repeat constructor|]. split; [vm_compute; reflexivity|].
  split; [vm_compute; reflexivity|]. reflexivity.
Qed.
Example configuration_example : ∀ old, update_corpus_size_info (SizeConfig (Some (SizeInfo old (Segmentation ex_seg))) None) (Some ex_stats) =
  (SizeConfig (Some (SizeInfo 3 (Segmentation ex_seg))) None, true).
Proof. intros old. vm_compute. reflexivity. Qed.

(** Without a component for the order no token is counted. *)
Theorem C69_no_order_refuted : ∃ db c st n, holds_content db c ∧ token c n ∧ is_statistics db [] st ∧ gl_size st = Tokens_counted 0 ∅.
Proof.
  exists (Corpus ex_labels [] (Some empty_adj) (Some empty_adj) None None), (Content (ct_labels ex_content) [] ∅ ∅ ∅), (GlobalStats false (Tokens_counted 0 ∅)), 7%N.
  split.
  { constructor.
    - exists ex_label_ops, (am_run N.compare am_new ex_label_ops).2. split; [apply surjective_pairing|reflexivity].
    - constructor.
    - exists empty_adj. split; [reflexivity|]. apply empty_implements.
    - exists empty_adj. split; [reflexivity|]. apply empty_implements.
    - reflexivity. }
  split.
  { destruct (proj1 ex_lone) as [H _]. split; [exact H|]. intros (G & HG & _). cbn in HG. by apply elem_of_nil in HG. }
  split; [|reflexivity]. exists []. split; [done|]. vm_compute. reflexivity.
Qed.
(** After edges have been deleted, nodes are counted that are no longer part of the segmentation. *)
Definition ex_deleted : list adj_op := [AddEdge (Edge 31 32); DelEdge (Edge 31 32)]%N.
Theorem C69_deleted_refuted : ∃ db orders st layer s gs ops oks n, is_statistics db orders st ∧ orders = [((layer, s), gs)] ∧ segmentation gs ops oks ∧
  gl_size st = Tokens_counted n {[s := 1]} ∧ counts (λ x, x ∈ all_nodes (gr_edges (graph_run empty_graph ops oks))) 0.
Proof.
  exists (ex_corpus order_adj None), [(([], ex_seg), with_nodes 1)], (GlobalStats true (Tokens_counted 7 {[ex_seg := 1]})), [], ex_seg, (with_nodes 1),
    ex_deleted, [true; true], 7.
  split. { exists [(([], ex_seg), 1)]. split; [done|]. vm_compute. reflexivity. }
  split; [reflexivity|]. split.
  { eexists _, 10, _. split; [repeat constructor|]. split; [vm_compute; reflexivity|]. split; [vm_compute; reflexivity|]. reflexivity. }
  split; [reflexivity|]. exists []. split; [constructor|]. split; [|reflexivity].
  assert (all_nodes (gr_edges (graph_run empty_graph ex_deleted [true; true])) = ∅) as E by (apply (bool_decide_eq_true _); vm_compute; reflexivity).
  intros x. rewrite E. split; [by intros ?%elem_of_nil|]. by intros ?%elem_of_empty.
Qed.
(** Two components with the same name in different layers: which of the numbers is shown is left to chance. *)
Theorem C69_same_name_refuted : ∃ db c orders st1 st2 s n, holds_content db c ∧ NoDup (orders.*1) ∧ is_statistics db orders st1 ∧ is_statistics db orders st2 ∧
  gl_size st1 = Tokens_counted n {[s := 3]} ∧ gl_size st2 = Tokens_counted n {[s := 5]}.
Proof.
  exists (ex_corpus order_adj None), ex_content, [(([], ex_seg), with_nodes 3); ((ex_seg, ex_seg), with_nodes 5)],
    (GlobalStats true (Tokens_counted 7 {[ex_seg := 3]})), (GlobalStats true (Tokens_counted 7 {[ex_seg := 5]})), ex_seg, 7.
  split; [apply ex_holds_adj|]. split; [apply (bool_decide_eq_true _); vm_compute; reflexivity|].
  split. { exists [((ex_seg, ex_seg), 5); (([], ex_seg), 3)]. split; [apply Permutation_swap|].
    assert (by_name [((ex_seg, ex_seg), 5); (([], ex_seg), 3)] = {[ex_seg := 3]}) as E by (apply (bool_decide_eq_true _); vm_compute; reflexivity).
    unfold global_statistics. rewrite E. vm_compute. reflexivity. }
  split. { exists [(([], ex_seg), 3); ((ex_seg, ex_seg), 5)]. split; [done|].
    assert (by_name [(([], ex_seg), 3); ((ex_seg, ex_seg), 5)] = {[ex_seg := 5]}) as E by (apply (bool_decide_eq_true _); vm_compute; reflexivity).
    unfold global_statistics. rewrite E. vm_compute. reflexivity. }
  split; reflexivity.
Qed.
(** A configured segmentation that is not known: the unit is lost, and the next update shows tokens. *)
Theorem C69_unit_kept_refuted : ∃ cfg st i, sc_size cfg = Some i ∧ si_unit i = Segmentation [120]%N ∧
  let cfg' := (update_corpus_size_info cfg (Some st)).1 in
  sc_size cfg' = None ∧ sc_size (update_corpus_size_info cfg' (Some st)).1 = Some (SizeInfo 7 Tokens).
Proof.
  exists (SizeConfig (Some (SizeInfo 4 (Segmentation [120]%N))) None), ex_stats, (SizeInfo 4 (Segmentation [120]%N)).
  split; [reflexivity|]. split; [reflexivity|]. split; vm_compute; reflexivity.
Qed.
Print Assumptions C69_statistics_exist.
Print Assumptions C69_tokens_partial.
Print Assumptions C69_search_agrees_partial.
Print Assumptions C69_segmentation_partial.
Print Assumptions C69_segmentations.
Print Assumptions C69_configuration.

(** Without statistics the configuration is not changed. *)
Theorem C69_without_statistics : ∀ cfg st, (∀ g, st = Some g → gl_size g = Unknown) →
  update_corpus_size_info cfg st = (cfg, false).
Proof. intros cfg [[o [|n segs]]|] H; [reflexivity|discriminate (H _ eq_refl)|reflexivity]. Qed.
Print Assumptions C69_without_statistics.
Print Assumptions C69_unit_kept_partial.
Print Assumptions C69_no_order_refuted.
Print Assumptions C69_deleted_refuted.
Print Assumptions C69_same_name_refuted.
Print Assumptions C69_unit_kept_refuted.
