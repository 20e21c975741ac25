(** C48: the derived coverage and token alignment edges *)
From stdpp Require Import base list gmap.
From Coq Require Import NArith.
From Verif Require Import KeySer SortedMap Types SymbolTable AnnoMem AnnoSpec GraphSpec Adjacency AdjacencySpec Storage CompPath GraphUpdate GraphApply GraphApplySpec TokenHelper
  TokenSearchSpec ContextSpec TokenOpsSpec Index IndexSpec IndexNew IndexHist IndexAligned IndexExample.
Open Scope N_scope.

(** After the first update of a new graph the derived edges are the right ones, whatever the update does. Missing for C48: graphs where a token is
    reachable from another token, nodes without node type, cyclic token orders. *)
Theorem C48_new_graph_partial fuel rnd hash optimize b u st : hash_order hash →
  aql_update fuel rnd hash optimize b g_default u = Some st →
  order_ok optimize st → order_acyclic st → tokens_apart st → typed st →
  index_correct st.
Proof. intros Hh. exact (new_graph_lemma fuel rnd hash optimize Hh b u st). Qed.
Print Assumptions C48_new_graph_partial.

(** After each history of safe updates the derived edges are the right ones, although only the nodes which were changed are visited again.
    Missing for C48: the unsafe updates, where it does not hold (see below). *)
Theorem C48_histories_partial fuel rnd hash optimize us st : hash_order hash → us ≠ [] →
  aql_updates fuel rnd hash optimize g_default us = Some st →
  safe_history fuel rnd hash optimize g_default us →
  index_correct st.
Proof. intros Hh. exact (history_lemma fuel rnd hash optimize Hh us st). Qed.
Print Assumptions C48_histories_partial.

(** The derived edges establish the alignment which is needed by the operators on tokens, see C38. *)
Theorem C48_aligned fuel rnd hash optimize us st : hash_order hash → us ≠ [] →
  aql_updates fuel rnd hash optimize g_default us = Some st →
  safe_history fuel rnd hash optimize g_default us →
  (∀ n, in_one_text st n) →
  (∃ c, same_content st c) ∧ ∀ c, same_content st c → aligned c.
Proof. exact (history_aligned fuel rnd hash optimize us st). Qed.
Print Assumptions C48_aligned.

(** A graph with two updates: token 1, 2, 3 in this order, node 4 covers 1, node 5 dominates 4 and 3, and node 6 dominates 5. Then token 7 is
    added as the first one and covered by 4, token 8 is added as the last one, token 3 is deleted. Last, the tokens 7 and 1 are swapped. *)
Definition ex_u1 : list event :=
  [node 1; tok 1; node 2; tok 2; node 3; tok 3; ord 1 2; ord 2 3; node 4; cov 4 1; node 5; dom 5 4; dom 5 3; node 6; edge_ev Dominance [101] 6 5; dom 6 5].
Definition ex_u2 : list event := [node 7; tok 7; ord 7 1; cov 4 7; ord_del 2 3; node 8; tok 8; ord 2 8; ord 8 3; DeleteNode (nm 3); dom 5 8].
Definition ex_u3 : list event := [ord_del 7 1; ord_del 1 2; ord 1 7; ord 7 2].
Definition ex_history : list (bool * list (N * event)) := [(true, numbered ex_u1); (false, numbered ex_u2); (true, numbered ex_u3)].
Definition ex_state : option gstate := aql_updates 100 (λ _, O) elements ex_opt g_default ex_history.
Example new_conditions : ∃ st, aql_update 100 (λ _, O) elements ex_opt true g_default (numbered ex_u1) = Some st ∧
  order_ok ex_opt st ∧ order_acyclic st ∧ tokens_apart st ∧ typed st ∧ index_correct st ∧ edge_in st inherited 5 2 ∧ edge_in st right_comp 5 2 ∧ edge_in st left_comp 5 0.
Proof.
  assert (match aql_update 100 (λ _, O) elements ex_opt true g_default (numbered ex_u1) with
    | Some st => new_b st && edge_b st inherited 5 2 && edge_b st right_comp 5 2 && edge_b st left_comp 5 0
    | None => false end = true) as H by (vm_compute; reflexivity).
  destruct (aql_update _ _ _ _ _ _ _) as [st|] eqn:E; [|discriminate H]. rewrite !andb_true_iff in H. destruct H as [[[A B] C] D].
  apply new_ok in A as (A1 & A2 & A3 & A4 & _). exists st. split; [reflexivity|]. split; [exact A1|]. split; [exact A2|]. split; [exact A3|]. split; [exact A4|].
  split; [exact (C48_new_graph_partial _ _ _ _ _ _ _ elements_order E A1 A2 A3 A4)|].
  apply edge_b_iff in B, C, D. split; [exact B|]. split; [exact C|exact D].
Qed.
Example history_conditions : safe_history 100 (λ _, O) elements ex_opt g_default ex_history.
Proof. apply history_b_ok. vm_compute. reflexivity. Qed.
Example history_result : ∃ st, ex_state = Some st ∧ index_correct st ∧
  id_of st (nm 6) = Some 5 ∧ id_of st (nm 7) = Some 6 ∧ id_of st (nm 8) = Some 7 ∧ id_of st (nm 1) = Some 0 ∧ edge_in st left_comp 5 0 ∧ edge_in st right_comp 5 7 ∧ text_of st 5 6.
Proof.
  assert (match ex_state with
    | Some st => bool_decide (id_of st (nm 6) = Some 5) && bool_decide (id_of st (nm 7) = Some 6) && bool_decide (id_of st (nm 8) = Some 7) &&
                 bool_decide (id_of st (nm 1) = Some 0) && edge_b st left_comp 5 0 && edge_b st right_comp 5 7 && edge_b st inherited 5 6
    | None => false end = true) as H by (vm_compute; reflexivity).
  unfold ex_state in *. destruct (aql_updates _ _ _ _ _ _) as [st|] eqn:E; [|discriminate H]. rewrite !andb_true_iff in H. destruct H as [[[[[[A B] C] C'] D] F] G].
  apply bool_decide_eq_true in A, B, C, C'. apply edge_b_iff in D, F, G.
  assert (index_correct st) as IC. { apply (C48_histories_partial 100 (λ _, O) elements ex_opt ex_history st elements_order); [discriminate|exact E|exact history_conditions]. }
  exists st. split; [reflexivity|]. split; [exact IC|]. split; [exact A|]. split; [exact B|]. split; [exact C|]. split; [exact C'|]. split; [exact D|]. split; [exact F|].
  exact (proj1 (proj1 (ic_inherited _ IC _ _) G)).
Qed.

Example history_one_text : ∃ st, ex_state = Some st ∧ ∀ n, in_one_text st n.
Proof.
  assert (match ex_state with Some st => all_closed (pairs st is_text) && all_closed (pairs st is_order) && one_text_b st | None => false end = true) as H by (vm_compute; reflexivity).
  destruct ex_state as [st|]; [|discriminate H]. rewrite !andb_true_iff in H. destruct H as [[A B] C]. exists st. split; [reflexivity|]. exact (one_text_ok st A B C).
Qed.

(** Updates which are not safe: the derived edges of existing nodes are outdated, although the same graph gets the right edges if it is created by
    one update. *)
(** A node which is already covered becomes a token. *)
Definition late_label : list (list event) := [[node 1; node 2; cov 2 1]; [tok 1]].
Theorem C48_late_token_label_refuted : ∃ us st n t, run us = Some st ∧ usable ex_opt st ∧
  text_of st n t ∧ ¬ ∃ u, edge_in st left_comp n u.
Proof.
  exists late_label.
  assert (match run late_label with Some st => usable_b st && all_closed (pairs st is_text) && text_b st 1 0 && negb (source_b st left_comp 1) | None => false end = true) as H
    by (vm_compute; reflexivity).
  destruct (run late_label) as [st|]; [|discriminate H]. rewrite !andb_true_iff, negb_true_iff in H. destruct H as [[[A B] C] D].
  exists st, 1, 0. split; [reflexivity|]. split; [exact (usable_ok _ A)|]. split; [exact (proj1 (text_b_iff _ _ _ B) C)|].
  intros Hu. apply source_b_iff in Hu. congruence.
Qed.
Print Assumptions C48_late_token_label_refuted.
(** Coverage is added below a node which is only dominated by edges of a component with a name. *)
Definition late_coverage : list (list event) :=
  [[node 1; tok 1; node 2; tok 2; ord 1 2; node 3; cov 3 2; node 4; edge_ev Dominance [101] 4 3]; [cov 3 1]].
Theorem C48_named_dominance_refuted : ∃ us st n t, run us = Some st ∧ order_ok ex_opt st ∧ order_acyclic st ∧ tokens_apart st ∧ typed st ∧ connects_nodes st ∧
  text_of st n t ∧ ¬ coverage_edge st n t ∧ ¬ edge_in st inherited n t.
Proof.
  exists late_coverage.
  assert (match run late_coverage with
    | Some st => new_b st && all_closed (pairs st is_text) && text_b st 3 0 && negb (cov_b st 3 0) && negb (edge_b st inherited 3 0)
    | None => false end = true) as H by (vm_compute; reflexivity).
  destruct (run late_coverage) as [st|]; [|discriminate H]. rewrite !andb_true_iff, !negb_true_iff in H. destruct H as [[[[A B] C] D] E].
  apply new_ok in A as (A1 & A2 & A3 & A4 & A5).
  exists st, 3, 0. split; [reflexivity|]. split; [exact A1|]. split; [exact A2|]. split; [exact A3|]. split; [exact A4|]. split; [exact A5|].
  split; [exact (proj1 (text_b_iff _ _ _ B) C)|]. split; [intros Hu; apply cov_b_iff in Hu; congruence|intros Hu; apply edge_b_iff in Hu; congruence].
Qed.
Print Assumptions C48_named_dominance_refuted.
(** A node is deleted and added again by the same update. *)
Definition again : list (list event) := [[node 1; tok 1; node 2; cov 2 1; node 3]; [DeleteNode (nm 2); node 2; cov 2 1]].
Theorem C48_node_replaced_refuted : ∃ us st n t, run us = Some st ∧ usable ex_opt st ∧
  text_of st n t ∧ ¬ ∃ u, edge_in st left_comp n u.
Proof.
  exists again.
  assert (match run again with Some st => usable_b st && all_closed (pairs st is_text) && text_b st 3 0 && negb (source_b st left_comp 3) | None => false end = true) as H
    by (vm_compute; reflexivity).
  destruct (run again) as [st|]; [|discriminate H]. rewrite !andb_true_iff, negb_true_iff in H. destruct H as [[[A B] C] D].
  exists st, 3, 0. split; [reflexivity|]. split; [exact (usable_ok _ A)|]. split; [exact (proj1 (text_b_iff _ _ _ B) C)|].
  intros Hu. apply source_b_iff in Hu. congruence.
Qed.
Print Assumptions C48_node_replaced_refuted.
(** The parts of a text are swapped by an update which only changes the order at other tokens. *)
Definition swapped : list (list event) :=
  [[node 1; tok 1; node 2; tok 2; node 3; tok 3; node 4; tok 4; node 5; tok 5; node 6; tok 6; ord 1 2; ord 2 3; ord 3 4; ord 4 5; ord 5 6; node 7; cov 7 2; cov 7 5];
   [ord_del 3 4; ord 6 1]].
Theorem C48_text_reordered_refuted : ∃ us st n t u, run us = Some st ∧ usable ex_opt st ∧
  text_of st n t ∧ text_of st n u ∧ comes_before st u t ∧ edge_in st left_comp n t.
Proof.
  exists swapped.
  assert (match run swapped with
    | Some st => usable_b st && all_closed (pairs st is_text) && all_closed (pairs st is_order) && text_b st 6 1 && text_b st 6 4 && before_b st 4 1 && edge_b st left_comp 6 1
    | None => false end = true) as H by (vm_compute; reflexivity).
  destruct (run swapped) as [st|]; [|discriminate H]. rewrite !andb_true_iff in H. destruct H as [[[[[[A B] B'] C] D] E] F].
  exists st, 6, 1, 4. split; [reflexivity|]. split; [exact (usable_ok _ A)|]. split; [exact (proj1 (text_b_iff _ _ _ B) C)|]. split; [exact (proj1 (text_b_iff _ _ _ B) D)|].
  split; [exact (proj1 (before_iff _ _ _ B') E)|exact (proj1 (edge_b_iff _ _ _ _) F)].
Qed.
Print Assumptions C48_text_reordered_refuted.
