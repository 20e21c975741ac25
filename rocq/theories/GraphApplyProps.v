(** C22, C23: applying updates. *)
From stdpp Require Import base list gmap.
From Coq Require Import NArith.
From Verif Require Import GraphSpec KeySer KeySerSpec SortedMap Types SymbolTable AnnoMem Dfs Adjacency AdjacencySpec GraphUpdate
  GraphUpdateSpec AdjacencyProofs GraphApply GraphApplySpec GraphApplyProofs GraphApplyHistory.

(** C22: after any history of updates the graph shows exactly the nodes, labels, edges and edge labels that result from
    applying all events one after the other to the abstract graph. Missing for the full property: updates that change the
    label annis::node_name by a label event, and updates deleting a node with an edge in a component created by the same
    update; both are wrong in the code, see the two refutations below. *)
Theorem C22_updates_applied_partial :
  ∀ ct us st, apply_updates ct g_empty us = Some st → history_ok ct lg_empty (events_of us) →
  observes st (lg_history ct lg_empty (events_of us)).
Proof.
  intros ct us st Hu Hok. destruct (history_okR ct us _ _ _ _ _ _ R_empty Hok Hu) as (ι & M & Gs & HR).
  exact (R_observes _ _ _ _ _ HR).
Qed.
Print Assumptions C22_updates_applied_partial.

(** C22: such updates do not fail as long as the symbol tables cannot overflow. *)
Theorem C22_updates_succeed :
  ∀ ct us, history_ok ct lg_empty (events_of us) → (N.of_nat (2 * length (concat us)) <= usize_max)%N →
  ∃ st, apply_updates ct g_empty us = Some st.
Proof.
  intros ct us Hok Hn. exact (history_total ct us _ _ _ _ _ 0 R_empty Hok bnd_empty Hn).
Qed.
Print Assumptions C22_updates_succeed.

(** C22: after deleting a node (here by an update of its own) there is no node of that name, and every edge of every
    component connects two nodes which are both still there. *)
Theorem C22_deleted_node_leaves_no_edges_partial :
  ∀ ct us n k st, apply_updates ct g_empty (us ++ [[(k, DeleteNode n)]]) = Some st →
  history_ok ct lg_empty (events_of us) →
  id_of st n = None ∧
  ∀ c g i j, g_comps st !! c = Some g → j ∈ adj_out g i →
    ∃ a b, a ≠ n ∧ b ≠ n ∧ id_of st a = Some i ∧ id_of st b = Some j.
Proof.
  intros ct us n k st Hu Hok.
  assert (∃ A, observes st A ∧ ¬ is_node A n) as (A & HO & Hno).
  { assert (history_ok ct lg_empty (events_of (us ++ [[(k, DeleteNode n)]]))) as Hok'.
    { destruct (apply_updates ct g_empty us) as [st1|] eqn:E1.
      - destruct (history_okR ct us _ _ _ _ _ _ R_empty Hok E1) as (ι & M & Gs & HR).
        revert HR Hok. unfold events_of. rewrite map_app. generalize (map (λ u : list (N * event), u.*2) us). cbn [map fmap list_fmap snd].
        intros l. unfold lg_history. generalize lg_empty.
        induction l as [|x l IH]; intros A HR Hok.
        + cbn. split_and!; [by repeat constructor| |done|done]. intros c [p q] He _.
          apply (r_edges _ _ _ _ _ HR) in He as (i & j & _ & _ & He).
          apply (gi_out _ _ (r_gs _ _ _ _ _ HR c)) in He. cbn [fold_left] in HR. rewrite <- (r_comps _ _ _ _ _ HR).
          apply elem_of_dom. unfold writable in He. destruct (g_comps st1 !! c); [eauto|].
          cbn in He. by apply elem_of_nil in He.
        + cbn in Hok |- *. destruct Hok as (H1 & H2 & H3). split_and!; [done|done|]. by apply IH.
      - exfalso. clear Hok. revert Hu E1. generalize g_empty. induction us as [|u us IH]; intros s; [done|]. cbn.
        destruct (apply_update ct s u); [|done]. cbn [mbind option_bind]. apply IH. }
    eexists. split; [exact (C22_updates_applied_partial ct _ st Hu Hok')|].
    unfold events_of, lg_history. rewrite map_app, fold_left_app. cbn. unfold lg_run. cbn.
    match goal with |- ¬ is_node (lg_step _ ?x _) _ => generalize x end. intros [L C E X]. unfold is_node. cbn.
    intros [v [_ Hv]%map_filter_lookup_Some]. by apply Hv. }
  assert (id_of st n = None) as Hid.
  { destruct (id_of st n) eqn:E; [|done]. destruct Hno. apply (ob_nodes _ _ HO). by rewrite E. }
  split; [done|]. intros c g i j Hg Hj. destruct (ob_no_dangling _ _ HO c g i j Hg Hj) as (a & b & Ha & Hb).
  exists a, b. split_and!; [intros ->; congruence|intros ->; congruence|done|done].
Qed.
Print Assumptions C22_deleted_node_leaves_no_edges_partial.

(** C22: the test of the code whether an edge exists (a search for a connection of length 1) is membership in the list of
    outgoing edges, in every state the updates can reach. *)
Theorem C22_edge_test :
  ∀ ct us st, apply_updates ct g_empty us = Some st → history_ok ct lg_empty (events_of us) →
  ∀ c g i j, g_comps st !! c = Some g →
  ∃ f0, ∀ f, f0 ≤ f → is_connected f (adj_out g) i j 1 (Included 1%N) = Some (bool_decide (j ∈ adj_out g i)).
Proof.
  intros ct us st Hu Hok c g i j Hg. destruct (history_okR ct us _ _ _ _ _ _ R_empty Hok Hu) as (ι & M & Gs & HR).
  pose proof (edge_test st _ ι M Gs c i j HR) as H. unfold writable in H. by rewrite Hg in H.
Qed.
Print Assumptions C22_edge_test.

Local Open Scope N_scope.
(** "Edge", names "a", "b", layer "l" *)
Definition ex_type : bytes := [69; 100; 103; 101].
Definition na : bytes := [97].
Definition nb : bytes := [98].
Definition nl : bytes := [108].

(** C22: an update that adds two nodes and an edge in a new component and deletes one of the nodes leaves an edge of a node
    that is not there any more. *)
Definition dangling : list (list (N * event)) :=
  [[(1, AddNode na [110]); (2, AddNode nb [110]); (3, GraphUpdate.AddEdge na nb nl ex_type []); (4, DeleteNode na)]].
Theorem C22_dangling_edge_refuted :
  ∃ us st c g i j, apply_updates default_ctype g_empty us = Some st ∧ Forall (Forall keeps_names) (events_of us) ∧
    g_comps st !! c = Some g ∧ j ∈ adj_out g i ∧ am_get_annotations (g_node_annos st) i = [] ∧
    ¬ observes st (lg_history default_ctype lg_empty (events_of us)).
Proof.
  assert (match apply_updates default_ctype g_empty dangling with
    | Some st => match g_comps st !! (0, nl, []) with
        | Some g => bool_decide (1 ∈ adj_out g 0) && bool_decide (am_get_annotations (g_node_annos st) 0 = []) &&
                    bool_decide (am_get_value (g_node_annos st) 0 node_name_key = None)
        | None => false end
    | None => false end = true) as H by (vm_compute; reflexivity).
  destruct (apply_updates default_ctype g_empty dangling) as [st|] eqn:E; [|done].
  destruct (g_comps st !! (0, nl, [])) as [g|] eqn:Eg; [|done].
  apply andb_true_iff in H as [[H1 H2]%andb_true_iff H3]. apply bool_decide_eq_true in H1, H2, H3.
  exists dangling, st, (0, nl, []), g, 0, 1. split; [exact E|]. split; [by repeat constructor|]. split; [exact Eg|]. split; [exact H1|].
  split; [exact H2|]. intros HO. destruct (ob_no_dangling _ _ HO _ _ _ _ Eg H1) as (a & b & Ha & _).
  rewrite (ob_labels _ _ HO a 0 node_name_key Ha) in H3.
  destruct (proj1 (ob_nodes _ _ HO a) ltac:(by rewrite Ha)) as [v Hv]. congruence.
Qed.
Print Assumptions C22_dangling_edge_refuted.

(** C22: after the label annis::node_name of a node was changed, later events of the same update still find the node under
    its old name. Applying the events in two updates instead of one gives a different result. *)
Definition rename1 : list (N * event) := [(1, AddNode na [110]); (2, AddNodeLabel na annis (ak_name node_name_key) nb)].
Definition rename2 : list (N * event) := [(3, AddNodeLabel na nl nl nl)].
Theorem C22_stale_name_refuted :
  ∃ u1 u2 st st', apply_updates default_ctype g_empty [u1 ++ u2] = Some st ∧
    apply_updates default_ctype g_empty [u1; u2] = Some st' ∧
    ∃ k, am_get_value (g_node_annos st) 0 k ≠ am_get_value (g_node_annos st') 0 k.
Proof.
  assert (match apply_updates default_ctype g_empty [rename1 ++ rename2] with
    | Some st => bool_decide (am_get_value (g_node_annos st) 0 (AnnoKey nl nl) = Some nl) | None => false end = true) as H1
    by (vm_compute; reflexivity).
  assert (match apply_updates default_ctype g_empty [rename1; rename2] with
    | Some st => bool_decide (am_get_value (g_node_annos st) 0 (AnnoKey nl nl) = None) | None => false end = true) as H2
    by (vm_compute; reflexivity).
  destruct (apply_updates default_ctype g_empty [rename1 ++ rename2]) as [st|] eqn:E1; [|done].
  destruct (apply_updates default_ctype g_empty [rename1; rename2]) as [st'|] eqn:E2; [|done].
  apply bool_decide_eq_true in H1, H2.
  exists rename1, rename2, st, st'. split; [done|]. split; [done|]. exists (AnnoKey nl nl). by rewrite H1, H2.
Qed.
Print Assumptions C22_stale_name_refuted.

(** C23: after any history two different names have different ids. *)
Theorem C23_names_have_different_ids :
  ∀ ct us st, apply_updates ct g_empty us = Some st →
  ∀ a b i, id_of st a = Some i → id_of st b = Some i → a = b.
Proof.
  intros ct us st Hu a b i. apply N0_inj. exact (history_N0 ct us _ _ N0_empty Hu).
Qed.
Print Assumptions C23_names_have_different_ids.

(** C23: a new node gets an id that no existing node has: no name is mapped to it and it has no label. The labels of all
    other nodes stay the same. *)
Theorem C23_new_node_has_new_id :
  ∀ ct us st k n t st', apply_updates ct g_empty us = Some st →
  apply_update ct st [(k, AddNode n t)] = Some st' →
  am_has_node_name node_name_key (g_node_annos st) n = false →
  ∃ i, id_of st' n = Some i ∧ (i < node_bound) ∧ (∀ m, id_of st m ≠ Some i) ∧
    (∀ l, am_get_value (g_node_annos st) i l = None) ∧
    am_get_value (g_node_annos st') i node_type_key = Some t ∧
    ∀ j l, j ≠ i → am_get_value (g_node_annos st') j l = am_get_value (g_node_annos st) j l.
Proof.
  intros ct us st k n t st' Hu Ha Hn. pose proof (history_N0 ct us _ _ N0_empty Hu) as H0.
  unfold apply_update in Ha. cbn [ev_loop] in Ha.
  destruct (ev_step ct 1000 (map_to_list (g_comps st)).*1 st [] (AddNode n t)) as [[st1 c1]|] eqn:E; [|done].
  cbn [mbind option_bind] in Ha. injection Ha as <-.
  exact (N0_add ct _ _ _ _ _ _ _ _ H0 E Hn).
Qed.
Print Assumptions C23_new_node_has_new_id.

(** C23: the same within an update, whatever events come before. *)
Theorem C23_new_id_within_update :
  ∀ ct us st cap all c n t st' c', apply_updates ct g_empty us = Some st →
  ∀ es st1 c1, fold_left (λ x e, match x with Some (s, c) => ev_step ct cap all s c e | None => None end) es (Some (st, c)) = Some (st1, c1) →
  ev_step ct cap all st1 c1 (AddNode n t) = Some (st', c') →
  am_has_node_name node_name_key (g_node_annos st1) n = false →
  ∃ i, id_of st' n = Some i ∧ (∀ m, id_of st1 m ≠ Some i) ∧ ∀ l, am_get_value (g_node_annos st1) i l = None.
Proof.
  intros ct us st cap all c n t st' c' Hu es st1 c1 Hf Ha Hn. pose proof (history_N0 ct us _ _ N0_empty Hu) as H0.
  assert (N0 st1) as H1.
  { clear Hu. revert st c H0 Hf. induction es as [|e es IH]; intros st c H0; cbn [fold_left].
    - by intros [= -> ->].
    - destruct (ev_step ct cap all st c e) as [[s2 c2]|] eqn:E.
      + apply IH. exact (step_N0 ct _ _ _ _ _ _ _ H0 E).
      + clear. intros H. exfalso. induction es as [|e' es IH]; [done|by apply IH]. }
  destruct (N0_add ct _ _ _ _ _ _ _ _ H1 Ha Hn) as (i & H2 & _ & H3 & H4 & _). by exists i.
Qed.
Print Assumptions C23_new_id_within_update.

(** The hypotheses hold for a history with two updates, an edge with a label and the deletion of a node with edges. *)
Definition ex_history : list (list (N * event)) :=
  [[(1, AddNode na [110]); (2, AddNode nb [110]); (3, AddNode nl [110]); (4, GraphUpdate.AddEdge na nb nl ex_type []);
    (5, GraphUpdate.AddEdge nb nl nl ex_type []); (6, AddEdgeLabel na nb nl ex_type [] nl nl nb); (7, AddNodeLabel na nl nl nb)];
   [(1, DeleteNodeLabel na nl nl); (2, GraphUpdate.AddEdge na nl nl ex_type []); (3, DeleteNode nl); (4, AddNode nl [111])]].
Example history_ok_example : history_ok default_ctype lg_empty (events_of ex_history).
Proof.
  unfold ex_history, events_of. cbn [map fmap list_fmap snd history_ok deletes_ok].
  assert (∀ C A e, match e with DeleteNode _ => False | _ => True end → delete_ok C A e) as Hd by by intros C A [].
  split; [repeat (apply Forall_cons_2; [cbn; try done; congruence|]); apply Forall_nil_2|].
  split; [split_and!; try (by apply Hd); done|].
  split; [repeat (apply Forall_cons_2; [cbn; try done; congruence|]); apply Forall_nil_2|].
  split; [|done]. split; [by apply Hd|]. split; [by apply Hd|]. split; [|split; [by apply Hd|done]].
  intros c p Hp _. revert c p Hp.
  match goal with |- ∀ c p, _ ∈ lg_edges ?A → c ∈ lg_comps ?B =>
    enough (set_Forall (λ x, x.1 ∈ lg_comps B) (lg_edges A)) as HF by (intros c p Hp; exact (HF _ Hp)) end.
  apply (bool_decide_eq_true _). vm_compute. reflexivity.
Qed.
Example history_succeeds : is_Some (apply_updates default_ctype g_empty ex_history).
Proof. destruct (C22_updates_succeed _ _ history_ok_example) as [st Hst]; [by vm_compute|by exists st]. Qed.
