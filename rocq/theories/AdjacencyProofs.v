From stdpp Require Import base list gmap fin_maps fin_sets sorting.
From Coq Require Import NArith Lia.
From Verif Require Import KeySer KeySerSpec SortedMap Types TypesProofs SymbolTable AnnoMem AnnoSpec AnnoMemProofs
  AnnoMemQueries Dfs DfsProofs DfsQueries GraphSpec Adjacency AdjacencySpec.

Notation nsorted := (StronglySorted N.lt).

Lemma nsorted_NoDup l : nsorted l → NoDup l.
Proof.
  induction 1 as [|x l Hs IH Hx]; constructor; [|done]. intros Hin. rewrite Forall_forall in Hx.
  specialize (Hx x Hin). lia.
Qed.
Lemma bs_insert_elem x l y : y ∈ bs_insert x l ↔ y = x ∨ y ∈ l.
Proof.
  induction l as [|z l IH]; simpl; [set_solver|].
  destruct (N.compare_spec x z) as [->|Hlt|Hgt]; [set_solver|set_solver|].
  rewrite !elem_of_cons, IH. tauto.
Qed.
Lemma bs_insert_sorted x l : nsorted l → nsorted (bs_insert x l).
Proof.
  induction 1 as [|z l Hs IH Hz]; simpl; [repeat constructor|].
  destruct (N.compare_spec x z) as [->|Hlt|Hgt].
  - by constructor.
  - constructor; [by constructor|]. constructor; [done|]. eapply Forall_impl; [done|]. simpl. lia.
  - constructor; [done|]. apply Forall_forall. intros y [->|Hy]%bs_insert_elem; [done|].
    rewrite Forall_forall in Hz. by apply Hz.
Qed.
Lemma bs_remove_elem x l y : nsorted l → y ∈ bs_remove x l ↔ y ≠ x ∧ y ∈ l.
Proof.
  induction 1 as [|z l Hs IH Hz]; simpl; [set_solver|]. rewrite Forall_forall in Hz.
  destruct (N.compare_spec x z) as [->|Hlt|Hgt].
  - rewrite elem_of_cons. split; [|naive_solver]. intros Hy. specialize (Hz y Hy). split; [lia|by right].
  - split; [|naive_solver]. intros Hy. split; [|done]. apply elem_of_cons in Hy as [->|Hy]; [lia|].
    specialize (Hz y Hy). lia.
  - rewrite !elem_of_cons, IH. split; [|naive_solver]. intros [->|?]; [split; [lia|by left]|naive_solver].
Qed.
Lemma bs_remove_sorted x l : nsorted l → nsorted (bs_remove x l).
Proof.
  induction 1 as [|z l Hs IH Hz]; simpl; [constructor|].
  destruct (N.compare_spec x z) as [->|Hlt|Hgt]; [done|by constructor|].
  constructor; [done|]. rewrite Forall_forall in Hz |- *. intros y Hy. apply bs_remove_elem in Hy as [_ Hy]; [|done]. auto.
Qed.

Record ginv (s : adj) (g : graph) : Prop := {
  gi_out_sorted : ∀ x, nsorted (adj_out s x);
  gi_in_sorted : ∀ x, nsorted (adj_in s x);
  gi_out : ∀ x y, y ∈ adj_out s x ↔ Edge x y ∈ gr_edges g;
  gi_in : ∀ x y, x ∈ adj_in s y ↔ Edge x y ∈ gr_edges g;
  gi_loop : ∀ x, Edge x x ∉ gr_edges g;
  gi_annos : ∃ leak, inv edge_compare (g_annos s) leak (gr_annos g);
  gi_dom : ∀ e k, is_Some (gr_annos g !! (e, k)) → e ∈ gr_edges g
}.

Lemma adj_list_insert m x l y : adj_list (<[x := l]> m) y = if decide (y = x) then l else adj_list m y.
Proof.
  unfold adj_list. destruct (decide (y = x)) as [->|Hne]; [by rewrite lookup_insert|].
  by rewrite lookup_insert_ne.
Qed.
Lemma adj_list_remove m x z y :
  adj_list (match m !! x with Some l => <[x := bs_remove z l]> m | None => m end) y =
  if decide (y = x) then bs_remove z (adj_list m y) else adj_list m y.
Proof.
  unfold adj_list. destruct (m !! x) as [l|] eqn:E.
  - destruct (decide (y = x)) as [->|Hne]; [by rewrite lookup_insert, E|by rewrite lookup_insert_ne].
  - destruct (decide (y = x)) as [->|Hne]; [by rewrite E|done].
Qed.

Lemma ginv_new : ginv adj_new empty_graph.
Proof.
  constructor.
  - intros x. constructor.
  - intros x. constructor.
  - intros x y. split; [by intros ?%elem_of_nil|]. simpl. set_solver.
  - intros x y. split; [by intros ?%elem_of_nil|]. simpl. set_solver.
  - simpl. set_solver.
  - exists 0. apply AnnoMemProofs.inv_new. 
  - simpl. intros e k [? Hx]. by rewrite lookup_empty in Hx.
Qed.
Lemma ginv_clear s g : ginv s g → ginv (adj_clear s) empty_graph.
Proof.
  intros I. destruct (gi_annos _ _ I) as [leak Ia]. destruct ginv_new. constructor; try done.
  eexists. by eapply AnnoMemProofs.inv_clear.
Qed.

Lemma ginv_add s g e : ginv s g → ginv (adj_add_edge s e) (graph_step g (AddEdge e) true).
Proof.
  intros I. destruct I. destruct e as [a b]. unfold adj_add_edge. simpl.
  destruct (decide (a = b)) as [->|Hne]; [by constructor|].
  constructor; simpl; try done.
  - intros x. unfold adj_out. simpl. rewrite adj_list_insert. destruct (decide _); [|apply gi_out_sorted0].
    apply bs_insert_sorted, gi_out_sorted0.
  - intros x. unfold adj_in. simpl. rewrite adj_list_insert. destruct (decide _); [|apply gi_in_sorted0].
    apply bs_insert_sorted, gi_in_sorted0.
  - intros x y. unfold adj_out. simpl. rewrite adj_list_insert, elem_of_union, elem_of_singleton, <- gi_out0.
    destruct (decide (x = a)) as [->|Hx]; [rewrite bs_insert_elem; naive_solver|naive_solver].
  - intros x y. unfold adj_in. simpl. rewrite adj_list_insert, elem_of_union, elem_of_singleton, <- gi_in0.
    destruct (decide (y = b)) as [->|Hx]; [rewrite bs_insert_elem; naive_solver|naive_solver].
  - intros x. rewrite elem_of_union, elem_of_singleton. intros [[= -> ->]|?]; [done|naive_solver].
  - intros e k Hk. apply elem_of_union. right. by eapply gi_dom0.
Qed.

Lemma ginv_add_anno s g e k v s' ok : ginv s g → adj_add_anno s e k v = (s', ok) →
  ginv s' (graph_step g (AddAnno e k v) ok).
Proof.
  intros I. pose proof I as I0. destruct I. unfold adj_add_anno. destruct e as [a b]. simpl.
  destruct (decide _) as [Hin|Hin].
  - destruct (am_insert _ _ _ _ _) as [am r] eqn:Ei. intros [= <- <-]. apply gi_out0 in Hin.
    rewrite bool_decide_eq_true_2 by done. rewrite andb_true_r. destruct gi_annos0 as [leak Ia].
    constructor; simpl; try done.
    + exists leak. by apply (AnnoMemProofs.inv_insert _ _ _ _ _ _ _ _ _ Ia Ei).
    + destruct r; [|done]. intros e k'. destruct (decide ((e, k') = (Edge a b, k))) as [[= -> ->]|Hne]; [done|].
      rewrite lookup_insert_ne by done. apply gi_dom0.
  - intros [= <- <-]. rewrite gi_out0 in Hin. rewrite bool_decide_eq_false_2 by done. simpl. by destruct g.
Qed.

Lemma ginv_del_anno s g e k : ginv s g → ginv (adj_delete_anno s e k) (graph_step g (DelAnno e k) true).
Proof.
  intros I. destruct I. unfold adj_delete_anno. destruct gi_annos0 as [leak Ia].
  destruct (am_remove_annotation (g_annos s) e k) as [am r] eqn:Er.
  destruct (AnnoMemProofs.inv_remove_annotation _ _ _ _ _ _ _ _ Ia Er) as [Ia' _].
  constructor; simpl; try done.
  - by exists leak.
  - intros e' k'. destruct (decide ((e', k') = (e, k))) as [[= -> ->]|Hne].
    + rewrite lookup_delete. by intros [? ?].
    + rewrite lookup_delete_ne by done. apply gi_dom0.
Qed.

Lemma ginv_del_edge s g e : ginv s g → ginv (adj_delete_edge s e) (graph_step g (DelEdge e) true).
Proof.
  intros I. destruct I. unfold adj_delete_edge. destruct e as [a b]. simpl. destruct gi_annos0 as [leak Ia].
  destruct (am_remove_item (g_annos s) (Edge a b)) as [am r] eqn:Er.
  destruct (AnnoMemProofs.inv_remove_item _ _ _ _ _ _ _ Ia Er) as [Ia' _].
  constructor; simpl; try done.
  - intros x. unfold adj_out. simpl. rewrite adj_list_remove. destruct (decide _); [|apply gi_out_sorted0].
    apply bs_remove_sorted, gi_out_sorted0.
  - intros x. unfold adj_in. simpl. rewrite adj_list_remove. destruct (decide _); [|apply gi_in_sorted0].
    apply bs_remove_sorted, gi_in_sorted0.
  - intros x y. unfold adj_out. simpl. rewrite adj_list_remove, elem_of_difference, elem_of_singleton, <- gi_out0.
    unfold adj_out. destruct (decide (x = a)) as [->|Hx]; [rewrite bs_remove_elem by apply gi_out_sorted0|]; naive_solver.
  - intros x y. unfold adj_in. simpl. rewrite adj_list_remove, elem_of_difference, elem_of_singleton, <- gi_in0.
    unfold adj_in. destruct (decide (y = b)) as [->|Hx]; [rewrite bs_remove_elem by apply gi_in_sorted0|]; naive_solver.
  - intros x. rewrite elem_of_difference. naive_solver.
  - by exists leak.
  - intros e' k' [v [Hv Hne]%map_filter_lookup_Some]. simpl in Hne. apply elem_of_difference.
    split; [eapply gi_dom0; by eexists|]. by rewrite elem_of_singleton.
Qed.

Lemma ginv_ext s g g' : ginv s g → gr_edges g = gr_edges g' → gr_annos g = gr_annos g' → ginv s g'.
Proof. intros I H1 H2. destruct g, g'. simpl in *. by subst. Qed.

Lemma ginv_del_edges l : ∀ s g, ginv s g →
  ginv (fold_left adj_delete_edge l s)
       (Graph (gr_edges g ∖ list_to_set l) (filter (λ x, x.1.1 ∉ l) (gr_annos g))).
Proof.
  induction l as [|e l IH]; intros s g I; simpl.
  - eapply ginv_ext; [done|simpl; set_solver|]. simpl. symmetry. apply map_filter_id. intros i x _. apply not_elem_of_nil.
  - eapply ginv_ext; [apply IH, (ginv_del_edge _ _ e I)|simpl; set_solver|]. simpl.
    rewrite map_filter_filter. apply map_filter_ext. intros [e' k] x _. simpl. rewrite not_elem_of_cons. tauto.
Qed.

Lemma ginv_del_node s g x : ginv s g → ginv (adj_delete_node s x) (graph_step g (DelNode x) true).
Proof.
  intros I. unfold adj_delete_node. set (l := ((λ t, Edge x t) <$> adj_out s x) ++ ((λ y, Edge y x) <$> adj_in s x)).
  assert (∀ e, e ∈ gr_edges g → e ∈ l ↔ source e = x ∨ target e = x) as Hl.
  { intros [a b] Hg. subst l. rewrite elem_of_app, !elem_of_list_fmap. simpl. split.
    - intros [(y & [= -> ->] & _)|(y & [= -> ->] & _)]; auto.
    - intros [->| ->]; [left; exists b; split; [done|by apply (gi_out _ _ I)]|].
      right. exists a. split; [done|by apply (gi_in _ _ I)]. }
  eapply ginv_ext; [by apply ginv_del_edges| |]; simpl.
  - apply set_eq. intros e. rewrite elem_of_difference, elem_of_list_to_set, elem_of_filter. split.
    + intros [He Hn]. rewrite Hl in Hn by done. tauto.
    + intros [Hn He]. split; [done|]. rewrite Hl by done. tauto.
  - apply map_filter_ext. intros [e k] v Hv. simpl. rewrite Hl by (eapply (gi_dom _ _ I); by eexists). tauto.
Qed.

Lemma ginv_reload s g : ginv s g → ginv (adj_reload s) g.
Proof.
  intros I. destruct I. constructor; try done. destruct gi_annos0 as [leak Ia]. simpl.
  destruct (AnnoMemProofs.inv_step edge_compare (g_annos s) leak (gr_annos g) AmReload (am_reload (g_annos s)) AmOk Ia eq_refl)
    as [_ (leak' & Ia' & _)]. by exists leak'.
Qed.

Lemma ginv_step s g o s' ok : ginv s g → adj_step s o = (s', ok) → ginv s' (graph_step g o ok).
Proof.
  intros I. destruct o; simpl.
  - intros [= <- <-]. by apply (ginv_add s g).
  - by apply ginv_add_anno.
  - intros [= <- <-]. by apply (ginv_del_edge s g).
  - intros [= <- <-]. by apply (ginv_del_anno s g).
  - intros [= <- <-]. by apply (ginv_del_node s g).
  - intros [= <- <-]. by apply (ginv_clear s g).
  - intros [= <- <-]. by apply ginv_reload.
Qed.
Lemma ginv_run ops : ∀ s g s' oks, ginv s g → adj_run s ops = (s', oks) → ginv s' (graph_run g ops oks).
Proof.
  induction ops as [|o ops IH]; intros s g s' oks I; simpl.
  - by intros [= <- <-].
  - destruct (adj_step s o) as [s1 r] eqn:E1. destruct (adj_run s1 ops) as [s2 rs] eqn:E2.
    intros [= <- <-]. simpl. eapply IH; [|done]. by eapply ginv_step.
Qed.
Lemma ginv_run_new ops s oks : adj_run adj_new ops = (s, oks) → ginv s (graph_run empty_graph ops oks).
Proof. apply ginv_run, ginv_new. Qed.

(** Sources and roots *)
Lemma sources_spec s g : ginv s g →
  NoDup (adj_sources s) ∧ (∀ x, x ∈ adj_sources s ↔ is_source (gr_edges g) x) ∧
  NoDup (adj_roots s) ∧ (∀ x, x ∈ adj_roots s ↔ is_root (gr_edges g) x).
Proof.
  intros I. assert (NoDup (adj_sources s)) as Hnd.
  { unfold adj_sources. pose proof (NoDup_fst_map_to_list (g_edges s)) as Hn.
    induction (map_to_list (g_edges s)) as [|[k v] l IH]; [constructor|]. rewrite fmap_cons in Hn.
    apply NoDup_cons in Hn as [Hk Hn]. rewrite filter_cons. destruct (decide _); [|by apply IH].
    rewrite fmap_cons. constructor; [|by apply IH]. intros Hin. apply Hk.
    apply elem_of_list_fmap in Hin as (y & -> & [_ Hy]%elem_of_list_filter). by apply elem_of_list_fmap_1. }
  assert (∀ x, x ∈ adj_sources s ↔ is_source (gr_edges g) x) as Hs.
  { intros x. unfold adj_sources, is_source, edge_rel. rewrite elem_of_list_fmap. split.
    - intros ([k v] & -> & [Hv Hl%elem_of_map_to_list]%elem_of_list_filter). simpl in *.
      destruct v as [|y v]; [done|]. exists y. apply (gi_out _ _ I). unfold adj_out, adj_list. rewrite Hl. by left.
    - intros [y Hy]. apply (gi_out _ _ I) in Hy. unfold adj_out, adj_list in Hy.
      destruct (g_edges s !! x) as [l|] eqn:El; [|by apply elem_of_nil in Hy]. exists (x, l). split; [done|].
      apply elem_of_list_filter. split; [|by apply elem_of_map_to_list]. simpl. intros ->. by apply elem_of_nil in Hy. }
  split_and!; [done|done|by apply NoDup_filter|].
  intros x. unfold adj_roots. rewrite elem_of_list_filter, Hs. unfold is_root, is_target, edge_rel, adj_has_in.
  split.
  - intros [Hin ?]. split; [done|]. intros [y Hy]. apply (gi_in _ _ I) in Hy.
    destruct (adj_in s x); [by apply elem_of_nil in Hy|done].
  - intros [? Hn]. split; [|done]. destruct (adj_in s x) as [|y l] eqn:El; [done|]. destruct Hn. exists y.
    apply (gi_in _ _ I). rewrite El. by left.
Qed.

(** Edge relation *)
Lemma out_rel s g a b : ginv s g → b ∈ adj_out s a ↔ edge_rel (gr_edges g) a b.
Proof. intros I. apply (gi_out _ _ I). Qed.
Lemma in_rel s g a b : ginv s g → a ∈ adj_in s b ↔ edge_rel (gr_edges g) a b.
Proof. intros I. apply (gi_in _ _ I). Qed.

Lemma all_nodes_edge G a b : edge_rel G a b → a ∈ all_nodes G ∧ b ∈ all_nodes G.
Proof.
  unfold edge_rel, all_nodes. intros He. rewrite !elem_of_union, !elem_of_map. split.
  - left. by exists (Edge a b).
  - right. by exists (Edge a b).
Qed.

Lemma simple_path_ext (E E' : N → N → Prop) s p t : (∀ a b, E a b ↔ E' a b) → simple_path E s p t ↔ simple_path E' s p t.
Proof.
  intros HE. unfold simple_path. f_equiv. split; apply walk_ext; naive_solver.
Qed.

Section search.
Context (s : adj) (g : graph) (I : ginv s g).
Notation G := (gr_edges g).
Notation R := (edge_rel (gr_edges g)).

Definition verts (n : N) : gset N := {[n]} ∪ all_nodes G.
Lemma verts_out n a b : a ∈ verts n → b ∈ adj_out s a → b ∈ verts n.
Proof. intros _ Hb%(out_rel s g _ _ I)%all_nodes_edge. unfold verts. set_solver. Qed.
Lemma verts_in n a b : a ∈ verts n → b ∈ adj_in s a → b ∈ verts n.
Proof. intros _ Hb%(in_rel s g _ _ I)%all_nodes_edge. unfold verts. set_solver. Qed.
Lemma verts_self n : n ∈ verts n.
Proof. unfold verts. set_solver. Qed.
Context (Hids : ids_ok (gr_edges g)).
Lemma ids_out a b : b ∈ adj_out s a → (a < node_bound)%N ∧ (b < node_bound)%N.
Proof. intros Hb%(out_rel s g _ _ I). by apply Hids. Qed.
Lemma ids_in a b : b ∈ adj_in s a → (a < node_bound)%N ∧ (b < node_bound)%N.
Proof. intros Hb%(in_rel s g _ _ I). destruct (Hids _ _ Hb). done. Qed.

Lemma adj_find_connected n min max : max ≠ Excluded 0%N →
  ∃ f0, ∀ f, f0 ≤ f → ∃ l, find_connected f (adj_out s) n min max = Some l ∧ NoDup l ∧
    ∀ m, m ∈ l ↔ ∃ p, simple_path R n p m ∧ in_distance min max (length p).
Proof.
  intros Hm. destruct (find_connected_lemma (adj_out s) (verts n) (verts_out n) ids_out n min max (verts_self n) Hm) as (f0 & Hf).
  exists f0. intros f Hf0. destruct (Hf f Hf0) as (l & El & Hnd & Hl). exists l. split_and!; [done..|].
  intros m. rewrite Hl. f_equiv. intros p. f_equiv. apply simple_path_ext. intros a b. by apply out_rel.
Qed.
Lemma adj_find_connected_inverse n min max : max ≠ Excluded 0%N →
  ∃ f0, ∀ f, f0 ≤ f → ∃ l, find_connected_inverse f (adj_in s) n min max = Some l ∧ NoDup l ∧
    ∀ m, m ∈ l ↔ ∃ p, simple_path R m p n ∧ in_distance min max (length p).
Proof.
  intros Hm. destruct (find_connected_inverse_lemma (adj_in s) (verts n) (verts_in n) ids_in n min max (verts_self n) Hm) as (f0 & Hf).
  exists f0. intros f Hf0. destruct (Hf f Hf0) as (l & El & Hnd & Hl). exists l. split_and!; [done..|].
  intros m. rewrite Hl. split.
  - intros (p & Hp & Hd). apply (simple_path_ext _ (λ a b, R b a)) in Hp; [|intros a b; by apply in_rel].
    apply simple_path_reverse in Hp as (q & Hq & Hlen). exists q. rewrite Hlen. done.
  - intros (p & Hp & Hd). apply simple_path_reverse in Hp as (q & Hq & Hlen). exists q. rewrite Hlen. split; [|done].
    eapply simple_path_ext; [|done]. intros a b. by apply in_rel.
Qed.
Lemma adj_is_connected n t min max : max ≠ Excluded 0%N →
  ∃ f0, ∀ f, f0 ≤ f → ∃ b, is_connected f (adj_out s) n t min max = Some b ∧
    (b = true ↔ ∃ p, simple_path R n p t ∧ in_distance min max (length p)).
Proof.
  intros Hm. destruct (is_connected_lemma (adj_out s) (verts n) (verts_out n) ids_out n t min max (verts_self n) Hm) as (f0 & Hf).
  exists f0. intros f Hf0. destruct (Hf f Hf0) as (b & El & Hb). exists b. split; [done|].
  rewrite Hb. f_equiv. intros p. f_equiv. apply simple_path_ext. intros a c. by apply out_rel.
Qed.
Lemma adj_distance n t :
  ∃ f0, ∀ f, f0 ≤ f → ∃ r, distance f (adj_out s) n t = Some r ∧
    match r with
    | Some d => ∃ p, simple_path R n p t ∧ length p = d
    | None => ¬ reachable R n t
    end.
Proof.
  destruct (distance_lemma (adj_out s) (verts n) (verts_out n) ids_out n t (verts_self n)) as (f0 & Hf).
  exists f0. intros f Hf0. destruct (Hf f Hf0) as (r & El & Hr). exists r. split; [done|]. destruct r.
  - destruct Hr as (p & Hp & Hlen). exists p. split; [|done]. eapply simple_path_ext; [|done]. intros a c. symmetry. by apply out_rel.
  - intros [p Hp]. apply Hr. exists p. eapply walk_ext; [|done]. intros a c. by apply out_rel.
Qed.
End search.

(** Node ids of reachable states *)
Lemma ids_run ops : ∀ g oks, Forall op_ids_ok ops → ids_ok (gr_edges g) → ids_ok (gr_edges (graph_run g ops oks)).
Proof.
  induction ops as [|o ops IH]; intros g oks Ho Hg; [done|]. destruct oks as [|ok oks]; [done|]. simpl.
  apply Forall_cons in Ho as [Ho1 Ho]. apply IH; [done|]. unfold ids_ok, edge_rel in *.
  destruct o; simpl in *; intros a b; try apply Hg.
  - destruct (decide _); [apply Hg|]. rewrite elem_of_union, elem_of_singleton. intros [<-|?]; [done|by apply Hg].
  - rewrite elem_of_difference. intros [? _]. by apply Hg.
  - rewrite elem_of_filter. intros [_ ?]. by apply Hg.
  - set_solver.
Qed.
