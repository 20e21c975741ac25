From stdpp Require Import base list gmap fin_maps fin_sets sorting.
From Coq Require Import NArith Lia.
From Verif Require Import KeySer KeySerSpec SortedMap Types SymbolTable AnnoMem AnnoMemProofs AnnoMemQueries Dfs DfsProofs GraphSpec
  Adjacency AdjacencySpec AdjacencyProofs StatsProofs CopyProofs Search ListExtra DiskAdj.

Definition small_ids (G : gset edge) : Prop := ∀ a b, Edge a b ∈ G → (a < max_id)%N ∧ (b < max_id)%N.

(** The disk storage [d] and the in-memory storage [s] hold the same edges. *)
Record sim (d : dadj) (s : adj) (G : gset edge) : Prop := {
  sim_annos : k_annos d = g_annos s;
  sim_sorted : al_sorted edge_compare (k_edges d);
  sim_sorted_inv : al_sorted edge_compare (k_inverse d);
  sim_edges : ∀ e v, (e, v) ∈ k_edges d ↔ v = true ∧ e ∈ G;
  sim_inverse : ∀ e v, (e, v) ∈ k_inverse d ↔ v = true ∧ inverse e ∈ G
}.

Lemma inverse_inverse e : inverse (inverse e) = e.
Proof. by destruct e. Qed.

Section targets.
Context (l : list (edge * bool)) (P : edge → Prop).
Context (Hs : al_sorted edge_compare l) (Hl : ∀ e v, (e, v) ∈ l ↔ v = true ∧ P e).
Context (Hb : ∀ e, P e → (target e < max_id)%N).
Lemma targets_elem x y : y ∈ targets_of l x ↔ P (Edge x y).
Proof using Hl Hb.
  unfold targets_of. rewrite elem_of_list_fmap. split.
  - intros (e & -> & ([e' v] & -> & Hin)%elem_of_list_fmap). unfold al_range in Hin. apply elem_of_list_filter in Hin as [Hr Hin].
    apply Hl in Hin as [_ Hp]. destruct e' as [a b]. pose proof (Hb _ Hp) as Hlt. simpl in *.
    assert (a = x) as ->; [|done]. unfold edge_compare in Hr. simpl in Hr.
    apply andb_true_iff in Hr as [H1 H2]. destruct (N.compare_spec x a), (N.compare_spec a x); subst; try done; lia.
  - intros Hp. exists (Edge x y). split; [done|]. apply elem_of_list_fmap. exists (Edge x y, true). split; [done|].
    unfold al_range. apply elem_of_list_filter. split; [|by apply Hl]. simpl. pose proof (Hb _ Hp) as Hlt. simpl in Hlt.
    unfold edge_compare. simpl. rewrite !N.compare_refl.
    rewrite (proj2 (N.compare_lt_iff y max_id) Hlt). by destruct y.
Qed.
Lemma targets_sorted x : nsorted (targets_of l x).
Proof using Hs Hl Hb.
  unfold targets_of, al_range.
  assert (∀ e v, (e, v) ∈ filter (λ x0 : edge * bool, above edge_compare (Included (Edge x 0)) x0.1 &&
     below edge_compare (Excluded (Edge x max_id)) x0.1 = true) l → source e = x) as Hx.
  { intros [a b] v Hin. pose proof Hin as [_ Hin']%elem_of_list_filter. apply Hl in Hin' as [_ Hp].
    assert (b ∈ targets_of l x) as Hb'.
    { unfold targets_of. apply elem_of_list_fmap. exists (Edge a b). split; [done|]. apply elem_of_list_fmap. by exists (Edge a b, v). }
    apply elem_of_list_filter in Hin as [Hr _]. simpl in *. unfold edge_compare in Hr. simpl in Hr. pose proof (Hb _ Hp) as Hlt. simpl in Hlt.
    apply andb_true_iff in Hr as [H1 H2]. destruct (N.compare_spec x a), (N.compare_spec a x); subst; try done; lia. }
  pose proof (al_sorted_filter edge_compare (λ x0 : edge * bool, above edge_compare (Included (Edge x 0)) x0.1 &&
     below edge_compare (Excluded (Edge x max_id)) x0.1 = true) l Hs) as Hso.
  revert Hx Hso. generalize (filter (λ x0 : edge * bool, above edge_compare (Included (Edge x 0)) x0.1 &&
     below edge_compare (Excluded (Edge x max_id)) x0.1 = true) l). clear.
  intros r Hx Hso. induction Hso as [|[e v] r Hs IH Hf]; [constructor|]. rewrite !fmap_cons. constructor.
  - apply IH. intros e' v' Hin. eapply Hx. by right.
  - apply Forall_forall. intros y (e' & -> & ([e2 v2] & -> & Hin)%elem_of_list_fmap)%elem_of_list_fmap. simpl.
    rewrite Forall_forall in Hf. specialize (Hf _ Hin). simpl in Hf. unfold edge_compare in Hf.
    rewrite (Hx e v) in Hf by left. rewrite (Hx e2 v2) in Hf by (by right). rewrite N.compare_refl in Hf. by apply N.compare_lt_iff.
Qed.
End targets.

Lemma nsorted_ext l1 l2 : nsorted l1 → nsorted l2 → (∀ x, x ∈ l1 ↔ x ∈ l2) → l1 = l2.
Proof.
  intros H1. revert l2. induction H1 as [|x l1 Hs IH Hx]; intros l2 H2 Hiff.
  - destruct l2 as [|y l2]; [done|]. exfalso. apply (not_elem_of_nil y), Hiff. left.
  - destruct l2 as [|y l2]; [exfalso; apply (not_elem_of_nil x), Hiff; left|].
    apply StronglySorted_inv in H2 as [H2 Hy]. rewrite Forall_forall in Hx, Hy.
    assert (x = y) as ->.
    { pose proof (proj1 (Hiff x) ltac:(by left)) as [?|Ha]%elem_of_cons; [done|].
      pose proof (proj2 (Hiff y) ltac:(by left)) as [?|Hb]%elem_of_cons; [done|].
      specialize (Hy _ Ha). specialize (Hx _ Hb). simpl in *. lia. }
    f_equal. apply IH; [done|]. intros z. specialize (Hiff z). rewrite !elem_of_cons in Hiff. split.
    + intros Hz. destruct (proj1 Hiff (or_intror Hz)) as [->|?]; [|done]. specialize (Hx _ Hz). simpl in Hx. lia.
    + intros Hz. destruct (proj2 Hiff (or_intror Hz)) as [->|?]; [|done]. specialize (Hy _ Hz). simpl in Hy. lia.
Qed.

Lemma sim_out d s g x : sim d s (gr_edges g) → ginv s g → small_ids (gr_edges g) → dk_out d x = adj_out s x.
Proof.
  intros S I B. assert (∀ e, e ∈ gr_edges g → (target e < max_id)%N) as Hb by (intros [a b] He; by eapply B).
  apply nsorted_ext.
  - exact (targets_sorted _ _ (sim_sorted _ _ _ S) (sim_edges _ _ _ S) Hb x).
  - apply (gi_out_sorted _ _ I).
  - intros y. unfold dk_out. rewrite (targets_elem _ _ (sim_edges _ _ _ S) Hb). symmetry. apply (gi_out _ _ I).
Qed.
Lemma sim_in d s g x : sim d s (gr_edges g) → ginv s g → small_ids (gr_edges g) → dk_in d x = adj_in s x.
Proof.
  intros S I B. assert (∀ e, inverse e ∈ gr_edges g → (target e < max_id)%N) as Hb by (intros [a b] He; by eapply (B b a)).
  apply nsorted_ext.
  - exact (targets_sorted _ (λ e, inverse e ∈ gr_edges g) (sim_sorted_inv _ _ _ S) (sim_inverse _ _ _ S) Hb x).
  - apply (gi_in_sorted _ _ I).
  - intros y. unfold dk_in. rewrite (targets_elem _ (λ e, inverse e ∈ gr_edges g) (sim_inverse _ _ _ S) Hb). symmetry. apply (gi_in _ _ I).
Qed.

Lemma al_insert_elem (l : list (edge * bool)) e e' v : al_sorted edge_compare l →
  (∀ e v, (e, v) ∈ l → v = true) →
  (e', v) ∈ al_insert edge_compare l e true ↔ v = true ∧ (e' = e ∨ (e', true) ∈ l).
Proof.
  intros Hs Ht. rewrite <- !(al_get_iff edge_compare) by (done || by apply (al_insert_sorted edge_compare)).
  rewrite (al_get_insert edge_compare).
  assert (al_get edge_compare l e' = Some v → v = true) as Hv by (intros Hg%(al_get_in edge_compare); by eapply Ht).
  destruct (edge_compare e' e) eqn:E.
  - apply (cmp_eq edge_compare) in E as ->. split; [by intros [= <-]; auto|]. by intros [-> _].
  - assert (e' ≠ e) by (intros ->; by rewrite (cmp_refl edge_compare) in E). split; [intros Hg; pose proof (Hv Hg); subst; auto|].
    intros [-> [?|?]]; done.
  - assert (e' ≠ e) by (intros ->; by rewrite (cmp_refl edge_compare) in E). split; [intros Hg; pose proof (Hv Hg); subst; auto|].
    intros [-> [?|?]]; done.
Qed.
Lemma al_remove_elem (l : list (edge * bool)) e e' v : al_sorted edge_compare l →
  (e', v) ∈ al_remove edge_compare l e ↔ e' ≠ e ∧ (e', v) ∈ l.
Proof.
  intros Hs. rewrite <- !(al_get_iff edge_compare) by (done || by apply (al_remove_sorted edge_compare)).
  rewrite (al_get_remove edge_compare) by done. destruct (edge_compare e' e) eqn:E.
  - apply (cmp_eq edge_compare) in E as ->. split; [done|]. by intros [? _].
  - assert (e' ≠ e) by (intros ->; by rewrite (cmp_refl edge_compare) in E). tauto.
  - assert (e' ≠ e) by (intros ->; by rewrite (cmp_refl edge_compare) in E). tauto.
Qed.

Lemma sim_new : sim dk_new adj_new ∅.
Proof. constructor; simpl; try done; try constructor; intros; try (by apply elem_of_nil in H); destruct H as [_ H]; by apply elem_of_empty in H. Qed.
Lemma sim_clear d s G : sim d s G → sim (dk_clear d) (adj_clear s) ∅.
Proof. intros S. destruct sim_new. constructor; try done. simpl. by rewrite (sim_annos _ _ _ S). Qed.

Lemma inverse_eq e e' : inverse e = e' ↔ e = inverse e'.
Proof. destruct e, e'. unfold inverse. simpl. split; intros [= -> ->]; done. Qed.
Lemma sim_add d s g e : sim d s (gr_edges g) →
  sim (dk_add_edge d e) (adj_add_edge s e) (gr_edges (graph_step g (AddEdge e) true)).
Proof.
  intros S. pose proof S as []. unfold dk_add_edge, adj_add_edge. simpl. destruct (decide (source e = target e)); [done|].
  constructor; simpl.
  - done.
  - by apply (al_insert_sorted edge_compare).
  - by apply (al_insert_sorted edge_compare).
  - intros e' v. rewrite al_insert_elem; [|done|intros ? ? Hx; by apply sim_edges0 in Hx as [-> _]].
    rewrite sim_edges0, elem_of_union, elem_of_singleton. naive_solver.
  - intros e' v. rewrite al_insert_elem; [|done|intros ? ? Hx; by apply sim_inverse0 in Hx as [-> _]].
    rewrite sim_inverse0, elem_of_union, elem_of_singleton, inverse_eq. naive_solver.
Qed.
Lemma sim_add_anno d s g e k v d' ok : sim d s (gr_edges g) → ginv s g → dk_add_anno d e k v = (d', ok) →
  ∃ s', adj_add_anno s e k v = (s', ok) ∧ sim d' s' (gr_edges g).
Proof.
  intros S I. pose proof S as []. unfold dk_add_anno, adj_add_anno.
  destruct (al_get edge_compare (k_edges d) e) as [b|] eqn:E.
  - apply (al_get_in edge_compare) in E. apply sim_edges0 in E as [-> He]. rewrite decide_True.
    2:{ destruct e as [x y]. simpl. by apply (gi_out _ _ I). }
    rewrite sim_annos0. destruct (am_insert edge_compare (g_annos s) e k v) as [a r]. intros [= <- <-].
    eexists. split; [done|]. by constructor.
  - intros [= <- <-]. exists s. rewrite decide_False; [done|]. intros Hin. destruct e as [x y]. simpl in Hin.
    apply (gi_out _ _ I) in Hin. apply (al_get_none edge_compare) with (v := true) in E. destruct E. by apply sim_edges0.
Qed.
Lemma sim_del d s g e : sim d s (gr_edges g) →
  sim (dk_delete_edge d e) (adj_delete_edge s e) (gr_edges (graph_step g (DelEdge e) true)).
Proof.
  intros S. pose proof S as []. unfold dk_delete_edge, adj_delete_edge. constructor; simpl.
  - by rewrite sim_annos0.
  - by apply (al_remove_sorted edge_compare).
  - by apply (al_remove_sorted edge_compare).
  - intros e' v. rewrite al_remove_elem by done. rewrite sim_edges0, elem_of_difference, elem_of_singleton. naive_solver.
  - intros e' v. rewrite al_remove_elem by done. rewrite sim_inverse0, elem_of_difference, elem_of_singleton, inverse_eq.
    naive_solver.
Qed.
Lemma sim_del_edges l : ∀ d s g, sim d s (gr_edges g) →
  sim (fold_left dk_delete_edge l d) (fold_left adj_delete_edge l s) (gr_edges g ∖ list_to_set l).
Proof.
  induction l as [|e l IH]; intros d s g S; simpl.
  - replace (gr_edges g ∖ ∅) with (gr_edges g) by set_solver. done.
  - pose proof (IH _ _ _ (sim_del d s g e S)) as H. simpl in H.
    replace (gr_edges g ∖ ({[e]} ∪ list_to_set l)) with (gr_edges g ∖ {[e]} ∖ list_to_set l) by set_solver. exact H.
Qed.

Definition op_small (o : adj_op) : Prop :=
  match o with AddEdge e => (source e < max_id)%N ∧ (target e < max_id)%N | _ => True end.
Lemma small_step g o ok : op_small o → small_ids (gr_edges g) → small_ids (gr_edges (graph_step g o ok)).
Proof.
  intros Ho B a b. destruct o; simpl in *; try apply B.
  - destruct (decide _); [apply B|]. rewrite elem_of_union, elem_of_singleton. intros [<-|?]; [done|by apply B].
  - rewrite elem_of_difference. intros [? _]. by apply B.
  - rewrite elem_of_filter. intros [_ ?]. by apply B.
  - intros ?%elem_of_empty. done.
Qed.
Lemma sim_step d s g o d' ok : sim d s (gr_edges g) → ginv s g → small_ids (gr_edges g) → dk_step d o = (d', ok) →
  ∃ s', adj_step s o = (s', ok) ∧ sim d' s' (gr_edges (graph_step g o ok)).
Proof.
  intros S I B. destruct o as [e|e k v|e|e k|x| |]; simpl.
  - intros [= <- <-]. eexists. split; [done|]. by apply (sim_add d s g e).
  - intros E. destruct (sim_add_anno _ _ _ _ _ _ _ _ S I E) as (s' & ? & ?). eauto.
  - intros [= <- <-]. eexists. split; [done|]. by apply (sim_del d s g e).
  - intros [= <- <-]. eexists. split; [done|]. destruct S. constructor; simpl; try done. by rewrite sim_annos0.
  - intros [= <- <-]. eexists. split; [done|]. unfold dk_delete_node, adj_delete_node.
    rewrite (sim_out d s g x S I B), (sim_in d s g x S I B).
    set (l := ((λ t, Edge x t) <$> adj_out s x) ++ ((λ y, Edge y x) <$> adj_in s x)).
    replace (filter (λ e, source e ≠ x ∧ target e ≠ x) (gr_edges g)) with (gr_edges g ∖ list_to_set l); [by apply sim_del_edges|].
    apply set_eq. intros [a b]. rewrite elem_of_difference, elem_of_list_to_set, elem_of_filter. simpl.
    enough (Edge a b ∈ gr_edges g → Edge a b ∉ l ↔ a ≠ x ∧ b ≠ x) by tauto. intros He. subst l. rewrite elem_of_app, !elem_of_list_fmap. split.
    + intros Hn. split; intros ->; apply Hn; [left; exists b|right; exists a]; (split; [done|]); by apply I.
    + intros [H1 H2] [(y & [= -> ->] & _)|(y & [= -> ->] & _)]; done.
  - intros [= <- <-]. eexists. split; [done|]. by eapply sim_clear.
  - intros [= <- <-]. eexists. split; [done|]. destruct S. constructor; simpl; try done. by rewrite sim_annos0.
Qed.
Lemma sim_run ops : ∀ d s g d' oks, Forall op_small ops → sim d s (gr_edges g) → ginv s g → small_ids (gr_edges g) →
  dk_run d ops = (d', oks) → ∃ s', adj_run s ops = (s', oks) ∧ sim d' s' (gr_edges (graph_run g ops oks)).
Proof.
  induction ops as [|o ops IH]; intros d s g d' oks Ho S I B; simpl.
  - intros [= <- <-]. eauto.
  - apply Forall_cons in Ho as [Ho1 Ho]. destruct (dk_step d o) as [d1 r] eqn:E1. destruct (dk_run d1 ops) as [d2 rs] eqn:E2.
    intros [= <- <-]. destruct (sim_step _ _ _ _ _ _ S I B E1) as (s1 & Es1 & S1).
    destruct (IH d1 s1 (graph_step g o r) d2 rs Ho S1) as (s' & Es' & S'); [by eapply ginv_step|by apply small_step|done|].
    exists s'. rewrite Es1, Es'. done.
Qed.

(** ** Interface *)
Lemma unique_spec l : ∀ X, NoDup (unique X l) ∧ ∀ x, x ∈ unique X l ↔ x ∉ X ∧ x ∈ l.
Proof.
  induction l as [|y l IH]; intros X; simpl.
  - split; [constructor|]. intros x. split; [by intros ?%elem_of_nil|]. by intros [_ ?].
  - destruct (decide (y ∈ X)) as [Hy|Hy].
    + destruct (IH X) as [H1 H2]. split; [done|]. intros x. rewrite H2, elem_of_cons. split; [tauto|].
      intros [Hx [->|?]]; [done|done].
    + destruct (IH ({[y]} ∪ X)) as [H1 H2]. split.
      * constructor; [|done]. intros [Hn _]%H2. apply Hn, elem_of_union. left. by apply elem_of_singleton.
      * intros x. rewrite !elem_of_cons, H2, elem_of_union, elem_of_singleton.
        destruct (decide (x = y)) as [->|Hne]; [split; [intros _; auto|by left]|]. split.
        -- intros [?|[H3 H4]]; [done|]. split; [intros Hx; apply H3; by right|by right].
        -- intros [H3 [?|H4]]; [done|]. right. split; [|done]. intros [?|?]; done.
Qed.

Section disk.
Context (d : dadj) (s : adj) (g : graph) (S : sim d s (gr_edges g)) (I : ginv s g) (B : small_ids (gr_edges g)).
Lemma dk_edges_nodup : NoDup (k_edges d).*1.
Proof using S. apply (al_sorted_NoDup edge_compare), S. Qed.
Lemma dk_edges_elem e : e ∈ (k_edges d).*1 ↔ e ∈ gr_edges g.
Proof using S.
  rewrite elem_of_list_fmap. split.
  - intros ([e' v] & -> & Hin). by apply (sim_edges _ _ _ S) in Hin as [_ ?].
  - intros He. exists (e, true). split; [done|]. by apply (sim_edges _ _ _ S).
Qed.
Lemma dk_out_lemma x : NoDup (dk_out d x) ∧ ∀ y, y ∈ dk_out d x ↔ Edge x y ∈ gr_edges g.
Proof using S I B.
  rewrite (sim_out d s g x S I B). split; [apply nsorted_NoDup, I|]. intros y. apply (gi_out _ _ I).
Qed.
Lemma dk_in_lemma y : NoDup (dk_in d y) ∧ ∀ x, x ∈ dk_in d y ↔ Edge x y ∈ gr_edges g.
Proof using S I B.
  rewrite (sim_in d s g y S I B). split; [apply nsorted_NoDup, I|]. intros x. apply (gi_in _ _ I).
Qed.
Lemma dk_sources_lemma : NoDup (dk_sources d) ∧ ∀ x, x ∈ dk_sources d ↔ is_source (gr_edges g) x.
Proof using S.
  unfold dk_sources. destruct (unique_spec (source <$> (k_edges d).*1) ∅) as [H1 H2]. split; [done|].
  intros x. rewrite H2, elem_of_list_fmap. unfold is_source, edge_rel. split.
  - intros [_ ([a b] & -> & He)]. exists b. by apply dk_edges_elem in He.
  - intros [y Hy]. split; [apply not_elem_of_empty|]. exists (Edge x y). split; [done|]. by apply dk_edges_elem.
Qed.
Lemma dk_roots_lemma : NoDup (dk_roots d) ∧ ∀ x, x ∈ dk_roots d ↔ is_root (gr_edges g) x.
Proof using S I B.
  destruct dk_sources_lemma as [H1 H2]. split; [by apply NoDup_filter|]. intros x. unfold dk_roots.
  rewrite elem_of_list_filter, H2, (and_comm (_ = false)). apply and_iff_compat_l. destruct (dk_in_lemma x) as [_ Hin].
  unfold dk_has_in. destruct (dk_in d x) as [|y l].
  - split; [|done]. intros _ [y Hy]. apply Hin in Hy. by apply elem_of_nil in Hy.
  - split; [done|]. intros Hn. destruct Hn. exists y. apply Hin. left.
Qed.
Lemma dk_holds : holds (dk_sources d) (dk_out d) (am_get_annotations (k_annos d)) g.
Proof using S I B.
  destruct (adj_holds s g I). constructor; try done.
  - apply dk_sources_lemma.
  - intros x. by apply dk_sources_lemma.
  - intros x. apply dk_out_lemma.
  - intros x. apply dk_out_lemma.
  - by rewrite (sim_annos _ _ _ S).
  - by rewrite (sim_annos _ _ _ S).
Qed.

(** Fan-outs *)
Lemma counts_spec l : ∀ (m : gmap N nat) x,
  default 0 (fold_left (λ (m : gmap N nat) (e : edge), <[source e := Datatypes.S (default 0 (m !! source e))]> m) l m !! x) =
  default 0 (m !! x) + length (filter (λ e, source e = x) l).
Proof using.
  induction l as [|e l IH]; intros m x; simpl; [lia|]. rewrite IH, filter_cons.
  destruct (decide (source e = x)) as [<-|Hne]; [rewrite lookup_insert; simpl; lia|by rewrite lookup_insert_ne].
Qed.
Lemma dk_fan_out x : fan_out (gr_edges g) x = length (filter (λ e, source e = x) (k_edges d).*1).
Proof using S.
  unfold fan_out.
  replace (filter (λ e, source e = x) (gr_edges g)) with (list_to_set (filter (λ e, source e = x) (k_edges d).*1) : gset edge).
  - rewrite size_list_to_set; [done|]. apply NoDup_filter, dk_edges_nodup.
  - apply set_eq. intros e. rewrite elem_of_list_to_set, elem_of_list_filter, elem_of_filter, dk_edges_elem. done.
Qed.
Lemma dk_fan_outs_max : let mx := default 0 (last (dk_fan_outs (k_edges d))) in
  (∀ x, fan_out (gr_edges g) x ≤ mx) ∧ (mx = 0 ∨ ∃ x, fan_out (gr_edges g) x = mx).
Proof using S.
  intros mx. unfold dk_fan_outs in mx. set (c := fold_left _ (k_edges d).*1 ∅) in mx.
  assert (∀ x, default 0 (c !! x) = fan_out (gr_edges g) x) as Hc.
  { intros x. unfold c. rewrite counts_spec, dk_fan_out, lookup_empty. done. }
  assert (∀ n, n ∈ sort_list Nat.compare (map_to_list c).*2 ↔ ∃ x, c !! x = Some n) as Hin.
  { intros n. rewrite (sort_list_perm Nat.compare), elem_of_list_fmap. split.
    - intros ([x v] & -> & Hx%elem_of_map_to_list). eauto.
    - intros [x Hx]. exists (x, n). split; [done|]. by apply elem_of_map_to_list. }
  split.
  - intros x. rewrite <- Hc. destruct (c !! x) as [n|] eqn:E; simpl; [|lia].
    apply last_sorted_max; [|apply Hin; eauto].
    apply sort_list_sorted; [intros a b e; lia| |].
    + intros a b. rewrite Nat.compare_gt_iff. lia.
    + intros a b. rewrite Nat.compare_gt_iff. lia.
  - unfold mx. destruct (last _) as [n|] eqn:El; [|by left]. right. apply last_Some_elem_of, Hin in El as [x Hx].
    exists x. rewrite <- Hc, Hx. done.
Qed.
Lemma dk_stats_lemma : (N.of_nat (size (all_nodes (gr_edges g))) <= usize_max)%N →
  ∃ f0, ∀ f, f0 ≤ f → ∃ st, dk_calc_stats f d = Some st ∧ stats_correct (gr_edges g) st.
Proof using S I B.
  intros Hsize. apply (stats_of_lemma (gr_edges g) (dk_out d)); [intros x; apply dk_out_lemma|done|..].
  - intros Hne%bool_decide_eq_true El. apply Hne. by apply fmap_nil_inv, fmap_nil_inv in El.
  - intros x [y Hy]. apply elem_of_list_fmap. exists (Edge x y). split; [done|]. by apply dk_edges_elem.
  - intros x. rewrite elem_of_list_fmap. split.
    + intros ([a b] & -> & He). exists a. by apply dk_edges_elem in He.
    + intros [y Hy]. exists (Edge y x). split; [done|]. by apply dk_edges_elem.
  - split.
    + intros Hnd a b x Ha Hb. apply dk_edges_elem in Ha. apply dk_edges_elem in Hb.
      revert Hnd Ha Hb. generalize (k_edges d).*1. clear. intros l. induction l as [|e l IH]; [by intros _ ?%elem_of_nil|].
      rewrite fmap_cons. intros [Hn Hnd]%NoDup_cons [Ea|Ha]%elem_of_cons [Eb|Hb]%elem_of_cons.
      * congruence.
      * destruct Hn. apply elem_of_list_fmap. exists (Edge b x). by rewrite <- Ea.
      * destruct Hn. apply elem_of_list_fmap. exists (Edge a x). by rewrite <- Eb.
      * by apply IH.
    + intros Hop. apply NoDup_fmap_inj_on; [apply dk_edges_nodup|]. intros [a1 b1] [a2 b2] H1 H2. simpl. intros ->.
      apply dk_edges_elem in H1. apply dk_edges_elem in H2. f_equal. by eapply Hop.
  - apply dk_fan_outs_max.
  - apply dk_fan_outs_max.
Qed.
End disk.

(** ** Copy *)
Lemma dk_copy_false annos es d : fold_left (dk_copy_edge annos) es (d, false) = (d, false).
Proof. induction es as [|e es IH]; [done|]. simpl. done. Qed.
Lemma sim_copy_annos e l : ∀ d s g ok0 d' ok, sim d s (gr_edges g) → ginv s g →
  fold_left (λ (r : dadj * bool) (a : anno_key * bytes), let '(s, ok) := r in
                 if ok then dk_add_anno s e a.1 a.2 else r) l (d, ok0) = (d', ok) →
  ∃ s' g', fold_left (λ (r : adj * bool) (a : anno_key * bytes), let '(s, ok) := r in
                 if ok then adj_add_anno s e a.1 a.2 else r) l (s, ok0) = (s', ok) ∧
    sim d' s' (gr_edges g') ∧ ginv s' g' ∧ gr_edges g' = gr_edges g.
Proof.
  induction l as [|[k v] l IH]; intros d s g ok0 d' ok S I; simpl.
  - intros [= <- <-]. exists s, g. done.
  - destruct ok0; [|by apply (IH d s g)]. destruct (dk_add_anno d e k v) as [d1 ok1] eqn:E1.
    destruct (sim_add_anno _ _ _ _ _ _ _ _ S I E1) as (s1 & Es & S1). rewrite Es. intros E.
    pose proof (ginv_add_anno _ _ _ _ _ _ _ I Es) as I1.
    destruct (IH d1 s1 (graph_step g (AddAnno e k v) ok1) ok1 d' ok S1 I1 E) as (s' & g' & ? & ? & ? & ?). exists s', g'. done.
Qed.
Lemma sim_copy annos es : ∀ d s g ok0 d' ok, sim d s (gr_edges g) → ginv s g →
  fold_left (dk_copy_edge annos) es (d, ok0) = (d', ok) →
  ∃ s' g', fold_left (copy_edge annos) es (s, ok0) = (s', ok) ∧ sim d' s' (gr_edges g') ∧ ginv s' g'.
Proof.
  induction es as [|e es IH]; intros d s g ok0 d' ok S I; cbn [fold_left].
  - intros [= <- <-]. exists s, g. done.
  - destruct ok0; [|by apply (IH d s g)]. destruct (dk_copy_edge annos (d, true) e) as [d1 ok1] eqn:E1. intros E.
    unfold dk_copy_edge in E1. destruct (sim_copy_annos _ _ _ _ _ _ _ _ (sim_add d s g e S) (ginv_add s g e I) E1) as (s1 & g1 & Es & S1 & I1 & _).
    destruct (IH _ _ _ _ _ _ S1 I1 E) as (s' & g' & Es' & S' & I'). exists s', g'. split; [|done].
    unfold copy_edge at 2. rewrite Es. exact Es'.
Qed.

Lemma ginv_edges_eq s g1 g2 : ginv s g1 → ginv s g2 → gr_edges g1 = gr_edges g2.
Proof. intros I1 I2. apply set_eq. intros [a b]. rewrite <- (gi_out _ _ I1 a b). apply (gi_out _ _ I2). Qed.
Lemma dk_copy_sim d0 s0 g0 sources out annos st d ok : sim d0 s0 (gr_edges g0) → ginv s0 g0 → dk_copy d0 sources out annos st = (d, ok) →
  ∃ s g', adj_copy s0 sources out annos st = (s, ok) ∧ sim d s (gr_edges g') ∧ ginv s g' ∧ k_stats d = st.
Proof.
  intros S0 I0. unfold dk_copy. destruct (fold_left (dk_copy_edge annos) _ _) as [d1 ok1] eqn:E1. intros [= <- ->].
  destruct (sim_copy annos (sources ≫= λ x, (λ y, Edge x y) <$> out x) (dk_clear d0) (adj_clear s0) empty_graph true d1 ok) as (s' & g' & E & S & I).
  - by eapply sim_clear.
  - by eapply ginv_clear.
  - exact E1.
  - unfold adj_copy. rewrite E. eexists _, g'. split; [done|]. destruct S, I. split_and!; by constructor.
Qed.
Lemma dk_copy_lemma d0 s0 g0 sources out annos g st d : sim d0 s0 (gr_edges g0) → ginv s0 g0 → holds sources out annos g →
  dk_copy d0 sources out annos st = (d, true) → ∃ s, sim d s (gr_edges g) ∧ ginv s g ∧ k_stats d = st.
Proof.
  intros S0 I0 H E. destruct (dk_copy_sim _ _ _ _ _ _ _ _ _ S0 I0 E) as (s & g' & Es & S & I & Hst). exists s.
  destruct (copy_lemma _ _ _ _ H _ _ _ _ I0 Es) as [I' _]. rewrite (ginv_edges_eq _ _ _ I' I). done.
Qed.
