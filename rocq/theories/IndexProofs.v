(** Deriving the edges again for a list of nodes. *)
From stdpp Require Import base list gmap fin_maps.
From Coq Require Import NArith Lia.
From Verif Require Import KeySer KeySerSpec SortedMap Types SymbolTable AnnoMem AnnoMemProofs AnnoMemQueries Dfs DfsProofs DfsQueries GraphSpec Adjacency AdjacencySpec
  AdjacencyProofs Storage GraphUpdate GraphApply GraphApplyProofs TokenHelper ContextSpec QuickSort QuickSortSpec QuickSortAny SortMatchesSpec SortMatchesProofs
  Index IndexSpec IndexGood.

Definition derived (c : comp) : Prop := c = left_comp ∨ c = right_comp ∨ c = inherited.
(** The same labels, and the same edges outside of the derived components *)
Definition same_user (st st' : gstate) : Prop :=
  g_node_annos st' = g_node_annos st ∧ ∀ c, ¬ derived c → g_comps st' !! c = g_comps st !! c.
Lemma same_refl st : same_user st st.
Proof. done. Qed.
Lemma same_trans a b c : same_user a b → same_user b c → same_user a c.
Proof. intros [A1 A2] [B1 B2]. split; [congruence|]. intros k Hk. by rewrite B2, A2. Qed.
Lemma same_sym a b : same_user a b → same_user b a.
Proof. intros [A1 A2]. split; [congruence|]. intros k Hk. by rewrite A2. Qed.
Lemma derived_coverage c : c.1.1 = t_coverage → c ≠ inherited → ¬ derived c.
Proof. intros Hc Hn [->|[->| ->]]; done. Qed.
Lemma derived_dominance c : c.1.1 = t_dominance → ¬ derived c.
Proof. intros Hc [->|[->| ->]]; done. Qed.
Lemma derived_order : ¬ derived order_comp.
Proof. intros [H|[H|H]]; discriminate H. Qed.
Section Same.
Context {st st' : gstate} (HS : same_user st st').
Lemma same_edge c x y : ¬ derived c → edge_in st' c x y ↔ edge_in st c x y.
Proof using HS. intros Hc. unfold edge_in. by rewrite (proj2 HS c Hc). Qed.
Lemma same_label n k : has_label st' n k ↔ has_label st n k.
Proof using HS. unfold has_label. by rewrite (proj1 HS). Qed.
Lemma same_coverage x y : coverage_edge st' x y ↔ coverage_edge st x y.
Proof using HS. unfold coverage_edge. split; intros (c & Hc & Hn & He); exists c; (split_and!; [done..|]); eapply same_edge; eauto using derived_coverage. Qed.
Lemma same_text x y : text_edge st' x y ↔ text_edge st x y.
Proof using HS.
  unfold text_edge. rewrite same_coverage. apply or_iff_compat_l.
  split; intros (c & Hc & He); exists c; (split; [done|]); eapply same_edge; eauto using derived_dominance.
Qed.
Lemma same_token n : text_token st' n ↔ text_token st n.
Proof using HS. unfold text_token. rewrite same_label. setoid_rewrite same_coverage. done. Qed.
Lemma same_reach x y : reachable (text_edge st') x y ↔ reachable (text_edge st) x y.
Proof using HS. split; intros [p Hp]; exists p; (eapply walk_ext; [|exact Hp]); intros a b; by rewrite same_text. Qed.
Lemma same_text_of n t : text_of st' n t ↔ text_of st n t.
Proof using HS. unfold text_of. by rewrite same_token, same_reach. Qed.
Lemma same_before a b : comes_before st' a b ↔ comes_before st a b.
Proof using HS. split; intros (p & Hp & Hw); exists p; (split; [done|]); (eapply walk_ext; [|exact Hw]); intros x y; by rewrite (same_edge order_comp x y derived_order). Qed.
Lemma same_one_text n : in_one_text st' n ↔ in_one_text st n.
Proof using HS. unfold in_one_text. setoid_rewrite same_text_of. setoid_rewrite same_before. done. Qed.
End Same.

(** ** Union of components *)
Lemma union_out_iff st cs x y : y ∈ union_edges adj_out st cs x ↔ ∃ c, c ∈ cs ∧ edge_in st c x y.
Proof.
  unfold union_edges. rewrite elem_of_elements, elem_of_union_list. split.
  - intros (X & HX & Hy). apply elem_of_list_fmap in HX as (g & -> & Hg). apply elem_of_list_omap in Hg as (c & Hc & Hg).
    exists c. split; [done|]. exists g. split; [done|]. by apply elem_of_list_to_set in Hy.
  - intros (c & Hc & g & Hg & Hy). exists (list_to_set (adj_out g x)). split; [|by apply elem_of_list_to_set].
    apply elem_of_list_fmap. exists g. split; [done|]. apply elem_of_list_omap. by exists c.
Qed.
Lemma union_in_iff st M Gs cs x y : good st M Gs → y ∈ union_edges adj_in st cs x ↔ ∃ c, c ∈ cs ∧ edge_in st c y x.
Proof.
  intros H. unfold union_edges. rewrite elem_of_elements, elem_of_union_list.
  assert (∀ c g, g_comps st !! c = Some g → y ∈ adj_in g x ↔ x ∈ adj_out g y) as Hio.
  { intros c g Hg. pose proof (gd_gs _ _ _ H c) as HG. unfold writable in HG. rewrite Hg in HG. cbn in HG. by rewrite (gi_in _ _ HG), (gi_out _ _ HG). }
  split.
  - intros (X & HX & Hy). apply elem_of_list_fmap in HX as (g & -> & Hg). apply elem_of_list_omap in Hg as (c & Hc & Hg).
    exists c. split; [done|]. exists g. split; [done|]. apply elem_of_list_to_set in Hy. by apply (Hio c).
  - intros (c & Hc & g & Hg & Hy). exists (list_to_set (adj_in g x)). split; [|apply elem_of_list_to_set; by apply (Hio c)].
    apply elem_of_list_fmap. exists g. split; [done|]. apply elem_of_list_omap. by exists c.
Qed.
Definition nodes_of (Gs : comp → graph) (cs : list comp) : gset N := ⋃ ((λ c, all_nodes (gr_edges (Gs c))) <$> cs).
Lemma in_nodes_of Gs cs c x : c ∈ cs → x ∈ all_nodes (gr_edges (Gs c)) → x ∈ nodes_of Gs cs.
Proof. intros Hc Hx. apply elem_of_union_list. exists (all_nodes (gr_edges (Gs c))). split; [|done]. apply elem_of_list_fmap. by exists c. Qed.

(** A search which ended found exactly the simple paths. *)
Lemma search_found nb min E f s0 node l s' (Vs : gset N) :
  (∀ a b, b ∈ nb a ↔ E a b) → (∀ a b, E a b → (a < node_bound)%N ∧ (b < node_bound)%N) → (∀ a b, a ∈ Vs → E a b → b ∈ Vs) → node ∈ Vs →
  d_path s0 = [] → d_in_path s0 = ∅ → d_last s0 = 0 → d_stack s0 = [(node, 0)] →
  dfs_loop nb min usize_max f s0 = Some (l, s') →
  ∀ x, x ∈ l.*1 ↔ ∃ p, simple_path E node p x ∧ (min <= N.of_nat (length p))%N.
Proof.
  intros Hnb Hids Hcl Hn H1 H2 H3 H4 Hl x.
  destruct (connected_lemma nb Vs) with (node := node) (min := min) (max := @Unbounded N) (s0 := s0) as (f0 & Hf); [|  |done|done|done|done|done|done|].
  { intros a b Ha Hb. apply (Hcl a b Ha). by apply Hnb. }
  { intros a b Hb. apply Hids. by apply Hnb. }
  destruct (Hf f0 (le_n _)) as (m & l' & s'' & [= <-] & El & Hin).
  assert ((l, s') = (l', s'')) as [= -> ->] by (eapply loop_det; [exact Hl|exact El]).
  rewrite elem_of_list_fmap. split.
  - intros ([y d] & -> & Hy). apply Hin in Hy as (p & Hp & _ & [Hd _]). exists p. split; [|done]. eapply simple_path_ext; [|exact Hp]. intros a b. symmetry. apply Hnb.
  - intros (p & Hp & Hd). exists (x, length p). split; [done|]. apply Hin. exists p. split_and!; [|done|by split].
    eapply simple_path_ext; [|exact Hp]. exact Hnb.
Qed.
Lemma search_ends nb min E s0 node (Vs : gset N) :
  (∀ a b, b ∈ nb a ↔ E a b) → (∀ a b, E a b → (a < node_bound)%N ∧ (b < node_bound)%N) → (∀ a b, a ∈ Vs → E a b → b ∈ Vs) → node ∈ Vs →
  d_path s0 = [] → d_in_path s0 = ∅ → d_last s0 = 0 → d_stack s0 = [(node, 0)] →
  ∃ f0, ∀ f, f0 ≤ f → is_Some (dfs_loop nb min usize_max f s0).
Proof.
  intros Hnb Hids Hcl Hn H1 H2 H3 H4.
  destruct (connected_lemma nb Vs) with (node := node) (min := min) (max := @Unbounded N) (s0 := s0) as (f0 & Hf); [|  |done|done|done|done|done|done|].
  { intros a b Ha Hb. apply (Hcl a b Ha). by apply Hnb. }
  { intros a b Hb. apply Hids. by apply Hnb. }
  exists f0. intros f Hf0. destruct (Hf f Hf0) as (m & l' & s'' & [= <-] & El & Hin). by rewrite El.
Qed.

(** ** Tokens *)
Lemma comps_of_in st t name c : c ∈ comps_of st t name ↔ is_Some (g_comps st !! c) ∧ c.1.1 = t ∧ (∀ n, name = Some n → c.2 = n).
Proof.
  unfold comps_of. rewrite elem_of_list_filter, elem_of_list_fmap. split.
  - intros [[Ht Hn] ([c' g] & -> & Hg%elem_of_map_to_list)]. split_and!; [by exists g|done|]. intros n ->. by apply bool_decide_eq_true in Hn.
  - intros ([g Hg] & Ht & Hn). split_and!; [done| |].
    + destruct name as [n|]; [|done]. apply bool_decide_eq_true. by apply Hn.
    + exists (c, g). split; [done|]. by apply elem_of_map_to_list.
Qed.
Lemma token_in_iff st M Gs n : good st M Gs →
  token_in st n = true ↔ has_label st n tok_key ∧ ¬ ∃ c y, c.1.1 = t_coverage ∧ edge_in st c n y.
Proof.
  intros H. unfold token_in. destruct (gd_inv _ _ _ H) as [leak I]. rewrite (has_label_iff _ _ _ _ _ H).
  rewrite (has_value_lemma N.compare _ leak M n tok_key I). case_bool_decide as Hl; [|naive_solver].
  rewrite negb_true_iff. rewrite <- not_true_iff_false, existsb_exists. split.
  - intros Hx. split; [done|]. intros (c & y & Hc & g & Hg & Hy). apply Hx. exists g. split.
    + apply elem_of_list_In, elem_of_list_omap. exists c. split; [|done]. apply comps_of_in. split_and!; [by exists g|done|done].
    + apply andb_true_iff. split; [|by unfold adj_has_out; destruct (adj_out g n); [apply elem_of_nil in Hy|]].
      destruct (g_stats g) as [s|] eqn:Es; [|done]. apply bool_decide_eq_true. destruct (s_nodes s) eqn:En; [|lia]. exfalso.
      assert (gr_edges (Gs c) = ∅) as He.
      { apply (gd_stats _ _ _ H c s); [|done]. unfold writable. by rewrite Hg. }
      assert (edge_in st c n y) as Hi by by exists g. apply (edge_in_g _ _ _ _ _ _ H) in Hi. rewrite He in Hi. by apply elem_of_empty in Hi.
  - intros [_ Hx] (g & Hg%elem_of_list_In & Ho). apply andb_true_iff in Ho as [_ Ho]. apply Hx.
    apply elem_of_list_omap in Hg as (c & Hc & Hg). apply comps_of_in in Hc as (_ & Hc & _).
    unfold adj_has_out in Ho. destruct (adj_out g n) as [|y r] eqn:Ey; [done|]. exists c, y. split; [done|]. exists g. split; [done|].
    rewrite Ey. by left.
Qed.

(** ** Adding edges *)
Lemma set_set st c g g' : set_comp (set_comp st c g) c g' = set_comp st c g'.
Proof. unfold set_comp. cbn. by rewrite insert_insert. Qed.
Lemma set_other st c g c' : c' ≠ c → g_comps (set_comp st c g) !! c' = g_comps st !! c'.
Proof. intros Hne. unfold set_comp. cbn. by rewrite lookup_insert_ne. Qed.
Lemma good_same st M Gs c : good st M Gs → good (set_comp st c (writable st c)) M Gs.
Proof.
  intros H. split; [apply H| | |apply H|].
  - intros c'. rewrite writable_set. destruct (decide (c' = c)) as [->|]; apply H.
  - apply H.
  - intros c' s. rewrite writable_set. destruct (decide (c' = c)) as [->|]; apply H.
Qed.
Lemma edge_set_same st c x y : edge_in (set_comp st c (writable st c)) c x y ↔ edge_in st c x y.
Proof. rewrite !edge_in_w, writable_set. by rewrite decide_True. Qed.
Lemma add_edge_good st M Gs c n t : good st M Gs → n ≠ t → (n < node_bound)%N → (t < node_bound)%N →
  ∃ Gs', good (set_comp st c (adj_add_edge (writable st c) (Edge n t))) M Gs' ∧
    ∀ x y, edge_in (set_comp st c (adj_add_edge (writable st c) (Edge n t))) c x y ↔ edge_in st c x y ∨ x = n ∧ y = t.
Proof.
  intros H Hne Hn Ht. pose proof (good_step_comp st M Gs c (Adjacency.AddEdge (Edge n t)) _ true H eq_refl (conj Hn Ht)) as HG.
  eexists. split; [exact HG|]. intros x y. rewrite (edge_in_g _ _ _ _ _ _ HG), (edge_in_g _ _ _ _ _ _ H).
  rewrite decide_True by done. cbn. rewrite decide_False by done. rewrite elem_of_union, elem_of_singleton.
  split; [intros [[= -> ->]|?]; auto|intros [?|[-> ->]]; auto].
Qed.
Lemma add_edges_good (ok : N → Prop) (okd : ∀ t, Decision (ok t)) c n l : ∀ st M Gs, good st M Gs → (∀ t, t ∈ l → ok t → n ≠ t ∧ (n < node_bound)%N ∧ (t < node_bound)%N) →
  let st' := set_comp st c (fold_left (λ g t, if decide (ok t) then adj_add_edge g (Edge n t) else g) l (writable st c)) in
  ∃ Gs', good st' M Gs' ∧ ∀ x y, edge_in st' c x y ↔ edge_in st c x y ∨ x = n ∧ y ∈ l ∧ ok y.
Proof.
  induction l as [|t l IH]; intros st M Gs H Hl; cbn [fold_left]; cbv zeta.
  - exists Gs. split; [by apply good_same|]. intros x y. rewrite edge_set_same. rewrite elem_of_nil. naive_solver.
  - destruct (decide (ok t)) as [Ho|Ho].
    + destruct (Hl t) as (Hne & Hn & Ht); [by left|done|]. destruct (add_edge_good st M Gs c n t H Hne Hn Ht) as (Gs1 & H1 & E1).
      destruct (IH _ M Gs1 H1) as (Gs2 & H2 & E2). { intros u Hu. apply Hl. by right. }
      rewrite writable_set, decide_True, set_set in H2, E2 by done. exists Gs2. split; [exact H2|]. intros x y. rewrite E2, E1, elem_of_cons. naive_solver.
    + destruct (IH st M Gs H) as (Gs2 & H2 & E2). { intros u Hu. apply Hl. by right. }
      exists Gs2. split; [exact H2|]. intros x y. rewrite E2, elem_of_cons. naive_solver.
Qed.

(** ** The position in the text *)
Section Order.
Context (st : gstate) (order : storage) (Ho : ∀ a b, gs_is_connected order a b 1 Unbounded = true ↔ comes_before st a b) (Ha : order_acyclic st).
Lemma before_tr a b c : comes_before st a b → comes_before st b c → comes_before st a c.
Proof using. intros (p & Hp & Hw) (q & Hq & Hw'). exists (p ++ q). split; [by destruct p|]. by eapply walk_app. Qed.
Lemma text_cmp_spec a b : a = b ∨ comes_before st a b ∨ comes_before st b a →
  (text_cmp order a b = Eq ↔ a = b) ∧ (text_cmp order a b = Lt ↔ comes_before st a b) ∧ (text_cmp order a b = Gt ↔ comes_before st b a).
Proof using All.
  intros Hab. unfold text_cmp. pose proof (Ha a) as Hi. pose proof (before_tr a b a) as Ht.
  destruct (decide (a = b)) as [->|Hne]; [done|]. pose proof (Ho a b) as C1. pose proof (Ho b a) as C2.
  destruct (gs_is_connected order a b 1 Unbounded), (gs_is_connected order b a 1 Unbounded);
    repeat match goal with H : true = true ↔ _ |- _ => apply proj1 in H; specialize (H eq_refl)
                         | H : false = true ↔ _ |- _ => apply proj2 in H end; naive_solver.
Qed.
Lemma text_cmp_tpo (P : N → Prop) : (∀ a b, P a → P b → a = b ∨ comes_before st a b ∨ comes_before st b a) → total_preorder_on P (text_cmp order).
Proof using All.
  intros Hall. split.
  - intros x y Px Py. destruct (text_cmp_spec x y (Hall x y Px Py)) as (A1 & A2 & A3).
    destruct (text_cmp_spec y x (Hall y x Py Px)) as (B1 & B2 & B3). destruct (text_cmp order x y); simpl; naive_solver.
  - intros x y z Px Py Pz H1 H2 H3. destruct (text_cmp_spec x y (Hall x y Px Py)) as (A1 & A2 & A3).
    destruct (text_cmp_spec y z (Hall y z Py Pz)) as (B1 & B2 & B3).
    destruct (text_cmp_spec x z (Hall x z Px Pz)) as (C1 & C2 & C3). apply C3 in H3.
    assert (x = y ∨ comes_before st x y) as Q1 by (destruct (text_cmp order x y); naive_solver).
    assert (y = z ∨ comes_before st y z) as Q2 by (destruct (text_cmp order y z); naive_solver).
    pose proof (Ha x). pose proof (before_tr x y z). pose proof (before_tr x z x). naive_solver.
Qed.
Definition dir (right : bool) (a b : N) : Prop := if right then comes_before st b a else comes_before st a b.
Lemma pick_spec (fuel : nat) (rnd : nat → nat) (l l' : list N) (right : bool) : sort (text_cmp order) fuel rnd l = Done l' →
  match (if right then last l' else head l') with
  | Some t => t ∈ l ∧ ((∀ a b, a ∈ l → b ∈ l → a = b ∨ comes_before st a b ∨ comes_before st b a) → ∀ u, u ∈ l → t = u ∨ dir right t u)
  | None => l = []
  end.
Proof using All.
  intros Hs. pose proof (sort_any (text_cmp order) fuel rnd l) as Hp. rewrite Hs in Hp.
  destruct l' as [|x r] eqn:El.
  { apply Permutation_nil in Hp. by destruct right. }
  rewrite <- El in *. assert (∃ t, (if right then last l' else head l') = Some t) as [t Et].
  { destruct right; [|subst; by exists x]. destruct (last l') as [t|] eqn:E; [by exists t|]. apply last_None in E. by subst. }
  rewrite Et. assert (t ∈ l') as Ht.
  { destruct right; [|subst; injection Et as <-; by left]. rewrite last_lookup in Et. by eapply elem_of_list_lookup_2. }
  split; [by rewrite <- Hp|]. intros Hall u Hu.
  pose proof (sort_on_ok (λ x, x ∈ l) (text_cmp order) fuel rnd l (text_cmp_tpo _ Hall)) as Hok. rewrite Hs in Hok.
  destruct Hok as [_ Hasc]; [by apply Forall_forall|]. rewrite <- Hp in Hu. apply elem_of_list_lookup in Hu as [i Hi].
  assert (∀ a b, a ∈ l' → b ∈ l' → text_cmp order a b ≠ Gt → a = b ∨ comes_before st a b) as Hng.
  { intros a b A B Hc. rewrite Hp in A, B. destruct (text_cmp_spec a b (Hall a b A B)) as (C1 & C2 & C3). destruct (text_cmp order a b); naive_solver. }
  assert (u ∈ l') as Hu by by eapply elem_of_list_lookup_2.
  destruct right; cbn [dir].
  - rewrite last_lookup in Et. pose proof (lookup_lt_Some _ _ _ Hi) as Hlt. destruct (decide (i = pred (length l'))) as [->|Hne]; [left; congruence|].
    destruct (Hng u t Hu Ht); [|by left|by right]. apply (Hasc i (pred (length l'))); [lia|done|done].
  - rewrite El in Et. injection Et as ->. destruct i as [|i]; [left; rewrite El in Hi; by injection Hi|].
    destruct (Hng t u Ht Hu); [|by left|by right]. apply (Hasc 0 (S i)); [lia|by rewrite El|done].
Qed.
End Order.
