(** Gaps of a subgraph, and copying does not fail. *)
From stdpp Require Import base list gmap fin_maps.
From Coq Require Import NArith Lia.
From Verif Require Import KeySer KeySerSpec SortedMap Types TypesProofs SymbolTable AnnoMem AnnoSpec AnnoMemProofs AnnoMemQueries GraphSpec Adjacency AdjacencySpec AdjacencyProofs
  CopyProofs Storage StorageSpec GraphApply GraphApplyProofs TokenHelper SortMatches Joins EdgeOps EdgeOpsSpec EdgeOpsProofs TokenSearchSpec TokenSearchProofs Context ContextSpec ContextProofs ContextGaps Subgraph SubgraphSpec SubgraphProofs.

(** ** Gaps *)
Lemma adjacent_cons x y l a b : adjacent (x :: y :: l) a b ↔ (a = x ∧ b = y) ∨ adjacent (y :: l) a b.
Proof.
  split.
  - intros ([|z l1] & l2 & E); [left; cbn in E; by injection E as -> -> _|]. right. cbn in E. injection E as -> E. by exists l1, l2.
  - intros [[-> ->]|(l1 & l2 & E)]; [by exists [], l|]. exists (x :: l1), l2. cbn. by rewrite E.
Qed.
Lemma adjacent_one x a b : ¬ adjacent [x] a b.
Proof. intros (l1 & l2 & E). apply (f_equal length) in E. rewrite app_length in E. cbn in E. lia. Qed.
Lemma adjacent_nil a b : ¬ adjacent [] a b.
Proof. intros (l1 & l2 & E). apply (f_equal length) in E. rewrite app_length in E. cbn in E. lia. Qed.
Definition dist_of (order : option storage) (a b : N) : option N := match order with Some gs => gs_distance gs a b | None => None end.
Lemma gap_edge_in order p n a b : Edge a b ∈ gap_edge order p n ↔ p = Some a ∧ b = n ∧ ∃ d, dist_of order a b = Some d ∧ (1 < d)%N.
Proof.
  unfold gap_edge, dist_of. destruct order as [gs|]; [|rewrite elem_of_nil; naive_solver]. destruct p as [p|]; [|rewrite elem_of_nil; naive_solver].
  destruct (gs_distance gs p n) as [d|] eqn:E.
  - destruct (decide (1 < d)%N).
    + rewrite elem_of_list_singleton. split; [intros [= -> ->]; eauto|]. intros ([= ->] & -> & _). done.
    + rewrite elem_of_nil. split; [done|]. intros ([= ->] & -> & d' & E' & ?). rewrite E in E'. by injection E' as ->.
  - rewrite elem_of_nil. split; [done|]. intros ([= ->] & -> & d' & E' & ?). congruence.
Qed.
Lemma gap_run_in th order ms : ∀ seen prev P a b,
  Edge a b ∈ (fold_left (gap_step th order) ms (seen, prev, P)).2 ↔
  Edge a b ∈ P ∨ adjacent (option_list prev ++ filter (λ n, tok th n = true) (firsts seen ms).*1) a b ∧ ∃ d, dist_of order a b = Some d ∧ (1 < d)%N.
Proof.
  induction ms as [|m ms IH]; intros seen prev P a b; cbn [fold_left firsts].
  - cbn. split; [by left|]. intros [?|[H _]]; [done|]. destruct prev; cbn in H; [by apply adjacent_one in H|by apply adjacent_nil in H].
  - unfold gap_step at 2. cbn [fst snd]. destruct (decide (m ∈ seen)) as [Hm|Hm].
    + apply IH.
    + rewrite fmap_cons, filter_cons. destruct (tok th m.1) eqn:Et.
      * rewrite decide_True by done. rewrite IH, elem_of_app, gap_edge_in. change (option_list (Some m.1)) with [m.1]. destruct prev as [p|]; [change (option_list (Some p)) with [p]|change (option_list None) with (@nil N)]; cbn [app].
        -- rewrite adjacent_cons. naive_solver.
        -- naive_solver.
      * rewrite decide_False by (intros H; congruence). apply IH.
Qed.
Lemma gaps_apart th order ms a b : Edge a b ∈ (gap_run th order ms).2 ↔ apart_in (tok th) (dist_of order) ms a b.
Proof. unfold gap_run. rewrite gap_run_in. cbn. rewrite elem_of_nil. unfold apart_in. naive_solver. Qed.

(** One key for all matches: the gaps of Context.v *)
Lemma gap_edges_eq th order k (ns : list N) : ∀ seen (S : gset N) prev P, (∀ n, (n, k) ∈ seen ↔ n ∈ S) →
  (fold_left (gap_step (Some th) (Some order)) ((λ n, (n, k)) <$> ns) (seen, prev, P)).2 = P ++ gap_edges th order S prev ns.
Proof.
  induction ns as [|n ns IH]; intros seen S prev P HS; cbn [fmap list_fmap fold_left gap_edges]; [by rewrite app_nil_r|].
  unfold gap_step at 2. cbn [fst snd tok]. destruct (decide (n ∈ S)) as [Hn|Hn].
  - rewrite decide_True by by apply HS. by apply IH.
  - rewrite decide_False by (rewrite HS; done). destruct (is_token th n) eqn:Et.
    + rewrite (IH _ ({[n]} ∪ S)).
      * rewrite <- (assoc_L (++)). f_equal.
      * intros n'. rewrite elem_of_cons, HS, elem_of_union, elem_of_singleton. naive_solver.
    + apply IH. intros n'. rewrite elem_of_cons, HS, elem_of_union, elem_of_singleton. naive_solver.
Qed.

(** ** No errors *)
Lemma sum_sub {A} (f : A → nat) l1 l2 : l1 ⊆+ l2 → sum_list_with f l1 ≤ sum_list_with f l2.
Proof. induction 1; cbn in *; lia. Qed.
Lemma sum_app {A} (f : A → nat) l1 l2 : sum_list_with f (l1 ++ l2) = sum_list_with f l1 + sum_list_with f l2.
Proof. induction l1; cbn; lia. Qed.
Lemma sum_ones {A} (l : list A) : sum_list_with (λ _, 1) l = length l.
Proof. induction l as [|x l IH]; [done|]. cbn. by rewrite IH. Qed.
Lemma fold_opt_some {A B} (f : A → B → option A) (cost : B → nat) (bound : nat) (I : nat → A → Prop) l : ∀ n a, I n a → n + sum_list_with cost l ≤ bound →
  (∀ n a b, b ∈ l → I n a → n + cost b ≤ bound → ∃ a', f a b = Some a' ∧ I (n + cost b) a') → ∃ a', fold_opt f a l = Some a' ∧ I (n + sum_list_with cost l) a'.
Proof.
  induction l as [|b l IH]; intros n a HI Hn Hs; cbn [fold_opt sum_list_with] in *.
  - exists a. split; [done|]. by rewrite Nat.add_0_r.
  - destruct (Hs n a b ltac:(by left) HI ltac:(lia)) as (a1 & -> & H1). destruct (IH _ _ H1 ltac:(lia)) as (a2 & E2 & H2).
    + intros ? ? ? ?. apply Hs. by right.
    + exists a2. split; [done|]. by rewrite Nat.add_assoc.
Qed.

Section total.
Context (labels : N → list (anno_key * bytes)) (cs : components) (th : option helper) (order : option storage).
Context (max : nat) (Hmax : (N.of_nat max <= usize_max)%N).
Definition small_annos (st : gstate) (n : nat) : Prop :=
  length (by_id (anno_keys (g_node_annos st))) ≤ n ∧ length (by_id (anno_values (g_node_annos st))) ≤ n.
Definition small_comps (st : gstate) (n : nat) : Prop := ∀ k, small (writable st k) n.
Lemma create_node_some st n m : small_annos st n → small_comps st 0 → n + length (labels m) ≤ max →
  ∃ st', create_node labels st m = Some st' ∧ small_annos st' (n + length (labels m)) ∧ small_comps st' 0.
Proof.
  intros H1 H2 Hn. pose proof (sum_ones (labels m)) as E.
  rewrite <- E in *. apply (fold_opt_some _ (λ _, 1) max (λ n st, small_annos st n ∧ small_comps st 0)); [done|done|].
  clear -Hmax. intros n st [k v] _ [[Hk Hv] Hc] Hn. cbn [fst snd].
  destruct (am_insert N.compare (g_node_annos st) m k v) as [a r] eqn:E.
  destruct (step_len N.compare (g_node_annos st) (AmInsert m k v) a (if r then AmOk else AmErr) n) as (L1 & L2 & L3); [cbn; by rewrite E|done|done|].
  destruct r; [|assert (N.of_nat n < usize_max)%N as Hlt by lia; by destruct (L3 Hlt)]. eexists. split; [done|]. split; [|exact Hc]. rewrite Nat.add_1_r. by split.
Qed.
Lemma small_set st k g n : small_comps st n → small g n → small_comps (set_comp st k g) n.
Proof. intros H1 H2 k'. rewrite writable_comp. by destruct (decide _). Qed.
Lemma small_add_edge s e n : small s n → small (adj_add_edge s e) n.
Proof. intros [H1 H2]. unfold adj_add_edge. by destruct (decide _). Qed.
Lemma small_gaps l : ∀ st, small_comps st 0 → small_comps (fold_left add_gap l st) 0 ∧ g_node_annos (fold_left add_gap l st) = g_node_annos st.
Proof.
  induction l as [|e l IH]; intros st H; [done|]. cbn [fold_left]. destruct (IH (add_gap st e)) as [H1 H2].
  - apply small_set; [done|]. apply small_add_edge, H.
  - done.
Qed.
Lemma add_match_some n b m : small_annos (b_graph b) n ∧ small_comps (b_graph b) 0 → n + length (labels m.1) ≤ max →
  ∃ b', add_match labels th order b m = Some b' ∧ small_annos (b_graph b') (n + length (labels m.1)) ∧ small_comps (b_graph b') 0.
Proof.
  intros [H1 H2] Hn. unfold add_match. destruct (decide _).
  - exists b. split; [done|]. split; [|done]. destruct H1. split; lia.
  - destruct (match th with Some t => is_token t m.1 | None => false end).
    + destruct (small_gaps (gap_edge order (b_prev b) m.1) (b_graph b) H2) as [H3 H4].
      destruct (create_node_some (fold_left add_gap (gap_edge order (b_prev b) m.1) (b_graph b)) n m.1) as (st' & -> & H5 & H6); [|done|done|].
      * unfold small_annos. by rewrite H4.
      * eauto.
    + destruct (create_node_some (b_graph b) n m.1) as (st' & -> & H5 & H6); [done..|]. eauto.
Qed.
Definition of_item (idx : list nat) (r : item) : list match_ := match r with IOk g => omap (λ i, g !! i) idx | _ => [] end.
Lemma nodes_some it idx : IErr ∉ it → IPanic ∉ it → node_labels labels (chosen_list it idx) ≤ max →
  ∃ b, fold_opt (add_group labels th order idx) (Building ∅ None g_empty) it = Some b ∧ small_comps (b_graph b) 0.
Proof.
  intros He Hp Hn. set (cost := λ r, node_labels labels (of_item idx r)).
  assert (node_labels labels (chosen_list it idx) = sum_list_with cost it) as E.
  { clear. unfold chosen_list. induction it as [|r it IH]; [done|]. rewrite fmap_cons. cbn [sum_list_with]. rewrite <- IH. apply sum_app. }
  rewrite E in Hn. destruct (fold_opt_some (add_group labels th order idx) cost max (λ n b, small_annos (b_graph b) n ∧ small_comps (b_graph b) 0) it 0 (Building ∅ None g_empty))
    as (b & Hb & _ & H2).
  - split; [by split|]. intros k. unfold writable. cbn. rewrite lookup_empty. by split.
  - done.
  - intros n b r Hr HI Hc. destruct r as [g| |]; [|done..]. cbn [add_group].
    apply (fold_opt_some _ (λ m : match_, length (labels m.1)) max (λ n b, small_annos (b_graph b) n ∧ small_comps (b_graph b) 0)); [done|done|].
    intros n' b' m _ H H'. by apply add_match_some.
  - by exists b.
Qed.
Lemma annos_same st k e l st' : fold_opt (λ st a, let '(g, ok) := adj_add_anno (writable st k) e a.1 a.2 in if ok then Some (set_comp st k g) else None) st l = Some st' →
  g_node_annos st' = g_node_annos st.
Proof.
  revert st. induction l as [|a l IH]; intros st; cbn [fold_opt]; [by intros [= <-]|]. destruct (adj_add_anno _ _ _ _) as [g [|]]; [|done]. intros E. by rewrite (IH _ E).
Qed.
Lemma edge_to_some c gs src n st t : small_comps st n → n + length (am_get_annotations (gs_annos gs) (Edge src t)) ≤ max →
  ∃ st', create_edge_to c gs src st t = Some st' ∧ small_comps st' (n + length (am_get_annotations (gs_annos gs) (Edge src t))).
Proof.
  intros H Hn. unfold create_edge_to. destruct (am_get_all_keys _ _ _ _) as [|k0 ks0].
  - exists st. split; [done|]. intros k. destruct (H k). split; lia.
  - set (l := am_get_annotations (gs_annos gs) (Edge src t)) in *. pose proof (sum_ones l) as E.
    rewrite <- E in *. clearbody l. apply (fold_opt_some _ (λ _, 1) max (λ n st, small_comps st n)); [|done|].
    + apply small_set; [done|]. apply small_add_edge, H.
    + clear -Hmax. intros n st [k v] _ H Hn. cbn [fst snd]. destruct (adj_add_anno _ _ k v) as [g ok] eqn:E.
      destruct (small_add_anno _ _ _ _ _ _ _ (H (comp_of c)) E) as [Hs Hok]. rewrite Hok by lia. eexists. split; [done|].
      rewrite Nat.add_1_r. apply small_set; [|done]. intros k'. destruct (H k'). split; lia.
Qed.
Definition storage_cost (gs : storage) (src : N) : nat := sum_list_with (λ t, length (am_get_annotations (gs_annos gs) (Edge src t))) (gs_out gs src).
Definition comp_cost (src : N) (c : cname) : nat := match get_storage cs c with Some gs => storage_cost gs src | None => 0 end.
Lemma edges_some comps src n st : small_comps st n → n + sum_list_with (comp_cost src) comps ≤ max →
  ∃ st', create_edges cs comps st src = Some st' ∧ small_comps st' (n + sum_list_with (comp_cost src) comps).
Proof.
  intros H Hn. apply (fold_opt_some _ (comp_cost src) max (λ n st, small_comps st n)); [done|done|].
  clear -Hmax. intros n st c _ H Hn. unfold comp_cost in *. destruct (is_index c).
  - exists st. split; [done|]. intros k. destruct (H k). split; lia.
  - destruct (get_storage cs c) as [gs|].
    + apply (fold_opt_some _ (λ t, length (am_get_annotations (gs_annos gs) (Edge src t))) max (λ n st, small_comps st n)); [done|done|].
      intros n' st' t _ H' Hn'. by apply edge_to_some.
    + exists st. split; [done|]. intros k. destruct (H k). split; lia.
Qed.
Lemma all_components_sublist ctype name : sublist (all_components cs ctype name) cs.*1.
Proof.
  unfold all_components. destruct ctype as [t|].
  - destruct name; (etransitivity; [apply take_while_sublist|]); unfold al_range; apply fmap_sublist, sublist_filter'.
  - apply sublist_filter'.
Qed.
Lemma comp_costs src : al_sorted cname_compare cs → sum_list_with (comp_cost src) cs.*1 =
  sum_list_with (λ c : cname * option storage, match c.2 with Some gs => storage_cost gs src | None => 0 end) cs.
Proof.
  intros Hs. assert (∀ l, (∀ x, x ∈ l → x ∈ cs) → sum_list_with (comp_cost src) l.*1 =
    sum_list_with (λ c : cname * option storage, match c.2 with Some gs => storage_cost gs src | None => 0 end) l) as H; [|by apply H].
  induction l as [|[c o] l IH]; intros Hl; [done|]. cbn [sum_list_with]. rewrite fmap_cons. cbn [sum_list_with]. rewrite IH by (intros x Hx; apply Hl; by right). f_equal.
  unfold comp_cost, get_storage. assert ((c, o) ∈ cs) as Hc by (apply Hl; by left). apply (al_get_iff cname_compare) in Hc; [|done]. cbn [fst snd]. rewrite Hc. done.
Qed.
Lemma subgraph_some it idx ctype W : holds_graph cs W → IErr ∉ it → IPanic ∉ it →
  node_labels labels (chosen_list it idx) ≤ max → edge_labels cs (chosen_list it idx) ≤ max →
  (∀ b, fold_opt (add_group labels th order idx) (Building ∅ None g_empty) it = Some b → ∀ m, m ∈ b_seen b → m ∈ chosen_list it idx) →
  is_Some (subgraph labels cs th order it idx ctype).
Proof.
  intros HG He Hp Hn Hd Hseen. destruct (nodes_some it idx He Hp Hn) as (b & Hb & Hs). unfold subgraph. rewrite Hb.
  set (comps := all_components cs ctype None). set (cost := λ m : match_, sum_list_with (comp_cost m.1) comps).
  assert (sum_list_with cost (elements (b_seen b)) ≤ max) as Hc.
  { etransitivity; [apply (sum_sub cost _ (chosen_list it idx))|].
    - apply NoDup_submseteq; [apply NoDup_elements|]. intros m Hm. apply (Hseen _ Hb). by apply elem_of_elements.
    - etransitivity; [|exact Hd]. unfold edge_labels. generalize (chosen_list it idx). intros l. induction l as [|m l IH]; [done|]. cbn [sum_list_with].
      enough (cost m ≤ sum_list_with (λ c : cname * option storage, match c.2 with Some gs => storage_cost gs m.1 | None => 0 end) cs) as H by (unfold storage_cost in H; lia).
      rewrite <- (comp_costs m.1 (hg_sorted _ _ HG)). apply sum_sub, sublist_submseteq, all_components_sublist. }
  destruct (fold_opt_some (λ st (m : match_), create_edges cs comps st m.1) cost max (λ n st, small_comps st n) (elements (b_seen b)) 0 (b_graph b)) as (st & E & _).
  - done.
  - done.
  - intros n st m _ H Hm. by apply edges_some.
  - exists st. exact E.
Qed.
End total.

Lemma chosen_iff it idx n : (∃ k, (n, k) ∈ chosen_list it idx) ↔ chosen it idx n.
Proof.
  unfold chosen, chosen_list. setoid_rewrite elem_of_list_join. setoid_rewrite elem_of_list_fmap. split.
  - intros (k & l & Hl & r & -> & Hr). destruct r as [g| |]; [|by apply elem_of_nil in Hl..]. apply elem_of_list_omap in Hl as (i & Hi & Hg). by exists g, i, k.
  - intros (g & i & k & Hg & Hi & Hr). exists k, (omap (λ i, g !! i) idx). split; [apply elem_of_list_omap; by exists i|]. by exists (IOk g).
Qed.
Section final.
Context (labels : N → list (anno_key * bytes)) (cs : components) (th : option helper) (order : option storage) (it : list item) (idx : list nat) (ctype : option N).
Context (L : gmap (N * anno_key) bytes) (W : cname → option component) (st : gstate).
Context (HL : gives_labels labels L) (HG : holds_graph cs W) (HP : plain W) (HS : subgraph labels cs th order it idx ctype = Some st).
Lemma final_nodes n k v : am_get_value (g_node_annos st) n k = Some v ↔ chosen it idx n ∧ L !! (n, k) = Some v.
Proof using HL HG HP HS.
  destruct (subgraph_si _ _ _ _ _ _ HL HG HP _ _ _ _ HS) as [(leak & M & I & HM) _ _]. rewrite (get_value_lemma _ _ _ _ _ _ I), HM.
  unfold Sn. by rewrite chosen_iff.
Qed.
Definition old_edge (c : cname) (a b : N) : Prop := ∃ C gs, W c = Some C ∧ get_storage cs c = Some gs ∧ copied W ctype c ∧
  Edge a b ∈ co_edges C ∧ chosen it idx a ∧ chosen it idx b ∧ labelled L b.
Lemma old_edge_iff c a b : (∃ m, m ∈ chosen_list it idx ∧ wanted cs L W (Sn (chosen_list it idx)) ctype m.1 (comp_of c) (Edge a b)) ↔ old_edge c a b.
Proof using.
  unfold wanted, old_edge, labelled, Sn. rewrite name_comp. cbn [source target]. split.
  - intros ([n k] & Hm & -> & Hc & [gs Hgs] & (C & HC & He) & l & Hb & Hl). cbn [fst] in *. exists C, gs. rewrite <- !chosen_iff. split_and!; eauto.
  - intros (C & gs & HC & Hgs & Hc & He & [k Ha]%chosen_iff & Hb%chosen_iff & l & Hl). exists (a, k). cbn [fst]. split_and!; eauto.
Qed.
Lemma final_edges c a b : b ∈ adj_out (writable st (comp_of c)) a ↔
  old_edge c a b ∨ comp_of c = gap_comp ∧ a ≠ b ∧ apart_in (tok th) (dist_of order) (chosen_list it idx) a b.
Proof using HL HG HP HS.
  destruct (subgraph_si _ _ _ _ _ _ HL HG HP _ _ _ _ HS) as [_ Hc _]. destruct (Hc (comp_of c)) as (G & Hg & HE & _).
  rewrite (gi_out _ _ Hg). rewrite HE, old_edge_iff, gaps_apart. cbn [source target]. naive_solver.
Qed.
Lemma final_labels c a b k v : am_get_value (g_annos (writable st (comp_of c))) (Edge a b) k = Some v ↔
  old_edge c a b ∧ ∃ C, W c = Some C ∧ co_labels C !! (Edge a b, k) = Some v.
Proof using HL HG HP HS.
  destruct (subgraph_si _ _ _ _ _ _ HL HG HP _ _ _ _ HS) as [_ Hc _]. destruct (Hc (comp_of c)) as (G & Hg & _ & HA).
  destruct (gi_annos _ _ Hg) as [leak I]. rewrite (get_value_lemma _ _ _ _ _ _ I), HA, old_edge_iff. unfold lab. by rewrite name_comp.
Qed.
Lemma final_comps k : is_Some (g_comps st !! k) → k = gap_comp ∨ ∃ c a b, k = comp_of c ∧ old_edge c a b.
Proof using HL HG HP HS.
  destruct (subgraph_si _ _ _ _ _ _ HL HG HP _ _ _ _ HS) as [_ _ Hd]. intros [[[a b] He]|Hk]%Hd; [|by left]. right. exists (name_of k), a, b.
  rewrite <- old_edge_iff, comp_name. done.
Qed.
End final.
Lemma final_error labels cs th order it idx ctype : IErr ∈ it ∨ IPanic ∈ it → subgraph labels cs th order it idx ctype = None.
Proof.
  intros H. unfold subgraph. assert (∀ b, fold_opt (add_group labels th order idx) b it = None) as ->; [|done].
  induction it as [|r it' IH]; intros b; [rewrite !elem_of_nil in H; by destruct H|]. cbn [fold_opt]. rewrite !elem_of_cons in H.
  destruct (add_group labels th order idx b r) as [b'|] eqn:E; [|done]. apply IH. destruct r; [naive_solver|done..].
Qed.
Lemma final_some labels cs th order it idx ctype L W : gives_labels labels L → holds_graph cs W → plain W → IErr ∉ it → IPanic ∉ it →
  (N.of_nat (node_labels labels (chosen_list it idx)) <= usize_max)%N → (N.of_nat (edge_labels cs (chosen_list it idx)) <= usize_max)%N →
  is_Some (subgraph labels cs th order it idx ctype).
Proof.
  intros HL HG HP He Hp Hn Hd.
  set (a := node_labels labels (chosen_list it idx)) in *. set (b := edge_labels cs (chosen_list it idx)) in *.
  assert ((N.of_nat (a `max` b) <= usize_max)%N) as Hm by (destruct (Nat.max_spec a b) as [[_ ->]|[_ ->]]; done).
  eapply (subgraph_some labels cs th order (a `max` b) Hm it idx ctype W HG He Hp).
  - fold a. lia.
  - fold b. lia.
  - intros bb Hb m Hin. destruct (bi_run _ _ _ _ _ _ HL HG HP _ _ _ Hb) as [[H _ _ _] _]. by apply H.
Qed.

(** Gaps in terms of texts *)
Lemma adjacent_filter (p : N → bool) l a b : adjacent (filter (λ n, p n = true) l) a b ↔
  ∃ l1 mid l2, l = l1 ++ a :: mid ++ b :: l2 ∧ p a = true ∧ p b = true ∧ ∀ x, x ∈ mid → p x = false.
Proof.
  split.
  - intros (k1 & k2 & E).
    assert (∀ l k1 y k2, filter (λ n, p n = true) l = k1 ++ y :: k2 → ∃ l1 l2, l = l1 ++ y :: l2 ∧ p y = true ∧ filter (λ n, p n = true) l1 = k1 ∧ filter (λ n, p n = true) l2 = k2) as Hf.
    { clear. induction l as [|x l IH]; intros k1 y k2; [by destruct k1|]. rewrite filter_cons. destruct (decide (p x = true)) as [Hx|Hx].
      - destruct k1 as [|z k1]; cbn; intros [= -> E].
        + by exists [], l.
        + apply IH in E as (l1 & l2 & -> & Hy & <- & <-). exists (z :: l1), l2. split_and!; [done..| |done]. rewrite filter_cons, decide_True by done. done.
      - intros E. apply IH in E as (l1 & l2 & -> & Hy & <- & <-). exists (x :: l1), l2. split_and!; [done..| |done]. rewrite filter_cons, decide_False by done. done. }
    apply Hf in E as (l1 & l2 & -> & Ha & _ & E2). apply (Hf l2 [] b k2) in E2 as (mid & l3 & -> & Hb & Em & _). exists l1, mid, l3. split_and!; [done..|].
    intros x Hx. destruct (p x) eqn:Ep; [|done]. assert (x ∈ filter (λ n, p n = true) mid) as Hin by (by apply elem_of_list_filter). rewrite Em in Hin. by apply elem_of_nil in Hin.
  - intros (l1 & mid & l2 & -> & Ha & Hb & Hm). exists (filter (λ n, p n = true) l1), (filter (λ n, p n = true) l2).
    rewrite filter_app, filter_cons, decide_True by done. f_equal. f_equal. rewrite filter_app, filter_cons, decide_True by done.
    assert (filter (λ n, p n = true) mid = []) as ->; [|done]. induction mid as [|x mid IH]; [done|]. rewrite filter_cons, decide_False.
    + apply IH. intros y Hy. apply Hm. by right.
    + rewrite Hm by (by left). done.
Qed.
Section texts.
Context (db : corpus) (c : content) (H : holds_content db c) (T : texts_ok c).
Context (order : storage) (Eo : cp_order db = Some order) (th : helper) (Eth : th_new db = Some th).
Lemma dist_apart a b : (∃ d, dist_of (Some order) a b = Some d ∧ (1 < d)%N) ↔ precedes c a b ∧ ¬ edge_rel (ct_order c) a b.
Proof using H T Eo.
  rewrite <- (dist_gap_iff db c H T order Eo). unfold dist_gap, dist_of. destruct (gs_distance order a b) as [d|].
  - rewrite bool_decide_eq_true. naive_solver.
  - naive_solver.
Qed.
Lemma apart_next ms a b : a ≠ b ∧ apart_in (tok (Some th)) (dist_of (Some order)) ms a b ↔ next_after_gap c ms a b.
Proof using H T Eo Eth.
  unfold apart_in, next_after_gap. rewrite adjacent_filter, dist_apart. cbn [tok]. pose proof (is_token_iff db c H th) as Ht.
  assert (∀ x, is_token th x = false ↔ ¬ token c x) as Hf by (intros x; rewrite <- (Ht x Eth); by rewrite not_true_iff_false).
  setoid_rewrite Hf. setoid_rewrite (λ x, Ht x Eth). split; [naive_solver|]. intros (Hl & Hp & He). split; [|naive_solver].
  intros ->. by apply (precedes_irrefl c T b).
Qed.
Lemma context_gaps k out a b : at_most_itself order (ct_order c) → in_text_order c (new_tokens th ∅ out) → next_after_gap c ((λ n, (n, k)) <$> out) a b ↔ gap c out a b.
Proof using H T Eo Eth.
  intros Hself Ho. rewrite <- apart_next, <- gaps_apart. unfold gap_run. rewrite (gap_edges_eq th order k out [] ∅ None []).
  - cbn [app]. rewrite (gaps_of_ordered db c H T order Eo Hself th Eth out a b Ho). split; [naive_solver|]. intros Hg. split; [|done]. intros ->.
    destruct Hg as (_ & _ & _ & _ & Hp & _). by apply (precedes_irrefl c T b).
  - intros n. rewrite elem_of_nil. set_solver.
Qed.
End texts.

Lemma chosen_single (k : anno_key) out : chosen_list ((λ n, IOk [(n, k)]) <$> out) [0] = (λ n, (n, k)) <$> out.
Proof. unfold chosen_list. induction out as [|n out IH]; [done|]. rewrite !fmap_cons. cbn. f_equal. exact IH. Qed.
Lemma context_copy db c : holds_content db c → texts_ok c →
  ∀ order, cp_order db = Some order → at_most_itself order (ct_order c) → ∀ th, th_new db = Some th → ∀ hash, hash_order hash →
  ∀ fuel rnd l r ns, (∀ n m, n ∈ ns → m ∈ ns → apart c l r n m) → (∀ n, n ∈ ns → one_text c n) →
  in_limit (ct_order c) (Included (N.of_nat l)) → in_limit (ct_order c) (Included (N.of_nat r)) →
  ∀ part_of P out, implements part_of P → (∀ n, is_target P n → ¬ token c n) →
  subgraph_nodes hash fuel rnd db part_of ns l r None out →
  ∀ labels cs L W st, gives_labels labels L → holds_graph cs W → plain W → W (name_of gap_comp) = None →
  subgraph labels cs (Some th) (Some order) ((λ n, IOk [(n, node_name_key)]) <$> out) [0] None = Some st →
  (∀ n k v, am_get_value (g_node_annos st) n k = Some v ↔ n ∈ out ∧ L !! (n, k) = Some v) ∧
  ∀ a b, b ∈ adj_out (writable st gap_comp) a ↔ gap c out a b.
Proof.
  intros H T order Eo Hself th Eth hash Hhash fuel rnd l r ns Hap Hone Hl Hr part_of P out IP Hpar Hs labels cs L W st HL HG HP HN HS. split.
  - intros n k v. rewrite (final_nodes _ _ _ _ _ _ _ _ _ _ HL HG HP HS), <- chosen_iff, chosen_single. setoid_rewrite elem_of_list_fmap. split.
    + intros [(k' & m & [= -> ->] & Hm) Hv]. done.
    + intros [Hm Hv]. split; [|done]. exists node_name_key, n. done.
  - intros a b. pose proof (final_edges _ _ _ _ _ _ _ _ _ _ HL HG HP HS (name_of gap_comp) a b) as He. rewrite comp_name in He.
    rewrite He, chosen_single, <- gaps_apart. unfold gap_run. rewrite (gap_edges_eq th order node_name_key out [] ∅ None []).
    + cbn [app]. rewrite (subgraph_gaps db c H T order Eo Hself th Eth hash Hhash fuel rnd l r ns Hap Hone Hl Hr part_of P out IP Hpar Hs a b). split.
      * intros [(C & gs & HC & _)|(_ & _ & Hg)]; [congruence|done].
      * intros Hg. right. split_and!; [done| |done]. intros ->. destruct Hg as (_ & _ & _ & _ & Hp & _). by apply (precedes_irrefl c T b).
    + intros n. rewrite elem_of_nil. set_solver.
Qed.
