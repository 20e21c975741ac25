(** Deciding the conditions and the text of nodes for the graphs of the examples. *)
From stdpp Require Import base list gmap fin_maps.
From Coq Require Import NArith Lia.
From Verif Require Import KeySer KeySerSpec SortedMap Types SymbolTable AnnoMem AnnoSpec Dfs GraphSpec Adjacency AdjacencySpec Storage CompPath GraphUpdate GraphApply
  GraphApplySpec TokenHelper ContextSpec Index IndexSpec.

(** Walks over a list of edges *)
Fixpoint reach (k : nat) (P : list (N * N)) (x : N) : gset N :=
  match k with
  | O => ∅
  | S k' => let next := (filter (λ p, p.1 = x) P).*2 in list_to_set next ∪ ⋃ ((λ y, reach k' P y) <$> next)
  end.
Definition srcs (P : list (N * N)) : list N := P.*1.
Definition closed_b (P : list (N * N)) (x : N) (S : gset N) : bool := forallb (λ p, implb (bool_decide (p.1 = x ∨ p.1 ∈ S)) (bool_decide (p.2 ∈ S))) P.
Definition all_closed (P : list (N * N)) : bool := forallb (λ x, closed_b P x (reach 8 P x)) (srcs P).
Lemma reach_sound k P x t : t ∈ reach k P x → ∃ p, p ≠ [] ∧ walk (λ a b, (a, b) ∈ P) x p t.
Proof.
  revert x. induction k as [|k IH]; intros x; [by intros ?%elem_of_empty|]. cbn [reach]. cbv zeta. rewrite elem_of_union, elem_of_list_to_set, elem_of_union_list.
  intros [Ht|(X & HX & Ht)].
  - apply elem_of_list_fmap in Ht as ([a b] & -> & Ht). apply elem_of_list_filter in Ht as [Hx Ht]. cbn in Hx. subst a. exists [b]. split; [done|]. by split.
  - apply elem_of_list_fmap in HX as (y & -> & Hy). apply elem_of_list_fmap in Hy as ([a b] & -> & Hy). apply elem_of_list_filter in Hy as [Hx Hy]. cbn in Hx. subst a.
    destruct (IH b Ht) as (p & Hp & Hw). exists (b :: p). split; [done|]. by split.
Qed.
Lemma closed_walk P x S : closed_b P x S = true → ∀ p y t, y = x ∨ y ∈ S → p ≠ [] → walk (λ a b, (a, b) ∈ P) y p t → t ∈ S.
Proof.
  intros Hc. unfold closed_b in Hc. rewrite forallb_forall in Hc. induction p as [|z p IH]; intros y t Hy Hp; [done|]. intros [He Hw].
  assert (z ∈ S) as Hz. { pose proof (Hc (y, z) (proj1 (elem_of_list_In _ _) He)) as Hb. cbn [fst snd] in Hb. rewrite bool_decide_eq_true_2 in Hb by done. by apply bool_decide_eq_true in Hb. }
  destruct p as [|w p]; [cbn in Hw; by subst|]. apply (IH z); [by right|done|done].
Qed.
Lemma reach_iff P x t : all_closed P = true → t ∈ reach 8 P x ↔ ∃ p, p ≠ [] ∧ walk (λ a b, (a, b) ∈ P) x p t.
Proof.
  intros Hc. split; [apply reach_sound|]. intros (p & Hp & Hw). destruct p as [|z p]; [done|]. unfold all_closed in Hc. rewrite forallb_forall in Hc.
  eapply (closed_walk P x); [|by left| |exact Hw]; [|done]. apply Hc, elem_of_list_In, elem_of_list_fmap. destruct Hw as [He _]. by exists (x, z).
Qed.

(** The edges of a state *)
Definition adj_pairs (g : adj) : list (N * N) := kv ← map_to_list (g_edges g); (λ y, (kv.1, y)) <$> kv.2.
Lemma adj_pairs_iff g x y : (x, y) ∈ adj_pairs g ↔ y ∈ adj_out g x.
Proof.
  unfold adj_pairs. rewrite elem_of_list_bind. unfold adj_out, adj_list. split.
  - intros ([k l] & Hy & Hk%elem_of_map_to_list). apply elem_of_list_fmap in Hy as (z & [= -> ->] & Hz). cbn in *. by rewrite Hk.
  - destruct (g_edges g !! x) as [l|] eqn:E; [|by intros ?%elem_of_nil]. cbn. intros Hy. exists (x, l). split; [|by apply elem_of_map_to_list].
    apply elem_of_list_fmap. by exists y.
Qed.
Definition pairs (st : gstate) (P : comp → bool) : list (N * N) := cg ← map_to_list (g_comps st); if P cg.1 then adj_pairs cg.2 else [].
Lemma pairs_iff st P x y : (x, y) ∈ pairs st P ↔ ∃ c, P c = true ∧ edge_in st c x y.
Proof.
  unfold pairs. rewrite elem_of_list_bind. split.
  - intros ([c g] & Hy & Hc%elem_of_map_to_list). cbn [fst snd] in Hy. exists c. destruct (P c); [|by apply elem_of_nil in Hy]. split; [done|]. exists g. split; [done|]. by apply adj_pairs_iff.
  - intros (c & Hc & g & Hg & Hy). exists (c, g). split; [|by apply elem_of_map_to_list]. cbn [fst snd]. rewrite Hc. by apply adj_pairs_iff.
Qed.
Definition is_cov (c : comp) : bool := bool_decide (c.1.1 = t_coverage) && negb (bool_decide (c = inherited)).
Definition is_text (c : comp) : bool := is_cov c || bool_decide (c.1.1 = t_dominance).
Definition is_plain (c : comp) : bool := is_cov c || bool_decide (c.1.1 = t_dominance) && bool_decide (c.2 = []).
Lemma cov_iff st x y : coverage_edge st x y ↔ (x, y) ∈ pairs st is_cov.
Proof.
  rewrite pairs_iff. unfold coverage_edge, is_cov. split.
  - intros (c & Hc & Hn & He). exists c. split; [|done]. apply andb_true_iff. split; [by apply bool_decide_eq_true|]. by rewrite bool_decide_eq_false_2.
  - intros (c & [Hc Hn]%andb_true_iff & He). exists c. apply bool_decide_eq_true in Hc. apply negb_true_iff, bool_decide_eq_false in Hn. done.
Qed.
Lemma text_iff st x y : text_edge st x y ↔ (x, y) ∈ pairs st is_text.
Proof.
  unfold text_edge. rewrite cov_iff, !pairs_iff. unfold is_text. split.
  - intros [(c & Hc & He)|(c & Hc & He)]; exists c; (split; [|done]); apply orb_true_iff; [by left|right; by apply bool_decide_eq_true].
  - intros (c & [Hc|Hc]%orb_true_iff & He); [left; by exists c|right; exists c]. by apply bool_decide_eq_true in Hc.
Qed.
Definition label_b (st : gstate) (n : N) (k : anno_key) : bool := match am_get_value (g_node_annos st) n k with Some _ => true | None => false end.
Lemma label_iff st n k : label_b st n k = true ↔ has_label st n k.
Proof. unfold label_b, has_label. destruct (am_get_value _ n k); split; [by eexists|done|done|by intros [? ?]]. Qed.
Definition token_b (st : gstate) (n : N) : bool := label_b st n tok_key && bool_decide (n ∉ srcs (pairs st is_cov)).
Lemma token_iff st n : token_b st n = true ↔ text_token st n.
Proof.
  unfold token_b, text_token. rewrite andb_true_iff, label_iff, bool_decide_eq_true. apply and_iff_compat_l. apply not_iff_compat. unfold srcs. rewrite elem_of_list_fmap. split.
  - intros ([x y] & -> & H). exists y. by apply cov_iff.
  - intros [y H%cov_iff]. by exists (n, y).
Qed.
Lemma walk_pairs (E : N → N → Prop) (P : list (N * N)) : (∀ a b, E a b ↔ (a, b) ∈ P) → ∀ p x t, walk E x p t ↔ walk (λ a b, (a, b) ∈ P) x p t.
Proof. intros H. induction p as [|y p IH]; intros x t; cbn; [done|]. by rewrite H, IH. Qed.
Definition text_b (st : gstate) (n t : N) : bool := bool_decide (n ≠ t) && token_b st t && bool_decide (t ∈ reach 8 (pairs st is_text) n).
Lemma text_b_iff st n t : all_closed (pairs st is_text) = true → text_b st n t = true ↔ text_of st n t.
Proof.
  intros Hc. unfold text_b, text_of. rewrite !andb_true_iff, token_iff, !bool_decide_eq_true. rewrite (reach_iff _ _ _ Hc). split.
  - intros [[Hne Ht] (p & Hp & Hw)]. split_and!; [done|done|]. exists p. by apply (walk_pairs _ _ (text_iff st)).
  - intros (Hne & Ht & p & Hw). split; [done|]. exists p. split; [|by apply (walk_pairs _ _ (text_iff st))]. destruct p; [by cbn in Hw|done].
Qed.
Definition is_order (c : comp) : bool := bool_decide (c = order_comp).
Definition before_b (st : gstate) (a b : N) : bool := bool_decide (b ∈ reach 8 (pairs st is_order) a).
Lemma order_pairs st a b : edge_in st order_comp a b ↔ (a, b) ∈ pairs st is_order.
Proof. rewrite pairs_iff. unfold is_order. split; [intros He; exists order_comp; split; [by apply bool_decide_eq_true|done]|]. intros (c & ->%bool_decide_eq_true & He). done. Qed.
Lemma before_iff st a b : all_closed (pairs st is_order) = true → before_b st a b = true ↔ comes_before st a b.
Proof.
  intros Hc. unfold before_b, comes_before. rewrite bool_decide_eq_true, (reach_iff _ _ _ Hc).
  split; intros (p & Hp & Hw); exists p; (split; [done|]); by apply (walk_pairs _ _ (order_pairs st)).
Qed.

(** A storage for the order which answers questions about paths *)
Definition ex_opt (g : adj) : storage :=
  Storage (adj_out g) (adj_in g) [] [] (λ _ _ _, []) (λ _ _ _, []) (λ _ _, None) (λ a b _ _, bool_decide (b ∈ reach 8 (adj_pairs g) a)) am_new None.
Definition new_b (st : gstate) : bool :=
  all_closed (pairs st is_order) && forallb (λ a, negb (before_b st a a)) (srcs (pairs st is_order)) &&
  match g_comps st !! order_comp with Some g => all_closed (adj_pairs g) | None => true end &&
  forallb (λ p, negb (label_b st p.1 tok_key) && label_b st p.1 node_type_key && label_b st p.1 node_name_key && label_b st p.2 node_name_key) (pairs st is_text).
Definition usable_b (st : gstate) : bool :=
  new_b st && forallb (λ p, bool_decide (p ∈ pairs st is_plain)) (pairs st (λ c, bool_decide (c.1.1 = t_dominance))).
Lemma before_src st a b : comes_before st a b → a ∈ srcs (pairs st is_order).
Proof. intros ([|y p] & Hp & Hw); [done|]. destruct Hw as [He _]. apply order_pairs in He. apply elem_of_list_fmap. by exists (a, y). Qed.
Lemma new_ok st : new_b st = true → order_ok ex_opt st ∧ order_acyclic st ∧ tokens_apart st ∧ typed st ∧ connects_nodes st.
Proof.
  unfold new_b. rewrite !andb_true_iff. intros [[[H1 H2] H3] H4]. rewrite forallb_forall in H2, H4.
  assert (∀ x y, text_edge st x y → ¬ has_label st x tok_key ∧ has_label st x node_type_key ∧ has_label st x node_name_key ∧ has_label st y node_name_key) as H6.
  { intros x y Hxy%text_iff. specialize (H4 _ (proj1 (elem_of_list_In _ _) Hxy)). rewrite !andb_true_iff, !label_iff in H4. cbn in H4. destruct H4 as [[[A B] C] D].
    split_and!; [|done..]. intros Hl%label_iff. by rewrite Hl in A. }
  split_and!.
  - intros g a b Hg. rewrite Hg in H3. cbn [ex_opt gs_is_connected]. rewrite bool_decide_eq_true, (reach_iff _ _ _ H3). unfold comes_before.
    assert (∀ a b, edge_in st order_comp a b ↔ (a, b) ∈ adj_pairs g) as He. { intros x y. rewrite adj_pairs_iff. unfold edge_in. rewrite Hg. naive_solver. }
    split; intros (p & Hp & Hw); exists p; (split; [done|]); by apply (walk_pairs _ _ He).
  - intros a Ha. pose proof (before_src _ _ _ Ha) as Hs. apply (before_iff _ _ _ H1) in Ha. specialize (H2 a (proj1 (elem_of_list_In _ _) Hs)). by rewrite Ha in H2.
  - intros a b [Ha _] _ ([|y p] & Hw); [done|]. destruct Hw as [He _]. by apply H6 in He as [? _].
  - intros x y Hxy. by apply (H6 x y).
  - intros x y Hxy. split; by apply (H6 x y).
Qed.
Lemma usable_ok st : usable_b st = true → usable ex_opt st.
Proof.
  unfold usable_b. rewrite andb_true_iff. intros [H1 H5]. apply new_ok in H1 as (A1 & A2 & A3 & A4 & A5). rewrite forallb_forall in H5. split; [done..|].
  intros c x y Hc He. assert ((x, y) ∈ pairs st (λ c, bool_decide (c.1.1 = t_dominance))) as Hp. { apply pairs_iff. exists c. split; [by apply bool_decide_eq_true|done]. }
  specialize (H5 _ (proj1 (elem_of_list_In _ _) Hp)). apply bool_decide_eq_true, pairs_iff in H5 as (c' & Hc' & He'). unfold is_plain in Hc'. apply orb_true_iff in Hc' as [Hc'|Hc'].
  - left. apply cov_iff, pairs_iff. by exists c'.
  - right. exists c'. apply andb_true_iff in Hc' as [A B]. apply bool_decide_eq_true in A, B. done.
Qed.
Definition edge_b (st : gstate) (c : comp) (x y : N) : bool := bool_decide ((x, y) ∈ pairs st (λ k, bool_decide (k = c))).
Lemma edge_b_iff st c x y : edge_b st c x y = true ↔ edge_in st c x y.
Proof.
  unfold edge_b. rewrite bool_decide_eq_true, pairs_iff. split; [|intros He; exists c; split; [by apply bool_decide_eq_true|done]]. intros (k & ->%bool_decide_eq_true & He). done.
Qed.
Definition source_b (st : gstate) (c : comp) (x : N) : bool := bool_decide (x ∈ srcs (pairs st (λ k, bool_decide (k = c)))).
Lemma source_b_iff st c x : source_b st c x = true ↔ ∃ y, edge_in st c x y.
Proof.
  unfold source_b, srcs. rewrite bool_decide_eq_true, elem_of_list_fmap. split.
  - intros ([a y] & -> & Hp). exists y. apply edge_b_iff. by apply bool_decide_eq_true.
  - intros [y He%edge_b_iff]. unfold edge_b in He. apply bool_decide_eq_true in He. by exists (x, y).
Qed.
Definition cov_b (st : gstate) (x y : N) : bool := bool_decide ((x, y) ∈ pairs st is_cov).
Lemma cov_b_iff st x y : cov_b st x y = true ↔ coverage_edge st x y.
Proof. unfold cov_b. by rewrite bool_decide_eq_true, cov_iff. Qed.

Definition one_text_b (st : gstate) : bool :=
  forallb (λ n, forallb (λ a, forallb (λ b, negb (text_b st n a && text_b st n b) || bool_decide (a = b) || before_b st a b || before_b st b a)
    (elements (reach 8 (pairs st is_text) n))) (elements (reach 8 (pairs st is_text) n))) (srcs (pairs st is_text)).
Lemma one_text_ok st : all_closed (pairs st is_text) = true → all_closed (pairs st is_order) = true → one_text_b st = true → ∀ n, in_one_text st n.
Proof.
  intros A B C n a b Ha Hb. unfold one_text_b in C. rewrite forallb_forall in C.
  assert (n ∈ srcs (pairs st is_text)) as Hn.
  { destruct Ha as (Hne & _ & [|y p] & Hw); [by cbn in Hw|]. destruct Hw as [He _]. apply text_iff in He. apply elem_of_list_fmap. by exists (n, y). }
  specialize (C n (proj1 (elem_of_list_In _ _) Hn)). apply (text_b_iff _ _ _ A) in Ha, Hb.
  assert (∀ t, text_b st n t = true → In t (elements (reach 8 (pairs st is_text) n))) as Hin.
  { intros t Ht. unfold text_b in Ht. rewrite !andb_true_iff in Ht. destruct Ht as [_ Ht]. apply bool_decide_eq_true in Ht. by apply elem_of_list_In, elem_of_elements. }
  rewrite forallb_forall in C. specialize (C a (Hin a Ha)). rewrite forallb_forall in C. specialize (C b (Hin b Hb)). rewrite Ha, Hb in C. cbn [negb andb orb] in C.
  rewrite !orb_true_iff in C. destruct C as [[C|C]|C]; [left; by apply bool_decide_eq_true in C|right; left|right; right]; by apply (before_iff _ _ _ B).
Qed.

(** Updates *)
Definition label_ok_b (st : gstate) (n : bytes) (k : anno_key) : bool :=
  negb (bool_decide (k = node_name_key)) && (negb (bool_decide (k = tok_key)) || match id_of st n with None => true | Some _ => false end).
Definition labels_b (st : gstate) (e : event) : bool :=
  match e with AddNodeLabel n ns a _ | DeleteNodeLabel n ns a => label_ok_b st n (AnnoKey a ns) | _ => true end.
Lemma labels_b_ok st e : labels_b st e = true → labels_ok st e.
Proof.
  destruct e as [n t|n|n ns a v|n ns a|s t l ty cn|s t l ty cn|s t l ty cn ns a v|s t l ty cn ns a]; cbn [labels_b labels_ok]; try done; unfold label_ok_b.
  all: intros [A B]%andb_true_iff; apply negb_true_iff, bool_decide_eq_false in A; split; [done|]; intros E.
  all: apply orb_true_iff in B as [B|B]; [by apply negb_true_iff, bool_decide_eq_false in B|by destruct (id_of st n)].
Qed.
Fixpoint once_b (del : list bytes) (es : list event) : bool :=
  match es with
  | [] => true
  | AddNode n _ :: es' => bool_decide (n ∉ del) && once_b del es'
  | DeleteNode n :: es' => once_b (n :: del) es'
  | _ :: es' => once_b del es'
  end.
Lemma once_ok es : ∀ del, once_b del es = true → names_once es ∧ ∀ n t j, n ∈ del → es !! j ≠ Some (AddNode n t).
Proof.
  induction es as [|e es IH]; intros del He; [by split|].
  assert (∃ del', once_b del' es = true ∧ (∀ n, n ∈ del → n ∈ del') ∧ (∀ n, e = DeleteNode n → n ∈ del') ∧ (∀ n t, e = AddNode n t → n ∉ del)) as (del' & He' & H1 & H2 & H3).
  { destruct e as [n t|n|n ns a v|n ns a|s t l ty cn|s t l ty cn|s t l ty cn ns a v|s t l ty cn ns a]; cbn [once_b] in He; try (by exists del).
    - apply andb_true_iff in He as [Hn He]. apply bool_decide_eq_true in Hn. exists del. split_and!; [done|done|done|]. by intros ? ? [= <- <-].
    - exists (n :: del). split_and!; [done|by right| |done]. intros ? [= <-]. by left. }
  destruct (IH del' He') as [A B]. split.
  - intros i j n t Hij Hi. destruct j as [|j]; [lia|]. cbn. destruct i as [|i]; [cbn in Hi; injection Hi as Hi; by apply B, H2|]. cbn in Hi. apply (A i j); [lia|done].
  - intros n t j Hn. destruct j as [|j]; cbn; [intros [= ->]; by eapply (H3 n t)|by apply B, H1].
Qed.
Definition ends_of (e : event) : list bytes :=
  match e with GraphUpdate.AddEdge s t _ ty _ | DeleteEdge s t _ ty _ => if bool_decide (aql_ctype ty = Some t_ordering) then [s; t] else [] | _ => [] end.
Lemma ends_ok e n : n ∈ ends_of e ↔ order_end e n.
Proof.
  destruct e as [m t|m|m ns a v|m ns a|s t l ty cn|s t l ty cn|s t l ty cn ns a v|s t l ty cn ns a]; cbn [ends_of order_end]; try (split; [by intros ?%elem_of_nil|done]).
  all: destruct (bool_decide _) eqn:E; [apply bool_decide_eq_true in E|apply bool_decide_eq_false in E]; rewrite ?elem_of_cons, elem_of_nil; naive_solver.
Qed.
Definition end_ids (st : gstate) (es : list event) : list N := omap (id_of st) (es ≫= ends_of).
Lemma end_ids_ok st es a : a ∈ end_ids st es ↔ ∃ e n, e ∈ es ∧ order_end e n ∧ id_of st n = Some a.
Proof.
  unfold end_ids. rewrite elem_of_list_omap. split.
  - intros (n & Hn & Hi). apply elem_of_list_bind in Hn as (e & Hn & He). exists e, n. split_and!; [done|by apply ends_ok|done].
  - intros (e & n & He & Hn & Hi). exists n. split; [|done]. apply elem_of_list_bind. exists e. split; [by apply ends_ok|done].
Qed.
Definition kept_b (E : list N) (st st' : gstate) : bool :=
  forallb (λ a, forallb (λ b, implb (before_b st a b) (before_b st' a b) || negb (token_b st a && token_b st b && token_b st' a && token_b st' b) ||
                              bool_decide (a ∈ E ∨ b ∈ E)) (elements (reach 8 (pairs st is_order) a)))
    (srcs (pairs st is_order)) .
Lemma kept_half E st st' a b : all_closed (pairs st is_order) = true → all_closed (pairs st' is_order) = true → kept_b E st st' = true →
  text_token st a → text_token st b → text_token st' a → text_token st' b → a ∉ E → b ∉ E → comes_before st a b → comes_before st' a b.
Proof.
  intros C1 C2 Hk T1 T2 T3 T4 Ea Eb Hb. unfold kept_b in Hk. rewrite forallb_forall in Hk. specialize (Hk a (proj1 (elem_of_list_In _ _) (before_src _ _ _ Hb))).
  rewrite forallb_forall in Hk. pose proof (proj2 (before_iff _ _ _ C1) Hb) as Hb'. pose proof Hb' as Hb2. unfold before_b in Hb2. apply bool_decide_eq_true, elem_of_elements in Hb2.
  specialize (Hk b (proj1 (elem_of_list_In _ _) Hb2)). rewrite Hb' in Hk. apply token_iff in T1, T2, T3, T4. rewrite T1, T2, T3, T4 in Hk.
  rewrite (bool_decide_eq_false_2 (a ∈ E ∨ b ∈ E)) in Hk by (by intros [?|?]). cbn in Hk. rewrite !orb_false_r in Hk.
  by apply (before_iff _ _ _ C2).
Qed.
Definition safe_b (st : gstate) (u : list (N * event)) (st' : gstate) : bool :=
  forallb (labels_b st) u.*2 && once_b [] u.*2 && kept_b (end_ids st u.*2) st st' && kept_b (end_ids st u.*2) st' st && all_closed (pairs st is_order) && usable_b st'.
Lemma safe_ok st u st' : safe_b st u st' = true → safe_update ex_opt st u st'.
Proof.
  unfold safe_b. rewrite !andb_true_iff. intros [[[[[A B] C] D] E] F]. pose proof F as G. unfold usable_b in G. rewrite !andb_true_iff in G. destruct G as [G _]. unfold new_b in G. rewrite !andb_true_iff in G. destruct G as [[[G _] _] _].
  split.
  - intros e He. apply labels_b_ok. rewrite forallb_forall in A. by apply A, elem_of_list_In.
  - by apply (once_ok _ []).
  - intros a b T1 T2 T3 T4 Hends. assert (a ∉ end_ids st u.*2 ∧ b ∉ end_ids st u.*2) as [Ea Eb].
    { split; intros (e & n & He & Hn & Hi)%end_ids_ok; apply Hends; exists e, n; auto. }
    split; intros Hb; [by eapply (kept_half _ st st')|by eapply (kept_half _ st' st)].
  - by apply usable_ok.
Qed.
Fixpoint history_b (fuel : nat) (st : gstate) (us : list (bool * list (N * event))) : bool :=
  match us with
  | [] => true
  | (b, u) :: us' => match aql_update fuel (λ _, 0) elements ex_opt b st u with Some st' => safe_b st u st' && history_b fuel st' us' | None => false end
  end.
Lemma history_b_ok fuel us : ∀ st, history_b fuel st us = true → safe_history fuel (λ _, 0) elements ex_opt st us.
Proof.
  induction us as [|[b u] us IH]; intros st; [done|]. cbn [history_b safe_history]. intros H st' E. rewrite E in H. apply andb_true_iff in H as [A B].
  split; [by apply safe_ok|by apply IH].
Qed.
Lemma elements_order : hash_order elements.
Proof. intros X. split; [apply NoDup_elements|]. intros x. apply elem_of_elements. Qed.

(** Short names for events *)
Definition nm (i : N) : bytes := [i].
Definition ct (t : actype) : bytes := actype_name t.
Definition node (i : N) : event := AddNode (nm i) [110]%N.
Definition tok (i : N) : event := AddNodeLabel (nm i) annis (ak_name tok_key) [120]%N.
Definition edge_ev (t : actype) (cn : bytes) (i j : N) : event := GraphUpdate.AddEdge (nm i) (nm j) annis (ct t) cn.
Definition cov (i j : N) : event := edge_ev Coverage [] i j.
Definition dom (i j : N) : event := edge_ev Dominance [] i j.
Definition ord (i j : N) : event := edge_ev Ordering [] i j.
Definition ord_del (i j : N) : event := DeleteEdge (nm i) (nm j) annis (ct Ordering) [].
Definition numbered (es : list event) : list (N * event) := imap (λ i e, (N.of_nat i, e)) es.
Definition run (us : list (list event)) : option gstate := aql_updates 100 (λ _, 0) elements ex_opt g_default ((λ u, (true, numbered u)) <$> us).
