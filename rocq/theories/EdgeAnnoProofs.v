(** Copying edge annotations into a specialised storage *)
From stdpp Require Import base list gmap fin_maps fin_sets sorting.
From Coq Require Import NArith Lia.
From Verif Require Import KeySer KeySerSpec SortedMap Types SymbolTable SymTabIface AnnoMem AnnoMemProofs Dfs GraphSpec
  Adjacency AdjacencySpec AdjacencyProofs CopyProofs ListExtra Linear.

Lemma insert_annos_false annos a e : insert_annos annos (a, false) e = (a, false).
Proof. unfold insert_annos. induction (annos e) as [|x l IH]; [done|]. simpl. done. Qed.
Lemma insert_annos_fold_false annos es a : fold_left (insert_annos annos) es (a, false) = (a, false).
Proof. induction es as [|e es IH]; [done|]. simpl. by rewrite insert_annos_false. Qed.

Lemma insert_annos_inv l e : ∀ a leak M a', inv edge_compare a leak M →
  fold_left (λ (r : am edge * bool) (x : anno_key * bytes),
     if r.2 then am_insert edge_compare r.1 e x.1 x.2 else r) l (a, true) = (a', true) →
  inv edge_compare a' leak (add_annos e l M).
Proof.
  induction l as [|[k v] l IH]; intros a leak M a' I; simpl; [by intros [= <-]|].
  destruct (am_insert edge_compare a e k v) as [a1 ok] eqn:E.
  pose proof (AnnoMemProofs.inv_insert _ _ _ _ _ _ _ _ _ I E) as I1. destruct ok; [by apply IH|].
  intros H. exfalso. clear -H. induction l as [|x l IH]; [done|]. simpl in H. by apply IH.
Qed.
Lemma insert_annos_len annos e : ∀ a n a' ok,
  length (by_id (anno_keys a)) ≤ n → length (by_id (anno_values a)) ≤ n →
  (N.of_nat (n + length (annos e)) <= usize_max)%N → insert_annos annos (a, true) e = (a', ok) →
  ok = true ∧ length (by_id (anno_keys a')) ≤ n + length (annos e) ∧ length (by_id (anno_values a')) ≤ n + length (annos e).
Proof.
  unfold insert_annos. generalize (annos e). intros l. induction l as [|[k v] l IH]; intros a n a' ok H1 H2 Hn; simpl in *.
  - intros [= <- <-]. split_and!; [done|lia|lia].
  - destruct (am_insert edge_compare a e k v) as [a1 r] eqn:E.
    destruct (step_len edge_compare a (AmInsert e k v) a1 (if r then AmOk else AmErr) n) as (L1 & L2 & L3); [|done|done|].
    { simpl. by rewrite E. }
    destruct r; [|by destruct (L3 ltac:(lia))]. intros E2.
    destruct (IH a1 (S n) a' ok L1 L2 ltac:(lia) E2) as (-> & ? & ?). split_and!; [done|lia|lia].
Qed.
Lemma insert_edges_len annos es : ∀ a n a' ok,
  length (by_id (anno_keys a)) ≤ n → length (by_id (anno_values a)) ≤ n →
  (N.of_nat (n + sum_list_with (λ e, length (annos e)) es) <= usize_max)%N →
  fold_left (insert_annos annos) es (a, true) = (a', ok) → ok = true.
Proof.
  induction es as [|e es IH]; intros a n a' ok H1 H2 Hn; cbn [fold_left sum_list_with] in *; [by intros [= _ <-]|].
  destruct (insert_annos annos (a, true) e) as [a1 r] eqn:E1.
  destruct (insert_annos_len annos e a n a1 r H1 H2 ltac:(lia) E1) as (-> & L1 & L2). apply (IH _ _ _ _ L1 L2). lia.
Qed.

Lemma copy_node_annos_fold out annos xs r :
  fold_left (copy_node_annos out annos) xs r =
  fold_left (insert_annos annos) (xs ≫= λ x, (λ y, Edge x y) <$> out x) r.
Proof.
  revert r. induction xs as [|x xs IH]; intros r; [done|]. simpl. rewrite IH, fold_left_app. done.
Qed.

Definition anno_sum (annos : edge → list (anno_key * bytes)) (D : gset edge) : nat := sum_list_with (λ e, length (annos e)) (elements D).
Lemma anno_sum_insert annos D e : e ∉ D → anno_sum annos ({[e]} ∪ D) = length (annos e) + anno_sum annos D.
Proof.
  intros He. unfold anno_sum. assert (∀ l l' : list edge, l ≡ₚ l' → sum_list_with (λ e, length (annos e)) l = sum_list_with (λ e, length (annos e)) l') as Hp.
  { induction 1; simpl; lia. }
  rewrite (Hp _ _ (elements_union_singleton D e He)). done.
Qed.
Lemma anno_sum_mono annos D D' : D ⊆ D' → anno_sum annos D ≤ anno_sum annos D'.
Proof.
  intros Hs. rewrite (union_difference_L D D' Hs). unfold anno_sum.
  assert (∀ l l' : list edge, l ≡ₚ l' → sum_list_with (λ e, length (annos e)) l = sum_list_with (λ e, length (annos e)) l') as Hp.
  { induction 1; simpl; lia. }
  rewrite (Hp _ _ (elements_disj_union D (D' ∖ D) ltac:(set_solver))). rewrite sum_list_with_app. lia.
Qed.
(** An insert of what is already there does not need a new symbol. *)
Lemma insert_present a leak M e k v : inv edge_compare a leak M → M !! (e, k) = Some v →
  ∃ a', am_insert edge_compare a e k v = (a', true) ∧ by_id (anno_keys a') = by_id (anno_keys a) ∧
    by_id (anno_values a') = by_id (anno_values a).
Proof.
  intros I Hv. pose proof (i_core _ _ _ _ I) as C.
  assert (∃ ks vs, st_get_symbol (anno_keys a) k = Some ks ∧ st_get_symbol (anno_values a) v = Some vs) as (ks & vs & Hk & Hvs).
  { apply (c_syms _ _ _ _ _ _ _ _ C) in Hv as (ks & vs & H1 & H2). exists ks, vs.
    split; apply st_ok_sym; try done; apply C. }
  unfold st_get_symbol in *. unfold am_insert, st_insert. rewrite Hk, Hvs.
  destruct (al_get _ _ _) as [v0|]; [destruct (decide _)|]; eexists; (split; [reflexivity|done]).
Qed.
Lemma insert_annos_present e : ∀ l a leak M, inv edge_compare a leak M → (∀ k v, (k, v) ∈ l → M !! (e, k) = Some v) →
  ∃ a', fold_left (λ (r : am edge * bool) (x : anno_key * bytes),
     if r.2 then am_insert edge_compare r.1 e x.1 x.2 else r) l (a, true) = (a', true) ∧
    inv edge_compare a' leak M ∧ by_id (anno_keys a') = by_id (anno_keys a) ∧
    by_id (anno_values a') = by_id (anno_values a).
Proof.
  induction l as [|[k v] l IH]; intros a leak M I Hl; simpl; [by exists a|].
  assert (M !! (e, k) = Some v) as Hkv by (apply Hl; by left).
  destruct (insert_present a leak M e k v I Hkv) as (a1 & E1 & H1 & H2). rewrite E1.
  pose proof (AnnoMemProofs.inv_insert _ _ _ _ _ _ _ _ _ I E1) as I1. cbn iota in I1. rewrite insert_id in I1 by done.
  destruct (IH a1 leak M I1 ltac:(intros; apply Hl; by right)) as (a2 & E2 & I2 & H3 & H4).
  exists a2. split_and!; [done|done|congruence|congruence].
Qed.

Section copy.
Context (annos : edge → list (anno_key * bytes)) (A : gmap (edge * anno_key) bytes) (G : gset edge).
Context (Hnd : ∀ e, NoDup (annos e).*1).
Context (HA : ∀ e k v, e ∈ G → (k, v) ∈ annos e ↔ A !! (e, k) = Some v).

(** Inserting the annotations of edges that have been copied before changes nothing. *)
Lemma insert_edges_inv es : ∀ D a leak a', (∀ e, e ∈ es → e ∈ G) → (∀ e, e ∈ D → e ∈ G) →
  inv edge_compare a leak (filter (λ x, x.1.1 ∈ D) A) →
  fold_left (insert_annos annos) es (a, true) = (a', true) →
  inv edge_compare a' leak (filter (λ x, x.1.1 ∈ D ++ es) A).
Proof using HA Hnd.
  induction es as [|e es IH]; intros D a leak a' Hes HD I; simpl.
  - intros [= <-]. by rewrite app_nil_r.
  - destruct (insert_annos annos (a, true) e) as [a1 ok] eqn:E1. destruct ok; [|by rewrite insert_annos_fold_false].
    intros Hf. replace (D ++ e :: es) with ((D ++ [e]) ++ es) in * by (by rewrite <- (assoc_L (++))).
    eapply (IH _ a1); [intros e' ?; apply Hes; by right| | |exact Hf].
    { intros e' [?| ->%elem_of_list_singleton]%elem_of_app; [by apply HD|]. apply Hes. by left. }
    pose proof (insert_annos_inv (annos e) e a leak _ a1 I E1) as I1.
    eapply eq_ind; [exact I1|]. apply map_eq. intros [e' k]. apply option_eq. intros v.
    assert (e ∈ G) as He by (apply Hes; by left).
    rewrite (add_annos_lookup e _ (Hnd e)), !map_filter_lookup_Some. simpl.
    rewrite elem_of_app, elem_of_list_singleton. split.
    + intros [[-> Hin]|[Hn [Hl Hd]]]; [|naive_solver]. split; [|by right]. by apply HA.
    + intros [Hl [Hd| ->]].
      * destruct (decide (e' = e)) as [->|Hne].
        -- left. split; [done|]. by apply HA.
        -- right. done.
      * left. split; [done|]. by apply HA.
Qed.
Lemma insert_edges_all es a0 a' : (∀ e, e ∈ es ↔ e ∈ G) → (∀ e k, is_Some (A !! (e, k)) → e ∈ G) →
  (∃ leak M, inv edge_compare a0 leak M) →
  fold_left (insert_annos annos) es (am_clear a0, true) = (a', true) → ∃ leak, inv edge_compare a' leak A.
Proof using HA Hnd.
  intros Hes Hdom (leak0 & M0 & I0) Hf.
  destruct (AnnoMemProofs.inv_step edge_compare a0 leak0 M0 AmClear (am_clear a0) AmOk I0 eq_refl) as [_ (leak & I & _)].
  simpl in I. exists leak.
  pose proof (insert_edges_inv es [] (am_clear a0) leak a') as Hx. simpl in Hx.
  assert (filter (λ x : edge * anno_key * bytes, x.1.1 ∈ es) A = A) as Heq.
  { apply map_filter_id. intros [e k] v Hv. simpl. apply Hes. eapply Hdom. by eexists. }
  rewrite Heq in Hx. apply Hx; [intros e; apply Hes|intros e He; by apply elem_of_nil in He| |done].
  eapply eq_ind; [exact I|]. symmetry. apply map_empty. intros [e k].
  apply map_filter_lookup_None. right. intros v _. simpl. apply not_elem_of_nil.
Qed.
Lemma insert_edges_ok es : ∀ D a leak a' ok, (∀ e, e ∈ es → e ∈ G) → D ⊆ G → (N.of_nat (anno_sum annos G) <= usize_max)%N →
  inv edge_compare a leak (filter (λ x, x.1.1 ∈ D) A) →
  length (by_id (anno_keys a)) ≤ anno_sum annos D → length (by_id (anno_values a)) ≤ anno_sum annos D →
  fold_left (insert_annos annos) es (a, true) = (a', ok) → ok = true.
Proof using HA Hnd.
  induction es as [|e es IH]; intros D a leak a' ok Hes HD Hsum I L1 L2; simpl; [by intros [= _ <-]|].
  assert (e ∈ G) as He by (apply Hes; by left). destruct (decide (e ∈ D)) as [HeD|HeD].
  - destruct (insert_annos_present e (annos e) a leak _ I) as (a1 & E1 & I1 & H1 & H2).
    { intros k v Hkv. apply map_filter_lookup_Some. split; [by apply HA|done]. }
    unfold insert_annos at 2. rewrite E1. apply (IH D a1 leak); [intros; apply Hes; by right|done|done|done| |]; congruence.
  - destruct (insert_annos annos (a, true) e) as [a1 ok1] eqn:E1.
    assert (anno_sum annos ({[e]} ∪ D) ≤ anno_sum annos G) as Hle by (apply anno_sum_mono; set_solver).
    rewrite anno_sum_insert in Hle by done.
    destruct (insert_annos_len annos e a (anno_sum annos D) a1 ok1 L1 L2 ltac:(lia) E1) as (-> & H1 & H2).
    apply (IH ({[e]} ∪ D) a1 leak); [intros; apply Hes; by right|set_solver|done| | |]; [|rewrite anno_sum_insert by done; lia..].
    pose proof (insert_edges_inv [e] (elements D) a leak a1) as Hx. simpl in Hx. rewrite E1 in Hx.
    specialize (Hx ltac:(intros e' ->%elem_of_list_singleton; done) ltac:(intros e' He'%elem_of_elements; by apply HD)).
    assert (∀ (X Y : gset edge), X = Y → filter (λ x : edge * anno_key * bytes, x.1.1 ∈ X) A = filter (λ x, x.1.1 ∈ Y) A) as Hext by (by intros ? ? ->).
    assert (∀ (l : list edge) (X : gset edge), (∀ e, e ∈ l ↔ e ∈ X) → filter (λ x : edge * anno_key * bytes, x.1.1 ∈ l) A = filter (λ x, x.1.1 ∈ X) A) as Hext2.
    { intros l X Hl. apply map_filter_ext. intros [e' k'] v' _. simpl. apply Hl. }
    rewrite (Hext2 (elements D) D), (Hext2 (elements D ++ [e]) ({[e]} ∪ D)) in Hx.
    + by apply Hx.
    + intros e'. rewrite elem_of_app, elem_of_elements, elem_of_list_singleton. set_solver.
    + intros e'. by rewrite elem_of_elements.
Qed.
Lemma insert_edges_ok_new es a' ok : (∀ e, e ∈ es → e ∈ G) → (N.of_nat (anno_sum annos G) <= usize_max)%N →
  fold_left (insert_annos annos) es (am_clear am_new, true) = (a', ok) → ok = true.
Proof using HA Hnd.
  intros Hes Hs. destruct (AnnoMemProofs.inv_step edge_compare am_new 0 ∅ AmClear (am_clear am_new) AmOk
    (AnnoMemProofs.inv_new edge_compare) eq_refl) as [_ (leak & I & _)].
  apply (insert_edges_ok es ∅ _ leak); [done|set_solver|done| |simpl; lia|simpl; lia].
  simpl in I. eapply eq_ind; [exact I|]. symmetry. apply map_empty. intros [e k].
  apply map_filter_lookup_None. right. intros v _. simpl. set_solver.
Qed.
End copy.
