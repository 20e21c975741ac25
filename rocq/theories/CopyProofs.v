(** Copying the edges and annotations of another storage *)
From stdpp Require Import base list gmap fin_maps fin_sets sorting.
From Coq Require Import NArith Lia.
From Verif Require Import KeySer KeySerSpec SortedMap Types SymbolTable SymTabIface AnnoMem AnnoMemProofs Dfs GraphSpec
  Adjacency AdjacencySpec AdjacencyProofs ListExtra.

Definition anno_loop (e : edge) (r : adj * bool) (a : anno_key * bytes) : adj * bool :=
  let '(s, ok) := r in if ok then adj_add_anno s e a.1 a.2 else r.
Definition add_annos (e : edge) (l : list (anno_key * bytes)) (A : gmap (edge * anno_key) bytes) :=
  fold_left (λ A a, <[(e, a.1) := a.2]> A) l A.

Lemma anno_loop_false e l s : fold_left (anno_loop e) l (s, false) = (s, false).
Proof. induction l as [|a l IH]; [done|]. simpl. done. Qed.
Lemma anno_loop_lemma e l : ∀ s G A s', ginv s (Graph G A) → e ∈ G →
  fold_left (anno_loop e) l (s, true) = (s', true) → ginv s' (Graph G (add_annos e l A)).
Proof.
  induction l as [|[k v] l IH]; intros s G A s' I He; simpl; [by intros [= <-]|].
  destruct (adj_add_anno s e k v) as [s1 ok] eqn:E1.
  pose proof (ginv_add_anno _ _ _ _ _ _ _ I E1) as I1. simpl in I1.
  destruct ok; [|by rewrite anno_loop_false]. rewrite bool_decide_eq_true_2 in I1 by done. by apply IH.
Qed.
Lemma add_annos_lookup e l : NoDup l.*1 → ∀ A e' k v, add_annos e l A !! (e', k) = Some v ↔
  (e' = e ∧ (k, v) ∈ l) ∨ ((e' = e → k ∉ l.*1) ∧ A !! (e', k) = Some v).
Proof.
  intros Hnd. induction l as [|[k0 v0] l IH]; intros A e' k v.
  - simpl. split; [intros ?; right; split; [intros _; apply not_elem_of_nil|done]|].
    intros [[_ ?%elem_of_nil]|[_ ?]]; done.
  - rewrite fmap_cons in Hnd. apply NoDup_cons in Hnd as [Hk0 Hnd]. unfold add_annos. simpl. fold (add_annos e l (<[(e, k0) := v0]> A)).
    rewrite (IH Hnd). rewrite elem_of_cons. rewrite not_elem_of_cons. simpl in *. split.
    + intros [[-> Hin]|[Hn Hl]]; [left; auto|].
      apply lookup_insert_Some in Hl as [[[= -> ->] ->]|[Hne Hl]]; [left; auto|].
      right. split; [|done]. intros ->. split; [|by apply Hn]. intros ->. done.
    + intros [[-> [[= -> ->]|Hin]]|[Hn Hl]].
      * right. split; [done|]. by rewrite lookup_insert.
      * by left.
      * right. split; [naive_solver|]. rewrite lookup_insert_ne; [done|]. intros [= <- <-]. destruct Hn; done.
Qed.

Lemma copy_edge_false annos es s : fold_left (copy_edge annos) es (s, false) = (s, false).
Proof. induction es as [|e es IH]; [done|]. simpl. done. Qed.

Section copy.
Context (sources : list N) (out : N → list N) (annos : edge → list (anno_key * bytes)) (g : graph).
Context (H : holds sources out annos g).

Lemma copy_fold es : ∀ D s s', NoDup (D ++ es) → (∀ e, e ∈ es → e ∈ gr_edges g) →
  ginv s (Graph (list_to_set D) (filter (λ x, x.1.1 ∈ D) (gr_annos g))) →
  fold_left (copy_edge annos) es (s, true) = (s', true) →
  ginv s' (Graph (list_to_set (D ++ es)) (filter (λ x, x.1.1 ∈ D ++ es) (gr_annos g))).
Proof.
  induction es as [|e es IH]; intros D s s' Hnd Hes I; simpl.
  - intros [= <-]. by rewrite app_nil_r.
  - pose proof (ginv_add _ _ e I) as I1. simpl in I1.
    assert (e ∈ gr_edges g) as He by (apply Hes; by left).
    assert (source e ≠ target e) as Hst.
    { intros Heq. destruct e as [a b]. simpl in Heq. subst. by apply (h_loop _ _ _ _ H) in He. }
    rewrite decide_False in I1 by done.
    destruct (fold_left (anno_loop e) (annos e) (adj_add_edge s e, true)) as [s1 ok] eqn:E1.
    assert (fold_left (λ (r : adj * bool) (a : anno_key * bytes), let '(s, ok) := r in
                 if ok then adj_add_anno s e a.1 a.2 else r) (annos e) (adj_add_edge s e, true) = (s1, ok)) as E1' by exact E1.
    rewrite E1'. destruct ok; [|by rewrite copy_edge_false].
    intros Hfold. replace (D ++ e :: es) with ((D ++ [e]) ++ es) in * by (by rewrite <- (assoc_L (++))).
    eapply IH; [done|intros e' ?; apply Hes; by right| |exact Hfold].
    assert (e ∉ D) as HeD.
    { apply NoDup_app in Hnd as (Hnd & _ & _). apply NoDup_app in Hnd as (_ & Hd & _). intros Hin. apply (Hd e Hin). by left. }
    eapply ginv_ext; [eapply (anno_loop_lemma e (annos e)); [exact I1|set_solver|exact E1]| |]; simpl.
    + rewrite list_to_set_app_L. simpl. set_solver.
    + apply map_eq. intros [e' k]. apply option_eq. intros v.
      rewrite (add_annos_lookup e _ (h_annos_nd _ _ _ _ H e)), !map_filter_lookup_Some. simpl.
      rewrite elem_of_app, elem_of_list_singleton. split.
      * intros [[-> Hin]|[Hn [Hl Hd]]]; [|naive_solver]. split; [|by right]. by apply (h_annos _ _ _ _ H).
      * intros [Hl [Hd| ->]].
        -- right. split; [|done]. intros ->. done.
        -- left. split; [done|]. by apply (h_annos _ _ _ _ H).
Qed.

Lemma copy_lemma s g0 st s' : ginv s g0 → adj_copy s sources out annos st = (s', true) →
  ginv s' g ∧ g_stats s' = st.
Proof.
  intros I. unfold adj_copy. set (es := sources ≫= λ x, (λ y, Edge x y) <$> out x).
  destruct (fold_left _ es _) as [s1 ok] eqn:E1. intros [= <- ->].
  assert (∀ e, e ∈ es ↔ e ∈ gr_edges g) as Hes.
  { intros [a b]. subst es. rewrite elem_of_list_bind. split.
    - intros (x & (y & [= -> ->] & Hy)%elem_of_list_fmap & _). by apply (h_out _ _ _ _ H).
    - intros He. exists a. split; [apply elem_of_list_fmap; exists b; split; [done|by apply (h_out _ _ _ _ H)]|].
      apply (h_sources _ _ _ _ H). by exists b. }
  pose proof (copy_fold es [] (adj_clear s) s1) as Hf. simpl in Hf. feed specialize Hf.
  { apply NoDup_bind_ext; [apply H| |].
    - intros x _. apply NoDup_fmap_inj_on; [apply H|]. by intros ? ? _ _ [= ->].
    - intros x y z _ _ (a & -> & _)%elem_of_list_fmap (b & [= -> _] & _)%elem_of_list_fmap. done. }
  { intros e. by apply Hes. }
  { eapply ginv_ext; [by eapply ginv_clear|done|]. simpl. symmetry. apply map_empty. intros [e k].
    apply map_filter_lookup_None. right. intros v _. simpl. apply not_elem_of_nil. }
  { done. }
  split; [|done].
  assert (ginv s1 g) as I1.
  { eapply ginv_ext; [exact Hf| |]; simpl.
    - apply set_eq. intros e. by rewrite elem_of_list_to_set.
    - apply map_filter_id. intros [e k] v Hv. simpl. apply Hes. eapply (h_dom _ _ _ _ H). by eexists. }
  by destruct I1.
Qed.
End copy.

Lemma adj_holds s g : ginv s g → holds (adj_sources s) (adj_out s) (am_get_annotations (g_annos s)) g.
Proof.
  intros I. destruct (sources_spec s g I) as (H1 & H2 & _ & _). constructor.
  - done.
  - intros x. apply H2.
  - intros x. apply nsorted_NoDup, I.
  - intros x y. apply I.
  - apply I.
  - intros e. destruct (gi_annos _ _ I) as [leak Ia]. apply (AnnoMemQueries.get_annotations_lemma _ _ _ _ e Ia).
  - intros e k v _. destruct (gi_annos _ _ I) as [leak Ia]. apply (AnnoMemQueries.get_annotations_lemma _ _ _ _ e Ia).
  - intros e k. apply I.
Qed.

(** No errors as long as the symbol tables are not full *)
Definition small (s : adj) (n : nat) : Prop :=
  length (by_id (anno_keys (g_annos s))) ≤ n ∧ length (by_id (anno_values (g_annos s))) ≤ n.
Lemma remove_item_len (a : am edge) e :
  length (by_id (anno_keys (am_remove_item a e).1)) = length (by_id (anno_keys a)) ∧
  length (by_id (anno_values (am_remove_item a e).1)) = length (by_id (anno_values a)).
Proof.
  unfold am_remove_item. destruct (by_container a !! e) as [l|]; [|done]. cbn [fst].
  match goal with |- context [fold_left _ l ?x] => set (s0 := x) end.
  change (anno_keys a) with (anno_keys s0). change (anno_values a) with (anno_values s0). clearbody s0.
  revert s0. induction l as [|x l IH]; intros s; simpl; [done|].
  destruct (IH (remove_item_step e s x)) as [-> ->]. apply remove_item_step_len.
Qed.
Lemma small_del_edge s e n : small s n → small (adj_delete_edge s e) n.
Proof. intros [H1 H2]. destruct (remove_item_len (g_annos s) e) as [E1 E2]. split; simpl; by rewrite ?E1, ?E2. Qed.
Lemma small_add_anno s e k v n s' ok : small s n → adj_add_anno s e k v = (s', ok) →
  small s' (S n) ∧ ((N.of_nat n < usize_max)%N → ok = true).
Proof.
  intros [H1 H2]. unfold adj_add_anno. destruct (decide _).
  - destruct (am_insert edge_compare (g_annos s) e k v) as [a r] eqn:E. intros [= <- <-].
    destruct (step_len edge_compare (g_annos s) (AmInsert e k v) a (if r then AmOk else AmErr) n) as (L1 & L2 & L3); [|done|done|].
    { simpl. by rewrite E. }
    split; [by split|]. intros Hn. destruct r; [done|]. by destruct (L3 ltac:(lia)).
  - intros [= <- <-]. split; [split; lia|done].
Qed.
Lemma small_step s o n s' ok : small s n → adj_step s o = (s', ok) →
  small s' (S n) ∧ ((N.of_nat n < usize_max)%N → ok = true).
Proof.
  intros H. pose proof H as [H1 H2]. destruct o as [e|e k v|e|e k|x| |]; simpl.
  - intros [= <- <-]. split; [|done]. unfold adj_add_edge. destruct (decide _); simpl; split; simpl; lia.
  - by apply small_add_anno.
  - intros [= <- <-]. split; [|done]. destruct (small_del_edge s e n H). split; lia.
  - intros [= <- <-]. split; [|done]. unfold adj_delete_anno.
    destruct (step_len edge_compare (g_annos s) (AmRemove e k) (am_remove_annotation (g_annos s) e k).1
        (AmVal (am_remove_annotation (g_annos s) e k).2) n) as (L1 & L2 & _); [|done|done|].
    { simpl. by destruct (am_remove_annotation _ _ _). }
    split; simpl; lia.
  - intros [= <- <-]. split; [|done]. unfold adj_delete_node.
    match goal with |- context [fold_left _ ?x _] => generalize x end. intros l.
    assert (small (fold_left adj_delete_edge l s) n) as [? ?]; [|split; lia].
    clear H1 H2. revert s H. induction l as [|e l IH]; intros s H; [done|]. simpl. apply IH. by apply small_del_edge.
  - intros [= <- <-]. split; [|done]. split; simpl; lia.
  - intros [= <- <-]. split; [|done]. split; simpl; lia.
Qed.
Lemma run_no_error ops : ∀ s n s' oks, adj_run s ops = (s', oks) → small s n →
  (N.of_nat (n + length ops) <= usize_max)%N → Forall (λ b, b = true) oks.
Proof.
  induction ops as [|o ops IH]; intros s n s' oks; simpl; [intros [= <- <-] _ _; constructor|].
  destruct (adj_step s o) as [s1 r] eqn:E1. destruct (adj_run s1 ops) as [s2 rs] eqn:E2.
  intros [= <- <-] Hs Hn. destruct (small_step _ _ _ _ _ Hs E1) as [Hs' Hr]. constructor; [apply Hr; lia|].
  eapply (IH _ (S n)); [done|done|lia].
Qed.
Lemma copy_annos_no_error e l : ∀ s n s' ok, small s n → (N.of_nat (n + length l) <= usize_max)%N →
  fold_left (anno_loop e) l (s, true) = (s', ok) → ok = true ∧ small s' (n + length l).
Proof.
  induction l as [|[k v] l IH]; intros s n s' ok Hs Hn; simpl.
  - intros [= <- <-]. split; [done|]. by rewrite Nat.add_0_r.
  - destruct (adj_add_anno s e k v) as [s1 r] eqn:E1. destruct (small_add_anno _ _ _ _ _ _ _ Hs E1) as [Hs' Hr].
    simpl in Hn. rewrite Hr by lia. intros E2. destruct (IH _ (S n) _ _ Hs' ltac:(lia) E2) as [-> Hs2]. split; [done|].
    by rewrite Nat.add_succ_r.
Qed.
Lemma copy_no_error annos es : ∀ s n s' ok, small s n →
  (N.of_nat (n + sum_list_with (λ e, length (annos e)) es) <= usize_max)%N →
  fold_left (copy_edge annos) es (s, true) = (s', ok) → ok = true.
Proof.
  induction es as [|e es IH]; intros s n s' ok Hs Hn; cbn [fold_left sum_list_with] in *; [by intros [= _ <-]|].
  destruct (copy_edge annos (s, true) e) as [s1 r] eqn:E1.
  assert (small (adj_add_edge s e) n) as Hs1 by (unfold adj_add_edge; destruct Hs; destruct (decide _); done).
  destruct (copy_annos_no_error e (annos e) _ n s1 r Hs1 ltac:(lia) E1) as [-> Hs2]. apply (IH _ _ _ _ Hs2). lia.
Qed.
