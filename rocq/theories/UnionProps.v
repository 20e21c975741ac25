(** Property C44: the union of edge containers. *)
From stdpp Require Import base list gmap.
From Coq Require Import NArith Lia.
From Verif Require Import KeySer SortedMap Dfs GraphSpec Adjacency AdjacencySpec Search Union UnionSpec UnionProofs.

(** The union of containers has the union of their edges, without duplicates *)
Theorem C44_union cs (Es : list (gset edge)) : Forall2 contains_edges cs Es →
  contains_edges (union_container cs) (⋃ Es) ∧ no_duplicates (union_container cs).
Proof. exact (union_spec cs Es). Qed.
(** If a container fails, its error is given and no result *)
Theorem C44_errors cs x : (∃ c, c ∈ cs ∧ None ∈ out_edges c x) →
  out_edges (union_container cs) x ≠ [] ∧ ∀ y, y ∈ out_edges (union_container cs) x → y = None.
Proof.
  intros (c & Hc & Hn). apply union_items_error. exists (out_edges c x). split; [|exact Hn]. apply elem_of_list_fmap. by exists c.
Qed.
Theorem C44_errors_ingoing cs x : (∃ c, c ∈ cs ∧ None ∈ in_edges c x) →
  in_edges (union_container cs) x ≠ [] ∧ ∀ y, y ∈ in_edges (union_container cs) x → y = None.
Proof.
  intros (c & Hc & Hn). apply union_items_error. exists (in_edges c x). split; [|exact Hn]. apply elem_of_list_fmap. by exists c.
Qed.
Theorem C44_errors_sources cs : (∃ c, c ∈ cs ∧ None ∈ sources c) → sources (union_container cs) = [None].
Proof.
  intros (c & Hc & Hn). cbn [union_container sources]. generalize (∅ : gset N). induction cs as [|c' cs IH]; intros acc; [by apply elem_of_nil in Hc|]. cbn [union_sources].
  destruct (decide (None ∈ sources c')) as [H|H].
  - rewrite gather_sources_error by done. done.
  - destruct (gather_sources_ok (sources c') acc H) as (acc' & -> & _). apply IH. apply elem_of_cons in Hc as [-> |Hc]; done.
Qed.
(** The roots of the union are the nodes with an outgoing edge in some container and no incoming edge in any of them *)
Theorem C44_roots cs (Es : list (gset edge)) : Forall2 contains_edges cs Es →
  gives (root_nodes (union_container cs)) (λ x, (∃ y, Edge x y ∈ ⋃ Es) ∧ ¬ ∃ y, Edge y x ∈ ⋃ Es) ∧ NoDup (root_nodes (union_container cs)).
Proof.
  intros H. destruct (union_spec cs Es H) as [H1 (_ & _ & H2)]. destruct (roots_spec _ _ H1) as [H3 H4]. split; [exact H3|exact (H4 H2)].
Qed.
(** A search in the union finds the nodes on paths whose edges can come from different containers *)
Theorem C44_search cs (Es : list (gset edge)) n min max : Forall2 contains_edges cs Es → ids_ok (⋃ Es) → max ≠ Excluded 0%N →
  ∃ f0, ∀ f, f0 ≤ f → ∃ l, find_connected f (λ x, omap id (out_edges (union_container cs) x)) n min max = Some l ∧ NoDup l ∧
    ∀ m, m ∈ l ↔ ∃ p, simple_path (edge_rel (⋃ Es)) n p m ∧ in_distance min max (length p).
Proof.
  intros H Hi Hm. apply search_find; [|exact Hi|exact Hm]. intros x y. destruct (union_spec cs Es H) as [(Ho & _ & _) _]. destruct (Ho x) as [_ Hx].
  rewrite <- Hx. rewrite elem_of_list_omap. split; [intros ([z|] & Hz & E); [injection E as ->; done|discriminate E]|intros Hy; exists (Some y); done].
Qed.
Print Assumptions C44_union.
Print Assumptions C44_errors.
Print Assumptions C44_errors_ingoing. Print Assumptions C44_errors_sources.
Print Assumptions C44_roots.
Print Assumptions C44_search.
Definition ex_c1 : container := Container (λ x, if decide (x = 1%N) then [Some 2%N; Some 3%N; Some 2%N] else []) (λ x, if decide (x ∈ [2%N; 3%N]) then [Some 1%N] else []) [Some 1%N].
Definition ex_c2 : container :=
  Container (λ x, if decide (x = 1%N) then [Some 2%N] else if decide (x = 2%N) then [Some 4%N] else [])
            (λ x, if decide (x = 2%N) then [Some 1%N] else if decide (x = 4%N) then [Some 2%N] else []) [Some 2%N; Some 1%N].
Example ex_contains : Forall2 contains_edges [ex_c1; ex_c2] [{[Edge 1 2; Edge 1 3]}; {[Edge 1 2; Edge 2 4]}].
Proof.
  assert (∀ l (P : N → Prop), None ∉ l → (∀ n : N, Some n ∈ l → P n) → (∀ n, P n → Some n ∈ l) → gives l P) as Hg by (intros l P H1 H2 H3; split; [exact H1|intros n; split; auto]).
  apply Forall2_cons; (split; [|apply Forall2_cons; (split; [|apply Forall2_nil; exact I])]); (split; [|split]); try (intros x); apply Hg; unfold ex_c1, ex_c2; cbn [out_edges in_edges sources];
    try (intros n); repeat case_decide; subst; rewrite ?elem_of_cons, ?elem_of_nil in *; set_solver.
Qed.
Example ex_union : out_edges (union_container [ex_c1; ex_c2]) 1 ≡ₚ [Some 2%N; Some 3%N] ∧ root_nodes (union_container [ex_c1; ex_c2]) = [Some 1%N].
Proof. split; [|vm_compute; reflexivity]. apply (bool_decide_eq_true _). vm_compute. reflexivity. Qed.
