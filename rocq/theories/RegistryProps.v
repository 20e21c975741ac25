(** C20: Whatever implementation optimize_impl chooses from the statistics, the component answers as before.
    The comparisons of floating point numbers in the choice are arbitrary ([ge75], [le103]). *)
From stdpp Require Import base list gmap fin_maps fin_sets.
From Coq Require Import NArith Lia.
From Verif Require Import KeySer Types SymbolTable AnnoMem GraphSpec Adjacency AdjacencySpec DiskAdjSpec Registry RegistrySpec RegistryProofs.

(** Whatever updates, statistics and optimizations (between any of the implementations, in memory or on disk) happened
    to a component: its answers are those of the content that the updates alone describe. *)
Theorem C20_content_independent_of_implementation_partial :
  ∀ ge75 le103 c g, reached ge75 le103 c g → ∃ v, gs_view c.2 = Some v ∧ shows v g.
Proof.
  intros ge75 le103 c g H. destruct (reached_ok _ _ _ _ H) as [Cl I].
  destruct (view_lemma _ _ Cl I) as (v & Hv & Sh & _). by exists v.
Qed.
Print Assumptions C20_content_independent_of_implementation_partial.

(** optimize_impl succeeds and every answer is the same before and after (lists in another order). *)
Theorem C20_optimize_keeps_answers_partial :
  ∀ ge75 le103 c g disk largest, reached ge75 le103 c g → fits_optimize largest g →
  ∃ f0, ∀ f, f0 ≤ f → ∃ c' v v', optimize ge75 le103 f disk largest c.2 = Some (c', true) ∧
    gs_view c.2 = Some v ∧ gs_view c' = Some v' ∧
    (∀ x, v_out v' x ≡ₚ v_out v x) ∧ (∀ x, v_in v' x ≡ₚ v_in v x) ∧
    v_sources v' ≡ₚ v_sources v ∧ v_roots v' ≡ₚ v_roots v ∧ ∀ e, v_annos v' e ≡ₚ v_annos v e.
Proof.
  intros ge75 le103 c g disk largest H F. destruct (reached_ok _ _ _ _ H) as [Cl I].
  destruct (optimize_total ge75 le103 disk largest c.2 g Cl F I) as (f0 & Hf). exists f0. intros f Hle.
  destruct (Hf f Hle) as (c' & E). pose proof (optimize_ok _ _ _ _ _ _ _ _ _ Cl F I E) as I'.
  destruct (view_lemma _ _ Cl I) as (v & Hv & [[H1 H1'] [H2 H2'] H3 H4 H5] & _).
  destruct (view_lemma _ _ Cl I') as (v' & Hv' & [[G1 G1'] [G2 G2'] G3 G4 G5] & _).
  exists c', v, v'. split_and!; [done|done|done| | | | |].
  - intros x. apply NoDup_Permutation; [apply G3|apply H3|]. intros y. destruct (G3 x) as [_ ->], (H3 x) as [_ ->]. done.
  - intros x. apply NoDup_Permutation; [apply G4|apply H4|]. intros y. destruct (G4 x) as [_ ->], (H4 x) as [_ ->]. done.
  - apply NoDup_Permutation; [done|done|]. intros x. by rewrite G1', H1'.
  - apply NoDup_Permutation; [done|done|]. intros x. by rewrite G2', H2'.
  - intros e. destruct (G5 e) as [Ga Gb], (H5 e) as [Ha Hb].
    apply NoDup_Permutation; [by apply NoDup_fmap_1 in Ga|by apply NoDup_fmap_1 in Ha|]. intros [k b]. by rewrite Gb, Hb.
Qed.
Print Assumptions C20_optimize_keeps_answers_partial.

(** An update of an optimized component always gets a writable copy first; it changes the content as described. *)
Theorem C20_update_after_optimize_partial :
  ∀ ge75 le103 c g u, reached ge75 le103 c g → op_disk_ids_ok u → (N.of_nat (size (gr_annos g)) <= usize_max)%N →
  ∃ f0, ∀ f, f0 ≤ f → ∃ c' ok v, update_gs f c.1 c.2 u = Some (c', ok) ∧
    gs_view c' = Some v ∧ shows v (if ok then graph_step g u true else g).
Proof.
  intros ge75 le103 c g u H Hu Ha. destruct (reached_ok _ _ _ _ H) as [Cl I].
  destruct (update_total c.1 c.2 g u Cl I Ha) as (f0 & Hf). exists f0. intros f Hle. destruct (Hf f Hle) as ([c' ok] & E).
  destruct (update_ok _ _ _ _ _ _ _ Cl Hu I E) as [Cl' I'].
  destruct (view_lemma _ _ Cl' I') as (v & Hv & Sh & _). by exists c', ok, v.
Qed.
Print Assumptions C20_update_after_optimize_partial.

(** The condition on cycles only excludes components that have a cycle but none behind a root node. *)
Theorem C20_acyclic_fits : ∀ G : gset edge, acyclic (edge_rel G) → cycles_visible G.
Proof. intros G H [x Hx]. by destruct (H x). Qed.
Print Assumptions C20_acyclic_fits.
Theorem C20_forest_fits :
  ∀ largest g, forest (gr_edges g) → (2 * N.of_nat (size (all_nodes (gr_edges g))) <= usize_max)%N →
  (N.of_nat (size (gr_annos g)) <= usize_max)%N →
  (∀ i x, largest = Some i → is_source (gr_edges g) x → (x <= i)%N) → fits_optimize largest g.
Proof.
  intros largest g [Hop Hac] Hn Ha Hl. split; [by apply C20_acyclic_fits|lia|done| |done].
  intros P Hnd HP. pose proof (root_paths_count _ P Hop Hnd HP). lia.
Qed.
Print Assumptions C20_forest_fits.

(** ** Examples: each kind of implementation is chosen for some component *)
Definition exact75 (n : nat) (i : N) : bool := (3 * i <=? 4 * N.of_nat n)%N.
Definition exact103 (v n : nat) : bool := bool_decide (100 * v ≤ 103 * n).
Definition add (l : list (N * N)) : list comp_op := (λ p, CUpdate (AddEdge (Edge p.1 p.2))) <$> l.
Definition chosen (ops : list comp_op) : option (impl * list bool) :=
  '(c, oks) ← comp_run exact75 exact103 50 (comp_new false) ops; Some (gs_impl c.2, oks).

Definition chain : list (N * N) := [(1, 2); (2, 3); (3, 4); (7, 8)]%N.
Definition tree : list (N * N) := [(1, 2); (1, 3); (3, 4)]%N.
Definition dag : list (N * N) := [(1, 2); (1, 3); (2, 4); (3, 4)]%N.
Definition loop : list (N * N) := [(0, 1); (1, 2); (2, 1)]%N.
Example chosen_implementations :
  chosen (add chain ++ [COptimize false (Some 8%N)]) = Some (ILinear u8_max, [true; true; true; true; true]) ∧
  chosen (add tree ++ [COptimize false (Some 8%N)]) = Some (IPrePost u16_max u8_max, [true; true; true; true]) ∧
  chosen (add dag ++ [COptimize false (Some 8%N)]) = Some (IAdj, [true; true; true; true; true]) ∧
  chosen (add loop ++ [COptimize false (Some 4%N)]) = Some (IDense, [true; true; true; true]) ∧
  chosen (add dag ++ [COptimize true (Some 8%N)]) = Some (IDiskAdj, [true; true; true; true; true]) ∧
  chosen (add chain ++ [COptimize true (Some 8%N)]) = Some (IDiskPath, [true; true; true; true; true]) ∧
  chosen (add chain ++ [COptimize true (Some 8%N); COptimize false None; CUpdate (DelNode 3)])
    = Some (IAdj, [true; true; true; true; true; true; true]).
Proof. split_and!; vm_compute; reflexivity. Qed.

(** The hypotheses are met by such a history. *)
Lemma lt_walk (G : gset edge) : set_Forall (λ e, (source e < target e)%N) G → ∀ p a b, walk (edge_rel G) a p b → p ≠ [] → (a < b)%N.
Proof.
  intros HG p. induction p as [|y p IH]; [done|]. intros a b [Ha Hw] _. specialize (HG _ Ha). simpl in HG.
  destruct p as [|z p]; [by simpl in Hw; subst|]. specialize (IH y b Hw ltac:(done)). lia.
Qed.
Lemma tree_fits : fits_optimize (Some 8%N) (comp_graph empty_graph (add tree) [true; true; true]).
Proof.
  assert (∀ a b, edge_rel (gr_edges (comp_graph empty_graph (add tree) [true; true; true])) a b ↔ (a, b) ∈ tree) as Hrel.
  { intros a b. unfold edge_rel.
    assert (gr_edges (comp_graph empty_graph (add tree) [true; true; true]) = {[Edge 1 2; Edge 1 3; Edge 3 4]}) as -> by (apply (bool_decide_eq_true _); vm_compute; reflexivity).
    unfold tree. rewrite !elem_of_union, !elem_of_singleton, !elem_of_cons, elem_of_nil.
    split; intros Hab; destruct_or? Hab; simplify_eq; auto. }
  apply C20_forest_fits.
  - split.
    + intros a b x Ha%Hrel Hb%Hrel. unfold tree in *. rewrite !elem_of_cons, elem_of_nil in Ha, Hb. naive_solver.
    + intros x (p & Hp & Hw). apply (lt_walk _) in Hw; [lia| |done].
      intros [a b] He%Hrel. unfold tree in He. rewrite !elem_of_cons, elem_of_nil in He. destruct_or? He; simplify_eq; simpl; lia.
  - vm_compute. discriminate.
  - vm_compute. discriminate.
  - intros i x [= <-] [y Hy%Hrel]. unfold tree in Hy. rewrite !elem_of_cons, elem_of_nil in Hy. destruct_or? Hy; simplify_eq; lia.
Qed.
Example tree_reached : ∃ c, reached exact75 exact103 c (comp_graph empty_graph (add tree) [true; true; true]) ∧
  gs_impl c.2 = IPrePost u16_max u8_max.
Proof.
  destruct (comp_run exact75 exact103 50 (comp_new false) (add tree ++ [COptimize false (Some 8%N)])) as [[c oks]|] eqn:E.
  - assert (chosen (add tree ++ [COptimize false (Some 8%N)]) = Some (IPrePost u16_max u8_max, [true; true; true; true])) as Hc
      by (vm_compute; reflexivity).
    unfold chosen in Hc. rewrite E in Hc. simpl in Hc. injection Hc as Hi ->. exists c. split; [|done].
    exists false, 50, (add tree ++ [COptimize false (Some 8%N)]), [true; true; true; true]. split_and!; [done| |done].
    cbn [history_fits add tree fmap list_fmap app op_fits fst snd]. do 3 (split; [split; vm_compute; reflexivity|]). split; [exact tree_fits|exact I].
  - exfalso. assert (chosen (add tree ++ [COptimize false (Some 8%N)]) ≠ None) as Hc by (vm_compute; discriminate).
    apply Hc. unfold chosen. by rewrite E.
Qed.

(** Without the condition on cycles the property is false: the component has the edges 3->4, 4->5 and the cycle
    1->2->1. The cycle cannot be reached from a root node, so the statistics report a rooted tree, and the linear
    storage only copies what is reachable from the roots. Both edges of the cycle are lost. *)
Definition hidden : list comp_op := add [(3, 4); (4, 5); (1, 2); (2, 1)]%N.
Theorem C20_hidden_cycle_refuted :
  ∃ s s' v v', comp_run exact75 exact103 50 (comp_new false) hidden = Some ((false, s), [true; true; true; true]) ∧
    optimize exact75 exact103 50 false (Some 8%N) s = Some (s', true) ∧ gs_impl s' = ILinear u8_max ∧
    gs_view s = Some v ∧ gs_view s' = Some v' ∧ v_out v 1%N = [2%N] ∧ v_out v 2%N = [1%N] ∧ v_out v' 1%N = [] ∧ v_out v' 2%N = [].
Proof.
  set (P := λ s s', match gs_view s, gs_view s' with
    | Some v, Some v' => bool_decide (v_out v 1%N = [2%N] ∧ v_out v 2%N = [1%N] ∧ v_out v' 1%N = [] ∧ v_out v' 2%N = [])
    | _, _ => false end).
  assert (match comp_run exact75 exact103 50 (comp_new false) hidden with
    | Some ((d, s), oks) => negb d && bool_decide (oks = [true; true; true; true]) &&
       match optimize exact75 exact103 50 false (Some 8%N) s with
       | Some (s', ok) => ok && bool_decide (gs_impl s' = ILinear u8_max) && P s s' | None => false end
    | None => false end = true) as H by (vm_compute; reflexivity).
  destruct (comp_run _ _ _ _ _) as [[[d s] oks]|]; [|done]. apply andb_true_iff in H as [H Ho].
  apply andb_true_iff in H as [->%negb_true_iff ->%bool_decide_eq_true].
  destruct (optimize _ _ _ _ _ s) as [[s' ok]|] eqn:E2; [|done]. apply andb_true_iff in Ho as [Ho HP].
  apply andb_true_iff in Ho as [-> Hi%bool_decide_eq_true]. unfold P in HP. destruct (gs_view s) as [v|] eqn:Ev; [|done].
  destruct (gs_view s') as [v'|] eqn:Ev'; [|done]. apply bool_decide_eq_true in HP. exists s, s', v, v'. done.
Qed.
Print Assumptions C20_hidden_cycle_refuted.
