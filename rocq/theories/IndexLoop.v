(** The derived edges after the loop over the invalid nodes. *)
From stdpp Require Import base list gmap fin_maps.
From Coq Require Import NArith Lia.
From Verif Require Import KeySer KeySerSpec SortedMap Types SymbolTable AnnoMem AnnoMemProofs AnnoMemQueries Dfs DfsProofs DfsQueries GraphSpec Adjacency AdjacencySpec
  AdjacencyProofs Storage GraphUpdate GraphApply GraphApplyProofs TokenHelper ContextSpec QuickSort QuickSortSpec QuickSortAny SortMatchesSpec SortMatchesProofs
  Index IndexSpec IndexGood IndexProofs.

Section Loop.
Context (fuel : nat) (rnd : nat → nat) (hash : gset N → list N) (Hhash : hash_order hash).
Context (st0 : gstate) (order : storage) (Ho : ∀ a b, gs_is_connected order a b 1 Unbounded = true ↔ comes_before st0 a b) (Hac : order_acyclic st0).
Context (Hap : tokens_apart st0).
Context (cov text : list comp).
Context (Hcov : ∀ c, c ∈ cov ↔ is_Some (g_comps st0 !! c) ∧ c.1.1 = t_coverage ∧ c ≠ inherited).
Context (Htext : ∀ c, c ∈ text ↔ is_Some (g_comps st0 !! c) ∧ (c.1.1 = t_coverage ∧ c ≠ inherited ∨ c.1.1 = t_dominance)).

(** The derived edges of the nodes in [D] are right, no edges come from others. *)
Definition part_of (X : gset N) (st : gstate) (c : comp) (first : N → N → Prop) : Prop :=
  (∀ n t, edge_in st c n t → n ∈ X ∧ text_of st0 n t) ∧
  (∀ n t, n ∈ X → text_of st0 n t → ∃ u, edge_in st c n u) ∧
  (∀ n t u, edge_in st c n t → edge_in st c n u → t = u) ∧
  (∀ n t u, in_one_text st0 n → edge_in st c n t → text_of st0 n u → t = u ∨ first t u).
Record done_for (D L R : gset N) (st : gstate) : Prop := {
  df_user : same_user st0 st;
  df_good : ∃ M Gs, good st M Gs;
  df_inh : ∀ n t, edge_in st inherited n t ↔ n ∈ D ∧ text_of st0 n t ∧ ¬ coverage_edge st0 n t;
  df_left : part_of L st left_comp (comes_before st0);
  df_right : part_of R st right_comp (λ a b, comes_before st0 b a)
}.
Lemma user_edge st c x y : same_user st0 st → ¬ derived c → edge_in st c x y → edge_in st0 c x y.
Proof using. intros HS Hc. by apply (same_edge HS). Qed.
Lemma user_edge' st c x y : same_user st0 st → ¬ derived c → edge_in st0 c x y → edge_in st c x y.
Proof using. intros HS Hc. by apply (same_edge HS). Qed.
Lemma text_edge_cs st x y : same_user st0 st → y ∈ union_edges adj_out st text x ↔ text_edge st0 x y.
Proof using Htext.
  intros HS. rewrite union_out_iff. split.
  - intros (c & Hc & He). apply Htext in Hc as (_ & [[Hc Hn]|Hc]).
    + left. exists c. split_and!; [done..|]. eapply user_edge; eauto using derived_coverage.
    + right. exists c. split; [done|]. eapply user_edge; eauto using derived_dominance.
  - intros [(c & Hc & Hn & He)|(c & Hc & He)]; exists c; (split; [apply Htext|eapply user_edge'; eauto using derived_dominance, derived_coverage]);
      destruct He as (g & Hg & _); split; [by exists g|by auto|by exists g|by auto].
Qed.
Lemma cov_edge_cs st x y : same_user st0 st → y ∈ union_edges adj_out st cov x ↔ coverage_edge st0 x y.
Proof using Hcov.
  intros HS. rewrite union_out_iff. split.
  - intros (c & Hc & He). apply Hcov in Hc as (_ & Hc & Hn). exists c. split_and!; [done..|]. eapply user_edge; eauto using derived_coverage.
  - intros (c & Hc & Hn & He). exists c. split; [|eapply user_edge'; eauto using derived_coverage]. apply Hcov. destruct He as (g & Hg & _). split; [by exists g|done].
Qed.
Lemma text_self n : text_token st0 n → ∀ t, ¬ text_of st0 n t.
Proof using Hap. intros Hn t (Hne & Ht & Hr). apply Hne. by apply Hap. Qed.
Lemma token_in_text D L R st t : done_for D L R st → token_in st t = true ↔ text_token st0 t.
Proof using Hap.
  intros H. destruct (df_good _ _ _ _ H) as (M & Gs & HG). rewrite (token_in_iff _ _ _ _ HG). rewrite (same_label (df_user _ _ _ _ H)).
  split; intros [Hl Hx]; (split; [done|]).
  - intros (y & c & Hc & Hn & He). apply Hx. exists c, y. split; [done|]. eapply (user_edge' st); [exact (df_user _ _ _ _ H)|by apply derived_coverage|done].
  - intros (c & y & Hc & He). destruct (decide (c = inherited)) as [->|Hn].
    + apply (df_inh _ _ _ _ H) in He as (_ & He & _). by eapply (text_self t).
    + apply Hx. exists y, c. split_and!; [done..|]. by apply (same_edge (df_user _ _ _ _ H) c t y (derived_coverage c Hc Hn)).
Qed.
Lemma text_bounded st M Gs x y : same_user st0 st → good st M Gs → text_edge st0 x y → (x < node_bound)%N ∧ (y < node_bound)%N.
Proof using Htext.
  intros HS H Hxy. apply (text_edge_cs st) in Hxy; [|done]. apply union_out_iff in Hxy as (c & _ & He). apply (edge_in_g _ _ _ _ _ _ H) in He. by apply (gd_ids _ _ _ H c).
Qed.
Lemma text_of_simple n t : text_of st0 n t ↔ text_token st0 t ∧ ∃ p, simple_path (text_edge st0) n p t ∧ (1 <= N.of_nat (length p))%N.
Proof using.
  unfold text_of. rewrite reachable_simple. split.
  - intros (Hne & Ht & p & Hp). split; [done|]. exists p. split; [done|]. destruct p; [by destruct Hp as [Hp _]|cbn; lia].
  - intros (Ht & p & Hp & Hl). split_and!; [|done|by exists p]. intros <-. destruct p as [|x p]; [cbn in Hl; lia|]. destruct Hp as [Hw Hn].
    apply NoDup_cons in Hn as [Hn _]. apply Hn. clear - Hw. revert Hw. generalize n at 1. intros m Hw.
    assert (n ∈ x :: p) as Hx; [|done]. revert m x Hw. induction p as [|y p IH]; intros m x [_ Hw]; [cbn in Hw; subst; by left|]. right. by apply (IH x y).
Qed.
Lemma text_of_first n t : text_of st0 n t → ∃ y, text_edge st0 n y.
Proof using. intros (Hne & _ & [|y p] & Hw); [done|]. destruct Hw as [Hw _]. by exists y. Qed.
Lemma text_of_last n t : text_of st0 n t → ∃ y, text_edge st0 y t.
Proof using.
  intros (Hne & _ & p & Hw). revert n Hne Hw. induction p as [|y p IH]; intros n Hne Hw; [done|]. destruct Hw as [He Hw].
  destruct (decide (y = t)) as [->|Hy]; [by exists n|]. by apply (IH y).
Qed.

Lemma closed_nodes st M Gs a b : same_user st0 st → good st M Gs → text_edge st0 a b → b ∈ nodes_of Gs text.
Proof using Htext.
  intros HS H Hab. apply (text_edge_cs st) in Hab; [|done]. apply union_out_iff in Hab as (c & Hc & He). apply (in_nodes_of _ _ c); [done|].
  apply (edge_in_g _ _ _ _ _ _ H) in He. by apply all_nodes_edge in He as [_ He].
Qed.
Lemma part_ext X st st' c first : (∀ x y, edge_in st' c x y ↔ edge_in st c x y) → part_of X st c first → part_of X st' c first.
Proof using.
  intros He (A & B & C & D). unfold part_of. split_and!.
  - intros n t Hn%He. by apply A.
  - intros n t HX Hn. destruct (B n t HX Hn) as [u Hu]. exists u. by apply He.
  - intros n t u H1%He H2%He. by eapply C.
  - intros n t u Hi H1%He. by eapply D.
Qed.
Lemma edge_set_other st c g c' x y : c' ≠ c → edge_in (set_comp st c g) c' x y ↔ edge_in st c' x y.
Proof using. intros Hne. unfold edge_in. by rewrite set_other. Qed.
Lemma user_set st c g : derived c → same_user st0 st → same_user st0 (set_comp st c g).
Proof using. intros Hc [A B]. split; [exact A|]. intros c' Hc'. rewrite set_other by congruence. by apply B. Qed.

Lemma inherit_done D L R st n st' covered : done_for D L R st → inherit_coverage fuel hash st n cov text = Some (st', covered) →
  done_for ({[n]} ∪ D) L R st' ∧ ∀ t, t ∈ covered ↔ text_of st0 n t.
Proof using All.
  intros H. pose proof (df_user _ _ _ _ H) as HS. destruct (df_good _ _ _ _ H) as (M & Gs & HG). unfold inherit_coverage.
  destruct (has_token_helper st); [|done]. destruct (dfs_loop _ _ _ _ _) as [[l s']|] eqn:El; [|done]. intros [= <- <-].
  assert (∀ t, t ∈ (list_to_set (filter (λ x, token_in st x = true) l.*1) : gset N) ↔ text_of st0 n t) as Hc.
  { intros t. rewrite elem_of_list_to_set, elem_of_list_filter, text_of_simple. rewrite (token_in_text _ _ _ _ _ H).
    rewrite (search_found _ 1 (text_edge st0) fuel (dfs_new n) n l s' ({[n]} ∪ nodes_of Gs text) (λ a b, text_edge_cs st a b HS)
      (λ a b, text_bounded st M Gs a b HS HG)); [done| | |done|done|done|done|exact El].
    - intros a b _ Hab. apply elem_of_union_r. by eapply closed_nodes.
    - set_solver. }
  split; [|exact Hc]. remember (list_to_set (filter (λ x, token_in st x = true) l.*1) : gset N) as X eqn:EX. clear EX El.
  destruct (add_edges_good (λ t, n ≠ t ∧ t ∉ (list_to_set (union_edges adj_out st cov n) : gset N)) _ inherited n (hash X) st M Gs HG) as (Gs' & HG' & He).
  { intros t Ht%(proj2 (Hhash X)) [Hne _]. apply Hc in Ht. destruct (text_of_first _ _ Ht) as [y Hy]. destruct (text_of_last _ _ Ht) as [z Hz].
    split_and!; [done|by apply (text_bounded st M Gs n y HS HG)|by apply (text_bounded st M Gs z t HS HG)]. }
  cbv zeta in HG', He. split.
  - apply user_set; [by right; right|done].
  - by exists M, Gs'.
  - intros x y. rewrite He. rewrite (df_inh _ _ _ _ H). rewrite (proj2 (Hhash X)), Hc, elem_of_list_to_set, (cov_edge_cs st n y HS), elem_of_union, elem_of_singleton.
    pose proof (λ (h : text_of st0 n y), proj1 h) as Hne. destruct (decide (x = n)) as [->|]; naive_solver.
  - eapply part_ext; [|exact (df_left _ _ _ _ H)]. intros x y. by apply edge_set_other.
  - eapply part_ext; [|exact (df_right _ _ _ _ H)]. intros x y. by apply edge_set_other.
Qed.

(** What [align] does *)
Lemma align_does X st M Gs n c right covered st' : good st M Gs → same_user st0 st → derived c → part_of X st c (dir st0 right) → n ∉ X → (∀ t, t ∈ covered ↔ text_of st0 n t) →
  align fuel rnd hash st n c right order covered = Some st' →
  part_of ({[n]} ∪ X) st' c (dir st0 right) ∧ (∃ Gs', good st' M Gs') ∧ same_user st0 st' ∧ ∀ c' x y, c' ≠ c → edge_in st' c' x y ↔ edge_in st c' x y.
Proof using All.
  intros HG HS Hd HP Hn Hc. unfold align.
  assert (∀ u, ¬ edge_in st c n u) as Hno. { intros u Hu. destruct HP as (HP & _). by apply HP in Hu as [? _]. }
  assert ((∀ t, ¬ text_of st0 n t) → Some st = Some st' → part_of ({[n]} ∪ X) st' c (dir st0 right) ∧ (∃ Gs', good st' M Gs') ∧ same_user st0 st' ∧
    ∀ c' x y, c' ≠ c → edge_in st' c' x y ↔ edge_in st c' x y) as Hstay.
  { intros Hnone [= <-]. split_and!; [|by exists Gs|done|done]. destruct HP as (A & B & C & E). unfold part_of. split_and!; [| |done|done].
    - intros m t [Hm Ht]%A. split; [set_solver|done].
    - intros m t Hm Ht. apply elem_of_union in Hm as [->%elem_of_singleton|Hm]; [by edestruct Hnone|by eapply B]. }
  destruct (_ && _) eqn:Eb. { apply Hstay. apply andb_true_iff in Eb as [_ Eb%bool_decide_eq_true]. intros t Ht%Hc. rewrite Eb in Ht. by apply elem_of_empty in Ht. }
  clear Eb. destruct (match g_comps st !! c with Some g => head (adj_out g n) | None => None end) as [u|] eqn:Eu.
  { exfalso. destruct (g_comps st !! c) as [g|] eqn:Eg; [|done]. apply (Hno u). exists g. split; [done|]. destruct (adj_out g n); [done|]. injection Eu as ->. by left. }
  clear Eu. destruct (sort _ _ _ _) as [l'| |] eqn:Es; [|done..]. pose proof (pick_spec st0 order Ho Hac fuel rnd (hash covered) l' right Es) as Hp.
  destruct (if right then last l' else head l') as [t|].
  - intros [= <-]. destruct Hp as [Ht Hf]. apply (proj2 (Hhash covered)), Hc in Ht.
    destruct (text_of_first _ _ Ht) as [y Hy]. destruct (text_of_last _ _ Ht) as [z Hz].
    destruct (add_edge_good st M Gs c n t HG (proj1 Ht)) as (Gs' & HG' & He);
      [by apply (text_bounded st M Gs n y HS HG)|by apply (text_bounded st M Gs z t HS HG)|].
    split_and!; [|by exists Gs'|by apply user_set|intros; by apply edge_set_other].
    destruct HP as (A & B & C & E). unfold part_of. split_and!.
    + intros m u [Hm|[-> ->]]%He; [apply A in Hm as [? ?]; split; [set_solver|done]|split; [set_solver|done]].
    + intros m u Hm Hu. apply elem_of_union in Hm as [->%elem_of_singleton|Hm]; [exists t; apply He; by right|].
      destruct (B m u Hm Hu) as [w Hw]. exists w. apply He. by left.
    + intros m u w [Hu|[-> ->]]%He [Hw|[E1 ->]]%He; [by eapply C|rewrite E1 in Hu; by edestruct Hno|by edestruct Hno|done].
    + intros m u w Hi [Hu|[-> ->]]%He Hw; [by eapply E|]. apply Hf; [|by apply (proj2 (Hhash covered)), Hc].
      intros a b Ha Hb. apply (proj2 (Hhash covered)), Hc in Ha, Hb. by apply Hi.
  - apply Hstay. intros t Ht%Hc%(proj2 (Hhash covered)). rewrite Hp in Ht. by apply elem_of_nil in Ht.
Qed.

Lemma reindex_done ns : ∀ D st st', NoDup ns → (∀ n, n ∈ ns → n ∉ D) → done_for D D D st → reindex_nodes fuel rnd hash st cov text order ns = Some st' →
  done_for (list_to_set ns ∪ D) (list_to_set ns ∪ D) (list_to_set ns ∪ D) st'.
Proof using All.
  induction ns as [|n ns IH]; intros D st st' Hnd Hns H; cbn [reindex_nodes].
  { intros [= <-]. by rewrite list_to_set_nil, union_empty_l_L. }
  apply NoDup_cons in Hnd as [Hn Hnd]. assert (n ∉ D) as HnD by (apply Hns; by left).
  destruct (inherit_coverage fuel hash st n cov text) as [[st1 covered]|] eqn:E1; [|done].
  destruct (inherit_done _ _ _ _ _ _ _ H E1) as [H1 Hc]. destruct H1 as [U1 (M1 & Gs1 & G1) I1 L1 R1].
  destruct (align _ _ _ st1 n left_comp false order covered) as [st2|] eqn:E2; [|done].
  destruct (align_does D st1 M1 Gs1 n left_comp false covered st2 G1 U1 (or_introl eq_refl) L1 HnD Hc E2) as (L2 & (Gs2 & G2) & U2 & O2).
  destruct (align _ _ _ st2 n right_comp true order covered) as [st3|] eqn:E3; [|done].
  assert (part_of D st2 right_comp (λ a b, comes_before st0 b a)) as R2 by (eapply part_ext; [|exact R1]; intros x y; by apply O2).
  destruct (align_does D st2 M1 Gs2 n right_comp true covered st3 G2 U2 (or_intror (or_introl eq_refl)) R2 HnD Hc E3) as (R3 & (Gs3 & G3) & U3 & O3).
  intros Hr. assert (done_for ({[n]} ∪ D) ({[n]} ∪ D) ({[n]} ∪ D) st3) as H3.
  { split; [done|by exists M1, Gs3| | |exact R3].
    - intros x y. rewrite O3, O2 by done. apply I1.
    - eapply part_ext; [|exact L2]. intros x y. by apply O3. }
  pose proof (IH _ _ _ Hnd ltac:(intros m Hm; apply not_elem_of_union; split; [by intros ->%elem_of_singleton|apply Hns; by right]) H3 Hr) as HF.
  replace (list_to_set (n :: ns) ∪ D) with (list_to_set ns ∪ ({[n]} ∪ D)) by (rewrite list_to_set_cons; set_solver). exact HF.
Qed.
End Loop.
