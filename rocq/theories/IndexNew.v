(** The first update of a new graph. *)
From stdpp Require Import base list gmap fin_maps.
From Coq Require Import NArith Lia.
From Verif Require Import KeySer KeySerSpec SortedMap Types SymbolTable AnnoMem AnnoSpec AnnoMemProofs AnnoMemQueries Dfs DfsProofs DfsQueries GraphSpec Adjacency AdjacencySpec
  AdjacencyProofs Storage GraphUpdate GraphApply GraphApplyProofs TokenHelper ContextSpec QuickSort Index IndexSpec IndexGood IndexProofs IndexLoop.

(** Components stay *)
Lemma set_keeps st c g c' : is_Some (g_comps st !! c') → is_Some (g_comps (set_comp st c g) !! c').
Proof. unfold set_comp. cbn. rewrite lookup_insert_is_Some'. auto. Qed.
Lemma event_keeps ct cap all st c e st' c' k : ev_step ct cap all st c e = Some (st', c') → is_Some (g_comps st !! k) → is_Some (g_comps st' !! k).
Proof.
  assert (∀ s t l ty cn f, on_edge ct cap st c s t l ty cn f = Some (st', c') → is_Some (g_comps st !! k) → is_Some (g_comps st' !! k)) as Hedge.
  { intros s t l ty cn f. unfold on_edge. destruct (cached_id cap st c s) as [r1 c1]. destruct (cached_id cap st c1 t) as [r2 c2].
    intros Hr Hk. destruct r1 as [i|]; [|by injection Hr as <- <-]. destruct r2 as [j|]; [|by injection Hr as <- <-].
    destruct (ct ty) as [ty'|]; [|by injection Hr as <- <-]. destruct (f _ _) as [g ok]. destruct ok; [|done]. injection Hr as <- <-. by apply set_keeps. }
  destruct e as [n t|n|n ns a v|n ns a|s t l ty cn|s t l ty cn|s t l ty cn ns a v|s t l ty cn ns a]; cbn [ev_step]; try apply Hedge.
  - destruct (am_has_node_name _ _ n); [intros [= <- <-]; done|]. destruct (new_id st) as [i|]; [|done]. cbn [mbind option_bind].
    destruct (am_insert _ _ i node_name_key n) as [a1 ok1]. destruct ok1; [|done]. destruct (am_insert _ a1 i node_type_key t) as [a2 ok2]. destruct ok2; [|done].
    intros [= <- <-]. done.
  - destruct (cached_id cap st c n) as [r c1]. destruct r as [i|]; intros [= <- <-]; [|done]. intros Hk.
    assert (∀ s, is_Some (g_comps s !! k) → is_Some (g_comps (fold_left (del_node_in i) all s) !! k)) as Hf; [|by apply Hf].
    clear; induction all as [|x all IH]; intros s Hs; [done|]. cbn [fold_left]. apply IH. by apply set_keeps.
  - destruct (cached_id cap st c n) as [r c1]. destruct r as [i|]; [|intros [= <- <-]; done]. destruct (am_insert _ _ i _ v) as [a' ok]. destruct ok; [|done]. intros [= <- <-]. done.
  - destruct (cached_id cap st c n) as [r c1]. destruct r as [i|]; intros [= <- <-]; done.
Qed.

(** No event makes a node invalid if everything is indexed anyway. *)
Lemma loop_empty fuel all es : ∀ st c ix st' ix' M Gs, good st M Gs → bounded_cache c → ix_empty ix = true → aql_loop fuel all st c ix es = Some (st', ix') →
  (∃ M' Gs', good st' M' Gs') ∧ ix_empty ix' = true ∧ ∀ k, is_Some (g_comps st !! k) → is_Some (g_comps st' !! k).
Proof.
  induction es as [|[id e] es IH]; intros st c ix st' ix' M Gs H Hc Hx; cbn [aql_loop].
  { intros [= <- <-]. split; [by exists M, Gs|done]. }
  destruct (before_event fuel st ix e) as [ix1|] eqn:Eb; [|done].
  assert (ix1 = ix) as ->. { unfold before_event in Eb. rewrite Hx in Eb. destruct e; congruence. }
  destruct (ev_step aql_ctype 1000 all st c e) as [[st1 c1]|] eqn:Ee; [|done].
  destruct (good_event _ _ _ _ _ _ _ _ _ _ H Hc Ee) as (M1 & Gs1 & H1 & Hc1).
  destruct (after_event fuel st1 ix e) as [ix2|] eqn:Ea; [|done].
  assert (ix_empty ix2 = true) as Hx2.
  { unfold after_event in Ea. destruct e; try (by injection Ea as <-). destruct (aql_ctype _) as [k|]; [|by injection Ea as <-].
    destruct (_ && _); cbn [with_text ix_empty] in Ea; rewrite Hx in Ea; by injection Ea as <-. }
  intros Hr. destruct (IH _ _ _ _ _ _ _ (good_change _ _ _ id H1) Hc1 Hx2 Hr) as (HG & HX & HK).
  split_and!; [done|done|]. intros k Hk. apply HK. cbn. by eapply event_keeps.
Qed.

Lemma dec_cov st1 c : c ∈ filter (λ c, c ≠ inherited) (comps_of st1 t_coverage None) ↔ is_Some (g_comps st1 !! c) ∧ c.1.1 = t_coverage ∧ c ≠ inherited.
Proof. rewrite elem_of_list_filter, comps_of_in. naive_solver. Qed.
Lemma dec_text st1 c : c ∈ filter (λ c, c ≠ inherited) (comps_of st1 t_coverage None) ++ comps_of st1 t_dominance None ↔
  is_Some (g_comps st1 !! c) ∧ (c.1.1 = t_coverage ∧ c ≠ inherited ∨ c.1.1 = t_dominance).
Proof. rewrite elem_of_app, dec_cov, comps_of_in. naive_solver. Qed.

(** Everything derived is removed. *)
Lemma clear_comp_good st M Gs c : good st M Gs → ∃ Gs', good (clear_comp st c) M Gs' ∧ ∀ x y, ¬ edge_in (clear_comp st c) c x y.
Proof.
  intros H. pose proof (good_step_comp st M Gs c ClearEdges _ true H eq_refl I) as HG. eexists. split; [exact HG|].
  intros x y He. apply (edge_in_g _ _ _ _ _ _ HG) in He. rewrite decide_True in He by done. cbn in He. by apply elem_of_empty in He.
Qed.
Lemma clear_same st c : derived c → same_user st (clear_comp st c).
Proof. intros Hc. split; [done|]. intros k Hk. apply set_other. congruence. Qed.
Lemma clear_all st M Gs ix ns : good st M Gs → ix_empty ix = true →
  same_user st (clear_index st ix ns) ∧ (∃ Gs', good (clear_index st ix ns) M Gs') ∧ ∀ c x y, derived c → ¬ edge_in (clear_index st ix ns) c x y.
Proof.
  intros H Hx. unfold clear_index. rewrite Hx. cbn [fold_left].
  destruct (clear_comp_good _ _ _ left_comp H) as (G1 & H1 & E1). destruct (clear_comp_good _ _ _ right_comp H1) as (G2 & H2 & E2).
  destruct (clear_comp_good _ _ _ inherited H2) as (G3 & H3 & E3). split_and!.
  - eapply same_trans; [apply (clear_same st left_comp); by left|]. eapply same_trans; [apply (clear_same _ right_comp); by right; left|].
    apply (clear_same _ inherited). by right; right.
  - by exists G3.
  - intros c x y [->|[->| ->]]; [|  |apply E3].
    + unfold clear_comp at 1. rewrite edge_set_other by done. unfold clear_comp at 1. rewrite edge_set_other by done. apply E1.
    + unfold clear_comp at 1. rewrite edge_set_other by done. apply E2.
Qed.

Lemma index_from (st0 st : gstate) D : same_user st0 st → (∀ n t, text_of st0 n t → n ∈ D) → done_for st0 D D D st → index_correct st.
Proof.
  intros HS HD [_ _ HI HL HR].
  assert (∀ c first first', (∀ a b, first' a b ↔ first a b) → part_of st0 D st c first → aligned_by st c first') as Hal.
  { intros c first first' Hf (A & B & C & E). split.
    - intros n t He. apply (same_text_of HS). by apply A.
    - intros n t Ht. apply (same_text_of HS) in Ht. eapply B; [by eapply HD|done].
    - done.
    - intros n t u H1 H2 H3. apply (same_one_text HS) in H1. apply (same_text_of HS) in H3. destruct (E n t u H1 H2 H3) as [?|?]; [by left|right; by apply Hf]. }
  split.
  - intros n t. rewrite HI, (same_text_of HS), (same_coverage HS). split; [naive_solver|]. intros [H1 H2]. split_and!; [by eapply HD|done|done].
  - eapply Hal; [|exact HL]. intros a b. apply (same_before HS).
  - eapply Hal; [|exact HR]. intros a b. apply (same_before HS).
Qed.

Section New.
Context (fuel : nat) (rnd : nat → nat) (hash : gset N → list N) (optimize : adj → storage) (Hhash : hash_order hash).

Lemma same_order_ok st st' g a b : same_user st st' → order_ok optimize st' → g_comps st !! order_comp = Some g →
  gs_is_connected (optimize g) a b 1 Unbounded = true ↔ comes_before st a b.
Proof using.
  intros HS Ho Hg. rewrite <- (same_before HS). apply Ho. by rewrite (proj2 HS _ derived_order).
Qed.
Lemma same_acyclic st st' : same_user st st' → order_acyclic st' → order_acyclic st.
Proof using. intros HS Ha a Hb. apply (Ha a). by apply (same_before HS). Qed.
Lemma same_apart st st' : same_user st st' → tokens_apart st' → tokens_apart st.
Proof using. intros HS Ha a b H1 H2 H3. apply Ha; [by apply (same_token HS)..|by apply (same_reach HS)]. Qed.
Lemma same_typed st st' : same_user st st' → typed st' → typed st.
Proof using. intros HS Ht x y Hxy. apply (same_label HS). apply (Ht x y). by apply (same_text HS). Qed.

(** The labels and edges of the user are not changed by deriving edges. *)
Lemma align_user st n c right order covered st' : derived c → align fuel rnd hash st n c right order covered = Some st' → same_user st st'.
Proof using.
  intros Hc. unfold align. destruct (_ && _); [by intros [= <-]|]. destruct (match g_comps st !! c with Some g => head (adj_out g n) | None => None end); [by intros [= <-]|].
  destruct (sort _ _ _ _) as [l| |]; [|done..]. destruct (if right then last l else head l) as [t|]; [|by intros [= <-]]. intros [= <-].
  split; [done|]. intros k Hk. apply set_other. congruence.
Qed.
Lemma reindex_nodes_user cov text order ns : ∀ st st', reindex_nodes fuel rnd hash st cov text order ns = Some st' → same_user st st'.
Proof using.
  induction ns as [|n ns IH]; intros st st'; cbn [reindex_nodes]; [by intros [= <-]|].
  destruct (inherit_coverage fuel hash st n cov text) as [[st1 covered]|] eqn:E1; [|done].
  destruct (align _ _ _ st1 n left_comp false order covered) as [st2|] eqn:E2; [|done].
  destruct (align _ _ _ st2 n right_comp true order covered) as [st3|] eqn:E3; [|done]. intros Hr%IH.
  eapply same_trans; [|exact Hr]. eapply same_trans; [|eapply align_user; [|exact E3]; by right; left].
  eapply same_trans; [|eapply align_user; [|exact E2]; by left]. unfold inherit_coverage in E1.
  destruct (has_token_helper st); [|done]. destruct (dfs_loop _ _ _ _ _) as [[l s]|]; [|done]. injection E1 as <- <-.
  split; [done|]. intros k Hk. apply set_other. intros ->. apply Hk. by right; right.
Qed.

(** From a state in which the derived edges of the nodes in [D] are right *)
Lemma reindex_correct st1 st st' order ns D :
  same_user st1 st → same_user st1 st' → (∀ a b, gs_is_connected order a b 1 Unbounded = true ↔ comes_before st1 a b) → order_acyclic st1 → tokens_apart st1 →
  NoDup ns → (∀ n, n ∈ ns → n ∉ D) → done_for st1 D D D st → (∀ n t, text_of st1 n t → n ∈ ns ∨ n ∈ D) →
  let cov := filter (λ c, c ≠ inherited) (comps_of st t_coverage None) in
  reindex_nodes fuel rnd hash st cov (cov ++ comps_of st t_dominance None) order ns = Some st' → index_correct st' ∧ ∃ M Gs, good st' M Gs.
Proof using Hhash.
  intros HS HS' Ho Ha Hap Hnd Hns HD Hall cov Hr.
  assert (same_user st st1) as HS1 by by apply same_sym.
  assert (done_for st D D D st) as HD'.
  { destruct HD as [A B C E F]. split; [done|done| | |].
    - intros n t. rewrite C, (same_text_of HS), (same_coverage HS). done.
    - destruct E as (E1 & E2 & E3 & E4). unfold part_of. split_and!; [|  |done|].
      + intros n t He. rewrite (same_text_of HS). by apply E1.
      + intros n t Hn. rewrite (same_text_of HS). by apply E2.
      + intros n t u. rewrite (same_one_text HS), (same_text_of HS), (same_before HS). apply E4.
    - destruct F as (E1 & E2 & E3 & E4). unfold part_of. split_and!; [|  |done|].
      + intros n t He. rewrite (same_text_of HS). by apply E1.
      + intros n t Hn. rewrite (same_text_of HS). by apply E2.
      + intros n t u. rewrite (same_one_text HS), (same_text_of HS), (same_before HS). apply E4. }
  pose proof (reindex_done fuel rnd hash Hhash st order) as HL.
  assert (∀ a b, gs_is_connected order a b 1 Unbounded = true ↔ comes_before st a b) as Ho' by (intros a b; by rewrite (same_before HS)).
  specialize (HL Ho' (same_acyclic st st1 HS1 Ha) (same_apart st st1 HS1 Hap) cov _ (dec_cov st) (dec_text st) ns D st st' Hnd Hns HD' Hr).
  split; [|apply HL]. eapply (index_from st); [by eapply same_trans| |exact HL].
  intros n t Ht. apply (same_text_of HS) in Ht. apply Hall in Ht as [?|?]; set_solver.
Qed.

Lemma new_correct st ix st' M Gs : good st M Gs → ix_empty ix = true → is_Some (g_comps st !! order_comp) →
  apply_index fuel rnd hash optimize st ix = Some st' →
  same_user st st' ∧ (order_ok optimize st' → order_acyclic st' → tokens_apart st' → typed st' → index_correct st' ∧ ∃ M Gs, good st' M Gs).
Proof using Hhash.
  intros H Hx [g Hg]. unfold apply_index. rewrite Hx, Hg. remember (with_invalid ix _) as ix1 eqn:Ei.
  assert (ix_empty ix1 = true) as Hx1 by by rewrite Ei. unfold reindex.
  remember (sort_list N.compare (elements (ix_invalid ix1))) as ns eqn:Ens.
  assert (ns ≡ₚ elements (ix_invalid ix1)) as Hns by (subst ns; apply sort_list_perm).
  destruct (clear_all st M Gs ix1 ns H Hx1) as (HS & (G1 & H1) & HE). intros Hr.
  assert (same_user st st') as HS'. { eapply same_trans; [exact HS|]. by eapply reindex_nodes_user. }
  split; [done|]. intros Ho Ha Hap Ht.
  apply (reindex_correct st (clear_index st ix1 ns) st' (optimize g) ns ∅); [done|done| | | | | | | |exact Hr].
  - intros a b. by apply (same_order_ok st st').
  - by apply (same_acyclic st st').
  - by apply (same_apart st st').
  - rewrite Hns. apply NoDup_elements.
  - intros n _. apply not_elem_of_empty.
  - assert (∀ c first, derived c → part_of st ∅ (clear_index st ix1 ns) c first) as Hp.
    { intros c first Hc. unfold part_of. split_and!.
      - intros n t He. by edestruct (HE c n t).
      - intros n t Hn. by apply elem_of_empty in Hn.
      - intros n t u He. by edestruct (HE c n t).
      - intros n t u _ He. by edestruct (HE c n t). }
    split; [done|by exists M, G1| |apply Hp; by left|apply Hp; by right; left].
    intros n t. split; [intros He; edestruct (HE inherited n t); [by right; right|done]|]. intros [Hn _]. by apply elem_of_empty in Hn.
  - intros n t Hn. left. rewrite Hns, elem_of_elements, Ei. cbn [with_invalid ix_invalid]. apply elem_of_union_l. apply elem_of_list_to_set.
    destruct (text_of_first st n t Hn) as [y Hy]. pose proof (same_typed st st' HS' Ht n y Hy) as Hl.
    apply (has_label_iff _ _ _ _ _ H) in Hl as [v Hv]. destruct (gd_inv _ _ _ H) as [leak I].
    apply elem_of_list_fmap. exists (n, node_type_key). split; [done|]. apply (proj2 (exact_search_lemma N.compare _ leak M _ _ _ I)).
    split; [by unfold key_matches; cbn|]. by exists v.
Qed.

Lemma new_graph_lemma b u st : aql_update fuel rnd hash optimize b g_default u = Some st →
  order_ok optimize st → order_acyclic st → tokens_apart st → typed st → index_correct st.
Proof using Hhash.
  unfold aql_update. destruct (aql_loop _ _ _ _ _ _) as [[st1 ix]|] eqn:El; [|done]. intros Hr Ho Ha Hap Ht.
  assert (bounded_cache []) as Hc by by intros n i ?%elem_of_nil.
  destruct (loop_empty fuel _ u _ [] (ix_init g_default) _ _ _ _ good_default Hc eq_refl El) as ((M & Gs & H) & Hx & HK).
  assert (is_Some (g_comps st1 !! order_comp)) as Hk. { apply HK. vm_compute. by eexists. }
  destruct b.
  - apply (new_correct _ _ _ M Gs) in Hr as [_ Hr]; [|by apply good_with_stats|done|].
    + by apply Hr.
    + unfold with_stats. cbn. rewrite lookup_fmap. by apply fmap_is_Some.
  - apply (new_correct _ _ _ M Gs) in Hr as [_ Hr]; [by apply Hr|done|done|done].
Qed.
End New.
