(** What an event changes. *)
From stdpp Require Import base list gmap fin_maps.
From Coq Require Import NArith Lia.
From Verif Require Import KeySer KeySerSpec SortedMap Types SymbolTable AnnoMem AnnoSpec AnnoMemProofs AnnoMemQueries GraphSpec Adjacency AdjacencySpec
  AdjacencyProofs Storage GraphUpdate GraphApply GraphApplySpec GraphApplyProofs TokenHelper Index IndexSpec IndexGood IndexProofs IndexLoop IndexNew.

(** Names are unique *)
Definition inj (M : nmap) : Prop := ∀ i j n, M !! (i, node_name_key) = Some n → M !! (j, node_name_key) = Some n → i = j.
Definition cached_ids (st : gstate) (c : lru) : Prop := ∀ n r, (n, r) ∈ c → r = id_of st n.
Lemma id_iff st M Gs n i : good st M Gs → inj M → id_of st n = Some i ↔ M !! (i, node_name_key) = Some n.
Proof.
  intros H Hi. destruct (gd_inv _ _ _ H) as [leak I]. pose proof (node_id_lemma N.compare node_name_key _ leak M n I) as HN. unfold id_of.
  destruct (am_node_id_from_name _ _ n) as [j|]; split.
  - by intros [= <-].
  - intros Hm. f_equal. by eapply Hi.
  - done.
  - intros Hm. by edestruct (HN i).
Qed.
Lemma cached_is cap st c n r c' : cached_ids st c → cached_id cap st c n = (r, c') → r = id_of st n ∧ cached_ids st c'.
Proof.
  intros Hc. unfold cached_id, lru_get. destruct (list_find _ c) as [[k x]|] eqn:E.
  - intros [= <- <-]. apply list_find_Some in E as (Hk & Hn & _). apply elem_of_list_lookup_2 in Hk. destruct x as [m v]. cbn [fst snd] in *. subst m.
    split; [by apply Hc|]. intros m v' Hin. apply elem_of_cons in Hin as [[= -> ->]|Hin]; [by apply Hc|]. apply elem_of_list_filter in Hin as [_ Hin]. by apply Hc.
  - intros [= <- <-]. split; [done|]. intros m v [[= -> ->]|Hin]%lru_put_in; [done|by apply Hc].
Qed.
Lemma put_id cap st st' c n v : cached_ids st c → v = id_of st' n → (∀ m, m ≠ n → id_of st' m = id_of st m) → cached_ids st' (lru_put cap c n v).
Proof.
  intros Hc -> Ho m r. unfold lru_put. intros Hin. apply elem_of_take in Hin as (k & Hin%elem_of_list_lookup_2 & _).
  apply elem_of_cons in Hin as [[= -> ->]|Hin]; [done|]. apply elem_of_list_filter in Hin as [Hne Hin]. cbn in Hne. rewrite Ho by done. by apply Hc.
Qed.
Lemma ids_same st st' M M' Gs Gs' n : good st M Gs → inj M → good st' M' Gs' → inj M' → (∀ i, M' !! (i, node_name_key) = Some n ↔ M !! (i, node_name_key) = Some n) →
  id_of st' n = id_of st n.
Proof.
  intros H Hi H' Hi' Hn. destruct (id_of st n) as [i|] eqn:E.
  - apply (id_iff _ _ _ _ _ H') ; [done|]. apply Hn. by apply (id_iff _ _ _ _ _ H).
  - destruct (id_of st' n) as [i|] eqn:E'; [|done]. apply (id_iff _ _ _ _ _ H') in E'; [|done]. apply Hn in E'. apply (id_iff _ _ _ _ _ H) in E'; [|done]. congruence.
Qed.
Lemma id_none st M Gs n : good st M Gs → inj M → id_of st n = None ↔ ∀ i, M !! (i, node_name_key) ≠ Some n.
Proof.
  intros H Hi. split.
  - intros E i Hm. apply (id_iff _ _ _ _ _ H Hi) in Hm. congruence.
  - intros Hno. destruct (id_of st n) as [i|] eqn:E; [|done]. apply (id_iff _ _ _ _ _ H Hi) in E. by edestruct Hno.
Qed.

Definition same_edges (st st' : gstate) : Prop := ∀ c x y, edge_in st' c x y ↔ edge_in st c x y.
(** The change of the labels and edges *)
Definition changes (st : gstate) (M : nmap) (e : event) (st' : gstate) (M' : nmap) : Prop :=
  match e with
  | AddNode n t => same_edges st st' ∧ (M' = M ∨ ∃ i, id_of st n = None ∧ (∀ k, M !! (i, k) = None) ∧ M' = <[(i, node_type_key) := t]> (<[(i, node_name_key) := n]> M))
  | DeleteNode n =>
      same_edges st st' ∧ M' = M ∧ id_of st n = None ∨
      ∃ i, id_of st n = Some i ∧ M' = filter (λ x, x.1.1 ≠ i) M ∧ (∀ c x y, edge_in st' c x y → edge_in st c x y) ∧
        ∀ c x y, edge_in st c x y → x ≠ i → y ≠ i → edge_in st' c x y
  | AddNodeLabel n ns a v => same_edges st st' ∧ (M' = M ∨ ∃ i, id_of st n = Some i ∧ M' = <[(i, AnnoKey a ns) := v]> M)
  | DeleteNodeLabel n ns a => same_edges st st' ∧ (M' = M ∨ ∃ i, id_of st n = Some i ∧ M' = delete (i, AnnoKey a ns) M)
  | GraphUpdate.AddEdge s t l ty cn =>
      M' = M ∧ (same_edges st st' ∨ ∃ i j k, id_of st s = Some i ∧ id_of st t = Some j ∧ aql_ctype ty = Some k ∧
        ∀ c x y, edge_in st' c x y ↔ edge_in st c x y ∨ c = (k, l, cn) ∧ x = i ∧ y = j ∧ i ≠ j)
  | DeleteEdge s t l ty cn =>
      M' = M ∧ (same_edges st st' ∨ ∃ i j k, id_of st s = Some i ∧ id_of st t = Some j ∧ aql_ctype ty = Some k ∧
        ∀ c x y, edge_in st' c x y ↔ edge_in st c x y ∧ ¬ (c = (k, l, cn) ∧ x = i ∧ y = j))
  | AddEdgeLabel _ _ _ _ _ _ _ _ | DeleteEdgeLabel _ _ _ _ _ _ _ => M' = M ∧ same_edges st st'
  end.
Lemma same_edges_comps st st' : g_comps st' = g_comps st → same_edges st st'.
Proof. intros E c x y. unfold edge_in. by rewrite E. Qed.

Lemma del_fold_edges i all : ∀ st M Gs, good st M Gs →
  let st' := fold_left (del_node_in i) all st in
  (∃ Gs', good st' M Gs') ∧ (∀ c x y, edge_in st' c x y → edge_in st c x y) ∧ ∀ c x y, edge_in st c x y → x ≠ i → y ≠ i → edge_in st' c x y.
Proof.
  induction all as [|k all IH]; intros st M Gs H; cbn [fold_left]; cbv zeta; [by split; [exists Gs|]|].
  pose proof (good_step_comp st M Gs k (DelNode i) _ true H eq_refl I) as H1. fold (del_node_in i st k) in H1.
  destruct (IH _ _ _ H1) as (HG & HD & HK). split_and!; [done| |].
  - intros c x y He%HD. apply (edge_in_g _ _ _ _ _ _ H1) in He. apply (edge_in_g _ _ _ _ _ _ H). destruct (decide (c = k)) as [->|]; [|done].
    cbn in He. by apply elem_of_filter in He as [_ He].
  - intros c x y He Hx Hy. apply HK; [|done|done]. apply (edge_in_g _ _ _ _ _ _ H1). apply (edge_in_g _ _ _ _ _ _ H) in He. destruct (decide (c = k)) as [->|]; [|done].
    cbn. by apply elem_of_filter.
Qed.

Lemma event_changes cap all st M Gs c e st' c' : good st M Gs → inj M → bounded_cache c → cached_ids st c →
  (∀ n ns a v, e = AddNodeLabel n ns a v → AnnoKey a ns ≠ node_name_key) → (∀ n ns a, e = DeleteNodeLabel n ns a → AnnoKey a ns ≠ node_name_key) →
  ev_step aql_ctype cap all st c e = Some (st', c') →
  ∃ M' Gs', good st' M' Gs' ∧ inj M' ∧ bounded_cache c' ∧ cached_ids st' c' ∧ changes st M e st' M'.
Proof.
  intros H Hi Hb Hc Hl1 Hl2. destruct (gd_inv _ _ _ H) as [leak I].
  assert (∀ r n c1, cached_id cap st c n = (r, c1) → r = id_of st n ∧ cached_ids st c1 ∧ bounded_cache c1) as Hid.
  { intros r n c1 E. destruct (cached_is _ _ _ _ _ _ Hc E). destruct (bounded_cached _ _ _ _ _ _ _ _ H Hb E). done. }
  assert (∀ n i, id_of st n = Some i → (i < node_bound)%N) as Hbd.
  { intros n i E. apply (id_iff _ _ _ _ _ H Hi) in E. apply (gd_items _ _ _ H i node_name_key). by rewrite E. }
  assert (∀ s t l ty cn f, on_edge aql_ctype cap st c s t l ty cn f = Some (st', c') →
    (st' = st ∨ ∃ i j k g, id_of st s = Some i ∧ id_of st t = Some j ∧ aql_ctype ty = Some k ∧ f (writable st (k, l, cn)) (Edge i j) = (g, true) ∧ st' = set_comp st (k, l, cn) g)
    ∧ cached_ids st c' ∧ bounded_cache c') as Hedge.
  { intros s t l ty cn f. unfold on_edge. destruct (cached_id cap st c s) as [r1 c1] eqn:E1. destruct (Hid _ _ _ E1) as (-> & Hc1 & Hb1).
    destruct (cached_id cap st c1 t) as [r2 c2] eqn:E2. destruct (cached_is _ _ _ _ _ _ Hc1 E2) as [-> Hc2]. destruct (bounded_cached _ _ _ _ _ _ _ _ H Hb1 E2) as [_ Hb2].
    intros Hr. assert (Some (st, c2) = Some (st', c') → (st' = st ∨ ∃ i j k g, id_of st s = Some i ∧ id_of st t = Some j ∧ aql_ctype ty = Some k ∧
      f (writable st (k, l, cn)) (Edge i j) = (g, true) ∧ st' = set_comp st (k, l, cn) g) ∧ cached_ids st c' ∧ bounded_cache c') as Hs.
    { intros [= <- <-]. split_and!; [by left|done|done]. }
    destruct (id_of st s) as [i|]; [|by apply Hs]. destruct (id_of st t) as [j|]; [|by apply Hs]. destruct (aql_ctype ty) as [k|]; [|by apply Hs].
    destruct (f _ _) as [g ok] eqn:Ef. destruct ok; [|done]. injection Hr as <- <-. split_and!; [|done|done]. right. exists i, j, k, g. done. }
  assert (∀ k l cn g o, adj_step (writable st (k, l, cn)) o = (g, true) → op_ids_ok o → st' = set_comp st (k, l, cn) g →
    good st' M (λ c', if decide (c' = (k, l, cn)) then graph_step (Gs (k, l, cn)) o true else Gs c')) as Hstep.
  { intros k l cn g o Hs Ho ->. by apply good_step_comp. }
  destruct e as [n t|n|n ns a v|n ns a|s t l ty cn|s t l ty cn|s t l ty cn ns a v|s t l ty cn ns a]; cbn [ev_step changes].
  - destruct (am_has_node_name _ _ n) eqn:Eh. { intros [= <- <-]. exists M, Gs. split_and!; [done..| |by left]. by apply same_edges_comps. }
    destruct (new_id st) as [i|] eqn:En; [|done]. cbn [mbind option_bind].
    destruct (am_insert _ (g_node_annos st) i node_name_key n) as [a1 ok1] eqn:E1. destruct ok1; [|done].
    destruct (am_insert _ a1 i node_type_key t) as [a2 ok2] eqn:E2. destruct ok2; [|done]. intros [= <- <-].
    pose proof (AnnoMemProofs.inv_insert _ _ _ _ _ _ _ _ _ I E1) as I1. cbn in I1.
    pose proof (AnnoMemProofs.inv_insert _ _ _ _ _ _ _ _ _ I1 E2) as I2. cbn in I2. pose proof (new_id_bound _ _ En) as Hbi.
    pose proof (new_id_fresh _ _ _ _ I En) as Hf.
    assert (∀ m, M !! (m, node_name_key) ≠ Some n) as Hno.
    { intros m Hm. assert (am_has_node_name node_name_key (g_node_annos st) n = true) as Ht; [|congruence].
      apply (has_node_name_lemma N.compare node_name_key _ leak M n I). by exists m. }
    remember (<[(i, node_type_key) := t]> (<[(i, node_name_key) := n]> M)) as M' eqn:EM.
    assert (∀ j, M' !! (j, node_name_key) = if decide (j = i) then Some n else M !! (j, node_name_key)) as HM'.
    { intros j. rewrite EM, lookup_insert_ne by (intros [= _ E]). destruct (decide (j = i)) as [->|]; [by rewrite lookup_insert|]. by rewrite lookup_insert_ne by congruence. }
    assert (good (set_annos st a2) M' Gs) as H'.
    { apply (good_annos st M); [done|by exists leak|]. intros j k Hj. destruct (decide (j = i)) as [->|Hne]; [done|].
      rewrite EM, !lookup_insert_ne in Hj by congruence. by apply (gd_items _ _ _ H j k). }
    assert (inj M') as Hi'. { intros j1 j2 m. rewrite !HM'. repeat case_decide; [congruence|intros [= <-] Hm; by edestruct Hno|intros Hm [= <-]; by edestruct Hno|apply Hi]. }
    exists M', Gs. split_and!; [done|done| | | |].
    + apply bounded_put; [done|]. by intros ? [= <-].
    + apply (put_id _ st); [done| |].
      * symmetry. apply (id_iff _ _ _ _ _ H' Hi'). rewrite HM'. by rewrite decide_True.
      * intros m Hm. eapply ids_same; [exact H|done|exact H'|done|]. intros j. rewrite HM'. case_decide as Hj; [|done]. subst j. rewrite (Hf node_name_key).
        split; congruence.
    + by apply same_edges_comps.
    + right. exists i. split_and!; [|done|done]. by apply (id_none _ _ _ _ H Hi).
  - destruct (cached_id cap st c n) as [r c1] eqn:E1. destruct (Hid _ _ _ E1) as (-> & Hc1 & Hb1).
    destruct (id_of st n) as [i|] eqn:Ei. 2:{ intros [= <- <-]. exists M, Gs. split_and!; [done..|]. left. split_and!; [|done|done]. by apply same_edges_comps. }
    destruct (am_remove_item (g_node_annos st) i) as [a' b] eqn:Er. intros [= <- <-].
    destruct (inv_remove_item _ _ _ _ _ _ _ I Er) as [I' _]. remember (filter (λ x : N * anno_key * bytes, x.1.1 ≠ i) M) as M' eqn:EM.
    assert (good (set_annos st a') M' Gs) as Ha.
    { apply (good_annos st M); [done|by exists leak|]. rewrite EM. intros j k [v [Hv _]%map_filter_lookup_Some]. by apply (gd_items _ _ _ H j k). }
    destruct (del_fold_edges i all _ _ _ Ha) as ((Gs' & HG) & HD & HK).
    assert (inj M') as Hi'. { rewrite EM. intros j1 j2 m [Hm1 _]%map_filter_lookup_Some [Hm2 _]%map_filter_lookup_Some. by eapply Hi. }
    exists M', Gs'. split_and!; [done|done|by apply bounded_put| |].
    + apply (put_id _ st); [done| |].
      * symmetry. apply (id_none _ _ _ _ HG Hi'). intros j. rewrite EM. intros [Hm Hj]%map_filter_lookup_Some. cbn in Hj. apply Hj.
        apply (id_iff _ _ _ _ _ H Hi) in Ei. by eapply Hi.
      * intros m Hm. eapply ids_same; [exact H|done|exact HG|done|]. intros j. rewrite EM, map_filter_lookup_Some. cbn. split; [naive_solver|]. intros Hj. split; [done|].
        intros ->. apply (id_iff _ _ _ _ _ H Hi) in Ei. congruence.
    + right. exists i. done.
  - destruct (cached_id cap st c n) as [r c1] eqn:E1. destruct (Hid _ _ _ E1) as (-> & Hc1 & Hb1).
    destruct (id_of st n) as [i|] eqn:Ei. 2:{ intros [= <- <-]. exists M, Gs. split_and!; [done..| |by left]. by apply same_edges_comps. }
    destruct (am_insert _ _ i _ v) as [a' ok] eqn:Ea. destruct ok; [|done]. intros [= <- <-].
    pose proof (AnnoMemProofs.inv_insert _ _ _ _ _ _ _ _ _ I Ea) as I1. cbn in I1. pose proof (Hl1 _ _ _ _ eq_refl) as Hk.
    remember (<[(i, AnnoKey a ns) := v]> M) as M' eqn:EM.
    assert (∀ j, M' !! (j, node_name_key) = M !! (j, node_name_key)) as HM' by (intros j; rewrite EM; apply lookup_insert_ne; congruence).
    assert (good (set_annos st a') M' Gs) as H'.
    { apply (good_annos st M); [done|by exists leak|]. rewrite EM. intros j k Hj.
      destruct (decide (j = i)) as [->|Hne]; [by eapply Hbd|]. rewrite lookup_insert_ne in Hj by congruence. by apply (gd_items _ _ _ H j k). }
    assert (inj M') as Hi' by (intros j1 j2 m; rewrite !HM'; apply Hi).
    exists M', Gs. split_and!; [done|done|done| |by apply same_edges_comps|right; by exists i].
    intros m r Hr. apply Hc1 in Hr. rewrite Hr. symmetry. eapply ids_same; [exact H|done|exact H'|done|]. intros j. by rewrite HM'.
  - destruct (cached_id cap st c n) as [r c1] eqn:E1. destruct (Hid _ _ _ E1) as (-> & Hc1 & Hb1).
    destruct (id_of st n) as [i|] eqn:Ei. 2:{ intros [= <- <-]. exists M, Gs. split_and!; [done..| |by left]. by apply same_edges_comps. }
    destruct (am_remove_annotation _ i _) as [a' ok] eqn:Ea. intros [= <- <-].
    destruct (inv_remove_annotation _ _ _ _ _ _ _ _ I Ea) as [I1 _]. pose proof (Hl2 _ _ _ eq_refl) as Hk.
    remember (delete (i, AnnoKey a ns) M) as M' eqn:EM.
    assert (∀ j, M' !! (j, node_name_key) = M !! (j, node_name_key)) as HM' by (intros j; rewrite EM; apply lookup_delete_ne; congruence).
    assert (good (set_annos st a') M' Gs) as H'.
    { apply (good_annos st M); [done|by exists leak|]. rewrite EM. intros j k [v [_ Hv]%lookup_delete_Some]. apply (gd_items _ _ _ H j k). by rewrite Hv. }
    assert (inj M') as Hi' by (intros j1 j2 m; rewrite !HM'; apply Hi).
    exists M', Gs. split_and!; [done|done|done| |by apply same_edges_comps|right; by exists i].
    intros m r Hr. apply Hc1 in Hr. rewrite Hr. symmetry. eapply ids_same; [exact H|done|exact H'|done|]. intros j. by rewrite HM'.
  - intros Hr. destruct (Hedge _ _ _ _ _ _ Hr) as ([->|(i & j & k & g & Ei & Ej & Ek & Ef & Est)] & Hc' & Hb').
    { exists M, Gs. split_and!; [done..|]. left. by apply same_edges_comps. }
    pose proof (Hstep k l cn g (Adjacency.AddEdge (Edge i j)) Ef (conj (Hbd _ _ Ei) (Hbd _ _ Ej)) Est) as H'.
    eexists M, _. split_and!; [exact H'|done|done|by rewrite Est|done|]. right. exists i, j, k. split_and!; [done..|].
    intros c0 x y. rewrite (edge_in_g _ _ _ _ _ _ H'), (edge_in_g _ _ _ _ _ _ H). destruct (decide (c0 = (k, l, cn))) as [->|]; [|naive_solver].
    cbn. destruct (decide (i = j)); [naive_solver|]. rewrite elem_of_union, elem_of_singleton. split; [intros [[= -> ->]|?]; auto|intros [?|(_ & -> & -> & _)]; auto].
  - intros Hr. destruct (Hedge _ _ _ _ _ _ Hr) as ([->|(i & j & k & g & Ei & Ej & Ek & Ef & Est)] & Hc' & Hb').
    { exists M, Gs. split_and!; [done..|]. left. by apply same_edges_comps. }
    pose proof (Hstep k l cn g (DelEdge (Edge i j)) Ef Logic.I Est) as H'.
    eexists M, _. split_and!; [exact H'|done|done|by rewrite Est|done|]. right. exists i, j, k. split_and!; [done..|].
    intros c0 x y. rewrite (edge_in_g _ _ _ _ _ _ H'), (edge_in_g _ _ _ _ _ _ H). destruct (decide (c0 = (k, l, cn))) as [->|]; [|naive_solver].
    cbn. rewrite elem_of_difference, elem_of_singleton. split; [intros [? Hn]; split; [done|intros (_ & -> & ->); done]|intros [? Hn]; split; [done|intros [= -> ->]; by apply Hn]].
  - intros Hr. destruct (Hedge _ _ _ _ _ _ Hr) as ([->|(i & j & k & g & Ei & Ej & Ek & Ef & Est)] & Hc' & Hb').
    { exists M, Gs. split_and!; [done..|]. by apply same_edges_comps. }
    assert (adj_step (writable st (k, l, cn)) (AddAnno (Edge i j) (AnnoKey a ns) v) = (g, true)) as Hs.
    { cbn. rewrite <- Ef. unfold adj_add_anno. cbn. by destruct (decide _). }
    pose proof (Hstep k l cn g _ Hs Logic.I Est) as H'. eexists M, _. split_and!; [exact H'|done|done|by rewrite Est|done|].
    intros c0 x y. rewrite (edge_in_g _ _ _ _ _ _ H'), (edge_in_g _ _ _ _ _ _ H). by destruct (decide (c0 = (k, l, cn))) as [->|].
  - intros Hr. destruct (Hedge _ _ _ _ _ _ Hr) as ([->|(i & j & k & g & Ei & Ej & Ek & Ef & Est)] & Hc' & Hb').
    { exists M, Gs. split_and!; [done..|]. by apply same_edges_comps. }
    cbn [source target] in Ef. destruct (decide (j ∈ adj_out (writable st (k, l, cn)) i)) as [Hd|Hd].
    + pose proof (Hstep k l cn g (DelAnno (Edge i j) (AnnoKey a ns)) Ef Logic.I Est) as H'. eexists M, _. split_and!; [exact H'|done|done|by rewrite Est|done|].
      intros c0 x y. rewrite (edge_in_g _ _ _ _ _ _ H'), (edge_in_g _ _ _ _ _ _ H). by destruct (decide (c0 = (k, l, cn))) as [->|].
    + injection Ef as <-. exists M, Gs. rewrite Est. split_and!; [by apply good_same|done|done|done|done|].
      intros c0 x y. destruct (decide (c0 = (k, l, cn))) as [->|Hne]; [apply edge_set_same|by apply edge_set_other].
Qed.
