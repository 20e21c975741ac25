(** Updates of a graph with derived edges: nodes which are not invalid keep their text. *)
From stdpp Require Import base list gmap fin_maps.
From Coq Require Import NArith Lia.
From Verif Require Import KeySer KeySerSpec SortedMap Types SymbolTable AnnoMem AnnoSpec AnnoMemProofs AnnoMemQueries Dfs DfsProofs DfsQueries GraphSpec Adjacency AdjacencySpec
  AdjacencyProofs Storage GraphUpdate GraphApply GraphApplySpec GraphApplyProofs TokenHelper ContextSpec Index IndexSpec IndexGood IndexProofs IndexLoop IndexNew IndexEvents.

Definition watched (c : comp) : Prop := c.1.1 = t_coverage ∨ c.1.1 = t_dominance ∨ c = left_comp ∨ c = right_comp.
Lemma watched_in_text k l cn : watched (k, l, cn) → in_text k = true.
Proof. intros [H|[H|[H|H]]]; cbn in H; [subst; done|subst; done|injection H as -> _ _; done|injection H as -> _ _; done]. Qed.

(** Following edges backwards from [n] *)
Lemma invalidate_spec fuel st M Gs ix n ix' : good st M Gs → invalidate fuel st ix n = Some ix' →
  ix_ids ix' = ix_ids ix ∧ ix_empty ix' = ix_empty ix ∧ ix_text ix' = ix_text ix ∧ ix_invalid ix ⊆ ix_invalid ix' ∧ n ∈ ix_invalid ix' ∧
  ((∀ c x y, c ∈ ix_text ix → edge_in st c x y → y ∈ ix_invalid ix → x ∈ ix_invalid ix ∨ x = n) →
   ∀ c x y, c ∈ ix_text ix → edge_in st c x y → y ∈ ix_invalid ix' → x ∈ ix_invalid ix').
Proof.
  intros H. unfold invalidate. destruct (dfs_loop _ _ _ _ _) as [[l s']|] eqn:El; [|done]. cbn [mbind option_bind fst]. intros [= <-]. cbn.
  set (E a b := ∃ c, c ∈ ix_text ix ∧ edge_in st c b a).
  assert (∀ x, x ∈ l.*1 ↔ ∃ p, simple_path E n p x) as Hl.
  { intros x. rewrite (search_found (union_edges adj_in st (elements (ix_text ix))) 0 E fuel (dfs_new_inverse n) n l s' ({[n]} ∪ nodes_of Gs (elements (ix_text ix)))); [| | | | |done|done|done|done|exact El].
    - split; [intros (p & Hp & _); by exists p|]. intros [p Hp]. exists p. split; [done|lia].
    - intros a b. rewrite (union_in_iff _ _ _ _ _ _ H). unfold E. by setoid_rewrite elem_of_elements.
    - intros a b (c & _ & He). apply (edge_in_g _ _ _ _ _ _ H) in He. destruct (gd_ids _ _ _ H c b a He). done.
    - intros a b _ (c & Hc & He). apply elem_of_union_r. apply (in_nodes_of _ _ c); [by apply elem_of_elements|]. apply (edge_in_g _ _ _ _ _ _ H) in He. by apply all_nodes_edge in He as [He _].
    - set_solver. }
  setoid_rewrite <- reachable_simple in Hl. split_and!; [done..|set_solver| |].
  - apply elem_of_union_l, elem_of_list_to_set, Hl. by exists [].
  - intros Hcl c x y Hc He Hy. apply elem_of_union. setoid_rewrite elem_of_union in Hy. rewrite elem_of_list_to_set in Hy |- *. rewrite Hl in Hy |- *. destruct Hy as [[p Hp]|Hy].
    + left. exists (p ++ [x]). eapply walk_app; [exact Hp|]. split; [by exists c|done].
    + destruct (Hcl c x y Hc He Hy) as [Hx| ->]; [by right|left; by exists []].
Qed.

Section Inc.
Context (fuel : nat) (st0 : gstate) (M0 : nmap) (Gs0 : comp → graph) (H0 : good st0 M0 Gs0).
Context (HI : index_correct st0) (Hcn : connects_nodes st0) (Hpl : plain st0).

Record linv (st : gstate) (M : nmap) (ix : index) (del : list bytes) : Prop := {
  li_good : ∃ Gs, good st M Gs;
  li_inj : inj M;
  li_empty : ix_empty ix = false;
  li_old : ∀ i, i ∉ ix_invalid ix → is_Some (M0 !! (i, node_name_key)) →
    M !! (i, node_name_key) = M0 !! (i, node_name_key) ∧ (is_Some (M !! (i, tok_key)) ↔ is_Some (M0 !! (i, tok_key)));
  li_new : ∀ m i, M !! (i, node_name_key) = Some m → M0 !! (i, node_name_key) = Some m ∨ i ∈ ix_invalid ix ∨ M0 !! (i, node_name_key) = None;
  li_ids : ∀ m j, ix_ids ix !! m = Some j → M !! (j, node_name_key) = Some m ∨ m ∈ del;
  li_del : ∀ m i, m ∈ del → M !! (i, node_name_key) ≠ Some m;
  li_agree : ∀ c n y, watched c → n ∉ ix_invalid ix → edge_in st c n y ↔ edge_in st0 c n y;
  li_closed : ∀ c x y, c ∈ ix_text ix → edge_in st c x y → y ∈ ix_invalid ix → x ∈ ix_invalid ix;
  li_text : ∀ c, is_Some (g_comps st0 !! c) → c.1.1 = t_coverage ∨ c.1.1 = t_dominance ∧ c.2 = [] → c ∈ ix_text ix;
  li_unnamed : ∀ c x y, c.1.1 = t_coverage ∨ c.1.1 = t_dominance → c.2 = [] → edge_in st c x y → c ∈ ix_text ix;
  li_types : ∀ c, c ∈ ix_text ix → c.1.1 = t_coverage ∨ c.1.1 = t_dominance
}.

(** Text edges of the current state *)
Lemma text_watched st x y : text_edge st x y → ∃ c, watched c ∧ ¬ derived c ∧ edge_in st c x y.
Proof using. intros [(k & Hk & Hn & He)|(k & Hk & He)]; exists k; (split_and!; [unfold watched; auto|by auto using derived_coverage, derived_dominance|done]). Qed.
Section Facts.
Context {st M ix del} (L : linv st M ix del).
Lemma agree_text n y : n ∉ ix_invalid ix → text_edge st n y ↔ text_edge st0 n y.
Proof using L.
  intros Hn. unfold text_edge, coverage_edge. split.
  - intros [(k & Hk & Hd & He)|(k & Hk & He)]; [left|right]; exists k; (split_and!; [done..|]); apply (li_agree _ _ _ _ L) in He; unfold watched; auto.
  - intros [(k & Hk & Hd & He)|(k & Hk & He)]; [left|right]; exists k; (split_and!; [done..|]); apply (li_agree _ _ _ _ L); unfold watched; auto.
Qed.
Lemma agree_cov n y : n ∉ ix_invalid ix → coverage_edge st n y ↔ coverage_edge st0 n y.
Proof using L.
  intros Hn. unfold coverage_edge. split; intros (k & Hk & Hd & He); exists k; (split_and!; [done..|]); apply (li_agree _ _ _ _ L) in He || apply (li_agree _ _ _ _ L); unfold watched; auto.
Qed.
(** Invalid nodes are closed: all text edges of valid nodes lead to valid nodes. *)
Lemma text_valid n y : n ∉ ix_invalid ix → text_edge st0 n y → y ∉ ix_invalid ix.
Proof using L Hpl.
  intros Hn He Hy. assert (∃ c, c ∈ ix_text ix ∧ watched c ∧ edge_in st0 c n y) as (c & Hc & Hw & Hc0).
  { assert (coverage_edge st0 n y ∨ ∃ c', c'.1.1 = t_dominance ∧ c'.2 = [] ∧ edge_in st0 c' n y) as [(c & Hc & Hd & Hc')|(c & Hc & Hd & Hc')].
    - destruct He as [He|(c & Hc & He)]; [by left|]. by apply (Hpl c).
    - exists c. split_and!; [|unfold watched; auto|done]. apply (li_text _ _ _ _ L); [|by auto]. destruct Hc' as (g & Hg & _). by exists g.
    - exists c. split_and!; [|unfold watched; auto|done]. apply (li_text _ _ _ _ L); [|by auto]. destruct Hc' as (g & Hg & _). by exists g. }
  apply Hn. eapply (li_closed _ _ _ _ L c); [done| |exact Hy]. by apply (li_agree _ _ _ _ L).
Qed.
Lemma walk_valid p : ∀ n t, n ∉ ix_invalid ix → walk (text_edge st0) n p t → t ∉ ix_invalid ix.
Proof using L Hpl. induction p as [|x p IH]; intros n t Hn; cbn; [by intros <-|]. intros [He Hw]. eapply IH; [|exact Hw]. by eapply text_valid. Qed.
Lemma walk_agree p : ∀ n t, n ∉ ix_invalid ix → walk (text_edge st) n p t ↔ walk (text_edge st0) n p t.
Proof using L Hpl.
  induction p as [|x p IH]; intros n t Hn; cbn; [done|]. rewrite (agree_text n x Hn). split.
  - intros [He Hw]. split; [done|]. apply IH; [by eapply text_valid|done].
  - intros [He Hw]. split; [done|]. apply IH; [by eapply text_valid|done].
Qed.
Lemma derived_valid c n t : derived c → n ∉ ix_invalid ix → edge_in st0 c n t → text_of st0 n t ∧ t ∉ ix_invalid ix.
Proof using L Hpl HI.
  intros Hc Hn He. assert (text_of st0 n t) as Ht.
  { destruct Hc as [->|[->| ->]]; [by apply (al_text _ _ _ (ic_left _ HI))|by apply (al_text _ _ _ (ic_right _ HI))|by apply (ic_inherited _ HI) in He as [? _]]. }
  split; [done|]. destruct Ht as (_ & _ & p & Hp). by eapply walk_valid.
Qed.
Lemma watched_valid c n t : watched c → n ∉ ix_invalid ix → edge_in st0 c n t → t ∉ ix_invalid ix.
Proof using L Hpl HI.
  intros Hw Hn He. destruct (decide (c = inherited)) as [->|Hni]; [eapply derived_valid; [by right; right|done|done]|].
  destruct Hw as [Hc|[Hc|[->| ->]]].
  - apply (text_valid n); [done|]. left. by exists c.
  - apply (text_valid n); [done|]. right. by exists c.
  - eapply derived_valid; [by left|done|done].
  - eapply derived_valid; [by right; left|done|done].
Qed.

(** More invalid nodes *)
Lemma linv_grow ix' : ix_empty ix' = ix_empty ix → ix_text ix' = ix_text ix → ix_invalid ix ⊆ ix_invalid ix' →
  (∀ m j, ix_ids ix' !! m = Some j → M !! (j, node_name_key) = Some m ∨ m ∈ del) →
  (∀ c x y, c ∈ ix_text ix' → edge_in st c x y → y ∈ ix_invalid ix' → x ∈ ix_invalid ix') → linv st M ix' del.
Proof using L.
  intros He Ht Hs Hids Hcl. destruct L as [A B C D E F G J K T U W]. split; [done|done|congruence| | |done|done| |done| | |]; rewrite ?Ht; [| | |done|done|done].
  - intros i Hi. apply D. clear - Hi Hs. set_solver.
  - intros m i Hm. destruct (E m i Hm) as [?|[?|?]]; auto.
  - intros c n y Hw Hn. apply J; [done|]. clear - Hn Hs. set_solver.
Qed.
End Facts.

Lemma ix_id_spec st M Gs ix (del : list bytes) n j ix' : good st M Gs → inj M → (∀ m j, ix_ids ix !! m = Some j → M !! (j, node_name_key) = Some m ∨ m ∈ del) →
  (∀ m i, m ∈ del → M !! (i, node_name_key) ≠ Some m) → ix_id st ix n = Some (j, ix') →
  ix_empty ix' = ix_empty ix ∧ ix_text ix' = ix_text ix ∧ ix_invalid ix' = ix_invalid ix ∧
  (∀ m j, ix_ids ix' !! m = Some j → M !! (j, node_name_key) = Some m ∨ m ∈ del) ∧ (∀ i, id_of st n = Some i → i = j).
Proof using.
  intros H Hi Hids Hdel. unfold ix_id. destruct (ix_ids ix !! n) as [i|] eqn:E.
  - intros [= <- <-]. split_and!; [done..|]. intros k Hk. apply (id_iff _ _ _ _ _ H Hi) in Hk.
    destruct (Hids n i E) as [Hm|Hd]; [by eapply Hi|]. by edestruct (Hdel n k Hd).
  - destruct (am_node_id_from_name _ _ n) as [i|] eqn:Ei; [|done]. intros [= <- <-]. split_and!; [done..| |].
    + intros m k. cbn. destruct (decide (m = n)) as [->|Hne].
      * rewrite lookup_insert. intros [= <-]. left. by apply (id_iff _ _ _ _ _ H Hi).
      * rewrite lookup_insert_ne by done. apply Hids.
    + intros k Hk. unfold id_of in Hk. congruence.
Qed.
(** A name is made invalid; one more edge may come from its node *)
Lemma invalidate_name_spec st M Gs ix (del : list bytes) n ix' : good st M Gs → inj M → (∀ m j, ix_ids ix !! m = Some j → M !! (j, node_name_key) = Some m ∨ m ∈ del) →
  (∀ m i, m ∈ del → M !! (i, node_name_key) ≠ Some m) → invalidate_name fuel st ix n = Some ix' →
  ix_empty ix' = ix_empty ix ∧ ix_text ix' = ix_text ix ∧ ix_invalid ix ⊆ ix_invalid ix' ∧
  (∀ m j, ix_ids ix' !! m = Some j → M !! (j, node_name_key) = Some m ∨ m ∈ del) ∧ (∀ i, id_of st n = Some i → i ∈ ix_invalid ix') ∧
  ((∀ c x y, c ∈ ix_text ix → edge_in st c x y → y ∈ ix_invalid ix → x ∈ ix_invalid ix ∨ id_of st n = Some x) →
   ∀ c x y, c ∈ ix_text ix → edge_in st c x y → y ∈ ix_invalid ix' → x ∈ ix_invalid ix').
Proof using.
  intros H Hi Hids Hdel. unfold invalidate_name. destruct (ix_id st ix n) as [[i ix1]|] eqn:E; [|done]. intros Hv.
  destruct (ix_id_spec _ _ _ _ _ _ _ _ H Hi Hids Hdel E) as (E1 & E2 & E3 & E4 & E5).
  destruct (invalidate_spec _ _ _ _ _ _ _ H Hv) as (V1 & V2 & V3 & V4 & V5 & V6). split_and!; [congruence|congruence|by rewrite <- E3|by rewrite V1| |].
  - intros k Hk. by rewrite (E5 k Hk).
  - intros Hcl. rewrite <- E2. apply V6. rewrite E2, E3. intros c x y Hc Hxy Hy. destruct (Hcl c x y Hc Hxy Hy) as [?|Hx]; [by left|right; by apply E5].
Qed.

Lemma linv_edges st st' M M' ix del : linv st M ix del → same_edges st st' → (∃ Gs, good st' M' Gs) → inj M' →
  (∀ i, i ∉ ix_invalid ix → is_Some (M0 !! (i, node_name_key)) →
    M' !! (i, node_name_key) = M0 !! (i, node_name_key) ∧ (is_Some (M' !! (i, tok_key)) ↔ is_Some (M0 !! (i, tok_key)))) →
  (∀ m i, M' !! (i, node_name_key) = Some m → M0 !! (i, node_name_key) = Some m ∨ i ∈ ix_invalid ix ∨ M0 !! (i, node_name_key) = None) →
  (∀ m j, ix_ids ix !! m = Some j → M' !! (j, node_name_key) = Some m ∨ m ∈ del) → (∀ m i, m ∈ del → M' !! (i, node_name_key) ≠ Some m) →
  linv st' M' ix del.
Proof using.
  intros L He Hg Hi A B C D. destruct L as [? ? ? ? ? ? ? J K T U W]. split; [done..| | |done| |done].
  - intros c n y Hw Hn. rewrite (He c n y). by apply J.
  - intros c x y Hc Hxy. apply (He c x y) in Hxy. by eapply K.
  - intros c x y H1 H2 Hxy. apply (He c x y) in Hxy. by eapply U.
Qed.

(** Before an event *)
Lemma invalidate_name_ok st M ix del n ix' : linv st M ix del → invalidate_name fuel st ix n = Some ix' →
  linv st M ix' del ∧ ix_text ix' = ix_text ix ∧ ix_invalid ix ⊆ ix_invalid ix' ∧ ∀ i, id_of st n = Some i → i ∈ ix_invalid ix'.
Proof using.
  intros L Hv. destruct (li_good _ _ _ _ L) as [Gs H].
  destruct (invalidate_name_spec _ _ _ _ _ _ _ H (li_inj _ _ _ _ L) (li_ids _ _ _ _ L) (li_del _ _ _ _ L) Hv) as (V1 & V2 & V3 & V4 & V5 & V6). split_and!; [|done..].
  apply (linv_grow L); [done..|]. rewrite V2. apply V6. intros c x y Hc Hxy Hy. left. by eapply (li_closed _ _ _ _ L).
Qed.
Lemma before_ok st M ix del e ix' : linv st M ix del → before_event fuel st ix e = Some ix' →
  linv st M ix' del ∧
  match e with
  | DeleteNode n => ∀ i, id_of st n = Some i → i ∈ ix_invalid ix'
  | DeleteEdge s t l ty cn => ∀ i k, id_of st s = Some i → aql_ctype ty = Some k → in_text k = true → i ∈ ix_invalid ix'
  | _ => ix' = ix
  end.
Proof using.
  intros L. unfold before_event. destruct e as [n t|n|n ns a v|n ns a|s t l ty cn|s t l ty cn|s t l ty cn ns a v|s t l ty cn ns a]; try (intros [= <-]; done).
  - rewrite (li_empty _ _ _ _ L). destruct (ix_id st ix n) as [[i ix1]|] eqn:E; [|done].
    destruct (li_good _ _ _ _ L) as [Gs H]. destruct (ix_id_spec _ _ _ _ _ _ _ _ H (li_inj _ _ _ _ L) (li_ids _ _ _ _ L) (li_del _ _ _ _ L) E) as (E1 & E2 & E3 & E4 & E5).
    assert (linv st M ix1 del) as L1.
    { apply (linv_grow L); [done|done|by rewrite E3|done|]. rewrite E2, E3. exact (li_closed _ _ _ _ L). }
    destruct (decide (i ∈ ix_invalid ix1)) as [Hi|Hi]; intros Hv.
    + injection Hv as <-. split; [done|]. intros k Hk. by rewrite (E5 k Hk).
    + destruct (invalidate_spec _ _ _ _ _ _ _ H Hv) as (V1 & V2 & V3 & V4 & V5 & V6). split.
      * apply (linv_grow L1); [done|done|done|rewrite V1; exact E4|]. rewrite V3. apply V6. intros c x y Hc Hxy Hy. left. by eapply (li_closed _ _ _ _ L1).
      * intros k Hk. by rewrite (E5 k Hk).
  - rewrite (li_empty _ _ _ _ L). destruct (aql_ctype ty) as [k|] eqn:Ek; [|intros [= <-]; split; [done|]; intros i k ? [=]].
    unfold invalidate_edge. destruct (in_text k) eqn:Et.
    + destruct (invalidate_name fuel st ix s) as [ix1|] eqn:E1; [|done]. destruct (invalidate_name_ok _ _ _ _ _ _ L E1) as (L1 & _ & S1 & V1).
      destruct (decide (k = t_ordering)) as [Ho|Ho]; intros Hv.
      * destruct (invalidate_name_ok _ _ _ _ _ _ L1 Hv) as (L2 & _ & S2 & V2). split; [done|]. intros i k' Hi [= <-] _. apply S2. by apply V1.
      * injection Hv as <-. split; [done|]. intros i k' Hi [= <-] _. by apply V1.
    + destruct (decide (k = t_ordering)) as [Ho|Ho]; intros Hv.
      * rewrite Ho in Et. discriminate Et.
      * injection Hv as <-. split; [done|]. intros i k' Hi [= <-]. congruence.
Qed.

(** An event, without the invalid nodes of a new edge *)
Definition new_names (del : list bytes) (e : event) : Prop := match e with AddNode n _ => n ∉ del | _ => True end.
Definition del_step (del : list bytes) (e : event) : list bytes := match e with DeleteNode n => n :: del | _ => del end.
Lemma tok_name : tok_key ≠ node_name_key.
Proof using. intros E. apply (f_equal ak_name) in E. discriminate E. Qed.
Lemma tok_type : tok_key ≠ node_type_key.
Proof using. intros E. apply (f_equal ak_name) in E. discriminate E. Qed.
Lemma id0 m i : inj M0 → M0 !! (i, node_name_key) = Some m → id_of st0 m = Some i.
Proof using H0. intros Hi Hm. by apply (id_iff _ _ _ _ _ H0 Hi). Qed.
Lemma event_ok st M Gs c ix del e all st' c' ix' : linv st M ix del → inj M0 → bounded_cache c → cached_ids st c → good st M Gs →
  labels_ok st0 e → new_names del e →
  match e with
  | DeleteNode n => ∀ i, id_of st n = Some i → i ∈ ix_invalid ix
  | DeleteEdge s t l ty cn => ∀ i k, id_of st s = Some i → aql_ctype ty = Some k → in_text k = true → i ∈ ix_invalid ix
  | _ => True
  end →
  ev_step aql_ctype 1000 all st c e = Some (st', c') → after_event fuel st' ix e = Some ix' →
  ∃ M', linv st' M' ix' (del_step del e) ∧ bounded_cache c' ∧ cached_ids st' c'.
Proof using All.
  intros L Hi0 Hb Hc H Hl Hn Hv He Ha. pose proof (li_inj _ _ _ _ L) as Hi.
  destruct (event_changes 1000 all st M Gs c e st' c' H Hi Hb Hc) as (M' & Gs' & H' & Hi' & Hb' & Hc' & Hch); [| |exact He|].
  { intros n ns a v ->. apply Hl. } { intros n ns a ->. apply Hl. }
  exists M'. split; [|done].
  destruct e as [n t|n|n ns a v|n ns a|s t l ty cn|s t l ty cn|s t l ty cn ns a v|s t l ty cn ns a]; cbn [del_step changes after_event] in *.
  - injection Ha as <-. destruct Hch as [Hs Hm]. apply (linv_edges st st' M M'); [done|done|by exists Gs'|done|..].
    all: destruct Hm as [->|(i & Hid & Hf & ->)].
    + exact (li_old _ _ _ _ L).
    + intros j Hj Hold. destruct (li_old _ _ _ _ L j Hj Hold) as [A B]. assert (j ≠ i) as Hne. { intros ->. rewrite (Hf node_name_key) in A. rewrite <- A in Hold. by destruct Hold. }
      rewrite !lookup_insert_ne by congruence. done.
    + exact (li_new _ _ _ _ L).
    + intros m j. destruct (decide (j = i)) as [->|Hne].
      * intros _. destruct (M0 !! (i, node_name_key)) as [x|] eqn:E0; [|by auto]. right; left. destruct (decide (i ∈ ix_invalid ix)) as [|Hx]; [done|].
        destruct (li_old _ _ _ _ L i Hx) as [A _]; [by rewrite E0|]. rewrite (Hf node_name_key) in A. congruence.
      * rewrite !lookup_insert_ne by congruence. apply (li_new _ _ _ _ L).
    + exact (li_ids _ _ _ _ L).
    + intros m j Hj. destruct (li_ids _ _ _ _ L m j Hj) as [Hm|]; [left|by right]. assert (j ≠ i) as Hne by (intros ->; rewrite (Hf node_name_key) in Hm; done).
      by rewrite !lookup_insert_ne by congruence.
    + exact (li_del _ _ _ _ L).
    + intros m j Hm. destruct (decide (j = i)) as [->|Hne].
      * rewrite lookup_insert_ne by (pose proof keys_differ; congruence). rewrite lookup_insert. intros [= ->]. done.
      * rewrite !lookup_insert_ne by congruence. by apply (li_del _ _ _ _ L).
  - injection Ha as <-. destruct Hch as [(Hs & -> & Hid)|(i & Hid & -> & Hd & Hk)].
    { apply (linv_edges st st' M M); [|done|by exists Gs'|done|..].
      - destruct L as [A B C D E F G J K T U W]. split; [done..| | |done|done|done|done|done].
        + intros m j Hj. destruct (F m j Hj) as [?|?]; [by left|right; by right].
        + intros m j [->|Hm]%elem_of_cons; [by apply (id_none _ _ _ _ H Hi)|by apply G].
      - exact (li_old _ _ _ _ L).
      - exact (li_new _ _ _ _ L).
      - intros m j Hj. destruct (li_ids _ _ _ _ L m j Hj) as [?|?]; [by left|right; by right].
      - intros m j [->|Hm]%elem_of_cons; [by apply (id_none _ _ _ _ H Hi)|by apply (li_del _ _ _ _ L)]. }
    pose proof (Hv i Hid) as Hinv. assert (M !! (i, node_name_key) = Some n) as Hmi by by apply (id_iff _ _ _ _ _ H Hi).
    split; [by exists Gs'|done|exact (li_empty _ _ _ _ L)| | | | | | |exact (li_text _ _ _ _ L)| |exact (li_types _ _ _ _ L)].
    + intros j Hj Hold. destruct (li_old _ _ _ _ L j Hj Hold) as [A B]. assert (j ≠ i) as Hne by (intros ->; done).
      assert (∀ k, filter (λ x : N * anno_key * bytes, x.1.1 ≠ i) M !! (j, k) = M !! (j, k)) as Hf.
      { intros k. destruct (M !! (j, k)) as [x|] eqn:E; [by apply map_filter_lookup_Some|]. apply map_filter_lookup_None. by left. }
      by rewrite !Hf.
    + intros m j [Hm _]%map_filter_lookup_Some. by apply (li_new _ _ _ _ L).
    + intros m j Hj. destruct (li_ids _ _ _ _ L m j Hj) as [Hm|]; [|right; by right]. destruct (decide (j = i)) as [->|Hne].
      * right. rewrite Hmi in Hm. injection Hm as ->. by left.
      * left. by apply map_filter_lookup_Some.
    + intros m j [->|Hm]%elem_of_cons [Hx Hj]%map_filter_lookup_Some; [|by eapply (li_del _ _ _ _ L)]. cbn in Hj. apply Hj. by eapply Hi.
    + intros c0 x y Hw Hx. rewrite <- (li_agree _ _ _ _ L c0 x y Hw Hx). split; [apply Hd|]. intros Hxy. apply Hk; [done|by intros ->|].
      intros ->. apply (li_agree _ _ _ _ L c0 x i Hw Hx) in Hxy. by apply (watched_valid L c0 x i Hw Hx) in Hxy.
    + intros c0 x y Hc0 Hxy%Hd. by eapply (li_closed _ _ _ _ L).
    + intros c0 x y H1 H2 Hxy%Hd. by eapply (li_unnamed _ _ _ _ L).
  - injection Ha as <-. destruct Hch as [Hs Hm]. apply (linv_edges st st' M M'); [done|done|by exists Gs'|done|..].
    all: destruct Hm as [->|(i & Hid & ->)]; destruct Hl as [Hk Htk].
    + exact (li_old _ _ _ _ L).
    + intros j Hj Hold. destruct (li_old _ _ _ _ L j Hj Hold) as [A B]. rewrite lookup_insert_ne by congruence. split; [done|].
      destruct (decide ((i, AnnoKey a ns) = (j, tok_key))) as [Et|Hne]; [|by rewrite lookup_insert_ne]. exfalso. assert (i = j) as <- by congruence. apply (f_equal snd) in Et. cbn [snd] in Et.
      pose proof (proj1 (id_iff _ _ _ _ _ H Hi) Hid) as Hmi. rewrite Hmi in A. symmetry in A. apply (id0 _ _ Hi0) in A. pose proof (Htk Et). congruence.
    + exact (li_new _ _ _ _ L).
    + intros m j. rewrite lookup_insert_ne by congruence. apply (li_new _ _ _ _ L).
    + exact (li_ids _ _ _ _ L).
    + intros m j. rewrite lookup_insert_ne by congruence. apply (li_ids _ _ _ _ L).
    + exact (li_del _ _ _ _ L).
    + intros m j. rewrite lookup_insert_ne by congruence. apply (li_del _ _ _ _ L).
  - injection Ha as <-. destruct Hch as [Hs Hm]. apply (linv_edges st st' M M'); [done|done|by exists Gs'|done|..].
    all: destruct Hm as [->|(i & Hid & ->)]; destruct Hl as [Hk Htk].
    + exact (li_old _ _ _ _ L).
    + intros j Hj Hold. destruct (li_old _ _ _ _ L j Hj Hold) as [A B]. rewrite lookup_delete_ne by congruence. split; [done|].
      destruct (decide ((i, AnnoKey a ns) = (j, tok_key))) as [Et|Hne]; [|by rewrite lookup_delete_ne]. exfalso. assert (i = j) as <- by congruence. apply (f_equal snd) in Et. cbn [snd] in Et.
      pose proof (proj1 (id_iff _ _ _ _ _ H Hi) Hid) as Hmi. rewrite Hmi in A. symmetry in A. apply (id0 _ _ Hi0) in A. pose proof (Htk Et). congruence.
    + exact (li_new _ _ _ _ L).
    + intros m j. rewrite lookup_delete_ne by congruence. apply (li_new _ _ _ _ L).
    + exact (li_ids _ _ _ _ L).
    + intros m j. rewrite lookup_delete_ne by congruence. apply (li_ids _ _ _ _ L).
    + exact (li_del _ _ _ _ L).
    + intros m j. rewrite lookup_delete_ne by congruence. apply (li_del _ _ _ _ L).
  - destruct (aql_ctype ty) as [k|] eqn:Ek.
    2:{ injection Ha as <-. destruct Hch as [-> [Hs|(i & j & k & _ & _ & [=] & _)]].
        apply (linv_edges st st' M M); [done|done|by exists Gs'|done|..]; [exact (li_old _ _ _ _ L)|exact (li_new _ _ _ _ L)|exact (li_ids _ _ _ _ L)|exact (li_del _ _ _ _ L)]. }
    set (ix1 := if bool_decide (k = t_dominance ∨ k = t_coverage) && bool_decide (cn = []) then with_text ix (k, l, cn) else ix) in *.
    assert (linv st M ix1 del ∧ ix_invalid ix1 = ix_invalid ix ∧ (k = t_coverage ∨ k = t_dominance → cn = [] → (k, l, cn) ∈ ix_text ix1)) as (L1 & Einv & Hin).
    { unfold ix1. destruct (bool_decide (k = t_dominance ∨ k = t_coverage)) eqn:B1; cbn [andb].
      2:{ split_and!; [done|done|]. intros Hk. apply bool_decide_eq_false in B1. destruct B1. destruct Hk; auto. }
      destruct (bool_decide (cn = [])) eqn:B2. 2:{ split_and!; [done|done|]. intros _ Hcn0. by apply bool_decide_eq_false in B2. }
      apply bool_decide_eq_true in B1, B2. split_and!; [|done|intros _ _; cbn; set_solver].
      destruct L as [A B C D E F G J K T U W]. split; [done..| | | |]; cbn [with_text ix_text ix_invalid].
      - intros c0 x y [->%elem_of_singleton|Hc0]%elem_of_union Hxy; [|by eapply K]. eapply K; [|exact Hxy]. eapply U; [|done|exact Hxy]. cbn. destruct B1; auto.
      - intros c0 H1 H2. apply elem_of_union_r. by apply T.
      - intros c0 x y H1 H2 Hxy. apply elem_of_union_r. by eapply U.
      - intros c0 [->%elem_of_singleton|Hc0]%elem_of_union; [cbn; destruct B1; auto|by apply W]. }
    clearbody ix1. clear Hv. rewrite (li_empty _ _ _ _ L1) in Ha. destruct Hch as [-> Hch].
    assert (linv st' M ix1 del ∧ id_of st' s = id_of st s → linv st' M ix' del) as Hsame.
    { intros [L1' _]. unfold invalidate_edge in Ha.
      destruct (if in_text k then invalidate_name fuel st' ix1 s else Some ix1) as [ix2|] eqn:E2; [|done].
      assert (linv st' M ix2 del) as L2. { destruct (in_text k); [by apply (invalidate_name_ok _ _ _ _ _ _ L1' E2)|by injection E2 as <-]. }
      destruct (decide (k = t_ordering)); [by apply (invalidate_name_ok _ _ _ _ _ _ L2 Ha)|by injection Ha as <-]. }
    assert (∀ n, id_of st' n = id_of st n) as Hids by (intros n; by eapply ids_same).
    destruct Hch as [Hs|(i & j & k0 & Hs & Ht & [= <-] & Hed)].
    { apply Hsame. split; [|done].
      apply (linv_edges st st' M M); [done|done|by exists Gs'|done|..]; [exact (li_old _ _ _ _ L1)|exact (li_new _ _ _ _ L1)|exact (li_ids _ _ _ _ L1)|exact (li_del _ _ _ _ L1)]. }
    destruct (in_text k) eqn:Et.
    + unfold invalidate_edge in Ha. rewrite Et in Ha. destruct (invalidate_name fuel st' ix1 s) as [ix2|] eqn:E2; [|done].
      destruct (invalidate_name_spec _ _ _ _ _ _ _ H' Hi (li_ids _ _ _ _ L1) (li_del _ _ _ _ L1) E2) as (V1 & V2 & V3 & V4 & V5 & V6).
      assert (i ∈ ix_invalid ix2) as Hi2 by (apply V5; by rewrite Hids).
      assert (linv st' M ix2 del) as L2.
      { destruct L1 as [A B C D E F G J K T U W]. split; [by exists Gs'|done|congruence| | |done|done| | | | |]; rewrite ?V2; [| | | |done| |done].
        - intros m Hm. apply D. set_solver.
        - intros m x Hx. destruct (E m x Hx) as [?|[?|?]]; auto.
        - intros c0 x y Hw Hx. rewrite Hed. rewrite <- (J c0 x y Hw) by set_solver. split; [|by auto]. intros [?|(_ & -> & _)]; [done|]. done.
        - apply V6. intros c0 x y Hc0 Hxy Hy. rewrite Hids. apply Hed in Hxy as [Hxy|(_ & -> & _)]; [left; by eapply K|by right].
        - intros c0 x y H1 H2 [Hxy|(-> & _)]%Hed; [by eapply U|]. by apply Hin. }
      destruct (decide (k = t_ordering)); [by apply (invalidate_name_ok _ _ _ _ _ _ L2 Ha)|by injection Ha as <-].
    + apply Hsame. split; [|done]. destruct L1 as [A B C D E F G J K T U W].
      assert (∀ c0 x y, c0.1.1 = t_coverage ∨ c0.1.1 = t_dominance ∨ watched c0 → edge_in st' c0 x y ↔ edge_in st c0 x y) as Hoth.
      { intros c0 x y Hc0. rewrite Hed. split; [|by auto]. intros [?|(-> & _)]; [done|]. assert (watched (k, l, cn)) as Hw by (destruct Hc0 as [?|[?|?]]; unfold watched; auto).
        apply watched_in_text in Hw. congruence. }
      split; [by exists Gs'|done..| | |done| |done].
      * intros c0 x y Hw Hx. rewrite (Hoth c0 x y) by auto. by apply J.
      * intros c0 x y Hc0 Hxy. apply Hoth in Hxy; [by eapply K|]. destruct (W c0 Hc0); auto.
      * intros c0 x y H1 H2 Hxy. apply Hoth in Hxy; [by eapply U|]. destruct H1; auto.
  - injection Ha as <-. destruct Hch as [-> [Hs|(i & j & k & Hs & Ht & Hk & Hed)]].
    { apply (linv_edges st st' M M); [done|done|by exists Gs'|done|..]; [exact (li_old _ _ _ _ L)|exact (li_new _ _ _ _ L)|exact (li_ids _ _ _ _ L)|exact (li_del _ _ _ _ L)]. }
    destruct L as [A B C D E F G J K T U W]. split; [by exists Gs'|done..| | |done| |done].
    + intros c0 x y Hw Hx. rewrite Hed. rewrite <- (J c0 x y Hw Hx). split; [naive_solver|]. intros Hxy. split; [done|]. intros (-> & -> & _). apply Hx.
      apply (Hv i k Hs Hk). by eapply watched_in_text.
    + intros c0 x y Hc0 [Hxy _]%Hed. by eapply K.
    + intros c0 x y H1 H2 [Hxy _]%Hed. by eapply U.
  - injection Ha as <-. destruct Hch as [-> Hs]. apply (linv_edges st st' M M); [done|done|by exists Gs'|done|..]; [exact (li_old _ _ _ _ L)|exact (li_new _ _ _ _ L)|exact (li_ids _ _ _ _ L)|exact (li_del _ _ _ _ L)].
  - injection Ha as <-. destruct Hch as [-> Hs]. apply (linv_edges st st' M M); [done|done|by exists Gs'|done|..]; [exact (li_old _ _ _ _ L)|exact (li_new _ _ _ _ L)|exact (li_ids _ _ _ _ L)|exact (li_del _ _ _ _ L)].
Qed.
End Inc.
