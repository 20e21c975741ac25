(** Histories of updates. *)
From stdpp Require Import base list gmap fin_maps.
From Coq Require Import NArith Lia.
From Verif Require Import KeySer KeySerSpec SortedMap Types SymbolTable AnnoMem AnnoSpec AnnoMemProofs AnnoMemQueries Dfs DfsProofs DfsQueries GraphSpec Adjacency AdjacencySpec
  AdjacencyProofs Storage GraphUpdate GraphApply GraphApplySpec GraphApplyProofs TokenHelper TokenSearchSpec ContextSpec Index IndexSpec IndexGood IndexProofs IndexLoop IndexNew IndexEvents IndexInc.

Definition keeps (e : event) : Prop :=
  (∀ n ns a v, e = AddNodeLabel n ns a v → AnnoKey a ns ≠ node_name_key) ∧ (∀ n ns a, e = DeleteNodeLabel n ns a → AnnoKey a ns ≠ node_name_key).
Lemma labels_keeps st e : labels_ok st e → keeps e.
Proof. intros H. split; intros; subst e; apply H. Qed.
(** Names stay unique *)
Lemma loop_names fuel all es : ∀ st c ix st' ix' M Gs, good st M Gs → inj M → bounded_cache c → cached_ids st c → (∀ e, e ∈ es.*2 → keeps e) →
  aql_loop fuel all st c ix es = Some (st', ix') →
  ∃ M' Gs', good st' M' Gs' ∧ inj M' ∧ ∀ k, is_Some (g_comps st !! k) → is_Some (g_comps st' !! k).
Proof.
  induction es as [|[id e] es IH]; intros st c ix st' ix' M Gs H Hi Hb Hc Hk; cbn [aql_loop].
  { intros [= <- <-]. by exists M, Gs. }
  destruct (before_event fuel st ix e) as [ix1|] eqn:Eb; [|done]. destruct (ev_step aql_ctype 1000 all st c e) as [[st1 c1]|] eqn:Ee; [|done].
  destruct (Hk e) as [K1 K2]; [by left|].
  destruct (event_changes _ _ _ _ _ _ _ _ _ H Hi Hb Hc K1 K2 Ee) as (M1 & Gs1 & H1 & Hi1 & Hb1 & Hc1 & _).
  destruct (after_event fuel st1 ix1 e) as [ix2|] eqn:Ea; [|done]. intros Hr.
  destruct (IH (GState (g_node_annos st1) (g_comps st1) id) c1 ix2 st' ix' M1 Gs1) as (M' & Gs' & H' & Hi' & HK); [by apply good_change|done|done|done| |done|].
  { intros e' He'. apply Hk. by right. }
  exists M', Gs'. split_and!; [done|done|]. intros k Hs. apply HK. cbn. by eapply event_keeps.
Qed.

Lemma good_map st st' M M' Gs Gs' : good st M Gs → good st' M' Gs' → g_node_annos st' = g_node_annos st → M' = M.
Proof.
  intros H H' E. destruct (gd_inv _ _ _ H) as [leak I]. destruct (gd_inv _ _ _ H') as [leak' I']. apply map_eq. intros [i k].
  rewrite <- (get_value_lemma N.compare _ leak M i k I), <- (get_value_lemma N.compare _ leak' M' i k I'). by rewrite E.
Qed.

Lemma clear_nodes_spec c ns : ∀ st M Gs, good st M Gs →
  ∃ Gs', good (clear_nodes ns st c) M Gs' ∧ ∀ x y, edge_in (clear_nodes ns st c) c x y ↔ edge_in st c x y ∧ x ∉ ns ∧ y ∉ ns.
Proof.
  unfold clear_nodes. induction ns as [|n ns IH]; intros st M Gs H; cbn [fold_left].
  - exists Gs. split; [by apply good_same|]. intros x y. rewrite edge_set_same. pose proof (not_elem_of_nil x). pose proof (not_elem_of_nil y). naive_solver.
  - pose proof (good_step_comp st M Gs c (DelNode n) _ true H eq_refl I) as H1. destruct (IH _ _ _ H1) as (Gs' & HG & HE).
    rewrite writable_set, decide_True, set_set in HG, HE by done. exists Gs'. split; [exact HG|]. intros x y. rewrite HE.
    rewrite (edge_in_g _ _ _ _ _ _ H1), (edge_in_g _ _ _ _ _ _ H), decide_True by done. cbn. rewrite elem_of_filter, !not_elem_of_cons. cbn. naive_solver.
Qed.
Lemma clear_nodes_same c ns st : derived c → same_user st (clear_nodes ns st c).
Proof. intros Hc. split; [done|]. intros k Hk. apply set_other. congruence. Qed.
Lemma clear_some st M Gs ix ns : good st M Gs → ix_empty ix = false →
  same_user st (clear_index st ix ns) ∧ (∃ Gs', good (clear_index st ix ns) M Gs') ∧
  ∀ c x y, derived c → edge_in (clear_index st ix ns) c x y ↔ edge_in st c x y ∧ x ∉ ns ∧ y ∉ ns.
Proof.
  intros H Hx. unfold clear_index. rewrite Hx. cbn [fold_left].
  destruct (clear_nodes_spec left_comp ns _ _ _ H) as (G1 & H1 & E1). destruct (clear_nodes_spec right_comp ns _ _ _ H1) as (G2 & H2 & E2).
  destruct (clear_nodes_spec inherited ns _ _ _ H2) as (G3 & H3 & E3). split_and!.
  - eapply same_trans; [apply (clear_nodes_same left_comp ns st); by left|]. eapply same_trans; [apply (clear_nodes_same right_comp ns); by right; left|].
    apply (clear_nodes_same inherited ns). by right; right.
  - by exists G3.
  - intros c x y [->|[->| ->]].
    + unfold clear_nodes at 1. rewrite edge_set_other by done. unfold clear_nodes at 1. rewrite edge_set_other by done. apply E1.
    + unfold clear_nodes at 1. rewrite edge_set_other by done. rewrite E2. unfold clear_nodes at 1. by rewrite edge_set_other.
    + rewrite E3. unfold clear_nodes at 1. rewrite edge_set_other by done. unfold clear_nodes at 1. by rewrite edge_set_other.
Qed.

Lemma invalidate_grow fuel st ix n ix' : invalidate fuel st ix n = Some ix' → ix_invalid ix ⊆ ix_invalid ix'.
Proof. unfold invalidate. destruct (dfs_loop _ _ _ _ _) as [[l s']|]; [|done]. cbn. intros [= <-]. cbn. set_solver. Qed.
Lemma ix_id_grow st ix n i ix' : ix_id st ix n = Some (i, ix') → ix_invalid ix' = ix_invalid ix.
Proof. unfold ix_id. destruct (ix_ids ix !! n); [by intros [= _ <-]|]. destruct (am_node_id_from_name _ _ n); [|done]. by intros [= _ <-]. Qed.
Lemma invalidate_name_grow fuel st ix n ix' : invalidate_name fuel st ix n = Some ix' → ix_invalid ix ⊆ ix_invalid ix'.
Proof. unfold invalidate_name. destruct (ix_id st ix n) as [[i ix1]|] eqn:E; [|done]. rewrite <- (ix_id_grow _ _ _ _ _ E). apply invalidate_grow. Qed.
Lemma invalidate_edge_grow fuel st ix k a b ix' : invalidate_edge fuel st ix k a b = Some ix' → ix_invalid ix ⊆ ix_invalid ix'.
Proof.
  unfold invalidate_edge. destruct (if in_text k then invalidate_name fuel st ix a else Some ix) as [ix1|] eqn:E; [|done].
  assert (ix_invalid ix ⊆ ix_invalid ix1) as H1. { destruct (in_text k); [by eapply invalidate_name_grow|by injection E as <-]. }
  destruct (decide (k = t_ordering)); [|by intros [= <-]]. intros H2%invalidate_name_grow. set_solver.
Qed.
Lemma before_grow fuel st ix e ix' : before_event fuel st ix e = Some ix' → ix_invalid ix ⊆ ix_invalid ix'.
Proof.
  unfold before_event. destruct e as [n t|n|n ns a v|n ns a|s t l ty cn|s t l ty cn|s t l ty cn ns a v|s t l ty cn ns a]; try (by intros [= <-]).
  - destruct (ix_empty ix); [by intros [= <-]|]. destruct (ix_id st ix n) as [[i ix1]|] eqn:E; [|done]. rewrite <- (ix_id_grow _ _ _ _ _ E).
    destruct (decide _); [by intros [= <-]|]. apply invalidate_grow.
  - destruct (ix_empty ix); [by intros [= <-]|]. destruct (aql_ctype ty); [|by intros [= <-]]. apply invalidate_edge_grow.
Qed.
Lemma after_grow fuel st ix e ix' : after_event fuel st ix e = Some ix' → ix_invalid ix ⊆ ix_invalid ix'.
Proof.
  unfold after_event. destruct e as [n t|n|n ns a v|n ns a|s t l ty cn|s t l ty cn|s t l ty cn ns a v|s t l ty cn ns a]; try (by intros [= <-]).
  destruct (aql_ctype ty) as [k|]; [|by intros [= <-]]. set (ix1 := if _ && _ then with_text ix (k, l, cn) else ix).
  assert (ix_invalid ix1 = ix_invalid ix) as <- by (unfold ix1; by destruct (_ && _)). clearbody ix1. destruct (ix_empty ix1); [by intros [= <-]|]. apply invalidate_edge_grow.
Qed.
Lemma loop_grow fuel all es : ∀ st c ix st' ix', aql_loop fuel all st c ix es = Some (st', ix') → ix_invalid ix ⊆ ix_invalid ix'.
Proof.
  induction es as [|[id e] es IH]; intros st c ix st' ix'; cbn [aql_loop]; [by intros [= <- <-]|].
  destruct (before_event fuel st ix e) as [ix1|] eqn:Eb; [|done]. destruct (ev_step aql_ctype 1000 all st c e) as [[st1 c1]|] eqn:Ee; [|done].
  destruct (after_event fuel st1 ix1 e) as [ix2|] eqn:Ea; [|done]. intros Hr%IH. apply before_grow in Eb. apply after_grow in Ea. set_solver.
Qed.
Section Hist.
Context (fuel : nat) (st0 : gstate) (M0 : nmap) (Gs0 : comp → graph) (H0 : good st0 M0 Gs0) (Hi0 : inj M0).
Context (HI : index_correct st0) (Hcn : connects_nodes st0) (Hpl : plain st0).

Lemma init_linv : am_is_empty (g_node_annos st0) = false → linv st0 M0 st0 M0 (ix_init st0) [].
Proof using H0 Hi0.
  intros He. split; cbn [ix_init ix_empty ix_ids ix_invalid ix_text].
  - by exists Gs0.
  - done.
  - done.
  - done.
  - auto.
  - intros m j Hm. by rewrite lookup_empty in Hm.
  - intros m i Hm. by apply elem_of_nil in Hm.
  - done.
  - intros c x y _ _ Hy. by apply elem_of_empty in Hy.
  - intros c Hc [Ht|[Ht Hn]]; rewrite elem_of_union, !elem_of_list_to_set, !comps_of_in; [by right|left]. split_and!; [done..|]. by intros n [= <-].
  - intros c x y Ht Hn (g & Hg & _). rewrite elem_of_union, !elem_of_list_to_set, !comps_of_in. destruct Ht as [Ht|Ht]; [right|left]; (split_and!; [by exists g|done|]); [done|].
    by intros n [= <-].
  - intros c. rewrite elem_of_union, !elem_of_list_to_set, !comps_of_in. naive_solver.
Qed.
(** Both ends of a changed ordering edge are invalid *)
Lemma edge_ends st M Gs ix del s t ix' n i : good st M Gs → linv st0 M0 st M ix del → invalidate_edge fuel st ix t_ordering s t = Some ix' → n = s ∨ n = t →
  id_of st0 n = Some i → i ∈ ix_invalid ix'.
Proof using H0 Hi0.
  intros H L Hv Hn Hi. destruct (decide (i ∈ ix_invalid ix)) as [Hin|Hout]; [by eapply invalidate_edge_grow|].
  apply (id_iff _ _ _ _ _ H0 Hi0) in Hi. destruct (li_old _ _ _ _ _ _ L i Hout) as [A _]; [by rewrite Hi|]. rewrite Hi in A. apply (id_iff _ _ _ _ _ H (li_inj _ _ _ _ _ _ L)) in A.
  unfold invalidate_edge in Hv. cbn [in_text] in Hv. change (in_text t_ordering) with true in Hv. cbn [andb] in Hv.
  destruct (invalidate_name fuel st ix s) as [ix1|] eqn:E1; [|done]. destruct (invalidate_name_ok _ _ _ _ _ _ _ _ _ L E1) as (L1 & _ & S1 & V1).
  rewrite decide_True in Hv by done. destruct (invalidate_name_ok _ _ _ _ _ _ _ _ _ L1 Hv) as (L2 & _ & S2 & V2). destruct Hn as [->| ->]; [by apply S2, V1|by apply V2].
Qed.
Lemma loop_ok all es : ∀ st c ix st' ix' M del, linv st0 M0 st M ix del → bounded_cache c → cached_ids st c →
  (∀ e, e ∈ es.*2 → labels_ok st0 e) → names_once es.*2 → (∀ n t, n ∈ del → AddNode n t ∉ es.*2) →
  aql_loop fuel all st c ix es = Some (st', ix') →
  (∃ M' del', linv st0 M0 st' M' ix' del') ∧ ∀ e n i, e ∈ es.*2 → order_end e n → id_of st0 n = Some i → i ∈ ix_invalid ix'.
Proof using H0 Hi0 HI Hpl Hcn.
  induction es as [|[id e] es IH]; intros st c ix st' ix' M del L Hb Hc Hl Hn Hd; cbn [aql_loop].
  { intros [= <- <-]. split; [by exists M, del|]. by intros e n i ?%elem_of_nil. }
  destruct (before_event fuel st ix e) as [ix1|] eqn:Eb; [|done]. destruct (ev_step aql_ctype 1000 all st c e) as [[st1 c1]|] eqn:Ee; [|done].
  destruct (after_event fuel st1 ix1 e) as [ix2|] eqn:Ea; [|done]. intros Hr.
  destruct (before_ok fuel st0 M0 _ _ _ _ _ _ L Eb) as [L1 Hb1]. destruct (li_good _ _ _ _ _ _ L1) as [Gs H].
  destruct (event_ok fuel st0 M0 Gs0 H0 HI Hcn Hpl st M Gs c ix1 del e all st1 c1 ix2) as (M2 & L2 & Hb2 & Hc2); [done..| | | |exact Ee|exact Ea|].
  - apply Hl. by left.
  - destruct e as [n t| | | | | | |]; cbn; try done. intros Hn'. apply (Hd n t Hn'). by left.
  - destruct e; try done; exact Hb1.
  - assert (∀ n i, order_end e n → id_of st0 n = Some i → i ∈ ix_invalid ix2) as Hends.
    { intros n i Ho Hid. destruct e as [n' t'|m|n' ns a v|n' ns a|s t l ty cn|s t l ty cn|s t l ty cn ns a v|s t l ty cn ns a]; cbn [order_end] in Ho; try done; destruct Ho as [Hty Hnm].
      - destruct (event_changes 1000 all st M Gs c (GraphUpdate.AddEdge s t l ty cn) st1 c1 H (li_inj _ _ _ _ _ _ L1) Hb Hc) as (M' & Gs' & H' & _ & _ & _ & Hch); [| |exact Ee|]; [by intros ? ? ? ? [=]|by intros ? ? ? [=]|].
        destruct Hch as [-> _].
        cbn [after_event] in Ea. rewrite Hty in Ea. change (bool_decide (t_ordering = t_dominance ∨ t_ordering = t_coverage)) with false in Ea. cbn [andb] in Ea. cbv zeta in Ea. cbn [before_event] in Eb. injection Eb as <-. rewrite (li_empty _ _ _ _ _ _ L) in Ea.
        destruct (decide (i ∈ ix_invalid ix)) as [Hin|Hout]; [by eapply invalidate_edge_grow|].
        apply (id_iff _ _ _ _ _ H0 Hi0) in Hid. destruct (li_old _ _ _ _ _ _ L i Hout) as [A _]; [by rewrite Hid|]. rewrite Hid in A. apply (id_iff _ _ _ _ _ H' (li_inj _ _ _ _ _ _ L)) in A.
        unfold invalidate_edge in Ea. change (in_text t_ordering) with true in Ea. cbn match in Ea.
        destruct (invalidate_name fuel st1 ix s) as [ix3|] eqn:E3; [|done]. rewrite decide_True in Ea by done.
        destruct (invalidate_name_spec _ _ _ _ _ _ _ _ H' (li_inj _ _ _ _ _ _ L) (li_ids _ _ _ _ _ _ L) (li_del _ _ _ _ _ _ L) E3) as (V1 & V2 & V3 & V4 & V5 & V6).
        destruct Hnm as [->| ->]; [apply (invalidate_name_grow _ _ _ _ _ Ea), V5, A|].
        destruct (invalidate_name_spec _ _ _ _ _ _ _ _ H' (li_inj _ _ _ _ _ _ L) V4 (li_del _ _ _ _ _ _ L) Ea) as (_ & _ & _ & _ & V7 & _). by apply V7.
      - cbn [before_event] in Eb. rewrite (li_empty _ _ _ _ _ _ L), Hty in Eb. apply (after_grow _ _ _ _ _ Ea). by eapply (edge_ends st M Gs ix del s t ix1 n i). }
    enough ((∃ M' del', linv st0 M0 st' M' ix' del') ∧ ∀ e n i, e ∈ es.*2 → order_end e n → id_of st0 n = Some i → i ∈ ix_invalid ix') as [HA HB].
    { split; [exact HA|]. intros e' n i [->|He']%elem_of_cons Ho Hid; [|by eapply HB]. apply (loop_grow _ _ _ _ _ _ _ _ Hr). by eapply Hends. }
    eapply (IH (GState (g_node_annos st1) (g_comps st1) id) c1 ix2 st' ix' M2 (del_step del e)); [|done|done| | | |exact Hr].
    + eapply (linv_edges st0 M0 st1 _ M2 M2); [exact L2|by apply same_edges_comps| |exact (li_inj _ _ _ _ _ _ L2)|exact (li_old _ _ _ _ _ _ L2)|exact (li_new _ _ _ _ _ _ L2)|exact (li_ids _ _ _ _ _ _ L2)|exact (li_del _ _ _ _ _ _ L2)].
      destruct (li_good _ _ _ _ _ _ L2) as [Gs2 HG2]. exists Gs2. by apply good_change.
    + intros e' He'. apply Hl. by right.
    + intros i j n t Hij H1 H2. apply (Hn (S i) (S j) n t); [lia|done|done].
    + intros n t Hx Hin. destruct e as [n' t'|m|n' ns a v|n' ns a|s t' l ty cn|s t' l ty cn|s t' l ty cn ns a v|s t' l ty cn ns a]; cbn in Hx;
        try (apply (Hd n t Hx); by right).
      apply elem_of_cons in Hx as [->|Hx]; [|apply (Hd n t Hx); by right]. apply elem_of_list_lookup in Hin as [j Hj]. by apply (Hn 0 (S j) m t); [lia|..].
Qed.

Section End.
Context {st M ix del} (L : linv st0 M0 st M ix del).
Lemma text_of_agree n t : n ∉ ix_invalid ix → text_of st n t ↔ text_of st0 n t.
Proof using All.
  intros Hn. destruct (li_good _ _ _ _ _ _ L) as [Gs H].
  assert (n ≠ t → reachable (text_edge st0) n t → text_token st t ↔ text_token st0 t) as Htok.
  { intros Hne [p Hp]. pose proof (walk_valid st0 M0 Hpl L p n t Hn Hp) as Ht.
    assert (∃ y, text_edge st0 y t) as [y Hy].
    { revert n Hne Hp Hn. induction p as [|y p IH]; intros n Hne Hw Hn; [done|]. destruct Hw as [He Hw]. destruct (decide (y = t)) as [->|Hy]; [by exists n|].
      apply (IH y); [done|done|]. by eapply (text_valid st0 M0 Hpl L). }
    destruct (Hcn y t Hy) as [_ Hname]. apply (has_label_iff _ _ _ _ _ H0) in Hname. destruct (li_old _ _ _ _ _ _ L t Ht Hname) as [_ Hk].
    unfold text_token. rewrite (has_label_iff _ _ _ _ _ H), (has_label_iff _ _ _ _ _ H0), Hk. split; intros [A B]; (split; [done|]); intros [z Hz]; apply B; exists z.
    - by apply (agree_cov st0 M0 L t z Ht).
    - by apply (agree_cov st0 M0 L t z Ht). }
  unfold text_of. split.
  - intros (Hne & Ht & p & Hp). apply (walk_agree st0 M0 Hpl L p n t Hn) in Hp. split_and!; [done| |by exists p]. apply Htok; [done|by exists p|done].
  - intros (Hne & Ht & p & Hp). split_and!; [done| |exists p; by apply (walk_agree st0 M0 Hpl L p n t Hn)]. apply Htok; [done|by exists p|done].
Qed.
Lemma cleared_done Gs ns (st1 : gstate) : good st M Gs → (∀ n, n ∈ ns ↔ n ∈ ix_invalid ix) → st1 = clear_index st ix ns →
  (∀ a b, a ∉ ix_invalid ix → b ∉ ix_invalid ix → text_token st0 a → text_token st0 b → text_token st a → text_token st b → comes_before st0 a b ↔ comes_before st a b) →
  let D := nodes_of Gs (map_to_list (g_comps st)).*1 ∖ ix_invalid ix in
  done_for st D D D st1 ∧ ∀ n t, text_of st n t → n ∈ ns ∨ n ∈ D.
Proof using All.
  intros H Hns -> Hord D. destruct (clear_some st M Gs ix ns H (li_empty _ _ _ _ _ _ L)) as (HS & (G1 & H1) & HE).
  assert (∀ n t, n ∉ ix_invalid ix → text_of st n t → n ∈ D) as HinD.
  { intros n t Hn Ht. apply elem_of_difference. split; [|done]. destruct (text_of_first st n t Ht) as [y Hy]. destruct (text_watched st n y Hy) as (c & _ & _ & He).
    apply (in_nodes_of _ _ c).
    - destruct He as (g & Hg & _). apply elem_of_list_fmap. exists (c, g). split; [done|]. by apply elem_of_map_to_list.
    - apply (edge_in_g _ _ _ _ _ _ H) in He. by apply all_nodes_edge in He as [He _]. }
  assert (∀ n t, n ∉ ix_invalid ix → text_of st0 n t → t ∉ ix_invalid ix) as Hval by (intros n t Hn (_ & _ & p & Hp); by eapply (walk_valid st0 M0 Hpl L p)).
  assert (∀ n, n ∈ D → n ∉ ix_invalid ix) as HD by (intros n Hn; apply elem_of_difference in Hn as [_ Hn]; exact Hn).
  assert (∀ c n t, derived c → edge_in (clear_index st ix ns) c n t ↔ n ∉ ix_invalid ix ∧ edge_in st0 c n t) as Hder.
  { intros c n t Hc. rewrite (HE c n t Hc). rewrite !Hns. assert (watched c) as Hw by (unfold watched; destruct Hc as [->|[->| ->]]; auto). split.
    - intros (He & Hn & _). split; [done|]. by apply (li_agree _ _ _ _ _ _ L c n t Hw Hn).
    - intros (Hn & He). split_and!; [by apply (li_agree _ _ _ _ _ _ L c n t Hw Hn)|done|]. by apply (derived_valid st0 M0 HI Hpl L c n t). }
  assert (∀ c (first : gstate → N → N → Prop), derived c → (∀ a b, a ∉ ix_invalid ix → b ∉ ix_invalid ix → text_token st0 a → text_token st0 b → text_token st a → text_token st b → first st0 a b → first st a b) →
    aligned_by st0 c (first st0) → part_of st D (clear_index st ix ns) c (first st)) as Hpart.
  { intros c first Hc Hf Hal. unfold part_of. split_and!.
    - intros n t [Hn He]%(Hder _ _ _ Hc). apply (al_text _ _ _ Hal) in He. apply (text_of_agree n t Hn) in He. split; [by eapply HinD|done].
    - intros n t Hn%HD Ht. apply (text_of_agree n t Hn) in Ht. destruct (al_some _ _ _ Hal n t Ht) as [u Hu]. exists u. by apply (Hder _ _ _ Hc).
    - intros n t u [_ Ht]%(Hder _ _ _ Hc) [_ Hu]%(Hder _ _ _ Hc). by eapply (al_one _ _ _ Hal).
    - intros n t u Hone [Hn He]%(Hder _ _ _ Hc) Hu. pose proof (proj1 (text_of_agree n u Hn) Hu) as Hu0.
      pose proof (al_text _ _ _ Hal _ _ He) as Ht0. pose proof (proj2 (text_of_agree n t Hn) Ht0) as Ht.
      assert (in_one_text st0 n) as Hone0.
      { intros a b Ha Hb. pose proof (proj2 (text_of_agree n a Hn) Ha) as Ha'. pose proof (proj2 (text_of_agree n b Hn) Hb) as Hb'.
        destruct (Hone a b Ha' Hb') as [->|[Hab|Hab]]; [by left|right; left|right; right]; apply Hord; try done; try apply Ha; try apply Hb; try apply Ha'; try apply Hb'; by eapply Hval. }
      destruct (al_first _ _ _ Hal n t u Hone0 He Hu0) as [?|Hff]; [by left|right]. apply Hf; [by eapply Hval|by eapply Hval|apply Ht0|apply Hu0|apply Ht|apply Hu|done]. }
  split; [split; [exact HS|by exists M, G1| | |]|].
  - intros n t. rewrite (Hder inherited n t) by (by right; right). rewrite (ic_inherited _ HI). split.
    + intros (Hn & Ht & Hcov). pose proof (proj2 (text_of_agree n t Hn) Ht) as Ht'. split_and!; [by eapply HinD|done|]. by rewrite (agree_cov st0 M0 L n t Hn).
    + intros (Hn%HD & Ht & Hcov). split_and!; [done|by apply (text_of_agree n t Hn)|]. by rewrite <- (agree_cov st0 M0 L n t Hn).
  - apply (Hpart left_comp comes_before); [by left| |exact (ic_left _ HI)]. intros a b V1 V2 A1 A2 A3 A4. by apply Hord.
  - apply (Hpart right_comp (λ s a b, comes_before s b a)); [by right; left| |exact (ic_right _ HI)]. intros a b V1 V2 A1 A2 A3 A4. by apply Hord.
  - intros n t Ht. destruct (decide (n ∈ ix_invalid ix)) as [Hn|Hn]; [left; by apply Hns|right; by eapply HinD].
Qed.
End End.
End Hist.

Lemma stats_edges fuel st : same_edges st (with_stats fuel st).
Proof. intros c x y. rewrite !edge_in_w. destruct (writable_stats fuel st c) as (s & -> & _). done. Qed.
Lemma stats_token fuel st n : text_token (with_stats fuel st) n ↔ text_token st n.
Proof.
  unfold text_token, coverage_edge. split; intros [A B]; (split; [done|]); intros (y & c & Hc & Hn & He); apply B; exists y, c; (split_and!; [done..|]); by apply (stats_edges fuel st c n y).
Qed.

Section Update.
Context (fuel : nat) (rnd : nat → nat) (hash : gset N → list N) (optimize : adj → storage) (Hhash : hash_order hash).
Definition ready (st : gstate) : Prop := ∃ M Gs, good st M Gs ∧ inj M ∧ is_Some (g_comps st !! order_comp).

Lemma update_ok b st0 u st' : ready st0 → (am_is_empty (g_node_annos st0) = false → index_correct st0 ∧ connects_nodes st0 ∧ plain st0) →
  aql_update fuel rnd hash optimize b st0 u = Some st' → safe_update optimize st0 u st' → index_correct st' ∧ ready st'.
Proof using Hhash.
  intros (M0 & Gs0 & H0 & Hi0 & Hk0) Hidx. unfold aql_update. destruct (aql_loop _ _ _ _ _ _) as [[st1 ix]|] eqn:El; [|done]. intros Hr Hsafe.
  destruct Hsafe as [Hlab Hnam Hord [Uo Ua Up Ut Uc Upl]].
  assert (bounded_cache []) as Hb0 by by intros n i ?%elem_of_nil. assert (cached_ids st0 []) as Hc0 by by intros n i ?%elem_of_nil.
  destruct (loop_names fuel _ u _ _ _ _ _ _ _ H0 Hi0 Hb0 Hc0 ltac:(intros e He; by apply (labels_keeps st0), Hlab) El) as (M1 & Gs1 & H1 & Hi1 & HK).
  set (st2 := if b then with_stats fuel st1 else st1) in *.
  assert (good st2 M1 Gs1) as H2 by (unfold st2; destruct b; [by apply good_with_stats|done]).
  assert (is_Some (g_comps st2 !! order_comp)) as Hk2.
  { unfold st2. destruct b; [|by apply HK]. unfold with_stats. cbn. rewrite lookup_fmap. apply fmap_is_Some. by apply HK. }
  assert (same_edges st1 st2) as Hse by (unfold st2; destruct b; [apply stats_edges|done]).
  assert (same_user st2 st' ∧ index_correct st' ∧ ∃ M Gs, good st' M Gs) as (HS & HC & M' & Gs' & H').
  { destruct (am_is_empty (g_node_annos st0)) eqn:Em.
    - destruct (loop_empty fuel _ u _ [] (ix_init st0) _ _ _ _ H0 Hb0 Em El) as (_ & Hx & _).
      destruct (new_correct fuel rnd hash optimize Hhash _ _ _ _ _ H2 Hx Hk2 Hr) as [HS Hn]. split; [done|]. by apply Hn.
    - destruct (Hidx eq_refl) as (HI & Hcn & Hpl).
      destruct (loop_ok fuel st0 M0 Gs0 H0 Hi0 HI Hcn Hpl _ u st0 [] _ _ _ M0 [] (init_linv st0 M0 Gs0 H0 Hi0 Em) Hb0 Hc0 Hlab Hnam ltac:(by intros n t ?%elem_of_nil) El) as [(M1' & del & L1) Hends].
      assert (linv st0 M0 st2 M1' ix del) as L.
      { eapply (linv_edges st0 M0 st1 st2 M1' M1'); [exact L1|exact Hse| |exact (li_inj _ _ _ _ _ _ L1)|exact (li_old _ _ _ _ _ _ L1)|exact (li_new _ _ _ _ _ _ L1)|exact (li_ids _ _ _ _ _ _ L1)|exact (li_del _ _ _ _ _ _ L1)].
        destruct (li_good _ _ _ _ _ _ L1) as [Gs HG]. exists Gs. unfold st2. destruct b; [by apply good_with_stats|done]. }
      destruct (li_good _ _ _ _ _ _ L) as [Gs HG]. unfold apply_index in Hr. rewrite (li_empty _ _ _ _ _ _ L) in Hr. destruct Hk2 as [g Hg]. rewrite Hg in Hr.
      unfold reindex in Hr. remember (sort_list N.compare (elements (ix_invalid ix))) as ns eqn:Ens.
      assert (ns ≡ₚ elements (ix_invalid ix)) as Hns by (subst ns; apply sort_list_perm).
      destruct (clear_some st2 M1' Gs ix ns HG (li_empty _ _ _ _ _ _ L)) as (HS1 & _).
      assert (same_user st2 st') as HS. { eapply same_trans; [exact HS1|]. by eapply reindex_nodes_user. }
      split; [done|]. assert (∀ a b, a ∉ ix_invalid ix → b ∉ ix_invalid ix → text_token st0 a → text_token st0 b → text_token st2 a → text_token st2 b → comes_before st0 a b ↔ comes_before st2 a b) as Hord2.
      { intros a b0 Va Vb A1 A2 A3 A4. rewrite (Hord a b0 A1 A2); [by apply (same_before HS)|by apply (same_token HS)|by apply (same_token HS)|].
        intros (e & n & He & Ho & [Hn|Hn]); [apply Va|apply Vb]; by eapply Hends. }
      destruct (cleared_done fuel st0 M0 Gs0 H0 Hi0 HI Hcn Hpl L Gs ns (clear_index st2 ix ns) HG) as [HDn HDa]; [|done|done|].
      { intros n. by rewrite Hns, elem_of_elements. }
      eapply (reindex_correct fuel rnd hash Hhash st2 (clear_index st2 ix ns) st' (optimize g) ns); [done|done| | | | | |exact HDn|exact HDa|exact Hr].
      + intros a b0. by apply (same_order_ok optimize st2 st').
      + by apply (same_acyclic st2 st').
      + by apply (same_apart st2 st').
      + rewrite Hns. apply NoDup_elements.
      + intros n Hn. rewrite Hns, elem_of_elements in Hn. intros [_ Hx]%elem_of_difference. done. }
  split; [done|]. exists M', Gs'. split_and!; [done| |by rewrite (proj2 HS _ derived_order)].
  rewrite (good_map _ _ _ _ _ _ H2 H' (proj1 HS)). done.
Qed.

Lemma history_ok us : ∀ st0 st, ready st0 → (am_is_empty (g_node_annos st0) = false → index_correct st0 ∧ connects_nodes st0 ∧ plain st0) → us ≠ [] →
  aql_updates fuel rnd hash optimize st0 us = Some st → safe_history fuel rnd hash optimize st0 us → index_correct st ∧ ready st ∧ usable optimize st.
Proof using Hhash.
  induction us as [|[b u] us IH]; intros st0 st HR Hidx Hne; [done|]. cbn [aql_updates safe_history].
  destruct (aql_update fuel rnd hash optimize b st0 u) as [st1|] eqn:Eu; [|done]. intros Hr Hs. destruct (Hs st1 eq_refl) as [Hsafe Hs'].
  destruct (update_ok b st0 u st1 HR Hidx Eu Hsafe) as [HI1 HR1]. destruct us as [|x us].
  - injection Hr as <-. split_and!; [done|done|apply Hsafe].
  - apply (IH st1 st); [done| |done|done|done]. intros _. split_and!; [done|apply Hsafe|apply Hsafe].
Qed.
Lemma ready_default : ready g_default.
Proof using.
  exists ∅, (λ _, empty_graph). split_and!; [apply good_default| |vm_compute; by eexists]. intros i j n Hi. by rewrite lookup_empty in Hi.
Qed.
Lemma content_exists st : ready st → ∃ c, same_content st c.
Proof using.
  intros (M & Gs & H & _ & _). exists (Content M ((λ k, gr_edges (Gs k)) <$> filter (λ k : comp, k.1.1 = t_coverage) (elements (dom (g_comps st))))
    (gr_edges (Gs left_comp)) (gr_edges (Gs right_comp)) (gr_edges (Gs order_comp))).
  split; cbn [ct_labels ct_cov ct_left ct_right ct_order].
  - intros n. symmetry. apply (has_label_iff _ _ _ _ _ H).
  - intros x y. unfold covers. cbn [ct_cov]. split.
    + intros (G & HG & He). apply elem_of_list_fmap in HG as (k & -> & Hk). apply elem_of_list_filter in Hk as [Hk _]. exists k. split; [done|]. by apply (edge_in_g _ _ _ _ _ _ H).
    + intros (k & Hk & He). exists (gr_edges (Gs k)). split; [|by apply (edge_in_g _ _ _ _ _ _ H)]. apply elem_of_list_fmap. exists k. split; [done|].
      apply elem_of_list_filter. split; [done|]. apply elem_of_elements, elem_of_dom. destruct He as (g & Hg & _). by exists g.
  - intros x y. symmetry. apply (edge_in_g _ _ _ _ _ _ H).
  - intros x y. symmetry. apply (edge_in_g _ _ _ _ _ _ H).
  - intros x y. symmetry. apply (edge_in_g _ _ _ _ _ _ H).
Qed.
Lemma history_all us st : us ≠ [] → aql_updates fuel rnd hash optimize g_default us = Some st → safe_history fuel rnd hash optimize g_default us →
  index_correct st ∧ ready st ∧ usable optimize st.
Proof using Hhash. intros Hne. apply history_ok; [apply ready_default|vm_compute; discriminate|done]. Qed.
Lemma history_lemma us st : us ≠ [] → aql_updates fuel rnd hash optimize g_default us = Some st → safe_history fuel rnd hash optimize g_default us → index_correct st.
Proof using Hhash. intros. by apply (history_all us). Qed.
End Update.
