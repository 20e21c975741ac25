(** Proofs about the union of edge containers. *)
From stdpp Require Import base list gmap.
From Coq Require Import NArith Lia.
From Verif Require Import KeySer KeySerSpec SymbolTable Types AnnoMem Adjacency Union UnionSpec.

Lemma collect_Some l l' : collect l = Some l' ↔ l = Some <$> l'.
Proof.
  unfold collect. rewrite mapM_Some. split.
  - induction 1 as [|o n l l' H _ IH]; [done|]. cbn in *. by subst.
  - intros ->. induction l'; constructor; done.
Qed.
Lemma collect_None l : collect l = None ↔ None ∈ l.
Proof.
  destruct (collect l) as [l'|] eqn:E.
  - apply collect_Some in E as ->. split; [done|]. intros H. apply elem_of_list_fmap in H as (? & ? & _). done.
  - split; [|done]. intros _. destruct (decide (None ∈ l)) as [|Hn]; [done|]. exfalso.
    assert (collect l = Some (omap id l)) as H; [|congruence]. clear E. induction l as [|[n|] l IH]; [done| |].
    + unfold collect in *. cbn. rewrite IH; [done|]. intros H. apply Hn. by right.
    + destruct Hn. left.
Qed.
Lemma gather_ok ls : ∀ t e t' e', gather ls t e = (t', e') →
  e' = e + length (filter (λ l, None ∈ l) ls) ∧ (e' = e → ∀ n, n ∈ t' ↔ n ∈ t ∨ ∃ l, l ∈ ls ∧ Some n ∈ l).
Proof.
  induction ls as [|l ls IH]; intros t e t' e' H; cbn [gather] in H.
  - injection H as <- <-. split; [cbn; lia|]. intros _ n. split; [by left|]. intros [H|(l & H & _)]; [done|]. inversion H.
  - destruct (collect l) as [l'|] eqn:E.
    + destruct (IH _ _ _ _ H) as [H1 H2]. assert (None ∉ l) as Hn. { intros Hl. apply collect_None in Hl. congruence. }
      rewrite filter_cons_False by done. split; [done|]. intros He n. rewrite (H2 He). rewrite elem_of_union, elem_of_list_to_set.
      apply collect_Some in E as ->. split.
      * intros [[Ht|Hl]|(x & Hx & Hn')]; [by left| |].
        -- right. exists (Some <$> l'). split; [left|]. apply elem_of_list_fmap. by exists n.
        -- right. exists x. split; [by right|done].
      * intros [Ht|(x & Hx & Hn')]; [by left; left|]. apply elem_of_cons in Hx as [-> |Hx].
        -- left. right. apply elem_of_list_fmap in Hn' as (? & [= <-] & ?). done.
        -- right. by exists x.
    + apply collect_None in E. destruct (IH _ _ _ _ H) as [H1 H2]. rewrite filter_cons_True by done. cbn [length]. split; [lia|]. intros He. lia.
Qed.
Lemma union_items_ok ls : (∀ l, l ∈ ls → None ∉ l) → NoDup (union_items ls) ∧ gives (union_items ls) (λ n, ∃ l, l ∈ ls ∧ Some n ∈ l).
Proof.
  intros Hn. unfold union_items. destruct (gather ls ∅ 0) as [t e] eqn:E. apply gather_ok in E as [He Ht].
  assert (filter (λ l : list (option N), None ∈ l) ls = []) as Hf.
  { destruct (filter _ ls) as [|l r] eqn:Ef; [done|]. assert (l ∈ filter (λ l : list (option N), None ∈ l) ls) as Hl by (rewrite Ef; left).
    apply elem_of_list_filter in Hl as [H1 H2]. destruct (Hn l H2 H1). }
  rewrite Hf in He. cbn in He. subst e. rewrite decide_True by done. split; [|split].
  - apply NoDup_fmap_2; [apply _|]. apply NoDup_elements.
  - intros H. apply elem_of_list_fmap in H as (? & ? & _). done.
  - intros n. rewrite elem_of_list_fmap. split.
    + intros (m & [= <-] & Hm). apply elem_of_elements, (Ht eq_refl) in Hm as [Hm|Hm]; [by apply elem_of_empty in Hm|done].
    + intros H. exists n. split; [done|]. apply elem_of_elements, (Ht eq_refl). by right.
Qed.
(** An error is not swallowed: all the items are errors *)
Lemma union_items_error ls : (∃ l, l ∈ ls ∧ None ∈ l) → union_items ls ≠ [] ∧ ∀ x, x ∈ union_items ls → x = None.
Proof.
  intros (l & Hl & Hn). unfold union_items. destruct (gather ls ∅ 0) as [t e] eqn:E. apply gather_ok in E as [He _].
  assert (l ∈ filter (λ l : list (option N), None ∈ l) ls) as Hf by (by apply elem_of_list_filter). destruct (filter _ ls) as [|y r]; [inversion Hf|]. cbn in He.
  rewrite decide_False by lia. subst e. split; [done|]. intros x Hx. by apply elem_of_replicate in Hx as [-> _].
Qed.
Lemma gather_sources_error l : ∀ acc, None ∈ l → gather_sources l acc = None.
Proof. induction l as [|[n|] l IH]; intros acc H; cbn; [by apply elem_of_nil in H|apply IH; apply elem_of_cons in H as [H|H]; done|done]. Qed.
Lemma gather_sources_ok l : ∀ acc, None ∉ l → ∃ acc', gather_sources l acc = Some acc' ∧ ∀ n, n ∈ acc' ↔ n ∈ acc ∨ Some n ∈ l.
Proof.
  induction l as [|[n|] l IH]; intros acc Hn; cbn.
  - exists acc. split; [done|]. intros n. split; [by left|]. intros [H|H]; [done|inversion H].
  - destruct (IH ({[n]} ∪ acc)) as (acc' & E & H); [intros Hx; apply Hn; by right|]. exists acc'. split; [done|]. intros m. rewrite H, elem_of_union, elem_of_singleton, elem_of_cons.
    split; [intros [[->|?]|?]; auto|intros [?|[[= ->]|?]]; auto].
  - destruct Hn. left.
Qed.
Lemma union_sources_ok cs : ∀ acc, (∀ c, c ∈ cs → None ∉ sources c) →
  NoDup (union_sources cs acc) ∧ gives (union_sources cs acc) (λ n, n ∈ acc ∨ ∃ c, c ∈ cs ∧ Some n ∈ sources c).
Proof.
  induction cs as [|c cs IH]; intros acc Hn; cbn [union_sources].
  - split; [apply NoDup_fmap_2; [apply _|]; apply NoDup_elements|split].
    + intros H. apply elem_of_list_fmap in H as (? & ? & _). done.
    + intros n. rewrite elem_of_list_fmap. split.
      * intros (m & [= <-] & Hm). left. by apply elem_of_elements.
      * intros [H|(c & Hc & _)]; [|inversion Hc]. exists n. split; [done|by apply elem_of_elements].
  - destruct (gather_sources_ok (sources c) acc) as (acc' & -> & H); [apply Hn; left|]. destruct (IH acc') as [H1 [H2 H3]]; [intros; apply Hn; by right|].
    split; [done|split; [done|]]. intros n. rewrite H3, H. split.
    + intros [[?|?]|(c' & Hc & Hs)]; [by left|right; exists c; split; [left|done]|right; exists c'; split; [by right|done]].
    + intros [?|(c' & Hc & Hs)]; [by left; left|]. apply elem_of_cons in Hc as [-> |Hc]; [by left; right|]. right. by exists c'.
Qed.
Theorem union_spec cs (Es : list (gset edge)) : Forall2 contains_edges cs Es → contains_edges (union_container cs) (⋃ Es) ∧ no_duplicates (union_container cs).
Proof.
  intros H.
  assert (∀ (f : container → list (option N)) (P : gset edge → N → Prop), (∀ c E, contains_edges c E → gives (f c) (P E)) →
    (∀ l, l ∈ f <$> cs → None ∉ l) ∧ ∀ n, (∃ l, l ∈ f <$> cs ∧ Some n ∈ l) ↔ ∃ E, E ∈ Es ∧ P E n) as Hf.
  { intros f P HP. split.
    - intros l Hl. apply elem_of_list_fmap in Hl as (c & -> & Hc). apply elem_of_list_lookup in Hc as [i Hi].
      destruct (Forall2_lookup_l _ _ _ _ _ H Hi) as (E & _ & HE). by apply HP in HE as [HE _].
    - intros n. split.
      + intros (l & Hl & Hn). apply elem_of_list_fmap in Hl as (c & -> & Hc). apply elem_of_list_lookup in Hc as [i Hi].
        destruct (Forall2_lookup_l _ _ _ _ _ H Hi) as (E & HEi & HE). apply HP in HE as [_ HE]. exists E. split; [by eapply elem_of_list_lookup_2|by apply HE].
      + intros (E & HE & Hn). apply elem_of_list_lookup in HE as [i Hi]. destruct (Forall2_lookup_r _ _ _ _ _ H Hi) as (c & Hci & Hc).
        apply HP in Hc as [_ Hc]. exists (f c). split; [apply elem_of_list_fmap; exists c; split; [done|by eapply elem_of_list_lookup_2]|by apply Hc]. }
  assert (∀ x, NoDup (out_edges (union_container cs) x) ∧ gives (out_edges (union_container cs) x) (λ y, Edge x y ∈ ⋃ Es)) as Ho.
  { intros x. destruct (Hf (λ c, out_edges c x) (λ E y, Edge x y ∈ E)) as [H1 H2]; [intros c E HE; apply HE|].
    destruct (union_items_ok _ H1) as [H3 [H4 H5]]. split; [done|]. split; [done|]. intros n. unfold union_container. cbn [out_edges]. rewrite H5, H2. by rewrite elem_of_union_list. }
  assert (∀ y, NoDup (in_edges (union_container cs) y) ∧ gives (in_edges (union_container cs) y) (λ x, Edge x y ∈ ⋃ Es)) as Hi.
  { intros y. destruct (Hf (λ c, in_edges c y) (λ E x, Edge x y ∈ E)) as [H1 H2]; [intros c E HE; apply HE|].
    destruct (union_items_ok _ H1) as [H3 [H4 H5]]. split; [done|]. split; [done|]. intros n. unfold union_container. cbn [in_edges]. rewrite H5, H2. by rewrite elem_of_union_list. }
  assert (NoDup (sources (union_container cs)) ∧ gives (sources (union_container cs)) (λ x, ∃ y, Edge x y ∈ ⋃ Es)) as Hs.
  { destruct (Hf sources (λ E x, ∃ y, Edge x y ∈ E)) as [H1 H2]; [intros c E HE; apply HE|].
    destruct (union_sources_ok cs ∅) as [H3 [H4 H5]]; [intros c Hc; apply H1, elem_of_list_fmap; by exists c|]. split; [done|]. split; [done|]. intros n.
    cbn [sources union_container]. rewrite H5. transitivity (∃ E, E ∈ Es ∧ ∃ y, Edge n y ∈ E).
    - rewrite <- H2. split.
      + intros [Hx|(c & Hc & Hx)]; [by apply elem_of_empty in Hx|]. exists (sources c). split; [apply elem_of_list_fmap; by exists c|done].
      + intros (l & Hl & Hx). apply elem_of_list_fmap in Hl as (c & -> & Hc). right. by exists c.
    - split; [intros (E & HE & y & Hy); exists y; apply elem_of_union_list; by exists E|intros (y & Hy); apply elem_of_union_list in Hy as (E & HE & Hy); exists E; split; [done|by exists y]]. }
  split; split_and!; try apply Hs; intros x; try apply Ho; apply Hi.
Qed.
Lemma has_edges_spec l P : gives l P → ∃ b, has_edges l = Some b ∧ (b = true ↔ ∃ n, P n).
Proof.
  intros [H1 H2]. destruct l as [|[n|] l]; cbn.
  - exists false. split; [done|]. split; [done|]. intros [n Hn]. apply H2 in Hn. inversion Hn.
  - exists true. split; [done|]. split; [|done]. intros _. exists n. apply H2. left.
  - destruct H1. left.
Qed.
Theorem roots_spec c E : contains_edges c E → gives (root_nodes c) (λ x, (∃ y, Edge x y ∈ E) ∧ ¬ ∃ y, Edge y x ∈ E) ∧ (NoDup (sources c) → NoDup (root_nodes c)).
Proof.
  intros (Ho & Hi & [Hs1 Hs2]). split; [split|].
  - intros H. unfold root_nodes in H. apply elem_of_list_omap in H as ([n|] & Hn & E1); [|done]. destruct (has_edges_spec _ _ (Hi n)) as ([] & E2 & _); by rewrite E2 in E1.
  - intros n. unfold root_nodes. rewrite elem_of_list_omap. split.
    + intros ([m|] & Hm & E1); [|done]. destruct (has_edges_spec _ _ (Hi m)) as (b & E2 & Hb). rewrite E2 in E1. destruct b; [done|]. injection E1 as ->. split; [by apply Hs2|].
      intros Hx. apply Hb in Hx. done.
    + intros [H1 H2]. exists (Some n). split; [by apply Hs2|]. destruct (has_edges_spec _ _ (Hi n)) as (b & E2 & Hb). rewrite E2. destruct b; [|done]. destruct H2. by apply Hb.
  - unfold root_nodes. generalize (sources c) as l. induction l as [|x l IH]; intros Hn; [constructor|]. apply NoDup_cons in Hn as [Hx Hn]. specialize (IH Hn).
    assert (∀ y, y ∈ omap (λ n, match n with None => Some None | Some n => match has_edges (in_edges c n) with Some true => None | Some false => Some (Some n) | None => Some None end end) l → y ≠ None → y ∈ l) as Hsub.
    { intros y Hy Hne. apply elem_of_list_omap in Hy as ([z|] & Hz & E1); [|by injection E1 as <-]. destruct (has_edges (in_edges c z)) as [[]|]; [done|by injection E1 as <-|by injection E1 as <-]. }
    cbn [omap list_omap]. destruct x as [n|].
    + destruct (has_edges_spec _ _ (Hi n)) as (b & E2 & _). rewrite E2. destruct b; [done|]. apply NoDup_cons. split; [|done]. intros Hy. apply Hx. by apply Hsub.
    + apply NoDup_cons. split; [|done]. intros Hy. apply elem_of_list_omap in Hy as ([z|] & Hz & E1); [|done].
      destruct (has_edges_spec _ _ (Hi z)) as ([] & E2 & _); by rewrite E2 in E1.
Qed.
