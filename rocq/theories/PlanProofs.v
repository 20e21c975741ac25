(** Proofs about the execution of queries with alternatives. *)
From stdpp Require Import base list gmap.
From Coq Require Import NArith Lia.
From Verif Require Import Types SymbolTable SortMatches Joins JoinsSpec JoinsProofs Conjunction ConjunctionSpec Plan PlanSpec.

(** ** Order of the nodes *)
Lemma positions_inj pos v w i : positions_ok pos → pos !! v = Some i → pos !! w = Some i → v = w.
Proof.
  intros [P1 P2] Hv Hw.
  assert (∃ vs, Forall2 (λ i v, pos !! v = Some i) (seq 0 (size pos)) vs) as [vs Hvs].
  { assert (∀ l, (∀ i, i ∈ l → i < size pos) → ∃ vs, Forall2 (λ i v, pos !! v = Some i) l vs) as H.
    { induction l as [|j l IH]; intros Hl; [exists []; constructor|].
      destruct (P2 j) as [x Hx]; [apply Hl; left|]. destruct IH as [vs Hvs]; [intros; apply Hl; by right|].
      exists (x :: vs). by constructor. }
    apply H. intros j Hj. apply elem_of_seq in Hj. lia. }
  assert (∀ k x, vs !! k = Some x → pos !! x = Some k) as Hk.
  { intros k x Hx. destruct (Forall2_lookup_r _ _ _ _ _ Hvs Hx) as (j & Hj & Hp). apply lookup_seq in Hj as [-> _]. done. }
  assert (NoDup vs) as Hnd.
  { apply NoDup_alt. intros a b x Ha Hb. apply Hk in Ha, Hb. congruence. }
  assert (∀ x, is_Some (pos !! x) → x ∈ vs) as Hall.
  { intros x Hx. assert (vs ≡ₚ elements (dom pos)) as E.
    { apply submseteq_Permutation_length_le; [|apply NoDup_submseteq; [done|]; intros y [k Hy]%elem_of_list_lookup; apply Hk in Hy; apply elem_of_elements, elem_of_dom; eauto].
      change (length (elements (dom pos))) with (size (dom pos)). rewrite size_dom. apply Forall2_length in Hvs. rewrite seq_length in Hvs. lia. }
    rewrite E. by apply elem_of_elements, elem_of_dom. }
  assert (v ∈ vs) as [a Ha]%elem_of_list_lookup by (apply Hall; eauto).
  assert (w ∈ vs) as [b Hb]%elem_of_list_lookup by (apply Hall; eauto).
  pose proof (Hk _ _ Ha). pose proof (Hk _ _ Hb). congruence.
Qed.
Lemma place_spec inv tmp : ∀ k res, NoDup inv → (∀ t, t ∈ inv → t < length res) → k + length tmp <= length inv →
  ∃ res', place inv k tmp res = Some res' ∧ length res' = length res ∧
    (∀ j m t, tmp !! j = Some m → inv !! (k + j) = Some t → res' !! t = Some m) ∧
    (∀ v, (∀ j, j < length tmp → inv !! (k + j) ≠ Some v) → res' !! v = res !! v).
Proof.
  induction tmp as [|m tmp IH]; intros k res Hnd Hb Hl; cbn [place].
  - exists res. split_and!; [done|done| |done]. intros j m t H. by rewrite lookup_nil in H.
  - cbn [length] in Hl. destruct (lookup_lt_is_Some_2 inv k) as [t Ht]; [lia|]. rewrite Ht. cbn [mbind option_bind].
    rewrite decide_True by (apply Hb; by eapply elem_of_list_lookup_2).
    destruct (IH (S k) (<[t := m]> res)) as (res' & E & L & H1 & H2); [done|rewrite insert_length; done|lia|].
    exists res'. split; [done|]. rewrite insert_length in L. split_and!; [done| |].
    + intros [|j] m' t' Hj Ht'; cbn in Hj.
      * injection Hj as <-. rewrite Nat.add_0_r in Ht'. assert (t' = t) as -> by congruence. rewrite H2.
        -- apply list_lookup_insert. apply Hb. by eapply elem_of_list_lookup_2.
        -- intros j Hj Hc. assert (S k + j = k) by (by eapply NoDup_lookup). lia.
      * apply (H1 j); [done|]. by replace (S k + j) with (k + S j) by lia.
    + intros v Hv. rewrite H2.
      * apply list_lookup_insert_ne. intros ->. apply (Hv 0); [cbn; lia|]. by rewrite Nat.add_0_r.
      * intros j Hj. replace (S k + j) with (k + S j) by lia. apply Hv. cbn. lia.
Qed.
Lemma foldr_max_ge l (x : nat) : x ∈ l → x <= foldr max 0 l.
Proof. induction 1 as [|y ? ? ? IH]; cbn; lia. Qed.
Lemma foldr_max_in l : l ≠ [] → foldr max 0 l ∈ l.
Proof.
  induction l as [|x l IH]; [done|]. intros _. cbn. destruct (Nat.max_spec x (foldr max 0 l)) as [[H ->]|[H ->]]; [|left].
  destruct l as [|y l]; [cbn in H; lia|]. right. by apply IH.
Qed.
Lemma inverse_lookup pos : positions_ok pos →
  let m : gmap nat nat := list_to_map ((λ p, (p.2, p.1)) <$> map_to_list pos) in
  size m = size pos ∧ ∀ i v, m !! i = Some v ↔ pos !! v = Some i.
Proof.
  intros Hp m. assert (Hm : ∀ i v, m !! i = Some v ↔ pos !! v = Some i).
  { intros i v. assert (NoDup (((λ p : nat * nat, (p.2, p.1)) <$> map_to_list pos).*1)) as Hnd.
    { rewrite <- list_fmap_compose. apply NoDup_fmap_2_strong; [|apply NoDup_map_to_list].
      intros [v1 i1] [v2 i2] H1%elem_of_map_to_list H2%elem_of_map_to_list E. cbn in E. subst.
      f_equal. by eapply positions_inj. }
    unfold m. rewrite <- elem_of_list_to_map by done. rewrite elem_of_list_fmap. split.
    - intros ([v1 i1] & [= -> ->] & H). by apply elem_of_map_to_list.
    - intros H. exists (v, i). split; [done|]. by apply elem_of_map_to_list. }
  split; [|done]. rewrite <- !size_dom. assert (dom m = set_seq 0 (size pos)) as ->.
  { apply set_eq. intros i. rewrite elem_of_dom, elem_of_set_seq. split.
    - intros [v Hv]. apply Hm in Hv. apply Hp in Hv. lia.
    - intros [_ Hi]. destruct Hp as [_ P2]. destruct (P2 i Hi) as [v Hv]. exists v. by apply Hm. }
  by rewrite size_set_seq, size_dom.
Qed.
Lemma reorder_placed pos g : positions_ok pos → length g = size pos →
  ∃ g', reorder_match (inverse_node_pos pos) g = Some g' ∧ placed pos g g' ∧
        ∀ m, m ∈ g' → m ∈ g ∨ m = default_match.
Proof.
  intros Hp Hl. unfold inverse_node_pos.
  destruct (existsb (λ p, negb (bool_decide (p.1 = p.2))) (map_to_list pos)) eqn:Ex.
  - pose proof (inverse_lookup pos Hp) as [Hs Hm].
    set (m := list_to_map ((λ p, (p.2, p.1)) <$> map_to_list pos) : gmap nat nat) in *.
    set (inv := (λ i, default i (m !! i)) <$> seq 0 (size m)).
    assert (length inv = size pos) as Hli by (unfold inv; by rewrite fmap_length, seq_length).
    assert (∀ i t, inv !! i = Some t ↔ pos !! t = Some i) as Hinv.
    { intros i t. unfold inv. rewrite list_lookup_fmap. split.
      - intros H. destruct (seq 0 (size m) !! i) as [x|] eqn:E; [|done]. apply lookup_seq in E as [-> Hx].
        cbn in H. injection H as <-. rewrite Hs in Hx. destruct Hp as [_ P2]. destruct (P2 i Hx) as [v Hv]. apply Hm in Hv as Hv'. rewrite Hv'. done.
      - intros H. rewrite lookup_seq_lt by (rewrite Hs; by eapply Hp). cbn. apply Hm in H. by rewrite H. }
    assert (NoDup inv) as Hnd.
    { apply NoDup_alt. intros a b x Ha Hb. apply Hinv in Ha, Hb. congruence. }
    assert (∀ t, t ∈ inv ↔ is_Some (pos !! t)) as Hel.
    { intros t. rewrite elem_of_list_lookup. split; [intros [i Hi]; apply Hinv in Hi; eauto|]. intros [i Hi]. exists i. by apply Hinv. }
    assert (inv ≠ []) as Hne.
    { intros E. apply existsb_exists in Ex as ([v i] & Hin & _). apply elem_of_list_In, elem_of_map_to_list in Hin.
      assert (v ∈ inv) as H by (apply Hel; eauto). rewrite E in H. inversion H. }
    cbn [reorder_match]. assert (match inv with [] => 0 | _ :: _ => S (foldr max 0 inv) end = S (foldr max 0 inv)) as -> by (by destruct inv).
    destruct (place_spec inv g 0 (replicate (S (foldr max 0 inv)) default_match)) as (g' & E & L & H1 & H2); [done| |lia|].
    { intros t Ht. rewrite replicate_length. apply foldr_max_ge in Ht. lia. }
    exists g'. rewrite replicate_length in L. split; [done|].
    assert (placed pos g g') as Hpl.
    { split_and!.
      - intros v i Hv. destruct (lookup_lt_is_Some_2 g i) as [x Hx]; [rewrite Hl; by eapply Hp|]. rewrite Hx. apply (H1 i); [done|]. by apply Hinv.
      - intros v Hv (w & Hw & Hpw). rewrite H2.
        + apply lookup_replicate. split; [done|]. apply Hel, foldr_max_ge in Hpw. lia.
        + intros j _ Hj. apply Hinv in Hj. congruence.
      - intros v Hv. exists (foldr max 0 inv). split; [lia|]. apply Hel. by apply foldr_max_in. }
    split; [done|]. intros x [v Hv]%elem_of_list_lookup. destruct Hpl as (P1 & P2 & P3). destruct (pos !! v) as [i|] eqn:Ep.
    + rewrite (P1 _ _ Ep) in Hv. left. by eapply elem_of_list_lookup_2.
    + right. destruct (P3 v) as (w & Hw & Hpw); [by eapply lookup_lt_Some|]. rewrite (P2 v Ep) in Hv; [congruence|].
      exists w. split; [|done]. destruct (decide (v = w)) as [->|]; [|lia]. destruct Hpw as [? ?]. congruence.
  - cbn [reorder_match]. exists g. split; [done|].
    assert (∀ v i, pos !! v = Some i → v = i) as Hid.
    { intros v i Hv. destruct (decide (v = i)) as [|D]; [done|]. exfalso. apply not_true_iff_false in Ex. apply Ex.
      apply existsb_exists. exists (v, i). split; [by apply elem_of_list_In, elem_of_map_to_list|]. cbn. by rewrite bool_decide_eq_false_2. }
    split; [|auto]. split_and!.
    + intros v i Hv. by rewrite (Hid _ _ Hv).
    + intros v Hv (w & Hw & [i Hi]). pose proof (Hid _ _ Hi) as ->. exfalso. destruct Hp as [P1 P2].
      destruct (P2 v) as [x Hx]; [apply P1 in Hi; lia|]. pose proof (Hid _ _ Hx). congruence.
    + intros v Hv. destruct Hp as [_ P2]. destruct (P2 v) as [w Hw]; [lia|]. pose proof (Hid _ _ Hw) as ->. exists v. eauto.
Qed.
Lemma placed_unique pos g g1 g2 : positions_ok pos → length g = size pos → placed pos g g1 → placed pos g g2 → g1 = g2.
Proof.
  intros Hp Hl (A1 & B1 & C1) (A2 & B2 & C2). apply list_eq. intros v. destruct (pos !! v) as [i|] eqn:E.
  - by rewrite (A1 _ _ E), (A2 _ _ E).
  - destruct (g1 !! v) as [x|] eqn:E1.
    + destruct (C1 v) as (w & Hw & Hpw); [by eapply lookup_lt_Some|].
      assert (∃ w, v < w ∧ is_Some (pos !! w)) as Hex.
      { exists w. split; [|done]. destruct (decide (v = w)) as [->|]; [|lia]. destruct Hpw as [? ?]. congruence. }
      rewrite (B1 v E Hex) in E1. by rewrite (B2 v E Hex).
    + destruct (g2 !! v) as [x|] eqn:E2; [|done]. destruct (C2 v) as (w & Hw & Hpw); [by eapply lookup_lt_Some|].
      assert (∃ w, v < w ∧ is_Some (pos !! w)) as Hex.
      { exists w. split; [|done]. destruct (decide (v = w)) as [->|]; [|lia]. destruct Hpw as [? ?]. congruence. }
      rewrite (B1 v E Hex) in E1. done.
Qed.

(** ** Unique results *)
Lemma or_assoc_l (P Q R : Prop) : (P ∨ Q ∨ R) ↔ ((P ∨ Q) ∨ R).
Proof. split; [intros [H|[H|H]]|intros [[H|H]|H]]; auto. Qed.
Definition tab (t : symtab anno_key) (l : list anno_key) : Prop :=
  by_id t = Some <$> l ∧ empty_slots t = [] ∧ NoDup l ∧ ∀ v s, by_value t !! v = Some s ↔ l !! s = Some v.
Definition denotes (l : list anno_key) (key : list (N * nat)) (g : group) : Prop :=
  Forall2 (λ k m, k.1 = m.1 ∧ l !! k.2 = Some m.2) key g.
Lemma tab_new : tab st_new [].
Proof. split_and!; [done|done|constructor|]. intros v s. cbn. by rewrite lookup_empty, lookup_nil. Qed.
Lemma tab_insert t l v (K : list anno_key) : tab t l → l ⊆ K → v ∈ K → (N.of_nat (length K) <= usize_max)%N →
  ∃ s l', st_insert t v = ((st_insert t v).1, Some s) ∧ tab (st_insert t v).1 (l ++ l') ∧ l ++ l' ⊆ K ∧ (l ++ l') !! s = Some v.
Proof.
  intros (H1 & H2 & H3 & H4) Hl Hv HK. unfold st_insert. destruct (by_value t !! v) as [s|] eqn:E.
  - exists s, []. rewrite app_nil_r. split_and!; [done|done|done|]. by apply H4.
  - rewrite H2. assert (v ∉ l) as Hn.
    { intros [s Hs]%elem_of_list_lookup. apply H4 in Hs. congruence. }
    assert (length (by_id t) < length K) as Hlen.
    { rewrite H1, fmap_length. assert (v :: l ⊆+ K) as Hsub%submseteq_length.
      { apply NoDup_submseteq; [by constructor|]. intros x [->|Hx]%elem_of_cons; [done|]. by apply Hl. }
      cbn in Hsub. lia. }
    assert ((N.of_nat (length (by_id t)) <? usize_max)%N = true) as -> by (apply N.ltb_lt; lia). cbn [fst].
    exists (length l), [v]. rewrite H1, app_length, fmap_length. cbn [length]. replace (length l + 1 - 1) with (length l) by lia. split_and!.
    + done.
    + split_and!; cbn.
      * by rewrite fmap_app.
      * done.
      * apply NoDup_app. split_and!; [done| |apply NoDup_singleton]. intros x Hx ->%elem_of_list_singleton. done.
      * intros w s. destruct (decide (w = v)) as [->|D].
        -- rewrite lookup_insert. split.
           ++ intros [= <-]. by rewrite list_lookup_middle.
           ++ intros Hs. f_equal. destruct (decide (s < length l)) as [D|D].
              ** rewrite lookup_app_l in Hs by done. destruct Hn. by eapply elem_of_list_lookup_2.
              ** apply lookup_lt_Some in Hs. rewrite app_length in Hs. cbn in Hs. lia.
        -- rewrite lookup_insert_ne by done. rewrite H4. split.
           ++ intros Hs. by apply lookup_app_l_Some.
           ++ intros Hs. apply lookup_app_Some in Hs as [Hs|[_ Hs]]; [done|]. apply list_lookup_singleton_Some in Hs as [_ Hs]. congruence.
    + intros x [Hx|Hx%elem_of_list_singleton]%elem_of_app; [by apply Hl|by subst].
    + by rewrite list_lookup_middle.
Qed.
Lemma denotes_app l l' key g : denotes l key g → denotes (l ++ l') key g.
Proof. intros H. eapply Forall2_impl; [exact H|]. intros k m [H1 H2]. split; [done|]. by apply lookup_app_l_Some. Qed.
Lemma denotes_fun l key g1 g2 : denotes l key g1 → denotes l key g2 → g1 = g2.
Proof.
  intros H. revert g2. induction H as [|k m key g1 [H1 H2] H IH]; intros g2 Hd; inversion Hd as [|? m2 ? g2' [H3 H4] Hd']; subst; [done|].
  f_equal; [|auto]. destruct m, m2; cbn in *. congruence.
Qed.
Lemma denotes_inj l key1 key2 g : NoDup l → denotes l key1 g → denotes l key2 g → key1 = key2.
Proof.
  intros Hn H. revert key2. induction H as [|k m key g [H1 H2] H IH]; intros key2 Hd; inversion Hd as [|k2 ? key2' ? [H3 H4] Hd']; subst; [done|].
  f_equal; [|auto]. destruct k as [a b], k2 as [c d]; cbn in *. f_equal; [congruence|]. by eapply NoDup_lookup.
Qed.
Lemma with_symbol_ids_spec g (K : list anno_key) : ∀ t l, tab t l → l ⊆ K → (∀ m, m ∈ g → m.2 ∈ K) → (N.of_nat (length K) <= usize_max)%N →
  ∃ t' l' key, with_symbol_ids t g = (t', Some key) ∧ tab t' (l ++ l') ∧ l ++ l' ⊆ K ∧ denotes (l ++ l') key g.
Proof.
  induction g as [|m g IH]; intros t l Ht Hl Hg HK; cbn [with_symbol_ids].
  - exists t, [], []. rewrite app_nil_r. split_and!; [done|done|done|constructor].
  - destruct (tab_insert t l m.2 K Ht Hl) as (s & l1 & E & T & S & Hs); [apply Hg; left|done|]. rewrite E.
    destruct (IH _ _ T S) as (t' & l' & key & -> & T' & S' & D); [intros x Hx; apply Hg; by right|done|].
    exists t', (l1 ++ l'), ((m.1, s) :: key). rewrite app_assoc. split_and!; [done|done|done|].
    constructor; [|done]. split; [done|]. cbn. by apply lookup_app_l_Some.
Qed.
(** [seen] are the keys of the matches [G] *)
Definition seen_ok (l : list anno_key) (seen : gset (list (N * nat))) (G : list group) : Prop :=
  (∀ key, key ∈ seen → ∃ g, g ∈ G ∧ denotes l key g) ∧ (∀ g, g ∈ G → ∃ key, key ∈ seen ∧ denotes l key g).
Lemma seen_app l l' seen G : seen_ok l seen G → seen_ok (l ++ l') seen G.
Proof.
  intros [H1 H2]. split.
  - intros key Hk. destruct (H1 _ Hk) as (g & Hg & Hd). exists g. split; [done|]. by apply denotes_app.
  - intros g Hg. destruct (H2 _ Hg) as (key & Hk & Hd). exists key. split; [done|]. by apply denotes_app.
Qed.
Lemma unique_items_spec inv (K : list anno_key) items : ∀ t l seen G,
  tab t l → l ⊆ K → (N.of_nat (length K) <= usize_max)%N → seen_ok l seen G →
  (∀ g, IOk g ∈ items → ∃ g', reorder_match inv g = Some g' ∧ ∀ m, m ∈ g' → m.2 ∈ K) →
  ∃ out t' seen' l', unique_items inv items t seen = (out, t', seen') ∧ tab t' (l ++ l') ∧ l ++ l' ⊆ K ∧ seen_ok (l ++ l') seen' (G ++ oks out) ∧
    NoDup (oks out) ∧ (∀ g, g ∈ oks out → g ∉ G) ∧
    (∀ g', g' ∈ G ∨ g' ∈ oks out ↔ g' ∈ G ∨ ∃ g, IOk g ∈ items ∧ reorder_match inv g = Some g') ∧
    (IErr ∈ out ↔ IErr ∈ items) ∧ (IPanic ∈ out ↔ IPanic ∈ items).
Proof.
  induction items as [|i items IH]; intros t l seen G Ht Hl HK Hs Hr; cbn [unique_items].
  - exists [], t, seen, []. rewrite app_nil_r. cbn. rewrite app_nil_r. split_and!; try done.
    + constructor.
    + intros g Hg. inversion Hg.
    + intros g'. split; intros [H|H]; auto; [inversion H|]. destruct H as (g & H & _). inversion H.
  - assert (Hr' : ∀ g, IOk g ∈ items → ∃ g', reorder_match inv g = Some g' ∧ ∀ m, m ∈ g' → m.2 ∈ K) by (intros g Hg; apply Hr; by right).
    destruct i as [g| |].
    + destruct (Hr g) as (g' & Eg & Hg'); [left|]. rewrite Eg.
      destruct (with_symbol_ids_spec g' K t l Ht Hl Hg' HK) as (t1 & l1 & key & -> & T1 & S1 & D1).
      pose proof (seen_app l l1 seen G Hs) as Hs1. destruct (decide (key ∈ seen)) as [Hk|Hk].
      * destruct (IH t1 (l ++ l1) seen G T1 S1 HK Hs1 Hr') as (out & t' & seen' & l' & E & T & S & So & Nd & Dj & El & Er & Ep).
        exists out, t', seen', (l1 ++ l'). rewrite app_assoc. split_and!; try done.
        -- intros x. rewrite El. destruct Hs1 as [Hs1 _]. destruct (Hs1 _ Hk) as (g2 & Hg2 & D2).
           assert (g2 = g') as -> by (by eapply denotes_fun). split.
           ++ intros [H|(g0 & H & E0)]; [by left|]. right. exists g0. split; [by right|done].
           ++ intros [H|(g0 & [[= ->]|H]%elem_of_cons & E0)]; [by left| |right; eauto]. left. congruence.
        -- rewrite Er, elem_of_cons. split; [by right|]. intros [?|?]; done.
        -- rewrite Ep, elem_of_cons. split; [by right|]. intros [?|?]; done.
      * assert (g' ∉ G) as HgG.
        { intros Hin. destruct Hs1 as [_ Hs1]. destruct (Hs1 _ Hin) as (key2 & Hk2 & D2). apply Hk.
          assert (key = key2) as -> by (eapply denotes_inj; [apply T1|done|done]). done. }
        destruct (IH t1 (l ++ l1) ({[key]} ∪ seen) (G ++ [g']) T1 S1 HK) as (out & t' & seen' & l' & E & T & S & So & Nd & Dj & El & Er & Ep).
        { destruct Hs1 as [A B]. split.
          - intros k [->%elem_of_singleton|Hk']%elem_of_union.
            + exists g'. split; [apply elem_of_app; right; left|done].
            + destruct (A _ Hk') as (x & Hx & Dx). exists x. split; [apply elem_of_app; by left|done].
          - intros x [Hx|Hx%elem_of_list_singleton]%elem_of_app.
            + destruct (B _ Hx) as (k & Hk' & Dk). exists k. split; [apply elem_of_union; by right|done].
            + subst. exists key. split; [apply elem_of_union; left; by apply elem_of_singleton|done]. }
        { done. }
        rewrite E. exists (IOk g' :: out), t', seen', (l1 ++ l'). rewrite app_assoc.
        change (oks (IOk g' :: out)) with (g' :: oks out). rewrite <- (app_assoc G) in So.
        split_and!; try done.
        -- constructor; [|done]. intros Hin. apply Dj in Hin. apply Hin. apply elem_of_app. right. left.
        -- intros x [->|Hx]%elem_of_cons; [done|]. intros HxG. apply Dj in Hx. apply Hx. apply elem_of_app. by left.
        -- intros x. specialize (El x). rewrite elem_of_app, elem_of_list_singleton in El. rewrite elem_of_cons. split.
           ++ intros [H|[->|H]]; [by left|right; exists g; split; [left|done]|].
              destruct El as [El _]. destruct (El (or_intror H)) as [[H'|H']|(g0 & H' & E0)]; [by left|subst; right; exists g; split; [left|done]|].
              right. exists g0. split; [by right|done].
           ++ intros [H|(g0 & [[= ->]|H]%elem_of_cons & E0)]; [by left|right; left; congruence|].
              destruct El as [_ El]. destruct El as [[H'|H']|H']; [right; eauto|by left|by right; left|by right; right].
        -- rewrite !elem_of_cons. rewrite Er. split; intros [?|?]; try done; by right.
        -- rewrite !elem_of_cons. rewrite Ep. split; intros [?|?]; try done; by right.
    + destruct (IH t l seen G Ht Hl HK Hs Hr') as (out & t' & seen' & l' & E & T & S & So & Nd & Dj & El & Er & Ep). rewrite E.
      exists (IErr :: out), t', seen', l'. change (oks (IErr :: out)) with (oks out). split_and!; try done.
      * intros x. rewrite El. split; (intros [H|(g0 & H & E0)]; [by left|]); right; exists g0; (split; [|done]); [by right|].
        apply elem_of_cons in H as [H|H]; done.
      * split; intros _; left.
      * rewrite !elem_of_cons. rewrite Ep. split; intros [?|?]; try done; by right.
    + destruct (IH t l seen G Ht Hl HK Hs Hr') as (out & t' & seen' & l' & E & T & S & So & Nd & Dj & El & Er & Ep). rewrite E.
      exists (IPanic :: out), t', seen', l'. change (oks (IPanic :: out)) with (oks out). split_and!; try done.
      * intros x. rewrite El. split; (intros [H|(g0 & H & E0)]; [by left|]); right; exists g0; (split; [|done]); [by right|].
        apply elem_of_cons in H as [H|H]; done.
      * rewrite !elem_of_cons. rewrite Er. split; intros [?|?]; try done; by right.
      * split; intros _; left.
Qed.
Lemma unique_plans_spec (K : list anno_key) plans : ∀ t l seen G,
  tab t l → l ⊆ K → (N.of_nat (length K) <= usize_max)%N → seen_ok l seen G →
  (∀ inv items g, (inv, items) ∈ plans → IOk g ∈ items → ∃ g', reorder_match inv g = Some g' ∧ ∀ m, m ∈ g' → m.2 ∈ K) →
  let out := unique_plans plans t seen in
  NoDup (oks out) ∧ (∀ g, g ∈ oks out → g ∉ G) ∧
  (∀ g', g' ∈ G ∨ g' ∈ oks out ↔ g' ∈ G ∨ ∃ inv items g, (inv, items) ∈ plans ∧ IOk g ∈ items ∧ reorder_match inv g = Some g') ∧
  (∀ e, e = IErr ∨ e = IPanic → e ∈ out ↔ ∃ inv items, (inv, items) ∈ plans ∧ e ∈ items).
Proof.
  induction plans as [|[inv items] plans IH]; intros t l seen G Ht Hl HK Hs Hr; cbn [unique_plans].
  - cbn. split_and!.
    + constructor.
    + intros g Hg. inversion Hg.
    + intros g'. split; intros [H|H]; auto; [inversion H|]. destruct H as (? & ? & ? & H & _). inversion H.
    + intros e _. split; [intros H; inversion H|]. intros (? & ? & H & _). inversion H.
  - destruct (unique_items_spec inv K items t l seen G Ht Hl HK Hs) as (out & t' & seen' & l' & E & T & S & So & Nd & Dj & El & Er & Ep).
    { intros g Hg. eapply Hr; [left|done]. }
    rewrite E. specialize (IH t' (l ++ l') seen' (G ++ oks out) T S HK So). destruct IH as (Nd2 & Dj2 & El2 & Er2).
    { intros inv' items' g Hin Hg. eapply Hr; [right; exact Hin|done]. }
    cbv zeta. rewrite oks_app. split_and!.
    + apply NoDup_app. split_and!; [done| |done]. intros x Hx Hx2. apply Dj2 in Hx2. apply Hx2. apply elem_of_app. by right.
    + intros x [Hx|Hx]%elem_of_app; [by apply Dj|]. intros HG. apply Dj2 in Hx. apply Hx. apply elem_of_app. by left.
    + intros x. specialize (El x). specialize (El2 x). rewrite elem_of_app in El2. rewrite elem_of_app.
      rewrite or_assoc_l.
      rewrite El2. split.
      * intros [H|(inv' & items' & g & H1 & H2 & H3)].
        -- apply El in H as [H|(g & H1 & H2)]; [by left|]. right. exists inv, items, g. split_and!; [left|done|done].
        -- right. exists inv', items', g. split_and!; [by right|done|done].
      * intros [H|(inv' & items' & g & [[= -> ->]|H1]%elem_of_cons & H2 & H3)]; [by left; left|left; apply El; right; eauto|right; eauto 10].
    + intros e He. rewrite elem_of_app, Er2 by done. assert (e ∈ out ↔ e ∈ items) as -> by (destruct He as [-> | ->]; done). split.
      * intros [H|(inv' & items' & H1 & H2)]; [exists inv, items; split; [left|done]|exists inv', items'; split; [by right|done]].
      * intros (inv' & items' & [[= -> ->]|H1]%elem_of_cons & H2); [by left|right; eauto].
Qed.

(** ** All alternatives *)
Lemma collect_plans_spec alts : Forall alternative_ok alts → ∃ plans, collect_plans alts = Some plans ∧
  ∀ inv items, (inv, items) ∈ plans ↔ ∃ pos, AOk pos items ∈ alts ∧ inv = inverse_node_pos pos.
Proof.
  induction 1 as [|a alts Ha H IH]; cbn [collect_plans].
  - exists []. split; [done|]. intros inv items. split; [intros H; inversion H|]. intros (pos & H & _). inversion H.
  - destruct IH as (plans & E & Hp). destruct a as [pos items| |]; [|done|].
    + rewrite E. cbn [mbind option_bind]. eexists. split; [done|]. intros inv its. rewrite elem_of_cons, Hp. split.
      * intros [[= -> ->]|(p & H1 & H2)]; [exists pos; split; [left|done]|exists p; split; [by right|done]].
      * intros (p & [[= -> ->]|H1]%elem_of_cons & H2); [left; by subst|right; eauto].
    + exists plans. split; [done|]. intros inv items. rewrite Hp. split; intros (p & H1 & H2); exists p; (split; [|done]); [by right|].
      apply elem_of_cons in H1 as [?|?]; done.
Qed.
Lemma match_iff alts (plans : list (option (list nat) * list item)) g' : Forall alternative_ok alts →
  (∀ inv items, (inv, items) ∈ plans ↔ ∃ pos, AOk pos items ∈ alts ∧ inv = inverse_node_pos pos) →
  (∃ inv items g, (inv, items) ∈ plans ∧ IOk g ∈ items ∧ reorder_match inv g = Some g') ↔ alternative_match alts g'.
Proof.
  intros Ha Hp. rewrite Forall_forall in Ha. split.
  - intros (inv & items & g & H1 & H2 & H3). apply Hp in H1 as (pos & H1 & ->). destruct (Ha _ H1) as [Hok Hlen].
    destruct (reorder_placed pos g Hok (Hlen _ H2)) as (g2 & E & Hpl & _). exists pos, items, g. split_and!; [done|done|]. congruence.
  - intros (pos & items & g & H1 & H2 & H3). destruct (Ha _ H1) as [Hok Hlen].
    destruct (reorder_placed pos g Hok (Hlen _ H2)) as (g2 & E & Hpl & _). exists (inverse_node_pos pos), items, g.
    split_and!; [apply Hp; eauto|done|]. rewrite E. f_equal. apply (placed_unique pos g g2 g' Hok (Hlen _ H2)); done.
Qed.
Theorem execution_plan_spec alts : Forall alternative_ok alts → few_keys alts →
  ∃ out, execution_plan alts = Some out ∧ (∀ g, g ∈ oks out ↔ alternative_match alts g) ∧
    (∀ e, e = IErr ∨ e = IPanic → e ∈ out ↔ has_item e alts) ∧
    (2 <= length (omap (λ a, match a with AOk pos items => Some items | _ => None end) alts) → NoDup (oks out)).
Proof.
  intros Ha (K & HK & Hdef & Hkeys). destruct (collect_plans_spec alts Ha) as (plans & E & Hp). unfold execution_plan. rewrite E. cbn [mbind option_bind].
  assert (length plans = length (omap (λ a, match a with AOk pos items => Some items | _ => None end) alts)) as Hlen.
  { clear -E. revert plans E. induction alts as [|[pos items| |] alts IH]; intros plans E; cbn [collect_plans] in E.
    - by injection E as <-.
    - destruct (collect_plans alts) as [l|]; [|done]. cbn in E. injection E as <-. cbn. f_equal. by apply IH.
    - done.
    - cbn. by apply IH. }
  assert (∀ inv items g, (inv, items) ∈ plans → IOk g ∈ items → ∃ g', reorder_match inv g = Some g' ∧ ∀ m, m ∈ g' → m.2 ∈ K) as Hre.
  { intros inv items g H1 H2. apply Hp in H1 as (pos & H1 & ->). rewrite Forall_forall in Ha. destruct (Ha _ H1) as [Hok Hl].
    destruct (reorder_placed pos g Hok (Hl _ H2)) as (g' & Eg & _ & Hm). exists g'. split; [done|]. intros m Hin.
    apply Hm in Hin as [Hin| ->]; [by eapply Hkeys|done]. }
  assert (∀ e, (∃ inv items, (inv, items) ∈ plans ∧ e ∈ items) ↔ has_item e alts) as Hitem.
  { intros e. split.
    - intros (inv & items & (pos & H1 & _)%Hp & H2). by exists pos, items.
    - intros (pos & items & H1 & H2). exists (inverse_node_pos pos), items. split; [apply Hp; eauto|done]. }
  destruct plans as [|[inv items] [|p2 plans]].
  - eexists. split; [done|]. split_and!.
    + intros g. rewrite <- (match_iff alts [] g Ha Hp). split; [intros H; inversion H|]. intros (? & ? & ? & H & _). inversion H.
    + intros e He. rewrite <- Hitem. split; [intros H; inversion H|]. intros (? & ? & H & _). inversion H.
    + intros _. constructor.
  - eexists. split; [done|]. split_and!.
    + intros g. rewrite <- (match_iff alts [(inv, items)] g Ha Hp). rewrite elem_of_oks. unfold proxy_items. rewrite elem_of_list_fmap. split.
      * intros ([g0| |] & Eg & Hg); [|done|done]. destruct (reorder_match inv g0) as [g'|] eqn:Er; [|done]. injection Eg as ->.
        exists inv, items, g0. split_and!; [left|done|done].
      * intros (inv' & its & g0 & H1%elem_of_list_singleton & H2 & H3). injection H1 as -> ->. exists (IOk g0). split; [|done]. by rewrite H3.
    + intros e He. rewrite <- Hitem. unfold proxy_items. rewrite elem_of_list_fmap. split.
      * intros (i & -> & Hi). exists inv, items. split; [left|]. destruct i as [g0| |]; [|done|done].
        destruct (Hre inv items g0) as (g' & Eg & _); [left|done|]. rewrite Eg in He. by destruct He.
      * intros (inv' & its & H1%elem_of_list_singleton & H2). injection H1 as -> ->. exists e. split; [|done]. by destruct He as [-> | ->].
    + rewrite <- Hlen. cbn. lia.
  - eexists. split; [done|].
    destruct (unique_plans_spec K ((inv, items) :: p2 :: plans) st_new [] ∅ [] tab_new) as (Nd & Dj & El & Er); [intros x Hx; inversion Hx|done| |done|].
    { split; [intros key H; by apply elem_of_empty in H|intros g H; inversion H]. }
    split_and!; [| |done].
    + intros g. rewrite <- (match_iff alts _ g Ha Hp). specialize (El g). split.
      * intros H. destruct El as [El _]. destruct (El (or_intror H)) as [H'|H']; [inversion H'|done].
      * intros H. destruct El as [_ El]. destruct (El (or_intror H)) as [H'|H']; [inversion H'|done].
    + intros e He. rewrite (Er e He). apply Hitem.
Qed.
(** A single plan keeps the number and the order of the matches *)
Lemma single_plan pos items : positions_ok pos → (∀ g, IOk g ∈ items → length g = size pos) →
  ∃ out, execution_plan [AOk pos items] = Some out ∧
    Forall2 (λ i o, match i, o with IOk g, IOk g' => placed pos g g' | IErr, IErr | IPanic, IPanic => True | _, _ => False end) items out.
Proof.
  intros Hp Hl. cbn. eexists. split; [done|]. unfold proxy_items. induction items as [|i items IH]; [constructor|].
  cbn. constructor; [|apply IH; intros g Hg; apply Hl; by right]. destruct i as [g| |]; [|done|done].
  destruct (reorder_placed pos g Hp) as (g' & -> & Hpl & _); [apply Hl; left|]. done.
Qed.

(** ** Nodes of the output *)
Lemma unique_by_spec l : ∀ seen, no_error l →
  let out := unique_by seen l in
  no_error out ∧ NoDup (oks out) ∧ ∀ g, g ∈ oks out ↔ g ∈ oks l ∧ g ∉ seen.
Proof.
  induction l as [|i l IH]; intros seen Hn; cbn [unique_by].
  - cbv zeta. split; [done|]. split; [constructor|]. intros g. split; [intros H; inversion H|intros [H _]; inversion H].
  - destruct Hn as [Hn1 Hn2]. destruct i as [g| |]; [|destruct Hn1; left|destruct Hn2; left].
    assert (no_error l) as Hn' by (split; intros H; [apply Hn1|apply Hn2]; by right).
    change (oks (IOk g :: l)) with (g :: oks l). case_decide as D.
    + destruct (IH seen Hn') as (N & U & E). split; [done|]. split; [done|]. intros x. rewrite E, elem_of_cons. split.
      * intros [H1 H2]. auto.
      * intros [[-> |H1] H2]; done.
    + destruct (IH ({[g]} ∪ seen) Hn') as (N & U & E). change (oks (IOk g :: unique_by ({[g]} ∪ seen) l)) with (g :: oks (unique_by ({[g]} ∪ seen) l)).
      cbv zeta. destruct N as [N1 N2]. split; [|split].
      * split; intros [?|?]%elem_of_cons; done.
      * constructor; [|done]. intros H. apply E in H as [_ H]. apply H. apply elem_of_union. left. by apply elem_of_singleton.
      * intros x. rewrite !elem_of_cons, E. destruct (decide (x = g)) as [->|Dx].
        -- split; [intros _; split; [by left|done]|intros _; by left].
        -- split.
           ++ intros [?|[H1 H2]]; [done|]. split; [by right|]. intros H. apply H2. apply elem_of_union. by right.
           ++ intros [[?|H1] H2]; [done|]. right. split; [done|]. intros [H%elem_of_singleton|H]%elem_of_union; done.
Qed.
Lemma variable_single vs k : variable_by_node_nr [AltVars 0 vs] k = fst <$> vs !! k.
Proof. unfold variable_by_node_nr. cbn [omap list_omap av_offset av_vars]. rewrite decide_True by lia. rewrite Nat.sub_0_r. by destruct (vs !! k) as [[? ?]|]. Qed.
Lemma included_single vs v var b : NoDup (fst <$> vs) → vs !! v = Some (var, b) → included_in_output [AltVars 0 vs] var = b.
Proof.
  intros Hnd Hv. unfold included_in_output. cbn. rewrite orb_false_r. destruct b.
  - apply bool_decide_eq_true. by eapply elem_of_list_lookup_2.
  - apply bool_decide_eq_false. intros [w Hw]%elem_of_list_lookup. assert (v = w) as ->; [|congruence].
    eapply NoDup_lookup; [exact Hnd| |]; rewrite list_lookup_fmap; [rewrite Hv|rewrite Hw]; done.
Qed.
Lemma omap_imap {A B C} (f : B → option C) (g : nat → A → B) (l : list A) : omap f (imap g l) = omap id (imap (λ i x, f (g i x)) l).
Proof. revert g. induction l as [|x l IH]; intros g; [done|]. cbn. destruct (f (g 0 x)); cbn; [f_equal|]; apply IH. Qed.
Lemma output_nodes_single vs mg : NoDup (fst <$> vs) →
  output_nodes [AltVars 0 vs] mg = snd <$> filter (λ p, p.1.2 = true) (zip vs mg).
Proof.
  intros Hnd. unfold output_nodes. rewrite omap_imap.
  assert (∀ rest k, (∀ i, vs !! (k + i) = rest !! i) → omap id (imap (λ i x,
     match variable_by_node_nr [AltVars 0 vs] (k + i) with Some var => if included_in_output [AltVars 0 vs] var then Some x else None | None => None end) mg)
     = snd <$> filter (λ p, p.1.2 = true) (zip rest mg)) as H.
  { induction mg as [|m mg IH]; intros rest k Hr; [by destruct rest|]. cbn [imap].
    destruct rest as [|[var b] rest].
    - rewrite variable_single, Nat.add_0_r. pose proof (Hr 0) as H0. rewrite Nat.add_0_r, lookup_nil in H0. rewrite H0. cbn [fmap option_fmap option_map omap list_omap id].
      clear IH H0. assert (∀ k', k <= k' → vs !! k' = None) as Hk. { intros k' Hk. specialize (Hr (k' - k)). replace (k + (k' - k)) with k' in Hr by lia. by rewrite lookup_nil in Hr. }
      change (zip [] (m :: mg)) with (@nil (list N * bool * match_)). clear Hr m. assert (∀ j, omap id (imap (λ n x, match variable_by_node_nr [AltVars 0 vs] (k + (S (j + n))) with Some var => if included_in_output [AltVars 0 vs] var then Some x else None | None => None end) mg) = []) as H.
      { induction mg as [|m mg IH]; intros j; [done|]. cbn [imap]. rewrite variable_single, Hk by lia. cbn [fmap option_fmap option_map omap list_omap id].
        etransitivity; [|apply (IH (S j))]. f_equal. apply imap_ext. intros i x _. cbn. by rewrite !Nat.add_succ_r. }
      exact (H 0).
    - pose proof (Hr 0) as H0. rewrite Nat.add_0_r in *. cbn in H0.
      assert (variable_by_node_nr [AltVars 0 vs] k = Some var) as ->. { by rewrite variable_single, H0. }
      rewrite (included_single vs k var b Hnd H0).
      assert (omap id (imap ((λ i x, match variable_by_node_nr [AltVars 0 vs] (k + i) with Some v => if included_in_output [AltVars 0 vs] v then Some x else None | None => None end) ∘ S) mg)
              = snd <$> filter (λ p, p.1.2 = true) (zip rest mg)) as Hrest.
      { etransitivity; [|apply (IH rest (S k)); intros i; replace (S k + i) with (k + S i) by lia; apply (Hr (S i))].
        f_equal. apply imap_ext. intros i x _. cbn [compose]. by replace (k + S i) with (S k + i) by lia. }
      change (zip ((var, b) :: rest) (m :: mg)) with (((var, b), m) :: zip rest mg). rewrite filter_cons. cbn [fst snd].
      destruct b; cbn [omap list_omap id].
      + rewrite decide_True by done. cbn [fmap list_fmap snd]. f_equal. exact Hrest.
      + rewrite decide_False by done. exact Hrest. }
  apply (H vs 0). done.
Qed.
Lemma output_nodes_all vars n mg : Forall (λ a, ∀ v, v ∈ av_vars a → v.2 = true) vars → length mg <= n →
  (∀ v, v < n → ∃ a, a ∈ vars ∧ av_offset a <= v < av_offset a + length (av_vars a)) → output_nodes vars mg = mg.
Proof.
  intros Hi Hl Hc. unfold output_nodes. rewrite omap_imap.
  assert (∀ k, k + length mg <= n → omap id (imap (λ i x,
     match variable_by_node_nr vars (k + i) with Some var => if included_in_output vars var then Some x else None | None => None end) mg) = mg) as H.
  { clear Hl. induction mg as [|m mg IH]; intros k Hk; [done|]. cbn [imap]. cbn in Hk.
    assert (∃ var, variable_by_node_nr vars (k + 0) = Some var ∧ included_in_output vars var = true) as (var & -> & ->).
    { rewrite Nat.add_0_r. destruct (Hc k) as (a & Ha & Ho); [lia|]. unfold variable_by_node_nr.
      set (f := λ a, if decide (av_offset a <= k) then fst <$> av_vars a !! (k - av_offset a) else None).
      destruct (omap f vars) as [|var l] eqn:E.
      - exfalso. destruct (lookup_lt_is_Some_2 (av_vars a) (k - av_offset a)) as [x Hx]; [lia|].
        assert (x.1 ∈ omap f vars) as H. { apply elem_of_list_omap. exists a. split; [done|]. unfold f. rewrite decide_True by lia. by rewrite Hx. }
        rewrite E in H. inversion H.
      - exists var. split; [done|]. assert (var ∈ omap f vars) as H by (rewrite E; left). apply elem_of_list_omap in H as (b & Hb & H).
        unfold f in H. case_decide as D; [|done]. destruct (av_vars b !! (k - av_offset b)) as [[x y]|] eqn:Ex; [|done]. injection H as <-.
        unfold included_in_output. apply existsb_exists. exists b. split; [by apply elem_of_list_In|]. apply bool_decide_eq_true.
        rewrite Forall_forall in Hi. apply elem_of_list_lookup_2 in Ex. specialize (Hi b Hb _ Ex). cbn in Hi. subst. done. }
    cbn. f_equal. etransitivity; [|apply (IH (S k)); lia]. f_equal. apply imap_ext. intros i x _. cbn. by rewrite Nat.add_succ_r. }
  by apply (H 0).
Qed.
