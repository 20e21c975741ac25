(** Proofs about the searches for single nodes. *)
From stdpp Require Import base list gmap.
From Coq Require Import NArith Lia.
From Verif Require Import ListExtra KeySer SortedMap Types SymbolTable AnnoMem AnnoSpec AnnoMemProofs AnnoMemQueries GraphSpec Adjacency AdjacencySpec
  Storage StorageSpec GraphApply TokenHelper SortMatches QuickSort TokenSearch TokenSearchSpec TokenSearchProofs Joins JoinsSpec NodeSearch NodeSearchSpec.

Lemma unique_nodup l : ∀ seen, NoDup l → (∀ m, m ∈ l → m ∉ seen) → unique seen l = l.
Proof.
  induction l as [|m l IH]; intros seen Hnd Hs; [done|]. apply NoDup_cons in Hnd as [Hm Hnd]. cbn.
  rewrite decide_False by (apply Hs; by left). f_equal. apply IH; [done|]. intros x Hx. apply not_elem_of_cons. split.
  - intros ->. done.
  - apply Hs. by right.
Qed.
Lemma meta_output_eq db meta name base : NoDup base →
  meta_output db meta name base = if meta then (λ m, (m.1, node_type_key)) <$> base else base.
Proof.
  intros Hnd. unfold meta_output. destruct meta; [|done]. f_equal. destruct (decide _); [done|]. apply unique_nodup; [done|].
  intros m _. apply not_elem_of_nil.
Qed.
Lemma meta_output_in db meta name base n k : NoDup base →
  (n, k) ∈ meta_output db meta name base ↔ ∃ k', (n, k') ∈ base ∧ k = if meta then node_type_key else k'.
Proof.
  intros Hnd. rewrite meta_output_eq by done. destruct meta.
  - rewrite elem_of_list_fmap. split.
    + intros ([n' k'] & [= -> ->] & Hin). by exists k'.
    + intros (k' & Hin & ->). by exists (n, k').
  - split; [intros Hin; by exists k|]. by intros (k' & Hin & ->).
Qed.
Lemma meta_output_nodup db meta name base : NoDup base → (meta = true → ∀ n k k', (n, k) ∈ base → (n, k') ∈ base → k = k') →
  NoDup (meta_output db meta name base).
Proof.
  intros Hnd Hu. rewrite meta_output_eq by done. destruct meta; [|done]. apply NoDup_fmap_inj_on; [done|].
  intros [n k] [n' k'] Ha Hb [= <-]. f_equal. by eapply Hu.
Qed.

Section search.
Context (rx : bytes → option (bytes → bool)) (exact : bytes → option bytes) (db : corpus) (c : content).
Context (H : holds_content db c) (He : exact_ok rx exact).

Lemma on_value_iff test n k : on_value db test (n, k) = Some true ↔ ∃ v, label c n k v ∧ test v = true.
Proof using H.
  destruct (labels_inv db c H) as [leak I]. unfold on_value, label. cbn [fst snd]. rewrite (get_value_lemma N.compare _ leak _ n k I).
  split.
  - destruct (ct_labels c !! (n, k)) as [v|]; [|done]. intros [= E]. by exists v.
  - intros (v & -> & ->). done.
Qed.
Lemma is_leaf_iff n : is_leaf db n = true ↔ ¬ covers_something c n.
Proof using H.
  destruct (th_some db c H) as (th & Eth & _ & Ec & _). unfold is_leaf. rewrite <- Ec. fold (has_outgoing_coverage th n).
  rewrite <- (coverage_iff db c H th n Eth). destruct (has_outgoing_coverage th n); cbn; naive_solver.
Qed.
Lemma leaf_iff n k : leaf_filter db (n, k) = Some true ↔ ¬ covers_something c n.
Proof using H. rewrite <- is_leaf_iff. unfold leaf_filter. cbn [fst]. split; [by intros [= ->]|by intros ->]. Qed.
Lemma keys_in n ns name k : k ∈ am_get_all_keys (cp_annos db) n ns (Some name) ↔ is_Some (ct_labels c !! (n, k)) ∧ key_matches ns name k.
Proof using H. destruct (labels_inv db c H) as [leak I]. apply (get_all_keys_lemma N.compare _ leak _ n ns (Some name) I). Qed.
Lemma exact_in ns name vs n k : (n, k) ∈ am_exact_search (cp_annos db) ns name vs ↔
  key_matches ns name k ∧ ∃ v, label c n k v ∧ value_matches vs v.
Proof using H. destruct (labels_inv db c H) as [leak I]. apply (exact_search_lemma N.compare _ leak _ ns name vs I). Qed.
Lemma exact_nodup ns name vs : NoDup (am_exact_search (cp_annos db) ns name vs).
Proof using H. destruct (labels_inv db c H) as [leak I]. apply (exact_search_lemma N.compare _ leak _ ns name vs I). Qed.
Lemma regex_in ns name re negated n k : (n, k) ∈ am_regex_search (cp_annos db) ns name (Some re) negated ↔
  key_matches ns name k ∧ ∃ v, label c n k v ∧ re v = negb negated.
Proof using H. destruct (labels_inv db c H) as [leak I]. apply (regex_search_lemma N.compare _ leak _ ns name (Some re) negated I). Qed.
Lemma regex_nodup ns name re negated : NoDup (am_regex_search (cp_annos db) ns name re negated).
Proof using H. destruct (labels_inv db c H) as [leak I]. apply (regex_search_lemma N.compare _ leak _ ns name re negated I). Qed.
Lemma key_is k0 k : key_matches (Some (ak_ns k0)) (ak_name k0) k ↔ k = k0.
Proof. unfold key_matches. destruct k, k0. cbn. naive_solver. Qed.

(** The conditions of the description are those of the specification *)
Lemma conditions_iff s fs n k : value_filter rx db s = Some fs →
  (k ∈ am_get_all_keys (cp_annos db) n (spec_qname s).1 (Some (spec_qname s).2) ∧ Forall (λ f, f (n, k) = Some true) fs) ↔ meets rx c s n k.
Proof using H.
  intros Ef. rewrite keys_in. unfold token, label in *.
  destruct s as [ns name [x|] meta|ns name x meta|ns name p meta|ns name p meta|x leafs|x|p leafs|p| |]; cbn in Ef |- *;
    try (destruct (rx p) as [re|] eqn:Er; [|discriminate Ef]; cbn in Ef); injection Ef as <-;
    try destruct leafs; rewrite ?Forall_cons, ?Forall_nil, ?on_value_iff, ?leaf_iff, ?(key_is tok_key), ?(key_is node_type_key); unfold label, eq_value, neq_value, is_Some in *;
    setoid_rewrite negb_true_iff || idtac; repeat setoid_rewrite bool_decide_eq_true || idtac; repeat setoid_rewrite bool_decide_eq_false || idtac;
    try solve [naive_solver].
  all: unfold token, is_Some; naive_solver.
Qed.
Lemma conditions_total s fs : value_filter rx db s = Some fs → conds_total fs.
Proof.
  intros Ef f m Hf.
  destruct s as [ns name [x|] meta|ns name x meta|ns name p meta|ns name p meta|x leafs|x|p leafs|p| |]; cbn in Ef;
    try (destruct (rx p) as [re|] eqn:Er; [|discriminate Ef]; cbn in Ef); injection Ef as <-;
    try destruct leafs; rewrite ?elem_of_cons, ?elem_of_nil in Hf;
    repeat destruct Hf as [Hf|Hf]; subst; done.
Qed.
(** Nothing but an invalid pattern is an error *)
Lemma from_spec_none fuel rnd s : from_spec rx exact db fuel rnd s = None ↔ ∃ p, pattern s = Some p ∧ rx p = None.
Proof.
  unfold from_spec. destruct s as [ns name [x|] meta|ns name x meta|ns name p meta|ns name p meta|x leafs|x|p leafs|p| |]; cbn;
    try (destruct (rx p) eqn:Er; cbn); naive_solver.
Qed.

Lemma items_lemma fuel rnd s se : from_spec rx exact db fuel rnd s = Some se → s ≠ SAnyTok →
  ∃ l, se_items se = Done l ∧ (∀ n k, (n, k) ∈ l ↔ ∃ k', meets rx c s n k' ∧ k = reported s k') ∧ (meta_unique c s → NoDup l).
Proof using H He.
  intros E Hs. unfold from_spec in E.
  assert (∀ ns name vs fs (meta : bool), ∃ l, se_items (annosearch_exact db ns name vs fs meta) = Done l ∧
    (∀ n k, (n, k) ∈ l ↔ ∃ k', (key_matches ns name k' ∧ ∃ v, label c n k' v ∧ value_matches vs v) ∧ k = if meta then node_type_key else k') ∧
    (match meta with true => one_namespace c ns name | false => True end → NoDup l)) as HE.
  { intros ns name vs fs meta. exists (meta_output db meta name (am_exact_search (cp_annos db) ns name vs)). split_and!; [done| |].
    - intros n k. rewrite meta_output_in by apply exact_nodup. by setoid_rewrite exact_in.
    - intros Hu. apply meta_output_nodup; [apply exact_nodup|]. intros -> n k k' (Hk & v & Hv & _)%exact_in (Hk' & v' & Hv' & _)%exact_in.
      apply (Hu n k k'); [done|done| |]; by eexists. }
  assert (∀ ns name p re negated fs (meta : bool), rx p = Some re → ∃ l, se_items (annosearch_regex rx db ns name p negated fs meta) = Done l ∧
    (∀ n k, (n, k) ∈ l ↔ ∃ k', (key_matches ns name k' ∧ ∃ v, label c n k' v ∧ re v = negb negated) ∧ k = if meta then node_type_key else k') ∧
    (match meta with true => one_namespace c ns name | false => True end → NoDup l)) as HR.
  { intros ns name p re negated fs meta Er. exists (meta_output db meta name (am_regex_search (cp_annos db) ns name (rx p) negated)). rewrite Er.
    split_and!; [unfold annosearch_regex; by rewrite Er| |].
    - intros n k. rewrite meta_output_in by apply regex_nodup. by setoid_rewrite regex_in.
    - intros Hu. apply meta_output_nodup; [apply regex_nodup|]. intros -> n k k' (Hk & v & Hv & _)%regex_in (Hk' & v' & Hv' & _)%regex_in.
      apply (Hu n k k'); [done|done| |]; by eexists. }
  assert (∀ val negated fs (leafs regex : bool), (regex = true → is_Some (rx val)) →
    ∃ l, se_items (tokensearch rx db val negated fs leafs regex) = Done l ∧ NoDup l ∧
    ∀ n k, (n, k) ∈ l ↔ k = node_type_key ∧ (leafs = true → ¬ covers_something c n) ∧ ∃ v, label c n tok_key v ∧
      if regex then ∃ re, rx val = Some re ∧ re v = negb negated else if negated then v ≠ val else v = val) as HT.
  { intros val negated fs leafs regex Hre. unfold tokensearch. cbn [se_items].
    set (base := if regex then _ else _).
    assert (NoDup base ∧ ∀ n k, (n, k) ∈ base ↔ k = tok_key ∧ ∃ v, label c n tok_key v ∧
      if regex then ∃ re, rx val = Some re ∧ re v = negb negated else if negated then v ≠ val else v = val) as [Hnd Hb].
    { unfold base. destruct regex.
      - destruct (Hre eq_refl) as [re Er]. rewrite Er. split; [apply regex_nodup|]. intros n k. rewrite regex_in, key_is. naive_solver.
      - split; [apply exact_nodup|]. intros n k. rewrite exact_in, key_is. unfold value_matches. destruct negated; naive_solver. }
    assert (∀ base', NoDup base' → (∀ n k, (n, k) ∈ base' ↔ k = tok_key ∧ (leafs = true → ¬ covers_something c n) ∧ ∃ v, label c n tok_key v ∧
      if regex then ∃ re, rx val = Some re ∧ re v = negb negated else if negated then v ≠ val else v = val) →
      ∃ l, @Done (list match_) ((λ m : match_, (m.1, node_type_key)) <$> base') = Done l ∧ NoDup l ∧
        ∀ n k, (n, k) ∈ l ↔ k = node_type_key ∧ (leafs = true → ¬ covers_something c n) ∧ ∃ v, label c n tok_key v ∧
        if regex then ∃ re, rx val = Some re ∧ re v = negb negated else if negated then v ≠ val else v = val) as HF.
    { intros base' Hnd' Hb'. eexists. split; [done|]. split.
      - apply NoDup_fmap_inj_on; [done|]. intros [n k] [n' k'] [-> _]%Hb' [-> _]%Hb' [= <-]. done.
      - intros n k. rewrite elem_of_list_fmap. split.
        + intros ([n' k'] & [= -> ->] & [_ Hin]%Hb'). done.
        + intros [-> Hin]. exists (n, tok_key). split; [done|]. by apply Hb'. }
    destruct leafs.
    - apply HF; [by apply NoDup_filter|]. intros n k. rewrite elem_of_list_filter, Hb. cbn [fst]. rewrite is_leaf_iff. naive_solver.
    - apply HF; [done|]. intros n k. rewrite Hb. naive_solver. }
  destruct s as [ns name val meta|ns name x meta|ns name p meta|ns name p meta|x leafs|x|p leafs|p| |]; cbn [value_filter reported meta_unique meets] in *.
  - assert (∃ fs, se = annosearch_exact db ns name (match val with Some v => VSome v | None => VAny end) fs meta) as [fs ->]
      by (destruct val; cbn in E; injection E as <-; by eexists).
    destruct (HE ns name (match val with Some v => VSome v | None => VAny end) fs meta) as (l & E1 & E2 & E3). exists l. split_and!; [done| |done].
    intros n k. rewrite E2. apply base.exist_proper. intros k'. destruct val; cbn; naive_solver.
  - cbn in E. injection E as <-. destruct (HE ns name (VNotSome x) [on_value db (neq_value x)] meta) as (l & E1 & E2 & E3). by exists l.
  - destruct (rx p) as [re|] eqn:Er; [|discriminate E]. cbn in E. destruct (exact p) as [v|] eqn:Ex; injection E as <-.
    + edestruct HE as (l & E1 & E2 & E3). exists l. split_and!; [exact E1| |exact E3]. intros n k. rewrite E2. cbn.
      pose proof (He p v re Ex Er) as Hv. naive_solver.
    + edestruct HR as (l & E1 & E2 & E3); [exact Er|]. exists l. split_and!; [exact E1| |exact E3]. intros n k. rewrite E2. cbn. naive_solver.
  - destruct (rx p) as [re|] eqn:Er; [|discriminate E]. cbn in E. destruct (exact p) as [v|] eqn:Ex; injection E as <-.
    + edestruct HE as (l & E1 & E2 & E3). exists l. split_and!; [exact E1| |exact E3]. intros n k. rewrite E2. cbn.
      assert (∀ w, re w = false ↔ w ≠ v) as Hv by (intros w; rewrite <- (He p v re Ex Er w); destruct (re w); naive_solver). naive_solver.
    + edestruct HR as (l & E1 & E2 & E3); [exact Er|]. exists l. split_and!; [exact E1| |exact E3]. intros n k. rewrite E2. cbn. naive_solver.
  - cbn in E. injection E as <-. edestruct (λ fs lf, HT x false fs lf false ltac:(done)) as (l & E1 & E2 & E3). exists l. split_and!; [exact E1| |done].
    intros n k. rewrite E3. unfold token, label, is_Some. naive_solver.
  - cbn in E. injection E as <-. edestruct (λ fs lf, HT x true fs lf false ltac:(done)) as (l & E1 & E2 & E3). exists l. split_and!; [exact E1| |done].
    intros n k. rewrite E3. unfold token, label, is_Some. naive_solver.
  - destruct (rx p) as [re|] eqn:Er; [|discriminate E]. cbn in E. injection E as <-.
    assert (true = true → is_Some (rx p)) as Hre by (intros _; by rewrite Er). edestruct (λ fs lf, HT p false fs lf true Hre) as (l & E1 & E2 & E3). exists l. split_and!; [exact E1| |done].
    intros n k. rewrite E3. unfold token, label, is_Some. cbn. naive_solver.
  - destruct (rx p) as [re|] eqn:Er; [|discriminate E]. cbn in E. injection E as <-.
    assert (true = true → is_Some (rx p)) as Hre by (intros _; by rewrite Er). edestruct (λ fs lf, HT p true fs lf true Hre) as (l & E1 & E2 & E3). exists l. split_and!; [exact E1| |done].
    intros n k. rewrite E3. unfold token, label, is_Some. cbn. naive_solver.
  - done.
  - cbn [mbind option_bind] in E. injection E as <-. 
    exists (am_exact_search (cp_annos db) (Some (ak_ns node_type_key)) (ak_name node_type_key) (VSome str_node)).
    split_and!; [reflexivity| |intros _; apply exact_nodup].
    intros n k. rewrite exact_in, key_is. unfold value_matches, label. naive_solver.
Qed.

Lemma desc_lemma fuel rnd s se : from_spec rx exact db fuel rnd s = Some se →
  value_filter rx db s = Some (se_cond se) ∧ se_qname se = spec_qname s ∧ ∀ k, default k (se_const se) = reported s k.
Proof.
  unfold from_spec. intros E. destruct (value_filter rx db s) as [fs|] eqn:Ef; [|discriminate E]. cbn [mbind option_bind] in E.
  injection E as <-.
  destruct s as [ns name val meta|ns name x meta|ns name p meta|ns name p meta|x leafs|x|p leafs|p| |]; cbn [value_filter] in Ef;
    try (destruct (rx p) eqn:Er; [|discriminate Ef]); try (destruct (exact p)); try destruct meta; try (split_and!; done).
Qed.
Lemma agrees_lemma fuel rnd s se l : from_spec rx exact db fuel rnd s = Some se →
  (∀ n k, (n, k) ∈ l ↔ ∃ k', meets rx c s n k' ∧ k = reported s k') →
  search_agrees (search_keys db se) (se_cond se) (se_const se) l ∧ conds_total (se_cond se).
Proof using H.
  intros E Hl. destruct (desc_lemma _ _ _ _ E) as (Ef & Eq & Ec). split; [|by eapply conditions_total].
  intros n k. rewrite Hl. apply base.exist_proper. intros k'. rewrite Ec. unfold search_keys. rewrite Eq.
  rewrite <- (conditions_iff s _ n k' Ef). tauto.
Qed.
Lemma meets_all_iff fs m : conds_total fs → meets_all fs m = true ↔ Forall (λ f, f m = Some true) fs.
Proof.
  intros Ht. unfold meets_all. rewrite forallb_forall, Forall_forall. setoid_rewrite elem_of_list_In. apply forall_proper. intros f.
  split; intros Hf Hin; specialize (Hf Hin); specialize (Ht f m ltac:(by apply elem_of_list_In)); destruct (f m) as [[]|]; done.
Qed.
Lemma component_lemma fuel rnd s se comps ea : from_spec rx exact db fuel rnd s = Some se →
  ∃ l, se_items (component_search db se comps ea) = Done l ∧
  ∀ n k, (n, k) ∈ l ↔ meets rx c s n k ∧ n ∈ component_nodes comps ea.
Proof using H.
  intros E. destruct (desc_lemma _ _ _ _ E) as (Ef & Eq & Ec). eexists. split; [reflexivity|]. intros n k.
  rewrite elem_of_list_filter. rewrite meets_all_iff by (by eapply conditions_total).
  rewrite <- (conditions_iff s _ n k Ef). rewrite elem_of_list_join. setoid_rewrite elem_of_list_fmap. unfold search_keys. rewrite Eq. split.
  - intros (Hc & l & Hl & n' & -> & Hn). apply elem_of_list_fmap in Hl as (k' & [= <- <-] & Hk). done.
  - intros [[Hk Hc] Hn]. split; [done|]. eexists. split; [|by exists n]. apply elem_of_list_fmap. by exists k.
Qed.
Lemma component_once fuel rnd s se comps ea l : from_spec rx exact db fuel rnd s = Some se → NoDup (component_nodes comps ea) →
  se_items (component_search db se comps ea) = Done l → NoDup l.
Proof using H.
  intros E Hnd [= <-]. apply NoDup_filter. destruct (labels_inv db c H) as [leak I].
  apply mjoin_nodup; [done| |].
  - intros n _. apply NoDup_fmap; [intros ? ? [= ->]; done|]. apply (get_all_keys_lemma N.compare _ leak _ n _ _ I).
  - intros a b x _ _ Ha Hb. apply elem_of_list_fmap in Ha as (? & -> & _), Hb as (? & [= -> _] & _). done.
Qed.
End search.
Lemma component_nodes_in comps Gs n : Forall2 implements comps Gs → n ∈ component_nodes comps None ↔ ∃ G, G ∈ Gs ∧ is_source G n.
Proof.
  intros HF. unfold component_nodes. induction HF as [|gs G comps Gs Hi HF IH]; cbn.
  - split; [by intros Hn%elem_of_nil|]. intros (G & HG & _). by apply elem_of_nil in HG.
  - change (list_fmap _ _ ?f comps) with (f <$> comps). rewrite elem_of_app. rewrite (im_sources _ _ Hi n). setoid_rewrite elem_of_cons.
    rewrite IH. naive_solver.
Qed.
