From stdpp Require Import base list gmap.
From Coq Require Import NArith Lia.
From Verif Require Import ListExtra KeySer KeySerSpec SortedMap Types TypesProofs SymbolTable AnnoMem AnnoSpec AnnoMemProofs AnnoMemQueries
  GraphSpec Adjacency AdjacencySpec Storage StorageSpec GraphApply TokenHelper TokenSearchSpec SortMatches QuickSort TokenSearch
  Joins JoinsSpec NodeSearch NodeSearchSpec NodeSearchProofs TokenOps EdgeOps NonExisting NonExistingSpec.

Lemma all_filters_total fs c ok : conds_total fs → ∃ b, all_filters fs c ok = Some b ∧ (b = true ↔ ok = true ∧ Forall (λ f, f c = Some true) fs).
Proof.
  revert ok. induction fs as [|f fs IH]; intros ok Ht; cbn.
  - exists ok. split; [done|]. rewrite Forall_nil. tauto.
  - assert (is_Some (f c)) as [x Hx] by (destruct (f c) as [x|] eqn:E; [by exists x|]; exfalso; refine (Ht f c _ E); by left). rewrite Hx.
    destruct (IH (if x then ok else false)) as (b & E & Hb); [intros g m Hg; apply Ht; by right|].
    exists b. split; [done|]. rewrite Hb, Forall_cons. destruct x.
    + rewrite Hx. naive_solver.
    + rewrite Hx. naive_solver.
Qed.
Lemma no_candidate_total fs cands : conds_total fs →
  ∃ b, no_candidate fs cands = Some b ∧ (b = true ↔ ¬ ∃ c, c ∈ cands ∧ Forall (λ f, f c = Some true) fs).
Proof.
  intros Ht. induction cands as [|c cands IH]; cbn.
  - exists true. split; [done|]. split; [|done]. intros _ (? & ?%elem_of_nil & _). done.
  - destruct (all_filters_total fs c true Ht) as (x & -> & Hx). destruct x.
    + exists false. split; [done|]. split; [done|]. intros Hn. exfalso. apply Hn. exists c. split; [by left|]. by apply Hx.
    + destruct IH as (b & -> & Hb). exists b. split; [done|]. rewrite Hb. split.
      * intros Hn (c' & Hin & Hf). apply elem_of_cons in Hin as [->|Hin]; [|naive_solver]. assert (false = true) by (by apply Hx). done.
      * intros Hn (c' & Hin & Hf). apply Hn. exists c'. split; [by right|done].
Qed.
Lemma no_item_total test items : ∃ b, no_item test items = Some b ∧ (b = true ↔ ¬ ∃ x, x ∈ items ∧ test x = true).
Proof.
  induction items as [|x r (b & E & Hb)]; cbn.
  - exists true. split; [done|]. split; [|done]. intros _ (? & ?%elem_of_nil & _). done.
  - destruct (test x) eqn:Et.
    + exists false. split; [done|]. split; [done|]. intros Hn. exfalso. apply Hn. exists x. split; [by left|done].
    + exists b. split; [done|]. rewrite Hb. split.
      * intros Hn (y & Hin & Hy). apply elem_of_cons in Hin as [->|Hin]; [congruence|]. apply Hn. by exists y.
      * intros Hn (y & Hin & Hy). apply Hn. exists y. split; [by right|done].
Qed.

Section Proofs.
Context (rx : bytes → option (bytes → bool)) (exact : bytes → option bytes) (db : corpus) (c : content) (H : holds_content db c) (fuel : nat) (rnd : nat → nat).

Lemma iterator_keys ns name it n k : (n, k) ∈ am_get_keys_for_iterator (cp_annos db) ns (Some name) it ↔
  n ∈ it ∧ k ∈ am_get_all_keys (cp_annos db) n ns (Some name).
Proof using H.
  destruct (hc_labels _ _ H) as (ops & outs & Hr & HL). destruct (inv_run_new N.compare ops _ outs Hr) as [_ (leak & I & _)].
  rewrite (proj1 (keys_for_iterator_lemma N.compare _ leak _ ns (Some name) it I) n k).
  rewrite (proj2 (get_all_keys_lemma N.compare _ leak _ n ns (Some name) I) k). done.
Qed.
Lemma index_lemma s retrieve m R : valid_pattern rx s → (∀ n, n ∈ retrieve m ↔ R n) →
  ∃ b, index_not_exists rx db s retrieve m = Some b ∧ (b = true ↔ ¬ ∃ x k, meets rx c s x k ∧ R x).
Proof using H.
  intros Hv HR. assert (is_Some (value_filter rx db s)) as [fs Ef].
  { unfold valid_pattern in Hv. destruct s; cbn in Hv |- *; try (by eexists); try (destruct val; by eexists);
      destruct (Hv _ eq_refl) as [re ->]; by eexists. }
  unfold index_not_exists. destruct (spec_qname s) as [ns name] eqn:Eq. rewrite Ef. cbn [default].
  destruct (no_candidate_total fs (am_get_keys_for_iterator (cp_annos db) ns (Some name) (retrieve m))) as (b & E & Hb);
    [by eapply conditions_total|].
  exists b. split; [done|]. rewrite Hb. apply not_iff_compat. split.
  - intros ([x k] & Hin & Hf). apply iterator_keys in Hin as [H1 H2]. exists x, k. split; [|by apply HR].
    apply (conditions_iff rx db c H s fs x k Ef). by rewrite Eq.
  - intros (x & k & Hm & Hr). apply (conditions_iff rx db c H s fs x k Ef) in Hm as [H1 H2]. rewrite Eq in H1.
    exists (x, k). split; [|done]. apply iterator_keys. split; [by apply HR|done].
Qed.
Lemma filter_lemma s tl check m R se l : from_spec rx exact db fuel rnd s = Some se → se_items se = Done l →
  (∀ n k, (n, k) ∈ l ↔ ∃ k', meets rx c s n k' ∧ k = reported s k') →
  (∀ a b, check a b = true ↔ R a.1 b.1) →
  ∃ b, filter_not_exists rx exact db fuel rnd s tl check m = Some b ∧ (b = true ↔ ¬ exists_related rx c s tl R m.1).
Proof using.
  intros E El Hl HR. unfold filter_not_exists. rewrite E, El.
  destruct (no_item_total (if tl then (λ x, check x m) else (λ x, check m x)) l) as (b & Eb & Hb). exists b. split; [done|].
  rewrite Hb. apply not_iff_compat. unfold exists_related. split.
  - intros ([x k] & Hin & Ht). apply Hl in Hin as (k' & Hm & _). exists x, k'. split; [done|]. destruct tl; by apply HR in Ht.
  - intros (x & k & Hm & Hr). exists (x, reported s k). split; [apply Hl; by exists k|]. destruct tl; by apply HR.
Qed.
Lemma not_exists_lemma s tl op inv R m :
  valid_pattern rx s → decides op R → (∀ i, inv = Some i → decides i (λ a b, R b a)) →
  (∃ se l, from_spec rx exact db fuel rnd s = Some se ∧ se_items se = Done l ∧ ∀ n k, (n, k) ∈ l ↔ ∃ k', meets rx c s n k' ∧ k = reported s k') →
  ∃ b, not_exists rx exact db fuel rnd s tl op inv m = Some b ∧ (b = true ↔ ¬ exists_related rx c s tl R m.1).
Proof using H.
  intros Hv [Hc Hr] Hi (se & l & E & El & Hl). unfold not_exists. destruct tl.
  - destruct inv as [i|].
    + destruct (Hi i eq_refl) as [Hc' Hr']. cbn [negb]. destruct i as [f|f ret].
      * destruct (filter_lemma s false f m (λ a b, R b a) se l E El Hl Hc') as (b & -> & Hb). by exists b.
      * destruct (index_lemma s ret m (λ n, R n m.1) Hv) as (b & -> & Hb); [intros n; apply Hr'|]. by exists b.
    + cbn [negb]. destruct (filter_lemma s true (op_check op) m R se l E El Hl Hc) as (b & -> & Hb). by exists b.
  - cbn [negb]. destruct op as [f|f ret].
    + destruct (filter_lemma s false f m R se l E El Hl Hc) as (b & -> & Hb). by exists b.
    + destruct (index_lemma s ret m (λ n, R m.1 n) Hv) as (b & -> & Hb); [intros n; apply Hr|]. by exists b.
Qed.
(** Without a search when the candidates come from an index *)
Lemma not_exists_index s f ret inv R m :
  valid_pattern rx s → decides (IndexOp f ret) R →
  ∃ b, not_exists rx exact db fuel rnd s false (IndexOp f ret) inv m = Some b ∧ (b = true ↔ ¬ exists_related rx c s false R m.1).
Proof using H.
  intros Hv [Hc Hr]. unfold not_exists. cbn [negb]. destruct (index_lemma s ret m (λ n, R m.1 n) Hv) as (b & -> & Hb); [intros n; apply Hr|]. by exists b.
Qed.
Lemma search_done s : s ≠ SAnyTok → exact_ok rx exact → valid_pattern rx s →
  ∃ se l, from_spec rx exact db fuel rnd s = Some se ∧ se_items se = Done l ∧ ∀ n k, (n, k) ∈ l ↔ ∃ k', meets rx c s n k' ∧ k = reported s k'.
Proof using H.
  intros Hs He Hv. destruct (from_spec rx exact db fuel rnd s) as [se|] eqn:E.
  - destruct (items_lemma rx exact db c H He fuel rnd s se E Hs) as (l & H1 & H2 & _). by exists se, l.
  - apply from_spec_none in E as (p & Hp & Hn). destruct (Hv p Hp) as [re Hre]. congruence.
Qed.
End Proofs.
