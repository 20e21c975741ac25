From stdpp Require Import base list gmap fin_maps fin_sets sorting.
From Coq Require Import NArith Lia.
From Verif Require Import KeySer KeySerSpec SortedMap Types SymbolTable SymTabIface AnnoMem AnnoMemProofs Dfs DfsProofs
  GraphSpec Adjacency AdjacencySpec AdjacencyProofs StatsProofs CopyProofs ListExtra Linear LinearSpec EdgeAnnoProofs LinearProofs.

(** ** Fuel *)
Lemma copy_root_none pmax f out annos roots :
  fold_left (lin_copy_root pmax f out annos) roots None = None.
Proof. induction roots as [|r roots IH]; [done|]. simpl. done. Qed.
Lemma copy_mono pmax f f' s roots out annos st r : f ≤ f' →
  lin_copy pmax f s roots out annos st = Some r → lin_copy pmax f' s roots out annos st = Some r.
Proof.
  intros Hf. unfold lin_copy.
  assert (∀ x y, fold_left (lin_copy_root pmax f out annos) roots x = Some y →
    fold_left (lin_copy_root pmax f' out annos) roots x = Some y) as H.
  { induction roots as [|a roots IH]; intros x y; [done|]. simpl.
    destruct (lin_copy_root pmax f out annos x a) as [z|] eqn:E; [|by rewrite copy_root_none].
    intros Hz. replace (lin_copy_root pmax f' out annos x a) with (Some z); [by apply IH|]. symmetry.
    destruct x as [[s1 ok]|]; [|done]. unfold lin_copy_root in *. simpl in *.
    destruct (dfs_loop out 1 usize_max f (dfs_new a)) as [[st' s']|] eqn:Ed; [|done].
    by rewrite (loop_mono out 1 usize_max f f' _ _ Hf Ed). }
  destruct (fold_left _ roots _) as [y|] eqn:E at 1; [|done]. intros Hy. by rewrite (H _ _ E).
Qed.

(** ** The copy *)
Lemma linear_copy_ok pmax g st s ok : fits_linear pmax (gr_edges g) → linear_copy_of pmax g st s ok →
  lin_ok s (gr_edges g) ∧ l_stats s = st ∧ (ok = true → ∃ leak, inv edge_compare (l_annos s) leak (gr_annos g)).
Proof.
  intros (Hch & Hsize & Hdepth) (f & sources & roots & out & annos & H & Hnd & Hroots & Hc).
  destruct (lin_copy_lemma pmax (gr_edges g) out annos Hch (h_out_nd _ _ _ _ H) (h_out _ _ _ _ H) Hsize) with
    (s0 := lin_new) (roots := roots) (st := st) as (f0 & Hf); [|done|done|].
  { intros x p y Hw. specialize (Hdepth x p y Hw). lia. }
  destruct (Hf (f `max` f0) ltac:(lia)) as (s' & ok' & nodes & Hs & L & Hst & Ha & Hn & Hnn).
  apply (copy_mono _ _ (f `max` f0)) in Hc; [|lia]. rewrite Hs in Hc. injection Hc as -> ->. split_and!; [done|done|].
  intros ->. rewrite copy_node_annos_fold in Ha.
  eapply (insert_edges_all annos (gr_annos g) (gr_edges g) (h_annos_nd _ _ _ _ H) (h_annos _ _ _ _ H)); [|apply H| |symmetry; exact Ha].
  - intros [a b]. rewrite elem_of_list_bind. split.
    + intros (x & (y & [= -> ->] & Hy)%elem_of_list_fmap & _). by apply (h_out _ _ _ _ H).
    + intros He. exists a. split; [apply elem_of_list_fmap; exists b; split; [done|by apply (h_out _ _ _ _ H)]|].
      apply Hn. by eapply en_l.
  - exists 0, ∅. apply AnnoMemProofs.inv_new.
Qed.
Lemma linear_copy_total pmax g sources roots out annos st : fits_linear pmax (gr_edges g) → holds sources out annos g →
  NoDup roots → (∀ r, r ∈ roots ↔ is_root (gr_edges g) r) →
  ∃ f0, ∀ f, f0 ≤ f → ∃ s ok, lin_copy pmax f lin_new roots out annos st = Some (s, ok) ∧
    ((N.of_nat (sum_list_with (λ e, length (annos e)) (elements (gr_edges g))) <= usize_max)%N → ok = true).
Proof.
  intros (Hch & Hsize & Hdepth) H Hnd Hroots.
  destruct (lin_copy_lemma pmax (gr_edges g) out annos Hch (h_out_nd _ _ _ _ H) (h_out _ _ _ _ H) Hsize) with
    (s0 := lin_new) (roots := roots) (st := st) as (f0 & Hf); [|done|done|].
  { intros x p y Hw. specialize (Hdepth x p y Hw). lia. }
  exists f0. intros f Hf0. destruct (Hf f Hf0) as (s & ok & nodes & Hs & L & Hst & Ha & Hn & Hnn).
  exists s, ok. split; [done|]. intros Hle. rewrite copy_node_annos_fold in Ha.
  eapply (insert_edges_len annos _ (am_clear am_new) 0 (l_annos s) ok); [simpl; lia|simpl; lia| |symmetry; exact Ha].
  replace (sum_list_with _ _) with (sum_list_with (λ e, length (annos e)) (elements (gr_edges g))); [done|].
  assert (∀ l l' : list edge, l ≡ₚ l' → sum_list_with (λ e, length (annos e)) l = sum_list_with (λ e, length (annos e)) l') as Hp.
  { induction 1; simpl; lia. }
  apply Hp, NoDup_Permutation; [apply NoDup_elements| |].
  - apply NoDup_bind_ext; [done| |].
    + intros x _. apply NoDup_fmap_inj_on; [apply H|]. by intros ? ? _ _ [= ->].
    + intros x y z _ _ (a & -> & _)%elem_of_list_fmap (b & [= -> _] & _)%elem_of_list_fmap. done.
  - intros [a b]. rewrite elem_of_elements, elem_of_list_bind. split.
    + intros He. exists a. split; [apply elem_of_list_fmap; exists b; split; [done|by apply (h_out _ _ _ _ H)]|].
      apply Hn. by eapply en_l.
    + intros (x & (y & [= -> ->] & Hy)%elem_of_list_fmap & _). by apply (h_out _ _ _ _ H).
Qed.

(** ** Queries *)
Lemma sublist_NoDup {A} (l k : list A) : l `sublist_of` k → NoDup k → NoDup l.
Proof.
  induction 1 as [|x l k Hs IH|x l k Hs IH]; [done|..]; intros [Hx Hk]%NoDup_cons; [|by apply IH].
  constructor; [|by apply IH]. intros Hin. apply Hx. eapply elem_of_submseteq; [done|]. by apply sublist_submseteq.
Qed.

Lemma elem_of_slice {A} (l : list A) a b x : x ∈ slice l a b ↔ ∃ j, a ≤ j < b ∧ l !! j = Some x.
Proof.
  unfold slice. rewrite elem_of_list_lookup. split.
  - intros [i Hi]. apply lookup_take_Some in Hi as [Hi Hlt]. rewrite lookup_drop in Hi. exists (a + i). split; [lia|done].
  - intros (j & Hj & Hl). exists (j - a). apply lookup_take_Some. rewrite lookup_drop.
    replace (a + (j - a)) with j by lia. split; [done|lia].
Qed.
Lemma NoDup_slice {A} (l : list A) a b : NoDup l → NoDup (slice l a b).
Proof.
  intros Hnd. unfold slice. apply (sublist_NoDup _ l); [|done]. etrans; [apply sublist_take|apply sublist_drop].
Qed.
Lemma elem_of_drop {A} (l : list A) a x : x ∈ drop a l ↔ ∃ j, a ≤ j ∧ l !! j = Some x.
Proof.
  rewrite elem_of_list_lookup. split.
  - intros [i Hi]. rewrite lookup_drop in Hi. exists (a + i). split; [lia|done].
  - intros (j & Hj & Hl). exists (j - a). rewrite lookup_drop. by replace (a + (j - a)) with j by lia.
Qed.

Section queries.
Context (pmax : N) (G : gset edge) (s : lin) (L : lin_ok s G) (F : fits_linear pmax G).
Notation E := (edge_rel G).

Lemma lin_ac : acyclic E.
Proof using F. apply F. Qed.

Lemma lin_node x : match l_pos s !! x with
  | Some (r, i) => ∃ l, l_chains s !! r = Some l ∧ l !! N.to_nat i = Some x ∧ NoDup l ∧
      (∀ p y, walk E x p y → l !! (N.to_nat i + length p) = Some y) ∧
      (∀ k y, l !! (N.to_nat i + k) = Some y → ∃ p, walk E x p y ∧ length p = k) ∧
      (∀ p y, walk E y p x → ∃ j, N.to_nat i = j + length p ∧ l !! j = Some y) ∧
      (∀ j y, l !! j = Some y → j ≤ N.to_nat i → ∃ p, walk E y p x ∧ length p = N.to_nat i - j) ∧
      (N.of_nat (length l) <= usize_max)%N ∧ (N.of_nat (length l) <= pmax)%N ∧ x ∈ all_nodes G
  | None => x ∉ all_nodes G
  end.
Proof using L F.
  destruct (l_pos s !! x) as [[r i]|] eqn:Ex.
  2: { rewrite <- (lo_all _ _ L x), Ex. by intros [? ?]. }
  apply (lo_pos _ _ L) in Ex as HH. destruct HH as (l & Hl & Hi). destruct (lo_chain _ _ L r l Hl) as (Hr & Hroot & Hnd).
  assert (∀ p i x y, l !! i = Some x → walk E x p y → l !! (i + length p) = Some y) as W1.
  { induction p as [|z p IH]; intros i' x' y Hx' Hw; simpl in *.
    - subst. by rewrite Nat.add_0_r.
    - destruct Hw as [Hz Hw]. rewrite <- Nat.add_succ_comm. apply (IH _ z); [|done]. by apply (lo_out _ _ L r l i' x' Hl Hx'). }
  assert (∀ k i x y, l !! i = Some x → l !! (i + k) = Some y → ∃ p, walk E x p y ∧ length p = k) as W2.
  { induction k as [|k IH]; intros i' x' y Hx' Hy.
    - exists []. rewrite Nat.add_0_r in Hy. split; [simpl; congruence|done].
    - destruct (lookup_lt_is_Some_2 l (S i')) as [z Hz]; [apply lookup_lt_Some in Hy; lia|].
      destruct (IH (S i') z y Hz) as (p & Hw & Hp); [by rewrite Nat.add_succ_comm|]. exists (z :: p). split; [|simpl; lia].
      split; [|done]. by apply (lo_out _ _ L r l i' x' Hl Hx'). }
  assert (∀ p i x y, l !! i = Some x → walk E y p x → ∃ j, i = j + length p ∧ l !! j = Some y) as W3.
  { intros p. induction p as [|z p IH] using rev_ind; intros i' x' y Hx' Hw.
    - simpl in Hw. subst. exists i'. simpl. split; [lia|done].
    - apply walk_app_inv in Hw as (t & Hw & [Ht Hz]). simpl in Hz. subst z.
      apply (lo_in _ _ L r l i' x' Hl Hx') in Ht as (j & -> & Hj). destruct (IH j t y Hj Hw) as (j' & -> & Hj').
      exists j'. rewrite app_length. simpl. split; [lia|done]. }
  assert (∀ x, x ∈ l → x ∈ all_nodes G) as Hall.
  { intros y [j Hy]%elem_of_list_lookup. apply (lo_all _ _ L). exists (r, N.of_nat j). apply (lo_pos _ _ L). exists l.
    by rewrite Nat2N.id. }
  destruct F as (_ & Hsize & Hdepth).
  assert (length l ≤ size (all_nodes G)) as Hlen by by apply nodup_size.
  exists l. split_and!; [done|done|done|by intros; eapply W1|by intros; eapply W2|by intros; eapply W3| |lia| |].
  - intros j y Hy Hj. apply (W2 _ j); [done|]. by replace (j + (N.to_nat i - j)) with (N.to_nat i) by lia.
  - destruct l as [|a l]; [simpl; lia|]. destruct (lookup_lt_is_Some_2 (a :: l) (length l)) as [z Hz]; [simpl; lia|].
    destruct (W2 (length l) 0 a z) as (p & Hw & Hp); [done|done|]. specialize (Hdepth _ _ _ Hw). simpl. lia.
  - apply Hall. by eapply elem_of_list_lookup_2.
Qed.

Lemma lin_out_lemma x : NoDup (lin_out pmax s x) ∧ ∀ y, y ∈ lin_out pmax s x ↔ E x y.
Proof using L F.
  pose proof (lin_node x) as Hx. unfold lin_out. destruct (l_pos s !! x) as [[r i]|].
  - destruct Hx as (l & Hl & Hi & _ & _ & _ & _ & _ & _ & Hp & _). rewrite Hl.
    assert ((i + 1) mod (pmax + 1) = i + 1)%N as ->. { apply N.mod_small. apply lookup_lt_Some in Hi. lia. }
    replace (N.to_nat (i + 1)) with (S (N.to_nat i)) by lia.
    pose proof (lo_out _ _ L r l _ x Hl Hi) as Ho. destruct (l !! S (N.to_nat i)) as [z|].
    + split; [apply NoDup_singleton|]. intros y. rewrite elem_of_list_singleton, Ho. naive_solver.
    + split; [constructor|]. intros y. rewrite Ho. split; [by intros ?%elem_of_nil|done].
  - split; [constructor|]. intros y. split; [by intros ?%elem_of_nil|]. intros He. destruct Hx. by eapply en_l.
Qed.
Lemma lin_in_lemma x : NoDup (lin_in s x) ∧ ∀ y, y ∈ lin_in s x ↔ E y x.
Proof using L F.
  pose proof (lin_node x) as Hx. unfold lin_in. destruct (l_pos s !! x) as [[r i]|].
  - destruct Hx as (l & Hl & Hi & _). rewrite Hl. pose proof (lo_in _ _ L r l _ x Hl Hi) as Ho. destruct (decide (i = 0%N)) as [->|Hi0].
    + split; [constructor|]. intros y. rewrite Ho. split; [by intros ?%elem_of_nil|]. by intros (j & ? & _).
    + destruct (lookup_lt_is_Some_2 l (N.to_nat (i - 1))) as [z Hz]; [apply lookup_lt_Some in Hi; lia|]. rewrite Hz.
      split; [apply NoDup_singleton|]. intros y. rewrite elem_of_list_singleton, Ho. split.
      * intros ->. exists (N.to_nat (i - 1)). split; [lia|done].
      * intros (j & Hj & Hy). replace (N.to_nat (i - 1)) with j in Hz by lia. congruence.
  - split; [constructor|]. intros y. split; [by intros ?%elem_of_nil|]. intros He. destruct Hx. by eapply en_r.
Qed.
Lemma lin_has_in_lemma x : lin_has_in s x = true ↔ is_target G x.
Proof using L F.
  pose proof (lin_node x) as Hx. unfold lin_has_in. destruct (l_pos s !! x) as [[r i]|].
  - destruct Hx as (l & Hl & Hi & _). pose proof (lo_in _ _ L r l _ x Hl Hi) as Ho. rewrite negb_true_iff, N.eqb_neq. split.
    + intros Hi0. destruct (lookup_lt_is_Some_2 l (N.to_nat (i - 1))) as [z Hz]; [apply lookup_lt_Some in Hi; lia|].
      exists z. apply Ho. exists (N.to_nat (i - 1)). split; [lia|done].
    + intros [y (j & Hj & _)%Ho]. lia.
  - split; [done|]. intros [y Hy]. destruct Hx. by eapply en_r.
Qed.
Lemma lin_sources_lemma : NoDup (lin_sources s) ∧ ∀ x, x ∈ lin_sources s ↔ is_source G x.
Proof using L F.
  assert (∀ l : list N, drop 1 (reverse l) = reverse (take (length l - 1) l)) as Hrev.
  { intros l. induction l as [|z l0 _] using rev_ind; [done|]. rewrite reverse_app. simpl.
    rewrite app_length. simpl. rewrite Nat.add_sub, take_app. done. }
  assert (∀ (l : list N) x, x ∈ drop 1 (reverse l) ↔ ∃ j, S j < length l ∧ l !! j = Some x) as Hel.
  { intros l x. rewrite Hrev, elem_of_reverse, elem_of_list_lookup. split.
    - intros [j [Hj Hlt]%lookup_take_Some]. exists j. split; [lia|done].
    - intros (j & Hj & Hl). exists j. apply lookup_take_Some. split; [done|lia]. }
  split.
  - unfold lin_sources. apply NoDup_bind_ext; [apply NoDup_map_to_list| |].
    + intros [r l] Hl%elem_of_map_to_list. simpl. rewrite Hrev, (reverse_Permutation _).
      apply (sublist_NoDup _ l); [apply sublist_take|]. by apply (lo_chain _ _ L r).
    + intros [r l] [r' l'] x Hl%elem_of_map_to_list Hl'%elem_of_map_to_list (j & _ & Hj)%Hel (j' & _ & Hj')%Hel. simpl in *.
      assert (l_pos s !! x = Some (r, N.of_nat j)) as H1 by (apply (lo_pos _ _ L); exists l; by rewrite Nat2N.id).
      assert (l_pos s !! x = Some (r', N.of_nat j')) as H2 by (apply (lo_pos _ _ L); exists l'; by rewrite Nat2N.id).
      rewrite H1 in H2. injection H2 as -> _. congruence.
  - intros x. unfold lin_sources. rewrite elem_of_list_bind. split.
    + intros ([r l] & (j & Hj & Hx)%Hel & Hl%elem_of_map_to_list). simpl in *.
      destruct (lookup_lt_is_Some_2 l (S j) Hj) as [y Hy]. exists y. by apply (lo_out _ _ L r l j x Hl Hx).
    + intros [y Hy]. pose proof (lin_node x) as Hx. destruct (l_pos s !! x) as [[r i]|]; [|destruct Hx; by eapply en_l].
      destruct Hx as (l & Hl & Hi & _). exists (r, l). split; [|by apply elem_of_map_to_list]. simpl. apply Hel.
      exists (N.to_nat i). split; [|done]. apply (lo_out _ _ L r l _ x Hl Hi) in Hy. by apply lookup_lt_Some in Hy.
Qed.
Lemma lin_roots_lemma : NoDup (lin_roots s) ∧ ∀ x, x ∈ lin_roots s ↔ is_root G x.
Proof using L F.
  unfold lin_roots. split; [apply NoDup_fst_map_to_list|]. intros x. rewrite <- (lo_roots _ _ L x), elem_of_list_fmap. split.
  - intros ([k v] & -> & Hk%elem_of_map_to_list). by eexists.
  - intros [v Hv]. exists (x, v). split; [done|]. by apply elem_of_map_to_list.
Qed.

Lemma lin_distance_lemma x y : match lin_distance s x y with
  | Some d => shortest E x y (N.to_nat d)
  | None => ¬ reachable E x y
  end.
Proof using L F.
  unfold lin_distance. destruct (decide (x = y)) as [->|Hne].
  { split; [by exists []|]. intros p _. lia. }
  pose proof (lin_node x) as Hx. pose proof (lin_node y) as Hy.
  destruct (l_pos s !! x) as [[r i]|] eqn:Ex.
  2: { intros [[|z p] Hp]; [done|]. destruct Hx. apply (walk_nodes G _ _ _ Hp ltac:(done)). }
  destruct (l_pos s !! y) as [[r' i']|] eqn:Ey.
  2: { intros [[|z p] Hp]; [done|]. destruct Hy. apply (walk_nodes G _ _ _ Hp ltac:(done)). }
  destruct Hx as (l & Hl & Hi & Hnd & W1 & W2 & _). destruct Hy as (l' & Hl' & Hi' & _).
  assert (∀ p, walk E x p y → r = r' ∧ N.to_nat i' = N.to_nat i + length p) as Hw.
  { intros p Hp%W1. assert (l_pos s !! y = Some (r, N.of_nat (N.to_nat i + length p))) as H1.
    { apply (lo_pos _ _ L). exists l. by rewrite Nat2N.id. }
    rewrite Ey in H1. injection H1 as -> ->. split; [done|lia]. }
  destruct (decide (r = r')) as [<-|Hr].
  - destruct (N.leb_spec i i') as [Hle|Hlt].
    + rewrite Hl in Hl'. injection Hl' as <-.
      destruct (W2 (N.to_nat (i' - i)) y) as (p & Hp & Hlen); [by replace (N.to_nat i + N.to_nat (i' - i)) with (N.to_nat i') by lia|].
      split; [by exists p|]. intros q Hq%Hw. lia.
    + intros [p Hp%Hw]. lia.
  - intros [p Hp%Hw]. naive_solver.
Qed.

Lemma lin_is_connected_lemma x y min max : x ∈ all_nodes G ∨ (1 <= min)%N →
  lin_is_connected s x y min max = true ↔ ∃ p, simple_path E x p y ∧ in_distance min max (length p).
Proof using L F.
  intros Hxm. setoid_rewrite (λ p, acyclic_simple E x p y lin_ac). unfold lin_is_connected.
  pose proof (lin_node x) as Hx. pose proof (lin_node y) as Hy.
  destruct (l_pos s !! x) as [[r i]|] eqn:Ex.
  2: { split; [done|]. intros ([|z p] & Hp & Hd); [destruct Hd; simpl in *; destruct Hxm; [done|lia]|]. destruct Hx. apply (walk_nodes G _ _ _ Hp ltac:(done)). }
  destruct (l_pos s !! y) as [[r' i']|] eqn:Ey.
  2: { split; [done|]. intros ([|z p] & Hp & Hd); [simpl in Hp; congruence|]. destruct Hy. apply (walk_nodes G _ _ _ Hp ltac:(done)). }
  destruct Hx as (l & Hl & Hi & Hnd & W1 & W2 & _). destruct Hy as (l' & Hl' & Hi' & _).
  assert (∀ p, walk E x p y → r = r' ∧ N.to_nat i' = N.to_nat i + length p) as Hw.
  { intros p Hp%W1. assert (l_pos s !! y = Some (r, N.of_nat (N.to_nat i + length p))) as H1.
    { apply (lo_pos _ _ L). exists l. by rewrite Nat2N.id. }
    rewrite Ey in H1. injection H1 as -> ->. split; [done|lia]. }
  destruct (decide (r = r')) as [<-|Hr].
  2: { split; [done|]. intros (p & Hp%Hw & _). naive_solver. }
  destruct (N.leb_spec i i') as [Hle|Hlt].
  2: { split; [done|]. intros (p & Hp%Hw & _). lia. }
  rewrite Hl in Hl'. injection Hl' as <-.
  destruct (W2 (N.to_nat (i' - i)) y) as (p & Hp & Hlen); [by replace (N.to_nat i + N.to_nat (i' - i)) with (N.to_nat i') by lia|].
  assert (∀ q, walk E x q y → N.of_nat (length q) = i' - i)%N as Hq by (intros q Hq%Hw; lia).
  trans (in_distance min max (N.to_nat (i' - i))).
  - unfold in_distance. rewrite N2Nat.id. destruct max; rewrite ?andb_true_iff, ?N.leb_le, ?N.ltb_lt; tauto.
  - split; [intros Hd; exists p; by rewrite Hlen|]. intros (q & Hq0 & Hd). apply Hq in Hq0.
    by replace (N.to_nat (i' - i)) with (length q) by lia.
Qed.

(** The upper bound plus the length of a chain can be computed without overflow. *)
Lemma lin_find_connected_lemma x min max : x ∈ all_nodes G ∨ (1 <= min)%N →
  (match max with Unbounded => True | Included m | Excluded m => (m + N.of_nat (size (all_nodes G)) <= usize_max)%N end) →
  NoDup (lin_find_connected s x min max) ∧
  ∀ y, y ∈ lin_find_connected s x min max ↔ ∃ p, simple_path E x p y ∧ in_distance min max (length p).
Proof using L F.
  intros Hxm Hmax. pose proof (lin_node x) as Hx.
  assert (∀ y, (∃ p, simple_path E x p y ∧ in_distance min max (length p)) ↔ ∃ p, walk E x p y ∧ in_distance min max (length p)) as Hs.
  { intros y. f_equiv. intros p. by rewrite (acyclic_simple _ _ _ _ lin_ac). }
  setoid_rewrite Hs. clear Hs. unfold lin_find_connected. destruct (l_pos s !! x) as [[r i]|].
  2: { split; [constructor|]. intros y. split; [by intros ?%elem_of_nil|].
       intros ([|z p] & Hp & Hd); [destruct Hd; simpl in *; destruct Hxm; [done|lia]|]. destruct Hx. apply (walk_nodes G _ _ _ Hp ltac:(done)). }
  destruct Hx as (l & Hl & Hi & Hnd & W1 & W2 & _ & _ & Hlen & _ & Hxin). rewrite Hl.
  assert (length l ≤ size (all_nodes G)) as Hls.
  { apply nodup_size; [done|]. intros y [j Hy]%elem_of_list_lookup. apply (lo_all _ _ L). exists (r, N.of_nat j). apply (lo_pos _ _ L). exists l.
    by rewrite Nat2N.id. }
  assert (∀ y, (∃ p, walk E x p y ∧ in_distance min max (length p)) ↔ ∃ k, in_distance min max k ∧ l !! (N.to_nat i + k) = Some y) as Hk.
  { intros y. split.
    - intros (p & Hp & Hd). exists (length p). split; [done|]. by apply W1.
    - intros (k & Hd & Hy). destruct (W2 k y Hy) as (p & Hp & <-). by exists p. }
  setoid_rewrite Hk. clear Hk W1 W2. pose proof (lookup_lt_Some _ _ _ Hi) as Hil.
  assert (∀ y k, l !! (N.to_nat i + k) = Some y → N.to_nat i + k < length l) as Hbd by (intros y k Hy; by apply lookup_lt_Some in Hy).
  destruct (N.ltb_spec usize_max (i + min)) as [Hov|Hov].
  { split; [constructor|]. intros y. split; [by intros ?%elem_of_nil|]. intros (k & [Hd _] & Hy%Hbd). lia. }
  destruct (N.ltb_spec (i + min) (N.of_nat (length l))) as [Hm|Hm].
  2: { split; [constructor|]. intros y. split; [by intros ?%elem_of_nil|]. intros (k & [Hd _] & Hy%Hbd). lia. }
  assert (∀ b, (b <= N.of_nat (length l))%N → (∀ k, N.to_nat i + k < length l → (in_distance min max k ↔ (min <= N.of_nat k)%N ∧ (N.of_nat (N.to_nat i + k) < b)%N)) →
    NoDup (if (i + min <? b)%N then slice l (N.to_nat (i + min)) (N.to_nat b) else []) ∧
    ∀ y, y ∈ (if (i + min <? b)%N then slice l (N.to_nat (i + min)) (N.to_nat b) else []) ↔ ∃ k, in_distance min max k ∧ l !! (N.to_nat i + k) = Some y) as Hslice.
  { intros b Hb Hd. destruct (N.ltb_spec (i + min) b) as [Hib|Hib].
    - split; [by apply NoDup_slice|]. intros y. rewrite elem_of_slice. split.
      + intros (j & Hj & Hy). exists (j - N.to_nat i). replace (N.to_nat i + (j - N.to_nat i)) with j by lia.
        split; [|done]. apply Hd; [apply lookup_lt_Some in Hy; lia|]. lia.
      + intros (k & Hk & Hy). exists (N.to_nat i + k). split; [|done]. apply Hd in Hk; [lia|by eapply Hbd].
    - split; [constructor|]. intros y. split; [by intros ?%elem_of_nil|]. intros (k & Hk & Hy). apply Hd in Hk; [lia|by eapply Hbd]. }
  destruct max as [m|m|].
  - assert (usize_wrap (i + m + 1) = i + m + 1)%N as ->. { apply N.mod_small. lia. }
    apply Hslice; [lia|]. intros k Hk. unfold in_distance. lia.
  - assert (usize_wrap (i + m) = i + m)%N as ->. { apply N.mod_small. lia. }
    apply Hslice; [lia|]. intros k Hk. unfold in_distance. lia.
  - split; [apply (sublist_NoDup _ l); [apply sublist_drop|done]|]. intros y. rewrite elem_of_drop. split.
    + intros (j & Hj & Hy). exists (j - N.to_nat i). replace (N.to_nat i + (j - N.to_nat i)) with j by lia.
      split; [|done]. unfold in_distance. lia.
    + intros (k & [Hk _] & Hy). exists (N.to_nat i + k). split; [lia|done].
Qed.

Lemma lin_find_connected_inverse_lemma x min max : x ∈ all_nodes G ∨ (1 <= min)%N →
  (match max with Unbounded => True | Included m => (min <= m)%N | Excluded m => False end) →
  NoDup (lin_find_connected_inverse s x min max) ∧
  ∀ y, y ∈ lin_find_connected_inverse s x min max ↔ ∃ p, simple_path E y p x ∧ in_distance min max (length p).
Proof using L F.
  intros Hxm Hmax. pose proof (lin_node x) as Hx.
  assert (∀ y, (∃ p, simple_path E y p x ∧ in_distance min max (length p)) ↔ ∃ p, walk E y p x ∧ in_distance min max (length p)) as Hs.
  { intros y. f_equiv. intros p. by rewrite (acyclic_simple _ _ _ _ lin_ac). }
  setoid_rewrite Hs. clear Hs. unfold lin_find_connected_inverse. destruct (l_pos s !! x) as [[r i]|].
  2: { split; [constructor|]. intros y. split; [by intros ?%elem_of_nil|].
       intros ([|z p] & Hp & Hd); [destruct Hd; simpl in *; destruct Hxm; [done|lia]|]. destruct Hx. apply (walk_nodes G _ _ _ Hp ltac:(done)). }
  destruct Hx as (l & Hl & Hi & Hnd & _ & _ & W3 & W4 & Hlen & _ & Hxin). rewrite Hl.
  assert (∀ y, (∃ p, walk E y p x ∧ in_distance min max (length p)) ↔ ∃ j, j ≤ N.to_nat i ∧ in_distance min max (N.to_nat i - j) ∧ l !! j = Some y) as Hk.
  { intros y. split.
    - intros (p & Hp & Hd). destruct (W3 p y Hp) as (j & Hj & Hy). exists j. split_and!; [lia| |done].
      by replace (N.to_nat i - j) with (length p) by lia.
    - intros (j & Hj & Hd & Hy). destruct (W4 j y Hy Hj) as (p & Hp & Hpl). exists p. by rewrite Hpl. }
  setoid_rewrite Hk. clear Hk W3 W4. pose proof (lookup_lt_Some _ _ _ Hi) as Hil.
  destruct (N.ltb_spec i min) as [Hov|Hov].
  { split; [constructor|]. intros y. split; [by intros ?%elem_of_nil|]. intros (j & Hj & [Hd _] & Hy). lia. }
  assert (∀ b, (b <= i - min)%N → (∀ j, j ≤ N.to_nat i → (in_distance min max (N.to_nat i - j) ↔ N.to_nat b ≤ j ≤ N.to_nat (i - min))) →
    NoDup (if (i - min <? N.of_nat (length l))%N && (b <=? i - min)%N then slice l (N.to_nat b) (S (N.to_nat (i - min)))
           else if (b <? N.of_nat (length l))%N then drop (N.to_nat b) l else []) ∧
    ∀ y, y ∈ (if (i - min <? N.of_nat (length l))%N && (b <=? i - min)%N then slice l (N.to_nat b) (S (N.to_nat (i - min)))
           else if (b <? N.of_nat (length l))%N then drop (N.to_nat b) l else []) ↔
      ∃ j, j ≤ N.to_nat i ∧ in_distance min max (N.to_nat i - j) ∧ l !! j = Some y) as Hslice.
  { intros b Hb Hd. replace (i - min <? N.of_nat (length l))%N with true by (symmetry; apply N.ltb_lt; lia).
    replace (b <=? i - min)%N with true by (symmetry; apply N.leb_le; lia). simpl andb. cbv iota.
    split; [by apply NoDup_slice|]. intros y. rewrite elem_of_slice. split.
    - intros (j & Hj & Hy). exists j. split_and!; [lia| |done]. apply Hd; lia.
    - intros (j & Hj & Hdj & Hy). exists j. apply Hd in Hdj; [|done]. split; [lia|done]. }
  destruct max as [m|m|]; [|done|].
  - apply Hslice; [lia|]. intros j Hj. unfold in_distance. lia.
  - apply Hslice; [lia|]. intros j Hj. unfold in_distance. lia.
Qed.
End queries.
