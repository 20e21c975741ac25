(** Proofs about the round trip through GraphML: the exported elements and the events which are read. *)
From Coq Require Import NArith Ascii String.
From stdpp Require Import base list gmap pretty sorting.
From Verif Require Import GraphSpec KeySer KeySerSpec SortedMap Types SymbolTable AnnoMem AnnoSpec AnnoMemProofs AnnoMemQueries Adjacency AdjacencySpec AdjacencyProofs
  QName QNameProofs CompPath CompPathProofs GraphUpdate GraphApply GraphApplySpec GraphApplyProofs GraphApplyHistory ListExtra GraphML GraphMLSpec GraphMLProofs.

Definition kid (m : gmap anno_key bytes) (k : anno_key) : bytes := match m !! k with Some id => id | None => [] end.
Lemma kid_Some m k id : m !! k = Some id → kid m k = id.
Proof. intros H. exact (f_equal (λ o : option bytes, match o with Some id => id | None => [] end) H). Qed.
Definition labelled (m : gmap anno_key bytes) (L : list (anno_key * bytes)) : list (bytes * anno_key * bytes) :=
  (λ a, (kid m a.1, a.1, a.2)) <$> L.
Lemma write_datas m L : (∀ a, a ∈ L → is_Some (m !! a.1)) →
  write_all (write_data m) L = Some (labelled m L ≫= λ x, data_elem x.1.1 x.2).
Proof.
  intros H. unfold labelled. apply write_all_bind. intros a Ha. destruct (H a Ha) as [id Hid]. unfold write_data, data_elem. cbn [fst snd]. by rewrite Hid, (kid_Some _ _ _ Hid).
Qed.
Lemma labelled_data m L k : NoDup L.*1 →
  fold_left (λ (d : gmap anno_key bytes) x, <[x.1.2 := x.2]> d) (labelled m L) ∅ !! k = (list_to_map L : gmap anno_key bytes) !! k.
Proof.
  intros Hnd. unfold labelled. rewrite (fold_insert (λ x : bytes * anno_key * bytes, x.1.2) (λ x, x.2)).
  - rewrite <- list_fmap_compose. cbn. rewrite (list_fmap_ext _ id L); [|by intros _ [? ?] _]. rewrite list_fmap_id, lookup_empty.
    by destruct (list_to_map L !! k).
  - rewrite <- list_fmap_compose. exact Hnd.
Qed.

Lemma NoDup_fmap_filter {X Y} (f : X → Y) (P : X → Prop) `{!∀ x, Decision (P x)} (l : list X) : NoDup (f <$> l) → NoDup (f <$> filter P l).
Proof.
  induction l as [|x l IH]; [done|]. rewrite fmap_cons. intros [Hx Hl]%NoDup_cons. rewrite filter_cons. destruct (decide _); [|by apply IH].
  rewrite fmap_cons. apply NoDup_cons. split; [|by apply IH]. intros (y & Hy & [_ Hin]%elem_of_list_filter)%elem_of_list_fmap.
  apply Hx. rewrite Hy. apply elem_of_list_fmap. by exists y.
Qed.

Section export.
Context (ct : bytes → option N) (ctname : N → bytes) (auto : list comp).
Context (sort_comps : list comp → list comp) (sort_keys : list anno_key → list anno_key) (sort_nodes : list N → list N).
Context (drain : gmap anno_key bytes → list (anno_key * bytes)).
Context (Hsc : ∀ l, sort_comps l ≡ₚ l) (Hsk : ∀ l, sort_keys l ≡ₚ l) (Hsn : ∀ l, sort_nodes l ≡ₚ l).
Context (st : gstate) (A : lgraph) (ι : gmap bytes N) (M : nmap) (Gs : comp → graph) (HR : R st A ι M Gs).
Context (HX : exportable ct ctname auto A).
Notation user_comps := (user_comps auto sort_comps st).
Notation node_list := (node_list sort_nodes st).
Notation edge_list := (edge_list auto sort_comps sort_nodes st).

Lemma user_comps_spec c : c ∈ user_comps ↔ c ∉ auto ∧ is_Some (g_comps st !! c).
Proof using Hsc.
  clear -Hsc. unfold GraphML.user_comps. rewrite elem_of_list_filter, Hsc, elem_of_list_fmap. split.
  - intros [H1 ([c' g] & -> & H%elem_of_map_to_list)]. split; [done|by exists g].
  - intros [H1 [g H]]. split; [done|]. exists (c, g). split; [done|]. by apply elem_of_map_to_list.
Qed.
Lemma user_comps_NoDup : NoDup user_comps.
Proof using Hsc. clear -Hsc. apply NoDup_filter. rewrite Hsc. apply NoDup_fst_map_to_list. Qed.
Lemma comp_ginv c g : g_comps st !! c = Some g → ginv g (Gs c).
Proof using HR. intros Hg. pose proof (r_gs _ _ _ _ _ HR c) as H. unfold writable in H. by rewrite Hg in H. Qed.
Lemma label_of i k v : M !! (i, k) = Some v → ∃ n, ι !! n = Some i ∧ lg_labels A !! (n, k) = Some v.
Proof using HR.
  intros Hv. destruct (r_items _ _ _ _ _ HR i k) as [n Hn]; [by exists v|]. exists n. split; [done|]. rewrite (r_labels _ _ _ _ _ HR), Hn. exact Hv.
Qed.
Lemma elabel_of c e k v : gr_annos (Gs c) !! (e, k) = Some v →
  ∃ a b, ι !! a = Some (source e) ∧ ι !! b = Some (target e) ∧ lg_elabels A !! (c, (a, b), k) = Some v.
Proof using HR.
  intros Hv. destruct e as [i j]. destruct (r_dang _ _ _ _ _ HR c i j) as (a & b & Ha & Hb).
  { apply (gi_dom _ _ (r_gs _ _ _ _ _ HR c) _ k). by exists v. }
  exists a, b. split_and!; [done|done|]. rewrite (r_elabels _ _ _ _ _ HR), Ha. cbn [mbind option_bind]. rewrite Hb. exact Hv.
Qed.

(** The header *)
Lemma keys_fold (l : list comp) : ∀ s, (∀ c, c ∈ l → c ∉ auto) → kinv s →
  let s' := fold_left (λ s c, match g_comps st !! c with Some g => fold_left add_key (am_annotation_keys (g_annos g)) s | None => s end) l s in
  kinv s' ∧ (∀ k, is_Some (s.1.1 !! k) → is_Some (s'.1.1 !! k)) ∧
  ∀ c g e k, c ∈ l → g_comps st !! c = Some g → is_Some (gr_annos (Gs c) !! (e, k)) → is_Some (s'.1.1 !! k).
Proof using HR HX.
  induction l as [|c l IH]; intros s Hl Hs; cbn [fold_left].
  - split; [done|]. split; [done|]. by intros c g e k Hc%elem_of_nil.
  - assert (∃ s1, s1 = match g_comps st !! c with Some g => fold_left add_key (am_annotation_keys (g_annos g)) s | None => s end ∧
      kinv s1 ∧ (∀ k, is_Some (s.1.1 !! k) → is_Some (s1.1.1 !! k)) ∧
      ∀ g e k, g_comps st !! c = Some g → is_Some (gr_annos (Gs c) !! (e, k)) → is_Some (s1.1.1 !! k)) as (s1 & <- & H1 & H2 & H3).
    { eexists. split; [reflexivity|]. destruct (g_comps st !! c) as [g|] eqn:Eg; [|by split_and!].
      destruct (gi_annos _ _ (comp_ginv c g Eg)) as [leak I]. destruct (annotation_keys_lemma edge_compare _ leak _ I) as [_ Hin].
      destruct (add_keys_inv (am_annotation_keys (g_annos g)) s) as [H1 H2]; [|done|].
      - apply Forall_forall. intros k Hk. apply Hin in Hk as [e [v Hv]]. destruct (elabel_of c e k v Hv) as (a & b & _ & _ & H).
        apply (ex_ekeys _ _ _ _ HX c (a, b) k); [apply Hl, elem_of_cons; by left|by exists v].
      - split; [done|]. split; [intros k Hk; apply H2; by right|]. intros g' e k [= <-] Hk. apply H2. left. apply Hin. by exists e. }
    destruct (IH s1) as (I1 & I2 & I3); [intros x Hx; apply Hl, elem_of_cons; by right|done|]. split; [done|]. split.
    + intros k Hk. by apply I2, H2.
    + intros c' g e k [->|Hc]%elem_of_cons Hg Hk; [|by apply (I3 c' g e k)]. apply I2. by apply (H3 g e k).
Qed.
Lemma header_ok cfg : let s := write_keys auto sort_comps sort_keys cfg st in
  kinv s ∧ (∀ i k, k ≠ node_name_key → is_Some (M !! (i, k)) → is_Some (s.1.1 !! k)) ∧
  ∀ c g e k, c ∉ auto → g_comps st !! c = Some g → is_Some (gr_annos (Gs c) !! (e, k)) → is_Some (s.1.1 !! k).
Proof using HR HX Hsc Hsk.
  unfold write_keys. destruct (r_inv _ _ _ _ _ HR) as [leak I]. destruct (annotation_keys_lemma N.compare _ leak _ I) as [_ Hin].
  set (s0 := if cfg then _ else _). set (l := filter _ _).
  assert (kinv s0) as H0.
  { unfold s0. destruct cfg; split; cbn [fst snd]; try (intros k id H; by rewrite lookup_empty in H); [|constructor].
    constructor; [by eexists|constructor]. }
  assert (∀ k, k ∈ l ↔ k ≠ node_name_key ∧ ∃ i, is_Some (M !! (i, k))) as Hl.
  { intros k. unfold l. rewrite elem_of_list_filter, Hsk, Hin. done. }
  destruct (add_keys_inv l s0) as [H1 H2]; [|done|].
  { apply Forall_forall. intros k Hk. apply Hl in Hk as [_ [i [v Hv]]]. destruct (label_of i k v Hv) as (n & _ & H).
    apply (ex_keys _ _ _ _ HX n k). by exists v. }
  destruct (keys_fold user_comps (fold_left add_key l s0)) as (I1 & I2 & I3); [intros c Hc; by apply user_comps_spec in Hc as [Hc _]|done|].
  split; [exact I1|]. split.
  - intros i k Hne Hk. apply I2, H2. left. apply Hl. split; [done|by exists i].
  - intros c g e k Hc Hg Hk. apply (I3 c g e k); [|done|done]. apply user_comps_spec. split; [done|by exists g].
Qed.

(** With the mapping of the header *)
Context (m : gmap anno_key bytes) (K : gmap bytes anno_key).
Context (HK : ∀ k id, m !! k = Some id → xml_plain id ∧ K !! id = Some k).
Context (Hmn : ∀ i k, k ≠ node_name_key → is_Some (M !! (i, k)) → is_Some (m !! k)).
Context (Hme : ∀ c g e k, c ∉ auto → g_comps st !! c = Some g → is_Some (gr_annos (Gs c) !! (e, k)) → is_Some (m !! k)).

Lemma labelled_ok L x : (∀ a, a ∈ L → is_Some (m !! a.1)) → x ∈ labelled m L → xml_plain x.1.1 ∧ K !! x.1.1 = Some x.1.2.
Proof using HK.
  clear -HK. intros HL (a & -> & Ha)%elem_of_list_fmap. destruct (HL a Ha) as [id Hid]. cbn [fst snd]. rewrite (kid_Some _ _ _ Hid). by apply HK.
Qed.

(** Nodes *)
Lemma node_list_spec i : i ∈ node_list ↔ is_Some (M !! (i, node_type_key)).
Proof using HR Hsn.
  unfold GraphML.node_list. rewrite Hsn, elem_of_list_fmap. destruct (r_inv _ _ _ _ _ HR) as [leak I].
  destruct (exact_search_lemma N.compare _ leak _ (Some (ak_ns node_type_key)) (ak_name node_type_key) VAny I) as [_ Hin]. split.
  - intros ([i' k] & -> & [Hk (v & Hv & _)]%Hin). cbn [fst]. exists v. rewrite <- Hv. f_equal. f_equal. destruct k as [nm ns].
    destruct Hk as [Hk1 Hk2]. cbn in Hk1, Hk2. unfold node_type_key. cbn. f_equal; congruence.
  - intros [v Hv]. exists (i, node_type_key). split; [done|]. apply Hin. split; [by split|]. exists v. split; [done|exact Logic.I].
Qed.
Lemma node_list_NoDup : NoDup node_list.
Proof using HR Hsn.
  unfold GraphML.node_list. rewrite Hsn. destruct (r_inv _ _ _ _ _ HR) as [leak I].
  destruct (exact_search_lemma N.compare _ leak _ (Some (ak_ns node_type_key)) (ak_name node_type_key) VAny I) as [Hnd Hin].
  apply NoDup_fmap_2_strong; [|done]. intros [i k] [j k'] [[Hk1 Hk2] _]%Hin [[Hk3 Hk4] _]%Hin Heq. cbn in *. subst j. f_equal.
  destruct k, k'. cbn in *. f_equal; congruence.
Qed.
Lemma node_name_of i : i ∈ node_list → ∃ n, ι !! n = Some i ∧ M !! (i, node_name_key) = Some n ∧ xml_plain n.
Proof using HR Hsn HX.
  intros [v Hv]%node_list_spec. destruct (label_of i node_type_key v Hv) as (n & Hn & _). exists n. split; [done|]. split; [by apply (r_names _ _ _ _ _ HR)|].
  apply (ex_nodes _ _ _ _ HX). apply (r_node HR). by exists i.
Qed.
Definition name_of (i : N) : bytes := match M !! (i, node_name_key) with Some n => n | None => [] end.
Lemma name_of_Some i n : M !! (i, node_name_key) = Some n → name_of i = n.
Proof using Type. intros H. exact (f_equal (λ o : option bytes, match o with Some id => id | None => [] end) H). Qed.
Definition node_data (i : N) : list (anno_key * bytes) :=
  filter (λ a, a.1 ≠ node_name_key) (sorted_annos m (am_get_annotations (g_node_annos st) i)).
Lemma node_data_spec i : NoDup (node_data i).*1 ∧ (∀ a, a ∈ node_data i → is_Some (m !! a.1)) ∧
  ∀ k, (list_to_map (node_data i) : gmap anno_key bytes) !! k = if decide (k = node_name_key) then None else M !! (i, k).
Proof using HR Hmn.
  destruct (r_inv _ _ _ _ _ HR) as [leak I]. destruct (get_annotations_lemma N.compare _ leak _ i I) as [Hnd Hin].
  assert (NoDup (node_data i).*1) as Hnd'.
  { unfold node_data. apply NoDup_fmap_filter. unfold sorted_annos. rewrite (fmap_Permutation fst _ _ (sort_list_perm _ _)). exact Hnd. }
  assert (∀ k v, (k, v) ∈ node_data i ↔ k ≠ node_name_key ∧ M !! (i, k) = Some v) as Hs.
  { intros k v. unfold node_data. rewrite elem_of_list_filter. unfold sorted_annos. rewrite sort_list_perm, Hin. done. }
  split; [done|]. split.
  - intros [k v] [H1 H2]%Hs. apply (Hmn i); [done|by exists v].
  - intros k. destruct (decide (k = node_name_key)) as [->|Hne].
    + apply not_elem_of_list_to_map_1. intros ([k v] & Heq & [H _]%Hs)%elem_of_list_fmap. by apply H.
    + destruct (M !! (i, k)) as [v|] eqn:E.
      * apply elem_of_list_to_map_1; [done|]. by apply Hs.
      * apply not_elem_of_list_to_map_1. intros ([k' v] & -> & [_ H]%Hs)%elem_of_list_fmap. cbn [fst] in E. congruence.
Qed.
Lemma write_nodes_ok : write_all (write_node m st) node_list = Some (node_list ≫= λ i, node_elem (name_of i) (labelled m (node_data i))).
Proof using HR HX Hmn Hsn.
  rewrite (write_all_bind _ id (λ i, node_elem (name_of i) (labelled m (node_data i)))); [by rewrite list_fmap_id|].
  intros i Hi. destruct (node_name_of i Hi) as (n & Hn & HM & _). destruct (r_inv _ _ _ _ _ HR) as [leak I].
  unfold write_node. rewrite (get_value_lemma N.compare _ leak _ i node_name_key I), HM.
  destruct (get_annotations_lemma N.compare _ leak _ i I) as [_ Hin].
  destruct (node_data_spec i) as (_ & Hm & _). unfold node_data in Hm |- *.
  destruct (am_get_annotations (g_node_annos st) i) as [|a l] eqn:E.
  - exfalso. pose proof (proj2 (Hin _ _) HM) as H. by apply elem_of_nil in H.
  - rewrite write_datas by done. unfold id. rewrite (name_of_Some _ _ HM), E. done.
Qed.

(** Edges *)
Definition edge_data (x : comp * adj * edge * bytes * bytes) : list (anno_key * bytes) :=
  let '(c, g, e, a, b) := x in sorted_annos m (am_get_annotations (g_annos g) e).
Lemma named_spec i : named st i = M !! (i, node_name_key).
Proof using HR. destruct (r_inv _ _ _ _ _ HR) as [leak I]. unfold named. by apply (get_value_lemma N.compare _ leak). Qed.
Lemma edge_list_spec c g i j a b : (c, g, Edge i j, a, b) ∈ edge_list ↔
  c ∉ auto ∧ g_comps st !! c = Some g ∧ Edge i j ∈ gr_edges (Gs c) ∧ ι !! a = Some i ∧ ι !! b = Some j.
Proof using HR Hsc Hsn.
  unfold GraphML.edge_list. rewrite elem_of_list_bind. split.
  - intros (c' & H & [Hc [g' Hg]]%user_comps_spec). rewrite Hg in H. apply elem_of_list_bind in H as (x & H & Hx).
    rewrite named_spec in H. destruct (M !! (x, node_name_key)) as [a'|] eqn:Ea; [|by apply elem_of_nil in H].
    apply elem_of_list_bind in H as (y & H & Hy). rewrite named_spec in H.
    destruct (M !! (y, node_name_key)) as [b'|] eqn:Eb; [|by apply elem_of_nil in H].
    apply elem_of_list_singleton in H. injection H as -> -> -> -> -> ->. rewrite Hsn in Hy. apply (gi_out _ _ (comp_ginv _ _ Hg)) in Hy.
    apply (r_names _ _ _ _ _ HR) in Ea, Eb. by split_and!.
  - intros (Hc & Hg & He & Ha & Hb). exists c. split; [|apply user_comps_spec; split; [done|by exists g]]. rewrite Hg.
    apply (r_names _ _ _ _ _ HR) in Ha, Hb. apply elem_of_list_bind. exists i. split.
    + rewrite named_spec, Ha. apply elem_of_list_bind. exists j. split; [rewrite named_spec, Hb; by apply elem_of_list_singleton|].
      rewrite Hsn. by apply (gi_out _ _ (comp_ginv _ _ Hg)).
    + rewrite Hsn. destruct (sources_spec _ _ (comp_ginv _ _ Hg)) as (_ & H & _). apply H. exists j. exact He.
Qed.
Lemma edge_data_spec c g i j a b : (c, g, Edge i j, a, b) ∈ edge_list →
  NoDup (edge_data (c, g, Edge i j, a, b)).*1 ∧ (∀ x, x ∈ edge_data (c, g, Edge i j, a, b) → is_Some (m !! x.1)) ∧
  ∀ k, (list_to_map (edge_data (c, g, Edge i j, a, b)) : gmap anno_key bytes) !! k = gr_annos (Gs c) !! (Edge i j, k).
Proof using HR Hme Hsc Hsn.
  intros (Hc & Hg & He & Ha & Hb)%edge_list_spec. destruct (gi_annos _ _ (comp_ginv _ _ Hg)) as [leak I].
  destruct (get_annotations_lemma edge_compare _ leak _ (Edge i j) I) as [Hnd Hin]. cbn [edge_data].
  assert (NoDup (sorted_annos m (am_get_annotations (g_annos g) (Edge i j))).*1) as Hnd'.
  { unfold sorted_annos. rewrite (fmap_Permutation fst _ _ (sort_list_perm _ _)). exact Hnd. }
  assert (∀ k v, (k, v) ∈ sorted_annos m (am_get_annotations (g_annos g) (Edge i j)) ↔ gr_annos (Gs c) !! (Edge i j, k) = Some v) as Hs.
  { intros k v. unfold sorted_annos. rewrite sort_list_perm. apply Hin. }
  split; [done|]. split.
  - intros [k v] Hx%Hs. apply (Hme c g (Edge i j)); [done|done|by exists v].
  - intros k. destruct (gr_annos (Gs c) !! (Edge i j, k)) as [v|] eqn:E.
    + apply elem_of_list_to_map_1; [done|]. by apply Hs.
    + apply not_elem_of_list_to_map_1. intros ([k' v] & -> & H%Hs)%elem_of_list_fmap. cbn [fst] in E. congruence.
Qed.
Definition edge_text (ix : nat * (comp * adj * edge * bytes * bytes)) : list wevent :=
  let '(i, (c, g, e, a, b)) := ix in
  edge_elem (str "e" ++ str (pretty (N.of_nat i))) a b (comp_text ctname c) (labelled m (edge_data (c, g, e, a, b))).
Lemma write_edges_ok : write_all (write_edge ctname m) (imap pair edge_list) = Some (imap pair edge_list ≫= edge_text).
Proof using HR Hme Hsc Hsn.
  rewrite (write_all_bind _ id edge_text); [by rewrite list_fmap_id|].
  intros [n [[[[c g] [i j]] a] b]] Hi. apply elem_of_lookup_imap in Hi as (n' & x & Heq & Hi). injection Heq as -> <-.
  apply elem_of_list_lookup_2 in Hi. unfold id, edge_text, write_edge. destruct (edge_data_spec _ _ _ _ _ _ Hi) as (_ & H & _).
  cbn [edge_data] in H. rewrite write_datas by done. done.
Qed.
End export.
