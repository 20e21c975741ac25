(** Proofs about the round trip through GraphML: the whole of export and import. *)
From Coq Require Import NArith Ascii String.
From stdpp Require Import base list gmap pretty sorting.
From Verif Require Import GraphSpec KeySer KeySerSpec SortedMap Types SymbolTable AnnoMem AnnoSpec AnnoMemProofs AnnoMemQueries Adjacency AdjacencySpec AdjacencyProofs
  QName QNameProofs CompPath CompPathProofs GraphUpdate GraphApply GraphApplySpec GraphApplyProofs GraphApplyHistory ListExtra GraphML GraphMLSpec GraphMLProofs GraphMLExport
  GraphMLRound.

Lemma bind_fmap {X Y Z} (f : X → Y) (g : Y → list Z) (l : list X) : (f <$> l) ≫= g = l ≫= λ x, g (f x).
Proof. induction l as [|x l IH]; [done|]. cbn [fmap list_fmap mbind list_bind]. by rewrite IH. Qed.
Lemma bind_ext_in {X Z} (f g : X → list Z) (l : list X) : (∀ x, x ∈ l → f x = g x) → l ≫= f = l ≫= g.
Proof.
  induction l as [|x l IH]; intros H; [done|]. cbn [mbind list_bind]. rewrite H by (apply elem_of_cons; by left). f_equal. apply IH.
  intros y Hy. apply H, elem_of_cons. by right.
Qed.
Lemma imap_pair_snd {X} (l : list X) : (imap pair l).*2 = l.
Proof. rewrite fmap_imap. etransitivity; [|apply list_fmap_id]. rewrite <- (imap_const id l). by apply imap_ext. Qed.
(** Lists of labels are not longer than the map of all labels *)
Lemma count_labels {X P} `{Countable P} (f : X → P) (d : X → gmap anno_key bytes) (l : list X) (T : gmap (P * anno_key) bytes) :
  NoDup (f <$> l) → (∀ x k, x ∈ l → is_Some (d x !! k) → is_Some (T !! (f x, k))) →
  length (l ≫= λ x, map_to_list (d x)) ≤ size T.
Proof.
  intros Hnd Hin. set (Q := l ≫= λ x, (λ kv, (f x, kv.1)) <$> map_to_list (d x)).
  assert (length (l ≫= λ x, map_to_list (d x)) = length Q) as ->.
  { unfold Q. clear. induction l as [|x l IH]; [done|]. cbn [mbind list_bind]. rewrite !app_length, fmap_length. by f_equal. }
  assert (NoDup Q) as HQ.
  { apply NoDup_bind_ext.
    - by apply NoDup_fmap_1 in Hnd.
    - intros x Hx. change (NoDup ((λ kv : anno_key * bytes, (f x, kv.1)) <$> map_to_list (d x))).
      rewrite (list_fmap_compose fst (pair (f x)) (map_to_list (d x)) : (λ kv : anno_key * bytes, (f x, kv.1)) <$> map_to_list (d x) = _). apply NoDup_fmap_2; [by intros ? ? [= ->]|]. apply NoDup_fst_map_to_list.
    - intros x y z Hx Hy (kv & -> & _)%elem_of_list_fmap (kv' & Heq & _)%elem_of_list_fmap. injection Heq as Heq _.
      clear -Hnd Hx Hy Heq. apply elem_of_list_lookup in Hx as [i Hi], Hy as [j Hj].
      assert (i = j) as ->; [|congruence]. apply (NoDup_lookup (f <$> l) i j (f x)); [done|by rewrite list_lookup_fmap, Hi|rewrite list_lookup_fmap, Hj; cbn; by f_equal]. }
  change (size T) with (length (map_to_list T)). rewrite <- (fmap_length fst (map_to_list T)). apply submseteq_length, NoDup_submseteq; [done|].
  intros z (x & Hz & Hx)%elem_of_list_bind. apply elem_of_list_fmap in Hz as ([k v] & -> & Hkv%elem_of_map_to_list).
  destruct (Hin x k Hx) as [w Hw]; [by exists v|]. apply elem_of_list_fmap. exists ((f x, k), w). split; [done|]. by apply elem_of_map_to_list.
Qed.
Lemma no_deletes ct C es : ∀ A, Forall (λ e, match e with DeleteNode _ => False | _ => True end) es → deletes_ok ct C A es.
Proof. induction es as [|e es IH]; intros A; [done|]. intros [He Hes]%Forall_cons. split; [by destruct e|]. by apply IH. Qed.
Lemma numbered_events n es : (numbered_from n es).*2 = es.
Proof. unfold numbered_from. rewrite fmap_imap. etransitivity; [|apply list_fmap_id]. rewrite <- (imap_const id es). by apply imap_ext. Qed.
Lemma numbered_length n es : length (numbered_from n es) = length es.
Proof. apply imap_length. Qed.
Lemma comp_text_parse ct ctname (c : comp) : ct (ctname c.1.1) = Some c.1.1 → slash ∉ ctname c.1.1 → slash ∉ c.1.2 → comp_of_text ct (comp_text ctname c) = Some c.
Proof.
  destruct c as [[t l] n]. cbn [fst snd]. intros H1 H2 H3. unfold comp_of_text, comp_text. cbn [fst snd]. cbn [app].
  unfold splitn. rewrite split_at_app by done. rewrite split_at_app by done. by rewrite H1.
Qed.

Section final.
Context (ct : bytes → option N) (ctname : N → bytes) (auto : list comp).
Context (sort_comps : list comp → list comp) (sort_keys : list anno_key → list anno_key) (sort_nodes : list N → list N).
Context (drain : gmap anno_key bytes → list (anno_key * bytes)).
Context (Hsc : ∀ l, sort_comps l ≡ₚ l) (Hsk : ∀ l, sort_keys l ≡ₚ l) (Hsn : ∀ l, sort_nodes l ≡ₚ l) (Hdr : ∀ d, drain d ≡ₚ map_to_list d).
Context (st : gstate) (A : lgraph) (ι : gmap bytes N) (M : nmap) (Gs : comp → graph) (HR : R st A ι M Gs).
Context (HX : exportable ct ctname auto A).
Notation node_list := (node_list sort_nodes st).
Notation edge_list := (edge_list auto sort_comps sort_nodes st).

Lemma name_inj i j : i ∈ node_list → j ∈ node_list → name_of M i = name_of M j → i = j.
Proof using All.
  intros Hi Hj. destruct (node_name_of ct ctname auto sort_nodes Hsn st A ι M Gs HR HX i Hi) as (n & H1 & H2 & _).
  destruct (node_name_of ct ctname auto sort_nodes Hsn st A ι M Gs HR HX j Hj) as (n' & H1' & H2' & _).
  rewrite (name_of_Some M _ _ H2), (name_of_Some M _ _ H2'). intros ->. congruence.
Qed.
Lemma edge_list_NoDup : NoDup edge_list.
Proof using HR Hsc Hsn.
  unfold GraphML.edge_list. apply NoDup_bind_ext.
  - exact (user_comps_NoDup auto sort_comps Hsc st).
  - intros c [Hc [g Hg]]%(user_comps_spec auto sort_comps Hsc st). rewrite Hg. apply NoDup_bind_ext.
    + rewrite Hsn. exact (proj1 (sources_spec _ _ (comp_ginv st A ι M Gs HR c g Hg))).
    + intros x _. destruct (named st x); [|constructor]. apply NoDup_bind_ext.
      * rewrite Hsn. apply nsorted_NoDup. exact (gi_out_sorted _ _ (comp_ginv st A ι M Gs HR c g Hg) x).
      * intros y _. destruct (named st y); [apply NoDup_singleton|constructor].
      * intros y z w _ _ H1 H2. destruct (named st y), (named st z); try (by apply elem_of_nil in H1); try (by apply elem_of_nil in H2).
        apply elem_of_list_singleton in H1, H2. congruence.
    + intros x y z _ _ H1 H2. destruct (named st x), (named st y); try (by apply elem_of_nil in H1); try (by apply elem_of_nil in H2).
      apply elem_of_list_bind in H1 as (x1 & H1 & _), H2 as (y1 & H2 & _).
      destruct (named st x1), (named st y1); try (by apply elem_of_nil in H1); try (by apply elem_of_nil in H2).
      apply elem_of_list_singleton in H1, H2. congruence.
  - intros c c' z _ _ H1 H2. destruct (g_comps st !! c), (g_comps st !! c'); try (by apply elem_of_nil in H1); try (by apply elem_of_nil in H2).
    apply elem_of_list_bind in H1 as (x1 & H1 & _), H2 as (y1 & H2 & _).
    destruct (named st x1), (named st y1); try (by apply elem_of_nil in H1); try (by apply elem_of_nil in H2).
    apply elem_of_list_bind in H1 as (x2 & H1 & _), H2 as (y2 & H2 & _).
    destruct (named st x2), (named st y2); try (by apply elem_of_nil in H1); try (by apply elem_of_nil in H2).
    apply elem_of_list_singleton in H1, H2. congruence.
Qed.
(** The edge of the abstract graph *)
Definition pair_of (x : comp * adj * edge * bytes * bytes) : comp * (bytes * bytes) := let '(c, g, e, a, b) := x in (c, (a, b)).
Lemma pair_of_inj x y : x ∈ edge_list → y ∈ edge_list → pair_of x = pair_of y → x = y.
Proof using HR Hsc Hsn.
  destruct x as [[[[c g] [i j]] a] b], y as [[[[c' g'] [i' j']] a'] b'].
  intros (H1 & H2 & H3 & H4 & H5)%(edge_list_spec auto sort_comps sort_nodes Hsc Hsn st A ι M Gs HR)
         (H1' & H2' & H3' & H4' & H5')%(edge_list_spec auto sort_comps sort_nodes Hsc Hsn st A ι M Gs HR). cbn [pair_of]. intros [= -> -> ->]. congruence.
Qed.
Lemma pairs_NoDup : NoDup (pair_of <$> edge_list).
Proof using HR Hsc Hsn. apply NoDup_fmap_2_strong; [exact pair_of_inj|exact edge_list_NoDup]. Qed.
Lemma pairs_spec p : p ∈ pair_of <$> edge_list ↔ p.1 ∉ auto ∧ p ∈ lg_edges A.
Proof using HR Hsc Hsn.
  destruct p as [c [a b]]. rewrite elem_of_list_fmap. cbn [fst]. split.
  - intros ([[[[c' g] [i j]] a'] b'] & Heq & (H1 & H2 & H3 & H4 & H5)%(edge_list_spec auto sort_comps sort_nodes Hsc Hsn st A ι M Gs HR)).
    cbn in Heq. injection Heq as -> -> ->. split; [done|]. apply (r_edges _ _ _ _ _ HR). by exists i, j.
  - intros [Hc (i & j & Hi & Hj & He)%(r_edges _ _ _ _ _ HR)].
    assert (∃ g, g_comps st !! c = Some g) as [g Hg].
    { pose proof (r_gs _ _ _ _ _ HR c) as I. apply (gi_out _ _ I) in He. unfold writable in He. destruct (g_comps st !! c) as [g|]; [by exists g|].
      cbn in He. by apply elem_of_nil in He. }
    exists (c, g, Edge i j, a, b). split; [done|]. by apply (edge_list_spec auto sort_comps sort_nodes Hsc Hsn st A ι M Gs HR).
Qed.

Lemma round (config : option bytes) (D : gset comp) : match config with Some c => no_cdata_end c | None => True end →
  ∃ es u, export ctname auto sort_comps sort_keys sort_nodes config st = Some es ∧
    read_graphml ct ctname drain (transfer 0 false es) = Some (u, config) ∧
    lg_run ct (lg_start D) u.*2 = written auto D A ∧ Forall keeps_names u.*2 ∧
    (∀ C A0, deletes_ok ct C A0 u.*2) ∧
    length u ≤ size (lg_labels A) + size (lg_edges A) + size (lg_elabels A).
Proof using All.
  intros Hcfg. unfold export.
  destruct (write_keys auto sort_comps sort_keys (match config with Some _ => true | None => false end) st) as [[m cnt] h] eqn:Ek.
  pose proof (header_ok ct ctname auto sort_comps sort_keys Hsc Hsk st A ι M Gs HR HX (match config with Some _ => true | None => false end)) as Hh.
  rewrite Ek in Hh. cbn [fst snd] in Hh. destruct Hh as ([K1 K2 K3] & Hmn & Hme). cbn [fst snd] in K1, K2, K3.
  set (K := fold_left header_step h ∅) in *.
  assert (∀ k id, m !! k = Some id → xml_plain id ∧ K !! id = Some k) as HK.
  { intros k id Hk. split; [|by apply K2]. destruct (K1 k id Hk) as (i & _ & ->). apply key_id_plain. }
  rewrite (write_nodes_ok ct ctname auto sort_nodes Hsn st A ι M Gs HR HX m Hmn).
  rewrite (write_edges_ok ctname auto sort_comps sort_nodes Hsc Hsn st A ι M Gs HR m Hme).
  (* the elements *)
  set (ln := (λ i, (name_of M i, labelled m (node_data st m i))) <$> node_list).
  set (fe := λ ix : nat * (comp * adj * edge * bytes * bytes), let '(i, (c, g, e, a, b)) := ix in
     (str "e" ++ str (pretty (N.of_nat i)), a, b, comp_text ctname c, labelled m (edge_data m (c, g, e, a, b))) : eitem).
  set (le := fe <$> imap pair edge_list).
  assert (node_list ≫= (λ i, node_elem (name_of M i) (labelled m (node_data st m i))) = ln ≫= λ x, node_elem x.1 x.2) as ->.
  { unfold ln. by rewrite bind_fmap. }
  assert (imap pair edge_list ≫= edge_text ctname m = le ≫= eitem_elem) as ->.
  { unfold le. rewrite bind_fmap. apply bind_ext_in. by intros [i [[[[c g] e] a] b]] _. }
  eexists _, _. split; [reflexivity|]. split; [apply (read_file ct ctname drain config h ln le K3 Hcfg)|].
  { fold K. intros x (i & -> & Hi)%elem_of_list_fmap. cbn [fst snd].
    destruct (node_name_of ct ctname auto sort_nodes Hsn st A ι M Gs HR HX i Hi) as (n & _ & HM & Hp). rewrite (name_of_Some M _ _ HM). split; [done|].
    intros x Hx. apply (labelled_ok m K HK (node_data st m i)); [|done]. exact (proj1 (proj2 (node_data_spec st A ι M Gs HR m Hmn i))). }
  { fold K. intros x ([k [[[[c g] [i j]] a] b]] & -> & Hx)%elem_of_list_fmap. unfold fe, eitem_ok.
    apply elem_of_lookup_imap in Hx as (k' & y & Heq & Hy%elem_of_list_lookup_2). injection Heq as -> <-.
    pose proof Hy as Hd. apply (edge_list_spec auto sort_comps sort_nodes Hsc Hsn st A ι M Gs HR) in Hy as (Hc & Hg & He & Ha & Hb).
    assert (∀ n x, ι !! n = Some x → xml_plain n) as Hpl.
    { intros n x Hn. apply (ex_nodes _ _ _ _ HX). apply (r_node HR). by exists x. }
    destruct c as [[t l] n]. destruct (ex_comps _ _ _ _ HX t l n (a, b)) as (X1 & X2 & X3 & X4 & X5 & X6); [|done|].
    { apply (r_edges _ _ _ _ _ HR). by exists i, j. }
    split; [by apply (Hpl a i)|]. split; [by apply (Hpl b j)|]. split; [|split].
    - unfold comp_text, xml_plain. cbn [fst snd]. repeat (apply Forall_app; split); try done;
        (repeat constructor; apply (bool_decide_eq_true _); vm_compute; reflexivity).
    - exists (t, l, n). by apply comp_text_parse.
    - intros x Hx'. apply (labelled_ok m K HK (edge_data m (t, l, n, g, Edge i j, a, b))); [|done].
      exact (proj1 (proj2 (edge_data_spec auto sort_comps sort_nodes Hsc Hsn st A ι M Gs HR m Hme _ _ _ _ _ _ Hd))). }
  (* the events *)
  rewrite numbered_events, numbered_length.
  set (nd := λ i, data_map (labelled m (node_data st m i))).
  set (ed := λ x : comp * adj * edge * bytes * bytes, data_map (labelled m (edge_data m x))).
  assert (∀ i k, nd i !! k = if decide (k = node_name_key) then None else M !! (i, k)) as Hnd.
  { intros i k. destruct (node_data_spec st A ι M Gs HR m Hmn i) as (H1 & _ & H3). unfold nd, data_map. rewrite labelled_data by done. apply H3. }
  assert (∀ c g i j a b k, (c, g, Edge i j, a, b) ∈ edge_list → ed (c, g, Edge i j, a, b) !! k = gr_annos (Gs c) !! (Edge i j, k)) as Hed.
  { intros c g i j a b k Hx. destruct (edge_data_spec auto sort_comps sort_nodes Hsc Hsn st A ι M Gs HR m Hme _ _ _ _ _ _ Hx) as (H1 & _ & H3).
    unfold ed, data_map. rewrite labelled_data by done. apply H3. }
  set (rn := (λ i, (name_of M i, nd i)) <$> node_list).
  set (re := (λ x, (pair_of x, comp_text ctname (pair_of x).1, ed x) : redge) <$> edge_list).
  assert (ln ≫= (λ x, node_events drain (Some x.1) (data_map x.2)) = rn ≫= λ x, node_events drain (Some x.1) x.2) as ->.
  { unfold ln, rn. by rewrite !bind_fmap. }
  assert (le ≫= eitem_events ct ctname drain = re ≫= redge_events ct ctname drain) as ->.
  { unfold le, re. rewrite !bind_fmap. transitivity ((imap pair edge_list).*2 ≫= λ x, redge_events ct ctname drain (pair_of x, comp_text ctname (pair_of x).1, ed x)).
    - rewrite bind_fmap. apply bind_ext_in. by intros [i [[[[c g] e] a] b]] _.
    - by rewrite imap_pair_snd. }
  (* names *)
  assert (∀ i, i ∈ node_list → ∃ n, name_of M i = n ∧ ι !! n = Some i ∧ M !! (i, node_name_key) = Some n) as Hname.
  { intros i Hi. destruct (node_name_of ct ctname auto sort_nodes Hsn st A ι M Gs HR HX i Hi) as (n & H1 & H2 & _). exists n.
    split; [by apply name_of_Some|done]. }
  assert (∀ n i, ι !! n = Some i → i ∈ node_list ∧ name_of M i = n) as Hlist.
  { intros n i Hn. destruct (ex_nodes _ _ _ _ HX n) as [_ Ht]; [apply (r_node HR); by exists i|]. rewrite (r_labels _ _ _ _ _ HR), Hn in Ht. split.
    - by apply (node_list_spec sort_nodes Hsn st A ι M Gs HR).
    - apply name_of_Some. by apply (r_names _ _ _ _ _ HR). }
  assert (rn.*1 = name_of M <$> node_list) as Hrn1 by (unfold rn; by rewrite <- list_fmap_compose).
  assert (NoDup rn.*1) as Hrn.
  { rewrite Hrn1. apply NoDup_fmap_2_strong; [exact name_inj|]. exact (node_list_NoDup sort_nodes Hsn st A ι M Gs HR). }
  assert (re.*1.*1 = pair_of <$> edge_list) as Hre1 by (unfold re; by rewrite <- !list_fmap_compose).
  assert (∀ i, i ∈ node_list → ∃ t, nd i !! node_type_key = Some t) as Htype.
  { intros i Hi. rewrite Hnd. rewrite decide_False by done. apply (node_list_spec sort_nodes Hsn st A ι M Gs HR) in Hi as [t Ht]. by exists t. }
  split; [|split; [|split]].
  - unfold lg_run. rewrite fold_left_app. unfold lg_start.
    destruct (run_nodes ct drain Hdr rn ∅ D ∅ ∅ Hrn) as (L' & N1 & N2 & N3).
    { intros n k _. apply lookup_empty. }
    { intros x (i & -> & Hi)%elem_of_list_fmap. cbn [snd]. split; [by rewrite Hnd, decide_True by done|]. by apply Htype. }
    unfold lg_run in N1. rewrite N1.
    assert (L' = lg_labels A) as ->.
    { apply map_eq. intros [n k]. rewrite (r_labels _ _ _ _ _ HR). destruct (ι !! n) as [i|] eqn:En.
      - destruct (Hlist n i En) as [Hi Hni]. rewrite (N2 n (nd i) k).
        + cbn [mbind option_bind]. rewrite Hnd. destruct (decide (k = node_name_key)) as [->|]; [|done]. symmetry. by apply (r_names _ _ _ _ _ HR).
        + unfold rn. apply elem_of_list_fmap. exists i. by rewrite Hni.
      - cbn [mbind option_bind]. rewrite N3; [apply lookup_empty|]. rewrite Hrn1. intros (i & -> & Hi)%elem_of_list_fmap.
        destruct (Hname i Hi) as (n & H1 & H2 & _). congruence. }
    destruct (run_edges ct ctname drain Hdr (lg_labels A) re D ∅ ∅) as (X' & E1 & E2 & E3).
    { rewrite Hre1. exact pairs_NoDup. }
    { intros x ([[[[c g] [i j]] a] b] & -> & Hx)%elem_of_list_fmap. cbn [pair_of redge_ok fst].
      apply (edge_list_spec auto sort_comps sort_nodes Hsc Hsn st A ι M Gs HR) in Hx as (Hc & Hg & He & Ha & Hb).
      assert (∀ n x, ι !! n = Some x → is_Some (lg_labels A !! (n, node_name_key))) as Hl.
      { intros n x Hn. apply (r_node HR). by exists x. }
      destruct c as [[t l] n]. destruct (ex_comps _ _ _ _ HX t l n (a, b)) as (X1 & X2 & X3 & _); [|done|].
      { apply (r_edges _ _ _ _ _ HR). by exists i, j. }
      split; [done|]. split; [by apply comp_text_parse|]. split; [by apply (Hl a i)|]. split; [by apply (Hl b j)|].
      intros ->. assert (i = j) as -> by congruence. by apply (gi_loop _ _ (r_gs _ _ _ _ _ HR (t, l, n)) j). }
    { intros p k _. apply lookup_empty. }
    unfold lg_run in E1. etransitivity; [exact E1|]. unfold written. rewrite Hre1.
    assert (list_to_set (pair_of <$> edge_list) = filter (λ x : comp * (bytes * bytes), x.1 ∉ auto) (lg_edges A)) as HE.
    { apply set_eq. intros p. rewrite elem_of_list_to_set, elem_of_filter. apply pairs_spec. }
    f_equal.
    + rewrite (comm_L (∪)). f_equal. rewrite <- HE. apply set_eq. intros c. rewrite elem_of_list_to_set, elem_of_map, elem_of_list_fmap. 
      split; intros (p & H1 & H2); exists p; (split; [done|]); [by apply elem_of_list_to_set|exact (proj1 (elem_of_list_to_set _ _) H2)].
    + rewrite (right_id_L ∅ (∪)). exact HE.
    + apply map_eq. intros [[c [a b]] k].
      assert (∀ v, lg_elabels A !! (c, (a, b), k) = Some v → (c, (a, b)) ∈ lg_edges A) as Hdom.
      { intros v. rewrite (r_elabels _ _ _ _ _ HR). destruct (ι !! a) as [i|] eqn:Ea; [|done]. cbn [mbind option_bind].
        destruct (ι !! b) as [j|] eqn:Eb; [|done]. cbn [mbind option_bind]. intros Hv. apply (r_edges _ _ _ _ _ HR). exists i, j. split_and!; [done|done|].
        apply (gi_dom _ _ (r_gs _ _ _ _ _ HR c) _ k). by exists v. }
      destruct (decide ((c, (a, b)) ∈ pair_of <$> edge_list)) as [Hin|Hout].
      * pose proof Hin as Hp. apply pairs_spec in Hp as [Hc _]. cbn [fst] in Hc.
        apply elem_of_list_fmap in Hin as ([[[[c' g] [i j]] a'] b'] & Heq & Hx). cbn [pair_of] in Heq. injection Heq as <- <- <-.
        rewrite (E2 (c, (a, b)) (comp_text ctname c) (ed (c, g, Edge i j, a, b)) k).
        -- rewrite (Hed _ _ _ _ _ _ _ Hx). apply (edge_list_spec auto sort_comps sort_nodes Hsc Hsn st A ι M Gs HR) in Hx as (_ & _ & He & Ha & Hb).
           assert (lg_elabels A !! (c, (a, b), k) = gr_annos (Gs c) !! (Edge i j, k)) as Hl.
           { rewrite (r_elabels _ _ _ _ _ HR), Ha. cbn [mbind option_bind]. by rewrite Hb. }
           destruct (gr_annos (Gs c) !! (Edge i j, k)) as [v|].
           ++ symmetry. apply map_filter_lookup_Some. by split.
           ++ symmetry. apply map_filter_lookup_None. by left.
        -- unfold re. apply elem_of_list_fmap. by exists (c, g, Edge i j, a, b).
      * rewrite E3 by (by rewrite Hre1). rewrite lookup_empty. symmetry. apply map_filter_lookup_None.
        destruct (lg_elabels A !! (c, (a, b), k)) as [v|] eqn:Ev; [|by left]. right. intros v' _ Hc. cbn [fst] in Hc. apply Hout, pairs_spec.
        split; [done|]. by apply (Hdom v).
  - apply Forall_app. split.
    + apply Forall_forall. intros e (x & He & (i & -> & Hi)%elem_of_list_fmap)%elem_of_list_bind. cbn [fst snd] in He.
      unfold node_events in He. apply elem_of_cons in He as [->|([k v] & -> & Hk)%elem_of_list_fmap]; [done|]. cbn [keeps_names fst snd].
      rewrite Hdr in Hk. apply elem_of_map_to_list in Hk. apply lookup_delete_Some in Hk as [_ Hk]. rewrite Hnd in Hk. destruct k as [nm ns]. cbn [ak_ns ak_name].
      intros Heq. by rewrite decide_True in Hk.
    + apply Forall_forall. intros e (x & He & (y & -> & Hy)%elem_of_list_fmap)%elem_of_list_bind. destruct y as [[[[c g] e'] a] b]. cbn [pair_of redge_events fst] in He.
      unfold edge_events in He. destruct (comp_of_text ct _) as [[[t l] n]|]; [|by apply elem_of_nil in He].
      apply elem_of_cons in He as [->|([k v] & -> & Hk)%elem_of_list_fmap]; done.
  - intros C A0. apply no_deletes. apply Forall_app. split.
    + apply Forall_forall. intros e (x & He & (i & -> & Hi)%elem_of_list_fmap)%elem_of_list_bind. cbn [fst snd] in He.
      unfold node_events in He. apply elem_of_cons in He as [->|([k v] & -> & Hk)%elem_of_list_fmap]; done.
    + apply Forall_forall. intros e (x & He & (y & -> & Hy)%elem_of_list_fmap)%elem_of_list_bind. destruct y as [[[[c g] e'] a] b]. cbn [pair_of redge_events fst] in He.
      unfold edge_events in He. destruct (comp_of_text ct _) as [[[t l] n]|]; [|by apply elem_of_nil in He].
      apply elem_of_cons in He as [->|([k v] & -> & Hk)%elem_of_list_fmap]; done.
  - rewrite app_length.
    assert (length (rn ≫= λ x, node_events drain (Some x.1) x.2) = length (node_list ≫= λ i, map_to_list (nd i))) as ->.
    { unfold rn. rewrite bind_fmap. cbn [fst snd].
      assert (∀ l, (∀ i, i ∈ l → i ∈ node_list) → length (l ≫= λ i, node_events drain (Some (name_of M i)) (nd i)) = length (l ≫= λ i, map_to_list (nd i))) as Hg.
      { induction l as [|i l IH]; intros Hl; [done|]. cbn [mbind list_bind]. rewrite !app_length. rewrite IH by (intros j Hj; apply Hl, elem_of_cons; by right). f_equal.
        unfold node_events. cbn [length]. rewrite fmap_length, Hdr.
        destruct (Htype i) as [t Ht]; [apply Hl, elem_of_cons; by left|]. 
        change (S (size (delete node_type_key (nd i))) = size (nd i)). rewrite (map_size_delete_Some node_type_key (nd i)) by (by exists t).
        assert (size (nd i) ≠ 0); [|lia]. intros H0. apply map_size_empty_iff in H0. by rewrite H0, lookup_empty in Ht. }
      by apply Hg. }
    assert (length (node_list ≫= λ i, map_to_list (nd i)) ≤ size (lg_labels A)) as H1.
    { apply (count_labels (name_of M) nd); [by rewrite <- Hrn1|]. intros i k Hi [v Hv]. rewrite Hnd in Hv. case_decide; [done|].
      destruct (Hname i Hi) as (n & -> & Hn & _). rewrite (r_labels _ _ _ _ _ HR), Hn. by exists v. }
    assert (length (re ≫= redge_events ct ctname drain) ≤ length (pair_of <$> edge_list) + length (edge_list ≫= λ x, map_to_list (ed x))) as H2.
    { unfold re. rewrite bind_fmap, fmap_length. generalize edge_list. induction l as [|[[[[c g] e] a] b] l IH]; [done|].
      cbn [mbind list_bind length]. rewrite !app_length.
      assert (length (redge_events ct ctname drain (pair_of (c, g, e, a, b), comp_text ctname (pair_of (c, g, e, a, b)).1, ed (c, g, e, a, b))) ≤
        S (length (map_to_list (ed (c, g, e, a, b))))); [|cbn [mbind list_bind] in IH; lia].
      cbn [pair_of redge_events fst]. unfold edge_events. destruct (comp_of_text ct _) as [[[t l0] n]|]; [|cbn; lia].
      cbn [length]. rewrite fmap_length, Hdr. done. }
    assert (length (pair_of <$> edge_list) ≤ size (lg_edges A)) as H3.
    { apply submseteq_length, NoDup_submseteq; [exact pairs_NoDup|]. intros p [_ Hp]%pairs_spec. by apply elem_of_elements. }
    assert (length (edge_list ≫= λ x, map_to_list (ed x)) ≤ size (lg_elabels A)) as H4.
    { apply (count_labels pair_of ed); [exact pairs_NoDup|]. intros [[[[c g] [i j]] a] b] k Hx [v Hv]. rewrite (Hed _ _ _ _ _ _ _ Hx) in Hv. cbn [pair_of].
      apply (edge_list_spec auto sort_comps sort_nodes Hsc Hsn st A ι M Gs HR) in Hx as (_ & _ & He & Ha & Hb).
      rewrite (r_elabels _ _ _ _ _ HR), Ha. cbn [mbind option_bind]. rewrite Hb. by exists v. }
    lia.
Qed.
End final.

Lemma R_start D : R (g_start D) (lg_start D) ∅ ∅ (λ _, empty_graph).
Proof.
  split; cbn.
  - exists 0. apply AnnoMemProofs.inv_new.
  - intros i n. by rewrite !lookup_empty.
  - intros i k [v Hv]. by rewrite lookup_empty in Hv.
  - intros n k. by rewrite !lookup_empty.
  - apply dom_gset_to_gmap.
  - intros c. unfold writable. cbn. rewrite lookup_gset_to_gmap. case_option_guard; cbn; apply ginv_new.
  - intros c a b. split; [intros H%elem_of_empty; done|]. intros (i & j & Hi & _). by rewrite lookup_empty in Hi.
  - intros c i j H%elem_of_empty. done.
  - intros c a b k. by rewrite !lookup_empty.
  - intros n i Hi. by rewrite lookup_empty in Hi.
Qed.
Lemma bnd_start D : bnd (g_start D) 0.
Proof.
  split; cbn; [lia|lia| |done]. intros c. unfold writable. cbn. rewrite lookup_gset_to_gmap. case_option_guard; split; cbn; lia.
Qed.
Lemma round_trip ct ctname auto sort_comps sort_keys sort_nodes drain st A ι M Gs config D :
  (∀ l, sort_comps l ≡ₚ l) → (∀ l, sort_keys l ≡ₚ l) → (∀ l, sort_nodes l ≡ₚ l) → (∀ d, drain d ≡ₚ map_to_list d) →
  R st A ι M Gs → exportable ct ctname auto A → match config with Some c => no_cdata_end c | None => True end →
  (N.of_nat (2 * (size (lg_labels A) + size (lg_edges A) + size (lg_elabels A))) <= usize_max)%N →
  ∃ es st', export ctname auto sort_comps sort_keys sort_nodes config st = Some es ∧
    import ct ctname drain (g_start D) (transfer 0 false es) = Some (st', config) ∧ observes st' (written auto D A).
Proof.
  intros Hsc Hsk Hsn Hdr HR HX Hc Hb.
  destruct (round ct ctname auto sort_comps sort_keys sort_nodes drain Hsc Hsk Hsn Hdr st A ι M Gs HR HX config D Hc) as (es & u & E1 & E2 & E3 & E4 & E5 & E6).
  destruct (history_total ct [u] (g_start D) (lg_start D) ∅ ∅ _ 0 (R_start D)) as [st' Hst'].
  - cbn. split_and!; [done|apply E5|done].
  - apply bnd_start.
  - cbn [concat]. rewrite app_nil_r. lia.
  - cbn in Hst'. destruct (apply_update ct (g_start D) u) as [st1|] eqn:Ea; [|done]. cbn in Hst'. injection Hst' as ->.
    exists es, st'. split; [done|]. unfold import. rewrite E2, Ea. split; [done|].
    destruct (update_ok ct _ _ _ _ _ _ _ (R_start D) E4 (E5 _ _) Ea) as (ι' & M' & Gs' & HR'). rewrite E3 in HR'. exact (R_observes _ _ _ _ _ HR').
Qed.
