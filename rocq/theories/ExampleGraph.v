(** Storages with labels and graphs, used by the examples. *)
From stdpp Require Import base list gmap.
From Coq Require Import NArith Lia.
From Verif Require Import KeySer KeySerSpec SortedMap Types SymbolTable AnnoMem AnnoSpec GraphSpec Adjacency AdjacencySpec Storage StorageSpec
  StorageProofs ExampleStorages GraphApply TokenOps EdgeOps EdgeOpsSpec EdgeOpsProofs.

(** A storage with other labels *)
Definition with_labels (gs : storage) (a : am edge) : storage :=
  Storage (gs_out gs) (gs_in gs) (gs_sources gs) (gs_roots gs) (gs_connected gs) (gs_connected_inverse gs) (gs_distance gs)
    (gs_is_connected gs) a (gs_nodes gs).
Lemma with_labels_implements gs a G : implements gs G → implements (with_labels gs a) G.
Proof. intros []. by constructor. Qed.
Definition label_ops (ls : list (edge * anno_key * bytes)) : list (am_op edge) := (λ l, AmInsert l.1.1 l.1.2 l.2) <$> ls.
Definition labels_am (ls : list (edge * anno_key * bytes)) : am edge * list am_out := am_run edge_compare am_new (label_ops ls).
Definition labels_map (ls : list (edge * anno_key * bytes)) : gmap (edge * anno_key) bytes := as_run ∅ (label_ops ls) (labels_am ls).2.

(** Chains with labels *)
Definition chain_storage (cs : list (list N)) (ls : list (edge * anno_key * bytes)) : storage := with_labels (lin_of cs) (labels_am ls).1.
Definition chain_component (cs : list (list N)) (ls : list (edge * anno_key * bytes)) : component :=
  Component (list_to_set (chain_edges cs)) (labels_map ls).
Definition chain_ok (cs : list (list N)) : bool :=
  bool_decide (NoDup (mjoin cs)) && bool_decide (length (mjoin cs) ≤ 250) && edges_ok (chain_edges cs) && bool_decide (snd <$> chain_copy cs = Some true).
Lemma chain_holds cs ls : chain_ok cs = true → holds_component (chain_storage cs ls) (chain_component cs ls).
Proof.
  unfold chain_ok. rewrite !andb_true_iff, !bool_decide_eq_true. intros [[[H1 H2] H3] H4]. split.
  - apply with_labels_implements. by apply lin_of_implements.
  - exists (label_ops ls), (labels_am ls).2. split; [apply surjective_pairing|done].
Qed.

(** Graphs whose components are chains, given in the order of their names *)
Definition chain_graph : Type := list (cname * (list (list N) * list (edge * anno_key * bytes))).
Definition graph_components (g : chain_graph) : components := (λ x, (x.1, Some (chain_storage x.2.1 x.2.2))) <$> g.
Definition graph_content (g : chain_graph) (c : cname) : option component :=
  (λ x, chain_component x.1 x.2) <$> al_get cname_compare g c.
Fixpoint names_sorted (l : list cname) : bool :=
  match l with
  | [] => true
  | a :: r => forallb (λ b, match cname_compare a b with Lt => true | _ => false end) r && names_sorted r
  end.
Definition graph_ok (g : chain_graph) : bool := names_sorted g.*1 && forallb (λ x, chain_ok x.2.1) g.
Lemma names_sorted_al {V} (g : list (cname * V)) : names_sorted g.*1 = true → al_sorted cname_compare g.
Proof.
  unfold al_sorted. induction g as [|[c v] g IH]; cbn; [constructor|]. rewrite andb_true_iff. intros [Hf Hs]. constructor; [by apply IH|].
  apply Forall_forall. intros [c' v'] Hin. rewrite forallb_forall in Hf. specialize (Hf c'). rewrite <- elem_of_list_In in Hf.
  cbn [fst]. assert (c' ∈ g.*1) as Hc by (apply elem_of_list_fmap; by exists (c', v')). specialize (Hf Hc).
  by destruct (cname_compare c c').
Qed.
Lemma graph_holds g : graph_ok g = true → holds_graph (graph_components g) (graph_content g).
Proof.
  unfold graph_ok. rewrite andb_true_iff. intros [Hs Hc].
  assert ((graph_components g).*1 = g.*1) as En by (unfold graph_components; rewrite <- list_fmap_compose; by apply list_fmap_ext).
  pose proof (names_sorted_al g Hs) as Hg. constructor.
  - apply names_sorted_al. by rewrite En.
  - intros c. rewrite En. unfold graph_content. rewrite fmap_is_Some, elem_of_list_fmap. split.
    + intros ([c' v] & -> & Hin). exists v. by apply (al_get_iff cname_compare).
    + intros [v Hv]. exists (c, v). split; [done|]. by apply (al_get_iff cname_compare) in Hv.
  - intros c gs C Hin HW. unfold graph_components in Hin. apply elem_of_list_fmap in Hin as ([c' v] & [= -> ->] & Hin).
    unfold graph_content in HW. cbn [fst snd] in *. pose proof Hin as Hin'. apply (al_get_iff cname_compare) in Hin; [|done].
    rewrite Hin in HW. injection HW as <-. apply chain_holds. rewrite forallb_forall in Hc.
    apply (Hc (c', v)). by apply elem_of_list_In.
Qed.
