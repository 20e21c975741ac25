(** Proofs about the round trip through GraphML: reading a whole file and applying its events. *)
From Coq Require Import NArith Ascii String.
From stdpp Require Import base list gmap pretty sorting.
From Verif Require Import GraphSpec KeySer KeySerSpec SortedMap Types SymbolTable AnnoMem AnnoSpec AnnoMemProofs AnnoMemQueries Adjacency AdjacencySpec AdjacencyProofs
  QName QNameProofs CompPath CompPathProofs GraphUpdate GraphApply GraphApplySpec GraphApplyProofs GraphApplyHistory ListExtra GraphML GraphMLSpec GraphMLProofs GraphMLExport.

Section file.
Context (ct : bytes → option N) (ctname : N → bytes) (drain : gmap anno_key bytes → list (anno_key * bytes)).
Notation read_all := (read_all ct ctname drain).
Notation node_events := (node_events drain).
Notation edge_events := (edge_events ct ctname drain).
Definition data_map (l : list (bytes * anno_key * bytes)) : gmap anno_key bytes := fold_left (λ d x, <[x.1.2 := x.2]> d) l ∅.
Definition ok_labels (K : gmap bytes anno_key) (l : list (bytes * anno_key * bytes)) : Prop := ∀ x, x ∈ l → xml_plain x.1.1 ∧ K !! x.1.1 = Some x.1.2.

Lemma read_nodes K cfg es (l : list (bytes * list (bytes * anno_key * bytes))) : ∀ d ns, (∀ x, x ∈ l → xml_plain x.1 ∧ ok_labels K x.2) →
  ∃ d', ∀ r, read_all (rb K 2 true None None None None d cfg ns es) (transfer 2 true (l ≫= λ x, node_elem x.1 x.2) ++ r) =
  read_all (rb K 2 true None None None None d' cfg (ns ++ (l ≫= λ x, node_events (Some x.1) (data_map x.2))) es) r.
Proof.
  induction l as [|x l IH]; intros d ns Hl.
  - exists d. intros r. cbn [mbind list_bind]. by rewrite app_nil_r.
  - destruct (Hl x) as [H1 H2]; [apply elem_of_cons; by left|].
    destruct (IH ∅ (ns ++ node_events (Some x.1) (data_map x.2))) as [d' IHd]; [intros y Hy; apply Hl, elem_of_cons; by right|].
    exists d'. intros r. cbn [mbind list_bind]. rewrite transfer_app, node_end. cbn [fst snd]. rewrite <- app_assoc.
    rewrite (read_node _ _ _ _ _ _ _ _ _ _ _ _ H1 H2). fold (data_map x.2). rewrite IHd, <- app_assoc. done.
Qed.
Lemma nodes_end (l : list (bytes * list (bytes * anno_key * bytes))) : tr_end 2 true (l ≫= λ x, node_elem x.1 x.2) = (2, true).
Proof. induction l as [|x l IH]; [done|]. cbn [mbind list_bind]. rewrite tr_end_app, node_end. exact IH. Qed.

Definition eitem : Type := bytes * bytes * bytes * bytes * list (bytes * anno_key * bytes).
Definition eitem_elem (x : eitem) : list wevent := let '(id, a, b, t, l) := x in edge_elem id a b t l.
Definition eitem_events (x : eitem) : list event := let '(id, a, b, t, l) := x in edge_events (Some a) (Some b) (Some t) (data_map l).
Definition eitem_ok (K : gmap bytes anno_key) (x : eitem) : Prop :=
  let '(id, a, b, t, l) := x in xml_plain a ∧ xml_plain b ∧ xml_plain t ∧ is_Some (comp_of_text ct t) ∧ ok_labels K l.
Lemma read_edges K cfg ns (l : list eitem) : ∀ d es, (∀ x, x ∈ l → eitem_ok K x) →
  ∃ d', ∀ r, read_all (rb K 2 true None None None None d cfg ns es) (transfer 2 true (l ≫= eitem_elem) ++ r) =
  read_all (rb K 2 true None None None None d' cfg ns (es ++ (l ≫= eitem_events))) r.
Proof.
  induction l as [|[[[[id a] b] t] la] l IH]; intros d es Hl.
  - exists d. intros r. cbn [mbind list_bind]. by rewrite app_nil_r.
  - destruct (Hl (id, a, b, t, la)) as (H1 & H2 & H3 & [cm H4] & H5); [apply elem_of_cons; by left|].
    destruct (IH ∅ (es ++ eitem_events (id, a, b, t, la))) as [d' IHd]; [intros y Hy; apply Hl, elem_of_cons; by right|].
    exists d'. intros r. cbn [mbind list_bind eitem_elem]. rewrite transfer_app, edge_end. cbn [fst snd]. rewrite <- app_assoc.
    rewrite (read_edge _ _ _ _ _ _ _ _ _ _ _ _ _ _ _ _ H1 H2 H3 H4 H5). fold (data_map la).
    change (edge_events (Some a) (Some b) (Some t) (data_map la)) with (eitem_events (id, a, b, t, la)). rewrite IHd, <- app_assoc. done.
Qed.
Lemma edges_end (l : list eitem) : tr_end 2 true (l ≫= eitem_elem) = (2, true).
Proof. induction l as [|[[[[id a] b] t] la] l IH]; [done|]. cbn [mbind list_bind eitem_elem]. rewrite tr_end_app, edge_end. exact IH. Qed.

Lemma read_header cfg (h : list wevent) : ∀ K r, Forall is_key h →
  read_all (rb K 1 false None None None None ∅ cfg [] []) (transfer 1 true h ++ r) =
  read_all (rb (fold_left header_step h K) 1 false None None None None ∅ cfg [] []) r.
Proof.
  induction h as [|e h IH]; intros K r Hh; [done|]. apply Forall_cons in Hh as [[a ->] Hh]. cbn [transfer fold_left]. rewrite <- app_assoc, read_line.
  cbn [app GraphML.read_all read_step]. unfold on_start, rb at 1. rewrite (decide_False (P := t_key = t_graph ∧ _)) by (by intros [? _]).
  rewrite (decide_True (P := t_key = t_key ∧ _)) by done. unfold on_end. rewrite (decide_False (P := t_key = t_graph)) by done.
  rewrite (decide_False (P := t_key = t_node)) by done. rewrite (decide_False (P := t_key = t_edge)) by done.
  rewrite (decide_False (P := t_key = t_data)) by done. cbn [pred]. apply IH. done.
Qed.
Lemma header_end h : Forall is_key h → tr_end 1 true h = (1, true).
Proof. induction h as [|e h IH]; [done|]. intros [[a ->] Hh]%Forall_cons. by apply IH. Qed.

Definition graph_atts : list (bytes * bytes) :=
  [(str "edgedefault", str "directed"); (str "parse.order", str "nodesfirst"); (str "parse.nodeids", str "free"); (str "parse.edgeids", str "canonical")].
Definition config_elem (config : option bytes) : list wevent :=
  match config with Some c => [WStart t_data [(t_key, str "k0")]; WCData c; WEnd t_data] | None => [] end.
Lemma config_end config : tr_end 2 true (config_elem config) = (2, true).
Proof. by destruct config. Qed.
Lemma read_config K config : match config with Some c => no_cdata_end c | None => True end →
  ∃ d', ∀ r, read_all (rb K 2 true None None None None ∅ None [] []) (transfer 2 true (config_elem config) ++ r) =
  read_all (rb K 2 true None None None None d' config [] []) r.
Proof.
  destruct config as [c|]; intros Hc; [|by exists ∅]. unfold config_elem. 
  exists (match K !! str "k0" with Some ak => <[ak := []]> ∅ | None => ∅ end). intros r. cbn [transfer]. rewrite <- app_assoc, read_line.
  unfold read_cdata. rewrite (find_end_None c Hc). cbn [app GraphML.read_all read_step line].
  unfold on_start, rb at 1. rewrite (decide_False (P := t_data = t_graph ∧ _)) by (by intros [? _]).
  rewrite (decide_False (P := t_data = t_key ∧ _)) by (by intros [? _]).
  rewrite (decide_False (P := t_data = t_node ∧ _)) by (by intros [? _]).
  rewrite (decide_False (P := t_data = t_edge ∧ _)) by (by intros [? _]). rewrite decide_True by done.
  assert (att t_key (esc_atts [(t_key, str "k0")]) None = Some (str "k0")) as -> by reflexivity.
  unfold on_cdata. rewrite decide_True by done. unfold on_end. rewrite (decide_False (P := t_data = t_graph)) by done.
  rewrite (decide_False (P := t_data = t_node)) by done. rewrite (decide_False (P := t_data = t_edge)) by done. rewrite decide_True by done. done.
Qed.

Lemma read_file config h (ln : list (bytes * list (bytes * anno_key * bytes))) (le : list eitem) :
  let K := fold_left header_step h ∅ in
  Forall is_key h → match config with Some c => no_cdata_end c | None => True end →
  (∀ x, x ∈ ln → xml_plain x.1 ∧ ok_labels K x.2) → (∀ x, x ∈ le → eitem_ok K x) →
  read_graphml ct ctname drain (transfer 0 false ([WDecl; WStart t_graphml []] ++ h ++ [WStart t_graph graph_atts] ++ config_elem config ++
    (ln ≫= λ x, node_elem x.1 x.2) ++ (le ≫= eitem_elem) ++ [WEnd t_graph; WEnd t_graphml])) =
  Some (numbered_from 1 ((ln ≫= λ x, node_events (Some x.1) (data_map x.2)) ++ (le ≫= eitem_events)), config).
Proof.
  intros K Hh Hc Hn He. unfold read_graphml. cbn [app transfer]. change (line false 0) with (@nil xevent). cbn [app GraphML.read_all read_step].
  change rd_init with (rb ∅ 0 false None None None None ∅ None [] []). rewrite read_line.
  cbn [GraphML.read_all read_step esc_atts fmap list_fmap]. unfold on_start at 1, rb at 1.
  rewrite (decide_False (P := t_graphml = t_graph ∧ _)) by (by intros [? _]).
  rewrite (decide_False (P := t_graphml = t_key ∧ _)) by (by intros [? _]).
  rewrite (decide_False (P := t_graphml = t_node ∧ _)) by (by intros [? _]).
  rewrite (decide_False (P := t_graphml = t_edge ∧ _)) by (by intros [? _]).
  rewrite (decide_False (P := t_graphml = t_data)) by done.
  fold (rb ∅ 1 false None None None None ∅ None [] []).
  rewrite transfer_app, (header_end h Hh). cbn [fst snd]. rewrite read_header by done. fold K.
  cbn [transfer]. rewrite read_line. cbn [GraphML.read_all read_step]. unfold on_start at 1, rb at 1.
  rewrite (decide_True (P := t_graph = t_graph ∧ _)) by done. fold (rb K 2 true None None None None ∅ None [] []).
  rewrite transfer_app, config_end. cbn [fst snd]. destruct (read_config K config Hc) as [d1 H1]. rewrite H1.
  rewrite transfer_app, nodes_end. cbn [fst snd]. destruct (read_nodes K config [] ln d1 [] Hn) as [d2 H2]. rewrite H2.
  rewrite transfer_app, edges_end. cbn [fst snd]. destruct (read_edges K config ([] ++ (ln ≫= λ x, node_events (Some x.1) (data_map x.2))) le d2 [] He) as [d3 H3].
  rewrite H3. cbn [app]. cbn [transfer]. rewrite read_line. cbn [GraphML.read_all read_step].
  unfold on_end at 1, rb at 1. rewrite (decide_True (P := t_graph = t_graph)) by done. cbn [pred].
  fold (rb K 1 false None None None None d3 config (ln ≫= λ x, node_events (Some x.1) (data_map x.2)) (le ≫= eitem_events)).
  rewrite read_line. cbn [GraphML.read_all read_step].
  unfold on_end at 1, rb at 1. rewrite (decide_False (P := t_graphml = t_graph)) by done. rewrite (decide_False (P := t_graphml = t_node)) by done.
  rewrite (decide_False (P := t_graphml = t_edge)) by done. rewrite (decide_False (P := t_graphml = t_data)) by done.
  done.
Qed.
End file.

(** ** Applying the events *)
Section fold.
Context {K : Type} `{Countable K} (f : anno_key → K) (Hf : ∀ a b, f a = f b → a = b).
Lemma fold_at (l : list (anno_key * bytes)) : ∀ (L : gmap K bytes) k, NoDup l.*1 →
  fold_left (λ L kv, <[f kv.1 := kv.2]> L) l L !! f k = match (list_to_map l : gmap anno_key bytes) !! k with Some v => Some v | None => L !! f k end.
Proof using Hf.
  induction l as [|[x v] l IH]; intros L k Hnd; [done|]. rewrite fmap_cons in Hnd. apply NoDup_cons in Hnd as [Hx Hnd].
  cbn [fold_left fst snd]. rewrite IH by done. cbn [list_to_map foldr fst snd]. destruct (decide (k = x)) as [->|Hne].
  - rewrite !lookup_insert. by rewrite not_elem_of_list_to_map_1.
  - rewrite !lookup_insert_ne; [done|done|]. intros Heq. by apply Hne, Hf.
Qed.
Lemma fold_other (l : list (anno_key * bytes)) : ∀ (L : gmap K bytes) x, (∀ k, x ≠ f k) → fold_left (λ L kv, <[f kv.1 := kv.2]> L) l L !! x = L !! x.
Proof using Type.
  induction l as [|[k v] l IH]; intros L x Hx; [done|]. cbn [fold_left fst snd]. rewrite IH by done. apply lookup_insert_ne. intros Heq. by apply (Hx k).
Qed.
End fold.

Section run.
Context (ct : bytes → option N) (ctname : N → bytes) (drain : gmap anno_key bytes → list (anno_key * bytes)).
Context (Hdrain : ∀ d, drain d ≡ₚ map_to_list d).
Notation node_events := (node_events drain).
Notation edge_events := (edge_events ct ctname drain).

Lemma drain_NoDup d : NoDup (drain d).*1.
Proof using Hdrain. clear -Hdrain. rewrite Hdrain. apply NoDup_fst_map_to_list. Qed.
Lemma drain_map d : list_to_map (drain d) = d.
Proof using Hdrain.
  clear -Hdrain. rewrite (list_to_map_proper _ (map_to_list d)); [apply list_to_map_to_list| |apply Hdrain]. apply drain_NoDup.
Qed.
Lemma run_labels n (l : list (anno_key * bytes)) : ∀ L C E X, is_Some (L !! (n, node_name_key)) →
  lg_run ct (LGraph L C E X) ((λ kv, AddNodeLabel n (ak_ns kv.1) (ak_name kv.1) kv.2) <$> l) =
  LGraph (fold_left (λ L kv, <[(n, kv.1) := kv.2]> L) l L) C E X.
Proof.
  unfold lg_run. induction l as [|[k v] l IH]; intros L C E X Hn; [done|]. cbn [fmap list_fmap fold_left lg_step fst snd].
  rewrite decide_True by done. destruct k as [nm ns]. cbn [ak_ns ak_name]. apply IH. destruct (decide ((n, node_name_key) = (n, AnnoKey nm ns))) as [->|Hne].
  - rewrite lookup_insert. by eexists.
  - by rewrite lookup_insert_ne.
Qed.
Lemma run_node n data t L C E X : (∀ k, L !! (n, k) = None) → data !! node_name_key = None → data !! node_type_key = Some t →
  ∃ L', lg_run ct (LGraph L C E X) (node_events (Some n) data) = LGraph L' C E X ∧
  (∀ k, L' !! (n, k) = if decide (k = node_name_key) then Some n else data !! k) ∧ ∀ n' k, n' ≠ n → L' !! (n', k) = L !! (n', k).
Proof using Hdrain.
  intros HL Hn Ht. unfold GraphML.node_events. rewrite Ht. cbn [default]. unfold lg_run. cbn [fold_left lg_step].
  rewrite decide_False; [|unfold is_node; cbn; rewrite HL; by intros [? ?]].
  match goal with |- context [fold_left _ _ (LGraph ?X0 C E X)] => set (L0 := X0) end.
  assert (∀ k, L0 !! (n, k) = if decide (k = node_name_key) then Some n else if decide (k = node_type_key) then Some t else None) as H0.
  { intros k. unfold L0. destruct (decide (k = node_name_key)) as [->|Hk].
    - rewrite lookup_insert_ne by (unfold node_type_key, node_name_key; congruence). by rewrite lookup_insert.
    - destruct (decide (k = node_type_key)) as [->|Hk']; [by rewrite lookup_insert|]. rewrite !lookup_insert_ne by congruence. apply HL. }
  pose proof (run_labels n (drain (delete node_type_key data)) L0 C E X) as Hr. unfold lg_run in Hr. rewrite Hr; [|rewrite H0, decide_True by done; by eexists].
  eexists. split; [reflexivity|]. split.
  - intros k. rewrite (fold_at (n,.)); [|by intros ? ? [= ->]|apply drain_NoDup]. rewrite drain_map, H0.
    destruct (decide (k = node_name_key)) as [->|Hk]; [rewrite lookup_delete_ne by done; by rewrite Hn|].
    destruct (decide (k = node_type_key)) as [->|Hk']; [by rewrite lookup_delete, Ht|]. rewrite lookup_delete_ne by done.
    by destruct (data !! k).
  - intros n' k Hne. rewrite (fold_other (n,.)) by congruence. unfold L0. by rewrite !lookup_insert_ne by congruence.
Qed.
Lemma run_nodes (ln : list (bytes * gmap anno_key bytes)) : ∀ L C E X, NoDup ln.*1 → (∀ n k, n ∈ ln.*1 → L !! (n, k) = None) →
  (∀ x, x ∈ ln → x.2 !! node_name_key = None ∧ is_Some (x.2 !! node_type_key)) →
  ∃ L', lg_run ct (LGraph L C E X) (ln ≫= λ x, node_events (Some x.1) x.2) = LGraph L' C E X ∧
  (∀ n data k, (n, data) ∈ ln → L' !! (n, k) = if decide (k = node_name_key) then Some n else data !! k) ∧
  ∀ n k, n ∉ ln.*1 → L' !! (n, k) = L !! (n, k).
Proof using Hdrain.
  induction ln as [|[n data] ln IH]; intros L C E X Hnd HL Hd.
  - exists L. split; [done|]. split; [by intros ? ? ? H%elem_of_nil|done].
  - rewrite fmap_cons in Hnd, HL. cbn [fst] in Hnd, HL. apply NoDup_cons in Hnd as [Hn Hnd].
    destruct (Hd (n, data)) as [Hd1 [t Hd2]]; [apply elem_of_cons; by left|]. cbn [snd] in Hd1, Hd2.
    destruct (run_node n data t L C E X) as (L1 & R1 & R2 & R3); [intros k; apply HL, elem_of_cons; by left|done|done|].
    destruct (IH L1 C E X Hnd) as (L' & I1 & I2 & I3).
    { intros n' k Hn'. rewrite R3 by (intros ->; done). apply HL, elem_of_cons. by right. }
    { intros x Hx. apply Hd, elem_of_cons. by right. }
    exists L'. split; [|split].
    + cbn [mbind list_bind fst snd]. unfold lg_run in *. rewrite fold_left_app, R1. exact I1.
    + intros n' data' k [[= -> ->]|Hin]%elem_of_cons; [|by apply I2]. rewrite I3 by done. apply R2.
    + intros n' k Hn'. rewrite fmap_cons in Hn'. apply not_elem_of_cons in Hn' as [Hn1 Hn2]. cbn [fst] in Hn1. rewrite I3 by done. by apply R3.
Qed.

Lemma run_elabels c s t (l : list (anno_key * bytes)) : ∀ L C E X, ct (ctname c.1.1) = Some c.1.1 →
  is_Some (L !! (s, node_name_key)) → is_Some (L !! (t, node_name_key)) → c ∈ C → (c, (s, t)) ∈ E →
  lg_run ct (LGraph L C E X) ((λ kv, AddEdgeLabel s t c.1.2 (ctname c.1.1) c.2 (ak_ns kv.1) (ak_name kv.1) kv.2) <$> l) =
  LGraph L C E (fold_left (λ X kv, <[(c, (s, t), kv.1) := kv.2]> X) l X).
Proof.
  unfold lg_run. induction l as [|[k v] l IH]; intros L C E X Hct Hs Ht HC HE; [done|]. cbn [fmap list_fmap fold_left lg_step fst snd].
  unfold with_edge. rewrite Hct, decide_True by done. destruct c as [[ty la] cn]. cbn [fst snd] in *. rewrite decide_True by done.
  assert ({[(ty, la, cn)]} ∪ C = C) as HU by (clear -HC; set_solver).
  destruct k as [nm ns]. cbn [ak_ns ak_name].
  match goal with |- fold_left _ _ (LGraph _ ?C' _ _) = _ => assert (C' = C) as -> by exact HU end. by apply IH.
Qed.
Lemma run_edge c s t txt data L C E X : ct (ctname c.1.1) = Some c.1.1 → comp_of_text ct txt = Some c →
  is_Some (L !! (s, node_name_key)) → is_Some (L !! (t, node_name_key)) → s ≠ t → (∀ k, X !! (c, (s, t), k) = None) →
  ∃ X', lg_run ct (LGraph L C E X) (edge_events (Some s) (Some t) (Some txt) data) = LGraph L ({[c]} ∪ C) ({[(c, (s, t))]} ∪ E) X' ∧
  (∀ k, X' !! (c, (s, t), k) = data !! k) ∧ ∀ x k, x ≠ (c, (s, t)) → X' !! (x, k) = X !! (x, k).
Proof using Hdrain.
  intros Hct Htx Hs Ht Hne HX. unfold GraphML.edge_events. rewrite Htx. destruct c as [[ty la] cn]. cbn [fst snd] in Hct. unfold lg_run. cbn [fold_left lg_step].
  unfold with_edge. rewrite Hct, decide_True by done. rewrite (decide_False (P := s = t)) by done.
  pose proof (run_elabels (ty, la, cn) s t (drain data) L ({[(ty, la, cn)]} ∪ C) ({[(ty, la, cn, (s, t))]} ∪ E) X Hct Hs Ht ltac:(set_solver) ltac:(set_solver)) as Hr.
  unfold lg_run in Hr. cbn [fst snd] in Hr. eexists. split; [exact Hr|]. split.
  - intros k. rewrite (fold_at ((ty, la, cn, (s, t)),.)); [|by intros ? ? [= ->]|apply drain_NoDup]. rewrite drain_map, HX. by destruct (data !! k).
  - intros x k Hx. by rewrite (fold_other ((ty, la, cn, (s, t)),.)) by congruence.
Qed.
(** An edge with its labels *)
Definition redge : Type := (comp * (bytes * bytes)) * bytes * gmap anno_key bytes.
Definition redge_ok (L : gmap (bytes * anno_key) bytes) (x : redge) : Prop :=
  let '(c, (s, t), txt, data) := x in ct (ctname c.1.1) = Some c.1.1 ∧ comp_of_text ct txt = Some c ∧
  is_Some (L !! (s, node_name_key)) ∧ is_Some (L !! (t, node_name_key)) ∧ s ≠ t.
Definition redge_events (x : redge) : list event := let '(c, (s, t), txt, data) := x in edge_events (Some s) (Some t) (Some txt) data.
Lemma run_edges L (le : list redge) : ∀ C E X, NoDup le.*1.*1 → (∀ x, x ∈ le → redge_ok L x) → (∀ p k, p ∈ le.*1.*1 → X !! (p, k) = None) →
  ∃ X', lg_run ct (LGraph L C E X) (le ≫= redge_events) = LGraph L (list_to_set le.*1.*1.*1 ∪ C) (list_to_set le.*1.*1 ∪ E) X' ∧
  (∀ p txt data k, (p, txt, data) ∈ le → X' !! (p, k) = data !! k) ∧ ∀ p k, p ∉ le.*1.*1 → X' !! (p, k) = X !! (p, k).
Proof using Hdrain.
  induction le as [|[[[c [s t]] txt] data] le IH]; intros C E X Hnd Hok HX.
  - exists X. split; [|split; [by intros ? ? ? ? H%elem_of_nil|done]]. cbn [fmap list_fmap list_to_set]. by rewrite !(left_id_L ∅ (∪)).
  - rewrite !fmap_cons in Hnd, HX. cbn [fst] in Hnd, HX. apply NoDup_cons in Hnd as [Hn Hnd].
    destruct (Hok (c, (s, t), txt, data)) as (H1 & H2 & H3 & H4 & H5); [apply elem_of_cons; by left|].
    destruct (run_edge c s t txt data L C E X) as (X1 & R1 & R2 & R3); [done..|intros k; apply HX, elem_of_cons; by left|].
    destruct (IH ({[c]} ∪ C) ({[(c, (s, t))]} ∪ E) X1 Hnd) as (X' & I1 & I2 & I3).
    { intros x Hx. apply Hok, elem_of_cons. by right. }
    { intros p k Hp. rewrite R3 by (intros ->; done). apply HX, elem_of_cons. by right. }
    exists X'. split; [|split].
    + cbn [mbind list_bind]. unfold lg_run in *. rewrite fold_left_app.
      etransitivity; [|etransitivity; [exact I1|]]; [f_equal; exact R1|]. cbn [fmap list_fmap list_to_set fst]. f_equal.
      * rewrite !(assoc_L (∪)). f_equal. apply (comm_L (∪)).
      * rewrite !(assoc_L (∪)). f_equal. apply (comm_L (∪)).
    + intros p txt' data' k [[= -> -> ->]|Hin]%elem_of_cons; [|by apply (I2 p txt')]. rewrite I3 by done. apply R2.
    + intros p k Hp. rewrite !fmap_cons in Hp. apply not_elem_of_cons in Hp as [Hp1 Hp2]. cbn [fst] in Hp1. rewrite I3 by done. by apply R3.
Qed.
End run.
