(** Proofs about SearchChoice.v. *)
From stdpp Require Import base list gmap.
From Coq Require Import NArith Lia.
From Verif Require Import KeySer SortedMap Types SymbolTable AnnoMem AnnoSpec GraphSpec Adjacency AdjacencySpec Storage StorageSpec GraphApply
  RelAnnis TokenHelper TokenSearchSpec ContextSpec QuickSort TokenSearch NodeSearch NodeSearchSpec NodeSearchProofs SortMatches TokenOps TokenOpsSpec
  EdgeOps EdgeOpsSpec EdgeOpsProofs Query AqlGrammar CorpusEngine CorpusEngineSpec SearchChoice SearchChoiceSpec.

Section Choice.
Context (rx : bytes → option (bytes → bool)) (c : content) (W : cname → option component) (exact : bytes → option bytes) (db : corpus) (cs : components).
Context (H : holds_content db c) (T : texts_ok c) (A : aligned c) (HG : holds_graph cs W) (order : storage) (Eo : cp_order db = Some order).
Context (hs : list storage → list storage) (Hh : ∀ l, hs l ≡ₚ l).

Definition sources_of (comps : list storage) (n : N) : Prop := ∃ gs, gs ∈ comps ∧ n ∈ gs_sources gs.
Lemma component_nodes_sources comps n : n ∈ component_nodes comps None ↔ sources_of comps n.
Proof using.
  unfold component_nodes, sources_of. rewrite elem_of_list_join. setoid_rewrite elem_of_list_fmap. split.
  - intros (l & Hn & gs & -> & Hgs). by exists gs.
  - intros (gs & Hgs & Hn). exists (gs_sources gs). split; [done|]. by exists gs.
Qed.
Lemma sources_app l1 l2 n : sources_of (l1 ++ l2) n ↔ sources_of l1 n ∨ sources_of l2 n.
Proof using. unfold sources_of. setoid_rewrite elem_of_app. naive_solver. Qed.
Lemma sources_loaded gs G n : implements gs G → sources_of (when_loaded (Some gs)) n ↔ is_source G n.
Proof using.
  intros Hi. unfold sources_of. cbn. setoid_rewrite elem_of_list_singleton. rewrite <- (im_sources _ _ Hi). naive_solver.
Qed.
Lemma text_sources n : sources_of (text_storages db) n ↔ ∃ G, text_edges c G ∧ is_source G n.
Proof using H.
  destruct (hc_left _ _ H) as (gl & El & Hl). destruct (hc_right _ _ H) as (gr & Er & Hr). pose proof (hc_cov _ _ H) as Hc.
  unfold text_storages. rewrite El, Er, !sources_app, (sources_loaded gl _ n Hl), (sources_loaded gr _ n Hr).
  assert (sources_of (cp_cov db) n ↔ ∃ G, G ∈ ct_cov c ∧ is_source G n) as ->.
  { rewrite <- component_nodes_sources. by apply component_nodes_in. }
  unfold text_edges. clear. naive_solver.
Qed.
Lemma graph_storage n C : W n = Some C → loaded cs (λ m, m = n) → ∃ gs, get_storage cs n = Some gs ∧ implements gs (co_edges C).
Proof using HG.
  intros HW Hl. assert (is_Some (W n)) as Hwc by (by exists C).
  apply (hg_names _ _ HG), elem_of_list_fmap in Hwc as ([n' o] & -> & Hin). cbn [fst] in *. destruct (Hl n' o Hin eq_refl) as [gs ->].
  assert (get_storage cs n' = Some gs) as Hg by (by apply (get_storage_iff cs W HG)). exists gs. split; [done|].
  by destruct (get_storage_holds cs W HG n' gs C Hg HW).
Qed.
Lemma named_sources name n : loaded cs (λ m, m = name) →
  sources_of (when_loaded (get_storage cs name)) n ↔ ∃ C, W name = Some C ∧ is_source (co_edges C) n.
Proof using HG.
  intros Hl. split.
  - intros (gs & Hgs & Hn). destruct (get_storage cs name) as [gs'|] eqn:Eg; [|by apply elem_of_nil in Hgs].
    apply elem_of_list_singleton in Hgs as ->. destruct (get_storage_named cs W HG name gs' Eg) as [C HW]. exists C. split; [done|].
    destruct (get_storage_holds cs W HG name gs' C Eg HW) as [Hi _]. by apply (im_sources _ _ Hi).
  - intros (C & HW & Hn). destruct (graph_storage name C HW Hl) as (gs & -> & Hi). by apply (sources_loaded gs (co_edges C)).
Qed.
Lemma typed_sources ct name n : loaded cs (λ m, cn_type m = ct ∧ cn_name m = name) →
  sources_of (omap (get_storage cs) (all_components cs (Some ct) (Some name))) n ↔
  ∃ m C, (cn_type m = ct ∧ cn_name m = name) ∧ W m = Some C ∧ is_source (co_edges C) n.
Proof using HG.
  intros Hl. unfold sources_of. setoid_rewrite elem_of_list_omap. setoid_rewrite (all_components_in cs W HG). split.
  - intros (gs & (m & ((C & HW) & Ht & Hm) & Hg) & Hn). exists m, C. split_and!; [by apply Ht|by apply Hm|done|].
    destruct (get_storage_holds cs W HG m gs C Hg HW) as [Hi _]. by apply (im_sources _ _ Hi).
  - intros (m & C & [Ht Hm] & HW & Hn). destruct (graph_storage m C HW) as (gs & Hg & Hi).
    { intros m' o Hin ->. by apply (Hl m o Hin). }
    exists gs. split; [|by apply (im_sources _ _ Hi)]. exists m. split; [|done]. split_and!; [by exists C|by intros ? [= <-]|by intros ? [= <-]].
Qed.
Lemma order_sources seg n : match seg with Some s => loaded cs (λ m, m = seg_order s) | None => True end →
  sources_of (order_storages db cs seg) n ↔ ∃ G, order_edges c W seg G ∧ is_source G n.
Proof using H HG Eo.
  destruct seg as [s|]; cbn [order_storages order_edges]; intros Hl.
  - change (seg_component s) with (seg_order s). rewrite (named_sources (seg_order s) n Hl). clear. split.
    + intros (C & HW & Hs). exists (co_edges C). split; [by exists C|done].
    + intros (G & (C & HW & ->) & Hs). by exists C.
  - pose proof (hc_order _ _ H) as Ho. rewrite Eo in Ho |- *. destruct Ho as [Ho _]. rewrite (sources_loaded order _ n Ho). clear. split; [by exists (ct_order c)|]. by intros (G & -> & Hs).
Qed.
Lemma necessary_lemma o n : operator_loaded cs o → n ∈ component_nodes (necessary db cs hs o) None ↔ has_edge c W o n.
Proof using H HG Eo Hh.
  intros Hl. rewrite component_nodes_sources. unfold has_edge.
  assert (∀ l, sources_of (hs l) n ↔ sources_of l n) as Hp by (intros l; unfold sources_of; by setoid_rewrite (Hh l)).
  unfold necessary. rewrite Hp. destruct o as [name dist anno|name dist anno|seg dist|seg dist|dist| | | | | | |]; cbn [operator_edges operator_loaded] in *.
  all: try (rewrite sources_app, text_sources; rewrite order_sources by (by destruct seg || done); clear; naive_solver).
  all: try (rewrite text_sources; clear; naive_solver).
  all: try (split; [intros (gs & Hgs & _); by apply elem_of_nil in Hgs|intros (G & [] & _)]).
  - rewrite (typed_sources t_dominance name n Hl). unfold t_dominance. cbn. clear. naive_solver.
  - rewrite (typed_sources t_pointing name n Hl). unfold t_pointing. cbn. clear. naive_solver.
  - cbn [q_component] in *. rewrite (named_sources (CName 7 [] annis) n Hl). clear. naive_solver.
Qed.

(** *** Directed operators *)
Lemma walk_source (G : gset edge) a p b : walk (edge_rel G) a p b → p ≠ [] → is_source G a.
Proof using. destruct p as [|x p]; [done|]. intros [He _] _. by exists x. Qed.
Lemma allowed_steps dist (p : list N) : (1 <= min_dist dist)%N → allowed dist (length p) → p ≠ [].
Proof using. destruct dist; cbn; intros Hm Hl ->; cbn in Hl; lia. Qed.
Lemma linked_source q a b : (1 <= min_dist (q_dist q))%N → EdgeOpsSpec.linked rx W q a b →
  ∃ n C, q_component q n ∧ W n = Some C ∧ is_source (co_edges C) a.
Proof using.
  intros Hm (n & C & Hn & HW & (p & [Hp _] & Hl) & _). exists n, C. split_and!; [done|done|].
  eapply walk_source; [exact Hp|]. by eapply allowed_steps.
Qed.
Lemma steps_source G dist a b : (1 <= min_dist dist)%N → steps G dist a b → is_source G a.
Proof using. intros Hm (p & Hp & Hl). eapply walk_source; [exact Hp|]. by eapply allowed_steps. Qed.
Lemma directed_source o a b : directed o → related rx c W o a b → has_edge c W o a.
Proof using A.
  unfold has_edge. destruct o as [name dist anno|name dist anno|[s|] dist|seg dist|dist| | | | | | |]; cbn [directed related operator_edges]; intros Hd Hr; try done.
  - destruct (linked_source (QDominance name dist anno) a b Hd Hr) as (n & C & H1 & H2 & H3). exists (co_edges C). split; [|done]. by exists n, C.
  - destruct (linked_source (QPointing name dist anno) a b Hd Hr) as (n & C & H1 & H2 & H3). exists (co_edges C). split; [|done]. by exists n, C.
  - destruct Hr as (C & HW & Hs). exists (co_edges C). split; [|by eapply steps_source]. left. by exists C.
  - destruct Hr as (x & y & Hl & _ & Hs). pose proof (steps_source _ _ _ _ Hd Hs) as Hx.
    destruct Hl as [[Ht [-> |[Hc Hn]]] Hm].
    + exists (ct_order c). split; [by left|done].
    + exists (ct_right c). split; [right; by right; left|]. exists x. apply A. split; [done|]. split; [|done]. split; [done|]. by right.
  - destruct (linked_source (QPartOf dist) a b Hd Hr) as (n & C & H1 & H2 & H3). exists (co_edges C). split; [|done]. by exists n, C.
Qed.

(** *** The decision *)
Lemma optimize_some s out node off ops se : optimize db cs hs s (Some out) node off ops = Some se →
  ∃ b, b ∈ ops ∧ b.1.2 - off = node ∧ se = component_search db s (necessary db cs hs b.1.1.1) None.
Proof using.
  induction ops as [|b r IH]; cbn; [done|]. case_bool_decide as Hb; cbn [andb].
  - destruct (smaller _ out).
    + intros [= <-]. exists b. split_and!; [by left|done|done].
    + intros Hs. destruct (IH Hs) as (b' & H1 & H2). exists b'. split; [by right|done].
  - intros Hs. destruct (IH Hs) as (b' & H1 & H2). exists b'. split; [by right|done].
Qed.
Lemma optimize_none s out node off ops : optimize db cs hs s (Some out) node off ops = None ↔
  ∀ b, b ∈ ops → b.1.2 - off = node → smaller (necessary db cs hs b.1.1.1) out = false.
Proof using.
  induction ops as [|b r IH]; cbn; [split; [intros _ b Hb; by apply elem_of_nil in Hb|done]|].
  setoid_rewrite elem_of_cons. unfold necessary_for. case_bool_decide as Hb; cbn [andb].
  - destruct (smaller _ out) eqn:Es; [|rewrite IH; naive_solver]. split; [done|]. intros Hn. specialize (Hn b (or_introl eq_refl) Hb). congruence.
  - rewrite IH. naive_solver.
Qed.
Lemma estimate_fold comps acc : fold_left (λ acc gs, match gs_nodes gs with Some n => Some (default 0 acc + n) | None => acc end) comps acc =
  match acc, omap gs_nodes comps with None, [] => None | _, l => Some (default 0 acc + sum_list l) end.
Proof using.
  revert acc. induction comps as [|gs comps IH]; intros acc; cbn.
  - destruct acc as [n|]; [|done]. cbn. f_equal. lia.
  - rewrite IH. change (list_omap _ _ gs_nodes comps) with (omap gs_nodes comps). destruct (gs_nodes gs) as [k|]; [|done]. cbn.
    destruct acc as [n|]; cbn; f_equal; lia.
Qed.
Lemma smaller_iff comps out : smaller comps out = true ↔ omap gs_nodes comps ≠ [] ∧ sum_list (omap gs_nodes comps) < out.
Proof using.
  unfold smaller, estimate. rewrite estimate_fold. destruct (omap gs_nodes comps) as [|k l] eqn:El; [split; [done|by intros []]|].
  cbn [default]. rewrite Nat.ltb_lt. naive_solver.
Qed.
Lemma replaced_lemma fuel rnd sp se se' output node off ops :
  (∀ b, b ∈ ops → operator_loaded cs b.1.1.1) → from_spec rx exact db fuel rnd sp = Some se →
  optimize db cs hs se output node off ops = Some se' →
  ∃ b l, b ∈ ops ∧ b.1.2 - off = node ∧ se_items se' = Done l ∧
  (∀ n k, (n, k) ∈ l ↔ meets rx c sp n k ∧ has_edge c W b.1.1.1 n).
Proof using H HG Eo Hh.
  intros Hl E Eop. destruct output as [out|]; [|destruct ops; discriminate Eop].
  destruct (optimize_some _ _ _ _ _ _ Eop) as (b & Hb & Hn & ->).
  destruct (component_lemma rx exact db c H fuel rnd sp se (necessary db cs hs b.1.1.1) None E) as (l & E1 & E2). exists b, l.
  split_and!; [done|done|done|]. intros n k. rewrite E2. by rewrite (necessary_lemma _ n (Hl b Hb)).
Qed.
Lemma kept_lemma fuel rnd sp se se' output node off ops specs a :
  (∀ b, b ∈ ops → operator_loaded cs b.1.1.1) → from_spec rx exact db fuel rnd sp = Some se →
  optimize db cs hs se output node off ops = Some se' → specs (node + off) = Some sp →
  (∀ b, b ∈ ops → b.1.2 - off = node → b.1.2 = node + off ∧ b.1.1.2 = false ∧ directed b.1.1.1) →
  solution rx c W specs ops a → ∃ l k, se_items se' = Done l ∧ ((a (node + off)).1, k) ∈ l ∧ (a (node + off)).2 = reported sp k.
Proof using H A HG Eo Hh.
  intros Hl E Eop Hsp Hd [Hf Hb]. destruct (replaced_lemma fuel rnd sp se se' output node off ops Hl E Eop) as (b & l & Hin & Hn & E1 & E2).
  destruct (Hf _ _ Hsp) as (k & Hk & Hr). exists l, k. split_and!; [done| |done]. apply E2. split; [done|].
  destruct (Hd b Hin Hn) as (H1 & H2 & H3). specialize (Hb b Hin). unfold holds_between in Hb. rewrite H2, H1 in Hb. unfold operator_meaning in Hb.
  by eapply directed_source.
Qed.
End Choice.
