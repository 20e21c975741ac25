(** The import of tables with valid references does not fail. *)
From Coq Require Import NArith String Lia.
From stdpp Require Import base list gmap sorting.
From Verif Require Import KeySer KeySerSpec SortedMap Types AnnoMem AnnoMemQueries CompPath GraphUpdate GraphApply GraphApplySpec RelAnnis RelAnnisSpec RelAnnisMaps RelAnnisTree
  RelAnnisNames RelAnnisRun RelAnnisParts RelAnnisGraph RelAnnisEdges ListExtra.

Section total.
Context (t : ctree) (T : tables) (ST : sound_tables t T) (SR : sound_ranks T) (v33 : bool) (SX : sound_texts t v33 T) (SF : sound_refs v33 T) (ext : option bytes → list (bytes * bytes)).
Lemma name_of_id ct i : corpus_table (t_corpus T) = Some ct → i ∈ nr_id <$> t_nodes T → is_Some (id_to_name ct (t_nodes T) !! i).
Proof.
  intros Hct Hi. apply elem_of_list_fmap in Hi as (r & -> & Hr). destruct (row_name_exists t T ST r Hr) as [n Hn]. exists n. apply (names_spec t T ST ct); [done|by exists r].
Qed.
Lemma order_total names l : ∀ prev, (∀ x, x ∈ l ∨ prev = Some x → is_Some (names !! x.2)) → is_Some (order_events names prev l).
Proof.
  clear. induction l as [|x l IH]; intros prev H; cbn [order_events]; [by eexists|]. destruct (IH (Some x)) as [es ->].
  { intros y [Hy|Hy]; [apply H; left; by right|]. injection Hy as <-. apply H. left. left. }
  destruct prev as [y|]; [|by eexists]. destruct (same_text y.1 x.1); [|by eexists]. destruct (H y) as [a ->]; [by right|]. destruct (H x) as [b ->]; [left; left|]. by eexists.
Qed.
Lemma ranks_total names nodes comps rs : ∀ st, (∀ r s c, r ∈ rs → row_edge_of nodes comps r = Some (s, c) → is_Some (names !! s) ∧ is_Some (names !! rr_node r)) →
  is_Some (fold_left (rank_step names nodes comps) rs (Some st)).
Proof.
  clear. induction rs as [|r rs IH]; intros [es k] H; cbn [fold_left]; [by eexists|].
  assert (∃ st', rank_step names nodes comps (Some (es, k)) r = Some st') as [st' ->].
  { specialize (H r). unfold row_edge_of in H. unfold rank_step. destruct (rr_parent r) as [p|].
    - destruct (nodes !! p) as [s|]; [|by eexists]. destruct (comps !! rr_comp r) as [c|]; [|by eexists]. destruct (H s c) as [[a ->] [b ->]]; [left|done|]. by eexists.
    - destruct (comps !! rr_comp r) as [c|]; [|by eexists]. destruct (decide _); by eexists. }
  apply IH. intros r' s c Hr'. apply H. by right.
Qed.
Lemma import_total : ∃ es, import_events v33 ext T = Some (ct_name t, es).
Proof.
  destruct (sound_table t T ST) as (ct & rs & m & Hct & Htop & Er & Hp & Hcp & Hpp & Hby & Hid & Hpre). unfold import_events. rewrite Hct. cbn [mbind option_bind].
  rewrite (concat_opt_total (node_events ct)).
  2:{ intros r Hr. destruct (row_name_exists t T ST r Hr) as [n Hn]. rewrite (node_events_eq t T ST ct Hct r n Hr Hn). by eexists. }
  cbn [mbind option_bind]. destruct (order_total (id_to_name ct (t_nodes T)) (by_index (token_by_index (t_nodes T))) None) as [e2 ->].
  { intros x [Hx|Hx]; [|done]. change (by_index (token_by_index (t_nodes T))) with (entries index_compare (token_by_index (t_nodes T))) in Hx. apply entries_elem in Hx. unfold token_by_index in Hx.
    rewrite (fold_fill _ (λ r, match order_key r with Some q => Some (q, nr_id r) | None => None end)) in Hx by (intros g r; unfold order_key, pos_of; by destruct (nr_kind r)).
    apply fill_Some in Hx as (r & Hr & H). destruct (order_key r); [|done]. injection H as _ <-. apply name_of_id; [done|]. by apply elem_of_list_fmap_1. }
  cbn [mbind option_bind]. rewrite (concat_opt_total (nanno_events _ _)).
  2:{ intros a Ha. unfold nanno_events. destruct (name_of_id ct (ar_id a) Hct) as [n ->]; [|by eexists]. exact (proj1 (Forall_forall _ _) (sf_nannos _ _ SF) a Ha). }
  cbn [mbind option_bind]. rewrite (concat_opt_total (subcorpus_events _ _ _)).
  2:{ intros x Hx. unfold subcorpus_events. destruct (decide _) as [H0|H0]; [by eexists|]. rewrite by_key_entries in Hx. apply entries_elem in Hx. apply Hpre in Hx as (r & Hr & Hx1 & Hx2).
      rewrite Hx2. rewrite (Hby r Hr). destruct (row_below t T ST rs m r Er Hr) as [[p Hpath] H0']. assert (below t (cr_id r) p) as Hb by (split; [done|]; rewrite <- H0', <- Hx1; done).
      rewrite (Hcp _ _ Hb). destruct (below_path t _ _ Hb) as (q & z & -> & _). rewrite (Hpp _ _ _ (proj1 Hb)). by eexists. }
  cbn [mbind option_bind]. rewrite (concat_opt_total (text_events _ _ _)).
  2:{ intros [[i oc] [name val]] Hx. unfold text_events. cbn [fst snd]. destruct oc as [c|]; [|by eexists]. apply by_text_elem in Hx. cbn in Hx. apply (texts_spec t v33 T i c (name, val) SX) in Hx.
      pose proof (sf_texts _ _ SF _ _ _ _ Hx) as Hc. apply (tree_ids t T ST) in Hc as [p Hpc]. assert (below t c p) as Hb by (split; [done|]; destruct SX as (_ & _ & _ & H); by eapply H).
      rewrite (Hcp _ _ Hb). assert (is_Some (mapM (λ i0, id_to_name ct (t_nodes T) !! i0) (nodes_of_text (nodes_by_text (t_nodes T)) i c))) as [l ->]; [|by eexists].
      apply mapM_is_Some_2. apply Forall_forall. intros j Hj. apply name_of_id; [done|]. unfold nodes_of_text in Hj. rewrite (sort_list_perm N.compare) in Hj.
      apply elem_of_list_fmap in Hj as (x & -> & Hj). apply elem_of_list_filter in Hj as [_ Hj]. rewrite elem_of_elements in Hj. apply elem_of_list_to_set, elem_of_list_fmap in Hj as (r & -> & Hr). exact (elem_of_list_fmap_1 nr_id _ _ Hr). }
  cbn [mbind option_bind]. destruct (ranks_total (id_to_name ct (t_nodes T)) (pre_to_node (t_ranks T)) (component_by_id (t_comps T)) (t_ranks T) ([], ranks_empty)) as [[e8 k] E8].
  { intros r s c Hr H. apply (row_edge_spec T SR) in H; [|done]. destruct (sf_ranks _ _ SF _ _ _ _ H) as [H1 H2]. split; by apply name_of_id. }
  unfold load_ranks. rewrite E8. cbn [mbind option_bind]. rewrite (concat_opt_total (eanno_events _ _)).
  2:{ intros e He. unfold eanno_events. destruct (rk_comps k !! er_pre e) as [c|]; [|by eexists]. destruct (rk_edges k !! er_pre e) as [ab|] eqn:Eab; [|by eexists].
      destruct (proj1 (Forall_forall _ _) (sf_eannos _ _ SF) e He) as [n ->].
      apply ranks_final in E8 as (_ & _ & Hre & _ & _ & Hnames). rewrite Hre in Eab. apply fill_Some in Eab as (r & Hr & H). destruct (row_edge_of _ _ r) as [[s c']|] eqn:E; [|done]. injection H as _ <-. cbn.
      destruct (Hnames r s c' Hr E) as [[a ->] [b ->]]. by eexists. }
  cbn [mbind option_bind]. rewrite Htop. by eexists.
Qed.
End total.
