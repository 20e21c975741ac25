(** Nodes and labels of an imported corpus. *)
From Coq Require Import NArith String Lia.
From stdpp Require Import base list gmap sorting.
From Verif Require Import KeySer KeySerSpec SortedMap Types TypesProofs AnnoMem AnnoMemQueries CompPath GraphUpdate GraphApply GraphApplySpec RelAnnis RelAnnisSpec RelAnnisMaps RelAnnisTree
  RelAnnisNames RelAnnisRun RelAnnisParts ListExtra.

(** ** Texts *)
Lemma complete_texts_lookup rs : ∀ m i c, fold_left (λ m r, match m !! (nr_text r, None) with
                         | Some x => <[(nr_text r, Some (nr_corpus r)) := x]> (delete (nr_text r, None) m)
                         | None => m
                         end) rs (m : texts) !! (i, Some c) =
  match head (filter (λ n, nr_text n = i) rs), m !! (i, None) with
  | Some n, Some x => if decide (nr_corpus n = c) then Some x else m !! (i, Some c)
  | _, _ => m !! (i, Some c)
  end.
Proof.
  induction rs as [|r rs IH]; intros m i c; [done|]. cbn [fold_left]. rewrite IH. destruct (decide (nr_text r = i)) as [<-|Hne].
  - rewrite filter_cons_True by done. cbn [head]. destruct (m !! (nr_text r, None)) as [x|] eqn:E.
    + rewrite lookup_insert_ne by done. rewrite lookup_delete. destruct (decide (nr_corpus r = c)) as [<-|Hc].
      * rewrite lookup_insert. by destruct (head _).
      * rewrite lookup_insert_ne by congruence. rewrite lookup_delete_ne by done. by destruct (head _).
    + rewrite E. by destruct (head _).
  - rewrite filter_cons_False by done. destruct (m !! (nr_text r, None)) as [x|] eqn:E; [|done].
    rewrite lookup_insert_ne by done. rewrite !lookup_delete_ne by congruence. rewrite lookup_insert_ne by congruence. by rewrite lookup_delete_ne by done.
Qed.
Lemma parse_texts_lookup l i c x : NoDup ((λ r, (tr_id r, tr_corpus r)) <$> l) →
  parse_texts l !! (i, c) = Some x ↔ ∃ r, r ∈ l ∧ tr_id r = i ∧ tr_corpus r = c ∧ x = (tr_name r, tr_val r).
Proof.
  intros Hn. unfold parse_texts. rewrite (fill_all (λ r, (tr_id r, tr_corpus r)) (λ r, (tr_name r, tr_val r))). rewrite fill_unique.
  - split; [intros (r & Hr & H); injection H as <- <- <-; by exists r|intros (r & Hr & <- & <- & ->); by exists r].
  - clear -Hn. induction l as [|r l IH]; [constructor|]. cbn in *. apply NoDup_cons in Hn as [H1 H2].
    constructor; [|by apply IH]. intros H. apply H1. apply elem_of_list_fmap in H as (y & Hy & H). apply elem_of_list_omap in H as (r' & Hr' & H). injection H as <-. cbn in Hy.
    rewrite Hy. exact (elem_of_list_fmap_1 (λ r, (tr_id r, tr_corpus r)) _ _ Hr').
Qed.
Lemma texts_spec t v33 T i c x : sound_texts t v33 T → complete_texts v33 (parse_texts (t_text T)) (t_nodes T) !! (i, Some c) = Some x ↔ text_of v33 T i c x.1 x.2.
Proof.
  intros (Hn & Hc & _). unfold complete_texts, text_of. rewrite Forall_forall in Hc. destruct v33.
  - rewrite parse_texts_lookup by done. destruct x as [a b]. cbn. split; [intros (r & Hr & <- & H & E); injection E as -> ->; by exists r|intros (r & Hr & <- & <- & <- & H); by exists r].
  - rewrite complete_texts_lookup. assert (parse_texts (t_text T) !! (i, Some c) = None) as E0.
    { destruct (parse_texts (t_text T) !! (i, Some c)) as [y|] eqn:E; [|done]. apply parse_texts_lookup in E as (r & Hr & _ & E & _); [|done].
      specialize (Hc r Hr). rewrite E in Hc. destruct Hc as [Hc _]. discriminate Hc. by exists c. }
    rewrite E0. destruct (head _) as [n|] eqn:En.
    + destruct (parse_texts (t_text T) !! (i, None)) as [y|] eqn:E.
      * pose proof E as E'. apply parse_texts_lookup in E' as (r & Hr & Hi & Hcr & Hy); [|done]. destruct (decide _) as [Hd|Hd].
        -- split.
           ++ intros H. injection H as <-. exists r. rewrite Hy. cbn. repeat split; try done. by exists n.
           ++ intros (r' & Hr' & Hi' & Hn' & Hv' & Hcr' & _). rewrite <- E. apply parse_texts_lookup; [done|]. exists r'. destruct x as [a b]. cbn in *. subst. done.
        -- split; [done|]. intros (r' & _ & _ & _ & _ & _ & n' & Hn' & Hc'). congruence.
      * split; [done|]. intros (r' & Hr' & Hi' & Hn' & Hv' & Hcr' & _).
        assert (parse_texts (t_text T) !! (i, None) = Some (tr_name r', tr_val r')); [|congruence]. apply parse_texts_lookup; [done|]. by exists r'.
    + split; [done|]. intros (r' & _ & _ & _ & _ & _ & n' & Hn' & Hc'). congruence.
Qed.
Global Instance text_key_order : CmpOrder text_key_compare.
Proof.
  split.
  - intros [a b] [a' b']. unfold text_key_compare. cbn. destruct (N.compare_spec a a') as [-> |H|H].
    + destruct b as [b|], b' as [b'|]; [|split; [discriminate 1|intros E; congruence]..|done]. rewrite N.compare_eq_iff. split; congruence.
    + split; [discriminate 1|]. intros E. assert (a = a') by congruence. lia.
    + split; [discriminate 1|]. intros E. assert (a = a') by congruence. lia.
  - intros [a [b|]] [a' [b'|]]; unfold text_key_compare; cbn; rewrite (N.compare_antisym a a'); destruct (a ?= a')%N; cbn; try done. by rewrite (N.compare_antisym b b').
  - intros [a b] [a' b'] [a'' b'']. unfold text_key_compare. cbn. intros E1 E2.
    destruct (N.compare_spec a a') as [<-|H|H]; [| |discriminate E1].
    + destruct (a ?= a'')%N; try done. destruct b as [b|], b' as [b'|], b'' as [b''|]; try done.
      rewrite N.compare_lt_iff in E1, E2 |- *. lia.
    + destruct (N.compare_spec a' a'') as [<-|H'|H']; [| |discriminate E2]; rewrite (proj2 (N.compare_lt_iff a _)) by lia; done.
Qed.
Lemma by_text_elem m x : x ∈ by_text m ↔ m !! x.1 = Some x.2.
Proof. apply (entries_elem text_key_compare). Qed.

Section graph.
Context (t : ctree) (T : tables) (ST : sound_tables t T) (v33 : bool) (ext : option bytes → list (bytes * bytes)) (Hext : ∀ d f, f ∈ ext d → hash ∉ f.1).
Context (ct : ctable) (top : bytes) (es e1 e2 e3 e5 e6 e8 e9 : list event) (k : ranks) (PA : parts t T v33 ext ct top es e1 e2 e3 e5 e6 e8 e9 k).
Local Notation names := (id_to_name ct (t_nodes T)).
Local Notation is_row := (is_row_name t T).
Let Hct := pa_table _ _ _ _ _ _ _ _ _ _ _ _ _ _ _ PA.
Let Htop := pa_ct_top _ _ _ _ _ _ _ _ _ _ _ _ _ _ _ PA.
Let He1 := pa_e1 _ _ _ _ _ _ _ _ _ _ _ _ _ _ _ PA.
Let He2 := pa_e2 _ _ _ _ _ _ _ _ _ _ _ _ _ _ _ PA.
Let He3 := pa_e3 _ _ _ _ _ _ _ _ _ _ _ _ _ _ _ PA.
Let He5 := pa_e5 _ _ _ _ _ _ _ _ _ _ _ _ _ _ _ PA.
Let He6 := pa_e6 _ _ _ _ _ _ _ _ _ _ _ _ _ _ _ PA.
Let He8 := pa_e8 _ _ _ _ _ _ _ _ _ _ _ _ _ _ _ PA.
Let He9 := pa_e9 _ _ _ _ _ _ _ _ _ _ _ _ _ _ _ PA.
Let Hes := pa_es _ _ _ _ _ _ _ _ _ _ _ _ _ _ _ PA.
Lemma P2 : Forall (row_edge t T) e2.
Proof. eapply e2_edges; [exact ST|exact Hct|exact He2]. Qed.
Lemma P3 : Forall (row_label t T) e3.
Proof. eapply e3_labels_row; [exact ST|exact Hct|exact He3]. Qed.
Lemma P4 : Forall corpus_event (top_events v33 ct (corpus_annos (t_cannos T)) ext).
Proof. by eapply e4_corpus. Qed.
Lemma P5 : Forall corpus_event e5 ∧ ∀ S, grounded S e5.
Proof. eapply e5_spec; [exact ST|exact Hct|exact Hext|exact He5|]. intros x Hx. by apply by_pre_elem. Qed.
Lemma P6 : Forall text_event e6.
Proof. eapply e6_events. exact He6. Qed.
Lemma P8 : Forall (row_edge t T) e8.
Proof. eapply e8_edges; [exact ST|exact Hct|exact He8|constructor]. Qed.
Lemma P9 : Forall (row_elabel t T) e9.
Proof. eapply e9_elabels; [exact ST|exact Hct|exact He9]. Qed.
Lemma P10 : Forall (row_edge t T) (coverage_events names (t_nodes T) k).
Proof. eapply e10_edges; [exact ST|exact Hct]. Qed.
Lemma import_additive : Forall additive es.
Proof.
  rewrite Hes. rewrite !Forall_app. split_and!.
  - eapply e1_additive; [exact ST|exact Hct|exact He1].
  - eapply Forall_impl; [exact P2|]. by intros [].
  - eapply Forall_impl; [exact P3|]. by intros [].
  - eapply Forall_impl; [exact P4|]. by intros [].
  - eapply Forall_impl; [exact (proj1 P5)|]. by intros [].
  - eapply Forall_impl; [exact P6|]. by intros [].
  - apply Forall_forall. intros e He. apply (e7_labels t T ST ct Hct) in He as (n & a & v & -> & _). done.
  - eapply Forall_impl; [exact P8|]. by intros [].
  - eapply Forall_impl; [exact P9|]. by intros [].
  - eapply Forall_impl; [exact P10|]. by intros [].
Qed.
Lemma no_labels_grounded S l : (∀ e, e ∈ l → match e with AddNodeLabel _ _ _ _ => False | _ => True end) → grounded S l.
Proof. intros H. apply grounded_simple. intros n ns a v Hin. by apply H in Hin. Qed.
Lemma import_grounded : grounded (is_node lg_empty) es.
Proof.
  rewrite Hes. apply grounded_app; [eapply e1_grounded; [exact ST|exact Hct|exact He1]|].
  apply (grounded_mono is_row); [intros n Hn; right; by eapply e1_adds|].
  apply grounded_app; [apply no_labels_grounded; intros e He; by apply (proj1 (Forall_forall _ _) P2) in He; destruct e|]. apply (grounded_mono is_row); [by left|].
  apply grounded_app; [apply grounded_simple; intros n ns a v He; by apply (proj1 (Forall_forall _ _) P3) in He|]. apply (grounded_mono is_row); [by left|].
  apply grounded_app; [by eapply e4_grounded|]. apply (grounded_mono is_row); [by left|].
  apply grounded_app; [apply P5|]. apply (grounded_mono is_row); [by left|].
  apply grounded_app; [apply no_labels_grounded; intros e He; by apply (proj1 (Forall_forall _ _) P6) in He; destruct e|]. apply (grounded_mono is_row); [by left|].
  apply grounded_app; [apply grounded_simple; intros n ns a v He; apply (e7_labels t T ST ct Hct) in He as (n' & a' & v' & E & Hr & _); by injection E as -> _ _ _|].
  apply (grounded_mono is_row); [by left|]. apply no_labels_grounded. intros e He. apply elem_of_app in He as [He|He]; [by apply (proj1 (Forall_forall _ _) P8) in He; destruct e|].
  apply elem_of_app in He as [He|He]; [by apply (proj1 (Forall_forall _ _) P9) in He; destruct e|by apply (proj1 (Forall_forall _ _) P10) in He; destruct e].
Qed.
Local Notation G := (lg_run annis_ctype lg_empty es).
Lemma graph_label n kk : kk ≠ node_name_key → kk ≠ node_type_key → lg_labels G !! (n, kk) = last (omap (label_of n kk) es).
Proof.
  intros H1 H2. rewrite run_labels; [|exact import_additive|done|done|exact import_grounded]. destruct (last _); [done|]. apply lookup_empty.
Qed.
Lemma graph_node n : is_node G n ↔ adds n es.
Proof. rewrite run_node by exact import_additive. split; [intros [H|H]; [by apply empty_node in H|done]|by right]. Qed.
(** ** Labels of the nodes *)
Lemma no_adds_edges l : Forall (row_edge t T) l → ∀ n, ¬ adds n l.
Proof. intros F n [ty H]. by apply (proj1 (Forall_forall _ _) F) in H. Qed.
Lemma row_labels n kk r : r ∈ t_nodes T → row_name t r n →
  omap (label_of n kk) es = omap (label_of n kk) (default [] (node_events ct r)) ++ omap (label_of n kk) e3 ++
    omap (label_of n kk) (concat (text_white_space names (node_to nr_left_char (t_nodes T)) (node_to nr_right_char (t_nodes T))
      (token_by_index (t_nodes T)) <$> by_text (complete_texts v33 (parse_texts (t_text T)) (t_nodes T)))).
Proof.
  intros Hr Hn. assert (∀ l, Forall corpus_event l → omap (label_of n kk) l = []) as Hc.
  { intros l F. apply omap_none. intros e He. apply (proj1 (Forall_forall _ _) F) in He. destruct e; try done. cbn in *. rewrite decide_False; [done|].
    intros [-> _]. apply He. by eapply row_name_hash. }
  assert (∀ l, (∀ e, e ∈ l → match e with AddNodeLabel _ _ _ _ => False | _ => True end) → omap (label_of n kk) l = []) as Hl.
  { intros l F. apply omap_none. intros e He. apply F in He. by destruct e. }
  rewrite Hes, !omap_app. rewrite (e1_labels t T ST ct Hct e1 He1 n kk r Hr Hn). f_equal.
  rewrite (Hl e2) by (intros e He; apply (proj1 (Forall_forall _ _) P2) in He; by destruct e). rewrite app_nil_l. f_equal.
  rewrite (Hc _ P4), (Hc _ (proj1 P5)). rewrite (Hl e6) by (intros e He; apply (proj1 (Forall_forall _ _) P6) in He; by destruct e).
  rewrite (Hl e8) by (intros e He; apply (proj1 (Forall_forall _ _) P8) in He; by destruct e).
  rewrite (Hl e9) by (intros e He; apply (proj1 (Forall_forall _ _) P9) in He; by destruct e).
  rewrite (Hl (coverage_events _ _ _)) by (intros e He; apply (proj1 (Forall_forall _ _) P10) in He; by destruct e). rewrite !app_nil_l. by rewrite !app_nil_r.
Qed.
Lemma e7_none n kk left right m l : (ak_ns kk = annis_ns → ak_name kk ≠ str "tok-whitespace-before" ∧ ak_name kk ≠ str "tok-whitespace-after") →
  omap (label_of n kk) (concat (text_white_space names left right m <$> l)) = [].
Proof.
  intros Hk. apply omap_none. intros e He. apply (e7_labels t T ST ct Hct) in He as (n' & a & v & -> & _ & Ha). cbn. rewrite decide_False; [done|]. intros [_ E]. subst kk. cbn in Hk.
  destruct (Hk eq_refl) as [H1 H2]. destruct Ha as [-> | ->]; done.
Qed.
(** Labels from the table of annotations *)
Lemma e3_labels n kk r : r ∈ t_nodes T → row_name t r n →
  omap (label_of n kk) e3 = concat (map (λ a, if decide (ar_id a = nr_id r) then omap (label_of n kk) (default [] (nanno_events names (missing_span (t_nodes T)) a)) else []) (t_nannos T)).
Proof.
  intros Hr Hn. rewrite (concat_opt_omap _ _ _ _ He3). f_equal. apply map_ext_in. intros a Ha. destruct (decide _) as [Hi|Hi]; [done|]. apply omap_none. intros e He.
  unfold nanno_events in He. destruct (names !! ar_id a) as [m|] eqn:Em; [|by apply elem_of_nil in He]. apply (names_spec t T ST ct _ _ Hct) in Em as (r' & Hr' & Hi' & Hn').
  assert (m ≠ n) as Hm. { intros ->. apply Hi. rewrite <- Hi'. f_equal. by eapply row_name_inj. }
  cbn [default from_option id] in He. destruct (decide _); [by apply elem_of_nil in He|]. apply elem_of_app in He as [He|He].
  - destruct (missing_span _ !! _); [|by apply elem_of_nil in He]. destruct (ar_val a); [|by apply elem_of_nil in He]. destruct (decide _); [|by apply elem_of_nil in He].
    apply elem_of_list_singleton in He. subst e. cbn. rewrite decide_False; [done|]. by intros [? _].
  - apply elem_of_list_singleton in He. subst e. cbn. rewrite decide_False; [done|]. by intros [? _].
Qed.
Lemma names_of r n : r ∈ t_nodes T → row_name t r n → names !! nr_id r = Some n.
Proof. intros Hr Hn. apply (names_spec t T ST ct _ _ Hct). by exists r. Qed.
Lemma e3_plain n kk r : r ∈ t_nodes T → row_name t r n → kk ≠ AnnoKey (str "tok") annis_ns →
  omap (label_of n kk) e3 = (λ a, default char_max (ar_val a)) <$> filter (λ a, ar_id a = nr_id r ∧ AnnoKey (ar_name a) (ar_ns a) = kk) (t_nannos T).
Proof.
  intros Hr Hn Hk. rewrite (e3_labels n kk r Hr Hn). clear He3. induction (t_nannos T) as [|a l IH]; [done|]. cbn [map concat]. rewrite IH. clear IH.
  destruct (decide (ar_id a = nr_id r)) as [Hi|Hi].
  - unfold nanno_events. rewrite Hi, (names_of r n Hr Hn). cbn [default from_option id]. destruct (decide (ar_ns a = annis_ns ∧ ar_name a = str "tok")) as [[E1 E2]|Ht].
    + rewrite filter_cons_False; [done|]. intros [_ E]. apply Hk. rewrite <- E, E1, E2. done.
    + rewrite omap_app. assert (omap (label_of n kk) match missing_span (t_nodes T) !! nr_id r with
              | Some s => match ar_val a with Some v => if decide (s = ar_name a) then [AddNodeLabel n annis_ns (str "tok") v] else [] | None => [] end
              | None => [] end = []) as ->.
      { destruct (missing_span _ !! _); [|done]. destruct (ar_val a); [|done]. destruct (decide _); [|done]. cbn. rewrite decide_False; [done|]. intros [_ E]. by apply Hk. }
      cbn [omap list_omap label_of app]. destruct (decide (AnnoKey (ar_name a) (ar_ns a) = kk)) as [E|E].
      * rewrite decide_True by done. rewrite filter_cons_True by done. done.
      * rewrite decide_False by (intros [_ ?]; done). rewrite filter_cons_False by (intros [_ ?]; done). done.
  - rewrite filter_cons_False by (intros [? _]; done). done.
Qed.
Lemma node_labels_other n kk r : r ∈ t_nodes T → row_name t r n → ak_ns kk ≠ annis_ns → omap (label_of n kk) (default [] (node_events ct r)) = [].
Proof.
  intros Hr Hn Hk. apply omap_none. intros e He. apply (node_events_elem t T ST ct Hct r n e Hn Hr) in He as [->|(a & v & ->)]; [done|]. cbn. rewrite decide_False; [done|]. intros [_ E]. subst kk. done.
Qed.
Lemma graph_annotation n kk r : r ∈ t_nodes T → row_name t r n → ak_ns kk ≠ annis_ns → lg_labels G !! (n, kk) = annotation (t_nannos T) (nr_id r) kk.
Proof.
  intros Hr Hn Hk. assert (node_name_key = AnnoKey (ak_name node_name_key) annis_ns) as N1 by reflexivity. assert (node_type_key = AnnoKey (ak_name node_type_key) annis_ns) as N2 by reflexivity.
  rewrite graph_label by (intros ->; apply Hk; done). rewrite (row_labels n kk r Hr Hn), (node_labels_other n kk r Hr Hn Hk), (e3_plain n kk r Hr Hn) by (intros ->; done).
  rewrite e7_none by done. rewrite app_nil_r. done.
Qed.
Lemma graph_layer n r : r ∈ t_nodes T → row_name t r n →
  Forall (λ a, ¬ (ar_id a = nr_id r ∧ AnnoKey (ar_name a) (ar_ns a) = AnnoKey (str "layer") annis_ns)) (t_nannos T) →
  lg_labels G !! (n, AnnoKey (str "layer") annis_ns) = match nr_layer r with Some ((_ :: _) as l) => Some l | _ => None end.
Proof.
  intros Hr Hn Ha. rewrite graph_label by discriminate. rewrite (row_labels n _ r Hr Hn), (e3_plain n _ r Hr Hn) by discriminate. rewrite e7_none by (cbn; intros _; split; discriminate).
  rewrite list_filter_none by (apply Forall_forall; done). cbn [fmap list_fmap]. rewrite !app_nil_r. rewrite (node_events_eq t T ST ct Hct r n Hr Hn). cbn [default from_option id]. rewrite !omap_app.
  cbn [omap list_omap label_of]. assert (omap (label_of n (AnnoKey (str "layer") annis_ns))
    match nr_kind r with KTok _ span | KSeg _ _ (Some span) => [AddNodeLabel n annis_ns (str "tok") span] | _ => [] end = []) as ->.
  { apply omap_none. intros e He. destruct (nr_kind r) as [i s|s i [sp|]|]; try (by apply elem_of_nil in He); apply elem_of_list_singleton in He; subst e; cbn;
      (rewrite decide_False; [done|]; intros [_ E]; discriminate E). }
  rewrite app_nil_r. cbn [app]. destruct (nr_layer r) as [[|b l]|]; try done. cbn. by rewrite decide_True.
Qed.
(** ** The text a node covers *)
Lemma missing_spec r s : r ∈ t_nodes T → missing_span (t_nodes T) !! nr_id r = Some s ↔ ∃ i, nr_kind r = KSeg s i None.
Proof.
  intros Hr. unfold missing_span. rewrite (fold_fill _ (λ r, match nr_kind r with KSeg s _ None => Some (nr_id r, s) | _ => None end)) by (intros m x; destruct (nr_kind x) as [| ? ? []|]; done).
  rewrite fill_unique.
  - split.
    + intros (r' & Hr' & H). destruct (nr_kind r') as [|s' i []|] eqn:Ek; try done. injection H as Hi ->. assert (r' = r) as <- by (by eapply node_row_unique). by exists i.
    + intros [i Hi]. exists r. rewrite Hi. done.
  - pose proof (st_node_ids _ _ ST) as Hn. clear -Hn. induction (t_nodes T) as [|r l IH]; [constructor|]. cbn in *. apply NoDup_cons in Hn as [H1 H2].
    assert (∀ y, y ∈ (omap (λ r, match nr_kind r with KSeg s _ None => Some (nr_id r, s) | _ => None end) l).*1 → y ∈ nr_id <$> l) as Hsub.
    { intros y Hy. apply elem_of_list_fmap in Hy as ([y' v] & -> & Hy). apply elem_of_list_omap in Hy as (r' & Hr' & Hy). destruct (nr_kind r') as [|s i []|]; try done. injection Hy as <- <-.
      exact (elem_of_list_fmap_1 nr_id _ _ Hr'). }
    destruct (nr_kind r) as [|s i []|]; try (by apply IH). cbn. constructor; [|by apply IH]. intros H. by apply H1, Hsub.
Qed.
Lemma graph_tok n r : r ∈ t_nodes T → row_name t r n →
  lg_labels G !! (n, AnnoKey (str "tok") annis_ns) =
    match nr_kind r with
    | KTok _ span | KSeg _ _ (Some span) => Some span
    | KSeg s _ None => last (omap ar_val (filter (λ a, ar_id a = nr_id r ∧ ar_name a = s ∧ AnnoKey (ar_name a) (ar_ns a) ≠ AnnoKey (str "tok") annis_ns) (t_nannos T)))
    | KPlain => None
    end.
Proof.
  intros Hr Hn. rewrite graph_label by discriminate. rewrite (row_labels n _ r Hr Hn). rewrite e7_none by (cbn; intros _; split; discriminate). rewrite app_nil_r.
  rewrite (node_events_eq t T ST ct Hct r n Hr Hn). cbn [default from_option id]. rewrite !omap_app. assert (omap (label_of n (AnnoKey (str "tok") annis_ns)) [AddNode n (str "node")] = []) as -> by done.
  assert (omap (label_of n (AnnoKey (str "tok") annis_ns)) match nr_layer r with Some ((_ :: _) as l) => [AddNodeLabel n annis_ns (str "layer") l] | _ => [] end = []) as ->.
  { destruct (nr_layer r) as [[|b l]|]; try done. cbn. rewrite decide_False; [done|]. intros [_ E]. discriminate E. }
  cbn [app]. rewrite (e3_labels n _ r Hr Hn).
  assert (∀ a, omap (label_of n (AnnoKey (str "tok") annis_ns)) (default [] (nanno_events names (missing_span (t_nodes T)) a)) =
    if decide (ar_id a = nr_id r) then
      match missing_span (t_nodes T) !! nr_id r, ar_val a with
      | Some s, Some v => if decide (s = ar_name a ∧ AnnoKey (ar_name a) (ar_ns a) ≠ AnnoKey (str "tok") annis_ns) then [v] else []
      | _, _ => []
      end
    else omap (label_of n (AnnoKey (str "tok") annis_ns)) (default [] (nanno_events names (missing_span (t_nodes T)) a))) as Hone.
  { intros a. destruct (decide (ar_id a = nr_id r)) as [Hi|Hi]; [|done]. unfold nanno_events. rewrite Hi, (names_of r n Hr Hn). cbn [default from_option id].
    destruct (decide (ar_ns a = annis_ns ∧ ar_name a = str "tok")) as [[E1 E2]|Ht].
    - cbn. destruct (missing_span _ !! _) as [s|]; [|done]. destruct (ar_val a); [|done]. rewrite decide_False; [done|]. intros [_ E]. apply E. by rewrite E1, E2.
    - rewrite omap_app. assert (omap (label_of n (AnnoKey (str "tok") annis_ns)) [AddNodeLabel n (ar_ns a) (ar_name a) (default char_max (ar_val a))] = []) as ->.
      { cbn. rewrite decide_False; [done|]. intros [_ E]. apply Ht. by injection E. }
      rewrite app_nil_r. destruct (missing_span _ !! _) as [s|]; [|done]. destruct (ar_val a) as [v|]; [|done].
      destruct (decide (s = ar_name a)) as [Es|Es].
      + rewrite decide_True; [cbn; by rewrite decide_True|]. split; [done|]. intros E. apply Ht. by injection E.
      + rewrite decide_False; [done|]. by intros [? _]. }
  destruct (missing_span (t_nodes T) !! nr_id r) as [s|] eqn:Em.
  - apply (missing_spec r s Hr) in Em as [i Ei]. rewrite Ei. cbn [omap list_omap app]. f_equal. clear He3. induction (t_nannos T) as [|a l IH]; [done|]. cbn [map concat]. rewrite IH, Hone. clear IH.
    destruct (decide (ar_id a = nr_id r)) as [Hi|Hi].
    + destruct (decide (s = ar_name a ∧ AnnoKey (ar_name a) (ar_ns a) ≠ AnnoKey (str "tok") annis_ns)) as [[Es Et]|Es].
      * rewrite filter_cons_True by (split; [done|]; split; [by symmetry|done]). cbn. by destruct (ar_val a).
      * rewrite filter_cons_False by (intros (_ & ? & ?); apply Es; split; [by symmetry|done]). by destruct (ar_val a).
    + rewrite filter_cons_False by (intros [? _]; done). done.
  - assert (concat (map (λ a, if decide (ar_id a = nr_id r) then omap (label_of n (AnnoKey (str "tok") annis_ns)) (default [] (nanno_events names (missing_span (t_nodes T)) a)) else []) (t_nannos T)) = []) as ->.
    { clear He3. induction (t_nannos T) as [|a l IH]; [done|]. cbn [map concat]. rewrite IH, Hone. by destruct (decide _). }
    rewrite app_nil_r. destruct (nr_kind r) as [i sp|s i [sp|]|] eqn:Ek; cbn; rewrite ?decide_True by done; try done.
    exfalso. assert (missing_span (t_nodes T) !! nr_id r = Some s); [|congruence]. apply missing_spec; [done|]. by exists i.
Qed.
End graph.
