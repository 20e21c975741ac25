(** The parts of the list of events of an import. *)
From Coq Require Import NArith String Lia.
From stdpp Require Import base list gmap sorting.
From Verif Require Import KeySer KeySerSpec SortedMap Types CompPath GraphUpdate GraphApply GraphApplySpec RelAnnis RelAnnisSpec RelAnnisMaps RelAnnisTree
  RelAnnisNames RelAnnisRun ListExtra.

Section concat_opt.
Context {A B : Type} (f : A → option (list B)).
Lemma concat_opt_inv l x : concat_opt f l = Some x → (∀ r, r ∈ l → is_Some (f r)) ∧ x = concat (map (λ r, default [] (f r)) l).
Proof.
  unfold concat_opt. destruct (mapM f l) as [y|] eqn:E; [|done]. intros H. injection H as <-. apply mapM_Some in E. induction E as [|a b l y Hab E [IH1 IH2]].
  - split; [|done]. intros r Hr. by apply elem_of_nil in Hr.
  - split; [|cbn; by rewrite Hab, IH2]. intros r Hr. apply elem_of_cons in Hr as [-> |Hr]; [by rewrite Hab|by apply IH1].
Qed.
Lemma concat_opt_total l : (∀ r, r ∈ l → is_Some (f r)) → concat_opt f l = Some (concat (map (λ r, default [] (f r)) l)).
Proof.
  intros H. unfold concat_opt. assert (mapM f l = Some (map (λ r, default [] (f r)) l)) as ->; [|done]. apply mapM_Some. induction l as [|a l IH]; [constructor|]. cbn.
  constructor; [|apply IH; intros r Hr; apply H; by right]. destruct (H a) as [y Hy]; [left|]. by rewrite Hy.
Qed.
Lemma concat_opt_elem l x e : concat_opt f l = Some x → e ∈ x ↔ ∃ r y, r ∈ l ∧ f r = Some y ∧ e ∈ y.
Proof.
  intros H. apply concat_opt_inv in H as [H ->]. split.
  - intros He. apply elem_of_list_In, in_concat in He as (y & Hy & He). apply in_map_iff in Hy as (r & <- & Hr). apply elem_of_list_In in He, Hr.
    destruct (H r Hr) as [y Hy]. exists r, y. rewrite Hy in He. done.
  - intros (r & y & Hr & Hy & He). apply elem_of_list_In, in_concat. exists y. split; [|by apply elem_of_list_In]. apply in_map_iff. exists r.
    rewrite Hy. split; [done|by apply elem_of_list_In].
Qed.
Lemma concat_opt_omap {C} (g : B → option C) l x : concat_opt f l = Some x → omap g x = concat (map (λ r, omap g (default [] (f r))) l).
Proof.
  intros H. apply concat_opt_inv in H as [_ ->]. induction l as [|a l IH]; [done|]. cbn. by rewrite omap_app, IH.
Qed.
End concat_opt.
Lemma concat_map_one {A B} (g : A → list B) l r : NoDup l → r ∈ l → (∀ r', r' ∈ l → r' ≠ r → g r' = []) → concat (map g l) = g r.
Proof.
  intros Hn Hr Hg. induction l as [|a l IH]; [by apply elem_of_nil in Hr|]. apply NoDup_cons in Hn as [H1 H2]. cbn. apply elem_of_cons in Hr as [-> |Hr].
  - assert (concat (map g l) = []) as ->; [|by rewrite app_nil_r]. clear IH H2.
    assert (∀ x, x ∈ l → g x = []) as H by (intros x Hx; apply Hg; [by right|intros ->; done]). clear -H. induction l as [|b l IH]; [done|].
    cbn. rewrite H by left. apply IH. intros x Hx. apply H. by right.
  - rewrite (Hg a); [|left|intros ->; done]. cbn. apply IH; [done|done|]. intros x Hx. apply Hg. by right.
Qed.
Lemma grounded_concat S (ls : list (list event)) : (∀ l, l ∈ ls → grounded S l) → grounded S (concat ls).
Proof.
  induction ls as [|l ls IH]; intros H; [apply grounded_nil|]. cbn. apply grounded_app; [exact (H l (elem_of_list_here _ _))|]. eapply (grounded_mono S); [by left|]. apply IH. intros k Hk. exact (H k (elem_of_list_further _ _ _ Hk)).
Qed.
Lemma omap_none {A B} (g : A → option B) l : (∀ x, x ∈ l → g x = None) → omap g l = [].
Proof. induction l as [|x l IH]; intros H; [done|]. cbn. rewrite H by left. apply IH. intros y Hy. apply H. by right. Qed.

(** The first event of a part adds the node all labels are for *)
Lemma grounded_first S n t l : (∀ m ns a v, AddNodeLabel m ns a v ∈ l → m = n ∨ S m) → grounded S (AddNode n t :: l).
Proof.
  intros H l1 m ns a v l2 E. destruct l1 as [|e l1]; [discriminate E|]. injection E as <- ->. destruct (H m ns a v) as [-> |Hm].
  - apply elem_of_app. right. left.
  - right. exists t. left.
  - by left.
Qed.

Section import.
Context (t : ctree) (T : tables) (ST : sound_tables t T) (v33 : bool) (ext : option bytes → list (bytes * bytes)).
Record parts (ct : ctable) (top : bytes) (es e1 e2 e3 e5 e6 e8 e9 : list event) (k : ranks) : Prop := {
  pa_table : corpus_table (t_corpus T) = Some ct;
  pa_top : top = ct_name t;
  pa_ct_top : ct_top ct = ct_name t;
  pa_e1 : concat_opt (node_events ct) (t_nodes T) = Some e1;
  pa_e2 : order_events (id_to_name ct (t_nodes T)) None (by_index (token_by_index (t_nodes T))) = Some e2;
  pa_e3 : concat_opt (nanno_events (id_to_name ct (t_nodes T)) (missing_span (t_nodes T))) (t_nannos T) = Some e3;
  pa_e5 : concat_opt (subcorpus_events ct (corpus_annos (t_cannos T)) ext) (by_key (ct_by_pre ct)) = Some e5;
  pa_e6 : concat_opt (text_events ct (id_to_name ct (t_nodes T)) (nodes_by_text (t_nodes T))) (by_text (complete_texts v33 (parse_texts (t_text T)) (t_nodes T))) = Some e6;
  pa_e8 : load_ranks (id_to_name ct (t_nodes T)) (t_comps T) (t_ranks T) = Some (e8, k);
  pa_e9 : concat_opt (eanno_events (id_to_name ct (t_nodes T)) k) (t_eannos T) = Some e9;
  pa_es : es = e1 ++ e2 ++ e3 ++ top_events v33 ct (corpus_annos (t_cannos T)) ext ++ e5 ++ e6 ++
    concat (text_white_space (id_to_name ct (t_nodes T)) (node_to nr_left_char (t_nodes T)) (node_to nr_right_char (t_nodes T))
      (token_by_index (t_nodes T)) <$> by_text (complete_texts v33 (parse_texts (t_text T)) (t_nodes T))) ++
    e8 ++ e9 ++ coverage_events (id_to_name ct (t_nodes T)) (t_nodes T) k
}.
Lemma import_parts top es : import_events v33 ext T = Some (top, es) → ∃ ct e1 e2 e3 e5 e6 e8 e9 k, parts ct top es e1 e2 e3 e5 e6 e8 e9 k.
Proof.
  intros H. unfold import_events in H. apply bind_Some in H as (ct & Hct & H). apply bind_Some in H as (e1 & H1 & H). apply bind_Some in H as (e2 & H2 & H).
  apply bind_Some in H as (e3 & H3 & H). apply bind_Some in H as (e5 & H5 & H). apply bind_Some in H as (e6 & H6 & H). apply bind_Some in H as ([e8 k] & H8 & H).
  apply bind_Some in H as (e9 & H9 & H). injection H as <- <-. exists ct, e1, e2, e3, e5, e6, e8, e9, k.
  destruct (sound_table t T ST) as (ct' & rs & m & E & Etop & _). rewrite Hct in E. injection E as <-. constructor; try done.
Qed.

Context (ct : ctable) (Hct : corpus_table (t_corpus T) = Some ct).
Local Notation names := (id_to_name ct (t_nodes T)).
Definition is_row_name (n : bytes) : Prop := ∃ r, r ∈ t_nodes T ∧ row_name t r n.
Lemma names_row i n : names !! i = Some n → is_row_name n.
Proof. intros H. apply (names_spec t T ST ct) in H as (r & Hr & _ & Hn); [|done]. by exists r. Qed.
Definition is_edge (e : event) : Prop := match e with GraphUpdate.AddEdge _ _ _ _ _ => True | _ => False end.
Definition row_edge (e : event) : Prop := match e with GraphUpdate.AddEdge a b _ _ _ => is_row_name a ∧ is_row_name b | _ => False end.
Definition row_elabel (e : event) : Prop := match e with AddEdgeLabel a b _ _ _ _ _ _ => is_row_name a ∧ is_row_name b | _ => False end.
Definition row_label (e : event) : Prop := match e with AddNodeLabel n _ _ _ => is_row_name n | _ => False end.

(** Nodes *)
Lemma node_events_eq r n : r ∈ t_nodes T → row_name t r n → node_events ct r = Some ([AddNode n (str "node")] ++
  match nr_layer r with Some ((_ :: _) as l) => [AddNodeLabel n annis_ns (str "layer") l] | _ => [] end ++
  match nr_kind r with KTok _ span | KSeg _ _ (Some span) => [AddNodeLabel n annis_ns (str "tok") span] | _ => [] end).
Proof. intros Hr Hn. unfold node_events. by rewrite (proj2 (node_path_name t T ST ct r n Hct Hr) Hn). Qed.
Lemma node_events_elem r n e : row_name t r n → r ∈ t_nodes T → e ∈ default [] (node_events ct r) → e = AddNode n (str "node") ∨ ∃ a v, e = AddNodeLabel n annis_ns a v.
Proof.
  intros Hn Hr. rewrite (node_events_eq r n) by done. cbn [default]. intros He. apply elem_of_app in He as [He|He]; [apply elem_of_list_singleton in He; by left|].
  right. apply elem_of_app in He as [He|He].
  - destruct (nr_layer r) as [[|b l]|]; try (by apply elem_of_nil in He). apply elem_of_list_singleton in He. subst. by eexists _, _.
  - destruct (nr_kind r) as [i s|s i [sp|]|]; try (by apply elem_of_nil in He); apply elem_of_list_singleton in He; subst; by eexists _, _.
Qed.
Section e1.
Context (e1 : list event) (He1 : concat_opt (node_events ct) (t_nodes T) = Some e1).
Lemma e1_adds n : adds n e1 ↔ is_row_name n.
Proof.
  split.
  - intros [ty H]. apply (concat_opt_elem _ _ _ _ He1) in H as (r & y & Hr & Hy & H). destruct (row_name_exists t T ST r Hr) as [m Hm]. exists r. split; [done|].
    destruct (node_events_elem r m _ Hm Hr ltac:(rewrite Hy; exact H)) as [E|(a & v & E)]; [|discriminate E]. injection E as -> ->. done.
  - intros (r & Hr & Hn). exists (str "node"). apply (concat_opt_elem _ _ _ _ He1). eexists r, _. split; [done|]. split; [by apply node_events_eq|]. apply elem_of_app. left. left.
Qed.
Lemma e1_type n ty : AddNode n ty ∈ e1 → ty = str "node".
Proof.
  intros H. apply (concat_opt_elem _ _ _ _ He1) in H as (r & y & Hr & Hy & H). destruct (row_name_exists t T ST r Hr) as [m Hm].
  destruct (node_events_elem r m _ Hm Hr ltac:(rewrite Hy; exact H)) as [E|(a & v & E)]; [|discriminate E]. by injection E.
Qed.
Lemma e1_additive : Forall additive e1.
Proof.
  apply Forall_forall. intros e H. apply (concat_opt_elem _ _ _ _ He1) in H as (r & y & Hr & Hy & H). destruct (row_name_exists t T ST r Hr) as [m Hm].
  destruct (node_events_elem r m _ Hm Hr ltac:(rewrite Hy; exact H)) as [->|(a & v & ->)]; done.
Qed.
Lemma e1_grounded S : grounded S e1.
Proof.
  destruct (concat_opt_inv _ _ _ He1) as [_ ->]. apply grounded_concat. intros l Hl. apply elem_of_list_fmap in Hl as (r & -> & Hr). destruct (row_name_exists t T ST r Hr) as [m Hm].
  rewrite (node_events_eq r m) by done. cbn [default]. apply grounded_first. intros n ns a v H. left.
  destruct (node_events_elem r m (AddNodeLabel n ns a v) Hm Hr) as [E|(a' & v' & E)]; [|discriminate E|by injection E].
  rewrite (node_events_eq r m) by done. cbn [default]. by right.
Qed.
Lemma e1_labels n k r : r ∈ t_nodes T → row_name t r n → omap (label_of n k) e1 = omap (label_of n k) (default [] (node_events ct r)).
Proof.
  intros Hr Hn. rewrite (concat_opt_omap _ _ _ _ He1). apply (concat_map_one (λ r, omap (label_of n k) (default [] (node_events ct r)))); [|done|].
  - apply (NoDup_fmap_1 nr_id). apply ST.
  - intros r' Hr' Hne. apply omap_none. intros e He. destruct (row_name_exists t T ST r' Hr') as [m Hm].
    destruct (node_events_elem r' m e Hm Hr' He) as [->|(a & v & ->)]; [done|]. cbn. rewrite decide_False; [done|]. intros [-> _]. apply Hne. by eapply row_name_inj.
Qed.
End e1.
(** Order *)
Lemma e2_edges l : ∀ prev e2, order_events names prev l = Some e2 → Forall row_edge e2.
Proof.
  induction l as [|x l IH]; intros prev e2 H; cbn [order_events] in H; [by injection H as <-|]. destruct (order_events names (Some x) l) as [es|] eqn:E; [|done].
  specialize (IH _ _ E). destruct prev as [y|]; [|by injection H as <-]. destruct (same_text y.1 x.1); [|by injection H as <-].
  destruct (names !! y.2) as [a|] eqn:Ea; [|done]. destruct (names !! x.2) as [b|] eqn:Eb; [|done]. injection H as <-. constructor; [|done].
  split; by eapply names_row.
Qed.
(** Annotations *)
Lemma e3_labels_row e3 : concat_opt (nanno_events names (missing_span (t_nodes T))) (t_nannos T) = Some e3 → Forall row_label e3.
Proof.
  intros H. apply Forall_forall. intros e He. apply (concat_opt_elem _ _ _ _ H) in He as (r & y & Hr & Hy & He). unfold nanno_events in Hy.
  destruct (names !! ar_id r) as [n|] eqn:En; [|done]. apply names_row in En. injection Hy as <-. destruct (decide _); [by apply elem_of_nil in He|].
  apply elem_of_app in He as [He|He].
  - destruct (missing_span _ !! _); [|by apply elem_of_nil in He]. destruct (ar_val r); [|by apply elem_of_nil in He]. destruct (decide _); [|by apply elem_of_nil in He].
    apply elem_of_list_singleton in He. by subst.
  - apply elem_of_list_singleton in He. by subst.
Qed.
(** Corpora: an event about the nodes of corpora and files, whose names do not contain the character before names of nodes *)
Definition corpus_event (e : event) : Prop :=
  match e with
  | AddNode n _ | AddNodeLabel n _ _ _ => hash ∉ n
  | GraphUpdate.AddEdge a b l ty cn => hash ∉ a ∧ hash ∉ b ∧ l = annis_ns ∧ ty = actype_name PartOf ∧ cn = []
  | _ => False
  end.
Context (Hext : ∀ d f, f ∈ ext d → hash ∉ f.1).
Lemma corpus_labels_elem annos c n e : e ∈ corpus_labels annos c n → ∃ ns a v, e = AddNodeLabel n ns a v.
Proof. intros H. apply elem_of_list_fmap in H as (x & -> & _). by eexists _, _, _. Qed.
Lemma file_events_corpus n d : hash ∉ n → Forall corpus_event (file_events ext n d).
Proof.
  intros Hn. apply Forall_forall. intros e He. apply elem_of_list_In, in_concat in He as (l & Hl & He). apply elem_of_list_In in Hl, He. apply elem_of_list_fmap in Hl as (f & -> & Hf).
  apply Hext in Hf. assert (hash ∉ n ++ [slash] ++ f.1) as Hm.
  { rewrite !not_elem_of_app. split; [done|]. split; [|done]. intros H. apply elem_of_list_singleton in H. discriminate H. }
  cbn zeta in He. repeat (apply elem_of_cons in He as [-> |He]; [done|]). by apply elem_of_nil in He.
Qed.
Lemma file_events_grounded S n d : grounded S (file_events ext n d).
Proof.
  apply grounded_concat. intros l Hl. apply elem_of_list_fmap in Hl as (f & -> & Hf). apply grounded_first. intros m ns a v H. left.
  apply elem_of_cons in H as [H|H]; [by injection H|]. apply elem_of_cons in H as [H|H]; [discriminate H|by apply elem_of_nil in H].
Qed.
Lemma top_no_hash : hash ∉ ct_name t.
Proof.
  destruct (path_names_ok t T ST _ _ (root_in t T ST)) as [_ F]. apply Forall_cons in F as [(_ & _ & H) _]. done.
Qed.
Lemma e4_corpus annos : ct_top ct = ct_name t → Forall corpus_event (top_events v33 ct annos ext).
Proof.
  intros Et. pose proof top_no_hash as Hh. unfold top_events. rewrite Et. apply Forall_app. split; [by repeat constructor|]. destruct (ct_by_pre ct !! 0%N) as [c|]; [|constructor].
  apply Forall_app. split; [|by apply file_events_corpus]. apply Forall_forall. intros e He. apply corpus_labels_elem in He as (ns & a & v & ->). done.
Qed.
Lemma e4_grounded S annos : ct_top ct = ct_name t → grounded S (top_events v33 ct annos ext).
Proof.
  intros Et. unfold top_events. destruct (ct_by_pre ct !! 0%N) as [c|].
  - rewrite (assoc_L (++)). apply grounded_app; [|apply file_events_grounded]. apply grounded_first. intros m ns a v H. left. apply elem_of_cons in H as [H|H]; [by injection H|].
    apply corpus_labels_elem in H as (? & ? & ? & H). by injection H.
  - apply grounded_first. intros m ns a v H. left. apply elem_of_list_singleton in H. by injection H.
Qed.
Lemma subcorpus_shape annos x y : ct_by_pre ct !! x.1 = Some x.2 → subcorpus_events ct annos ext x = Some y →
  (x.1 = 0%N ∧ y = []) ∨ ∃ q z e, x.1 ≠ 0%N ∧ below t x.2 (q ++ [z]) ∧ q ≠ [] ∧ ct_by_id ct !! x.2 = Some e ∧
    y = [AddNode (path_name (q ++ [z])) (str "corpus")] ++
      (if decide (ce_pre e + 1 = ce_post e)%N then [AddNodeLabel (path_name (q ++ [z])) annis_ns (str "doc") (ce_name e)] else []) ++
      corpus_labels annos x.2 (path_name (q ++ [z])) ++ [part_of (path_name (q ++ [z])) (path_name q)] ++ file_events ext (path_name (q ++ [z])) (Some (ce_name e)).
Proof.
  intros Hx Hy. unfold subcorpus_events in Hy. destruct (decide _) as [H0|H0]; [left; by injection Hy as <-|right].
  destruct (sound_table t T ST) as (ct' & rs & m & E & _ & Er & Hp & Hcp & Hpp & Hby & _ & Hpre). rewrite Hct in E. injection E as <-.
  apply Hpre in Hx as (r & Hr & Hx1 & Hx2). destruct (row_below t T ST rs m r Er Hr) as [[p Hpath] H0']. assert (below t x.2 p) as Hb.
  { rewrite Hx2. split; [done|]. rewrite <- H0', <- Hx1. done. }
  destruct (below_path t _ _ Hb) as (q & z & -> & Hq). exists q, z. rewrite Hx2 in Hy at 1. rewrite (Hby r Hr) in Hy. rewrite (Hcp _ _ Hb), (Hpp _ q z) in Hy by apply Hb.
  injection Hy as <-. eexists. split; [done|]. split; [done|]. split; [done|]. split; [rewrite Hx2; by apply Hby|]. done.
Qed.
Lemma part_of_ok a b : hash ∉ a → hash ∉ b → corpus_event (part_of a b).
Proof. done. Qed.
Lemma e5_spec annos e5 l : concat_opt (subcorpus_events ct annos ext) l = Some e5 → (∀ x, x ∈ l → ct_by_pre ct !! x.1 = Some x.2) →
  Forall corpus_event e5 ∧ ∀ S, grounded S e5.
Proof.
  intros H Hl. split.
  - apply Forall_forall. intros e He. apply (concat_opt_elem _ _ _ _ H) in He as (x & y & Hx & Hy & He). apply subcorpus_shape in Hy; [|by apply Hl].
    destruct Hy as [[_ ->]|(q & z & ce & _ & Hb & Hq & _ & ->)]; [by apply elem_of_nil in He|].
    pose proof (proj2 (path_names_ok t T ST _ _ (proj1 Hb))) as F. pose proof (path_no_hash _ F) as Hn. apply Forall_app in F as [F _]. apply path_no_hash in F.
    apply elem_of_app in He as [He|He]; [apply elem_of_list_singleton in He; by subst|].
    apply elem_of_app in He as [He|He]; [destruct (decide _); [apply elem_of_list_singleton in He; by subst|by apply elem_of_nil in He]|].
    apply elem_of_app in He as [He|He]; [apply corpus_labels_elem in He as (? & ? & ? & ->); done|].
    apply elem_of_app in He as [He|He]; [apply elem_of_list_singleton in He; subst; by apply part_of_ok|].
    revert e He. apply Forall_forall. by apply file_events_corpus.
  - intros S. destruct (concat_opt_inv _ _ _ H) as [Hs ->]. apply grounded_concat. intros y Hy. apply elem_of_list_fmap in Hy as (x & -> & Hx). destruct (Hs x Hx) as [y Hy]. rewrite Hy.
    apply subcorpus_shape in Hy; [|by apply Hl]. cbn [default]. destruct Hy as [[_ ->]|(q & z & ce & _ & Hb & Hq & _ & ->)]; [apply grounded_nil|].
    rewrite !(assoc_L (++)). apply grounded_app; [|apply file_events_grounded]. rewrite <- !(assoc_L (++)). apply grounded_first. intros n ns a v Hin. left.
    apply elem_of_app in Hin as [Hin|Hin]; [destruct (decide _); [apply elem_of_list_singleton in Hin; by injection Hin|by apply elem_of_nil in Hin]|].
    apply elem_of_app in Hin as [Hin|Hin]; [apply corpus_labels_elem in Hin as (? & ? & ? & Hin); by injection Hin|]. apply elem_of_list_singleton in Hin. discriminate Hin.
Qed.
Lemma by_pre_elem x : x ∈ by_key (ct_by_pre ct) → ct_by_pre ct !! x.1 = Some x.2.
Proof. rewrite by_key_entries. by apply entries_elem. Qed.
(** Texts *)
Definition text_event (e : event) : Prop :=
  match e with
  | AddNode n ty => ty = str "datasource"
  | GraphUpdate.AddEdge a b l ty cn => l = annis_ns ∧ ty = actype_name PartOf ∧ cn = []
  | _ => False
  end.
Lemma e6_events nodes l e6 : concat_opt (text_events ct names nodes) l = Some e6 → Forall text_event e6.
Proof.
  intros H. apply Forall_forall. intros e He. apply (concat_opt_elem _ _ _ _ H) in He as (x & y & Hx & Hy & He). unfold text_events in Hy.
  destruct (x.1.2) as [c|]; [|injection Hy as <-; by apply elem_of_nil in He]. destruct (corpus_path ct c) as [p|]; [|done]. destruct (mapM _ _) as [l'|]; [|done]. injection Hy as <-.
  apply elem_of_cons in He as [-> |He]; [done|]. apply elem_of_cons in He as [-> |He]; [done|]. apply elem_of_list_fmap in He as (a & -> & _). done.
Qed.
(** White space *)
Lemma white_space_labels left right : ∀ toks first rest off e, e ∈ white_space names left right toks first rest off →
  ∃ n a v, e = AddNodeLabel n annis_ns a v ∧ is_row_name n ∧ (a = str "tok-whitespace-before" ∨ a = str "tok-whitespace-after").
Proof.
  induction toks as [|x ts IH]; intros first rest off e He; cbn [white_space] in He; [by apply elem_of_nil in He|].
  destruct (left !! x) as [l|]; [|by eapply IH]. destruct (right !! x) as [r|]; [|by eapply IH]. cbv zeta in He.
  destruct (names !! x) as [n|] eqn:En.
  - apply names_row in En. apply elem_of_app in He as [He|He].
    + destruct (_ && _); [|by apply elem_of_nil in He]. apply elem_of_list_singleton in He. subst. eexists _, _, _. split; [done|]. split; [done|by left].
    + apply elem_of_app in He as [He|He]; [|by eapply IH]. apply elem_of_list_singleton in He. subst. eexists _, _, _. split; [done|]. split; [done|by right].
  - apply elem_of_app in He as [He|He]; [destruct (_ && _); by apply elem_of_nil in He|]. apply elem_of_app in He as [He|He]; [by apply elem_of_nil in He|by eapply IH].
Qed.
Lemma e7_labels left right m l e : e ∈ concat (text_white_space names left right m <$> l) →
  ∃ n a v, e = AddNodeLabel n annis_ns a v ∧ is_row_name n ∧ (a = str "tok-whitespace-before" ∨ a = str "tok-whitespace-after").
Proof.
  intros He. apply elem_of_list_In, in_concat in He as (y & Hy & He). apply elem_of_list_In in Hy, He. apply elem_of_list_fmap in Hy as (x & -> & _). by eapply white_space_labels.
Qed.
(** Edges *)
Lemma rank_step_edges nodes comps st r es k es' k' : st = Some (es, k) → rank_step names nodes comps st r = Some (es', k') → Forall row_edge es → Forall row_edge es'.
Proof.
  intros -> H He. unfold rank_step in H. destruct (rr_parent r) as [p|].
  - destruct (nodes !! p) as [s|]; [|by injection H as <- <-]. destruct (comps !! rr_comp r) as [c|]; [|by injection H as <- <-].
    destruct (names !! s) as [a|] eqn:Ea; [|done]. destruct (names !! rr_node r) as [b|] eqn:Eb; [|done]. injection H as <- _. apply Forall_app. split; [done|].
    apply names_row in Ea, Eb. by repeat constructor.
  - destruct (comps !! rr_comp r) as [c|]; [|by injection H as <- <-]. destruct (decide _); by injection H as <- <-.
Qed.
Lemma rank_step_none nodes comps rs : fold_left (rank_step names nodes comps) rs None = None.
Proof. induction rs as [|r rs IH]; [done|exact IH]. Qed.
Lemma e8_edges nodes comps rs : ∀ es k es' k', fold_left (rank_step names nodes comps) rs (Some (es, k)) = Some (es', k') → Forall row_edge es → Forall row_edge es'.
Proof.
  induction rs as [|r rs IH]; intros es k es' k' H He; [by injection H as <- <-|]. cbn in H. fold (rank_step names nodes comps (Some (es, k)) r) in H.
  destruct (rank_step names nodes comps (Some (es, k)) r) as [[es1 k1]|] eqn:E; [|by rewrite rank_step_none in H]. eapply IH; [exact H|]. exact (rank_step_edges _ _ _ _ _ _ _ _ eq_refl E He).
Qed.
Lemma e9_elabels k e9 : concat_opt (eanno_events names k) (t_eannos T) = Some e9 → Forall row_elabel e9.
Proof.
  intros H. apply Forall_forall. intros e He. apply (concat_opt_elem _ _ _ _ H) in He as (x & y & Hx & Hy & He). unfold eanno_events in Hy.
  destruct (rk_comps k !! _) as [c|]; [|injection Hy as <-; by apply elem_of_nil in He]. destruct (rk_edges k !! _) as [ab|]; [|injection Hy as <-; by apply elem_of_nil in He].
  destruct (er_name x) as [nm|]; [|done]. destruct (names !! ab.1) as [a|] eqn:Ea; [|done]. destruct (names !! ab.2) as [b|] eqn:Eb; [|done]. injection Hy as <-.
  apply names_row in Ea, Eb. apply elem_of_list_singleton in He. by subst.
Qed.
Lemma coverage_loop_edges index k n c tx l : Forall row_edge (coverage_loop names index k n c tx l).
Proof.
  induction l as [|i l IH]; [constructor|]. cbn [coverage_loop]. destruct (index !! _) as [tok|]; [|constructor]. destruct (decide _); [done|]. cbv zeta.
  destruct (names !! n) as [a|] eqn:Ea; [|constructor]. destruct (names !! tok) as [b|] eqn:Eb; [|constructor]. apply names_row in Ea, Eb. by constructor.
Qed.
Lemma e10_edges k : Forall row_edge (coverage_events names (t_nodes T) k).
Proof.
  apply Forall_forall. intros e He. apply elem_of_list_In, in_concat in He as (y & Hy & He). apply elem_of_list_In in Hy, He. apply elem_of_list_fmap in Hy as (x & -> & _).
  destruct (decide (is_Some (token_to_index (t_nodes T) !! x.1))) as [Hd|Hd]; [by apply elem_of_nil in He|]. clear Hd. revert e He. apply Forall_forall. unfold node_coverage. destruct (node_to nr_left _ !! _); [|constructor].
  destruct (node_to nr_right _ !! _); [|constructor]. destruct (match token_by nr_left _ !! _ with Some _ => _ | None => _ end) as [n0|]; [|constructor].
  destruct (token_to_index (t_nodes T) !! n0) as [i|]; [|constructor]. destruct (token_to_index (t_nodes T) !! default n0 _) as [j|]; [|constructor]. apply coverage_loop_edges.
Qed.
(** Each path but the first extends another path by one name *)
Lemma parent_path_in s : ∀ above i p, (i, p) ∈ tree_paths above s → p = above ++ [ct_name s] ∨ ∃ j q z, p = q ++ [z] ∧ (j, q) ∈ tree_paths above s.
Proof.
  induction s as [id name doc cs Hcs] using ctree_ind'. intros above i p H. cbn [tree_paths] in *. apply elem_of_cons in H as [H|H]; [left; by injection H as _ ->|].
  right. apply elem_of_list_In, in_concat in H as (l & Hl & H). apply in_map_iff in Hl as (c & <- & Hc). apply elem_of_list_In in H, Hc. rewrite Forall_forall in Hcs.
  destruct (Hcs c Hc _ _ _ H) as [-> |(j & q & z & -> & Hj)].
  - exists id, (above ++ [name]), (ct_name c). split; [done|left].
  - exists j, q, z. split; [done|]. right. apply elem_of_list_In, in_concat. eexists. split; [apply in_map_iff; exists c; split; [done|by apply elem_of_list_In]|by apply elem_of_list_In].
Qed.
Lemma parent_in i q z : below t i (q ++ [z]) → ∃ j, (j, q) ∈ tree_paths [] t.
Proof.
  intros [H Hi]. destruct (parent_path_in t [] i _ H) as [E|(j & q' & z' & E & Hj)].
  - exfalso. apply Hi. rewrite E in H. eapply path_id_unique; [exact ST|exact H|exact (root_in t T ST)].
  - apply app_inj_tail in E as [-> ->]. by exists j.
Qed.
End import.
