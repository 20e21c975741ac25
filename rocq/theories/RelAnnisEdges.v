(** Edges of an imported corpus and their labels. *)
From Coq Require Import NArith String Lia.
From stdpp Require Import base list gmap sorting.
From Verif Require Import KeySer KeySerSpec SortedMap Types CompPath GraphUpdate GraphApply GraphApplySpec RelAnnis RelAnnisSpec RelAnnisMaps RelAnnisTree
  RelAnnisNames RelAnnisRun RelAnnisParts RelAnnisGraph ListExtra.

(** ** The rank table *)
Section ranks.
Context (names : gmap N bytes) (nodes : gmap N N) (comps : gmap N acomp).
Definition row_edge_of (r : rrow) : option (N * acomp) :=
  match rr_parent r with
  | Some p => match nodes !! p, comps !! rr_comp r with Some s, Some c => Some (s, c) | _, _ => None end
  | None => None
  end.
Definition row_event (r : rrow) : option event :=
  match row_edge_of r with
  | Some (s, c) => match names !! s, names !! rr_node r with Some a, Some b => Some (GraphUpdate.AddEdge a b c.1.2 (actype_name c.1.1) c.2) | _, _ => None end
  | None => None
  end.
Definition row_root (r : rrow) : option (N * acomp) :=
  match rr_parent r with
  | Some _ => None
  | None => match comps !! rr_comp r with Some c => if decide (c.1.1 = Coverage) then Some (rr_node r, c) else None | None => None end
  end.
Definition final (es : list event) (k : ranks) (rs : list rrow) (es' : list event) (k' : ranks) : Prop :=
  es' = es ++ omap row_event rs ∧
  rk_comps k' = fill (λ r, match row_edge_of r with Some x => Some (rr_pre r, x.2) | None => None end) (rk_comps k) rs ∧
  rk_edges k' = fill (λ r, match row_edge_of r with Some x => Some (rr_pre r, (x.1, rr_node r)) | None => None end) (rk_edges k) rs ∧
  (∀ x, x ∈ rk_coverage k' ↔ x ∈ rk_coverage k ∨ ∃ r s c, r ∈ rs ∧ row_edge_of r = Some (s, c) ∧ c.1.1 = Coverage ∧ x = (s, rr_node r)) ∧
  rk_parentless k' = fill row_root (rk_parentless k) rs ∧
  (∀ r s c, r ∈ rs → row_edge_of r = Some (s, c) → is_Some (names !! s) ∧ is_Some (names !! rr_node r)).
Lemma rank_none rs : fold_left (rank_step names nodes comps) rs None = None.
Proof. induction rs as [|r rs IH]; [done|exact IH]. Qed.
Lemma ranks_final rs : ∀ es k es' k', fold_left (rank_step names nodes comps) rs (Some (es, k)) = Some (es', k') → final es k rs es' k'.
Proof.
  induction rs as [|r rs IH]; intros es k es' k' H.
  - cbn in H. injection H as <- <-. unfold final. cbn. rewrite app_nil_r. split_and!; try done.
    + intros x. split; [by left|]. intros [H|(r & s & c & H & _)]; [done|by apply elem_of_nil in H].
    + intros r s c H. by apply elem_of_nil in H.
  - cbn [fold_left] in H. destruct (rank_step names nodes comps (Some (es, k)) r) as [[es1 k1]|] eqn:E; [|by rewrite rank_none in H].
    destruct (IH _ _ _ _ H) as (F1 & F2 & F3 & F4 & F5 & F6). clear IH H.
    assert (final es k [r] es1 k1) as (G1 & G2 & G3 & G4 & G5 & G6).
    { assert (∀ es' k', Some (es', k') = Some (es1, k1) → es' = es → k' = k → row_edge_of r = None → row_root r = None → final es k [r] es1 k1) as Hsame.
      { intros es0 k0 H -> -> Hr Hr'. injection H as <- <-. unfold final, row_event. cbn. rewrite Hr, Hr', app_nil_r. split_and!; try done.
        - intros x. split; [by left|]. intros [H|(r' & s & c & H & H' & _)]; [done|]. apply elem_of_list_singleton in H. subst. congruence.
        - intros r' s c H H'. apply elem_of_list_singleton in H. subst. congruence. }
      unfold rank_step in E. destruct (rr_parent r) as [p|] eqn:Ep.
      - assert (row_root r = None) as Err by (unfold row_root; by rewrite Ep).
        destruct (nodes !! p) as [s|] eqn:Es; [destruct (comps !! rr_comp r) as [c|] eqn:Ec|]; [|eapply Hsame; [exact E|done|done|unfold row_edge_of; rewrite Ep, Es; try rewrite Ec; done|done]..].
        assert (row_edge_of r = Some (s, c)) as Ere by (unfold row_edge_of; by rewrite Ep, Es, Ec).
        destruct (names !! s) as [a|] eqn:Ea; [|done]. destruct (names !! rr_node r) as [b|] eqn:Eb; [|done]. injection E as <- <-. unfold final, row_event. cbn. rewrite Ere, Err, Ea, Eb.
        split_and!; try done.
        + intros x. destruct (decide (c.1.1 = Coverage)) as [Hc|Hc].
          * rewrite elem_of_union, elem_of_singleton. split.
            -- intros [-> |H]; [|by left]. right. exists r, s, c. split; [left|done].
            -- intros [H|(r' & s' & c' & H & H' & _ & ->)]; [by right|]. apply elem_of_list_singleton in H. subst. left. congruence.
          * split; [by left|]. intros [H|(r' & s' & c' & H & H' & Hc' & _)]; [done|]. apply elem_of_list_singleton in H. subst. congruence.
        + intros r' s' c' H H'. apply elem_of_list_singleton in H. subst. rewrite Ere in H'. injection H' as <- <-. rewrite Ea, Eb. split; by eexists.
      - assert (row_edge_of r = None) as Ere by (unfold row_edge_of; by rewrite Ep).
        destruct (comps !! rr_comp r) as [c|] eqn:Ec; [destruct (decide (c.1.1 = Coverage)) as [Hc|Hc]|];
          [|eapply Hsame; [exact E|done|done|done|unfold row_root; rewrite Ep, Ec; try rewrite decide_False; done]..].
        assert (row_root r = Some (rr_node r, c)) as Err by (unfold row_root; rewrite Ep, Ec; by rewrite decide_True).
        injection E as <- <-. unfold final, row_event. cbn. rewrite Ere, Err, app_nil_r. split_and!; try done.
        + intros x. split; [by left|]. intros [H|(r' & s & c' & H & H' & _)]; [done|]. apply elem_of_list_singleton in H. subst. congruence.
        + intros r' s c' H H'. apply elem_of_list_singleton in H. subst. congruence. }
    unfold final. split_and!.
    + rewrite F1, G1. cbn. rewrite <- (assoc_L (++)). by destruct (row_event r).
    + rewrite F2, G2. reflexivity.
    + rewrite F3, G3. reflexivity.
    + intros x. rewrite F4, G4. setoid_rewrite elem_of_cons. setoid_rewrite elem_of_nil. split.
      * intros [[H|(r' & s & c & [-> |[]] & H)]|(r' & s & c & H1 & H2)]; [by left|right; exists r, s, c; by split; [left|]|right; exists r', s, c; by split; [right|]].
      * intros [H|(r' & s & c & [-> |H1] & H2)]; [by left; left|left; right; exists r, s, c; by split; [left|]|right; by exists r', s, c].
    + rewrite F5, G5. reflexivity.
    + intros r' s c H. apply elem_of_cons in H as [-> |H]; [apply G6; left|by apply F6].
Qed.
End ranks.
Section maps.
Context (T : tables) (SR : sound_ranks T).
Lemma pre_to_node_spec p i : pre_to_node (t_ranks T) !! p = Some i ↔ ∃ r, r ∈ t_ranks T ∧ rr_pre r = p ∧ rr_node r = i.
Proof.
  unfold pre_to_node. rewrite (fill_all rr_pre rr_node). rewrite fill_unique.
  - split; [intros (r & Hr & H); injection H as <- <-; by exists r|intros (r & Hr & <- & <-); by exists r].
  - pose proof (sr_pre _ SR) as Hn. clear -Hn. induction (t_ranks T) as [|r l IH]; [constructor|]. cbn in *. apply NoDup_cons in Hn as [H1 H2]. constructor; [|by apply IH].
    intros H. apply H1. apply elem_of_list_fmap in H as (y & Hy & H). apply elem_of_list_omap in H as (r' & Hr' & H). injection H as <-. cbn in Hy. rewrite Hy. exact (elem_of_list_fmap_1 rr_pre _ _ Hr').
Qed.
Lemma component_by_id_spec i c : component_by_id (t_comps T) !! i = Some c ↔ (i, c) ∈ t_comps T.
Proof.
  unfold component_by_id. rewrite (fill_all fst snd). rewrite fill_unique.
  - split; [intros ([x y] & Hr & H); by injection H as <- <-|intros H; by exists (i, c)].
  - pose proof (sr_comps _ SR) as Hn. clear -Hn. induction (t_comps T) as [|r l IH]; [constructor|]. cbn in *. apply NoDup_cons in Hn as [H1 H2]. constructor; [|by apply IH].
    intros H. apply H1. apply elem_of_list_fmap in H as (y & Hy & H). apply elem_of_list_omap in H as (r' & Hr' & H). injection H as <-. cbn in Hy. rewrite Hy. exact (elem_of_list_fmap_1 fst _ _ Hr').
Qed.
Lemma row_edge_spec r s c : r ∈ t_ranks T → row_edge_of (pre_to_node (t_ranks T)) (component_by_id (t_comps T)) r = Some (s, c) ↔ rank_edge T r s (rr_node r) c.
Proof.
  intros Hr. unfold row_edge_of, rank_edge. split.
  - destruct (rr_parent r) as [p|]; [|done]. destruct (pre_to_node _ !! p) as [s'|] eqn:Es; [|done]. destruct (component_by_id _ !! _) as [c'|] eqn:Ec; [|done]. intros H. injection H as -> ->.
    apply pre_to_node_spec in Es as (r' & Hr' & <- & <-). apply component_by_id_spec in Ec. split; [done|]. split; [done|]. split; [done|]. by exists r'.
  - intros (_ & _ & Hc & r' & Hr' & -> & Hi). rewrite (proj2 (pre_to_node_spec (rr_pre r') s)) by (by exists r'). by rewrite (proj2 (component_by_id_spec _ _) Hc).
Qed.
Lemma rank_row_unique r r' : r ∈ t_ranks T → r' ∈ t_ranks T → rr_pre r = rr_pre r' → r = r'.
Proof.
  intros Hr Hr' E. pose proof (sr_pre _ SR) as Hn. apply elem_of_list_lookup in Hr as [a Ha], Hr' as [b Hb].
  assert (a = b) as ->; [|by rewrite Ha in Hb; injection Hb]. eapply (NoDup_lookup _ a b (rr_pre r) Hn); rewrite list_lookup_fmap; [by rewrite Ha|by rewrite Hb, E].
Qed.
Lemma rank_fill {V} (f : rrow → N * acomp → V) p v :
  fill (λ r, match row_edge_of (pre_to_node (t_ranks T)) (component_by_id (t_comps T)) r with Some x => Some (rr_pre r, f r x) | None => None end) ∅ (t_ranks T) !! p = Some v ↔
  ∃ r s c, r ∈ t_ranks T ∧ rr_pre r = p ∧ rank_edge T r s (rr_node r) c ∧ v = f r (s, c).
Proof.
  rewrite fill_unique.
  - split.
    + intros (r & Hr & H). destruct (row_edge_of _ _ r) as [[s c]|] eqn:E; [|done]. injection H as <- <-. apply row_edge_spec in E; [|done]. by exists r, s, c.
    + intros (r & s & c & Hr & <- & H & ->). exists r. split; [done|]. apply row_edge_spec in H; [|done]. by rewrite H.
  - pose proof (sr_pre _ SR) as Hn. revert Hn. generalize (row_edge_of (pre_to_node (t_ranks T)) (component_by_id (t_comps T))). generalize (t_ranks T). clear. intros l g Hn. induction l as [|r l IH]; [constructor|]. cbn in *. apply NoDup_cons in Hn as [H1 H2].
    assert (∀ y, y ∈ (omap (λ r, match g r with Some x => Some (rr_pre r, f r x) | None => None end) l).*1 → y ∈ rr_pre <$> l) as Hsub.
    { intros y Hy. apply elem_of_list_fmap in Hy as ([y' v'] & -> & Hy). apply elem_of_list_omap in Hy as (r' & Hr' & Hy). destruct (g r'); [|done]. injection Hy as <- <-.
      exact (elem_of_list_fmap_1 rr_pre _ _ Hr'). }
    destruct (g r); [|by apply IH]. cbn. constructor; [|by apply IH]. intros H. by apply H1, Hsub.
Qed.
End maps.

Section graph.
Context (t : ctree) (T : tables) (ST : sound_tables t T) (SR : sound_ranks T) (v33 : bool) (ext : option bytes → list (bytes * bytes)) (Hext : ∀ d f, f ∈ ext d → hash ∉ f.1).
Context (ct : ctable) (top : bytes) (es e1 e2 e3 e5 e6 e8 e9 : list event) (k : ranks) (PA : parts t T v33 ext ct top es e1 e2 e3 e5 e6 e8 e9 k).
Local Notation names := (id_to_name ct (t_nodes T)).
Local Notation G := (lg_run annis_ctype lg_empty es).
Let Hct := pa_table _ _ _ _ _ _ _ _ _ _ _ _ _ _ _ PA.
Lemma names_named i n : names !! i = Some n ↔ named t T i n.
Proof. by apply names_spec. Qed.
Lemma ct_type ty : annis_ctype (actype_name ty) = Some (actype_number ty).
Proof. by destruct ty. Qed.
Lemma ctype_inj ty ty' : actype_number ty = actype_number ty' → ty = ty'.
Proof. destruct ty, ty'; done. Qed.
Lemma rank_final : final names (pre_to_node (t_ranks T)) (component_by_id (t_comps T)) [] ranks_empty (t_ranks T) e8 k.
Proof. apply ranks_final. exact (pa_e8 _ _ _ _ _ _ _ _ _ _ _ _ _ _ _ PA). Qed.
Lemma e8_elem a b c : (∃ ty, GraphUpdate.AddEdge a b c.1.2 ty c.2 ∈ e8 ∧ annis_ctype ty = Some c.1.1) ↔ ∃ r, edge_of_rank t T r c a b.
Proof.
  destruct rank_final as (E8 & _). rewrite E8. cbn [app]. clear E8. split.
  - intros (ty & H & Hty). apply elem_of_list_omap in H as (r & Hr & H). unfold row_event in H. destruct (row_edge_of _ _ r) as [[s c']|] eqn:E; [|done].
    destruct (names !! s) as [a'|] eqn:Ea; [|done]. destruct (names !! rr_node r) as [b'|] eqn:Eb; [|done]. injection H as -> -> H1 H2 H3. subst ty. rewrite ct_type in Hty. injection Hty as Hty.
    apply row_edge_spec in E; [|done|done]. apply names_named in Ea, Eb. exists r, s, (rr_node r), c'. split; [done|]. split; [|done]. unfold graph_comp. rewrite Hty, H1, H3. by destruct c as [[? ?] ?].
  - intros (r & i & j & c' & Hr & <- & Ha & Hb). apply names_named in Ha, Hb. pose proof Hr as (Hin & -> & _). exists (actype_name c'.1.1). split; [|apply ct_type].
    apply elem_of_list_omap. exists r. split; [done|]. unfold row_event. rewrite (proj2 (row_edge_spec T SR r i c' Hin) Hr). by rewrite Ha, Hb.
Qed.
(** The edges of all components but those for parts *)
Lemma row_adds a : is_row_name t T a → adds a e1.
Proof. apply (e1_adds t T ST ct Hct e1). exact (pa_e1 _ _ _ _ _ _ _ _ _ _ _ _ _ _ _ PA). Qed.
Lemma graph_edges c a b : c.1.1 ≠ 7%N → (c, (a, b)) ∈ lg_edges G ↔ a ≠ b ∧ ∃ ty, annis_ctype ty = Some c.1.1 ∧
  (GraphUpdate.AddEdge a b c.1.2 ty c.2 ∈ e2 ∨ GraphUpdate.AddEdge a b c.1.2 ty c.2 ∈ e8 ∨ GraphUpdate.AddEdge a b c.1.2 ty c.2 ∈ coverage_events names (t_nodes T) k).
Proof.
  intros Hc. split.
  - intros H. apply run_edge_only in H as (ty & H & Hty & Hab & _); [|eapply import_additive; eassumption]. split; [done|]. exists ty. split; [done|].
    assert (ty ≠ actype_name PartOf) as Hp. { intros ->. rewrite ct_type in Hty. injection Hty as Hty. by apply Hc. }
    rewrite (pa_es _ _ _ _ _ _ _ _ _ _ _ _ _ _ _ PA) in H. rewrite !elem_of_app in H. destruct H as [H|[H|[H|[H|[H|[H|[H|[H|[H|H]]]]]]]]].
    + exfalso. apply (concat_opt_elem _ _ _ _ (pa_e1 _ _ _ _ _ _ _ _ _ _ _ _ _ _ _ PA)) in H as (r & y & Hr & Hy & H). destruct (row_name_exists t T ST r Hr) as [m Hm].
      assert (GraphUpdate.AddEdge a b c.1.2 ty c.2 ∈ default [] (node_events ct r)) as H' by (by rewrite Hy). by apply (node_events_elem t T ST ct Hct r m _ Hm Hr) in H' as [H'|(? & ? & H')].
    + by left.
    + exfalso. by apply (proj1 (Forall_forall _ _) (P3 t T ST v33 ext ct top es e1 e2 e3 e5 e6 e8 e9 k PA)) in H.
    + exfalso. apply (proj1 (Forall_forall _ _) (P4 t T ST v33 ext Hext ct top es e1 e2 e3 e5 e6 e8 e9 k PA)) in H. by destruct H as (_ & _ & _ & H & _).
    + exfalso. apply (proj1 (Forall_forall _ _) (proj1 (P5 t T ST v33 ext Hext ct top es e1 e2 e3 e5 e6 e8 e9 k PA))) in H. by destruct H as (_ & _ & _ & H & _).
    + exfalso. apply (proj1 (Forall_forall _ _) (P6 t T v33 ext ct top es e1 e2 e3 e5 e6 e8 e9 k PA)) in H. by destruct H as (_ & H & _).
    + exfalso. by apply (e7_labels t T ST ct Hct) in H as (? & ? & ? & H & _).
    + by right; left.
    + exfalso. by apply (proj1 (Forall_forall _ _) (P9 t T ST v33 ext ct top es e1 e2 e3 e5 e6 e8 e9 k PA)) in H.
    + by right; right.
  - intros (Hab & ty & Hty & H).
    assert (is_row_name t T a ∧ is_row_name t T b) as [Ha Hb].
    { destruct H as [H|[H|H]].
      - exact (proj1 (Forall_forall _ _) (P2 t T ST v33 ext ct top es e1 e2 e3 e5 e6 e8 e9 k PA) _ H).
      - exact (proj1 (Forall_forall _ _) (P8 t T ST v33 ext ct top es e1 e2 e3 e5 e6 e8 e9 k PA) _ H).
      - exact (proj1 (Forall_forall _ _) (P10 t T ST v33 ext ct top es e1 e2 e3 e5 e6 e8 e9 k PA) _ H). }
    pose proof (import_additive t T ST v33 ext Hext ct top es e1 e2 e3 e5 e6 e8 e9 k PA) as Hadd. rewrite (pa_es _ _ _ _ _ _ _ _ _ _ _ _ _ _ _ PA) in Hadd |- *. apply run_edge_in; [done|done|by apply row_adds|by apply row_adds|].
    exists ty. split; [|done]. rewrite !elem_of_app. naive_solver.
Qed.
Lemma graph_rank_edge r c a b : edge_of_rank t T r c a b → a ≠ b → (c, (a, b)) ∈ lg_edges G.
Proof.
  intros H Hab. apply graph_edges.
  - destruct H as (i & j & c' & H & <- & _). destruct H as (_ & _ & Hin & _). pose proof (proj1 (Forall_forall _ _) (sr_types _ SR) _ Hin) as Ht. cbn in Ht.
    unfold graph_comp. cbn. destruct (c'.1.1); try done. exfalso. clear -Ht. apply (bool_decide_unpack _) in Ht || idtac. repeat (apply elem_of_cons in Ht as [Ht|Ht]; [discriminate Ht|]). by apply elem_of_nil in Ht.
  - split; [done|]. destruct (proj2 (e8_elem a b c) (ex_intro _ r H)) as (ty & Hin & Hty). exists ty. split; [done|]. right. by left.
Qed.
Lemma type_of_order l : ∀ prev e2', order_events names prev l = Some e2' → ∀ a b ly ty nm, GraphUpdate.AddEdge a b ly ty nm ∈ e2' → ty = actype_name Ordering.
Proof.
  induction l as [|x l IH]; intros prev e2' H a b ly ty nm He; cbn [order_events] in H; [injection H as <-; by apply elem_of_nil in He|].
  destruct (order_events names (Some x) l) as [es'|] eqn:E; [|done]. destruct prev as [y|]; [|injection H as <-; by eapply IH]. destruct (same_text y.1 x.1); [|injection H as <-; by eapply IH].
  destruct (names !! y.2); [|done]. destruct (names !! x.2); [|done]. injection H as <-. apply elem_of_cons in He as [He|He]; [by injection He|by eapply IH].
Qed.
Lemma type_of_coverage e : e ∈ coverage_events names (t_nodes T) k → ∃ a b ly nm, e = GraphUpdate.AddEdge a b ly (actype_name Coverage) nm.
Proof.
  assert (∀ index n c tx l, e ∈ coverage_loop names index k n c tx l → ∃ a b ly nm, e = GraphUpdate.AddEdge a b ly (actype_name Coverage) nm) as Hl.
  { intros index n c tx l. induction l as [|i l IH]; cbn [coverage_loop]; [intros H; by apply elem_of_nil in H|]. destruct (index !! _) as [tok|]; [|intros H; by apply elem_of_nil in H].
    destruct (decide _); [done|]. cbv zeta. destruct (names !! n) as [a|]; [|intros H; by apply elem_of_nil in H]. destruct (names !! tok) as [b|]; [|intros H; by apply elem_of_nil in H].
    intros H. apply elem_of_cons in H as [-> |H]; [by eexists _, _, _, _|by apply IH]. }
  intros He. apply elem_of_list_In, in_concat in He as (y & Hy & He). apply elem_of_list_In in Hy, He. apply elem_of_list_fmap in Hy as (x & -> & _).
  destruct (decide (is_Some (token_to_index (t_nodes T) !! x.1))) as [Hd|Hd]; [by apply elem_of_nil in He|]. clear Hd. unfold node_coverage in He. destruct (node_to nr_left _ !! _); [|by apply elem_of_nil in He].
  destruct (node_to nr_right _ !! _); [|by apply elem_of_nil in He]. destruct (match token_by nr_left _ !! _ with Some _ => _ | None => _ end) as [n0|]; [|by apply elem_of_nil in He].
  destruct (token_to_index (t_nodes T) !! n0) as [i|]; [|by apply elem_of_nil in He]. destruct (token_to_index (t_nodes T) !! default n0 _) as [j|]; [|by apply elem_of_nil in He]. by eapply Hl.
Qed.
Lemma graph_other_edges c a b : c.1.1 = 2%N ∨ c.1.1 = 3%N → (c, (a, b)) ∈ lg_edges G ↔ a ≠ b ∧ ∃ r, edge_of_rank t T r c a b.
Proof.
  intros Hc. rewrite graph_edges by (intros E; rewrite E in Hc; by destruct Hc). rewrite <- e8_elem. split.
  - intros (Hab & ty & Hty & H). split; [done|]. exists ty. split; [|done]. destruct H as [H|[H|H]]; [|done|].
    + exfalso. eapply type_of_order in H; [|exact (pa_e2 _ _ _ _ _ _ _ _ _ _ _ _ _ _ _ PA)]. subst. rewrite ct_type in Hty. injection Hty as Hty. rewrite <- Hty in Hc. by destruct Hc.
    + exfalso. apply type_of_coverage in H as (? & ? & ? & ? & H). injection H as _ _ _ -> _. rewrite ct_type in Hty. injection Hty as Hty. rewrite <- Hty in Hc. by destruct Hc.
  - intros (Hab & ty & H & Hty). split; [done|]. exists ty. split; [done|]. right. by left.
Qed.
(** ** Labels of edges *)
Lemma rk_comps_spec p c : rk_comps k !! p = Some c ↔ ∃ r s, r ∈ t_ranks T ∧ rr_pre r = p ∧ rank_edge T r s (rr_node r) c.
Proof.
  destruct rank_final as (_ & -> & _). cbn [rk_comps ranks_empty]. rewrite (rank_fill T SR (λ _ x, x.2)). cbn.
  split; [intros (r & s & c' & H1 & H2 & H3 & ->); by exists r, s|intros (r & s & H1 & H2 & H3); by exists r, s, c].
Qed.
Lemma rk_edges_spec p x : rk_edges k !! p = Some x ↔ ∃ r s c, r ∈ t_ranks T ∧ rr_pre r = p ∧ rank_edge T r s (rr_node r) c ∧ x = (s, rr_node r).
Proof. destruct rank_final as (_ & _ & -> & _). cbn [rk_edges ranks_empty]. by rewrite (rank_fill T SR (λ r x, (x.1, rr_node r))). Qed.
Lemma rank_edge_fun r i j c i' j' c' : rank_edge T r i j c → rank_edge T r i' j' c' → i = i' ∧ j = j' ∧ c = c'.
Proof.
  intros (H1 & -> & H2 & r1 & H3 & H4 & <-) (_ & -> & H2' & r1' & H3' & H4' & <-). rewrite H4 in H4'. injection H4' as H4'. rewrite (rank_row_unique T SR r1 r1') by done.
  split; [done|]. split; [done|]. apply (component_by_id_spec T SR) in H2, H2'. congruence.
Qed.
Lemma named_fun i n n' : named t T i n → named t T i n' → n = n'.
Proof. intros H H'. apply names_named in H, H'. congruence. Qed.
Lemma eanno_row e c a b kk : (∃ y, eanno_events names k e = Some y) → ∀ v,
  last (omap (elabel_of annis_ctype c a b kk) (default [] (eanno_events names k e))) = Some v ↔ edge_annotation t T c a b kk e ∧ v = default char_max (er_val e).
Proof.
  intros [y Hy] v. unfold edge_annotation. unfold eanno_events in *. destruct (rk_comps k !! er_pre e) as [c'|] eqn:Ec.
  - destruct (rk_edges k !! er_pre e) as [x|] eqn:Ex.
    + destruct (er_name e) as [n|] eqn:En; [|done]. destruct (names !! x.1) as [a'|] eqn:Ea; [|done]. destruct (names !! x.2) as [b'|] eqn:Eb; [|done].
      apply rk_edges_spec in Ex as (r & s & c1 & Hr & Hp & Hre & ->). apply rk_comps_spec in Ec as (r' & s' & Hr' & Hp' & Hre'). assert (r' = r) as -> by (apply (rank_row_unique T SR); congruence).
      destruct (rank_edge_fun _ _ _ _ _ _ _ Hre Hre') as (<- & _ & <-). cbn in Ea, Eb. apply names_named in Ea, Eb.
      cbn [default from_option id omap list_omap elabel_of]. rewrite ct_type. destruct (decide _) as [(-> & -> & H1 & H2 & H3 & <-)|Hd]; cbn.
      * split; [intros H; injection H as <-|intros [_ ->]; done]. split; [|done]. exists n, r. split; [done|]. split; [done|]. split; [done|]. exists s, (rr_node r), c1. split; [done|]. split; [|done].
        unfold graph_comp. injection H3 as H3. rewrite H1, H2, H3. by destruct c as [[? ?] ?].
      * split; [done|]. intros [(n' & r' & E & <- & Hp'' & i & j & c2 & H1 & <- & H2 & H3) _]. exfalso. apply Hd. injection E as <-.
        assert (r' = r) as -> by (apply (rank_row_unique T SR); [apply H1|done|congruence]). destruct (rank_edge_fun _ _ _ _ _ _ _ Hre H1) as (<- & <- & <-).
        rewrite (named_fun _ _ _ Ea H2), (named_fun _ _ _ Eb H3). done.
    + cbn. split; [done|]. intros [(n & r & _ & _ & Hp & i & j & c2 & H1 & _) _]. pose proof H1 as (Hr & -> & _).
      assert (rk_edges k !! er_pre e = Some (i, rr_node r)) by (apply rk_edges_spec; by exists r, i, c2). congruence.
  - cbn. split; [done|]. intros [(n & r & _ & _ & Hp & i & j & c2 & H1 & _) _]. pose proof H1 as (Hr & -> & _).
    assert (rk_comps k !! er_pre e = Some c2) by (apply rk_comps_spec; by exists r, i). congruence.
Qed.
Lemma last_concat_map {A B} (g : A → list B) l v : last (concat (map g l)) = Some v ↔ ∃ l1 x l2, l = l1 ++ x :: l2 ∧ last (g x) = Some v ∧ ∀ y, y ∈ l2 → g y = [].
Proof.
  induction l as [|x l IH].
  - cbn. split; [done|]. intros (l1 & x & l2 & E & _). by destruct l1.
  - cbn. rewrite last_app. destruct (last (concat (map g l))) as [w|] eqn:E.
    + rewrite IH. split.
      * intros (l1 & y & l2 & -> & H). by exists (x :: l1), y, l2.
      * intros (l1 & y & l2 & Hl & H1 & H2). destruct l1 as [|z l1]; [|injection Hl as <- ->; by exists l1, y, l2]. injection Hl as <- ->.
        assert (concat (map g l2) = []) as E0; [|by rewrite E0 in E]. clear -H2. induction l2 as [|y l IH]; [done|]. cbn. rewrite H2 by left. apply IH. intros z Hz. apply H2. by right.
    + assert (∀ y, y ∈ l → g y = []) as H0.
      { apply last_None in E. clear -E. induction l as [|y l IH]; [intros y Hy; by apply elem_of_nil in Hy|]. cbn in E. apply app_eq_nil in E as [E1 E2]. intros z Hz.
        apply elem_of_cons in Hz as [-> |Hz]; [done|by apply IH]. }
      split.
      * intros H. exists [], x, l. done.
      * intros (l1 & y & l2 & Hl & H1 & H2). destruct l1 as [|z l1]; [by injection Hl as <- ->|]. injection Hl as <- ->. rewrite (H0 y) in H1 by (apply elem_of_app; right; left). done.
Qed.
Lemma e9_only l1 a b l ty cn ns x v l2 : es = l1 ++ AddEdgeLabel a b l ty cn ns x v :: l2 →
  ∃ d1 d2, e9 = d1 ++ AddEdgeLabel a b l ty cn ns x v :: d2 ∧ ∃ l0, l1 = e1 ++ l0 ++ e8 ++ d1.
Proof.
  intros E. rewrite (pa_es _ _ _ _ _ _ _ _ _ _ _ _ _ _ _ PA) in E.
  set (X := AddEdgeLabel a b l ty cn ns x v) in *.
  assert (∀ l1 A B, A ++ B = l1 ++ X :: l2 → X ∉ A → ∃ d, l1 = A ++ d ∧ B = d ++ X :: l2) as Hskip.
  { clear. intros l1 A B H HA. apply app_eq_app in H as (d & [[-> H]|[-> H]]); [|by exists d]. destruct d as [|y d]; [exists []; rewrite app_nil_r; by rewrite app_nil_r|].
    injection H as <- ->. exfalso. apply HA. apply elem_of_app. right. left. }
  assert (∀ A, Forall (row_edge t T) A → X ∉ A) as N1 by (intros A F H; by apply (proj1 (Forall_forall _ _) F) in H).
  assert (∀ A, Forall corpus_event A → X ∉ A) as N2 by (intros A F H; by apply (proj1 (Forall_forall _ _) F) in H).
  apply Hskip in E as (d1 & -> & E).
  2: { intros H. apply (concat_opt_elem _ _ _ _ (pa_e1 _ _ _ _ _ _ _ _ _ _ _ _ _ _ _ PA)) in H as (r & y & Hr & Hy & H). destruct (row_name_exists t T ST r Hr) as [m Hm].
       assert (X ∈ default [] (node_events ct r)) as H' by (by rewrite Hy). by apply (node_events_elem t T ST ct Hct r m _ Hm Hr) in H' as [H'|(? & ? & H')]. }
  apply Hskip in E as (d2 & -> & E); [|apply N1; exact (P2 t T ST v33 ext ct top es e1 e2 e3 e5 e6 e8 e9 k PA)].
  apply Hskip in E as (d3 & -> & E); [|intros H; by apply (proj1 (Forall_forall _ _) (P3 t T ST v33 ext ct top es e1 e2 e3 e5 e6 e8 e9 k PA)) in H].
  apply Hskip in E as (d4 & -> & E); [|apply N2; exact (P4 t T ST v33 ext Hext ct top es e1 e2 e3 e5 e6 e8 e9 k PA)].
  apply Hskip in E as (d5 & -> & E); [|apply N2; exact (proj1 (P5 t T ST v33 ext Hext ct top es e1 e2 e3 e5 e6 e8 e9 k PA))].
  apply Hskip in E as (d6 & -> & E); [|intros H; by apply (proj1 (Forall_forall _ _) (P6 t T v33 ext ct top es e1 e2 e3 e5 e6 e8 e9 k PA)) in H].
  apply Hskip in E as (d7 & -> & E); [|intros H; by apply (e7_labels t T ST ct Hct) in H as (? & ? & ? & H & _)].
  apply Hskip in E as (d8 & -> & E); [|apply N1; exact (P8 t T ST v33 ext ct top es e1 e2 e3 e5 e6 e8 e9 k PA)].
  apply app_eq_app in E as (d & [[E9 H]|[_ H]]).
  - destruct d as [|y d].
    + exfalso. cbn in H. assert (X ∈ coverage_events names (t_nodes T) k) as Hx by (rewrite <- H; left). by apply (N1 _ (P10 t T ST v33 ext ct top es e1 e2 e3 e5 e6 e8 e9 k PA)) in Hx.
    + injection H as <- ->. exists d8, d. split; [done|]. exists (e2 ++ e3 ++ top_events v33 ct (corpus_annos (t_cannos T)) ext ++ e5 ++ e6 ++
        concat (text_white_space names (node_to nr_left_char (t_nodes T)) (node_to nr_right_char (t_nodes T))
          (token_by_index (t_nodes T)) <$> by_text (complete_texts v33 (parse_texts (t_text T)) (t_nodes T)))).
      rewrite <- !(assoc_L (++)). reflexivity.
  - exfalso. assert (X ∈ coverage_events names (t_nodes T) k) as Hx by (rewrite H; apply elem_of_app; right; left). by apply (N1 _ (P10 t T ST v33 ext ct top es e1 e2 e3 e5 e6 e8 e9 k PA)) in Hx.
Qed.
Lemma graph_edge_label c a b kk v : a ≠ b → lg_elabels G !! (c, (a, b), kk) = Some v ↔
  ∃ l1 e l2, t_eannos T = l1 ++ e :: l2 ∧ edge_annotation t T c a b kk e ∧ v = default char_max (er_val e) ∧ ∀ e', e' ∈ l2 → ¬ edge_annotation t T c a b kk e'.
Proof.
  intros Hab. pose proof (import_additive t T ST v33 ext Hext ct top es e1 e2 e3 e5 e6 e8 e9 k PA) as Hadd. rewrite run_elabels; [|done|done|].
  - assert (omap (elabel_of annis_ctype c a b kk) es = omap (elabel_of annis_ctype c a b kk) e9) as ->.
    { assert (∀ A, (∀ e, e ∈ A → match e with AddEdgeLabel _ _ _ _ _ _ _ _ => False | _ => True end) → omap (elabel_of annis_ctype c a b kk) A = []) as Hn.
      { intros A HA. apply omap_none. intros e He. apply HA in He. by destruct e. }
      rewrite (pa_es _ _ _ _ _ _ _ _ _ _ _ _ _ _ _ PA) at 1. rewrite !omap_app.
      rewrite (Hn e1), (Hn e2), (Hn e3), (Hn (top_events _ _ _ _)), (Hn e5), (Hn e6), (Hn (concat _)), (Hn e8), (Hn (coverage_events _ _ _)); [by rewrite !app_nil_l, app_nil_r|..].
      - intros e H. apply (proj1 (Forall_forall _ _) (P10 t T ST v33 ext ct top es e1 e2 e3 e5 e6 e8 e9 k PA)) in H. by destruct e.
      - intros e H. apply (proj1 (Forall_forall _ _) (P8 t T ST v33 ext ct top es e1 e2 e3 e5 e6 e8 e9 k PA)) in H. by destruct e.
      - intros e H. by apply (e7_labels t T ST ct Hct) in H as (? & ? & ? & -> & _).
      - intros e H. apply (proj1 (Forall_forall _ _) (P6 t T v33 ext ct top es e1 e2 e3 e5 e6 e8 e9 k PA)) in H. by destruct e.
      - intros e H. apply (proj1 (Forall_forall _ _) (proj1 (P5 t T ST v33 ext Hext ct top es e1 e2 e3 e5 e6 e8 e9 k PA))) in H. by destruct e.
      - intros e H. apply (proj1 (Forall_forall _ _) (P4 t T ST v33 ext Hext ct top es e1 e2 e3 e5 e6 e8 e9 k PA)) in H. by destruct e.
      - intros e H. apply (proj1 (Forall_forall _ _) (P3 t T ST v33 ext ct top es e1 e2 e3 e5 e6 e8 e9 k PA)) in H. by destruct e.
      - intros e H. apply (proj1 (Forall_forall _ _) (P2 t T ST v33 ext ct top es e1 e2 e3 e5 e6 e8 e9 k PA)) in H. by destruct e.
      - intros e H. apply (concat_opt_elem _ _ _ _ (pa_e1 _ _ _ _ _ _ _ _ _ _ _ _ _ _ _ PA)) in H as (r & y & Hr & Hy & H). destruct (row_name_exists t T ST r Hr) as [m Hm].
        assert (e ∈ default [] (node_events ct r)) as H' by (by rewrite Hy). by apply (node_events_elem t T ST ct Hct r m _ Hm Hr) in H' as [->|(? & ? & ->)]. }
    pose proof (pa_e9 _ _ _ _ _ _ _ _ _ _ _ _ _ _ _ PA) as He9. destruct (concat_opt_inv _ _ _ He9) as [Hall _].
    rewrite (concat_opt_omap _ _ _ _ He9). transitivity (last (concat (map (λ r, omap (elabel_of annis_ctype c a b kk) (default [] (eanno_events names k r))) (t_eannos T))) = Some v).
    { destruct (last _); [done|]. cbn. by rewrite lookup_empty. }
    rewrite last_concat_map. split.
    + intros (l1 & e & l2 & E & H1 & H2). exists l1, e, l2. split; [done|]. apply eanno_row in H1 as [H1 ->]; [|apply Hall; rewrite E; apply elem_of_app; right; left]. split; [done|]. split; [done|].
      intros e' He' Hx. specialize (H2 e' He'). assert (last (omap (elabel_of annis_ctype c a b kk) (default [] (eanno_events names k e'))) = Some (default char_max (er_val e'))) as H3.
      { apply eanno_row; [|done]. apply Hall. rewrite E. apply elem_of_app. right. by right. }
      rewrite H2 in H3. discriminate H3.
    + intros (l1 & e & l2 & E & H1 & -> & H2). exists l1, e, l2. split; [done|]. split; [apply eanno_row; [apply Hall; rewrite E; apply elem_of_app; right; left|done]|].
      intros e' He'. apply last_None. destruct (last _) as [w|] eqn:Ew; [|done]. apply eanno_row in Ew as [Ew _]; [|apply Hall; rewrite E; apply elem_of_app; right; by right]. by apply H2 in Ew.
  - intros l1 l ty cn ns x w l2 E. pose proof E as E'. apply e9_only in E as (d1 & d2 & Hd & l0 & ->). pose proof (pa_e9 _ _ _ _ _ _ _ _ _ _ _ _ _ _ _ PA) as He9.
    assert (AddEdgeLabel a b l ty cn ns x w ∈ e9) as Hin by (rewrite Hd; apply elem_of_app; right; left). apply (concat_opt_elem _ _ _ _ He9) in Hin as (e & y & He & Hy & Hin).
    assert (Forall additive (e1 ++ l0 ++ e8 ++ d1)) as Hadd1 by (rewrite E' in Hadd; by apply Forall_app in Hadd as [Hadd _]).
    unfold eanno_events in Hy. destruct (rk_comps k !! er_pre e) as [c'|] eqn:Ec; [|injection Hy as <-; by apply elem_of_nil in Hin].
    destruct (rk_edges k !! er_pre e) as [z|] eqn:Ex; [|injection Hy as <-; by apply elem_of_nil in Hin]. destruct (er_name e) as [n|] eqn:En; [|done].
    destruct (names !! z.1) as [a'|] eqn:Ea; [|done]. destruct (names !! z.2) as [b'|] eqn:Eb; [|done]. injection Hy as <-. apply elem_of_list_singleton in Hin. injection Hin as -> -> -> -> -> _ _ _.
    apply rk_edges_spec in Ex as (r & s & c1 & Hr & Hp & Hre & ->). apply rk_comps_spec in Ec as (r' & s' & Hr' & Hp' & Hre'). assert (r' = r) as -> by (apply (rank_row_unique T SR); congruence).
    destruct (rank_edge_fun _ _ _ _ _ _ _ Hre Hre') as (<- & _ & <-). cbn in Ea, Eb. apply names_named in Ea, Eb.
    assert (adds a' e1) as Aa by (apply row_adds; destruct Ea as (x1 & ? & _ & ?); by exists x1). assert (adds b' e1) as Ab by (apply row_adds; destruct Eb as (x1 & ? & _ & ?); by exists x1).
    rewrite !run_node, !adds_app by done. split; [right; by left|]. split; [right; by left|]. intros m Hm. rewrite ct_type in Hm. injection Hm as <-.
    apply run_edge_in; [done|done|done|done|]. cbn. destruct (proj2 (e8_elem a' b' (graph_comp c1))) as (ty & Hin & Hty).
    { exists r, s, (rr_node r), c1. done. }
    exists ty. split; [|done]. rewrite !elem_of_app. right. by left.
Qed.
End graph.
