(** Proofs about the descriptions of nodes. *)
From Coq Require Import NArith String Lia.
From stdpp Require Import base list gmap sorting pretty.
From Verif Require RelAnnisFiles RelAnnisMaps GraphMLProofs.
From Verif Require Import KeySer KeySerSpec CompPath RelAnnis NodeSearch Query QuerySpec QueryProofs AqlLexer AqlLexerSpec AqlLexerProofs AqlGrammar AqlParser AqlSpec AqlLayout AqlWords AqlWritten AqlPositions AqlShapes Descriptions DescriptionsSpec.

(** ** The nodes of conjunctions *)
Section Nodes.
Context {Spec Bop Uop : Type}.
Notation literal := (literal Spec Bop Uop).
Notation qconj := (qconj Spec Bop Uop).
Lemma add_nodes_rows m : ∀ (q q' : qconj) ids, add_node_specs_by_start q m = (q', ids) →
  c_nodes q' = c_nodes q ++ imap (row (c_offset q) (length (c_nodes q))) m.
Proof.
  induction m as [|[start [[sp var] o]] m IH]; intros q q' ids H; cbn [add_node_specs_by_start] in H; [injection H as <- _; cbn; by rewrite app_nil_r|].
  unfold add_node_from_query in H. destruct (add_node_specs_by_start _ m) as [q1 ids1] eqn:E. injection H as <- _. apply IH in E. rewrite E. cbn [c_nodes c_offset]. rewrite <- (assoc_L (++)). f_equal.
  cbn [imap app]. f_equal.
  - unfold row, name_of. cbn. by rewrite Nat.add_0_r.
  - apply imap_ext. intros i x _. unfold row. cbn. rewrite app_length. cbn. by replace (length (c_nodes q) + 1 + i) with (length (c_nodes q) + S i) by lia.
Qed.
Lemma conjunction_nodes off (c : list literal) q : consistent c → map_conjunction off c = Some q →
  ∃ m : list (nat * node_entry), positions c (m.*1) ∧ (∀ s e, (s, e) ∈ m ↔ node_at c s e) ∧ c_nodes q = imap (row off 0) m.
Proof.
  intros Hc E. unfold map_conjunction in E. destruct (node_positions_spec (X := unit) (λ _ _, True) (λ _ _ _, True) (λ _ _, True) c (node_at c) Hc [] ltac:(split; [constructor|intros s e H; inversion H]) ltac:(done)) as [[_ E']|(_ & m & E' & [Hs _] & Hm)]; rewrite E' in E; [done|]. cbn [mbind option_bind] in E.
  destruct (add_node_specs_by_start (with_offset off) m) as [q1 ids] eqn:E1. apply add_nodes_rows in E1.
  destruct (add_unary_literals q1 c) as [q2|] eqn:E2; [|done]. cbn in E. apply unary_literals_out in E2. apply binary_literals_out in E. destruct (same_out_trans _ _ _ E2 E) as (_ & H2 & _).
  assert (∀ s e, (s, e) ∈ m ↔ node_at c s e) as Hm' by (intros s e; rewrite Hm; split; [intros [H|H]; [done|inversion H]|by left]).
  exists m. split_and!; [split; [done|]|done|rewrite H2; exact E1]. intros s. rewrite elem_of_list_fmap. split.
  - intros ([s' e] & -> & H). exists e. by apply Hm'.
  - intros (e & H). exists (s, e). split; [done|by apply Hm'].
Qed.
End Nodes.

(** ** Fragments *)
Lemma display_words s : display_spec (search_meaning s) = concat (search_words s).
Proof.
  assert (∀ q, display_name q.1 q.2 = concat (qualified_words q)) as Hq by (intros [[ns|] name]; cbn; by rewrite !app_nil_r).
  destruct s as [| |[] [v|v]|[v|v]|q [] [v|v]|q]; cbn [search_meaning anno_search display_spec search_words equal_words value_words]; try done; rewrite ?Hq; rewrite ?concat_app; cbn [concat app]; unfold equal_words; rewrite ?concat_app; cbn [concat app]; rewrite ?app_nil_r; try done.
Qed.
Lemma anno_name_search s : spec_anno_name (search_meaning s) = match s with FindAnno q true _ | FindName q => Some q.2 | _ => None end.
Proof. by destruct s as [| |[] [v|v]|[v|v]|q [] [v|v]|q]. Qed.

(** ** Fragments are parsed *)
Fixpoint touching (ws : list bytes) : Prop := match ws with [] => True | w :: r => may_touch w (concat r) ∧ touching r end.
Lemma touching_laid ws : ∀ off, touching ws → ∃ ps, LaidOut off ws (concat ws) ps ∧ (ws ≠ [] → head ps = Some off).
Proof.
  induction ws as [|w ws IH]; intros off H; [exists []; split; [apply (laid_end off []); constructor|done]|]. destruct H as [H1 H2]. destruct (IH (off + 0 + length w) H2) as (ps & Hl & _).
  exists ((off + 0) :: ps). split; [|intros _; cbn; f_equal; lia]. apply (laid_word off [] w ws (concat ws) ps); [constructor|done|exact Hl].
Qed.
Lemma id_first s : name_ok s → ∃ b l, s = b :: l ∧ (letter b || digit b || one_of [95; 45; 37; 35]%N b) = true ∧ b ≠ 58%N.
Proof.
  intros H. apply id_matches in H. destruct s as [|b l]; [done|]. exists b, l. split; [done|]. apply id_pred_all in H. cbn in H. apply andb_true_iff in H as [H _]. split; [by apply id_char_wordy|]. intros ->. by vm_compute in H.
Qed.
Lemma id_last s x : name_ok s → last s = Some x → id_char x = true.
Proof. intros H Hx. apply id_matches, id_pred_all in H. rewrite forallb_forall in H. apply H, elem_of_list_In. apply last_Some in Hx as (l & ->). apply elem_of_app. right. left. Qed.
(** What follows a name in a fragment *)
Definition after_name (r : list bytes) : Prop := concat r = [] ∨ (∃ c l, concat r = 61%N :: c :: l ∧ (c = 34 ∨ c = 47)%N) ∨ ∃ l, concat r = 33%N :: l.
Lemma name_touch w r : last w ≠ Some 61%N → last w ≠ Some 33%N → after_name r → may_touch w (concat r).
Proof.
  intros H1 H2 [-> |[(c & l & -> & Hc)|(l & ->)]]; [done| |by cbv]. unfold may_touch. cbn [letter digit]. assert ((letter 61 || digit 61 || one_of [95; 45; 37; 35]%N 61)%N = false) as -> by (vm_compute; reflexivity).
  cbn [N.eqb Pos.eqb]. split_and!; [done..|]. right. cbn [take]. intros E. injection E as ->. by destruct Hc.
Qed.
Lemma id_not_eq w : name_ok w → last w ≠ Some 61%N ∧ last w ≠ Some 33%N.
Proof. intros H. split; intros E; by apply (id_last w _ H) in E. Qed.
Lemma qualified_touch q r : qualified_ok q → (∀ ns, q.1 = Some ns → take 5 q.2 ≠ str "arity") → after_name r → touching r → touching (qualified_words q ++ r).
Proof.
  intros [Hns [Hname _]] Ha Hr Ht. destruct q as [[ns|] name]; cbn [fst snd] in *; cbn [qualified_words app touching]; destruct (id_not_eq _ Hname) as [H1 H2].
  - destruct Hns as [Hns _]. destruct (id_first _ Hname) as (b & l & Eb & Hb & Hc). split_and!; [| |by apply name_touch|done].
    + cbn [concat]. change (str ":" ++ name ++ concat r) with (58%N :: name ++ concat r). unfold may_touch. assert ((letter 58 || digit 58 || one_of [95; 45; 37; 35]%N 58)%N = false) as -> by (vm_compute; reflexivity). cbn [N.eqb Pos.eqb]. right. rewrite Eb. cbn [take app]. intros E. injection E as E. done.
    + cbn [concat]. pose proof Eb as Eb'. rewrite Eb. cbn [app]. unfold may_touch. rewrite Hb. right. split; [done|]. rewrite app_comm_cons, <- Eb'. intros E. destruct (decide (5 ≤ length name)) as [Hl|Hl]; [rewrite take_app_le in E by done; by apply (Ha ns)|].
      pose proof (lookup_take (name ++ concat r) 5 (length name) ltac:(lia)) as E'. unfold bytes in *. rewrite E in E'. rewrite lookup_app_r, Nat.sub_diag in E' by done.
      destruct Hr as [Hr|[(c & l' & Hr & _)|(l' & Hr)]]; rewrite Hr in E'; cbn in E'; destruct (length name) as [|[|[|[|[|n]]]]]; try (vm_compute in E'; discriminate E'); lia.
  - split; [by apply name_touch|done].
Qed.
Lemma equal_value_after eq v : after_name (equal_words eq ++ value_words v) ∧ touching (equal_words eq ++ value_words v).
Proof.
  destruct eq, v as [v|v]; cbn [equal_words value_words app touching concat]; (split; [|split_and!; [by cbv|by cbv|done]]); unfold after_name; cbn [concat app];
    first [right; right; by eexists|right; left; eexists _, _; split; [reflexivity|tauto]].
Qed.
Lemma search_touching s : search_ok s → ¬ starts_with_arity s → touching (search_words s).
Proof.
  intros H Ha. assert (∀ q, searched_name s = Some q → ∀ ns, q.1 = Some ns → take 5 q.2 ≠ str "arity") as Ha'.
  { intros [ns' name] E ns Ens E'. cbn in Ens, E'. subst ns'. apply Ha. exists ns, name. done. }
  destruct s as [| |eq v|v|q eq v|q]; cbn [search_words].
  - by cbn.
  - by cbn.
  - destruct (equal_value_after eq v) as [H1 H2]. split; [by apply name_touch|done].
  - by destruct v; cbn.
  - destruct (equal_value_after eq v) as [H1 H2]. apply qualified_touch; [apply H|by apply Ha'|done|done].
  - rewrite <- (app_nil_r (qualified_words q)). apply qualified_touch; [apply H|by apply Ha'|by left|done].
Qed.
Lemma fragment_parsed s : search_ok s → ¬ starts_with_arity s → parse_aql (concat (search_words s)) = Parsed (Terminal (LNode (search_meaning s) 0 None false)).
Proof.
  intros H Ha. destruct (touching_laid _ 0 (search_touching s H Ha)) as (ps & Hl & Hf). set (q := QPart (PNode (MkNode None s false))).
  assert (words 0 q = search_words s) as Ew by (cbn; unfold node_words; cbn; by rewrite app_nil_r). rewrite <- Ew in Hl. rewrite <- Ew at 1. rewrite (parse_written q _ ps); [|by cbn|exact Hl].
  cbn. unfold first. rewrite Hf; [done|]. destruct s as [| | | |q' ? ?|q']; try done; [by destruct v|by destruct q' as [[]]|by destruct q' as [[]]].
Qed.

(** ** Descriptions *)
Lemma number_lookup qs : ∀ b i k q n, qs !! i = Some q → c_nodes q !! k = Some n →
  number_descriptions b qs !! (sum_list (length <$> (c_nodes <$> take i qs)) + k) = Some (Description (b + i) (display_spec n.1.2) (variable_text n.1.1) (spec_anno_name n.1.2) n.2).
Proof.
  induction qs as [|q0 qs IH]; intros b i k q n Hi Hk; [by rewrite lookup_nil in Hi|]. cbn [number_descriptions]. destruct i as [|i]; cbn in Hi.
  - injection Hi as ->. rewrite lookup_app_l by (unfold get_node_descriptions; rewrite !fmap_length; cbn; by eapply lookup_lt_Some).
    cbn. unfold get_node_descriptions. rewrite !list_lookup_fmap, Hk. cbn. by rewrite Nat.add_0_r.
  - cbn [take fmap list_fmap sum_list]. rewrite lookup_app_r; unfold get_node_descriptions; rewrite !fmap_length; [|cbn; lia].
    replace (_ + k - length (c_nodes q0)) with (sum_list (length <$> (c_nodes <$> take i qs)) + k) by (cbn; lia). rewrite (IH (S b) i k q n Hi Hk). by rewrite Nat.add_succ_comm.
Qed.
Lemma number_length qs b : length (number_descriptions b qs) = sum_list (length <$> (c_nodes <$> qs)).
Proof. revert b. induction qs as [|q qs IH]; intros b; [done|]. cbn [number_descriptions]. rewrite app_length, IH. unfold get_node_descriptions. rewrite !fmap_length. done. Qed.
Lemma map_alternatives_rows (alts : list (list aql_literal)) : Forall consistent alts → ∀ off qs, map_alternatives off alts = Some qs →
  ∃ ms : list (list (nat * node_entry)), Forall2 (λ c m, positions c (m.*1) ∧ ∀ s e, (s, e) ∈ m ↔ node_at c s e) alts ms ∧
    (length <$> (c_nodes <$> qs)) = (length <$> ms) ∧ ∀ i m, ms !! i = Some m → ∃ q, qs !! i = Some q ∧ c_nodes q = imap (row (off + sum_list (length <$> take i ms)) 0) m.
Proof.
  induction 1 as [|c alts Hc H IH]; intros off qs E; cbn [map_alternatives] in E; [injection E as <-; exists []; split_and!; [constructor|done|intros i m Hi; by rewrite lookup_nil in Hi]|].
  destruct (map_conjunction off c) as [q0|] eqn:E0; [|done]. cbn in E. destruct (map_alternatives (off + length (c_nodes q0)) alts) as [qs'|] eqn:E'; [|done]. cbn in E. injection E as <-.
  destruct (conjunction_nodes off c q0 Hc E0) as (m & H1 & H2 & H3). destruct (IH _ _ E') as (ms & H4 & H5 & H6). exists (m :: ms). split_and!; [by constructor|cbn; by rewrite H5, H3, imap_length|].
  intros [|i] m' Hi; cbn in Hi.
  - injection Hi as <-. exists q0. split; [done|]. cbn. by rewrite Nat.add_0_r.
  - destruct (H6 i m' Hi) as (q & Hq & Eq). exists q. split; [done|]. rewrite Eq. cbn. rewrite H3, imap_length. f_equal. f_equal. lia.
Qed.
Theorem descriptions_spec simplify s e ds : simplifies simplify → parse_aql s = Parsed e → node_descriptions simplify s = Described ds →
  ∃ startss, Forall2 positions (get_alternatives_from_dnf (simplify e)) startss ∧ length ds = sum_list (length <$> startss) ∧
    ∀ i alt starts k p, get_alternatives_from_dnf (simplify e) !! i = Some alt → startss !! i = Some starts → starts !! k = Some p →
      ∃ n d, node_at alt p (search_meaning (n_search n), n_var n, n_optional n) ∧ node_ok n ∧
        ds !! (sum_list (length <$> take i startss) + k) = Some d ∧ describes i (sum_list (length <$> take i startss) + k) n d.
Proof.
  intros Hs Hp H. unfold node_descriptions in H. rewrite Hp in H. destruct (map_alternatives 0 _) as [qs|] eqn:E; [|done]. injection H as <-. destruct (parsed_well_formed s e Hp) as [Hpos Hc]. destruct (Hs e Hpos) as (_ & _ & Hsub).
  assert (∀ alt, alt ∈ get_alternatives_from_dnf (simplify e) → alt ⊆ QuerySpec.terminals e) as Hsub' by (intros alt Ha t Ht; apply Hsub; by eapply alternatives_terminals).
  assert (Forall consistent (get_alternatives_from_dnf (simplify e))) as Hcs by (apply Forall_forall; intros alt Ha; eapply consistent_sub; [by apply Hsub'|done]).
  destruct (map_alternatives_rows _ Hcs 0 qs E) as (ms & H1 & H2 & H3). exists ((λ m, m.*1) <$> ms).
  assert (∀ l : list (list (nat * node_entry (Spec := spec))), length <$> ((λ m, m.*1) <$> l) = length <$> l) as Hlen by (intros l; induction l as [|x l IH]; [done|]; cbn; rewrite fmap_length; f_equal; exact IH).
  split_and!.
  - apply Forall2_fmap_r. eapply Forall2_impl; [exact H1|]. intros c m Hm. apply Hm.
  - rewrite number_length, H2, Hlen. done.
  - intros i alt starts k p Ha Hst Hk. rewrite list_lookup_fmap in Hst. destruct (ms !! i) as [m|] eqn:Em; [|done]. cbn in Hst. injection Hst as <-. rewrite list_lookup_fmap in Hk. destruct (m !! k) as [[p' [[sp var] o]]|] eqn:Ek; [|done]. cbn in Hk. injection Hk as ->.
    destruct (Forall2_lookup_lr _ _ _ _ _ _ H1 Ha Em) as [_ Hm]. assert (node_at alt p (sp, var, o)) as Hn by (apply Hm; by eapply elem_of_list_lookup_2).
    assert (node_at (QuerySpec.terminals e) p (sp, var, o)) as Hn' by (eapply node_at_sub; [|exact Hn]; apply Hsub'; by eapply elem_of_list_lookup_2).
    destruct (parsed_shape s e p sp var o Hp Hn') as (n & Hok & Esp & Ev & Eo). destruct (H3 i m Em) as (q & Hq & Eq).
    assert (c_nodes q !! k = Some (name_of (sum_list (length <$> take i ms)) k (sp, var, o), sp, o)) as Hrow by (rewrite Eq, list_lookup_imap, Ek; done).
    pose proof (number_lookup qs 0 i k q _ Hq Hrow) as Hd. assert (sum_list (length <$> (c_nodes <$> take i qs)) = sum_list (length <$> take i ((λ m, m.*1) <$> ms))) as Esum.
    { f_equal. rewrite !fmap_take, Hlen, H2. done. }
    rewrite Esum in Hd. exists n. eexists. split_and!; [by rewrite Esp, Ev, Eo|done|exact Hd|]. constructor; cbn [d_alternative d_fragment d_variable d_anno_name d_optional fst snd].
    + done.
    + by rewrite <- Esp, display_words.
    + unfold name_of. cbn. rewrite Ev. destruct var; [done|]. cbn. unfold number_word. do 3 f_equal. rewrite <- fmap_take, Hlen. done.
    + by rewrite <- Esp, anno_name_search.
    + done.
Qed.
Lemma index_split {A} (ls : list (list A)) : ∀ j, j < sum_list (length <$> ls) → ∃ i l k x, ls !! i = Some l ∧ l !! k = Some x ∧ j = sum_list (length <$> take i ls) + k.
Proof.
  induction ls as [|l ls IH]; intros j H; cbn in H; [lia|]. destruct (decide (j < length l)) as [Hj|Hj].
  - destruct (lookup_lt_is_Some_2 _ _ Hj) as [x Hx]. exists 0, l, j, x. done.
  - destruct (IH (j - length l) ltac:(lia)) as (i & l' & k & x & H1 & H2 & H3). exists (S i), l', k, x. split_and!; [done|done|]. cbn. lia.
Qed.
Lemma description_inv simplify s e ds j d : simplifies simplify → parse_aql s = Parsed e → node_descriptions simplify s = Described ds → ds !! j = Some d →
  ∃ alt p n, get_alternatives_from_dnf (simplify e) !! d_alternative d = Some alt ∧ alt ⊆ QuerySpec.terminals e ∧ node_at alt p (search_meaning (n_search n), n_var n, n_optional n) ∧ node_ok n ∧ describes (d_alternative d) j n d.
Proof.
  intros Hs Hp H Hj. destruct (descriptions_spec simplify s e ds Hs Hp H) as (startss & H1 & H2 & H3). pose proof (lookup_lt_Some _ _ _ Hj) as Hlt. rewrite H2 in Hlt.
  destruct (index_split _ _ Hlt) as (i & starts & k & p & Hi & Hk & ->). destruct (Forall2_lookup_r _ _ _ _ _ H1 Hi) as (alt & Ha & _). destruct (H3 i alt starts k p Ha Hi Hk) as (n & d' & Hn & Hok & Hd & Hdesc).
  assert (d' = d) as -> by congruence. destruct Hdesc as [<- ? ? ? ?]. exists alt, p, n. split_and!; try done. intros t Ht. destruct (parsed_well_formed s e Hp) as [Hpos _]. destruct (Hs e Hpos) as (_ & _ & Hsub). apply Hsub. eapply alternatives_terminals; [|exact Ht]. by eapply elem_of_list_lookup_2.
Qed.
Lemma var_number v n : var_ok v → v ≠ number_word n.
Proof.
  intros H ->. unfold number_word in H. destruct (RelAnnisFiles.pretty_head n) as (b & l & E & Hb). rewrite E in H. apply first_spec in H. cbn in H. unfold letter, upper, lower in H. destruct (N.leb_spec 65 b); [lia|]. destruct (N.leb_spec 97 b); [lia|]. discriminate H.
Qed.
Lemma number_word_inj m n : number_word m = number_word n → m = n.
Proof. intros H. unfold number_word in H. apply GraphMLProofs.str_inj in H. by apply (inj pretty). Qed.
Theorem variables_distinct simplify s e ds j j' d d' : simplifies simplify → parse_aql s = Parsed e → distinct_names (QuerySpec.terminals e) → node_descriptions simplify s = Described ds →
  ds !! j = Some d → ds !! j' = Some d' → d_alternative d = d_alternative d' → d_variable d = d_variable d' → j = j'.
Proof.
  intros Hs Hp Hd H Hj Hj' Ea Ev. destruct (descriptions_spec simplify s e ds Hs Hp H) as (startss & H1 & H2 & H3).
  pose proof (lookup_lt_Some _ _ _ Hj) as Hlt. pose proof (lookup_lt_Some _ _ _ Hj') as Hlt'. rewrite H2 in Hlt, Hlt'.
  destruct (index_split _ _ Hlt) as (i & starts & k & p & Hi & Hk & ->). destruct (index_split _ _ Hlt') as (i' & starts' & k' & p' & Hi' & Hk' & ->).
  destruct (Forall2_lookup_r _ _ _ _ _ H1 Hi) as (alt & Ha & Hpos). destruct (H3 i alt starts k p Ha Hi Hk) as (n & d1 & Hn & Hok & Hd1 & Hdesc). assert (d1 = d) as -> by congruence.
  destruct (Forall2_lookup_r _ _ _ _ _ H1 Hi') as (alt' & Ha' & _). destruct (H3 i' alt' starts' k' p' Ha' Hi' Hk') as (n' & d1' & Hn' & Hok' & Hd1' & Hdesc'). assert (d1' = d') as -> by congruence.
  destruct Hdesc as [E1 _ E2 _ _], Hdesc' as [E1' _ E2' _ _]. assert (i = i') as <- by congruence. assert (alt = alt') as <- by congruence. assert (starts = starts') as <- by congruence. rewrite E2, E2' in Ev.
  destruct (n_var n) as [v|] eqn:En, (n_var n') as [v'|] eqn:En'.
  - subst v'. assert (alt ⊆ QuerySpec.terminals e) as Hsub.
    { intros t Ht. destruct (parsed_well_formed s e Hp) as [Hp' _]. destruct (Hs e Hp') as (_ & _ & Hsub). apply Hsub. eapply alternatives_terminals; [|exact Ht]. by eapply elem_of_list_lookup_2. }
    assert (p = p') as <- by (eapply Hd; (eapply node_at_sub; [exact Hsub|eassumption])). f_equal. destruct Hpos as [Hpos _]. apply RelAnnisMaps.strict_sorted_nodup in Hpos; [by eapply NoDup_lookup|intros x; lia].
  - destruct Hok as [Hv _]. rewrite En in Hv. by apply var_number in Ev.
  - destruct Hok' as [Hv _]. rewrite En' in Hv. symmetry in Ev. by apply var_number in Ev.
  - apply number_word_inj in Ev. lia.
Qed.
