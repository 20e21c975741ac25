(** The text between the tokens of an imported corpus. *)
From Coq Require Import NArith String Lia.
From stdpp Require Import base list gmap sorting.
From Verif Require Import KeySer KeySerSpec SortedMap Types AnnoMem AnnoMemQueries CompPath GraphUpdate GraphApply GraphApplySpec RelAnnis RelAnnisSpec RelAnnisMaps RelAnnisTree
  RelAnnisNames RelAnnisRun RelAnnisParts RelAnnisGraph RelAnnisEdges RelAnnisOrder RelAnnisCoverage ListExtra.

Lemma filter_sorted {A} (R : A → A → Prop) (P : A → Prop) `{!∀ x, Decision (P x)} l : StronglySorted R l → StronglySorted R (filter P l).
Proof.
  induction 1 as [|a l Hs IH Ha]; [constructor|]. rewrite filter_cons. destruct (decide (P a)); [|done]. constructor; [done|]. apply Forall_forall. intros x Hx. apply elem_of_list_filter in Hx as [_ Hx]. by apply (proj1 (Forall_forall _ _) Ha).
Qed.
Definition after_key : anno_key := AnnoKey (str "tok-whitespace-after") annis_ns.
Definition before_key : anno_key := AnnoKey (str "tok-whitespace-before") annis_ns.
Lemma drop_take_pos {A} (cs : list A) O r : O ≤ r → drop (r - min O (length cs)) (drop O cs) = drop r cs ∧ min O (length cs) + length (take (r - min O (length cs)) (drop O cs)) = min r (length cs).
Proof.
  intros H. rewrite drop_drop, take_length, drop_length. destruct (decide (O ≤ length cs)) as [Hd|Hd].
  - rewrite (Nat.min_l O) by done. split; [f_equal; lia|lia].
  - rewrite (Nat.min_r O) by lia. split; [|lia]. rewrite !drop_ge by lia. done.
Qed.
Lemma take_pos {A} (cs : list A) O r : O ≤ r → take (r - min O (length cs)) (drop O cs) = take (r - O) (drop O cs).
Proof.
  intros H. destruct (decide (O ≤ length cs)) as [Hd|Hd]; [by rewrite (Nat.min_l O)|]. rewrite (drop_ge cs O) by lia. by rewrite !take_nil.
Qed.
Section text.
Context (names : gmap N bytes) (left right : gmap N pos) (L R : N → nat) (cs : list bytes) (n : bytes) (x : N).
Definition chained (toks : list N) : Prop := StronglySorted (λ a b, R a ≤ L b) toks ∧ Forall (λ a, L a ≤ R a) toks.
Definition placed (toks : list N) : Prop := Forall (λ a, ∃ l r, left !! a = Some l ∧ right !! a = Some r ∧ N.to_nat l.2 = L a ∧ N.to_nat r.2 = R a) toks.
Lemma no_label toks kk : ∀ first rest off, Forall (λ a, names !! a ≠ Some n) toks → omap (label_of n kk) (white_space names left right toks first rest off) = [].
Proof.
  induction toks as [|a ts IH]; intros first rest off H; [done|]. apply Forall_cons in H as [Ha H]. cbn [white_space]. destruct (left !! a) as [l|]; [|by apply IH]. destruct (right !! a) as [r|]; [|by apply IH].
  cbv zeta. rewrite !omap_app, IH by done. assert (∀ key cs', omap (label_of n kk) (match names !! a with Some m => [AddNodeLabel m annis_ns (str key) (concat cs')] | None => [] end) = []) as Hn.
  { intros key cs'. destruct (names !! a) as [m|]; [|done]. cbn. rewrite decide_False; [done|]. intros [-> _]. done. }
  rewrite Hn. destruct (_ && _); [by rewrite Hn|done].
Qed.
Lemma white_space_step a ts first O : placed (a :: ts) → chained (a :: ts) → O ≤ L a → (first = true → O = 0) →
  white_space names left right (a :: ts) first (drop O cs) (min O (length cs)) =
  (if first && Nat.ltb 0 (L a) then match names !! a with Some m => [AddNodeLabel m annis_ns (str "tok-whitespace-before") (concat (take (L a - 1) cs))] | None => [] end else []) ++
  match names !! a with Some m => [AddNodeLabel m annis_ns (str "tok-whitespace-after") (concat (match head ts with Some b => take (L b - R a) (drop (R a) cs) | None => drop (R a) cs end))] | None => [] end ++
  match ts with b :: _ => white_space names left right ts false (drop (L b) cs) (min (L b) (length cs)) | [] => [] end.
Proof.
  intros Hp Hc HO Hf. apply Forall_cons in Hp as [(l & r & El & Er & HL & HR) Hp]. destruct Hc as [Hs Hle]. apply Forall_cons in Hle as [Hle _]. apply StronglySorted_inv in Hs as [_ Hs].
  cbn [white_space]. rewrite El, Er. cbv zeta. rewrite HL, HR.
  assert (first && Nat.ltb (min O (length cs)) (L a) = first && Nat.ltb 0 (L a)) as ->.
  { destruct first; [|done]. rewrite Hf by done. done. }
  set (O1 := if first && Nat.ltb 0 (L a) then L a - 1 else O).
  assert (O1 ≤ R a) as HO1 by (unfold O1; destruct (_ && _); lia).
  assert ((if first && Nat.ltb 0 (L a) then drop (L a - 1 - min O (length cs)) (drop O cs) else drop O cs) = drop O1 cs) as Er1.
  { unfold O1. destruct (first && Nat.ltb 0 (L a)) eqn:E; [|done]. apply drop_take_pos. apply andb_prop in E as [E _]. rewrite Hf by done. lia. }
  assert ((if first && Nat.ltb 0 (L a) then min O (length cs) + length (take (L a - 1 - min O (length cs)) (drop O cs)) else min O (length cs)) = min O1 (length cs)) as Eo1.
  { unfold O1. destruct (first && Nat.ltb 0 (L a)) eqn:E; [|done]. apply drop_take_pos. apply andb_prop in E as [E _]. rewrite Hf by done. lia. }
  rewrite Er1, Eo1. destruct (drop_take_pos cs O1 (R a) HO1) as [E2 E3]. rewrite E2, E3.
  assert ((if first && Nat.ltb 0 (L a) then match names !! a with Some m => [AddNodeLabel m annis_ns (str "tok-whitespace-before") (concat (take (L a - 1 - min O (length cs)) (drop O cs)))] | None => [] end else []) =
    (if first && Nat.ltb 0 (L a) then match names !! a with Some m => [AddNodeLabel m annis_ns (str "tok-whitespace-before") (concat (take (L a - 1) cs))] | None => [] end else [])) as ->.
  { destruct (first && Nat.ltb 0 (L a)) eqn:E; [|done]. apply andb_prop in E as [E _]. rewrite Hf by done. rewrite drop_0, Nat.min_0_l, Nat.sub_0_r. done. }
  f_equal. destruct ts as [|b ts]; cbn [head hd_error].
  - cbn [white_space]. done.
  - apply Forall_cons in Hp as [(lb & rb & Elb & Erb & HLb & HRb) _]. rewrite Elb, HLb. apply Forall_cons in Hs as [Hs _]. rewrite take_pos by done. destruct (drop_take_pos cs (R a) (L b) Hs) as [E4 E5]. rewrite take_pos in E5 by done. by rewrite E4, E5.
Qed.
Lemma after_label toks : ∀ first O l1 l2, toks = l1 ++ x :: l2 → NoDup toks → placed toks → chained toks → (∀ a, head toks = Some a → O ≤ L a) → (first = true → O = 0) →
  names !! x = Some n → (∀ a, a ∈ toks → a ≠ x → names !! a ≠ Some n) →
  omap (label_of n after_key) (white_space names left right toks first (drop O cs) (min O (length cs))) =
  [concat (match head l2 with Some b => take (L b - R x) (drop (R x) cs) | None => drop (R x) cs end)].
Proof.
  induction toks as [|a ts IH]; intros first O l1 l2 E Hn Hp Hc HO Hf Hx Ho; [by destruct l1|]. rewrite white_space_step; [|done|done|by apply HO|done]. rewrite !omap_app.
  assert (omap (label_of n after_key) (if first && Nat.ltb 0 (L a) then match names !! a with Some m => [AddNodeLabel m annis_ns (str "tok-whitespace-before") (concat (take (L a - 1) cs))] | None => [] end else []) = []) as ->.
  { destruct (_ && _); [|done]. destruct (names !! a); [|done]. cbn. rewrite decide_False; [done|]. intros [_ E']. discriminate E'. }
  cbn [app]. apply NoDup_cons in Hn as [Hn1 Hn2]. destruct l1 as [|a' l1]; injection E as -> ->.
  - rewrite Hx. cbn [omap list_omap label_of]. rewrite decide_True by done. cbn [app]. f_equal. destruct l2 as [|b l2]; [done|]. apply no_label. apply Forall_forall. intros y Hy. apply Ho; [by right|]. intros ->. done.
  - assert (omap (label_of n after_key) (match names !! a' with Some m => [AddNodeLabel m annis_ns (str "tok-whitespace-after") (concat (match head (l1 ++ x :: l2) with Some b => take (L b - R a') (drop (R a') cs) | None => drop (R a') cs end))] | None => [] end) = []) as ->.
    { destruct (names !! a') as [m|] eqn:Em; [|done]. cbn [omap list_omap label_of]. rewrite decide_False; [done|]. intros [-> _]. apply (Ho a'); [left| |done]. intros ->. apply Hn1. apply elem_of_app. right. left. }
    cbn [app]. destruct (l1 ++ x :: l2) as [|b ts] eqn:Et; [by destruct l1|]. apply (IH false (L b) l1 l2); [done|done| | | |done|done|].
    + by apply Forall_cons in Hp as [_ Hp].
    + destruct Hc as [Hc1 Hc2]. apply StronglySorted_inv in Hc1 as [Hc1 _]. apply Forall_cons in Hc2 as [_ Hc2]. done.
    + cbn. intros b' Hb'. by injection Hb' as ->.
    + intros y Hy. apply Ho. by right.
Qed.
Lemma before_label ts : placed (x :: ts) → chained (x :: ts) → names !! x = Some n → (∀ a, a ∈ ts → names !! a ≠ Some n) →
  omap (label_of n before_key) (white_space names left right (x :: ts) true cs 0) = if Nat.ltb 0 (L x) then [concat (take (L x - 1) cs)] else [].
Proof.
  intros Hp Hc Hx Ho. pose proof (white_space_step x ts true 0 Hp Hc ltac:(lia) ltac:(done)) as H. rewrite drop_0, Nat.min_0_l in H. rewrite H. rewrite Hx, !omap_app.
  assert (∀ v, omap (label_of n before_key) [AddNodeLabel n annis_ns (str "tok-whitespace-after") v] = []) as ->.
  { intros v. cbn [omap list_omap label_of]. rewrite decide_False; [done|]. intros [_ E]. discriminate E. }
  assert (omap (label_of n before_key) (match ts with b :: _ => white_space names left right ts false (drop (L b) cs) (min (L b) (length cs)) | [] => [] end) = []) as ->.
  { destruct ts as [|b ts]; [done|]. apply no_label. apply Forall_forall. exact Ho. }
  rewrite !app_nil_r. cbn [andb]. destruct (Nat.ltb 0 (L x)); [|done]. cbn [omap list_omap label_of]. by rewrite decide_True.
Qed.
End text.
Lemma complete_none rs : ∀ m i x, fold_left (λ m r, match m !! (nr_text r, None) with
                         | Some x => <[(nr_text r, Some (nr_corpus r)) := x]> (delete (nr_text r, None) m)
                         | None => m
                         end) rs (m : texts) !! (i, None) = Some x → is_Some (m !! (i, None)) ∧ ∀ r, r ∈ rs → nr_text r ≠ i.
Proof.
  induction rs as [|r rs IH]; intros m i x H; cbn [fold_left] in H; [split; [by eexists|]; intros r Hr; by apply elem_of_nil in Hr|].
  apply IH in H as [H1 H2]. destruct (m !! (nr_text r, None)) as [y|] eqn:E.
  - rewrite lookup_insert_ne in H1 by done. destruct H1 as [z Hz]. apply lookup_delete_Some in Hz as [Hne Hz]. split; [by eexists|]. intros r' Hr'. apply elem_of_cons in Hr' as [-> |Hr']; [congruence|by apply H2].
  - split; [done|]. intros r' Hr'. apply elem_of_cons in Hr' as [-> |Hr']; [|by apply H2]. intros <-. rewrite E in H1. by destruct H1.
Qed.
Section graph.
Context (t : ctree) (T : tables) (ST : sound_tables t T) (SK : sound_tokens T) (SC : sound_chars T) (v33 : bool) (SX : sound_texts t v33 T) (ext : option bytes → list (bytes * bytes)) (Hext : ∀ d f, f ∈ ext d → hash ∉ f.1).
Context (ct : ctable) (top : bytes) (es e1 e2 e3 e5 e6 e8 e9 : list event) (k : ranks) (PA : parts t T v33 ext ct top es e1 e2 e3 e5 e6 e8 e9 k).
Local Notation names := (id_to_name ct (t_nodes T)).
Local Notation G := (lg_run annis_ctype lg_empty es).
Local Notation left := (node_to nr_left_char (t_nodes T)).
Local Notation right := (node_to nr_right_char (t_nodes T)).
Let Hct := pa_table _ _ _ _ _ _ _ _ _ _ _ _ _ _ _ PA.
Let named_iff := names_named t T ST v33 ext ct top es e1 e2 e3 e5 e6 e8 e9 k PA.
(** The sorted entries of the tokens of a text *)
Definition token_entries (i c : N) : list ((bytes * pos) * N) :=
  filter (λ x : (bytes * pos) * N, x.1.1 = [] ∧ x.1.2.1 = (c, i) ∧ (x.1.2.2 < u32_max)%N) (by_index (token_by_index (t_nodes T))).
Lemma token_entries_elem i c y : y ∈ token_entries i c ↔ ∃ r h, r ∈ t_nodes T ∧ nr_corpus r = c ∧ nr_text r = i ∧ token_index r = Some h ∧ y = (([], (c, i, h)), nr_id r).
Proof.
  unfold token_entries. rewrite elem_of_list_filter. change (by_index (token_by_index (t_nodes T))) with (entries index_compare (token_by_index (t_nodes T))). rewrite entries_elem. destruct y as [[s [[c' i'] h]] j]. cbn. split.
  - intros ((-> & E & Hh) & Hm). injection E as -> ->. apply (index_spec T (sk_index _ SK)) in Hm as (r & Hr & Hk & <-). exists r, h. split; [done|]. unfold order_key in Hk. unfold token_index.
    destruct (nr_kind r) as [h' s|s h' v|] eqn:E; [injection Hk as -> -> ->; done| |done]. exfalso. injection Hk as -> _ _ _. by apply (proj1 (Forall_forall _ _) (sk_seg _ SK) r Hr [] h' v).
  - intros (r & h' & Hr & <- & <- & Hh & E). injection E as -> -> -> -> ->. split; [split; [done|]; split; [done|]; by eapply (sc_index _ SC)|]. apply (index_spec T (sk_index _ SK)). exists r. split; [done|]. split; [|done].
    unfold token_index in Hh. unfold order_key. destruct (nr_kind r); try done. by injection Hh as ->.
Qed.
Lemma token_entries_sorted i c : StronglySorted (klt index_compare) (token_entries i c).
Proof. apply filter_sorted. change (by_index (token_by_index (t_nodes T))) with (entries index_compare (token_by_index (t_nodes T))). apply entries_sorted, _. Qed.
Lemma key_row r r' h : r ∈ t_nodes T → r' ∈ t_nodes T → in_same_text r r' → token_index r = Some h → token_index r' = Some h → r = r'.
Proof.
  intros Hr Hr' [E1 E2] H H'. apply (key_unique T (st_node_ids _ _ ST) (sk_index _ SK) r r' ([], (nr_corpus r, nr_text r, h)) Hr Hr'); unfold order_key; unfold token_index in *.
  - destruct (nr_kind r); try done. by injection H as ->.
  - rewrite E1, E2. destruct (nr_kind r'); try done. by injection H' as ->.
Qed.
Definition Lf (j : N) : nat := match left !! j with Some p => N.to_nat p.2 | None => 0 end.
Definition Rf (j : N) : nat := match right !! j with Some p => N.to_nat p.2 | None => 0 end.
Lemma Lf_row r : r ∈ t_nodes T → Lf (nr_id r) = N.to_nat (nr_left_char r).
Proof. intros Hr. pose proof (node_to_spec t T ST nr_left_char r Hr) as E. unfold Lf. unfold pos in *. by rewrite E. Qed.
Lemma Rf_row r : r ∈ t_nodes T → Rf (nr_id r) = N.to_nat (nr_right_char r).
Proof. intros Hr. pose proof (node_to_spec t T ST nr_right_char r Hr) as E. unfold Rf. unfold pos in *. by rewrite E. Qed.
Lemma entries_placed (l : list ((bytes * pos) * N)) : (∀ y, y ∈ l → ∃ r, r ∈ t_nodes T ∧ y.2 = nr_id r) → placed left right Lf Rf (l.*2 : list N).
Proof.
  intros H. apply Forall_forall. intros j Hj. apply elem_of_list_fmap in Hj as (y & -> & Hy). destruct (H y Hy) as (r & Hr & ->).
  exists (pos_of r (nr_left_char r)), (pos_of r (nr_right_char r)). rewrite !(node_to_spec t T ST) by done. split; [done|]. split; [done|]. by rewrite Lf_row, Rf_row.
Qed.
Lemma tokens_chained i c : chained Lf Rf (token_entries i c).*2.
Proof.
  pose proof (token_entries_sorted i c) as Hs. assert (∀ y, y ∈ token_entries i c → ∃ r h, r ∈ t_nodes T ∧ nr_corpus r = c ∧ nr_text r = i ∧ token_index r = Some h ∧ y = (([], (c, i, h)), nr_id r)) as He by (intros y; apply token_entries_elem).
  induction Hs as [|y l Hs IH Hy]; [split; constructor|]. destruct IH as [IH1 IH2]; [intros z Hz; apply He; by right|]. destruct (He y) as (r & h & Hr & Hc & Hi & Hh & Ey); [left|]. rewrite Ey. cbn [fmap list_fmap snd]. split.
  - constructor; [done|]. apply Forall_forall. intros j Hj. apply elem_of_list_fmap in Hj as (z & -> & Hz). destruct (He z) as (r' & h' & Hr' & Hc' & Hi' & Hh' & Ez); [by right|].
    rewrite Forall_forall in Hy. specialize (Hy z Hz). unfold klt in Hy. rewrite Ey, Ez in Hy. cbn [fst] in Hy. apply compare_same in Hy; [|done]. cbn in Hy.
    rewrite Ez. cbn [snd]. rewrite Rf_row, Lf_row by done. assert (nr_right_char r <= nr_left_char r')%N as Hle; [|lia]. eapply (sc_order _ SC r r' h h'); try done. split; congruence.
  - constructor; [|done]. rewrite Rf_row, Lf_row by done. assert (nr_left_char r <= nr_right_char r)%N as Hle; [|lia]. apply (sc_token _ SC); [done|by eexists].
Qed.
Lemma tokens_nodup i c : NoDup (token_entries i c).*2.
Proof.
  assert (NoDup (token_entries i c)) as Hn.
  { apply NoDup_filter. change (by_index (token_by_index (t_nodes T))) with (entries index_compare (token_by_index (t_nodes T))). eapply strict_sorted_nodup; [|apply entries_sorted, _].
    intros y H. unfold klt in H. rewrite (proj2 (cmp_eq index_compare _ _) eq_refl) in H. discriminate H. }
  assert (∀ y, y ∈ token_entries i c → ∃ r h, r ∈ t_nodes T ∧ nr_corpus r = c ∧ nr_text r = i ∧ token_index r = Some h ∧ y = (([], (c, i, h)), nr_id r)) as He by (intros y; apply token_entries_elem).
  revert Hn He. generalize (token_entries i c). induction l as [|y l IH]; intros Hn He; [constructor|]. apply NoDup_cons in Hn as [H1 H2]. cbn. constructor; [|apply IH; [done|]; intros z Hz; apply He; by right].
  intros H. apply elem_of_list_fmap in H as (z & E & Hz). destruct (He y) as (r & h & Hr & Hc & Hi & Hh & ->); [left|]. destruct (He z) as (r' & h' & Hr' & Hc' & Hi' & Hh' & ->); [by right|]. cbn in E.
  assert (r = r') as <- by (by eapply node_row_unique). rewrite Hh in Hh'. injection Hh' as <-. done.
Qed.
(** The events of one text *)
Lemma e7_text n r i c name val kk : r ∈ t_nodes T → row_name t r n → nr_text r = i → nr_corpus r = c → text_of v33 T i c name val →
  omap (label_of n kk) (concat (text_white_space names left right (token_by_index (t_nodes T)) <$> by_text (complete_texts v33 (parse_texts (t_text T)) (t_nodes T)))) =
  omap (label_of n kk) (white_space names left right (token_entries i c).*2 true (chars val) 0).
Proof.
  intros Hr Hn Hi Hc Ht. set (m := complete_texts v33 (parse_texts (t_text T)) (t_nodes T)). pose proof (proj2 (texts_spec t v33 T i c (name, val) SX) Ht) as Hl. fold m in Hl.
  apply (by_text_elem _ ((i, Some c), (name, val))) in Hl.
  assert (∀ l, omap (label_of n kk) (concat (text_white_space names left right (token_by_index (t_nodes T)) <$> l)) = concat (map (λ y, omap (label_of n kk) (text_white_space names left right (token_by_index (t_nodes T)) y)) l)) as ->.
  { induction l as [|y l IH]; [done|]. cbn. by rewrite omap_app, IH. }
  rewrite (concat_map_one _ _ ((i, Some c), (name, val))); [done| |done|].
  - unfold by_text. rewrite (sort_list_perm _ _). apply NoDup_map_to_list.
  - intros [[i' oc] [name' val']] Hy Hne. unfold text_white_space. cbn [fst snd]. apply no_label. apply Forall_forall. intros j Hj. unfold tokens_of_text in Hj. change (j ∈ (token_entries i' (default 0%N oc)).*2) in Hj.
    apply elem_of_list_fmap in Hj as (y & -> & Hj). apply token_entries_elem in Hj as (r' & h & Hr' & Hc' & Hi' & _ & ->). cbn [snd]. intros E. apply named_iff in E as (r'' & Hr'' & Eid & Hn'').
    assert (r'' = r') as -> by (by eapply node_row_unique). assert (r' = r) as -> by (by eapply row_name_inj). apply by_text_elem in Hy. cbn in Hy. destruct oc as [c'|].
    + cbn in Hc'. apply Hne. assert (i' = i) as -> by congruence. assert (c' = c) as -> by congruence. apply by_text_elem in Hl. cbn in Hl. fold m in Hy. rewrite Hl in Hy. by injection Hy as -> ->.
    + unfold complete_texts in Hy. destruct v33 eqn:Ev.
      * destruct SX as (HX1 & HX2 & _). apply parse_texts_lookup in Hy as (rt & Hrt & _ & Hcc & _); [|done]. rewrite Forall_forall in HX2. specialize (HX2 rt Hrt). destruct HX2 as [_ HX2]. specialize (HX2 eq_refl). rewrite Hcc in HX2. by destruct HX2.
      * apply complete_none in Hy as [_ Hy]. by apply (Hy r Hr).
Qed.
Lemma entry_split r h : r ∈ t_nodes T → token_index r = Some h → ∃ E1 E2, token_entries (nr_text r) (nr_corpus r) = E1 ++ (([], (nr_corpus r, nr_text r, h)), nr_id r) :: E2.
Proof. intros Hr Hh. apply elem_of_list_split. apply token_entries_elem. by exists r, h. Qed.
Lemma others n r : r ∈ t_nodes T → row_name t r n → ∀ i c a, a ∈ (token_entries i c).*2 → a ≠ nr_id r → names !! a ≠ Some n.
Proof.
  intros Hr Hn i c a Ha Hne E. apply named_iff in E as (r' & Hr' & <- & Hn'). apply Hne. f_equal. by eapply row_name_inj.
Qed.
Lemma sorted_of i c y x : (∃ l1 l2, token_entries i c = l1 ++ y :: x :: l2) ↔ y ∈ token_entries i c ∧ x ∈ token_entries i c ∧ klt index_compare y x ∧ ∀ z, z ∈ token_entries i c → ¬ (klt index_compare y z ∧ klt index_compare z x).
Proof.
  apply sorted_neighbours; [| | |apply token_entries_sorted].
  - intros a H. unfold klt in H. rewrite (proj2 (cmp_eq index_compare _ _) eq_refl) in H. discriminate H.
  - intros a b d H1 H2. unfold klt in *. by eapply (cmp_trans index_compare).
  - intros a b Ha Hb. destruct (index_compare a.1 b.1) eqn:E.
    + left. apply (cmp_eq index_compare) in E. apply token_entries_elem in Ha as (ra & ha & Hra & Hca & Hia & Hha & ->), Hb as (rb & hb & Hrb & Hcb & Hib & Hhb & ->). cbn in E. injection E as ->.
      assert (ra = rb) as ->; [|done]. apply (key_row ra rb hb); try done. split; congruence.
    + right. by left.
    + right. right. unfold klt. rewrite (cmp_anti index_compare), E. done.
Qed.
Lemma next_entries r h r' h' : r ∈ t_nodes T → token_index r = Some h → r' ∈ t_nodes T → token_index r' = Some h' → in_same_text r r' →
  (∃ l1 l2, token_entries (nr_text r) (nr_corpus r) = l1 ++ (([], (nr_corpus r, nr_text r, h)), nr_id r) :: (([], (nr_corpus r, nr_text r, h')), nr_id r') :: l2) ↔ next_in_order T [] r r'.
Proof.
  intros Hr Hh Hr' Hh' Hs. rewrite sorted_of.
  assert (∀ u g, token_index u = Some g → order_key u = Some ([], (nr_corpus u, nr_text u, g))) as Hok. { intros u g. unfold token_index, order_key. destruct (nr_kind u); try done. intros E. by injection E as ->. }
  assert (∀ u c x g, u ∈ t_nodes T → order_key u = Some ([], (c, x, g)) → token_index u = Some g ∧ nr_corpus u = c ∧ nr_text u = x) as Hko.
  { intros u c x g Hu. unfold token_index, order_key. destruct (nr_kind u) as [|s i v|] eqn:E; try done; intros E'; [by injection E' as -> -> ->|]. exfalso. injection E' as -> _ _ _. by apply (proj1 (Forall_forall _ _) (sk_seg _ SK) u Hu [] i v). }
  unfold klt. cbn [fst]. rewrite (compare_same [] (nr_corpus r, nr_text r, h) (nr_corpus r, nr_text r, h')) by done. cbn [snd]. destruct Hs as [Hs1 Hs2]. split.
  - intros (_ & _ & Hlt & Hno). split; [done|]. split; [done|]. exists (nr_corpus r), (nr_text r), h, h'. split; [by apply Hok|]. split; [rewrite Hs1, Hs2; by apply Hok|]. split; [done|].
    intros u g Hu Hk. destruct (Hko _ _ _ _ Hu Hk) as (Hg & Hcu & Htu). destruct (decide (g <= h ∨ h' <= g)%N) as [H|H]; [done|]. exfalso. apply (Hno (([], (nr_corpus r, nr_text r, g)), nr_id u)).
    + apply token_entries_elem. by exists u, g.
    + cbn [fst]. split; apply compare_same; cbn; lia || done.
  - intros (_ & _ & c & x & i & j & Hk & Hk' & Hij & Hno). rewrite (Hok _ _ Hh) in Hk. injection Hk as <- <- <-. rewrite (Hok _ _ Hh') in Hk'. injection Hk' as _ _ <-.
    split; [apply token_entries_elem; by exists r, h|]. split; [apply token_entries_elem; by exists r', h'|]. split; [done|]. intros z Hz [H1 H2].
    apply token_entries_elem in Hz as (u & g & Hu & Hcu & Htu & Hg & ->). cbn [fst] in H1, H2. apply compare_same in H1, H2; [|done|done]. cbn in H1, H2. destruct (Hno u g Hu); [by rewrite (Hok _ _ Hg), Hcu, Htu|lia|lia].
Qed.
Lemma graph_after n r name val : r ∈ t_nodes T → is_Some (token_index r) → row_name t r n → text_of v33 T (nr_text r) (nr_corpus r) name val →
  (∀ r', next_in_order T [] r r' → lg_labels G !! (n, after_key) = Some (slice (nr_right_char r) (nr_left_char r') val)) ∧
  ((∀ r', ¬ next_in_order T [] r r') → lg_labels G !! (n, after_key) = Some (slice_end (nr_right_char r) val)).
Proof.
  intros Hr [h Hh] Hn Ht. rewrite (graph_label t T ST v33 ext Hext ct top es e1 e2 e3 e5 e6 e8 e9 k PA) by discriminate. rewrite (row_labels t T ST v33 ext Hext ct top es e1 e2 e3 e5 e6 e8 e9 k PA n _ r Hr Hn).
  rewrite (e7_text n r _ _ name val after_key Hr Hn eq_refl eq_refl Ht). destruct (entry_split r h Hr Hh) as (E1 & E2 & EE).
  pose proof (after_label names left right Lf Rf (chars val) n (nr_id r) (token_entries (nr_text r) (nr_corpus r)).*2 true 0 E1.*2 E2.*2) as H. rewrite drop_0, Nat.min_0_l in H. rewrite H; clear H.
  2:{ rewrite EE, fmap_app. done. }
  2:{ apply tokens_nodup. }
  2:{ apply entries_placed. intros y Hy. apply token_entries_elem in Hy as (u & g & Hu & _ & _ & _ & ->). by exists u. }
  2:{ apply tokens_chained. }
  2:{ intros; lia. }
  2:{ done. }
  2:{ apply named_iff. by exists r. }
  2:{ intros a Ha Hne. by eapply others. }
  rewrite !last_app. cbn [last]. split.
  - intros r' Hnext. pose proof Hnext as (_ & Hr' & c & x & i & j & Hk & Hk' & _). assert (∃ h', token_index r' = Some h' ∧ in_same_text r r') as (h' & Hh' & Hs).
    { unfold order_key in Hk, Hk'. unfold token_index in Hh |- *. destruct (nr_kind r) as [hh ?|?|]; try done. injection Hk as <- <- _. destruct (nr_kind r') as [h' ?|s gi gv|] eqn:Ek; [injection Hk' as E1' E2' _; exists h'; split; [done|]; by split| |done].
      exfalso. injection Hk' as -> _ _ _. by apply (proj1 (Forall_forall _ _) (sk_seg _ SK) r' Hr' [] gi gv). }
    destruct (proj2 (next_entries r h r' h' Hr Hh Hr' Hh' Hs) Hnext) as (l1 & l2 & El).
    assert (E1 = l1 ∧ E2 = (([], (nr_corpus r, nr_text r, h')), nr_id r') :: l2) as [-> ->].
    { rewrite EE in El. assert (NoDup (token_entries (nr_text r) (nr_corpus r))) as Hnd by (eapply NoDup_fmap_1; apply tokens_nodup). rewrite EE in Hnd. clear -El Hnd.
      revert l1 El. induction E1 as [|a E1 IH]; intros [|b l1] El.
      - by injection El as ->.
      - exfalso. injection El as <- El. cbn in Hnd. apply NoDup_cons in Hnd as [Hnd _]. apply Hnd. rewrite El. apply elem_of_app. right. left.
      - exfalso. injection El as -> El. cbn in Hnd. apply NoDup_cons in Hnd as [Hnd _]. apply Hnd. apply elem_of_app. right. left.
      - injection El as -> El. cbn in Hnd. apply NoDup_cons in Hnd as [_ Hnd]. destruct (IH Hnd l1 El) as [-> ->]. done. }
    cbn [fmap list_fmap head hd_error snd]. unfold slice. by rewrite Rf_row, Lf_row by done.
  - intros Hno. destruct E2 as [|y E2].
    + cbn [fmap list_fmap head hd_error]. unfold slice_end. by rewrite Rf_row.
    + exfalso. assert (y ∈ token_entries (nr_text r) (nr_corpus r)) as Hy by (rewrite EE; apply elem_of_app; right; right; left). apply token_entries_elem in Hy as (r' & h' & Hr' & Hc' & Ht' & Hh' & ->).
      apply (Hno r'). apply (next_entries r h r' h' Hr Hh Hr' Hh' (conj (eq_sym Hc') (eq_sym Ht'))). exists E1, E2. exact EE.
Qed.
Lemma graph_before n r name val : r ∈ t_nodes T → is_Some (token_index r) → row_name t r n → text_of v33 T (nr_text r) (nr_corpus r) name val →
  (∀ r', ¬ next_in_order T [] r' r) → (0 < nr_left_char r)%N → lg_labels G !! (n, before_key) = Some (slice 0 (nr_left_char r - 1) val).
Proof.
  intros Hr [h Hh] Hn Ht Hno Hpos. rewrite (graph_label t T ST v33 ext Hext ct top es e1 e2 e3 e5 e6 e8 e9 k PA) by discriminate. rewrite (row_labels t T ST v33 ext Hext ct top es e1 e2 e3 e5 e6 e8 e9 k PA n _ r Hr Hn).
  rewrite (e7_text n r _ _ name val before_key Hr Hn eq_refl eq_refl Ht). destruct (entry_split r h Hr Hh) as (E1 & E2 & EE).
  assert (E1 = []) as ->.
  { destruct E1 as [|y E1 _] using rev_ind; [done|]. exfalso. assert (y ∈ token_entries (nr_text r) (nr_corpus r)) as Hy by (rewrite EE; apply elem_of_app; left; apply elem_of_app; right; left).
    apply token_entries_elem in Hy as (r' & h' & Hr' & Hc' & Ht' & Hh' & ->). apply (Hno r'). apply (next_entries r' h' r h Hr' Hh' Hr Hh (conj Hc' Ht')). exists E1, E2. rewrite Hc', Ht'. rewrite EE. by rewrite <- (assoc_L (++)). }
  cbn [app] in EE. pose proof (tokens_nodup (nr_text r) (nr_corpus r)) as Hnd. pose proof (tokens_chained (nr_text r) (nr_corpus r)) as Hch. pose proof (others n r Hr Hn (nr_text r) (nr_corpus r)) as Hoth.
  assert (placed left right Lf Rf (token_entries (nr_text r) (nr_corpus r)).*2) as Hpl. { apply entries_placed. intros y Hy. apply token_entries_elem in Hy as (u & g & Hu & _ & _ & _ & ->). by exists u. }
  rewrite EE in Hnd, Hch, Hpl, Hoth |- *. cbn [fmap list_fmap snd] in *. rewrite (before_label names left right Lf Rf (chars val) n (nr_id r)); [|done|done|apply named_iff; by exists r|].
  2:{ intros a Ha. apply Hoth; [by right|]. intros ->. apply NoDup_cons in Hnd as [Hnd _]. done. }
  rewrite Lf_row by done. rewrite (proj2 (Nat.ltb_lt 0 _)) by lia. rewrite !last_app. cbn [last]. unfold slice. rewrite drop_0. do 3 f_equal. lia.
Qed.
End graph.

(** ** Characters *)
Lemma cont_iff b : is_cont b = true ↔ (128 <= b < 192)%N.
Proof. unfold is_cont. rewrite andb_true_iff, !N.leb_le. lia. Qed.
Lemma chars_char b cs rest : Forall (λ x, 128 <= x < 192)%N cs → match rest with (d :: _) :: _ => ¬ (128 <= d < 192)%N | [] :: _ => False | [] => True end →
  ∀ s, chars s = rest → chars (b :: cs ++ s) = (b :: cs) :: rest.
Proof.
  intros Hc Hr s Hs. revert b. induction Hc as [|x cs Hx Hc IH]; intros b.
  - cbn [app chars]. rewrite Hs. destruct rest as [|[|d c] rest]; [done..|]. destruct (is_cont d) eqn:E; [apply cont_iff in E; done|done].
  - cbn [app]. cbn [chars]. specialize (IH x). cbn [chars] in IH. rewrite IH. by rewrite (proj2 (cont_iff x) Hx).
Qed.
Lemma chars_concat cs : Forall utf8_char cs → chars (concat cs) = cs.
Proof.
  induction 1 as [|c cs (b & l & -> & Hb & Hl) Hc IH]; [done|]. cbn [concat app]. apply (chars_char b l cs Hl); [|done]. destruct Hc as [|c cs (b' & l' & -> & Hb' & _) _]; done.
Qed.
Lemma slice_chars cs i j : Forall utf8_char cs → slice i j (concat cs) = concat (take (N.to_nat j - N.to_nat i) (drop (N.to_nat i) cs)) ∧ slice_end i (concat cs) = concat (drop (N.to_nat i) cs).
Proof. intros H. unfold slice, slice_end. by rewrite chars_concat. Qed.
