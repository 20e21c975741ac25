(** Corpora, documents, texts and files of an import, and which is part of which. *)
From Coq Require Import NArith String Lia.
From stdpp Require Import base list gmap sorting.
From Verif Require Import KeySer KeySerSpec SortedMap Types AnnoMem AnnoMemQueries CompPath Percent GraphUpdate GraphApply GraphApplySpec RelAnnis RelAnnisSpec RelAnnisMaps RelAnnisTree
  RelAnnisNames RelAnnisRun RelAnnisParts RelAnnisGraph RelAnnisEdges RelAnnisOrder RelAnnisCoverage ListExtra.

Lemma concat_opt_split {A B} (f : A → option (list B)) l1 x l2 res : concat_opt f (l1 ++ x :: l2) = Some res →
  ∃ a y b, concat_opt f l1 = Some a ∧ f x = Some y ∧ res = a ++ y ++ b.
Proof.
  intros H. apply concat_opt_inv in H as [Hs ->]. destruct (Hs x) as [y Hy]; [apply elem_of_app; right; left|].
  exists (concat (map (λ r, default [] (f r)) l1)), y, (concat (map (λ r, default [] (f r)) l2)). split; [|split; [done|]].
  - apply concat_opt_total. intros r Hr. apply Hs. apply elem_of_app. by left.
  - rewrite map_app, concat_app. cbn. by rewrite Hy.
Qed.
Lemma omap_one {A B} (g : A → option B) l x v : NoDup l → x ∈ l → g x = Some v → (∀ y, y ∈ l → y ≠ x → g y = None) → omap g l = [v].
Proof.
  intros Hn Hx Hg Ho. induction l as [|a l IH]; [by apply elem_of_nil in Hx|]. apply NoDup_cons in Hn as [H1 H2]. cbn. apply elem_of_cons in Hx as [-> |Hx].
  - rewrite Hg. f_equal. apply omap_none. intros y Hy. apply Ho; [by right|]. intros ->. done.
  - rewrite (Ho a); [|left|intros ->; done]. apply IH; [done|done|]. intros y Hy. apply Ho. by right.
Qed.
Lemma parent_before s : ∀ above i q z, (i, q ++ [z]) ∈ tree_paths above s → q ≠ above → ∃ l1 l2 j, tree_paths above s = l1 ++ (i, q ++ [z]) :: l2 ∧ (j, q) ∈ l1.
Proof.
  induction s as [id name doc cs Hcs] using ctree_ind'. intros above i q z H Hq. cbn [tree_paths] in *. apply elem_of_cons in H as [H|H].
  { injection H as _ H. apply app_inj_tail in H as [-> _]. done. }
  apply elem_of_list_In, in_concat in H as (l & Hl & H). apply in_map_iff in Hl as (c & <- & Hc). apply elem_of_list_In in H, Hc. rewrite Forall_forall in Hcs. specialize (Hcs c Hc).
  apply elem_of_list_split in Hc as (c1 & c2 & ->). rewrite map_app, concat_app. cbn [map concat]. destruct (decide (q = above ++ [name])) as [-> |Hq'].
  - apply elem_of_list_split in H as (m1 & m2 & ->). exists ((id, above ++ [name]) :: concat (map (tree_paths (above ++ [name])) c1) ++ m1), (m2 ++ concat (map (tree_paths (above ++ [name])) c2)), id.
    split; [|left]. cbn. by rewrite <- !(assoc_L (++)).
  - destruct (Hcs _ _ _ _ H Hq') as (m1 & m2 & j & -> & Hj). exists ((id, above ++ [name]) :: concat (map (tree_paths (above ++ [name])) c1) ++ m1), (m2 ++ concat (map (tree_paths (above ++ [name])) c2)), j.
    split; [cbn; by rewrite <- !(assoc_L (++))|]. right. apply elem_of_app. by right.
Qed.
(** The rows of a subtree *)
Lemma forest_row cs c : ∀ n rs m, forest_rows n cs = (rs, m) → c ∈ cs → ∃ n', ∀ r, r ∈ (tree_rows n' c).1 → r ∈ rs.
Proof.
  induction cs as [|d cs IH]; intros n rs m H Hc; [by apply elem_of_nil in Hc|]. cbn in H. destruct (tree_rows n d) as [a n1] eqn:Ea. destruct (forest_rows n1 cs) as [b n2] eqn:Eb. injection H as <- <-.
  apply elem_of_cons in Hc as [-> |Hc].
  - exists n. intros r Hr. rewrite Ea in Hr. apply elem_of_app. by left.
  - destruct (IH _ _ _ Eb Hc) as [n' H]. exists n'. intros r Hr. apply elem_of_app. right. by apply H.
Qed.
Lemma subtree_rows t s : subtree t s → ∀ n, ∃ n', ∀ r, r ∈ (tree_rows n' s).1 → r ∈ (tree_rows n t).1.
Proof.
  induction 1 as [t|id name doc cs c s Hc _ IH]; intros n; [by exists n|]. rewrite tree_rows_unfold. destruct (forest_rows (n + 1) cs) as [rs m] eqn:E.
  destruct (forest_row _ _ _ _ _ E Hc) as [n1 H1]. destruct (IH n1) as [n2 H2]. exists n2. intros r Hr. cbn. right. by apply H1, H2.
Qed.
Lemma tree_rows_grow s : ∀ n, (n + 2 <= (tree_rows n s).2)%N.
Proof.
  induction s as [id name doc cs Hcs] using ctree_ind'. intros n. rewrite tree_rows_unfold. destruct (forest_rows (n + 1) cs) as [rs m] eqn:E. cbn.
  assert (∀ n' rs' m', forest_rows n' cs = (rs', m') → (n' <= m')%N) as H; [|specialize (H _ _ _ E); lia]. clear -Hcs. induction cs as [|c cs IH]; intros n' rs' m' E; cbn in E; [injection E as _ <-; lia|].
  apply Forall_cons in Hcs as [Hc Hcs]. specialize (Hc n'). destruct (tree_rows n' c) as [a n1]. destruct (forest_rows n1 cs) as [b n2] eqn:Eb. injection E as _ <-. specialize (IH Hcs _ _ _ Eb). cbn in Hc. lia.
Qed.
Lemma leaf_row t id name doc cs n : subtree t (CT id name doc cs) → ∃ pre post, CRow id name doc pre post ∈ (tree_rows n t).1 ∧ (post = pre + 1 ↔ cs = [])%N.
Proof.
  intros H. destruct (subtree_rows _ _ H n) as [n' Hr]. rewrite tree_rows_unfold in Hr. destruct (forest_rows (n' + 1) cs) as [rs m] eqn:E. exists n', m. split; [apply Hr; left|].
  destruct cs as [|c cs]; cbn in E.
  - injection E as <- <-. split; done || lia.
  - pose proof (tree_rows_grow c (n' + 1)) as Hg. destruct (tree_rows (n' + 1) c) as [a n1]. cbn in Hg.
    assert (∀ l n' rs' m', forest_rows n' l = (rs', m') → (n' <= m')%N) as Hf.
    { induction l as [|d l IH]; intros n2 rs' m' E'; cbn in E'; [injection E' as _ <-; lia|]. pose proof (tree_rows_grow d n2) as Hd. destruct (tree_rows n2 d) as [a' n3].
      destruct (forest_rows n3 l) as [b' n4] eqn:Eb'. injection E' as _ <-. specialize (IH _ _ _ Eb'). cbn in Hd. lia. }
    destruct (forest_rows n1 cs) as [b n2] eqn:Eb. injection E as _ <-. specialize (Hf _ _ _ _ Eb). split; [lia|done].
Qed.
Lemma path_name_snoc q z : q ≠ [] → path_name (q ++ [z]) = path_name q ++ [slash] ++ encode_name z.
Proof. intros H. unfold path_name. rewrite fmap_app. apply join_slash_snoc. intros E. by apply fmap_nil_inv in E. Qed.
Lemma encode_length x : length x <= length (encode_name x).
Proof. unfold encode_name. induction x as [|b x IH]; [done|]. cbn [pct_encode]. rewrite app_length. destruct (should_encode node_name_encode_set b); cbn [length pct_byte]; lia. Qed.
Lemma path_longer q z : q ≠ [] → length (path_name q) < length (path_name (q ++ [z])).
Proof. intros H. rewrite path_name_snoc by done. rewrite !app_length. cbn. lia. Qed.

Section graph.
Context (t : ctree) (T : tables) (ST : sound_tables t T) (SR : sound_ranks T) (v33 : bool) (SX : sound_texts t v33 T) (ext : option bytes → list (bytes * bytes)) (Hext : ∀ d f, f ∈ ext d → hash ∉ f.1).
Context (ct : ctable) (top : bytes) (es e1 e2 e3 e5 e6 e8 e9 : list event) (k : ranks) (PA : parts t T v33 ext ct top es e1 e2 e3 e5 e6 e8 e9 k).
Local Notation names := (id_to_name ct (t_nodes T)).
Local Notation annos := (corpus_annos (t_cannos T)).
Local Notation e4 := (top_events v33 ct annos ext).
Local Notation G := (lg_run annis_ctype lg_empty es).
Let Hct := pa_table _ _ _ _ _ _ _ _ _ _ _ _ _ _ _ PA.
Let Hes := pa_es _ _ _ _ _ _ _ _ _ _ _ _ _ _ _ PA.
Let Htop := pa_ct_top _ _ _ _ _ _ _ _ _ _ _ _ _ _ _ PA.
Let He5 := pa_e5 _ _ _ _ _ _ _ _ _ _ _ _ _ _ _ PA.
Let He6 := pa_e6 _ _ _ _ _ _ _ _ _ _ _ _ _ _ _ PA.
(** ** Events of corpora *)
Definition block (i : N) (q : list bytes) (z : bytes) (leaf : bool) : list event :=
  let n := path_name (q ++ [z]) in
  [AddNode n (str "corpus")] ++ (if leaf then [AddNodeLabel n annis_ns (str "doc") z] else []) ++
  corpus_labels annos i n ++ [part_of n (path_name q)] ++ file_events ext n (Some z).
Lemma below_root i p : below t i p → p ≠ [ct_name t].
Proof. intros [H Hi] ->. apply Hi. eapply path_id_unique; [exact ST|exact H|exact (root_in t T ST)]. Qed.
Lemma below_longer i p : below t i p → length (ct_name t) < length (path_name p).
Proof.
  intros Hb. pose proof Hb as [Hin Hi]. destruct (root_path t [] i p Hin) as [[-> _]|(q & Hq & ->)]; [done|]. clear -Hq.
  destruct q as [|x q]; [done|]. unfold path_name. cbn [app fmap list_fmap join_slash]. rewrite app_length. pose proof (encode_length (ct_name t)). cbn [length]. lia.
Qed.
Lemma row_path i p r rs m : tree_rows 0 t = (rs, m) → r ∈ rs → cr_id r = i → (i, p) ∈ tree_paths [] t → ∃ q, p = q ++ [cr_name r].
Proof.
  intros Er Hr Hi Hp. destruct (rows_eq t T ST) as (rs' & m' & E & _ & Hn & _). rewrite Er in E. injection E as <- <-. destruct (tree_ok_all t _ _ _ Er) as (_ & _ & H). destruct (H []) as [_ H2].
  destruct (H2 i p Hp) as (r' & Hr' & Hi' & <-). assert (r' = r) as ->; [|by eexists]. rewrite <- Hi in Hi'. clear -Hn Hr Hr' Hi'.
  apply elem_of_list_lookup in Hr as [a Ha], Hr' as [b Hb]. assert (a = b) as ->; [|congruence]. apply (NoDup_lookup (cr_id <$> rs) a b (cr_id r) Hn); rewrite list_lookup_fmap; [by rewrite Ha|by rewrite Hb, <- Hi'].
Qed.
Lemma block_shape x y : x ∈ by_key (ct_by_pre ct) → subcorpus_events ct annos ext x = Some y →
  (x.1 = 0%N ∧ x.2 = ct_id t ∧ y = []) ∨
  ∃ q z pre post doc, x.1 ≠ 0%N ∧ below t x.2 (q ++ [z]) ∧ q ≠ [] ∧ CRow x.2 z doc pre post ∈ (tree_rows 0 t).1 ∧ y = block x.2 q z (bool_decide (pre + 1 = post)%N).
Proof.
  intros Hx Hy. apply by_pre_elem in Hx. destruct (sound_table t T ST) as (ct' & rs & m & E & _ & Er & Hp & Hcp & Hpp & Hby & _ & Hpre). rewrite Hct in E. injection E as <-.
  pose proof Hx as Hx'. apply Hpre in Hx' as (r & Hr & Hx1 & Hx2).
  destruct (subcorpus_shape t T ST ext ct Hct annos x y Hx Hy) as [[H0 ->]|(q & z & e & H0 & Hb & Hq & He & ->)].
  - left. split; [done|]. split; [|done]. destruct (row_below t T ST rs m r Er Hr) as [_ H]. rewrite Hx2. apply H. congruence.
  - right. rewrite Hx2 in He. rewrite (Hby r Hr) in He. injection He as <-. destruct (row_path x.2 (q ++ [z]) r rs m Er Hr ltac:(done) ltac:(apply Hb)) as [q' Ez]. apply app_inj_tail in Ez as [<- ->].
    exists q, (cr_name r), (cr_pre r), (cr_post r), (cr_doc r). split; [done|]. split; [done|]. split; [done|]. split; [rewrite Er; cbn; rewrite Hx2; by destruct r|].
    unfold block. cbn [ce_pre ce_post ce_name]. destruct (decide (cr_pre r + 1 = cr_post r)%N) as [Hd|Hd]; [rewrite bool_decide_true by done|rewrite bool_decide_false by done]; done.
Qed.
Lemma key_ids : (by_key (ct_by_pre ct)).*2 = (tree_paths [] t).*1.
Proof.
  destruct (rows_eq t T ST) as (rs & m & Er & Hp & Hn & Hd). destruct (corpus_table_of_tree t rs m (t_corpus T) Er Hp Hn Hd) as (ct' & E & _ & _ & Hk & _). rewrite Hct in E. injection E as <-.
  rewrite Hk. destruct (tree_ok_all t _ _ _ Er) as (_ & _ & H). destruct (H []) as [<- _]. rewrite <- list_fmap_compose. apply list_fmap_ext. done.
Qed.
Lemma e5_block i q z : below t i (q ++ [z]) → ∃ l1 l2 pre post doc, e5 = l1 ++ block i q z (bool_decide (pre + 1 = post)%N) ++ l2 ∧ CRow i z doc pre post ∈ (tree_rows 0 t).1 ∧
  (q = [ct_name t] ∨ adds (path_name q) l1).
Proof.
  intros Hb. destruct (below_path t _ _ Hb) as (q' & z' & E & Hq). apply app_inj_tail in E as [<- <-]. destruct (parent_before t [] i q z (proj1 Hb) Hq) as (m1 & m2 & j & Em & Hj).
  pose proof key_ids as Hk. rewrite Em in Hk. rewrite fmap_app, fmap_cons in Hk. cbn in Hk. apply fmap_app_inv in Hk as (L1 & L2' & E1 & E2 & EL).
  symmetry in E2. apply fmap_cons_inv in E2 as (x & L2 & Ex & E2 & ->). pose proof He5 as H. rewrite EL in H. apply concat_opt_split in H as (a & y & b & Ha & Hy & Ee5). rewrite Ee5.
  assert (x ∈ by_key (ct_by_pre ct)) as Hx by (rewrite EL; apply elem_of_app; right; left).
  destruct (block_shape x y Hx Hy) as [(_ & E & _)|(q1 & z1 & pre & post & doc & _ & Hb1 & _ & Hrow & ->)].
  { exfalso. apply (proj2 Hb). congruence. }
  assert (q1 ++ [z1] = q ++ [z]) as E. { eapply path_unique; [exact ST|apply Hb1|]. rewrite <- Ex. apply Hb. }
  apply app_inj_tail in E as [-> ->]. rewrite <- Ex in Hrow |- *. exists a, b, pre, post, doc. split; [done|]. split; [done|].
  destruct (decide (j = ct_id t)) as [-> |Hjr].
  - left. eapply path_unique; [exact ST| |exact (root_in t T ST)]. rewrite Em. apply elem_of_app. by left.
  - right. assert (below t j q) as Hbj by (split; [rewrite Em; apply elem_of_app; by left|done]). destruct (below_path t _ _ Hbj) as (q2 & z2 & -> & _).
    assert (j ∈ L1.*2) as Hj1 by (rewrite <- E1; apply elem_of_list_fmap; by exists (j, q2 ++ [z2])). apply elem_of_list_fmap in Hj1 as (w & Ew & Hw).
    destruct (concat_opt_inv _ _ _ Ha) as [Hs _]. destruct (Hs w Hw) as [yw Hyw]. assert (w ∈ by_key (ct_by_pre ct)) as Hwk by (rewrite EL; apply elem_of_app; by left).
    exists (str "corpus"). apply (concat_opt_elem _ _ _ _ Ha). exists w, yw. split; [done|]. split; [done|].
    destruct (block_shape w yw Hwk Hyw) as [(_ & E & _)|(q3 & z3 & pre3 & post3 & doc3 & _ & Hb3 & _ & _ & ->)]; [exfalso; apply Hjr; congruence|].
    assert (q3 ++ [z3] = q2 ++ [z2]) as E3. { eapply path_unique; [exact ST|apply Hb3|]. rewrite <- Ew. apply Hbj. }
    unfold block. cbv zeta. rewrite E3. left.
Qed.
Lemma e5_elem e : e ∈ e5 → ∃ i q z pre post doc, below t i (q ++ [z]) ∧ q ≠ [] ∧ CRow i z doc pre post ∈ (tree_rows 0 t).1 ∧ e ∈ block i q z (bool_decide (pre + 1 = post)%N).
Proof.
  intros H. apply (concat_opt_elem _ _ _ _ He5) in H as (x & y & Hx & Hy & He). destruct (block_shape x y Hx Hy) as [(_ & _ & ->)|(q & z & pre & post & doc & _ & Hb & Hq & Hrow & ->)]; [by apply elem_of_nil in He|].
  by exists x.2, q, z, pre, post, doc.
Qed.
Lemma root_id : ct_by_pre ct !! 0%N = Some (ct_id t).
Proof.
  destruct (sound_table t T ST) as (ct' & rs & m & E & _ & Er & _ & _ & _ & _ & _ & Hpre). rewrite Hct in E. injection E as <-. apply Hpre.
  destruct (root_row t T ST rs m Er) as (post & rs' & -> & _). eexists. split; [left|done].
Qed.
Lemma e4_eq : e4 = [AddNode (ct_name t) (str "corpus"); AddNodeLabel (ct_name t) annis_ns (str "relannis-version") (str (if v33 then "3.3" else "3.2"))] ++
  corpus_labels annos (ct_id t) (ct_name t) ++ file_events ext (ct_name t) None.
Proof. unfold top_events. by rewrite root_id, Htop. Qed.
(** ** Files *)
Lemma file_split parent d f : f ∈ ext d → ∃ y1 y2, file_events ext parent d = y1 ++ AddNode (parent ++ [slash] ++ f.1) (str "file") :: y2 ∧ part_of (parent ++ [slash] ++ f.1) parent ∈ y2.
Proof.
  intros Hf. unfold file_events. apply elem_of_list_split in Hf as (l1 & l2 & ->). rewrite fmap_app, fmap_cons, concat_app. cbn [concat]. cbv zeta. eexists _, _. split; [cbn [app]; reflexivity|]. right. left.
Qed.
Lemma file_elem parent d e : e ∈ file_events ext parent d → ∃ f, f ∈ ext d ∧ (e = AddNode (parent ++ [slash] ++ f.1) (str "file") ∨
  e = AddNodeLabel (parent ++ [slash] ++ f.1) annis_ns (str "file") f.2 ∨ e = part_of (parent ++ [slash] ++ f.1) parent).
Proof.
  intros He. apply elem_of_list_In, in_concat in He as (l & Hl & He). apply elem_of_list_In in Hl, He. apply elem_of_list_fmap in Hl as (f & -> & Hf). exists f. split; [done|].
  cbn zeta in He. apply elem_of_cons in He as [-> |He]; [by left|]. apply elem_of_cons in He as [-> |He]; [right; by left|]. apply elem_of_list_singleton in He. right. by right.
Qed.
(** ** Texts *)
Lemma nodes_of_text_elem i c j : j ∈ nodes_of_text (nodes_by_text (t_nodes T)) i c ↔ ∃ r, r ∈ t_nodes T ∧ nr_text r = i ∧ nr_corpus r = c ∧ nr_id r = j.
Proof.
  unfold nodes_of_text. rewrite (sort_list_perm N.compare). rewrite elem_of_list_fmap. setoid_rewrite elem_of_list_filter. setoid_rewrite elem_of_elements. unfold nodes_by_text. setoid_rewrite elem_of_list_to_set.
  setoid_rewrite elem_of_list_fmap. split.
  - intros (x & -> & E & r & -> & Hr). cbn in E. injection E as <- <-. by exists r.
  - intros (r & Hr & <- & <- & <-). exists (nr_text r, nr_corpus r, nr_id r). split; [done|]. split; [done|]. by exists r.
Qed.
Lemma text_shape i c name val : text_of v33 T i c name val → ∃ p l a b, below t c p ∧ e6 = a ++ ([AddNode (text_name p name) (str "datasource"); part_of (text_name p name) (path_name p)] ++ ((λ m, part_of m (text_name p name)) <$> l)) ++ b ∧
  ∀ m, m ∈ l ↔ ∃ r, r ∈ t_nodes T ∧ nr_text r = i ∧ nr_corpus r = c ∧ row_name t r m.
Proof.
  intros Ht. pose proof (proj2 (texts_spec t v33 T i c (name, val) SX) Ht) as Hl. apply (by_text_elem _ ((i, Some c), (name, val))) in Hl. apply elem_of_list_split in Hl as (l1 & l2 & El).
  pose proof He6 as H. rewrite El in H. apply concat_opt_split in H as (a & y & b & _ & Hy & Ee6). rewrite Ee6. unfold text_events in Hy. cbn [fst snd] in Hy. destruct (corpus_path ct c) as [pn|] eqn:Ep; [|done].
  destruct (mapM _ _) as [l|] eqn:El'; [|done]. injection Hy as <-.
  assert (∃ p, below t c p) as [p Hb].
  { unfold corpus_path in Ep. destruct (parent_path ct c); [|done]. destruct (ct_by_id ct !! c) as [e|] eqn:Ee; [|done]. destruct (sound_table t T ST) as (ct' & rs & m & E & _ & Er & Hp & _ & _ & _ & Hid & _).
    rewrite Hct in E. injection E as <-. destruct (Hid _ _ Ee) as (r & Hr & <-). destruct (row_below t T ST rs m r Er Hr) as [[p Hpp] _]. exists p. split; [done|]. destruct SX as (_ & _ & _ & H). by eapply H. }
  destruct (sound_table t T ST) as (ct' & rs & m & E & _ & Er & Hp & Hcp & _). rewrite Hct in E. injection E as <-. rewrite (Hcp _ _ Hb) in Ep. injection Ep as <-.
  exists p, l, a, b. split; [done|]. split; [done|]. intros n. apply mapM_Some in El'. split.
  - intros Hn. apply elem_of_list_lookup in Hn as [h Hh]. destruct (Forall2_lookup_r _ _ _ _ _ El' Hh) as (j & Hj & Hjn). apply elem_of_list_lookup_2 in Hj. apply nodes_of_text_elem in Hj as (r & Hr & H1 & H2 & <-).
    exists r. split; [done|]. split; [done|]. split; [done|]. apply (names_spec t T ST ct) in Hjn as (r' & Hr' & E & Hn'); [|done]. assert (r' = r) as -> by (by eapply node_row_unique). done.
  - intros (r & Hr & H1 & H2 & Hn). assert (nr_id r ∈ nodes_of_text (nodes_by_text (t_nodes T)) i c) as Hj by (apply nodes_of_text_elem; by exists r). apply elem_of_list_lookup in Hj as [h Hh].
    destruct (Forall2_lookup_l _ _ _ _ _ El' Hh) as (n' & Hn' & En). apply elem_of_list_lookup_2 in Hn'. assert (names !! nr_id r = Some n) as En' by (apply (names_spec t T ST ct); [done|by exists r]).
    cbn in En. rewrite En in En'. by injection En' as ->.
Qed.
Lemma e6_elem e : e ∈ e6 → ∃ i c name val p, text_of v33 T i c name val ∧ below t c p ∧
  (e = AddNode (text_name p name) (str "datasource") ∨ e = part_of (text_name p name) (path_name p) ∨ ∃ r m, e = part_of m (text_name p name) ∧ r ∈ t_nodes T ∧ nr_text r = i ∧ nr_corpus r = c ∧ row_name t r m).
Proof.
  intros He. apply (concat_opt_elem _ _ _ _ He6) in He as ([[i oc] [name val]] & y & Hx & Hy & He). destruct oc as [c|]; [|cbn in Hy; injection Hy as <-; by apply elem_of_nil in He].
  assert (text_of v33 T i c name val) as Ht. { apply by_text_elem in Hx. cbn in Hx. by apply (texts_spec t v33 T i c (name, val) SX). }
  exists i, c, name, val. unfold text_events in Hy. cbn [fst snd] in Hy. destruct (corpus_path ct c) as [pn|] eqn:Ep; [|done]. destruct (mapM _ _) as [l|] eqn:El'; [|done]. injection Hy as <-.
  destruct (text_shape i c name val Ht) as (p & _ & _ & _ & Hb & _). exists p. split; [done|]. split; [done|].
  destruct (sound_table t T ST) as (ct' & rs & m & E & _ & Er & Hp & Hcp & _). rewrite Hct in E. injection E as <-. rewrite (Hcp _ _ Hb) in Ep. injection Ep as <-.
  apply elem_of_cons in He as [-> |He]; [by left|]. apply elem_of_cons in He as [-> |He]; [right; by left|]. right. right. apply elem_of_list_fmap in He as (n & -> & Hn).
  apply mapM_Some in El'. apply elem_of_list_lookup in Hn as [h Hh]. destruct (Forall2_lookup_r _ _ _ _ _ El' Hh) as (j & Hj & Hjn). apply elem_of_list_lookup_2 in Hj. apply nodes_of_text_elem in Hj as (r & Hr & H1 & H2 & <-).
  exists r, n. split; [done|]. split; [done|]. split; [done|]. split; [done|]. apply (names_spec t T ST ct) in Hjn as (r' & Hr' & E & Hn'); [|done]. assert (r' = r) as -> by (by eapply node_row_unique). done.
Qed.
(** ** The nodes of the graph *)
Lemma block_adds i q z leaf n : adds n (block i q z leaf) ↔ n = path_name (q ++ [z]) ∨ ∃ f, f ∈ ext (Some z) ∧ n = path_name (q ++ [z]) ++ [slash] ++ f.1.
Proof.
  unfold block. cbv zeta. split.
  - intros [ty H]. apply elem_of_app in H as [H|H]; [apply elem_of_list_singleton in H; injection H as -> _; by left|]. apply elem_of_app in H as [H|H].
    { destruct leaf; [apply elem_of_list_singleton in H; discriminate H|by apply elem_of_nil in H]. }
    apply elem_of_app in H as [H|H]; [apply corpus_labels_elem in H as (? & ? & ? & H); discriminate H|].
    apply elem_of_app in H as [H|H]; [apply elem_of_list_singleton in H; discriminate H|]. right. apply file_elem in H as (f & Hf & [H|[H|H]]); [|discriminate H..]. injection H as -> _. by exists f.
  - intros [-> |(f & Hf & ->)]; [exists (str "corpus"); left|]. exists (str "file"). rewrite !elem_of_app. do 4 right. destruct (file_split (path_name (q ++ [z])) _ _ Hf) as (y1 & y2 & -> & _). apply elem_of_app. right. left.
Qed.
Lemma adds_elem n ty l : AddNode n ty ∈ l → adds n l.
Proof. intros H. by exists ty. Qed.
Lemma graph_nodes n : is_node G n ↔
  is_row_name t T n ∨ n = ct_name t ∨ (∃ i p, below t i p ∧ n = path_name p) ∨ file_name t ext n ∨ ∃ i c name val p, text_of v33 T i c name val ∧ below t c p ∧ n = text_name p name.
Proof.
  rewrite (graph_node t T ST v33 ext Hext ct top es e1 e2 e3 e5 e6 e8 e9 k PA). split.
  - intros [ty H]. rewrite Hes in H. rewrite !elem_of_app in H. destruct H as [H|[H|[H|[H|[H|[H|[H|[H|[H|H]]]]]]]]].
    + left. apply (e1_adds t T ST ct Hct e1 (pa_e1 _ _ _ _ _ _ _ _ _ _ _ _ _ _ _ PA)). by exists ty.
    + exfalso. exact (proj1 (Forall_forall _ _) (P2 t T ST v33 ext ct top es e1 e2 e3 e5 e6 e8 e9 k PA) _ H).
    + exfalso. exact (proj1 (Forall_forall _ _) (P3 t T ST v33 ext ct top es e1 e2 e3 e5 e6 e8 e9 k PA) _ H).
    + rewrite e4_eq in H. apply elem_of_app in H as [H|H].
      * right. left. apply elem_of_cons in H as [H|H]; [by injection H|]. apply elem_of_list_singleton in H. discriminate H.
      * apply elem_of_app in H as [H|H]; [apply corpus_labels_elem in H as (? & ? & ? & H); discriminate H|]. apply file_elem in H as (f & Hf & [H|[H|H]]); [|discriminate H..]. injection H as -> _.
        right. right. right. left. exists (ct_name t), None, f. split; [done|]. split; [done|by left].
    + apply e5_elem in H as (i & q & z & pre & post & doc & Hb & _ & _ & H). apply adds_elem, block_adds in H as [-> |(f & Hf & ->)].
      * right. right. left. by exists i, (q ++ [z]).
      * right. right. right. left. exists (path_name (q ++ [z])), (Some z), f. split; [done|]. split; [done|]. right. by exists i, q, z.
    + apply e6_elem in H as (i & c & name & val & p & Ht & Hb & [H|[H|(r & m & H & _)]]); [|discriminate H..]. injection H as -> _. do 4 right. by exists i, c, name, val, p.
    + exfalso. apply (e7_labels t T ST ct Hct) in H as (? & ? & ? & H & _). discriminate H.
    + exfalso. exact (proj1 (Forall_forall _ _) (P8 t T ST v33 ext ct top es e1 e2 e3 e5 e6 e8 e9 k PA) _ H).
    + exfalso. exact (proj1 (Forall_forall _ _) (P9 t T ST v33 ext ct top es e1 e2 e3 e5 e6 e8 e9 k PA) _ H).
    + exfalso. exact (proj1 (Forall_forall _ _) (P10 t T ST v33 ext ct top es e1 e2 e3 e5 e6 e8 e9 k PA) _ H).
  - intros H. rewrite Hes. rewrite !adds_app. destruct H as [H|[->|[(i & p & Hb & ->)|[(parent & d & f & Hf & -> & H)|(i & c & name & val & p & Ht & Hb & ->)]]]].
    + left. by apply (e1_adds t T ST ct Hct e1 (pa_e1 _ _ _ _ _ _ _ _ _ _ _ _ _ _ _ PA)).
    + do 3 right. left. rewrite e4_eq. exists (str "corpus"). left.
    + do 4 right. left. destruct (below_path t _ _ Hb) as (q & z & -> & _). destruct (e5_block i q z Hb) as (l1 & l2 & pre & post & doc & Ee5 & _). rewrite Ee5. rewrite !adds_app. right. left. apply block_adds. by left.
    + destruct H as [[-> ->]|(i & q & z & Hb & -> & ->)].
      * do 3 right. left. rewrite e4_eq. destruct (file_split (ct_name t) _ _ Hf) as (y1 & y2 & -> & _). rewrite !adds_app. do 3 right. exists (str "file"). left.
      * do 4 right. left. destruct (e5_block i q z Hb) as (l1 & l2 & pre & post & doc & Ee5 & _). rewrite Ee5. rewrite !adds_app. right. left. apply block_adds. right. by exists f.
    + do 5 right. left. destruct (text_shape i c name val Ht) as (p' & l & a & b & Hb' & Ee6 & _). rewrite Ee6. assert (p' = p) as -> by (eapply path_unique; [exact ST|apply Hb'|apply Hb]). rewrite !adds_app. right. left. left.
      exists (str "datasource"). left.
Qed.
(** ** Part-of edges *)
Lemma part_edge a b l1 l2 : es = l1 ++ l2 → a ≠ b → adds a l1 → adds b l1 → part_of a b ∈ l2 → (part_of_comp, (a, b)) ∈ lg_edges G.
Proof.
  intros E Hab Ha Hb Hin. pose proof (import_additive t T ST v33 ext Hext ct top es e1 e2 e3 e5 e6 e8 e9 k PA) as Hadd. rewrite E in Hadd |- *. apply run_edge_in; [done|done|done|done|].
  exists (actype_name PartOf). split; [exact Hin|apply (ct_type PartOf)].
Qed.
Lemma corpus_added i p : below t i p → adds (path_name p) e5.
Proof.
  intros Hb. destruct (below_path t _ _ Hb) as (q & z & -> & _). destruct (e5_block i q z Hb) as (l1 & l2 & pre & post & doc & Ee5 & _). rewrite Ee5. rewrite !adds_app. right. left. apply block_adds. by left.
Qed.
Lemma top_added : adds (ct_name t) e4.
Proof. rewrite e4_eq. exists (str "corpus"). left. Qed.
Lemma text_hash p name : hash ∈ text_name p name.
Proof. unfold text_name. apply elem_of_app. right. left. Qed.
Lemma part_in a b : encode_name (ct_name t) = ct_name t → part t v33 T ext a b → a ≠ b → (part_of_comp, (a, b)) ∈ lg_edges G.
Proof.
  intros Henc Hp Hab. destruct Hp as [r p a name val Hr Hn Hp Ht|i c p name val Ht Hb|i q x Hb|f Hf|i q x f Hb Hf].
  - destruct (text_shape _ _ _ _ Ht) as (p' & l & x1 & x2 & Hb' & Ee6 & Hl). assert (p' = p) as -> by (eapply path_unique; [exact ST|apply Hb'|apply Hp]).
    eapply (part_edge _ _ (e1 ++ e2 ++ e3 ++ e4 ++ e5 ++ x1 ++ [AddNode (text_name p name) (str "datasource")])).
    + rewrite Hes, Ee6. rewrite <- !app_assoc. cbn [app]. reflexivity.
    + done.
    + rewrite !adds_app. left. apply (e1_adds t T ST ct Hct e1 (pa_e1 _ _ _ _ _ _ _ _ _ _ _ _ _ _ _ PA)). by exists r.
    + rewrite !adds_app. do 6 right. exists (str "datasource"). left.
    + right. apply elem_of_app. left. apply elem_of_list_fmap. exists a. split; [done|]. apply Hl. by exists r.
  - destruct (text_shape _ _ _ _ Ht) as (p' & l & x1 & x2 & Hb' & Ee6 & Hl). assert (p' = p) as -> by (eapply path_unique; [exact ST|apply Hb'|apply Hb]).
    eapply (part_edge _ _ (e1 ++ e2 ++ e3 ++ e4 ++ e5 ++ x1 ++ [AddNode (text_name p name) (str "datasource")])).
    + rewrite Hes, Ee6. rewrite <- !app_assoc. cbn [app]. reflexivity.
    + done.
    + rewrite !adds_app. do 6 right. exists (str "datasource"). left.
    + rewrite !adds_app. do 4 right. left. by eapply corpus_added.
    + left.
  - destruct (e5_block i q x Hb) as (l1 & l2 & pre & post & doc & Ee5 & _ & Hq).
    eapply (part_edge _ _ (e1 ++ e2 ++ e3 ++ e4 ++ l1 ++ [AddNode (path_name (q ++ [x])) (str "corpus")])).
    + rewrite Hes, Ee5. unfold block. cbv zeta. rewrite <- !app_assoc. reflexivity.
    + done.
    + rewrite !adds_app. do 5 right. exists (str "corpus"). left.
    + rewrite !adds_app. destruct Hq as [-> |Hq]; [|do 4 right; by left]. do 3 right. left. unfold path_name. cbn. rewrite Henc. apply top_added.
    + rewrite !elem_of_app. right. right. left. left.
  - destruct (file_split (ct_name t) _ _ Hf) as (y1 & y2 & Ef & Hy).
    eapply (part_edge _ _ (e1 ++ e2 ++ e3 ++ ([AddNode (ct_name t) (str "corpus"); AddNodeLabel (ct_name t) annis_ns (str "relannis-version") (str (if v33 then "3.3" else "3.2"))] ++
      corpus_labels annos (ct_id t) (ct_name t) ++ y1 ++ [AddNode (ct_name t ++ [slash] ++ f.1) (str "file")]))).
    + rewrite Hes, e4_eq, Ef. rewrite <- !app_assoc. cbn [app]. reflexivity.
    + done.
    + rewrite !adds_app. do 6 right. exists (str "file"). left.
    + rewrite !adds_app. do 3 right. left. exists (str "corpus"). left.
    + apply elem_of_app. by left.
  - destruct (e5_block i q x Hb) as (l1 & l2 & pre & post & doc & Ee5 & _ & Hq). destruct (file_split (path_name (q ++ [x])) _ _ Hf) as (y1 & y2 & Ef & Hy).
    eapply (part_edge _ _ (e1 ++ e2 ++ e3 ++ e4 ++ l1 ++ [AddNode (path_name (q ++ [x])) (str "corpus")] ++ (if bool_decide (pre + 1 = post)%N then [AddNodeLabel (path_name (q ++ [x])) annis_ns (str "doc") x] else []) ++
      corpus_labels annos i (path_name (q ++ [x])) ++ [part_of (path_name (q ++ [x])) (path_name q)] ++ y1 ++ [AddNode (path_name (q ++ [x]) ++ [slash] ++ f.1) (str "file")])).
    + rewrite Hes, Ee5. unfold block. cbv zeta. rewrite Ef. rewrite <- !app_assoc. reflexivity.
    + done.
    + rewrite !adds_app. do 10 right. exists (str "file"). left.
    + rewrite !adds_app. do 5 right. left. exists (str "corpus"). left.
    + apply elem_of_app. by left.
Qed.
Lemma part_only c a b : c.1.1 = 7%N → (c, (a, b)) ∈ lg_edges G → c = part_of_comp ∧ part t v33 T ext a b ∧ a ≠ b.
Proof.
  intros Hc H. apply run_edge_only in H as (ty & H & Hty & Hab & _); [|exact (import_additive t T ST v33 ext Hext ct top es e1 e2 e3 e5 e6 e8 e9 k PA)].
  assert (∀ a' b', GraphUpdate.AddEdge a b c.1.2 ty c.2 = part_of a' b' → c = part_of_comp ∧ a = a' ∧ b = b') as Hpo.
  { intros a' b' E. injection E as -> -> E1 _ E2. split; [|done]. clear -Hc E1 E2. destruct c as [[c1 c2] c3]. cbn in Hc, E1, E2. by rewrite Hc, E1, E2. }
  assert (part_of_comp = part_of_comp) as _ by done. rewrite Hes in H. rewrite !elem_of_app in H. destruct H as [H|[H|[H|[H|[H|[H|[H|[H|[H|H]]]]]]]]].
  - exfalso. destruct (concat_opt_elem _ _ _ (GraphUpdate.AddEdge a b c.1.2 ty c.2) (pa_e1 _ _ _ _ _ _ _ _ _ _ _ _ _ _ _ PA)) as [H' _]. destruct (H' H) as (r & y & Hr & Hy & He). destruct (row_name_exists t T ST r Hr) as [n Hn].
    destruct (node_events_elem t T ST ct Hct r n _ Hn Hr ltac:(rewrite Hy; exact He)) as [E|(? & ? & E)]; discriminate E.
  - exfalso. eapply type_of_order in H; [|exact (pa_e2 _ _ _ _ _ _ _ _ _ _ _ _ _ _ _ PA)]. rewrite H, ct_type in Hty. injection Hty as Hty. rewrite Hc in Hty. discriminate Hty.
  - exfalso. exact (proj1 (Forall_forall _ _) (P3 t T ST v33 ext ct top es e1 e2 e3 e5 e6 e8 e9 k PA) _ H).
  - rewrite e4_eq in H. apply elem_of_app in H as [H|H]; [exfalso; apply elem_of_cons in H as [H|H]; [discriminate H|]; apply elem_of_list_singleton in H; discriminate H|].
    apply elem_of_app in H as [H|H]; [apply corpus_labels_elem in H as (? & ? & ? & H); discriminate H|]. apply file_elem in H as (f & Hf & [H|[H|H]]); [discriminate H..|].
    apply Hpo in H as (-> & -> & ->). split; [done|]. split; [by constructor|done].
  - apply e5_elem in H as (i & q & z & pre & post & doc & Hb & _ & _ & H). unfold block in H. cbv zeta in H. apply elem_of_app in H as [H|H]; [apply elem_of_list_singleton in H; discriminate H|].
    apply elem_of_app in H as [H|H]; [exfalso; destruct (bool_decide _); [apply elem_of_list_singleton in H; discriminate H|by apply elem_of_nil in H]|].
    apply elem_of_app in H as [H|H]; [apply corpus_labels_elem in H as (? & ? & ? & H); discriminate H|].
    apply elem_of_app in H as [H|H]; [apply elem_of_list_singleton in H|apply file_elem in H as (f & Hf & [H|[H|H]]); [discriminate H..|]].
    + apply Hpo in H as (-> & -> & ->). split; [done|]. split; [by econstructor|done].
    + apply Hpo in H as (-> & -> & ->). split; [done|]. split; [by econstructor|done].
  - apply e6_elem in H as (i & c' & name & val & p & Ht & Hb & [H|[H|(r & m & H & Hr & H1 & H2 & Hm)]]); [discriminate H| |].
    + apply Hpo in H as (-> & -> & ->). split; [done|]. split; [by econstructor|done].
    + apply Hpo in H as (-> & -> & ->). split; [done|]. split; [|done]. rewrite <- H1, <- H2 in Ht; rewrite <- H2 in Hb. eapply part_node; [exact Hr|exact Hm|apply Hb|exact Ht].
  - exfalso. apply (e7_labels t T ST ct Hct) in H as (? & ? & ? & H & _). discriminate H.
  - exfalso. destruct (proj1 (e8_elem t T ST SR v33 ext ct top es e1 e2 e3 e5 e6 e8 e9 k PA a b c)) as (r & i & j & c' & Hre & <- & _); [by exists ty|].
    destruct Hre as (_ & _ & Hin & _). pose proof (proj1 (Forall_forall _ _) (sr_types _ SR) _ Hin) as Ht. cbn in Ht, Hc. destruct c' as [[[] ?] ?]; cbn in Hc; try discriminate Hc.
    cbn in Ht. rewrite !elem_of_cons in Ht. destruct Ht as [Ht|[Ht|[Ht|[Ht|Ht]]]]; try discriminate Ht. by apply elem_of_nil in Ht.
  - exfalso. exact (proj1 (Forall_forall _ _) (P9 t T ST v33 ext ct top es e1 e2 e3 e5 e6 e8 e9 k PA) _ H).
  - exfalso. apply type_of_coverage in H as (? & ? & ? & ? & H). injection H as _ _ _ H _. rewrite H, (ct_type Coverage) in Hty. injection Hty as Hty. rewrite Hc in Hty. discriminate Hty.
Qed.
(** Every element is below the top-level corpus *)
Lemma reach_corpus : encode_name (ct_name t) = ct_name t → ∀ p i, (i, p) ∈ tree_paths [] t → rtc (λ a b, (part_of_comp, (a, b)) ∈ lg_edges G) (path_name p) (ct_name t).
Proof.
  intros Henc. induction p as [|z q IH] using rev_ind; intros i Hp.
  { exfalso. by destruct (path_names_ok t T ST _ _ Hp) as [H _]. }
  destruct (decide (i = ct_id t)) as [-> |Hi].
  - assert (q ++ [z] = [ct_name t]) as -> by (eapply path_unique; [exact ST|exact Hp|exact (root_in t T ST)]). unfold path_name. cbn. rewrite Henc. apply rtc_refl.
  - assert (below t i (q ++ [z])) as Hb by done. destruct (parent_in t T ST i q z Hb) as [j Hj]. destruct (below_path t _ _ Hb) as (q' & z' & E & Hq). apply app_inj_tail in E as [<- <-].
    eapply rtc_l; [|by eapply IH]. apply part_in; [done|by econstructor|]. intros E. pose proof (path_longer q z Hq) as Hl. rewrite E in Hl. lia.
Qed.
Lemma reach_node r a name val : encode_name (ct_name t) = ct_name t → r ∈ t_nodes T → row_name t r a → text_of v33 T (nr_text r) (nr_corpus r) name val →
  rtc (λ a b, (part_of_comp, (a, b)) ∈ lg_edges G) a (ct_name t).
Proof.
  intros Henc Hr Ha Ht. destruct (node_below t T ST r Hr) as [p Hb].
  assert (rtc (λ a b, (part_of_comp, (a, b)) ∈ lg_edges G) (text_name p name) (ct_name t)) as Hrt.
  { eapply rtc_l; [|eapply reach_corpus; [done|apply Hb]]. apply part_in; [done|by econstructor|]. intros E. pose proof (text_hash p name) as Hh. rewrite E in Hh.
    by apply (corpus_name_no_hash t T ST _ _ (proj1 Hb)) in Hh. }
  destruct (decide (a = text_name p name)) as [-> |Hne]; [done|]. eapply rtc_l; [|exact Hrt]. apply part_in; [done| |done]. econstructor; [done|done|apply Hb|done].
Qed.
(** ** Metadata *)
Lemma corpus_annos_spec i kk : annos !! (i, kk) = annotation (t_cannos T) i kk.
Proof.
  unfold corpus_annos, annotation. rewrite (fill_all (λ r, (ar_id r, AnnoKey (ar_name r) (ar_ns r))) (λ r, default char_max (ar_val r))). rewrite fill_lookup. f_equal.
  clear. induction (t_cannos T) as [|r l IH]; [done|]. cbn [omap list_omap]. rewrite filter_cons. destruct (decide ((ar_id r, AnnoKey (ar_name r) (ar_ns r)) = (i, kk))) as [E|E].
  - injection E as <- <-. rewrite decide_True by done. cbn [fmap list_fmap]. f_equal. exact IH.
  - rewrite decide_False by (intros [<- <-]; by apply E). exact IH.
Qed.
Lemma corpus_labels_of i n kk : omap (label_of n kk) (corpus_labels annos i n) = match annotation (t_cannos T) i kk with Some v => [v] | None => [] end.
Proof.
  rewrite <- corpus_annos_spec. unfold corpus_labels. set (l := sort_list _ _). assert (∀ x, x ∈ l ↔ x.1.1 = i ∧ annos !! x.1 = Some x.2) as Hl.
  { intros [y v]. unfold l. rewrite (sort_list_perm _ _), elem_of_list_filter, elem_of_map_to_list. done. }
  assert (NoDup l) as Hn. { unfold l. rewrite (sort_list_perm _ _). apply NoDup_filter, NoDup_map_to_list. }
  assert (omap (label_of n kk) ((λ x : N * anno_key * bytes, AddNodeLabel n (ak_ns x.1.2) (ak_name x.1.2) x.2) <$> l) =
    omap (λ x : N * anno_key * bytes, if decide (x.1.2 = kk) then Some x.2 else None) l) as ->.
  { clear Hl Hn. clearbody l. induction l as [|[[i0 [nm ns]] v] l IH]; [done|]. cbn [fmap list_fmap omap list_omap label_of fst snd ak_ns ak_name]. rewrite <- IH. destruct (decide (AnnoKey nm ns = kk)) as [E|E].
    - rewrite decide_True by done. done.
    - rewrite decide_False by (by intros [_ ?]). done. }
  destruct (annos !! (i, kk)) as [v|] eqn:E.
  - apply (omap_one _ _ ((i, kk), v)); [done|by apply Hl|cbn; by rewrite decide_True|]. intros [[j kk'] v'] Hy Hne. apply Hl in Hy as [Hj Hy]. cbn in Hj, Hy |- *. subst j. rewrite decide_False; [done|]. intros ->. apply Hne. rewrite E in Hy. by injection Hy as ->.
  - apply omap_none. intros [[j kk'] v'] Hy. apply Hl in Hy as [Hj Hy]. cbn in Hj, Hy |- *. subst j. rewrite decide_False; [done|]. intros ->. rewrite E in Hy. discriminate Hy.
Qed.
Lemma file_labels_none n kk parent d : kk ≠ AnnoKey (str "file") annis_ns → omap (label_of n kk) (file_events ext parent d) = [].
Proof.
  intros Hk. apply omap_none. intros e He. apply file_elem in He as (f & _ & [-> |[-> | ->]]); [done| |done]. cbn. rewrite decide_False; [done|]. intros [_ E]. by apply Hk.
Qed.
Lemma block_other n kk i q z leaf : kk ≠ AnnoKey (str "file") annis_ns → n ≠ path_name (q ++ [z]) → omap (label_of n kk) (block i q z leaf) = [].
Proof.
  intros Hk Hn. unfold block. cbv zeta. rewrite !omap_app, file_labels_none by done.
  assert (omap (label_of n kk) (corpus_labels annos i (path_name (q ++ [z]))) = []) as ->.
  { apply omap_none. intros e He. apply corpus_labels_elem in He as (ns & a & v & ->). cbn. by rewrite decide_False by (intros [? _]; done). }
  destruct leaf; [|done]. cbn. by rewrite decide_False by (intros [? _]; done).
Qed.
Lemma no_row_label n kk l : hash ∉ n → (∀ e, e ∈ l → match e with AddNodeLabel m _ _ _ => hash ∈ m | _ => True end) → omap (label_of n kk) l = [].
Proof.
  intros Hn H. apply omap_none. intros e He. specialize (H e He). destruct e; try done. cbn. rewrite decide_False; [done|]. intros [-> _]. done.
Qed.
Lemma row_hash n : is_row_name t T n → hash ∈ n.
Proof. intros (r & _ & H). by eapply row_name_hash. Qed.
Lemma corpus_es n kk : hash ∉ n → omap (label_of n kk) es = omap (label_of n kk) e4 ++ omap (label_of n kk) e5.
Proof.
  intros Hn. rewrite Hes. rewrite !omap_app.
  rewrite (no_row_label n kk e1 Hn).
  2:{ intros e He. destruct (concat_opt_elem _ _ _ e (pa_e1 _ _ _ _ _ _ _ _ _ _ _ _ _ _ _ PA)) as [H' _]. destruct (H' He) as (r & y & Hr & Hy & He'). destruct (row_name_exists t T ST r Hr) as [m Hm].
      destruct (node_events_elem t T ST ct Hct r m _ Hm Hr ltac:(rewrite Hy; exact He')) as [->|(? & ? & ->)]; [done|]. by eapply row_name_hash. }
  rewrite (no_row_label n kk e2 Hn) by (intros e He; pose proof (proj1 (Forall_forall _ _) (P2 t T ST v33 ext ct top es e1 e2 e3 e5 e6 e8 e9 k PA) _ He) as H; by destruct e).
  rewrite (no_row_label n kk e3 Hn) by (intros e He; pose proof (proj1 (Forall_forall _ _) (P3 t T ST v33 ext ct top es e1 e2 e3 e5 e6 e8 e9 k PA) _ He) as H; destruct e; try done; by apply row_hash).
  rewrite (no_row_label n kk e6 Hn) by (intros e He; pose proof (proj1 (Forall_forall _ _) (P6 t T v33 ext ct top es e1 e2 e3 e5 e6 e8 e9 k PA) _ He) as H; by destruct e).
  rewrite (no_row_label n kk e8 Hn) by (intros e He; pose proof (proj1 (Forall_forall _ _) (P8 t T ST v33 ext ct top es e1 e2 e3 e5 e6 e8 e9 k PA) _ He) as H; by destruct e).
  rewrite (no_row_label n kk e9 Hn) by (intros e He; pose proof (proj1 (Forall_forall _ _) (P9 t T ST v33 ext ct top es e1 e2 e3 e5 e6 e8 e9 k PA) _ He) as H; by destruct e).
  rewrite (no_row_label n kk (coverage_events _ _ _) Hn) by (intros e He; pose proof (proj1 (Forall_forall _ _) (P10 t T ST v33 ext ct top es e1 e2 e3 e5 e6 e8 e9 k PA) _ He) as H; by destruct e).
  rewrite (no_row_label n kk (concat _) Hn) by (intros e He; apply (e7_labels t T ST ct Hct) in He as (m & ? & ? & -> & H & _); by apply row_hash).
  by rewrite !app_nil_r.
Qed.
Lemma e5_labels i q z kk : below t i (q ++ [z]) → kk ≠ AnnoKey (str "file") annis_ns → ∃ pre post doc, CRow i z doc pre post ∈ (tree_rows 0 t).1 ∧
  omap (label_of (path_name (q ++ [z])) kk) e5 = omap (label_of (path_name (q ++ [z])) kk) (block i q z (bool_decide (pre + 1 = post)%N)).
Proof.
  intros Hb Hk. assert (i ∈ (by_key (ct_by_pre ct)).*2) as Hi by (rewrite key_ids; apply elem_of_list_fmap; exists (i, q ++ [z]); split; [done|apply Hb]). apply elem_of_list_fmap in Hi as (x & Ex & Hx).
  destruct (concat_opt_inv _ _ _ He5) as [Hs _]. destruct (Hs x Hx) as [y Hy]. pose proof Hy as Hsh. apply block_shape in Hsh as [(_ & E & _)|(q1 & z1 & pre & post & doc & _ & Hb1 & _ & Hrow & ->)]; [exfalso; apply (proj2 Hb); congruence| |done].
  assert (q1 ++ [z1] = q ++ [z]) as E. { eapply path_unique; [exact ST|apply Hb1|]. rewrite <- Ex. apply Hb. } apply app_inj_tail in E as [-> ->]. rewrite <- Ex in *. exists pre, post, doc. split; [done|].
  rewrite (concat_opt_omap _ _ _ _ He5). rewrite (concat_map_one _ _ x); [by rewrite Hy| |done|].
  - apply (NoDup_fmap_1 snd). rewrite key_ids. apply (sound_ids t T ST).
  - intros w Hw Hne. destruct (Hs w Hw) as [yw Hyw]. rewrite Hyw. cbn [default from_option id]. apply block_shape in Hyw as [(_ & _ & ->)|(q2 & z2 & pre2 & post2 & doc2 & _ & Hb2 & _ & _ & ->)]; [done| |done].
    apply block_other; [done|]. intros E. destruct (corpus_name_inj t T ST _ _ _ _ (proj1 Hb) (proj1 Hb2) E) as [Ei _]. apply Hne.
    assert (NoDup (by_key (ct_by_pre ct)).*2) as Hnd by (rewrite key_ids; apply (sound_ids t T ST)). apply elem_of_list_lookup in Hw as [g Hg], Hx as [h Hh].
    assert (g = h) as ->; [|congruence]. apply (NoDup_lookup _ g h i Hnd); rewrite list_lookup_fmap; [rewrite Hg; cbn; by rewrite Ei|rewrite Hh; cbn; by rewrite Ex].
Qed.
Lemma graph_meta i p kk : below t i p → ak_ns kk ≠ annis_ns → lg_labels G !! (path_name p, kk) = annotation (t_cannos T) i kk.
Proof.
  intros Hb Hk. assert (kk ≠ AnnoKey (str "file") annis_ns) as Hkf by (intros ->; done). rewrite (graph_label t T ST v33 ext Hext ct top es e1 e2 e3 e5 e6 e8 e9 k PA) by (intros ->; by apply Hk).
  rewrite corpus_es by (by eapply corpus_name_no_hash; [exact ST|apply Hb]). destruct (below_path t _ _ Hb) as (q & z & -> & Hq). rewrite e4_eq, !omap_app, file_labels_none by done.
  pose proof (below_longer _ _ Hb) as Hlen. assert (ct_name t ≠ path_name (q ++ [z])) as Hne by (intros E; rewrite E in Hlen; lia).
  assert (omap (label_of (path_name (q ++ [z])) kk) (corpus_labels annos (ct_id t) (ct_name t)) = []) as ->.
  { apply omap_none. intros e He. apply corpus_labels_elem in He as (ns & a & v & ->). cbn. by rewrite decide_False by (by intros [? _]). }
  cbn [omap list_omap label_of]. rewrite decide_False by (by intros [? _]). cbn [app]. destruct (e5_labels i q z kk Hb Hkf) as (pre & post & doc & _ & ->).
  unfold block. cbv zeta. rewrite !omap_app, file_labels_none, corpus_labels_of by done. assert (omap (label_of (path_name (q ++ [z])) kk) (if bool_decide (pre + 1 = post)%N then [AddNodeLabel (path_name (q ++ [z])) annis_ns (str "doc") z] else []) = []) as ->.
  { destruct (bool_decide _); [|done]. cbn. rewrite decide_False; [done|]. intros [_ <-]. done. }
  cbn. rewrite !app_nil_r. by destruct (annotation _ _ _).
Qed.
Lemma graph_doc i q z doc cs : below t i (q ++ [z]) → subtree t (CT i z doc cs) →
  lg_labels G !! (path_name (q ++ [z]), AnnoKey (str "doc") annis_ns) =
    match annotation (t_cannos T) i (AnnoKey (str "doc") annis_ns) with Some v => Some v | None => if decide (cs = []) then Some z else None end.
Proof.
  intros Hb Hsub. set (kk := AnnoKey (str "doc") annis_ns). assert (kk ≠ AnnoKey (str "file") annis_ns) as Hkf by discriminate.
  rewrite (graph_label t T ST v33 ext Hext ct top es e1 e2 e3 e5 e6 e8 e9 k PA) by discriminate. destruct (below_path t _ _ Hb) as (q' & z' & E & Hq). apply app_inj_tail in E as [<- <-].
  rewrite corpus_es by (by eapply corpus_name_no_hash; [exact ST|apply Hb]). rewrite e4_eq, !omap_app, file_labels_none by done.
  pose proof (below_longer _ _ Hb) as Hlen. assert (ct_name t ≠ path_name (q ++ [z])) as Hne by (intros E; rewrite E in Hlen; lia).
  assert (omap (label_of (path_name (q ++ [z])) kk) (corpus_labels annos (ct_id t) (ct_name t)) = []) as ->.
  { apply omap_none. intros e He. apply corpus_labels_elem in He as (ns & a & v & ->). cbn. by rewrite decide_False by (by intros [? _]). }
  cbn [omap list_omap label_of]. rewrite decide_False by (by intros [? _]). cbn [app]. destruct (e5_labels i q z kk Hb Hkf) as (pre & post & doc' & Hrow & ->).
  destruct (leaf_row t i z doc cs 0%N Hsub) as (pre' & post' & Hrow' & Hleaf).
  assert (pre' = pre ∧ post' = post) as [-> ->].
  { destruct (rows_eq t T ST) as (rs & m & Er & _ & Hn & _). rewrite Er in Hrow, Hrow'. cbn in Hrow, Hrow'. apply elem_of_list_lookup in Hrow as [g Hg], Hrow' as [h Hh].
    assert (g = h) as ->; [apply (NoDup_lookup (cr_id <$> rs) g h i Hn); rewrite list_lookup_fmap; [by rewrite Hg|by rewrite Hh]|]. rewrite Hg in Hh. by injection Hh as <- <- <-. }
  unfold block. cbv zeta. rewrite !omap_app, file_labels_none, corpus_labels_of by done. cbn [omap list_omap label_of part_of app]. rewrite app_nil_r.
  destruct (decide (cs = [])) as [Hcs|Hcs].
  - rewrite bool_decide_true by (symmetry; by apply Hleaf). cbn [omap list_omap label_of]. rewrite decide_True by done. by destruct (annotation _ _ _).
  - rewrite bool_decide_false by (intros E; apply Hcs, Hleaf; done). cbn. by destruct (annotation _ _ _).
Qed.
Lemma graph_top_meta kk : ak_ns kk ≠ annis_ns → lg_labels G !! (ct_name t, kk) = annotation (t_cannos T) (ct_id t) kk.
Proof.
  intros Hk. assert (kk ≠ AnnoKey (str "file") annis_ns) as Hkf by (intros ->; done). rewrite (graph_label t T ST v33 ext Hext ct top es e1 e2 e3 e5 e6 e8 e9 k PA) by (intros ->; by apply Hk).
  rewrite corpus_es by (by eapply top_no_hash). rewrite e4_eq, !omap_app, file_labels_none, corpus_labels_of by done. cbn [omap list_omap label_of]. rewrite decide_False by (intros [_ <-]; done). cbn [app].
  assert (omap (label_of (ct_name t) kk) e5 = []) as ->.
  { apply omap_none. intros e He. apply e5_elem in He as (i & q & z & pre & post & doc & Hb & _ & _ & He). pose proof (block_other (ct_name t) kk i q z (bool_decide (pre + 1 = post)%N) Hkf) as Ho.
    pose proof (below_longer _ _ Hb) as Hlen. specialize (Ho ltac:(intros E; rewrite E in Hlen; lia)). destruct (label_of (ct_name t) kk e) as [v|] eqn:E; [|done]. exfalso.
    assert (v ∈ omap (label_of (ct_name t) kk) (block i q z (bool_decide (pre + 1 = post)%N))) as Hv by (apply elem_of_list_omap; by exists e). rewrite Ho in Hv. by apply elem_of_nil in Hv. }
  rewrite !app_nil_r. by destruct (annotation _ _ _).
Qed.
End graph.
