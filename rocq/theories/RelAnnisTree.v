(** Names of corpora from the numbers in the corpus table. *)
From Coq Require Import NArith String Lia.
From stdpp Require Import base list gmap sorting.
From Verif Require Import KeySer KeySerSpec SortedMap Types CompPath RelAnnis RelAnnisSpec RelAnnisMaps ListExtra.

Section ctree_ind.
Context (P : ctree → Prop) (H : ∀ id name doc cs, Forall P cs → P (CT id name doc cs)).
Fixpoint ctree_ind' (t : ctree) : P t :=
  let 'CT id name doc cs := t in
  H id name doc cs ((fix go l : Forall P l := match l with [] => List.Forall_nil _ | t :: l => @List.Forall_cons _ _ t l (ctree_ind' t) (go l) end) cs).
End ctree_ind.

Fixpoint forest_rows (n : N) (l : list ctree) : list crow * N :=
  match l with
  | [] => ([], n)
  | t :: l => let '(a, n1) := tree_rows n t in let '(b, n2) := forest_rows n1 l in (a ++ b, n2)
  end.
Lemma tree_rows_unfold n id name doc cs : tree_rows n (CT id name doc cs) =
  let '(rs, m) := forest_rows (n + 1)%N cs in (CRow id name doc n m :: rs, (m + 1)%N).
Proof.
  cbn [tree_rows]. assert (∀ k, (fix go n l := match l with
                                 | [] => ([], n)
                                 | t :: l => let '(a, n1) := tree_rows n t in let '(b, n2) := go n1 l in (a ++ b, n2)
                                 end) k cs = forest_rows k cs) as ->; [|reflexivity].
  induction cs as [|t l IH]; intros k; [reflexivity|]. cbn [forest_rows]. destruct (tree_rows k t) as [a n1]. by rewrite IH.
Qed.
Definition rows_in (n m : N) (rs : list crow) : Prop :=
  Forall (λ r, n <= cr_pre r ∧ cr_pre r < cr_post r ∧ cr_post r < m)%N rs ∧ StronglySorted (λ a b, cr_pre a < cr_pre b)%N rs.
(** The rows of the nodes above a node *)
Definition above_rows (rs : list crow) (r : crow) : list crow := filter (λ x, (cr_pre x < cr_pre r)%N ∧ (cr_post r < cr_post x)%N) rs.

Definition tree_ok (t : ctree) : Prop := ∀ n rs m, tree_rows n t = (rs, m) → (n < m)%N ∧ rows_in n m rs ∧
  ∀ above, cr_id <$> rs = (tree_paths above t).*1 ∧
  ∀ i p, (i, p) ∈ tree_paths above t → ∃ r, r ∈ rs ∧ cr_id r = i ∧ above ++ (cr_name <$> above_rows rs r) ++ [cr_name r] = p.
Lemma sorted_app_lt l1 l2 k n m : rows_in n k l1 → rows_in k m l2 → (n <= k)%N → (k <= m)%N → rows_in n m (l1 ++ l2).
Proof.
  intros [F1 S1] [F2 S2] Hn Hm. split.
  - apply Forall_app. split; eapply Forall_impl; [exact F1| |exact F2|]; cbn; intros; lia.
  - induction S1 as [|a l S1 IH Ha]; [done|]. apply Forall_cons in F1 as [F0 F1]. cbn. constructor; [by apply IH|]. apply Forall_app. split; [done|].
    eapply Forall_impl; [exact F2|]. cbn. intros; lia.
Qed.
Lemma forest_ok l : Forall tree_ok l → ∀ n rs m, forest_rows n l = (rs, m) → (n <= m)%N ∧ rows_in n m rs ∧
  ∀ above, cr_id <$> rs = (concat (map (tree_paths above) l)).*1 ∧
  ∀ i p, (i, p) ∈ concat (map (tree_paths above) l) → ∃ r, r ∈ rs ∧ cr_id r = i ∧ above ++ (cr_name <$> above_rows rs r) ++ [cr_name r] = p.
Proof.
  induction l as [|t l IH]; intros Hl n rs m E; cbn [forest_rows] in E.
  - injection E as <- <-. split; [lia|]. split; [split; constructor|]. intros above. split; [reflexivity|]. intros i p Hp. by apply elem_of_nil in Hp.
  - apply Forall_cons in Hl as [Ht Hl]. destruct (tree_rows n t) as [a n1] eqn:Ea. destruct (forest_rows n1 l) as [b n2] eqn:Eb. injection E as <- <-.
    destruct (Ht _ _ _ Ea) as (A1 & A2 & A3). destruct (IH Hl _ _ _ Eb) as (B1 & B2 & B3). split; [lia|].
    assert (rows_in n n2 (a ++ b)) as Hab by (eapply sorted_app_lt; [exact A2|exact B2|lia|lia]). split; [exact Hab|].
    destruct A2 as [A2 _], B2 as [B2 _]. rewrite Forall_forall in A2, B2.
    intros above. destruct (A3 above) as [A4 A5]. destruct (B3 above) as [B4 B5]. cbn [map concat]. split; [by rewrite !fmap_app, A4, B4|].
    intros i p Hp. apply elem_of_app in Hp as [Hp|Hp].
    + destruct (A5 i p Hp) as (r & Hr & Hi & Hn). exists r. split; [apply elem_of_app; by left|]. split; [done|]. unfold above_rows. rewrite filter_app.
      rewrite (list_filter_none _ b); [by rewrite app_nil_r|]. intros x Hx [H1 H2]. specialize (A2 r Hr). specialize (B2 x Hx). cbn in A2, B2. lia.
    + destruct (B5 i p Hp) as (r & Hr & Hi & Hn). exists r. split; [apply elem_of_app; by right|]. split; [done|]. unfold above_rows. rewrite filter_app.
      rewrite (list_filter_none _ a); [done|]. intros x Hx [H1 H2]. specialize (A2 x Hx). specialize (B2 r Hr). cbn in A2, B2. lia.
Qed.
Lemma tree_ok_all t : tree_ok t.
Proof.
  induction t as [id name doc cs Hcs] using ctree_ind'. intros n rs m E. rewrite tree_rows_unfold in E. destruct (forest_rows (n + 1) cs) as [fs k] eqn:Ef.
  injection E as <- <-. destruct (forest_ok cs Hcs _ _ _ Ef) as (F1 & [F2 F2'] & F3). split; [lia|]. split.
  - split.
    + constructor; [cbn; lia|]. eapply Forall_impl; [exact F2|]. cbn. intros; lia.
    + constructor; [done|]. eapply Forall_impl; [exact F2|]. cbn. intros; lia.
  - rewrite Forall_forall in F2. intros above. destruct (F3 (above ++ [name])) as [F4 F5]. cbn [tree_paths]. split; [cbn; by rewrite F4|].
    intros i p Hp. apply elem_of_cons in Hp as [Hp|Hp].
    + injection Hp as -> ->. eexists. split; [left|]. split; [reflexivity|]. unfold above_rows. rewrite list_filter_none; [done|].
      intros x Hx [H1 H2]. apply elem_of_cons in Hx as [-> |Hx]; [cbn in H1; lia|]. specialize (F2 x Hx). cbn in *. lia.
    + destruct (F5 i p Hp) as (r & Hr & Hi & Hn). exists r. split; [by right|]. split; [done|]. unfold above_rows. specialize (F2 r Hr). cbn in F2.
      rewrite filter_cons_True by (cbn; lia). rewrite fmap_cons. cbn [cr_name]. rewrite <- Hn. unfold above_rows. by rewrite <- !(assoc_L (++)).
Qed.

(** ** The table *)
Lemma rename_id rs : ∀ seen, NoDup (cr_name <$> filter (λ r, cr_doc r = true) rs) →
  (∀ r, r ∈ rs → cr_doc r = true → seen !! cr_name r = None) → rename_documents seen rs = rs.
Proof.
  induction rs as [|r rs IH]; intros seen Hn Hs; [reflexivity|]. cbn [rename_documents]. destruct (cr_doc r) eqn:Ed.
  - rewrite filter_cons_True in Hn by done. cbn in Hn. apply NoDup_cons in Hn as [Hr Hn]. rewrite (Hs r) by (done || left). cbn.
    f_equal. apply IH; [done|]. intros x Hx Hd. rewrite lookup_insert_ne; [apply Hs; [by right|done]|]. intros E. apply Hr. rewrite E.
    apply elem_of_list_fmap. exists x. split; [done|]. apply elem_of_list_filter. done.
  - rewrite filter_cons_False in Hn by (by rewrite Ed). f_equal. apply IH; [done|]. intros x Hx. apply Hs. by right.
Qed.
Lemma by_key_entries {V} (m : gmap N V) : by_key m = entries N.compare m.
Proof. reflexivity. Qed.

(** Tables which are numbered like a tree, with rows in any order *)
Lemma corpus_table_of_tree t rs m rows : tree_rows 0 t = (rs, m) → rows ≡ₚ rs → NoDup (cr_id <$> rs) →
  NoDup (cr_name <$> filter (λ r, cr_doc r = true) rs) →
  ∃ ct, corpus_table rows = Some ct ∧ ct_top ct = ct_name t ∧
    (∀ r, r ∈ rs → ct_by_id ct !! cr_id r = Some (CEntry (cr_pre r) (cr_post r) (cr_name r) (encode_name (cr_name r)))) ∧
    by_key (ct_by_pre ct) = (λ r, (cr_pre r, cr_id r)) <$> rs ∧
    (∀ i e, ct_by_id ct !! i = Some e → ∃ r, r ∈ rs ∧ cr_id r = i ∧ e = CEntry (cr_pre r) (cr_post r) (cr_name r) (encode_name (cr_name r))).
Proof.
  intros Et Hp Hid Hdoc. destruct (tree_ok_all t _ _ _ Et) as (_ & [HF HS] & _).
  assert (rename_documents ∅ rows = rows) as Er.
  { apply rename_id; [by rewrite Hp|]. intros r _ _. apply lookup_empty. }
  unfold corpus_table. rewrite Er. cbv zeta.
  rewrite (fill_all cr_id (λ r, CEntry (cr_pre r) (cr_post r) (cr_name r) (encode_name (cr_name r)))), (fill_all cr_pre cr_id).
  set (by_pre := fill (λ r, Some (cr_pre r, cr_id r)) _ _). set (by_id := fill _ _ _).
  assert (∀ i e, by_id !! i = Some e ↔ ∃ r, r ∈ rs ∧ i = cr_id r ∧ e = CEntry (cr_pre r) (cr_post r) (cr_name r) (encode_name (cr_name r))) as Hby.
  { intros i e. unfold by_id. rewrite fill_unique.
    - split; intros (r & H1 & H2); exists r.
      + rewrite <- Hp. injection H2 as <- <-. done.
      + rewrite Hp. destruct H2 as [-> ->]. done.
    - assert ((omap (λ r, Some (cr_id r, CEntry (cr_pre r) (cr_post r) (cr_name r) (encode_name (cr_name r)))) rows).*1 = cr_id <$> rows) as ->.
      { clear. induction rows as [|r rows IH]; [reflexivity|]. cbn. by rewrite IH. }
      by rewrite Hp. }
  assert (by_key by_pre = (λ r, (cr_pre r, cr_id r)) <$> rs) as Epre.
  { rewrite by_key_entries. apply entries_unique; [apply _| |].
    - clear -HS. induction HS as [|a l HS IH Ha]; [constructor|]. cbn. constructor; [done|]. apply Forall_fmap. eapply Forall_impl; [exact Ha|].
      cbn. intros x Hx. unfold klt. cbn. by apply N.compare_lt_iff.
    - intros [k v]. cbn. unfold by_pre. rewrite fill_unique.
      + rewrite elem_of_list_fmap. split; intros (r & H1 & H2); exists r; rewrite <- ?Hp in *; rewrite ?Hp in *.
        * injection H1 as -> ->. done.
        * injection H2 as -> ->. done.
      + assert ((omap (λ r, Some (cr_pre r, cr_id r)) rows).*1 = cr_pre <$> rows) as ->.
        { clear. induction rows as [|r rows IH]; [reflexivity|]. cbn. by rewrite IH. }
        rewrite Hp. apply (strict_sorted_nodup N.lt); [lia|]. clear -HS. induction HS as [|a l HS IH Ha]; [constructor|]. cbn. constructor; [done|].
        by apply Forall_fmap. }
  destruct t as [id name doc cs]. rewrite tree_rows_unfold in Et. destruct (forest_rows (0 + 1) cs) as [fs k]. injection Et as <- <-.
  rewrite Epre. cbn [fmap list_fmap cr_id cr_pre].
  assert (by_id !! id = Some (CEntry 0 k name (encode_name name))) as Etop by (apply Hby; eexists; split; [left|done]).
  rewrite Etop. eexists. split; [reflexivity|]. split; [reflexivity|]. cbn [ct_by_id ct_by_pre]. split; [|split].
  - intros r Hr. apply Hby. by exists r.
  - rewrite Epre. reflexivity.
  - intros i e He. apply Hby in He as (r & H1 & H2 & H3). by exists r.
Qed.
Lemma ancestors_of rs (by_id : gmap N centry) r :
  (∀ x, x ∈ rs → by_id !! cr_id x = Some (CEntry (cr_pre x) (cr_post x) (cr_name x) (encode_name (cr_name x)))) →
  ce_norm <$> filter (λ p, (cr_post r < ce_post p)%N)
    (omap (λ x : N * N, by_id !! x.2) (filter (λ x : N * N, (x.1 < cr_pre r)%N) ((λ x, (cr_pre x, cr_id x)) <$> rs))) =
  encode_name <$> (cr_name <$> above_rows rs r).
Proof.
  induction rs as [|x rs IH]; intros Hb; [reflexivity|]. specialize (IH (λ y Hy, Hb y (elem_of_list_further _ _ _ Hy))).
  specialize (Hb x (elem_of_list_here _ _)). unfold above_rows in *. rewrite fmap_cons. destruct (decide (cr_pre x < cr_pre r)%N) as [H1|H1].
  - rewrite filter_cons_True by done. cbn [omap list_omap]. cbn [snd]. rewrite Hb. destruct (decide (cr_post r < cr_post x)%N) as [H2|H2].
    + rewrite filter_cons_True by done. rewrite (filter_cons_True _ x) by done. cbn [fmap list_fmap ce_norm]. by rewrite IH.
    + rewrite filter_cons_False by done. rewrite (filter_cons_False _ x) by (intros [? ?]; done). done.
  - rewrite filter_cons_False by done. rewrite (filter_cons_False _ x) by (intros [? ?]; done). done.
Qed.
Lemma join_slash_snoc l x : l ≠ [] → join_slash (l ++ [x]) = join_slash l ++ [slash] ++ x.
Proof.
  induction l as [|y l IH]; intros Hl; [done|]. destruct l as [|z l]; [reflexivity|]. change (join_slash ((y :: z :: l) ++ [x])) with (y ++ [slash] ++ join_slash ((z :: l) ++ [x])).
  rewrite IH by done. change (join_slash (y :: z :: l)) with (y ++ [slash] ++ join_slash (z :: l)). by rewrite <- !(assoc_L (++)).
Qed.
Lemma root_path t above i p : (i, p) ∈ tree_paths above t → (i = ct_id t ∧ p = above ++ [ct_name t]) ∨ ∃ q, q ≠ [] ∧ p = above ++ [ct_name t] ++ q.
Proof.
  revert above i p. induction t as [id name doc cs Hcs] using ctree_ind'. intros above i p Hp. cbn [tree_paths] in Hp.
  apply elem_of_cons in Hp as [Hp|Hp]; [left; by injection Hp as -> ->|right].
  apply elem_of_list_In in Hp. apply in_concat in Hp as (l & Hl & Hp). apply in_map_iff in Hl as (c & <- & Hc).
  rewrite Forall_forall in Hcs. apply elem_of_list_In in Hc, Hp. destruct (Hcs c Hc _ _ _ Hp) as [[-> ->]|(q & Hq & ->)].
  - exists [ct_name c]. split; [done|]. cbn. by rewrite <- (assoc_L (++)).
  - exists ([ct_name c] ++ q). split; [done|]. cbn. by rewrite <- (assoc_L (++)).
Qed.
Lemma tree_path_names t rs m rows i p : tree_rows 0 t = (rs, m) → rows ≡ₚ rs → NoDup (cr_id <$> rs) →
  NoDup (cr_name <$> filter (λ r, cr_doc r = true) rs) → (i, p) ∈ tree_paths [] t →
  ∃ ct q x, corpus_table rows = Some ct ∧ ct_top ct = ct_name t ∧ p = q ++ [x] ∧
    parent_path ct i = Some (path_name q) ∧ corpus_path ct i = Some (path_name q ++ [slash] ++ encode_name x) ∧
    (p ≠ [ct_name t] → corpus_path ct i = Some (path_name p)).
Proof.
  intros Et Hp Hid Hdoc Hin. destruct (corpus_table_of_tree t rs m rows Et Hp Hid Hdoc) as (ct & E1 & E2 & E3 & E4 & _).
  destruct (tree_ok_all t _ _ _ Et) as (_ & _ & Ht). destruct (Ht []) as [_ Hpaths]. destruct (Hpaths i p Hin) as (r & Hr & Hi & Hn). cbn in Hn.
  assert (parent_path ct i = Some (path_name (cr_name <$> above_rows rs r))) as Epp.
  { unfold parent_path. rewrite <- Hi, (E3 r Hr). cbn [ce_post ce_pre]. rewrite E4. unfold path_name. f_equal. f_equal. by apply ancestors_of. }
  assert (corpus_path ct i = Some (path_name (cr_name <$> above_rows rs r) ++ [slash] ++ encode_name (cr_name r))) as Ecp.
  { unfold corpus_path. rewrite Epp. rewrite <- Hi, (E3 r Hr). reflexivity. }
  exists ct, (cr_name <$> above_rows rs r), (cr_name r). split; [done|]. split; [done|]. split; [done|]. split; [done|]. split; [done|].
  intros Hne. rewrite Ecp, <- Hn. f_equal. unfold path_name. rewrite fmap_app. cbn [fmap list_fmap]. rewrite join_slash_snoc; [done|].
  intros E. apply fmap_nil_inv in E. rewrite E in Hn. cbn in Hn.
  destruct (root_path t [] i p Hin) as [[_ ->]|(q & Hq & ->)]; [done|]. cbn in Hn. injection Hn as Hn1 Hn2. by apply Hq.
Qed.
