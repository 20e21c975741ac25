(** The tokens a node covers. *)
From Coq Require Import NArith String Lia.
From stdpp Require Import base list gmap sorting.
From Verif Require Import KeySer KeySerSpec SortedMap Types CompPath GraphUpdate GraphApply GraphApplySpec RelAnnis RelAnnisSpec RelAnnisMaps RelAnnisTree
  RelAnnisNames RelAnnisRun RelAnnisParts RelAnnisGraph RelAnnisEdges RelAnnisOrder ListExtra.

Lemma fill_by {A K V} `{Countable K} (f : A → option (K * V)) (g : A → option K) l k v :
  NoDup (omap g l) → (∀ r k v, f r = Some (k, v) → g r = Some k) → fill f ∅ l !! k = Some v ↔ ∃ r, r ∈ l ∧ f r = Some (k, v).
Proof.
  intros Hn Hg. apply fill_unique. clear k v. induction l as [|r l IH]; [constructor|]. cbn in *.
  assert (∀ k, k ∈ (omap f l).*1 → k ∈ omap g l) as Hsub.
  { intros k Hk. apply elem_of_list_fmap in Hk as ([k' v] & -> & Hk). apply elem_of_list_omap in Hk as (r' & Hr' & Hf). apply elem_of_list_omap. exists r'. split; [done|]. by eapply Hg. }
  destruct (f r) as [[k v]|] eqn:Ef.
  - rewrite (Hg _ _ _ Ef) in Hn. apply NoDup_cons in Hn as [H1 H2]. cbn. constructor; [|by apply IH]. intros Hk. by apply H1, Hsub.
  - apply IH. destruct (g r); [|done]. by apply NoDup_cons in Hn as [_ Hn].
Qed.
Lemma omap_filter {A B} (P : A → Prop) `{∀ x, Decision (P x)} (f : A → B) (l : list A) : omap (λ x, if decide (P x) then Some (f x) else None) l = f <$> filter P l.
Proof. induction l as [|x l IH]; [done|]. cbn [omap list_omap]. rewrite filter_cons. destruct (decide (P x)); cbn [fmap list_fmap]; by rewrite <- IH. Qed.
Lemma by_key_elem {V} (m : gmap N V) x : x ∈ by_key m ↔ m !! x.1 = Some x.2.
Proof. rewrite by_key_entries. apply entries_elem. Qed.
Lemma range_elem i j h : h ∈ range_incl i j ↔ (i <= h <= j)%N.
Proof.
  unfold range_incl. rewrite elem_of_list_fmap. setoid_rewrite elem_of_seq. split.
  - intros (k & -> & H). lia.
  - intros H. exists (N.to_nat (h - i)). lia.
Qed.
Lemma range_cons i j : (i <= j)%N → range_incl i j = i :: range_incl (i + 1) j.
Proof.
  intros H. unfold range_incl. assert (N.to_nat (j + 1 - i) = S (N.to_nat (j + 1 - (i + 1)))) as -> by lia. cbn [seq fmap list_fmap]. f_equal; [lia|].
  rewrite <- fmap_S_seq, <- list_fmap_compose. apply list_fmap_ext. intros k. cbn. lia.
Qed.
Lemma range_nil i j : (j < i)%N → range_incl i j = [].
Proof. intros H. unfold range_incl. assert (N.to_nat (j + 1 - i) = 0) as -> by lia. done. Qed.

Section graph.
Context (t : ctree) (T : tables) (ST : sound_tables t T) (SR : sound_ranks T) (SK : sound_tokens T) (v33 : bool) (ext : option bytes → list (bytes * bytes)) (Hext : ∀ d f, f ∈ ext d → hash ∉ f.1).
Context (ct : ctable) (top : bytes) (es e1 e2 e3 e5 e6 e8 e9 : list event) (k : ranks) (PA : parts t T v33 ext ct top es e1 e2 e3 e5 e6 e8 e9 k).
Local Notation names := (id_to_name ct (t_nodes T)).
Local Notation G := (lg_run annis_ctype lg_empty es).
Let named_iff := names_named t T ST v33 ext ct top es e1 e2 e3 e5 e6 e8 e9 k PA.
Let Hct := pa_table _ _ _ _ _ _ _ _ _ _ _ _ _ _ _ PA.
(** ** The maps *)
Lemma nodup_ids : NoDup (omap (λ r : nrow, Some (nr_id r)) (t_nodes T)).
Proof. pose proof (st_node_ids _ _ ST) as H. assert (omap (λ r : nrow, Some (nr_id r)) (t_nodes T) = nr_id <$> t_nodes T) as ->; [|done]. clear. induction (t_nodes T) as [|r l IH]; [done|]. cbn. by rewrite IH. Qed.
Lemma node_to_spec f r : r ∈ t_nodes T → node_to f (t_nodes T) !! nr_id r = Some (pos_of r (f r)).
Proof. intros Hr. unfold node_to. rewrite (fill_all nr_id (λ r, pos_of r (f r))). apply (fill_by _ (λ r, Some (nr_id r))); [apply nodup_ids|intros ? ? ? H; by injection H as ->|by exists r]. Qed.
Lemma node_to_only f i p : node_to f (t_nodes T) !! i = Some p → ∃ r, r ∈ t_nodes T ∧ nr_id r = i ∧ p = pos_of r (f r).
Proof. unfold node_to. rewrite (fill_all nr_id (λ r, pos_of r (f r))). intros H. apply fill_Some in H as (r & Hr & H). injection H as <- <-. by exists r. Qed.
Lemma to_index_spec i p : token_to_index (t_nodes T) !! i = Some p ↔ ∃ r m, r ∈ t_nodes T ∧ nr_id r = i ∧ token_index r = Some m ∧ p = pos_of r m.
Proof.
  unfold token_to_index. rewrite (fold_fill _ (λ r, match token_index r with Some m => Some (nr_id r, pos_of r m) | None => None end)) by (intros m r; unfold token_index; by destruct (nr_kind r)).
  rewrite (fill_by _ (λ r, Some (nr_id r))); [|apply nodup_ids|intros r q v H; destruct (token_index r); [by injection H as -> _|done]]. split.
  - intros (r & Hr & H). destruct (token_index r) as [m|] eqn:E; [|done]. injection H as <- <-. by exists r, m.
  - intros (r & m & Hr & <- & E & ->). exists r. by rewrite E.
Qed.
Lemma token_by_spec f p i : NoDup ((λ r, (nr_corpus r, nr_text r, f r)) <$> filter (λ r, is_Some (token_index r)) (t_nodes T)) →
  token_by f (t_nodes T) !! p = Some i ↔ ∃ r, r ∈ t_nodes T ∧ is_Some (token_index r) ∧ p = pos_of r (f r) ∧ nr_id r = i.
Proof.
  intros Hn. unfold token_by.
  rewrite (fold_fill _ (λ r, if decide (is_Some (token_index r)) then Some (pos_of r (f r), nr_id r) else None))
    by (intros m r; unfold token_index; destruct (nr_kind r); [rewrite decide_True by (by eexists); done|rewrite decide_False by (by intros [? ?]); done|rewrite decide_False by (by intros [? ?]); done]).
  rewrite (fill_by _ (λ r, if decide (is_Some (token_index r)) then Some (pos_of r (f r)) else None)).
  - split.
    + intros (r & Hr & H). case_decide; [|done]. injection H as <- <-. by exists r.
    + intros (r & Hr & Hs & -> & <-). exists r. by rewrite decide_True.
  - rewrite omap_filter. exact Hn.
  - intros r q v H. case_decide; [|done]. by injection H as -> _.
Qed.
Lemma token_by_aligned f r i : NoDup ((λ r, (nr_corpus r, nr_text r, f r)) <$> filter (λ r, is_Some (token_index r)) (t_nodes T)) →
  token_by f (t_nodes T) !! pos_of r (f r) = Some i ↔ ∃ u, aligned T f r u ∧ nr_id u = i.
Proof.
  intros Hn. rewrite token_by_spec by done. unfold aligned, in_same_text, pos_of. split.
  - intros (u & Hu & Hs & E & <-). injection E as -> -> ->. by exists u.
  - intros (u & (Hu & Hs & [E1 E2] & E3) & <-). exists u. by rewrite E1, E2, E3.
Qed.
Lemma index_token r h tok : token_by_index (t_nodes T) !! ([], (nr_corpus r, nr_text r, h)) = Some tok ↔
  ∃ y, y ∈ t_nodes T ∧ in_same_text r y ∧ token_index y = Some h ∧ nr_id y = tok.
Proof.
  rewrite (index_spec T (sk_index _ SK)). unfold in_same_text. split.
  - intros (y & Hy & Hk & <-). exists y. unfold order_key in Hk. unfold token_index. destruct (nr_kind y) as [i s|s i v|] eqn:E; [by injection Hk as -> -> ->| |done].
    exfalso. injection Hk as -> _ _ _. pose proof (proj1 (Forall_forall _ _) (sk_seg _ SK) _ Hy) as H. by apply (H [] i v).
  - intros (y & Hy & [-> ->] & Hk & <-). exists y. unfold token_index in Hk. unfold order_key. destruct (nr_kind y); try done. by injection Hk as ->.
Qed.
(** ** The edges of a node *)
Definition new_comp (n : N) : bytes * bytes :=
  if decide (Exists (λ e : N * N, e.1 = n) (elements (rk_coverage k))) then (annis_ns, str "autogenerated-coverage")
  else match rk_parentless k !! n with Some c => (c.1.2, c.2) | None => ([], []) end.
Lemma loop_elem r i j : r ∈ t_nodes T → token_index r = None → ∀ e, e ∈ coverage_loop names (token_by_index (t_nodes T)) k (nr_id r) (nr_corpus r) (nr_text r) (range_incl i j) ↔
  ∃ x m a b, x ∈ t_nodes T ∧ in_same_text r x ∧ token_index x = Some m ∧ (i <= m <= j)%N ∧ (∀ h, (i <= h <= m)%N → ∃ y, y ∈ t_nodes T ∧ in_same_text r y ∧ token_index y = Some h) ∧
    (nr_id r, nr_id x) ∉ rk_coverage k ∧ row_name t r a ∧ row_name t x b ∧
    e = GraphUpdate.AddEdge a b (new_comp (nr_id r)).1 (actype_name Coverage) (new_comp (nr_id r)).2.
Proof.
  intros Hr Hk e. remember (N.to_nat (j + 1 - i)) as d eqn:Ed. revert i Ed. induction d as [|d IH]; intros i Ed.
  - rewrite range_nil by lia. cbn. split; [intros H; by apply elem_of_nil in H|]. intros (x & m & a & b & _ & _ & _ & H & _). lia.
  - rewrite range_cons by lia. cbn [coverage_loop]. specialize (IH (i + 1)%N ltac:(lia)).
    destruct (token_by_index _ !! _) as [tok|] eqn:Et.
    + pose proof Et as Et'. apply index_token in Et' as (y & Hy & Hs & Hi & <-).
      assert ((∃ x m a b, x ∈ t_nodes T ∧ in_same_text r x ∧ token_index x = Some m ∧ (i <= m <= j)%N ∧ (∀ h, (i <= h <= m)%N → ∃ y, y ∈ t_nodes T ∧ in_same_text r y ∧ token_index y = Some h) ∧
          (nr_id r, nr_id x) ∉ rk_coverage k ∧ row_name t r a ∧ row_name t x b ∧
          e = GraphUpdate.AddEdge a b (new_comp (nr_id r)).1 (actype_name Coverage) (new_comp (nr_id r)).2) ↔
        (∃ a b, (nr_id r, nr_id y) ∉ rk_coverage k ∧ row_name t r a ∧ row_name t y b ∧ e = GraphUpdate.AddEdge a b (new_comp (nr_id r)).1 (actype_name Coverage) (new_comp (nr_id r)).2) ∨
        e ∈ coverage_loop names (token_by_index (t_nodes T)) k (nr_id r) (nr_corpus r) (nr_text r) (range_incl (i + 1) j)) as ->.
      { rewrite IH. split.
        - intros (x & m & a & b & Hx & Hxs & Hm & Hb & Hg & Hrest). destruct (decide (m = i)) as [-> |Hmi].
          + left. exists a, b. assert (x = y) as <-; [|done]. apply (key_unique T (st_node_ids _ _ ST) (sk_index _ SK) x y ([], (nr_corpus r, nr_text r, i)) Hx Hy).
            * unfold order_key, token_index in *. destruct Hxs as [-> ->]. destruct (nr_kind x); try done. by injection Hm as ->.
            * unfold order_key, token_index in *. destruct Hs as [-> ->]. destruct (nr_kind y); try done. by injection Hi as ->.
          + right. exists x, m, a, b. split; [done|]. split; [done|]. split; [done|]. split; [lia|]. split; [|done]. intros h Hh. apply Hg. lia.
        - intros [(a & b & Hrest)|(x & m & a & b & Hx & Hxs & Hm & Hb & Hg & Hrest)].
          + exists y, i, a, b. split; [done|]. split; [done|]. split; [done|]. split; [lia|]. split; [|done]. intros h Hh. assert (h = i) as -> by lia. by exists y.
          + exists x, m, a, b. split; [done|]. split; [done|]. split; [done|]. split; [lia|]. split; [|done]. intros h Hh. destruct (decide (h = i)) as [-> |Hhi]; [by exists y|]. apply Hg. lia. }
      destruct (decide (nr_id r = nr_id y ∨ (nr_id r, nr_id y) ∈ rk_coverage k)) as [Hd|Hd].
      * split; [by right|]. intros [(a & b & Hn & _)|H]; [|done]. exfalso. destruct Hd as [E|Hd]; [|done]. assert (r = y) as -> by (by eapply node_row_unique). congruence.
      * cbv zeta. fold (new_comp (nr_id r)). destruct (row_name_exists t T ST r Hr) as [a Ha]. destruct (row_name_exists t T ST y Hy) as [b Hb].
        assert (names !! nr_id r = Some a) as -> by (apply named_iff; by exists r). assert (names !! nr_id y = Some b) as -> by (apply named_iff; by exists y).
        rewrite elem_of_cons. split.
        -- intros [-> |H]; [left|by right]. exists a, b. split; [|done]. intros H. apply Hd. by right.
        -- intros [(a' & b' & _ & Ha' & Hb' & ->)|H]; [left|by right]. assert (a' = a) as -> by (by eapply row_name_fun). assert (b' = b) as -> by (by eapply row_name_fun). done.
    + split; [intros H; by apply elem_of_nil in H|]. intros (x & m & a & b & _ & _ & _ & Hb & Hg & _). exfalso. destruct (Hg i) as (y & Hy & Hs & Hi); [lia|].
      assert (token_by_index (t_nodes T) !! ([], (nr_corpus r, nr_text r, i)) = Some (nr_id y)) as E by (apply index_token; by exists y). rewrite Et in E. discriminate E.
Qed.
Lemma first_last_in r u w : first_last T r u w → (u ∈ t_nodes T ∧ in_same_text r u) ∧ w ∈ t_nodes T ∧ in_same_text r w.
Proof. intros [[(H1 & _ & H2 & _) (H3 & _ & H4 & _)]|[(-> & (H1 & _ & H2 & _) & _)|(-> & (H1 & _ & H2 & _) & _)]]; done. Qed.
Lemma cov_unique f r u u' : NoDup ((λ r, (nr_corpus r, nr_text r, f r)) <$> filter (λ r, is_Some (token_index r)) (t_nodes T)) → aligned T f r u → aligned T f r u' → u = u'.
Proof.
  intros Hn H H'. assert (nr_id u = nr_id u') as E.
  { assert (token_by f (t_nodes T) !! pos_of r (f r) = Some (nr_id u)) as E1 by (apply token_by_aligned; [done|by exists u]).
    assert (token_by f (t_nodes T) !! pos_of r (f r) = Some (nr_id u')) as E2 by (apply token_by_aligned; [done|by exists u']). congruence. }
  destruct H as (H & _), H' as (H' & _). by eapply node_row_unique.
Qed.
Lemma node_coverage_elem r : r ∈ t_nodes T → token_index r = None → ∀ e, e ∈ node_coverage names (t_nodes T) k (nr_id r) ↔
  ∃ x a b, covers T r x ∧ (nr_id r, nr_id x) ∉ rk_coverage k ∧ row_name t r a ∧ row_name t x b ∧
    e = GraphUpdate.AddEdge a b (new_comp (nr_id r)).1 (actype_name Coverage) (new_comp (nr_id r)).2.
Proof.
  intros Hr Hk e. pose proof (sk_left _ SK) as HL. pose proof (sk_right _ SK) as HR.
  assert (∀ u w i j, first_last T r u w → token_index u = Some i → token_index w = Some j →
    e ∈ coverage_loop names (token_by_index (t_nodes T)) k (nr_id r) (nr_corpus r) (nr_text r) (range_incl i j) ↔
    ∃ x a b, covers T r x ∧ (nr_id r, nr_id x) ∉ rk_coverage k ∧ row_name t r a ∧ row_name t x b ∧
      e = GraphUpdate.AddEdge a b (new_comp (nr_id r)).1 (actype_name Coverage) (new_comp (nr_id r)).2) as Hmain.
  { intros u w i j Hfl Hu Hw. rewrite loop_elem by done. split.
    - intros (x & m & a & b & Hx & Hs & Hm & Hb & Hg & Hrest). exists x, a, b. split; [|done]. split; [done|]. split; [done|]. split; [done|]. split; [done|]. by exists u, w, i, j, m.
    - intros (x & a & b & (_ & _ & Hx & Hs & u' & w' & i' & j' & m & Hfl' & Hu' & Hw' & Hm & Hb & Hg) & Hrest).
      assert (u' = u ∧ w' = w) as [-> ->].
      { destruct Hfl as [[A1 A2]|[(-> & A1 & A2)|(-> & A1 & A2)]], Hfl' as [[B1 B2]|[(-> & B1 & B2)|(-> & B1 & B2)]]; first [exfalso; first [exact (B2 _ A2)|exact (B2 _ A1)|exact (A2 _ B2)|exact (A2 _ B1)]|idtac].
        - split; [by eapply (cov_unique nr_left)|by eapply (cov_unique nr_right)].
        - split; by eapply (cov_unique nr_left).
        - split; by eapply (cov_unique nr_right). }
      rewrite Hu in Hu'. injection Hu' as <-. rewrite Hw in Hw'. injection Hw' as <-. exists x, m, a, b. done. }
  assert (∀ u i, u ∈ t_nodes T → token_index u = Some i → token_to_index (t_nodes T) !! nr_id u = Some (nr_corpus u, nr_text u, i)) as Hidx.
  { intros u i Hu Hi. apply to_index_spec. exists u, i. done. }
  unfold node_coverage. rewrite !node_to_spec by done. cbv zeta.
  destruct (token_by nr_left (t_nodes T) !! pos_of r (nr_left r)) as [ul|] eqn:El.
  - apply token_by_aligned in El as (u & Hu & <-); [|done]. pose proof Hu as (Huin & [i Hi] & Hus & _). rewrite (Hidx u i Huin Hi). cbn [fst snd].
    destruct (token_by nr_right (t_nodes T) !! pos_of r (nr_right r)) as [ur|] eqn:Er; cbn [default from_option id].
    + apply token_by_aligned in Er as (w & Hw & <-); [|done]. pose proof Hw as (Hwin & [j Hj] & Hws & _). rewrite (Hidx w j Hwin Hj). cbn [fst snd]. destruct Hus as [<- <-]. apply (Hmain u w); [by left|done|done].
    + rewrite (Hidx u i Huin Hi). cbn [fst snd]. destruct Hus as [<- <-]. apply (Hmain u u); [|done|done]. right. left. split; [done|]. split; [done|]. intros y Hy.
      assert (token_by nr_right (t_nodes T) !! pos_of r (nr_right r) = Some (nr_id y)) as E by (apply token_by_aligned; [done|by exists y]). rewrite Er in E. discriminate E.
  - assert (∀ y, ¬ aligned T nr_left r y) as Hnol.
    { intros y Hy. assert (token_by nr_left (t_nodes T) !! pos_of r (nr_left r) = Some (nr_id y)) as E by (apply token_by_aligned; [done|by exists y]). rewrite El in E. discriminate E. }
    destruct (token_by nr_right (t_nodes T) !! pos_of r (nr_right r)) as [ur|] eqn:Er; cbn [default from_option id].
    + apply token_by_aligned in Er as (w & Hw & <-); [|done]. pose proof Hw as (Hwin & [j Hj] & Hws & _). rewrite (Hidx w j Hwin Hj). cbn [fst snd]. destruct Hws as [<- <-]. apply (Hmain w w); [|done|done].
      right. by right.
    + split; [intros H; by apply elem_of_nil in H|]. intros (x & a & b & (_ & _ & Hx & Hs & u & w & i & j & m & Hfl & _) & _). exfalso.
      assert (∀ y, ¬ aligned T nr_right r y) as Hnor.
      { intros y Hy. assert (token_by nr_right (t_nodes T) !! pos_of r (nr_right r) = Some (nr_id y)) as E by (apply token_by_aligned; [done|by exists y]). rewrite Er in E. discriminate E. }
      destruct Hfl as [[A1 A2]|[(-> & A1 & A2)|(-> & A1 & A2)]]; [by eapply Hnol|by eapply Hnol|by eapply Hnor].
Qed.
Lemma coverage_elem e : e ∈ coverage_events names (t_nodes T) k ↔
  ∃ r x a b, covers T r x ∧ (nr_id r, nr_id x) ∉ rk_coverage k ∧ row_name t r a ∧ row_name t x b ∧
    e = GraphUpdate.AddEdge a b (new_comp (nr_id r)).1 (actype_name Coverage) (new_comp (nr_id r)).2.
Proof.
  assert (∀ r, r ∈ t_nodes T → is_Some (token_to_index (t_nodes T) !! nr_id r) ↔ is_Some (token_index r)) as Htok.
  { intros r Hr. split.
    - intros [p Hp]. apply to_index_spec in Hp as (r' & m & Hr' & E & Hm & _). assert (r' = r) as <- by (by eapply node_row_unique). by exists m.
    - intros [m Hm]. exists (pos_of r m). apply to_index_spec. by exists r, m. }
  unfold coverage_events. split.
  - intros He. apply elem_of_list_In, in_concat in He as (l & Hl & He). apply elem_of_list_In in Hl, He. apply elem_of_list_fmap in Hl as ([i p] & -> & Hx). cbn in He.
    apply (by_key_elem (node_to nr_left (t_nodes T)) (i, p)) in Hx. cbn in Hx. apply node_to_only in Hx as (r & Hr & <- & ->). case_decide as Hd; [by apply elem_of_nil in He|].
    rewrite Htok in Hd by done. assert (token_index r = None) as Hn by (destruct (token_index r); [|done]; exfalso; apply Hd; by eexists).
    apply node_coverage_elem in He as (x & a & b & H); [|done|done]. by exists r, x, a, b.
  - intros (r & x & a & b & Hc & H). pose proof Hc as (Hr & Hn & _). apply elem_of_list_In, in_concat. eexists. split; [apply elem_of_list_In, elem_of_list_fmap; exists (nr_id r, pos_of r (nr_left r)); split; [done|]|].
    + apply by_key_elem. cbn. by apply node_to_spec.
    + cbn. rewrite decide_False by (rewrite Htok by done; rewrite Hn; by intros [? ?]). apply elem_of_list_In, node_coverage_elem; [done|done|]. by exists x, a, b.
Qed.
Lemma coverage_ranks i j : (i, j) ∈ rk_coverage k ↔ ∃ r c, rank_edge T r i j c ∧ c.1.1 = Coverage.
Proof.
  destruct (rank_final t T v33 ext ct top es e1 e2 e3 e5 e6 e8 e9 k PA) as (_ & _ & _ & Hc & _). rewrite Hc. split.
  - intros [H|(r & s & c & Hr & H & Hty & E)]; [by apply elem_of_empty in H|]. injection E as -> ->. apply (row_edge_spec T SR) in H; [|done]. by exists r, c.
  - intros (r & c & H & Hty). right. pose proof H as (Hin & -> & _). exists r, i, c. split; [done|]. split; [by apply (row_edge_spec T SR)|done].
Qed.
Lemma new_comp_auto i : auto_comp T i (0%N, (new_comp i).1, (new_comp i).2).
Proof.
  assert (Exists (λ e : N * N, e.1 = i) (elements (rk_coverage k)) ↔ ∃ r j c', rank_edge T r i j c' ∧ c'.1.1 = Coverage) as Hex.
  { rewrite Exists_exists. split.
    - intros ([i' j] & He & E). cbn in E. subst i'. apply elem_of_elements, coverage_ranks in He as (r & c & H). by exists r, j, c.
    - intros (r & j & c & H). exists (i, j). split; [|done]. apply elem_of_elements, coverage_ranks. by exists r, c. }
  unfold auto_comp, new_comp. destruct (decide (Exists _ _)) as [Hd|Hd]; [left; split; [by apply Hex|done]|]. right. split; [by rewrite <- Hex|].
  destruct (rank_final t T v33 ext ct top es e1 e2 e3 e5 e6 e8 e9 k PA) as (_ & _ & _ & _ & Hp & _). destruct (rk_parentless k !! i) as [c|] eqn:Ep; rewrite Hp in Ep.
  - left. apply fill_Some in Ep as (r & Hr & H). unfold row_root in H. destruct (rr_parent r) eqn:Er; [done|]. destruct (component_by_id _ !! _) as [c'|] eqn:Ec; [|done]. case_decide as Hty; [|done].
    injection H as <- ->. exists r, c. split; [done|]. split; [done|]. split; [done|]. split; [by apply (component_by_id_spec T SR)|]. split; [done|]. unfold graph_comp. by rewrite Hty.
  - right. split; [|done]. intros (c & r & c' & Hr & <- & Hpar & Hin & Hty & _).
    assert (is_Some (fill (row_root (component_by_id (t_comps T))) (rk_parentless ranks_empty) (t_ranks T) !! rr_node r)) as [v Hv]; [|rewrite Ep in Hv; discriminate Hv].
    apply fill_is_Some. exists r, c'. split; [done|]. unfold row_root. rewrite Hpar. apply (component_by_id_spec T SR) in Hin. rewrite Hin. by rewrite decide_True.
Qed.
(** ** Coverage edges of the graph *)
Lemma graph_coverage r x a b : covers T r x → row_name t r a → row_name t x b → ∃ c, c.1.1 = 0%N ∧ (c, (a, b)) ∈ lg_edges G.
Proof.
  intros Hc Ha Hb. assert (a ≠ b) as Hab.
  { intros <-. destruct Hc as (Hr & Hn & Hx & _ & u & w & i & j & m & _ & _ & _ & Hm & _). assert (r = x) as -> by (by eapply row_name_inj). congruence. }
  destruct (decide ((nr_id r, nr_id x) ∈ rk_coverage k)) as [Hd|Hd].
  - apply coverage_ranks in Hd as (rr & c & Hre & Hty). exists (graph_comp c). split; [unfold graph_comp; cbn; by rewrite Hty|].
    apply (graph_rank_edge t T ST SR v33 ext Hext ct top es e1 e2 e3 e5 e6 e8 e9 k PA rr); [|done]. exists (nr_id r), (nr_id x), c. split; [done|]. split; [done|].
    destruct Hc as (Hr & _ & Hx & _). split; [by exists r|by exists x].
  - exists (0%N, (new_comp (nr_id r)).1, (new_comp (nr_id r)).2). split; [done|]. apply (graph_edges t T ST v33 ext Hext ct top es e1 e2 e3 e5 e6 e8 e9 k PA); [done|]. split; [done|].
    exists (actype_name Coverage). split; [apply (ct_type Coverage)|]. right. right. apply coverage_elem. by exists r, x, a, b.
Qed.
Lemma graph_coverage_only c a b : c.1.1 = 0%N → (c, (a, b)) ∈ lg_edges G →
  (∃ r, edge_of_rank t T r c a b) ∨ ∃ r x, covers T r x ∧ row_name t r a ∧ row_name t x b ∧ auto_comp T (nr_id r) c.
Proof.
  intros Hc H. apply (graph_edges t T ST v33 ext Hext ct top es e1 e2 e3 e5 e6 e8 e9 k PA) in H as (Hab & ty & Hty & H); [|by rewrite Hc].
  destruct H as [H|[H|H]].
  - exfalso. assert (∃ ty, GraphUpdate.AddEdge a b c.1.2 ty c.2 ∈ e2 ∧ annis_ctype ty = Some c.1.1) as H' by (by exists ty).
    apply (e2_elem t T ST SK v33 ext ct top es e1 e2 e3 e5 e6 e8 e9 k PA) in H' as (s & r & r' & -> & _). discriminate Hc.
  - left. apply (e8_elem t T ST SR v33 ext ct top es e1 e2 e3 e5 e6 e8 e9 k PA). by exists ty.
  - right. apply coverage_elem in H as (r & x & a' & b' & Hcov & _ & Ha & Hb & E). injection E as -> -> E1 -> E2. exists r, x. split; [done|]. split; [done|]. split; [done|].
    destruct c as [[n l] nm]. cbn in *. subst. apply new_comp_auto.
Qed.
End graph.
