(** Different nodes, corpora and texts have different names. *)
From Coq Require Import NArith String Lia.
From stdpp Require Import base list gmap sorting.
From Verif Require Import KeySer KeySerSpec SortedMap Types Percent PercentProofs CompPath RelAnnis RelAnnisSpec RelAnnisMaps RelAnnisTree ListExtra.

(** ** Joined names *)
Lemma join_cons x l : l ≠ [] → join_slash (x :: l) = x ++ [slash] ++ join_slash l.
Proof. by destruct l. Qed.
Lemma app_sep_inj {A} (s : A) (a a' b b' : list A) : s ∉ a → s ∉ a' → a ++ [s] ++ b = a' ++ [s] ++ b' → a = a' ∧ b = b'.
Proof.
  revert a'. induction a as [|x a IH]; intros a' H1 H2 E.
  - destruct a' as [|y a']; [by injection E|]. injection E as -> _. exfalso. apply H2. left.
  - destruct a' as [|y a']; [injection E as -> _; exfalso; apply H1; left|]. injection E as -> E.
    destruct (IH a') as [-> ->]; [intros H; apply H1; by right|intros H; apply H2; by right|done|done].
Qed.
Lemma join_inj l l' : l ≠ [] → l' ≠ [] → Forall (λ x, slash ∉ x) l → Forall (λ x, slash ∉ x) l' → join_slash l = join_slash l' → l = l'.
Proof.
  revert l'. induction l as [|x l IH]; intros l' H1 H2 F1 F2 E; [done|]. destruct l' as [|y l']; [done|]. apply Forall_cons in F1 as [F1 F1'], F2 as [F2 F2'].
  destruct l as [|x' l], l' as [|y' l'].
  - cbn in E. by subst.
  - rewrite (join_cons y) in E by done. cbn in E. subst x. exfalso. apply F1. apply elem_of_app. right. left.
  - rewrite (join_cons x) in E by done. cbn in E. subst y. exfalso. apply F2. apply elem_of_app. right. left.
  - rewrite !join_cons in E by done. apply app_sep_inj in E as [-> E]; [|done|done]. f_equal. by apply IH.
Qed.
Definition name_ok (x : bytes) : Prop := x ≠ [] ∧ Forall (λ b, b < 256)%N x ∧ hash ∉ x.
Lemma encode_no_slash x : Forall is_byte x → slash ∉ encode_name x.
Proof. intros H. apply pct_encode_no; [done|vm_compute; reflexivity|unfold slash; lia..]. Qed.
Lemma encode_no_hash x : Forall is_byte x → hash ∉ x → hash ∉ encode_name x.
Proof.
  intros H Hx Hin. induction x as [|b x IH]; [by apply elem_of_nil in Hin|]. apply Forall_cons in H as [Hb H]. cbn in Hin. apply elem_of_app in Hin as [Hin|Hin].
  - destruct (should_encode node_name_encode_set b) eqn:E.
    + assert (hash ∈ pct_encode node_name_encode_set [b]) as Hi by (cbn; rewrite E, app_nil_r; done). apply pct_encode_bytes in Hi; [|by repeat constructor].
      unfold hash in *. destruct Hi as [Hi|[Hi|[Hi|[Hi _]]]]; try lia. apply elem_of_list_singleton in Hi. apply Hx. rewrite Hi. left.
    + apply elem_of_list_singleton in Hin. apply Hx. rewrite Hin. left.
  - apply IH; [done| |done]. intros H'. apply Hx. by right.
Qed.
Lemma path_name_inj p q : p ≠ [] → q ≠ [] → Forall name_ok p → Forall name_ok q → path_name p = path_name q → p = q.
Proof.
  intros H1 H2 F1 F2 E. unfold path_name in E. apply join_inj in E.
  - clear H1 H2. revert q F2 E. induction F1 as [|x p [_ [Fx _]] F1 IH]; intros q F2 E; destruct F2 as [|y q [_ [Fy _]] F2]; try done.
    injection E as E E'. f_equal; [|by apply IH]. apply (pct_encode_inj node_name_encode_set); [vm_compute; reflexivity|done|done|done].
  - by destruct p.
  - by destruct q.
  - apply Forall_fmap. eapply Forall_impl; [exact F1|]. intros x (_ & Hx & _). by apply encode_no_slash.
  - apply Forall_fmap. eapply Forall_impl; [exact F2|]. intros x (_ & Hx & _). by apply encode_no_slash.
Qed.
Lemma path_no_hash p : Forall name_ok p → hash ∉ path_name p.
Proof.
  unfold path_name. induction 1 as [|x p (_ & Hx & Hh) F IH]; [apply not_elem_of_nil|]. destruct p as [|y p].
  - cbn. by apply encode_no_hash.
  - rewrite fmap_cons, join_cons by done. rewrite !not_elem_of_app. split; [by apply encode_no_hash|]. split; [|done]. intros H. apply elem_of_list_singleton in H. discriminate H.
Qed.
(** ** Paths in the tree *)
Lemma tree_path_prefix t above i p : (i, p) ∈ tree_paths above t → ∃ q, p = above ++ ct_name t :: q.
Proof. intros H. destruct (root_path t above i p H) as [[_ ->]|(q & _ & ->)]; [by exists []|by exists q]. Qed.
Lemma distinct_unfold id name doc cs : distinct_names (CT id name doc cs) ↔ NoDup (ct_name <$> cs) ∧ Forall distinct_names cs.
Proof.
  cbn [distinct_names]. assert (∀ l, (fix go l := match l with [] => True | c :: l => distinct_names c ∧ go l end) l ↔ Forall distinct_names l) as E.
  { intros l. induction l as [|c l IH]; [split; [constructor|done]|]. rewrite Forall_cons, <- IH. done. }
  by rewrite E.
Qed.
Lemma tree_paths_nodup t : distinct_names t → ∀ above, NoDup (tree_paths above t).*2.
Proof.
  induction t as [id name doc cs Hcs] using ctree_ind'. intros Hd above. apply distinct_unfold in Hd as [Hn Hd]. cbn [tree_paths]. rewrite fmap_cons. cbn [snd].
  assert (∀ i p, (i, p) ∈ concat (map (tree_paths (above ++ [name])) cs) → ∃ c q, c ∈ cs ∧ p = above ++ name :: ct_name c :: q) as Hin.
  { intros i p Hp. apply elem_of_list_In in Hp. apply in_concat in Hp as (l & Hl & Hp). apply in_map_iff in Hl as (c & <- & Hc). apply elem_of_list_In in Hp, Hc.
    apply tree_path_prefix in Hp as [q ->]. exists c, q. split; [done|]. by rewrite <- (assoc_L (++)). }
  constructor.
  - intros H. apply elem_of_list_fmap in H as ([i p] & E & Hp). apply Hin in Hp as (c & q & _ & ->). cbn in E. apply app_inv_head in E. discriminate E.
  - clear Hin. induction cs as [|c cs IH]; [constructor|]. cbn [map concat]. rewrite fmap_app. apply Forall_cons in Hcs as [H1 H2], Hd as [D1 D2].
    cbn in Hn. apply NoDup_cons in Hn as [N1 N2]. apply NoDup_app. split; [by apply H1|]. split; [|by apply IH].
    intros p Hp Hp'. apply elem_of_list_fmap in Hp as ([i p1] & -> & Hp). apply elem_of_list_fmap in Hp' as ([j p2] & E & Hp'). cbn in E. subst p2.
    apply tree_path_prefix in Hp as [q ->]. apply elem_of_list_In in Hp'. apply in_concat in Hp' as (l & Hl & Hp'). apply in_map_iff in Hl as (c' & <- & Hc').
    apply elem_of_list_In in Hp', Hc'. apply tree_path_prefix in Hp' as [q' E]. apply app_inv_head in E. injection E as E _. apply N1. rewrite E.
    by apply elem_of_list_fmap_1.
Qed.
Section sound.
Context (t : ctree) (T : tables) (ST : sound_tables t T).
Lemma rows_eq : ∃ rs m, tree_rows 0 t = (rs, m) ∧ t_corpus T ≡ₚ rs ∧ NoDup (cr_id <$> rs) ∧ NoDup (cr_name <$> filter (λ r, cr_doc r = true) rs).
Proof.
  destruct ST as [H1 H2 H3 _ _ _ _ _]. destruct (tree_rows 0 t) as [rs m] eqn:E. exists rs, m. cbn in H1. split; [done|]. split; [done|].
  rewrite <- H1. done.
Qed.
Lemma sound_ids : NoDup (tree_paths [] t).*1.
Proof.
  destruct rows_eq as (rs & m & E & _ & H & _). destruct (tree_ok_all t _ _ _ E) as (_ & _ & Ht). destruct (Ht []) as [Hi _]. by rewrite <- Hi.
Qed.
Lemma tree_ids i : i ∈ cr_id <$> t_corpus T ↔ ∃ p, (i, p) ∈ tree_paths [] t.
Proof.
  destruct rows_eq as (rs & m & E & Hp & _). destruct (tree_ok_all t _ _ _ E) as (_ & _ & Ht). destruct (Ht []) as [Hi _]. rewrite Hp, Hi.
  rewrite elem_of_list_fmap. split; [intros ([j p] & -> & H); by exists p|intros [p H]; by exists (i, p)].
Qed.
Lemma path_unique i p q : (i, p) ∈ tree_paths [] t → (i, q) ∈ tree_paths [] t → p = q.
Proof.
  intros H1 H2. pose proof sound_ids as Hn. apply elem_of_list_lookup in H1 as [a H1], H2 as [b H2].
  assert (a = b) as ->; [|by rewrite H1 in H2; injection H2]. eapply (NoDup_lookup _ a b i Hn); rewrite list_lookup_fmap; [by rewrite H1|by rewrite H2].
Qed.
Lemma path_id_unique i j p : (i, p) ∈ tree_paths [] t → (j, p) ∈ tree_paths [] t → i = j.
Proof.
  intros H1 H2. pose proof (tree_paths_nodup t (st_siblings _ _ ST) []) as Hn. apply elem_of_list_lookup in H1 as [a H1], H2 as [b H2].
  assert (a = b) as ->; [|by rewrite H1 in H2; injection H2]. eapply (NoDup_lookup _ a b p Hn); rewrite list_lookup_fmap; [by rewrite H1|by rewrite H2].
Qed.
Lemma root_in : (ct_id t, [ct_name t]) ∈ tree_paths [] t.
Proof. destruct t. left. Qed.
Lemma path_names_ok i p : (i, p) ∈ tree_paths [] t → p ≠ [] ∧ Forall name_ok p.
Proof.
  intros H. destruct rows_eq as (rs & m & E & Hp & _). destruct (tree_ok_all t _ _ _ E) as (_ & _ & Ht). destruct (Ht []) as [_ Hpath].
  destruct (Hpath i p H) as (r & Hr & _ & <-). cbn. split; [by destruct (cr_name <$> above_rows rs r)|].
  pose proof (st_names _ _ ST) as F. rewrite Hp in F. rewrite Forall_forall in F. apply Forall_app. split; [|by repeat constructor; apply F].
  apply Forall_fmap, Forall_forall. intros x Hx. apply elem_of_list_filter in Hx as [_ Hx]. by apply F.
Qed.
Lemma below_path i p : below t i p → ∃ q x, p = q ++ [x] ∧ q ≠ [].
Proof.
  intros [H Hi]. destruct (root_path t [] i p H) as [[-> _]|(q & Hq & ->)]; [done|]. exists (ct_name t :: removelast q), (List.last q []).
  split; [|done]. cbn. f_equal. by apply app_removelast_last.
Qed.
(** The paths the import uses *)
Lemma sound_table : ∃ ct rs m, corpus_table (t_corpus T) = Some ct ∧ ct_top ct = ct_name t ∧
  tree_rows 0 t = (rs, m) ∧ t_corpus T ≡ₚ rs ∧
  (∀ i p, below t i p → corpus_path ct i = Some (path_name p)) ∧
  (∀ i q x, (i, q ++ [x]) ∈ tree_paths [] t → parent_path ct i = Some (path_name q)) ∧
  (∀ r, r ∈ rs → ct_by_id ct !! cr_id r = Some (CEntry (cr_pre r) (cr_post r) (cr_name r) (encode_name (cr_name r)))) ∧
  (∀ i e, ct_by_id ct !! i = Some e → ∃ r, r ∈ rs ∧ cr_id r = i) ∧
  (∀ pre i, ct_by_pre ct !! pre = Some i ↔ ∃ r, r ∈ rs ∧ pre = cr_pre r ∧ i = cr_id r).
Proof.
  destruct rows_eq as (rs & m & E & Hp & Hid & Hdoc). destruct (corpus_table_of_tree t rs m _ E Hp Hid Hdoc) as (ct & E1 & E2 & E3 & E4 & E5).
  exists ct, rs, m. split; [done|]. split; [done|]. split; [done|]. split; [done|]. split; [|split; [|split; [done|split]]].
  - intros i p [H Hi]. destruct (tree_path_names t rs m _ i p E Hp Hid Hdoc H) as (ct' & q & x & E1' & _ & _ & _ & _ & H'). rewrite E1 in E1'. injection E1' as <-.
    apply H'. intros ->. apply Hi. symmetry. eapply path_id_unique; [exact root_in|exact H].
  - intros i q x H. destruct (tree_path_names t rs m _ i _ E Hp Hid Hdoc H) as (ct' & q' & x' & E1' & _ & Eq & H' & _). rewrite E1 in E1'. injection E1' as <-.
    apply app_inj_tail in Eq as [-> ->]. done.
  - intros i e H. destruct (E5 i e H) as (r & Hr & <- & _). by exists r.
  - intros pre i. rewrite <- (entries_elem N.compare (ct_by_pre ct) (pre, i)), <- by_key_entries, E4, elem_of_list_fmap.
    split; [intros (r & H & Hr); injection H as -> ->; by exists r|intros (r & Hr & -> & ->); by exists r].
Qed.
Lemma root_row rs m : tree_rows 0 t = (rs, m) → ∃ post rs', rs = CRow (ct_id t) (ct_name t) (let 'CT _ _ d _ := t in d) 0 post :: rs' ∧ ∀ r, r ∈ rs' → (0 < cr_pre r)%N.
Proof.
  intros E. destruct (tree_ok_all t _ _ _ E) as (_ & [_ HS] & _). destruct t as [id name doc cs]. rewrite tree_rows_unfold in E. destruct (forest_rows (0 + 1) cs) as [fs k].
  injection E as <- <-. exists k, fs. split; [done|]. apply StronglySorted_inv in HS as [_ HF]. rewrite Forall_forall in HF. intros r Hr. by apply (HF r) in Hr.
Qed.
Lemma row_below rs m r : tree_rows 0 t = (rs, m) → r ∈ rs → (∃ p, (cr_id r, p) ∈ tree_paths [] t) ∧ (cr_pre r = 0%N ↔ cr_id r = ct_id t).
Proof.
  intros E Hr. destruct rows_eq as (rs' & m' & E' & Hp & Hid & _). rewrite E in E'. injection E' as <- <-. split.
  - apply tree_ids. rewrite Hp. by apply elem_of_list_fmap_1.
  - destruct (root_row rs m E) as (post & rs' & -> & Hpos). apply elem_of_cons in Hr as [-> |Hr]; [done|]. specialize (Hpos r Hr). split; [lia|].
    intros Hi. cbn in Hid. apply NoDup_cons in Hid as [Hid _]. exfalso. apply Hid. rewrite <- Hi. by apply elem_of_list_fmap_1.
Qed.
(** The names of the nodes *)
Lemma node_below r : r ∈ t_nodes T → ∃ p, below t (nr_corpus r) p.
Proof.
  intros Hr. pose proof (st_node_corpus _ _ ST) as F. rewrite Forall_forall in F. destruct (F r Hr) as [H1 H2]. apply tree_ids in H2 as [p Hp]. exists p. done.
Qed.
Lemma row_name_exists r : r ∈ t_nodes T → ∃ n, row_name t r n.
Proof. intros Hr. destruct (node_below r Hr) as (p & Hp & _). eexists. exists p. done. Qed.
Lemma row_name_fun r n n' : row_name t r n → row_name t r n' → n = n'.
Proof. intros (p & Hp & ->) (p' & Hp' & ->). by rewrite (path_unique _ _ _ Hp Hp'). Qed.
Lemma hash_split p p' x x' : Forall name_ok p → Forall name_ok p' → path_name p ++ [hash] ++ x = path_name p' ++ [hash] ++ x' → path_name p = path_name p' ∧ x = x'.
Proof. intros H1 H2 E. apply app_sep_inj in E; [done|by apply path_no_hash..]. Qed.
Lemma row_name_inj r r' n : r ∈ t_nodes T → r' ∈ t_nodes T → row_name t r n → row_name t r' n → r = r'.
Proof.
  intros Hr Hr' (p & Hp & ->) (p' & Hp' & E). destruct (path_names_ok _ _ Hp) as [P1 P2], (path_names_ok _ _ Hp') as [P1' P2'].
  apply hash_split in E as [E1 E2]; [|done|done]. apply path_name_inj in E1 as ->; [|done..]. pose proof (path_id_unique _ _ _ Hp Hp') as Ec.
  pose proof (st_node_names _ _ ST) as Hn. apply elem_of_list_lookup in Hr as [a Ha], Hr' as [b Hb].
  assert (a = b) as ->; [|by rewrite Ha in Hb; injection Hb]. eapply (NoDup_lookup _ a b (nr_corpus r, nr_name r) Hn); rewrite list_lookup_fmap; [by rewrite Ha|by rewrite Hb, Ec, E2].
Qed.
Lemma row_name_hash r n : row_name t r n → hash ∈ n.
Proof. intros (p & _ & ->). apply elem_of_app. right. left. Qed.
Lemma corpus_name_no_hash i p : (i, p) ∈ tree_paths [] t → hash ∉ path_name p.
Proof. intros H. apply path_no_hash. by destruct (path_names_ok i p H). Qed.
Lemma corpus_name_inj i j p q : (i, p) ∈ tree_paths [] t → (j, q) ∈ tree_paths [] t → path_name p = path_name q → i = j ∧ p = q.
Proof.
  intros Hp Hq E. destruct (path_names_ok _ _ Hp) as [P1 P2], (path_names_ok _ _ Hq) as [P1' P2']. apply path_name_inj in E as ->; [|done..].
  split; [|done]. by eapply path_id_unique.
Qed.
Lemma node_row_unique r r' : r ∈ t_nodes T → r' ∈ t_nodes T → nr_id r = nr_id r' → r = r'.
Proof.
  intros Hr Hr' E. pose proof (st_node_ids _ _ ST) as Hn. apply elem_of_list_lookup in Hr as [a Ha], Hr' as [b Hb].
  assert (a = b) as ->; [|by rewrite Ha in Hb; injection Hb]. eapply (NoDup_lookup _ a b (nr_id r) Hn); rewrite list_lookup_fmap; [by rewrite Ha|by rewrite Hb, E].
Qed.
Lemma node_path_name ct r n : corpus_table (t_corpus T) = Some ct → r ∈ t_nodes T → node_path ct r = Some n ↔ row_name t r n.
Proof.
  intros E Hr. destruct sound_table as (ct' & rs & m & E' & _ & _ & _ & Hp & _). rewrite E in E'. injection E' as <-. destruct (node_below r Hr) as [p Hb].
  unfold node_path. rewrite (Hp _ _ Hb). split.
  - intros H. injection H as <-. exists p. split; [apply Hb|done].
  - intros (p' & Hp' & ->). destruct Hb as [Hb _]. by rewrite (path_unique _ _ _ Hb Hp').
Qed.
Lemma names_spec ct i n : corpus_table (t_corpus T) = Some ct → id_to_name ct (t_nodes T) !! i = Some n ↔ ∃ r, r ∈ t_nodes T ∧ nr_id r = i ∧ row_name t r n.
Proof.
  intros E. unfold id_to_name. rewrite (fold_fill _ (λ r, match node_path ct r with Some p => Some (nr_id r, p) | None => None end)) by (intros m r; by destruct (node_path ct r)).
  rewrite fill_unique.
  - split.
    + intros (r & Hr & H). exists r. destruct (node_path ct r) as [p|] eqn:Ep; [|done]. injection H as <- <-. split; [done|]. split; [done|]. by apply (node_path_name ct).
    + intros (r & Hr & <- & H). exists r. split; [done|]. apply (node_path_name ct r n E Hr) in H. by rewrite H.
  - pose proof (st_node_ids _ _ ST) as Hn. revert Hn. generalize (t_nodes T). clear. intros rs. induction rs as [|r rs IH]; [constructor|]. cbn. intros Hn. apply NoDup_cons in Hn as [H1 H2].
    destruct (node_path ct r); [|by apply IH]. cbn. constructor; [|by apply IH]. intros H. apply H1. apply elem_of_list_fmap in H as ([k v] & -> & H).
    apply elem_of_list_omap in H as (r' & Hr' & H). destruct (node_path ct r'); [|done]. injection H as <- <-. exact (elem_of_list_fmap_1 nr_id _ _ Hr').
Qed.
End sound.
