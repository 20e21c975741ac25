From stdpp Require Import base list gmap fin_maps fin_sets sorting.
From Coq Require Import NArith Lia.
From Verif Require Import KeySer KeySerSpec SortedMap Types SymbolTable SymTabIface AnnoMem AnnoMemProofs Dfs DfsProofs DfsQueries
  GraphSpec Adjacency AdjacencySpec AdjacencyProofs StatsProofs CopyProofs ListExtra Linear EdgeAnnoProofs LinearProofs LinearQueries
  PrePost PrePostSpec PrePostNum PrePostProofs.

(** ** Fuel *)
Lemma pp_copy_root_none omax lmax f out annos roots :
  fold_left (pp_copy_root omax lmax f out annos) roots None = None.
Proof. induction roots as [|r roots IH]; [done|]. simpl. done. Qed.
Lemma pp_copy_mono omax lmax f f' s roots out annos st r : f ≤ f' →
  pp_copy omax lmax f s roots out annos st = Some r → pp_copy omax lmax f' s roots out annos st = Some r.
Proof.
  intros Hf. unfold pp_copy.
  assert (∀ x y, fold_left (pp_copy_root omax lmax f out annos) roots x = Some y →
    fold_left (pp_copy_root omax lmax f' out annos) roots x = Some y) as H.
  { induction roots as [|a roots IH]; intros x y; [done|]. simpl.
    destruct (pp_copy_root omax lmax f out annos x a) as [z|] eqn:E; [|by rewrite pp_copy_root_none].
    intros Hz. replace (pp_copy_root omax lmax f' out annos x a) with (Some z); [by apply IH|]. symmetry.
    destruct x as [[[c m] an]|]; [|done]. unfold pp_copy_root in *. simpl in *.
    destruct (dfs_loop out 1 usize_max f (dfs_new a)) as [[st' s']|] eqn:Ed; [|done].
    by rewrite (loop_mono out 1 usize_max f f' _ _ Hf Ed). }
  destruct (fold_left _ roots _) as [y|] eqn:E at 1; [|done]. intros Hy. by rewrite (H _ _ E).
Qed.

Lemma bind_edges (G : gset edge) (out : N → list N) (nodes : list N) : (∀ x y, y ∈ out x ↔ Edge x y ∈ G) → (∀ x, x ∈ nodes ↔ x ∈ all_nodes G) →
  ∀ e, e ∈ (nodes ≫= λ x, (λ y, Edge x y) <$> out x) ↔ e ∈ G.
Proof.
  intros Hout Hn [a b]. rewrite elem_of_list_bind. split.
  - intros (x & (y & [= -> ->] & Hy)%elem_of_list_fmap & _). by apply Hout.
  - intros He. exists a. split; [apply elem_of_list_fmap; exists b; split; [done|by apply Hout]|].
    apply Hn. by eapply en_l.
Qed.

Lemma prepost_copy_ok omax lmax g st s ok : fits_prepost omax lmax (gr_edges g) → prepost_copy_of omax lmax g st s ok →
  pp_ok s (gr_edges g) ∧ p_stats s = st ∧ (ok = true → ∃ leak, inv edge_compare (p_annos s) leak (gr_annos g)).
Proof.
  intros F (f & sources & roots & out & annos & H & Hnd & Hroots & Hc).
  destruct (pp_copy_lemma omax lmax (gr_edges g) out annos F (h_out_nd _ _ _ _ H) (h_out _ _ _ _ H)) with
    (s0 := pp_new) (roots := roots) (st := st) as (f0 & Hf); [done|done|].
  destruct (Hf (f `max` f0) ltac:(lia)) as (s' & ok' & nodes & Hs & L & Hst & Ha & Hn).
  apply (pp_copy_mono _ _ _ (f `max` f0)) in Hc; [|lia]. rewrite Hs in Hc. injection Hc as -> ->. split_and!; [done|done|].
  intros ->. rewrite copy_node_annos_fold in Ha.
  eapply (insert_edges_all annos (gr_annos g) (gr_edges g) (h_annos_nd _ _ _ _ H) (h_annos _ _ _ _ H)); [|apply H| |symmetry; exact Ha].
  - apply bind_edges; [apply H|done].
  - exists 0, ∅. apply AnnoMemProofs.inv_new.
Qed.
Lemma prepost_copy_total omax lmax g sources roots out annos st : fits_prepost omax lmax (gr_edges g) → holds sources out annos g →
  NoDup roots → (∀ r, r ∈ roots ↔ is_root (gr_edges g) r) →
  ∃ f0, ∀ f, f0 ≤ f → ∃ s ok, pp_copy omax lmax f pp_new roots out annos st = Some (s, ok) ∧
    ((N.of_nat (sum_list_with (λ e, length (annos e)) (elements (gr_edges g))) <= usize_max)%N → ok = true).
Proof.
  intros F H Hnd Hroots.
  destruct (pp_copy_lemma omax lmax (gr_edges g) out annos F (h_out_nd _ _ _ _ H) (h_out _ _ _ _ H)) with
    (s0 := pp_new) (roots := roots) (st := st) as (f0 & Hf); [done|done|].
  exists f0. intros f Hf0. destruct (Hf f Hf0) as (s & ok & nodes & Hs & L & Hst & Ha & Hn).
  exists s, ok. split; [done|]. intros Hle. rewrite copy_node_annos_fold in Ha.
  eapply (insert_edges_ok_new annos (gr_annos g) (gr_edges g) (h_annos_nd _ _ _ _ H) (h_annos _ _ _ _ H)); [|done|symmetry; exact Ha].
  intros e. apply bind_edges; [apply H|done].
Qed.

(** ** Queries *)
Lemma keep_first_spec l : ∀ X, NoDup (keep_first X l) ∧ ∀ y, y ∈ keep_first X l ↔ y ∈ l ∧ y ∉ X.
Proof.
  induction l as [|x l IH]; intros X; simpl.
  - split; [constructor|]. intros y. split; [by intros ?%elem_of_nil|by intros [?%elem_of_nil _]].
  - destruct (decide (x ∈ X)) as [Hx|Hx].
    + destruct (IH X) as [H1 H2]. split; [done|]. intros y. rewrite H2, elem_of_cons. naive_solver.
    + destruct (IH ({[x]} ∪ X)) as [H1 H2]. split.
      * apply NoDup_cons. split; [|done]. rewrite H2. set_solver.
      * intros y. rewrite !elem_of_cons, H2, elem_of_union, elem_of_singleton. destruct (decide (y = x)) as [->|]; tauto.
Qed.

Section queries.
Context (omax lmax : N) (G : gset edge) (s : pp) (P : pp_ok s G) (F : fits_prepost omax lmax G).
Notation E := (edge_rel G).
Notation O := (occs (p_orders s)).

Lemma pp_walk_len x p y : walk E x p y → (N.of_nat (length p) <= usize_max)%N.
Proof using All. intros Hw. destruct F as (Hac & Hs & _). pose proof (acyclic_path_length G x p y Hac Hw). lia. Qed.
Lemma pp_simple x p y : simple_path E x p y ↔ walk E x p y.
Proof using All. destruct F as (Hac & _). by apply acyclic_simple. Qed.
Lemma pp_lookup x : match p_orders s !! x with
  | Some l => l ≠ [] ∧ x ∈ all_nodes G ∧ O x = l
  | None => x ∉ all_nodes G ∧ O x = []
  end.
Proof using All.
  unfold occs. destruct (p_orders s !! x) as [l|] eqn:El; simpl.
  - split_and!; [by apply (po_ne _ _ P x)|apply (po_some _ _ P); by eexists|done].
  - split; [|done]. rewrite <- (po_some _ _ P), El. by intros [? ?].
Qed.
Lemma outside x p y : x ∉ all_nodes G → walk E x p y → p = [].
Proof using All. intros Hx Hw. destruct p as [|z p]; [done|]. destruct Hx. destruct Hw as [Hz _]. by eapply en_l. Qed.
Lemma outside_r x p y : y ∉ all_nodes G → walk E x p y → p = [].
Proof using All.
  intros Hx Hw. destruct p as [|z p]; [done|]. destruct Hx. by apply (walk_nodes G x (z :: p) y Hw).
Qed.

Lemma bound_distance min max m n : max_of_bound max = Some m → (N.of_nat n <= usize_max)%N →
  (min <= N.of_nat n)%N ∧ (N.of_nat n <= m)%N ↔ in_distance min max n.
Proof using.
  unfold in_distance. destruct max as [b|b|]; simpl; intros Hm Hn.
  - injection Hm as ->. done.
  - destruct (decide (b = 0%N)); [done|]. injection Hm as <-. f_equiv. lia.
  - injection Hm as <-. tauto.
Qed.

(** Pairs of nested occurrences are the walks. *)
Lemma occ_walk x y (n : N) : x ∈ all_nodes G →
  (∃ o o', o ∈ O x ∧ o' ∈ O y ∧ contains o o' ∧ level_of o' = (level_of o + n)%N) ↔
  ∃ p, walk E x p y ∧ n = N.of_nat (length p).
Proof using All.
  intros Hx. split.
  - intros (o & o' & Ho & Ho' & Hc & Hl). destruct (po_sound _ _ P x o y o' Ho Ho' Hc) as (p & Hw & Hl').
    exists p. split; [done|]. lia.
  - intros (p & Hw & ->). apply (po_some _ _ P) in Hx as [l Hl].
    destruct l as [|o l]; [by destruct (po_ne _ _ P x [] Hl)|]. assert (o ∈ O x) as Ho by (unfold occs; rewrite Hl; by left).
    destruct (po_cover _ _ P x o p y Ho Hw) as (o' & Ho' & Hc & Hlev). by exists o, o'.
Qed.
(** The same from the end *)
Lemma occ_walk_inv x o y p : o ∈ O x → walk E y p x →
  ∃ o1 o', o1 ∈ O x ∧ o' ∈ O y ∧ contains o' o1 ∧ level_of o1 = (level_of o' + N.of_nat (length p))%N.
Proof using All.
  intros Ho Hw. assert (y ∈ all_nodes G) as Hy.
  { destruct p as [|z p]; [simpl in Hw; subst|destruct Hw as [Hz _]; by eapply en_l].
    apply (po_some _ _ P). unfold occs in Ho. destruct (p_orders s !! x); [by eexists|by apply elem_of_nil in Ho]. }
  destruct (proj2 (occ_walk y x (N.of_nat (length p)) Hy)) as (o' & o1 & ? & ? & ? & ?); [by exists p|]. by exists o1, o'.
Qed.

Lemma pp_find_connected_lemma x min max : x ∈ all_nodes G ∨ (1 <= min)%N → max ≠ Excluded 0%N →
  ∃ l, pp_find_connected s x min max = Some l ∧ NoDup l ∧
    ∀ y, y ∈ l ↔ ∃ p, simple_path E x p y ∧ in_distance min max (length p).
Proof using All.
  intros Hx Hmax. assert (∃ m, max_of_bound max = Some m) as [m Hm].
  { destruct max as [b|b|]; simpl; [by eexists| |by eexists]. destruct (decide _); [congruence|by eexists]. }
  unfold pp_find_connected. pose proof (pp_lookup x) as Hl. destruct (p_orders s !! x) as [l|] eqn:El.
  - destruct Hl as (_ & Hxn & HO). rewrite Hm. cbn [mbind option_bind]. eexists. split; [reflexivity|].
    destruct (keep_first_spec (l ≫= λ r, omap (λ e, match e with
                   | OPre post level node =>
                       let diff := usize_sub level (level_of r) in
                       if (post <=? post_of r)%N && (min <=? diff)%N && (diff <=? m)%N then Some node else None
                   | _ => None
                   end) (slice (p_vec s) (N.to_nat (pre_of r)) (S (N.to_nat (post_of r))))) ∅) as [Hnd Hin].
    split; [done|]. intros y. rewrite Hin. clear Hnd Hin.
    transitivity (∃ o o', o ∈ O x ∧ o' ∈ O y ∧ contains o o' ∧ (min <= usize_sub (level_of o') (level_of o))%N ∧
      (usize_sub (level_of o') (level_of o) <= m)%N).
    + rewrite elem_of_list_bind, <- HO. split.
      * intros [(o & Hy & Ho) _]. apply elem_of_list_omap in Hy as (e & He & Hy). apply elem_of_slice in He as (i & Hi & He).
        destruct e as [|post lv z|]; [done| |done]. cbv zeta in Hy.
        destruct ((post <=? post_of o)%N && _ && _) eqn:Eb; [|done]. injection Hy as ->.
        rewrite !andb_true_iff, !N.leb_le in Eb. apply (po_pre _ _ P) in He. exists o, (PPO (N.of_nat i) post lv).
        split_and!; [done|done|split; simpl; lia|tauto|tauto].
      * intros (o & [pre post lv] & Ho & Ho' & [Hc1 Hc2] & H1 & H2). split; [|apply not_elem_of_empty]. exists o. split; [|done].
        apply elem_of_list_omap. exists (OPre post lv y). simpl in *.
        destruct (po_range _ _ P _ _ Ho') as [Hr1 Hr2]. simpl in *. split.
        -- apply elem_of_slice. exists (N.to_nat pre). split; [lia|]. apply (po_pre _ _ P). by rewrite N2Nat.id.
        -- replace ((post <=? post_of o)%N && _ && _) with true; [done|]. symmetry. rewrite !andb_true_iff, !N.leb_le. done.
    + split.
      * intros (o & o' & Ho & Ho' & Hc & H1 & H2). destruct (po_sound _ _ P x o y o' Ho Ho' Hc) as (p & Hw & Hl).
        exists p. split; [by apply pp_simple|]. apply (bound_distance min max m); [done|by eapply pp_walk_len|].
        unfold usize_sub in *. replace (level_of o <=? level_of o')%N with true in * by (symmetry; apply N.leb_le; lia). lia.
      * intros (p & Hw%pp_simple & Hd). destruct (proj2 (occ_walk x y (N.of_nat (length p)) Hxn)) as (o & o' & Ho & Ho' & Hc & Hl); [by exists p|].
        exists o, o'. apply (bound_distance min max m) in Hd; [|done|by eapply pp_walk_len].
        unfold usize_sub. replace (level_of o <=? level_of o')%N with true by (symmetry; apply N.leb_le; lia).
        split_and!; [done|done|done|lia|lia].
  - exists []. split_and!; [done|constructor|]. intros y. split; [by intros ?%elem_of_nil|]. intros (p & Hw%pp_simple & [Hd _]).
    destruct Hl as [Hl _]. rewrite (outside x p y Hl Hw) in Hd. simpl in Hd. destruct Hx; [done|lia].
Qed.

Lemma pp_find_connected_inverse_lemma x min max : x ∈ all_nodes G ∨ (1 <= min)%N → max ≠ Excluded 0%N →
  ∃ l, pp_find_connected_inverse s x min max = Some l ∧ NoDup l ∧
    ∀ y, y ∈ l ↔ ∃ p, simple_path E y p x ∧ in_distance min max (length p).
Proof using All.
  intros Hx Hmax. assert (∃ m, max_of_bound max = Some m) as [m Hm].
  { destruct max as [b|b|]; simpl; [by eexists| |by eexists]. destruct (decide _); [congruence|by eexists]. }
  unfold pp_find_connected_inverse. pose proof (pp_lookup x) as Hl. destruct (p_orders s !! x) as [l|] eqn:El.
  - destruct Hl as (_ & Hxn & HO). rewrite Hm. cbn [mbind option_bind]. eexists. split; [reflexivity|].
    match goal with |- NoDup (keep_first ∅ ?L) ∧ _ => destruct (keep_first_spec L ∅) as [Hnd Hin] end.
    split; [done|]. intros y. rewrite Hin. clear Hnd Hin.
    transitivity (∃ o o', o ∈ O x ∧ o' ∈ O y ∧ contains o' o ∧ (level_of o' <= level_of o)%N ∧
      (min <= level_of o - level_of o')%N ∧ (level_of o - level_of o' <= m)%N).
    + rewrite elem_of_list_bind, <- HO. split.
      * intros [(o & Hy & Ho) _]. cbv zeta in Hy. apply elem_of_list_omap in Hy as ([i e] & He & Hy).
        apply elem_of_lookup_imap in He as (i' & e' & [= <- <-] & He). unfold slice in He.
        apply lookup_take_Some in He as [He _]. rewrite lookup_drop in He. cbn [fst snd] in Hy.
        set (up := (usize_sub (N.of_nat (length (p_vec s))) (post_of o) <? pre_of o)%N) in *. clearbody up.
        destruct e as [|post lv z|pre lv z]; [done| |]; destruct up; try done.
        -- destruct (level_of o <? lv)%N eqn:Elv; [done|]. apply N.ltb_ge in Elv.
           destruct (_ && _) eqn:Eb in Hy; [|done]. injection Hy as ->.
           rewrite !andb_true_iff, !N.leb_le in Eb. apply (po_pre _ _ P) in He. exists o, (PPO (N.of_nat (0 + i)) post lv).
           split_and!; [done|done|split; simpl in *; lia|simpl; lia|simpl; lia|simpl; lia].
        -- destruct (level_of o <? lv)%N eqn:Elv; [done|]. apply N.ltb_ge in Elv.
           destruct (_ && _) eqn:Eb in Hy; [|done]. injection Hy as ->.
           rewrite !andb_true_iff, !N.leb_le in Eb. apply (po_post _ _ P) in He.
           exists o, (PPO pre (N.of_nat (N.to_nat (post_of o) + i)) lv).
           split_and!; [done|done|split; simpl in *; lia|simpl; lia|simpl; lia|simpl; lia].
      * intros (o & [pre post lv] & Ho & Ho' & [Hc1 Hc2] & H0 & H1 & H2). split; [|apply not_elem_of_empty]. exists o. split; [|done].
        cbv zeta. simpl in Hc1, Hc2, H0, H1, H2. destruct (po_range _ _ P _ _ Ho') as [Hr1 Hr2]. simpl in Hr1, Hr2.
        set (up := (usize_sub (N.of_nat (length (p_vec s))) (post_of o) <? pre_of o)%N). clearbody up.
        apply elem_of_list_omap. destruct up.
        -- exists (N.to_nat post - N.to_nat (post_of o), OPost pre lv y). split.
           ++ apply elem_of_lookup_imap. eexists _, _. split; [reflexivity|]. unfold slice. apply lookup_take_Some. rewrite lookup_drop.
              replace (N.to_nat (post_of o) + _) with (N.to_nat post) by lia. split; [|lia].
              apply (po_post _ _ P). by rewrite N2Nat.id.
           ++ cbn [fst snd]. replace (N.to_nat (post_of o) + _) with (N.to_nat post) by lia. rewrite N2Nat.id.
              replace (level_of o <? lv)%N with false by (symmetry; apply N.ltb_ge; lia).
              replace (_ && _) with true; [done|]. symmetry. rewrite !andb_true_iff, !N.leb_le. lia.
        -- exists (N.to_nat pre, OPre post lv y). split.
           ++ apply elem_of_lookup_imap. eexists _, _. split; [reflexivity|]. unfold slice. apply lookup_take_Some. rewrite lookup_drop.
              simpl Nat.add. split; [|lia]. apply (po_pre _ _ P). by rewrite N2Nat.id.
           ++ cbn [fst snd]. simpl Nat.add. rewrite N2Nat.id.
              replace (level_of o <? lv)%N with false by (symmetry; apply N.ltb_ge; lia).
              replace (_ && _) with true; [done|]. symmetry. rewrite !andb_true_iff, !N.leb_le. lia.
    + split.
      * intros (o & o' & Ho & Ho' & Hc & H0 & H1 & H2). destruct (po_sound _ _ P y o' x o Ho' Ho Hc) as (p & Hw & Hl).
        exists p. split; [by apply pp_simple|]. apply (bound_distance min max m); [done|by eapply pp_walk_len|]. lia.
      * intros (p & Hw%pp_simple & Hd).
        assert (∃ o0, o0 ∈ O x) as [o0 Ho0].
        { apply (po_some _ _ P) in Hxn as [l' Hl']. destruct l' as [|o l']; [by destruct (po_ne _ _ P x [] Hl')|].
          exists o. unfold occs. rewrite Hl'. by left. }
        destruct (occ_walk_inv x o0 y p Ho0 Hw) as (o & o' & Ho & Ho' & Hc & Hl). exists o, o'.
        apply (bound_distance min max m) in Hd; [|done|by eapply pp_walk_len].
        split_and!; [done|done|done|lia|lia|lia].
  - exists []. split_and!; [done|constructor|]. intros y. split; [by intros ?%elem_of_nil|]. intros (p & Hw%pp_simple & [Hd _]).
    destruct Hl as [Hl _]. rewrite (outside_r y p x Hl Hw) in Hd. simpl in Hd. destruct Hx; [done|lia].
Qed.

Lemma pp_out_lemma x : NoDup (pp_out s x) ∧ ∀ y, y ∈ pp_out s x ↔ E x y.
Proof using All.
  destruct (pp_find_connected_lemma x 1 (Included 1%N)) as (l & El & Hnd & Hl); [right; lia|done|].
  unfold pp_out. rewrite El. split; [done|]. intros y. simpl. rewrite Hl. split.
  - intros (p & [Hw _] & [H1 H2]). destruct p as [|z [|z' p]]; simpl in *; [lia| |lia]. destruct Hw as [Hw <-]. done.
  - intros He. exists [y]. split; [apply pp_simple; by split|]. split; simpl; lia.
Qed.
Lemma pp_in_lemma x : NoDup (pp_in s x) ∧ ∀ y, y ∈ pp_in s x ↔ E y x.
Proof using All.
  destruct (pp_find_connected_inverse_lemma x 1 (Included 1%N)) as (l & El & Hnd & Hl); [right; lia|done|].
  unfold pp_in. rewrite El. split; [done|]. intros y. simpl. rewrite Hl. split.
  - intros (p & [Hw _] & [H1 H2]). destruct p as [|z [|z' p]]; simpl in *; [lia| |lia]. destruct Hw as [Hw <-]. done.
  - intros He. exists [x]. split; [apply pp_simple; by split|]. split; simpl; lia.
Qed.
Lemma pp_sources_lemma : NoDup (pp_sources s) ∧ ∀ x, x ∈ pp_sources s ↔ is_source G x.
Proof using All.
  unfold pp_sources. split; [apply NoDup_filter, NoDup_fst_map_to_list|]. intros x.
  rewrite elem_of_list_filter, elem_of_list_fmap. destruct (pp_out_lemma x) as [_ Ho]. split.
  - intros [Hne _]. destruct (pp_out s x) as [|y l]; [done|]. exists y. apply Ho. by left.
  - intros [y Hy]. split.
    + intros He. apply Ho in Hy. rewrite He in Hy. by apply elem_of_nil in Hy.
    + assert (x ∈ all_nodes G) as [l Hl]%(po_some _ _ P) by by eapply en_l. exists (x, l). split; [done|]. by apply elem_of_map_to_list.
Qed.
Lemma pp_roots_spec : NoDup (pp_roots s) ∧ ∀ x, x ∈ pp_roots s ↔ is_root G x.
Proof using All.
  destruct pp_sources_lemma as [Hnd Hs]. unfold pp_roots. split; [by apply NoDup_filter|]. intros x.
  rewrite elem_of_list_filter, Hs. destruct (pp_in_lemma x) as [_ Hi]. unfold is_root. split.
  - intros [He Hx]. split; [done|]. intros [y Hy]. apply Hi in Hy. rewrite He in Hy. by apply elem_of_nil in Hy.
  - intros [Hx Hn]. split; [|done]. destruct (pp_in s x) as [|y l]; [done|]. destruct Hn. exists y. apply Hi. by left.
Qed.

Lemma pp_diffs_lemma x y n : n ∈ pp_diffs s x y ↔ x ∈ all_nodes G ∧ y ∈ all_nodes G ∧ ∃ p, walk E x p y ∧ n = N.of_nat (length p).
Proof using All.
  unfold pp_diffs. pose proof (pp_lookup x) as Hlx. pose proof (pp_lookup y) as Hly.
  destruct (p_orders s !! x) as [lx|]; [|split; [by intros ?%elem_of_nil|]; intros (? & _); by destruct Hlx].
  destruct (p_orders s !! y) as [ly|]; [|split; [by intros ?%elem_of_nil|]; intros (_ & ? & _); by destruct Hly].
  destruct Hlx as (_ & Hx & HOx), Hly as (_ & Hy & HOy). rewrite <- HOx, <- HOy, <- (occ_walk x y n Hx).
  rewrite elem_of_list_bind. split.
  - intros (a & Hn & Ha). apply elem_of_list_omap in Hn as (b & Hb & Hn). split_and!; [done|done|]. exists a, b.
    destruct (_ && _) eqn:Eb in Hn; [|done]. injection Hn as <-. rewrite !andb_true_iff, !N.leb_le in Eb.
    split_and!; [done|done|split; lia|lia].
  - intros (_ & _ & a & b & Ha & Hb & [Hc1 Hc2] & Hl). exists a. split; [|done]. apply elem_of_list_omap. exists b. split; [done|].
    replace (_ && _) with true; [f_equal; lia|]. symmetry. rewrite !andb_true_iff, !N.leb_le. lia.
Qed.

Lemma fold_min_spec l : ∀ a, (fold_left (λ m d, N.min d m) l a <= a)%N ∧ (∀ d, d ∈ l → (fold_left (λ m d, N.min d m) l a <= d)%N) ∧
  (fold_left (λ m d, N.min d m) l a = a ∨ fold_left (λ m d, N.min d m) l a ∈ l).
Proof using.
  induction l as [|x l IH]; intros a; simpl; [split_and!; [lia|by intros d ?%elem_of_nil|by left]|].
  destruct (IH (N.min x a)) as (H1 & H2 & H3). split_and!.
  - lia.
  - intros d [->|Hd]%elem_of_cons; [lia|by apply H2].
  - rewrite elem_of_cons. destruct H3 as [H3|H3]; [|tauto]. rewrite H3. lia.
Qed.

Lemma pp_distance_lemma x y : match pp_distance s x y with
  | Some d => shortest E x y (N.to_nat d)
  | None => ¬ reachable E x y
  end.
Proof using All.
  unfold pp_distance. destruct (decide (x = y)) as [->|Hxy].
  { split; [by exists []|]. intros p _. simpl. lia. }
  assert (∀ p, walk E x p y → N.of_nat (length p) ∈ pp_diffs s x y) as Hin.
  { intros p Hw. apply pp_diffs_lemma. assert (p ≠ []) as Hp by (intros ->; by simpl in Hw).
    destruct (walk_nodes G x p y Hw Hp). split_and!; [done|done|]. by exists p. }
  destruct (pp_diffs s x y) as [|d0 l] eqn:El.
  - intros (p & Hp). apply Hin in Hp. by apply elem_of_nil in Hp.
  - destruct (fold_min_spec (d0 :: l) usize_max) as (H1 & H2 & H3). set (d := fold_left _ _ _) in *.
    assert (d ∈ d0 :: l) as Hd.
    { destruct H3 as [H3|H3]; [|done]. assert (d0 ∈ d0 :: l) as Hd0 by by left. assert (d0 = d) as <-; [|done].
      specialize (H2 d0 Hd0). rewrite <- El in Hd0. apply pp_diffs_lemma in Hd0 as (_ & _ & p & Hw & ->).
      pose proof (pp_walk_len _ _ _ Hw). lia. }
    rewrite <- El in Hd. apply pp_diffs_lemma in Hd as (_ & _ & p & Hw & ->). rewrite Nat2N.id. split; [by exists p|].
    intros q Hq. specialize (H2 _ (Hin q Hq)). lia.
Qed.

Lemma pp_is_connected_lemma x y min max : x ∈ all_nodes G ∨ (1 <= min)%N → max ≠ Excluded 0%N →
  ∃ b, pp_is_connected s x y min max = Some b ∧
    (b = true → ∃ p, simple_path E x p y ∧ in_distance min max (length p)) ∧
    ((∃ p, simple_path E x p y) → (∀ p, simple_path E x p y → in_distance min max (length p)) → b = true).
Proof using All.
  intros Hx Hmax. assert (∃ m, max_of_bound max = Some m) as [m Hm].
  { destruct max as [b|b|]; simpl; [by eexists| |by eexists]. destruct (decide _); [congruence|by eexists]. }
  assert (pp_is_connected s x y min max = Some (match pp_diffs s x y with d :: _ => (min <=? d)%N && (d <=? m)%N | [] => false end)) as ->.
  { unfold pp_is_connected, pp_diffs. rewrite Hm. cbn [mbind option_bind].
    destruct (p_orders s !! x); [|done]. destruct (p_orders s !! y); [|done]. by destruct (_ ≫= _). }
  eexists. split; [reflexivity|]. destruct (pp_diffs s x y) as [|d l] eqn:El.
  - split; [done|]. intros [p Hp%pp_simple] Hall. exfalso.
    assert (p ≠ [] ∨ x ∈ all_nodes G) as Hor.
    { destruct Hx as [?|?]; [by right|]. left. intros ->. destruct (Hall [] ltac:(by apply pp_simple)) as [H1 _]. simpl in H1. lia. }
    assert (x ∈ all_nodes G ∧ y ∈ all_nodes G) as [H1 H2].
    { destruct (decide (p = [])) as [->|Hne]; [|by apply (walk_nodes G x p y)]. destruct Hor; [done|]. simpl in Hp. by subst. }
    assert (N.of_nat (length p) ∈ pp_diffs s x y) as Hin by (apply pp_diffs_lemma; split_and!; [done|done|by exists p]).
    rewrite El in Hin. by apply elem_of_nil in Hin.
  - assert (d ∈ pp_diffs s x y) as Hd by (rewrite El; by left). apply pp_diffs_lemma in Hd as (_ & _ & p & Hw & ->).
    rewrite andb_true_iff, !N.leb_le, (bound_distance min max m) by (done || by eapply pp_walk_len). split.
    + intros Hd. exists p. split; [by apply pp_simple|done].
    + intros _ Hall. apply Hall. by apply pp_simple.
Qed.

(** In a forest there is only one path between two nodes. *)
Lemma forest_path : one_parent G → ∀ p x y q, walk E x p y → walk E x q y → p = q.
Proof using All.
  intros Hop. assert (∀ p x y q, walk E x p y → walk E x q y → length p = length q → p = q) as H0.
  { intros p. induction p as [|c p IH] using rev_ind; intros x y q Hp Hq Hl.
    - destruct q; [done|simpl in Hl; lia].
    - destruct q as [|c' q _] using rev_ind; [rewrite app_length in Hl; simpl in Hl; lia|].
      rewrite !app_length in Hl. simpl in Hl.
      apply walk_app_inv in Hp as (t & Hp & [Ht Hty]). apply walk_app_inv in Hq as (t' & Hq & [Ht' Hty']). simpl in Hty, Hty'. subst c c'.
      assert (t = t') as <- by by eapply Hop. f_equal. apply (IH x t); [done|done|lia]. }
  assert (∀ p x y q, walk E x p y → walk E x q y → length p < length q → False) as H1.
  { intros p. induction p as [|c p IH] using rev_ind; intros x y q Hp Hq Hl.
    - simpl in Hp. subst y. destruct F as (Hac & _). apply (Hac x). exists q. split; [|done]. intros ->. simpl in Hl. lia.
    - destruct q as [|c' q _] using rev_ind; [simpl in Hl; lia|].
      rewrite !app_length in Hl. simpl in Hl.
      apply walk_app_inv in Hp as (t & Hp & [Ht Hty]). apply walk_app_inv in Hq as (t' & Hq & [Ht' Hty']). simpl in Hty, Hty'. subst c c'.
      assert (t = t') as <- by by eapply Hop. apply (IH x t q); [done|done|lia]. }
  intros p x y q Hp Hq. destruct (lt_eq_lt_dec (length p) (length q)) as [[Hlt|Heq]|Hlt].
  - destruct (H1 p x y q); done.
  - by apply (H0 p x y q).
  - destruct (H1 q x y p); done.
Qed.
Lemma pp_is_connected_forest x y min max : one_parent G → x ∈ all_nodes G ∨ (1 <= min)%N → max ≠ Excluded 0%N →
  ∃ b, pp_is_connected s x y min max = Some b ∧
    (b = true ↔ ∃ p, simple_path E x p y ∧ in_distance min max (length p)).
Proof using All.
  intros Hop Hx Hmax. destruct (pp_is_connected_lemma x y min max Hx Hmax) as (b & Hb & H1 & H2). exists b. split; [done|].
  split; [done|]. intros (p & Hp & Hd). apply H2; [by exists p|]. intros q Hq.
  apply pp_simple in Hp, Hq. by rewrite <- (forest_path Hop p x y q Hp Hq).
Qed.
End queries.
