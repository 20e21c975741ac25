From stdpp Require Import base list gmap fin_maps fin_sets sorting.
From Coq Require Import NArith Lia.
From Verif Require Import KeySer KeySerSpec SortedMap Types SymbolTable AnnoMem AnnoMemQueries Dfs DfsProofs DfsQueries GraphSpec
  Adjacency AdjacencySpec AdjacencyProofs Search ListExtra.

Lemma nodup_size (l : list N) (X : gset N) : NoDup l → (∀ x, x ∈ l → x ∈ X) → length l ≤ size X.
Proof.
  intros Hnd Hin. rewrite <- (size_list_to_set (C:=gset N) l) by done. apply subseteq_size. intros x Hx.
  apply elem_of_list_to_set in Hx. auto.
Qed.

(** ** Cycles *)
Section cycles.
Context (E : N → N → Prop).
Lemma walk_back_edge s p t : walk E s p t → ¬ NoDup (s :: p) →
  ∃ q x y, simple_path E s q x ∧ E x y ∧ y ∈ s :: q ∧ (∀ z, z ∈ q → z ∈ p).
Proof.
  revert t. induction p as [|y p IH] using rev_ind; intros t Hw Hnd.
  - destruct Hnd. apply NoDup_singleton.
  - apply walk_app_inv in Hw as (x & Hw & He & Ht). simpl in Ht. subst t.
    destruct (decide (NoDup (s :: p))) as [Hp|Hp].
    + exists p, x, y. split_and!; [done|done| |].
      * destruct (decide (y ∈ s :: p)) as [|Hy]; [done|]. destruct Hnd. rewrite app_comm_cons. apply NoDup_app.
        split_and!; [done| |apply NoDup_singleton]. intros z Hz ->%elem_of_list_singleton. done.
      * intros z Hz. apply elem_of_app. by left.
    + destruct (IH x Hw Hp) as (q & x' & y' & ? & ? & ? & Hsub). exists q, x', y'. split_and!; [done..|].
      intros z Hz. apply elem_of_app. left. auto.
Qed.
Lemma back_edge_cycle s q x y : walk E s q x → E x y → y ∈ s :: q → on_cycle E y ∧ reachable E s y.
Proof.
  intros Hw He Hy. apply elem_of_list_split in Hy as (l1 & l2 & Hl).
  assert (∃ p1, walk E s p1 y ∧ walk E y l2 x) as (p1 & H1 & H2).
  { destruct l1 as [|z l1]; simpl in Hl; injection Hl as -> ->.
    - by exists [].
    - change (l1 ++ y :: l2) with (l1 ++ [y] ++ l2) in Hw. rewrite (assoc_L (++)) in Hw.
      apply walk_app_inv in Hw as (u & H1 & H2). exists (l1 ++ [y]). pose proof (walk_last _ _ _ _ H1) as Hlast.
      rewrite app_comm_cons, last_snoc in Hlast. injection Hlast as <-. done. }
  split; [|by exists p1]. exists (l2 ++ [y]). split; [by destruct l2|]. by eapply walk_snoc.
Qed.
Lemma cycle_walk_long x n : on_cycle E x → ∃ p, walk E x p x ∧ n ≤ length p.
Proof.
  intros (c & Hne & Hc). induction n as [|n (p & Hp & Hl)].
  - exists []. split; [done|simpl; lia].
  - exists (c ++ p). split; [by eapply walk_app|]. rewrite app_length. destruct c; [done|]. simpl. lia.
Qed.
Lemma reachable_cycle_back_edge s x (X : gset N) : reachable E s x → on_cycle E x → (∀ a b, E a b → a ∈ X ∧ b ∈ X) →
  ∃ q u y, simple_path E s q u ∧ E u y ∧ y ∈ s :: q.
Proof.
  intros [p Hp] Hc HX. destruct (cycle_walk_long x (S (size X)) Hc) as (c & Hw & Hl).
  destruct (walk_back_edge s (p ++ c) x) as (q & u & y & ? & ? & ? & _).
  - by eapply walk_app.
  - intros Hnd. apply NoDup_cons in Hnd as [_ Hnd]. apply NoDup_app in Hnd as (_ & _ & Hnd).
    assert (length c ≤ size X); [|lia]. apply nodup_size; [done|]. clear -Hw HX. revert x Hw.
    assert (∀ x t, walk E x c t → ∀ z, z ∈ c → z ∈ X) as Hgen; [|eauto].
    induction c as [|y c IH]; intros x t; simpl; [set_solver|]. intros [He Hw] z [->|Hz]%elem_of_cons; [by eapply HX|].
    by eapply IH.
  - eauto 10.
Qed.

(** A nonempty finite set in which everything has a predecessor contains a cycle. *)
Lemma no_source_cycle (K X : gset N) : K ≠ ∅ → (∀ k, k ∈ K → ∃ k', k' ∈ K ∧ E k' k) → (∀ a b, E a b → a ∈ X ∧ b ∈ X) →
  ∃ x, on_cycle E x.
Proof.
  intros HK Hpred HX.
  assert (∀ n, ∃ k p t, k ∈ K ∧ walk E k p t ∧ length p = n) as Hlong.
  { induction n as [|n (k & p & t & Hk & Hw & Hl)].
    - apply set_choose_L in HK as [k Hk]. exists k, [], k. done.
    - destruct (Hpred k Hk) as (k' & Hk' & He). exists k', (k :: p), t. simpl. split_and!; try done. by f_equal. }
  destruct (Hlong (S (size X))) as (k & p & t & _ & Hw & Hl).
  destruct (walk_back_edge k p t Hw) as (q & x & y & [Hq _] & He & Hy & _).
  - intros Hnd. apply NoDup_cons in Hnd as [_ Hnd].
    assert (length p ≤ size X); [|lia]. apply nodup_size; [done|]. clear -Hw HX.
    revert k Hw. induction p as [|y c IH]; intros x; simpl; [set_solver|]. intros [He Hw] z [->|Hz]%elem_of_cons; [by eapply HX|].
    by eapply IH.
  - exists y. by eapply back_edge_cycle.
Qed.
End cycles.

(** ** Helpers of calculate_statistics *)
Lemma tree_fold l : ∀ (b : bool) X, (fold_left tree_step l (b, X)).1 = true ↔ b = true ∧ NoDup l ∧ ∀ x, x ∈ l → x ∉ X.
Proof.
  induction l as [|t l IH]; intros b X; simpl.
  - split; [|naive_solver]. intros ->. split_and!; [done|constructor|]. intros x ?%elem_of_nil. done.
  - destruct b; simpl.
    + destruct (decide (t ∈ X)) as [Hin|Hin].
      * rewrite IH. split; [naive_solver|]. intros (_ & _ & Hx). destruct (Hx t); [by left|done].
      * rewrite IH. rewrite NoDup_cons. split.
        -- intros (_ & Hnd & Hx). split_and!; [done| |done|].
           ++ intros Ht. apply (Hx t Ht). set_solver.
           ++ intros x [->|Hx']%elem_of_cons; [done|]. specialize (Hx x Hx'). set_solver.
        -- intros (_ & [Hnt Hnd] & Hx). split_and!; [done|done|]. intros x Hx'.
           assert (x ∉ X) by (apply Hx; by right). assert (x ≠ t) by (intros ->; done). set_solver.
    + rewrite IH. split; naive_solver.
Qed.
Lemma targets_nodup (l : list (N * list N)) : NoDup l.*1 → (∀ a la, (a, la) ∈ l → NoDup la) →
  NoDup (l.*2 ≫= id) ↔ ∀ a la b lb x, (a, la) ∈ l → (b, lb) ∈ l → x ∈ la → x ∈ lb → a = b.
Proof.
  induction l as [|[a la] l IH]; intros Hnd Hls.
  - split; [|constructor]. intros _ a la b lb x ?%elem_of_nil. done.
  - rewrite fmap_cons in Hnd. apply NoDup_cons in Hnd as [Ha Hnd]. simpl. rewrite NoDup_app. rewrite IH.
    2: done. 2:{ intros b lb Hb. eapply Hls. by right. }
    assert (∀ x, x ∈ l.*2 ≫= id ↔ ∃ b lb, (b, lb) ∈ l ∧ x ∈ lb) as Hb.
    { intros x. rewrite elem_of_list_bind. split.
      - intros (lb & Hx & ([b lb'] & -> & Hin)%elem_of_list_fmap). eauto.
      - intros (b & lb & Hin & Hx). exists lb. split; [done|]. apply elem_of_list_fmap. by exists (b, lb). }
    split.
    + intros (_ & Hd & Hrec) a' la' b' lb' x [[= -> ->]|H1]%elem_of_cons [[= -> ->]|H2]%elem_of_cons Hx1 Hx2; try done.
      * destruct (Hd x Hx1). apply Hb. eauto.
      * destruct (Hd x Hx2). apply Hb. eauto.
      * by eapply Hrec.
    + intros Hrec. split_and!.
      * eapply Hls. by left.
      * intros x Hx (b & lb & Hin & Hx')%Hb. apply Ha.
        rewrite (Hrec a la b lb x); [|by left|by right|done|done]. apply elem_of_list_fmap. by exists (b, lb).
      * intros a' la' b' lb' x H1 H2. eapply Hrec; by right.
Qed.

Lemma last_sorted_max (l : list nat) : StronglySorted le l → (∀ x, x ∈ l → x ≤ default 0 (last l)).
Proof.
  induction 1 as [|y l Hs IH Hy]; intros x; [by intros ?%elem_of_nil|]. intros [->|Hx]%elem_of_cons.
  - destruct (last l) as [z|] eqn:El; rewrite last_cons, El; [|done]. simpl. rewrite Forall_forall in Hy. apply Hy.
    by apply last_Some_elem_of.
  - specialize (IH x Hx). rewrite last_cons. destruct (last l) eqn:El; [done|].
    apply last_None in El. subst l. by apply elem_of_nil in Hx.
Qed.
Lemma fan_outs_max m : let mx := default 0 (last (fan_outs m)) in
  (∀ x, length (adj_list m x) ≤ mx) ∧ (mx = 0 ∨ ∃ x, length (adj_list m x) = mx).
Proof.
  intros mx.
  assert (∀ n, n ∈ fan_outs m ↔ ∃ x l, m !! x = Some l ∧ n = length l) as Hin.
  { intros n. unfold fan_outs. rewrite (sort_list_perm Nat.compare). rewrite elem_of_list_fmap. split.
    - intros (l & -> & ([x l'] & -> & Hl%elem_of_map_to_list)%elem_of_list_fmap). eauto.
    - intros (x & l & Hl & ->). exists l. split; [done|]. apply elem_of_list_fmap. exists (x, l). split; [done|].
      by apply elem_of_map_to_list. }
  split.
  - intros x. unfold adj_list. destruct (m !! x) as [l|] eqn:El; simpl; [|lia].
    apply last_sorted_max; [|apply Hin; eauto].
    apply sort_list_sorted; [intros a b c; lia| |].
    + intros a b. rewrite Nat.compare_gt_iff. lia.
    + intros a b. rewrite Nat.compare_gt_iff. lia.
  - unfold mx. destruct (last (fan_outs m)) as [n|] eqn:El; [|by left]. right.
    apply last_Some_elem_of, Hin in El as (x & l & Hl & ->). exists x. unfold adj_list. by rewrite Hl.
Qed.

Section stats.
Context (G : gset edge) (out : N → list N) (Hout : ∀ x y, y ∈ out x ↔ Edge x y ∈ G).
Notation R := (edge_rel G).
Context (Hsize : (N.of_nat (size (all_nodes G)) <= usize_max)%N).

Lemma path_short n p t : n ∈ all_nodes G ∨ p = [] → simple_path R n p t → (N.of_nat (length p) <= usize_max)%N ∧
  (n ∈ all_nodes G → (N.of_nat (length p) < usize_max)%N).
Proof.
  intros Hor [Hw Hnd]. assert (n ∈ all_nodes G → (N.of_nat (length p) < usize_max)%N) as Hlt.
  { intros Hn. assert (length (n :: p) ≤ size (all_nodes G)) as Hl; [|simpl in Hl; lia].
    apply nodup_size; [done|]. intros x [->|Hx]%elem_of_cons; [done|]. clear -Hw Hx. revert n Hw.
    induction p as [|y p IH]; intros n; simpl; [by apply elem_of_nil in Hx|]. intros [He Hw].
    apply elem_of_cons in Hx as [->|Hx]; [by eapply all_nodes_edge|by eapply IH]. }
  split; [|done]. destruct Hor as [Hn| ->]; [|simpl; lia]. specialize (Hlt Hn). lia.
Qed.

Definition back_edge (r : N) : Prop := ∃ p x y, simple_path R r p x ∧ R x y ∧ y ∈ r :: p.

Lemma visit_lemma roots : (∀ r, r ∈ roots → r ∈ all_nodes G ∨ out r = []) →
  ∃ f0, ∀ f, f0 ≤ f → ∀ v d c, ∃ v' d' c',
    visit_roots f (out) roots (v, d, c) = Some (v', d', c') ∧
    (c' = true ↔ c = true ∨ ∃ r, r ∈ roots ∧ back_edge r) ∧
    d ≤ d' ∧ (∀ r p x, r ∈ roots → simple_path R r p x → length p ≤ d') ∧
    (d' = d ∨ ∃ r p x, r ∈ roots ∧ simple_path R r p x ∧ length p = d').
Proof.
  induction roots as [|r roots IH]; intros Hr.
  - exists 0. intros f _ v d c. exists v, d, c. split_and!; [done| |done| |by left].
    + split; [by left|]. intros [?|(r & ?%elem_of_nil & _)]; done.
    + intros r p x ?%elem_of_nil. done.
  - destruct IH as (f1 & IH); [intros r' ?; apply Hr; by right|].
    destruct (search_total (out) 0 usize_max (({[r]} ∪ all_nodes G : gset N))) with (s := dfs_new r) (node := r) as (f2 & Hs); try done.
    { exact (sv_out G out Hout r). } { exact (sv_self G r). }
    exists (f1 `max` f2). intros f Hf v d c. simpl.
    destruct (Hs f ltac:(lia)) as (l & s' & -> & Hl & Hc).
    set (d1 := fold_left (λ d (x : N * nat), d `max` x.2) l d).
    destruct (IH f ltac:(lia) (v + length l) d1 (c || d_cycle s')) as (v' & d' & c' & E & Hc' & Hd1 & Hall & Hex).
    exists v', d', c'. split; [done|].
    assert (∀ p x, simple_path R r p x ↔ simple_path (λ a b, b ∈ out a) r p x) as Hext.
    { intros p x. apply simple_path_ext. intros a b. symmetry. by apply Hout. }
    assert (∀ p x, simple_path R r p x → (N.of_nat (length p) <= usize_max)%N ∧
              (∀ y, R x y → (N.of_nat (length p) < usize_max)%N)) as Hshort.
    { intros p x Hp. destruct (Hr r) as [Hin|Hem]; [by left| |].
      - destruct (path_short r p x (or_introl Hin) Hp) as [? Hlt]. split; [done|]. intros _ _. auto.
      - assert (p = []) as ->.
        { destruct Hp as [Hw _]. destruct p as [|y p]; [done|]. destruct Hw as [He _].
          apply Hout in He. rewrite Hem in He. by apply elem_of_nil in He. }
        split; [simpl; lia|]. intros y He. unfold usize_max. simpl. lia. }
    assert (∀ l d, d ≤ fold_left (λ d (x : N * nat), d `max` x.2) l d ∧
              (∀ x k, (x, k) ∈ l → k ≤ fold_left (λ d (x : N * nat), d `max` x.2) l d) ∧
              (fold_left (λ d (x : N * nat), d `max` x.2) l d = d ∨
               ∃ x k, (x, k) ∈ l ∧ fold_left (λ d (x : N * nat), d `max` x.2) l d = k)) as Hfold.
    { clear. induction l as [|[x k] l IH]; intros d; simpl.
      - split_and!; [done| |by left]. intros x k ?%elem_of_nil. done.
      - destruct (IH (d `max` k)) as (H1 & H2 & H3). split_and!; [lia| |].
        + intros x' k' [[= -> ->]|Hin]%elem_of_cons; [lia|by eapply H2].
        + destruct H3 as [->|(x' & k' & ? & ?)].
          * destruct (decide (d ≤ k)); [|left; lia]. right. exists x, k. split; [by left|lia].
          * right. exists x', k'. split; [by right|done]. }
    destruct (Hfold l d) as (F1 & F2 & F3). fold d1 in F1, F2, F3. split_and!.
    + rewrite Hc'. rewrite orb_true_iff, Hc. simpl. split.
      * intros [[?|[?|(p & x & y & Hp & _ & Hy & Hb)]]|(r' & ? & ?)]; [by left|done| |].
        -- right. exists r. split; [by left|]. exists p, x, y. split_and!; [by apply Hext| |done]. by apply Hout.
        -- right. exists r'. split; [by right|done].
      * intros [?|(r' & [->|Hr']%elem_of_cons & Hb)]; [by left; left| |right; eauto].
        left. right. right. destruct Hb as (p & x & y & Hp & Hy & Hb). exists p, x, y. split_and!.
        -- by apply Hext.
        -- by eapply Hshort.
        -- by apply Hout.
        -- done.
    + lia.
    + intros r' p x [->|Hr']%elem_of_cons Hp; [|by eapply Hall]. etrans; [|exact Hd1]. eapply F2. apply Hl.
      exists p. split_and!; [by apply Hext|done|]. unfold in_rng. apply andb_true_iff. split; [by apply N.leb_le; lia|].
      apply N.leb_le. by eapply Hshort.
    + destruct Hex as [->|(r' & p & x & ? & ? & ?)].
      * destruct F3 as [->|(x & k & Hin & Hk)]; [by left|]. right. apply Hl in Hin as (p & Hp & -> & _).
        exists r, p, x. split_and!; [by left|by apply Hext|done].
      * right. exists r', p, x. split_and!; [by right|done|done].
Qed.

Definition stats_correct (st : stats) : Prop :=
  (s_cyclic st = true → ∃ x, on_cycle R x) ∧
  (s_cyclic st = false → ∀ r x, is_root G r → reachable R r x → ¬ on_cycle R x) ∧
  (s_rooted_tree st = true ↔ s_cyclic st = false ∧ one_parent G) ∧
  size (all_nodes G) ≤ s_nodes st ∧
  (∀ x, fan_out G x ≤ s_max_fan_out st) ∧ (s_max_fan_out st = 0 ∨ ∃ x, fan_out G x = s_max_fan_out st) ∧
  (s_cyclic st = false →
     (∀ r p x, is_root G r → simple_path R r p x → length p ≤ s_max_depth st) ∧
     (s_max_depth st = 1 ∨ ∃ r p x, is_root G r ∧ simple_path R r p x ∧ length p = s_max_depth st)).

Section calc.
Context (sources targets : list N) (nonempty : bool) (fo fi : list nat).
Context (Hne : nonempty = true → sources ≠ []).
Context (Hsrc' : ∀ x, is_source G x → x ∈ sources).
Context (Htgt : ∀ x, x ∈ targets ↔ is_target G x).
Context (Hparent : NoDup targets ↔ one_parent G).
Context (Hfan1 : ∀ x, fan_out G x ≤ default 0 (last fo)).
Context (Hfan2 : default 0 (last fo) = 0 ∨ ∃ x, fan_out G x = default 0 (last fo)).

Lemma stats_of_lemma : ∃ f0, ∀ f, f0 ≤ f → ∃ st, stats_of f out sources targets nonempty fo fi = Some st ∧ stats_correct st.
Proof.
  set (roots := (list_to_set sources ∖ list_to_set targets) : gset N).
  assert (∀ x, x ∈ roots → ¬ is_target G x) as Hroot1.
  { intros x. subst roots. rewrite elem_of_difference, !elem_of_list_to_set, Htgt. tauto. }
  assert (∀ x, is_root G x → x ∈ roots) as Hroot2.
  { intros x [? ?]. subst roots. rewrite elem_of_difference, !elem_of_list_to_set, Htgt. auto. }
  assert (∀ r, r ∈ roots → is_root G r ∨ out r = []) as Hroot3.
  { intros r Hr. destruct (out r) as [|y l] eqn:El; [by right|left]. split; [|by apply Hroot1].
    exists y. apply Hout. rewrite El. by left. }
  assert ((fold_left tree_step targets (true, ∅)).1 = true ↔ one_parent G) as Htree.
  { rewrite tree_fold, <- Hparent. split; [by intros (_ & ? & _)|]. intros ?. split_and!; [done|done|].
    intros x _. apply not_elem_of_empty. }
  assert (size (all_nodes G) ≤ size (list_to_set sources ∪ list_to_set targets : gset N)) as Hnn.
  { apply subseteq_size. intros x. unfold all_nodes. rewrite !elem_of_union, !elem_of_map, !elem_of_list_to_set.
    intros [([a b] & -> & He)|([a b] & -> & He)]; [left; apply Hsrc'; by exists b|right; apply Htgt; by exists a]. }
  assert (∀ a b, R a b → a ∈ all_nodes G ∧ b ∈ all_nodes G) as Hnodes by (intros a b; apply all_nodes_edge).
  unfold stats_of. fold roots.
  destruct (decide (roots = ∅ ∧ nonempty = true)) as [[Hre Hnt]|Hnre].
  - exists 0. intros f _. eexists. split; [reflexivity|]. split_and!; simpl.
    + intros _. apply (no_source_cycle R (list_to_set sources) (all_nodes G)); [| |done].
      * intros Hd. destruct sources as [|x l] eqn:El; [by apply Hne|]. apply (elem_of_empty (C:=gset N) x).
        rewrite <- Hd. apply elem_of_list_to_set. by left.
      * intros k Hk%elem_of_list_to_set. assert (is_target G k) as [y Hy].
        { apply Htgt. destruct (decide (k ∈ targets)); [done|]. assert (k ∈ roots) as Hkr.
          { subst roots. rewrite elem_of_difference, !elem_of_list_to_set. done. }
          rewrite Hre in Hkr. by apply elem_of_empty in Hkr. }
        exists y. split; [|done]. apply elem_of_list_to_set, Hsrc'. by exists k.
    + done.
    + rewrite andb_false_r. split; [done|]. by intros [? _].
    + done.
    + done.
    + done.
    + done.
  - destruct (visit_lemma (elements roots)) as (f0 & Hv).
    { intros r Hr%elem_of_elements. destruct (Hroot3 r Hr) as [[[y Hy] _]|?]; [left|by right]. exact (proj1 (Hnodes _ _ Hy)). }
    exists f0. intros f Hf. destruct (Hv f Hf 0 1 false) as (v' & d' & c' & -> & Hc & Hd & Hall & Hex). simpl.
    eexists. split; [reflexivity|]. split_and!; simpl.
    + intros Hct. apply Hc in Hct as [?|(r & _ & p & x & y & [Hp _] & He & Hy)]; [done|]. exists y. by eapply back_edge_cycle.
    + intros Hcf r x Hr Hrx Hcy. destruct (reachable_cycle_back_edge R r x (all_nodes G) Hrx Hcy Hnodes) as (q & u & y & ? & ? & ?).
      assert (c' = true); [|congruence]. apply Hc. right. exists r. split; [by apply elem_of_elements, Hroot2|].
      by exists q, u, y.
    + rewrite andb_true_iff, Htree, negb_true_iff. tauto.
    + done.
    + done.
    + done.
    + intros Hcf. rewrite Hcf. split.
      * intros r p x Hr. apply Hall. by apply elem_of_elements, Hroot2.
      * destruct Hex as [->|(r & p & x & Hr%elem_of_elements & Hp & Hlen)]; [by left|].
        destruct (Hroot3 r Hr) as [Hroot|Hem]; [right; by exists r, p, x|]. left.
        assert (p = []) as ->; [|simpl in Hlen; lia].
        destruct Hp as [Hw _]. destruct p as [|y p]; [done|]. destruct Hw as [He _].
        apply Hout in He. rewrite Hem in He. by apply elem_of_nil in He.
Qed.
End calc.
End stats.

(** calculate_statistics of the adjacency list *)
Section adj_stats.
Context (s : adj) (g : graph) (I : ginv s g).
Notation G := (gr_edges g).

Lemma fan_out_length x : fan_out G x = length (adj_out s x).
Proof.
  unfold fan_out.
  assert (filter (λ e, source e = x) G = list_to_set ((λ y, Edge x y) <$> adj_out s x)) as ->.
  { apply set_eq. intros [a b]. rewrite elem_of_filter, elem_of_list_to_set, elem_of_list_fmap. simpl. split.
    - intros [-> He]. exists b. split; [done|]. by apply (gi_out _ _ I).
    - intros (y & [= -> ->] & Hy). split; [done|]. by apply (gi_out _ _ I). }
  rewrite size_list_to_set, fmap_length; [done|]. apply NoDup_fmap_inj_on.
  - apply nsorted_NoDup, (gi_out_sorted _ _ I).
  - intros a b _ _ [= ->]. done.
Qed.

Lemma calc_stats_lemma : (N.of_nat (size (all_nodes G)) <= usize_max)%N →
  ∃ f0, ∀ f, f0 ≤ f → ∃ st, calc_stats f s = Some st ∧ stats_correct G st.
Proof.
  intros Hsize. apply (stats_of_lemma G (adj_out s)); [exact (gi_out _ _ I)|done|..].
  - intros Hne%bool_decide_eq_true El. apply Hne. apply map_to_list_empty_iff. by apply fmap_nil_inv in El.
  - intros x [y Hy]. apply (out_rel s g _ _ I) in Hy. unfold adj_out, adj_list in Hy.
    destruct (g_edges s !! x) as [l|] eqn:El; [|by apply elem_of_nil in Hy]. apply elem_of_list_fmap. exists (x, l).
    split; [done|]. by apply elem_of_map_to_list.
  - intros x. unfold is_target. rewrite elem_of_list_bind. split.
    + intros (l & Hx & ([k v] & -> & Hk%elem_of_map_to_list)%elem_of_list_fmap). exists k. apply (out_rel s g _ _ I).
      unfold adj_out, adj_list. simpl in *. by rewrite Hk.
    + intros [y Hy]. apply (out_rel s g _ _ I) in Hy. unfold adj_out, adj_list in Hy.
      destruct (g_edges s !! y) as [l|] eqn:El; [|by apply elem_of_nil in Hy]. exists l. split; [done|].
      apply elem_of_list_fmap. exists (y, l). split; [done|]. by apply elem_of_map_to_list.
  - rewrite targets_nodup.
    + split.
      * intros Hd a b x Ha Hb. apply (out_rel s g _ _ I) in Ha. apply (out_rel s g _ _ I) in Hb.
        unfold adj_out, adj_list in Ha, Hb.
        destruct (g_edges s !! a) as [la|] eqn:Ea; [|by apply elem_of_nil in Ha].
        destruct (g_edges s !! b) as [lb|] eqn:Eb; [|by apply elem_of_nil in Hb].
        apply (Hd a la b lb x); [by apply elem_of_map_to_list..|done|done].
      * intros Hop a la b lb x Ha%elem_of_map_to_list Hb%elem_of_map_to_list Hx1 Hx2. apply (Hop a b x).
        -- apply (out_rel s g _ _ I). unfold adj_out, adj_list. by rewrite Ha.
        -- apply (out_rel s g _ _ I). unfold adj_out, adj_list. by rewrite Hb.
    + apply NoDup_fst_map_to_list.
    + intros a la Ha%elem_of_map_to_list. apply nsorted_NoDup. pose proof (gi_out_sorted _ _ I a) as Hs.
      unfold adj_out, adj_list in Hs. by rewrite Ha in Hs.
  - intros x. rewrite fan_out_length. apply fan_outs_max.
  - destruct (fan_outs_max (g_edges s)) as [_ [?|[x Hx]]]; [by left|]. right. exists x. rewrite fan_out_length. done.
Qed.
End adj_stats.
