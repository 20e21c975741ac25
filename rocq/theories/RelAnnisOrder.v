(** The order of the tokens and the tokens covered by a node. *)
From Coq Require Import NArith String Lia.
From stdpp Require Import base list gmap sorting.
From Verif Require Import KeySer KeySerSpec SortedMap Types CompPath GraphUpdate GraphApply GraphApplySpec RelAnnis RelAnnisSpec RelAnnisMaps RelAnnisTree
  RelAnnisNames RelAnnisRun RelAnnisParts RelAnnisGraph RelAnnisEdges ListExtra.

(** ** Neighbours in a sorted list *)
Lemma sorted_neighbours {A} (R : A → A → Prop) l y x : (∀ a, ¬ R a a) → Transitive R → (∀ a b, a ∈ l → b ∈ l → a = b ∨ R a b ∨ R b a) → StronglySorted R l →
  (∃ l1 l2, l = l1 ++ y :: x :: l2) ↔ y ∈ l ∧ x ∈ l ∧ R y x ∧ ∀ z, z ∈ l → ¬ (R y z ∧ R z x).
Proof.
  intros Hi Ht Htot HS. split.
  - intros (l1 & l2 & ->). assert (R y x ∧ (∀ z, z ∈ l1 → R z y) ∧ ∀ z, z ∈ l2 → R x z) as (H1 & H2 & H3).
    { clear Htot. induction l1 as [|a l1 IH].
      - cbn in HS. apply StronglySorted_inv in HS as [HS HF]. apply StronglySorted_inv in HS as [_ HF']. rewrite Forall_forall in HF, HF'. split; [apply HF; left|].
        split; [intros z Hz; by apply elem_of_nil in Hz|done].
      - cbn in HS. apply StronglySorted_inv in HS as [HS HF]. destruct (IH HS) as (H1 & H2 & H3). split; [done|]. split; [|done]. rewrite Forall_forall in HF. intros z Hz.
        apply elem_of_cons in Hz as [-> |Hz]; [|by apply H2]. apply HF. apply elem_of_app. right. left. }
    split; [apply elem_of_app; right; left|]. split; [apply elem_of_app; right; right; left|]. split; [done|]. intros z Hz [Ha Hb].
    apply elem_of_app in Hz as [Hz|Hz]; [apply (Hi y); by transitivity z; [|apply H2]|]. apply elem_of_cons in Hz as [-> |Hz]; [by apply (Hi y)|].
    apply elem_of_cons in Hz as [-> |Hz]; [by apply (Hi x)|]. apply (Hi x). transitivity z; [by apply H3|done].
  - intros (Hy & Hx & Hyx & Hn). apply elem_of_list_split in Hy as (l1 & l2 & ->). exists l1. destruct l2 as [|z l2].
    + exfalso. clear Htot Hn. induction l1 as [|a l1 IH].
      * apply elem_of_list_singleton in Hx as ->. by apply (Hi y).
      * cbn in HS. apply StronglySorted_inv in HS as [HS HF]. rewrite Forall_forall in HF. apply elem_of_cons in Hx as [-> |Hx]; [|by apply IH]. apply (Hi a). transitivity y; [|done]. apply HF.
        apply elem_of_app. right. left.
    + exists l2. do 2 f_equal. assert (R y z ∧ (∀ v, v ∈ l1 → R v y) ∧ ∀ v, v ∈ l2 → R z v) as (H1 & H2 & H3).
      { clear -HS. induction l1 as [|a l1 IH].
        - cbn in HS. apply StronglySorted_inv in HS as [HS HF]. apply StronglySorted_inv in HS as [_ HF']. rewrite Forall_forall in HF, HF'. split; [apply HF; left|].
          split; [intros v Hz; by apply elem_of_nil in Hz|done].
        - cbn in HS. apply StronglySorted_inv in HS as [HS HF]. destruct (IH HS) as (H1 & H2 & H3). split; [done|]. split; [|done]. rewrite Forall_forall in HF. intros v Hz.
          apply elem_of_cons in Hz as [-> |Hz]; [|by apply H2]. apply HF. apply elem_of_app. right. left. }
      f_equal. destruct (Htot z x) as [->|[H|H]]; [apply elem_of_app; right; right; left|done|done| |].
      * exfalso. apply (Hn z); [apply elem_of_app; right; right; left|done].
      * exfalso. apply elem_of_app in Hx as [Hx|Hx]; [apply (Hi y); transitivity x; [done|by apply H2]|]. apply elem_of_cons in Hx as [-> |Hx]; [by apply (Hi y)|].
        apply elem_of_cons in Hx as [-> |Hx]; [by apply (Hi z)|]. apply (Hi z). transitivity x; [by apply H3|done].
Qed.
(** ** Order events *)
Lemma order_elem names l : ∀ prev e2, order_events names prev l = Some e2 → ∀ a b ly ty nm, GraphUpdate.AddEdge a b ly ty nm ∈ e2 ↔
  ∃ l1 y x l2, match prev with Some p => p :: l | None => l end = l1 ++ y :: x :: l2 ∧ same_text y.1 x.1 = true ∧ names !! y.2 = Some a ∧ names !! x.2 = Some b ∧
    ly = (if decide (x.1.1 = []) then annis_ns else default_ns) ∧ ty = actype_name Ordering ∧ nm = x.1.1.
Proof.
  induction l as [|x l IH]; intros prev e2 H a b ly ty nm; cbn [order_events] in H.
  - injection H as <-. split; [intros H; by apply elem_of_nil in H|]. intros (l1 & y & x & l2 & E & _). destruct prev as [p|]; destruct l1 as [|? [|? ?]]; discriminate E.
  - destruct (order_events names (Some x) l) as [es|] eqn:E; [|done]. specialize (IH _ _ E a b ly ty nm). cbn in IH. destruct prev as [p|].
    + assert ((∃ l1 y x' l2, p :: x :: l = l1 ++ y :: x' :: l2 ∧ same_text y.1 x'.1 = true ∧ names !! y.2 = Some a ∧ names !! x'.2 = Some b ∧
          ly = (if decide (x'.1.1 = []) then annis_ns else default_ns) ∧ ty = actype_name Ordering ∧ nm = x'.1.1) ↔
        (same_text p.1 x.1 = true ∧ names !! p.2 = Some a ∧ names !! x.2 = Some b ∧ ly = (if decide (x.1.1 = []) then annis_ns else default_ns) ∧ ty = actype_name Ordering ∧ nm = x.1.1) ∨
        GraphUpdate.AddEdge a b ly ty nm ∈ es) as ->.
      { rewrite IH. split.
        - intros (l1 & y & x' & l2 & El & Hr). destruct l1 as [|z l1]; [left; by injection El as -> -> ->|]. injection El as -> El. right. by exists l1, y, x', l2.
        - intros [H'|(l1 & y & x' & l2 & El & H')]; [by exists [], p, x, l|]. exists (p :: l1), y, x', l2. by rewrite El. }
      destruct (same_text p.1 x.1) eqn:Es.
      * destruct (names !! p.2) as [a'|]; [|done]. destruct (names !! x.2) as [b'|]; [|done]. injection H as <-. rewrite elem_of_cons. split.
        -- intros [H|H]; [|by right]. injection H as -> -> -> -> ->. by left.
        -- intros [(_ & H1 & H2 & -> & -> & ->)|H]; [|by right]. injection H1 as ->. injection H2 as ->. by left.
      * injection H as <-. split; [by right|]. intros [(H' & _)|H]; [discriminate H'|done].
    + injection H as <-. exact IH.
Qed.
Lemma sandwich y z x : index_compare y z = Lt → index_compare z x = Lt → y.1 = x.1 → y.2.1 = x.2.1 → z.1 = y.1 ∧ z.2.1 = y.2.1.
Proof.
  destruct y as [s [[c tx] i]], z as [s' [[c' tx'] i']], x as [s'' [[c'' tx''] i'']]. unfold index_compare, pos_compare. cbn. intros H1 H2 -> E. injection E as -> ->.
  destruct (lex_compare s'' s') eqn:E1; [|exfalso|discriminate H1].
  - apply (cmp_eq lex_compare) in E1 as <-. split; [done|]. rewrite (proj2 (cmp_eq lex_compare s'' s'') eq_refl) in H2.
    destruct (N.compare_spec c'' c') as [<-|Hc|Hc]; [| |discriminate H1].
    + rewrite N.compare_refl in H2. destruct (N.compare_spec tx'' tx') as [<-|Ht|Ht]; [done| |discriminate H1]. rewrite (proj2 (N.compare_gt_iff tx' tx'')) in H2 by lia. discriminate H2.
    + rewrite (proj2 (N.compare_gt_iff c' c'')) in H2 by lia. discriminate H2.
  - rewrite (cmp_anti lex_compare), E1 in H2. discriminate H2.
Qed.
Lemma compare_same s (p q : pos) : p.1 = q.1 → index_compare (s, p) (s, q) = Lt ↔ (p.2 < q.2)%N.
Proof.
  destruct p as [[c x] i], q as [[c' x'] j]. cbn. intros E. injection E as -> ->. unfold index_compare, pos_compare. cbn.
  rewrite (proj2 (cmp_eq lex_compare s s) eq_refl), !N.compare_refl. apply N.compare_lt_iff.
Qed.

Section index.
Context (T : tables) (HN : NoDup (nr_id <$> t_nodes T)) (SK : NoDup (omap order_key (t_nodes T))).
Lemma index_spec q i : token_by_index (t_nodes T) !! q = Some i ↔ ∃ r, r ∈ t_nodes T ∧ order_key r = Some q ∧ nr_id r = i.
Proof.
  unfold token_by_index. rewrite (fold_fill _ (λ r, match order_key r with Some q => Some (q, nr_id r) | None => None end)) by (intros m r; unfold order_key, pos_of; by destruct (nr_kind r)).
  rewrite fill_unique.
  - split.
    + intros (r & Hr & H). exists r. destruct (order_key r); [|done]. by injection H as -> ->.
    + intros (r & Hr & H & <-). exists r. by rewrite H.
  - revert SK. clear. intros SK. induction (t_nodes T) as [|r l IH]; [constructor|]. cbn in *. destruct (order_key r) as [q'|]; [|by apply IH]. cbn. apply NoDup_cons in SK as [H1 H2].
    constructor; [|by apply IH]. intros H. apply H1. apply elem_of_list_fmap in H as ([y v] & E & H). apply elem_of_list_omap in H as (r' & Hr' & H). destruct (order_key r') as [q''|] eqn:Eq; [|done].
    injection H as <- <-. cbn in E. subst. apply elem_of_list_omap. by exists r'.
Qed.
Lemma key_unique r r' q : r ∈ t_nodes T → r' ∈ t_nodes T → order_key r = Some q → order_key r' = Some q → r = r'.
Proof.
  intros Hr Hr' H H'. assert (nr_id r = nr_id r') as E.
  { assert (token_by_index (t_nodes T) !! q = Some (nr_id r)) as E1 by (apply index_spec; by exists r). assert (token_by_index (t_nodes T) !! q = Some (nr_id r')) as E2 by (apply index_spec; by exists r'). congruence. }
  apply elem_of_list_lookup in Hr as [a Ha], Hr' as [b Hb].
  assert (a = b) as ->; [|by rewrite Ha in Hb; injection Hb]. eapply (NoDup_lookup _ a b (nr_id r) HN); rewrite list_lookup_fmap; [by rewrite Ha|by rewrite Hb, E].
Qed.
Lemma index_neighbours y x : same_text y.1 x.1 = true →
  (∃ l1 l2, by_index (token_by_index (t_nodes T)) = l1 ++ y :: x :: l2) ↔
  ∃ r r', next_in_order T x.1.1 r r' ∧ order_key r = Some y.1 ∧ order_key r' = Some x.1 ∧ nr_id r = y.2 ∧ nr_id r' = x.2.
Proof.
  intros Hst. unfold same_text in Hst. apply bool_decide_eq_true in Hst as [Hs Ht].
  change (by_index (token_by_index (t_nodes T))) with (entries index_compare (token_by_index (t_nodes T))).
  rewrite (sorted_neighbours (klt index_compare)).
  - rewrite !entries_elem. setoid_rewrite (entries_elem index_compare). split.
    + intros (Hy & Hx & Hlt & Hn). apply index_spec in Hy as (r & Hr & Kr & Ir). apply index_spec in Hx as (r' & Hr' & Kr' & Ir'). exists r, r'. split; [|done].
      split; [done|]. split; [done|]. destruct y as [[s [[c tx] i]] iy], x as [[s' [[c' tx'] j]] ix]. cbn in *. subst s'. injection Ht as <- <-. exists c, tx, i, j.
      split; [done|]. split; [done|]. unfold klt in Hlt. cbn in Hlt. split; [by apply (compare_same s (c, tx, i) (c, tx, j))|].
      intros r'' m Hr'' Hk. destruct (decide (m <= i ∨ j <= m)%N) as [H|H]; [done|]. exfalso. apply (Hn ((s, (c, tx, m)), nr_id r'')); [apply index_spec; by exists r''|].
      unfold klt. cbn. split; [apply (compare_same s (c, tx, i) (c, tx, m))|apply (compare_same s (c, tx, m) (c, tx, j))]; cbn; lia || done.
    + intros (r & r' & (Hr & Hr' & c & tx & i & j & Kr & Kr' & Hij & Hn) & Ky & Kx & Iy & Ix). rewrite Kr in Ky. injection Ky as Ky. rewrite Kr' in Kx. injection Kx as Kx.
      split; [apply index_spec; exists r; rewrite Kr, Ky; done|]. split; [apply index_spec; exists r'; rewrite Kr', Kx; done|]. unfold klt. rewrite <- Ky, <- Kx.
      rewrite <- Kx in Hn |- *. cbn in Hn |- *. split; [by apply compare_same|]. intros z Hz [H1 H2].
      destruct (sandwich _ _ _ H1 H2) as [Z1 Z2]; [done|done|]. destruct z as [[s [[c' tx'] m]] iz]. cbn in *. subst s. injection Z2 as -> ->. apply index_spec in Hz as (r'' & Hr'' & Kr'' & _).
      apply compare_same in H1; [|done]. apply compare_same in H2; [|done]. cbn in H1, H2. destruct (Hn r'' m Hr'' Kr''); lia.
  - intros a H. unfold klt in H. rewrite (proj2 (cmp_eq index_compare _ _) eq_refl) in H. discriminate H.
  - intros a b c H1 H2. unfold klt in *. by eapply (cmp_trans index_compare).
  - intros a b Ha Hb. apply entries_elem in Ha, Hb. destruct (index_compare a.1 b.1) eqn:E.
    + left. apply (cmp_eq index_compare) in E. destruct a, b. cbn in *. subst. congruence.
    + right. by left.
    + right. right. unfold klt. rewrite (cmp_anti index_compare), E. done.
  - apply entries_sorted. apply _.
Qed.
End index.
Section graph.
Context (t : ctree) (T : tables) (ST : sound_tables t T) (SR : sound_ranks T) (SK : sound_tokens T) (v33 : bool) (ext : option bytes → list (bytes * bytes)) (Hext : ∀ d f, f ∈ ext d → hash ∉ f.1).
Context (ct : ctable) (top : bytes) (es e1 e2 e3 e5 e6 e8 e9 : list event) (k : ranks) (PA : parts t T v33 ext ct top es e1 e2 e3 e5 e6 e8 e9 k).
Local Notation names := (id_to_name ct (t_nodes T)).
Local Notation G := (lg_run annis_ctype lg_empty es).
Let Hct := pa_table _ _ _ _ _ _ _ _ _ _ _ _ _ _ _ PA.
Let named_iff := names_named t T ST v33 ext ct top es e1 e2 e3 e5 e6 e8 e9 k PA.
Lemma named_row r n : r ∈ t_nodes T → named t T (nr_id r) n ↔ row_name t r n.
Proof.
  intros Hr. split; [|intros H; by exists r]. intros (r' & Hr' & E & H). assert (r' = r) as <- by (by eapply node_row_unique). done.
Qed.
Lemma e2_elem a b c : (∃ ty, GraphUpdate.AddEdge a b c.1.2 ty c.2 ∈ e2 ∧ annis_ctype ty = Some c.1.1) ↔
  ∃ s r r', c = order_comp s ∧ next_in_order T s r r' ∧ row_name t r a ∧ row_name t r' b.
Proof.
  pose proof (pa_e2 _ _ _ _ _ _ _ _ _ _ _ _ _ _ _ PA) as He2. split.
  - intros (ty & H & Hty). apply (order_elem _ _ _ _ He2) in H as (l1 & y & x & l2 & El & Hs & Ha & Hb & Hl & -> & Hn). cbn in El. rewrite ct_type in Hty. injection Hty as Hty.
    destruct (proj1 (index_neighbours T (sk_index _ SK) y x Hs) (ex_intro _ l1 (ex_intro _ l2 El))) as (r & r' & Hnext & _ & _ & Iy & Ix).
    exists x.1.1, r, r'. split; [unfold order_comp; destruct c as [[? ?] ?]; cbn in *; by subst|]. split; [done|]. apply named_iff in Ha, Hb. rewrite <- Iy in Ha. rewrite <- Ix in Hb.
    split; [by apply named_row in Ha; [|apply Hnext]|by apply named_row in Hb; [|apply Hnext]].
  - intros (s & r & r' & -> & Hnext & Ha & Hb). exists (actype_name Ordering). split; [|apply ct_type]. apply (order_elem _ _ _ _ He2).
    pose proof Hnext as (Hr & Hr' & c & tx & i & j & Kr & Kr' & Hij & _).
    assert (same_text (s, (c, tx, i)) (s, (c, tx, j)) = true) as Hs by (unfold same_text; apply bool_decide_eq_true; done).
    destruct (proj2 (index_neighbours T (sk_index _ SK) ((s, (c, tx, i)), nr_id r) ((s, (c, tx, j)), nr_id r') Hs)) as (l1 & l2 & E).
    { exists r, r'. done. }
    eexists l1, _, _, l2. split; [exact E|]. cbn. split; [done|]. split; [apply named_iff; by exists r|]. split; [apply named_iff; by exists r'|]. done.
Qed.
Lemma graph_order c a b : c.1.1 = 4%N → (c, (a, b)) ∈ lg_edges G ↔
  a ≠ b ∧ ((∃ s r r', c = order_comp s ∧ next_in_order T s r r' ∧ row_name t r a ∧ row_name t r' b) ∨ ∃ r, edge_of_rank t T r c a b).
Proof.
  intros Hc. rewrite (graph_edges t T ST v33 ext Hext ct top es e1 e2 e3 e5 e6 e8 e9 k PA) by (intros E; rewrite E in Hc; done).
  rewrite <- e2_elem, <- (e8_elem t T ST SR v33 ext ct top es e1 e2 e3 e5 e6 e8 e9 k PA). split.
  - intros (Hab & ty & Hty & H). split; [done|]. destruct H as [H|[H|H]]; [left; by exists ty|right; by exists ty|]. exfalso.
    apply type_of_coverage in H as (? & ? & ? & ? & H). injection H as _ _ _ -> _. rewrite ct_type in Hty. injection Hty as Hty. rewrite <- Hty in Hc. done.
  - intros (Hab & [(ty & H & Hty)|(ty & H & Hty)]); (split; [done|]); exists ty; (split; [done|]); [by left|right; by left].
Qed.
End graph.
