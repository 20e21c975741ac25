From stdpp Require Import base list gmap fin_maps fin_sets sorting.
From Coq Require Import NArith Lia.
From Verif Require Import KeySer KeySerSpec SortedMap Types SymbolTable SymTabIface AnnoMem AnnoMemProofs Dfs DfsProofs
  GraphSpec Adjacency AdjacencySpec AdjacencyProofs StatsProofs CopyProofs ListExtra Linear EdgeAnnoProofs.

(** ** Acyclic graphs *)
Lemma en_l G a b : edge_rel G a b → a ∈ all_nodes G.
Proof. intros H. apply (all_nodes_edge _ _ _ H). Qed.
Lemma en_r G a b : edge_rel G a b → b ∈ all_nodes G.
Proof. intros H. apply (all_nodes_edge _ _ _ H). Qed.
Lemma walk_nodes G a p b : walk (edge_rel G) a p b → p ≠ [] → a ∈ all_nodes G ∧ b ∈ all_nodes G.
Proof.
  revert a. induction p as [|c p IH]; intros a Hw Hp; [done|]. destruct Hw as [Hac Hw].
  split; [by eauto using en_l, en_r|]. destruct p as [|d p]; [|by apply (IH c)].
  simpl in Hw. subst. by eauto using en_l, en_r.
Qed.
Lemma walk_all_nodes G a p b x : walk (edge_rel G) a p b → x ∈ p → x ∈ all_nodes G.
Proof.
  revert a. induction p as [|c p IH]; intros a Hw Hx; [by apply elem_of_nil in Hx|]. destruct Hw as [Hac Hw].
  apply elem_of_cons in Hx as [->|Hx]; [by eauto using en_l, en_r|by eapply IH].
Qed.
Lemma acyclic_nodup E a p b : acyclic E → walk E a p b → NoDup (a :: p).
Proof.
  intros Hac Hw. destruct (decide (NoDup (a :: p))) as [|Hn]; [done|].
  destruct (walk_back_edge E a p b Hw Hn) as (q & x & y & [Hq _] & He & Hy & _).
  destruct (Hac y). by eapply back_edge_cycle.
Qed.
Lemma acyclic_simple E a p b : acyclic E → simple_path E a p b ↔ walk E a p b.
Proof. intros Hac. split; [by intros [? _]|]. intros Hw. split; [done|]. by eapply acyclic_nodup. Qed.
Lemma acyclic_path_length G a p b : acyclic (edge_rel G) → walk (edge_rel G) a p b → length p ≤ size (all_nodes G).
Proof.
  intros Hac Hw. apply nodup_size; [by eapply NoDup_cons_1_2, acyclic_nodup|]. intros x. by eapply walk_all_nodes.
Qed.
Lemma target_dec G y : Decision (is_target G y).
Proof.
  destruct (decide (filter (λ e, target e = y) G = ∅)) as [He|He].
  - right. intros [x Hx]. assert (Edge x y ∈ filter (λ e, target e = y) G) as Hf by (apply elem_of_filter; done).
    rewrite He in Hf. by apply elem_of_empty in Hf.
  - left. apply set_choose_L in He as [[a b] [Hb Hin]%elem_of_filter]. simpl in Hb. subst. by exists a.
Qed.
Lemma all_nodes_cases G y : y ∈ all_nodes G ↔ is_source G y ∨ is_target G y.
Proof.
  unfold all_nodes, is_source, is_target, edge_rel. rewrite elem_of_union, !elem_of_map. split.
  - intros [([a b] & -> & Hin)|([a b] & -> & Hin)]; [left; by exists b|right; by exists a].
  - intros [[b Hin]|[a Hin]]; [left; by exists (Edge y b)|right; by exists (Edge a y)].
Qed.
Lemma reach_root G x : acyclic (edge_rel G) → x ∈ all_nodes G → ∃ r, is_root G r ∧ reachable (edge_rel G) r x.
Proof.
  intros Hac Hx. cut (∀ n y p, S (size (all_nodes G)) - length p < n → y ∈ all_nodes G → walk (edge_rel G) y p x →
    ∃ r, is_root G r ∧ reachable (edge_rel G) r x).
  { intros Hc. by apply (Hc (S (S (size (all_nodes G)))) x []); [simpl; lia|..]. }
  induction n as [|n IH]; intros y p Hn Hy Hw; [lia|]. destruct (target_dec G y) as [[z Hz]|Hnt].
  - apply (IH z (y :: p)); [|by eauto using en_l, en_r|by split].
    pose proof (acyclic_path_length G z (y :: p) x Hac (conj Hz Hw)). simpl in *. lia.
  - exists y. split; [|by exists p]. split; [|done]. apply all_nodes_cases in Hy as [?|?]; done.
Qed.

(** ** Chains given by single successors *)
Section chain.
Context (out : N → list N).
Notation E := (λ a b, b ∈ out a).

Fixpoint chainl (l : list N) : Prop :=
  match l with
  | [] => False
  | x :: l' => match l' with [] => out x = [] | y :: _ => out x = [y] ∧ chainl l' end
  end.
Lemma chainl_next l : chainl l → ∀ i x, l !! i = Some x → out x = match l !! S i with Some y => [y] | None => [] end.
Proof.
  induction l as [|a l IH]; intros Hc i x Hi; [done|]. destruct l as [|b l].
  - destruct i; simpl in *; [by injection Hi as <-|done].
  - destruct Hc as [Ha Hc]. destruct i as [|i]; [simpl in *; by injection Hi as <-|]. by apply (IH Hc i).
Qed.
Lemma chainl_walk l : chainl l → ∀ i k x y, l !! i = Some x → l !! (i + k) = Some y → ∃ p, walk E x p y ∧ length p = k.
Proof.
  intros Hc i k. revert i. induction k as [|k IH]; intros i x y Hx Hy.
  - rewrite Nat.add_0_r in Hy. exists []. split; [simpl; congruence|done].
  - pose proof (chainl_next l Hc i x Hx) as Ho. destruct (l !! S i) as [z|] eqn:Ez.
    + destruct (IH (S i) z y Ez) as (p & Hw & Hl); [by rewrite Nat.add_succ_comm|]. exists (z :: p). split; [|simpl; lia].
      split; [rewrite Ho; by left|done].
    + exfalso. apply lookup_ge_None in Ez. apply lookup_lt_Some in Hy. lia.
Qed.
Lemma chainl_walk_inv l : chainl l → ∀ p i x y, l !! i = Some x → walk E x p y → l !! (i + length p) = Some y.
Proof.
  intros Hc. induction p as [|z p IH]; intros i x y Hx Hw; simpl in Hw.
  - subst. by rewrite Nat.add_0_r.
  - destruct Hw as [Hz Hw]. rewrite (chainl_next l Hc i x Hx) in Hz. destruct (l !! S i) as [z'|] eqn:Ez.
    + apply elem_of_list_singleton in Hz as ->. simpl. rewrite <- Nat.add_succ_comm. by eapply IH.
    + by apply elem_of_nil in Hz.
Qed.
Lemma chainl_nodup l : acyclic E → chainl l → NoDup l.
Proof.
  intros Hac Hc. apply NoDup_alt. intros i j x Hi Hj. destruct (lt_eq_lt_dec i j) as [[Hlt| ->]|Hlt]; [|done|].
  - destruct (chainl_walk l Hc i (j - i) x x Hi) as (p & Hw & Hl); [by replace (i + (j - i)) with j by lia|].
    destruct (Hac x). exists p. split; [|done]. intros ->. simpl in Hl. lia.
  - destruct (chainl_walk l Hc j (i - j) x x Hj) as (p & Hw & Hl); [by replace (j + (i - j)) with i by lia|].
    destruct (Hac x). exists p. split; [|done]. intros ->. simpl in Hl. lia.
Qed.

Context (Vs : gset N) (Hclosed : ∀ a b, a ∈ Vs → b ∈ out a → b ∈ Vs).
Context (Hac : acyclic E) (Hone : ∀ x, length (out x) ≤ 1).
Context (M : N) (HM : (N.of_nat (size Vs) <= M)%N).

Lemma enum_chain k : ∀ pre x, size (Vs ∖ list_to_set pre) < k → x ∈ Vs → NoDup pre → (∀ z, z ∈ pre → z ∈ Vs ∧ ¬ reachable E x z) →
  ∃ l', (enum out 1 M k pre x).*1 = (if decide (pre = []) then [] else [x]) ++ l' ∧ chainl (x :: l').
Proof using Hclosed Hac Hone HM.
  induction k as [|k IH]; intros pre x Hk Hx Hnd Hpre; [lia|]. simpl.
  assert (x ∉ pre) as Hxp by (intros Hin; apply (Hpre x Hin), reachable_refl).
  rewrite decide_False by done.
  assert (length (pre ++ [x]) ≤ size Vs) as Hlen.
  { apply nodup_size; [|intros z [?| ->%elem_of_list_singleton]%elem_of_app; [by apply Hpre|done]].
    apply NoDup_app. split_and!; [done|intros z Hz ->%elem_of_list_singleton; done|apply NoDup_singleton]. }
  rewrite app_length in Hlen. simpl in Hlen.
  rewrite fmap_app.
  assert ((if in_rng 1 M (length pre) then [(x, length pre)] else []).*1 = if decide (pre = []) then [] else [x]) as ->.
  { unfold in_rng. destruct (decide (pre = [])) as [->|Hp]; [done|].
    replace (1 <=? N.of_nat (length pre))%N with true; [|destruct pre; [done|symmetry; apply N.leb_le; simpl; lia]].
    replace (N.of_nat (length pre) <=? M)%N with true by (symmetry; apply N.leb_le; lia). done. }
  replace (N.of_nat (length pre) <? M)%N with true by (symmetry; apply N.ltb_lt; lia).
  destruct (out x) as [|y l] eqn:Eo.
  - exists []. split; [done|]. simpl. done.
  - assert (l = []) as -> by (specialize (Hone x); rewrite Eo in Hone; destruct l; [done|simpl in Hone; lia]).
    destruct (IH (pre ++ [x]) y) as (l' & El & Hc).
    + rewrite list_to_set_app_L. simpl.
      assert (size (Vs ∖ (list_to_set pre ∪ ({[x]} ∪ ∅))) < size (Vs ∖ list_to_set pre)); [|lia].
      apply subset_size. split; [set_solver|]. intros Hsub. specialize (Hsub x). set_solver.
    + apply (Hclosed x); [done|]. rewrite Eo. by left.
    + apply NoDup_app. split_and!; [done|intros z Hz ->%elem_of_list_singleton; done|apply NoDup_singleton].
    + assert (reachable E x y) as Hxy by (exists [y]; split; [rewrite Eo; by left|done]).
      intros z [Hz| ->%elem_of_list_singleton]%elem_of_app.
      * split; [by apply Hpre|]. intros Hyz. apply (Hpre z Hz). by eapply reachable_trans.
      * split; [done|]. intros (p & Hp). apply (Hac x). exists (y :: p). split; [done|]. split; [rewrite Eo; by left|done].
    + exists (y :: l'). split; [|by split; [done|]]. unfold reverse. simpl. rewrite app_nil_r, El.
      rewrite (decide_False (P := pre ++ [x] = [])); [done|]. by destruct pre.
Qed.

Lemma dfs_chain r : r ∈ Vs → ∃ f0, ∀ f, f0 ≤ f → ∃ steps s' l', dfs_loop out 1 M f (dfs_new r) = Some (steps, s') ∧
  steps.*1 = l' ∧ chainl (r :: l').
Proof using Hclosed Hac Hone HM.
  intros Hr. set (k := S (size (Vs ∖ list_to_set []))).
  destruct (big_step out 1 M Vs Hclosed k [] r (dfs_new r) []) as (n & s' & L & S' & _).
  { lia. } { done. } { constructor. } { done. } { by eapply fits_new. }
  destruct (enum_chain k [] r) as (l' & El & Hc); [lia|done|constructor|intros z Hz; by apply elem_of_nil in Hz|].
  exists n. intros f Hf. exists (enum out 1 M k [] r), s', l'. split_and!; [|done|done].
  replace f with (n + (f - n)) by lia. rewrite L. destruct (f - n); simpl; rewrite S'; simpl; by rewrite app_nil_r.
Qed.
End chain.

(** ** Copying *)
Lemma positions_lookup pmax root l : NoDup l → ∀ i m x p, (∀ k, k < length l → (N.of_nat (i + k) <= pmax)%N) →
  lin_positions pmax root i l m !! x = Some p ↔
  (∃ k, l !! k = Some x ∧ p = (root, N.of_nat (i + k))) ∨ (x ∉ l ∧ m !! x = Some p).
Proof.
  induction l as [|a l IH]; intros Hnd i m x p Hk; simpl.
  - split; [intros; right; split; [apply not_elem_of_nil|done]|]. intros [(k & Hk0 & _)|[_ ?]]; [done|done].
  - apply NoDup_cons in Hnd as [Ha Hnd]. rewrite IH; [|done|].
    2: { intros k Hl. rewrite Nat.add_succ_comm. apply Hk. simpl. lia. }
    replace (N.of_nat i <=? pmax)%N with true.
    2: { symmetry. apply N.leb_le. specialize (Hk 0 ltac:(simpl; lia)). by rewrite Nat.add_0_r in Hk. }
    split.
    + intros [(k & Hl & ->)|[Hx Hm]].
      * left. exists (S k). split; [done|]. by rewrite Nat.add_succ_comm.
      * apply lookup_insert_Some in Hm as [[<- <-]|[Hne Hm]].
        -- left. exists 0. split; [done|]. by rewrite Nat.add_0_r.
        -- right. split; [|done]. apply not_elem_of_cons. done.
    + intros [(k & Hl & ->)|[Hx Hm]].
      * destruct k as [|k].
        -- simpl in Hl. injection Hl as <-. right. rewrite lookup_insert, Nat.add_0_r. done.
        -- left. exists k. split; [done|]. by rewrite Nat.add_succ_comm.
      * apply not_elem_of_cons in Hx as [Hx1 Hx2]. right. split; [done|]. by rewrite lookup_insert_ne.
Qed.

(** State of a linear storage that represents a set of edges *)
Record lin_ok (s : lin) (G : gset edge) : Prop := {
  lo_chain : ∀ r l, l_chains s !! r = Some l → l !! 0 = Some r ∧ is_root G r ∧ NoDup l;
  lo_out : ∀ r l i x, l_chains s !! r = Some l → l !! i = Some x → ∀ y, edge_rel G x y ↔ l !! S i = Some y;
  lo_in : ∀ r l i x, l_chains s !! r = Some l → l !! i = Some x → ∀ y, edge_rel G y x ↔ ∃ j, i = S j ∧ l !! j = Some y;
  lo_pos : ∀ x r i, l_pos s !! x = Some (r, i) ↔ ∃ l, l_chains s !! r = Some l ∧ l !! N.to_nat i = Some x;
  lo_all : ∀ x, is_Some (l_pos s !! x) ↔ x ∈ all_nodes G;
  lo_roots : ∀ r, is_Some (l_chains s !! r) ↔ is_root G r
}.

Section copy.
Context (pmax : N) (G : gset edge) (out : N → list N) (annos : edge → list (anno_key * bytes)).
Context (Hch : chains G) (Hout_nd : ∀ x, NoDup (out x)) (Hout : ∀ x y, y ∈ out x ↔ edge_rel G x y).
Context (Hsize : (N.of_nat (size (all_nodes G)) <= usize_max)%N).
Context (Hdepth : ∀ x p y, walk (edge_rel G) x p y → (N.of_nat (length p) <= pmax)%N).

Lemma out_acyclic : acyclic (λ a b, b ∈ out a).
Proof using All.
  destruct Hch as (_ & _ & Hac). intros x (p & Hp & Hw). apply (Hac x). exists p. split; [done|].
  eapply walk_ext; [|done]. intros a b. by apply Hout.
Qed.
Lemma out_one x : length (out x) ≤ 1.
Proof using All.
  destruct Hch as (Hoc & _). destruct (out x) as [|a [|b l]] eqn:Eo; [simpl; lia|simpl; lia|]. exfalso.
  pose proof (Hout_nd x) as Hnd. rewrite Eo in Hnd. apply NoDup_cons in Hnd as [Hn _]. apply Hn.
  assert (a = b) as -> by (apply (Hoc x); apply Hout; rewrite Eo; [by left|right; by left]). by left.
Qed.

Lemma chain_rel l : chainl out l → ∀ i x, l !! i = Some x → ∀ y, edge_rel G x y ↔ l !! S i = Some y.
Proof using All.
  intros Hc i x Hx y. rewrite <- Hout, (chainl_next out l Hc i x Hx). destruct (l !! S i) as [z|].
  - rewrite elem_of_list_singleton. naive_solver.
  - split; [by intros ?%elem_of_nil|done].
Qed.
Lemma chain_unique r l r' l' : chainl out (r :: l) → chainl out (r' :: l') → is_root G r → is_root G r' →
  ∀ i j x, (r :: l) !! i = Some x → (r' :: l') !! j = Some x → i = j ∧ r = r'.
Proof using All.
  intros Hc Hc' Hr Hr'. destruct Hch as (_ & Hop & _).
  induction i as [|i IH]; intros j x Hi Hj.
  - simpl in Hi. injection Hi as <-. destruct j as [|j]; [simpl in Hj; by injection Hj as <-|].
    exfalso. apply Hr. destruct (lookup_lt_is_Some_2 (r' :: l') j) as [y Hy].
    { apply lookup_lt_Some in Hj. lia. } exists y. by apply (chain_rel _ Hc' j).
  - destruct (lookup_lt_is_Some_2 (r :: l) i) as [y Hy]; [apply lookup_lt_Some in Hi; lia|].
    assert (edge_rel G y x) as Hyx by by apply (chain_rel _ Hc i).
    destruct j as [|j].
    + simpl in Hj. injection Hj as <-. exfalso. apply Hr'. by exists y.
    + destruct (lookup_lt_is_Some_2 (r' :: l') j) as [z Hz]; [apply lookup_lt_Some in Hj; lia|].
      assert (edge_rel G z x) as Hzx by by apply (chain_rel _ Hc' j).
      assert (y = z) as <- by by eapply Hop. destruct (IH j y Hy Hz) as [-> ->]. done.
Qed.
Lemma chain_depth r l : chainl out (r :: l) → ∀ i, i < length (r :: l) → (N.of_nat i <= pmax)%N.
Proof using All.
  intros Hc i Hi. destruct (lookup_lt_is_Some_2 (r :: l) i Hi) as [y Hy].
  destruct (chainl_walk out _ Hc 0 i r y) as (p & Hw & <-); [done|done|].
  apply (Hdepth r p y). eapply walk_ext; [|done]. intros a b. by apply Hout.
Qed.

(** Invariant of the loop over the roots *)
Definition loop_ok (s : lin) (don : list N) : Prop :=
  (∀ r, is_Some (l_chains s !! r) ↔ r ∈ don) ∧
  (∀ r l, l_chains s !! r = Some l → ∃ l', l = r :: l' ∧ chainl out l) ∧
  (∀ x r i, l_pos s !! x = Some (r, i) ↔ ∃ l, l_chains s !! r = Some l ∧ l !! N.to_nat i = Some x).

Lemma copy_root_lemma r : is_root G r → ∃ f0, ∀ f, f0 ≤ f → ∀ s ok don, (∀ r', r' ∈ don → is_root G r') → r ∉ don → loop_ok s don →
  ∃ s' ok' l, lin_copy_root pmax f out annos (Some (s, ok)) r = Some (s', ok') ∧ loop_ok s' (don ++ [r]) ∧
    chainl out (r :: l) ∧
    (l_annos s', ok') = fold_left (copy_node_annos out annos) (r :: l) (l_annos s, ok) ∧ l_stats s' = l_stats s.
Proof using All.
  intros Hr. assert (r ∈ all_nodes G) as Hr0 by (apply all_nodes_cases; left; apply Hr).
  destruct (dfs_chain out (all_nodes G)) with (M := usize_max) (r := r) as (f0 & Hf); try done.
  { intros a b _ Hb%Hout. by eauto using en_l, en_r. } { apply out_acyclic. } { apply out_one. }
  exists f0. intros f Hf0 s ok don Hdon Hnr (L1 & L2 & L3). destruct (Hf f Hf0) as (steps & s1 & l & E1 & El & Hc).
  unfold lin_copy_root. simpl. rewrite E1. simpl. rewrite El.
  destruct (fold_left _ l _) as [a ok'] eqn:Ea.
  pose proof (chainl_nodup out (r :: l) out_acyclic Hc) as Hnd.
  eexists _, _, l. split; [reflexivity|]. split_and!; [|done|symmetry; exact Ea|done].
  split_and!; simpl.
  - intros r'. rewrite lookup_insert_is_Some, L1, elem_of_app, elem_of_list_singleton.
    destruct (decide (r = r')); naive_solver.
  - intros r' l'. intros [[<- <-]|[Hne Hl]]%lookup_insert_Some; [by exists l|]. by apply L2.
  - intros x r' i. apply NoDup_cons in Hnd as [Hrl Hnd]. rewrite positions_lookup; [|done|].
    2: { intros k Hk. apply (chain_depth r l Hc). simpl. lia. }
    split.
    + intros [(k & Hk & [= -> ->])|[Hx Hm]].
      * exists (r :: l). rewrite lookup_insert. split; [done|]. replace (N.to_nat _) with (S k) by lia. done.
      * apply lookup_insert_Some in Hm as [[<- [= <- <-]]|[Hne Hm]].
        -- exists (r :: l). rewrite lookup_insert. done.
        -- apply L3 in Hm as (l' & Hl' & Hi). exists l'. rewrite lookup_insert_ne; [done|].
           intros ->. apply Hnr, L1. by eexists.
    + intros (l' & [[<- <-]|[Hne Hl']]%lookup_insert_Some & Hi).
      * destruct (N.to_nat i) as [|k] eqn:Ek.
        -- simpl in Hi. injection Hi as <-. right. split; [done|]. rewrite lookup_insert. f_equal. f_equal. lia.
        -- left. exists k. split; [done|]. f_equal. simpl. lia.
      * right. split.
        -- intros Hin. apply elem_of_list_lookup in Hin as [k Hk]. destruct (L2 _ _ Hl') as (l'' & -> & Hc').
           destruct (chain_unique r l r' l'' Hc Hc' Hr) with (i := S k) (j := N.to_nat i) (x := x) as [_ ?]; [|done|done|done].
           apply Hdon, L1. by eexists.
        -- rewrite lookup_insert_ne; [apply L3; by exists l'|]. intros <-. destruct (L2 _ _ Hl') as (l'' & -> & Hc').
           destruct (chain_unique r l r' l'' Hc Hc' Hr) with (i := 0) (j := N.to_nat i) (x := r) as [_ ?]; [|done|done|done].
           apply Hdon, L1. by eexists.
Qed.

Lemma copy_roots_lemma roots : (∀ r, r ∈ roots → is_root G r) → ∃ f0, ∀ f, f0 ≤ f → ∀ s ok don,
  (∀ r, r ∈ don → is_root G r) → NoDup (don ++ roots) → loop_ok s don →
  ∃ s' ok' nodes, fold_left (lin_copy_root pmax f out annos) roots (Some (s, ok)) = Some (s', ok') ∧ loop_ok s' (don ++ roots) ∧
    (l_annos s', ok') = fold_left (copy_node_annos out annos) nodes (l_annos s, ok) ∧ l_stats s' = l_stats s ∧
    (∀ x, x ∈ nodes ↔ ∃ r l, r ∈ roots ∧ l_chains s' !! r = Some l ∧ x ∈ l) ∧ NoDup nodes ∧
    (∀ r l, l_chains s !! r = Some l → l_chains s' !! r = Some l).
Proof using All.
  induction roots as [|r roots IH]; intros Hroots.
  - exists 0. intros f _ s ok don Hdon Hnd L. exists s, ok, []. rewrite app_nil_r. split_and!; [done..| |constructor|done].
    intros x. split; [by intros ?%elem_of_nil|]. by intros (? & ? & ?%elem_of_nil & _).
  - destruct (copy_root_lemma r) as (f1 & H1); [apply Hroots; by left|].
    destruct IH as (f2 & H2); [intros r' ?; apply Hroots; by right|].
    exists (f1 `max` f2). intros f Hf s ok don Hdon Hnd L.
    assert (r ∉ don) as Hr.
    { apply NoDup_app in Hnd as (_ & Hd & _). intros Hin. apply (Hd r Hin). by left. }
    destruct (H1 f ltac:(lia) s ok don Hdon Hr L) as (s1 & ok1 & l & E1 & L1 & Hc & Ha & Hs).
    replace (don ++ r :: roots) with ((don ++ [r]) ++ roots) in * by (by rewrite <- (assoc_L (++))).
    destruct (H2 f ltac:(lia) s1 ok1 (don ++ [r])) as (s2 & ok2 & nodes & E2 & L2 & Ha2 & Hs2 & Hn & Hnn & Hm); [|done|done|].
    { intros r' [?| ->%elem_of_list_singleton]%elem_of_app; [by apply Hdon|apply Hroots; by left]. }
    exists s2, ok2, ((r :: l) ++ nodes). split_and!.
    + cbn [fold_left]. by rewrite E1.
    + done.
    + by rewrite fold_left_app, <- Ha.
    + congruence.
    + assert (l_chains s1 !! r = Some (r :: l)) as Hsr.
      { clear -E1 Hc L1 Ha. unfold lin_copy_root in E1. simpl in E1. destruct (dfs_loop out 1 usize_max f (dfs_new r)) as [[steps s']|] eqn:Ed; [|done].
        simpl in E1. destruct (fold_left _ (steps.*1) _) as [a ok'] eqn:Ef. injection E1 as <- <-. simpl in *.
        destruct L1 as (_ & L1 & _). destruct (L1 r (r :: steps.*1)) as (l' & [= <-] & Hc'); [simpl; by rewrite lookup_insert|].
        rewrite lookup_insert. f_equal.
        clear -Hc Hc'. assert (∀ l1 l2 r, chainl out (r :: l1) → chainl out (r :: l2) → l1 = l2) as Hu.
        { clear. induction l1 as [|a l1 IH]; intros [|b l2] r H1 H2; simpl in *; [done| | |].
          - destruct H2 as [H2 _]. congruence.
          - destruct H1 as [H1 _]. congruence.
          - destruct H1 as [H1 H1'], H2 as [H2 H2']. assert (a = b) as -> by congruence. f_equal. by apply (IH l2 b). }
        f_equal. by eapply Hu. }
      intros x. rewrite elem_of_app, Hn. split.
      * intros [Hx|(r' & l' & Hr' & Hl' & Hx)].
        -- exists r, (r :: l). split_and!; [by left|by apply Hm|done].
        -- exists r', l'. split_and!; [by right|done|done].
      * intros (r' & l' & [->|Hr']%elem_of_cons & Hl' & Hx); [|right; by exists r', l'].
        left. rewrite (Hm _ _ Hsr) in Hl'. by injection Hl' as <-.
    + apply NoDup_app. split_and!; [by apply (chainl_nodup out); [apply out_acyclic|]| |done].
      intros x Hx (r' & l' & Hr' & Hl' & Hx')%Hn.
      apply elem_of_list_lookup in Hx as [i Hi]. apply elem_of_list_lookup in Hx' as [j Hj].
      destruct L2 as (_ & L2 & _). destruct (L2 _ _ Hl') as (l'' & -> & Hc').
      destruct (chain_unique r l r' l'' Hc Hc') with (i := i) (j := j) (x := x) as [_ <-]; [apply Hroots; by left|apply Hroots; by right|done|done|].
      apply NoDup_app in Hnd as (_ & Hd & _). apply (Hd r); [apply elem_of_app; right; by left|done].
    + intros r' l' Hl'. apply Hm.
      clear -E1 Hl' Hr L. unfold lin_copy_root in E1. simpl in E1. destruct (dfs_loop out 1 usize_max f (dfs_new r)) as [[steps s']|] eqn:Ed; [|done].
      simpl in E1. destruct (fold_left _ (steps.*1) _) as [a ok'] eqn:Ef. injection E1 as <- <-. simpl in *.
      rewrite lookup_insert_ne; [done|]. intros <-. apply Hr, L. by eexists.
Qed.

Lemma lin_copy_lemma s0 roots st : NoDup roots → (∀ r, r ∈ roots ↔ is_root G r) →
  ∃ f0, ∀ f, f0 ≤ f → ∃ s ok nodes, lin_copy pmax f s0 roots out annos st = Some (s, ok) ∧ lin_ok s G ∧ l_stats s = st ∧
    (l_annos s, ok) = fold_left (copy_node_annos out annos) nodes (am_clear (l_annos s0), true) ∧
    (∀ x, x ∈ nodes ↔ x ∈ all_nodes G) ∧ NoDup nodes.
Proof using All.
  intros Hnd Hroots. destruct (copy_roots_lemma roots) as (f0 & Hf); [intros r; apply Hroots|].
  exists f0. intros f Hf0. destruct (Hf f Hf0 (lin_clear s0) true []) as (s & ok & nodes & Es & L & Ha & _ & Hn & Hnn & _).
  { intros r Hr. by apply elem_of_nil in Hr. } { done. }
  { split_and!; simpl.
    - intros r. rewrite lookup_empty. split; [by intros [? ?]|by intros ?%elem_of_nil].
    - done.
    - intros x r i. rewrite lookup_empty. split; [done|]. by intros (l & Hl & _). }
  unfold lin_copy. rewrite Es. simpl. eexists _, ok, nodes. split; [reflexivity|].
  destruct L as (L1 & L2 & L3). simpl in L1.
  assert (∀ r l, l_chains s !! r = Some l → is_root G r) as Hcr.
  { intros r l Hl. apply Hroots, L1. by eexists. }
  assert (∀ x, x ∈ all_nodes G → is_Some (l_pos s !! x)) as Hall.
  { intros x Hx. destruct Hch as (_ & _ & Hac). destruct (reach_root G x Hac Hx) as (r & Hr & p & Hp).
    assert (r ∈ roots) as [l Hl]%L1 by by apply Hroots.
    destruct (L2 _ _ Hl) as (l' & -> & Hc). exists (r, N.of_nat (length p)). apply L3. exists (r :: l'). split; [done|].
    rewrite Nat2N.id. apply (chainl_walk_inv out _ Hc p 0 r x); [done|]. eapply walk_ext; [|done]. intros a b. by apply Hout. }
  assert (∀ r l i x, l_chains s !! r = Some l → l !! i = Some x → x ∈ all_nodes G) as Hin.
  { intros r l i x Hl Hi. destruct (L2 _ _ Hl) as (l' & -> & Hc). destruct i as [|i].
    - simpl in Hi. injection Hi as <-. apply all_nodes_cases. left. by apply (Hcr _ _ Hl).
    - destruct (lookup_lt_is_Some_2 (r :: l') i) as [y Hy]; [apply lookup_lt_Some in Hi; lia|].
      apply (chain_rel _ Hc i y Hy) in Hi. by eauto using en_l, en_r. }
  split_and!; [|done|done| |done].
  - constructor; simpl.
    + intros r l Hl. destruct (L2 _ _ Hl) as (l' & -> & Hc). split_and!; [done|by eapply Hcr|].
      apply (chainl_nodup out); [apply out_acyclic|done].
    + intros r l i x Hl Hi. destruct (L2 _ _ Hl) as (l' & -> & Hc). by apply chain_rel.
    + intros r l i x Hl Hi y. destruct (L2 _ _ Hl) as (l' & -> & Hc). split.
      * intros Hyx. destruct (Hall y) as [[r' j] Hj]; [by eauto using en_l, en_r|]. apply L3 in Hj as (l2 & Hl2 & Hj).
        destruct (L2 _ _ Hl2) as (l2' & -> & Hc2).
        pose proof (proj1 (chain_rel _ Hc2 (N.to_nat j) y Hj x) Hyx) as Hx2.
        destruct (chain_unique r l' r' l2' Hc Hc2 (Hcr _ _ Hl) (Hcr _ _ Hl2) _ _ _ Hi Hx2) as [-> <-].
        exists (N.to_nat j). split; [done|]. rewrite Hl in Hl2. by injection Hl2 as <-.
      * intros (j & -> & Hj). by apply (chain_rel _ Hc j y Hj).
    + done.
    + intros x. split; [|apply Hall]. intros [[r i] (l & Hl & Hi)%L3]. by eapply Hin.
    + intros r. by rewrite L1, Hroots.
  - intros x. rewrite Hn. split.
    + intros (r & l & _ & Hl & [i Hi]%elem_of_list_lookup). by eapply Hin.
    + intros Hx. destruct (Hall x Hx) as [[r i] (l & Hl & Hi)%L3]. exists r, l. split_and!; [apply L1; by eexists|done|].
      by eapply elem_of_list_lookup_2.
Qed.
End copy.
