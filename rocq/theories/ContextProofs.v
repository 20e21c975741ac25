From stdpp Require Import base list gmap sorting.
From Coq Require Import NArith Arith Lia.
From Verif Require Import KeySer KeySerSpec SortedMap Types TypesProofs SymbolTable AnnoMem AnnoSpec GraphSpec Adjacency AdjacencySpec
  AdjacencyProofs Storage StorageSpec GraphApply TokenHelper TokenSearchSpec TokenSearchProofs QuickSort QuickSortSpec QuickSortProofs
  QuickSortAny SortMatches SortMatchesSpec SortMatchesProofs Dfs DfsProofs LinearProofs Context ContextSpec.

(** ** Chains *)
Section Chains.
Context (G : gset edge) (Hch : chains G).
Notation E := (edge_rel G).
Lemma chain_back a p x : ∀ b q, walk E a p x → walk E b q x → length p ≤ length q →
  ∃ w, walk E b w a ∧ length q = length w + length p.
Proof using Hch.
  destruct Hch as (_ & Hp & _). revert x. induction p as [|y p IH] using rev_ind; intros x b q H1 H2 Hl.
  - simpl in H1. subst. exists q. simpl. split; [done|lia].
  - apply walk_app_inv in H1 as (z & H1 & Hz & Hy). simpl in Hy. subst y.
    destruct q as [|y q _] using rev_ind; [rewrite app_length in Hl; simpl in Hl; lia|].
    apply walk_app_inv in H2 as (z' & H2 & Hz' & Hy). simpl in Hy. subst y. rewrite (Hp z' z x Hz' Hz) in H2.
    rewrite !app_length in *. simpl in *. destruct (IH z b q H1 H2) as (w & Hw & Hlen); [lia|]. exists w. split; [done|lia].
Qed.
Lemma chain_fwd p : ∀ x a b q, walk E x p a → walk E x q b → length p ≤ length q → ∃ w, walk E a w b ∧ q = p ++ w.
Proof using Hch.
  destruct Hch as (Hc & _). induction p as [|y p IH]; intros x a b q H1 H2 Hl.
  - simpl in H1. subst. by exists q.
  - destruct q as [|y' q]; [simpl in Hl; lia|]. destruct H1 as [E1 H1], H2 as [E2 H2]. rewrite (Hc x y' y E2 E1) in *.
    destruct (IH y a b q H1 H2) as (w & Hw & ->); [simpl in Hl; lia|]. exists w. done.
Qed.
Lemma chain_cycle a p : walk E a p a → p = [].
Proof using Hch. destruct Hch as (_ & _ & Hac). intros H. destruct p as [|x p]; [done|]. destruct (Hac a). by exists (x :: p). Qed.
Lemma chain_walk_eq a p q b : walk E a p b → walk E a q b → p = q.
Proof using Hch.
  assert (∀ p q, walk E a p b → walk E a q b → length p ≤ length q → p = q) as H.
  { clear p q. intros p q H1 H2 Hl. destruct (chain_fwd p a b b q H1 H2 Hl) as (w & Hw & ->).
    apply chain_cycle in Hw as ->. by rewrite app_nil_r. }
  intros H1 H2. destruct (le_ge_dec (length p) (length q)); [by apply H|symmetry; by apply H].
Qed.
Lemma walk_mem p : ∀ s e x, walk E s p e → x ∈ s :: p → ∃ q r, walk E s q x ∧ walk E x r e ∧ p = q ++ r.
Proof using.
  clear Hch. induction p as [|y p IH]; intros s e x Hw Hx.
  - apply elem_of_list_singleton in Hx as ->. exists [], []. done.
  - apply elem_of_cons in Hx as [->|Hx]; [by exists [], (y :: p)|]. destruct Hw as [He Hw].
    destruct (IH y e x Hw Hx) as (q & r & H1 & H2 & ->). exists (y :: q), r. done.
Qed.
Lemma walk_between s p e x : walk E s p e → reachable E s x → reachable E x e → x ∈ s :: p.
Proof using Hch.
  intros Hw [q Hq] [r Hr]. rewrite (chain_walk_eq s p (q ++ r) e Hw (walk_app _ _ _ _ _ _ Hq Hr)).
  rewrite app_comm_cons, elem_of_app. left. apply last_Some_elem_of. by apply (walk_last E).
Qed.
Lemma walk_ordered p : ∀ s e i j a b, walk E s p e → (s :: p) !! i = Some a → (s :: p) !! j = Some b → i < j →
  ∃ q, q ≠ [] ∧ walk E a q b.
Proof using.
  clear Hch. induction p as [|y p IH]; intros s e i j a b Hw Hi Hj Hij.
  - apply lookup_lt_Some in Hj. simpl in Hj. lia.
  - destruct j as [|j]; [lia|]. destruct Hw as [He Hw]. destruct i as [|i].
    + simpl in Hi. injection Hi as <-. change ((y :: p) !! j = Some b) in Hj.
      destruct (walk_mem p y e b Hw (elem_of_list_lookup_2 _ _ _ Hj)) as (q & r & Hq & _ & _). exists (y :: q). done.
    + apply (IH y e i j a b Hw Hi Hj). lia.
Qed.

(** ** Clipping *)
Lemma clip_spec find start K : ∃ k, k ≤ K ∧
  (head (find (N.of_nat k)) = Some (clip find start K) ∨ k = 0 ∧ find 0%N = [] ∧ clip find start K = start) ∧
  ∀ d, k < d → d ≤ K → find (N.of_nat d) = [].
Proof using.
  clear Hch G. induction K as [|K IH]; simpl.
  - exists 0. split; [lia|]. change (N.of_nat 0) with 0%N. split; [|intros d ? ?; lia].
    destruct (find 0%N) as [|r l]; simpl; [by right|by left].
  - change (match K with 0 => 1%positive | S _ => _ end) with (Pos.of_succ_nat K).
    change (N.pos (Pos.of_succ_nat K)) with (N.of_nat (S K)). destruct (find (N.of_nat (S K))) as [|r l] eqn:E; simpl.
    + destruct IH as (k & Hk & H1 & H2). exists k. split; [lia|]. split; [done|]. intros d ? ?.
      destruct (decide (d = S K)) as [->|]; [done|]. apply H2; lia.
    + exists (S K). split; [lia|]. split; [left; by rewrite E|]. intros; lia.
Qed.
Context (order : storage) (I : implements order G) (Hself : at_most_itself order G).
Lemma exact_after x d : (d + N.of_nat (size (all_nodes G)) <= usize_max)%N →
  (∀ y, y ∈ gs_connected order x d (Included d) → ∃ p, walk E x p y ∧ N.of_nat (length p) = d) ∧
  (∀ p y, p ≠ [] → walk E x p y → N.of_nat (length p) = d → y ∈ gs_connected order x d (Included d)).
Proof using All.
  intros Hd. assert (in_limit G (Included d)) as Hl by done. destruct Hch as (_ & _ & Hac). split.
  - intros y Hy. destruct (decide (x ∈ all_nodes G ∨ (1 <= d)%N)) as [Hx|Hx].
    + apply (im_connected _ _ I x y d (Included d) Hl Hx) in Hy as (p & [Hw _] & Hd1 & Hd2). exists p. split; [done|]. simpl in *. lia.
    + assert (x ∉ all_nodes G ∧ d = 0%N) as [Hx1 ->] by (split; [tauto|lia]).
      rewrite (Hself x y Hx1 (or_introl Hy)). by exists [].
  - intros p y Hp Hw Hlen. apply (im_connected _ _ I x y d (Included d) Hl).
    + right. destruct p; [done|]. simpl in Hlen. lia.
    + exists p. split; [by apply acyclic_simple|]. split; simpl; lia.
Qed.
Lemma exact_before x d : (d + N.of_nat (size (all_nodes G)) <= usize_max)%N →
  (∀ y, y ∈ gs_connected_inverse order x d (Included d) → ∃ p, walk E y p x ∧ N.of_nat (length p) = d) ∧
  (∀ p y, p ≠ [] → walk E y p x → N.of_nat (length p) = d → y ∈ gs_connected_inverse order x d (Included d)).
Proof using All.
  intros Hd. assert (in_limit G (Included d)) as Hl by done. assert (range_ok d (Included d)) as Hr by (simpl; lia).
  destruct Hch as (_ & _ & Hac). split.
  - intros y Hy. destruct (decide (x ∈ all_nodes G ∨ (1 <= d)%N)) as [Hx|Hx].
    + apply (im_inverse _ _ I x y d (Included d) Hl Hr Hx) in Hy as (p & [Hw _] & Hd1 & Hd2). exists p. split; [done|]. simpl in *. lia.
    + assert (x ∉ all_nodes G ∧ d = 0%N) as [Hx1 ->] by (split; [tauto|lia]).
      rewrite (Hself x y Hx1 (or_intror Hy)). by exists [].
  - intros p y Hp Hw Hlen. apply (im_inverse _ _ I x y d (Included d) Hl Hr).
    + right. destruct p; [done|]. simpl in Hlen. lia.
    + exists p. split; [by apply acyclic_simple|]. split; simpl; lia.
Qed.
Lemma clip_right_spec x k : (N.of_nat k + N.of_nat (size (all_nodes G)) <= usize_max)%N → clipped_after G x k (clip_right order x k).
Proof using All.
  intros Hk. unfold clip_right. destruct (clip_spec (λ d, gs_connected order x d (Included d)) x k) as (d & Hd & H1 & H2).
  assert (∃ p, walk E x p (clip (λ d, gs_connected order x d (Included d)) x k) ∧ length p = d) as (p & Hp & Hlen).
  { destruct H1 as [H1|(-> & _ & ->)]; [|by exists []]. apply head_Some_elem_of in H1.
    destruct (proj1 (exact_after x (N.of_nat d) ltac:(lia)) _ H1) as (p & Hp & Hlen). exists p. split; [done|lia]. }
  exists p. split; [done|]. split; [lia|]. destruct (decide (d = k)) as [->|Hne]; [by left|right].
  intros [y Hy]. specialize (H2 (S d) ltac:(lia) ltac:(lia)).
  assert (y ∈ gs_connected order x (N.of_nat (S d)) (Included (N.of_nat (S d)))) as Hin.
  { apply (proj2 (exact_after x (N.of_nat (S d)) ltac:(lia)) (p ++ [y])); [by destruct p| |rewrite app_length; simpl; lia].
    by apply walk_snoc with (t := clip (λ d, gs_connected order x d (Included d)) x k). }
  simpl in H2, Hin. rewrite H2 in Hin. by apply elem_of_nil in Hin.
Qed.
Lemma clip_left_spec x k : (N.of_nat k + N.of_nat (size (all_nodes G)) <= usize_max)%N → clipped_before G x k (clip_left order x k).
Proof using All.
  intros Hk. unfold clip_left. destruct (clip_spec (λ d, gs_connected_inverse order x d (Included d)) x k) as (d & Hd & H1 & H2).
  assert (∃ p, walk E (clip (λ d, gs_connected_inverse order x d (Included d)) x k) p x ∧ length p = d) as (p & Hp & Hlen).
  { destruct H1 as [H1|(-> & _ & ->)]; [|by exists []]. apply head_Some_elem_of in H1.
    destruct (proj1 (exact_before x (N.of_nat d) ltac:(lia)) _ H1) as (p & Hp & Hlen). exists p. split; [done|lia]. }
  set (s := clip _ _ _) in *. exists p. split; [done|]. split; [lia|]. destruct (decide (d = k)) as [->|Hne]; [by left|right].
  intros [y Hy]. specialize (H2 (S d) ltac:(lia) ltac:(lia)).
  assert (y ∈ gs_connected_inverse order x (N.of_nat (S d)) (Included (N.of_nat (S d)))) as Hin.
  { apply (proj2 (exact_before x (N.of_nat (S d)) ltac:(lia)) (s :: p)); [done|by split|simpl; lia]. }
  simpl in H2, Hin. rewrite H2 in Hin. by apply elem_of_nil in Hin.
Qed.

(** ** Comparison in text order *)
Lemma is_connected_iff a b : gs_is_connected order a b 1 Unbounded = true ↔ ∃ p, p ≠ [] ∧ walk E a p b.
Proof using All.
  destruct Hch as (_ & _ & Hac). rewrite (im_is_connected _ _ I a b 1 Unbounded Logic.I) by (right; lia). split.
  - intros (p & [Hw _] & [Hd _]). exists p. split; [|done]. intros ->. simpl in Hd. lia.
  - intros (p & Hp & Hw). exists p. split; [by apply acyclic_simple|]. split; [|done]. destruct p; [done|]. simpl. lia.
Qed.
Definition before (a b : N) : Prop := ∃ p, p ≠ [] ∧ walk E a p b.
Lemma before_irrefl a : ¬ before a a.
Proof using Hch. intros (p & Hp & Hw). by apply chain_cycle in Hw. Qed.
Lemma before_trans a b c : before a b → before b c → before a c.
Proof using. intros (p & Hp & Hw) (q & Hq & Hw'). exists (p ++ q). split; [by destruct p|]. by eapply walk_app. Qed.
Lemma order_cmp_spec a b : a = b ∨ before a b ∨ before b a →
  (order_cmp order a b = Eq ↔ a = b) ∧ (order_cmp order a b = Lt ↔ before a b) ∧ (order_cmp order a b = Gt ↔ before b a).
Proof using All.
  intros Hab. unfold order_cmp. pose proof (before_irrefl a) as Ha. pose proof (before_trans a b a) as Ht.
  destruct (decide (a = b)) as [->|Hne]; [done|].
  pose proof (is_connected_iff a b) as C1. pose proof (is_connected_iff b a) as C2. fold (before a b) in C1. fold (before b a) in C2.
  destruct (gs_is_connected order a b 1 Unbounded), (gs_is_connected order b a 1 Unbounded);
    repeat match goal with H : true = true ↔ _ |- _ => apply proj1 in H; specialize (H eq_refl)
                         | H : false = true ↔ _ |- _ => apply proj2 in H end; naive_solver.
Qed.
Lemma order_cmp_tpo (P : N → Prop) : (∀ a b, P a → P b → a = b ∨ before a b ∨ before b a) → total_preorder_on P (order_cmp order).
Proof using All.
  intros Hall. split.
  - intros x y Px Py. destruct (order_cmp_spec x y (Hall x y Px Py)) as (A1 & A2 & A3).
    destruct (order_cmp_spec y x (Hall y x Py Px)) as (B1 & B2 & B3). destruct (order_cmp order x y); simpl; naive_solver.
  - intros x y z Px Py Pz H1 H2 H3. destruct (order_cmp_spec x y (Hall x y Px Py)) as (A1 & A2 & A3).
    destruct (order_cmp_spec y z (Hall y z Py Pz)) as (B1 & B2 & B3).
    destruct (order_cmp_spec x z (Hall x z Px Pz)) as (C1 & C2 & C3). apply C3 in H3.
    assert (x = y ∨ before x y) as Q1 by (destruct (order_cmp order x y); naive_solver).
    assert (y = z ∨ before y z) as Q2 by (destruct (order_cmp order y z); naive_solver).
    pose proof (before_irrefl x). pose proof (before_trans x y z). pose proof (before_trans x z x). naive_solver.
Qed.
Lemma order_sort (P : N → Prop) fuel rnd l : (∀ a b, P a → P b → a = b ∨ before a b ∨ before b a) → Forall P l →
  match sort (order_cmp order) fuel rnd l with
  | Done l' => l' ≡ₚ l ∧ ∀ i j a b, i < j → l' !! i = Some a → l' !! j = Some b → a = b ∨ before a b
  | Failed => False | NoFuel => True end.
Proof using All.
  intros Hall HP. pose proof (sort_on_ok P (order_cmp order) fuel rnd l (order_cmp_tpo P Hall) HP) as Hs.
  destruct (sort _ _ _ _) as [l'| |]; [|done..]. destruct Hs as [Hs Ha]. split; [done|].
  intros i j a b Hij Hi Hj. specialize (Ha i j a b Hij Hi Hj). rewrite <- Hs in HP. rewrite Forall_forall in HP.
  assert (P a) by (apply HP; by eapply elem_of_list_lookup_2). assert (P b) by (apply HP; by eapply elem_of_list_lookup_2).
  destruct (order_cmp_spec a b (Hall a b ltac:(done) ltac:(done))) as (A1 & A2 & A3). destruct (order_cmp order a b); naive_solver.
Qed.
Lemma sorted_ends l a b : (∀ i j a b, i < j → l !! i = Some a → l !! j = Some b → a = b ∨ before a b) →
  head l = Some a → last l = Some b → ∀ t, t ∈ l → reachable E a t ∧ reachable E t b.
Proof using.
  intros Hs Ha Hb t [i Hi]%elem_of_list_lookup. rewrite last_lookup in Hb. destruct l as [|a' l]; [done|]. simpl in Ha. injection Ha as ->. split.
  - destruct i as [|i]; [injection Hi as <-; by exists []|]. destruct (Hs 0 (S i) a t ltac:(lia) eq_refl Hi) as [->|(p & _ & Hp)]; [by exists []|by exists p].
  - pose proof (lookup_lt_Some _ _ _ Hi) as Hlt. destruct (decide (i = pred (length (a :: l)))) as [->|Hne].
    + rewrite Hb in Hi. injection Hi as <-. by exists [].
    + destruct (Hs i (pred (length (a :: l))) t b ltac:(simpl in *; lia) Hi Hb) as [->|(p & _ & Hp)]; [by exists []|by exists p].
Qed.
End Chains.

Lemma elem_mjoin_fmap {A B} (f : A → list B) l y : y ∈ mjoin (f <$> l) ↔ ∃ x, x ∈ l ∧ y ∈ f x.
Proof.
  rewrite elem_of_list_join. split.
  - intros (k & Hy & Hk). apply elem_of_list_fmap in Hk as (x & -> & Hx). eauto.
  - intros (x & Hx & Hy). exists (f x). split; [done|]. apply elem_of_list_fmap. eauto.
Qed.

(** Running an iterator *)
Fixpoint run_iter {S} (next : S → option N * S) (fuel : nat) (st : S) : option (list N) :=
  match fuel with
  | 0 => None
  | S f => match next st with (None, _) => Some [] | (Some x, st') => l ← run_iter next f st'; Some (x :: l) end
  end.
Lemma run_iter_emits {S} (next : S → option N * S) f : ∀ st l, run_iter next f st = Some l → emits next st l.
Proof.
  induction f as [|f IH]; intros st l; [done|]. cbn [run_iter]. destruct (next st) as [[x|] st'] eqn:E.
  - destruct (run_iter next f st') as [l'|] eqn:E'; [|done]. intros [= <-]. by apply emits_node with st'; [|apply IH].
  - intros [= <-]. by apply emits_end with st'.
Qed.

Section Region.
Context (db : corpus) (c : content) (H : holds_content db c) (T : texts_ok c).
Context (order : storage) (Eo : cp_order db = Some order) (Hself : at_most_itself order (ct_order c)).
Context (hash : gset N → list N) (Hhash : hash_order hash).
Context (fuel : nat) (rnd : nat → nat).
Notation O := (ct_order c).

Lemma order_implements : implements order O.
Proof using H Eo. pose proof (hc_order _ _ H) as Ho. rewrite Eo in Ho. apply Ho. Qed.
Lemma cov_iff th x y : th_new db = Some th → (∃ gs, gs ∈ th_cov th ∧ y ∈ gs_out gs x) ↔ covers c x y.
Proof using H.
  intros Hth. destruct (th_some db c H) as (th' & E & _ & Hc & _). rewrite Hth in E. injection E as <-.
  rewrite Hc. unfold cov_edges, covers. pose proof (hc_cov _ _ H) as F. split.
  - intros (gs & Hin & Ho). apply elem_of_list_filter in Hin as [_ Hin].
    apply elem_of_list_lookup in Hin as [i Hi]. destruct (Forall2_lookup_l _ _ _ _ _ F Hi) as (G & HG & I).
    exists G. split; [by eapply elem_of_list_lookup_2|]. by apply (im_out _ _ I).
  - intros (G & Hin & Hs). apply elem_of_list_lookup in Hin as [i Hi]. destruct (Forall2_lookup_r _ _ _ _ _ F Hi) as (gs & Hg & I).
    exists gs. split; [|by apply (im_out _ _ I)]. apply elem_of_list_filter. split; [|by eapply elem_of_list_lookup_2].
    destruct (gs_nodes gs) as [k|] eqn:Ek; [|done]. apply bool_decide_eq_true. destruct k; [|lia].
    rewrite (im_nodes _ _ I Ek) in Hs. unfold edge_rel in Hs. clear -Hs. set_solver.
Qed.
Lemma cov_in_iff th x y : th_new db = Some th → (∃ gs, gs ∈ th_cov th ∧ x ∈ gs_in gs y) ↔ covers c x y.
Proof using H.
  intros Hth. rewrite <- (cov_iff th x y Hth). destruct (th_some db c H) as (th' & E & _ & Hc & _). rewrite Hth in E. injection E as <-.
  rewrite Hc. unfold cov_edges. pose proof (hc_cov _ _ H) as F.
  assert (∀ gs, gs ∈ filter (λ gs, match gs_nodes gs with Some n => bool_decide (0 < n) | None => true end = true) (cp_cov db) →
    x ∈ gs_in gs y ↔ y ∈ gs_out gs x) as Hi.
  { intros gs Hin. apply elem_of_list_filter in Hin as [_ Hin].
    apply elem_of_list_lookup in Hin as [i Hi]. destruct (Forall2_lookup_l _ _ _ _ _ F Hi) as (G & HG & I).
    by rewrite (im_in _ _ I), (im_out _ _ I). }
  split; intros (gs & Hin & Hx); exists gs; (split; [done|]); by apply Hi.
Qed.
Lemma covering_iff th t y : th_new db = Some th → y ∈ covering_nodes hash th (Some t) ↔ covers c y t.
Proof using H Hhash.
  intros Hth. unfold covering_nodes. rewrite (proj2 (Hhash _)), elem_of_list_to_set, elem_mjoin_fmap. by apply cov_in_iff.
Qed.
Lemma covers_not_token x y : covers c x y → ¬ token c x.
Proof using. intros (G & HG & He) [_ Hn]. apply Hn. exists G. split; [done|]. by exists y. Qed.
Lemma covered_tokens_iff th n t : th_new db = Some th → t ∈ covered_tokens hash th n ↔ covered c n t.
Proof using H Hhash.
  intros Hth. unfold covered_tokens, covered. pose proof (is_token_iff db c H th n Hth) as Hn. destruct (is_token th n).
  - apply proj1 in Hn. specialize (Hn eq_refl). rewrite elem_of_list_singleton. clear -Hn. naive_solver.
  - assert (¬ token c n) as Hn' by (intros Hx; by apply Hn in Hx).
    rewrite (proj2 (Hhash _)), elem_of_list_to_set, elem_mjoin_fmap. rewrite <- (cov_iff th n t Hth). split.
    + intros (gs & Hgs & Ht). apply elem_of_list_filter in Ht as [Ht Hin]. split; [by apply (is_token_iff db c H th t Hth)|].
      right. split; [by exists gs|done].
    + intros [Ht [->|[(gs & Hgs & Hin) _]]]; [done|]. exists gs. split; [done|]. apply elem_of_list_filter.
      split; [by apply (is_token_iff db c H th t Hth)|done].
Qed.
Lemma covered_token_self n : token c n → covered c n n.
Proof using. intros Ht. split; [done|by left]. Qed.

(** ** The window *)
Lemma region_lemma n l r : one_text c n → in_limit O (Included (N.of_nat l)) → in_limit O (Included (N.of_nat r)) →
  match region hash fuel rnd db n l r None with
  | ROk (s, e) => ∃ a b, covered c n a ∧ covered c n b ∧
      (∀ t, covered c n t → reachable (edge_rel O) a t ∧ reachable (edge_rel O) t b) ∧
      clipped_before O a l s ∧ clipped_after O b r e
  | RNoToken => ∀ t, ¬ covered c n t
  | RError => False
  | RNoFuel => True
  end.
Proof using All.
  intros Hone Hl Hr. unfold region. destruct (th_some db c H) as (th & Eth & _). rewrite Eth, Eo.
  destruct T as (Hch & _ & _). pose proof order_implements as I.
  pose proof (order_sort O Hch order I Hself (covered c n) fuel rnd (covered_tokens hash th n)) as Hs.
  specialize (Hs Hone). assert (Forall (covered c n) (covered_tokens hash th n)) as HF.
  { apply Forall_forall. intros t. by apply covered_tokens_iff. }
  specialize (Hs HF). destruct (sort _ _ _ _) as [l'| |]; [|done..]. destruct Hs as [Hp Hs].
  assert (∀ t, t ∈ l' ↔ covered c n t) as Hin by (intros t; rewrite Hp; by apply covered_tokens_iff).
  unfold window_tokens. destruct (head l') as [a|] eqn:Ea.
  - destruct (last l') as [b|] eqn:Eb; [|apply last_None in Eb; by subst].
    exists a, b. split_and!.
    + apply Hin. by apply head_Some_elem_of.
    + apply Hin. by apply last_Some_elem_of.
    + intros t Ht. apply (sorted_ends O l' a b Hs Ea Eb). by apply Hin.
    + by apply clip_left_spec.
    + by apply clip_right_spec.
  - apply head_None in Ea. subst. intros t Ht. apply Hin in Ht. by apply elem_of_nil in Ht.
Qed.

(** ** The iterator *)
Lemma emits_fun {S} (next : S → option N * S) st l1 l2 : emits next st l1 → emits next st l2 → l1 = l2.
Proof.
  intros H1. revert l2. induction H1 as [st st' E|st x st' l E _ IH]; intros l2 H2; destruct H2 as [? ? E2|? ? ? ? E2 H2]; rewrite E in E2; simplify_eq; [done|].
  f_equal. by apply IH.
Qed.
Lemma emits_covering th e ns : ∀ cur l, emits (token_next hash th order e) (TokenIter [] cur) l →
  emits (token_next hash th order e) (TokenIter ns cur) (ns ++ l).
Proof using.
  induction ns as [|n ns IH]; intros cur l Hl; [done|]. simpl. apply emits_node with (TokenIter ns cur); [done|]. by apply IH.
Qed.
Lemma emits_window th p : ∀ s e, walk (edge_rel O) s p e →
  emits (token_next hash th order e) (token_iter_new hash th s) (mjoin ((λ t, covering_nodes hash th (Some t) ++ [t]) <$> s :: p)).
Proof using H T Eo.
  pose proof order_implements as I. destruct T as (Hch & _ & _). induction p as [|y p IH]; intros s e Hw.
  - simpl in Hw. subst e. cbn. rewrite app_nil_r. apply emits_covering. apply emits_node with (TokenIter [] None).
    + unfold token_next. cbn. by rewrite decide_True.
    + eapply emits_end. reflexivity.
  - pose proof Hw as Hw0. destruct Hw as [He Hw].
    assert (s ≠ e) as Hne.
    { intros ->. by apply (chain_cycle O Hch) in Hw0. }
    assert (head (gs_out order s) = Some y) as Hy.
    { destruct (gs_out order s) as [|z zs] eqn:Ez.
      - apply (im_out _ _ I) in He. rewrite Ez in He. by apply elem_of_nil in He.
      - simpl. f_equal. assert (edge_rel O s z) as Hz by (apply (im_out _ _ I); rewrite Ez; by left).
        by apply (proj1 Hch s). }
    rewrite fmap_cons. cbn [mjoin list_join]. rewrite <- app_assoc. apply emits_covering.
    apply emits_node with (token_iter_new hash th y).
    + unfold token_next. cbn. rewrite decide_False by done. by rewrite Hy.
    + by apply IH.
Qed.

(** ** Tokens of the window *)
Lemma walk_target (s t : N) p : walk (edge_rel O) s p t → p ≠ [] → is_target O t ∧ is_source O s.
Proof using.
  intros Hw Hp. split.
  - destruct p as [|x p _] using rev_ind; [done|]. apply walk_app_inv in Hw as (z & _ & Hz & Hx). simpl in Hx. subst x. by exists z.
  - destruct p as [|x p]; [done|]. destruct Hw as [He _]. by exists x.
Qed.
Lemma window_context n l r a b s e : covered c n a → covered c n b →
  (∀ t, covered c n t → reachable (edge_rel O) a t ∧ reachable (edge_rel O) t b) →
  clipped_before O a l s → clipped_after O b r e →
  ∃ p, walk (edge_rel O) s p e ∧ ∀ t, t ∈ s :: p ↔ in_context c n l r t.
Proof using T.
  intros Ca Cb Hab (p1 & W1 & L1 & D1) (p2 & W2 & L2 & D2). destruct T as (Hch & _ & _). clear Hself.
  destruct (Hab a Ca) as [_ [pm Wm]].
  assert (walk (edge_rel O) s (p1 ++ pm ++ p2) e) as W by (eapply walk_app; [done|]; by eapply walk_app).
  exists (p1 ++ pm ++ p2). split; [done|]. intros t. split.
  - intros Ht. destruct (walk_mem O _ s e t W Ht) as (q & r' & Hq & Hr' & _).
    destruct (le_lt_dec (length q) (length p1)) as [Hlen|Hlen].
    { destruct (chain_fwd O Hch q s t a p1 Hq W1 Hlen) as (w & Hw & ->). right. left. exists a, w.
      split_and!; [done..|]. rewrite app_length in L1. lia. }
    destruct (chain_fwd O Hch p1 s a t q W1 Hq ltac:(lia)) as (w & Hw & _).
    destruct (le_lt_dec (length p2) (length r')) as [Hlen'|Hlen'].
    + destruct (chain_back O Hch b p2 e t r' W2 Hr' Hlen') as (w' & Hw' & _). left. exists a, b. split_and!; [done..|by exists w|by exists w'].
    + destruct (chain_back O Hch t r' e b p2 Hr' W2 ltac:(lia)) as (w' & Hw' & Hl). right. right. exists b, w'. split_and!; [done..|lia].
  - intros Ht.
    assert (reachable (edge_rel O) s a) as Rsa by (by exists p1). assert (reachable (edge_rel O) b e) as Rbe by (by exists p2).
    assert (∀ x y z, reachable (edge_rel O) x y → reachable (edge_rel O) y z → reachable (edge_rel O) x z) as RT by apply reachable_trans.
    apply (walk_between O Hch s _ e t W).
    + destruct Ht as [(a' & b' & Ha' & _ & Hat & _)|[(a' & q & Ha' & Hq & Hlen)|(b' & q & Hb' & Hq & _)]].
      * apply (RT _ a); [done|]. apply (RT _ a'); [by apply Hab|done].
      * destruct (Hab a' Ha') as [[u Hu] _]. destruct (le_lt_dec (length q) (length u)) as [Hqu|Hqu].
        -- destruct (chain_back O Hch t q a' a u Hq Hu Hqu) as (w & Hw & _). apply (RT _ a); [done|by exists w].
        -- destruct (chain_back O Hch a u a' t q Hu Hq ltac:(lia)) as (w & Hw & Hl).
           destruct (le_lt_dec (length w) (length p1)) as [Hwp|Hwp].
           ++ destruct (chain_back O Hch t w a s p1 Hw W1 Hwp) as (v & Hv & _). by exists v.
           ++ destruct (chain_back O Hch s p1 a t w W1 Hw ltac:(lia)) as (v & Hv & Hl'). exfalso.
              destruct D1 as [D1|D1]; [lia|]. apply D1. apply (walk_target t s v Hv). intros ->. simpl in Hl'. lia.
      * apply (RT _ a); [done|]. apply (RT _ b'); [by apply Hab|by exists q].
    + destruct Ht as [(a' & b' & _ & Hb' & _ & Htb)|[(a' & q & Ha' & Hq & _)|(b' & q & Hb' & Hq & Hlen)]].
      * apply (RT _ b'); [done|]. apply (RT _ b); [by apply Hab|done].
      * apply (RT _ a'); [by exists q|]. apply (RT _ b); [by apply Hab|done].
      * destruct (Hab b' Hb') as [_ [u Hu]]. destruct (le_lt_dec (length q) (length u)) as [Hqu|Hqu].
        -- destruct (chain_fwd O Hch q b' t b u Hq Hu Hqu) as (w & Hw & _). apply (RT _ b); [by exists w|done].
        -- destruct (chain_fwd O Hch u b' b t q Hu Hq ltac:(lia)) as (w & Hw & Hl). subst q. rewrite app_length in Hlen.
           destruct (le_lt_dec (length w) (length p2)) as [Hwp|Hwp].
           ++ destruct (chain_fwd O Hch w b t e p2 Hw W2 Hwp) as (v & Hv & _). by exists v.
           ++ destruct (chain_fwd O Hch p2 b e t w W2 Hw ltac:(lia)) as (v & Hv & Hl'). exfalso. subst w. rewrite app_length in *.
              destruct D2 as [D2|D2]; [lia|]. apply D2. apply (walk_target e t v Hv). intros ->. simpl in Hwp. lia.
Qed.
Lemma window_emits th n l r s e : th_new db = Some th → one_text c n →
  in_limit O (Included (N.of_nat l)) → in_limit O (Included (N.of_nat r)) → region hash fuel rnd db n l r None = ROk (s, e) →
  ∃ out, emits (token_next hash th order e) (token_iter_new hash th s) out ∧ window_nodes c n l r out.
Proof using All.
  intros Hth Hone Hl Hr HR. pose proof (region_lemma n l r Hone Hl Hr) as HL. rewrite HR in HL.
  destruct HL as (a & b & Ca & Cb & Hab & Hs & He). destruct (window_context n l r a b s e Ca Cb Hab Hs He) as (p & Hw & Hp).
  eexists. split; [by apply emits_window|].
  exists ((λ t, (covering_nodes hash th (Some t), t)) <$> s :: p). split_and!.
  - by rewrite <- list_fmap_compose.
  - rewrite <- list_fmap_compose. replace ((snd ∘ λ t, (covering_nodes hash th (Some t), t)) <$> s :: p) with (s :: p) by (symmetry; apply list_fmap_id).
    intros i j x y Hi Hj Hij. by apply (walk_ordered O p s e i j x y).
  - rewrite <- list_fmap_compose. replace ((snd ∘ λ t, (covering_nodes hash th (Some t), t)) <$> s :: p) with (s :: p) by (symmetry; apply list_fmap_id).
    done.
  - intros ns t Hin. apply elem_of_list_fmap in Hin as (t' & [= -> ->] & _). split; [apply Hhash|]. intros y. by apply covering_iff.
Qed.
Lemma window_nodes_iff n l r out y : window_nodes c n l r out → y ∈ out ↔ ∃ t, in_context c n l r t ∧ (y = t ∨ covers c y t).
Proof using.
  intros (gr & -> & _ & Ht & Hc). rewrite elem_mjoin_fmap. split.
  - intros ([ns t] & Hin & Hy). exists t. split; [apply Ht; apply elem_of_list_fmap; by exists (ns, t)|].
    apply elem_of_app in Hy as [Hy|Hy]; [right; by apply (Hc ns t Hin)|left; by apply elem_of_list_singleton in Hy].
  - intros (t & Hin & Hy). apply Ht, elem_of_list_fmap in Hin as ([ns t'] & Heq & Hin). cbn in Heq. subst t'. exists (ns, t). split; [done|].
    apply elem_of_app. destruct Hy as [->|Hy]; [right; by left|left; by apply (Hc ns t Hin)].
Qed.

(** ** All matches *)
Lemma regions_lemma l r ns : (∀ n, n ∈ ns → one_text c n) →
  in_limit O (Included (N.of_nat l)) → in_limit O (Included (N.of_nat r)) →
  match regions hash fuel rnd db ns l r None with
  | ROk rs => (∀ x, x ∈ rs → ∃ n, n ∈ ns ∧ region hash fuel rnd db n l r None = ROk x) ∧
              (∀ n, n ∈ ns → (∃ x, x ∈ rs ∧ region hash fuel rnd db n l r None = ROk x) ∨ ∀ t, ¬ covered c n t)
  | RNoFuel => True
  | _ => False
  end.
Proof using All.
  intros Hone Hl Hr. induction ns as [|n ns IH]; cbn [regions].
  - split; intros ? Hx; by apply elem_of_nil in Hx.
  - assert (one_text c n) as Hn by (apply Hone; by left). specialize (IH ltac:(intros m Hm; apply Hone; by right)).
    pose proof (region_lemma n l r Hn Hl Hr) as HR.
    destruct (region hash fuel rnd db n l r None) as [x| | |] eqn:E; [| |done|done].
    + destruct (regions hash fuel rnd db ns l r None) as [rs| | |]; [|done..]. destruct IH as [I1 I2]. split.
      * intros y [->|Hy]%elem_of_cons; [exists n; split; [by left|done]|]. destruct (I1 y Hy) as (m & Hm & Em). exists m. split; [by right|done].
      * intros m [->|Hm]%elem_of_cons; [left; exists x; split; [by left|done]|].
        destruct (I2 m Hm) as [(y & Hy & Ey)|Hno]; [left; exists y; split; [by right|done]|by right].
    + destruct (regions hash fuel rnd db ns l r None) as [rs| | |]; [|done..]. destruct IH as [I1 I2]. split.
      * intros y Hy. destruct (I1 y Hy) as (m & Hm & Em). exists m. split; [by right|done].
      * intros m [->|Hm]%elem_of_cons; [by right|]. by apply I2.
Qed.
Lemma in_context_covered n l r t : in_context c n l r t → ∃ u, covered c n u.
Proof using. intros [(a & _ & Ha & _)|[(a & _ & Ha & _)|(a & _ & Ha & _)]]; by exists a. Qed.
Lemma overlapped_lemma l r ns out : (∀ n, n ∈ ns → one_text c n) →
  in_limit O (Included (N.of_nat l)) → in_limit O (Included (N.of_nat r)) →
  overlapped hash fuel rnd db ns l r None out →
  ∀ y, y ∈ out ↔ ∃ n t, n ∈ ns ∧ in_context c n l r t ∧ (y = t ∨ covers c y t).
Proof using All.
  intros Hone Hl Hr Ho y. destruct Ho as [th o rs rs' ls Hth Eo' Hrs Hsort HF].
  rewrite Eo in Eo'. injection Eo' as <-. pose proof (regions_lemma l r ns Hone Hl Hr) as HR. rewrite Hrs in HR. destruct HR as [R1 R2].
  pose proof (sort_any (region_cmp order) fuel rnd rs) as Hp. rewrite Hsort in Hp.
  rewrite elem_of_list_join. split.
  - intros (k & Hy & Hk). apply elem_of_list_lookup in Hk as [i Hi]. destruct (Forall2_lookup_r _ _ _ _ _ HF Hi) as ([s e] & Hx & He).
    assert ((s, e) ∈ rs) as Hin by (rewrite <- Hp; by eapply elem_of_list_lookup_2).
    destruct (R1 _ Hin) as (n & Hn & En). destruct (window_emits th n l r s e Hth (Hone n Hn) Hl Hr En) as (k' & He' & Hw).
    rewrite <- (emits_fun _ _ _ _ He He') in Hw. apply (window_nodes_iff n l r k y Hw) in Hy as (t & Ht). exists n, t. done.
  - intros (n & t & Hn & Ht & Hy). destruct (R2 n Hn) as [([s e] & Hx & En)|Hno].
    + rewrite <- Hp in Hx. apply elem_of_list_lookup in Hx as [i Hi]. destruct (Forall2_lookup_l _ _ _ _ _ HF Hi) as (k & Hk & He).
      destruct (window_emits th n l r s e Hth (Hone n Hn) Hl Hr En) as (k' & He' & Hw). rewrite <- (emits_fun _ _ _ _ He He') in Hw.
      exists k. split; [|by eapply elem_of_list_lookup_2]. apply (window_nodes_iff n l r k y Hw). by exists t.
    + destruct (in_context_covered n l r t Ht) as [u Hu]. by apply Hno in Hu.
Qed.
Lemma overlapped_exists l r ns rs rs' : (∀ n, n ∈ ns → one_text c n) →
  in_limit O (Included (N.of_nat l)) → in_limit O (Included (N.of_nat r)) →
  regions hash fuel rnd db ns l r None = ROk rs → sort (region_cmp order) fuel rnd rs = Done rs' →
  ∃ out, overlapped hash fuel rnd db ns l r None out.
Proof using All.
  intros Hone Hl Hr Hrs Hsort. destruct (th_some db c H) as (th & Hth & _).
  pose proof (regions_lemma l r ns Hone Hl Hr) as HR. rewrite Hrs in HR. destruct HR as [R1 _].
  pose proof (sort_any (region_cmp order) fuel rnd rs) as Hp. rewrite Hsort in Hp.
  assert (∃ ls, Forall2 (λ x k, emits (token_next hash th order x.2) (token_iter_new hash th x.1) k) rs' ls) as [ls Hls].
  { assert (∀ x, x ∈ rs' → ∃ k, emits (token_next hash th order x.2) (token_iter_new hash th x.1) k) as Hx.
    { intros [s e] Hx. rewrite Hp in Hx. destruct (R1 _ Hx) as (n & Hn & En).
      destruct (window_emits th n l r s e Hth (Hone n Hn) Hl Hr En) as (k & Hk & _). by exists k. }
    clear -Hx. induction rs' as [|x rs' IH]; [exists []; constructor|].
    destruct (Hx x) as [k Hk]; [by left|]. destruct IH as [ls Hls]; [intros z Hz; apply Hx; by right|]. exists (k :: ls). by constructor. }
  eexists. by eapply overlapped_intro.
Qed.
Lemma subgraph_lemma part_of P l r ns out : implements part_of P → (∀ n, n ∈ ns → one_text c n) →
  in_limit O (Included (N.of_nat l)) → in_limit O (Included (N.of_nat r)) →
  subgraph_nodes hash fuel rnd db part_of ns l r None out →
  ∀ y, y ∈ out ↔ y ∈ ns ∨ (∃ n t, n ∈ ns ∧ in_context c n l r t ∧ (y = t ∨ covers c y t)) ∨
                 ∃ n p, n ∈ ns ∧ simple_path (edge_rel P) n p y ∧ p ≠ [].
Proof using All.
  intros IP Hone Hl Hr Hs y. destruct Hs as [th o Hth Ho]. pose proof (overlapped_lemma l r ns o Hone Hl Hr Ho y) as HO.
  rewrite !elem_of_app, HO, elem_of_list_filter. unfold parents. rewrite (proj2 (Hhash _)), elem_of_list_to_set, elem_mjoin_fmap.
  assert ((∃ n, n ∈ ns ∧ y ∈ gs_connected part_of n 1 Unbounded) ↔ ∃ n p, n ∈ ns ∧ simple_path (edge_rel P) n p y ∧ p ≠ []) as Hpar.
  { split.
    - intros (n & Hn & Hy). apply (im_connected _ _ IP n y 1 Unbounded Logic.I (or_intror (N.le_refl 1))) in Hy as (p & Hp & [Hd _]).
      exists n, p. split_and!; [done..|]. intros ->. simpl in Hd. lia.
    - intros (n & p & Hn & Hp & Hne). exists n. split; [done|].
      apply (im_connected _ _ IP n y 1 Unbounded Logic.I (or_intror (N.le_refl 1))). exists p. split; [done|]. split; [|done].
      destruct p; [done|]. simpl. lia. }
  rewrite Hpar. pose proof (is_token_iff db c H th y Hth) as Hty. split.
  - intros [[_ Hy]|Hy]; [by left|by right].
  - intros [Hy|Hy]; [|by right]. destruct (is_token th y); [|by left]. right. left. exists y, y. split_and!; [done| |by left].
    left. exists y, y. assert (covered c y y) as Hc by (apply covered_token_self; by apply Hty). split_and!; [done|done|by exists []|by exists []].
Qed.

(** ** Segmentations *)
Lemma left_token_lemma th x : th_new db = Some th →
  match left_token_for th x with Some t => left_border c x t | None => ∀ t, ¬ left_border c x t end.
Proof using H.
  intros Hth. unfold left_token_for. pose proof (is_token_iff db c H th x Hth) as Hx.
  destruct (th_some db c H) as (th' & E & _ & _ & IL & _). rewrite Hth in E. injection E as <-. destruct (is_token th x).
  - left. split; [by apply Hx|done].
  - assert (¬ token c x) as Hn by (intros Ht; by apply Hx in Ht). destruct (head (gs_out (th_left th) x)) as [t|] eqn:E.
    + right. split; [done|]. apply (im_out _ _ IL). by apply head_Some_elem_of.
    + apply head_None in E. intros t [[? _]|[_ Ht]]; [done|]. apply (im_out _ _ IL) in Ht. rewrite E in Ht. by apply elem_of_nil in Ht.
Qed.
Lemma right_token_lemma th x : th_new db = Some th →
  match right_token_for th x with Some t => right_border c x t | None => ∀ t, ¬ right_border c x t end.
Proof using H.
  intros Hth. unfold right_token_for. pose proof (is_token_iff db c H th x Hth) as Hx.
  destruct (th_some db c H) as (th' & E & _ & _ & _ & IR). rewrite Hth in E. injection E as <-. destruct (is_token th x).
  - left. split; [by apply Hx|done].
  - assert (¬ token c x) as Hn by (intros Ht; by apply Hx in Ht). destruct (head (gs_out (th_right th) x)) as [t|] eqn:E.
    + right. split; [done|]. apply (im_out _ _ IR). by apply head_Some_elem_of.
    + apply head_None in E. intros t [[? _]|[_ Ht]]; [done|]. apply (im_out _ _ IR) in Ht. rewrite E in Ht. by apply elem_of_nil in Ht.
Qed.
Context (seg : storage) (S : gset edge) (IS : implements seg S) (HS : chains S) (Sself : at_most_itself seg S).
Lemma segments_iff th n cov x : th_new db = Some th → (∀ t, t ∈ cov ↔ covered c n t) → x ∈ segments hash th seg cov ↔ segment_of c S n x.
Proof using H Hhash IS.
  intros Hth Hcov. unfold segments, segment_of. rewrite (proj2 (Hhash _)), elem_of_list_to_set, elem_mjoin_fmap.
  assert ((gs_has_out seg x || gs_has_in seg x) = true ↔ x ∈ all_nodes S) as Hx.
  { rewrite orb_true_iff, (has_out_iff seg S x IS), (has_in_iff seg S x IS). split.
    - intros [[y Hy]|[y Hy]]; [by apply (all_nodes_edge S x y)|by apply (all_nodes_edge S y x)].
    - unfold all_nodes. rewrite elem_of_union, !elem_of_map. intros [(e & -> & He)|(e & -> & He)]; destruct e as [u v]; [left; by exists v|right; by exists u]. }
  split.
  - intros (gs & Hgs & Hin). apply elem_mjoin_fmap in Hin as (t & Ht & Hin). apply elem_of_list_filter in Hin as [Hf Hin].
    split; [by apply Hx|]. exists t. split; [by apply Hcov|]. apply (cov_in_iff th x t Hth). by exists gs.
  - intros (Hn & t & Ht & Hc). apply (cov_in_iff th x t Hth) in Hc as (gs & Hgs & Hin). exists gs. split; [done|].
    apply elem_mjoin_fmap. exists t. split; [by apply Hcov|]. apply elem_of_list_filter. split; [by apply Hx|done].
Qed.
Lemma segmentation_lemma n l r : one_text c n →
  (∀ x y, segment_of c S n x → segment_of c S n y → x = y ∨ before S x y ∨ before S y x) →
  in_limit S (Included (N.of_nat l)) → in_limit S (Included (N.of_nat r)) →
  match region hash fuel rnd db n l r (Some (Some seg)) with
  | ROk (s, e) =>
      ((∀ x, ¬ segment_of c S n x) ∧ first_covered c n s ∧ last_covered c n e) ∨
      ∃ x y x' y', segment_of c S n x ∧ segment_of c S n y ∧
        (∀ z, segment_of c S n z → reachable (edge_rel S) x z ∧ reachable (edge_rel S) z y) ∧
        clipped_before S x l x' ∧ clipped_after S y r y' ∧
        (left_border c x' s ∨ (∀ t, ¬ left_border c x' t) ∧ first_covered c n s) ∧
        (right_border c y' e ∨ (∀ t, ¬ right_border c y' t) ∧ last_covered c n e)
  | RNoToken => ∀ t, ¬ covered c n t
  | RError => False
  | RNoFuel => True
  end.
Proof using All.
  intros Hone Hseg Hl Hr. unfold region. destruct (th_some db c H) as (th & Eth & _). rewrite Eth, Eo.
  destruct T as (Hch & _ & _). pose proof order_implements as I.
  pose proof (order_sort O Hch order I Hself (covered c n) fuel rnd (covered_tokens hash th n)) as Hs.
  specialize (Hs Hone). assert (Forall (covered c n) (covered_tokens hash th n)) as HF.
  { apply Forall_forall. intros t. by apply covered_tokens_iff. }
  specialize (Hs HF). destruct (sort _ _ _ _) as [l'| |]; [|done..]. destruct Hs as [Hp Hs].
  assert (∀ t, t ∈ l' ↔ covered c n t) as Hin by (intros t; rewrite Hp; by apply covered_tokens_iff).
  unfold window_segments. destruct (head l') as [a|] eqn:Ea.
  2: { apply head_None in Ea. subst. intros t Ht. apply Hin in Ht. by apply elem_of_nil in Ht. }
  destruct (last l') as [b|] eqn:Eb; [|apply last_None in Eb; by subst].
  assert (first_covered c n a) as Fa.
  { split; [apply Hin; by apply head_Some_elem_of|]. intros t Ht. apply (sorted_ends O l' a b Hs Ea Eb). by apply Hin. }
  assert (last_covered c n b) as Lb.
  { split; [apply Hin; by apply last_Some_elem_of|]. intros t Ht. apply (sorted_ends O l' a b Hs Ea Eb). by apply Hin. }
  pose proof (order_sort S HS seg IS Sself (segment_of c S n) fuel rnd (segments hash th seg l') Hseg) as Hss.
  assert (Forall (segment_of c S n) (segments hash th seg l')) as HF'.
  { apply Forall_forall. intros x. by apply segments_iff. }
  specialize (Hss HF'). destruct (sort (order_cmp seg) fuel rnd _) as [ss| |]; [|done..]. destruct Hss as [Hp' Hs'].
  assert (∀ x, x ∈ ss ↔ segment_of c S n x) as Hin' by (intros x; rewrite Hp'; by apply segments_iff).
  destruct ss as [|x ss].
  { left. split; [|done]. intros x Hx. apply Hin' in Hx. by apply elem_of_nil in Hx. }
  right. set (y := default x (last ss)). assert (last (x :: ss) = Some y) as Ey.
  { unfold y. destruct ss as [|z ss]; [done|]. change (last (x :: z :: ss)) with (last (z :: ss)).
    destruct (last (z :: ss)) eqn:E; [done|]. by apply last_None in E. }
  exists x, y, (clip_left seg x l), (clip_right seg y r). split_and!.
  - apply Hin'. by left.
  - apply Hin'. by apply last_Some_elem_of.
  - intros z Hz. apply (sorted_ends S (x :: ss) x y Hs' eq_refl Ey). by apply Hin'.
  - by apply clip_left_spec.
  - by apply clip_right_spec.
  - pose proof (left_token_lemma th (clip_left seg x l) Eth) as HL. destruct (left_token_for th (clip_left seg x l)); [by left|by right].
  - pose proof (right_token_lemma th (clip_right seg y r) Eth) as HL. destruct (right_token_for th (clip_right seg y r)); [by left|by right].
Qed.
End Region.
