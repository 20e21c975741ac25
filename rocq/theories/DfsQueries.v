From stdpp Require Import base list gmap fin_sets sorting.
From Coq Require Import NArith Lia.
From Verif Require Import SymbolTable SortedMap GraphSpec Dfs DfsProofs.

Lemma nodup_bounded (b : N) : ∀ l : list N, NoDup l → Forall (λ x, (x < b)%N) l → (N.of_nat (length l) <= b)%N.
Proof.
  induction b as [|b IH] using N.peano_ind; intros l Hnd Hb.
  - destruct l as [|x l]; [done|]. apply Forall_cons in Hb as [? _]. lia.
  - assert (length l ≤ S (length (filter (λ x, x ≠ b) l))) as Hle.
    { clear IH Hb. induction Hnd as [|x l Hx Hnd IH]; [simpl; lia|]. rewrite filter_cons.
      destruct (decide (x ≠ b)) as [Hne|He]; simpl; [lia|]. apply dec_stable in He. subst x.
      assert (filter (λ x, x ≠ b) l = l) as ->; [|done].
      clear -Hx. induction l as [|y l IH]; [done|]. apply not_elem_of_cons in Hx as [? ?].
      rewrite filter_cons, decide_True by done. by rewrite IH. }
    assert (N.of_nat (length (filter (λ x, x ≠ b) l)) <= b)%N; [|lia].
    apply IH.
    { by apply NoDup_filter. }
    { apply Forall_forall. intros x [Hx Hin]%elem_of_list_filter. rewrite Forall_forall in Hb. specialize (Hb x Hin). lia. }
Qed.

Lemma first_visits_spec l : ∀ X, NoDup (first_visits X l) ∧ ∀ m, m ∈ first_visits X l ↔ m ∉ X ∧ ∃ d, (m, d) ∈ l.
Proof.
  induction l as [|[x d] l IH]; intros X; simpl.
  - split; [constructor|]. intros m. split; [by intros ?%elem_of_nil|]. intros (_ & d & ?%elem_of_nil). done.
  - destruct (decide (x ∈ X)) as [Hx|Hx].
    + destruct (IH X) as [Hnd Hin]. split; [done|]. intros m. rewrite Hin. split.
      * intros (? & d' & ?). split; [done|]. exists d'. by right.
      * intros (? & d' & [[= -> ->]|?]%elem_of_cons); [done|]. eauto.
    + destruct (IH ({[x]} ∪ X)) as [Hnd Hin]. split.
      * constructor; [|done]. rewrite Hin. intros [Hn _]. apply Hn. set_solver.
      * intros m. rewrite elem_of_cons, Hin. split.
        -- intros [->|(Hn & d' & ?)]; [split; [done|exists d; by left]|]. split; [set_solver|]. exists d'. by right.
        -- intros (Hn & d' & [[= -> ->]|?]%elem_of_cons); [by left|].
           destruct (decide (m = x)) as [->|Hne]; [by left|right]. split; [set_solver|eauto].
Qed.

Section generic.
Context (nb : N → list N) (Vs : gset N).
Context (Hclosed : ∀ a b, a ∈ Vs → b ∈ nb a → b ∈ Vs).
Context (Hids : ∀ a b, b ∈ nb a → (a < node_bound)%N ∧ (b < node_bound)%N).
Notation E := (λ a b, b ∈ nb a).

Lemma walk_ids s p t : walk E s p t → p ≠ [] → Forall (λ x, (x < node_bound)%N) (s :: p).
Proof.
  revert s. induction p as [|x p IH]; intros s; [done|]. simpl. intros [He Hw] _.
  destruct (Hids s x He). constructor; [done|]. destruct p as [|y p]; [by repeat constructor|]. by apply IH.
Qed.
Lemma simple_path_length s p t : simple_path E s p t → (N.of_nat (length p) <= usize_max)%N.
Proof.
  intros [Hw Hnd]. destruct p as [|x p]; [done|].
  pose proof (nodup_bounded node_bound (s :: x :: p) Hnd (walk_ids _ _ _ Hw ltac:(done))) as Hl.
  cbn [length] in *. unfold usize_max, node_bound in *. lia.
Qed.

Lemma rng_distance min max m s p t : max_of_bound max = Some m → simple_path E s p t →
  in_rng min m (length p) = true ↔ in_distance min max (length p).
Proof.
  intros Hm Hp. unfold in_rng, in_distance. rewrite andb_true_iff, !N.leb_le. f_equiv.
  pose proof (simple_path_length _ _ _ Hp). destruct max as [x|x|]; simpl in Hm; simplify_eq; try done.
  destruct (decide (x = 0%N)); simplify_eq. lia.
Qed.

Lemma connected_lemma node min max s0 : node ∈ Vs → max ≠ Excluded 0%N →
  d_path s0 = [] → d_in_path s0 = ∅ → d_last s0 = 0 → d_stack s0 = [(node, 0)] →
  ∃ f0, ∀ f, f0 ≤ f → ∃ m l s', max_of_bound max = Some m ∧ dfs_loop nb min m f s0 = Some (l, s') ∧
    ∀ x d, (x, d) ∈ l ↔ ∃ p, simple_path E node p x ∧ d = length p ∧ in_distance min max (length p).
Proof.
  intros Hn Hmax ? ? ? ?. assert (∃ m, max_of_bound max = Some m) as [m Hm].
  { destruct max as [x|x|]; simpl; [by eexists| |by eexists]. destruct (decide _); [congruence|by eexists]. }
  destruct (search_total nb min m Vs Hclosed s0 node) as (f0 & Hf); try done. exists f0. intros f Hf0.
  destruct (Hf f Hf0) as (l & s' & E1 & Hl & _). exists m, l, s'. split_and!; [done..|].
  intros x d. rewrite Hl. split; intros (p & Hp & -> & Hr); exists p; (split_and!; [done|done|]);
    by apply (rng_distance min max m node p x Hm Hp).
Qed.

Lemma find_connected_lemma node min max : node ∈ Vs → max ≠ Excluded 0%N →
  ∃ f0, ∀ f, f0 ≤ f → ∃ l, find_connected f nb node min max = Some l ∧ NoDup l ∧
    ∀ m, m ∈ l ↔ ∃ p, simple_path E node p m ∧ in_distance min max (length p).
Proof.
  intros Hn Hmax. destruct (connected_lemma node min max (dfs_new node) Hn Hmax) as (f0 & Hf); try done.
  exists f0. intros f Hf0. destruct (Hf f Hf0) as (m & l & s' & Hm & El & Hl).
  unfold find_connected. rewrite Hm. simpl. rewrite El. simpl. eexists. split; [done|].
  destruct (first_visits_spec l ∅) as [Hnd Hin]. split; [done|]. intros x. rewrite Hin. split.
  - intros (_ & d & Hd). apply Hl in Hd as (p & ? & _ & ?). eauto.
  - intros (p & Hp & Hd). split; [apply not_elem_of_empty|]. exists (length p). apply Hl. eauto.
Qed.
Lemma find_connected_inverse_lemma node min max : node ∈ Vs → max ≠ Excluded 0%N →
  ∃ f0, ∀ f, f0 ≤ f → ∃ l, find_connected_inverse f nb node min max = Some l ∧ NoDup l ∧
    ∀ m, m ∈ l ↔ ∃ p, simple_path E node p m ∧ in_distance min max (length p).
Proof.
  intros Hn Hmax. destruct (connected_lemma node min max (dfs_new_inverse node) Hn Hmax) as (f0 & Hf); try done.
  exists f0. intros f Hf0. destruct (Hf f Hf0) as (m & l & s' & Hm & El & Hl).
  unfold find_connected_inverse. rewrite Hm. simpl. rewrite El. simpl. eexists. split; [done|].
  destruct (first_visits_spec l ∅) as [Hnd Hin]. split; [done|]. intros x. rewrite Hin. split.
  - intros (_ & d & Hd). apply Hl in Hd as (p & ? & _ & ?). eauto.
  - intros (p & Hp & Hd). split; [apply not_elem_of_empty|]. exists (length p). apply Hl. eauto.
Qed.

Lemma is_connected_lemma node t min max : node ∈ Vs → max ≠ Excluded 0%N →
  ∃ f0, ∀ f, f0 ≤ f → ∃ b, is_connected f nb node t min max = Some b ∧
    (b = true ↔ ∃ p, simple_path E node p t ∧ in_distance min max (length p)).
Proof.
  intros Hn Hmax. destruct (connected_lemma node min max (dfs_new node) Hn Hmax) as (f0 & Hf); try done.
  exists f0. intros f Hf0. destruct (Hf f Hf0) as (m & l & s' & Hm & El & Hl).
  unfold is_connected. rewrite Hm. simpl. rewrite El. simpl. eexists. split; [done|].
  destruct (filter (λ x : N * nat, x.1 = t) l) as [|[x d] l'] eqn:Ef.
  - split; [done|]. intros (p & Hp & Hd).
    assert ((t, length p) ∈ filter (λ x : N * nat, x.1 = t) l) as Hin.
    { apply elem_of_list_filter. split; [done|]. apply Hl. eauto. }
    rewrite Ef in Hin. by apply elem_of_nil in Hin.
  - split; [intros _|done].
    assert ((x, d) ∈ filter (λ x : N * nat, x.1 = t) l) as Hin by (rewrite Ef; by left).
    apply elem_of_list_filter in Hin as [Hx Hin]. simpl in Hx. subst x. apply Hl in Hin as (p & ? & _ & ?). eauto.
Qed.

(** distance: the length of some simple path *)
Lemma distance_lemma node t : node ∈ Vs →
  ∃ f0, ∀ f, f0 ≤ f → ∃ r, distance f nb node t = Some r ∧
    match r with
    | Some d => ∃ p, simple_path E node p t ∧ length p = d
    | None => ¬ reachable E node t
    end.
Proof.
  intros Hn. destruct (connected_lemma node 0 Unbounded (dfs_new node) Hn) as (f0 & Hf); try done.
  exists f0. intros f Hf0. destruct (Hf f Hf0) as (m & l & s' & Hm & El & Hl). injection Hm as <-.
  unfold distance. rewrite El. simpl. eexists. split; [done|].
  destruct (filter (λ x : N * nat, x.1 = t) l) as [|[x d] l'] eqn:Ef; simpl.
  - intros Hr%reachable_simple. destruct Hr as (p & Hp).
    assert ((t, length p) ∈ filter (λ x : N * nat, x.1 = t) l) as Hin.
    { apply elem_of_list_filter. split; [done|]. apply Hl. exists p. split_and!; [done|done|]. split; [lia|done]. }
    rewrite Ef in Hin. by apply elem_of_nil in Hin.
  - assert ((x, d) ∈ filter (λ x : N * nat, x.1 = t) l) as Hin by (rewrite Ef; by left).
    apply elem_of_list_filter in Hin as [Hx Hin]. simpl in Hx. subst x. apply Hl in Hin as (p & ? & -> & _). eauto.
Qed.
End generic.

(** With at most one parent per node, all simple paths between two nodes have the same length. *)
Lemma simple_unique_one_parent (E : N → N → Prop) : (∀ a b x, E a x → E b x → a = b) →
  ∀ t s p q, simple_path E s p t → simple_path E s q t → p = q.
Proof.
  intros H1 t s p. revert t. induction p as [|x p IH] using rev_ind; intros t q [Hp Np] [Hq Nq].
  - simpl in Hp. subst t. destruct q as [|y q] using rev_ind; [done|]. exfalso.
    apply walk_app_inv in Hq as (u & Hq & He & <-). apply NoDup_cons in Nq as [Nq _]. apply Nq.
    apply elem_of_app. right. by left.
  - apply walk_app_inv in Hp as (u & Hp & He & Ht). simpl in Ht. subst t.
    destruct q as [|y q _] using rev_ind.
    + simpl in Hq. subst x. exfalso. apply NoDup_cons in Np as [Np _]. apply Np. apply elem_of_app. right. by left.
    + apply walk_app_inv in Hq as (u' & Hq & He' & Ht). simpl in Ht. subst y.
      rewrite (H1 _ _ _ He' He) in Hq. f_equal. apply (IH u).
      * split; [done|]. rewrite app_comm_cons in Np. by apply NoDup_app in Np as (? & _ & _).
      * split; [done|]. rewrite app_comm_cons in Nq. by apply NoDup_app in Nq as (? & _ & _).
Qed.
Lemma shortest_one_parent (E : N → N → Prop) s t p : (∀ a b x, E a x → E b x → a = b) →
  simple_path E s p t → shortest E s t (length p).
Proof.
  intros H1 Hp. split; [exists p; split; [apply Hp|done]|]. intros q Hq.
  destruct (walk_simple E s q t Hq) as (q' & Hq' & Hl & _).
  rewrite (simple_unique_one_parent E H1 t s p q' Hp Hq'). done.
Qed.
