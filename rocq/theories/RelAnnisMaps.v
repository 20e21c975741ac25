(** Maps filled by loops, and the sorted lists of their entries. *)
From Coq Require Import NArith Lia.
From stdpp Require Import base list gmap sorting.
From Verif Require Import KeySer KeySerSpec SortedMap Types AnnoMem AnnoMemQueries HistogramSpec HistogramProofs CompPath RelAnnis ListExtra.

(** Two strictly sorted lists with the same elements are equal *)
Lemma strict_sorted_ext {A} (R : A → A → Prop) l1 l2 : (∀ x, ¬ R x x) → Transitive R → StronglySorted R l1 → StronglySorted R l2 →
  (∀ x, x ∈ l1 ↔ x ∈ l2) → l1 = l2.
Proof.
  intros Hi Ht H1. revert l2. induction H1 as [|a l1 H1 IH Ha]; intros l2 H2 He.
  - destruct l2 as [|b l2]; [done|]. assert (b ∈ @nil A) as Hb by (apply He; left). by apply elem_of_nil in Hb.
  - destruct H2 as [|b l2 H2 Hb]. { assert (a ∈ @nil A) as H by (apply He; left). by apply elem_of_nil in H. }
    rewrite Forall_forall in Ha, Hb. assert (a = b) as ->.
    { assert (a ∈ b :: l2) as Hx by (apply He; left). assert (b ∈ a :: l1) as Hy by (apply He; left).
      apply elem_of_cons in Hx as [Hx|Hx]; [done|]. apply elem_of_cons in Hy as [Hy|Hy]; [done|].
      exfalso. apply (Hi a). etransitivity; [exact (Ha b Hy)|exact (Hb a Hx)]. }
    f_equal. apply IH; [done|]. intros x. split; intros Hx.
    + assert (x ∈ b :: l2) as H by (apply He; by right). apply elem_of_cons in H as [-> |H]; [|done]. exfalso. by apply (Hi b), Ha.
    + assert (x ∈ b :: l1) as H by (apply He; by right). apply elem_of_cons in H as [-> |H]; [|done]. exfalso. by apply (Hi b), Hb.
Qed.
Lemma strict_sorted_nodup {A} (R : A → A → Prop) l : (∀ x, ¬ R x x) → StronglySorted R l → NoDup l.
Proof. intros Hi H. induction H as [|a l H IH Ha]; constructor; [|done]. rewrite Forall_forall in Ha. intros Hx. by apply (Hi a), Ha. Qed.

(** ** Loops that fill a map *)
Section fill.
Context {A K V : Type} `{Countable K} (f : A → option (K * V)).
Definition fill (m : gmap K V) (l : list A) : gmap K V :=
  fold_left (λ m r, match f r with Some (k, v) => <[k := v]> m | None => m end) l m.
Lemma fill_app m l1 l2 : fill m (l1 ++ l2) = fill (fill m l1) l2.
Proof. apply fold_left_app. Qed.
(** The last entry of a key *)
Lemma fill_lookup l k : fill ∅ l !! k = last (omap (λ r, match f r with Some (k', v) => if decide (k' = k) then Some v else None | None => None end) l).
Proof.
  induction l as [|r l IH] using rev_ind; [apply lookup_empty|]. rewrite fill_app. cbn [fill fold_left].
  rewrite omap_app. cbn [omap list_omap]. destruct (f r) as [[k' v]|]; [|by rewrite app_nil_r].
  destruct (decide (k' = k)) as [-> |Hk].
  - by rewrite lookup_insert, last_snoc.
  - by rewrite lookup_insert_ne, app_nil_r.
Qed.
Lemma fill_Some l k v : fill ∅ l !! k = Some v → ∃ r, r ∈ l ∧ f r = Some (k, v).
Proof.
  rewrite fill_lookup. intros E. apply last_Some_elem_of in E. apply elem_of_list_omap in E as (r & Hr & E). exists r. split; [done|].
  destruct (f r) as [[k' v']|]; [|done]. case_decide; [|done]. congruence.
Qed.
Lemma fill_is_Some l k : is_Some (fill ∅ l !! k) ↔ ∃ r v, r ∈ l ∧ f r = Some (k, v).
Proof.
  split.
  - intros [v Hv]. destruct (fill_Some l k v Hv) as (r & H1 & H2). by exists r, v.
  - intros (r & v & H1 & H2). rewrite fill_lookup. apply last_is_Some. intros E.
    assert (v ∈ @nil V) as Hv; [|by apply elem_of_nil in Hv]. rewrite <- E. apply elem_of_list_omap. exists r. split; [done|]. rewrite H2. by rewrite decide_True.
Qed.
Lemma fill_unique l k v : NoDup (omap f l).*1 → fill ∅ l !! k = Some v ↔ ∃ r, r ∈ l ∧ f r = Some (k, v).
Proof.
  intros Hn. split; [apply fill_Some|]. intros (r & Hr & Ef). destruct (proj2 (fill_is_Some l k)) as [v' Hv']; [by exists r, v|].
  rewrite Hv'. f_equal. destruct (fill_Some l k v' Hv') as (r' & Hr' & Ef').
  assert ((k, v) ∈ omap f l) as H1 by (apply elem_of_list_omap; by exists r). assert ((k, v') ∈ omap f l) as H2 by (apply elem_of_list_omap; by exists r').
  apply elem_of_list_lookup in H1 as [i Hi]. apply elem_of_list_lookup in H2 as [j Hj].
  assert (i = j) as ->. { eapply NoDup_lookup; [exact Hn|rewrite list_lookup_fmap, Hi; reflexivity|rewrite list_lookup_fmap, Hj; reflexivity]. }
  congruence.
Qed.
End fill.
(** A loop that fills a map with an entry for each row *)
Lemma fill_all {A K V} `{Countable K} (key : A → K) (val : A → V) l m : fold_left (λ m r, <[key r := val r]> m) l m = fill (λ r, Some (key r, val r)) m l.
Proof. reflexivity. Qed.
Lemma fold_fill {A K V} `{Countable K} (step : gmap K V → A → gmap K V) (f : A → option (K * V)) l m :
  (∀ m r, step m r = match f r with Some (k, v) => <[k := v]> m | None => m end) → fold_left step l m = fill f m l.
Proof. intros Hs. unfold fill. revert m. induction l as [|r l IH]; intros m; [reflexivity|]. cbn [fold_left]. by rewrite Hs, IH. Qed.

(** ** Sorted entries *)
Section entries.
Context {K V : Type} `{Countable K} (cmp : K → K → comparison).
Definition entries (m : gmap K V) : list (K * V) := sort_list (λ a b, cmp a.1 b.1) (map_to_list m).
Definition klt (a b : K * V) : Prop := cmp a.1 b.1 = Lt.
Lemma entries_elem m x : x ∈ entries m ↔ m !! x.1 = Some x.2.
Proof. unfold entries. rewrite (sort_list_perm _ _). destruct x as [k v]. apply elem_of_map_to_list. Qed.
Lemma entries_sorted (O : CmpOrder cmp) m : StronglySorted klt (entries m).
Proof.
  assert (StronglySorted (λ a b : K * V, cmp a.1 b.1 ≠ Gt) (entries m)) as Hs.
  { unfold entries. apply sort_list_sorted.
    - intros [a ?] [b ?] [c ?]. cbn. intros H1 H2. destruct (cmp a b) eqn:E1; [| |done].
      + apply (cmp_eq cmp) in E1. by subst.
      + destruct (cmp b c) eqn:E2; [| |done].
        * apply (cmp_eq cmp) in E2. subst. by rewrite E1.
        * rewrite (cmp_trans cmp _ _ _ E1 E2). done.
    - done.
    - intros a b E. rewrite (cmp_anti cmp). by rewrite E. }
  assert (NoDup (entries m).*1) as Hn.
  { unfold entries. rewrite (sort_list_perm _ _). apply NoDup_fst_map_to_list. }
  clear -Hs Hn O. induction Hs as [|a l Hs IH Ha]; [constructor|]. cbn in Hn. apply NoDup_cons in Hn as [H1 H2]. constructor; [by apply IH|].
  rewrite Forall_forall in Ha |- *. intros x Hx. specialize (Ha x Hx). unfold klt. destruct (cmp a.1 x.1) eqn:E; [|done|done].
  apply (cmp_eq cmp) in E. exfalso. apply H1. rewrite E. apply elem_of_list_fmap. by exists x.
Qed.
Lemma entries_unique (O : CmpOrder cmp) m l : StronglySorted klt l → (∀ x, x ∈ l ↔ m !! x.1 = Some x.2) → entries m = l.
Proof.
  intros Hs He. apply (strict_sorted_ext klt).
  - intros x Hx. unfold klt in Hx. by rewrite (cmp_refl cmp) in Hx.
  - intros a b c. apply (cmp_trans cmp).
  - by apply entries_sorted.
  - done.
  - intros x. rewrite He. apply entries_elem.
Qed.
End entries.
(** Comparison of pairs, component by component *)
Lemma lex_order {A B C} (f : A → B) (g : A → C) (c1 : B → B → comparison) (c2 : C → C → comparison) :
  CmpOrder c1 → CmpOrder c2 → (∀ x y, f x = f y → g x = g y → x = y) →
  CmpOrder (λ a b, match c1 (f a) (f b) with Eq => c2 (g a) (g b) | c => c end).
Proof.
  intros O1 O2 Hi. constructor.
  - intros a b. split.
    + destruct (c1 (f a) (f b)) eqn:E1; [|done|done]. intros E2. apply (cmp_eq c1) in E1. apply (cmp_eq c2) in E2. by apply Hi.
    + intros ->. assert (c1 (f b) (f b) = Eq) as -> by (by apply (cmp_eq c1)). by apply (cmp_eq c2).
  - intros a b. rewrite (cmp_anti c1 (f a)). destruct (c1 (f a) (f b)); cbn; [apply (cmp_anti c2)|done|done].
  - intros a b c. destruct (c1 (f a) (f b)) eqn:E1; [|intros _|done].
    + apply (cmp_eq c1) in E1. rewrite E1. destruct (c1 (f b) (f c)) eqn:E2; [apply (cmp_trans c2)|done|done].
    + destruct (c1 (f b) (f c)) eqn:E2; [|intros _|done].
      * apply (cmp_eq c1) in E2. rewrite <- E2, E1. done.
      * by rewrite (cmp_trans c1 _ _ _ E1 E2).
Qed.
Global Instance pos_compare_order : CmpOrder pos_compare.
Proof.
  apply (lex_order (λ a : pos, a.1.1) (λ a : pos, (a.1.2, a.2)) N.compare (λ a b, match (a.1 ?= b.1)%N with Eq => (a.2 ?= b.2)%N | c => c end)).
  - apply _.
  - apply (lex_order (λ a : N * N, a.1) (λ a : N * N, a.2) N.compare N.compare); [apply _|apply _|]. intros [? ?] [? ?]. cbn. congruence.
  - intros [[? ?] ?] [[? ?] ?]. cbn. congruence.
Qed.
Global Instance index_compare_order : CmpOrder index_compare.
Proof.
  apply (lex_order (λ a : bytes * pos, a.1) (λ a : bytes * pos, a.2) lex_compare pos_compare); [apply _|apply _|]. intros [? ?] [? ?]. cbn. congruence.
Qed.
