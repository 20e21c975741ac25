(** Rust's [BTreeMap]/[BTreeSet] (and other ordered tables) modelled as association lists that are
    sorted strictly ascending w.r.t. a comparison function. *)
From stdpp Require Import base list.
From Coq Require Import NArith Sorted Lia.
From Verif Require Import KeySer KeySerSpec.

(** The laws of Rust's [Ord]. *)
Class CmpOrder {K : Type} (cmp : K → K → comparison) : Prop := {
  cmp_eq : ∀ a b, cmp a b = Eq ↔ a = b;
  cmp_anti : ∀ a b, cmp b a = CompOpp (cmp a b);
  cmp_trans : ∀ a b c, cmp a b = Lt → cmp b c = Lt → cmp a c = Lt
}.

Arguments cmp_eq {K} cmp {_}. Arguments cmp_anti {K} cmp {_}. Arguments cmp_trans {K} cmp {_}.

Section model.
Context {K V : Type} (cmp : K → K → comparison).

(** BTreeMap::get *)
Fixpoint al_get (l : list (K * V)) (k : K) : option V :=
  match l with
  | [] => None
  | (k', v) :: l' => match cmp k k' with Eq => Some v | _ => al_get l' k end
  end.

(** BTreeMap::insert *)
Fixpoint al_insert (l : list (K * V)) (k : K) (v : V) : list (K * V) :=
  match l with
  | [] => [(k, v)]
  | (k', v') :: l' =>
      match cmp k k' with
      | Lt => (k, v) :: l
      | Eq => (k, v) :: l'
      | Gt => (k', v') :: al_insert l' k v
      end
  end.

(** BTreeMap::remove *)
Fixpoint al_remove (l : list (K * V)) (k : K) : list (K * V) :=
  match l with
  | [] => []
  | (k', v') :: l' => match cmp k k' with Eq => l' | _ => (k', v') :: al_remove l' k end
  end.

Definition al_sorted (l : list (K * V)) : Prop := StronglySorted (λ x y, cmp x.1 y.1 = Lt) l.

(** Range bounds: std::ops::Bound *)
Inductive bound := Included (k : K) | Excluded (k : K) | Unbounded.

Definition above (b : bound) (k : K) : bool :=
  match b with
  | Included s => match cmp s k with Gt => false | _ => true end
  | Excluded s => match cmp s k with Lt => true | _ => false end
  | Unbounded => true
  end.
Definition below (b : bound) (k : K) : bool :=
  match b with
  | Included e => match cmp k e with Gt => false | _ => true end
  | Excluded e => match cmp k e with Lt => true | _ => false end
  | Unbounded => true
  end.

(** BTreeMap::range on valid bounds *)
Definition al_range (l : list (K * V)) (s e : bound) : list (K * V) :=
  filter (λ x, above s x.1 && below e x.1 = true) l.

(** BTreeMap::range panics if start > end, or if start == end and both are Excluded. *)
Definition range_panics (s e : bound) : bool :=
  match s, e with
  | Excluded a, Excluded b => match cmp a b with Lt => false | _ => true end
  | Included a, (Included b | Excluded b) | Excluded a, Included b =>
      match cmp a b with Gt => true | _ => false end
  | _, _ => false
  end.
End model.
Arguments bound K : clear implicits.

Section facts.
Context {K V : Type} (cmp : K → K → comparison) `{!CmpOrder cmp}.
Implicit Types (l : list (K * V)).

Lemma cmp_refl a : cmp a a = Eq.
Proof. by apply (cmp_eq cmp). Qed.
Lemma cmp_gt_lt a b : cmp a b = Gt ↔ cmp b a = Lt.
Proof. rewrite (cmp_anti cmp a b). destruct (cmp a b); naive_solver. Qed.
Lemma cmp_lt_irrefl a : cmp a a ≠ Lt.
Proof. by rewrite cmp_refl. Qed.
Lemma cmp_eq_dec (a b : K) : {a = b} + {a ≠ b}.
Proof.
  destruct (cmp a b) eqn:E.
  - left. by apply (cmp_eq cmp).
  - right. intros ->. by rewrite cmp_refl in E.
  - right. intros ->. by rewrite cmp_refl in E.
Qed.

Lemma al_sorted_inv l x : al_sorted cmp (x :: l) →
  al_sorted cmp l ∧ Forall (λ y, cmp x.1 y.1 = Lt) l.
Proof. by intros ?%StronglySorted_inv. Qed.

Lemma al_get_in l k v : al_get cmp l k = Some v → (k, v) ∈ l.
Proof.
  induction l as [|[k' v'] l IH]; simpl; [done|].
  destruct (cmp k k') eqn:E; intros Hg.
  - apply (cmp_eq cmp) in E as ->. injection Hg as ->. by left.
  - right. auto.
  - right. auto.
Qed.

Lemma al_get_iff l k v : al_sorted cmp l → al_get cmp l k = Some v ↔ (k, v) ∈ l.
Proof.
  intros Hs. split; [apply al_get_in|].
  induction l as [|[k' v'] l IH]; simpl; [by intros ?%elem_of_nil|].
  apply al_sorted_inv in Hs as [Hs Hf]. rewrite elem_of_cons. intros [[= <- <-]|Hin].
  - by rewrite cmp_refl.
  - rewrite Forall_forall in Hf. specialize (Hf _ Hin). simpl in Hf.
    assert (cmp k k' = Gt) as -> by (by apply (cmp_gt_lt)). auto.
Qed.

Lemma al_get_none l k : al_get cmp l k = None ↔ ∀ v, (k, v) ∉ l.
Proof.
  induction l as [|[k' v'] l IH]; simpl.
  - split; [intros _ v; apply not_elem_of_nil|done].
  - destruct (cmp k k') eqn:E.
    + apply (cmp_eq cmp) in E as ->. split; [done|]. intros Hn. destruct (Hn v'). by left.
    + rewrite IH. split; intros Hn v; specialize (Hn v); rewrite elem_of_cons in *.
      * intros [[= -> ->]|?]; [by rewrite cmp_refl in E|auto].
      * tauto.
    + rewrite IH. split; intros Hn v; specialize (Hn v); rewrite elem_of_cons in *.
      * intros [[= -> ->]|?]; [by rewrite cmp_refl in E|auto].
      * tauto.
Qed.

Lemma al_get_insert l k v k' :
  al_get cmp (al_insert cmp l k v) k' =
  match cmp k' k with Eq => Some v | _ => al_get cmp l k' end.
Proof.
  induction l as [|[k1 v1] l IH]; simpl; [done|].
  destruct (cmp k k1) eqn:E; simpl.
  - apply (cmp_eq cmp) in E as ->. by destruct (cmp k' k1).
  - done.
  - rewrite IH. destruct (cmp k' k1) eqn:E1; [|done..].
    destruct (cmp k' k) eqn:E2; [|done..].
    apply (cmp_eq cmp) in E1 as ->, E2 as ->. by rewrite cmp_refl in E.
Qed.

Lemma al_insert_in l k v x : x ∈ al_insert cmp l k v → x = (k, v) ∨ x ∈ l.
Proof.
  induction l as [|[k1 v1] l IH]; simpl.
  - intros ->%elem_of_list_singleton. auto.
  - destruct (cmp k k1); rewrite !elem_of_cons; naive_solver.
Qed.

Lemma al_insert_sorted l k v : al_sorted cmp l → al_sorted cmp (al_insert cmp l k v).
Proof.
  unfold al_sorted. induction l as [|[k1 v1] l IH]; simpl; intros Hs.
  - constructor; constructor.
  - apply StronglySorted_inv in Hs as [Hs Hf]. destruct (cmp k k1) eqn:E.
    + apply (cmp_eq cmp) in E as ->. constructor; [done|done].
    + constructor; [by constructor|]. constructor; [done|].
      eapply Forall_impl; [exact Hf|]. simpl. intros [k2 v2] Hk. simpl in *.
      by eapply (cmp_trans cmp).
    + constructor; [auto|]. apply Forall_forall. intros x Hx%al_insert_in.
      destruct Hx as [->|Hx]; simpl.
      * by apply (cmp_gt_lt).
      * rewrite Forall_forall in Hf. by apply Hf.
Qed.

Lemma al_remove_in l k x : x ∈ al_remove cmp l k → x ∈ l.
Proof.
  induction l as [|[k1 v1] l IH]; simpl; [done|].
  destruct (cmp k k1); rewrite ?elem_of_cons; naive_solver.
Qed.

Lemma al_remove_sorted l k : al_sorted cmp l → al_sorted cmp (al_remove cmp l k).
Proof.
  unfold al_sorted. induction l as [|[k1 v1] l IH]; simpl; intros Hs; [done|].
  apply StronglySorted_inv in Hs as [Hs Hf].
  assert (al_sorted cmp ((k1,v1) :: al_remove cmp l k)).
  { constructor; [auto|]. apply Forall_forall. intros x Hx%al_remove_in.
    rewrite Forall_forall in Hf. by apply Hf. }
  by destruct (cmp k k1).
Qed.

Lemma al_get_remove l k k' : al_sorted cmp l →
  al_get cmp (al_remove cmp l k) k' =
  match cmp k' k with Eq => None | _ => al_get cmp l k' end.
Proof.
  induction l as [|[k1 v1] l IH]; simpl; intros Hs; [by destruct (cmp k' k)|].
  apply al_sorted_inv in Hs as [Hs Hf]. simpl in Hf.
  destruct (cmp k k1) eqn:E.
  - apply (cmp_eq cmp) in E as ->. destruct (cmp k' k1) eqn:E1; [|done..].
    apply (cmp_eq cmp) in E1 as ->. apply al_get_none. intros v Hin.
    rewrite Forall_forall in Hf. specialize (Hf _ Hin). simpl in Hf.
    by rewrite cmp_refl in Hf.
  - simpl. rewrite IH by done. destruct (cmp k' k1) eqn:E1; [|done..].
    apply (cmp_eq cmp) in E1 as ->. destruct (cmp k1 k) eqn:E2; try done.
    apply (cmp_eq cmp) in E2 as ->. by rewrite cmp_refl in E.
  - simpl. rewrite IH by done. destruct (cmp k' k1) eqn:E1; [|done..].
    apply (cmp_eq cmp) in E1 as ->. destruct (cmp k1 k) eqn:E2; try done.
    apply (cmp_eq cmp) in E2 as ->. by rewrite cmp_refl in E.
Qed.

Lemma al_sorted_NoDup l : al_sorted cmp l → NoDup (l.*1).
Proof.
  induction l as [|[k v] l IH]; simpl; intros Hs; [constructor|].
  apply al_sorted_inv in Hs as [Hs Hf]. constructor; [|auto].
  rewrite elem_of_list_fmap. intros [[k' v'] [-> Hin]]. rewrite Forall_forall in Hf.
  specialize (Hf _ Hin). simpl in Hf. by rewrite cmp_refl in Hf.
Qed.

Lemma al_sorted_filter (P : K * V → Prop) `{!∀ x, Decision (P x)} l :
  al_sorted cmp l → al_sorted cmp (filter P l).
Proof.
  unfold al_sorted. induction l as [|x l IH]; intros Hs; [done|].
  apply StronglySorted_inv in Hs as [Hs Hf]. rewrite filter_cons. destruct (decide (P x)).
  - constructor; [auto|]. apply Forall_forall. intros y Hy.
    apply elem_of_list_filter in Hy as [_ Hy]. rewrite Forall_forall in Hf. by apply Hf.
  - auto.
Qed.

(** A sorted list is determined by its elements. *)
Lemma al_sorted_ext l1 l2 : al_sorted cmp l1 → al_sorted cmp l2 →
  (∀ x, x ∈ l1 ↔ x ∈ l2) → l1 = l2.
Proof.
  revert l2. induction l1 as [|[k1 v1] l1 IH]; intros [|[k2 v2] l2] H1 H2 Hiff.
  - done.
  - exfalso. apply (not_elem_of_nil (k2, v2)). apply Hiff. by left.
  - exfalso. apply (not_elem_of_nil (k1, v1)). apply Hiff. by left.
  - apply al_sorted_inv in H1 as [H1 F1], H2 as [H2 F2]. simpl in *.
    rewrite Forall_forall in F1, F2.
    assert ((k1, v1) = (k2, v2)) as Ehd.
    { assert (Ha : (k1, v1) ∈ (k2, v2) :: l2) by (apply Hiff; by left).
      assert (Hb : (k2, v2) ∈ (k1, v1) :: l1) by (apply Hiff; by left).
      apply elem_of_cons in Ha as [?|Ha]; [done|]. apply elem_of_cons in Hb as [?|Hb]; [done|].
      specialize (F1 _ Hb). specialize (F2 _ Ha). simpl in *.
      exfalso. apply (cmp_lt_irrefl k1). by eapply (cmp_trans cmp). }
    injection Ehd as <- <-. f_equal. apply IH; [done..|].
    intros x. split; intros Hx.
    + assert (Ha : x ∈ (k1, v1) :: l2) by (apply Hiff; by right).
      apply elem_of_cons in Ha as [->|?]; [|done].
      specialize (F1 _ Hx). simpl in F1. by rewrite cmp_refl in F1.
    + assert (Ha : x ∈ (k1, v1) :: l1) by (apply Hiff; by right).
      apply elem_of_cons in Ha as [->|?]; [|done].
      specialize (F2 _ Hx). simpl in F2. by rewrite cmp_refl in F2.
Qed.
End facts.

(** Instances *)
Global Instance N_compare_order : CmpOrder N.compare.
Proof.
  constructor.
  - apply N.compare_eq_iff.
  - intros a b. apply N.compare_antisym.
  - intros a b c. rewrite !N.compare_lt_iff. lia.
Qed.

Lemma lex_refl a : lex_compare a a = Eq.
Proof. induction a as [|x a IH]; simpl; [done|]. by rewrite N.compare_refl. Qed.

Global Instance lex_compare_order : CmpOrder lex_compare.
Proof.
  constructor.
  - induction a as [|x a IH]; intros [|y b]; simpl; try done.
    destruct (N.compare_spec x y) as [->|Hl|Hl].
    + rewrite IH. split; [by intros ->|by intros [= ->]].
    + split; [done|]. intros [= -> _]. lia.
    + split; [done|]. intros [= -> _]. lia.
  - induction a as [|x a IH]; intros [|y b]; simpl; try done.
    rewrite (N.compare_antisym x y). destruct (N.compare x y); simpl; auto.
  - induction a as [|x a IH]; intros [|y b] [|z c]; simpl; try done.
    destruct (N.compare_spec x y) as [->|Hl|Hl]; destruct (N.compare_spec y z) as [->|Hl'|Hl'];
      try done.
    + apply IH.
    + intros _ _. destruct (N.compare_spec x z); [lia|done|lia].
    + intros _ _. destruct (N.compare_spec x z); [lia|done|lia].
Qed.

Global Instance edge_compare_order : CmpOrder edge_compare.
Proof.
  constructor.
  - intros [s1 t1] [s2 t2]. unfold edge_compare; simpl.
    destruct (N.compare_spec s1 s2) as [->|Hl|Hl].
    + rewrite N.compare_eq_iff. split; [by intros ->|by intros [= ->]].
    + split; [done|]. intros [= -> _]. lia.
    + split; [done|]. intros [= -> _]. lia.
  - intros [s1 t1] [s2 t2]. unfold edge_compare; simpl.
    rewrite (N.compare_antisym s1 s2), (N.compare_antisym t1 t2). by destruct (N.compare s1 s2).
  - intros [s1 t1] [s2 t2] [s3 t3]. unfold edge_compare; simpl.
    destruct (N.compare_spec s1 s2), (N.compare_spec s2 s3), (N.compare_spec s1 s3);
      rewrite ?N.compare_lt_iff; intros; try done; lia.
Qed.
