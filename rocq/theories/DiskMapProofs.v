From stdpp Require Import base list.
From Coq Require Import Sorted Lia.
From Verif Require Import KeySer KeySerSpec SortedMap DiskMap DiskMapSpec ListExtra.

Section proofs.
Context {K V : Type} `{EqDecision K}.
Context (P : K → Prop) (kcmp : K → K → comparison) (ser : K → bytes) (parse : bytes → res K).
Context (KO : key_ok P kcmp ser parse).
Local Instance KC : CmpOrder kcmp := key_cmp _ _ _ _ KO.

Notation dmap := (diskmap K V).
Implicit Types (m : dmap).

Record dm_inv m (c : content (K:=K) (V:=V)) : Prop := {
  i_s0 : al_sorted kcmp (dm_c0 m);
  i_s1 : ∀ c1, dm_c1 m = Some c1 → al_sorted kcmp c1;
  i_s2 : ∀ c2, dm_c2 m = Some c2 → al_sorted lex_compare c2;
  i_p0 : Forall (λ e, P e.1) (dm_c0 m);
  i_p1 : ∀ c1, dm_c1 m = Some c1 → Forall (λ e, P e.1) c1;
  i_p2 : ∀ c2, dm_c2 m = Some c2 → Forall (λ e, ∃ k v, P k ∧ e = (ser k, Some v)) c2;
  i_get : ∀ k, P k → dm_get kcmp ser m k = c k;
  i_dom : ∀ k, c k ≠ None → P k
}.

Lemma inv_new n : dm_inv (dm_new n None) empty_content.
Proof. constructor; simpl; try done; constructor. Qed.

(** ** Compaction *)
Lemma fold_insert_get (l c : list (K * option V)) k : al_sorted kcmp l →
  al_get kcmp (fold_left (λ c e, al_insert kcmp c e.1 e.2) l c) k =
  match al_get kcmp l k with Some x => Some x | None => al_get kcmp c k end.
Proof.
  revert c. induction l as [|[k1 x1] l IH]; intros c Hs; [done|].
  apply al_sorted_inv in Hs as [Hs Hf]. cbn [fold_left fst snd al_get]. rewrite IH by done.
  rewrite al_get_insert by apply _. destruct (kcmp k k1) eqn:E.
  - apply (cmp_eq kcmp) in E as ->.
    destruct (al_get kcmp l k1) as [y|] eqn:El; [|done].
    apply al_get_in in El; [|apply _]. rewrite Forall_forall in Hf. specialize (Hf _ El).
    simpl in Hf. by rewrite cmp_refl in Hf by apply _.
  - done.
  - done.
Qed.

Lemma fold_insert_sorted (l c : list (K * option V)) :
  al_sorted kcmp c → al_sorted kcmp (fold_left (λ c e, al_insert kcmp c e.1 e.2) l c).
Proof.
  revert c. induction l as [|[k1 x1] l IH]; intros c Hs; [done|]. simpl. apply IH.
  apply al_insert_sorted; [apply _|done].
Qed.

Lemma fold_insert_P (l c : list (K * option V)) : Forall (λ e, P e.1) l → Forall (λ e, P e.1) c →
  Forall (λ e, P e.1) (fold_left (λ c e, al_insert kcmp c e.1 e.2) l c).
Proof.
  revert c. induction l as [|[k1 x1] l IH]; intros c Hl Hc; [done|]. simpl.
  apply Forall_cons in Hl as [H1 Hl]. apply IH; [done|]. apply Forall_forall.
  intros x Hx%al_insert_in. destruct Hx as [->|Hx]; [done|]. rewrite Forall_forall in Hc. auto.
Qed.

Lemma inv_compact m c : dm_inv m c → dm_inv (dm_compact kcmp m) c.
Proof.
  intros I. constructor; simpl.
  - constructor.
  - intros c1 [= <-]. apply fold_insert_sorted. destruct (dm_c1 m) eqn:E; [by apply (i_s1 _ _ I)|constructor].
  - apply (i_s2 _ _ I).
  - constructor.
  - intros c1 [= <-]. apply fold_insert_P; [apply (i_p0 _ _ I)|].
    destruct (dm_c1 m) eqn:E; [by apply (i_p1 _ _ I)|constructor].
  - apply (i_p2 _ _ I).
  - intros k Hk. rewrite <- (i_get _ _ I) by done. unfold dm_get. simpl.
    rewrite fold_insert_get by apply (i_s0 _ _ I).
    destruct (al_get kcmp (dm_c0 m) k); [done|]. destruct (dm_c1 m); done.
  - apply (i_dom _ _ I).
Qed.

Lemma inv_evict m c : dm_inv m c → dm_inv (dm_evict kcmp m) c.
Proof. intros I. unfold dm_evict. case_decide; [by apply inv_compact|done]. Qed.

Lemma al_insert_P (l : list (K * option V)) k x : P k → Forall (λ e, P e.1) l → Forall (λ e, P e.1) (al_insert kcmp l k x).
Proof.
  intros Hk Hl. apply Forall_forall. intros y Hy%al_insert_in.
  destruct Hy as [->|Hy]; [done|]. rewrite Forall_forall in Hl. auto.
Qed.

Lemma inv_c0_insert m c k x : P k → dm_inv m c →
  dm_inv (DM (dm_max m) (al_insert kcmp (dm_c0 m) k x) (dm_c1 m) (dm_c2 m))
         (λ k', if decide (k' = k) then x else c k').
Proof.
  intros Hk I. constructor; simpl.
  - apply al_insert_sorted; [apply _|apply (i_s0 _ _ I)].
  - apply (i_s1 _ _ I).
  - apply (i_s2 _ _ I).
  - apply al_insert_P; [done|apply (i_p0 _ _ I)].
  - apply (i_p1 _ _ I).
  - apply (i_p2 _ _ I).
  - intros k' Hk'. unfold dm_get. simpl. rewrite al_get_insert by apply _.
    case_decide as Hd.
    + subst. by rewrite cmp_refl by apply _.
    + rewrite <- (i_get _ _ I) by done. unfold dm_get.
      destruct (kcmp k' k) eqn:E; [|done..]. by apply (cmp_eq kcmp) in E.
  - intros k'. case_decide; [by subst|]. apply (i_dom _ _ I).
Qed.

Lemma inv_ext m c c' : (∀ k, c k = c' k) → dm_inv m c → dm_inv m c'.
Proof.
  intros E I. destruct I. constructor; try done.
  - intros k Hk. rewrite <- E. auto.
  - intros k. rewrite <- E. auto.
Qed.

Lemma inv_insert m c k v : P k → dm_inv m c →
  dm_inv (dm_insert kcmp m k v) (spec_step c (DmInsert k v)).
Proof. intros Hk I. unfold dm_insert. apply inv_evict. by apply inv_c0_insert. Qed.

Lemma inv_remove m c k : P k → dm_inv m c →
  dm_inv (dm_remove kcmp ser m k).1 (spec_step c (DmRemove k)) ∧ (dm_remove kcmp ser m k).2 = c k.
Proof.
  intros Hk I. unfold dm_remove. rewrite (i_get _ _ I) by done.
  destruct (c k) as [v|] eqn:E; simpl.
  - split; [|done]. apply inv_evict. by apply inv_c0_insert.
  - split; [|done]. eapply inv_ext; [|exact I]. intros k'. simpl. case_decide; congruence.
Qed.

(** ** Iteration *)
Definition overlay (l0 l1 : list (K * option V)) (l2 : list (K * V)) (k : K) : option V :=
  match al_get kcmp l0 k with
  | Some x => x
  | None => match al_get kcmp l1 k with Some x => x | None => al_get kcmp l2 k end
  end.

Definition above_all {A} (mk : K) (l : list (K * A)) : Prop := Forall (λ e, kcmp mk e.1 ≠ Gt) l.
Definition strictly_above {A} (mk : K) (l : list (K * A)) : Prop := Forall (λ e, kcmp mk e.1 = Lt) l.

Lemma strictly_above_get {A} mk (l : list (K * A)) k x :
  strictly_above mk l → al_get kcmp l k = Some x → kcmp mk k = Lt.
Proof.
  intros Hs Hg%al_get_in; [|apply _]. unfold strictly_above in Hs. rewrite Forall_forall in Hs.
  apply (Hs _ Hg).
Qed.

Lemma pop_if_spec {A} mk (l : list (K * A)) e l' :
  al_sorted kcmp l → above_all mk l → pop_if kcmp mk l = (e, l') →
  al_sorted kcmp l' ∧ strictly_above mk l' ∧
  e = (λ x, (mk, x)) <$> al_get kcmp l mk ∧
  (∀ k, k ≠ mk → al_get kcmp l' k = al_get kcmp l k) ∧
  length l = length l' + match e with Some _ => 1 | None => 0 end.
Proof.
  intros Hs Ha. unfold pop_if. destruct l as [|[k x] l].
  - intros [= <- <-]. split_and!; try constructor; done.
  - apply al_sorted_inv in Hs as [Hs' Hf] . simpl in Hf.
    apply Forall_cons in Ha as [Hk Ha]. simpl in Hk.
    destruct (kcmp k mk) eqn:E; intros [= <- <-].
    + apply (cmp_eq kcmp) in E as ->. split_and!; try done.
      * simpl. by rewrite cmp_refl by apply _.
      * intros k' Hk'. simpl. destruct (kcmp k' mk) eqn:E; [|done..]. by apply (cmp_eq kcmp) in E.
      * simpl. lia.
    + rewrite (cmp_anti kcmp) in Hk. by rewrite E in Hk.
    + assert (kcmp mk k = Lt) as Hlt by (apply cmp_gt_lt; [apply _|done]).
      assert (strictly_above mk ((k, x) :: l)) as Hsa.
      { constructor; [done|]. eapply Forall_impl; [exact Hf|]. simpl. intros y Hy.
        by eapply (cmp_trans kcmp). }
      split_and!; [by constructor|done| |done|lia].
      destruct (al_get kcmp ((k, x) :: l) mk) as [y|] eqn:Eg; [|done].
      eapply strictly_above_get in Eg; [|exact Hsa].
      by rewrite cmp_refl in Eg by apply _.
Qed.

Lemma min_key_spec a b r : min_key kcmp a b = r →
  (r = None → a = None ∧ b = None) ∧
  (∀ mk, r = Some mk → (a = Some mk ∨ b = Some mk) ∧
     (∀ x, a = Some x → kcmp mk x ≠ Gt) ∧ (∀ x, b = Some x → kcmp mk x ≠ Gt)).
Proof.
  intros <-. unfold min_key. destruct a as [x|], b as [y|].
  - destruct (kcmp x y) eqn:E; (split; [done|]); intros mk [= <-]; split_and!; auto;
      intros z [= <-]; rewrite ?E, ?(cmp_refl kcmp); try done.
    apply cmp_gt_lt in E; [|apply _]. by rewrite E.
  - split; [done|]. intros mk [= <-]. split_and!; auto; intros z [= <-]. by rewrite cmp_refl by apply _.
  - split; [done|]. intros mk [= <-]. split_and!; auto; intros z [= <-]. by rewrite cmp_refl by apply _.
  - done.
Qed.

Lemma head_above {A} mk (l : list (K * A)) : al_sorted kcmp l →
  (∀ x, fst <$> head l = Some x → kcmp mk x ≠ Gt) → above_all mk l.
Proof.
  intros Hs Hh. destruct l as [|[k x] l]; [constructor|].
  apply al_sorted_inv in Hs as [Hs Hf]. specialize (Hh k eq_refl). constructor; [done|].
  eapply Forall_impl; [exact Hf|]. simpl. intros [k' x'] Hlt Hgt. simpl in *.
  apply cmp_gt_lt in Hgt; [|apply _]. apply Hh. apply cmp_gt_lt; [apply _|].
  by eapply (cmp_trans kcmp).
Qed.

Lemma kcmp_le_trans a b x : kcmp a b ≠ Gt → kcmp b x ≠ Gt → kcmp a x ≠ Gt.
Proof.
  intros H1 H2 H3. destruct (kcmp a b) eqn:E1; [apply (cmp_eq kcmp) in E1 as ->; done| |done].
  destruct (kcmp b x) eqn:E2; [apply (cmp_eq kcmp) in E2 as ->; congruence| |done].
  rewrite (cmp_trans kcmp a b x) in H3 by done. done.
Qed.

Lemma combined_step_spec l0 l1 l2 :
  al_sorted kcmp l0 → al_sorted kcmp l1 → al_sorted kcmp l2 →
  match combined_step kcmp l0 l1 l2 with
  | None => l0 = [] ∧ l1 = [] ∧ l2 = []
  | Some (out, (l0', l1', l2')) =>
      ∃ mk, al_sorted kcmp l0' ∧ al_sorted kcmp l1' ∧ al_sorted kcmp l2' ∧
        strictly_above mk l0' ∧ strictly_above mk l1' ∧ strictly_above mk l2' ∧
        out = (λ v, (mk, v)) <$> overlay l0 l1 l2 mk ∧
        (∀ k, k ≠ mk → overlay l0' l1' l2' k = overlay l0 l1 l2 k) ∧
        length l0' + length l1' + length l2' < length l0 + length l1 + length l2
  end.
Proof.
  intros S0 S1 S2. unfold combined_step.
  destruct (min_key kcmp (fst <$> head l0) (fst <$> head l1)) as [m1|] eqn:E1;
  pose proof (min_key_spec _ _ _ E1) as [N1 M1];
  destruct (min_key kcmp _ (fst <$> head l2)) as [mk|] eqn:E2;
  pose proof (min_key_spec _ _ _ E2) as [N2 M2].
  all: try (destruct (N2 eq_refl); done).
  2:{ (* only l2 non-empty *)
    destruct (N1 eq_refl) as [H0 H1]. destruct l0, l1; try done.
    destruct (M2 _ eq_refl) as [[?|Hh] [_ HA2]]; [done|].
    cbn [pop_if]. destruct (pop_if kcmp mk l2) as [e2 l2'] eqn:Ep2.
    assert (above_all mk l2) as A2 by (by apply head_above).
    apply pop_if_spec in Ep2 as (S2' & SA2 & -> & G2 & L2); [|done..].
    exists mk. split_and!; try constructor; try done.
    destruct l2 as [|[k2 v2] l2]; [done|]. injection Hh as ->.
    simpl in L2. rewrite cmp_refl in L2 by apply _. simpl in *. lia. }
  2:{ destruct (N1 eq_refl) as [H0 H1]. destruct (N2 eq_refl) as [_ H2].
      destruct l0, l1, l2; done. }
  destruct (M1 _ eq_refl) as [O1 [B0 B1]]. destruct (M2 _ eq_refl) as [O2 [B01 B2]].
  specialize (B01 _ eq_refl).
  assert (above_all mk l0) as A0.
  { apply head_above; [done|]. intros x Hx. eapply kcmp_le_trans; [exact B01|auto]. }
  assert (above_all mk l1) as A1.
  { apply head_above; [done|]. intros x Hx. eapply kcmp_le_trans; [exact B01|auto]. }
  assert (above_all mk l2) as A2 by (by apply head_above).
  destruct (pop_if kcmp mk l0) as [e0 l0'] eqn:Ep0.
  destruct (pop_if kcmp mk l1) as [e1 l1'] eqn:Ep1.
  destruct (pop_if kcmp mk l2) as [e2 l2'] eqn:Ep2.
  apply pop_if_spec in Ep0 as (S0' & SA0 & E0 & G0 & L0); [|done..].
  apply pop_if_spec in Ep1 as (S1' & SA1 & E1' & G1 & L1); [|done..].
  apply pop_if_spec in Ep2 as (S2' & SA2 & E2' & G2 & L2); [|done..].
  exists mk. split_and!; try done.
  - unfold overlay. subst e0 e1 e2. destruct (al_get kcmp l0 mk) as [[v|]|]; [done|done|]. simpl.
    destruct (al_get kcmp l1 mk) as [[v|]|]; [done|done|]. simpl. done.
  - intros k Hk. unfold overlay. by rewrite G0, G1, G2.
  - assert (is_Some e0 ∨ is_Some e1 ∨ is_Some e2) as Hsome.
    { assert (∀ A (l : list (K * A)), fst <$> head l = Some mk → is_Some (al_get kcmp l mk)) as Hh.
      { intros A [|[k x] l] [= ->]. simpl. rewrite cmp_refl by apply _. eauto. }
      subst e0 e1 e2. destruct O2 as [[= ->]|O2].
      - destruct O1 as [O1|O1]; apply Hh in O1 as [x ->]; simpl; eauto.
      - apply Hh in O2 as [x ->]. simpl. eauto. }
    destruct e0, e1, e2; simpl in *; try lia. destruct Hsome as [[? ?]|[[? ?]|[? ?]]]; done.
Qed.

Lemma combined_collect_spec fuel : ∀ l0 l1 l2,
  al_sorted kcmp l0 → al_sorted kcmp l1 → al_sorted kcmp l2 →
  length l0 + length l1 + length l2 < fuel →
  ∃ out, combined_collect kcmp fuel l0 l1 l2 = Some out ∧ al_sorted kcmp out ∧
    ∀ k v, (k, v) ∈ out ↔ overlay l0 l1 l2 k = Some v.
Proof.
  induction fuel as [|fuel IH]; intros l0 l1 l2 S0 S1 S2 Hf; [lia|].
  cbn [combined_collect]. pose proof (combined_step_spec l0 l1 l2 S0 S1 S2) as Hst.
  destruct (combined_step kcmp l0 l1 l2) as [[o [[l0' l1'] l2']]|].
  - destruct Hst as (mk & S0' & S1' & S2' & A0 & A1 & A2 & -> & Hov & Hlt).
    destruct (IH l0' l1' l2' S0' S1' S2' ltac:(lia)) as (out & -> & So & Ho).
    assert (∀ k v, (k, v) ∈ out → kcmp mk k = Lt) as Hgt.
    { intros k v Hin. apply Ho in Hin. unfold overlay in Hin.
      destruct (al_get kcmp l0' k) eqn:G0; [exact (strictly_above_get _ _ _ _ A0 G0)|].
      destruct (al_get kcmp l1' k) eqn:G1; [exact (strictly_above_get _ _ _ _ A1 G1)|].
      exact (strictly_above_get _ _ _ _ A2 Hin). }
    assert (∀ k v, overlay l0 l1 l2 k = Some v ↔ (k = mk ∧ overlay l0 l1 l2 mk = Some v) ∨ (k, v) ∈ out) as Hiff.
    { intros k v. destruct (decide (k = mk)) as [->|Hne].
      - split; [auto|]. intros [[_ ?]|Hin]; [done|]. apply Hgt in Hin. by rewrite cmp_refl in Hin by apply _.
      - rewrite Ho, Hov by done. naive_solver. }
    destruct (overlay l0 l1 l2 mk) as [v|] eqn:Em; simpl.
    + exists ((mk, v) :: out). split; [done|]. split.
      * constructor; [done|]. apply Forall_forall. intros [k' v'] Hin. simpl. eauto.
      * intros k' v'. rewrite Hiff, elem_of_cons. naive_solver.
    + exists out. split; [done|]. split; [done|]. intros k' v'. rewrite Hiff. naive_solver.
  - destruct Hst as (-> & -> & ->). exists []. split; [done|]. split; [constructor|].
    intros k v. split; [by intros ?%elem_of_nil|done].
Qed.

(** ** Live entries of one level *)
Lemma live_in (l : list (K * option V)) k v : (k, v) ∈ live l ↔ (k, Some v) ∈ l.
Proof.
  unfold live. rewrite elem_of_list_omap. split.
  - intros [[k' [v'|]] [Hin E]]; simpl in *; naive_solver.
  - intros Hin. by exists (k, Some v).
Qed.
Lemma live_sorted (l : list (K * option V)) : al_sorted kcmp l → al_sorted kcmp (live l).
Proof.
  unfold al_sorted. induction l as [|[k [v|]] l IH]; intros Hs; [constructor| |].
  - apply StronglySorted_inv in Hs as [Hs Hf]. change (live ((k, Some v) :: l)) with ((k, v) :: live l).
    constructor; [auto|]. apply Forall_forall. intros [k' v'] Hin%live_in. simpl.
    rewrite Forall_forall in Hf. apply (Hf _ Hin).
  - apply StronglySorted_inv in Hs as [Hs Hf]. apply (IH Hs).
Qed.

Lemma above_spec {A} (cmp : A → A → comparison) b k : above cmp b k = true ↔ lower_ok cmp b k.
Proof. destruct b as [s|s|]; simpl; [destruct (cmp s k)..|]; naive_solver. Qed.
Lemma below_spec {A} (cmp : A → A → comparison) b k : below cmp b k = true ↔ upper_ok cmp b k.
Proof. destruct b as [s|s|]; simpl; [destruct (cmp k s)..|]; naive_solver. Qed.

Lemma al_range_in {A} (l : list (K * A)) s e k x :
  (k, x) ∈ al_range kcmp l s e ↔ (k, x) ∈ l ∧ lower_ok kcmp s k ∧ upper_ok kcmp e k.
Proof.
  unfold al_range. rewrite elem_of_list_filter. simpl.
  rewrite andb_true_iff, above_spec, below_spec. tauto.
Qed.
Lemma al_range_sorted {A} (l : list (K * A)) s e : al_sorted kcmp l → al_sorted kcmp (al_range kcmp l s e).
Proof. apply al_sorted_filter. Qed.
Lemma al_range_get {A} (l : list (K * A)) s e k : al_sorted kcmp l →
  al_get kcmp (al_range kcmp l s e) k =
  if decide (above kcmp s k && below kcmp e k = true) then al_get kcmp l k else None.
Proof.
  intros Hs. case_decide as Hd.
  - destruct (al_get kcmp l k) as [x|] eqn:E.
    + apply al_get_iff; [apply _|by apply al_range_sorted|]. apply al_range_in.
      apply al_get_in in E; [|apply _]. rewrite andb_true_iff, above_spec, below_spec in Hd. tauto.
    + apply al_get_none; [apply _|]. intros x Hin%al_range_in.
      apply (proj1 (al_get_none kcmp l k) E x), Hin.
  - apply al_get_none; [apply _|]. intros x Hin%al_range_in. apply Hd.
    rewrite andb_true_iff, above_spec, below_spec. tauto.
Qed.

(** ** The table level *)
Definition tab_ok (t : list (bytes * option V)) : Prop :=
  al_sorted lex_compare t ∧ Forall (λ e, ∃ k v, P k ∧ e = (ser k, Some v)) t.

Lemma ser_inj a b : P a → P b → ser a = ser b → a = b.
Proof.
  intros Ha Hb E. apply (cmp_eq kcmp). rewrite <- (key_order _ _ _ _ KO) by done.
  rewrite E. apply lex_refl.
Qed.

Lemma decode_table_spec t : tab_ok t →
  ∃ out, decode_table parse t = Some out ∧ al_sorted kcmp out ∧ Forall (λ e, P e.1) out ∧
    ∀ k v, (k, v) ∈ out ↔ P k ∧ (ser k, Some v) ∈ t.
Proof.
  intros [Hs Hp]. induction t as [|[b ov] t IH].
  - exists []. split; [done|]. split; [constructor|]. split; [constructor|].
    intros k v. rewrite !elem_of_nil. tauto.
  - apply al_sorted_inv in Hs as [Hs Hf]. apply Forall_cons in Hp as [(k & v & Hk & [= -> ->]) Hp].
    destruct (IH Hs Hp) as (out & E & So & Po & Ho).
    cbn [decode_table]. rewrite (key_parse _ _ _ _ KO) by done. rewrite E. simpl.
    exists ((k, v) :: out). split; [done|]. split; [|split].
    + constructor; [done|]. apply Forall_forall. intros [k' v'] Hin. simpl.
      apply Ho in Hin as [Hk' Hin]. rewrite Forall_forall in Hf. specialize (Hf _ Hin). simpl in Hf.
      by rewrite (key_order _ _ _ _ KO) in Hf.
    + by constructor.
    + intros k' v'. rewrite !elem_of_cons, Ho. split.
      * intros [[= -> ->]|[? ?]]; auto.
      * intros [Hk' [[= Es ->]|?]]; [|auto]. apply ser_inj in Es as ->; auto.
Qed.

Definition in_bytes (s e : bound bytes) (k : bytes) : bool :=
  above lex_compare s k && below lex_compare e k.

Lemma sr_take_prefix s e (t : list (bytes * option V)) : al_sorted lex_compare t →
  (∀ x, x ∈ t → above lex_compare s x.1 = true) →
  sr_take s e t = filter (λ x, in_bytes s e x.1 = true) t.
Proof.
  intros Hs Ha. induction t as [|[k v] t IH]; [done|].
  apply al_sorted_inv in Hs as [Hs Hf]. cbn [sr_take].
  assert (above lex_compare s k = true) as Hk by (apply (Ha (k, v)); by left).
  rewrite filter_cons. cbn [fst]. change (above lex_compare s k && below lex_compare e k) with (in_bytes s e k).
  assert (in_bytes s e k = below lex_compare e k) as Hib by (unfold in_bytes; by rewrite Hk).
  rewrite Hib. destruct (below lex_compare e k) eqn:E.
  - rewrite decide_True by done. f_equal. apply IH; [done|]. intros x Hx. apply Ha. by right.
  - rewrite decide_False by done. symmetry. apply list_filter_none. intros [k' v'] Hin Hb. unfold in_bytes in Hb. apply andb_true_iff in Hb as [_ Hb].
    simpl in Hb. rewrite Forall_forall in Hf. specialize (Hf _ Hin). simpl in Hf.
    apply below_spec in Hb. assert (¬ upper_ok lex_compare e k) as Hn by (rewrite <- below_spec; congruence).
    apply Hn. destruct e as [x|x|]; simpl in *; [|by eapply (cmp_trans lex_compare)|done].
    destruct (lex_compare k' x) eqn:E2; [apply (cmp_eq lex_compare) in E2 as <-; by rewrite Hf| |done].
    by rewrite (cmp_trans lex_compare k k' x).
Qed.

Lemma table_seek_spec (t : list (bytes * option V)) b : al_sorted lex_compare t →
  table_seek t b = filter (λ x, lex_compare b x.1 ≠ Gt) t.
Proof.
  intros Hs. induction t as [|[k v] t IH]; [done|].
  apply al_sorted_inv in Hs as [Hs Hf]. cbn [table_seek]. rewrite filter_cons. simpl.
  assert (lex_compare k b ≠ Lt → (k, v) :: t = (k, v) :: filter (λ x : bytes * option V, lex_compare b x.1 ≠ Gt) t) as Hall.
  { intros Hk. f_equal. symmetry. apply list_filter_all. intros [k' v'] Hin Hgt. simpl in *.
    rewrite Forall_forall in Hf. specialize (Hf _ Hin). simpl in Hf.
    apply cmp_gt_lt in Hgt; [|apply _]. apply Hk. by eapply (cmp_trans lex_compare). }
  pose proof (cmp_anti lex_compare k b) as Ha. destruct (lex_compare k b) eqn:E; rewrite Ha; simpl.
  - try rewrite decide_True by done. by apply Hall.
  - try rewrite decide_False by (intros Hx; by apply Hx). auto.
  - try rewrite decide_True by done. by apply Hall.
Qed.

Lemma sr_take_checked s e (p : list (bytes * option V)) : sr_check s e p = true → sr_take s e p = [].
Proof.
  unfold sr_check. destruct p as [|[k v] p]; [done|]. cbn [sr_take]. intros Hc.
  destruct (above lex_compare s k), (below lex_compare e k); done.
Qed.

Lemma skip_seek (t : list (bytes * option V)) b : al_sorted lex_compare t →
  sr_skip_equal b (table_seek t b) = filter (λ x, above lex_compare (Excluded b) x.1 = true) t.
Proof.
  induction t as [|[k v] t IH]; intros Hs; [done|].
  apply al_sorted_inv in Hs as [Hs Hf]. specialize (IH Hs).
  cbn [table_seek]. rewrite filter_cons. cbn [fst].
  assert (∀ x, x ∈ t → lex_compare k x.1 = Lt) as Hf' by (by apply Forall_forall).
  pose proof (cmp_anti lex_compare k b) as Ha.
  destruct (lex_compare k b) eqn:E; simpl in Ha.
  - cbn [sr_skip_equal]. rewrite E. rewrite decide_False by (simpl; by rewrite Ha).
    apply (cmp_eq lex_compare) in E as ->. symmetry. apply list_filter_all.
    intros x Hx. simpl. by rewrite (Hf' x Hx).
  - rewrite decide_False by (simpl; by rewrite Ha). exact IH.
  - cbn [sr_skip_equal]. rewrite E. rewrite decide_True by (simpl; by rewrite Ha). f_equal.
    symmetry. apply list_filter_all. intros x Hx. simpl.
    by rewrite (cmp_trans lex_compare b k x.1) by auto.
Qed.

Lemma sr_new_spec s e (t : list (bytes * option V)) : al_sorted lex_compare t →
  ∃ ex, sr_new s e t = (filter (λ x, above lex_compare s x.1 = true) t, ex) ∧
     (ex = true → sr_take s e (filter (λ x, above lex_compare s x.1 = true) t) = []).
Proof.
  intros Hs. destruct s as [b|b|]; cbn [sr_new].
  - rewrite table_seek_spec by done. eexists. split; [f_equal|].
    + apply list_filter_ext_in. intros [k v] _. rewrite above_spec. done.
    + intros Hc%sr_take_checked. rewrite <- Hc. f_equal.
      apply list_filter_ext_in. intros [k v] _. by rewrite above_spec.
  - rewrite skip_seek by done.
    eexists. split; [done|]. by intros ?%sr_take_checked.
  - assert (filter (λ x : bytes * option V, above lex_compare Unbounded x.1 = true) t = t) as ->.
    { by apply list_filter_all. }
    eexists. split; [done|]. by destruct t.
Qed.

Lemma simplified_range_eq s e (t : list (bytes * option V)) : al_sorted lex_compare t →
  simplified_range parse s e t = decode_table parse (filter (λ x, in_bytes s e x.1 = true) t).
Proof.
  intros Hs. unfold simplified_range. destruct (sr_new_spec s e t Hs) as (ex & -> & Hex).
  assert (sr_take s e (filter (λ x, above lex_compare s x.1 = true) t)
     = filter (λ x, in_bytes s e x.1 = true) t) as E.
  { rewrite sr_take_prefix.
    - rewrite list_filter_filter. apply list_filter_ext_in. intros x _. unfold in_bytes.
      rewrite andb_true_iff. tauto.
    - by apply al_sorted_filter.
    - intros x [? _]%elem_of_list_filter. done. }
  rewrite E in *. destruct ex; [|done]. by rewrite Hex.
Qed.

Lemma map_bound_above s k : bound_ok P s → P k →
  above lex_compare (map_bound ser s) (ser k) = above kcmp s k.
Proof. intros Hs Hk. destruct s; simpl in *; rewrite ?(key_order _ _ _ _ KO); done. Qed.
Lemma map_bound_below s k : bound_ok P s → P k →
  below lex_compare (map_bound ser s) (ser k) = below kcmp s k.
Proof. intros Hs Hk. destruct s; simpl in *; rewrite ?(key_order _ _ _ _ KO); done. Qed.

Lemma simplified_range_spec s e t : bound_ok P s → bound_ok P e → tab_ok t →
  ∃ out, simplified_range parse (map_bound ser s) (map_bound ser e) t = Some out ∧
    al_sorted kcmp out ∧ Forall (λ e, P e.1) out ∧
    ∀ k v, (k, v) ∈ out ↔ P k ∧ (ser k, Some v) ∈ t ∧ lower_ok kcmp s k ∧ upper_ok kcmp e k.
Proof.
  intros Hbs Hbe [Hs Hp]. rewrite simplified_range_eq by done.
  destruct (decode_table_spec (filter (λ x, in_bytes (map_bound ser s) (map_bound ser e) x.1 = true) t))
    as (out & E & So & Po & Ho).
  { split; [by apply al_sorted_filter|]. apply Forall_forall. intros x [_ Hx]%elem_of_list_filter.
    rewrite Forall_forall in Hp. auto. }
  exists out. split; [done|]. split; [done|]. split; [done|]. intros k v. rewrite Ho, elem_of_list_filter.
  simpl. unfold in_bytes. split.
  - intros (Hk & Hb & Hin). rewrite map_bound_above, map_bound_below in Hb by done.
    rewrite andb_true_iff, above_spec, below_spec in Hb. tauto.
  - intros (Hk & Hin & H1 & H2). split; [done|]. split; [|done].
    rewrite map_bound_above, map_bound_below by done.
    rewrite andb_true_iff, above_spec, below_spec. tauto.
Qed.

(** ** range and iter of the whole map *)
Definition is_range (c : content (K:=K) (V:=V)) s e (out : list (K * V)) : Prop :=
  al_sorted kcmp out ∧
  ∀ k v, (k, v) ∈ out ↔ c k = Some v ∧ lower_ok kcmp s k ∧ upper_ok kcmp e k.

Lemma tab_get t k v : tab_ok t → P k → al_get lex_compare t (ser k) = Some (Some v) ↔ (ser k, Some v) ∈ t.
Proof. intros [Hs _] _. apply al_get_iff; [apply _|done]. Qed.

Lemma tab_get_none t k : tab_ok t → P k → al_get lex_compare t (ser k) = Some None → False.
Proof.
  intros [Hs Hp] Hk Hg. apply al_get_in in Hg; [|apply _]. rewrite Forall_forall in Hp.
  destruct (Hp _ Hg) as (k' & v' & _ & ?). done.
Qed.

Lemma inv_tab m c c2 : dm_inv m c → dm_c2 m = Some c2 → tab_ok c2.
Proof. intros I E. split; [by apply (i_s2 _ _ I)|by apply (i_p2 _ _ I)]. Qed.

Lemma content_in m c k v : dm_inv m c → c k = Some v ↔ P k ∧ dm_get kcmp ser m k = Some v.
Proof.
  intros I. split.
  - intros Hc. assert (P k) as Hk by (apply (i_dom _ _ I); congruence).
    split; [done|]. by rewrite (i_get _ _ I).
  - intros [Hk Hg]. by rewrite <- (i_get _ _ I).
Qed.

Lemma combined_spec m c s e : dm_inv m c → bound_ok P s → bound_ok P e →
  ∃ l2, (match dm_c2 m with Some c2 => simplified_range parse (map_bound ser s) (map_bound ser e) c2
         | None => Some [] end) = Some l2 ∧
  let l0 := al_range kcmp (dm_c0 m) s e in
  let l1 := match dm_c1 m with Some c1 => al_range kcmp c1 s e | None => [] end in
  ∃ out, combined_collect kcmp (S (length l0 + length l1 + length l2)) l0 l1 l2 = Some out ∧
    is_range c s e out.
Proof.
  intros I Hs He.
  assert (∃ l2, (match dm_c2 m with Some c2 => simplified_range parse (map_bound ser s) (map_bound ser e) c2
         | None => Some [] end) = Some l2 ∧ al_sorted kcmp l2 ∧ Forall (λ e, P e.1) l2 ∧
         ∀ k, P k → al_get kcmp l2 k = (match dm_c2 m with Some c2 =>
            if decide (above kcmp s k && below kcmp e k = true) then
            match al_get lex_compare c2 (ser k) with Some x => x | None => None end else None | None => None end))
    as (l2 & E2 & S2 & P2 & G2).
  { destruct (dm_c2 m) as [c2|] eqn:Ec2.
    - pose proof (inv_tab _ _ _ I Ec2) as T.
      destruct (simplified_range_spec s e c2 Hs He T) as (l2 & E2 & S2 & P2 & H2).
      exists l2. split_and!; try done. intros k Hk.
      destruct (al_get kcmp l2 k) as [v|] eqn:Eg.
      + apply al_get_in in Eg; [|apply _]. apply H2 in Eg as (_ & Hin & Hlo & Hup).
        rewrite decide_True by (by rewrite andb_true_iff, above_spec, below_spec).
        apply (tab_get c2 k v) in Hin as ->; done.
      + case_decide as Hd; [|done]. destruct (al_get lex_compare c2 (ser k)) as [[v|]|] eqn:Et; [|done..].
        apply (tab_get c2 k v) in Et; [|done..].
        rewrite andb_true_iff, above_spec, below_spec in Hd.
        destruct (proj1 (al_get_none kcmp l2 k) Eg v). apply H2. tauto.
    - exists []. split_and!; try done; constructor. }
  exists l2. split; [done|]. intros l0 l1.
  assert (al_sorted kcmp l0) as S0 by (apply al_range_sorted, (i_s0 _ _ I)).
  assert (al_sorted kcmp l1) as S1.
  { unfold l1. destruct (dm_c1 m) eqn:E; [|constructor]. by apply al_range_sorted, (i_s1 _ _ I). }
  destruct (combined_collect_spec (S (length l0 + length l1 + length l2)) l0 l1 l2 S0 S1 S2 ltac:(lia))
    as (out & Eo & So & Ho).
  exists out. split; [done|]. split; [done|]. intros k v. rewrite Ho.
  assert (overlay l0 l1 l2 k = Some v → P k) as HP.
  { unfold overlay. destruct (al_get kcmp l0 k) as [x|] eqn:E0.
    { intros _. apply al_get_in in E0; [|apply _]. apply al_range_in in E0 as [E0 _].
      pose proof (i_p0 _ _ I) as Hp. rewrite Forall_forall in Hp. apply (Hp _ E0). }
    destruct (al_get kcmp l1 k) as [x|] eqn:E1.
    { intros _. apply al_get_in in E1; [|apply _]. unfold l1 in E1. destruct (dm_c1 m) as [c1|] eqn:Ec1.
      - apply al_range_in in E1 as [E1 _]. pose proof (i_p1 _ _ I _ Ec1) as Hp.
        rewrite Forall_forall in Hp. apply (Hp _ E1).
      - by apply elem_of_nil in E1. }
    intros E3%al_get_in; [|apply _]. rewrite Forall_forall in P2. apply (P2 _ E3). }
  assert (P k → overlay l0 l1 l2 k = if decide (above kcmp s k && below kcmp e k = true)
             then dm_get kcmp ser m k else None) as Hov.
  { intros Hk. unfold overlay, dm_get. rewrite G2 by done. unfold l0, l1.
    rewrite al_range_get by apply (i_s0 _ _ I).
    assert (al_get kcmp (match dm_c1 m with Some c1 => al_range kcmp c1 s e | None => [] end) k =
      if decide (above kcmp s k && below kcmp e k = true) then
         match dm_c1 m with Some c1 => al_get kcmp c1 k | None => None end else None) as ->.
    { destruct (dm_c1 m) as [c1|] eqn:E1; [|by case_decide].
      apply al_range_get. by apply (i_s1 _ _ I). }
    case_decide; [done|]. by destruct (dm_c2 m). }
  rewrite (content_in m c) by done. split.
  - intros Hv. specialize (HP Hv). rewrite Hov in Hv by done. case_decide as Hd; [|done].
    rewrite andb_true_iff, above_spec, below_spec in Hd. tauto.
  - intros ([Hk Hg] & Hlo & Hup). rewrite Hov by done.
    rewrite decide_True; [done|]. rewrite andb_true_iff, above_spec, below_spec. tauto.
Qed.

Lemma live_range_c0 m c s e : dm_inv m c → dm_c1 m = None → dm_c2 m = None →
  is_range c s e (live (al_range kcmp (dm_c0 m) s e)).
Proof.
  intros I E1 E2. split; [apply live_sorted, al_range_sorted, (i_s0 _ _ I)|].
  intros k v. rewrite live_in, al_range_in, (content_in m c) by done.
  unfold dm_get. rewrite E1, E2. rewrite <- al_get_iff by (apply _ || apply (i_s0 _ _ I)).
  split.
  - intros (Hg & Hb). rewrite Hg. split_and!; try tauto.
    apply al_get_in in Hg; [|apply _]. pose proof (i_p0 _ _ I) as Hp. rewrite Forall_forall in Hp.
    apply (Hp _ Hg).
  - intros ([_ Hg] & Hb). destruct (al_get kcmp (dm_c0 m) k) as [x|]; [|done]. subst. tauto.
Qed.

Lemma live_range_c1 m c c1 s e : dm_inv m c → dm_c0 m = [] → dm_c1 m = Some c1 → dm_c2 m = None →
  is_range c s e (live (al_range kcmp c1 s e)).
Proof.
  intros I E0 E1 E2. pose proof (i_s1 _ _ I _ E1) as S1.
  split; [by apply live_sorted, al_range_sorted|].
  intros k v. rewrite live_in, al_range_in, (content_in m c) by done.
  unfold dm_get. rewrite E0, E1, E2. simpl. rewrite <- al_get_iff by (apply _ || done).
  split.
  - intros (Hg & Hb). rewrite Hg. split_and!; try tauto.
    apply al_get_in in Hg; [|apply _]. pose proof (i_p1 _ _ I _ E1) as Hp. rewrite Forall_forall in Hp.
    apply (Hp _ Hg).
  - intros ([_ Hg] & Hb). destruct (al_get kcmp c1 k) as [x|]; [|done]. subst. tauto.
Qed.

Lemma table_range_c2 m c c2 s e : dm_inv m c → dm_c0 m = [] → dm_c1 m = None → dm_c2 m = Some c2 →
  bound_ok P s → bound_ok P e →
  ∃ out, simplified_range parse (map_bound ser s) (map_bound ser e) c2 = Some out ∧ is_range c s e out.
Proof.
  intros I E0 E1 E2 Hs He. pose proof (inv_tab _ _ _ I E2) as T.
  destruct (simplified_range_spec s e c2 Hs He T) as (out & E & So & Po & Ho).
  exists out. split; [done|]. split; [done|]. intros k v. rewrite Ho, (content_in m c) by done.
  unfold dm_get. rewrite E0, E1, E2. simpl. split.
  - intros (Hk & Hin & Hb). apply (tab_get c2 k v) in Hin as ->; [|done..]. tauto.
  - intros ([Hk Hg] & Hb). split; [done|]. split; [|done]. apply (tab_get c2 k v); [done..|].
    destruct (al_get lex_compare c2 (ser k)) as [x|]; [|done]. by subst.
Qed.

Lemma range_lemma m c s e : dm_inv m c → bound_ok P s → bound_ok P e →
  range_panics kcmp s e = false →
  ∃ out, dm_range kcmp ser parse m s e = Some out ∧ is_range c s e out.
Proof.
  intros I Hs He Hp. unfold dm_range. rewrite Hp.
  destruct (combined_spec m c s e I Hs He) as (l2 & E2 & out & Eo & Ho). rewrite E2.
  assert (∃ out0, combined_collect kcmp
             (S (length (al_range kcmp (dm_c0 m) s e) + length (match dm_c1 m with Some c1 => al_range kcmp c1 s e | None => [] end) + length l2))
             (al_range kcmp (dm_c0 m) s e) (match dm_c1 m with Some c1 => al_range kcmp c1 s e | None => [] end) l2 = Some out0 ∧ is_range c s e out0) as Hcomb by eauto.
  destruct (dm_c1 m) as [c1|] eqn:E1.
  - destruct (dm_c0 m) as [|x0 c0] eqn:E0; [destruct (dm_c2 m) as [c2|] eqn:Ec2|].
    + exact Hcomb.
    + eexists. split; [done|]. by apply (live_range_c1 m).
    + exact Hcomb.
  - destruct (dm_c2 m) as [c2|] eqn:Ec2; [destruct (dm_c0 m) as [|x0 c0] eqn:E0|].
    + by apply (table_range_c2 m).
    + exact Hcomb.
    + eexists. split; [done|]. by apply live_range_c0.
Qed.

Lemma al_range_unbounded {A} (l : list (K * A)) : al_range kcmp l Unbounded Unbounded = l.
Proof. unfold al_range. by apply list_filter_all. Qed.

Lemma iter_lemma m c : dm_inv m c →
  ∃ out, dm_iter kcmp ser parse m = Some out ∧ al_sorted kcmp out ∧ (∀ k v, (k, v) ∈ out ↔ c k = Some v).
Proof.
  intros I. destruct (range_lemma m c Unbounded Unbounded I) as (out & E & So & Ho); [done..|].
  assert (∀ out', is_range c Unbounded Unbounded out' →
    al_sorted kcmp out' ∧ (∀ k v, (k, v) ∈ out' ↔ c k = Some v)) as Hr.
  { intros out' [? Hr]. split; [done|]. intros k v. rewrite Hr. simpl. tauto. }
  unfold dm_iter. destruct (dm_c1 m) as [c1|] eqn:E1.
  - destruct (dm_c0 m) as [|x0 c0] eqn:E0; [destruct (dm_c2 m) as [c2|] eqn:Ec2|].
    + exists out. split; [done|]. by apply Hr.
    + eexists. split; [done|]. apply Hr. rewrite <- (al_range_unbounded c1) at 1. by apply (live_range_c1 m).
    + exists out. split; [done|]. by apply Hr.
  - destruct (dm_c2 m) as [c2|] eqn:Ec2; [destruct (dm_c0 m) as [|x0 c0] eqn:E0|].
    + destruct (table_range_c2 m c c2 Unbounded Unbounded) as (out2 & Eo2 & Hr2); [done..|].
      rewrite simplified_range_eq in Eo2 by apply (inv_tab _ _ _ I Ec2).
      rewrite list_filter_all in Eo2 by done. exists out2. split; [done|]. by apply Hr.
    + exists out. split; [done|]. by apply Hr.
    + eexists. split; [done|]. apply Hr. rewrite <- (al_range_unbounded (dm_c0 m)) at 1. by apply live_range_c0.
Qed.

(** ** write_to and open *)
Lemma inv_reopen m c n : dm_inv m c →
  ∃ t, dm_write_to kcmp ser parse m = Some t ∧ dm_inv (dm_new n (Some t)) c.
Proof.
  intros I. destruct (iter_lemma m c I) as (out & E & So & Ho).
  unfold dm_write_to. rewrite E. simpl. eexists. split; [done|].
  assert (Forall (λ e, P e.1) out) as Po.
  { apply Forall_forall. intros [k v] Hin. simpl. apply (i_dom _ _ I).
    apply Ho in Hin. congruence. }
  assert (al_sorted lex_compare (map (λ e : K * V, (ser e.1, Some e.2)) out)) as Sm.
  { clear -So Po KO. unfold al_sorted in *. induction out as [|[k v] out IH]; [constructor|].
    apply StronglySorted_inv in So as [So Hf]. apply Forall_cons in Po as [Hk Po].
    simpl. constructor; [auto|]. apply Forall_forall. intros x Hx.
    apply elem_of_list_fmap in Hx as ([k' v'] & -> & Hin). simpl.
    rewrite Forall_forall in Hf, Po. specialize (Hf _ Hin). specialize (Po _ Hin). simpl in *.
    by rewrite (key_order _ _ _ _ KO). }
  constructor; simpl.
  - constructor.
  - done.
  - intros c2 [= <-]. done.
  - constructor.
  - done.
  - intros c2 [= <-]. apply Forall_forall. intros x Hx.
    apply elem_of_list_fmap in Hx as ([k v] & -> & Hin). simpl. exists k, v. split; [|done].
    rewrite Forall_forall in Po. apply (Po _ Hin).
  - intros k Hk. unfold dm_get. simpl.
    destruct (al_get lex_compare (map (λ e : K * V, (ser e.1, Some e.2)) out) (ser k)) as [x|] eqn:Eg.
    + apply al_get_in in Eg; [|apply _]. apply elem_of_list_fmap in Eg as ([k' v'] & [= Es ->] & Hin).
      rewrite Forall_forall in Po. specialize (Po _ Hin). simpl in *.
      apply ser_inj in Es as ->; [|done..]. symmetry. by apply Ho.
    + destruct (c k) as [v|] eqn:Ec; [|done]. apply Ho in Ec.
      destruct (proj1 (al_get_none lex_compare _ _) Eg (Some v)). apply elem_of_list_fmap.
      exists (k, v). done.
  - apply (i_dom _ _ I).
Qed.

Lemma dm_evict_max m : dm_max (dm_evict kcmp m) = dm_max m.
Proof. unfold dm_evict. by case_decide. Qed.

(** ** Histories *)
Lemma step_lemma m c o : dm_inv m c → op_keys_ok P o →
  ∃ m' r, dm_step kcmp ser parse m o = Some (m', r) ∧ dm_inv m' (spec_step c o) ∧ r = spec_out c o.
Proof.
  intros I Ho. destruct o as [k v|k| | |]; simpl in *.
  - eexists _, _. split; [done|]. split; [by apply inv_insert|done].
  - destruct (inv_remove m c k Ho I) as [I' Hr].
    destruct (dm_remove kcmp ser m k) as [m' r]. eauto.
  - eexists _, _. split; [done|]. split; [|done].
    constructor; simpl; try done; constructor.
  - eexists _, _. split; [done|]. split; [by apply inv_compact|done].
  - destruct (inv_reopen m c (dm_max m) I) as (t & -> & I'). simpl. eauto.
Qed.

Lemma run_lemma ops : ∀ m c, dm_inv m c → Forall (op_keys_ok P) ops →
  ∃ m', dm_run kcmp ser parse m ops = Some (m', spec_outs c ops) ∧ dm_inv m' (spec_run c ops).
Proof.
  induction ops as [|o ops IH]; intros m c I Ho; simpl; [eauto|].
  apply Forall_cons in Ho as [H1 Ho].
  destruct (step_lemma m c o I H1) as (m1 & r & -> & I1 & ->).
  destruct (IH m1 _ I1 Ho) as (m2 & -> & I2). eauto.
Qed.

Lemma contains_key_lemma m c k : dm_inv m c → P k →
  (∀ c1, dm_c1 m = Some c1 → al_get kcmp c1 k ≠ Some None) →
  dm_contains_key kcmp ser m k = true ↔ is_Some (dm_get kcmp ser m k).
Proof.
  intros I Hk Hn. unfold dm_contains_key, dm_get.
  destruct (al_get kcmp (dm_c0 m) k) as [[v|]|].
  { split; [eauto|done]. }
  { split; [done|by intros [? ?]]. }
  destruct (dm_c1 m) as [c1|] eqn:E1; [specialize (Hn c1 eq_refl); destruct (al_get kcmp c1 k) as [[v|]|]|].
  { split; [eauto|done]. }
  { done. }
  all: destruct (dm_c2 m) as [c2|] eqn:E2; [|split; [done|by intros [? ?]]].
  all: pose proof (inv_tab _ _ _ I E2) as T; pose proof T as [Hs Hp].
  all: rewrite table_seek_spec by done.
  all: assert (∀ x, (ser k, x) ∈ c2 → is_Some x) as Hlive by
    (intros x Hx; rewrite Forall_forall in Hp; destruct (Hp _ Hx) as (? & ? & _ & [= _ ->]); eauto).
  all: destruct (filter _ c2) as [|[k' x'] l] eqn:Ef.
  1,3: split; [done|]; intros [v Hv]; destruct (al_get lex_compare c2 (ser k)) as [x|] eqn:Eg; [|done];
    apply al_get_in in Eg; [|apply _];
    assert ((ser k, x) ∈ filter (λ x : bytes * option V, lex_compare (ser k) x.1 ≠ Gt) c2) as Hin
      by (apply elem_of_list_filter; simpl; rewrite lex_refl; done);
    rewrite Ef in Hin; by apply elem_of_nil in Hin.
  all: assert ((k', x') ∈ c2 ∧ lex_compare (ser k) k' ≠ Gt) as [Hin Hge] by
    (assert ((k', x') ∈ filter (λ x : bytes * option V, lex_compare (ser k) x.1 ≠ Gt) c2) as Hx
       by (rewrite Ef; by left); apply elem_of_list_filter in Hx; simpl in Hx; tauto).
  all: destruct (lex_compare k' (ser k)) eqn:Ek.
  1,4: apply (cmp_eq lex_compare) in Ek as ->; split; [|done]; intros _;
    pose proof (proj2 (al_get_iff lex_compare c2 (ser k) x' Hs) Hin) as Hg; rewrite Hg; by apply Hlive.
  1,3: rewrite (cmp_anti lex_compare) in Hge; by rewrite Ek in Hge.
  all: split; [done|]; intros [v Hv]; destruct (al_get lex_compare c2 (ser k)) as [x|] eqn:Eg; [|done];
    apply al_get_in in Eg; [|apply _];
    assert ((ser k, x) ∈ filter (λ x : bytes * option V, lex_compare (ser k) x.1 ≠ Gt) c2) as Hin'
      by (apply elem_of_list_filter; simpl; rewrite lex_refl; done).
  all: assert (al_sorted lex_compare ((k', x') :: l)) as Hsl
    by (rewrite <- Ef; by apply al_sorted_filter);
    apply al_sorted_inv in Hsl as [_ Hf]; rewrite Forall_forall in Hf; rewrite Ef in Hin';
    apply elem_of_cons in Hin' as [[= E _]|Hin'];
    [rewrite E in Ek; by rewrite lex_refl in Ek|
     specialize (Hf _ Hin'); simpl in Hf; rewrite Ek in Hf; done].
Qed.

Lemma is_empty_lemma m c : dm_inv m c →
  ∃ b, dm_is_empty kcmp ser parse m = Some b ∧ (b = true ↔ ∀ k, c k = None).
Proof.
  intros I. destruct (iter_lemma m c I) as (out & E & So & Ho).
  assert ((match out with [] => true | _ => false end) = true ↔ ∀ k, c k = None) as Hb.
  { destruct out as [|[k v] out].
    - split; [|done]. intros _ k. destruct (c k) as [v|] eqn:Ec; [|done].
      apply Ho in Ec. by apply elem_of_nil in Ec.
    - split; [done|]. intros Hn. assert (c k = Some v) as Hc by (apply Ho; by left). by rewrite Hn in Hc. }
  unfold dm_is_empty. rewrite E. simpl.
  destruct (dm_c0 m) as [|x c0] eqn:E0; [destruct (dm_c1 m) as [c1|] eqn:E1; [|destruct (dm_c2 m) as [c2|] eqn:E2]|];
    eauto.
  exists true. split; [done|]. split; [|done]. intros _ k.
  destruct (c k) as [v|] eqn:Ec; [|done]. assert (P k) as Hk by (apply (i_dom _ _ I); congruence).
  rewrite <- (i_get _ _ I) in Ec by done. unfold dm_get in Ec. by rewrite E0, E1, E2 in Ec.
Qed.
End proofs.

Section toplevel.
Context {K V : Type} `{EqDecision K}.
Context (P : K → Prop) (kcmp : K → K → comparison) (ser : K → bytes) (parse : bytes → res K).

Lemma diskmap_run_get : key_ok P kcmp ser parse →
  ∀ (n : nat) (ops : list (dm_op K V)), Forall (op_keys_ok P) ops →
  ∃ m, dm_run kcmp ser parse (dm_new n None) ops = Some (m, spec_outs empty_content ops) ∧
    ∀ k, P k → dm_get kcmp ser m k = spec_run empty_content ops k.
Proof.
  intros KO n ops Ho.
  destruct (run_lemma P kcmp ser parse KO ops _ _ (inv_new P kcmp ser n) Ho) as (m & E & I).
  exists m. split; [done|]. intros k Hk. by apply (i_get _ _ _ _ _ I).
Qed.

Lemma diskmap_run_iter : key_ok P kcmp ser parse →
  ∀ (n : nat) (ops : list (dm_op K V)) m outs, Forall (op_keys_ok P) ops →
  dm_run kcmp ser parse (dm_new n None) ops = Some (m, outs) →
  ∃ l, dm_iter kcmp ser parse m = Some l ∧ al_sorted kcmp l ∧
    (∀ k v, (k, v) ∈ l ↔ spec_run empty_content ops k = Some v).
Proof.
  intros KO n ops m outs Ho E.
  destruct (run_lemma P kcmp ser parse KO ops _ _ (inv_new P kcmp ser n) Ho) as (m' & E' & I).
  rewrite E in E'. injection E' as <- _. by apply (iter_lemma P kcmp ser parse KO).
Qed.

Lemma diskmap_run_range : key_ok P kcmp ser parse →
  ∀ (n : nat) (ops : list (dm_op K V)) m outs s e, Forall (op_keys_ok P) ops →
  dm_run kcmp ser parse (dm_new n None) ops = Some (m, outs) →
  bound_ok P s → bound_ok P e → range_panics kcmp s e = false →
  ∃ l, dm_range kcmp ser parse m s e = Some l ∧ al_sorted kcmp l ∧
    (∀ k v, (k, v) ∈ l ↔ spec_run empty_content ops k = Some v ∧ lower_ok kcmp s k ∧ upper_ok kcmp e k).
Proof.
  intros KO n ops m outs s e Ho E Hs He Hp.
  destruct (run_lemma P kcmp ser parse KO ops _ _ (inv_new P kcmp ser n) Ho) as (m' & E' & I).
  rewrite E in E'. injection E' as <- _. by apply (range_lemma P kcmp ser parse KO).
Qed.

Lemma diskmap_run_is_empty : key_ok P kcmp ser parse →
  ∀ (n : nat) (ops : list (dm_op K V)) m outs, Forall (op_keys_ok P) ops →
  dm_run kcmp ser parse (dm_new n None) ops = Some (m, outs) →
  ∃ b, dm_is_empty kcmp ser parse m = Some b ∧ (b = true ↔ ∀ k, spec_run empty_content ops k = None).
Proof.
  intros KO n ops m outs Ho E.
  destruct (run_lemma P kcmp ser parse KO ops _ _ (inv_new P kcmp ser n) Ho) as (m' & E' & I).
  rewrite E in E'. injection E' as <- _. by apply (is_empty_lemma P kcmp ser parse KO).
Qed.

Lemma diskmap_run_write : key_ok P kcmp ser parse →
  ∀ (n n' : nat) (ops : list (dm_op K V)) m outs, Forall (op_keys_ok P) ops →
  dm_run kcmp ser parse (dm_new n None) ops = Some (m, outs) →
  ∃ t, dm_write_to kcmp ser parse m = Some t ∧
    Forall (λ e, is_Some e.2) t ∧
    (∀ k, P k → dm_get kcmp ser (dm_new n' (Some t)) k = dm_get kcmp ser m k).
Proof.
  intros KO n n' ops m outs Ho E.
  destruct (run_lemma P kcmp ser parse KO ops _ _ (inv_new P kcmp ser n) Ho) as (m' & E' & I).
  rewrite E in E'. injection E' as <- _.
  destruct (inv_reopen P kcmp ser parse KO m _ n' I) as (t & Et & It).
  exists t. split; [done|]. split.
  - pose proof (i_p2 _ _ _ _ _ It t eq_refl) as Hp. eapply Forall_impl; [exact Hp|].
    intros x (k & v & _ & ->). simpl. eauto.
  - intros k Hk. rewrite (i_get _ _ _ _ _ It), (i_get _ _ _ _ _ I) by done. done.
Qed.

(** No tombstone for [k] in the upper levels. *)
Definition no_tomb (m : diskmap K V) (k : K) : Prop :=
  al_get kcmp (dm_c0 m) k ≠ Some None ∧
  (∀ c1, dm_c1 m = Some c1 → al_get kcmp c1 k ≠ Some None).

Lemma no_tomb_evict (KO : key_ok P kcmp ser parse) (m : diskmap K V) c k :
  dm_inv P kcmp ser m c → no_tomb m k → no_tomb (dm_evict kcmp m) k.
Proof.
  intros I [T0 T1]. unfold dm_evict. case_decide; [|done]. unfold dm_compact. split; simpl; [done|].
  intros c1 [= <-]. rewrite (fold_insert_get P kcmp ser parse KO) by apply (i_s0 _ _ _ _ _ I).
  destruct (al_get kcmp (dm_c0 m) k); [done|]. destruct (dm_c1 m); [|done]. by apply T1.
Qed.

Lemma no_tomb_step (KO : key_ok P kcmp ser parse) (m : diskmap K V) c o m' r k :
  dm_inv P kcmp ser m c → op_keys_ok P o → o ≠ DmRemove k → no_tomb m k →
  dm_step kcmp ser parse m o = Some (m', r) → no_tomb m' k.
Proof.
  intros I Ho Hne T E. pose proof (key_cmp _ _ _ _ KO) as KC'.
  destruct o as [k1 v|k1| | |]; simpl in *.
  - injection E as <- <-. eapply (no_tomb_evict KO).
    { by apply (inv_c0_insert P kcmp ser parse KO). }
    destruct T as [T0 T1]. split; simpl; [|done].
    rewrite al_get_insert by done. by destruct (kcmp k k1).
  - unfold dm_remove in E. destruct (dm_get kcmp ser m k1); [|by injection E as <- <-].
    injection E as <- <-. eapply (no_tomb_evict KO).
    { by apply (inv_c0_insert P kcmp ser parse KO). }
    destruct T as [T0 T1]. split; simpl; [|done].
    rewrite al_get_insert by done. destruct (kcmp k k1) eqn:Ec; [|done..].
    apply (cmp_eq kcmp) in Ec as ->. done.
  - injection E as <- <-. split; simpl; done.
  - injection E as <- <-. destruct T as [T0 T1]. split; simpl; [done|].
    intros c1 [= <-]. rewrite (fold_insert_get P kcmp ser parse KO) by apply (i_s0 _ _ _ _ _ I).
    destruct (al_get kcmp (dm_c0 m) k); [done|]. destruct (dm_c1 m); [|done]. by apply T1.
  - destruct (dm_write_to kcmp ser parse m); [|done]. injection E as <- <-. split; simpl; done.
Qed.

Lemma no_tomb_run (KO : key_ok P kcmp ser parse) k (ops : list (dm_op K V)) : ∀ (m : diskmap K V) c m' outs,
  dm_inv P kcmp ser m c → Forall (op_keys_ok P) ops → DmRemove k ∉ ops → no_tomb m k →
  dm_run kcmp ser parse m ops = Some (m', outs) → no_tomb m' k.
Proof.
  induction ops as [|o ops IH]; intros m c m' outs I Ho Hn T E; simpl in E; [by injection E as <- <-|].
  apply Forall_cons in Ho as [H1 Ho]. apply not_elem_of_cons in Hn as [Hn1 Hn].
  destruct (step_lemma P kcmp ser parse KO m c o I H1) as (m1 & r & Es & I1 & _).
  rewrite Es in E. destruct (dm_run kcmp ser parse m1 ops) as [[m2 rs]|] eqn:Er; [|done].
  injection E as <- <-. eapply (IH m1); [done..| |done].
  eapply (no_tomb_step KO m); [done..|congruence|done|done].
Qed.

Lemma diskmap_contains_no_remove : key_ok P kcmp ser parse →
  ∀ (n : nat) (ops : list (dm_op K V)) m outs k, Forall (op_keys_ok P) ops → P k →
  dm_run kcmp ser parse (dm_new n None) ops = Some (m, outs) → DmRemove k ∉ ops →
  dm_contains_key kcmp ser m k = true ↔ is_Some (dm_get kcmp ser m k).
Proof.
  intros KO n ops m outs k Ho Hk E Hn.
  destruct (run_lemma P kcmp ser parse KO ops _ _ (inv_new P kcmp ser n) Ho) as (m' & E' & I).
  rewrite E in E'. injection E' as <- _. eapply (contains_key_lemma P kcmp ser); [done..|].
  eapply (no_tomb_run KO); [apply inv_new|done..].
Qed.

Lemma diskmap_get_contains : key_ok P kcmp ser parse →
  ∀ (n : nat) (ops : list (dm_op K V)) m outs k, Forall (op_keys_ok P) ops → P k →
  dm_run kcmp ser parse (dm_new n None) ops = Some (m, outs) →
  is_Some (dm_get kcmp ser m k) → dm_contains_key kcmp ser m k = true.
Proof.
  intros KO n ops m outs k Ho Hk E Hg.
  destruct (run_lemma P kcmp ser parse KO ops _ _ (inv_new P kcmp ser n) Ho) as (m' & E' & I).
  rewrite E in E'. injection E' as <- _.
  destruct (dm_contains_key kcmp ser m k) eqn:Ec; [done|].
  destruct (dm_c1 m) as [c1|] eqn:E1.
  - destruct (al_get kcmp c1 k) as [[v|]|] eqn:Eg1.
    all: try (rewrite <- Ec; apply (contains_key_lemma P kcmp ser m _ k I Hk); [|done];
      intros ? [= <-]%(eq_trans (eq_sym E1)); congruence).
    unfold dm_contains_key in Ec. unfold dm_get in Hg. rewrite E1, Eg1 in *.
    destruct (al_get kcmp (dm_c0 m) k) as [[v|]|]; try done. by destruct Hg.
  - rewrite <- Ec. apply (contains_key_lemma P kcmp ser m _ k I Hk); [|done]. congruence.
Qed.
End toplevel.

(** The key types used by graphANNIS. *)
From Verif Require Import KeySerProofs.
Lemma u64_key_ok : key_ok (fits 8) N.compare (uint_create_key 8) (uint_parse_key 8).
Proof.
  constructor.
  - apply _.
  - intros k Hk. rewrite <- (app_nil_r (uint_create_key 8 k)). by apply uint_roundtrip.
  - intros a b. apply uint_order.
Qed.
Lemma edge_key_ok :
  key_ok (λ e, fits 8 (source e) ∧ fits 8 (target e)) edge_compare edge_create_key edge_parse_key.
Proof.
  constructor.
  - apply _.
  - intros k [? ?]. by apply edge_roundtrip.
  - intros a b [? ?] [? ?]. by apply edge_order.
Qed.
(** Vec<u8>, ByteBuf and KeyVec: identity (serializer.rs l.18-46) *)
Lemma bytes_key_ok : key_ok (λ _, True) lex_compare (λ b : bytes, b) (λ b, Ok b).
Proof. constructor; [apply _|done|done]. Qed.
