(** Proofs about the mapping of queries. *)
From stdpp Require Import base list gmap sorting.
From Coq Require Import NArith Lia.
From Verif Require Import Query QuerySpec.

(** ** Alternatives *)
Lemma and_children {T} (e : expr T) v : product e → holds v e ↔ ∀ t, t ∈ find_all_children_for_and e → v t.
Proof.
  induction e as [t|l IHl r IHr|l IHl r IHr|e IH|b]; cbn; intros H; try done.
  - split; [by intros ? ? ->%elem_of_list_singleton|]. intros Hv. apply Hv. left.
  - destruct H as [Hl Hr]. rewrite IHl, IHr by done. split; [intros [H1 H2] t [Ht|Ht]%elem_of_app; auto|].
    intros Hv. split; intros t Ht; apply Hv, elem_of_app; auto.
Qed.
Lemma or_children {T} (e : expr T) v : sum_of_products e →
  (∀ x, x ∈ find_all_children_for_or e → product x) ∧ (holds v e ↔ ∃ x, x ∈ find_all_children_for_or e ∧ holds v x).
Proof.
  induction e as [t|l IHl r IHr|l IHl r IHr|e IH|b]; cbn [find_all_children_for_or]; intros H; try done.
  - split; [intros x ->%elem_of_list_singleton; done|]. split; [intros Hv; eexists; split; [left|done]|]. by intros (x & ->%elem_of_list_singleton & ?).
  - split; [intros x ->%elem_of_list_singleton; done|]. split; [intros Hv; eexists; split; [left|done]|]. by intros (x & ->%elem_of_list_singleton & ?).
  - destruct H as [Hl Hr]. destruct (IHl Hl) as [Pl Vl], (IHr Hr) as [Pr Vr]. split; [intros x [Hx|Hx]%elem_of_app; auto|].
    cbn [holds]. rewrite Vl, Vr. split.
    + intros [(x & Hx & Hv)|(x & Hx & Hv)]; exists x; (split; [apply elem_of_app; auto|done]).
    + intros (x & [Hx|Hx]%elem_of_app & Hv); [left|right]; eauto.
Qed.
Lemma or_children_not_or {T} (e : expr T) x : x ∈ find_all_children_for_or e → ∀ l r, x ≠ Or l r.
Proof.
  induction e as [t|l IHl r IHr|l IHl r IHr|e IH|b]; cbn [find_all_children_for_or]; try (intros ->%elem_of_list_singleton; done).
  intros [H|H]%elem_of_app; auto.
Qed.
Theorem alternatives_spec {T} (e : expr T) v : sum_of_products e →
  holds v e ↔ ∃ alt, alt ∈ get_alternatives_from_dnf e ∧ ∀ t, t ∈ alt → v t.
Proof.
  intros Hs. destruct e as [t|l r|l r|e|b]; try done.
  - cbn. split.
    + intros H. exists [t]. split; [left|]. by intros ? ->%elem_of_list_singleton.
    + intros (alt & ->%elem_of_list_singleton & H). apply H. left.
  - cbn [get_alternatives_from_dnf]. rewrite and_children by done. split; [intros H; eexists; split; [left|done]|].
    by intros (alt & ->%elem_of_list_singleton & H).
  - cbn [get_alternatives_from_dnf]. destruct (or_children (Or l r) v Hs) as [Hp ->]. split.
    + intros (x & Hx & Hv). destruct x as [t|x1 x2|x1 x2|x|b]; try (specialize (Hp _ Hx); done).
      * exists [t]. split; [apply elem_of_list_omap; by exists (Terminal t)|]. by intros ? ->%elem_of_list_singleton.
      * exists (find_all_children_for_and (And x1 x2)). split; [apply elem_of_list_omap; by exists (And x1 x2)|]. apply and_children; [by apply Hp|done].
    + intros (alt & (x & Hx & E)%elem_of_list_omap & Hv). exists x. split; [done|]. destruct x as [t|x1 x2|x1 x2|x|b]; try done.
      * injection E as <-. cbn. apply Hv. left.
      * injection E as <-. apply and_children; [by apply Hp|done].
Qed.
Lemma and_terminals {T} (e : expr T) t : t ∈ find_all_children_for_and e → t ∈ terminals e.
Proof. induction e; cbn; try (by intros H; inversion H); [done|]. rewrite !elem_of_app. intros [?|?]; auto. Qed.
Lemma or_terminals {T} (e x : expr T) t : x ∈ find_all_children_for_or e → t ∈ terminals x → t ∈ terminals e.
Proof.
  induction e; cbn [find_all_children_for_or]; try (by intros ->%elem_of_list_singleton).
  intros [H|H]%elem_of_app Ht; cbn; apply elem_of_app; auto.
Qed.
Lemma alternatives_terminals {T} (e : expr T) alt t : alt ∈ get_alternatives_from_dnf e → t ∈ alt → t ∈ terminals e.
Proof.
  intros H Ht. destruct e as [u|l r|l r|e|b]; cbn [get_alternatives_from_dnf] in H; try (by inversion H).
  - by apply elem_of_list_singleton in H as ->.
  - apply elem_of_list_singleton in H as ->. by apply and_terminals.
  - apply elem_of_list_omap in H as (x & Hx & E). eapply or_terminals; [exact Hx|].
    destruct x as [u|x1 x2|x1 x2|x|b]; try done; injection E as <-; [done|by apply and_terminals].
Qed.
Lemma and_children_ne {T} (e : expr T) : product e → find_all_children_for_and e ≠ [].
Proof. induction e; cbn; try done. intros [Hl _]. specialize (IHe1 Hl). by destruct (find_all_children_for_and e1). Qed.
Lemma alternatives_ne {T} (e : expr T) alt : sum_of_products e → alt ∈ get_alternatives_from_dnf e → alt ≠ [].
Proof.
  intros Hs H. destruct e as [u|l r|l r|e|b]; cbn [get_alternatives_from_dnf] in H; try (by inversion H).
  - by apply elem_of_list_singleton in H as ->.
  - apply elem_of_list_singleton in H as ->. by apply and_children_ne.
  - apply elem_of_list_omap in H as (x & Hx & E). destruct (or_children (Or l r) (λ _, True) Hs) as [Hp _].
    destruct x as [u|x1 x2|x1 x2|x|b]; try done; injection E as <-; [done|]. apply (and_children_ne (And x1 x2)). by apply Hp.
Qed.

(** A function as documented for simplify_via_laws *)
Fixpoint dist_r {T} (x y : expr T) : expr T := match y with Or a b => Or (dist_r x a) (dist_r x b) | _ => And x y end.
Fixpoint dist {T} (x y : expr T) : expr T := match x with Or a b => Or (dist a y) (dist b y) | _ => dist_r x y end.
Fixpoint normalize {T} (e : expr T) : expr T :=
  match e with And l r => dist (normalize l) (normalize r) | Or l r => Or (normalize l) (normalize r) | _ => e end.
Lemma dist_r_spec {T} (x y : expr T) : product x → sum_of_products y →
  sum_of_products (dist_r x y) ∧ (∀ v, holds v (dist_r x y) ↔ holds v x ∧ holds v y) ∧ terminals (dist_r x y) ⊆ terminals x ++ terminals y.
Proof.
  intros Hx. induction y as [u|l IHl r IHr|l IHl r IHr|y IHy|b]; cbn [dist_r]; intros Hy; try done.
  destruct Hy as [Hl Hr]. destruct (IHl Hl) as (A1 & B1 & C1), (IHr Hr) as (A2 & B2 & C2). split_and!.
  - done.
  - intros v. cbn [holds]. rewrite B1, B2. split; [intros [[? ?]|[? ?]]; auto|]. intros [? [?|?]]; auto.
  - intros t Ht. cbn [terminals] in Ht |- *. apply elem_of_app in Ht as [Ht|Ht]; [apply C1 in Ht|apply C2 in Ht];
      rewrite !elem_of_app in *; destruct Ht; auto.
Qed.
Lemma dist_spec {T} (x y : expr T) : sum_of_products x → sum_of_products y →
  sum_of_products (dist x y) ∧ (∀ v, holds v (dist x y) ↔ holds v x ∧ holds v y) ∧ terminals (dist x y) ⊆ terminals x ++ terminals y.
Proof.
  intros Hx Hy. induction x as [u|l IHl r IHr|l IHl r IHr|x IHx|b]; cbn [dist]; try done; try (by apply dist_r_spec).
  destruct Hx as [Hl Hr]. destruct (IHl Hl) as (A1 & B1 & C1), (IHr Hr) as (A2 & B2 & C2). split_and!.
  - done.
  - intros v. cbn [holds]. rewrite B1, B2. split; [intros [[? ?]|[? ?]]; auto|]. intros [[?|?] ?]; auto.
  - intros t Ht. cbn [terminals] in Ht |- *. apply elem_of_app in Ht as [Ht|Ht]; [apply C1 in Ht|apply C2 in Ht];
      rewrite !elem_of_app in *; destruct Ht; auto.
Qed.
Lemma normalize_ok {T} : simplifies (normalize (T := T)).
Proof.
  intros e. induction e as [u|l IHl r IHr|l IHl r IHr|e IHe|b]; intros H; try done.
  - destruct H as [Hl Hr]. destruct (IHl Hl) as (A1 & B1 & C1), (IHr Hr) as (A2 & B2 & C2).
    cbn [normalize]. destruct (dist_spec (normalize l) (normalize r) A1 A2) as (A & B & C). split_and!; [done| |].
    + intros v. by rewrite B, B1, B2.
    + intros t Ht. apply C in Ht. cbn. rewrite elem_of_app in *. destruct Ht as [Ht|Ht]; [left; by apply C1|right; by apply C2].
  - destruct H as [Hl Hr]. destruct (IHl Hl) as (A1 & B1 & C1), (IHr Hr) as (A2 & B2 & C2). split_and!; [done| |].
    + intros v. cbn. by rewrite B1, B2.
    + intros t Ht. cbn in *. rewrite elem_of_app in *. destruct Ht as [Ht|Ht]; [left; by apply C1|right; by apply C2].
Qed.

(** ** Nodes *)
Lemma put_spec {A} ov k (a : A) l : StronglySorted lt (l.*1) → (∀ a', (k, a') ∈ l → a' = a) →
  StronglySorted lt ((put ov k a l).*1) ∧ ∀ p, p ∈ put ov k a l ↔ p = (k, a) ∨ p ∈ l.
Proof.
  induction l as [|[k' a'] r IH]; intros Hs Ha; cbn [put].
  - cbn. split; [repeat constructor|]. intros p. by rewrite elem_of_cons.
  - cbn in Hs. apply StronglySorted_inv in Hs as [Hs Hf]. case_decide as D1; [|case_decide as D2].
    + cbn. split; [|intros p; by rewrite elem_of_cons]. constructor; [by constructor|]. constructor; [done|].
      eapply Forall_impl; [exact Hf|]. intros x Hx. cbn in Hx. lia.
    + subst k'. assert (a' = a) as -> by (apply Ha; left). assert ((if ov then (k, a) else (k, a)) = (k, a)) as -> by (by destruct ov).
      cbn. split; [by constructor|]. intros p. rewrite !elem_of_cons. tauto.
    + destruct IH as [IHs IHe]; [done|intros; apply Ha; by right|]. cbn. split.
      * constructor; [done|]. apply Forall_fmap, Forall_forall. intros p Hp. cbn. apply IHe in Hp as [-> |Hp]; [cbn; lia|].
        rewrite Forall_fmap, Forall_forall in Hf. by apply Hf.
      * intros p. rewrite !elem_of_cons, IHe. tauto.
Qed.
Section Proofs.
Context {Spec Bop Uop X : Type} (sat : Spec → X → Prop) (bop : Bop → X → X → Prop) (uop : Uop → X → Prop).
Notation literal := (literal Spec Bop Uop).
Notation operand := (operand Spec).
Notation qconj := (qconj Spec Bop Uop).

Definition agree (m : list (nat * node_entry (Spec := Spec))) (R : nat → node_entry → Prop) : Prop :=
  StronglySorted lt (m.*1) ∧ ∀ s e, (s, e) ∈ m → R s e.
Lemma put_agree ov s e m (R : nat → node_entry → Prop) : (∀ s e e', R s e → R s e' → e = e') → agree m R → R s e →
  agree (put ov s e m) R ∧ ∀ p, p ∈ put ov s e m ↔ p = (s, e) ∨ p ∈ m.
Proof.
  intros HR [Hs Hm] He. destruct (put_spec ov s e m Hs) as [P1 P2].
  { intros a' Ha. apply Hm in Ha. by eapply HR. }
  split; [|done]. split; [done|]. intros s' e' [[= -> ->]|H]%P2; [done|]. by apply Hm.
Qed.
Lemma put_operand_agree (o : operand) m (R : nat → node_entry → Prop) : (∀ s e e', R s e → R s e' → e = e') → agree m R → (∀ s e, operand_node o s e → R s e) →
  agree (put_operand o m) R ∧ ∀ s e, (s, e) ∈ put_operand o m ↔ operand_node o s e ∨ (s, e) ∈ m.
Proof.
  intros HR Hm Ho. destruct o as [v|spec start var optional]; cbn [put_operand operand_node].
  - split; [done|]. intros s e. tauto.
  - destruct (put_agree false start (spec, var, optional) m R HR Hm) as [P1 P2]; [by apply Ho|]. split; [done|].
    intros s e. rewrite P2. split; (intros [H|H]; [left|by right]); [by injection H as -> ->|by destruct H as [-> ->]].
Qed.
Definition is_meta (l : literal) : Prop := match l with LMeta _ => True | _ => False end.
Lemma node_positions_spec (c : list literal) (R : nat → node_entry → Prop) : (∀ s e e', R s e → R s e' → e = e') → ∀ m, agree m R → (∀ s e, node_at c s e → R s e) →
  (∃ l, l ∈ c ∧ is_meta l) ∧ calculate_node_positions c m = None ∨
  (∀ l, l ∈ c → ¬ is_meta l) ∧ ∃ m', calculate_node_positions c m = Some m' ∧ agree m' R ∧ ∀ s e, (s, e) ∈ m' ↔ node_at c s e ∨ (s, e) ∈ m.
Proof.
  intros HR. induction c as [|l c IH]; intros m Hm Hc.
  - right. split; [intros l H; inversion H|]. exists m. split; [done|]. split; [done|]. intros s e. split; [auto|].
    intros [(l & H & _)|H]; [inversion H|done].
  - assert (Hc' : ∀ s e, node_at c s e → R s e) by (intros s e (x & Hx & Hn); apply Hc; exists x; split; [by right|done]).
    assert (Hl : ∀ s e, has_node l s e → R s e) by (intros s e Hn; apply Hc; exists l; split; [left|done]).
    assert (Hat : ∀ s e, node_at (l :: c) s e ↔ has_node l s e ∨ node_at c s e).
    { intros s e. split; [intros (x & [-> |Hx]%elem_of_cons & Hn); [by left|right; by exists x]|].
      intros [Hn|(x & Hx & Hn)]; [exists l; split; [left|done]|exists x; split; [by right|done]]. }
    assert (Hstep : ∀ m1, agree m1 R → (∀ s e, (s, e) ∈ m1 ↔ has_node l s e ∨ (s, e) ∈ m) → ¬ is_meta l →
      calculate_node_positions (l :: c) m = calculate_node_positions c m1 →
      (∃ l', l' ∈ l :: c ∧ is_meta l') ∧ calculate_node_positions (l :: c) m = None ∨
      (∀ l', l' ∈ l :: c → ¬ is_meta l') ∧ ∃ m', calculate_node_positions (l :: c) m = Some m' ∧ agree m' R ∧ ∀ s e, (s, e) ∈ m' ↔ node_at (l :: c) s e ∨ (s, e) ∈ m).
    { intros m1 Hm1 H1 Hmeta ->. destruct (IH m1 Hm1 Hc') as [[(x & Hx & Hxm) E]|[Hno (m' & E & Hm' & He)]].
      - left. split; [exists x; split; [by right|done]|done].
      - right. split; [intros x [-> |Hx]%elem_of_cons; auto|]. exists m'. split; [done|]. split; [done|]. intros s e. rewrite He, H1, Hat. tauto. }
    destruct l as [spec start var optional|lhs op rhs negated|v op|spec].
    + destruct (put_agree true start (spec, var, optional) m R HR Hm) as [P1 P2]; [by apply Hl|].
      apply (Hstep _ P1); [|cbn; tauto|done]. intros s e. rewrite P2. cbn. split; (intros [H|H]; [left|by right]); [by injection H as -> ->|by destruct H as [-> ->]].
    + destruct (put_operand_agree lhs m R HR Hm) as [P1 P2]; [intros s e Hn; apply Hl; by left|].
      destruct (put_operand_agree rhs _ R HR P1) as [P3 P4]; [intros s e Hn; apply Hl; by right|].
      apply (Hstep _ P3); [|cbn; tauto|done]. intros s e. rewrite P4, P2. cbn. tauto.
    + apply (Hstep m Hm); [cbn; tauto|cbn; tauto|done].
    + left. split; [exists (LMeta spec); split; [left|done]|done].
Qed.

(** ** Variables *)
Definition name_of (off i : nat) (e : node_entry (Spec := Spec)) : vname := match e.1.2 with Some s => Name s | None => Num (off + i + 1) end.
Definition row (off n i : nat) (p : nat * node_entry (Spec := Spec)) : vname * Spec * bool := (name_of off (n + i) p.2, p.2.1.1, p.2.2).
Definition vars_ok (q : qconj) : Prop := ∀ v j, c_variables q !! v = Some j ↔ ∃ spec o, c_nodes q !! j = Some (v, spec, o).
Lemma add_nodes_spec m : ∀ q : qconj, vars_ok q →
  (∀ i j v sp o sp' o', (c_nodes q ++ imap (row (c_offset q) (length (c_nodes q))) m) !! i = Some (v, sp, o) →
     (c_nodes q ++ imap (row (c_offset q) (length (c_nodes q))) m) !! j = Some (v, sp', o') → i = j) →
  ∃ q' ids, add_node_specs_by_start q m = (q', ids) ∧ vars_ok q' ∧
    c_nodes q' = c_nodes q ++ imap (row (c_offset q) (length (c_nodes q))) m ∧
    ids = imap (λ i p, (p.1, name_of (c_offset q) (length (c_nodes q) + i) p.2)) m ∧
    c_unary q' = c_unary q ∧ c_binary q' = c_binary q ∧ c_offset q' = c_offset q.
Proof.
  induction m as [|[start [[spec var] optional]] m IH]; intros q Hv Hd; cbn [add_node_specs_by_start].
  - exists q, []. cbn. rewrite app_nil_r. done.
  - unfold add_node_from_query.
    set (v := match var with Some s => Name s | None => Num (c_offset q + length (c_nodes q) + 1) end).
    set (q1 := QConj (c_nodes q ++ [(v, spec, optional)]) (<[v := length (c_nodes q)]> (c_variables q)) (c_unary q) (c_binary q)
         (if optional then c_output q else {[v]} ∪ c_output q) (c_offset q)).
    assert (Hname : name_of (c_offset q) (length (c_nodes q) + 0) (spec, var, optional) = v).
    { unfold name_of, v. cbn. by rewrite Nat.add_0_r. }
    assert (Himap : imap (row (c_offset q1) (length (c_nodes q1))) m =
                    imap (row (c_offset q) (length (c_nodes q)) ∘ S) m).
    { apply imap_ext. intros i x _. unfold row. cbn. rewrite app_length. cbn. replace (length (c_nodes q) + 1 + i) with (length (c_nodes q) + S i) by lia. done. }
    assert (Happ : c_nodes q ++ imap (row (c_offset q) (length (c_nodes q))) ((start, (spec, var, optional)) :: m) =
                   c_nodes q1 ++ imap (row (c_offset q1) (length (c_nodes q1))) m).
    { rewrite Himap. cbn [imap]. unfold row at 1. cbn [c_nodes q1 fst snd]. rewrite Hname. by rewrite <- app_assoc. }
    assert (Hd1 : ∀ i j v sp o sp' o', (c_nodes q1 ++ imap (row (c_offset q1) (length (c_nodes q1))) m) !! i = Some (v, sp, o) →
     (c_nodes q1 ++ imap (row (c_offset q1) (length (c_nodes q1))) m) !! j = Some (v, sp', o') → i = j) by (rewrite <- Happ; exact Hd).
    clear Hd. rename Hd1 into Hd.
    destruct (IH q1) as (q' & ids & E & Hv' & Hn & Hi & Hu & Hb & Ho).
    + intros w j. cbn [c_variables c_nodes q1]. destruct (decide (w = v)) as [-> |D].
      * rewrite lookup_insert. split.
        -- intros [= <-]. exists spec, optional. by apply list_lookup_middle.
        -- intros (sp & o & H). f_equal. eapply (Hd _ _ v spec optional sp o).
           ++ apply lookup_app_l_Some. cbn [c_nodes q1]. by apply list_lookup_middle.
           ++ apply lookup_app_l_Some. exact H.
      * rewrite lookup_insert_ne by done. rewrite (Hv w j). split; intros (sp & o & H); exists sp, o.
        -- by apply lookup_app_l_Some.
        -- apply lookup_app_Some in H as [H|[_ H]]; [done|]. apply list_lookup_singleton_Some in H as [_ H]. congruence.
    + exact Hd.
    + rewrite E. exists q', ((start, v) :: ids). split_and!; [done|done|rewrite Hn; symmetry; exact Happ| |done|done|done].
      rewrite Hi. cbn [imap fst snd]. rewrite Hname. f_equal. apply imap_ext. intros i x _. cbn. rewrite app_length. cbn.
      replace (length (c_nodes q) + 1 + i) with (length (c_nodes q) + S i) by lia. done.
Qed.
(** ** Operators *)
Definition frame (q q' : qconj) : Prop := c_nodes q' = c_nodes q ∧ c_variables q' = c_variables q ∧ c_offset q' = c_offset q.
Lemma frame_vars_ok q q' : frame q q' → vars_ok q → vars_ok q'.
Proof. intros (E1 & E2 & _) H v j. rewrite E1, E2. apply H. Qed.
Definition ops_hold (q : qconj) (a : nat → X) : Prop :=
  (∀ u i, (u, i) ∈ c_unary q → unary_holds sat bop uop u (a i)) ∧
  (∀ (op : Bop) (negated : bool) l r, (op, negated, l, r) ∈ c_binary q →
    if negated then ¬ bop op (a (l - c_offset q)) (a (r - c_offset q)) else bop op (a (l - c_offset q)) (a (r - c_offset q))).
Lemma add_unary_spec q u v : 
  match c_variables q !! v with
  | Some i => ∃ q', add_unary_operator_from_query q u v = Some q' ∧ frame q q' ∧ ∀ a, ops_hold q' a ↔ ops_hold q a ∧ unary_holds sat bop uop u (a i)
  | None => add_unary_operator_from_query q u v = None
  end.
Proof.
  unfold add_unary_operator_from_query. destruct (c_variables q !! v) as [i|]; [|done]. eexists. split; [done|]. split; [done|].
  intros a. unfold ops_hold. cbn [c_unary c_binary c_offset]. split.
  - intros [H1 H2]. split; [split; [|done]|]; [intros u' i' H; apply H1, elem_of_app; by left|apply H1, elem_of_app; right; left].
  - intros [[H1 H2] H3]. split; [|done]. intros u' i' [H|[= -> ->]%elem_of_list_singleton]%elem_of_app; [by apply H1|done].
Qed.
Lemma add_binary_spec q op (negated : bool) v w i j : c_variables q !! v = Some i → c_variables q !! w = Some j →
  ∃ q', add_operator_from_query q op negated v w = Some q' ∧ frame q q' ∧
    ∀ a, ops_hold q' a ↔ ops_hold q a ∧ if negated then ¬ bop op (a i) (a j) else bop op (a i) (a j).
Proof.
  intros Hv Hw. unfold add_operator_from_query, resolve_variable_pos. rewrite Hv, Hw. cbn [fmap option_fmap option_map mbind option_bind].
  eexists. split; [done|]. split; [done|]. intros a. unfold ops_hold. cbn [c_unary c_binary c_offset]. split.
  - intros [H1 H2]. split; [split; [done|]|].
    + intros op' neg' l r H. apply H2, elem_of_app. by left.
    + specialize (H2 op negated (i + c_offset q) (j + c_offset q)). replace (i + c_offset q - c_offset q) with i in H2 by lia.
      replace (j + c_offset q - c_offset q) with j in H2 by lia. apply H2, elem_of_app. right. left.
  - intros [[H1 H2] H3]. split; [done|]. intros op' neg' l r [H|[= -> -> -> ->]%elem_of_list_singleton]%elem_of_app; [by apply H2|].
    replace (i + c_offset q - c_offset q) with i by lia. replace (j + c_offset q - c_offset q) with j by lia. done.
Qed.
Lemma unary_literals_spec (c : list literal) : ∀ q,
  (∃ v op, LUn v op ∈ c ∧ c_variables q !! v = None) ∧ add_unary_literals q c = None ∨
  (∀ v op, LUn v op ∈ c → is_Some (c_variables q !! v)) ∧ ∃ q', add_unary_literals q c = Some q' ∧ frame q q' ∧
    ∀ a, ops_hold q' a ↔ ops_hold q a ∧ ∀ v op i, LUn v op ∈ c → c_variables q !! v = Some i → uop op (a i).
Proof.
  induction c as [|l c IH]; intros q.
  - right. split; [intros v op H; inversion H|]. exists q. split; [done|]. split; [done|]. intros a. split; [|tauto].
    intros H. split; [done|]. intros v op i Hin. inversion Hin.
  - assert (Hother : (∀ v op, l ≠ LUn v op) → add_unary_literals q (l :: c) = add_unary_literals q c →
      (∃ v op, LUn v op ∈ l :: c ∧ c_variables q !! v = None) ∧ add_unary_literals q (l :: c) = None ∨
      (∀ v op, LUn v op ∈ l :: c → is_Some (c_variables q !! v)) ∧ ∃ q', add_unary_literals q (l :: c) = Some q' ∧ frame q q' ∧
        ∀ a, ops_hold q' a ↔ ops_hold q a ∧ ∀ v op i, LUn v op ∈ l :: c → c_variables q !! v = Some i → uop op (a i)).
    { intros Hl ->. destruct (IH q) as [[(v & op & Hin & Hn) E]|[Hs (q' & E & F & H)]].
      - left. split; [|done]. exists v, op. split; [by right|done].
      - right. split; [intros v op [<- |Hin]%elem_of_cons; [by destruct (Hl v op)|by eapply Hs]|]. exists q'. split; [done|]. split; [done|].
        intros a. rewrite H. split; (intros [H1 H2]; split; [done|]); intros v op i Hin.
        + apply elem_of_cons in Hin as [<- |Hin]; [by destruct (Hl v op)|by apply H2].
        + apply H2. by right. }
    destruct l as [spec start var optional|lhs op rhs negated|v op|spec]; try (by apply Hother).
    clear Hother. cbn [add_unary_literals]. pose proof (add_unary_spec q (UOp op) v) as Ha. destruct (c_variables q !! v) as [i|] eqn:Ev.
    + destruct Ha as (q1 & -> & F1 & H1). cbn [mbind option_bind]. destruct F1 as (F11 & F12 & F13).
      destruct (IH q1) as [[(v' & op' & Hin & Hn) E]|[Hs (q' & E & (F21 & F22 & F23) & H)]]; rewrite F12 in *.
      * left. split; [|done]. exists v', op'. split; [by right|done].
      * right. split; [intros v' op' [[= -> ->]|Hin]%elem_of_cons; [eauto|by eapply Hs]|]. exists q'. split; [done|]. split; [split_and!; congruence|].
        intros a. rewrite H, H1. cbn [unary_holds]. split.
        -- intros [[Ho Hu] H2]. split; [done|]. intros v' op' i' [[= -> ->]|Hin]%elem_of_cons Hi; [congruence|by eapply H2].
        -- intros [Ho H2]. split; [split; [done|]|]; [eapply H2; [left|done]|]. intros v' op' i' Hin. apply H2. by right.
    + left. split; [|by rewrite Ha]. exists v, op. split; [left|done].
Qed.
(** A binary literal in terms of the nodes of the conjunction *)
Definition operand_idx (q : qconj) ids (o : operand) (i : nat) : Prop := ∃ v, operand_var ids o = Some v ∧ c_variables q !! v = Some i.
Definition op_allowed (negated ol o_r : bool) : Prop := if negated then ol = false ∨ o_r = false else ol = false ∧ o_r = false.
Definition bin_meaning (op : Bop) (negated : bool) (sl : Spec) (ol : bool) (sr : Spec) (o_r : bool) (x y : X) : Prop :=
  match negated, ol, o_r with
  | false, false, false => bop op x y
  | true, false, false => ¬ bop op x y
  | true, true, false => ¬ ∃ z, sat sl z ∧ bop op z y
  | true, false, true => ¬ ∃ z, sat sr z ∧ bop op x z
  | _, _, _ => False
  end.
Definition bin_holds (q : qconj) ids (a : nat → X) (lhs : operand) (op : Bop) (rhs : operand) (negated : bool) : Prop :=
  ∃ i j vl sl ol vr sr o_r, operand_idx q ids lhs i ∧ operand_idx q ids rhs j ∧ c_nodes q !! i = Some (vl, sl, ol) ∧ c_nodes q !! j = Some (vr, sr, o_r) ∧
    bin_meaning op negated sl ol sr o_r (a i) (a j).
Definition bin_ok (q : qconj) ids (lhs : operand) (rhs : operand) (negated : bool) : Prop :=
  ∃ i j vl sl ol vr sr o_r, operand_idx q ids lhs i ∧ operand_idx q ids rhs j ∧ c_nodes q !! i = Some (vl, sl, ol) ∧ c_nodes q !! j = Some (vr, sr, o_r) ∧
    op_allowed negated ol o_r.
Lemma operand_idx_fun q ids o i j : operand_idx q ids o i → operand_idx q ids o j → i = j.
Proof. intros (v & H1 & H2) (w & H3 & H4). congruence. Qed.
Lemma binary_literal_spec ids q lhs op rhs negated : vars_ok q →
  ¬ bin_ok q ids lhs rhs negated ∧ add_binary_literal ids q lhs op rhs negated = None ∨
  bin_ok q ids lhs rhs negated ∧ ∃ q', add_binary_literal ids q lhs op rhs negated = Some q' ∧ frame q q' ∧
    ∀ a, ops_hold q' a ↔ ops_hold q a ∧ bin_holds q ids a lhs op rhs negated.
Proof.
  intros Hv. unfold add_binary_literal.
  destruct (operand_var ids lhs) as [wl|] eqn:El; cbn [mbind option_bind].
  2:{ left. split; [|done]. intros (i & j & ? & ? & ? & ? & ? & ? & (w & H & _) & _). congruence. }
  destruct (operand_var ids rhs) as [wr|] eqn:Er; cbn [mbind option_bind].
  2:{ left. split; [|done]. intros (i & j & ? & ? & ? & ? & ? & ? & _ & (w & H & _) & _). congruence. }
  unfold resolve_variable, resolve_variable_pos.
  destruct (c_variables q !! wl) as [i|] eqn:Vl; cbn [fmap option_fmap option_map mbind option_bind].
  2:{ left. split; [|done]. intros (i & j & ? & ? & ? & ? & ? & ? & (w & H & H') & _). congruence. }
  replace (i + c_offset q - c_offset q) with i by lia. destruct (proj1 (Hv wl i) Vl) as (sl & ol & Nl). rewrite Nl.
  destruct (c_variables q !! wr) as [j|] eqn:Vr; cbn [fmap option_fmap option_map mbind option_bind].
  2:{ left. split; [|done]. intros (i' & j & ? & ? & ? & ? & ? & ? & _ & (w & H & H') & _). congruence. }
  replace (j + c_offset q - c_offset q) with j by lia. destruct (proj1 (Hv wr j) Vr) as (sr & o_r & Nr). rewrite Nr. cbn [fst snd].
  assert (operand_idx q ids lhs i) as Il by (exists wl; done). assert (operand_idx q ids rhs j) as Ir by (exists wr; done).
  assert (Hok : bin_ok q ids lhs rhs negated ↔ op_allowed negated ol o_r).
  { split.
    - intros (i' & j' & vl & sl' & ol' & vr & sr' & or' & I1 & I2 & N1 & N2 & H). rewrite (operand_idx_fun _ _ _ _ _ I1 Il) in N1.
      rewrite (operand_idx_fun _ _ _ _ _ I2 Ir) in N2. congruence.
    - intros H. exists i, j, wl, sl, ol, wr, sr, o_r. done. }
  assert (Hh : ∀ a, bin_holds q ids a lhs op rhs negated ↔ bin_meaning op negated sl ol sr o_r (a i) (a j)).
  { intros a. split.
    - intros (i' & j' & vl & sl' & ol' & vr & sr' & or' & I1 & I2 & N1 & N2 & H). rewrite (operand_idx_fun _ _ _ _ _ I1 Il) in *.
      rewrite (operand_idx_fun _ _ _ _ _ I2 Ir) in *. congruence.
    - intros H. exists i, j, wl, sl, ol, wr, sr, o_r. done. }
  rewrite Hok. setoid_rewrite Hh. unfold op_allowed, bin_meaning. destruct negated, ol, o_r; cbn [orb].
  - left. split; [|done]. by intros [? | ?].
  - right. split; [by right|]. pose proof (add_unary_spec q (UNonExisting op sl true) wr) as H. rewrite Vr in H. exact H.
  - right. split; [by left|]. pose proof (add_unary_spec q (UNonExisting op sr false) wl) as H. rewrite Vl in H. exact H.
  - right. split; [by left|]. exact (add_binary_spec q op true wl wr i j Vl Vr).
  - left. split; [|done]. by intros [? ?].
  - left. split; [|done]. by intros [? ?].
  - left. split; [|done]. by intros [? ?].
  - right. split; [done|]. exact (add_binary_spec q op false wl wr i j Vl Vr).
Qed.
Lemma bin_ok_frame q q' ids lhs rhs negated : frame q q' → bin_ok q' ids lhs rhs negated ↔ bin_ok q ids lhs rhs negated.
Proof. intros (E1 & E2 & E3). unfold bin_ok, operand_idx. by rewrite E1, E2. Qed.
Lemma bin_holds_frame q q' ids a lhs op rhs negated : frame q q' → bin_holds q' ids a lhs op rhs negated ↔ bin_holds q ids a lhs op rhs negated.
Proof. intros (E1 & E2 & E3). unfold bin_holds, operand_idx. by rewrite E1, E2. Qed.
Lemma binary_literals_spec ids (c : list literal) : ∀ q, vars_ok q →
  (∃ lhs op rhs negated, LBin lhs op rhs negated ∈ c ∧ ¬ bin_ok q ids lhs rhs negated) ∧ add_binary_literals ids q c = None ∨
  (∀ lhs op rhs negated, LBin lhs op rhs negated ∈ c → bin_ok q ids lhs rhs negated) ∧ ∃ q', add_binary_literals ids q c = Some q' ∧ frame q q' ∧
    ∀ a, ops_hold q' a ↔ ops_hold q a ∧ ∀ lhs op rhs negated, LBin lhs op rhs negated ∈ c → bin_holds q ids a lhs op rhs negated.
Proof.
  induction c as [|l c IH]; intros q Hv.
  - right. split; [intros ? ? ? ? H; inversion H|]. exists q. split; [done|]. split; [done|]. intros a. split; [|tauto].
    intros H. split; [done|]. intros ? ? ? ? Hin. inversion Hin.
  - assert (Hother : (∀ lhs op rhs negated, l ≠ LBin lhs op rhs negated) → add_binary_literals ids q (l :: c) = add_binary_literals ids q c →
      (∃ lhs op rhs negated, LBin lhs op rhs negated ∈ l :: c ∧ ¬ bin_ok q ids lhs rhs negated) ∧ add_binary_literals ids q (l :: c) = None ∨
      (∀ lhs op rhs negated, LBin lhs op rhs negated ∈ l :: c → bin_ok q ids lhs rhs negated) ∧ ∃ q', add_binary_literals ids q (l :: c) = Some q' ∧ frame q q' ∧
        ∀ a, ops_hold q' a ↔ ops_hold q a ∧ ∀ lhs op rhs negated, LBin lhs op rhs negated ∈ l :: c → bin_holds q ids a lhs op rhs negated).
    { intros Hl ->. destruct (IH q Hv) as [[(lhs & op & rhs & negated & Hin & Hn) E]|[Hs (q' & E & F & H)]].
      - left. split; [|done]. exists lhs, op, rhs, negated. split; [by right|done].
      - right. split; [intros lhs op rhs negated [<- |Hin]%elem_of_cons; [by destruct (Hl lhs op rhs negated)|by eapply Hs]|]. exists q'. split; [done|]. split; [done|].
        intros a. rewrite H. split; (intros [H1 H2]; split; [done|]); intros lhs op rhs negated Hin.
        + apply elem_of_cons in Hin as [<- |Hin]; [by destruct (Hl lhs op rhs negated)|by apply H2].
        + apply H2. by right. }
    destruct l as [spec start var optional|lhs op rhs negated|v op|spec]; try (by apply Hother).
    clear Hother. cbn [add_binary_literals]. destruct (binary_literal_spec ids q lhs op rhs negated Hv) as [[Hn E]|[Ho (q1 & -> & F1 & H1)]].
    + left. split; [|by rewrite E]. exists lhs, op, rhs, negated. split; [left|done].
    + cbn [mbind option_bind]. destruct (IH q1 (frame_vars_ok _ _ F1 Hv)) as [[(lhs' & op' & rhs' & negated' & Hin & Hn) E]|[Hs (q' & E & F2 & H)]].
      * left. split; [|done]. exists lhs', op', rhs', negated'. split; [by right|]. by rewrite <- (bin_ok_frame q q1).
      * right. split; [|exists q'; split; [done|split]].
        -- intros lhs' op' rhs' negated' [[= -> -> -> ->]|Hin]%elem_of_cons; [done|]. apply (bin_ok_frame q q1 ids lhs' rhs' negated' F1). by eapply Hs.
        -- destruct F1 as (F11 & F12 & F13), F2 as (F21 & F22 & F23). split_and!; congruence.
        -- intros a. rewrite H, H1. split.
           ++ intros [[Hq Hb] H2]. split; [done|]. intros lhs' op' rhs' negated' [[= -> -> -> ->]|Hin]%elem_of_cons; [done|].
              apply (bin_holds_frame q q1 ids a lhs' op' rhs' negated' F1). by apply H2.
           ++ intros [Hq H2]. split; [split; [done|apply H2; left]|]. intros lhs' op' rhs' negated' Hin.
              apply (bin_holds_frame q q1 ids a lhs' op' rhs' negated' F1). apply H2. by right.
Qed.

(** ** The conjunction of an alternative *)
Section Conj.
Context (off : nat) (c : list literal) (Hcons : consistent c) (Hnames : distinct_names c).
Context (m : list (nat * node_entry (Spec := Spec))) (Hm : agree m (node_at c)) (Hall : ∀ s e, (s, e) ∈ m ↔ node_at c s e).
Context (q : qconj) (Hvars : vars_ok q) (Hnodes : c_nodes q = imap (row off 0) m).
Let starts := m.*1.
Lemma m_lookup i s e : m !! i = Some (s, e) → starts !! i = Some s ∧ node_at c s e.
Proof. intros H. split; [unfold starts; by rewrite list_lookup_fmap, H|]. apply Hall. by eapply elem_of_list_lookup_2. Qed.
Lemma at_lookup s e : node_at c s e → ∃ i, m !! i = Some (s, e).
Proof. intros H. apply Hall in H. by apply elem_of_list_lookup. Qed.
Lemma starts_lt i j s s' : starts !! i = Some s → starts !! j = Some s' → i < j → s < s'.
Proof.
  destruct Hm as [Hs _]. fold starts in Hs. clear -Hs. revert i j. induction Hs as [|x l Hs IH Hf]; intros i j Hi Hj Hlt; [by rewrite lookup_nil in Hi|].
  destruct j as [|j]; [lia|]. cbn in Hj. destruct i as [|i]; cbn in Hi.
  - injection Hi as ->. rewrite Forall_forall in Hf. apply Hf. by eapply elem_of_list_lookup_2.
  - apply (IH i j); [done|done|lia].
Qed.
Lemma starts_inj i j s : starts !! i = Some s → starts !! j = Some s → i = j.
Proof.
  intros Hi Hj. destruct (lt_eq_lt_dec i j) as [[H|H]|H]; [|done|].
  - pose proof (starts_lt _ _ _ _ Hi Hj H). lia.
  - pose proof (starts_lt _ _ _ _ Hj Hi H). lia.
Qed.
Lemma starts_entry i s : starts !! i = Some s → ∃ e, m !! i = Some (s, e) ∧ node_at c s e ∧ c_nodes q !! i = Some (name_of off i e, e.1.1, e.2).
Proof.
  intros H. unfold starts in H. rewrite list_lookup_fmap in H. destruct (m !! i) as [[s' e]|] eqn:E; [|done]. injection H as ->.
  exists e. split; [done|]. split; [by apply (m_lookup i)|]. rewrite Hnodes, list_lookup_imap, E. done.
Qed.
Lemma node_row i v sp o : c_nodes q !! i = Some (v, sp, o) → ∃ s e, m !! i = Some (s, e) ∧ starts !! i = Some s ∧ node_at c s e ∧ v = name_of off i e ∧ sp = e.1.1 ∧ o = e.2.
Proof.
  rewrite Hnodes, list_lookup_imap. destruct (m !! i) as [[s e]|] eqn:E; [|done]. cbn. intros [= <- <- <-].
  destruct (m_lookup _ _ _ E) as [H1 H2]. exists s, e. done.
Qed.
Lemma var_row v i : c_variables q !! v = Some i ↔ ∃ s e, m !! i = Some (s, e) ∧ starts !! i = Some s ∧ node_at c s e ∧ v = name_of off i e.
Proof.
  rewrite (Hvars v i). split.
  - intros (sp & o & H). apply node_row in H as (s & e & H1 & H2 & H3 & H4 & _). eauto 10.
  - intros (s & e & H1 & H2 & H3 & ->). rewrite Hnodes, list_lookup_imap, H1. cbn. eauto.
Qed.
Lemma before_take i s before : starts !! i = Some s → NoDup before → (∀ x, x ∈ before ↔ x < s ∧ ∃ e, node_at c x e) → length before = i.
Proof.
  intros Hi Hnd Hb. assert (before ≡ₚ take i starts) as E.
  { apply NoDup_Permutation; [done| |].
    - apply NoDup_alt. intros a b x Ha Hb'. apply lookup_take_Some in Ha as [Ha _]. apply lookup_take_Some in Hb' as [Hb' _]. by eapply starts_inj.
    - intros x. rewrite Hb. split.
      + intros [Hx (e & He)]. apply at_lookup in He as [j Hj]. apply m_lookup in Hj as [Hj _]. apply elem_of_list_lookup. exists j. apply lookup_take_Some. split; [done|].
        destruct (lt_eq_lt_dec j i) as [[H|H]|H]; [done| |].
        * subst j. assert (s = x) by congruence. lia.
        * pose proof (starts_lt _ _ _ _ Hi Hj H). lia.
      + intros [j [Hj Hlt]%lookup_take_Some]%elem_of_list_lookup. split; [by eapply starts_lt|].
        apply starts_entry in Hj as (e & _ & He & _). eauto. }
  rewrite E, take_length. apply lookup_lt_Some in Hi. lia.
Qed.
Lemma take_before i s : starts !! i = Some s → NoDup (take i starts) ∧ (∀ x, x ∈ take i starts ↔ x < s ∧ ∃ e, node_at c x e) ∧ length (take i starts) = i.
Proof.
  intros Hi. split_and!.
  - apply NoDup_alt. intros a b x Ha Hb'. apply lookup_take_Some in Ha as [Ha _]. apply lookup_take_Some in Hb' as [Hb' _]. by eapply starts_inj.
  - intros x. split.
    + intros [j [Hj Hlt]%lookup_take_Some]%elem_of_list_lookup. split; [by eapply starts_lt|].
      apply starts_entry in Hj as (e & _ & He & _). eauto.
    + intros [Hx (e & He)]. apply at_lookup in He as [j Hj]. apply m_lookup in Hj as [Hj _]. apply elem_of_list_lookup. exists j. apply lookup_take_Some. split; [done|].
      destruct (lt_eq_lt_dec j i) as [[H|H]|H]; [done| |].
      * subst j. assert (s = x) by congruence. lia.
      * pose proof (starts_lt _ _ _ _ Hi Hj H). lia.
  - rewrite take_length. apply lookup_lt_Some in Hi. lia.
Qed.
Lemma refers_idx v s : refers off c v s ↔ ∃ i, c_variables q !! v = Some i ∧ starts !! i = Some s.
Proof.
  split.
  - destruct v as [k|n]; cbn [refers].
    + intros [(sp & o & H) (before & Hnd & Hb & ->)]. apply at_lookup in H as [i Hi]. pose proof (m_lookup _ _ _ Hi) as [Hs Hn]. exists i. split; [|done].
      apply var_row. exists s, (sp, None, o). split_and!; [done|done|done|]. unfold name_of. cbn. by rewrite (before_take i s before Hs Hnd Hb).
    + intros (sp & o & H). apply at_lookup in H as [i Hi]. pose proof (m_lookup _ _ _ Hi) as [Hs Hn]. exists i. split; [|done].
      apply var_row. exists s, (sp, Some n, o). done.
  - intros (i & Hi & Hs). apply var_row in Hi as (s' & [[sp var] o] & H1 & H2 & H3 & ->). assert (s' = s) as -> by congruence.
    unfold name_of. cbn. destruct var as [n|]; cbn [refers]; [eauto|]. split; [eauto|]. destruct (take_before i s Hs) as (T1 & T2 & T3).
    exists (take i starts). split_and!; [done|done|]. by rewrite T3.
Qed.
Lemma operand_idx_spec (o : operand) i : (∀ s e, operand_node o s e → node_at c s e) →
  operand_idx q (imap (λ i p, (p.1, name_of off (0 + i) p.2)) m) o i ↔ ∃ s, operand_at off c o s ∧ starts !! i = Some s.
Proof.
  intros Ho. destruct o as [v|spec start var optional].
  - unfold operand_idx. cbn [operand_var operand_at]. split.
    + intros (w & [= ->] & Hi). apply var_row in Hi as Hi'. destruct Hi' as (s & e & _ & Hs & _). exists s. split; [|done]. apply refers_idx. eauto.
    + intros (s & Hr & Hs). apply refers_idx in Hr as (j & Hj & Hsj). rewrite (starts_inj _ _ _ Hs Hsj). eauto.
  - destruct (at_lookup start (spec, var, optional)) as [j Hj]; [by apply Ho|]. pose proof (m_lookup _ _ _ Hj) as [Hs Hn].
    assert (operand_var (imap (λ i p, (p.1, name_of off (0 + i) p.2)) m) (OLit spec start var optional) = Some (name_of off j (spec, var, optional))) as Ev.
    { cbn [operand_var]. destruct (list_find (λ p, p.1 = start) (imap (λ i p, (p.1, name_of off (0 + i) p.2)) m)) as [[k [s' v]]|] eqn:Ef.
      - apply list_find_Some in Ef as (Hk & E & _). rewrite list_lookup_imap in Hk. destruct (m !! k) as [[s2 e2]|] eqn:Em; [|done].
        cbn in Hk, E. injection Hk as <- <-. subst s2. pose proof (m_lookup _ _ _ Em) as [Hs2 _]. rewrite <- (starts_inj _ _ _ Hs Hs2) in *.
        cbn. congruence.
      - exfalso. eapply list_find_None in Ef. rewrite Forall_forall in Ef. eapply (Ef (start, name_of off (0 + j) (spec, var, optional))); [|done].
        apply elem_of_list_lookup. exists j. rewrite list_lookup_imap, Hj. done. }
    assert (c_variables q !! name_of off j (spec, var, optional) = Some j) as Hv by (apply var_row; eauto 10).
    unfold operand_idx. rewrite Ev. cbn [operand_at]. split.
    + intros (w & [= <-] & Hi). assert (i = j) as -> by congruence. eauto.
    + intros (s & -> & Hi). rewrite (starts_inj _ _ _ Hi Hs). eauto.
Qed.
Lemma operand_nodes lhs op rhs negated : LBin lhs op rhs negated ∈ c → (∀ s e, operand_node lhs s e → node_at c s e) ∧ (∀ s e, operand_node rhs s e → node_at c s e).
Proof. intros H. split; intros s e Hn; eexists; (split; [exact H|]); [by left|by right]. Qed.
Notation ids := (imap (λ i p, (p.1, name_of off (0 + i) p.2)) m).
Lemma bin_ok_spec lhs op rhs negated : LBin lhs op rhs negated ∈ c → bin_ok q ids lhs rhs negated ↔ literal_ok off c (LBin lhs op rhs negated).
Proof.
  intros H. destruct (operand_nodes _ _ _ _ H) as [Hl Hr]. unfold bin_ok. cbn [literal_ok]. split.
  - intros (i & j & vl & sl & ol & vr & sr & o_r & Il & Ir & Nl & Nr & Ha). apply operand_idx_spec in Il as (xl & Ol & Sl); [|done].
    apply operand_idx_spec in Ir as (xr & Or & Sr); [|done]. apply node_row in Nl as (s1 & e1 & _ & S1 & A1 & _ & _ & ->).
    apply node_row in Nr as (s2 & e2 & _ & S2 & A2 & _ & _ & ->). exists xl, e1, xr, e2. assert (s1 = xl) as -> by congruence. assert (s2 = xr) as -> by congruence. done.
  - intros (xl & el & xr & er & Ol & Al & Or & Ar & Ha). destruct (at_lookup _ _ Al) as [i Hi], (at_lookup _ _ Ar) as [j Hj].
    pose proof (m_lookup _ _ _ Hi) as [Si _]. pose proof (m_lookup _ _ _ Hj) as [Sj _].
    exists i, j, (name_of off i el), el.1.1, el.2, (name_of off j er), er.1.1, er.2. split_and!.
    + apply operand_idx_spec; [done|]. eauto.
    + apply operand_idx_spec; [done|]. eauto.
    + rewrite Hnodes, list_lookup_imap, Hi. done.
    + rewrite Hnodes, list_lookup_imap, Hj. done.
    + done.
Qed.
Context (env a : nat → X) (Ha : ∀ i s, starts !! i = Some s → a i = env s).
Lemma bin_holds_spec lhs op rhs negated : LBin lhs op rhs negated ∈ c →
  bin_holds q ids a lhs op rhs negated ↔ ∃ sl el sr er, operand_at off c lhs sl ∧ node_at c sl el ∧ operand_at off c rhs sr ∧ node_at c sr er ∧
                                 operator_holds sat bop env op negated sl el sr er.
Proof.
  intros H. destruct (operand_nodes _ _ _ _ H) as [Hl Hr]. unfold bin_holds. split.
  - intros (i & j & vl & sl & ol & vr & sr & o_r & Il & Ir & Nl & Nr & Hb). apply operand_idx_spec in Il as (xl & Ol & Sl); [|done].
    apply operand_idx_spec in Ir as (xr & Or & Sr); [|done]. apply node_row in Nl as (s1 & e1 & _ & S1 & A1 & _ & -> & ->).
    apply node_row in Nr as (s2 & e2 & _ & S2 & A2 & _ & -> & ->). exists xl, e1, xr, e2. assert (s1 = xl) as -> by congruence. assert (s2 = xr) as -> by congruence.
    rewrite (Ha _ _ Sl), (Ha _ _ Sr) in Hb. done.
  - intros (xl & el & xr & er & Ol & Al & Or & Ar & Hb). destruct (at_lookup _ _ Al) as [i Hi], (at_lookup _ _ Ar) as [j Hj].
    pose proof (m_lookup _ _ _ Hi) as [Si _]. pose proof (m_lookup _ _ _ Hj) as [Sj _].
    exists i, j, (name_of off i el), el.1.1, el.2, (name_of off j er), er.1.1, er.2. split_and!.
    + apply operand_idx_spec; [done|]. eauto.
    + apply operand_idx_spec; [done|]. eauto.
    + rewrite Hnodes, list_lookup_imap, Hi. done.
    + rewrite Hnodes, list_lookup_imap, Hj. done.
    + rewrite (Ha _ _ Si), (Ha _ _ Sj). done.
Qed.
Lemma nodes_hold : (∀ i v spec, c_nodes q !! i = Some (v, spec, false) → sat spec (a i)) ↔ ∀ l, l ∈ c → ∀ s e, has_node l s e → found sat env s e.
Proof.
  split.
  - intros H l Hl s e Hn. unfold found. destruct e as [[sp var] o]. cbn. destruct o; [by left|right].
    destruct (at_lookup s (sp, var, false)) as [i Hi]; [by exists l|]. pose proof (m_lookup _ _ _ Hi) as [Si _].
    rewrite <- (Ha _ _ Si). eapply H. by rewrite Hnodes, list_lookup_imap, Hi.
  - intros H i v spec Hi. apply node_row in Hi as (s & e & _ & Si & (l & Hl & Hn) & _ & -> & Ho). rewrite (Ha _ _ Si).
    destruct (H l Hl s e Hn) as [?|?]; [congruence|done].
Qed.
End Conj.
Theorem map_conjunction_spec off (c : list literal) : consistent c → distinct_names c →
  (map_conjunction off c = None ∧ ∃ l, l ∈ c ∧ ¬ literal_ok off c l) ∨
  (∃ q starts, map_conjunction off c = Some q ∧ (∀ l, l ∈ c → literal_ok off c l) ∧ positions c starts ∧
    length (c_nodes q) = length starts ∧ c_offset q = off ∧
    (∀ i v sp o, c_nodes q !! i = Some (v, sp, o) → ∃ s var, starts !! i = Some s ∧ node_at c s (sp, var, o) ∧
       v = match var with Some n => Name n | None => Num (off + i + 1) end) ∧
    ∀ env a, (∀ i s, starts !! i = Some s → a i = env s) →
      conj_holds sat bop uop q a ↔ ∀ l, l ∈ c → literal_holds sat bop uop off c env l).
Proof.
  intros Hc Hd. unfold map_conjunction.
  destruct (node_positions_spec c (node_at c) Hc [] ltac:(split; [constructor|intros ? ? H; inversion H]) ltac:(done)) as [[(l & Hl & Hmeta) E]|[Hnm (m & E & Hm & He)]].
  { left. split; [by rewrite E|]. exists l. split; [done|]. destruct l; [destruct Hmeta|destruct Hmeta|destruct Hmeta|intros []]. }
  rewrite E. cbn [mbind option_bind].
  assert (Hall : ∀ s e, (s, e) ∈ m ↔ node_at c s e). { intros s e. rewrite He. split; [intros [H|H]; [done|inversion H]|auto]. }
  assert (Hdist : ∀ i j v sp o sp' o', (imap (row off 0) m) !! i = Some (v, sp, o) → (imap (row off 0) m) !! j = Some (v, sp', o') → i = j).
  { intros i j v sp o sp' o' Hi Hj. rewrite list_lookup_imap in Hi, Hj. destruct (m !! i) as [[s1 e1]|] eqn:E1; [|done]. destruct (m !! j) as [[s2 e2]|] eqn:E2; [|done].
    cbn in Hi, Hj. injection Hi as Hi _ _. injection Hj as Hj _ _. destruct (m_lookup c m Hall _ _ _ E1) as [S1 A1], (m_lookup c m Hall _ _ _ E2) as [S2 A2].
    rewrite <- Hj in Hi. destruct e1 as [[sp1 [n1|]] o1], e2 as [[sp2 [n2|]] o2]; unfold name_of in Hi; cbn in Hi; try done.
    - injection Hi as ->. rewrite (Hd _ _ _ _ _ _ _ A1 A2) in S1. by eapply (starts_inj c m Hm).
    - injection Hi as Hi. lia. }
  destruct (add_nodes_spec m (with_offset off : qconj)) as (q0 & ids & -> & Hv & Hn & -> & Hu & Hb & Ho).
  { intros v j. cbn. rewrite lookup_empty. split; [done|]. intros (? & ? & H). by rewrite lookup_nil in H. }
  { exact Hdist. }
  cbn [c_nodes with_offset length app c_offset c_unary c_binary] in Hn, Ho, Hu, Hb |- *.
  assert (H0 : ∀ a, ops_hold q0 a). { intros a. split; intros *; [rewrite Hu|rewrite Hb]; intros H; inversion H. }
  assert (Hlun : ∀ v op, LUn v op ∈ c → is_Some (c_variables q0 !! v) ↔ literal_ok off c (LUn v op)).
  { intros v op _. cbn [literal_ok]. split.
    - intros [i Hi]. pose proof Hi as Hi'. apply (var_row off c m Hall q0 Hv Hn) in Hi' as (s & e & _ & Hs & _).
      exists s. apply (refers_idx off c m Hm Hall q0 Hv Hn). eauto.
    - intros [s Hs]. apply (refers_idx off c m Hm Hall q0 Hv Hn) in Hs as (i & Hi & _). eauto. }
  destruct (unary_literals_spec c q0) as [[(v & op & Hin & Hnone) E1]|[Hun (q1 & E1 & F1 & H1)]].
  { left. split; [by rewrite E1|]. exists (LUn v op). split; [done|]. rewrite <- Hlun by done. rewrite Hnone. by intros [? ?]. }
  rewrite E1. cbn [mbind option_bind].
  destruct (binary_literals_spec (imap (λ i p, (p.1, name_of off (0 + i) p.2)) m) c q1 (frame_vars_ok _ _ F1 Hv)) as [[(lhs & op & rhs & negated & Hin & Hnone) E2]|[Hbin (q2 & E2 & F2 & H2)]].
  { left. split; [done|]. exists (LBin lhs op rhs negated). split; [done|]. rewrite (bin_ok_frame q0 q1 _ _ _ _ F1) in Hnone.
    by rewrite (bin_ok_spec off c m Hm Hall q0 Hv Hn) in Hnone. }
  right. exists q2, (m.*1). pose proof F1 as (F11 & F12 & F13). pose proof F2 as (F21 & F22 & F23).
  split_and!.
  - done.
  - intros l Hl. destruct l as [spec start var optional|lhs op rhs negated|v op|spec].
    + done.
    + apply (bin_ok_spec off c m Hm Hall q0 Hv Hn _ _ _ _ Hl). apply (bin_ok_frame q0 q1 _ _ _ _ F1). by eapply Hbin.
    + apply Hlun; [done|]. by eapply Hun.
    + by destruct (Hnm _ Hl).
  - split; [by destruct Hm|]. intros s. rewrite elem_of_list_fmap. split.
    + intros ([s' e] & -> & Hin). exists e. by apply Hall.
    + intros [e Hin]. exists (s, e). split; [done|]. by apply Hall.
  - rewrite F21, F11, Hn, imap_length, fmap_length. done.
  - congruence.
  - intros i v sp o Hi. rewrite F21, F11 in Hi. apply (node_row off c m Hall q0 Hn) in Hi as (s & [[sp' var] o'] & _ & Hs & Ha & -> & -> & ->).
    exists s, var. done.
  - intros env a Ha.
    assert (conj_holds sat bop uop q2 a ↔ (∀ i v spec, c_nodes q0 !! i = Some (v, spec, false) → sat spec (a i)) ∧ ops_hold q2 a) as ->.
    { rewrite <- F11, <- F21. split; [intros [? ? ?]; done|]. intros (? & ? & ?). by constructor. }
    rewrite H2, H1. rewrite (nodes_hold off c m Hall q0 Hn env a Ha). split.
    + intros (N & [_ U] & B) l Hl. split; [by apply N|]. destruct l as [spec start var optional|lhs op rhs negated|v op|spec].
      * done.
      * apply (bin_holds_spec off c m Hm Hall q0 Hv Hn env a Ha _ _ _ _ Hl). apply (bin_holds_frame q0 q1 _ _ _ _ _ _ F1). by apply B.
      * destruct (Hun v op Hl) as [i Hi]. pose proof Hi as Hi'. apply (var_row off c m Hall q0 Hv Hn) in Hi' as (s & e & _ & Hs & _).
        exists s. split; [apply (refers_idx off c m Hm Hall q0 Hv Hn); eauto|]. rewrite <- (Ha _ _ Hs). by eapply U.
      * by destruct (Hnm _ Hl).
    + intros H. split; [intros l Hl; by apply H|]. split; [split; [apply H0|]|].
      * intros v op i Hl Hi. destruct (H _ Hl) as [_ (s & Hr & Hu')]. apply (refers_idx off c m Hm Hall q0 Hv Hn) in Hr as (j & Hj & Hs).
        assert (i = j) as -> by congruence. by rewrite (Ha _ _ Hs).
      * intros lhs op rhs negated Hl. apply (bin_holds_frame q0 q1 _ _ _ _ _ _ F1). apply (bin_holds_spec off c m Hm Hall q0 Hv Hn env a Ha _ _ _ _ Hl).
        by destruct (H _ Hl) as [_ ?].
Qed.

(** ** All alternatives *)
Lemma node_at_sub (c T : list literal) s e : c ⊆ T → node_at c s e → node_at T s e.
Proof. intros H (l & Hl & Hn). exists l. split; [by apply H|done]. Qed.
Lemma consistent_sub (c T : list literal) : c ⊆ T → consistent T → consistent c.
Proof. intros H HT s e e' H1 H2. eapply HT; by eapply node_at_sub. Qed.
Lemma distinct_names_sub (c T : list literal) : c ⊆ T → distinct_names T → distinct_names c.
Proof. intros H HT s s' sp sp' o o' n H1 H2. eapply HT; by eapply node_at_sub. Qed.
Lemma operand_transfer off (c T : list literal) (o : operand) s : c ⊆ T → distinct_names T → (∀ k, o ≠ ORef (Num k)) →
  (∃ s, operand_at off c o s) → operand_at off c o s ↔ operand_at 0 T o s.
Proof.
  intros Hs Hd Hn [s' Hs']. destruct o as [[k|n]|spec start var optional]; cbn [operand_at refers] in *; [by destruct (Hn k)| |done]. split.
  - intros (sp & o & H). exists sp, o. by eapply node_at_sub.
  - intros (sp & o & H). destruct Hs' as (sp' & o' & H'). rewrite (Hd s s' sp sp' o o' n H (node_at_sub _ _ _ _ Hs H')). eauto.
Qed.
Lemma literal_transfer off (c T : list literal) env l : c ⊆ T → consistent T → distinct_names T → no_numbers l → literal_ok off c l →
  literal_holds sat bop uop off c env l ↔ literal_holds sat bop uop 0 T env l.
Proof.
  intros Hs Hc Hd Hn Hok. unfold literal_holds. destruct l as [spec start var optional|lhs op rhs negated|v op|spec]; [done| | |done].
  - destruct Hn as [Hn1 Hn2]. cbn [literal_ok] in Hok. destruct Hok as (xl & dl & xr & dr & Ol & Al & Or & Ar & _).
    pose proof (λ s, operand_transfer off c T lhs s Hs Hd Hn1 (ex_intro _ xl Ol)) as Tl.
    pose proof (λ s, operand_transfer off c T rhs s Hs Hd Hn2 (ex_intro _ xr Or)) as Tr.
    apply and_iff_compat_l. split; intros (sl & el & sr & er & H1 & H2 & H3 & H4 & H5); exists sl, el, sr, er.
    + split_and!; [by apply Tl|by eapply node_at_sub|by apply Tr|by eapply node_at_sub|done].
    + apply Tl in H1. apply Tr in H3.
      assert (∀ o x s d e, (∀ k, o ≠ ORef (Num k)) → operand_at off c o x → operand_at off c o s → node_at c x d → node_at T s e → node_at c s e) as Hx.
      { intros o x s d e No O1 O2 D E. assert (x = s) as ->; [|by rewrite (Hc s e d E (node_at_sub _ _ _ _ Hs D))].
        destruct o as [[k|n]|? ? ? ?]; cbn [operand_at refers] in *; [by destruct (No k)| |congruence].
        destruct O1 as (? & ? & O1), O2 as (? & ? & O2). eapply Hd; eapply node_at_sub; done. }
      split_and!; [done|by eapply (Hx lhs xl)|done|by eapply (Hx rhs xr)|done].
  - cbn [literal_ok] in Hok. destruct Hok as [x Hx]. apply and_iff_compat_l. split; intros (s & H1 & H2); exists s; (split; [|done]).
    + apply (operand_transfer off c T (ORef v) s Hs Hd); [intros k [= ->]; by destruct (Hn k)|eauto|done].
    + apply (operand_transfer off c T (ORef v) s Hs Hd); [intros k [= ->]; by destruct (Hn k)|eauto|done].
Qed.
(** What the mapping of an alternative is *)
Definition mapped (off : nat) (c : list literal) (q : qconj) (starts : list nat) : Prop :=
  positions c starts ∧ length (c_nodes q) = length starts ∧ c_offset q = off ∧ (∀ l, l ∈ c → literal_ok off c l) ∧
  ∀ env a, (∀ i s, starts !! i = Some s → a i = env s) →
    conj_holds sat bop uop q a ↔ ∀ l, l ∈ c → literal_holds sat bop uop off c env l.
Lemma map_alternatives_spec (alts : list (list literal)) : ∀ off qs, Forall (λ c, consistent c ∧ distinct_names c) alts →
  map_alternatives off alts = Some qs →
  ∃ startss, length qs = length alts ∧ length startss = length alts ∧
    ∀ i c, alts !! i = Some c → ∃ q starts, qs !! i = Some q ∧ startss !! i = Some starts ∧
      mapped (off + sum_list (length <$> take i startss)) c q starts.
Proof.
  induction alts as [|c alts IH]; intros off qs Hc H; cbn [map_alternatives] in H.
  - injection H as <-. exists []. split_and!; [done|done|]. intros i c Hi. by rewrite lookup_nil in Hi.
  - apply Forall_cons in Hc as [[Hc1 Hc2] Hc].
    destruct (map_conjunction_spec off c Hc1 Hc2) as [[E _]|(q & starts & E & Hok & Hp & Hl & Ho & _ & Hh)]; rewrite E in H; cbn [mbind option_bind] in H; [done|].
    destruct (map_alternatives (off + length (c_nodes q)) alts) as [qs'|] eqn:E'; [|done]. cbn in H. injection H as <-.
    destruct (IH _ _ Hc E') as (startss & L1 & L2 & Hi). exists (starts :: startss). cbn [length]. split_and!; [lia|lia|].
    intros [|i] c' Hc'; cbn in Hc'.
    + injection Hc' as <-. exists q, starts. cbn. rewrite Nat.add_0_r. split_and!; done.
    + destruct (Hi i c' Hc') as (q' & st' & H1 & H2 & H3). exists q', st'. split_and!; [done|done|]. cbn.
      rewrite Hl in H3. by rewrite Nat.add_assoc.
Qed.
Theorem query_spec (simplify : expr literal → expr literal) (e : expr literal) qs :
  simplifies simplify → positive e → consistent (terminals e) → distinct_names (terminals e) → (∀ l, l ∈ terminals e → no_numbers l) →
  map_alternatives 0 (get_alternatives_from_dnf (simplify e)) = Some qs →
  ∃ startss, Forall2 (λ q starts, length (c_nodes q) = length starts ∧ StronglySorted lt starts) qs startss ∧
    ∀ env, holds (literal_holds sat bop uop 0 (terminals e) env) e ↔
      ∃ i q starts, qs !! i = Some q ∧ startss !! i = Some starts ∧
        ∀ a, (∀ k s, starts !! k = Some s → a k = env s) → conj_holds sat bop uop q a.
Proof.
  intros Hs Hp Hc Hd Hn Hq. destruct (Hs e Hp) as (Hsum & Hv & Ht).
  assert (∀ c, c ∈ get_alternatives_from_dnf (simplify e) → c ⊆ terminals e) as Hsub.
  { intros c Hc' l Hl. apply Ht. by eapply alternatives_terminals. }
  destruct (map_alternatives_spec (get_alternatives_from_dnf (simplify e)) 0 qs) as (startss & L1 & L2 & H); [|exact Hq|].
  { apply Forall_forall. intros c Hc'. split; [eapply consistent_sub; [by apply Hsub|done]|eapply distinct_names_sub; [by apply Hsub|done]]. }
  exists startss. split.
  - apply Forall2_same_length_lookup_2; [congruence|]. intros i q st Hqi Hst.
    destruct (lookup_lt_is_Some_2 (get_alternatives_from_dnf (simplify e)) i) as [c Hci]; [rewrite <- L1; by eapply lookup_lt_Some|].
    destruct (H i c Hci) as (q' & st' & E1 & E2 & (Hst' & _) & Hl & _). split; [congruence|]. congruence.
  - intros env. rewrite <- Hv, alternatives_spec by done. split.
    + intros (c & Hci & Hl). apply elem_of_list_lookup in Hci as [i Hi]. destruct (H i c Hi) as (q & st & E1 & E2 & _ & _ & _ & Hok & Hh).
      exists i, q, st. split_and!; [done|done|]. intros a Ha. apply (Hh env a Ha). intros l Hlc.
      apply elem_of_list_lookup_2 in Hi. apply (literal_transfer _ _ (terminals e)); auto. apply Hn. by eapply Hsub.
    + intros (i & q & st & E1 & E2 & Ha). destruct (lookup_lt_is_Some_2 (get_alternatives_from_dnf (simplify e)) i) as [c Hci]; [rewrite <- L1; by eapply lookup_lt_Some|].
      destruct (H i c Hci) as (q' & st' & E1' & E2' & _ & _ & _ & Hok & Hh). assert (q' = q) as -> by congruence. assert (st' = st) as -> by congruence.
      exists c. pose proof (elem_of_list_lookup_2 _ _ _ Hci) as Hin. split; [done|]. intros l Hlc.
      eapply (literal_transfer _ c (terminals e)); [by apply Hsub|done|done|apply Hn; by eapply Hsub|by apply Hok|].
      set (a := λ k, env (default 0 (st !! k))). assert (∀ k s, st !! k = Some s → a k = env s) as Hak.
      { intros k s Hk. unfold a. by rewrite Hk. }
      apply (Hh env a Hak); [|done]. by apply Ha.
Qed.
(** ** Output *)
Definition out_inv (q : qconj) : Prop := ∀ v, v ∈ c_output q ↔ ∃ sp, (v, sp, false) ∈ c_nodes q.
Lemma nodes_out m : ∀ (q q' : qconj) ids, out_inv q → add_node_specs_by_start q m = (q', ids) → out_inv q' ∧ c_offset q' = c_offset q.
Proof.
  induction m as [|[s [[sp var] o]] m IH]; intros q q' ids Hq H; cbn [add_node_specs_by_start] in H; [by injection H as <- _|].
  unfold add_node_from_query in H. destruct (add_node_specs_by_start _ m) as [q1 ids1] eqn:E. injection H as <- _. apply IH in E; [exact E|].
  intros v. cbn. destruct o; [rewrite (Hq v)|rewrite elem_of_union, elem_of_singleton, (Hq v)]; split.
  - intros [sp' H]. exists sp'. apply elem_of_app. by left.
  - intros [sp' H]. exists sp'. apply elem_of_app in H as [H|H]; [done|]. apply elem_of_list_singleton in H. discriminate H.
  - intros [-> |[sp' H]]; [exists sp|exists sp']; apply elem_of_app; [right; by apply elem_of_list_singleton|by left].
  - intros [sp' H]. apply elem_of_app in H as [H|H]; [right; by exists sp'|]. apply elem_of_list_singleton in H. injection H as -> ->. by left.
Qed.
Definition same_out (q q' : qconj) : Prop := c_output q' = c_output q ∧ c_nodes q' = c_nodes q ∧ c_offset q' = c_offset q.
Lemma unary_op_out (q q' : qconj) u v : add_unary_operator_from_query q u v = Some q' → same_out q q'.
Proof. intros H. unfold add_unary_operator_from_query in H. destruct (c_variables q !! v); [|done]. cbn in H. by injection H as <-. Qed.
Lemma binary_op_out (q q' : qconj) op n v w : add_operator_from_query q op n v w = Some q' → same_out q q'.
Proof. intros H. unfold add_operator_from_query in H. destruct (resolve_variable_pos q v); [|done]. destruct (resolve_variable_pos q w); [|done]. cbn in H. by injection H as <-. Qed.
Lemma same_out_trans (q q' q'' : qconj) : same_out q q' → same_out q' q'' → same_out q q''.
Proof. intros (?&?&?) (?&?&?). split_and!; congruence. Qed.
Lemma unary_literals_out c : ∀ (q q' : qconj), add_unary_literals q c = Some q' → same_out q q'.
Proof.
  induction c as [|l c IH]; intros q q' H; cbn [add_unary_literals] in H; [by injection H as <-|]. destruct l; try (by apply IH).
  destruct (add_unary_operator_from_query q (UOp op) v) as [q1|] eqn:E; [|done]. cbn in H. apply unary_op_out in E. apply IH in H. by eapply same_out_trans.
Qed.
Lemma binary_literals_out c : ∀ ids (q q' : qconj), add_binary_literals ids q c = Some q' → same_out q q'.
Proof.
  induction c as [|l c IH]; intros ids q q' H; cbn [add_binary_literals] in H; [by injection H as <-|]. destruct l; try (by eapply IH).
  destruct (add_binary_literal ids q lhs op rhs negated) as [q1|] eqn:E; [|done]. cbn in H. apply IH in H. eapply same_out_trans; [|exact H]. clear H IH. unfold add_binary_literal in E.
  destruct (operand_var ids lhs) as [vl|]; [|done]. destruct (operand_var ids rhs) as [vr|]; [|done]. cbn [mbind option_bind] in E.
  destruct (resolve_variable q vl) as [[[nvl sl] ol]|]; [|done]. destruct (resolve_variable q vr) as [[[nvr sr] o_r]|]; [|done]. cbn [mbind option_bind] in E.
  destruct negated, ol, o_r; cbn in E; try done; first [exact (unary_op_out _ _ _ _ E)|exact (binary_op_out _ _ _ _ _ _ E)].
Qed.
Lemma map_conjunction_output off c q : map_conjunction off c = Some q → out_inv q ∧ c_offset q = off.
Proof.
  intros E. unfold map_conjunction in E. destruct (calculate_node_positions c []) as [m|]; [|done]. cbn [mbind option_bind] in E.
  destruct (add_node_specs_by_start (with_offset off) m) as [q1 ids] eqn:E1. apply nodes_out in E1 as [E1 E1'].
  2:{ intros v. cbn. split; [by intros ?%elem_of_empty|]. intros [sp H]. inversion H. }
  destruct (add_unary_literals q1 c) as [q2|] eqn:E2; [|done]. cbn in E. apply unary_literals_out in E2. apply binary_literals_out in E.
  destruct (same_out_trans _ _ _ E2 E) as (H1 & H2 & H3). split; [|rewrite H3, E1'; done]. intros v. rewrite H1, H2. apply E1.
Qed.
Lemma map_alternatives_offset (alts : list (list literal)) : ∀ off qs,
  map_alternatives off alts = Some qs → ∀ i q, qs !! i = Some q → c_offset q = off + sum_list (length <$> (c_nodes <$> take i qs)).
Proof.
  induction alts as [|c alts IH]; intros off qs H i q Hi; cbn [map_alternatives] in H; [injection H as <-; by rewrite lookup_nil in Hi|].
  destruct (map_conjunction off c) as [q0|] eqn:E; [|done]. cbn in H. destruct (map_alternatives (off + length (c_nodes q0)) alts) as [qs'|] eqn:E'; [|done].
  cbn in H. injection H as <-. destruct i as [|i]; cbn in Hi.
  - injection Hi as <-. cbn. rewrite Nat.add_0_r. exact (proj2 (map_conjunction_output _ _ _ E)).
  - specialize (IH _ _ E' i q Hi). rewrite IH. cbn. lia.
Qed.
End Proofs.
