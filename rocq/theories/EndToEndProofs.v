From Coq Require Import NArith String Lia.
From stdpp Require Import base list gmap sorting pretty.
From Verif Require Import KeySer CompPath Types SortMatches Joins JoinsSpec Conjunction ConjunctionSpec Plan PlanSpec PlanProofs PlanProps RelAnnisMaps RelAnnisDuplicates Query QuerySpec QueryProofs EndToEnd EndToEndSpec.

Section Proofs.
Context {Spec Bop Uop Op : Type}.
Notation literal := (literal Spec Bop Uop). Notation qconj := (qconj Spec Bop Uop).

(** ** Operands of operators are mandatory nodes *)
Definition mandatory (q : qconj) (i : nat) : Prop := ∃ v sp, c_nodes q !! i = Some (v, sp, false).
Definition operands_ok (q : qconj) : Prop :=
  (∀ u i, (u, i) ∈ c_unary q → mandatory q i) ∧
  (∀ o (n : bool) l r, (o, n, l, r) ∈ c_binary q → c_offset q <= l ∧ c_offset q <= r ∧ mandatory q (l - c_offset q) ∧ mandatory q (r - c_offset q)).
Definition keeps (q q' : qconj) : Prop := c_nodes q' = c_nodes q ∧ c_variables q' = c_variables q ∧ c_offset q' = c_offset q.
Lemma add_unary_operands (q q' : qconj) u v : (∀ i, c_variables q !! v = Some i → mandatory q i) → operands_ok q →
  add_unary_operator_from_query q u v = Some q' → keeps q q' ∧ operands_ok q'.
Proof.
  intros Hm [H1 H2] E. unfold add_unary_operator_from_query in E. destruct (c_variables q !! v) as [i|] eqn:Ei; [|done]. cbn in E. injection E as <-.
  split; [done|]. split; [|exact H2]. cbn. intros u' j [H|[= -> ->]%elem_of_list_singleton]%elem_of_app; [by eapply H1|]. by apply Hm.
Qed.
Lemma add_operator_operands (q q' : qconj) o n v w : (∀ i, c_variables q !! v = Some i → mandatory q i) → (∀ i, c_variables q !! w = Some i → mandatory q i) →
  operands_ok q → add_operator_from_query q o n v w = Some q' → keeps q q' ∧ operands_ok q'.
Proof.
  intros Hv Hw [H1 H2] E. unfold add_operator_from_query, resolve_variable_pos in E. destruct (c_variables q !! v) as [i|] eqn:Ei; [|done].
  destruct (c_variables q !! w) as [j|] eqn:Ej; [|done]. cbn in E. injection E as <-. split; [done|]. split; [exact H1|]. cbn.
  intros o' n' l r [H|[= -> -> -> ->]%elem_of_list_singleton]%elem_of_app; [by eapply H2|].
  rewrite !Nat.add_sub. split_and!; [lia|lia|by apply Hv|by apply Hw].
Qed.
Lemma keeps_refl (q : qconj) : keeps q q. Proof. done. Qed.
Lemma keeps_trans (q q' q'' : qconj) : keeps q q' → keeps q' q'' → keeps q q''.
Proof. intros (A & B & C) (A' & B' & C'). split_and!; congruence. Qed.
Lemma keeps_mandatory (q q' : qconj) i : keeps q q' → mandatory q' i ↔ mandatory q i.
Proof. intros (A & _). unfold mandatory. by rewrite A. Qed.
Lemma unary_literals_operands (c : list literal) : ∀ q q', (∀ v o i, LUn v o ∈ c → c_variables q !! v = Some i → mandatory q i) → operands_ok q →
  add_unary_literals q c = Some q' → keeps q q' ∧ operands_ok q'.
Proof.
  induction c as [|l c IH]; intros q q' Hm Ho E; cbn [add_unary_literals] in E; [injection E as <-; split; [apply keeps_refl|done]|].
  assert (∀ v o i, LUn v o ∈ c → c_variables q !! v = Some i → mandatory q i) as Hm' by (intros v o i H; eapply Hm; by right).
  destruct l as [sp st var opt|a o b n|v o|sp]; try by eapply IH.
  destruct (add_unary_operator_from_query q (UOp o) v) as [q1|] eqn:E1; [|done]. cbn in E.
  destruct (add_unary_operands q q1 (UOp o) v) as [K O1]; [intros i; eapply Hm; left|done|done|].
  destruct (IH q1 q') as [K' O']; [|done|done|split; [by eapply keeps_trans|done]].
  intros v' o' i Hl Hi. apply (keeps_mandatory q q1 i K). eapply Hm'; [done|]. destruct K as (_ & K & _). by rewrite <- K.
Qed.
Lemma resolved_row (q : qconj) v i nv sp o : vars_ok q → c_variables q !! v = Some i → resolve_variable q v = Some (nv, sp, o) → nv = v ∧ c_nodes q !! i = Some (v, sp, o).
Proof.
  intros Hv Hi E. unfold resolve_variable, resolve_variable_pos in E. rewrite Hi in E. cbn in E. rewrite Nat.add_sub in E.
  destruct (proj1 (Hv v i) Hi) as (sp' & o' & H). split; congruence.
Qed.
Lemma resolved_var (q : qconj) v r : resolve_variable q v = Some r → ∃ i, c_variables q !! v = Some i.
Proof. unfold resolve_variable, resolve_variable_pos. destruct (c_variables q !! v) as [i|]; [eauto|done]. Qed.
Lemma binary_literal_operands ids (q q' : qconj) a o b n : vars_ok q → operands_ok q → add_binary_literal ids q a o b n = Some q' → keeps q q' ∧ operands_ok q'.
Proof.
  intros Hv Ho E. unfold add_binary_literal in E. destruct (operand_var ids a) as [va|]; [|done]. destruct (operand_var ids b) as [vb|]; [|done]. cbn in E.
  destruct (resolve_variable q va) as [[[na sa] oa]|] eqn:Ea; [|done]. destruct (resolve_variable q vb) as [[[nb sb] ob]|] eqn:Eb; [|done]. cbn in E.
  destruct (resolved_var _ _ _ Ea) as [i Hi], (resolved_var _ _ _ Eb) as [j Hj].
  destruct (resolved_row _ _ _ _ _ _ Hv Hi Ea) as [-> Ri], (resolved_row _ _ _ _ _ _ Hv Hj Eb) as [-> Rj].
  assert (oa = false → ∀ k, c_variables q !! va = Some k → mandatory q k) as Ma by (intros -> k Hk; assert (k = i) as -> by congruence; by exists va, sa).
  assert (ob = false → ∀ k, c_variables q !! vb = Some k → mandatory q k) as Mb by (intros -> k Hk; assert (k = j) as -> by congruence; by exists vb, sb).
  destruct n.
  - destruct oa, ob; [done| | |].
    + eapply add_unary_operands; [by apply Mb|done|exact E].
    + eapply add_unary_operands; [by apply Ma|done|exact E].
    + eapply add_operator_operands; [by apply Ma|by apply Mb|done|exact E].
  - destruct oa; [done|]. destruct ob; [done|]. eapply add_operator_operands; [by apply Ma|by apply Mb|done|exact E].
Qed.
Lemma binary_literals_operands ids (c : list literal) : ∀ q q', vars_ok q → operands_ok q → add_binary_literals ids q c = Some q' → keeps q q' ∧ operands_ok q'.
Proof.
  induction c as [|l c IH]; intros q q' Hv Ho E; cbn [add_binary_literals] in E; [injection E as <-; split; [apply keeps_refl|done]|].
  destruct l as [sp st var opt|a o b n|v o|sp]; try by eapply IH.
  destruct (add_binary_literal ids q a o b n) as [q1|] eqn:E1; [|done]. cbn in E. destruct (binary_literal_operands _ _ _ _ _ _ _ Hv Ho E1) as [K O1].
  destruct (IH q1 q') as [K' O']; [|done|done|split; [by eapply keeps_trans|done]]. destruct K as (K1 & K2 & _). intros v j. rewrite K1, K2. apply Hv.
Qed.
Lemma map_conjunction_operands off (c : list literal) q : alternative_fine c → unary_mandatory off c → map_conjunction off c = Some q → vars_ok q ∧ operands_ok q.
Proof.
  intros [Hc Hd _] Hun E. unfold map_conjunction in E.
  destruct (node_positions_spec (X := unit) (λ _ _, True) (λ _ _ _, True) (λ _ _, True) c (node_at c) Hc [] ltac:(split; [constructor|intros ? ? H; inversion H]) ltac:(done)) as [[_ E']|[Hnm (m & E' & Hm & He)]]; rewrite E' in E; [done|].
  cbn [mbind option_bind] in E. clear E'.
  assert (Hall : ∀ s e, (s, e) ∈ m ↔ node_at c s e). { intros s e. rewrite He. split; [intros [H|H]; [done|inversion H]|auto]. }
  destruct (add_nodes_spec m (with_offset off : qconj)) as (q0 & ids & Eq0 & Hv & Hn & Hids & Hu & Hb & Ho).
  { intros v j. cbn. rewrite lookup_empty. split; [done|]. intros (? & ? & H). by rewrite lookup_nil in H. }
  { intros i j v sp o sp' o' Hi Hj. cbn in Hi, Hj. rewrite list_lookup_imap in Hi, Hj. destruct (m !! i) as [[s1 e1]|] eqn:E1; [|done]. destruct (m !! j) as [[s2 e2]|] eqn:E2; [|done].
    cbn in Hi, Hj. injection Hi as Hi _ _. injection Hj as Hj _ _. destruct (m_lookup c m Hall _ _ _ E1) as [S1 A1], (m_lookup c m Hall _ _ _ E2) as [S2 A2].
    rewrite <- Hj in Hi. destruct e1 as [[sp1 [n1|]] o1], e2 as [[sp2 [n2|]] o2]; unfold name_of in Hi; cbn in Hi; try done.
    - injection Hi as ->. rewrite (Hd _ _ _ _ _ _ _ A1 A2) in S1. by eapply (starts_inj c m Hm).
    - injection Hi as Hi. lia. }
  rewrite Eq0 in E. cbn [c_nodes with_offset length app c_offset c_unary c_binary] in Hn, Ho, Hu, Hb, E.
  destruct (add_unary_literals q0 c) as [q1|] eqn:E1; [|done]. cbn [mbind option_bind] in E.
  assert (operands_ok q0) as O0 by (split; [rewrite Hu|rewrite Hb]; intros * H; inversion H).
  destruct (unary_literals_operands c q0 q1) as [K1 O1]; [|done|done|].
  { intros v o i Hl Hi. pose proof Hi as Hi'. apply (var_row off c m Hall q0 Hv Hn) in Hi' as (s & e & _ & Hs & Ha & _).
    destruct (proj1 (Hv v i) Hi) as (sp & o' & Hrow). exists v, sp. pose proof Hrow as Hr. apply (node_row off c m Hall q0 Hn) in Hr as (s' & e' & _ & Hs' & Ha' & _ & _ & ->).
    assert (s' = s) as -> by congruence. rewrite (Hun v o s e' Hl) in Hrow; [done| |done]. apply (refers_idx off c m Hm Hall q0 Hv Hn). eauto. }
  assert (vars_ok q1) as V1. { destruct K1 as (A & B & _). intros v j. rewrite A, B. apply Hv. }
  destruct (binary_literals_operands _ _ _ _ V1 O1 E) as [K2 O2]. split; [|done]. destruct K2 as (A & B & _). intros v j. rewrite A, B. apply V1.
Qed.

(** ** Operators come from literals *)
Definition bins_from (c : list literal) (q : qconj) : Prop := ∀ o (n : bool) l r, (o, n, l, r) ∈ c_binary q → ∃ lhs rhs, LBin lhs o rhs n ∈ c.
Lemma add_unary_bins c (q q' : qconj) u v : bins_from c q → add_unary_operator_from_query q u v = Some q' → bins_from c q'.
Proof. intros H E. unfold add_unary_operator_from_query in E. destruct (c_variables q !! v); [|done]. cbn in E. injection E as <-. exact H. Qed.
Lemma add_operator_bins c (q q' : qconj) o n v w lhs rhs : LBin lhs o rhs n ∈ c → bins_from c q → add_operator_from_query q o n v w = Some q' → bins_from c q'.
Proof.
  intros Hl H E. unfold add_operator_from_query in E. destruct (resolve_variable_pos q v); [|done]. destruct (resolve_variable_pos q w); [|done]. cbn in E. injection E as <-.
  intros o' n' l r [H'|[= -> -> _ _]%elem_of_list_singleton]%elem_of_app; [by eapply H|eauto].
Qed.
Lemma binary_literals_bins ids c (c' : list literal) : ∀ q q', c' ⊆ c → bins_from c q → add_binary_literals ids q c' = Some q' → bins_from c q'.
Proof.
  induction c' as [|l c' IH]; intros q q' Hs H E; cbn [add_binary_literals] in E; [by injection E as <-|].
  assert (c' ⊆ c) as Hs' by (intros x Hx; apply Hs; by right). assert (l ∈ c) as Hl by (apply Hs; left).
  destruct l as [sp st var opt|a o b n|v o|sp]; try by eapply IH.
  destruct (add_binary_literal ids q a o b n) as [q1|] eqn:E1; [|done]. cbn in E. apply (IH q1 q' Hs'); [|done]. clear E.
  unfold add_binary_literal in E1. destruct (operand_var ids a) as [va|]; [|done]. destruct (operand_var ids b) as [vb|]; [|done]. cbn in E1.
  destruct (resolve_variable q va) as [[[na sa] oa]|]; [|done]. destruct (resolve_variable q vb) as [[[nb sb] ob]|]; [|done]. cbn in E1.
  destruct n.
  - destruct oa, ob; [done|by eapply add_unary_bins|by eapply add_unary_bins|eapply add_operator_bins; [exact Hl|exact H|exact E1]].
  - destruct oa; [done|]. destruct ob; [done|]. eapply add_operator_bins; [exact Hl|exact H|exact E1].
Qed.
Lemma nodes_bins m : ∀ (q q' : qconj) ids, add_node_specs_by_start q m = (q', ids) → c_binary q' = c_binary q.
Proof.
  induction m as [|[st [[sp var] o]] m IH]; intros q q' ids E; cbn [add_node_specs_by_start] in E; [by injection E as <- _|].
  destruct (add_node_from_query q sp var o) as [q1 v] eqn:E1. destruct (add_node_specs_by_start q1 m) as [q2 ids2] eqn:E2. injection E as <- _.
  rewrite (IH _ _ _ E2). unfold add_node_from_query in E1. by injection E1 as <- _.
Qed.
Lemma unary_literals_bins (c : list literal) : ∀ q q', add_unary_literals q c = Some q' → c_binary q' = c_binary q.
Proof.
  induction c as [|l c IH]; intros q q' E; cbn [add_unary_literals] in E; [by injection E as <-|].
  destruct l as [sp st var opt|a o b n|v o|sp]; try by apply IH.
  destruct (add_unary_operator_from_query q (UOp o) v) as [q1|] eqn:E1; [|done]. cbn in E. rewrite (IH _ _ E).
  unfold add_unary_operator_from_query in E1. destruct (c_variables q !! v); [|done]. cbn in E1. by injection E1 as <-.
Qed.
Lemma map_conjunction_bins off (c : list literal) q : map_conjunction off c = Some q → bins_from c q.
Proof.
  intros E. unfold map_conjunction in E. destruct (calculate_node_positions c []) as [m|]; [|done]. cbn [mbind option_bind] in E.
  destruct (add_node_specs_by_start (with_offset off) m) as [q0 ids] eqn:E0. destruct (add_unary_literals q0 c) as [q1|] eqn:E1; [|done]. cbn [mbind option_bind] in E.
  eapply binary_literals_bins; [reflexivity| |exact E]. intros o n l r. rewrite (unary_literals_bins _ _ _ E1), (nodes_bins _ _ _ _ E0). cbn. intros H. inversion H.
Qed.

(** ** The parts of a conjunction belong to the query *)
Record parts (lits : list (list literal)) (q : qconj) : Prop := Parts {
  parts_nodes : ∀ i v sp o, c_nodes q !! i = Some (v, sp, o) → search_in lits sp;
  parts_unary : ∀ u i, (u, i) ∈ c_unary q → unary_in lits u;
  parts_binary : ∀ o n l r, (o, n, l, r) ∈ c_binary q → operator_in lits o }.
Lemma add_unary_parts lits (q q' : qconj) u v : unary_in lits u → parts lits q → add_unary_operator_from_query q u v = Some q' → parts lits q'.
Proof.
  intros Hu [P1 P2 P3] H. unfold add_unary_operator_from_query in H. destruct (c_variables q !! v); [|done]. cbn in H. injection H as <-. constructor; [exact P1| |exact P3].
  intros u' j [H|[= -> ->]%elem_of_list_singleton]%elem_of_app; [by eapply P2|done].
Qed.
Lemma add_operator_parts lits (q q' : qconj) o n v w : operator_in lits o → parts lits q → add_operator_from_query q o n v w = Some q' → parts lits q'.
Proof.
  intros Ho [P1 P2 P3] H. unfold add_operator_from_query in H. destruct (resolve_variable_pos q v); [|done]. destruct (resolve_variable_pos q w); [|done]. cbn in H. injection H as <-.
  constructor; [exact P1|exact P2|]. intros o' n' l r [H|[= -> -> _ _]%elem_of_list_singleton]%elem_of_app; [by eapply P3|done].
Qed.
Lemma binary_literals_parts lits ids c (c' : list literal) : c ∈ lits → ∀ q q', c' ⊆ c → parts lits q → add_binary_literals ids q c' = Some q' → parts lits q'.
Proof.
  intros Hc. induction c' as [|l c' IH]; intros q q' Hs P H; cbn [add_binary_literals] in H; [by injection H as <-|].
  assert (c' ⊆ c) as Hs' by (intros x Hx; apply Hs; by right). assert (l ∈ c) as Hl by (apply Hs; left).
  destruct l as [sp st var opt|a o b n|v o|sp]; try by eapply IH.
  destruct (add_binary_literal ids q a o b n) as [q1|] eqn:E1; [|done]. cbn in H. apply (IH q1 q' Hs'); [|done]. clear H.
  assert (operator_in lits o) as Ho by (exists c, a, b, n; done).
  unfold add_binary_literal in E1. destruct (operand_var ids a) as [va|]; [|done]. destruct (operand_var ids b) as [vb|]; [|done]. cbn in E1.
  destruct (resolve_variable q va) as [[[na sa] oa]|] eqn:Ra; [|done]. destruct (resolve_variable q vb) as [[[nb sb] ob]|] eqn:Rb; [|done]. cbn in E1.
  assert (∀ x y sp o', resolve_variable q x = Some (y, sp, o') → search_in lits sp) as Hr.
  { intros x y sp o' Hx. unfold resolve_variable in Hx. destruct (resolve_variable_pos q x); [|done]. cbn in Hx. by eapply (parts_nodes _ _ P). }
  destruct n.
  - destruct oa, ob; [done|eapply add_unary_parts; [|exact P|exact E1]; split; [done|by eapply Hr]|eapply add_unary_parts; [|exact P|exact E1]; split; [done|by eapply Hr]|eapply add_operator_parts; [exact Ho|exact P|exact E1]].
  - destruct oa; [done|]. destruct ob; [done|]. eapply add_operator_parts; [exact Ho|exact P|exact E1].
Qed.
Lemma unary_literals_parts lits c (c' : list literal) : c ∈ lits → ∀ q q', c' ⊆ c → parts lits q → add_unary_literals q c' = Some q' → parts lits q'.
Proof.
  intros Hc. induction c' as [|l c' IH]; intros q q' Hs P H; cbn [add_unary_literals] in H; [by injection H as <-|].
  assert (c' ⊆ c) as Hs' by (intros x Hx; apply Hs; by right). assert (l ∈ c) as Hl by (apply Hs; left).
  destruct l as [sp st var opt|a o b n|v o|sp]; try by eapply IH.
  destruct (add_unary_operator_from_query q (UOp o) v) as [q1|] eqn:E1; [|done]. cbn in H. apply (IH q1 q' Hs'); [|done].
  eapply add_unary_parts; [|exact P|exact E1]. exists c, v. done.
Qed.
Lemma nodes_parts lits m : ∀ (q q' : qconj) ids, (∀ s sp var o, (s, (sp, var, o)) ∈ m → search_in lits sp) → parts lits q → add_node_specs_by_start q m = (q', ids) → parts lits q'.
Proof.
  induction m as [|[st [[sp var] o]] m IH]; intros q q' ids Hm P H; cbn [add_node_specs_by_start] in H; [by injection H as <- _|].
  destruct (add_node_from_query q sp var o) as [q1 v] eqn:E1. destruct (add_node_specs_by_start q1 m) as [q2 ids2] eqn:E2. injection H as <- _.
  eapply IH; [|  |exact E2]. { intros s sp' var' o' H. eapply Hm. right. exact H. }
  unfold add_node_from_query in E1. injection E1 as <- _. destruct P as [P1 P2 P3]. constructor; [|exact P2|exact P3]. cbn. intros i v' sp' o' H.
  apply elem_of_list_lookup_2, elem_of_app in H as [H|[= -> -> ->]%elem_of_list_singleton]; [apply elem_of_list_lookup in H as [k Hk]; by eapply P1|]. eapply Hm. left.
Qed.
Lemma map_conjunction_parts lits off (c : list literal) q : c ∈ lits → consistent c → map_conjunction off c = Some q → parts lits q.
Proof.
  intros Hc Hcons H. unfold map_conjunction in H. destruct (calculate_node_positions c []) as [m|] eqn:Em; [|done]. cbn [mbind option_bind] in H.
  destruct (add_node_specs_by_start (with_offset off) m) as [q0 ids] eqn:E0. destruct (add_unary_literals q0 c) as [q1|] eqn:E1; [|done]. cbn [mbind option_bind] in H.
  eapply (binary_literals_parts lits ids c c Hc q1 q); [done| |exact H]. eapply (unary_literals_parts lits c c Hc q0 q1); [done| |exact E1].
  eapply (nodes_parts lits m); [| |exact E0].
  - intros s sp var o Hs. exists c, s, var, o. split; [done|].
    destruct (node_positions_spec (X := unit) (λ _ _, True) (λ _ _ _, True) (λ _ _, True) c (node_at c) Hcons []) as [[_ ?]|(_ & m' & Em' & _ & Hm)];
      [split; [constructor|intros s' e' Hin; inversion Hin]|done|congruence|]. assert (m' = m) as -> by congruence. apply Hm in Hs as [Hs|Hs]; [done|inversion Hs].
  - constructor; cbn; [intros i v sp o Hi; by rewrite lookup_nil in Hi|intros u i Hi; inversion Hi|intros o n l r Hi; inversion Hi].
Qed.

(** ** Solutions of the plan and of the query *)
Context (sat : Spec → match_ → Prop) (bop : Bop → match_ → match_ → Prop) (uop : Uop → match_ → Prop).
Context (E : engine Spec Bop Uop Op) (lits : list (list literal)) (HE : engine_ok sat bop uop E lits).
Lemma compile_node (q : qconj) i : q_nodes (compile E q) !! i = (λ n, QNode n.2 (e_search E n.1.2)) <$> c_nodes q !! i.
Proof. unfold compile. cbn. apply list_lookup_fmap. Qed.
Lemma compile_variable (q : qconj) i : variable (compile E q) i ↔ mandatory q i.
Proof.
  unfold variable, mandatory. setoid_rewrite compile_node. split.
  - intros (n & H & Ho). destruct (c_nodes q !! i) as [[[v sp] o]|]; [|done]. cbn in H. injection H as <-. cbn in Ho. subst. eauto.
  - intros (v & sp & ->). eexists. split; [reflexivity|done].
Qed.
Lemma compile_uses (q : qconj) o : parts lits q → uses (e_inverse E) (compile E q) o → created E lits o.
Proof.
  intros P. induction 1 as [b Hb|o o' _ IH Ho]; [|by eapply created_inverse]. unfold compile in Hb. cbn in Hb. apply elem_of_list_fmap in Hb as ([[[o n] l] r] & -> & Hb). cbn.
  constructor. by eapply (parts_binary _ _ P).
Qed.
Lemma compile_valid (q : qconj) : operands_ok q ∧ parts lits q → (∃ i, mandatory q i) → valid (e_filter E) (e_reflexive E) (e_retrieve E) (e_inverse E) (compile E q).
Proof.
  intros [[Hu Hb] HP] [i0 Hi0]. destruct HE as [H1 H2 H3 H4 H5]. constructor; [done|done| | | |].
  - intros i n Hi _. rewrite compile_node in Hi. destruct (c_nodes q !! i) as [[[v sp] o]|] eqn:Ei; [|done]. injection Hi as <-. destruct (H4 sp) as (s & Es & (rs & R1 & R2 & R3 & R4) & _); [by eapply (parts_nodes _ _ HP)|].
    exists s. split; [done|]. exists rs. split_and!; [done|done|done|]. intros o' f Ho. apply R4. by eapply compile_uses.
  - intros i u Hi. unfold compile in Hi. cbn in Hi. apply elem_of_list_fmap in Hi as ([u' j] & [= -> ->] & Hi). split; [apply compile_variable; by eapply Hu|]. intros m. apply H5. by eapply (parts_unary _ _ HP).
  - intros b Hin. unfold compile in Hin. cbn in Hin. apply elem_of_list_fmap in Hin as ([[[o n] l] r] & -> & Hin). cbn. destruct (Hb o n l r Hin) as (A & B & C & D).
    split; [exists (l - c_offset q)|exists (r - c_offset q)]; (split; [cbn; lia|by apply compile_variable]).
  - exists i0. by apply compile_variable.
Qed.
Definition total_of (a : gmap nat match_) (i : nat) : match_ := default default_match (a !! i).
Lemma compile_solution (q : qconj) a : operands_ok q ∧ parts lits q →
  solution (e_filter E) (compile E q) a ↔ (∀ i, is_Some (a !! i) ↔ mandatory q i) ∧ conj_holds sat bop uop q (total_of a).
Proof.
  intros [[Hu Hb] HP]. destruct HE as [H1 H2 H3 H4 H5]. unfold solution. setoid_rewrite compile_variable. split.
  - intros (D & F & B). split; [done|]. constructor.
    + intros i v sp Hi. destruct (proj2 (D i)) as [m Hm]; [by exists v, sp|]. unfold total_of. rewrite Hm. cbn. destruct (F i m Hm) as [(n & s & Hn & _ & Es & Hin) _].
      rewrite compile_node, Hi in Hn. cbn in Hn. injection Hn as <-. cbn in Es. destruct (H4 sp) as (s' & Es' & _ & Hs); [by eapply (parts_nodes _ _ HP)|]. assert (s' = s) as -> by congruence. by apply Hs.
    + intros u i Hin. destruct (proj2 (D i)) as [m Hm]; [by eapply Hu|]. unfold total_of. rewrite Hm. cbn. destruct (F i m Hm) as [_ F']. apply H5; [by eapply (parts_unary _ _ HP)|]. apply F'.
      unfold compile. cbn. apply elem_of_list_fmap. by exists (u, i).
    + intros o n l r Hin. destruct (B (Bin (e_create E (o, n)) l r true (e_binding E (o, n)))) as (ml & mr & Hl & Hr & Hf).
      { unfold compile. cbn. apply elem_of_list_fmap. by exists (o, n, l, r). }
      cbn in Hl, Hr, Hf. unfold total_of. rewrite Hl, Hr. cbn. apply H2; [by eapply (parts_binary _ _ HP)|done].
  - intros (D & [N U B]). split_and!.
    + done.
    + intros i m Hm. destruct (proj1 (D i)) as (v & sp & Hi); [by eexists|]. pose proof (N i v sp Hi) as Hs. unfold total_of in Hs. rewrite Hm in Hs. cbn in Hs. split.
      * destruct (H4 sp) as (s & Es & _ & Hs'); [by eapply (parts_nodes _ _ HP)|]. exists (QNode false (e_search E sp)), s. rewrite compile_node, Hi. split_and!; [done|done|done|by apply Hs'].
      * intros u Hu'. unfold compile in Hu'. cbn in Hu'. apply elem_of_list_fmap in Hu' as ([u' j] & [= -> ->] & Hin). cbn. apply H5; [by eapply (parts_unary _ _ HP)|]. pose proof (U _ _ Hin) as Hx. unfold total_of in Hx. by rewrite Hm in Hx.
    + intros b Hin. unfold compile in Hin. cbn in Hin. apply elem_of_list_fmap in Hin as ([[[o n] l] r] & -> & Hin). cbn.
      destruct (Hb o n l r Hin) as (_ & _ & Ml & Mr). destruct (proj2 (D (l - c_offset q)) Ml) as [ml El], (proj2 (D (r - c_offset q)) Mr) as [mr Er].
      exists ml, mr. split_and!; [done|done|]. apply H2; [by eapply (parts_binary _ _ HP)|]. pose proof (B o n l r Hin) as Hx. unfold total_of in Hx. by rewrite El, Er in Hx.
Qed.
Lemma compile_unrestricted off c (q : qconj) : map_conjunction off c = Some q → all_reflexive E c → unrestricted (e_filter E) (e_reflexive E) (compile E q).
Proof.
  intros Hq Hr b Hin. left. unfold compile in Hin. cbn in Hin. apply elem_of_list_fmap in Hin as ([[[o n] l] r] & -> & Hin). cbn.
  destruct (map_conjunction_bins _ _ _ Hq o n l r Hin) as (lhs & rhs & Hl). by eapply Hr.
Qed.
End Proofs.
