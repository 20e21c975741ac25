(** Proofs about the quirks mode. *)
From Coq Require Import NArith String Lia.
From stdpp Require Import base list gmap sorting.
From Verif Require Import RelAnnisMaps KeySer CompPath NodeSearch TokenOps EdgeOps Query QuerySpec QueryProofs AqlGrammar AqlParser AqlSpec AqlPositions Quirks QuirksSpec.

(** ** Without metadata, literals are mapped as those with limited distances *)
Lemma limit_op_spec op : limit_op op = at_most_50 op.
Proof. by destruct op as [| |? []|? []| | | | | | | | ]. Qed.
Lemma quirks_positions c : ∀ m, calculate_node_positions (without_metadata c) m = Some (quirks_node_positions c m).
Proof. induction c as [|l c IH]; intros m; [done|]. destruct l as [| | |]; cbn; apply IH. Qed.
Lemma quirks_unary c : ∀ q : conjunction, add_unary_literals q (without_metadata c) = add_unary_literals q c.
Proof. induction c as [|l c IH]; intros q; [done|]. destruct l as [| |v op|]; cbn; try apply IH. destruct (add_unary_operator_from_query q (UOp op) v); [apply IH|done]. Qed.
Lemma quirks_binary_one ids q n lhs op rhs negated :
  add_binary_literal ids q lhs (at_most_50 op) rhs negated = fst <$> quirks_binary_literal ids q n lhs op rhs negated.
Proof.
  unfold add_binary_literal, quirks_binary_literal. destruct (operand_var ids lhs) as [vl|]; [|done]. destruct (operand_var ids rhs) as [vr|]; [|done]. cbn [mbind option_bind].
  destruct (resolve_variable q vl) as [[[nvl sl] ol]|]; [|done]. destruct (resolve_variable q vr) as [[[nvr sr] o_r]|]; [|done]. cbn [mbind option_bind]. rewrite limit_op_spec.
  cbv zeta. cbn [fst snd]. destruct negated, ol, o_r; cbn [orb]; try done; by match goal with |- ?x = _ => destruct x end.
Qed.
Lemma quirks_binary ids c : ∀ q n, add_binary_literals ids q (without_metadata c) = fst <$> quirks_binary_literals ids q n c.
Proof.
  induction c as [|l c IH]; intros q n; [done|]. destruct l as [|lhs op rhs negated| |]; cbn [quirks_binary_literals]; try apply IH.
  change (without_metadata (LBin lhs op rhs negated :: c)) with (LBin lhs (at_most_50 op) rhs negated :: without_metadata c). cbn [add_binary_literals]. rewrite (quirks_binary_one _ _ n).
  destruct (quirks_binary_literal ids q n lhs op rhs negated) as [[q' n']|]; [|done]. cbn. apply IH.
Qed.
(** A conjunction in quirks mode: that of the literals without metadata, with copies of nodes *)
Lemma quirks_base off c q0 : map_conjunction off (without_metadata c) = Some q0 → ∃ q1 q2 m ids n,
  calculate_node_positions (without_metadata c) [] = Some m ∧ add_node_specs_by_start (with_offset off) m = (q1, ids) ∧ add_unary_literals q1 c = Some q2 ∧
  quirks_binary_literals ids q2 ∅ c = Some (q0, n) ∧ quirks_conjunction off c = add_all_copies ids n q0.
Proof.
  unfold quirks_conjunction, map_conjunction. rewrite quirks_positions. cbn [mbind option_bind]. destruct (add_node_specs_by_start _ _) as [q1 ids] eqn:E1. rewrite quirks_unary.
  destruct (add_unary_literals q1 c) as [q2|] eqn:E2; [|done]. cbn [mbind option_bind]. rewrite (quirks_binary ids c q2 ∅). destruct (quirks_binary_literals ids q2 ∅ c) as [[q0' n]|] eqn:E3; [|done]. cbn. intros [= ->].
  exists q1, q2, (quirks_node_positions c []), ids, n. done.
Qed.
Lemma quirks_base_none off c : map_conjunction off (without_metadata c) = None → quirks_conjunction off c = None.
Proof.
  unfold quirks_conjunction, map_conjunction. rewrite quirks_positions. cbn [mbind option_bind]. destruct (add_node_specs_by_start _ _) as [q1 ids] eqn:E1. rewrite quirks_unary.
  destruct (add_unary_literals q1 c) as [q2|] eqn:E2; [|done]. cbn [mbind option_bind]. rewrite (quirks_binary ids c q2 ∅). by destruct (quirks_binary_literals ids q2 ∅ c) as [[q0' n]|] eqn:E3.
Qed.
Lemma node_at_without c s e : node_at (without_metadata c) s e ↔ node_at c s e.
Proof.
  split.
  - intros (l & Hl & Hn). apply elem_of_list_omap in Hl as (l' & Hl' & E). exists l'. split; [done|]. destruct l' as [|lhs op rhs ng| |]; try (by injection E as <-); try done; by injection E as <-.
  - intros (l & Hl & Hn). destruct l as [sp st v o|lhs op rhs ng|v op|sp].
    + exists (LNode sp st v o). split; [apply elem_of_list_omap; eexists; by split|done].
    + exists (LBin lhs (at_most_50 op) rhs ng). split; [apply elem_of_list_omap; eexists; by split|done].
    + done.
    + done.
Qed.

(** ** Additional nodes *)
Section Proofs.
Context {X : Type} (sat : spec → X → Prop) (bop : aql_bop → X → X → Prop) (uop : aql_uop → X → Prop) (node : X → N) (above : N → N → Prop).
Context (Hident : same_node_operator bop node) (Hpart : part_of_operator bop node above).
Notation conj_holds := (conj_holds sat bop uop).
Record inv (q : conjunction) : Prop := Inv {
  i_row : ∀ v i, c_variables q !! v = Some i → ∃ sp o, c_nodes q !! i = Some (v, sp, o);
  i_num : ∀ k i, c_variables q !! Num k = Some i → k ≤ c_offset q + length (c_nodes q);
  i_unary : ∀ u i, (u, i) ∈ c_unary q → i < length (c_nodes q);
  i_binary : ∀ (op : aql_bop) (b : bool) (l r : nat), (op, b, l, r) ∈ c_binary q → l - c_offset q < length (c_nodes q) ∧ r - c_offset q < length (c_nodes q) }.
Lemma inv_local q a a' : inv q → (∀ i, i < length (c_nodes q) → a i = a' i) → conj_holds q a → conj_holds q a'.
Proof.
  intros Hq Ha [H1 H2 H3]. constructor.
  - intros i v sp Hi. rewrite <- Ha by (by eapply lookup_lt_Some). by eapply H1.
  - intros u i Hu. rewrite <- Ha by (by eapply i_unary). by apply H2.
  - intros op b l r Hb. destruct (i_binary q Hq op b l r Hb) as [Hl Hr]. rewrite <- !Ha by done. by apply (H3 op b l r).
Qed.
(** The conjunction with a node more, and an operator between a node and it *)
Record linked (q : conjunction) (i : nat) (sp : spec) (op : aql_bop) (q' : conjunction) : Prop := Linked {
  l_inv : inv q';
  l_nodes : c_nodes q' = c_nodes q ++ [(Num (c_offset q + length (c_nodes q) + 1), sp, false)];
  l_offset : c_offset q' = c_offset q;
  l_vars : c_variables q ⊆ c_variables q';
  l_new : c_variables q' !! Num (c_offset q + length (c_nodes q) + 1) = Some (length (c_nodes q));
  l_holds : ∀ a, conj_holds q' a ↔ conj_holds q a ∧ sat sp (a (length (c_nodes q))) ∧ bop op (a i) (a (length (c_nodes q))) }.
Lemma linked_step q v i sp op out : inv q → c_variables q !! v = Some i →
  let w := Num (c_offset q + length (c_nodes q) + 1) in
  ∃ q', add_operator_from_query (QConj (c_nodes q ++ [(w, sp, false)]) (<[w := length (c_nodes q)]> (c_variables q)) (c_unary q) (c_binary q) out (c_offset q)) op false v w = Some q' ∧
    linked q i sp op q' ∧ c_output q' = out.
Proof.
  intros Hq Hv w. assert (c_variables q !! w = None) as Hw.
  { destruct (c_variables q !! w) as [j|] eqn:E; [|done]. apply (i_num q Hq) in E. lia. }
  unfold add_operator_from_query, resolve_variable_pos. cbn [c_variables c_offset]. rewrite lookup_insert. rewrite lookup_insert_ne by congruence. rewrite Hv. cbn. eexists. split; [reflexivity|]. split; [|done]. 
  destruct (i_row q Hq v i Hv) as (spv & ov & Hi). pose proof (lookup_lt_Some _ _ _ Hi) as Hlt. constructor; cbn [c_nodes c_offset c_variables].
  - constructor; cbn [c_nodes c_offset c_variables c_unary c_binary].
    + intros v' j Hj. apply lookup_insert_Some in Hj as [[<- <-]|[_ Hj]]; [exists sp, false; by apply list_lookup_middle|]. destruct (i_row q Hq v' j Hj) as (sp' & o' & H). exists sp', o'. by apply lookup_app_l_Some.
    + intros k j Hj. rewrite app_length. cbn. apply lookup_insert_Some in Hj as [[[= <-] _]|[_ Hj]]; [lia|]. apply (i_num q Hq) in Hj. lia.
    + intros u j Hj. rewrite app_length. cbn. apply (i_unary q Hq) in Hj. lia.
    + intros op' b l r Hb. rewrite app_length. cbn. apply elem_of_app in Hb as [Hb|Hb]; [apply (i_binary q Hq) in Hb; lia|]. apply elem_of_list_singleton in Hb. injection Hb as -> -> -> ->. lia.
  - done.
  - done.
  - by apply insert_subseteq.
  - apply lookup_insert.
  - intros a. split.
    + intros [H1 H2 H3]. cbn [c_nodes c_unary c_binary c_offset] in *. split_and!.
      * constructor; [|done|].
        -- intros j v' sp' Hj. eapply H1. by apply lookup_app_l_Some.
        -- intros op' b l r Hb. apply (H3 op' b l r). apply elem_of_app. by left.
      * eapply H1. by apply list_lookup_middle.
      * specialize (H3 op false (i + c_offset q) (length (c_nodes q) + c_offset q) ltac:(apply elem_of_app; right; by left)). cbn in H3. by replace (i + c_offset q - c_offset q) with i in H3 by lia; replace (length (c_nodes q) + c_offset q - c_offset q) with (length (c_nodes q)) in H3 by lia.
    + intros ([H1 H2 H3] & Hsp & Hop). constructor; cbn [c_nodes c_unary c_binary c_offset].
      * intros j v' sp' Hj. apply lookup_app_Some in Hj as [Hj|[Hj Hj']]; [by eapply H1|]. apply list_lookup_singleton_Some in Hj' as [Hj' E]. injection E as _ ->. by replace j with (length (c_nodes q)) by lia.
      * done.
      * intros op' b l r Hb. apply elem_of_app in Hb as [Hb|Hb]; [by apply (H3 op' b l r)|]. apply elem_of_list_singleton in Hb. injection Hb as -> -> -> ->. by replace (i + c_offset q - c_offset q) with i by lia; replace (length (c_nodes q) + c_offset q - c_offset q) with (length (c_nodes q)) by lia.
Qed.
(** An assignment for the additional node *)
Lemma linked_extend q i sp op q' a x : inv q → i < length (c_nodes q) → linked q i sp op q' → conj_holds q a → sat sp x → bop op (a i) x →
  ∃ a', (∀ j, j < length (c_nodes q) → a' j = a j) ∧ a' (length (c_nodes q)) = x ∧ conj_holds q' a'.
Proof.
  intros Hq Hi Hl Ha Hx Hop. exists (λ j, if decide (j = length (c_nodes q)) then x else a j). split_and!.
  - intros j Hj. by rewrite decide_False by lia.
  - by rewrite decide_True.
  - apply (l_holds _ _ _ _ _ Hl). rewrite (decide_True (P := length (c_nodes q) = length (c_nodes q))) by done. rewrite decide_False by lia. split_and!; [|done|done].
    apply (inv_local q a); [done| |done]. intros j Hj. by rewrite decide_False by lia.
Qed.
(** Nodes were added; [P] is needed of the assignments of the conjunction so that the additional nodes have matches *)
Record grown (q : conjunction) (P : (nat → X) → Prop) (new : list (vname * spec * bool)) (q' : conjunction) : Prop := Grown {
  g_inv : inv q';
  g_nodes : c_nodes q' = c_nodes q ++ new;
  g_new : Forall (λ n, n.2 = false) new;
  g_names : ∀ k n, new !! k = Some n → n.1.1 = Num (c_offset q + length (c_nodes q) + k + 1);
  g_offset : c_offset q' = c_offset q;
  g_vars : c_variables q ⊆ c_variables q';
  g_less : ∀ a, conj_holds q' a → conj_holds q a ∧ P a;
  g_more : ∀ a, conj_holds q a → P a → ∃ a', (∀ j, j < length (c_nodes q) → a' j = a j) ∧ conj_holds q' a' }.
Lemma grown_refl q : inv q → grown q (λ _, True) [] q.
Proof. intros H. constructor; [done|by rewrite app_nil_r|constructor|done|done|done|done|]. intros a Ha _. by exists a. Qed.
Lemma grown_trans q P new q' P' new' q'' (R : (nat → X) → Prop) : grown q P new q' → grown q' P' new' q'' →
  (∀ a, conj_holds q' a → P a → P' a → R a) →
  (∀ a, conj_holds q a → R a → P a ∧ ∀ a', (∀ j, j < length (c_nodes q) → a' j = a j) → conj_holds q' a' → P' a') →
  grown q R (new ++ new') q''.
Proof.
  intros [A1 A2 A3 An A4 A5 A6 A7] [B1 B2 B3 Bn B4 B5 B6 B7] H1 H2. constructor.
  - done.
  - by rewrite B2, A2, <- (assoc_L (++)).
  - by apply Forall_app.
  - intros k n Hk. apply lookup_app_Some in Hk as [Hk|[Hk Hk']]; [by apply An|]. rewrite (Bn _ _ Hk'), A2, A4, app_length. f_equal. lia.
  - congruence.
  - by transitivity (c_variables q').
  - intros a Ha. destruct (B6 a Ha) as [Ha' HP']. destruct (A6 a Ha') as [Ha'' HP]. split; [done|]. by apply H1.
  - intros a Ha HR. destruct (H2 a Ha HR) as [HP HP']. destruct (A7 a Ha HP) as (a' & E & Ha'). destruct (B7 a' Ha' (HP' a' E Ha')) as (a'' & E' & Ha''). exists a''. split; [|done].
    intros j Hj. rewrite E', E; [done|done|]. rewrite A2, app_length. lia.
Qed.
Lemma linked_grown q i sp op q' (P : (nat → X) → Prop) : inv q → i < length (c_nodes q) → linked q i sp op q' →
  (∀ a, P a ↔ ∃ y, sat sp y ∧ bop op (a i) y) → grown q P [(Num (c_offset q + length (c_nodes q) + 1), sp, false)] q'.
Proof.
  intros Hq Hi Hl HP. constructor.
  - apply Hl.
  - apply Hl.
  - by repeat constructor.
  - intros k n Hk. apply list_lookup_singleton_Some in Hk as [-> <-]. cbn. f_equal. lia.
  - apply Hl.
  - apply Hl.
  - intros a Ha. apply (l_holds _ _ _ _ _ Hl) in Ha as (H1 & H2 & H3). split; [done|]. apply HP. eauto.
  - intros a Ha HPa. apply HP in HPa as (y & H1 & H2). destruct (linked_extend q i sp op q' a y Hq Hi Hl Ha H1 H2) as (a' & E & _ & Ha'). eauto.
Qed.
Lemma copies_grown k v sp i : ∀ q, inv q → c_variables q !! v = Some i → c_nodes q !! i = Some (v, sp, false) →
  ∃ q' new, add_copies k v q = Some q' ∧ grown q (λ _, True) new q' ∧ snd ∘ fst <$> new = replicate k sp ∧ c_output q' = c_output q ∪ list_to_set (fst ∘ fst <$> new).
Proof.
  induction k as [|k IH]; intros q Hq Hv Hi; cbn [add_copies].
  - exists q, []. split_and!; [done|by apply grown_refl|done|set_solver].
  - unfold resolve_variable at 1, resolve_variable_pos at 1. rewrite Hv. cbn [fmap option_fmap option_map mbind option_bind]. replace (i + c_offset q - c_offset q) with i by lia. rewrite Hi. unfold add_node_from_query.
    destruct (linked_step q v i sp BIdentNode ({[Num (c_offset q + length (c_nodes q) + 1)]} ∪ c_output q) Hq Hv) as (q1 & -> & Hl & Ho). cbn [mbind option_bind].
    pose proof (lookup_lt_Some _ _ _ Hi) as Hlt. pose proof Hl as [L1 L2 L3 L4 L5 L6].
    destruct (IH q1 L1) as (q' & new & E & Hg & Hs & Hout); [by eapply lookup_weaken|rewrite L2; by apply lookup_app_l_Some|]. exists q', ((Num (c_offset q + length (c_nodes q) + 1), sp, false) :: new).
    split_and!; [done| |cbn; by rewrite <- Hs|rewrite Hout, Ho; cbn; set_solver].
    eapply (grown_trans q _ [_] q1 _ new q'); [eapply (linked_grown q i sp BIdentNode q1 (λ a, ∃ y, sat sp y ∧ bop BIdentNode (a i) y)); [done|done|exact Hl|done]|exact Hg|done|].
    intros a Ha _. split; [|done]. exists (a i). split; [by eapply (ch_nodes _ _ _ _ _ Ha)|by apply Hident].
Qed.
Lemma all_copies_grown n ids : ∀ q sps, inv q → Forall2 (λ (id : nat * vname) sp, ∃ i, c_variables q !! id.2 = Some i ∧ c_nodes q !! i = Some (id.2, sp, false)) ids sps →
  ∃ q' new, add_all_copies ids n q = Some q' ∧ grown q (λ _, True) new q' ∧ snd ∘ fst <$> new = concat (zip_with (λ (id : nat * vname) sp, replicate (default 0 (n !! id.2) - 1) sp) ids sps) ∧
    c_output q' = c_output q ∪ list_to_set (fst ∘ fst <$> new).
Proof.
  induction ids as [|[s v] ids IH]; intros q sps Hq H; cbn [add_all_copies].
  - exists q, []. split_and!; [done|by apply grown_refl|done|set_solver].
  - apply Forall2_cons_inv_l in H as (sp & sps' & (i & Hv & Hi) & H & ->). cbn [snd] in *. destruct (copies_grown (default 0 (n !! v) - 1) v sp i q Hq Hv Hi) as (q1 & new1 & -> & G1 & S1 & O1). cbn [mbind option_bind].
    destruct (IH q1 sps' (g_inv _ _ _ _ G1)) as (q2 & new2 & E & G2 & S2 & O2).
    { eapply Forall2_impl; [exact H|]. intros [s' v'] sp' (i' & Hv' & Hi'). exists i'. split; [eapply lookup_weaken; [exact Hv'|apply G1]|]. rewrite (g_nodes _ _ _ _ G1). by apply lookup_app_l_Some. }
    exists q2, (new1 ++ new2). split_and!; [done|by eapply grown_trans|cbn; by rewrite fmap_app, S1, S2|]. rewrite O2, O1, fmap_app, list_to_set_app_L. by rewrite (assoc_L (∪)).
Qed.
(** ** Metadata *)
Lemma hidden_linked q v i sp op : inv q → c_variables q !! v = Some i → ∃ q1 q', add_hidden_node q sp = (q1, Num (c_offset q + length (c_nodes q) + 1)) ∧
  add_operator_from_query q1 op false v (Num (c_offset q + length (c_nodes q) + 1)) = Some q' ∧ linked q i sp op q' ∧ c_output q' = c_output q.
Proof. intros Hq Hv. destruct (linked_step q v i sp op (c_output q) Hq Hv) as (q' & E & Hl & Ho). by eexists _, q'. Qed.
Lemma more_metadata_grown metas fm fn j : ∀ q, inv q → c_variables q !! fm = Some j →
  ∃ q' new, add_metadata metas (Some fm) fn q = Some q' ∧ grown q (λ a, ∀ sp, sp ∈ metas → ∃ y, node y = node (a j) ∧ sat sp y) new q' ∧ snd ∘ fst <$> new = metas ∧ c_output q' = c_output q.
Proof.
  induction metas as [|sp metas IH]; intros q Hq Hv; cbn [add_metadata].
  - exists q, []. split_and!; try done. pose proof (grown_refl q Hq) as [G1 G2 G3 Gn G4 G5 G6 G7]. constructor; try done.
    + intros a Ha. split; [done|]. intros sp H. inversion H.
    + intros a Ha _. by apply G7.
  - destruct (hidden_linked q fm j sp BIdentNode Hq Hv) as (q1 & q2 & -> & -> & Hl & Ho). cbn [mbind option_bind]. destruct (i_row q Hq _ _ Hv) as (spj & oj & Hj). pose proof (lookup_lt_Some _ _ _ Hj) as Hlt. pose proof Hl as [L1 L2 L3 L4 L5 L6].
    destruct (IH q2 L1) as (q' & new & E & Hg & Hs & Hout); [by eapply lookup_weaken|]. exists q', ((Num (c_offset q + length (c_nodes q) + 1), sp, false) :: new). split_and!; [done| |cbn; by rewrite <- Hs|congruence].
    eapply (grown_trans q _ [_] q2 _ new q'); [eapply (linked_grown q j sp BIdentNode q2 (λ a, ∃ y, node y = node (a j) ∧ sat sp y)); [done|done|exact Hl|]|exact Hg| |].
    + intros a. split; intros (y & H1 & H2); exists y; [split; [done|by apply Hident]|apply Hident in H2; done].
    + intros a Ha H1 H2 sp' [-> |Hin]%elem_of_cons; [done|by apply H2].
    + intros a Ha HR. split; [apply HR; left|]. intros a' Ea _ sp' Hin. rewrite Ea by done. apply HR. by right.
Qed.
Lemma metadata_grown sp metas fn i q : inv q → c_variables q !! fn = Some i →
  ∃ q' new, add_metadata (sp :: metas) None (Some fn) q = Some q' ∧ grown q (λ a, metadata_holds sat node above (sp :: metas) (a i)) new q' ∧ snd ∘ fst <$> new = sp :: doc_spec :: metas ∧ c_output q' = c_output q.
Proof.
  intros Hq Hv. cbn [add_metadata]. destruct (hidden_linked q fn i sp (BPartOf RUnbound) Hq Hv) as (q1 & q2 & -> & -> & Hl & Ho). cbn [mbind option_bind]. destruct (i_row q Hq _ _ Hv) as (spi & oi & Hi). pose proof (lookup_lt_Some _ _ _ Hi) as Hlt. pose proof Hl as [L1 L2 L3 L4 L5 L6].
  set (v := Num (c_offset q + length (c_nodes q) + 1)) in *. set (j := length (c_nodes q)) in *.
  destruct (hidden_linked q2 v j doc_spec BIdentNode L1 L5) as (q3 & q4 & -> & -> & Hl' & Ho'). cbn [mbind option_bind]. pose proof Hl' as [M1 M2 M3 M4 M5 M6]. assert (j < length (c_nodes q2)) as Hj by (rewrite L2, app_length; cbn; lia).
  destruct (more_metadata_grown metas v (Some fn) j q4 M1) as (q' & new & -> & Hg & Hs & Hout); [by eapply lookup_weaken|].
  pose proof (linked_grown q2 j doc_spec BIdentNode q4 (λ a, ∃ y, node y = node (a j) ∧ sat doc_spec y) L1 Hj Hl') as G4. assert (∀ a : nat → X, (∃ y, node y = node (a j) ∧ sat doc_spec y) ↔ ∃ y, sat doc_spec y ∧ bop BIdentNode (a j) y) as HP4.
  { intros a. split; intros (y & H1 & H2); exists y; [split; [done|by apply Hident]|apply Hident in H2; done]. }
  specialize (G4 HP4). clear HP4. pose proof (grown_trans q2 _ _ q4 _ new q' (λ a, (∃ y, node y = node (a j) ∧ sat doc_spec y) ∧ ∀ sp, sp ∈ metas → ∃ y, node y = node (a j) ∧ sat sp y) G4 Hg) as G5.
  specialize (G5 ltac:(done)). assert (∀ a, conj_holds q2 a → (∃ y, node y = node (a j) ∧ sat doc_spec y) ∧ (∀ sp, sp ∈ metas → ∃ y, node y = node (a j) ∧ sat sp y) →
    (∃ y, node y = node (a j) ∧ sat doc_spec y) ∧ ∀ a', (∀ k, k < length (c_nodes q2) → a' k = a k) → conj_holds q4 a' → ∀ sp, sp ∈ metas → ∃ y, node y = node (a' j) ∧ sat sp y) as HG5.
  { intros a _ [H1 H2]. split; [done|]. intros a' Ea _ sp' Hin. rewrite Ea by done. by apply H2. }
  specialize (G5 HG5). clear HG5 G4 Hg.
  exists q', ((v, sp, false) :: (Num (c_offset q2 + length (c_nodes q2) + 1), doc_spec, false) :: new). split_and!; [done| |cbn; do 2 f_equal; exact Hs|congruence]. destruct G5 as [A1 A2 A3 An A4 A5 A6 A7]. constructor.
  - done.
  - rewrite A2, L2, <- (assoc_L (++)). done.
  - by constructor.
  - intros [|k] n Hk; [injection Hk as <-; cbn; unfold v, j; f_equal; lia|]. rewrite (An k n Hk), L3, L2, app_length. cbn. f_equal. lia.
  - congruence.
  - by transitivity (c_variables q2).
  - intros a Ha. destruct (A6 a Ha) as [H1 [H2 H3]]. apply L6 in H1 as (H4 & H5 & H6). split; [done|]. right. exists (node (a j)). apply Hpart in H6. split_and!; [done|done|]. intros sp' [-> |Hin]%elem_of_cons; [by exists (a j)|by apply H3].
  - intros a Ha [?|(d & H1 & H2 & H3)]; [done|]. destruct (H3 sp ltac:(left)) as (y & <- & Hy). destruct (linked_extend q i sp (BPartOf RUnbound) q2 a y Hq Hlt Hl Ha Hy ltac:(by apply Hpart)) as (a1 & E1 & Ej & Ha1).
    destruct (A7 a1 Ha1) as (a2 & E2 & Ha2); [fold j in Ej; rewrite Ej; split; [done|]; intros sp' Hin; apply H3; by right|]. exists a2. split; [|done]. intros k Hk. rewrite E2, E1; [done|done|]. rewrite L2, app_length. lia.
Qed.

(** ** The conjunction before nodes are added *)
Lemma inv_empty off : inv (with_offset off).
Proof. constructor; cbn; try (intros *; intros H; inversion H); intros *; rewrite lookup_empty; done. Qed.
Lemma inv_add_nodes m : ∀ q q' ids, inv q → add_node_specs_by_start q m = (q', ids) → inv q'.
Proof.
  induction m as [|[start [[sp var] o]] m IH]; intros q q' ids Hq H; cbn [add_node_specs_by_start] in H; [by injection H as <- _|].
  unfold add_node_from_query in H. destruct (add_node_specs_by_start _ m) as [q1 ids1] eqn:E. injection H as <- _. apply IH in E; [done|]. destruct Hq as [H1 H2 H3 H4]. constructor; cbn [c_nodes c_offset c_variables c_unary c_binary].
  - intros v i Hi. apply lookup_insert_Some in Hi as [[<- <-]|[_ Hi]]; [eexists _, _; by apply list_lookup_middle|]. destruct (H1 v i Hi) as (sp' & o' & H). exists sp', o'. by apply lookup_app_l_Some.
  - intros k i Hi. rewrite app_length. cbn. apply lookup_insert_Some in Hi as [[Ev _]|[_ Hi]]; [destruct var; [done|injection Ev as <-; lia]|apply H2 in Hi; lia].
  - intros u i Hu. rewrite app_length. cbn. apply H3 in Hu. lia.
  - intros op b l r Hb. rewrite app_length. cbn. apply H4 in Hb. lia.
Qed.
Lemma inv_unary q u v q' : inv q → add_unary_operator_from_query q u v = Some q' → inv q'.
Proof.
  intros [H1 H2 H3 H4] H. unfold add_unary_operator_from_query in H. destruct (c_variables q !! v) as [i|] eqn:E; [|done]. cbn in H. injection H as <-. constructor; try done. cbn. intros u' j Hj.
  apply elem_of_app in Hj as [Hj|Hj]; [by eapply H3|]. apply elem_of_list_singleton in Hj. injection Hj as -> ->. destruct (H1 v i E) as (sp & o & Hi). by eapply lookup_lt_Some.
Qed.
Lemma inv_operator q op b v w q' : inv q → add_operator_from_query q op b v w = Some q' → inv q'.
Proof.
  intros [H1 H2 H3 H4] H. unfold add_operator_from_query, resolve_variable_pos in H. destruct (c_variables q !! v) as [i|] eqn:E; [|done]. destruct (c_variables q !! w) as [j|] eqn:E'; [|done]. cbn in H. injection H as <-. constructor; try done. cbn. intros op' b' l r Hb.
  apply elem_of_app in Hb as [Hb|Hb]; [by eapply H4|]. apply elem_of_list_singleton in Hb. injection Hb as -> -> -> ->. destruct (H1 v i E) as (sp & o & Hi). destruct (H1 w j E') as (sp' & o' & Hj). apply lookup_lt_Some in Hi, Hj. lia.
Qed.
Lemma inv_unary_literals c : ∀ q q', inv q → add_unary_literals q c = Some q' → inv q'.
Proof.
  induction c as [|l c IH]; intros q q' Hq H; cbn [add_unary_literals] in H; [by injection H as <-|]. destruct l; try (by eapply IH). destruct (add_unary_operator_from_query q (UOp op) v) as [q1|] eqn:E; [|done]. cbn in H. eapply IH; [|exact H]. by eapply inv_unary.
Qed.
(** The joins are counted for the operands of dominance and pointing relations *)
Lemma binary_literals_count ids c : ∀ q n q' n', inv q → quirks_binary_literals ids q n c = Some (q', n') →
  inv q' ∧ c_variables q' = c_variables q ∧ ∃ vs, Forall2 (λ o v, operand_var ids o = Some v ∧ is_Some (c_variables q !! v)) (joined_operands c) vs ∧ ∀ v, default 0 (n' !! v) = default 0 (n !! v) + count v vs.
Proof.
  induction c as [|l c IH]; intros q n q' n' Hq H; cbn [quirks_binary_literals] in H.
  { injection H as <- <-. split_and!; [done|done|]. exists []. split; [constructor|]. intros v. cbn. lia. }
  destruct l as [|lhs op rhs negated| |]; try (by eapply IH). unfold quirks_binary_literal in H.
  destruct (operand_var ids lhs) as [vl|] eqn:El; [|done]. destruct (operand_var ids rhs) as [vr|] eqn:Er; [|done]. cbn [mbind option_bind] in H.
  destruct (resolve_variable q vl) as [[[nvl sl] ol]|] eqn:Rl; [|done]. destruct (resolve_variable q vr) as [[[nvr sr] o_r]|] eqn:Rr; [|done]. cbn [mbind option_bind fst snd] in H.
  assert (is_Some (c_variables q !! vl)) as Sl by (unfold resolve_variable, resolve_variable_pos in Rl; destruct (c_variables q !! vl); [eauto|done]).
  assert (is_Some (c_variables q !! vr)) as Sr by (unfold resolve_variable, resolve_variable_pos in Rr; destruct (c_variables q !! vr); [eauto|done]).
  match type of H with context [mbind _ (if negated then ?x else ?y)] => destruct (if negated then x else y) as [q1|] eqn:E1; [|done] end. cbn [mbind option_bind] in H.
  assert (inv q1 ∧ c_variables q1 = c_variables q) as [Hq1 Ev1].
  { destruct negated, ol, o_r; cbn in E1; try done.
    - split; [by eapply inv_unary|]. unfold add_unary_operator_from_query in E1. destruct (c_variables q !! nvr); [|done]. cbn in E1. by injection E1 as <-.
    - split; [by eapply inv_unary|]. unfold add_unary_operator_from_query in E1. destruct (c_variables q !! nvl); [|done]. cbn in E1. by injection E1 as <-.
    - split; [by eapply inv_operator|]. unfold add_operator_from_query in E1. destruct (resolve_variable_pos q vl); [|done]. destruct (resolve_variable_pos q vr); [|done]. cbn in E1. by injection E1 as <-.
    - split; [by eapply inv_operator|]. unfold add_operator_from_query in E1. destruct (resolve_variable_pos q vl); [|done]. destruct (resolve_variable_pos q vr); [|done]. cbn in E1. by injection E1 as <-. }
  destruct (IH _ _ _ _ Hq1 H) as (Hq' & Ev & vs & Hvs & Hn). rewrite Ev1 in *. split_and!; [done|done|].
  assert (∀ v n, default 0 (count_join v n !! v) = default 0 (n !! v) + 1) as C1 by (intros v n0; unfold count_join; by rewrite lookup_insert).
  assert (∀ v w n, v ≠ w → default 0 (count_join v n !! w) = default 0 (n !! w)) as C2 by (intros v w n0 Hne; unfold count_join; by rewrite lookup_insert_ne).
  assert (is_join op = true → joined_operands (LBin lhs op rhs negated :: c) = lhs :: rhs :: joined_operands c) as J1 by (by destruct op).
  assert (is_join op = false → joined_operands (LBin lhs op rhs negated :: c) = joined_operands c) as J2 by (by destruct op).
  destruct (is_join op).
  - exists (vl :: vr :: vs). rewrite J1 by done. split; [by repeat constructor|]. intros v. rewrite Hn. unfold count. rewrite !filter_cons.
    assert (∀ w n, default 0 (count_join w n !! v) = default 0 (n !! v) + if decide (v = w) then 1 else 0) as C.
    { intros w n0. destruct (decide (v = w)) as [<-|D]; [apply C1|]. rewrite C2 by done. lia. }
    rewrite !C. repeat case_decide; cbn [length]; lia.
  - exists vs. rewrite J2 by done. split; [done|]. intros v. by rewrite Hn.
Qed.
Lemma count_rel {A B} `{EqDecision A, EqDecision B} (R : A → B → Prop) x y l k : (∀ a b b', R a b → R a b' → b = b') → (∀ a a' b, R a b → R a' b → a = a') →
  R x y → Forall2 R l k → count x l = count y k.
Proof.
  intros F1 F2 Hxy H. induction H as [|a b l k Hab H IH]; [done|]. unfold count in *. rewrite !filter_cons. destruct (decide (x = a)) as [-> |D].
  - rewrite decide_True by (by eapply F1). cbn. by rewrite IH.
  - rewrite decide_False; [done|]. intros ->. apply D. by eapply F2.
Qed.
Lemma unary_literals_vars c : ∀ q q' : conjunction, add_unary_literals q c = Some q' → c_variables q' = c_variables q.
Proof.
  induction c as [|l c IH]; intros q q' H; cbn [add_unary_literals] in H; [by injection H as <-|]. destruct l; try (by eapply IH).
  destruct (add_unary_operator_from_query q (UOp op) v) as [q1|] eqn:E; [|done]. cbn in H. apply IH in H. rewrite H. unfold add_unary_operator_from_query in E. destruct (c_variables q !! v); [|done]. cbn in E. by injection E as <-.
Qed.
Lemma base_tables off c q0 : consistent (without_metadata c) → distinct_names (without_metadata c) → map_conjunction off (without_metadata c) = Some q0 →
  ∃ m n ids, agree m (node_at (without_metadata c)) ∧ (∀ s e, (s, e) ∈ m ↔ node_at (without_metadata c) s e) ∧
    vars_ok q0 ∧ c_nodes q0 = imap (row off 0) m ∧ ids = imap (λ i p, (p.1, name_of off (0 + i) p.2)) m ∧ inv q0 ∧
    (∃ vs, Forall2 (λ o v, operand_var ids o = Some v ∧ is_Some (c_variables q0 !! v)) (joined_operands c) vs ∧ ∀ v, default 0 (n !! v) = count v vs) ∧
    quirks_conjunction off c = add_all_copies ids n q0.
Proof.
  intros Hc Hd H. destruct (quirks_base off c q0 H) as (q1 & q2 & m & ids & n & Em & E1 & E2 & E3 & E4). set (c' := without_metadata c) in *.
  destruct (node_positions_spec (X := unit) (λ _ _, True) (λ _ _ _, True) (λ _ _, True) c' (node_at c') Hc [] ltac:(split; [constructor|intros ? ? Hx; inversion Hx]) ltac:(done)) as [[_ E']|[Hnm (m' & E' & Hm & He)]]; [congruence|].
  assert (m' = m) as -> by congruence. clear E'.
  assert (Hall : ∀ s e, (s, e) ∈ m ↔ node_at c' s e). { intros s e. rewrite He. split; [intros [Hx|Hx]; [done|inversion Hx]|auto]. }
  assert (Hdist : ∀ i j v sp o sp' o', (imap (row off 0) m) !! i = Some (v, sp, o) → (imap (row off 0) m) !! j = Some (v, sp', o') → i = j).
  { intros i j v sp o sp' o' Hi Hj. rewrite list_lookup_imap in Hi, Hj. destruct (m !! i) as [[s1 e1]|] eqn:L1; [|done]. destruct (m !! j) as [[s2 e2]|] eqn:L2; [|done].
    cbn in Hi, Hj. injection Hi as Hi _ _. injection Hj as Hj _ _. destruct (m_lookup c' m Hall _ _ _ L1) as [S1 A1], (m_lookup c' m Hall _ _ _ L2) as [S2 A2].
    rewrite <- Hj in Hi. destruct e1 as [[sp1 [n1|]] o1], e2 as [[sp2 [n2|]] o2]; unfold name_of in Hi; cbn in Hi; try done.
    - injection Hi as ->. rewrite (Hd _ _ _ _ _ _ _ A1 A2) in S1. by eapply (starts_inj c' m Hm).
    - injection Hi as Hi. lia. }
  destruct (add_nodes_spec m (with_offset off : conjunction)) as (q1' & ids' & E1' & Hv & Hn & Hids & Hu & Hb & Ho).
  { intros v j. cbn. rewrite lookup_empty. split; [done|]. intros (? & ? & Hx). by rewrite lookup_nil in Hx. }
  { exact Hdist. }
  rewrite E1 in E1'. injection E1' as <- <-. cbn [c_nodes with_offset length app c_offset c_unary c_binary] in Hn, Ho, Hids.
  pose proof (inv_add_nodes _ _ _ _ (inv_empty off) E1) as I1. pose proof (inv_unary_literals _ _ _ I1 E2) as I2.
  destruct (binary_literals_count ids c q2 ∅ q0 n I2 E3) as (I3 & V3 & vs & Hvs & Hcount).
  pose proof (unary_literals_out _ _ _ E2) as (_ & N2 & O2). pose proof (unary_literals_vars _ _ _ E2) as V2.
  assert (add_binary_literals ids q2 c' = Some q0) as E3' by (unfold c'; by rewrite (quirks_binary _ _ _ ∅), E3).
  pose proof (binary_literals_out _ _ _ _ E3') as (_ & N3 & O3).
  exists m, n, ids. split_and!; try done.
  - intros v j. rewrite V3, V2, N3, N2. apply Hv.
  - by rewrite N3, N2.
  - exists vs. split; [by rewrite V3|]. intros v. rewrite Hcount. by rewrite lookup_empty.
Qed.
Lemma joined_nodes c o s e : o ∈ joined_operands c → operand_node o s e → node_at (without_metadata c) s e.
Proof.
  intros Ho Hs. apply node_at_without. unfold joined_operands in Ho. apply elem_of_list_In, in_concat in Ho as (os & Hos%elem_of_list_In & Ho%elem_of_list_In). apply elem_of_list_fmap in Hos as (l & -> & Hl).
  exists l. split; [done|]. destruct l as [|lhs op rhs ng| |]; try (by inversion Ho). destruct op; try (by inversion Ho);
    (apply elem_of_cons in Ho as [-> |Ho]; [by left|]; apply elem_of_list_singleton in Ho as ->; by right).
Qed.
Lemma quirks_copies off c q0 : consistent (without_metadata c) → distinct_names (without_metadata c) → no_optional c → map_conjunction off (without_metadata c) = Some q0 →
  ∃ q m (n : joins) ids new, quirks_conjunction off c = Some q ∧ agree m (node_at (without_metadata c)) ∧ (∀ s e, (s, e) ∈ m ↔ node_at (without_metadata c) s e) ∧
    vars_ok q0 ∧ c_nodes q0 = imap (row off 0) m ∧ ids = imap (λ i p, (p.1, name_of off (0 + i) p.2)) m ∧ inv q0 ∧ (∀ i s e, m !! i = Some (s, e) → e.2 = false) ∧
    (∃ vs, Forall2 (λ o v, operand_var ids o = Some v ∧ is_Some (c_variables q0 !! v)) (joined_operands c) vs ∧ ∀ v, default 0 (n !! v) = count v vs) ∧
    grown q0 (λ _, True) new q ∧ c_output q = c_output q0 ∪ list_to_set (fst ∘ fst <$> new) ∧
    snd ∘ fst <$> new = concat (zip_with (λ (id : nat * vname) sp, replicate (default 0 (n !! id.2) - 1) sp) ids ((λ p : nat * node_entry (Spec := spec), p.2.1.1) <$> m)).
Proof.
  intros Hc Hd Hopt E0. destruct (base_tables off c q0 Hc Hd E0) as (m & n & ids & Hm & Hall & Hv & Hn & Hids & I0 & Hcount & Ec).
  assert (Hmo : ∀ i s e, m !! i = Some (s, e) → e.2 = false).
  { intros i s [[sp var] [|]] Hi; [|done]. exfalso. eapply (Hopt s sp var). apply node_at_without, Hall. by eapply elem_of_list_lookup_2. }
  destruct (all_copies_grown n ids q0 ((λ p : nat * node_entry (Spec := spec), p.2.1.1) <$> m) I0) as (qc & newc & Ec' & Gc & Sc & Oc).
  { apply Forall2_same_length_lookup. subst ids. rewrite imap_length, fmap_length. split; [done|]. intros i [s v] sp Hi Hsp. rewrite list_lookup_imap in Hi. rewrite list_lookup_fmap in Hsp.
    destruct (m !! i) as [[s' e]|] eqn:Em; [|done]. cbn in Hi, Hsp. injection Hi as <- <-. injection Hsp as <-. exists i. cbn [snd].
    assert (c_nodes q0 !! i = Some (name_of off i e, e.1.1, false)) as Hrow by (rewrite Hn, list_lookup_imap, Em; cbn; unfold row; cbn; by rewrite (Hmo _ _ _ Em)).
    split; [|done]. apply Hv. eauto. }
  exists qc, m, n, ids, newc. split_and!; try done. by rewrite Ec.
Qed.
Lemma metadata_accepted metas : ∀ q : conjunction, is_Some (add_metadata metas None None q).
Proof. induction metas as [|sp metas IH]; intros q; cbn; [eauto|]. apply IH. Qed.
Lemma quirks_accepted off c metas : consistent (without_metadata c) → distinct_names (without_metadata c) → no_optional c →
  is_Some (q ← quirks_conjunction off c; add_metadata metas None (variable_by_node_nr q off) q) ↔ ∀ l, l ∈ without_metadata c → literal_ok off (without_metadata c) l.
Proof.
  intros Hc Hd Hopt. destruct (map_conjunction_spec sat bop uop off _ Hc Hd) as [[E0 (l & Hl & Hno)]|(q0 & starts & E0 & Hok & _ & _ & Hoff & _)].
  - rewrite (quirks_base_none _ _ E0). split; [by intros [? ?]|]. intros H. by destruct (Hno (H l Hl)).
  - split; [done|]. intros _. destruct (quirks_copies off c q0 Hc Hd Hopt E0) as (q & m & n & ids & new & -> & Hm & Hall & Hv & Hn & Hids & I0 & Hmo & _ & Gc & _ & Sc). cbn [mbind option_bind].
    unfold variable_by_node_nr. rewrite (g_offset _ _ _ _ Gc), Hoff, decide_True, Nat.sub_diag by lia. destruct (c_nodes q !! 0) as [[[v sp] o]|] eqn:E; cbn [fmap option_fmap option_map fst].
    + destruct metas as [|spm metas]; [by eexists|]. assert (∃ i, c_variables q !! v = Some i) as [i Hi].
      { rewrite (g_nodes _ _ _ _ Gc) in E. destruct m as [|x m'].
        - exfalso. cbn in Hn. rewrite Hn in E. apply (f_equal length) in Sc. subst ids. cbn in Sc. rewrite fmap_length in Sc. by destruct new.
        - exists 0. eapply lookup_weaken; [|apply (g_vars _ _ _ _ Gc)]. apply Hv. exists sp, o. rewrite lookup_app_l in E; [done|]. rewrite Hn, imap_length. cbn. lia. }
      destruct (metadata_grown spm metas v i q (g_inv _ _ _ _ Gc) Hi) as (q' & new' & E' & _). rewrite E'. by eexists.
    + apply (metadata_accepted metas q).
Qed.
Lemma quirks_one off c metas q q1 : consistent (without_metadata c) → distinct_names (without_metadata c) → no_optional c → (∃ s e, node_at c s e) →
  quirks_conjunction off c = Some q → add_metadata metas None (variable_by_node_nr q off) q = Some q1 →
  ∃ nodes uses s0, StronglySorted lt (nodes.*1) ∧ (∀ s sp, (s, sp) ∈ nodes ↔ ∃ var, node_at c s (sp, var, false)) ∧ nodes.*1 !! 0 = Some s0 ∧
    Forall2 (operand_at off (without_metadata c)) (joined_operands c) uses ∧ c_offset q1 = off ∧
    (let copies := concat ((λ p : nat * spec, replicate (count p.1 uses - 1) p.2) <$> nodes) in
     snd ∘ fst <$> c_nodes q1 = nodes.*2 ++ copies ++ hidden_nodes metas ∧
     ∀ k v sp o, c_nodes q1 !! k = Some (v, sp, o) → v ∈ c_output q1 ↔ k < length nodes + length copies) ∧
    ∀ env, (∃ a, (∀ k s, nodes.*1 !! k = Some s → a k = env s) ∧ conj_holds q1 a) ↔
      (∀ l, l ∈ without_metadata c → literal_holds sat bop uop off (without_metadata c) env l) ∧ metadata_holds sat node above metas (env s0).
Proof.
  intros Hc Hd Hopt (s1 & e1 & Hne) E E'. set (c' := without_metadata c) in *.
  destruct (map_conjunction_spec sat bop uop off c' Hc Hd) as [[E0 _]|(q0 & starts & E0 & Hok & Hpos & Hlen & Hoff & _ & Hsem)]; [rewrite (quirks_base_none _ _ E0) in E; done|].
  destruct (quirks_copies off c q0 Hc Hd Hopt E0) as (qc & m & n & ids & newc & Ec' & Hm & Hall & Hv & Hn & Hids & I0 & Hmo & (vs & Hvs & Hcount) & Gc & Oc & Sc).
  assert (qc = q) as -> by congruence. clear Ec'. fold c' in Hm, Hall.
  assert (starts = m.*1) as ->.
  { destruct Hpos as [P1 P2], Hm as [M1 _]. apply (strict_sorted_ext lt); [intros x; lia|intros x y z; lia|done|done|]. intros s. rewrite P2. split.
    - intros [e He]. apply Hall in He. apply elem_of_list_fmap. by exists (s, e).
    - intros Hs. apply elem_of_list_fmap in Hs as ([s' e] & -> & Hs). exists e. by apply Hall. }
  set (nodes := (λ p : nat * node_entry (Spec := spec), (p.1, p.2.1.1)) <$> m).
  assert (Hn1 : nodes.*1 = m.*1) by (unfold nodes; rewrite <- list_fmap_compose; done).
  assert (Hn2 : nodes.*2 = (λ p : nat * node_entry (Spec := spec), p.2.1.1) <$> m) by (unfold nodes; rewrite <- list_fmap_compose; done).
  rewrite <- Hn2 in Sc.
  assert (Hspecs : snd ∘ fst <$> c_nodes q0 = nodes.*2).
  { rewrite Hn2, Hn. apply list_eq. intros i. rewrite !list_lookup_fmap, list_lookup_imap. by destruct (m !! i). }
  (* first node *)
  assert (∃ s0 e0 m', m = (s0, e0) :: m') as (s0 & e0 & m' & Em0).
  { apply node_at_without in Hne. apply Hall in Hne. destruct m as [|[s0 e0] m']; [inversion Hne|eauto]. }
  assert (Hrow0 : c_nodes q0 !! 0 = Some (name_of off 0 e0, e0.1.1, false)).
  { rewrite Hn, list_lookup_imap, Em0. cbn. unfold row. cbn. rewrite (Hmo 0 s0 e0); [done|]. by rewrite Em0. }
  assert (variable_by_node_nr q off = Some (name_of off 0 e0)) as Ev.
  { unfold variable_by_node_nr. rewrite (g_offset _ _ _ _ Gc), Hoff, decide_True by lia. rewrite Nat.sub_diag, (g_nodes _ _ _ _ Gc), lookup_app_l by (by eapply lookup_lt_Some). by rewrite Hrow0. }
  assert (Hvar0 : c_variables q !! name_of off 0 e0 = Some 0).
  { eapply lookup_weaken; [|apply (g_vars _ _ _ _ Gc)]. apply Hv. eauto. }
  assert (∃ newm, grown q (λ a, metadata_holds sat node above metas (a 0)) newm q1 ∧ snd ∘ fst <$> newm = hidden_nodes metas ∧ c_output q1 = c_output q) as (newm & Gm & Sm & Om).
  { rewrite Ev in E'. destruct metas as [|sp metas].
    - cbn in E'. injection E' as <-. exists []. split_and!; [|done|done]. pose proof (grown_refl q (g_inv _ _ _ _ Gc)) as [A1 A2 A3 An A4 A5 A6 A7]. constructor; try done.
      + intros a Ha. split; [done|by left].
      + intros a Ha _. by exists a.
    - destruct (metadata_grown sp metas _ 0 q (g_inv _ _ _ _ Gc) Hvar0) as (q' & new & E1 & G & S & O). assert (q' = q1) as -> by congruence. by exists new. }
  (* the operands *)
  assert (∃ uses, Forall2 (λ v s, ∃ i, c_variables q0 !! v = Some i ∧ m.*1 !! i = Some s) vs uses ∧ Forall2 (operand_at off c') (joined_operands c) uses) as (uses & Hrel & Huses).
  { assert (∀ o, o ∈ joined_operands c → ∀ s e, operand_node o s e → node_at c' s e) as Hj by (intros o Ho s e; by apply joined_nodes).
    revert Hvs Hj. clear Hcount. generalize (joined_operands c) as os. intros os Hvs. induction Hvs as [|o v os vs [Hov [i Hi]] Hvs IH]; intros Hj; [by exists []|].
    destruct IH as (uses & U1 & U2); [intros o' Ho'; apply Hj; by right|].
    assert (operand_idx q0 ids o i) as Hidx by (by exists v). rewrite Hids in Hidx. apply (operand_idx_spec off c' m Hm Hall q0 Hv Hn) in Hidx as (s & Hs & Hs'); [|apply Hj; left].
    exists (s :: uses). split; constructor; try done. by exists i. }
  assert (Hcopies : concat (zip_with (λ (id : nat * vname) sp, replicate (default 0 (n !! id.2) - 1) sp) ids (nodes.*2)) = concat ((λ p : nat * spec, replicate (count p.1 uses - 1) p.2) <$> nodes)).
  { f_equal. unfold nodes. rewrite Hids. apply list_eq. intros i. rewrite lookup_zip_with, !list_lookup_fmap, list_lookup_imap. destruct (m !! i) as [[s e]|] eqn:Em; [|done]. cbn. f_equal. rewrite Hcount.
    f_equal. f_equal. eapply (count_rel (λ v s, ∃ i, c_variables q0 !! v = Some i ∧ m.*1 !! i = Some s)); [..|exact Hrel].
    - intros v b b' (i1 & H1 & H2) (i2 & H3 & H4). congruence.
    - intros v v' b (i1 & H1 & H2) (i2 & H3 & H4). rewrite (starts_inj c' m Hm _ _ _ H2 H4) in H1. destruct (i_row _ I0 _ _ H1) as (? & ? & R1), (i_row _ I0 _ _ H3) as (? & ? & R2). congruence.
    - exists i. split; [|by rewrite list_lookup_fmap, Em]. apply Hv. exists e.1.1, e.2. rewrite Hn, list_lookup_imap, Em. done. }
  exists nodes, uses, s0. split_and!.
  - rewrite Hn1. by destruct Hm.
  - intros s sp. unfold nodes. rewrite elem_of_list_fmap. split.
    + intros ([s' [[sp' var] o]] & [= -> ->] & Hin). exists var. apply node_at_without. pose proof Hin as Hin'. apply elem_of_list_lookup in Hin' as [i Hi]. pose proof (Hmo _ _ _ Hi) as Ho. cbn in Ho. subst o. by apply Hall.
    + intros [var Hin]. exists (s, (sp, var, false)). split; [done|]. by apply Hall, node_at_without.
  - rewrite Hn1, Em0. done.
  - done.
  - by rewrite (g_offset _ _ _ _ Gm), (g_offset _ _ _ _ Gc).
  - rewrite <- Hcopies, <- Sc. split.
    + rewrite (g_nodes _ _ _ _ Gm), (g_nodes _ _ _ _ Gc), !fmap_app, Hspecs, Sm. by rewrite (assoc_L (++)).
    + intros k v sp o Hk. rewrite Om, Oc, elem_of_union, elem_of_list_to_set. pose proof (proj1 (map_conjunction_output _ _ _ E0)) as Hout. rewrite (Hout v). rewrite fmap_length.
      assert (length nodes = length (c_nodes q0)) as -> by (rewrite <- (fmap_length snd), <- Hspecs, fmap_length; done).
      assert (Hnames : ∀ k v sp o, c_nodes q0 !! k = Some (v, sp, o) → v = Num (off + k + 1) ∨ ∃ nm, v = Name nm).
      { intros k' v' sp' o' Hk'. rewrite Hn, list_lookup_imap in Hk'. destruct (m !! k') as [[s' [[? [nm|]] ?]]|]; [..|done]; cbn in Hk'; injection Hk' as <- _ _; [right; by eexists|left; unfold name_of; cbn; f_equal; lia]. }
      rewrite (g_nodes _ _ _ _ Gm), (g_nodes _ _ _ _ Gc) in Hk.
      apply lookup_app_Some in Hk as [Hk|[Hk Hk']].
      * pose proof (lookup_lt_Some _ _ _ Hk) as Hlt. rewrite app_length in Hlt. split; [done|]. intros _. apply lookup_app_Some in Hk as [Hk|[_ Hk]].
        -- left. exists sp. assert (o = false) as ->. { rewrite Hn, list_lookup_imap in Hk. destruct (m !! k) as [[s' e']|] eqn:Em'; [|done]. cbn in Hk. injection Hk as _ _ <-. by eapply Hmo. } by eapply elem_of_list_lookup_2.
        -- right. apply elem_of_list_fmap. exists (v, sp, o). split; [done|]. by eapply elem_of_list_lookup_2.
      * rewrite app_length in Hk. split; [|lia]. pose proof (g_names _ _ _ _ Gm _ _ Hk') as Hvn. cbn in Hvn. rewrite (g_offset _ _ _ _ Gc), Hoff, (g_nodes _ _ _ _ Gc), app_length in Hvn. intros [[sp' Hin]|Hin]; exfalso.
        -- apply elem_of_list_lookup in Hin as [k' Hin]. pose proof (lookup_lt_Some _ _ _ Hin) as Hlt. destruct (Hnames _ _ _ _ Hin) as [-> |[nm ->]]; [injection Hvn as Hvn; lia|done].
        -- apply elem_of_list_fmap in Hin as (x & Ex & Hin). apply elem_of_list_lookup in Hin as [k' Hin]. pose proof (lookup_lt_Some _ _ _ Hin) as Hlt. pose proof (g_names _ _ _ _ Gc _ _ Hin) as Hx. cbn in Ex. rewrite <- Ex, Hvn, Hoff in Hx. injection Hx as Hx. lia.
  - intros env. rewrite Hn1. split.
    + intros (a & Ha & H). apply (g_less _ _ _ _ Gm) in H as [H Hmeta]. apply (g_less _ _ _ _ Gc) in H as [H _]. split.
      * by apply (Hsem env a Ha).
      * assert (a 0 = env s0) as <-; [|done]. apply Ha. by rewrite Em0.
    + intros [Hl Hmeta]. set (a0 := λ k, match m.*1 !! k with Some s => env s | None => env s0 end).
      assert (conj_holds q0 a0) as H0. { apply (Hsem env a0); [|done]. intros i s Hi. unfold a0. by rewrite Hi. }
      destruct (g_more _ _ _ _ Gc a0 H0 I) as (a1 & Ha1 & H1). destruct (g_more _ _ _ _ Gm a1 H1) as (a2 & Ha2 & H2).
      { rewrite Ha1 by (by eapply lookup_lt_Some). unfold a0. by rewrite Em0. }
      exists a2. split; [|done]. intros k s Hk. pose proof (lookup_lt_Some _ _ _ Hk) as Hlt. rewrite <- Hlen in Hlt. rewrite Ha2 by (rewrite (g_nodes _ _ _ _ Gc), app_length; lia). rewrite Ha1 by done. unfold a0. by rewrite Hk.
Qed.
Lemma without_sub c c' : c ⊆ c' → ∀ s e, node_at (without_metadata c) s e → node_at c' s e.
Proof. intros H s e Hn. apply (proj1 (node_at_without _ _ _)) in Hn. destruct Hn as (l & Hl & Hn). exists l. split; [by apply H|done]. Qed.
Theorem quirks_query_spec simplify s e qs : simplifies simplify → parse_aql s = Parsed e → distinct_names (QuerySpec.terminals e) → no_optional (QuerySpec.terminals e) →
  quirks_query simplify e = Some qs → let alts := get_alternatives_from_dnf (simplify e) in length qs = length alts ∧
  ∀ i c q, alts !! i = Some c → qs !! i = Some q → (∃ s e, node_at c s e) → let off := sum_list (length <$> (c_nodes <$> take i qs)) in
  ∃ nodes uses s0, StronglySorted lt (nodes.*1) ∧ (∀ s sp, (s, sp) ∈ nodes ↔ ∃ var, node_at c s (sp, var, false)) ∧ nodes.*1 !! 0 = Some s0 ∧
    Forall2 (operand_at off (without_metadata c)) (joined_operands c) uses ∧ c_offset q = off ∧
    (let copies := concat ((λ p : nat * spec, replicate (count p.1 uses - 1) p.2) <$> nodes) in
     snd ∘ fst <$> c_nodes q = nodes.*2 ++ copies ++ hidden_nodes (metadata alts) ∧
     ∀ k v sp o, c_nodes q !! k = Some (v, sp, o) → v ∈ c_output q ↔ k < length nodes + length copies) ∧
    ∀ env, (∃ a, (∀ k s, nodes.*1 !! k = Some s → a k = env s) ∧ conj_holds q a) ↔
      (∀ l, l ∈ without_metadata c → literal_holds sat bop uop off (without_metadata c) env l) ∧ metadata_holds sat node above (metadata alts) (env s0).
Proof.
  intros Hs Hp Hd Hopt H. cbv zeta. unfold quirks_query in H. destruct (parsed_well_formed s e Hp) as [Hpos Hc]. destruct (Hs e Hpos) as (_ & _ & Hsub).
  assert (∀ alt, alt ∈ get_alternatives_from_dnf (simplify e) → alt ⊆ QuerySpec.terminals e) as Hsub' by (intros alt Ha t Ht; apply Hsub; by eapply alternatives_terminals).
  change (metadata_searches (get_alternatives_from_dnf (simplify e))) with (metadata (get_alternatives_from_dnf (simplify e))) in H. revert H. generalize (metadata (get_alternatives_from_dnf (simplify e))) as metas. intros metas H.
  replace 0 with (0 + 0) in H by done.
  enough (∀ off alts qs, (∀ alt, alt ∈ alts → alt ⊆ QuerySpec.terminals e) → quirks_alternatives metas off alts = Some qs → length qs = length alts ∧ ∀ i c q, alts !! i = Some c → qs !! i = Some q → ∃ q0,
    quirks_conjunction (off + sum_list (length <$> (c_nodes <$> take i qs))) c = Some q0 ∧ add_metadata metas None (variable_by_node_nr q0 (off + sum_list (length <$> (c_nodes <$> take i qs)))) q0 = Some q) as Hx.
  { destruct (Hx _ _ _ Hsub' H) as [L Hx']. split; [done|]. intros i c q Hi Hq Hne. destruct (Hx' i c q Hi Hq) as (q0 & E1 & E2). pose proof (Hsub' c (elem_of_list_lookup_2 _ _ _ Hi)) as Hsc.
    eapply quirks_one; [..|exact E1|exact E2].
    - intros x e1 e2 H1 H2. eapply Hc; by eapply without_sub.
    - intros x x' sp sp' o o' nm H1 H2. eapply Hd; by eapply without_sub.
    - intros x sp var Hx2. eapply Hopt. by eapply node_at_sub.
    - done. }
  clear. intros off alts. revert off. induction alts as [|c alts IH]; intros off qs Hsub H; cbn [quirks_alternatives] in H; [injection H as <-; split; [done|]; intros i c q Hi; by rewrite lookup_nil in Hi|].
  destruct (quirks_conjunction off c) as [q0|] eqn:E0; [|done]. cbn [mbind option_bind] in H. destruct (add_metadata _ _ _ q0) as [q1|] eqn:E1; [|done]. cbn [mbind option_bind] in H.
  destruct (quirks_alternatives metas _ alts) as [qs'|] eqn:E2; [|done]. cbn in H. injection H as <-. destruct (IH _ _ ltac:(intros alt Ha; apply Hsub; by right) E2) as [L Hx]. split; [cbn; by rewrite L|]. intros [|i] c' q Hi Hq; cbn in Hi, Hq.
  - injection Hi as <-. injection Hq as <-. exists q0. cbn. by rewrite Nat.add_0_r.
  - destruct (Hx i c' q Hi Hq) as (q0' & H1 & H2). exists q0'. cbn [take fmap list_fmap sum_list]. cbn. rewrite Nat.add_assoc. done.
Qed.
End Proofs.
