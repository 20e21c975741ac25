(** Properties C34 and C35: results do not depend on the order of the joins; check of the connections. *)
From stdpp Require Import base list gmap relations.
From Coq Require Import NArith Lia.
From Verif Require Import Types SortMatches Joins JoinsSpec JoinsProofs Conjunction ConjunctionSpec ConjunctionProofs ConjPlanProofs ConjOptProofs.

(** ** C35 *)
(** A conjunction is accepted iff all its variables are connected by binding operators *)
Theorem C35_accepted_iff_connected {Op} (q : conj (Op := Op)) : check_components_connected q = None ↔ all_connected q.
Proof.
  pose proof (check_spec q) as H. destruct (check_components_connected q) as [v|]; [|done].
  split; [done|]. intros Ha. destruct H as (Hv & f & Hf & _ & Hn & _). destruct Hn. by apply Ha.
Qed.
(** The reported variable is the first one that is not connected to the first variable *)
Theorem C35_reported_variable {Op} (q : conj (Op := Op)) v : check_components_connected q = Some v →
  bound_node q v ∧ ∃ first, bound_node q first ∧ first < v ∧ ¬ connected q first v ∧
    ∀ w, bound_node q w → w < v → first ≤ w ∧ connected q first w.
Proof.
  intros E. pose proof (check_spec q) as H. by rewrite E in H.
Qed.

(** ** C34 *)
(** Every order of the operators of a valid conjunction whose variables are connected gives a plan, whose execution ends
    without errors; its results are solutions (matches of all variables such that all operators hold), and each solution
    with different matches is among them; all solutions are, if the operators do not demand different operands.
    This holds whatever the costs are (which decide on switched operands and on the outer operand), with sequential and
    with parallel joins *)
Theorem C34_results {Op} (ofilter : Op → match_ → match_ → option bool) oreflexive oretrieve oinverse parallel loop_buffer index_buffer
    outer_left switch (q : conj (Op := Op)) order :
  0 < loop_buffer → 0 < index_buffer → valid ofilter oreflexive oretrieve oinverse q →
  check_components_connected q = None → order ≡ₚ seq 0 (length (q_binary q)) →
  ∃ e, make_exec_plan_with_order oretrieve oinverse outer_left switch q order = Some e ∧
    (∃ out, emits ofilter oreflexive oretrieve parallel loop_buffer index_buffer e out) ∧
    ∀ out, emits ofilter oreflexive oretrieve parallel loop_buffer index_buffer e out →
      no_error out ∧
      (∀ g, g ∈ oks out → solution ofilter q (assign (node_pos e) g)) ∧
      (∀ a, solution ofilter q a → unrestricted ofilter oreflexive q ∨ distinct a → ∃ g, g ∈ oks out ∧ assign (node_pos e) g = a) ∧
      (no_repetition oretrieve oinverse q → NoDup (assign (node_pos e) <$> oks out)).
Proof.
  intros Hl Hi Hq Hc Ho. apply C35_accepted_iff_connected in Hc.
  destruct (plan_spec ofilter oreflexive oretrieve oinverse parallel loop_buffer index_buffer Hl Hi q Hq outer_left switch order Ho Hc) as (e & E & Hex & H).
  exists e. split_and!; [done|done|]. intros out Hout. destruct (H out Hout) as (N & W & _ & S & C & D). split_and!; [done| |done|].
  - intros g Hg. by apply S.
  - intros Hn. apply NoDup_fmap_2_strong; [|by apply D]. intros g1 g2 G1 G2 Hg. destruct (S _ G1) as [L1 _], (S _ G2) as [L2 _].
    by eapply assign_inj.
Qed.
(** The results do not depend on the order of the operators, on the costs, nor on the kind of execution.
    Missing: operators which are not reflexive when solutions assign the same match to several variables; see below *)
Theorem C34_order_irrelevant_partial {Op} (ofilter : Op → match_ → match_ → option bool) oreflexive oretrieve oinverse (q : conj (Op := Op))
    par1 lb1 ib1 outer1 switch1 order1 e1 out1 par2 lb2 ib2 outer2 switch2 order2 e2 out2 :
  0 < lb1 → 0 < ib1 → 0 < lb2 → 0 < ib2 →
  valid ofilter oreflexive oretrieve oinverse q → check_components_connected q = None →
  order1 ≡ₚ seq 0 (length (q_binary q)) → order2 ≡ₚ seq 0 (length (q_binary q)) →
  make_exec_plan_with_order oretrieve oinverse outer1 switch1 q order1 = Some e1 →
  make_exec_plan_with_order oretrieve oinverse outer2 switch2 q order2 = Some e2 →
  emits ofilter oreflexive oretrieve par1 lb1 ib1 e1 out1 → emits ofilter oreflexive oretrieve par2 lb2 ib2 e2 out2 →
  (∀ a, unrestricted ofilter oreflexive q ∨ distinct a → a ∈ assign (node_pos e1) <$> oks out1 ↔ a ∈ assign (node_pos e2) <$> oks out2) ∧
  (no_repetition oretrieve oinverse q → unrestricted ofilter oreflexive q →
   assign (node_pos e1) <$> oks out1 ≡ₚ assign (node_pos e2) <$> oks out2).
Proof.
  intros L1 I1 L2 I2 Hq Hc O1 O2 P1 P2 E1 E2.
  destruct (C34_results ofilter oreflexive oretrieve oinverse par1 lb1 ib1 outer1 switch1 q order1 L1 I1 Hq Hc O1) as (e1' & P1' & _ & H1).
  destruct (C34_results ofilter oreflexive oretrieve oinverse par2 lb2 ib2 outer2 switch2 q order2 L2 I2 Hq Hc O2) as (e2' & P2' & _ & H2).
  assert (e1' = e1) as -> by congruence. assert (e2' = e2) as -> by congruence.
  destruct (H1 _ E1) as (_ & S1 & C1 & N1), (H2 _ E2) as (_ & S2 & C2 & N2).
  assert (∀ a, unrestricted ofilter oreflexive q ∨ distinct a → a ∈ assign (node_pos e1) <$> oks out1 ↔ a ∈ assign (node_pos e2) <$> oks out2) as Heq.
  { intros a Ha. rewrite !elem_of_list_fmap. split; intros (g & -> & Hg).
    - destruct (C2 _ (S1 _ Hg) Ha) as (g' & Hg' & <-). eauto.
    - destruct (C1 _ (S2 _ Hg) Ha) as (g' & Hg' & <-). eauto. }
  split; [done|]. intros Hn Hu. apply NoDup_Permutation; [by apply N1|by apply N2|]. intros a. apply Heq. by left.
Qed.
(** The search for a cheap order ends and returns an order of all the operators, whatever the costs and the random numbers
    are *)
Theorem C34_optimizer {Op} (ofilter : Op → match_ → match_ → option bool) oreflexive oretrieve oinverse outer_left switch plan_cost (q : conj (Op := Op)) rnd :
  valid ofilter oreflexive oretrieve oinverse q → check_components_connected q = None →
  (∀ i, (rnd i).1 < length (q_binary q) ∧ (rnd i).2 < length (q_binary q)) ∨ length (q_binary q) <= 1 →
  ∃ fuel, ∀ more, ∃ order, optimize_join_order oretrieve oinverse outer_left switch plan_cost (fuel + more) q rnd = Some order ∧
    order ≡ₚ seq 0 (length (q_binary q)).
Proof.
  intros Hq Hc Hr. apply C35_accepted_iff_connected in Hc. apply optimize_spec; [|done]. intros order Ho.
  destruct (plan_spec ofilter oreflexive oretrieve oinverse false 1 1 ltac:(lia) ltac:(lia) q Hq outer_left switch order Ho Hc) as (e & -> & _). eauto.
Qed.
(** Together: the plan for a conjunction *)
Theorem C34_execution {Op} (ofilter : Op → match_ → match_ → option bool) oreflexive oretrieve oinverse parallel loop_buffer index_buffer
    outer_left switch plan_cost (q : conj (Op := Op)) rnd :
  0 < loop_buffer → 0 < index_buffer → valid ofilter oreflexive oretrieve oinverse q →
  (∀ i, (rnd i).1 < length (q_binary q) ∧ (rnd i).2 < length (q_binary q)) ∨ length (q_binary q) <= 1 →
  (¬ all_connected q → ∀ fuel, make_exec_node oretrieve oinverse outer_left switch plan_cost fuel q rnd = None) ∧
  (all_connected q → ∃ fuel, ∀ more, ∃ e, make_exec_node oretrieve oinverse outer_left switch plan_cost (fuel + more) q rnd = Some e ∧
    ∀ out, emits ofilter oreflexive oretrieve parallel loop_buffer index_buffer e out →
      no_error out ∧
      (∀ g, g ∈ oks out → solution ofilter q (assign (node_pos e) g)) ∧
      (∀ a, solution ofilter q a → unrestricted ofilter oreflexive q ∨ distinct a → ∃ g, g ∈ oks out ∧ assign (node_pos e) g = a)).
Proof.
  intros Hl Hi Hq Hr. split.
  - intros Hn fuel. unfold make_exec_node. destruct (check_components_connected q) as [v|] eqn:E; [done|].
    destruct Hn. by apply C35_accepted_iff_connected.
  - intros Hc. apply C35_accepted_iff_connected in Hc as Hc'.
    destruct (C34_optimizer ofilter oreflexive oretrieve oinverse outer_left switch plan_cost q rnd Hq Hc' Hr) as [fuel Hf].
    exists fuel. intros more. destruct (Hf more) as (order & Eo & Ho).
    destruct (C34_results ofilter oreflexive oretrieve oinverse parallel loop_buffer index_buffer outer_left switch q order Hl Hi Hq Hc' Ho) as (e & Ee & _ & H).
    exists e. split.
    + unfold make_exec_node. rewrite Hc', Eo. exact Ee.
    + intros out Hout. destruct (H out Hout) as (A & B & C & _). done.
Qed.

(** ** Where the order matters *)
Definition m1 : match_ := (1%N, AnnoKey [] []).
Definition m2 : match_ := (2%N, AnnoKey [] []).
Definition m3 : match_ := (3%N, AnnoKey [] []).
Definition nodes_search : search :=
  Search [IOk [m1]; IOk [m2]; IOk [m3]] (λ n, if decide (1 <= n <= 3)%N then [AnnoKey [] []] else []) [] None.
(** An operator which always holds; [true] stands for the reflexive one *)
Definition holds_always : bool → match_ → match_ → option bool := λ _ _ _, Some true.
Definition no_index : bool → option (match_ → option (list match_)) := λ _, None.
Definition no_inverse : bool → option bool := λ _, None.
Definition chain (n : nat) (ops : list (bool * nat * nat)) : conj (Op := bool) :=
  Conj (replicate n (QNode false (Some nodes_search))) [] ((λ '(o, l, r), Bin o l r true true) <$> ops) 0.
Lemma nodes_search_ok used : search_ok holds_always no_index used nodes_search.
Proof.
  exists [m1; m2; m3]. split_and!; [done|intros f m H; inversion H| |done].
  intros n k. cbn [nodes_search s_keys s_cond s_const default]. split.
  - intros H. repeat (apply elem_of_cons in H as [[= -> ->]|H]; [eexists; split_and!; [left|constructor|done]|]). inversion H.
  - intros (k' & Hk & _ & ->). case_decide as Hn; [|inversion Hk]. apply elem_of_list_singleton in Hk as ->.
    assert (n = 1 ∨ n = 2 ∨ n = 3)%N as [-> |[-> | ->]] by lia; [left|right; left|right; right; left].
Qed.
Lemma chain_variable n ops i : variable (chain n ops) i ↔ i < n.
Proof.
  unfold variable, chain. cbn [q_nodes]. split.
  - intros (x & Hx & _). by apply lookup_replicate in Hx as [_ ?].
  - intros H. eexists. split; [by apply lookup_replicate|done].
Qed.
Lemma chain_valid n ops : 0 < n → Forall (λ o, o.1.2 < n ∧ o.2 < n) ops → valid holds_always id no_index no_inverse (chain n ops).
Proof.
  intros Hn Ho. constructor.
  - done.
  - done.
  - intros i x Hx _. cbn [chain q_nodes] in Hx. apply lookup_replicate in Hx as [-> _]. eexists. split; [done|]. apply nodes_search_ok.
  - intros i u Hu. inversion Hu.
  - intros b Hb. cbn [chain q_binary] in Hb. apply elem_of_list_fmap in Hb as ([[o l] r] & -> & Hb). rewrite Forall_forall in Ho.
    apply Ho in Hb as [H1 H2]. split; [exists l|exists r]; (split; [done|]); by apply chain_variable.
  - exists 0. by apply chain_variable.
Qed.
Definition results (q : conj (Op := bool)) (order : list nat) : option (list (gmap nat match_)) :=
  e ← make_exec_plan_with_order no_index no_inverse (λ _ _, true) (λ _, false) q order;
  out ← run holds_always id no_index e;
  Some (assign (node_pos e) <$> oks out).
Lemma results_emits q order l : results q order = Some l →
  ∃ e, make_exec_plan_with_order no_index no_inverse (λ _ _, true) (λ _, false) q order = Some e ∧
       (∃ out, emits holds_always id no_index false 1 1 e out) ∧
       ∀ out, emits holds_always id no_index false 1 1 e out → assign (node_pos e) <$> oks out = l.
Proof.
  unfold results. destruct (make_exec_plan_with_order no_index no_inverse (λ _ _, true) (λ _, false) q order) as [e|]; [|done].
  cbn [mbind option_bind]. destruct (run holds_always id no_index e) as [out|] eqn:Er; [|done]. intros [= <-]. exists e.
  apply (run_emits _ _ _ 1 1) in Er. split_and!; [done|eauto|]. intros out' H. by rewrite (emits_det _ _ _ _ _ _ _ _ H Er).
Qed.
Definition missing (q : conj (Op := bool)) (a : gmap nat match_) (order1 order2 : list nat) : bool :=
  match results q order1, results q order2 with
  | Some l1, Some l2 => bool_decide (a ∈ l1) && bool_decide (a ∉ l2)
  | _, _ => false
  end.
Lemma missing_spec q a order1 order2 : missing q a order1 order2 = true →
  ∃ e1 e2 out1 out2,
    make_exec_plan_with_order no_index no_inverse (λ _ _, true) (λ _, false) q order1 = Some e1 ∧
    make_exec_plan_with_order no_index no_inverse (λ _ _, true) (λ _, false) q order2 = Some e2 ∧
    emits holds_always id no_index false 1 1 e1 out1 ∧ emits holds_always id no_index false 1 1 e2 out2 ∧
    a ∈ assign (node_pos e1) <$> oks out1 ∧ a ∉ assign (node_pos e2) <$> oks out2.
Proof.
  unfold missing. destruct (results q order1) as [l1|] eqn:R1; [|done]. destruct (results q order2) as [l2|] eqn:R2; [|done].
  intros [H1%bool_decide_eq_true H2%bool_decide_eq_true]%andb_true_iff.
  destruct (results_emits _ _ _ R1) as (e1 & P1 & [out1 O1] & E1), (results_emits _ _ _ R2) as (e2 & P2 & [out2 O2] & E2).
  exists e1, e2, out1, out2. split_and!; [done|done|done|done| |]; [by rewrite (E1 _ O1)|by rewrite (E2 _ O2)].
Qed.
(** A reflexive and a non-reflexive operator between the same two variables: whether both can have the same match depends
    on which operator is used for the join, the other one is a filter without a check *)
Theorem C34_order_matters_for_mixed_operators_refuted :
  let q := chain 2 [(true, 0, 1); (false, 0, 1)] in
  let a : gmap nat match_ := {[0 := m1; 1 := m1]} in
  valid holds_always id no_index no_inverse q ∧ check_components_connected q = None ∧ solution holds_always q a ∧
  ∃ e1 e2 out1 out2,
    make_exec_plan_with_order no_index no_inverse (λ _ _, true) (λ _, false) q [0; 1] = Some e1 ∧
    make_exec_plan_with_order no_index no_inverse (λ _ _, true) (λ _, false) q [1; 0] = Some e2 ∧
    emits holds_always id no_index false 1 1 e1 out1 ∧ emits holds_always id no_index false 1 1 e2 out2 ∧
    a ∈ assign (node_pos e1) <$> oks out1 ∧ a ∉ assign (node_pos e2) <$> oks out2.
Proof.
  cbv zeta. assert (valid holds_always id no_index no_inverse (chain 2 [(true, 0, 1); (false, 0, 1)])) as Hv.
  { apply chain_valid; [lia|]. repeat constructor; simpl; lia. }
  assert (check_components_connected (chain 2 [(true, 0, 1); (false, 0, 1)]) = None) as Hc by (vm_compute; reflexivity).
  assert (missing (chain 2 [(true, 0, 1); (false, 0, 1)]) {[0 := m1; 1 := m1]} [0; 1] [1; 0] = true) as Hm by (vm_compute; reflexivity).
  apply missing_spec in Hm. split_and!; [exact Hv|exact Hc| |exact Hm].
  destruct Hm as (e1 & _ & out1 & _ & P1 & _ & O1 & _ & Hin & _).
  destruct (C34_results holds_always id no_index no_inverse false 1 1 (λ _ _, true) (λ _, false) _ [0; 1] ltac:(lia) ltac:(lia) Hv Hc) as (e & P & _ & H).
  { apply Permutation_refl. }
  assert (e = e1) as -> by congruence. destruct (H _ O1) as (_ & S & _). apply elem_of_list_fmap in Hin as (g & Eg & Hg).
  rewrite Eg. exact (S g Hg).
Qed.
(** Only non-reflexive operators: whether the first and the last variable of a chain can have the same match depends on the
    order of the joins *)
Theorem C34_order_matters_for_chains_refuted :
  let q := chain 4 [(false, 0, 1); (false, 1, 2); (false, 2, 3)] in
  let a : gmap nat match_ := {[0 := m2; 1 := m1; 2 := m3; 3 := m2]} in
  valid holds_always id no_index no_inverse q ∧ check_components_connected q = None ∧
  ∃ e1 e2 out1 out2,
    make_exec_plan_with_order no_index no_inverse (λ _ _, true) (λ _, false) q [0; 2; 1] = Some e1 ∧
    make_exec_plan_with_order no_index no_inverse (λ _ _, true) (λ _, false) q [0; 1; 2] = Some e2 ∧
    emits holds_always id no_index false 1 1 e1 out1 ∧ emits holds_always id no_index false 1 1 e2 out2 ∧
    a ∈ assign (node_pos e1) <$> oks out1 ∧ a ∉ assign (node_pos e2) <$> oks out2.
Proof.
  cbv zeta. split_and!.
  - apply chain_valid; [lia|]. repeat constructor; simpl; lia.
  - vm_compute. reflexivity.
  - apply missing_spec. vm_compute. reflexivity.
Qed.

(** Examples *)
Example C35_example :
  check_components_connected (chain 4 [(false, 0, 1); (false, 3, 2); (true, 1, 3)]) = None ∧
  check_components_connected (chain 4 [(false, 0, 3); (false, 2, 1)]) = Some 1 ∧
  check_components_connected (Conj [QNode false None; QNode true None; QNode false None] [] [Bin true 12 10 true false] 10) = Some 12 ∧
  check_components_connected (Conj [QNode false None; QNode true None; QNode false None] [] [Bin true 12 10 true true] 10) = None.
Proof. vm_compute. done. Qed.
Example C34_example :
  let q := chain 3 [(true, 0, 1); (true, 1, 2)] in
  valid holds_always id no_index no_inverse q ∧ unrestricted holds_always id q ∧ no_repetition no_index no_inverse q ∧ check_components_connected q = None ∧
  length <$> results q [0; 1] = Some 27 ∧ length <$> results q [1; 0] = Some 27.
Proof.
  cbv zeta. split_and!.
  - apply chain_valid; [lia|]. repeat constructor; simpl; lia.
  - intros b Hb. left. cbn in Hb. repeat (apply elem_of_cons in Hb as [->|Hb]; [done|]). inversion Hb.
  - split; [|done]. intros i n s Hn Hs. apply lookup_replicate in Hn as [-> _]. injection Hs as <-. split.
    + repeat (constructor; [intros H; repeat (apply elem_of_cons in H as [H|H]; [discriminate|]); inversion H|]). constructor.
    + intros n. cbn. case_decide; [apply NoDup_singleton|constructor].
  - vm_compute. reflexivity.
  - vm_compute. reflexivity.
  - vm_compute. reflexivity.
Qed.

Print Assumptions C35_accepted_iff_connected.
Print Assumptions C35_reported_variable.
Print Assumptions C34_results.
Print Assumptions C34_order_irrelevant_partial.
Print Assumptions C34_optimizer.
Print Assumptions C34_execution.
Print Assumptions C34_order_matters_for_mixed_operators_refuted.
Print Assumptions C34_order_matters_for_chains_refuted.
