(** Property C33: alternatives of a query. *)
From stdpp Require Import base list gmap.
From Coq Require Import NArith Lia.
From Verif Require Import Types SymbolTable SortMatches Joins JoinsSpec JoinsProofs Conjunction ConjunctionSpec ConjunctionProofs ConjPlanProofs ConjOptProofs ConjunctionProps Plan PlanSpec PlanProofs.

(** The results of a query are the matches of its alternatives, with the nodes at the places of their variables; an error is
    returned iff the plan of an alternative has one. The results of at least two alternatives with plans have no
    duplicates *)
Theorem C33_union alts : Forall alternative_ok alts → few_keys alts →
  ∃ out, execution_plan alts = Some out ∧ (∀ g, g ∈ oks out ↔ alternative_match alts g) ∧
    (∀ e, e = IErr ∨ e = IPanic → e ∈ out ↔ has_item e alts) ∧
    (2 <= length (omap (λ a, match a with AOk pos items => Some items | _ => None end) alts) → NoDup (oks out)).
Proof. exact (execution_plan_spec alts). Qed.
(** The results of a single alternative are those of its plan, in the same order *)
Theorem C33_single_alternative pos items : positions_ok pos → (∀ g, IOk g ∈ items → length g = size pos) →
  ∃ out, execution_plan [AOk pos items] = Some out ∧
    Forall2 (λ i o, match i, o with IOk g, IOk g' => placed pos g g' | IErr, IErr | IPanic, IPanic => True | _, _ => False end) items out.
Proof. exact (single_plan pos items). Qed.
(** A semantic error of an alternative is reported *)
Theorem C33_semantic_error alts : ASemantic ∈ alts → execution_plan alts = None.
Proof.
  intros H. unfold execution_plan. assert (collect_plans alts = None) as ->; [|done]. induction alts as [|b alts IH]; [inversion H|].
  apply elem_of_cons in H as [<-|H]; [done|]. cbn [collect_plans]. rewrite (IH H). by destruct b.
Qed.

(** ** Alternatives which are conjunctions *)
Definition planned {Op} (ofilter : Op → match_ → match_ → option bool) oreflexive oretrieve oinverse parallel loop_buffer index_buffer
    outer_left switch (q : conj (Op := Op)) (alt : alternative) : Prop :=
  ∃ order e out, order ≡ₚ seq 0 (length (q_binary q)) ∧ make_exec_plan_with_order oretrieve oinverse outer_left switch q order = Some e ∧
    emits ofilter oreflexive oretrieve parallel loop_buffer index_buffer e out ∧ alt = AOk (node_pos e) out.
Lemma placed_laid_out pos g g' : positions_ok pos → length g = size pos → placed pos g g' ↔ laid_out (assign pos g) g'.
Proof.
  intros Hp Hl. assert (∀ v, is_Some (assign pos g !! v) ↔ is_Some (pos !! v)) as Hs by (intros v; by apply assign_some).
  assert (∀ v, assign pos g !! v = None ↔ pos !! v = None) as Hnone.
  { intros v. rewrite !eq_None_not_Some. by rewrite Hs. }
  split; intros (A & B & C); split_and!.
  - intros v m Hm. rewrite lookup_assign in Hm. destruct (pos !! v) as [i|] eqn:E; [|done]. cbn in Hm. by rewrite (A _ _ E).
  - intros v Hv (w & Hw & Hsw). apply B; [by apply Hnone|]. exists w. split; [done|]. by apply Hs.
  - intros v Hv. destruct (C v Hv) as (w & Hw & Hsw). exists w. split; [done|]. by apply Hs.
  - intros v i Hi. destruct (lookup_lt_is_Some_2 g i) as [m Hm]; [rewrite Hl; by eapply Hp|]. rewrite Hm. apply A. by rewrite lookup_assign, Hi.
  - intros v Hv (w & Hw & Hsw). apply B; [by apply Hnone|]. exists w. split; [done|]. by apply Hs.
  - intros v Hv. destruct (C v Hv) as (w & Hw & Hsw). exists w. split; [done|]. by apply Hs.
Qed.
(** The results of a query are the solutions of its alternatives *)
Theorem C33_solutions {Op} (ofilter : Op → match_ → match_ → option bool) oreflexive oretrieve oinverse parallel loop_buffer index_buffer
    outer_left switch (qs : list (conj (Op := Op))) alts :
  0 < loop_buffer → 0 < index_buffer →
  (∀ q, q ∈ qs → valid ofilter oreflexive oretrieve oinverse q ∧ check_components_connected q = None) →
  Forall2 (planned ofilter oreflexive oretrieve oinverse parallel loop_buffer index_buffer outer_left switch) qs alts → few_keys alts →
  ∃ out, execution_plan alts = Some out ∧ no_error out ∧
    (∀ g, g ∈ oks out → ∃ q a, q ∈ qs ∧ solution ofilter q a ∧ laid_out a g) ∧
    (∀ q a, q ∈ qs → solution ofilter q a → unrestricted ofilter oreflexive q ∨ distinct a → ∃ g, g ∈ oks out ∧ laid_out a g) ∧
    (2 <= length qs → NoDup (oks out)).
Proof.
  intros Hlb Hib Hq Hp Hk.
  assert (∀ q alt, q ∈ qs → planned ofilter oreflexive oretrieve oinverse parallel loop_buffer index_buffer outer_left switch q alt →
    ∃ pos items, alt = AOk pos items ∧ no_error items ∧ positions_ok pos ∧
      (∀ g, g ∈ oks items → length g = size pos ∧ solution ofilter q (assign pos g)) ∧
      (∀ a, solution ofilter q a → unrestricted ofilter oreflexive q ∨ distinct a → ∃ g, g ∈ oks items ∧ assign pos g = a)) as Hplan.
  { intros q alt Hin (order & e & out & Ho & Ee & Eo & ->). destruct (Hq q Hin) as [Hv Hc]. apply C35_accepted_iff_connected in Hc.
    destruct (plan_spec ofilter oreflexive oretrieve oinverse parallel loop_buffer index_buffer Hlb Hib q Hv outer_left switch order Ho Hc) as (e' & E' & _ & H).
    assert (e' = e) as -> by congruence. destruct (H out Eo) as (N & W & _ & S & C & _). exists (node_pos e), out. split_and!; done. }
  assert (Forall alternative_ok alts) as Hok.
  { apply Forall_forall. intros alt Ha. apply elem_of_list_lookup in Ha as [i Hi]. destruct (Forall2_lookup_r _ _ _ _ _ Hp Hi) as (q & Hqi & Hpl).
    apply elem_of_list_lookup_2 in Hqi. destruct (Hplan _ _ Hqi Hpl) as (pos & items & -> & _ & Hpo & Hg & _). split; [done|].
    intros g Hin. apply elem_of_oks in Hin. by apply Hg. }
  destruct (execution_plan_spec alts Hok Hk) as (out & E & El & Er & Nd). exists out.
  assert (∀ e pos items, AOk pos items ∈ alts → e = IErr ∨ e = IPanic → e ∉ items) as Hne.
  { intros e pos items Ha He Hin. apply elem_of_list_lookup in Ha as [i Hi]. destruct (Forall2_lookup_r _ _ _ _ _ Hp Hi) as (q & Hqi & Hpl).
    apply elem_of_list_lookup_2 in Hqi. destruct (Hplan _ _ Hqi Hpl) as (pos' & items' & [= -> ->] & [N1 N2] & _). by destruct He as [-> | ->]. }
  split_and!.
  - done.
  - split; intros H; [apply (Er IErr) in H; [|by left]|apply (Er IPanic) in H; [|by right]]; destruct H as (pos & items & H1 & H2);
      (eapply Hne; [exact H1| |exact H2]); auto.
  - intros g Hg. apply El in Hg as (pos & items & g0 & Ha & Hg0 & Hpl0). apply elem_of_list_lookup in Ha as [i Hi].
    destruct (Forall2_lookup_r _ _ _ _ _ Hp Hi) as (q & Hqi & Hpl). apply elem_of_list_lookup_2 in Hqi.
    destruct (Hplan _ _ Hqi Hpl) as (pos' & items' & [= <- <-] & _ & Hpo & Hs & _). apply elem_of_oks in Hg0. destruct (Hs _ Hg0) as [Hl Hsol].
    exists q, (assign pos g0). split_and!; [done|done|]. by apply placed_laid_out.
  - intros q a Hin Hsol Hr. apply elem_of_list_lookup in Hin as [i Hi]. destruct (Forall2_lookup_l _ _ _ _ _ Hp Hi) as (alt & Ha & Hpl).
    apply elem_of_list_lookup_2 in Hi, Ha. destruct (Hplan _ _ Hi Hpl) as (pos & items & -> & _ & Hpo & Hs & Hc).
    destruct (Hc a Hsol Hr) as (g0 & Hg0 & <-). destruct (Hs _ Hg0) as [Hl _]. destruct (reorder_placed pos g0 Hpo Hl) as (g & _ & Hg & _).
    exists g. split; [|by apply placed_laid_out]. apply El. exists pos, items, g0. apply elem_of_oks in Hg0. done.
  - intros Hl. apply Nd. assert (length (omap (λ a, match a with AOk pos items => Some items | _ => None end) alts) = length qs) as ->; [|done].
    clear -Hp. induction Hp as [|q alt qs alts H Hp IH]; [done|]. destruct H as (order & e & out & _ & _ & _ & ->). cbn. by f_equal.
Qed.

(** ** Nodes of the output *)
(** Only the matches of variables which are included in the output are returned, each combination once *)
Theorem C33_output_of_one_alternative alts vs : NoDup (fst <$> vs) → ∀ l, execution_plan alts = Some l → no_error l →
  ∃ out, execute_query alts [AltVars 0 vs] = Some out ∧ no_error out ∧ NoDup (oks out) ∧
    ∀ g, g ∈ oks out ↔ ∃ mg, mg ∈ oks l ∧ g = snd <$> filter (λ p, p.1.2 = true) (zip vs mg).
Proof.
  intros Hnd l E Hn. unfold execute_query. rewrite E. cbn [mbind option_bind]. eexists. split; [done|].
  assert (∀ l, no_error l → no_error ((λ i, match i with IOk g => IOk (output_nodes [AltVars 0 vs] g) | e => e end) <$> l)) as Hno.
  { intros l' [H1 H2]. split; intros ([g| |] & H & Hin)%elem_of_list_fmap; done. }
  destruct (unique_by_spec _ ∅ (Hno _ Hn)) as (N & U & El). split_and!; [done|done|]. intros g. rewrite El.
  rewrite elem_of_oks, elem_of_list_fmap. split.
  - intros [([mg| |] & Eg & Hin) _]; [|done|done]. injection Eg as ->. exists mg. split; [by apply elem_of_oks|]. by apply output_nodes_single.
  - intros (mg & Hin & ->). split; [|apply not_elem_of_empty]. exists (IOk mg). split; [|by apply elem_of_oks]. f_equal. symmetry. by apply output_nodes_single.
Qed.
(** All matches are returned completely if all variables are included in the output *)
Theorem C33_output_if_all_included alts vars n : Forall (λ a, ∀ v, v ∈ av_vars a → v.2 = true) vars →
  (∀ v, v < n → ∃ a, a ∈ vars ∧ av_offset a <= v < av_offset a + length (av_vars a)) →
  ∀ l, execution_plan alts = Some l → no_error l → (∀ mg, mg ∈ oks l → length mg <= n) →
  ∃ out, execute_query alts vars = Some out ∧ no_error out ∧ NoDup (oks out) ∧ ∀ g, g ∈ oks out ↔ g ∈ oks l.
Proof.
  intros Hv Hc l E Hn Hl. unfold execute_query. rewrite E. cbn [mbind option_bind]. eexists. split; [done|].
  assert (((λ i, match i with IOk g => IOk (output_nodes vars g) | e => e end) <$> l) = l) as ->.
  { clear -Hv Hc Hl. induction l as [|i l IH]; [done|]. cbn. f_equal; [|apply IH; intros mg Hmg; apply Hl; by destruct i; [right| |]].
    destruct i as [g| |]; [|done|done]. f_equal. eapply output_nodes_all; [done| |done]. apply Hl. left. }
  destruct (unique_by_spec _ ∅ Hn) as (N & U & El). split_and!; [done|done|]. intros g. rewrite El. split; [by intros [? _]|].
  intros H. split; [done|apply not_elem_of_empty].
Qed.

(** ** Where results are missing *)
Definition pos2 : gmap nat nat := {[0 := 0; 1 := 1]}.
Definition pos2' : gmap nat nat := {[0 := 1; 1 := 0]}.
(** An alternative whose plan fails with another error than a semantic one is left out without a message: the result is the
    same as for a query without it *)
Theorem C33_failing_alternative_refuted :
  execution_plan [AOther; AOk pos2 [IOk [m1; m2]]] = Some [IOk [m1; m2]] ∧
  execution_plan [AOk pos2 [IOk [m1; m2]]] = Some [IOk [m1; m2]].
Proof. split; vm_compute; reflexivity. Qed.
(** The nodes of a match are looked up with their position in the alternative, but by the number of the variable in the whole
    query. If a variable of the first alternative is optional, a node of a match of the second alternative is missing, and
    matches of the second alternative which differ in this node are merged *)
Theorem C33_output_of_second_alternative_refuted :
  let vars := [AltVars 0 [([97%N], true); ([98%N], false)]; AltVars 2 [([99%N], true); ([100%N], true)]] in
  execution_plan [AOk {[0 := 0]} []; AOk pos2 [IOk [m1; m2]; IOk [m1; m3]]] = Some [IOk [m1; m2]; IOk [m1; m3]] ∧
  execute_query [AOk {[0 := 0]} []; AOk pos2 [IOk [m1; m2]; IOk [m1; m3]]] vars = Some [IOk [m1]].
Proof. split; vm_compute; reflexivity. Qed.

(** ** Examples *)
Lemma pos2_ok : positions_ok pos2.
Proof.
  split.
  - intros v i. unfold pos2. rewrite lookup_insert_Some. intros [[<- <-]|[_ [<- <-]%lookup_singleton_Some]]; apply Nat.ltb_lt; vm_compute; reflexivity.
  - intros i Hi. assert (size pos2 = 2) as E by (vm_compute; reflexivity). rewrite E in Hi. exists i. destruct i as [|[|i]]; [vm_compute; reflexivity|vm_compute; reflexivity|lia].
Qed.
Lemma pos2'_ok : positions_ok pos2'.
Proof.
  split.
  - intros v i. unfold pos2'. rewrite lookup_insert_Some. intros [[<- <-]|[_ [<- <-]%lookup_singleton_Some]]; apply Nat.ltb_lt; vm_compute; reflexivity.
  - intros i Hi. assert (size pos2' = 2) as E by (vm_compute; reflexivity). rewrite E in Hi. destruct i as [|[|i]]; [exists 1; vm_compute; reflexivity|exists 0; vm_compute; reflexivity|lia].
Qed.
(** Two alternatives with overlapping results and different orders of the nodes *)
Definition two : list alternative := [AOk pos2 [IOk [m1; m2]; IOk [m1; m3]]; AOk pos2' [IOk [m2; m1]; IOk [m2; m3]; IErr]].
Example two_ok : Forall alternative_ok two ∧ few_keys two ∧
  execution_plan two = Some [IOk [m1; m2]; IOk [m1; m3]; IOk [m3; m2]; IErr].
Proof.
  split_and!.
  - assert (size pos2 = 2) as E by (vm_compute; reflexivity). assert (size pos2' = 2) as E' by (vm_compute; reflexivity).
    apply Forall_cons. split; [|apply Forall_cons; split; [|constructor]]; (split; [first [exact pos2_ok|exact pos2'_ok]|]); intros g Hg; rewrite ?E, ?E';
      repeat (apply elem_of_cons in Hg as [Hg|Hg]; [try discriminate Hg; injection Hg as ->; reflexivity|]); inversion Hg.
  - exists [AnnoKey [] []]. split_and!; [done|left|]. intros pos items g m Ha Hi Hm.
    apply elem_of_cons in Ha as [[= -> ->]|Ha]; [|apply elem_of_list_singleton in Ha as [= -> ->]];
      repeat (apply elem_of_cons in Hi as [Hi|Hi]; [try discriminate Hi; injection Hi as ->; repeat (apply elem_of_cons in Hm as [-> |Hm]; [left|]); inversion Hm|]); inversion Hi.
  - vm_compute; reflexivity.
Qed.
Print Assumptions C33_union.
Print Assumptions C33_single_alternative.
Print Assumptions C33_semantic_error.
Print Assumptions C33_solutions.
Print Assumptions C33_output_of_one_alternative.
Print Assumptions C33_output_if_all_included.
Print Assumptions C33_failing_alternative_refuted.
Print Assumptions C33_output_of_second_alternative_refuted.
