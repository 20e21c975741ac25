(** C79: the node of a frequency definition. *)
From stdpp Require Import base list gmap sorting.
From Coq Require Import NArith Lia.
From Verif Require Import KeySer Types SortMatches Adjacency TokenHelper TokenSearchSpec NodeSearchSpec Joins Query QuerySpec Frequency EndToEndSpec
  FrequencyResults FrequencyResultsSpec FrequencyNodeSpec FrequencyNodeProofs.

(** The number which is looked up in a result: if the first alternative that knows the name is [c], and its search is the [k]-th one (from 0)
    of those which belong to the results of [c], it is [k] plus the number of searches of the alternatives before plus the number of optional
    searches before. *)
Theorem C79_position {S B U} : ∀ (alts : list (list (literal S B U))) qs i c off v s found k opt, well_named alts → map_alternatives 0 alts = Some qs →
  alts !! i = Some c → offset_of alts i off → refers off c v s → (∀ i' s', i' < i → ¬ known_at alts i' v s') →
  found_positions c found → found !! k = Some s → optional_before c s opt →
  get_variable_pos qs v = Some (off + k + length opt).
Proof. exact position_lemma. Qed.
Print Assumptions C79_position.

(** A name which no alternative knows has no position. *)
Theorem C79_unknown {S B U} : ∀ (alts : list (list (literal S B U))) qs v, well_named alts → map_alternatives 0 alts = Some qs →
  (∀ i s, ¬ known_at alts i v s) → get_variable_pos qs v = None.
Proof. exact unknown_lemma. Qed.
Print Assumptions C79_unknown.

(** The value in the table is the one of the node that was found by the search with this name, if the search is in the first alternative and
    no optional search is before it. The full claim is the one for each search which is not optional. *)
Theorem C79_value_partial {S B U} : ∀ (alts : list (list (literal S B U))) qs c to_name d s sp var env found ct value,
  well_named alts → map_alternatives 0 alts = Some qs →
  alts !! 0 = Some c → refers 0 c (to_name (fd_node_ref d)) s → node_at c s (sp, var, false) → (∀ x sp' var', x < s → ¬ node_at c x (sp', var', true)) →
  found_positions c found →
  row_for (λ r, get_variable_pos qs (to_name r)) [d] ct (env <$> found) [value] ↔ value_for ct (env s : match_).1 d value.
Proof.
  intros alts qs c to_name d s sp var env found ct value Hw E Hc Hr Ha Hopt Hf.
  assert (s ∈ found) as Hs by (apply Hf; eauto). apply elem_of_list_lookup in Hs as [k Hk].
  assert (get_variable_pos qs (to_name (fd_node_ref d)) = Some k) as Hp.
  { rewrite (C79_position alts qs 0 c 0 _ s found k [] Hw E Hc); [cbn; f_equal; lia| |done|intros; lia|done|done|].
    - exists []. split; [rewrite take_0; constructor|done].
    - split; [constructor|]. intros x. split; [intros H; inversion H|]. intros [Hx (sp' & var' & H)]. by destruct (Hopt x sp' var' Hx). }
  unfold row_for. rewrite filter_cons_True by (by rewrite Hp). cbn [filter list_filter]. split.
  - intros H. apply Forall2_cons in H as [H _]. specialize (H k Hp). rewrite list_lookup_fmap, Hk in H. exact H.
  - intros H. constructor; [|constructor]. intros p Hp'. rewrite Hp in Hp'. injection Hp' as <-. rewrite list_lookup_fmap, Hk. exact H.
Qed.
Print Assumptions C79_value_partial.

(** ** Optional searches *)
(** x? !op y & z & #y op #z *)
Definition optional_alt : list (literal nat unit unit) :=
  [LBin (OLit 7 0 (Some [120%N]) true) tt (OLit 8 1 (Some [121%N]) false) true; LNode 9 2 (Some [122%N]) false; LBin (ORef (Name [121%N])) tt (ORef (Name [122%N])) false].
Lemma optional_nodes s e : node_at optional_alt s e ↔ (s, e) ∈ [(0, (7, Some [120%N], true)); (1, (8, Some [121%N], false)); (2, (9, Some [122%N], false))].
Proof.
  rewrite !elem_of_cons, elem_of_nil. split.
  - intros (l & Hl & Hn). unfold optional_alt in Hl. rewrite !elem_of_cons, elem_of_nil in Hl. destruct Hl as [-> |[-> |[-> |[]]]]; cbn in Hn; [|destruct Hn as [-> ->]; tauto|tauto].
    destruct Hn as [[-> ->]|[-> ->]]; tauto.
  - intros [[= -> ->]|[[= -> ->]|[[= -> ->]|[]]]].
    + exists (LBin (OLit 7 0 (Some [120%N]) true) tt (OLit 8 1 (Some [121%N]) false) true). split; [left|by left].
    + exists (LBin (OLit 7 0 (Some [120%N]) true) tt (OLit 8 1 (Some [121%N]) false) true). split; [left|by right].
    + exists (LNode 9 2 (Some [122%N]) false). split; [right; left|done].
Qed.
Lemma optional_named : well_named [optional_alt].
Proof.
  constructor; [|constructor]. split.
  - intros s e e' H H'. rewrite optional_nodes, !elem_of_cons, elem_of_nil in H. rewrite optional_nodes, !elem_of_cons, elem_of_nil in H'.
    destruct H as [[= -> ->]|[[= -> ->]|[[= -> ->]|[]]]], H' as [[= ->]|[[= ->]|[[= ->]|[]]]]; done.
  - intros s s' sp sp' o o' n H H'. rewrite optional_nodes, !elem_of_cons, elem_of_nil in H. rewrite optional_nodes, !elem_of_cons, elem_of_nil in H'.
    destruct H as [[= -> _ E1 _]|[[= -> _ E1 _]|[[= -> _ E1 _]|[]]]], H' as [[= -> _ E2 _]|[[= -> _ E2 _]|[[= -> _ E2 _]|[]]]]; congruence.
Qed.
Lemma optional_found : found_positions optional_alt [1; 2].
Proof.
  split; [repeat constructor|]. intros s. rewrite !elem_of_cons, elem_of_nil. split.
  - intros [-> |[-> |[]]]; [exists 8, (Some [121%N])|exists 9, (Some [122%N])]; rewrite optional_nodes, !elem_of_cons; tauto.
  - intros (sp & var & H). rewrite optional_nodes, !elem_of_cons, elem_of_nil in H. destruct H as [H|[H|[H|[]]]]; [by injection H|injection H as -> _ _|injection H as -> _ _]; tauto.
Qed.
(** With an optional search before it, the match of another search is used for y, and none for z. *)
Theorem C79_optional_refuted : ∃ (alts : list (list (literal nat unit unit))) qs c y z found,
  well_named alts ∧ map_alternatives 0 alts = Some qs ∧ alts = [c] ∧ found_positions c found ∧
  (∃ sp, node_at c 1 (sp, Some y, false)) ∧ (∃ sp, node_at c 2 (sp, Some z, false)) ∧
  ∃ py pz, get_variable_pos qs (Name y) = Some py ∧ get_variable_pos qs (Name z) = Some pz ∧
    ∀ env : nat → match_, (env <$> found) !! py = Some (env 2) ∧ (env <$> found) !! pz = None.
Proof.
  destruct (map_alternatives 0 [optional_alt]) as [qs|] eqn:E; [|by vm_compute in E].
  exists [optional_alt], qs, optional_alt, [121%N], [122%N], [1; 2]. split_and!; [exact optional_named|exact E|done|exact optional_found| | |].
  - exists 8. rewrite optional_nodes, !elem_of_cons. tauto.
  - exists 9. rewrite optional_nodes, !elem_of_cons. tauto.
  - exists 1, 2. split_and!; [| |done].
    + vm_compute in E. injection E as <-. vm_compute. reflexivity.
    + vm_compute in E. injection E as <-. vm_compute. reflexivity.
Qed.
Print Assumptions C79_optional_refuted.

(** ** Example *)
(** y & z & x? !op #y: the optional search is the last one, so that the values of y and z are right *)
Definition last_alt : list (literal nat unit unit) :=
  [LNode 8 0 (Some [121%N]) false; LNode 9 1 None false; LBin (OLit 7 2 (Some [120%N]) true) tt (ORef (Name [121%N])) true].
Lemma last_nodes s e : node_at last_alt s e ↔ (s, e) ∈ [(0, (8, Some [121%N], false)); (1, (9, None, false)); (2, (7, Some [120%N], true))].
Proof.
  rewrite !elem_of_cons, elem_of_nil. split.
  - intros (l & Hl & Hn). unfold last_alt in Hl. rewrite !elem_of_cons, elem_of_nil in Hl. destruct Hl as [-> |[-> |[-> |[]]]]; cbn in Hn; [destruct Hn as [-> ->]; tauto|destruct Hn as [-> ->]; tauto|].
    destruct Hn as [[-> ->]|[]]; tauto.
  - intros [[= -> ->]|[[= -> ->]|[[= -> ->]|[]]]].
    + exists (LNode 8 0 (Some [121%N]) false). split; [left|done].
    + exists (LNode 9 1 None false). split; [right; left|done].
    + exists (LBin (OLit 7 2 (Some [120%N]) true) tt (ORef (Name [121%N])) true). split; [right; right; left|by left].
Qed.
Example last_example : ∃ qs, well_named [last_alt] ∧ map_alternatives 0 [last_alt] = Some qs ∧ refers 0 last_alt (Num 2) 1 ∧ node_at last_alt 1 (9, None, false) ∧
  (∀ x sp' var', x < 1 → ¬ node_at last_alt x (sp', var', true)) ∧ found_positions last_alt [0; 1] ∧ get_variable_pos qs (Num 2) = Some 1.
Proof.
  destruct (map_alternatives 0 [last_alt]) as [qs|] eqn:E; [|by vm_compute in E]. exists qs. split_and!.
  - constructor; [|constructor]. split.
    + intros s e e' H H'. rewrite last_nodes, !elem_of_cons, elem_of_nil in H. rewrite last_nodes, !elem_of_cons, elem_of_nil in H'.
      destruct H as [[= -> ->]|[[= -> ->]|[[= -> ->]|[]]]], H' as [[= ->]|[[= ->]|[[= ->]|[]]]]; done.
    + intros s s' sp sp' o o' n H H'. rewrite last_nodes, !elem_of_cons, elem_of_nil in H. rewrite last_nodes, !elem_of_cons, elem_of_nil in H'.
      destruct H as [H|[H|[H|[]]]], H' as [H'|[H'|[H'|[]]]]; congruence.
  - done.
  - cbn. split; [exists 9, false; rewrite last_nodes, !elem_of_cons; tauto|]. exists [0]. split_and!; [apply NoDup_singleton| |done].
    intros x. rewrite elem_of_list_singleton. split.
    + intros ->. split; [lia|]. exists (8, Some [121%N], false). rewrite last_nodes. left.
    + intros [Hx _]. lia.
  - rewrite last_nodes, !elem_of_cons. tauto.
  - intros x sp var Hx H. rewrite last_nodes, !elem_of_cons, elem_of_nil in H. destruct H as [H|[H|[H|[]]]]; [by injection H|by injection H|injection H as -> _ _; lia].
  - split; [repeat constructor|]. intros s. rewrite !elem_of_cons, elem_of_nil. split.
    + intros [-> |[-> |[]]]; [exists 8, (Some [121%N])|exists 9, None]; rewrite last_nodes, !elem_of_cons; tauto.
    + intros (sp & var & H). rewrite last_nodes, !elem_of_cons, elem_of_nil in H. destruct H as [H|[H|[H|[]]]]; [injection H as -> _ _|injection H as -> _ _|by injection H]; tauto.
  - vm_compute in E. injection E as <-. vm_compute. reflexivity.
Qed.
