(** Property C49: alternatives and conjunctions of a query keep its meaning. *)
From stdpp Require Import base list gmap sorting.
From Coq Require Import NArith Lia.
From Verif Require Import Query QuerySpec QueryProofs.

(** A query holds iff all the literals of one of its alternatives hold; alternatives are not empty and have only literals of
    the query *)
Theorem C49_alternatives {T} (simplify : expr T → expr T) (e : expr T) : simplifies simplify → positive e →
  (∀ v, holds v e ↔ ∃ alt, alt ∈ get_alternatives_from_dnf (simplify e) ∧ ∀ t, t ∈ alt → v t) ∧
  (∀ alt, alt ∈ get_alternatives_from_dnf (simplify e) → alt ≠ [] ∧ alt ⊆ terminals e).
Proof.
  intros Hs Hp. destruct (Hs e Hp) as (H1 & H2 & H3). split.
  - intros v. rewrite <- H2. by apply alternatives_spec.
  - intros alt Ha. split; [by eapply alternatives_ne|]. intros t Ht. apply H3. by eapply alternatives_terminals.
Qed.
(** A function with the documented properties of simplify_via_laws exists *)
Theorem C49_normal_form_exists {T} : simplifies (normalize (T := T)).
Proof. exact normalize_ok. Qed.
(** An alternative is rejected iff one of its literals has an unknown reference, a wrong optional operand or is a metadata
    search. Otherwise, the nodes of the conjunction are the node searches of the literals in the order of the text, with
    consecutive numbers as names unless they have a name, and the conjunction holds for matches of these nodes iff all the
    literals hold *)
Theorem C49_conjunction {Spec Bop Uop X : Type} (sat : Spec → X → Prop) (bop : Bop → X → X → Prop) (uop : Uop → X → Prop)
    off (c : list (literal Spec Bop Uop)) : consistent c → distinct_names c →
  (map_conjunction off c = None ∧ ∃ l, l ∈ c ∧ ¬ literal_ok off c l) ∨
  (∃ q starts, map_conjunction off c = Some q ∧ (∀ l, l ∈ c → literal_ok off c l) ∧ positions c starts ∧
    length (c_nodes q) = length starts ∧ c_offset q = off ∧
    (∀ i v sp o, c_nodes q !! i = Some (v, sp, o) → ∃ s var, starts !! i = Some s ∧ node_at c s (sp, var, o) ∧
       v = match var with Some n => Name n | None => Num (off + i + 1) end) ∧
    ∀ env a, (∀ i s, starts !! i = Some s → a i = env s) →
      conj_holds sat bop uop q a ↔ ∀ l, l ∈ c → literal_holds sat bop uop off c env l).
Proof. exact (map_conjunction_spec sat bop uop off c). Qed.
(** Together: matches of the node searches of a query satisfy it iff they satisfy one of its conjunctions.
    Missing: references by number, see below *)
Theorem C49_query_partial {Spec Bop Uop X : Type} (sat : Spec → X → Prop) (bop : Bop → X → X → Prop) (uop : Uop → X → Prop)
    simplify (e : expr (literal Spec Bop Uop)) qs :
  simplifies simplify → positive e → consistent (terminals e) → distinct_names (terminals e) → (∀ l, l ∈ terminals e → no_numbers l) →
  map_alternatives 0 (get_alternatives_from_dnf (simplify e)) = Some qs →
  ∃ startss, Forall2 (λ q starts, length (c_nodes q) = length starts ∧ StronglySorted lt starts) qs startss ∧
    ∀ env, holds (literal_holds sat bop uop 0 (terminals e) env) e ↔
      ∃ i q starts, qs !! i = Some q ∧ startss !! i = Some starts ∧
        ∀ a, (∀ k s, starts !! k = Some s → a k = env s) → conj_holds sat bop uop q a.
Proof. exact (query_spec sat bop uop simplify e qs). Qed.
(** The numbers of the nodes continue from one alternative to the next one *)
Theorem C49_numbers {Spec Bop Uop : Type} (alts : list (list (literal Spec Bop Uop))) : ∀ off qs,
  map_alternatives off alts = Some qs → ∀ i q, qs !! i = Some q → c_offset q = off + sum_list (length <$> (c_nodes <$> take i qs)).
Proof. exact (map_alternatives_offset alts). Qed.
(** The nodes of the output are those which are not optional *)
Theorem C49_output {Spec Bop Uop : Type} off (c : list (literal Spec Bop Uop)) q : map_conjunction off c = Some q →
  ∀ v, v ∈ c_output q ↔ ∃ sp, (v, sp, false) ∈ c_nodes q.
Proof. intros H. exact (proj1 (map_conjunction_output off c q H)). Qed.

(** ** Examples *)
Definition tok (start : nat) (var : option (list N)) : literal nat nat nat := LNode 7 start var false.
(** (tok & tok | tok & tok) & #1 . #2: the reference is copied to the second alternative, where the nodes have the numbers 3
    and 4, and the query is rejected; each of the alternatives is accepted as query *)
Theorem C49_references_by_number_refuted :
  let op := LBin (ORef (Num 1)) 0 (ORef (Num 2)) false in
  let e := And (Or (And (Terminal (tok 1 None)) (Terminal (tok 7 None))) (And (Terminal (tok 13 None)) (Terminal (tok 19 None)))) (Terminal op) in
  map_alternatives 0 (get_alternatives_from_dnf (normalize e)) = None ∧
  is_Some (map_alternatives 0 [[tok 1 None; tok 7 None; op]]) ∧ is_Some (map_alternatives 0 [[tok 13 None; tok 19 None; op]]).
Proof. split_and!; [vm_compute; reflexivity|eexists; vm_compute; reflexivity|eexists; vm_compute; reflexivity]. Qed.
(** Without normal form, disjunctions below conjunctions would be lost *)
Example normal_form_needed : get_alternatives_from_dnf (And (Or (Terminal 1) (Terminal 2)) (Terminal 3)) = [[3]] ∧
  get_alternatives_from_dnf (normalize (And (Or (Terminal 1) (Terminal 2)) (Terminal 3))) = [[1; 3]; [2; 3]].
Proof. split; vm_compute; reflexivity. Qed.
(** (a#tok . b#tok | a...) with names and an optional operand of a negated operator *)
Definition named : expr (literal nat nat nat) :=
  And (Or (Terminal (tok 1 (Some [97%N]))) (Terminal (LBin (OLit 7 10 (Some [98%N]) false) 0 (OLit 8 15 None true) true)))
      (Terminal (LBin (OLit 9 30 (Some [99%N]) false) 1 (OLit 9 40 None false) false)).
Example named_ok : positive named ∧ (∀ l, l ∈ terminals named → no_numbers l) ∧
  is_Some (map_alternatives 0 (get_alternatives_from_dnf (normalize named))).
Proof.
  split_and!.
  - done.
  - intros l Hl. repeat (apply elem_of_cons in Hl as [-> |Hl]; [cbn; try done; split; intros k; discriminate|]). inversion Hl.
  - eexists. vm_compute. reflexivity.
Qed.
Lemma named_nodes s e : node_at (terminals named) s e →
  (s = 1 ∧ e = (7, Some [97%N], false)) ∨ (s = 10 ∧ e = (7, Some [98%N], false)) ∨ (s = 15 ∧ e = (8, None, true)) ∨
  (s = 30 ∧ e = (9, Some [99%N], false)) ∨ (s = 40 ∧ e = (9, None, false)).
Proof.
  intros (l & Hl & Hn). repeat (apply elem_of_cons in Hl as [-> |Hl]; [cbn in Hn; tauto|]). inversion Hl.
Qed.
Example named_consistent : consistent (terminals named) ∧ distinct_names (terminals named).
Proof.
  split.
  - intros s e e' H1%named_nodes H2%named_nodes. naive_solver.
  - intros s s' sp sp' o o' n H1%named_nodes H2%named_nodes. naive_solver.
Qed.
Print Assumptions C49_alternatives.
Print Assumptions C49_normal_form_exists.
Print Assumptions C49_conjunction.
Print Assumptions C49_query_partial.
Print Assumptions C49_numbers.
Print Assumptions C49_references_by_number_refuted.
Print Assumptions C49_output.
