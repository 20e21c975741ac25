(** Proofs about the positions in error messages. *)
From stdpp Require Import base list.
From Coq Require Import NArith Lia.
From Verif Require Import LineCol LineColSpec.

(** The line with [pos] among lines which start at [o] *)
Lemma split_lines_ne s : split_lines s ≠ [].
Proof. destruct s as [|c r]; [done|]. cbn. destruct (split_lines r); [done|]. by case_decide. Qed.
Lemma split_cons_break r : split_lines (10%N :: r) = [] :: split_lines r.
Proof. cbn. destruct (split_lines r) eqn:E; [by apply split_lines_ne in E|]. by rewrite decide_True. Qed.
Lemma split_cons_other c r : c ≠ 10%N → ∃ l ls, split_lines r = l :: ls ∧ split_lines (c :: r) = (c :: l) :: ls.
Proof. intros H. cbn. destruct (split_lines r) as [|l ls] eqn:E; [by apply split_lines_ne in E|]. exists l, ls. by rewrite decide_False. Qed.
Lemma offsets_ge o l ls p : p ∈ line_offsets o l ls → o <= p.1.
Proof.
  revert o l. induction ls as [|x ls IH]; intros o l H; cbn in H; [inversion H|]. apply elem_of_cons in H as [-> |H]; [done|].
  apply IH in H. lia.
Qed.
Lemma filter_none {A} (P : A → Prop) `{∀ x, Decision (P x)} (l : list A) : (∀ x, x ∈ l → ¬ P x) → filter P l = [].
Proof. induction l as [|x l IH]; intros Hl; [done|]. rewrite filter_cons, decide_False by (apply Hl; left). apply IH. intros y Hy. apply Hl. by right. Qed.
Lemma last_offset o l s pos : o <= pos →
  ∃ off ln, last (filter (λ p, p.1 <= pos) (line_offsets o l (split_lines s))) = Some (off, ln) ∧ o <= off <= pos ∧
    ln = l + breaks_before s (pos - o) ∧ line_start s (pos - o) (off - o).
Proof.
  revert o l. induction s as [|c r IH]; intros o l Ho.
  - exists o, l. cbn. rewrite decide_True by done. cbn. split_and!; [done|lia|lia| |].
    + unfold breaks_before. rewrite take_nil. cbn. lia.
    + split_and!; [lia|left; lia|]. intros i _. by rewrite lookup_nil.
  - destruct (decide (c = 10%N)) as [-> |Hc].
    + rewrite split_cons_break. cbn [line_offsets length]. destruct (decide (S o <= pos)) as [Hp|Hp].
      * destruct (IH (o + (0 + 1)) (S l)) as (off & ln & E & Hoff & Hln & H1 & H2 & H3); [lia|]. exists off, ln.
        rewrite filter_cons, decide_True by done. split_and!; [|lia|lia| |split_and!].
        -- rewrite last_cons. by rewrite E.
        -- rewrite Hln. unfold breaks_before. replace (pos - o) with (S (pos - (o + (0 + 1)))) by lia. cbn [take].
           rewrite filter_cons, decide_True by done. cbn. lia.
        -- lia.
        -- right. destruct H2 as [H2|H2].
           ++ replace (off - o - 1) with 0 by lia. done.
           ++ destruct (decide (off - (o + (0 + 1)) = 0)) as [D|D].
              ** replace (off - o - 1) with 0 by lia. done.
              ** replace (off - o - 1) with (S (off - (o + (0 + 1)) - 1)) by lia. done.
        -- intros i Hi. destruct i as [|i]; [lia|]. cbn. apply H3. lia.
      * assert (pos = o) as -> by lia. exists o, l. rewrite filter_cons, decide_True by done.
        rewrite (filter_none _ (line_offsets (o + (0 + 1)) (S l) (split_lines r))) by (intros p Hin; apply offsets_ge in Hin; lia).
        cbn. rewrite Nat.sub_diag. split_and!; [done|lia|lia| |]; [cbn; lia|]. split_and!; [lia|by left|]. intros i Hi. lia.
    + destruct (split_cons_other c r Hc) as (li & ls & Es & ->). cbn [line_offsets length].
      destruct (decide (o = pos)) as [-> |Hne].
      * exists pos, l. rewrite filter_cons, decide_True by done.
        rewrite (filter_none _ (line_offsets (pos + (S (length li) + 1)) (S l) ls)) by (intros p Hin; apply offsets_ge in Hin; lia).
        cbn. rewrite Nat.sub_diag. split_and!; [done|lia|lia| |]; [cbn; lia|]. split_and!; [lia|by left|]. intros i Hi. lia.
      * destruct (IH (S o) l) as (off & ln & E & Hoff & Hln & H1 & H2 & H3); [lia|].
        rewrite Es in E. cbn [line_offsets] in E. rewrite filter_cons in E. rewrite decide_True in E by (cbn; lia).
        replace (S o + (length li + 1)) with (o + (S (length li) + 1)) in E by lia.
        rewrite filter_cons, decide_True by done. rewrite last_cons. rewrite last_cons in E.
        destruct (last (filter (λ p, p.1 <= pos) (line_offsets (o + (S (length li) + 1)) (S l) ls))) as [[off' ln']|] eqn:El.
        -- injection E as -> ->. exists off, ln.
           assert (o + (S (length li) + 1) <= off) as Hge.
           { apply last_Some_elem_of, elem_of_list_filter in El as [_ El]. by apply offsets_ge in El. }
           split_and!; [done|lia|lia| |split_and!].
           ++ rewrite Hln. unfold breaks_before. replace (pos - o) with (S (pos - S o)) by lia. cbn [take]. rewrite filter_cons, decide_False by done. done.
           ++ lia.
           ++ right. destruct H2 as [H2|H2]; [lia|]. replace (off - o - 1) with (S (off - S o - 1)) by lia. done.
           ++ intros i Hi. destruct i as [|i]; [lia|]. cbn. apply H3. lia.
        -- injection E as <- <-. exists o, l. split_and!; [done|lia|lia| |split_and!].
           ++ rewrite Hln at 1. unfold breaks_before. replace (pos - o) with (S (pos - S o)) by lia. cbn [take]. rewrite filter_cons, decide_False by done. done.
           ++ lia.
           ++ left. lia.
           ++ intros i Hi. destruct i as [|i]; [cbn; intros [= ?]; done|]. cbn. apply H3. lia.
Qed.
Theorem position_spec input pos : designates input (get_line_and_column_for_pos pos (get_line_offsets input)) pos.
Proof.
  unfold get_line_and_column_for_pos, get_line_offsets. destruct (last_offset 0 0 input pos) as (off & ln & E & Ho & Hl & Hs); [lia|].
  rewrite E. split; cbn; [rewrite Hl; by rewrite Nat.sub_0_r|]. exists off. rewrite !Nat.sub_0_r in Hs. done.
Qed.
Lemma line_start_unique input pos s1 s2 : line_start input pos s1 → line_start input pos s2 → s1 = s2.
Proof.
  intros (A1 & B1 & C1) (A2 & B2 & C2). destruct (lt_eq_lt_dec s1 s2) as [[H|H]|H]; [|done|].
  - destruct B2 as [->|B2]; [lia|]. exfalso. by apply (C1 (s2 - 1)); [lia|].
  - destruct B1 as [->|B1]; [lia|]. exfalso. by apply (C2 (s1 - 1)); [lia|].
Qed.
Lemma breaks_mono input p1 p2 : p1 <= p2 → breaks_before input p1 <= breaks_before input p2.
Proof.
  intros H. unfold breaks_before. replace p2 with (p1 + (p2 - p1)) by lia. rewrite <- take_take_drop, filter_app, app_length. lia.
Qed.
Lemma breaks_step input p1 p2 i : p1 <= i < p2 → input !! i = Some line_break → breaks_before input p1 < breaks_before input p2.
Proof.
  intros H Hi. assert (breaks_before input (S i) = S (breaks_before input i)) as E.
  { unfold breaks_before. rewrite (take_S_r input i line_break Hi), filter_app, app_length. rewrite filter_cons, decide_True by done. cbn. lia. }
  pose proof (breaks_mono input p1 i ltac:(lia)). pose proof (breaks_mono input (S i) p2 ltac:(lia)). lia.
Qed.
(** A line and a column designate one position only *)
Theorem designates_inj input lc p1 p2 : designates input lc p1 → designates input lc p2 → p1 = p2.
Proof.
  assert (∀ p1 p2, p1 < p2 → designates input lc p1 → designates input lc p2 → False) as H.
  { clear p1 p2. intros p1 p2 Hlt [L1 (s1 & S1 & C1)] [L2 (s2 & S2 & C2)].
    assert (line_start input p2 s1) as S2'.
    { destruct S1 as (A & B & C). split_and!; [lia|done|]. intros i Hi Hb. destruct (decide (i < p1)); [by apply (C i); [lia|]|].
      pose proof (breaks_step input p1 p2 i ltac:(lia) Hb). lia. }
    pose proof (line_start_unique _ _ _ _ S2 S2') as ->. destruct S1. lia. }
  intros H1 H2. destruct (lt_eq_lt_dec p1 p2) as [[?|?]|?]; [exfalso; by eapply H|done|exfalso; by eapply H].
Qed.
