(** Proofs about the console. *)
From Coq Require Import NArith String.
From stdpp Require Import base list gmap.
From Verif Require Import KeySer Types CompPath Service RelAnnis RelAnnisConfig RelAnnisConfigSpec RelAnnisConfigText RelAnnisConfigProofs LinkedFiles Frequency Console ConsoleSpec.

(** ** Lines *)
Definition parse_line (line : bytes) : bytes * bytes := match split_first 32%N line with Some p => p | None => (line, []) end.
Lemma typed_iff (cmd : string) args line : bool_decide (32%N ∉ str cmd) = true → typed cmd args line ↔ parse_line line = (str cmd, args).
Proof.
  intros Hc%bool_decide_eq_true. unfold typed, parse_line. destruct (split_first_cases 32%N line) as [(k & v & -> & E & Hk)|[-> Hn]].
  - split.
    + intros [H|[H _]]; [|exfalso; apply Hc; rewrite <- H, E, elem_of_app; right; left].
      pose proof (split_first_app 32%N k v Hk) as E1. rewrite <- E, H, split_first_app in E1 by done. by injection E1 as <- <-.
    + intros [= -> ->]. by left.
  - split.
    + intros [H|[-> ->]]; [|done]. exfalso. apply Hn. rewrite H, elem_of_app. right; left.
    + intros [= -> <-]. by right.
Qed.
Lemma setting_found {A} (P : bytes → A → Prop) l ls none a v : P l a → setting P ls a v → setting P (l :: ls) none v.
Proof.
  intros Hl [(l1 & x & l2 & -> & H1 & H2)|[Hn ->]]; left; [by exists (l :: l1), x, l2|]. exists [], l, ls. split_and!; [done|done|]. intros l' a' Hl'. by apply Hn.
Qed.
Lemma setting_skip {A} (P : bytes → A → Prop) l ls none v : (∀ a, ¬ P l a) → setting P ls none v → setting P (l :: ls) none v.
Proof.
  intros Hl [(l1 & x & l2 & -> & H1 & H2)|[Hn ->]]; [left; by exists (l :: l1), x, l2|]. right. split; [|done]. intros l' a [-> |Hl']%elem_of_cons; [apply Hl|by apply Hn].
Qed.

Section Proofs.
Context {W Ans : Type} (api : call → W → W * option Ans) (names : Ans → list bytes) (exists_file : W → bytes → bool).
Notation exec := (exec api names exists_file). Notation command := (command api names exists_file).

Lemma exec_command r line w : exec r line w = match command r (parse_line line).1 (parse_line line).2 w with
  | Some (r', d) => Some (r', Done_ (d_world d) (d_calls d) (d_output d ++ if d_ok d then [] else [Problem]) (d_ok d)) | None => None end.
Proof. unfold Console.exec, parse_line. by destruct (split_first 32%N line) as [[k v]|]. Qed.
(** The cases of a command *)
Ltac commands := unfold Console.command; cbv zeta; repeat (case_bool_decide; [subst; cbn [orb]|]); cbn [orb].

Lemma exec_none r line w : exec r line w = None ↔ ends line.
Proof.
  rewrite exec_command. unfold ends. setoid_rewrite typed_iff; [|done..]. destruct (parse_line line) as [cmd args]. cbn [fst snd].
  assert (command r cmd args w = None ↔ cmd = str "quit" ∨ cmd = str "exit") as E.
  { commands; (split; [intros Hx; first [discriminate Hx|by left|by right]|intros [Hx|Hx]; first [done|congruence|by vm_compute in Hx]]). }
  destruct (command r cmd args w) as [[r' d]|]; split; try done.
  - intros (a & [[= -> ->]|[= -> ->]]); [discriminate (proj2 E (or_introl eq_refl))|discriminate (proj2 E (or_intror eq_refl))].
  - intros _. destruct (proj1 E eq_refl) as [-> | ->]; exists args; [by left|by right].
Qed.

(** ** Settings *)
Lemma number_iff (cmd : string) line n : bool_decide (32%N ∉ str cmd) = true →
  sets_number cmd line n ↔ (parse_line line).1 = str cmd ∧ (parse_line line).2 ≠ [] ∧ parse_num usize_limit (trim (parse_line line).2) = Some n.
Proof.
  intros Hc. unfold sets_number. setoid_rewrite typed_iff; [|done..]. setoid_rewrite trim_iff. setoid_rewrite <- parse_num_spec. destruct (parse_line line) as [k v]. cbn. split.
  - intros (a & t & [= -> ->] & H1 & <- & H2). done.
  - intros (-> & H1 & H2). by exists v, (trim v).
Qed.
Lemma switch_iff (cmd : string) line v : bool_decide (32%N ∉ str cmd) = true →
  sets_switch cmd line v ↔ (parse_line line).1 = str cmd ∧ switch_of (parse_line line).2 = Some v.
Proof.
  intros Hc. unfold sets_switch. setoid_rewrite typed_iff; [|done..]. setoid_rewrite trim_iff. 
  assert (∀ t, (if v then same_letters t (str "on") ∨ same_letters t (str "true") else same_letters t (str "off") ∨ same_letters t (str "false")) ↔
    if v then RelAnnisConfig.lower t = str "on" ∨ RelAnnisConfig.lower t = str "true" else RelAnnisConfig.lower t = str "off" ∨ RelAnnisConfig.lower t = str "false") as El.
  { intros t. destruct v; rewrite !lower_same; try done; apply (bool_decide_unpack _); vm_compute; exact I. }
  setoid_rewrite El. clear El. destruct (parse_line line) as [k a]. cbn. unfold switch_of. split.
  - intros (a' & t & [= -> ->] & <- & H). split; [done|]. destruct v; [by rewrite decide_True|]. rewrite decide_False; [by rewrite decide_True|]. intros [H'|H']; rewrite H' in H; destruct H as [H|H]; by vm_compute in H.
  - intros [-> H]. exists a, (trim a). split_and!; [done|done|]. case_decide as D; [by injection H as <-|]. case_decide as D'; [by injection H as <-|done].
Qed.
Lemma order_iff line o : order_line line o ↔ (parse_line line).1 = str "set-order" ∧ (if decide ((parse_line line).2 = []) then Some Normal else order_of (parse_line line).2) = Some o.
Proof.
  unfold order_line. setoid_rewrite typed_iff; [|done..].
  assert (∀ s, same_letters s (order_name o) ↔ RelAnnisConfig.lower s = order_name o) as El.
  { intros s. rewrite lower_same; [done|]. destruct o; apply (bool_decide_unpack _); vm_compute; exact I. }
  setoid_rewrite El. destruct (parse_line line) as [k a]. cbn. split.
  - intros [[[= -> ->] ->]|(a' & [= -> ->] & H)]; [done|]. split; [done|]. case_decide as D; [subst a'; destruct o; by vm_compute in H|]. unfold order_of. cbv zeta. rewrite H. destruct o; reflexivity.
  - intros [-> H]. case_decide as D; [left; subst; by injection H as <-|]. right. exists a. split; [done|]. revert H. unfold order_of. cbv zeta. 
    repeat (case_decide; [intros [= <-]; assumption|]). done.
Qed.
(** How a command changes a setting *)
Lemma command_cases r cmd args w r' d : command r cmd args w = Some (r', d) →
  r' = r ∨ (cmd = str "corpus" ∧ ∃ cs, r' = with_corpora r cs) ∨
  (cmd = str "set-offset" ∧ ∃ n, r' = Runner (ru_open r) (ru_corpora r) n (ru_limit r) (ru_order r) (ru_parallel r) (ru_disk r) (ru_language r) (ru_timeout r)) ∨
  (cmd = str "set-limit" ∧ ∃ n, r' = Runner (ru_open r) (ru_corpora r) (ru_offset r) n (ru_order r) (ru_parallel r) (ru_disk r) (ru_language r) (ru_timeout r)) ∨
  (cmd = str "set-order" ∧ ∃ n, r' = Runner (ru_open r) (ru_corpora r) (ru_offset r) (ru_limit r) n (ru_parallel r) (ru_disk r) (ru_language r) (ru_timeout r)) ∨
  (cmd = str "set-timeout" ∧ ∃ n, r' = Runner (ru_open r) (ru_corpora r) (ru_offset r) (ru_limit r) (ru_order r) (ru_parallel r) (ru_disk r) (ru_language r) n) ∨
  (cmd = str "set-parallel-search" ∧ ∃ o n, r' = Runner o (ru_corpora r) (ru_offset r) (ru_limit r) (ru_order r) n (ru_disk r) (ru_language r) (ru_timeout r)) ∨
  (cmd = str "set-disk-based" ∧ ∃ n, r' = Runner (ru_open r) (ru_corpora r) (ru_offset r) (ru_limit r) (ru_order r) (ru_parallel r) n (ru_language r) (ru_timeout r)) ∨
  (cmd = str "set-quirks-mode" ∧ ∃ n, r' = Runner (ru_open r) (ru_corpora r) (ru_offset r) (ru_limit r) (ru_order r) (ru_parallel r) (ru_disk r) n (ru_timeout r)).
Proof.
  unfold Console.command. cbv zeta. 
  repeat match goal with |- (if bool_decide ?P then Some (r, _) else _) = _ → _ => destruct (bool_decide P); [intros [= <- _]; by left|]
  | |- (if bool_decide ?P then Some _ else _) = _ → _ => let H := fresh "Hc" in destruct (bool_decide P) eqn:H; [apply bool_decide_eq_true in H; intros Ex; apply (inj Some) in Ex; clear - Ex H|clear H] end.
  all: try (destruct (_ || _); [done|intros [= <- _]; by left]).
  - unfold do_corpus in Ex. case_decide; [injection Ex as <- _; right; left; eauto|]. destruct (ru_open r); [|injection Ex as <- _; by left].
    destruct (api CList w) as [w1 [a|]]; injection Ex as <- _; [right; left; eauto|by left].
  - unfold do_offset in Ex. case_match; injection Ex as <- _; [|by left]. do 2 right. left. eauto.
  - unfold do_limit in Ex. case_match; injection Ex as <- _; [|by left]. do 3 right. left. eauto.
  - unfold do_order in Ex. case_match; injection Ex as <- _; [|by left]. do 4 right. left. eauto.
  - unfold do_timeout in Ex. case_match; injection Ex as <- _; [|by left]. do 5 right. left. eauto.
  - unfold do_parallel in Ex. destruct (switch_of args) as [v|]; [|injection Ex as <- _; by left]. case_decide; [injection Ex as <- _; by left|].
    destruct (api (COpen v) w) as [w1 [a|]]; injection Ex as <- _; do 6 right; left; eauto.
  - unfold do_disk in Ex. case_match; injection Ex as <- _; [|by left]. do 7 right. left. eauto.
  - unfold do_quirks in Ex. case_match; injection Ex as <- _; [|by left]. do 8 right. eauto.
Qed.
Ltac absurd_name := match goal with H : ?c ≠ ?x, H' : ?c = ?x |- _ => destruct (H H') end.
Ltac other := intros E; apply command_cases in E; destruct E as [-> |E]; [done|];
  repeat (destruct E as [(? & ? & E)|E]; [first [absurd_name|try (destruct E as (? & E)); rewrite E; reflexivity]|]);
  destruct E as (? & ? & E); first [absurd_name|rewrite E; reflexivity].

Lemma step_offset r line w r' d : exec r line w = Some (r', d) →
  (offset_line line (ru_offset r')) ∨ ((∀ a, ¬ offset_line line a) ∧ ru_offset r' = ru_offset r).
Proof.
  rewrite exec_command. unfold offset_line. setoid_rewrite typed_iff; [|done..]. setoid_rewrite number_iff; [|done..]. destruct (parse_line line) as [cmd args]. cbn [fst snd].
  destruct (command r cmd args w) as [[r1 d1]|] eqn:E; [|done]. intros [= <- _]. destruct (decide (cmd = str "set-offset")) as [-> |Hn].
  - change (Some (do_offset r args w) = Some (r1, d1)) in E. injection E as E. unfold do_offset in E. destruct (decide (args = [])) as [-> |Ha].
    + injection E as <- _. left. by left.
    + destruct (parse_num usize_limit (trim args)) as [n|] eqn:Ep; injection E as <- _.
      * left. right. done.
      * right. split; [|done]. intros a [[[= ->] _]|(_ & _ & Hx)]; congruence.
  - right. split; [intros a [[[= -> _] _]|[-> _]]; done|]. revert E. other.
Qed.
Lemma step_limit r line w r' d : exec r line w = Some (r', d) →
  (limit_line line (ru_limit r')) ∨ ((∀ a, ¬ limit_line line a) ∧ ru_limit r' = ru_limit r).
Proof.
  rewrite exec_command. unfold limit_line. setoid_rewrite typed_iff; [|done..]. setoid_rewrite number_iff; [|done..]. destruct (parse_line line) as [cmd args]. cbn [fst snd].
  destruct (command r cmd args w) as [[r1 d1]|] eqn:E; [|done]. intros [= <- _]. destruct (decide (cmd = str "set-limit")) as [-> |Hn].
  - change (Some (do_limit r args w) = Some (r1, d1)) in E. injection E as E. unfold do_limit in E. destruct (decide (args = [])) as [-> |Ha].
    + injection E as <- _. left. by left.
    + destruct (parse_num usize_limit (trim args)) as [n|] eqn:Ep; injection E as <- _.
      * left. right. by exists n.
      * right. split; [|done]. intros a [[[= ->] _]|(n & _ & _ & _ & Hx)]; congruence.
  - right. split; [intros a [[[= -> _] _]|(n & _ & -> & _)]; done|]. revert E. other.
Qed.
Lemma step_timeout r line w r' d : exec r line w = Some (r', d) →
  (timeout_line line (ru_timeout r')) ∨ ((∀ a, ¬ timeout_line line a) ∧ ru_timeout r' = ru_timeout r).
Proof.
  rewrite exec_command. unfold timeout_line. setoid_rewrite typed_iff; [|done..]. setoid_rewrite number_iff; [|done..]. destruct (parse_line line) as [cmd args]. cbn [fst snd].
  destruct (command r cmd args w) as [[r1 d1]|] eqn:E; [|done]. intros [= <- _]. destruct (decide (cmd = str "set-timeout")) as [-> |Hn].
  - change (Some (do_timeout r args w) = Some (r1, d1)) in E. injection E as E. unfold do_timeout in E. destruct (decide (args = [])) as [-> |Ha].
    + injection E as <- _. left. by left.
    + destruct (parse_num usize_limit (trim args)) as [n|] eqn:Ep; injection E as <- _.
      * left. right. by exists n.
      * right. split; [|done]. intros a [[[= ->] _]|(n & _ & _ & _ & Hx)]; congruence.
  - right. split; [intros a [[[= -> _] _]|(n & _ & -> & _)]; done|]. revert E. other.
Qed.
Lemma step_order r line w r' d : exec r line w = Some (r', d) →
  (order_line line (ru_order r')) ∨ ((∀ a, ¬ order_line line a) ∧ ru_order r' = ru_order r).
Proof.
  rewrite exec_command. setoid_rewrite order_iff. destruct (parse_line line) as [cmd args]. cbn [fst snd].
  destruct (command r cmd args w) as [[r1 d1]|] eqn:E; [|done]. intros [= <- _]. destruct (decide (cmd = str "set-order")) as [-> |Hn].
  - change (Some (do_order r args w) = Some (r1, d1)) in E. injection E as E. unfold do_order in E.
    destruct (if decide (args = []) then Some Normal else order_of args) as [o|] eqn:Eo; injection E as <- _; [by left|]. right. split; [|done]. by intros a [_ Hx].
  - right. split; [intros a [-> _]; done|]. revert E. other.
Qed.
Lemma step_disk r line w r' d : exec r line w = Some (r', d) →
  (disk_line line (ru_disk r')) ∨ ((∀ a, ¬ disk_line line a) ∧ ru_disk r' = ru_disk r).
Proof.
  rewrite exec_command. unfold disk_line. setoid_rewrite switch_iff; [|done..]. destruct (parse_line line) as [cmd args]. cbn [fst snd].
  destruct (command r cmd args w) as [[r1 d1]|] eqn:E; [|done]. intros [= <- _]. destruct (decide (cmd = str "set-disk-based")) as [-> |Hn].
  - change (Some (do_disk r args w) = Some (r1, d1)) in E. injection E as E. unfold do_disk in E.
    destruct (switch_of args) as [v|] eqn:Eo; injection E as <- _; [by left|]. right. split; [|done]. by intros a [_ Hx].
  - right. split; [intros a [-> _]; done|]. revert E. other.
Qed.
Lemma step_language r line w r' d : exec r line w = Some (r', d) →
  (language_line line (ru_language r')) ∨ ((∀ a, ¬ language_line line a) ∧ ru_language r' = ru_language r).
Proof.
  rewrite exec_command. unfold language_line. setoid_rewrite switch_iff; [|done..]. destruct (parse_line line) as [cmd args]. cbn [fst snd].
  destruct (command r cmd args w) as [[r1 d1]|] eqn:E; [|done]. intros [= <- _]. destruct (decide (cmd = str "set-quirks-mode")) as [-> |Hn].
  - change (Some (do_quirks r args w) = Some (r1, d1)) in E. injection E as E. unfold do_quirks in E.
    destruct (switch_of args) as [v|] eqn:Eo; injection E as <- _; [left; by destruct v|]. right. split; [|done]. by intros a [_ Hx].
  - right. split; [intros a [-> _]; done|]. revert E. other.
Qed.
End Proofs.
