(** Proofs about the configuration files: text and settings. *)
From Coq Require Import NArith ZArith String Sorting.Sorted Lia.
From stdpp Require Import base list gmap pretty.
From Verif Require Import KeySer KeySerSpec Types CompPath Service RelAnnis RelAnnisSpec RelAnnisFilesSpec RelAnnisFiles RelAnnisConfig RelAnnisConfigSpec.

(** ** Splitting *)
Notation sepb c := (λ b : N, bool_decide (b = c)).
Lemma split_on_cons c cur s : ∃ x l, split_on (sepb c) cur s = (cur ++ x) :: l ∧ split_on (sepb c) [] s = x :: l.
Proof.
  revert cur. induction s as [|b s IH]; intros cur; cbn [split_on]; [exists [], []; by rewrite app_nil_r|].
  destruct (bool_decide _); [exists [], (split_on (sepb c) [] s); by rewrite app_nil_r|].
  destruct (IH (cur ++ [b])) as (x & l & E1 & E2). destruct (IH [b]) as (x' & l' & E1' & E2'). cbn [app] in *. rewrite E2 in E2'. injection E2' as <- <-.
  exists (b :: x), l. rewrite E1, E1'. by rewrite <- app_assoc.
Qed.
Lemma split_on_app c cur x s : c ∉ x → split_on (sepb c) cur (x ++ c :: s) = (cur ++ x) :: split_on (sepb c) [] s.
Proof.
  revert cur. induction x as [|b x IH]; intros cur H; cbn [app split_on].
  - by rewrite bool_decide_true, app_nil_r.
  - apply not_elem_of_cons in H as [H1 H2]. rewrite bool_decide_false by congruence. rewrite IH by done. by rewrite <- app_assoc.
Qed.
Lemma split_on_last c cur x : c ∉ x → split_on (sepb c) cur x = [cur ++ x].
Proof.
  revert cur. induction x as [|b x IH]; intros cur H; cbn [split_on]; [by rewrite app_nil_r|].
  apply not_elem_of_cons in H as [H1 H2]. rewrite bool_decide_false by congruence. rewrite IH by done. by rewrite <- app_assoc.
Qed.
Lemma join_cons c x y l : join c (x :: y :: l) = x ++ c :: join c (y :: l).
Proof. done. Qed.
Lemma split_join c items : items ≠ [] → Forall (λ x, c ∉ x) items → split_on (sepb c) [] (join c items) = items.
Proof.
  intros Hne H. induction items as [|x [|y l] IH]; [done| |].
  - inversion H; subst. unfold join. cbn [fmap list_fmap concat]. rewrite app_nil_r. by apply split_on_last.
  - inversion H; subst. rewrite join_cons, split_on_app by done. cbn [app]. f_equal. by apply IH.
Qed.
Lemma join_split c s : join c (split_on (sepb c) [] s) = s ∧ Forall (λ x, c ∉ x) (split_on (sepb c) [] s) ∧ split_on (sepb c) [] s ≠ [].
Proof.
  induction s as [|b s (IH1 & IH2 & IH3)]; cbn [split_on].
  { split_and!; [done| |done]. apply List.Forall_cons; [apply not_elem_of_nil|apply List.Forall_nil]. }
  destruct (split_on (sepb c) [] s) as [|y l] eqn:E; [done|]. case_bool_decide as Hb.
  - subst b. rewrite join_cons, IH1. split_and!; [done| |done]. apply List.Forall_cons; [apply not_elem_of_nil|done].
  - destruct (split_on_cons c [b] s) as (x & l' & E1 & E2). rewrite E in E2. injection E2 as <- <-. cbn [app] in *. rewrite E1. split_and!; [|inversion IH2; subst; apply List.Forall_cons; [apply not_elem_of_cons; split; [congruence|done]|done]|done].
    rewrite <- IH1. unfold join. done.
Qed.
Lemma split_first_app c k v : c ∉ k → split_first c (k ++ c :: v) = Some (k, v).
Proof.
  induction k as [|b k IH]; intros H; cbn [app split_first]; [by rewrite decide_True|].
  apply not_elem_of_cons in H as [H1 H2]. rewrite decide_False by congruence. by rewrite IH.
Qed.
Lemma split_first_cases c s : (∃ k v, split_first c s = Some (k, v) ∧ s = k ++ c :: v ∧ c ∉ k) ∨ (split_first c s = None ∧ c ∉ s).
Proof.
  induction s as [|b s IH]; cbn [split_first]; [right; split; [done|apply not_elem_of_nil]|].
  destruct (decide (b = c)) as [-> |Hb]; [left; exists [], s; split_and!; [done..|apply not_elem_of_nil]|].
  destruct IH as [(k & v & -> & -> & Hk)|[-> Hn]]; [left; exists (b :: k), v; split_and!; [done..|]|right; split; [done|]]; apply not_elem_of_cons; split; congruence || done.
Qed.
Lemma split_first_spec c s k v : split_first c s = Some (k, v) ↔ s = k ++ c :: v ∧ c ∉ k.
Proof.
  split; [|intros [-> H]; by apply split_first_app]. intros H. destruct (split_first_cases c s) as [(k' & v' & E & H1 & H2)|[E _]]; rewrite E in H; [by injection H as -> ->|done].
Qed.
Lemma line_of_split key l v : bool_decide (61%N ∉ str key) = true → split_first 61%N l = Some (str key, v) ↔ l = line_of key v.
Proof. intros H%bool_decide_eq_true. rewrite split_first_spec. unfold line_of. naive_solver. Qed.

(** ** White space *)
Lemma space_white b : is_space b = true ↔ white b.
Proof. unfold is_space, white. rewrite orb_true_iff, bool_decide_eq_true, andb_true_iff, !N.leb_le. done. Qed.
Lemma trim_start_spec s : ∃ a, s = a ++ trim_start s ∧ Forall white a ∧ (∀ b, head (trim_start s) = Some b → ¬ white b).
Proof.
  induction s as [|b s (a & E & Ha & Hh)]; cbn [trim_start]; [by exists []|]. destruct (is_space b) eqn:Eb.
  - exists (b :: a). cbn [app]. split_and!; [by rewrite <- E|constructor; [by apply space_white|done]|done].
  - exists []. split_and!; [done|constructor|]. intros b' [= <-] Hw%space_white. congruence.
Qed.
Lemma last_app_ne {A} (a b : list A) : b ≠ [] → last (a ++ b) = last b.
Proof. destruct b as [|x b] using rev_ind; [done|]. intros _. rewrite app_assoc, !last_snoc. done. Qed.
Lemma head_app_ne {A} (a b : list A) : a ≠ [] → head (a ++ b) = head a.
Proof. by destruct a. Qed.
Lemma rev_white (b : bytes) : Forall white b → Forall white (reverse b).
Proof. intros H. induction b as [|x b IH]; [done|]. inversion H; subst. rewrite reverse_cons. apply Forall_app. split; [by apply IH|by constructor]. Qed.
Lemma trim_spec s : trim_of s (trim s).
Proof.
  unfold trim. destruct (trim_start_spec s) as (a & E & Ha & Hh). set (t := trim_start s) in *. destruct (trim_start_spec (reverse t)) as (b & E' & Hb & Hh').
  set (u := trim_start (reverse t)) in *. apply (f_equal reverse) in E'. rewrite reverse_involutive, reverse_app in E'. split.
  - intros x [H|H]; [|apply Hh'; by rewrite last_reverse in H].
    apply Hh. rewrite E'. rewrite head_app_ne; [done|]. by destruct (reverse u).
  - exists a, (reverse b). split_and!; [by rewrite <- E'|done|]. by apply rev_white.
Qed.
Lemma white_prefix a t a' t' : a ++ t = a' ++ t' → Forall white a → Forall white a' → (∀ b, head t = Some b → ¬ white b) → (∀ b, head t' = Some b → ¬ white b) → t = t'.
Proof.
  revert a'. induction a as [|x a IH]; intros [|x' a'] E Ha Ha' Ht Ht'; cbn [app] in *.
  - done.
  - subst t. exfalso. inversion Ha'; subst. by apply (Ht x').
  - subst t'. exfalso. inversion Ha; subst. by apply (Ht' x).
  - injection E as <- E. inversion Ha; inversion Ha'; subst. by apply (IH a').
Qed.
Lemma trim_unique s t t' : trim_of s t → trim_of s t' → t = t'.
Proof.
  intros [Ht (a & b & E & Ha & Hb)] [Ht' (a' & b' & E' & Ha' & Hb')].
  destruct (decide (t = [])) as [-> |Hn]; destruct (decide (t' = [])) as [-> |Hn']; [done| | |].
  - exfalso. rewrite E in E'. cbn [app] in E'. assert (Forall white t') as Hw. { assert (Forall white (a ++ b)) as H by (by apply Forall_app). rewrite E' in H. apply Forall_app in H as [_ [H _]%Forall_app]. done. }
    destruct t' as [|x t']; [done|]. inversion Hw; subst. by apply (Ht' x); [left|].
  - exfalso. rewrite E in E'. cbn [app] in E'. assert (Forall white t) as Hw. { assert (Forall white (a' ++ b')) as H by (by apply Forall_app). rewrite <- E' in H. apply Forall_app in H as [_ [H _]%Forall_app]. done. }
    destruct t as [|x t]; [done|]. inversion Hw; subst. by apply (Ht x); [left|].
  - assert (t ++ b = t' ++ b') as E2.
    { eapply (white_prefix a _ a'); [by rewrite <- E, <- E'|done|done| |]; intros x Hx; rewrite head_app_ne in Hx by done; [apply Ht|apply Ht']; by left. }
    apply (f_equal reverse) in E2. rewrite !reverse_app in E2. apply (inj reverse). eapply (white_prefix (reverse b) _ (reverse b')); [done| | | |].
    + by apply rev_white.
    + by apply rev_white.
    + intros x Hx. rewrite head_reverse in Hx. apply Ht. by right.
    + intros x Hx. rewrite head_reverse in Hx. apply Ht'. by right.
Qed.
Lemma trim_iff s t : trim_of s t ↔ trim s = t.
Proof. split; [intros H; exact (trim_unique _ _ _ (trim_spec s) H)|intros <-; apply trim_spec]. Qed.
Lemma trim_trimmed s : trimmed s → trim s = s.
Proof. intros H. apply trim_iff. split; [done|]. exists [], []. by rewrite app_nil_r. Qed.

(** ** Lines *)
Lemma strip_good l : last l ≠ Some 13%N → strip_cr l = l.
Proof.
  intros H. unfold strip_cr. destruct (reverse l) as [|x r] eqn:E; [done|]. assert (last l = Some x) as Hx by (rewrite <- (reverse_involutive l), E, last_reverse; done).
  rewrite Hx in H. destruct x as [|p]; [done|]. repeat (destruct p as [p|p|]; try done).
Qed.
Lemma lines_split ls : Forall good_line ls → split_on (sepb 10%N) [] (write_lines ls) = ls ++ [[]].
Proof.
  induction ls as [|l ls IH]; intros H; [done|]. inversion H as [|? ? [H1 H2] H3]; subst. unfold write_lines. cbn [fmap list_fmap concat]. rewrite <- app_assoc. cbn [app]. rewrite split_on_app by done. cbn [app]. f_equal. by apply IH.
Qed.
Lemma lines_written ls : Forall good_line ls → lines (write_lines ls) = ls.
Proof.
  intros H. unfold lines. rewrite lines_split by done. rewrite reverse_snoc, reverse_involutive.
  rewrite <- (list_fmap_id ls) at 2. apply list_fmap_ext. intros i x Hx%elem_of_list_lookup_2. rewrite Forall_forall in H. apply strip_good. by destruct (H x Hx).
Qed.

(** ** Numbers *)
Lemma digits_le s : ∀ acc, (acc <= foldl (λ n b, n * 10 + (b - 48))%N acc s)%N.
Proof. induction s as [|b s IH]; intros acc; cbn [foldl]; [lia|]. specialize (IH (acc * 10 + (b - 48))%N). lia. Qed.
Lemma parse_digits_spec limit s : ∀ acc n, (acc <= limit)%N → parse_digits limit acc s = Some n ↔ Forall (λ b, 48 <= b <= 57)%N s ∧ n = foldl (λ n b, n * 10 + (b - 48))%N acc s ∧ (n <= limit)%N.
Proof.
  induction s as [|b s IH]; intros acc n Ha; cbn [parse_digits foldl].
  - split; [intros [= <-]; done|intros (_ & -> & _); done].
  - destruct ((48 <=? b)%N && (b <=? 57)%N) eqn:Eb.
    + apply andb_true_iff in Eb as [E1%N.leb_le E2%N.leb_le]. cbv zeta. destruct (N.leb_spec (acc * 10 + (b - 48)) limit) as [Hl|Hl].
      * rewrite IH by done. rewrite Forall_cons. naive_solver.
      * split; [done|]. intros (_ & -> & H). pose proof (digits_le s (acc * 10 + (b - 48))%N). lia.
    + split; [done|]. intros (H & _). inversion H as [|? ? [H1%N.leb_le H2%N.leb_le] _]; subst. by rewrite H1, H2 in Eb.
Qed.
Lemma parse_num_spec s n : parse_num usize_limit s = Some n ↔ is_number s n.
Proof.
  unfold parse_num, is_number. assert (∀ ds, ds ≠ [] → parse_digits usize_limit 0 ds = Some n ↔ Forall (λ b, 48 <= b <= 57)%N ds ∧ n = digits_value ds ∧ (n < 2 ^ 64)%N) as HD.
  { intros ds _. rewrite parse_digits_spec by (unfold usize_limit; lia). unfold digits_value. change (2 ^ 64)%N with (usize_limit + 1)%N. naive_solver lia. }
  destruct s as [|b s].
  - split; [done|]. intros (ds & [<- |H] & Hn & _); done.
  - case_bool_decide as Hb.
    + subst b. destruct s as [|b' s].
      * split; [done|]. intros (ds & [<- |H] & Hn & Hd & _); [inversion Hd; lia|]. by injection H as <-.
      * rewrite HD by done. split; [intros H; exists (b' :: s); split; [by right|]; done|]. intros (ds & [<- |H] & Hn & Hd & H'); [inversion Hd; lia|]. injection H as <-. done.
    + rewrite HD by done. split; [intros H; exists (b :: s); split; [by left|]; done|]. intros (ds & [<- |H] & Hn & H'); [done|]. by injection H as ? _.
Qed.

(** ** Maps *)
Lemma collect_spec pairs : map_of pairs (collect_map pairs).
Proof.
  unfold collect_map. induction pairs as [|[k0 v0] l IH] using rev_ind; intros k v.
  - rewrite reverse_nil. cbn [list_to_map foldr]. rewrite lookup_empty. split; [done|]. intros (l1 & l2 & E & _). by destruct l1.
  - rewrite reverse_app. change (reverse [(k0, v0)]) with [(k0, v0)]. cbn [app list_to_map foldr]. cbn [fst snd]. destruct (decide (k0 = k)) as [-> |Hk].
    + rewrite lookup_insert. split.
      * intros [= ->]. exists l, []. split; [done|apply not_elem_of_nil].
      * intros (l1 & l2 & E & Hn). destruct l2 as [|[k2 v2] l2 _] using rev_ind; [apply app_inj_tail in E as [_ [= <-]]; done|].
        rewrite app_comm_cons, app_assoc in E. apply app_inj_tail in E as [_ [= <- <-]]. rewrite fmap_app in Hn. cbn [fmap list_fmap fst] in Hn. set_solver.
    + rewrite lookup_insert_ne by done. rewrite (IH k v). split.
      * intros (l1 & l2 & -> & Hn). exists l1, (l2 ++ [(k0, v0)]). split; [by rewrite <- app_assoc|]. rewrite fmap_app. cbn [fmap list_fmap fst]. set_solver.
      * intros (l1 & l2 & E & Hn). destruct l2 as [|[k2 v2] l2 _] using rev_ind; [apply app_inj_tail in E as [_ [= -> ->]]; done|].
        rewrite app_comm_cons, app_assoc in E. apply app_inj_tail in E as [-> [= <- <-]]. exists l1, l2. split; [done|]. rewrite fmap_app in Hn. set_solver.
Qed.
Lemma map_of_unique pairs m m' : map_of pairs m → map_of pairs m' → m = m'.
Proof. intros H H'. apply map_eq. intros k. apply option_eq. intros v. by rewrite (H k v), (H' k v). Qed.
