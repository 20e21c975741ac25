(** The tokens of a text that is laid out from words *)
From Coq Require Import NArith String Lia.
From stdpp Require Import base list pretty.
From Verif Require Import KeySer KeySerSpec CompPath AqlLexer AqlLexerSpec AqlLexerProofs AqlTokens AqlSpec.
Set Default Proof Using "Type".

(** ** First bytes *)
Fixpoint nullable (r : regex) : bool := match r with Text [] => true | Text _ | Chars _ => false | Seq a b => nullable a && nullable b | Star _ | Maybe _ => true end.
Fixpoint first_b (r : regex) (b : N) : bool :=
  match r with Text (c :: _) => (c =? b)%N | Text [] => false | Chars p => p b | Seq a c => first_b a b || (nullable a && first_b c b) | Star a | Maybe a => first_b a b end.
Lemma nullable_spec r : matches r [] → nullable r = true.
Proof.
  intros H. remember [] as s eqn:E. revert E. induction H as [l|p b Hp|a b s t H1 IH1 H2 IH2| | | |]; intros E; try done; cbn.
  - by subst l.
  - apply app_nil in E as [-> ->]. by rewrite IH1, IH2.
Qed.
Lemma first_spec r b w : matches r (b :: w) → first_b r b = true.
Proof.
  intros H. remember (b :: w) as s eqn:E. revert b w E. induction H as [l|p b Hp|a c s t H1 IH1 H2 IH2|a|a s t H1 IH1 H2 IH2|a|a s H IH]; intros x w E; try done; cbn.
  - subst l. apply N.eqb_refl.
  - by injection E as <- _.
  - destruct s as [|y s].
    + apply nullable_spec in H1. rewrite H1. cbn. rewrite (IH2 _ _ E). apply orb_true_r.
    + cbn in E. injection E as <- _. by rewrite (IH1 _ _ eq_refl).
  - destruct s as [|y s]; [by eapply IH2|]. cbn in E. injection E as <- _. by eapply IH1.
  - by eapply IH.
Qed.

(** ** Words *)
Definition is_word (w : bytes) (t : token) : Prop :=
  ∃ i r mk, rules !! i = Some (r, mk) ∧ matches r w ∧ mk w = t ∧ ∀ j r' mk', j < i → rules !! j = Some (r', mk') → ¬ matches r' w.
Lemma word_nonempty w t : is_word w t → w ≠ [].
Proof.
  intros (i & r & mk & Hi & Hr & _) ->. pose proof rules_nonempty as H. rewrite List.Forall_forall in H. apply (H (r, mk)); [|done]. apply elem_of_list_In. by eapply elem_of_list_lookup_2.
Qed.
Lemma word_longest w t : is_word w t → match longest terminals w with Some (n, _) => Nat.eqb n (length w) | None => false end = true.
Proof.
  intros H. pose proof (word_nonempty _ _ H) as Hne. destruct H as (i & r & mk & Hi & Hr & _). pose proof (longest_spec rules terminals w rules_scan) as Hl.
  destruct (longest terminals w) as [[n mk']|].
  - destruct Hl as (i' & r' & mk'' & H1 & H2 & H3 & H4 & H5). specialize (H5 i r mk (length w) Hi). rewrite firstn_all in H5. specialize (H5 ltac:(lia) Hr). apply Nat.eqb_eq. lia.
  - exfalso. eapply (Hl i r mk (length w)); [done|lia|]. by rewrite firstn_all.
Qed.
Lemma word_by_first i r mk b w : rules !! i = Some (r, mk) → matches r (b :: w) → forallb (λ x : rule, negb (first_b x.1 b)) (take i rules) = true → is_word (b :: w) (mk (b :: w)).
Proof.
  intros Hi Hr H. exists i, r, mk. split; [done|]. split; [done|]. split; [done|]. intros j r' mk' Hj Hj' Hr'. apply first_spec in Hr'. rewrite forallb_forall in H.
  assert ((r', mk') ∈ take i rules) as Hin by (eapply elem_of_list_lookup_2; rewrite lookup_take; [exact Hj'|done]). apply elem_of_list_In, H in Hin. cbn [fst] in Hin. by rewrite Hr' in Hin.
Qed.

(** ** Words that touch *)
Definition wordy (c : N) : bool := letter c || digit c || one_of [95; 45; 37; 35]%N c.
Lemma touch_wordy w c l : wordy c = true → may_touch w (c :: l) → (∃ x, last w = Some x ∧ x ∈ closers) ∨ w = str ":" ∧ take 5 (c :: l) ≠ str "arity".
Proof. intros H. unfold may_touch. fold (wordy c). by rewrite H. Qed.
Lemma id_char_wordy c : id_char c = true → wordy c = true.
Proof.
  rewrite <- id_char_spec. unfold wordy, one_of, existsb. repeat match goal with |- context [N.eqb ?a ?b] => generalize (N.eqb a b); intros ? end. destruct (letter c), (digit c); try done. cbn. repeat match goal with x : bool |- _ => destruct x end; done.
Qed.
Lemma closer_not_id x : x ∈ closers → id_char x = false.
Proof. intros H. apply elem_of_list_In in H. unfold closers in H. cbn [In] in H. repeat destruct H as [<-|H]; try reflexivity. done. Qed.
Lemma no_touch_id w c l : (∃ x, last w = Some x ∧ x ∉ closers) → w ≠ str ":" → wordy c = true → ¬ may_touch w (c :: l).
Proof. intros (x & Hx & Hc) Hw H Ht. apply touch_wordy in Ht as [(y & Hy & Hcy)|[-> _]]; [|done|done]. congruence. Qed.
Lemma last_forall (p : N → bool) (l : bytes) : l ≠ [] → forallb p l = true → ∃ x, last l = Some x ∧ p x = true.
Proof.
  intros Hne H. destruct (last l) as [x|] eqn:E; [|by apply last_None in E]. exists x. split; [done|]. rewrite forallb_forall in H. apply H. apply elem_of_list_In. by apply last_Some_elem_of.
Qed.
Lemma last_id l : l ≠ [] → forallb id_char l = true → ∃ x, last l = Some x ∧ x ∉ closers.
Proof. intros Hne H. destruct (last_forall _ _ Hne H) as (x & Hx & Hc). exists x. split; [done|]. intros Hin. apply closer_not_id in Hin. congruence. Qed.
Lemma alnum_id c : is_alnum c = true → id_char c = true.
Proof. unfold is_alnum, id_char, id_start. destruct (is_alpha c), (is_num c); cbn; intros; by rewrite ?orb_true_r. Qed.
Lemma num_id c : is_num c = true → id_char c = true.
Proof. intros H. apply alnum_id. unfold is_alnum. by rewrite H, orb_true_r. Qed.
Lemma start_id c : id_start c = true → id_char c = true.
Proof. intros H. unfold id_char. by rewrite H. Qed.
Lemma alpha_id c : is_alpha c = true → id_char c = true.
Proof. intros H. apply alnum_id. unfold is_alnum. by rewrite H. Qed.
Lemma forallb_impl (p q : N → bool) (l : bytes) : (∀ c, p c = true → q c = true) → forallb p l = true → forallb q l = true.
Proof. intros H. rewrite !forallb_forall. eauto. Qed.
Lemma id_pred_all l : id_pred l = true → forallb id_char l = true.
Proof. destruct l as [|b l]; [done|]. cbn. rewrite !andb_true_iff. intros [Hb H]. split; [by apply start_id|done]. Qed.
Lemma alnum_pred_all l : alnum_pred l = true → forallb id_char l = true.
Proof. destruct l as [|b l]; [done|]. cbn. rewrite !andb_true_iff. intros [Hb H]. split; [by apply alpha_id|]. eapply forallb_impl; [|done]. apply alnum_id. Qed.
Lemma split_all p (w : bytes) c u : forallb p (w ++ c :: u) = true → forallb p w = true ∧ p c = true.
Proof. rewrite forallb_app. cbn. rewrite !andb_true_iff. tauto. Qed.
(** a text in which a word ends can be extended only where words must not touch *)
Lemma not_colon_id (w : bytes) : forallb id_char w = true → w ≠ str ":".
Proof. by intros H ->. Qed.
Lemma no_touch_all w c u l : w ≠ [] → forallb id_char (w ++ c :: u) = true → ¬ may_touch w (c :: l).
Proof. intros Hne H. apply split_all in H as [H1 H2]. apply no_touch_id; [by apply last_id|by apply not_colon_id|by apply id_char_wordy]. Qed.
Lemma no_touch_prefix (x : N) pre w c u l : w ≠ [] → forallb id_char (w ++ c :: u) = true → ¬ may_touch (x :: pre ++ w) (c :: l).
Proof.
  intros Hne H. apply split_all in H as [H1 H2]. destruct (last_id _ Hne H1) as (y & Hy & Hc). apply no_touch_id; [|destruct pre; [by destruct w|done]|by apply id_char_wordy].
  exists y. split; [|done]. rewrite (app_comm_cons pre). by rewrite last_app, Hy.
Qed.
(** literals *)
Definition touch_b (w rest : bytes) : bool :=
  match rest with
  | [] => true
  | c :: _ =>
      if wordy c then match last w with Some x => bool_decide (x ∈ closers) | None => false end || (bool_decide (w = str ":") && negb (bool_decide (take 5 rest = str "arity")))
      else if (c =? 61)%N then bool_decide (last w ≠ Some 61%N ∧ last w ≠ Some 33%N ∧ (w ≠ str "_" ∨ take 2 rest ≠ str "=_"))
      else if (c =? 58)%N then bool_decide (w ≠ str "meta" ∨ take 2 rest ≠ str "::") else true
  end.
Lemma touch_b_spec w c u l : may_touch w (c :: u ++ l) → touch_b w (c :: u) = true.
Proof.
  unfold may_touch, touch_b. fold (wordy c). destruct (wordy c).
  - intros [(x & Hx & Hc)|[-> Ha]]; [rewrite Hx; rewrite bool_decide_true by done; done|]. rewrite orb_true_iff. right. rewrite bool_decide_true by done. cbn [andb]. apply negb_true_iff. apply bool_decide_eq_false. intros E. apply Ha.
    assert (5 ≤ length (c :: u)) as Hl by (apply (f_equal length) in E; rewrite take_length in E; change (length (str "arity")) with 5 in E; lia).
    rewrite (app_comm_cons u l c), take_app_le by done. done.
  - assert (∀ a b : N, take 2 (c :: u ++ l) ≠ [a; b] → take 2 (c :: u) ≠ [a; b]) as Htake by (intros a b H E; apply H; destruct u; [discriminate|exact E]).
    destruct (c =? 61)%N; [intros (H1 & H2 & [H3|H3]); apply bool_decide_eq_true; split_and!; auto; right; by apply Htake|]. destruct (c =? 58)%N; [|done]. intros [H|H]; apply bool_decide_eq_true; [by left|right; by apply Htake].
Qed.
Definition word_b (w : bytes) : bool := match longest terminals w with Some (n, _) => Nat.eqb n (length w) | None => false end.
Definition literal_safe (l : bytes) : bool := forallb (λ n, negb (word_b (take n l) && touch_b (take n l) (drop n l))) (seq 1 (length l - 1)).
Lemma literal_no_touch l w c u rest : literal_safe l = true → w ≠ [] → word_b w = true → w ++ c :: u = l → ¬ may_touch w (c :: u ++ rest).
Proof.
  intros Hs Hne Hw <- Ht. unfold literal_safe in Hs. rewrite forallb_forall in Hs. specialize (Hs (length w)). rewrite take_app, drop_app, Hw in Hs.
  rewrite (touch_b_spec _ _ _ _ Ht) in Hs. assert (In (length w) (seq 1 (length (w ++ c :: u) - 1))) as Hin; [|by specialize (Hs Hin)]. apply in_seq. rewrite app_length. cbn. destruct w; [done|cbn; lia].
Qed.
Lemma body_prefix_free s c u : Body s → ¬ Body (s ++ c :: u).
Proof. induction 1 as [|b s H1 H2 H IH|d s Hd H IH]; intros Hb; cbn in Hb; inversion Hb; subst; try done. Qed.
Definition quoted_regex : regex := Seq (Text [34%N]) (Seq (Star (Chars (none_of [34%N]))) (Text [34%N])).
Definition slashes_regex : regex := Seq (Text (str "/")) body.
Lemma rules_first (b : N) : b = 34%N ∨ b = 47%N → Forall (λ x : rule, ∀ w, matches x.1 (b :: w) → matches (if (b =? 34)%N then quoted_regex else slashes_regex) (b :: w)) rules.
Proof.
  intros [-> | ->]; unfold rules; repeat (apply List.Forall_cons; [|]); try apply List.Forall_nil; intros w H; cbn [fst word] in H; try (apply first_spec in H; discriminate H); exact H.
Qed.
Lemma word_starts w t b : is_word (b :: w) t → b = 34%N ∨ b = 47%N → matches (if (b =? 34)%N then quoted_regex else slashes_regex) (b :: w).
Proof.
  intros (i & r & mk & Hi & Hr & _) Hb. pose proof (rules_first b Hb) as H. rewrite List.Forall_forall in H. apply (H (r, mk)); [|done]. apply elem_of_list_In. by eapply elem_of_list_lookup_2.
Qed.
Lemma quoted_inv w : matches quoted_regex w → ∃ v, w = 34%N :: v ++ [34%N] ∧ 34%N ∉ v.
Proof.
  intros H. apply seq_inv in H as (s1 & s2 & -> & H1 & H2). apply text_inv in H1. subst s1. apply seq_inv in H2 as (v & s3 & -> & H1 & H2). apply text_inv in H2. subst s3. exists v. split; [done|].
  apply star_chars in H1. rewrite forallb_forall in H1. intros Hin. apply elem_of_list_In, H1 in Hin. done.
Qed.
Lemma quoted_prefix_free w c u : matches quoted_regex w → ¬ matches quoted_regex (w ++ c :: u).
Proof.
  intros H H'. apply quoted_inv in H as (v & -> & _). apply quoted_inv in H' as (v' & E & Hv'). injection E as E. rewrite <- (assoc_L (++)) in E. apply Hv'.
  assert (length v < length v') as Hl by (apply (f_equal length) in E; rewrite !app_length in E; cbn in E; lia).
  assert ((v' ++ [34%N]) !! length v = Some 34%N) as Hk by (rewrite <- E; by apply list_lookup_middle). rewrite lookup_app_l in Hk by done. by eapply elem_of_list_lookup_2.
Qed.
Lemma slashes_inv w : matches slashes_regex w → ∃ v, w = 47%N :: v ∧ Body v.
Proof. intros H. apply seq_inv in H as (s1 & s2 & -> & H1 & H2). apply text_inv in H1. subst s1. exists s2. split; [done|by apply body_matches]. Qed.
Lemma rules_no_touch : Forall (λ x : rule, ∀ w t c u l, is_word w t → matches x.1 (w ++ c :: u) → ¬ may_touch w (c :: u ++ l)) rules.
Proof.
  assert (∀ l mk w t c u rest, literal_safe l = true → is_word w t → matches ((Text l, mk) : rule).1 (w ++ c :: u) → ¬ may_touch w (c :: u ++ rest)) as Hlit.
  { intros l mk w t c u rest Hs Hw H. cbn [fst] in H. apply text_inv in H. eapply literal_no_touch; [done|by eapply word_nonempty|by eapply word_longest|done]. }
  assert (∀ w t, is_word w t → w ≠ str "#" ∧ w ≠ str "-") as Hnw by (intros w t Hw; split; intros ->; apply word_longest in Hw; vm_compute in Hw; discriminate).
  assert (∀ o, o ∉ closers → [o] ≠ str ":" → ∀ w t c u l, is_word w t → matches (Seq (Text [o]) (Maybe id_regex)) (w ++ c :: u) → ¬ may_touch w (c :: u ++ l)) as Hop.
  { intros o Ho Ho' w t c u l Hw H. apply seq_inv in H as (s1 & s2 & E & H1 & H2). apply text_inv in H1. subst s1. destruct w as [|b w]; [by apply word_nonempty in Hw|]. cbn in E. injection E as -> E.
    apply maybe_inv in H2 as [-> |H2]; [by destruct w|]. apply id_matches, id_pred_all in H2. rewrite <- E in H2. destruct w as [|b w].
    - apply no_touch_id; [exists o; done|done|]. apply split_all in H2 as [_ H2]. by apply id_char_wordy.
    - apply (no_touch_prefix o [] (b :: w) c u); done. }
  unfold rules. repeat (apply List.Forall_cons; [|]); try apply List.Forall_nil; try (intros w t c u l; apply Hlit; vm_compute; reflexivity); intros w t c u l Hw H; cbn [fst] in H.
  - apply id_matches, id_pred_all in H. eapply no_touch_all; [by eapply word_nonempty|done].
  - apply seq_inv in H as (s1 & s2 & E & H1 & H2). apply text_inv in H1. subst s1. destruct w as [|b w]; [by apply word_nonempty in Hw|]. cbn in E. injection E as -> E. apply digits_matches in H2 as [_ H2]. rewrite <- E in H2.
    destruct w as [|b w]; [by destruct (Hnw _ _ Hw)|]. apply (no_touch_prefix _ [] (b :: w) c u); [done|]. eapply forallb_impl; [|done]. apply num_id.
  - apply seq_inv in H as (s1 & s2 & E & H1 & H2). apply text_inv in H1. subst s1. destruct w as [|b w]; [by apply word_nonempty in Hw|]. cbn in E. injection E as -> E. apply alnum_matches, alnum_pred_all in H2. rewrite <- E in H2.
    destruct w as [|b w]; [by destruct (Hnw _ _ Hw)|]. by apply (no_touch_prefix _ [] (b :: w) c u).
  - apply seq_inv in H as (s1 & s2 & E & H1 & H2). apply text_inv in H2. subst s2. apply alnum_matches, alnum_pred_all in H1.
    assert (forallb id_char w = true ∧ wordy c = true) as [Hi Hc].
    { destruct u as [|x u _] using rev_ind.
      - apply app_inj_tail in E as [-> ->]. done.
      - rewrite app_comm_cons, (assoc_L (++)) in E. apply app_inj_tail in E as [<- _]. apply split_all in H1 as [? ?]. split; [done|by apply id_char_wordy]. }
    apply no_touch_id; [|by apply not_colon_id|done]. apply last_id; [by eapply word_nonempty|done].
  - apply digits_matches in H as [_ H]. eapply no_touch_all; [by eapply word_nonempty|]. eapply forallb_impl; [|done]. apply num_id.
  - eapply (Hop 62%N); [apply (bool_decide_unpack _); vm_compute; exact I|done|done|done].
  - apply seq_inv in H as (s1 & s2 & E & H1 & H2). apply text_inv in H1. subst s1. destruct w as [|b w]; [by apply word_nonempty in Hw|]. cbn in E. injection E as -> E. destruct w as [|b w]; [by destruct (Hnw _ _ Hw)|]. cbn in E. injection E as -> E.
    apply id_matches, id_pred_all in H2. rewrite <- E in H2. destruct w as [|b w].
    + apply no_touch_id; [exists 62%N; split; [done|apply (bool_decide_unpack _); vm_compute; exact I]|done|]. apply split_all in H2 as [_ H2]. by apply id_char_wordy.
    + by apply (no_touch_prefix _ [62%N] (b :: w) c u).
  - eapply (Hop 46%N); [apply (bool_decide_unpack _); vm_compute; exact I|done|done|done].
  - eapply (Hop 94%N); [apply (bool_decide_unpack _); vm_compute; exact I|done|done|done].
  - exfalso. destruct w as [|b w]; [by apply word_nonempty in Hw|]. destruct (quoted_inv _ H) as (v & E & _). cbn in E. injection E as -> _. apply word_starts in Hw; [|by left]. by apply (quoted_prefix_free _ _ _ Hw) in H.
  - exfalso. destruct w as [|b w]; [by apply word_nonempty in Hw|]. destruct (slashes_inv _ H) as (v & E & Hv). cbn in E. injection E as -> E. apply word_starts in Hw; [|by right]. cbn in Hw. destruct (slashes_inv _ Hw) as (v' & E' & Hv'). injection E' as <-.
    subst v. by apply (body_prefix_free _ _ _ Hv') in Hv.
Qed.

(** ** Layouts *)
Lemma spaces_tokenized g off s ts : Spaces g → Tokenized (off + length g) s ts → Tokenized off (g ++ s) ts.
Proof.
  intros H. revert off. induction H as [|w g Hw H IH]; intros off Ht; [by rewrite Nat.add_0_r in Ht|]. rewrite <- (assoc_L (++)). constructor; [done|]. apply IH. by rewrite app_length, Nat.add_assoc in Ht.
Qed.
Lemma laid_out_tokens off ws text ps : LaidOut off ws text ps → ∀ ts, Forall2 is_word ws ts → Tokenized off text (zip ps ts) ∧ length ps = length ts.
Proof.
  induction 1 as [off g Hg|off g w ws text ps Hg Ht H IH]; intros ts Hw.
  - apply Forall2_nil_inv_l in Hw as ->. split; [|done]. rewrite <- (app_nil_r g). apply spaces_tokenized; [done|]. constructor.
  - apply Forall2_cons_inv_l in Hw as (t & ts' & Hw & Hws & ->). destruct (IH _ Hws) as [H1 H2]. split; [|by cbn; f_equal]. apply spaces_tokenized; [done|]. pose proof (word_nonempty _ _ Hw) as Hne. pose proof Hw as (i & r & mk & Hi & Hr & <- & Hfirst). cbn [zip zip_with].
    eapply tokenized_token; [done|done|done| |done]. intros j r' mk' w' s' Hj Hr' E. destruct (decide (length w' < length w)) as [?|Hge]; [by left|]. right.
    assert (∃ x, w' = w ++ x ∧ text = x ++ s') as (x & -> & Ex).
    { apply app_eq_inv in E as [(k & -> & ->)|(k & -> & ->)]; [|eauto]. rewrite app_length in Hge. destruct k; [|cbn in Hge; lia]. exists []. rewrite !app_nil_r. done. }
    destruct x as [|c x].
    + rewrite app_nil_r in Hr' |- *. split; [done|]. destruct (decide (i ≤ j)) as [|Hlt]; [done|]. exfalso. apply (Hfirst j r' mk'); [lia|done|done].
    + exfalso. pose proof rules_no_touch as Hall. rewrite List.Forall_forall in Hall. apply (Hall (r', mk') ltac:(apply elem_of_list_In; by eapply elem_of_list_lookup_2) w (mk w) c x s' Hw Hr'). cbn in Ex. by rewrite Ex in Ht.
Qed.
