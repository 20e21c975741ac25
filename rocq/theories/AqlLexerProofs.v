(** The lexer finds the longest matches of the regular expressions *)
From Coq Require Import NArith String Lia.
From stdpp Require Import base list.
From Verif Require Import KeySer KeySerSpec CompPath AqlLexer AqlLexerSpec.
Set Default Proof Using "Type".

(** ** Regular expressions *)
Lemma text_inv l s : matches (Text l) s ↔ s = l.
Proof. split; [inversion 1; done|intros ->; constructor]. Qed.
Lemma seq_inv a b s : matches (Seq a b) s ↔ ∃ s1 s2, s = s1 ++ s2 ∧ matches a s1 ∧ matches b s2.
Proof. split; [inversion 1; subst; eauto|intros (s1 & s2 & -> & H1 & H2); by constructor]. Qed.
Lemma chars_inv p s : matches (Chars p) s ↔ ∃ b, s = [b] ∧ p b = true.
Proof. split; [inversion 1; subst; eauto|intros (b & -> & H1); by constructor]. Qed.
Lemma maybe_inv a s : matches (Maybe a) s ↔ s = [] ∨ matches a s.
Proof. split; [inversion 1; subst; eauto|intros [-> |H]; by constructor]. Qed.
Lemma star_ind_inv a s : matches (Star a) s → s = [] ∨ ∃ s1 s2, s = s1 ++ s2 ∧ matches a s1 ∧ matches (Star a) s2.
Proof. inversion 1; subst; eauto 6. Qed.
Lemma star_chars p s : matches (Star (Chars p)) s ↔ forallb p s = true.
Proof.
  split.
  - intros H. remember (Star (Chars p)) as r eqn:E. revert E. induction H; intros E; try discriminate; [done|]. injection E as ->. apply chars_inv in H as (b & -> & Hb). cbn. rewrite Hb. by apply IHmatches2.
  - induction s as [|b s IH]; intros H; [constructor|]. cbn in H. apply andb_true_iff in H as [Hb H]. apply (m_star _ [b]); [by constructor|by apply IH].
Qed.

(** ** Spans *)
Lemma span_le p s : span p s ≤ length s.
Proof. induction s as [|b s IH]; cbn; [lia|]. destruct (p b); lia. Qed.
Lemma span_all p s : forallb p (take (span p s) s) = true.
Proof. induction s as [|b s IH]; cbn; [done|]. destruct (p b) eqn:E; cbn; [|done]. by rewrite E. Qed.
Lemma span_max p s n : forallb p (take n s) = true → n ≤ length s → n ≤ span p s.
Proof. revert n. induction s as [|b s IH]; intros [|n] H Hn; cbn in *; try lia. apply andb_true_iff in H as [E H]. rewrite E. specialize (IH n H). lia. Qed.
Lemma span_ext p q s : (∀ b, p b = q b) → span p s = span q s.
Proof. intros H. induction s as [|b s IH]; cbn; [done|]. rewrite H. by destruct (q b); f_equal. Qed.
Lemma span_next p s b : s !! span p s = Some b → p b = false.
Proof. induction s as [|a s IH]; cbn; [done|]. destruct (p a) eqn:E; cbn; [done|]. by intros [= <-]. Qed.
Lemma forallb_ext' {A} (p q : A → bool) l : (∀ b, p b = q b) → forallb p l = forallb q l.
Proof. intros H. induction l as [|b l IH]; cbn; [done|]. by rewrite H, IH. Qed.

(** ** A scanner finds the longest match *)
Definition finds (r : regex) (scan : bytes → option nat) : Prop :=
  ∀ s, match scan s with
  | Some n => n ≤ length s ∧ matches r (take n s) ∧ ∀ m, m ≤ length s → matches r (take m s) → m ≤ n
  | None => ∀ m, m ≤ length s → ¬ matches r (take m s)
  end.
Lemma finds_ext r r' scan : (∀ s, matches r s ↔ matches r' s) → finds r scan → finds r' scan.
Proof. intros H Hf s. specialize (Hf s). destruct (scan s); [|intros m Hm; rewrite <- H; by apply Hf]. destruct Hf as (H1 & H2 & H3). split; [done|]. split; [by apply H|]. intros m Hm Hr. apply H3; [done|]. by apply H. Qed.
Lemma finds_text l : finds (Text l) (scan_lit l).
Proof.
  intros s. unfold scan_lit. destruct (decide (take (length l) s = l)) as [E|E].
  - assert (length l ≤ length s) as Hl by (rewrite <- E at 1; rewrite take_length; lia). split; [done|]. split; [by apply text_inv|]. intros m Hm H. apply text_inv in H. apply (f_equal length) in H. rewrite take_length in H. lia.
  - intros m Hm H. apply text_inv in H. apply E. rewrite <- H at 1. rewrite take_length. rewrite (Nat.min_l m _ Hm). done.
Qed.
Definition id_pred (s : bytes) : bool := match s with b :: r => id_start b && forallb id_char r | [] => false end.
Lemma id_start_spec b : letter b || one_of [95; 37]%N b = id_start b.
Proof. unfold letter, upper, lower, one_of, id_start, is_alpha, between, existsb. by rewrite orb_false_r, !orb_assoc. Qed.
Lemma id_char_spec b : letter b || digit b || one_of [95; 45; 37]%N b = id_char b.
Proof.
  unfold letter, upper, lower, digit, one_of, id_char, id_start, is_alpha, is_num, between, existsb. rewrite orb_false_r.
  repeat match goal with |- context [N.leb ?a ?b] => let x := fresh in generalize (N.leb a b); intros x end.
  repeat match goal with |- context [N.eqb ?a ?b] => let x := fresh in generalize (N.eqb a b); intros x end.
  repeat match goal with x : bool |- _ => destruct x end; reflexivity.
Qed.
Lemma id_matches s : matches id_regex s ↔ id_pred s = true.
Proof.
  unfold id_regex. rewrite seq_inv. split.
  - intros (s1 & s2 & -> & H1 & H2). apply chars_inv in H1 as (b & -> & Hb). apply star_chars in H2. cbn. rewrite <- (forallb_ext' _ _ s2 id_char_spec), H2. rewrite <- id_start_spec, Hb. done.
  - destruct s as [|b s]; [done|]. cbn [id_pred]. rewrite andb_true_iff. intros [Hb Hs]. exists [b], s. split; [done|]. split; [apply chars_inv; exists b; by rewrite id_start_spec|]. apply star_chars. by rewrite (forallb_ext' _ _ s id_char_spec).
Qed.
Lemma scan_id_spec s : match scan_id s with
  | Some n => n ≤ length s ∧ id_pred (take n s) = true ∧ ∀ m, m ≤ length s → id_pred (take m s) = true → m ≤ n
  | None => ∀ m, m ≤ length s → id_pred (take m s) = false
  end.
Proof.
  unfold scan_id. destruct s as [|b s]; [intros [|m] Hm; cbn in Hm; [done|lia]|]. destruct (id_start b) eqn:E.
  - cbn [length take]. pose proof (span_le id_char s). split; [lia|]. split; [cbn; by rewrite E, span_all|]. intros [|m] Hm H'; [lia|]. cbn in *. rewrite E in H'. cbn in H'. pose proof (span_max _ _ _ H'). lia.
  - intros [|m] Hm; [done|]. cbn. by rewrite E.
Qed.
Lemma finds_id : finds id_regex scan_id.
Proof.
  intros s. pose proof (scan_id_spec s) as H. destruct (scan_id s) as [n|].
  - destruct H as (H1 & H2 & H3). split; [done|]. split; [by apply id_matches|]. intros m Hm Hr. apply H3; [done|]. by apply id_matches.
  - intros m Hm Hr. apply id_matches in Hr. specialize (H m Hm). congruence.
Qed.
Lemma digit_spec b : digit b = is_num b. Proof. done. Qed.
Lemma letter_spec b : letter b = is_alpha b. Proof. done. Qed.
Lemma alnum_spec b : letter b || digit b = is_alnum b. Proof. done. Qed.
Lemma digits_matches s : matches (Seq (Chars digit) (Star (Chars digit))) s ↔ s ≠ [] ∧ forallb is_num s = true.
Proof.
  rewrite seq_inv. split.
  - intros (s1 & s2 & -> & H1 & H2). apply chars_inv in H1 as (b & -> & Hb). apply star_chars in H2. split; [done|]. change (forallb is_num s2 = true) in H2. change (is_num b = true) in Hb. cbn [app forallb]. by rewrite Hb, H2.
  - intros [Hne H]. destruct s as [|b s]; [done|]. cbn in H. apply andb_true_iff in H as [Hb Hs]. exists [b], s. split; [done|]. split; [by apply m_chars|by apply star_chars].
Qed.
Lemma take_nonempty {A} n (s : list A) : take n s ≠ [] → n ≠ 0.
Proof. by destruct n. Qed.
Lemma finds_digits : finds (Seq (Chars digit) (Star (Chars digit))) scan_digits.
Proof.
  intros s. unfold scan_digits. pose proof (span_le is_num s) as Hl. pose proof (span_all is_num s) as Ha. pose proof (span_max is_num s) as Hm. destruct (span is_num s) as [|n] eqn:E.
  - intros m Hm' H. apply digits_matches in H as [H1 H2]. specialize (Hm m H2 Hm'). apply take_nonempty in H1. lia.
  - split; [done|]. split; [apply digits_matches; split; [|done]; destruct s; [cbn in Hl; lia|done]|]. intros m Hm' H. apply digits_matches in H as [H1 H2]. by apply Hm.
Qed.
Lemma prefix_byte c r scan : finds r scan →
  finds (Seq (Text [c]) r) (λ s, match s with b :: l => if (b =? c)%N then match scan l with Some n => Some (S n) | None => None end else None | [] => None end).
Proof.
  intros Hf s. destruct s as [|b s].
  - intros m Hm H. apply seq_inv in H as (s1 & s2 & E & H1 & _). apply text_inv in H1. subst s1. by destruct m.
  - destruct (N.eqb_spec b c) as [-> |Hne].
    + specialize (Hf s). assert (∀ m, matches (Seq (Text [c]) r) (take (S m) (c :: s)) ↔ matches r (take m s)) as Hr.
      { intros m. cbn [take]. rewrite seq_inv. split; [intros (s1 & s2 & E & H1 & H2); apply text_inv in H1; subst s1; by injection E as ->|]. intros H. exists [c], (take m s). split; [done|]. split; [by apply text_inv|done]. }
      assert (∀ m, matches (Seq (Text [c]) r) (take m (c :: s)) → ∃ m', m = S m') as Hz.
      { intros [|m] H; [|eauto]. apply seq_inv in H as (s1 & s2 & E & H1 & _). apply text_inv in H1. by subst s1. }
      destruct (scan s) as [n|].
      * destruct Hf as (H1 & H2 & H3). split; [cbn; lia|]. split; [by apply Hr|]. intros m Hm H. destruct (Hz _ H) as [m' ->]. apply Hr in H. cbn in Hm. apply H3 in H; lia.
      * intros m Hm H. destruct (Hz _ H) as [m' ->]. apply Hr in H. cbn in Hm. apply (Hf m'); [lia|done].
    + intros m Hm H. apply seq_inv in H as (s1 & s2 & E & H1 & _). apply text_inv in H1. subst s1. destruct m; [done|]. cbn in E. by injection E as -> _.
Qed.
Lemma finds_scan r f g : (∀ s, f s = g s) → finds r f → finds r g.
Proof. intros H Hf s. rewrite <- H. apply Hf. Qed.
Lemma finds_node_ref : finds (Seq (Text (str "#")) (Seq (Chars digit) (Star (Chars digit)))) scan_node_ref.
Proof.
  eapply finds_scan; [|exact (prefix_byte 35 _ _ finds_digits)]. intros [|b s]; [done|]. cbn. destruct (b =? 35)%N; [|done]. unfold scan_digits. by destruct (span is_num s).
Qed.
Definition alnum_pred (s : bytes) : bool := match s with b :: r => is_alpha b && forallb is_alnum r | [] => false end.
Lemma alnum_matches s : matches (Seq (Chars letter) letters_digits) s ↔ alnum_pred s = true.
Proof.
  unfold letters_digits. rewrite seq_inv. split.
  - intros (s1 & s2 & -> & H1 & H2). apply chars_inv in H1 as (b & -> & Hb). apply star_chars in H2. change (is_alpha b = true) in Hb. cbn [app alnum_pred]. rewrite Hb. exact H2.
  - destruct s as [|b s]; [done|]. cbn. rewrite andb_true_iff. intros [Hb Hs]. exists [b], s. split; [done|]. split; [by apply m_chars|by apply star_chars].
Qed.
Definition scan_alnum (s : bytes) : option nat := match s with b :: r => if is_alpha b then Some (S (span is_alnum r)) else None | [] => None end.
Lemma finds_alnum : finds (Seq (Chars letter) letters_digits) scan_alnum.
Proof.
  intros s. unfold scan_alnum. destruct s as [|b s].
  - intros m Hm H. apply alnum_matches in H. by destruct m.
  - destruct (is_alpha b) eqn:E.
    + cbn [length take]. pose proof (span_le is_alnum s). split; [lia|]. split; [apply alnum_matches; cbn; by rewrite E, span_all|]. intros [|m] Hm H'; [lia|]. apply alnum_matches in H'. cbn in *. rewrite E in H'. cbn in H'. pose proof (span_max _ _ _ H'). lia.
    + intros m Hm H. apply alnum_matches in H. destruct m; [done|]. cbn in H. by rewrite E in H.
Qed.
Lemma finds_var_ref : finds (Seq (Text (str "#")) (Seq (Chars letter) letters_digits)) scan_var_ref.
Proof.
  eapply finds_scan; [|exact (prefix_byte 35 _ _ finds_alnum)]. intros [|b [|a s]]; try done; cbn; [by destruct (b =? 35)%N|]. destruct (b =? 35)%N; cbn; [|done]. by destruct (is_alpha a).
Qed.
Lemma hash_not_alnum : is_alnum 35 = false. Proof. done. Qed.
Lemma finds_var_def : finds (Seq (Seq (Chars letter) letters_digits) (Text (str "#"))) scan_var_def.
Proof.
  assert (∀ a s m, matches (Seq (Seq (Chars letter) letters_digits) (Text (str "#"))) (take (S m) (a :: s)) → m ≤ length s →
    is_alpha a = true ∧ m = S (span is_alnum s) ∧ s !! span is_alnum s = Some 35%N) as Hinv.
  { intros a s m H Hm. apply seq_inv in H as (s1 & s2 & E & H1 & H2). apply text_inv in H2. apply alnum_matches in H1. destruct s1 as [|x s1]; [done|]. cbn in E. injection E as <- E. cbn in H1. apply andb_true_iff in H1 as [Ha H1]. split; [done|].
    subst s2. assert (length s1 = span is_alnum s ∧ s !! length s1 = Some 35%N) as [El Es].
    { assert (s = s1 ++ 35%N :: drop m s) as Es by (rewrite <- (take_drop m s) at 1; rewrite E, <- (assoc_L (++)); done).
      rewrite Es. split; [|by rewrite list_lookup_middle]. clear -H1. induction s1 as [|b l IH]; cbn in *; [done|]. apply andb_true_iff in H1 as [Hb H1]. rewrite Hb. by rewrite IH. }
    apply (f_equal length) in E. rewrite take_length, app_length in E. cbn in E. rewrite El in E, Es. split; [lia|done]. }
  intros s. destruct s as [|a s].
  - intros m Hm H. apply seq_inv in H as (s1 & s2 & E & H1 & H2). apply text_inv in H2. subst s2. destruct m; by destruct s1.
  - cbn [scan_var_def]. destruct (is_alpha a) eqn:Ea; [|intros [|m] Hm H; [|apply Hinv in H as (H & _); [congruence|cbn in Hm; lia]]].
    + destruct (s !! span is_alnum s) as [b|] eqn:Es.
      * destruct (N.eqb_spec b 35) as [-> |Hb].
        -- pose proof (lookup_lt_Some _ _ _ Es) as Hl. split; [cbn; lia|]. split.
           ++ cbn [take]. rewrite (take_S_r _ _ _ Es). apply seq_inv. exists (a :: take (span is_alnum s) s), [35%N]. split; [done|]. split; [|by apply text_inv]. apply alnum_matches. cbn. by rewrite Ea, span_all.
           ++ intros [|m] Hm H; [lia|]. apply Hinv in H as (_ & -> & _); [lia|cbn in Hm; lia].
        -- intros [|m] Hm H; [|apply Hinv in H as (_ & _ & H); [congruence|cbn in Hm; lia]]. apply seq_inv in H as (s1 & s2 & E & H1 & H2). apply text_inv in H2. subst s2. by destruct s1.
      * intros [|m] Hm H; [|apply Hinv in H as (_ & _ & H); [congruence|cbn in Hm; lia]]. apply seq_inv in H as (s1 & s2 & E & H1 & H2). apply text_inv in H2. subst s2. by destruct s1.
    + apply seq_inv in H as (s1 & s2 & E & H1 & H2). apply text_inv in H2. subst s2. by destruct s1.
Qed.
Lemma finds_maybe_id : finds (Maybe id_regex) (λ s, Some (default 0 (scan_id s))).
Proof.
  intros s. pose proof (finds_id s) as H. destruct (scan_id s) as [n|]; cbn.
  - destruct H as (H1 & H2 & H3). split; [done|]. split; [by apply m_maybe|]. intros m Hm Hr. apply maybe_inv in Hr as [Hr|Hr]; [|by apply H3]. apply (f_equal length) in Hr. rewrite take_length in Hr. cbn in Hr. lia.
  - split; [lia|]. split; [constructor|]. intros m Hm Hr. apply maybe_inv in Hr as [Hr|Hr]; [|by apply H in Hr]. apply (f_equal length) in Hr. rewrite take_length in Hr. cbn in Hr. lia.
Qed.
Lemma finds_op c : finds (Seq (Text [c]) (Maybe id_regex)) (scan_op c).
Proof. eapply finds_scan; [|exact (prefix_byte c _ _ finds_maybe_id)]. by intros [|b s]. Qed.
Lemma text_cons c d l r s : matches (Seq (Text (c :: d :: l)) r) s ↔ matches (Seq (Text [c]) (Seq (Text (d :: l)) r)) s.
Proof.
  rewrite !seq_inv. split.
  - intros (s1 & s2 & -> & H1 & H2). apply text_inv in H1. subst s1. exists [c], (d :: l ++ s2). split; [done|]. split; [by apply text_inv|]. apply seq_inv. exists (d :: l), s2. split; [done|]. split; [by apply text_inv|done].
  - intros (s1 & s2 & -> & H1 & H2). apply text_inv in H1. subst s1. apply seq_inv in H2 as (t1 & t2 & -> & H1 & H2). apply text_inv in H1. subst t1. exists (c :: d :: l), t2. split; [done|]. split; [by apply text_inv|done].
Qed.
Lemma finds_point : finds (Seq (Text (str "->")) id_regex) scan_point.
Proof.
  apply (finds_ext (Seq (Text [45%N]) (Seq (Text [62%N]) id_regex))); [intros s; by rewrite (text_cons 45 62 [])|].
  eapply finds_scan; [|exact (prefix_byte 45 _ _ (prefix_byte 62 _ _ finds_id))]. intros [|b [|a s]]; try done; cbn; [by destruct (b =? 45)%N|]. destruct (b =? 45)%N; cbn; [|done]. destruct (a =? 62)%N; cbn; [|done]. by destruct (scan_id s).
Qed.
(** up to the first quotation mark *)
Definition scan_until (c : N) (s : bytes) : option nat := let n := span (λ b, negb (b =? c)%N) s in if decide (s !! n = Some c) then Some (S n) else None.
Lemma none_of_one c b : none_of [c] b = negb (b =? c)%N.
Proof. unfold none_of, one_of, existsb. by rewrite orb_false_r. Qed.
Lemma until_matches c s m : m ≤ length s → matches (Seq (Star (Chars (none_of [c]))) (Text [c])) (take m s) ↔ scan_until c s = Some m.
Proof.
  intros Hm. unfold scan_until. cbv zeta. set (p := λ b, negb (b =? c)%N). rewrite seq_inv. split.
  - intros (s1 & s2 & E & H1 & H2). apply text_inv in H2. subst s2. apply star_chars in H1. assert (s = s1 ++ c :: drop m s) as Es by (rewrite <- (take_drop m s) at 1; rewrite E, <- (assoc_L (++)); done).
    assert (span p s = length s1) as El.
    { rewrite Es. clear -H1. induction s1 as [|b l IH]; cbn in *; [by unfold p; rewrite N.eqb_refl|]. apply andb_true_iff in H1 as [Hb H1]. unfold p at 1. rewrite <- none_of_one, Hb. f_equal. by apply IH. }
    rewrite El. assert (s !! length s1 = Some c) as Ec by (rewrite Es; by apply list_lookup_middle). rewrite decide_True by exact Ec. apply (f_equal length) in E. rewrite take_length, app_length in E. cbn in E. f_equal. lia.
  - intros E. case_decide as Es; [|discriminate E]. revert E. intros [= <-]. rewrite (take_S_r _ _ _ Es). eexists _, [c]. split; [done|]. split; [|by apply text_inv]. apply star_chars. rewrite (forallb_ext' _ p _ (none_of_one c)). apply span_all.
Qed.
Lemma finds_until c : finds (Seq (Star (Chars (none_of [c]))) (Text [c])) (scan_until c).
Proof.
  intros s. destruct (scan_until c s) as [n|] eqn:E.
  - assert (n ≤ length s) as Hn. { unfold scan_until in E. destruct (decide _) as [Es|]; [|done]. injection E as <-. apply lookup_lt_Some in Es. lia. }
    split; [done|]. split; [by apply until_matches|]. intros m Hm H. apply until_matches in H; [|done]. assert (m = n) by congruence. lia.
  - intros m Hm H. apply until_matches in H; [|done]. congruence.
Qed.
Lemma finds_quoted : finds (Seq (Text [34%N]) (Seq (Star (Chars (none_of [34%N]))) (Text [34%N]))) scan_quoted.
Proof. eapply finds_scan; [|exact (prefix_byte 34 _ _ (finds_until 34))]. intros [|b s]; [done|]. cbn. destruct (b =? 34)%N; [|done]. unfold scan_until. by destruct (decide _). Qed.
(** the text of a regular expression up to the first slash without backslash *)
Definition plain : regex := Star (Chars (none_of [47; 92]%N)).
Definition escape : regex := Seq (Text [92%N]) (Seq (Chars (none_of [10%N])) plain).
Definition body : regex := Seq plain (Seq (Star escape) (Text (str "/"))).
Lemma none_of_two b : none_of [47; 92]%N b = negb (b =? 47)%N && negb (b =? 92)%N.
Proof. unfold none_of, one_of, existsb. rewrite orb_false_r. apply negb_orb. Qed.
Inductive Body : bytes → Prop :=
| body_end : Body [47%N]
| body_char b s : b ≠ 47%N → b ≠ 92%N → Body s → Body (b :: s)
| body_escape c s : c ≠ 10%N → Body s → Body (92%N :: c :: s).
Lemma body_plain s t : forallb (none_of [47; 92]%N) s = true → Body t → Body (s ++ t).
Proof. induction s as [|b s IH]; intros H Ht; [done|]. cbn in H. apply andb_true_iff in H as [Hb H]. rewrite none_of_two in Hb. apply andb_true_iff in Hb as [H1 H2]. apply negb_true_iff, N.eqb_neq in H1, H2. constructor; [done|done|by apply IH]. Qed.
Lemma body_matches s : matches body s ↔ Body s.
Proof.
  split.
  - unfold body. intros H. apply seq_inv in H as (s1 & s2 & -> & H1 & H2). apply body_plain; [by apply star_chars|]. apply seq_inv in H2 as (t1 & t2 & -> & H2 & H3). apply text_inv in H3. subst t2. clear s1 H1.
    remember (Star escape) as r eqn:E. revert E. induction H2; intros E; try discriminate; [constructor|]. injection E as ->. specialize (IHmatches2 eq_refl). clear IHmatches1. rewrite <- (assoc_L (++)).
    unfold escape in H2_. apply seq_inv in H2_ as (u1 & u2 & -> & H1 & H2). apply text_inv in H1. subst u1. apply seq_inv in H2 as (v1 & v2 & -> & H1 & H2). apply chars_inv in H1 as (b & -> & Hb). rewrite none_of_one in Hb. apply negb_true_iff, N.eqb_neq in Hb.
    cbn. constructor; [done|]. apply body_plain; [by apply star_chars|done].
  - induction 1 as [|b s H1 H2 H IH|c s Hc H IH].
    + unfold body. apply (m_seq _ _ [] [47%N]); [constructor|]. apply (m_seq _ _ [] [47%N]); constructor.
    + unfold body in *. apply seq_inv in IH as (s1 & s2 & -> & H3 & H4). apply (m_seq _ _ (b :: s1) s2); [|done]. apply (m_star _ [b]); [|done]. apply m_chars. rewrite none_of_two. by apply N.eqb_neq in H1 as ->, H2 as ->.
    + unfold body in *. apply seq_inv in IH as (s1 & s2 & -> & H3 & H4). apply seq_inv in H4 as (t1 & t2 & -> & H4 & H5). apply (m_seq _ _ [] (92%N :: c :: s1 ++ t1 ++ t2)); [constructor|].
      replace (92%N :: c :: s1 ++ t1 ++ t2) with ((92%N :: c :: s1) ++ t1 ++ t2) by done. rewrite (assoc_L (++)). apply m_seq; [|done]. apply m_star; [|done]. unfold escape. apply (m_seq _ _ [92%N]); [constructor|]. apply (m_seq _ _ [c]); [|done].
      apply m_chars. rewrite none_of_one. by apply N.eqb_neq in Hc as ->.
Qed.
Lemma scan_body_spec k : ∀ s m, length s ≤ k → m ≤ length s → Body (take m s) ↔ scan_body s = Some m.
Proof.
  induction k as [|k IH]; intros s m Hk Hm; destruct s as [|b s]; cbn in Hk, Hm; try lia.
  - replace m with 0 by lia. cbn. split; [inversion 1|done].
  - replace m with 0 by lia. cbn. split; [inversion 1|done].
  - cbn [scan_body]. destruct m as [|m].
    { cbn [take]. split; [inversion 1|]. intros H. exfalso. destruct (b =? 47)%N; [done|]. destruct (b =? 92)%N; [destruct s as [|c s]; [done|]; destruct (c =? 10)%N; [done|]; by destruct (scan_body s)|]. by destruct (scan_body s). }
    cbn [take]. destruct (N.eqb_spec b 47) as [-> |H1].
    { split; [inversion 1 as [E| |]; [|done]|intros [= <-]; constructor]. f_equal. f_equal. destruct m; [done|]. destruct s; [cbn in Hm; lia|done]. }
    destruct (N.eqb_spec b 92) as [-> |H2].
    + destruct s as [|c s].
      { cbn in Hm. replace m with 0 by lia. cbn. split; [|done]. intros H. inversion H; subst; try done. }
      destruct m as [|m].
      { cbn [take]. split; [intros H; inversion H; subst; done|]. destruct (c =? 10)%N; [done|]. destruct (scan_body s); done. }
      cbn [take]. destruct (N.eqb_spec c 10) as [-> |H3].
      { split; [|done]. intros H. inversion H; subst; done. }
      cbn in Hk, Hm. specialize (IH s m ltac:(lia) ltac:(lia)). split.
      * intros H. inversion H; subst; try done. apply IH in H5 as ->. done.
      * destruct (scan_body s) as [n|]; [|done]. intros [= ->]. constructor; [done|]. by apply IH.
    + specialize (IH s m ltac:(lia) ltac:(lia)). split.
      * intros H. inversion H; subst; try done. apply IH in H6 as ->. done.
      * destruct (scan_body s) as [n|]; [|done]. intros [= ->]. constructor; [done|done|]. by apply IH.
Qed.
Lemma scan_body_le s n : scan_body s = Some n → n ≤ length s.
Proof.
  revert n. induction s as [s IH] using (induction_ltof1 _ (@length N)). unfold ltof in IH. intros n H. destruct s as [|b s]; [done|]. cbn [scan_body] in H. destruct (b =? 47)%N; [injection H as <-; cbn; lia|].
  destruct (b =? 92)%N.
  - destruct s as [|c s]; [done|]. destruct (c =? 10)%N; [done|]. destruct (scan_body s) as [k|] eqn:E; [|done]. injection H as <-. apply IH in E; cbn in *; lia.
  - destruct (scan_body s) as [k|] eqn:E; [|done]. injection H as <-. apply IH in E; cbn in *; lia.
Qed.
Lemma finds_body : finds body scan_body.
Proof.
  intros s. destruct (scan_body s) as [n|] eqn:E.
  - assert (n ≤ length s) as Hn by (by apply scan_body_le). split; [done|]. split; [by apply body_matches, (scan_body_spec (length s))|]. intros m Hm H. apply body_matches, (scan_body_spec (length s)) in H; [|done|done]. assert (m = n) by congruence. lia.
  - intros m Hm H. apply body_matches, (scan_body_spec (length s)) in H; [|done|done]. congruence.
Qed.
Lemma finds_regex : finds (Seq (Text (str "/")) body) scan_regex.
Proof. eapply finds_scan; [|exact (prefix_byte 47 _ _ finds_body)]. by intros [|b s]. Qed.

(** ** All rules *)
Lemma rules_scan : Forall2 (λ (x : rule) (y : terminal), finds x.1 y.1 ∧ ∀ w, x.2 w = y.2 w) rules terminals.
Proof.
  unfold rules, terminals, lit, word. cbn [app].
  repeat (apply List.Forall2_cons; [split; [cbn [fst]|done]|]); try apply finds_text; try apply List.Forall2_nil; try done.
  - exact finds_id.
  - exact finds_node_ref.
  - exact finds_var_ref.
  - exact finds_var_def.
  - exact finds_digits.
  - exact (finds_op 62).
  - exact finds_point.
  - exact (finds_op 46).
  - exact (finds_op 94).
  - exact finds_quoted.
  - exact finds_regex.
Qed.
(** no rule matches the empty text *)
Lemma rules_nonempty : Forall (λ x : rule, ¬ matches x.1 []) rules.
Proof.
  unfold rules, word. repeat (apply List.Forall_cons; [cbn [fst]|]); try apply List.Forall_nil; try (rewrite text_inv; done).
  all: intros H; repeat first [apply seq_inv in H as (?s1 & ?s2 & E & H & _)]; try apply text_inv in H; try apply chars_inv in H as (? & -> & _); try (subst; discriminate E).
  all: try (symmetry in E; apply app_nil in E as [-> ->]).
  all: try discriminate.
  all: try (apply seq_inv in H as (?s1 & ?s2 & E' & H & _); symmetry in E'; apply app_nil in E' as [-> ->]; apply chars_inv in H as (? & ? & _); discriminate).
Qed.
