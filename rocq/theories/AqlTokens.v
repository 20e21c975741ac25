(** The lexer finds the tokens of a text *)
From Coq Require Import NArith String Lia.
From stdpp Require Import base list.
From Verif Require Import KeySer KeySerSpec CompPath AqlLexer AqlLexerSpec AqlLexerProofs.
Set Default Proof Using "Type".

Definition pair_ok (x : rule) (y : terminal) : Prop := finds x.1 y.1 ∧ ∀ w, x.2 w = y.2 w.
Lemma longest_spec rs ts s : Forall2 pair_ok rs ts →
  match longest ts s with
  | Some (n, mk) => ∃ i r mk', rs !! i = Some (r, mk') ∧ (∀ w, mk' w = mk w) ∧ n ≤ length s ∧ matches r (take n s) ∧
      ∀ j r' mk'' m, rs !! j = Some (r', mk'') → m ≤ length s → matches r' (take m s) → m < n ∨ m = n ∧ i ≤ j
  | None => ∀ j r' mk'' m, rs !! j = Some (r', mk'') → m ≤ length s → ¬ matches r' (take m s)
  end.
Proof.
  induction 1 as [|[r mk0] [scan mk] rs ts [Hf Hmk] H IH]; [intros j r' mk'' m Hj; done|]. cbn [fst snd] in *. cbn [longest]. specialize (Hf s). destruct (scan s) as [n|].
  - destruct Hf as (H1 & H2 & H3). destruct (longest ts s) as [[m mk1]|].
    + destruct IH as (i & r1 & mk' & I1 & I2 & I3 & I4 & I5). destruct (Nat.ltb_spec n m) as [Hlt|Hge].
      * exists (S i), r1, mk'. split; [done|]. split; [done|]. split; [done|]. split; [done|]. intros [|j] r' mk'' k Hj Hk Hr.
        -- injection Hj as <- <-. apply H3 in Hr; [lia|done].
        -- destruct (I5 _ _ _ _ Hj Hk Hr); lia.
      * exists 0, r, mk0. split; [done|]. split; [done|]. split; [done|]. split; [done|]. intros [|j] r' mk'' k Hj Hk Hr.
        -- injection Hj as <- <-. apply H3 in Hr; [lia|done].
        -- destruct (I5 _ _ _ _ Hj Hk Hr); lia.
    + exists 0, r, mk0. split; [done|]. split; [done|]. split; [done|]. split; [done|]. intros [|j] r' mk'' k Hj Hk Hr.
      * injection Hj as <- <-. apply H3 in Hr; [lia|done].
      * by destruct (IH _ _ _ _ Hj Hk).
  - destruct (longest ts s) as [[m mk1]|].
    + destruct IH as (i & r1 & mk' & I1 & I2 & I3 & I4 & I5). exists (S i), r1, mk'. split; [done|]. split; [done|]. split; [done|]. split; [done|]. intros [|j] r' mk'' k Hj Hk Hr.
      * injection Hj as <- <-. by apply Hf in Hr.
      * destruct (I5 _ _ _ _ Hj Hk Hr); lia.
    + intros [|j] r' mk'' k Hj Hk Hr; [injection Hj as <- <-; by apply Hf in Hr|]. by eapply IH.
Qed.

(** ** White space *)
Definition visible (b : N) : bool := (33 <=? b)%N && (b <=? 126)%N.
Lemma visible_no_space b s : visible b = true → space_len (b :: s) = 0.
Proof.
  intros H. unfold visible in H. apply andb_true_iff in H as [H1 H2]. apply N.leb_le in H1, H2. unfold space_len.
  assert (between 9 13 b = false) as -> by (unfold between; apply andb_false_iff; right; apply N.leb_gt; lia).
  assert ((b =? 32)%N = false) as -> by (apply N.eqb_neq; lia). cbn [orb]. destruct s as [|c s]; [done|].
  assert ((b =? 194)%N = false) as -> by (apply N.eqb_neq; lia). cbn [andb]. destruct s as [|d s]; [done|].
  assert ((b =? 225)%N = false) as -> by (apply N.eqb_neq; lia). assert ((b =? 226)%N = false) as -> by (apply N.eqb_neq; lia). assert ((b =? 227)%N = false) as -> by (apply N.eqb_neq; lia). done.
Qed.
Lemma rules_visible : Forall (λ x : rule, ∀ w, matches x.1 w → ∃ b l, w = b :: l ∧ visible b = true) rules.
Proof.
  assert (∀ b, letter b = true → visible b = true) as Hl.
  { intros b. unfold letter, upper, lower, visible. rewrite orb_true_iff, !andb_true_iff, !N.leb_le. lia. }
  assert (∀ b, digit b = true → visible b = true) as Hd.
  { intros b. unfold digit, visible. rewrite !andb_true_iff, !N.leb_le. lia. }
  assert (∀ (c : N) r w, visible c = true → matches (Seq (Text [c]) r) w → ∃ b l, w = b :: l ∧ visible b = true) as Ht.
  { intros c r w Hc H. apply seq_inv in H as (s1 & s2 & -> & H & _). apply text_inv in H. subst s1. cbn. eauto. }
  unfold rules, word. repeat (apply List.Forall_cons; [cbn [fst]|]); try apply List.Forall_nil; try (intros w H; apply text_inv in H; subst w; eexists _, _; split; reflexivity).
  all: intros w H.
  - apply id_matches in H. destruct w as [|b w]; [done|]. cbn in H. apply andb_true_iff in H as [H _]. exists b, w. split; [done|]. rewrite <- id_start_spec in H. apply orb_true_iff in H as [H|H]; [by apply Hl|].
    unfold one_of, existsb in H. rewrite orb_false_r in H. apply orb_true_iff in H as [H|H]; apply N.eqb_eq in H; by subst b.
  - by eapply Ht, H.
  - by eapply Ht, H.
  - apply seq_inv in H as (s1 & s2 & -> & H & _). apply seq_inv in H as (s3 & s4 & -> & H & _). apply chars_inv in H as (b & -> & Hb). cbn. eauto.
  - apply seq_inv in H as (s1 & s2 & -> & H & _). apply chars_inv in H as (b & -> & Hb). cbn. eauto.
  - by eapply Ht, H.
  - apply seq_inv in H as (s1 & s2 & -> & H & _). apply text_inv in H. subst s1. eexists _, _. split; reflexivity.
  - by eapply Ht, H.
  - by eapply Ht, H.
  - by eapply Ht, H.
  - by eapply Ht, H.
Qed.
Lemma space_len_app w s : w ∈ white_spaces → space_len (w ++ s) = length w.
Proof.
  intros H. apply elem_of_list_In in H. unfold white_spaces in H. cbn [In] in H. repeat destruct H as [<-|H]; try reflexivity. done.
Qed.
Lemma space_len_split s : space_len s ≠ 0 → ∃ w s', s = w ++ s' ∧ w ∈ white_spaces ∧ space_len s = length w.
Proof.
  intros H. assert (∃ w s', s = w ++ s' ∧ w ∈ white_spaces) as (w & s' & -> & Hw); [|exists w, s'; split; [done|]; split; [done|]; by apply space_len_app].
  destruct s as [|b s]; [done|]. unfold space_len in H. destruct (between 9 13 b || (b =? 32)%N) eqn:E1.
  { exists [b], s. split; [done|]. apply elem_of_list_In. apply orb_true_iff in E1 as [E1|E1].
    - unfold between in E1. apply andb_true_iff in E1 as [H1 H2]. apply N.leb_le in H1, H2. assert (b = 9 ∨ b = 10 ∨ b = 11 ∨ b = 12 ∨ b = 13)%N as [-> |[-> |[-> |[-> | ->]]]] by lia; cbn; tauto.
    - apply N.eqb_eq in E1. subst b. cbn; tauto. }
  destruct s as [|c s]; [done|]. destruct ((b =? 194)%N && ((c =? 133)%N || (c =? 160)%N)) eqn:E2.
  { exists [b; c], s. split; [done|]. apply elem_of_list_In. apply andb_true_iff in E2 as [E2 E3]. apply N.eqb_eq in E2. subst b. apply orb_true_iff in E3 as [E3|E3]; apply N.eqb_eq in E3; subst c; cbn; tauto. }
  destruct s as [|d s]; [done|]. exists [b; c; d], s. split; [done|]. apply elem_of_list_In.
  match type of H with context [if ?x then _ else _] => destruct x eqn:E3; [clear H|done] end.
  rewrite !orb_true_iff, !andb_true_iff, !orb_true_iff, !N.eqb_eq in E3. unfold between in E3. rewrite andb_true_iff, !N.leb_le in E3.
  destruct E3 as [[[[[-> ->] ->]|[[-> ->] E3]]|[[-> ->] ->]]|[[-> ->] ->]]; try (cbn; tauto).
  assert (d = 128 ∨ d = 129 ∨ d = 130 ∨ d = 131 ∨ d = 132 ∨ d = 133 ∨ d = 134 ∨ d = 135 ∨ d = 136 ∨ d = 137 ∨ d = 138 ∨ d = 168 ∨ d = 169 ∨ d = 175)%N as Hd by lia.
  repeat destruct Hd as [-> |Hd]; try (cbn; tauto). subst d. cbn; tauto.
Qed.

(** ** Tokens *)
Lemma longest_token w s i r make : w ≠ [] → rules !! i = Some (r, make) → matches r w →
  (∀ j r' make' w' s', rules !! j = Some (r', make') → matches r' w' → w ++ s = w' ++ s' → length w' < length w ∨ length w' = length w ∧ i ≤ j) →
  ∃ mk, longest terminals (w ++ s) = Some (length w, mk) ∧ mk w = make w.
Proof.
  intros Hne Hi Hr Hmax. pose proof (longest_spec rules terminals (w ++ s) rules_scan) as H. destruct (longest terminals (w ++ s)) as [[n mk]|].
  - destruct H as (i' & r' & mk' & H1 & H2 & H3 & H4 & H5). specialize (H5 i r make (length w) Hi). rewrite take_app in H5. specialize (H5 ltac:(rewrite app_length; lia) Hr).
    specialize (Hmax i' r' mk' (take n (w ++ s)) (drop n (w ++ s)) H1 H4 ltac:(by rewrite take_drop)). rewrite take_length, Nat.min_l in Hmax by done.
    assert (n = length w ∧ i = i') as [-> ->] by lia. exists mk. split; [done|]. rewrite <- H2. pose proof (eq_trans (eq_sym Hi) H1) as Ei. by injection Ei as -> ->.
  - exfalso. apply (H i r make (length w) Hi); [rewrite app_length; lia|]. by rewrite take_app.
Qed.
Lemma lex_sound fuel off s ts : lex fuel off s = Some ts → Tokenized off s ts.
Proof.
  revert off s ts. induction fuel as [|fuel IH]; intros off s ts H.
  - destruct s; [|done]. injection H as <-. constructor.
  - destruct s as [|b s0] eqn:Es; [injection H as <-; constructor|]. rewrite <- Es in *. assert (lex (S fuel) off s = match space_len s with
      | 0 => match longest terminals s with
             | Some (n, make) => match lex fuel (off + n) (drop n s) with Some ts => Some ((off, make (take n s)) :: ts) | None => None end
             | None => None
             end
      | n => lex fuel (off + n) (drop n s)
      end) as E by (subst s; reflexivity). rewrite E in H. clear E b s0 Es.
    destruct (decide (space_len s = 0)) as [Hz|Hz].
    + rewrite Hz in H. pose proof (longest_spec rules terminals s rules_scan) as Hl. destruct (longest terminals s) as [[n make]|]; [|done].
      destruct (lex fuel (off + n) (drop n s)) as [ts'|] eqn:E; [|done]. injection H as <-. destruct Hl as (i & r & mk' & H1 & H2 & H3 & H4 & H5).
      assert (take n s ≠ []) as Hne.
      { intros E'. rewrite E' in H4. pose proof rules_nonempty as Hall. rewrite List.Forall_forall in Hall. apply (Hall (r, mk')); [|done]. apply elem_of_list_In. by eapply elem_of_list_lookup_2. }
      rewrite <- (take_drop n s) at 1. rewrite <- H2. eapply tokenized_token; [done|done|done| |].
      * intros j r' mk'' w' s' Hj Hr' Ew. rewrite take_drop in Ew. rewrite take_length, Nat.min_l by done. apply (H5 j r' mk''); [done|rewrite Ew, app_length; lia|]. by rewrite Ew, take_app.
      * rewrite take_length, Nat.min_l by done. by apply IH.
    + destruct (space_len_split s Hz) as (w & s' & -> & Hw & El). rewrite El in H, Hz. constructor; [done|]. apply IH. assert (drop (length w) (w ++ s') = s') as Ed by apply drop_app. destruct (length w) as [|k] eqn:E; [done|].
 cbv zeta in H. rewrite Ed in H. exact H.
Qed.
Lemma lex_complete off s ts : Tokenized off s ts → ∀ fuel, length s ≤ fuel → lex fuel off s = Some ts.
Proof.
  induction 1 as [off|off w s ts Hw H IH|off w s ts i r make Hne Hi Hr Hmax H IH]; intros fuel Hf.
  - by destruct fuel.
  - pose proof (space_len_app w s Hw) as E. assert (w ≠ []) as Hne by (intros ->; apply elem_of_list_In in Hw; cbn in Hw; repeat destruct Hw as [Hw|Hw]; try discriminate; done).
    rewrite app_length in Hf. destruct w as [|b w]; [done|]. destruct fuel as [|fuel]; [cbn in Hf; lia|]. cbn [app lex]. cbn [app] in E. rewrite E. cbn [length].
    replace (drop (S (length w)) (b :: w ++ s)) with s by (cbn; by rewrite drop_app). apply IH. cbn in Hf. lia.
  - destruct (longest_token w s i r make Hne Hi Hr Hmax) as (mk & E & Em).
    assert (space_len (w ++ s) = 0) as Ez.
    { pose proof rules_visible as Hall. rewrite List.Forall_forall in Hall. destruct (Hall (r, make) ltac:(apply elem_of_list_In; by eapply elem_of_list_lookup_2) w Hr) as (b & l & -> & Hb). by apply visible_no_space. }
    rewrite app_length in Hf. destruct fuel as [|fuel]; [destruct w; [done|cbn in Hf; lia]|]. assert (lex (S fuel) off (w ++ s) = match longest terminals (w ++ s) with
             | Some (n, make) => match lex fuel (off + n) (drop n (w ++ s)) with Some ts => Some ((off, make (take n (w ++ s))) :: ts) | None => None end
             | None => None
             end) as -> by (destruct w as [|b w]; [done|]; cbn [app lex] in *; by rewrite Ez).
    rewrite E, drop_app, take_app, IH, Em; [done|]. destruct w; [done|cbn in Hf; lia].
Qed.
Lemma tokens_spec s ts : tokens s = Some ts ↔ Tokenized 0 s ts.
Proof. split; [apply lex_sound|]. intros H. by apply lex_complete. Qed.
