(** The node searches of parsed queries are those that descriptions can have, and the outcomes of parsing *)
From Coq Require Import NArith String Lia.
From stdpp Require Import base list.
From Verif Require Import KeySer KeySerSpec CompPath RelAnnis NodeSearch TokenOps EdgeOps Query QuerySpec AqlLexer AqlLexerSpec AqlLexerProofs AqlTokens AqlGrammar AqlParser AqlParserProofs AqlParserRules AqlSpec AqlLayout AqlWords AqlPositions.
Set Default Proof Using "Type".

(** ** Tokens *)
Definition tok_ok (t : token) : Prop :=
  match t with
  | TId s => id_ok s
  | TQuoted v => value_ok (Plain v)
  | TRegex v => value_ok (Pattern v)
  | TNodeRef d => d ≠ [] ∧ forallb is_num d = true
  | TVarDef s | TVarRef s => var_ok s
  | _ => True
  end.
Lemma keyword_rule s : s ∈ keywords → ∃ j mk, j < 25 ∧ rules !! j = Some (Text s, mk).
Proof.
  unfold keywords. cbn [fmap list_fmap]. rewrite !elem_of_cons, elem_of_nil.
  intros [-> |[-> |[-> |[-> |[-> |[-> |[-> |[]]]]]]]].
  - exists 0. eexists. split; [lia|reflexivity].
  - exists 1. eexists. split; [lia|reflexivity].
  - exists 3. eexists. split; [lia|reflexivity].
  - exists 4. eexists. split; [lia|reflexivity].
  - exists 5. eexists. split; [lia|reflexivity].
  - exists 6. eexists. split; [lia|reflexivity].
  - exists 7. eexists. split; [lia|reflexivity].
Qed.
Lemma regex_body_matches (v : bytes) : matches slashes_regex (47%N :: v ++ [47%N]) → value_ok (Pattern v).
Proof.
  intros (s1 & s2 & E & H1 & (s3 & s4 & -> & H3 & (s5 & s6 & -> & H5 & H6)%seq_inv)%seq_inv)%seq_inv. apply text_inv in H1, H6. subst. injection E as E. rewrite !(assoc_L (++)) in E. apply app_inj_2 in E as [-> _]; [|done]. by apply m_seq.
Qed.
Lemma token_ok_word i r mk w : rules !! i = Some (r, mk) → matches r w → (∀ j r' mk', rules !! j = Some (r', mk') → matches r' w → i ≤ j) → tok_ok (mk w).
Proof.
  intros Hi Hm Hfirst.
  do 25 (destruct i as [|i]; [injection Hi as <- <-; exact I|]).
  destruct i as [|i].
  { injection Hi as <- <-. split; [done|]. intros (j & mk' & Hj & Ej)%keyword_rule. specialize (Hfirst _ _ _ Ej (m_text _)). lia. }
  destruct i as [|i].
  { injection Hi as <- <-. apply seq_inv in Hm as (s1 & s2 & -> & H1 & H2). apply text_inv in H1. subst. by apply digits_matches in H2. }
  destruct i as [|i].
  { injection Hi as <- <-. apply seq_inv in Hm as (s1 & s2 & -> & H1 & H2). apply text_inv in H1. by subst. }
  destruct i as [|i].
  { injection Hi as <- <-. apply seq_inv in Hm as (s1 & s2 & -> & H1 & H2). apply text_inv in H2. subst. cbn [tok_ok]. rewrite app_length. cbn [length str]. replace (take _ _) with s1; [done|]. change (length (str "#")) with 1. replace (length s1 + 1 - 1) with (length s1) by lia. by rewrite take_app. }
  do 5 (destruct i as [|i]; [injection Hi as <- <-; exact I|]).
  destruct i as [|i].
  { injection Hi as <- <-. apply quoted_inv in Hm as (v & -> & Hv). cbn [tok_ok]. by rewrite without_ends_spec. }
  destruct i as [|i]; [|done].
  injection Hi as <- <-. pose proof Hm as Hm'. apply seq_inv in Hm' as (s1 & s2 & -> & H1 & (s3 & s4 & -> & H3 & (s5 & s6 & -> & H5 & H6)%seq_inv)%seq_inv). apply text_inv in H1, H6. subst. rewrite (assoc_L (++) s3) in Hm |- *. cbn [tok_ok].
  change (str "/" ++ (s3 ++ s5) ++ str "/") with (47%N :: (s3 ++ s5) ++ [47%N]) in *. rewrite without_ends_spec. by apply regex_body_matches.
Qed.
Lemma tokenized_ok off s ts : Tokenized off s ts → Forall (λ t : ptoken, tok_ok t.2) ts.
Proof.
  induction 1 as [| |off w s ts i r mk Hw Hi Hm Hmax H IH]; [apply List.Forall_nil|done|]. apply List.Forall_cons; [|done]. cbn [snd]. eapply token_ok_word; [done..|].
  intros j r' mk' Hj Hr'. specialize (Hmax _ _ _ w s Hj Hr' eq_refl). lia.
Qed.

(** ** Searches *)
Notation all_ok := (Forall (λ t : ptoken, tok_ok t.2)).
Lemma qualified_shape ts q : GQName ts q → all_ok ts → qualified_ok q.
Proof.
  intros [p p2 p3 ns name|p name] H.
  - apply Forall_cons in H as [H1 H]. apply Forall_cons in H as [_ H]. apply Forall_cons in H as [H2 _]. done.
  - apply Forall_cons in H as [H _]. done.
Qed.
Lemma text_shape ts t : GTextSearch ts t → all_ok ts → ∃ v, value_ok v ∧ value_pair v = t.
Proof. intros [p v|p v] H; apply Forall_cons in H as [H _]; [by exists (Plain v)|by exists (Pattern v)]. Qed.
Lemma search_shape ts sp : GNodeSearch ts sp → all_ok ts → ∃ sr, search_ok sr ∧ search_meaning sr = sp.
Proof.
  intros [p|p|p ts1 ts2 c t H1 H2|us t H1|ts1 ts2 ts3 q c t H1 H2 H3|us q H1] Ha.
  - by exists FindNode.
  - by exists FindTok.
  - apply Forall_cons in Ha as [_ Ha]. apply Forall_app in Ha as [_ Ha]. destruct (text_shape _ _ H2 Ha) as (v & Hv & <-). exists (FindTokValue c v). split; [done|by destruct c, v].
  - destruct (text_shape _ _ H1 Ha) as (v & Hv & <-). exists (FindValue v). split; [done|by destruct v].
  - apply Forall_app in Ha as [Ha1 Ha]. apply Forall_app in Ha as [_ Ha]. destruct (text_shape _ _ H3 Ha) as (v & Hv & <-). exists (FindAnno q c v). split; [split; [by eapply qualified_shape|done]|by destruct c, v].
  - exists (FindName q). split; [by eapply qualified_shape|done].
Qed.
Lemma node_shape sub s sp var o : GNode sub (s, sp, var, o) → all_ok sub → ∃ n, node_ok n ∧ search_meaning (n_search n) = sp ∧ n_var n = var ∧ n_optional n = o.
Proof.
  inversion 1 as [vs ts os p t ts' v' sp' o' Hv Hs Ho E]; subst. intros [Ha1 [Ha _]%Forall_app]%Forall_app. destruct (search_shape _ _ Hs Ha) as (sr & Hsr & <-). exists (MkNode var sr o). split; [|done]. split; [|done].
  cbn [n_var]. destruct Hv as [[-> ->]|(q & x & -> & ->)]; [done|]. apply Forall_cons in Ha1 as [Ha1 _]. done.
Qed.
Lemma parsed_shape s e p sp var o : parse_aql s = Parsed e → node_at (QuerySpec.terminals e) p (sp, var, o) →
  ∃ n, node_ok n ∧ search_meaning (n_search n) = sp ∧ n_var n = var ∧ n_optional n = o.
Proof.
  intros (ts & Ht & Hg & _)%parsed_derivation Hn. apply tokenized_ok in Ht. assert (occurs ts p (sp, var, o)) as (pre & sub & post & -> & Hs & _) by (rewrite <- (app_nil_r ts); by apply (proj1 all_occurs _ e)).
  apply Forall_app in Ht as [_ Ht]. apply Forall_app in Ht as [Ht _]. by eapply node_shape.
Qed.

(** ** Outcomes *)
Lemma digits_grow s : ∀ acc, (acc <= foldl (λ n b, n * 10 + (b - 48)) acc s)%N.
Proof. induction s as [|b s IH]; intros acc; cbn; [lia|]. etransitivity; [|apply IH]. lia. Qed.
Lemma parse_digits_iff limit s : ∀ acc, forallb is_num s = true → (acc <= limit)%N → is_Some (parse_digits limit acc s) ↔ (foldl (λ n b, n * 10 + (b - 48)) acc s <= limit)%N.
Proof.
  induction s as [|b s IH]; intros acc Hs Ha; cbn [parse_digits foldl forallb] in *; [split; [done|eauto]|]. apply andb_true_iff in Hs as [Hb Hs]. unfold is_num, between in Hb. rewrite Hb. cbv zeta. destruct (acc * 10 + (b - 48) <=? limit)%N eqn:E.
  - apply N.leb_le in E. by apply IH.
  - apply N.leb_gt in E. split; [by intros []|]. intros H. pose proof (digits_grow s (acc * 10 + (b - 48))). lia.
Qed.
Lemma num_not_sign d : d ≠ [] → forallb is_num d = true → parse_num u64_max d = parse_digits u64_max 0 d.
Proof.
  intros Hne H. destruct d as [|b d]; [done|]. unfold parse_num. cbn [forallb] in H. apply andb_true_iff in H as [Hb _]. unfold is_num, between in Hb. rewrite andb_true_iff, !N.leb_le in Hb. rewrite bool_decide_false by lia. done.
Qed.
Lemma too_large_spec ts : all_ok ts → existsb too_large ts = true ↔ ∃ p d, (p, TNodeRef d) ∈ ts ∧ (u64_max < digits_number d)%N.
Proof.
  intros Ha. rewrite existsb_exists. rewrite List.Forall_forall in Ha.
  assert (∀ p d, (p, TNodeRef d) ∈ ts → too_large (p, TNodeRef d) = true ↔ (u64_max < digits_number d)%N) as H.
  { intros p d Hin. apply elem_of_list_In, Ha in Hin as [H1 H2]. unfold too_large. cbn [snd]. rewrite num_not_sign by done. pose proof (parse_digits_iff u64_max d 0 H2 ltac:(done)) as H. fold (digits_number d) in H. destruct (parse_digits u64_max 0 d); split; intros Hx; try done.
    - assert (digits_number d <= u64_max)%N by (apply H; eauto). lia.
    - apply N.nle_gt. intros [x Hy]%H. done. }
  split.
  - intros ([p t] & Hin & Hl). destruct t; try discriminate. exists p, s. apply elem_of_list_In in Hin. split; [done|]. by eapply H.
  - intros (p & d & Hin & Hl). exists (p, TNodeRef d). split; [by apply elem_of_list_In|]. by apply H.
Qed.
Lemma outcome_spec s :
  match parse_aql s with
  | Parsed e => ∃ ts, Tokenized 0 s ts ∧ GDisjunction ts e ∧ ∀ p d, (p, TNodeRef d) ∈ ts → (digits_number d <= u64_max)%N
  | Panic => ∃ ts e, Tokenized 0 s ts ∧ GDisjunction ts e ∧ ∃ p d, (p, TNodeRef d) ∈ ts ∧ (u64_max < digits_number d)%N
  | SyntaxError => ¬ ∃ ts e, Tokenized 0 s ts ∧ GDisjunction ts e
  end.
Proof.
  unfold parse_aql. destruct (tokens s) as [ts|] eqn:Et.
  - pose proof (proj1 (tokens_spec _ _) Et) as Ht. pose proof (tokenized_ok _ _ _ Ht) as Ha. destruct (p_disjunction ts) as [e|] eqn:Ep.
    + pose proof (proj1 (parser_grammar _ _) Ep) as Hg. pose proof (too_large_spec _ Ha) as Hl. destruct (existsb too_large ts).
      * exists ts, e. split_and!; [done|done|]. by apply Hl.
      * exists ts. split_and!; [done|done|]. intros p d Hin. apply N.nlt_ge. intros Hlt. assert (false = true) by (apply Hl; eauto). done.
    + intros (ts' & e & Ht' & Hg). apply tokens_spec in Ht'. rewrite Et in Ht'. injection Ht' as <-. apply parser_grammar in Hg. congruence.
  - intros (ts' & e & Ht' & Hg). apply tokens_spec in Ht'. congruence.
Qed.
Lemma tokenized_unique s ts ts' : Tokenized 0 s ts → Tokenized 0 s ts' → ts = ts'.
Proof. intros H%tokens_spec H'%tokens_spec. congruence. Qed.
