(** Parsed queries are positive and have one node search at a position *)
From Coq Require Import NArith String Lia.
From stdpp Require Import base list.
From Verif Require Import KeySer KeySerSpec CompPath RelAnnis NodeSearch TokenOps EdgeOps Query QuerySpec AqlLexer AqlLexerSpec AqlTokens AqlGrammar AqlParser AqlParserProofs AqlParserRules.
Set Default Proof Using "Type".

Scheme disjunction_ind' := Induction for GDisjunction Sort Prop
with conjunction_ind' := Induction for GConjunction Sort Prop
with factor_ind' := Induction for GFactor Sort Prop.
Combined Scheme grammar_ind from disjunction_ind', conjunction_ind', factor_ind'.

(** ** Positive *)
Lemma chain_positive ts e l : GChain ts e l → positive e.
Proof. induction 1; cbn; auto. Qed.
Lemma filter_positive ts e l : GFilter ts e l → positive e.
Proof. induction 1; cbn; auto. Qed.
Lemma literal_positive ts e : GLiteral ts e → positive e.
Proof. intros []; cbn; eauto using chain_positive, filter_positive. Qed.
Lemma all_positive : (∀ ts e, GDisjunction ts e → positive e) ∧ (∀ ts e, GConjunction ts e → positive e) ∧ (∀ ts e, GFactor ts e → positive e).
Proof. apply grammar_ind; intros; cbn; eauto using literal_positive. Qed.

(** ** Node searches of the tokens; [r] are the tokens that follow *)
Notation entry := (spec * option bytes * bool)%type.
Definition occurs (ts : list ptoken) (s : nat) (x : entry) : Prop := ∃ pre sub post, ts = pre ++ sub ++ post ∧ GNode sub (s, x.1.1, x.1.2, x.2) ∧ head_not after_node post.
Lemma occurs_app l ts s x : occurs ts s x → occurs (l ++ ts) s x.
Proof. intros (pre & sub & post & -> & H). exists (l ++ pre), sub, post. split; [by rewrite (assoc_L (++))|done]. Qed.
Lemma operand_occurs ts o r s x : GOperand ts o → head_not after_node r → operand_node o s x → occurs (ts ++ r) s x.
Proof. intros [us v H|us p sp var b H] Hr Hn; [done|]. destruct Hn as [-> ->]. by exists [], us, r. Qed.
Lemma neg_binary_head ts2 ts3 neg op r : GNeg ts2 neg → GBinaryOp ts3 op → head_not after_node (ts2 ++ ts3 ++ r).
Proof. intros [[-> ->]|(q & -> & ->)] H; [|done]. destruct (binary_head _ _ H) as (p & t & l & -> & Ht). by destruct t. Qed.
Lemma node_at_one (l : aql_literal) s x : node_at [l] s x → has_node l s x.
Proof. intros (l' & Hl & H). apply elem_of_list_singleton in Hl. by subst. Qed.
Lemma node_at_app (a b : list aql_literal) s x : node_at (a ++ b) s x → node_at a s x ∨ node_at b s x.
Proof. intros (l & [Hl|Hl]%elem_of_app & H); [left|right]; by exists l. Qed.
Lemma chain_occurs ts e last : GChain ts e last → ∀ r, head_not after_node r → ∀ s x,
  (operand_node last s x → occurs (ts ++ r) s x) ∧ (node_at (QuerySpec.terminals e) s x → occurs (ts ++ r) s x).
Proof.
  induction 1 as [ts1 ts2 ts3 ts4 lhs neg op rhs H1 H2 H3 H4|ts1 ts2 ts3 ts4 e last neg op rhs H IH H2 H3 H4]; intros r Hr s x.
  - assert (operand_node rhs s x → occurs ((ts1 ++ ts2 ++ ts3 ++ ts4) ++ r) s x) as Hrhs.
    { intros Hx. rewrite <- !(assoc_L (++)). do 3 apply occurs_app. by eapply operand_occurs. }
    split; [done|]. intros [Hx|Hx]%node_at_one; [|by apply Hrhs]. rewrite <- !(assoc_L (++)). eapply operand_occurs; [done|by eapply neg_binary_head|done].
  - assert (operand_node rhs s x → occurs ((ts1 ++ ts2 ++ ts3 ++ ts4) ++ r) s x) as Hrhs.
    { intros Hx. rewrite <- !(assoc_L (++)). do 3 apply occurs_app. by eapply operand_occurs. }
    split; [done|]. cbn [QuerySpec.terminals]. assert (head_not after_node (ts2 ++ ts3 ++ ts4 ++ r)) as Hh by (by eapply neg_binary_head). destruct (IH _ Hh s x) as [IH1 IH2].
    intros [Hx|[Hx|Hx]%node_at_one]%node_at_app; [..|by apply Hrhs]; rewrite <- !(assoc_L (++)); auto.
Qed.
Lemma filter_occurs ts e last : GFilter ts e last → ∀ s x, ¬ node_at (QuerySpec.terminals e) s x.
Proof.
  induction 1 as [ts1 ts2 ts3 v op w H1 H2 H3|ts1 ts2 ts3 e v op w H IH H2 H3]; intros s x; cbn [QuerySpec.terminals].
  - by intros [Hx|Hx]%node_at_one.
  - intros [Hx|[Hx|Hx]%node_at_one]%node_at_app; [by eapply IH|done|done].
Qed.
Lemma literal_occurs ts e : GLiteral ts e → ∀ r, head_not after_node r → ∀ s x, node_at (QuerySpec.terminals e) s x → occurs (ts ++ r) s x.
Proof.
  intros [us p sp var o H|us e' last H|us e' last H|ts1 p q ts2 v y H1 H2|p ts1 ts2 ts3 q c t H1 H2 H3] r Hr s x Hx.
  - apply node_at_one in Hx as [-> ->]. by exists [], us, r.
  - by apply (chain_occurs _ _ _ H r Hr).
  - by eapply filter_occurs in Hx.
  - by apply node_at_one in Hx.
  - by apply node_at_one in Hx.
Qed.
Lemma all_occurs : (∀ ts e, GDisjunction ts e → ∀ r, head_not after_node r → ∀ s x, node_at (QuerySpec.terminals e) s x → occurs (ts ++ r) s x) ∧
  (∀ ts e, GConjunction ts e → ∀ r, head_not after_node r → ∀ s x, node_at (QuerySpec.terminals e) s x → occurs (ts ++ r) s x) ∧
  (∀ ts e, GFactor ts e → ∀ r, head_not after_node r → ∀ s x, node_at (QuerySpec.terminals e) s x → occurs (ts ++ r) s x).
Proof.
  apply grammar_ind; try (by eauto using literal_occurs).
  - intros ts1 p ts2 e1 e2 H1 IH1 H2 IH2 r Hr s x. cbn [QuerySpec.terminals]. rewrite <- (assoc_L (++)). intros [Hx|Hx]%node_at_app; [by apply IH1|]. apply occurs_app. cbn [app]. apply (occurs_app [(p, TOr)]). by apply IH2.
  - intros ts1 p ts2 e1 e2 H1 IH1 H2 IH2 r Hr s x. cbn [QuerySpec.terminals]. rewrite <- (assoc_L (++)). intros [Hx|Hx]%node_at_app; [by apply IH1|]. apply occurs_app. cbn [app]. apply (occurs_app [(p, TAnd)]). by apply IH2.
  - intros p q ts e H IH r Hr s x Hx. cbn [app]. rewrite <- (assoc_L (++)). apply (occurs_app [(p, TLPar)]). by apply IH.
Qed.

(** ** Positions differ *)
Lemma tokenized_later off s ts : Tokenized off s ts → Forall (λ t : ptoken, off ≤ t.1) ts.
Proof.
  induction 1 as [| |off w s ts i r mk Hw Hi Hm Hmax H IH]; [apply List.Forall_nil| |].
  - eapply Forall_impl; [done|]. cbn. lia.
  - apply Forall_cons. split; [done|]. eapply Forall_impl; [done|]. cbn. lia.
Qed.
Lemma tokenized_nodup off s ts : Tokenized off s ts → NoDup (ts.*1).
Proof.
  induction 1 as [| |off w s ts i r mk Hw Hi Hm Hmax H IH]; [apply NoDup_nil_2|done|].
  cbn. apply NoDup_cons. split; [|done]. intros (t & E & Ht)%elem_of_list_fmap. apply tokenized_later in H. rewrite List.Forall_forall in H. apply elem_of_list_In, H in Ht. destruct w; [done|]. cbn in *. lia.
Qed.
Lemma node_start sub s sp var o : GNode sub (s, sp, var, o) → ∃ t l, sub = (s, t) :: l.
Proof. inversion 1 as [vs ts os p t ts' v' sp' o' Hv Hs Ho E]. rewrite E. eauto. Qed.
Lemma nodup_split (ts : list ptoken) pre1 pre2 s t1 t2 post1 post2 : NoDup (ts.*1) → ts = pre1 ++ (s, t1) :: post1 → ts = pre2 ++ (s, t2) :: post2 → (s, t1) :: post1 = (s, t2) :: post2.
Proof.
  intros Hn E1 E2. subst ts. revert pre2 Hn E2. induction pre1 as [|a pre1 IH]; intros [|b pre2] Hn E2; cbn in *.
  - done.
  - injection E2 as <- E. apply NoDup_cons in Hn as [Hn _]. destruct Hn. rewrite E, fmap_app. apply elem_of_app. right. left.
  - injection E2 as -> E. apply NoDup_cons in Hn as [Hn _]. destruct Hn. cbn. rewrite fmap_app. apply elem_of_app. right. left.
  - injection E2 as _ E. apply NoDup_cons in Hn as [_ Hn]. by eapply IH.
Qed.
Lemma occurs_unique ts s x y : NoDup (ts.*1) → occurs ts s x → occurs ts s y → x = y.
Proof.
  intros Hn (pre1 & sub1 & post1 & E1 & H1 & Hp1) (pre2 & sub2 & post2 & E2 & H2 & Hp2).
  pose proof (node_complete _ _ _ H1 Hp1) as P1. pose proof (node_complete _ _ _ H2 Hp2) as P2.
  destruct (node_start _ _ _ _ _ H1) as (t1 & l1 & ->). destruct (node_start _ _ _ _ _ H2) as (t2 & l2 & ->).
  cbn [app] in *. rewrite (nodup_split ts pre1 pre2 s t1 t2 (l1 ++ post1) (l2 ++ post2)) in P1 by done. pose proof (eq_trans (eq_sym P1) P2) as E. destruct x as [[? ?] ?], y as [[? ?] ?]. cbn in E. congruence.
Qed.
Lemma parsed_derivation s e : parse_aql s = Parsed e ↔ ∃ ts, Tokenized 0 s ts ∧ GDisjunction ts e ∧ existsb too_large ts = false.
Proof.
  unfold parse_aql. split.
  - destruct (tokens s) as [ts|] eqn:Et; [|discriminate]. destruct (p_disjunction ts) as [e'|] eqn:Ep; [|discriminate]. destruct (existsb too_large ts) eqn:El; [discriminate|]. intros [= ->]. exists ts. split_and!; [by apply tokens_spec|by apply parser_grammar|done].
  - intros (ts & Ht & Hg & Hl). apply tokens_spec in Ht. apply parser_grammar in Hg. by rewrite Ht, Hg, Hl.
Qed.
Lemma parsed_well_formed s e : parse_aql s = Parsed e → positive e ∧ consistent (QuerySpec.terminals e).
Proof.
  intros (ts & Ht & Hg & _)%parsed_derivation. split; [exact (proj1 all_positive _ _ Hg)|]. intros p x y Hx Hy. apply tokenized_nodup in Ht. eapply occurs_unique; [done|..].
  - rewrite <- (app_nil_r ts). by apply (proj1 all_occurs _ e).
  - rewrite <- (app_nil_r ts). by apply (proj1 all_occurs _ e).
Qed.
