(** The parser finds exactly the derivations of the grammar: literals, conjunctions and disjunctions *)
From Coq Require Import NArith String Lia.
From stdpp Require Import base list.
From Verif Require Import KeySer KeySerSpec CompPath RelAnnis NodeSearch TokenOps EdgeOps Query AqlLexer AqlGrammar AqlParser AqlParserProofs.
Set Default Proof Using "Type".

Lemma ends_after_node r : ends_literal r → head_not after_node r.
Proof. destruct r as [|[? []] ?]; done. Qed.
(** ** Chains of binary operators *)
Inductive CTail : option aql_expr → aql_operand → list ptoken → aql_expr → aql_operand → Prop :=
| ct_nil e l : CTail (Some e) l [] e l
| ct_cons e last ts2 ts3 ts4 ts neg op rhs e' l' : GNeg ts2 neg → GBinaryOp ts3 op → GOperand ts4 rhs →
    CTail (Some (join_and e (Terminal (LBin last op rhs neg)))) rhs ts e' l' → CTail e last (ts2 ++ ts3 ++ ts4 ++ ts) e' l'.
Lemma ctail_snoc e0 l0 ts e l ts2 ts3 ts4 neg op rhs : CTail e0 l0 ts e l → GNeg ts2 neg → GBinaryOp ts3 op → GOperand ts4 rhs →
  CTail e0 l0 (ts ++ ts2 ++ ts3 ++ ts4) (And e (Terminal (LBin l op rhs neg))) rhs.
Proof.
  intros H H2 H3 H4. induction H as [e l|e last us2 us3 us4 us neg' op' rhs' e' l' U2 U3 U4 U IH].
  - cbn [app]. rewrite <- (app_nil_r ts4). eapply ct_cons; [done..|]. constructor.
  - rewrite <- !(assoc_L (++)). eapply ct_cons; [done..|]. exact IH.
Qed.
Lemma chain_tail ts e l : GChain ts e l → ∃ ts1 lhs ts', ts = ts1 ++ ts' ∧ GOperand ts1 lhs ∧ CTail None lhs ts' e l.
Proof.
  induction 1 as [ts1 ts2 ts3 ts4 lhs neg op rhs H1 H2 H3 H4|ts1 ts2 ts3 ts4 e last neg op rhs H IH H2 H3 H4].
  - exists ts1, lhs, (ts2 ++ ts3 ++ ts4). split; [done|]. split; [done|]. rewrite <- (app_nil_r ts4). eapply ct_cons; [done..|]. constructor.
  - destruct IH as (us & lhs & us' & -> & H1 & Ht). exists us, lhs, (us' ++ ts2 ++ ts3 ++ ts4). split; [by rewrite <- !(assoc_L (++))|]. split; [done|]. by apply ctail_snoc.
Qed.
Lemma tail_chain_some oe l ts e' l' : CTail oe l ts e' l' → ∀ e ts0, oe = Some e → GChain ts0 e l → GChain (ts0 ++ ts) e' l'.
Proof.
  induction 1 as [e l|e last us2 us3 us4 us neg op rhs e' l' U2 U3 U4 U IH]; intros e0 ts0 E H.
  - rewrite app_nil_r. by injection E as ->.
  - subst e. cbn [join_and] in IH. rewrite (assoc_L (++) us2), (assoc_L (++) (us2 ++ us3)), (assoc_L (++) ts0), <- (assoc_L (++) us2).
    eapply IH; [done|]. by apply g_chain_more.
Qed.
Lemma tail_chain l ts e' l' ts0 : CTail None l ts e' l' → GOperand ts0 l → GChain (ts0 ++ ts) e' l'.
Proof.
  intros H H0. inversion H as [|e last us2 us3 us4 us neg op rhs e1 l1 U2 U3 U4 U]; subst. cbn [join_and] in U.
  rewrite (assoc_L (++) us2), (assoc_L (++) (us2 ++ us3)), (assoc_L (++) ts0), <- (assoc_L (++) us2). eapply tail_chain_some; [done|done|]. by apply g_chain.
Qed.
Lemma binary_head pre x : GBinaryOp pre x → ∃ p t l, pre = (p, t) :: l ∧ is_binary t = true.
Proof. intros []; eauto 6. Qed.
Lemma tail_head e last ts e' l' r : CTail e last ts e' l' → ends_literal r → head_not after_node (ts ++ r).
Proof.
  intros [|? ? us2 us3 us4 us neg op rhs e1 l1 [[-> ->]|(q & -> & ->)] U3 U4 U] Hr; [by apply ends_after_node| |done].
  destruct (binary_head _ _ U3) as (p & t & l & -> & Ht). by destruct t.
Qed.
Lemma neg_sound ts neg r : p_neg ts = (neg, r) → ∃ pre, ts = pre ++ r ∧ GNeg pre neg.
Proof.
  intros H. assert ((∃ p, ts = (p, TBang) :: r ∧ neg = true) ∨ (ts = r ∧ neg = false)) as [(p & -> & ->)|[-> ->]].
  { destruct ts as [|[p []] ts]; cbn in H; injection H as <- <-; eauto. }
  - exists [(p, TBang)]. split; [done|]. right. eauto.
  - exists []. split; [done|]. by left.
Qed.
Lemma chain_sound k e last ts e' r : p_chain k e last ts = Some (e', r) → ∃ pre l', ts = pre ++ r ∧ CTail e last pre e' l'.
Proof.
  revert e last ts. induction k as [|k IH]; intros e last ts H; [discriminate|]. cbn [p_chain] in H. destruct (p_neg ts) as [neg r0] eqn:E0.
  destruct (p_binary r0) as [[op r1]|] eqn:E1.
  - destruct (p_operand r1) as [[rhs r2]|] eqn:E2; [|discriminate]. apply IH in H as (pre & l' & -> & H).
    destruct (neg_sound _ _ _ E0) as (p0 & -> & H0). destruct (binary_sound _ _ _ E1) as (p1 & -> & H1). destruct (operand_sound _ _ _ E2) as (p2 & -> & H2).
    exists (p0 ++ p1 ++ p2 ++ pre), l'. split; [by rewrite <- !(assoc_L (++))|]. by eapply ct_cons.
  - destruct e as [e|]; [|discriminate]. destruct neg; [discriminate|]. injection H as <- <-. exists [], last. split; [done|]. constructor.
Qed.
Lemma chain_complete e last pre e' l' : CTail e last pre e' l' → ∀ k r, length pre < k → ends_literal r → p_chain k e last (pre ++ r) = Some (e', r).
Proof.
  induction 1 as [e l|e last us2 us3 us4 us neg op rhs e' l' U2 U3 U4 U IH]; intros k r Hk Hr; (destruct k as [|k]; [lia|]).
  - cbn [app p_chain]. destruct r as [|[? []] ?]; try done.
  - cbn [p_chain]. rewrite <- !(assoc_L (++)). destruct (operand_head _ _ U4) as (p4 & t4 & l4 & E4 & Ht4). destruct (binary_head _ _ U3) as (p3 & t3 & l3 & E3 & Ht3).
    assert (p_neg (us2 ++ us3 ++ us4 ++ us ++ r) = (neg, us3 ++ us4 ++ us ++ r)) as ->.
    { destruct U2 as [[-> ->]|(q & -> & ->)]; [|done]. subst us3. by destruct t3. }
    rewrite (binary_complete _ _ _ U3) by (subst us4; done). rewrite (operand_complete _ _ _ U4) by (by eapply tail_head).
    apply IH; [|done]. rewrite !app_length in Hk. subst us3. cbn in Hk. lia.
Qed.
(** ** Chains of comparisons *)
Inductive FTail : option aql_expr → vname → list ptoken → aql_expr → vname → Prop :=
| ft_nil e v : FTail (Some e) v [] e v
| ft_cons e v ts2 ts3 ts op w e' v' : GFilterOp ts2 op → GNodeRef ts3 w → FTail (Some (join_and e (Terminal (LBin (ORef v) op (ORef w) false)))) w ts e' v' →
    FTail e v (ts2 ++ ts3 ++ ts) e' v'.
Lemma ftail_snoc e0 v0 ts e v ts2 ts3 op w : FTail e0 v0 ts e v → GFilterOp ts2 op → GNodeRef ts3 w → FTail e0 v0 (ts ++ ts2 ++ ts3) (And e (Terminal (LBin (ORef v) op (ORef w) false))) w.
Proof.
  intros H H2 H3. induction H as [e v|e v us2 us3 us op' w' e' v' U2 U3 U IH].
  - cbn [app]. rewrite <- (app_nil_r ts3). eapply ft_cons; [done..|]. constructor.
  - rewrite <- !(assoc_L (++)). eapply ft_cons; [done..|]. exact IH.
Qed.
Lemma filter_tail ts e v : GFilter ts e v → ∃ ts1 v1 ts', ts = ts1 ++ ts' ∧ GNodeRef ts1 v1 ∧ FTail None v1 ts' e v.
Proof.
  induction 1 as [ts1 ts2 ts3 v op w H1 H2 H3|ts1 ts2 ts3 e v op w H IH H2 H3].
  - exists ts1, v, (ts2 ++ ts3). split; [done|]. split; [done|]. rewrite <- (app_nil_r ts3). eapply ft_cons; [done..|]. constructor.
  - destruct IH as (us & v1 & us' & -> & H1 & Ht). exists us, v1, (us' ++ ts2 ++ ts3). split; [by rewrite <- !(assoc_L (++))|]. split; [done|]. by apply ftail_snoc.
Qed.
Lemma tail_filter_some oe v ts e' v' : FTail oe v ts e' v' → ∀ e ts0, oe = Some e → GFilter ts0 e v → GFilter (ts0 ++ ts) e' v'.
Proof.
  induction 1 as [e v|e v us2 us3 us op w e' v' U2 U3 U IH]; intros e0 ts0 E H.
  - rewrite app_nil_r. by injection E as ->.
  - subst e. cbn [join_and] in IH. rewrite (assoc_L (++) us2), (assoc_L (++) ts0). eapply IH; [done|]. by apply g_filter_more.
Qed.
Lemma tail_filter v ts e' v' ts0 : FTail None v ts e' v' → GNodeRef ts0 v → GFilter (ts0 ++ ts) e' v'.
Proof.
  intros H H0. inversion H as [|e last us2 us3 us op w e1 v1 U2 U3 U]; subst. cbn [join_and] in U.
  rewrite (assoc_L (++) us2), (assoc_L (++) ts0). eapply tail_filter_some; [done|done|]. by apply g_filter.
Qed.
Lemma filter_sound k e v ts e' r : p_filter k e v ts = Some (e', r) → ∃ pre v', ts = pre ++ r ∧ FTail e v pre e' v'.
Proof.
  revert e v ts. induction k as [|k IH]; intros e v ts H; [discriminate|]. cbn [p_filter] in H.
  destruct (p_filter_op ts) as [[op r1]|] eqn:E1.
  - destruct (p_node_ref r1) as [[w r2]|] eqn:E2; [|discriminate]. apply IH in H as (pre & v' & -> & H).
    destruct (filter_op_sound _ _ _ E1) as (p1 & -> & H1). destruct (node_ref_sound _ _ _ E2) as (p2 & -> & H2).
    exists (p1 ++ p2 ++ pre), v'. split; [by rewrite <- !(assoc_L (++))|]. by eapply ft_cons.
  - destruct e as [e|]; [|discriminate]. injection H as <- <-. exists [], v. split; [done|]. constructor.
Qed.
Lemma filter_complete e v pre e' v' : FTail e v pre e' v' → ∀ k r, length pre < k → ends_literal r → p_filter k e v (pre ++ r) = Some (e', r).
Proof.
  induction 1 as [e v|e v us2 us3 us op w e' v' U2 U3 U IH]; intros k r Hk Hr; (destruct k as [|k]; [lia|]).
  - cbn [app p_filter]. destruct r as [|[? []] ?]; try done.
  - cbn [p_filter]. rewrite <- !(assoc_L (++)). rewrite (filter_op_complete _ _ _ U2), (node_ref_complete _ _ _ U3). apply IH; [|done]. rewrite !app_length in Hk. destruct U2; cbn in Hk; lia.
Qed.

(** ** Literals *)
Lemma literal_sound ts e r : p_literal ts = Some (e, r) → ∃ pre, ts = pre ++ r ∧ GLiteral pre e.
Proof.
  intros H. assert ((∃ p l, ts = (p, TMeta) :: l) ∨ match p_node_ref ts with
      | Some (v, r) =>
          match r with
          | (_, TArity) :: (_, TEq) :: r1 => match p_range r1 with Some (x, r2) => Some (Terminal (LUn v (UArity x)), r2) | None => None end
          | (_, TEqEq) :: _ | (_, TNotEq) :: _ => p_filter (S (length r)) None v r
          | _ => p_chain (S (length r)) None (ORef v) r
          end
      | None =>
          match p_node ts with
          | Some ((p, sp, var, o), r) => if starts_chain r then p_chain (S (length r)) None (OLit sp p var o) r else Some (Terminal (LNode sp p var o), r)
          | None => None
          end
      end = Some (e, r)) as [(p & l & ->)|H'].
  { destruct ts as [|[p []] l]; try (by right). left. eauto. }
  - clear -H. cbn [p_literal] in H. destruct (p_qname l) as [[q r0]|] eqn:E0; [|discriminate]. destruct (p_comparison r0) as [[c r1]|] eqn:E1; [|discriminate].
    destruct (p_text r1) as [[t r2]|] eqn:E2; [|discriminate]. injection H as <- <-.
    destruct (qname_sound _ _ _ E0) as (p0 & -> & H0). destruct (comparison_sound _ _ _ E1) as (p1 & -> & H1). destruct (text_sound _ _ _ E2) as (p2 & -> & H2).
    exists ((p, TMeta) :: p0 ++ p1 ++ p2). split; [cbn [app]; by rewrite <- !(assoc_L (++))|]. by constructor.
  - clear H. destruct (p_node_ref ts) as [[v r0]|] eqn:E0.
    + destruct (node_ref_sound _ _ _ E0) as (p0 & -> & H0).
      assert ((∃ p q r1 x, r0 = (p, TArity) :: (q, TEq) :: r1 ∧ p_range r1 = Some (x, r) ∧ e = Terminal (LUn v (UArity x))) ∨ p_filter (S (length r0)) None v r0 = Some (e, r) ∨ p_chain (S (length r0)) None (ORef v) r0 = Some (e, r)) as [(p & q & r1 & x & -> & E1 & ->)|[E|E]].
      { destruct r0 as [|[p t] r0]; [by right; right|]. destruct t; try (by right; right); try (by right; left). destruct r0 as [|[q t] r0]; [by right; right|]. destruct t; try (by right; right).
        left. destruct (p_range r0) as [[x r2]|] eqn:E; [|discriminate]. injection H' as <- <-. exists p, q, r0, x. done. }
      * destruct (range_sound _ _ _ E1) as (p1 & -> & H1). exists (p0 ++ (p, TArity) :: (q, TEq) :: p1). split; [by rewrite <- !(assoc_L (++))|]. by constructor.
      * destruct (filter_sound _ _ _ _ _ _ E) as (p1 & v' & -> & H1). exists (p0 ++ p1). split; [by rewrite <- !(assoc_L (++))|]. eapply g_binary_filter. by eapply tail_filter.
      * destruct (chain_sound _ _ _ _ _ _ E) as (p1 & l' & -> & H1). exists (p0 ++ p1). split; [by rewrite <- !(assoc_L (++))|]. eapply g_binary. eapply tail_chain; [done|]. by constructor.
    + destruct (p_node ts) as [[[[[p sp] var] o] r0]|] eqn:E1; [|discriminate]. destruct (node_sound _ _ _ E1) as (p0 & -> & H0). destruct (starts_chain r0).
      * destruct (chain_sound _ _ _ _ _ _ H') as (p1 & l' & -> & H1). exists (p0 ++ p1). split; [by rewrite <- !(assoc_L (++))|]. eapply g_binary. eapply tail_chain; [done|]. by constructor.
      * injection H' as <- <-. exists p0. split; [done|by constructor].
Qed.
Lemma starts_chain_tail last ts e' l' r : CTail None last ts e' l' → ends_literal r → starts_chain (ts ++ r) = true.
Proof.
  intros H Hr. inversion H as [|e last' us2 us3 us4 us neg op rhs e1 l1 U2 U3 U4 U]; subst. destruct U2 as [[-> ->]|(q & -> & ->)]; [|done].
  destruct (operand_head _ _ U4) as (p4 & t4 & l4 & E4 & Ht4). cbn [app]. rewrite <- !(assoc_L (++)).
  assert (p_binary (us3 ++ us4 ++ us ++ r) = Some (op, us4 ++ us ++ r)) as E by (apply binary_complete; [done|]; subst us4; done).
  destruct (binary_head _ _ U3) as (p3 & t3 & l3 & -> & Ht3). unfold starts_chain. cbn [app] in *. rewrite E. by destruct t3.
Qed.
Lemma node_ref_first pre v : GNodeRef pre v → ∃ p t, pre = [(p, t)] ∧ t ≠ TMeta.
Proof. intros []; eauto. Qed.
Lemma ref_literal pre v r : GNodeRef pre v → p_literal (pre ++ r) =
          match r with
          | (_, TArity) :: (_, TEq) :: r1 => match p_range r1 with Some (x, r2) => Some (Terminal (LUn v (UArity x)), r2) | None => None end
          | (_, TEqEq) :: _ | (_, TNotEq) :: _ => p_filter (S (length r)) None v r
          | _ => p_chain (S (length r)) None (ORef v) r
          end.
Proof. intros []; reflexivity. Qed.
Lemma node_literal pre p sp var o r r' : GNode pre (p, sp, var, o) → p_node (pre ++ r') = Some ((p, sp, var, o), r) → p_literal (pre ++ r') = (if starts_chain r then p_chain (S (length r)) None (OLit sp p var o) r else Some (Terminal (LNode sp p var o), r)).
Proof.
  intros H E. pose proof (node_not_ref _ _ r' H) as E'.
  destruct (pre ++ r') as [|[q t] l] eqn:Ep; [discriminate|]. unfold p_literal. rewrite E', E. destruct t; try reflexivity.
  destruct H as [vs ts os p' t l' var' sp' b Hv Hs Hb E0]. exfalso. destruct Hv as [[-> ->]|(q' & s & -> & ->)]; [|discriminate].
  destruct Hs as [ | |? ? ? ? ? ? ?|? ? []|? ? ? ? ? ? [] ? ?|? ? []]; discriminate.
Qed.
Lemma literal_complete pre e r : GLiteral pre e → ends_literal r → p_literal (pre ++ r) = Some (e, r).
Proof.
  intros [ts p sp var o H|ts e' last H|ts e' last H|ts1 p q ts2 v x H1 H2|p ts1 ts2 ts3 q c t H1 H2 H3] Hr.
  - rewrite (node_literal _ p sp var o r r H); [|by apply node_complete, ends_after_node]. by destruct r as [|[? []] ?].
  - apply chain_tail in H as (ts1 & lhs & ts' & -> & H1 & H2). rewrite <- (assoc_L (++)). pose proof (starts_chain_tail _ _ _ _ _ H2 Hr) as Hs.
    destruct H1 as [ts v H1|ts p sp var o H1].
    + rewrite (ref_literal _ _ _ H1). assert (p_chain (S (length (ts' ++ r))) None (ORef v) (ts' ++ r) = Some (e', r)) as E by (eapply chain_complete; [done| |done]; rewrite app_length; lia).
      destruct (ts' ++ r) as [|[q t] l]; [exact E|]. destruct t; try exact E; discriminate.
    + rewrite (node_literal _ p sp var o (ts' ++ r) _ H1).
      * rewrite Hs. eapply chain_complete; [done| |done]. rewrite app_length. lia.
      * apply node_complete; [done|]. by eapply tail_head.
  - apply filter_tail in H as (ts1 & v & ts' & -> & H1 & H2). rewrite <- (assoc_L (++)), (ref_literal _ _ _ H1).
    assert (p_filter (S (length (ts' ++ r))) None v (ts' ++ r) = Some (e', r)) as E by (eapply filter_complete; [done| |done]; rewrite app_length; lia).
    inversion H2 as [|oe last' us2 us3 us op w e1 v1 U2 U3 U]; subst. rewrite <- !(assoc_L (++)) in E |- *. destruct U2; exact E.
  - rewrite <- (assoc_L (++)), (ref_literal _ _ _ H1). cbn [app]. rewrite (range_complete _ _ _ H2); [done|]. by destruct r as [|[? []] ?].
  - cbn [app p_literal]. rewrite <- !(assoc_L (++)). rewrite (qname_complete _ _ _ H1), (comparison_complete _ _ _ H2), (text_complete _ _ _ H3); [done|]. destruct H2; done.
Qed.

(** ** Lists with separators *)
Section loop.
  Context (sep : token → bool) (mk : aql_expr → aql_expr → aql_expr) (sub : list ptoken → result aql_expr) (R : list ptoken → aql_expr → Prop).
  Inductive LTail : aql_expr → list ptoken → aql_expr → Prop :=
  | lt_nil e : LTail e [] e
  | lt_cons e p t ts ts' e1 e' : sep t = true → R ts e1 → LTail (mk e e1) ts' e' → LTail e ((p, t) :: ts ++ ts') e'.
  Lemma loop_sound (Hsub : ∀ ts e r, sub ts = Some (e, r) → ∃ pre, ts = pre ++ r ∧ R pre e) k e ts e' r : p_loop sep mk sub k e ts = Some (e', r) → ∃ pre, ts = pre ++ r ∧ LTail e pre e'.
  Proof.
    revert e ts. induction k as [|k IH]; intros e ts H; [discriminate|]. cbn [p_loop] in H. destruct ts as [|[p t] ts]; [injection H as <- <-; exists []; split; [done|constructor]|].
    destruct (sep t) eqn:Es; [|injection H as <- <-; exists []; split; [done|constructor]].
    destruct (sub ts) as [[e1 r1]|] eqn:E; [|discriminate]. apply IH in H as (pre & -> & H). destruct (Hsub _ _ _ E) as (p1 & -> & H1).
    exists ((p, t) :: p1 ++ pre). split; [cbn [app]; by rewrite <- (assoc_L (++))|]. by eapply lt_cons.
  Qed.
  Lemma list_sound (Hsub : ∀ ts e r, sub ts = Some (e, r) → ∃ pre, ts = pre ++ r ∧ R pre e) ts e' r : p_list sep mk sub ts = Some (e', r) → ∃ pre e ts', ts = (pre ++ ts') ++ r ∧ R pre e ∧ LTail e ts' e'.
  Proof.
    unfold p_list. intros H. destruct (sub ts) as [[e r0]|] eqn:E; [|discriminate]. destruct (Hsub _ _ _ E) as (pre & -> & H0). apply (loop_sound Hsub) in H as (p1 & -> & H1).
    exists pre, e, p1. by rewrite <- (assoc_L (++)).
  Qed.
  Context (F : list ptoken → Prop) (HF : ∀ p t l, sep t = true → F ((p, t) :: l)).
  Lemma loop_complete n (Hsub : ∀ pre e r, R pre e → length pre ≤ n → F r → sub (pre ++ r) = Some (e, r)) e ts e' : LTail e ts e' →
    ∀ k r, length ts ≤ n → length ts < k → F r → head_not sep r → p_loop sep mk sub k e (ts ++ r) = Some (e', r).
  Proof using HF.
    induction 1 as [e|e p t ts ts' e1 e' Ht HR H IH]; intros k r Hn Hk Hr Hs; (destruct k as [|k]; [lia|]).
    - cbn [app p_loop]. destruct r as [|[q t] r]; [done|]. cbn in Hs. by rewrite Hs.
    - cbn [app p_loop]. cbn in Hn, Hk. rewrite app_length in Hn, Hk. rewrite Ht, <- (assoc_L (++)), (Hsub _ _ _ HR).
      + apply IH; try done; lia.
      + lia.
      + inversion H as [|? ? ? ? ? ? ? Ht' ? ?]; subst; cbn [app]; [done|]. by apply HF.
  Qed.
  Lemma list_complete n (Hsub : ∀ pre e r, R pre e → length pre ≤ n → F r → sub (pre ++ r) = Some (e, r)) pre e ts e' r : R pre e → LTail e ts e' → length pre ≤ n → length ts ≤ n → F r → head_not sep r →
    p_list sep mk sub ((pre ++ ts) ++ r) = Some (e', r).
  Proof using HF.
    intros HR H Hp Ht Hr Hs. unfold p_list. rewrite <- (assoc_L (++)), (Hsub _ _ _ HR Hp).
    - eapply loop_complete; try done. rewrite app_length. lia.
    - inversion H as [|? ? ? ? ? ? ? Ht' ? ?]; subst; cbn [app]; [done|]. by apply HF.
  Qed.
End loop.
Lemma ltail_snoc sep mk R e ts e' p t ts1 e1 : LTail sep mk R e ts e' → sep t = true → R ts1 e1 → LTail sep mk R e (ts ++ (p, t) :: ts1) (mk e' e1).
Proof.
  intros H Ht H1. induction H as [e|e q u us us' e2 e' Hu HR H IH].
  - cbn [app]. rewrite <- (app_nil_r ts1). eapply lt_cons; [done..|]. constructor.
  - cbn [app]. rewrite <- (assoc_L (++)). by eapply lt_cons.
Qed.
Lemma conjunction_list ts e : GConjunction ts e → ∃ pre e0 ts', ts = pre ++ ts' ∧ GFactor pre e0 ∧ LTail is_and And GFactor e0 ts' e.
Proof.
  induction 1 as [ts e H|ts1 p ts2 e1 e2 H1 IH H2].
  - exists ts, e, []. rewrite app_nil_r. split; [done|]. split; [done|]. constructor.
  - destruct IH as (pre & e0 & ts' & -> & H0 & Ht). exists pre, e0, (ts' ++ (p, TAnd) :: ts2). split; [by rewrite (assoc_L (++))|]. split; [done|]. by apply ltail_snoc.
Qed.
Lemma disjunction_list ts e : GDisjunction ts e → ∃ pre e0 ts', ts = pre ++ ts' ∧ GConjunction pre e0 ∧ LTail is_or Or GConjunction e0 ts' e.
Proof.
  induction 1 as [ts e H|ts1 p ts2 e1 e2 H1 IH H2].
  - exists ts, e, []. rewrite app_nil_r. split; [done|]. split; [done|]. constructor.
  - destruct IH as (pre & e0 & ts' & -> & H0 & Ht). exists pre, e0, (ts' ++ (p, TOr) :: ts2). split; [by rewrite (assoc_L (++))|]. split; [done|]. by apply ltail_snoc.
Qed.
Lemma list_conjunction e0 ts e : LTail is_and And GFactor e0 ts e → ∀ pre, GConjunction pre e0 → GConjunction (pre ++ ts) e.
Proof.
  induction 1 as [e|e p t ts ts' e1 e' Ht HR H IH]; intros pre Hp; [by rewrite app_nil_r|]. destruct t; try discriminate.
  rewrite (app_comm_cons ts), (assoc_L (++)). apply IH. by apply g_and.
Qed.
Lemma list_disjunction e0 ts e : LTail is_or Or GConjunction e0 ts e → ∀ pre, GDisjunction pre e0 → GDisjunction (pre ++ ts) e.
Proof.
  induction 1 as [e|e p t ts ts' e1 e' Ht HR H IH]; intros pre Hp; [by rewrite app_nil_r|]. destruct t; try discriminate.
  rewrite (app_comm_cons ts), (assoc_L (++)). apply IH. by apply g_or.
Qed.
Lemma disjunction_of_sound sub (Hsub : ∀ ts e r, sub ts = Some (e, r) → ∃ pre, ts = pre ++ r ∧ GFactor pre e) ts e r : p_disjunction_of sub ts = Some (e, r) → ∃ pre, ts = pre ++ r ∧ GDisjunction pre e.
Proof.
  intros H. unfold p_disjunction_of in H. apply (list_sound _ _ _ GConjunction) in H as (pre & e0 & ts' & -> & H0 & Ht).
  - exists (pre ++ ts'). split; [done|]. eapply list_disjunction; [done|]. by constructor.
  - clear H. intros us e1 r1 H. apply (list_sound _ _ _ GFactor Hsub) in H as (pre & e0 & ts' & -> & H0 & Ht).
    exists (pre ++ ts'). split; [done|]. eapply list_conjunction; [done|]. by constructor.
Qed.
Lemma disjunction_of_complete n sub (Hsub : ∀ pre e r, GFactor pre e → length pre ≤ n → ends_literal r → sub (pre ++ r) = Some (e, r)) ts e r :
  GDisjunction ts e → length ts ≤ n → ends_literal r → head_not is_and r → head_not is_or r → p_disjunction_of sub (ts ++ r) = Some (e, r).
Proof.
  intros H Hn Hr Hr1 Hr2. apply disjunction_list in H as (pre & e0 & ts' & -> & H0 & Ht). rewrite app_length in Hn.
  unfold p_disjunction_of. apply (list_complete is_or Or _ GConjunction (λ r, ends_literal r ∧ head_not is_and r)) with (n := n) (e := e0); try done; try lia.
  - intros p t l Hs. by destruct t.
  - clear -Hsub. intros pre e r H Hn [Hr Hr1]. apply conjunction_list in H as (p0 & e0 & ts' & -> & H0 & Ht). rewrite app_length in Hn.
    apply (list_complete is_and And _ GFactor ends_literal) with (n := n) (e := e0); try done; try lia. intros p t l Hs. by destruct t.
Qed.
Lemma literal_nonempty ts e : GLiteral ts e → ∃ p t l, ts = (p, t) :: l ∧ t ≠ TLPar.
Proof.
  assert (∀ ts x, GNode ts x → ∃ p t l, ts = (p, t) :: l ∧ t ≠ TLPar) as Hn.
  { intros us x [vs ts' os p' t l var' sp' b Hv Hs Hb E]. destruct Hv as [[-> ->]|(q & s & -> & ->)]; [|cbn; eauto 6]. destruct Hs as [ | |? ? ? ? ? ? ?|? ? []|? ? ? ? ? ? [] ? ?|? ? []]; cbn; eauto 6. }
  assert (∀ ts v, GNodeRef ts v → ∃ p t l, ts = (p, t) :: l ∧ t ≠ TLPar) as Hv by (intros us v []; eauto 6).
  assert (∀ ts x, GOperand ts x → ∃ p t l, ts = (p, t) :: l ∧ t ≠ TLPar) as Ho by (intros us x []; eauto).
  assert (∀ us us' : list ptoken, (∃ p t l, us = (p, t) :: l ∧ t ≠ TLPar) → ∃ p t l, us ++ us' = (p, t) :: l ∧ t ≠ TLPar) as Ha by (intros us us' (p & t & l & -> & ?); cbn; eauto 6).
  intros [us p sp var o H|us e' last H|us e' last H|ts1 p q ts2 v x H1 H2|p ts1 ts2 ts3 q c t H1 H2 H3]; eauto.
  - apply chain_tail in H as (us1 & lhs & us' & -> & H1 & H2). eauto.
  - apply filter_tail in H as (us1 & lhs & us' & -> & H1 & H2). eauto.
Qed.
Lemma factor_sound n ts e r : p_factor n ts = Some (e, r) → ∃ pre, ts = pre ++ r ∧ GFactor pre e.
Proof.
  revert ts e r. induction n as [|n IH]; intros ts e r H; [discriminate|].
  assert ((∃ p l, ts = (p, TLPar) :: l) ∨ p_literal ts = Some (e, r)) as [(p & l & ->)|E].
  { destruct ts as [|[p []] l]; try (by right). left. eauto. }
  - cbn [p_factor] in H. destruct (p_disjunction_of (p_factor n) l) as [[e1 r1]|] eqn:E; [|discriminate]. destruct r1 as [|[q []] r1]; try discriminate. injection H as <- <-.
    apply (disjunction_of_sound _ IH) in E as (pre & -> & H). exists ((p, TLPar) :: pre ++ [(q, TRPar)]). split; [cbn [app]; by rewrite <- (assoc_L (++))|]. by constructor.
  - destruct (literal_sound _ _ _ E) as (pre & -> & H'). exists pre. split; [done|by constructor].
Qed.
Lemma factor_complete n pre e r : GFactor pre e → length pre ≤ n → ends_literal r → p_factor n (pre ++ r) = Some (e, r).
Proof.
  revert pre e r. induction n as [|n IH]; intros pre e r H Hn Hr.
  - destruct H as [ts e H|p q ts e H]; [|cbn in Hn; lia]. destruct (literal_nonempty _ _ H) as (p & t & l & -> & _). cbn in Hn. lia.
  - destruct H as [ts e H|p q ts e H].
    + pose proof (literal_complete _ _ _ H Hr) as E. destruct (literal_nonempty _ _ H) as (p & t & l & -> & Hl). cbn [app p_factor] in *. by destruct t.
    + cbn [app p_factor]. cbn in Hn. rewrite app_length in Hn. cbn in Hn. rewrite <- (assoc_L (++)). cbn [app].
      rewrite (disjunction_of_complete n _ IH _ e); try done. lia.
Qed.

(** ** Queries *)
Lemma parser_grammar ts e : p_disjunction ts = Some e ↔ GDisjunction ts e.
Proof.
  unfold p_disjunction. split; intros H.
  - destruct (p_disjunction_of _ ts) as [[e' r]|] eqn:E; [|discriminate]. destruct r; [|discriminate]. injection H as ->.
    apply disjunction_of_sound in E as (pre & -> & H); [by rewrite app_nil_r|]. apply factor_sound.
  - assert (p_disjunction_of (p_factor (length ts)) (ts ++ []) = Some (e, [])) as E.
    { eapply disjunction_of_complete; try done. intros pre e' r H' Hn Hr. by apply factor_complete. }
    rewrite app_nil_r in E. by rewrite E.
Qed.
Lemma grammar_unambiguous ts e e' : GDisjunction ts e → GDisjunction ts e' → e = e'.
Proof. intros H H'. apply parser_grammar in H, H'. congruence. Qed.
