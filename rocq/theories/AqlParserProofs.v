(** The parser finds exactly the derivations of the grammar *)
From Coq Require Import NArith String.
From stdpp Require Import base list.
From Verif Require Import KeySer KeySerSpec CompPath RelAnnis NodeSearch TokenOps EdgeOps Query AqlLexer AqlGrammar AqlParser.
Set Default Proof Using "Type".

(** ** The first token of the rest *)
Definition head_not (bad : token → bool) (r : list ptoken) : Prop := match r with [] => True | (_, t) :: _ => bad t = false end.
Definition is_colon (t : token) := match t with TColon => true | _ => false end.
Definition is_cmp (t : token) := match t with TEq | TNotEq => true | _ => false end.
Definition is_comma (t : token) := match t with TComma => true | _ => false end.
Definition is_range_start (t : token) := match t with TComma | TStar | TDigits _ => true | _ => false end.
Definition is_lbr (t : token) := match t with TLBr => true | _ => false end.
Definition is_optional (t : token) := match t with TOptional => true | _ => false end.
Definition is_binary (t : token) :=
  match t with TDom _ | TPoint _ | TPrec _ | TNear _ | TAt | TOverlap | TIdentCov | TInclusion | TLeft | TRight | TIdentNode => true | _ => false end.
Definition after_search (t : token) := is_colon t || is_cmp t.
Definition after_node (t : token) := is_colon t || is_cmp t || is_optional t.
Definition after_binary (t : token) := is_range_start t || is_lbr t.
Definition ends_literal (r : list ptoken) : Prop := match r with [] | (_, (TAnd | TOr | TRPar)) :: _ => True | _ => False end.

Ltac crush := repeat match goal with
  | H : Some _ = Some _ |- _ => injection H; clear H; intros; subst
  | H : None = Some _ |- _ => discriminate H
  | H : Some _ = None |- _ => discriminate H
  | H : (_, _) = (_, _) |- _ => injection H; clear H; intros; subst
  | H : match ?x with _ => _ end = Some _ |- _ => destruct x eqn:?; try discriminate H
  end.

(** ** Soundness of the parts *)
Lemma qname_sound ts q r : p_qname ts = Some (q, r) → ∃ pre, ts = pre ++ r ∧ GQName pre q.
Proof. unfold p_qname. intros H. crush; (eexists; split; [|first [apply g_name|apply g_qualified]]); reflexivity. Qed.
Lemma comparison_sound ts c r : p_comparison ts = Some (c, r) → ∃ pre, ts = pre ++ r ∧ GComparison pre c.
Proof. unfold p_comparison. intros H. crush; eexists [_]; (split; [reflexivity|constructor]). Qed.
Lemma text_sound ts c r : p_text ts = Some (c, r) → ∃ pre, ts = pre ++ r ∧ GTextSearch pre c.
Proof. unfold p_text. intros H. crush; eexists [_]; (split; [reflexivity|constructor]). Qed.
Lemma qname_complete pre q r : GQName pre q → head_not is_colon r → p_qname (pre ++ r) = Some (q, r).
Proof. intros [] Hr; [reflexivity|]. destruct r as [|[? []] [|[? []]]]; try reflexivity; discriminate. Qed.
Lemma comparison_complete pre c r : GComparison pre c → p_comparison (pre ++ r) = Some (c, r).
Proof. intros []; reflexivity. Qed.
Lemma text_complete pre c r : GTextSearch pre c → p_text (pre ++ r) = Some (c, r).
Proof. intros []; reflexivity. Qed.
Lemma comparison_none r : head_not is_cmp r → p_comparison r = None.
Proof. destruct r as [|[? []] ?]; cbn; congruence. Qed.

Lemma text_search_sound ts sp r : match p_text ts with Some (t, r) => Some (span_spec t, r) | None => None end = Some (sp, r) → ∃ pre, ts = pre ++ r ∧ GNodeSearch pre sp.
Proof. intros H. destruct (p_text ts) as [[t r']|] eqn:E; [|discriminate]. crush. destruct (text_sound _ _ _ E) as (pre & -> & Ht). exists pre. split; [reflexivity|by apply g_span]. Qed.
Lemma node_search_sound ts sp r : p_node_search ts = Some (sp, r) → ∃ pre, ts = pre ++ r ∧ GNodeSearch pre sp.
Proof.
  intros H. destruct ts as [|[p t] ts']; [discriminate|]. destruct t; try (by apply text_search_sound in H); cbn [p_node_search] in H.
  - destruct (p_comparison ts') as [[c r1]|] eqn:Ec.
    + destruct (p_text r1) as [[t r2]|] eqn:Et; [|discriminate]. crush. destruct (comparison_sound _ _ _ Ec) as (p1 & -> & H1). destruct (text_sound _ _ _ Et) as (p2 & -> & H2).
      exists ((p, TTok) :: p1 ++ p2). split; [cbn [app]; by rewrite <- (assoc_L (++))|by constructor].
    + crush. eexists [_]. split; [reflexivity|constructor].
  - crush. eexists [_]. split; [reflexivity|constructor].
  - destruct (p_qname _) as [[q r0]|] eqn:Eq; [|discriminate]. destruct (qname_sound _ _ _ Eq) as (p0 & E0 & H0). rewrite E0. clear E0 Eq.
    destruct (p_comparison r0) as [[c r1]|] eqn:Ec.
    + destruct (p_text r1) as [[t r2]|] eqn:Et; [|discriminate]. crush. destruct (comparison_sound _ _ _ Ec) as (p1 & -> & H1). destruct (text_sound _ _ _ Et) as (p2 & -> & H2).
      exists (p0 ++ p1 ++ p2). split; [by rewrite <- !(assoc_L (++))|by constructor].
    + crush. exists p0. split; [reflexivity|by constructor].
Qed.
Lemma node_search_complete pre sp r : GNodeSearch pre sp → head_not after_search r → p_node_search (pre ++ r) = Some (sp, r).
Proof.
  intros H Hr. assert (head_not is_colon r ∧ head_not is_cmp r) as [Hr1 Hr2].
  { destruct r as [|[? t] ?]; [done|]. cbn in *. unfold after_search in Hr. by apply orb_false_iff in Hr. }
  destruct H as [p|p|p ts1 ts2 c t H1 H2|ts t H|ts1 ts2 ts3 q c t H1 H2 H3|ts q H].
  - reflexivity.
  - cbn. by rewrite comparison_none.
  - cbn [app p_node_search]. by rewrite <- (assoc_L (++)), (comparison_complete _ _ _ H1), (text_complete _ _ _ H2).
  - destruct H; reflexivity.
  - rewrite <- !(assoc_L (++)). assert (∃ p s l, ts1 = (p, TId s) :: l) as (p & s & l & E1) by (destruct H1; eauto).
    assert (p_qname (ts1 ++ ts2 ++ ts3 ++ r) = Some (q, ts2 ++ ts3 ++ r)) as E by (apply qname_complete; [done|]; destruct H2; done).
    rewrite E1 in E |- *. cbn [app] in *. unfold p_node_search. rewrite E, (comparison_complete _ _ _ H2), (text_complete _ _ _ H3). done.
  - assert (∃ p s l, ts = (p, TId s) :: l) as (p & s & l & E1) by (destruct H; eauto). pose proof (qname_complete _ _ _ H Hr1) as E.
    rewrite E1 in E |- *. cbn [app] in *. unfold p_node_search. rewrite E, comparison_none by done. done.
Qed.
Lemma node_ref_sound ts v r : p_node_ref ts = Some (v, r) → ∃ pre, ts = pre ++ r ∧ GNodeRef pre v.
Proof. unfold p_node_ref. intros H. crush; eexists [_]; (split; [reflexivity|constructor]). Qed.
Lemma node_ref_complete pre v r : GNodeRef pre v → p_node_ref (pre ++ r) = Some (v, r).
Proof. intros []; reflexivity. Qed.
Lemma digits_sound ts x r : p_digits ts = Some (x, r) → ∃ pre, ts = pre ++ r ∧ GRange pre x ∧ ∀ o, GRange ((o, TComma) :: pre) x.
Proof.
  unfold p_digits. intros H. crush.
  all: first [eexists [_; _; _]; split; [reflexivity|split; [apply (g_min_max []); by left|intros o; apply (g_min_max [(o, TComma)]); right; by exists o]]
    |eexists [_]; split; [reflexivity|split; [apply (g_exactly []); by left|intros o; apply (g_exactly [(o, TComma)]); right; by exists o]]].
Qed.
Lemma range_sound ts x r : p_range ts = Some (x, r) → ∃ pre, ts = pre ++ r ∧ GRange pre x.
Proof.
  intros H. destruct ts as [|[p t] ts']; [discriminate|]. destruct t; cbn [p_range] in H; try (apply digits_sound in H as (pre & E & H' & _); exists pre; split; [exact E|exact H']; fail).
  - apply digits_sound in H as (pre & -> & _ & H'). exists ((p, TComma) :: pre). split; [reflexivity|apply H'].
  - crush. eexists [_]. split; [reflexivity|constructor].
Qed.
Lemma digits_complete_one p a r : head_not is_comma r → p_digits ((p, TDigits a) :: r) = Some (RBound (usize_or_zero a) (usize_or_zero a), r).
Proof. intros Hr. destruct r as [|[? []] [|[? []]]]; try reflexivity; discriminate. Qed.
Lemma range_complete pre x r : GRange pre x → head_not is_comma r → p_range (pre ++ r) = Some (x, r).
Proof.
  intros H Hr. destruct H as [ts p q o a b [-> |[? ->]]|ts p a [-> |[? ->]]|p]; try reflexivity; cbn [app p_range]; by apply digits_complete_one.
Qed.
Lemma opt_range_sound ts x r : p_opt_range ts = Some (x, r) → ∃ pre, ts = pre ++ r ∧ GOptRange pre x.
Proof.
  intros H. destruct ts as [|[p t] ts']; [cbn in H; crush; exists []; split; [done|constructor]|].
  destruct t; cbn [p_opt_range] in H.
  all: lazymatch type of H with
  | p_range _ = _ => apply range_sound in H as (pre & E & H'); exists pre; split; [exact E|apply g_range; exact H']
  | _ => injection H as <- <-; exists []; split; [reflexivity|apply g_no_range]
  end.
Qed.
Lemma opt_range_complete pre x r : GOptRange pre x → head_not is_range_start r → p_opt_range (pre ++ r) = Some (x, r).
Proof.
  intros H Hr. destruct H as [|ts x H].
  - destruct r as [|[? []] ?]; try reflexivity; discriminate.
  - assert (head_not is_comma r) as Hr' by (destruct r as [|[? []] ?]; try reflexivity; discriminate). pose proof (range_complete _ _ _ H Hr') as E.
    destruct H as [ts p q o a b [-> |[? ->]]|ts p a [-> |[? ->]]|p]; exact E.
Qed.
Lemma edge_anno_sound p ts x r : p_edge_anno ts = Some (x, r) → ∃ pre, (p, TLBr) :: ts = pre ++ r ∧ GEdgeAnno pre x.
Proof.
  unfold p_edge_anno. intros H. destruct (p_qname ts) as [[q r0]|] eqn:E0; [|discriminate]. destruct (p_comparison r0) as [[c r1]|] eqn:E1; [|discriminate].
  destruct (p_text r1) as [[t r2]|] eqn:E2; [|discriminate]. destruct r2 as [|[p' []] r2]; try discriminate. crush.
  destruct (qname_sound _ _ _ E0) as (p0 & -> & H0). destruct (comparison_sound _ _ _ E1) as (p1 & -> & H1). destruct (text_sound _ _ _ E2) as (p2 & -> & H2).
  exists ((p, TLBr) :: p0 ++ p1 ++ p2 ++ [(p', TRBr)]). split; [|by constructor]. cbn. by rewrite <- !(assoc_L (++)).
Qed.
Lemma edge_anno_complete pre x r : GEdgeAnno pre x → ∃ p l, pre = (p, TLBr) :: l ∧ p_edge_anno (l ++ r) = Some (x, r).
Proof.
  intros [p p' ts1 ts2 ts3 q c t H1 H2 H3]. exists p, (ts1 ++ ts2 ++ ts3 ++ [(p', TRBr)]). split; [done|]. rewrite <- !(assoc_L (++)). unfold p_edge_anno.
  rewrite (qname_complete _ _ _ H1), (comparison_complete _ _ _ H2), (text_complete _ _ _ H3); [done|]. destruct H2; done.
Qed.
Lemma with_range_sound op ts x r : p_with_range op ts = Some (x, r) → ∃ pre y, ts = pre ++ r ∧ GOptRange pre y ∧ x = op y.
Proof. unfold p_with_range. intros H. destruct (p_opt_range ts) as [[y r']|] eqn:E; [|discriminate]. crush. destruct (opt_range_sound _ _ _ E) as (pre & -> & H). eauto. Qed.
Lemma with_anno_sound op ts x r : p_with_anno op ts = Some (x, r) →
  ∃ pre, ts = pre ++ r ∧ ((∃ a, GEdgeAnno pre a ∧ x = op (RBound 1 1) (Some a)) ∨ ∃ y, GOptRange pre y ∧ x = op y None).
Proof.
  intros H. assert ((∃ p l, ts = (p, TLBr) :: l) ∨ p_with_range (λ r, op r None) ts = Some (x, r)) as [(p & l & ->)|E].
  { destruct ts as [|[p []] l]; try (by right). left. eauto. }
  - cbn [p_with_anno] in H. destruct (p_edge_anno l) as [[a r']|] eqn:E; [|discriminate]. crush. destruct (edge_anno_sound p _ _ _ E) as (pre & -> & H). exists pre. split; [done|]. left. eauto.
  - apply with_range_sound in E as (pre & y & -> & H' & ->). exists pre. split; [done|]. right. eauto.
Qed.
Lemma binary_sound ts x r : p_binary ts = Some (x, r) → ∃ pre, ts = pre ++ r ∧ GBinaryOp pre x.
Proof.
  intros H. destruct ts as [|[p t] ts']; [discriminate|]. destruct t; try discriminate; cbn [p_binary] in H.
  all: try (crush; eexists [_]; split; [reflexivity|constructor]; fail).
  all: try (apply with_anno_sound in H as (pre & -> & [(a & H & ->)|(y & H & ->)]); eexists (_ :: pre); (split; [reflexivity|by constructor]); fail).
  all: apply with_range_sound in H as (pre & y & -> & H & ->); eexists (_ :: pre); (split; [reflexivity|by constructor]).
Qed.
Lemma with_range_complete op pre y r : GOptRange pre y → head_not is_range_start r → p_with_range op (pre ++ r) = Some (op y, r).
Proof. intros H Hr. unfold p_with_range. by rewrite (opt_range_complete _ _ _ H Hr). Qed.
Lemma with_anno_complete op pre y r : GOptRange pre y → head_not after_binary r → p_with_anno op (pre ++ r) = Some (op y None, r).
Proof.
  intros H Hr. assert (head_not is_range_start r ∧ head_not is_lbr r) as [Hr1 Hr2].
  { destruct r as [|[? t] ?]; [done|]. cbn in *. unfold after_binary in Hr. by apply orb_false_iff in Hr. }
  pose proof (with_range_complete (λ r, op r None) _ _ _ H Hr1) as E. unfold p_with_anno.
  destruct (pre ++ r) as [|[p t] l] eqn:Epr; [exact E|]. destruct t; try exact E. exfalso. destruct H as [|ts x H]; [cbn in Epr; subst r; discriminate|].
  destruct H as [ts p' q o a b [-> |[? ->]]|ts p' a [-> |[? ->]]|p']; discriminate.
Qed.
Lemma binary_complete pre x r : GBinaryOp pre x → head_not after_binary r → p_binary (pre ++ r) = Some (x, r).
Proof.
  intros H Hr. assert (head_not is_range_start r) as Hr1.
  { destruct r as [|[? t] ?]; [done|]. cbn in *. unfold after_binary in Hr. by apply orb_false_iff in Hr as [? _]. }
  destruct H as [p s ts a H|p s ts y H|p s ts a H|p s ts y H|p s ts y H|p s ts y H|p ts y H| | | | | |]; try reflexivity; cbn [app p_binary].
  - destruct (edge_anno_complete _ _ r H) as (q & l & -> & E). cbn [app p_with_anno]. by rewrite E.
  - by apply with_anno_complete.
  - destruct (edge_anno_complete _ _ r H) as (q & l & -> & E). cbn [app p_with_anno]. by rewrite E.
  - by apply with_anno_complete.
  - by apply with_range_complete.
  - by apply with_range_complete.
  - by apply with_range_complete.
Qed.
Lemma binary_none r : head_not is_binary r → p_binary r = None.
Proof. destruct r as [|[? []] ?]; cbn; congruence. Qed.
Lemma filter_op_sound ts x r : p_filter_op ts = Some (x, r) → ∃ pre, ts = pre ++ r ∧ GFilterOp pre x.
Proof. unfold p_filter_op. intros H. crush; eexists [_]; (split; [reflexivity|constructor]). Qed.
Lemma filter_op_complete pre x r : GFilterOp pre x → p_filter_op (pre ++ r) = Some (x, r).
Proof. intros []; reflexivity. Qed.
Lemma node_search_nonempty pre sp : GNodeSearch pre sp → ∃ p t l, pre = (p, t) :: l.
Proof. intros [ | |? ? ? ? ? ? ?|? ? []|? ? ? ? ? ? [] ? ?|? ? []]; cbn; eauto. Qed.
(** ** Nodes and operands *)
Lemma node_sound ts x r : p_node ts = Some (x, r) → ∃ pre, ts = pre ++ r ∧ GNode pre x.
Proof.
  intros H. destruct ts as [|[p t] ts']; [discriminate|].
  assert (∃ vs var ts0, (p, t) :: ts' = vs ++ ts0 ∧ (vs = [] ∧ var = None ∨ ∃ q s, vs = [(q, TVarDef s)] ∧ var = Some s) ∧
    match p_node_search ts0 with Some (sp, (_, TOptional) :: r') => Some ((p, sp, var, true), r') | Some (sp, r') => Some ((p, sp, var, false), r') | None => None end = Some (x, r))
    as (vs & var & ts0 & E & Hv & H').
  { destruct t; try (exists [], None; eexists; split; [reflexivity|]; split; [by left|exact H]). eexists [_], (Some s), ts'. split; [reflexivity|]. split; [right; eauto|exact H]. }
  clear H. destruct (p_node_search ts0) as [[sp r0]|] eqn:Es; [|discriminate]. destruct (node_search_sound _ _ _ Es) as (pre & -> & Hs). destruct (node_search_nonempty _ _ Hs) as (p1 & t1 & l1 & E1).
  assert (∃ os b, r0 = os ++ r ∧ x = (p, sp, var, b) ∧ (os = [] ∧ b = false ∨ ∃ q, os = [(q, TOptional)] ∧ b = true)) as (os & b & -> & -> & Hb).
  { destruct r0 as [|[p0 t0] r0]; [crush; exists [], false; by eauto|]. destruct t0; crush; try (exists [], false; split; [done|]; split; [done|by left]; fail). eexists [_], true. split; [reflexivity|]. split; [done|]. right. eauto. }
  assert (∃ l, vs ++ pre ++ os = (p, t) :: l) as [l El].
  { destruct vs as [|v vs].
    - rewrite E1 in E. cbn in E. injection E as -> -> _. rewrite E1. cbn. eauto.
    - cbn in E. injection E as -> _. cbn. eauto. }
  exists (vs ++ pre ++ os). split; [by rewrite E, <- !(assoc_L (++))|]. exact (g_node vs pre os p t l var sp b Hv Hs Hb El).
Qed.
Lemma node_complete pre x r : GNode pre x → head_not after_node r → p_node (pre ++ r) = Some (x, r).
Proof.
  intros [vs ts os p t l var sp b Hv Hs Hb E] Hr. destruct (node_search_nonempty _ _ Hs) as (p1 & t1 & l1 & E1).
  assert (p_node ((vs ++ ts ++ os) ++ r) =
    match p_node_search (ts ++ os ++ r) with Some (sp, (_, TOptional) :: r') => Some ((p, sp, var, true), r') | Some (sp, r') => Some ((p, sp, var, false), r') | None => None end) as ->.
  { rewrite <- !(assoc_L (++)). destruct Hv as [[-> ->]|(q & s & -> & ->)].
    - cbn [app] in *. rewrite E1 in E |- *. cbn [app] in *. injection E as -> -> _. unfold p_node. destruct t; try reflexivity. exfalso. subst ts. by inversion Hs as [| | |? ? Ht|? ? ? ? ? ? Hq ? ? Eq|? ? Hq]; try (inversion Ht; fail); try (inversion Hq; subst; discriminate).
    - cbn [app] in *. injection E as -> <- _. reflexivity. }
  destruct Hb as [[-> ->]|(q & -> & ->)]; cbn [app].
  - rewrite (node_search_complete _ _ r Hs).
    + destruct r as [|[? []] ?]; try reflexivity; discriminate.
    + destruct r as [|[? []] ?]; try reflexivity; discriminate.
  - by rewrite (node_search_complete _ _ _ Hs).
Qed.
Lemma node_not_ref pre x r : GNode pre x → p_node_ref (pre ++ r) = None.
Proof.
  intros [vs ts os p t l var sp b Hv Hs Hb E]. destruct Hv as [[-> ->]|(q & s & -> & ->)]; [|reflexivity]. rewrite <- !(assoc_L (++)). cbn [app].
  destruct Hs as [ | |? ? ? ? ? ? ?|? ? []|? ? ? ? ? ? [] ? ?|? ? []]; reflexivity.
Qed.
Lemma operand_sound ts x r : p_operand ts = Some (x, r) → ∃ pre, ts = pre ++ r ∧ GOperand pre x.
Proof.
  unfold p_operand. intros H. destruct (p_node_ref ts) as [[v r']|] eqn:E.
  - crush. destruct (node_ref_sound _ _ _ E) as (pre & -> & Hv). exists pre. split; [done|by constructor].
  - destruct (p_node ts) as [[[[[p sp] var] o] r']|] eqn:En; [|discriminate]. crush. destruct (node_sound _ _ _ En) as (pre & -> & Hn). exists pre. split; [done|by constructor].
Qed.
Lemma operand_complete pre x r : GOperand pre x → head_not after_node r → p_operand (pre ++ r) = Some (x, r).
Proof.
  intros H Hr. unfold p_operand. destruct H as [ts v H|ts p sp var o H].
  - by rewrite (node_ref_complete _ _ _ H).
  - by rewrite (node_not_ref _ _ _ H), (node_complete _ _ _ H Hr).
Qed.
Lemma operand_head pre x : GOperand pre x → ∃ p t l, pre = (p, t) :: l ∧ after_binary t = false.
Proof.
  intros [ts v []|ts p sp var o [vs ts' os p' t l var' sp' b Hv Hs Hb E]]; eauto 6.
  destruct Hv as [[-> ->]|(q & s & -> & ->)]; [|cbn; eauto 6]. destruct Hs as [ | |? ? ? ? ? ? ?|? ? []|? ? ? ? ? ? [] ? ?|? ? []]; cbn; eauto 6.
Qed.
