(** The engine of a corpus does what its parts mean. *)
From stdpp Require Import base list gmap.
From Coq Require Import NArith Lia.
From Verif Require Import KeySer SortedMap Types SymbolTable AnnoMem AnnoSpec GraphSpec Adjacency AdjacencySpec Storage StorageSpec GraphApply
  TokenHelper TokenSearchSpec ContextSpec QuickSort TokenSearch NodeSearch NodeSearchSpec NodeSearchProps NonExisting NonExistingSpec NonExistingProofs NonExistingProps
  SortMatches Joins JoinsSpec TokenOps TokenOpsSpec TokenOpsProps EdgeOps EdgeOpsSpec EdgeOpsProofs EdgeOpsProps Conjunction ConjunctionSpec Query QuerySpec
  AqlGrammar EndToEnd EndToEndSpec CorpusEngine CorpusEngineSpec.

Section Proofs.
Context (rx : bytes → option (bytes → bool)) (c : content) (W : cname → option component).
Context (exact : bytes → option bytes) (db : corpus) (cs : components) (hash : gset N → list N) (fuel : nat) (rnd : nat → nat).
Context (cheap : bool) (same_cost narrow : storage → bool) (th : helper) (order : storage).
Context (F : corpus_fine rx c W exact db cs hash th order).
Notation E := (corpus_engine rx exact db cs hash fuel rnd cheap same_cost narrow th order).
Notation binop := (binop_of rx hash th order).

(** ** Operators *)
(** Operators that are fine, closed under inverse operators *)
Definition fine_op (R : N → N → Prop) (k : corpus_op) : Prop :=
  match k with
  | KToken o => ∃ se, o ≠ OOverlap true ∧ (∀ a b, op_usable c se o a b) ∧ candidates_usable c se o ∧ ∀ a b, op_holds c se o a b ↔ R a b
  | KEdge o => ∃ q, made cs W q o ∧ (∀ a b, q_usable W q a b) ∧ ∀ a b, (if eo_inverse o then EdgeOpsSpec.linked rx W q b a else EdgeOpsSpec.linked rx W q a b) ↔ R a b
  | KSame => ∀ a b, R a b ↔ a = b
  | KNegated _ | KNone => False
  end.
Lemma fine_decides R k : fine_op R k → decides (binop k) R.
Proof.
  destruct F as [H T A HG He Hh Eo Et _]. destruct k as [o|o| |k|]; cbn; [| | |done..].
  - intros (se & Hn & Hu & Hcu & HR). split.
    + intros a b. rewrite <- HR. apply (C38_check_partial db c H T A order th Eo Et se o a b (Hu _ _)). intros ->. done.
    + intros a n. rewrite <- HR. by apply (C38_candidates_partial db c H T A order th hash Eo Et Hh se o a n).
  - intros (q & M & Hu & HR). split.
    + intros a b. rewrite <- HR. apply (EdgeOpsProofs.filter_lemma rx cs W HG q o a.1 b.1 M). destruct (eo_inverse o); apply Hu.
    + intros a n. rewrite <- HR. apply (retrieve_lemma rx cs W HG q o a.1 n M). destruct (eo_inverse o); apply Hu.
  - intros HR. split; [intros a b|intros a n]; rewrite HR; apply C54_same_node.
Qed.
Lemma inverse_fine R k k' : fine_op R k → inverse_op same_cost narrow order k = Some k' → fine_op (λ a b, R b a) k'.
Proof.
  destruct F as [H T A HG He Hh Eo Et _].
  destruct k as [o|o| |k|]; cbn; [| | |done..].
  - intros (se & Hn & Hu & Hcu & HR) Hi. destruct (op_inverse order same_cost o) as [o'|] eqn:Ei; [|done]. injection Hi as <-. exists se.
    assert (o' ≠ OOverlap true ∧ (∀ a b, op_usable c se o' a b) ∧ candidates_usable c se o') as (Hn' & Hu' & Hcu').
    { destruct o; cbn in Ei; try (injection Ei as <-); try done. destruct (same_cost _); [injection Ei as <-; done|done]. }
    split_and!; [done|done|done|]. intros a b. rewrite <- HR.
    rewrite <- (C38_check_partial db c H T A order th Eo Et se o (b, tok_key) (a, tok_key) (Hu _ _)) by (intros ->; done).
    rewrite <- (C38_check_partial db c H T A order th Eo Et se o' (a, tok_key) (b, tok_key) (Hu' _ _)) by (intros ->; done).
    by rewrite (C38_inverse th order same_cost o o' (b, tok_key) (a, tok_key) Ei).
  - intros (q & M & Hu & HR) Hi. destruct (edge_inverse same_cost narrow o) as [o'|] eqn:Ei; [|done]. injection Hi as <-. exists q.
    destruct (inverse_made cs W q o o' same_cost narrow M Ei) as [M' Hb]. split_and!; [done|done|]. intros a b. rewrite <- HR, Hb. by destruct (eo_inverse o).
  - intros HR [= <-]. intros a b. rewrite HR. naive_solver.
Qed.
Lemma seg_fine s : is_Some (W (seg_order s)) → loaded cs (λ n, n = seg_order s) → ∃ gs, get_storage cs (seg_component s) = Some gs ∧ (seg_order s, Some gs) ∈ cs.
Proof.
  change (seg_component s) with (seg_order s). intros HW Hl. destruct F as [H T A HG He Hh Eo Et _]. unfold get_storage.
  apply (hg_names _ _ HG) in HW. apply elem_of_list_fmap in HW as ([n o] & En & Hin). cbn in En. subst n.
  destruct (Hl _ _ Hin eq_refl) as [gs ->]. exists gs. split; [|done]. apply (al_get_iff cname_compare _ _ _ (hg_sorted _ _ HG)) in Hin. by rewrite Hin.
Qed.
Lemma create_fine o : operator_fine c W cs o → ∃ k, create_op cs cheap o = Some k ∧ fine_op (related rx c W o) k.
Proof.
  destruct F as [H T A HG He Hh Eo Et _].
  assert (∀ q, edge_query_fine W cs q → ∃ k, KEdge <$> create cs cheap q = Some k ∧ fine_op (EdgeOpsSpec.linked rx W q) k) as HQ.
  { intros q (H1 & H2 & H3). destruct (proj2 (C54_created cs W cheap q HG)) as [op Ec]; [done|]. rewrite Ec. exists (KEdge op). split; [done|].
    destruct (create_made cs W HG cheap q op Ec) as [M Hi]. exists q. split_and!; [done|done|]. rewrite Hi. done. }
  destruct o; cbn; try (apply HQ).
  all: try (destruct seg as [s|]; cbn).
  all: try (intros (C & HW & Hl & Hch & Hd & Ht); destruct (seg_fine s) as (gs & Eg & Hin); [by rewrite HW|done|]; rewrite Eg; cbn; eexists; split; [reflexivity|];
            exists (λ _, co_edges C); pose proof (hg_content _ _ HG _ _ _ Hin HW) as [Hi _]; split_and!; [done|intros a b; split_and!; [done|done|apply Hd]|done|];
            intros a b; cbn; rewrite HW; naive_solver).
  all: try (intros Hd; eexists; split; [reflexivity|]; exists no_segmentation; split_and!; [done|intros a b; done|done|done]).
  - intros _. exists KSame. done.
  - intros [].
Qed.

(** ** Searches *)
Lemma search_lemma sp : search_fine rx c db fuel rnd sp →
  ∃ se l, from_spec rx exact db fuel rnd sp = Some se ∧ se_items se = Done l ∧
    (∀ n k, (n, k) ∈ l ↔ ∃ k', meets rx c sp n k' ∧ k = reported sp k') ∧
    search_agrees (search_keys db se) (se_cond se) (se_const se) l ∧ conds_total (se_cond se).
Proof.
  intros [Hv Ht]. destruct F as [H T A HG He Hh Eo Et _].
  assert (sp = SAnyTok ∨ sp ≠ SAnyTok) as [-> |Hs] by (destruct sp; auto; right; discriminate).
  - destruct (Ht eq_refl) as (Hf & Hl & items & Ei). eexists _, items. split; [reflexivity|]. split; [exact Ei|]. split.
    + by apply (C53_any_token_partial rx exact db c fuel rnd _ items H T (λ _, Hf) Hl eq_refl).
    + by apply (C53_any_token_agrees_partial rx exact db c fuel rnd _ items H T (λ _, Hf) Hl eq_refl).
  - destruct (search_done rx exact db c H fuel rnd sp Hs He Hv) as (se & l & E1 & E2 & E3). exists se, l. split_and!; [done|done|done|..];
      by eapply (C53_description_agrees rx exact db c fuel rnd sp se l H He Hs E1 E2).
Qed.

(** ** All together *)
Context (lits : list (list aql_literal)) (Q : query_fine rx c W db cs fuel rnd lits).
Lemma created_fine k : created E lits k → (∃ R, fine_op R k) ∨ (retrieve_op rx hash th order k = None ∧ inverse_op same_cost narrow order k = None).
Proof.
  induction 1 as [o n Ho|o o' _ IH Hi].
  - destruct (create_fine o (qf_operators _ _ _ _ _ _ _ _ Q o Ho)) as (k & Ek & Hk). cbn. unfold create_for. cbn [fst snd]. rewrite Ek. destruct n; [by right|by left; eexists].
  - cbn in Hi. destruct IH as [[R HR]|[_ IH]]; [|congruence]. left. eexists. by eapply inverse_fine.
Qed.
Lemma retrieval_lemma R k f rs : decides (binop k) R → retrieve_op rx hash th order k = Some f → retrieval_agrees (λ lhs rhs, Some (op_check (binop k) lhs rhs)) f rs.
Proof.
  intros [Hc Hr]. unfold retrieve_op. destruct (binop k) as [chk|chk ret]; [done|]. intros [= <-] ml. eexists. split; [reflexivity|]. intros m Hm.
  cbn in Hc |- *. split.
  - intros [= Hm']. exists (m.1, AnnoKey [] []). split; [|done]. apply elem_of_list_fmap. exists m.1. split; [done|]. apply Hr. by apply Hc.
  - intros (x & Hx & Ex). f_equal. apply elem_of_list_fmap in Hx as (n & -> & Hn). cbn in Ex. subst n. apply Hc. by apply Hr.
Qed.
Lemma corpus_engine_ok : engine_ok (found_for rx c) (operator_meaning rx c W) (unary_meaning W) E lits.
Proof.
  pose proof F as [H T A HG He Hh Eo Et _]. constructor.
  - intros o a b Hn. discriminate.
  - intros o n x y Ho. destruct (create_fine o (qf_operators _ _ _ _ _ _ _ _ Q o Ho)) as (k & Ek & Hk). pose proof (fine_decides _ _ Hk) as HD.
    cbn. unfold create_for. cbn [fst snd]. rewrite Ek. cbn. unfold operator_meaning. destruct n.
    + cbn. transitivity (negb (op_check (binop k) x y) = true); [split; [by intros [= ->]|by intros ->]|]. exact (proj1 (C46_negated _ _ HD) x y).
    + transitivity (op_check (binop k) x y = true); [split; [by intros [= ->]|by intros ->]|]. exact (proj1 HD x y).
  - intros o o' Hi. cbn in Hi |- *. destruct o as [o|o| |o|]; cbn in Hi; [| | |done..].
    + destruct (op_inverse order same_cost o) as [i|] eqn:Ei; [|done]. injection Hi as <-. split.
      * intros ml mr. cbn. f_equal. by eapply C38_inverse.
      * cbn. destruct o; cbn in Ei; try (injection Ei as <-); try done. destruct (same_cost _); [injection Ei as <-; done|done].
    + destruct (edge_inverse same_cost narrow o) as [i|] eqn:Ei; [|done]. injection Hi as <-. split.
      * intros ml mr. cbn. f_equal. by eapply C54_inverse_check.
      * cbn. unfold edge_inverse in Ei. destruct (forallb _ _); [|done]. by injection Ei as <-.
    + injection Hi as <-. split; [|done]. intros ml mr. cbn. f_equal. apply bool_decide_ext. naive_solver.
  - intros sp Hsp. destruct (search_lemma sp (qf_searches _ _ _ _ _ _ _ _ Q sp Hsp)) as (se & l & E1 & E2 & E3 & E4 & E5).
    cbn. unfold search_for. rewrite E1. cbn. rewrite E2. eexists. split; [reflexivity|]. split.
    + exists l. split_and!; [done|done|done|]. intros k f Hk Hf. cbn in Hf. destruct (created_fine k Hk) as [[R HR]|[Hn _]]; [|congruence].
      cbn. eapply retrieval_lemma; [by apply fine_decides|exact Hf].
    + intros m. cbn. rewrite elem_of_list_fmap. unfold found_for. destruct m as [n k]. cbn. rewrite <- E3. split; [intros (m' & [= <-] & Hm); exact Hm|intros Hm; eauto].
  - intros u m Hu. destruct u as [o|o target is_left]; cbn.
    + destruct o as [range]. split; [discriminate|]. destruct Hu as (a & v & Ha & Hv). pose proof (C54_arity cs W range m.1 HG (qf_unary _ _ _ _ _ _ _ _ Q v _ a Ha Hv)) as HA. cbn in HA |- *.
      rewrite <- HA. split; [by intros [= ->]|by intros ->].
    + destruct Hu as [Ho Ht]. destruct (create_fine o (qf_operators _ _ _ _ _ _ _ _ Q o Ho)) as (k & Ek & Hk). rewrite Ek. cbn.
      destruct (qf_searches _ _ _ _ _ _ _ _ Q target Ht) as [Hv Ht'].
      destruct (search_lemma target (Logic.conj Hv Ht')) as (se & l & E1 & E2 & E3 & _ & _).
      destruct (not_exists_lemma rx exact db c H fuel rnd target is_left (binop k) (binop <$> inverse_op same_cost narrow order k) (related rx c W o) m Hv) as (b & Eb & Hb).
      * by apply fine_decides.
      * intros i Hi. destruct (inverse_op same_cost narrow order k) as [k'|] eqn:Ei; [|done]. injection Hi as <-. apply fine_decides. by eapply inverse_fine.
      * by exists se, l.
      * rewrite Eb. split; [discriminate|]. transitivity (b = true); [split; [by intros [= ->]|by intros ->]|]. rewrite Hb. apply not_iff_compat.
        unfold exists_related, found_for, operator_meaning. split.
        -- intros (x & k' & Hm & HR). exists (x, reported target k'). split; [by exists k'|]. by destruct is_left.
        -- intros ([x k''] & (k' & Hm & _) & HR). exists x, k'. split; [done|]. by destruct is_left.
Qed.
Lemma corpus_few_keys : few_annotation_keys (found_for rx c) lits.
Proof.
  exists (AnnoKey [] [] :: node_type_key :: ((λ x, x.1.2) <$> map_to_list (ct_labels c))). split_and!; [|left|].
  - cbn [length]. rewrite fmap_length. pose proof (cf_small _ _ _ _ _ _ _ _ _ F) as HS. unfold size, map_size in HS. lia.
  - intros sp [n k] _ (k' & Hm & Hk). cbn in Hm, Hk. right. apply elem_of_cons.
    assert (∀ v, label c n k' v → k' ∈ (λ x : N * anno_key * bytes, x.1.2) <$> map_to_list (ct_labels c)) as HL.
    { intros v Hv. apply elem_of_list_fmap. exists (n, k', v). split; [done|]. by apply elem_of_map_to_list. }
    destruct sp; cbn in Hm, Hk; try (left; exact Hk).
    all: match type of Hk with _ = (if ?b then _ else _) => destruct b end; [by left|]; right; cbn; rewrite Hk.
    all: destruct Hm as (_ & v & Hm). all: try (destruct Hm as (re & Hm & _)). all: try (destruct Hm as (Hm & _)). all: by eapply HL.
Qed.
End Proofs.
