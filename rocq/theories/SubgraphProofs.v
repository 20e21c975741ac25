From stdpp Require Import base list gmap fin_maps.
From Coq Require Import NArith Lia.
From Verif Require Import KeySer KeySerSpec SortedMap Types TypesProofs SymbolTable AnnoMem AnnoSpec AnnoMemProofs AnnoMemQueries GraphSpec Adjacency AdjacencySpec AdjacencyProofs
  CopyProofs Storage StorageSpec GraphApply GraphApplyProofs TokenHelper SortMatches Joins EdgeOps EdgeOpsSpec EdgeOpsProofs Subgraph SubgraphSpec.

Lemma fold_opt_inv {A B} (f : A → B → option A) (I : list B → A → Prop) l : ∀ D a a', I D a →
  (∀ D a b a', b ∈ l → I D a → f a b = Some a' → I (D ++ [b]) a') → fold_opt f a l = Some a' → I (D ++ l) a'.
Proof.
  induction l as [|b l IH]; intros D a a' H0 Hs; cbn [fold_opt].
  - intros [= <-]. by rewrite app_nil_r.
  - destruct (f a b) as [a1|] eqn:E; [|done]. intros H. replace (D ++ b :: l) with ((D ++ [b]) ++ l) by (by rewrite <- (assoc_L (++))).
    eapply IH; [eapply Hs; [by left|exact H0|exact E]| |exact H]. intros D' x b' x' Hb. apply Hs. by right.
Qed.
Definition name_of (k : comp) : cname := CName k.1.1 k.2 k.1.2.
Lemma name_comp c : name_of (comp_of c) = c.
Proof. by destruct c. Qed.
Lemma comp_name k : comp_of (name_of k) = k.
Proof. by destruct k as [[? ?] ?]. Qed.

Section proofs.
Context (labels : N → list (anno_key * bytes)) (cs : components) (th : option helper) (order : option storage).
Context (L : gmap (N * anno_key) bytes) (W : cname → option component).
Context (HL : gives_labels labels L) (HG : holds_graph cs W) (HP : plain W).

Definition lab (k : comp) (e : edge) (l : anno_key) (v : bytes) : Prop := ∃ C, W (name_of k) = Some C ∧ co_labels C !! (e, l) = Some v.
(** The new graph: labels of nodes [Q], copied edges [D] and gaps [P] *)
Record si (st : gstate) (Q : N → anno_key → Prop) (D : comp → edge → Prop) (P : edge → Prop) : Prop := {
  si_annos : ∃ leak M, inv N.compare (g_node_annos st) leak M ∧ ∀ n k v, M !! (n, k) = Some v ↔ Q n k ∧ L !! (n, k) = Some v;
  si_comps : ∀ k, ∃ G, ginv (writable st k) G ∧ (∀ e, e ∈ gr_edges G ↔ D k e ∨ k = gap_comp ∧ P e) ∧
    ∀ e l v, gr_annos G !! (e, l) = Some v ↔ D k e ∧ lab k e l v;
  si_dom : ∀ k, is_Some (g_comps st !! k) → (∃ e, D k e) ∨ k = gap_comp
}.
Lemma si_ext st Q D P Q' D' P' : si st Q D P → (∀ n k, Q n k ↔ Q' n k) → (∀ k e, D k e ↔ D' k e) → (∀ e, P e ↔ P' e) → si st Q' D' P'.
Proof.
  intros [(leak & M & I & HM) Hc Hd] HQ HD HP'. constructor.
  - exists leak, M. split; [done|]. intros n k v. by rewrite HM, HQ.
  - intros k. destruct (Hc k) as (G & Hg & He & Ha). exists G. split_and!; [done| |]; intros e; [|intros l v]; rewrite ?He, ?Ha, HD, ?HP'; done.
  - intros k [[e He]|Hk]%Hd; [left; exists e; by apply HD|by right].
Qed.
Lemma writable_annos st a k : writable (set_annos st a) k = writable st k.
Proof. done. Qed.
Lemma si_empty : si g_empty (λ _ _, False) (λ _ _, False) (λ _, False).
Proof.
  constructor.
  - exists 0, ∅. split; [apply inv_new|]. intros n k v. rewrite lookup_empty. naive_solver.
  - intros k. exists empty_graph. split_and!; [unfold writable; cbn; rewrite lookup_empty; apply ginv_new| |].
    + intros e. cbn. set_solver.
    + intros e l v. cbn. rewrite lookup_empty. naive_solver.
  - intros k [x Hx]. cbn in Hx. by rewrite lookup_empty in Hx.
Qed.
Lemma si_label st Q D P n k v m ok : si st Q D P → L !! (n, k) = Some v → am_insert N.compare (g_node_annos st) n k v = (m, ok) → ok = true →
  si (set_annos st m) (λ n' k', Q n' k' ∨ n' = n ∧ k' = k) D P.
Proof.
  intros [(leak & M & I & HM) Hc Hd] Hl E ->. constructor; [|exact Hc|exact Hd].
  exists leak, (<[(n, k) := v]> M). split; [apply (inv_insert N.compare _ _ _ _ _ _ _ _ I E)|]. intros n' k' v'.
  destruct (decide ((n', k') = (n, k))) as [[= -> ->]|Hne].
  - rewrite lookup_insert. split; [intros [= <-]; split; [by right|done]|]. intros [_ H]. congruence.
  - rewrite lookup_insert_ne by done. rewrite HM. naive_solver.
Qed.
Lemma si_node st Q D P n st' : si st Q D P → create_node labels st n = Some st' → si st' (λ n' k, Q n' k ∨ n' = n) D P.
Proof.
  intros S E. destruct (HL n) as [_ Hn].
  unfold create_node in E.
  pose proof (λ H0 Hs, fold_opt_inv _ (λ (l : list (anno_key * bytes)) st, si st (λ n' k, Q n' k ∨ n' = n ∧ k ∈ l.*1) D P) _ [] _ _ H0 Hs E) as HI.
  cbn [app] in HI. specialize (HI ltac:(eapply si_ext; [exact S| |done|done]; intros n' k; cbn; rewrite elem_of_nil; naive_solver)).
  feed specialize HI.
  - intros l s [k v] s' Hin HS. cbn [fst snd]. destruct (am_insert _ _ _ _ _) as [m ok] eqn:Ei. destruct ok; [|done]. intros [= <-].
    eapply si_ext; [eapply si_label; [exact HS|by apply Hn|exact Ei|done]| |done|done].
    intros n' k'. rewrite fmap_app, elem_of_app. cbn. rewrite elem_of_list_singleton. naive_solver.
  - destruct HI as [(leak & M & I & HM) Hc Hd]. constructor; [|done|done]. exists leak, M. split; [done|]. intros n' k v. rewrite HM. split.
    + naive_solver.
    + intros [[H| ->] Hv]; [naive_solver|]. split; [|done]. right. split; [done|]. apply Hn in Hv. apply elem_of_list_fmap. by exists (k, v).
Qed.
Lemma writable_comp st k g k' : writable (set_comp st k g) k' = if decide (k' = k) then g else writable st k'.
Proof. apply writable_set. Qed.
Lemma dom_comp st k g k' : is_Some (g_comps (set_comp st k g) !! k') ↔ k' = k ∨ is_Some (g_comps st !! k').
Proof. cbn. destruct (decide (k' = k)) as [-> |Hne]; [rewrite lookup_insert; naive_solver|rewrite lookup_insert_ne by done; naive_solver]. Qed.
Lemma si_gap st Q P e : si st Q (λ _ _, False) P → si (add_gap st e) Q (λ _ _, False) (λ e', P e' ∨ e' = e ∧ source e ≠ target e).
Proof.
  intros [Ha Hc Hd]. constructor; [exact Ha| |].
  - intros k. unfold add_gap. rewrite writable_comp. destruct (decide (k = gap_comp)) as [-> |Hne].
    + destruct (Hc gap_comp) as ([E A] & Hg & He & Hl). eexists. split_and!; [apply (ginv_add _ _ e Hg)| |].
      * intros e'. cbn [graph_step gr_edges gr_annos] in *. specialize (He e'). destruct (decide (source e = target e)) as [Hs|Hs]; [naive_solver|]. rewrite elem_of_union, elem_of_singleton. naive_solver.
      * exact Hl.
    + destruct (Hc k) as (G & Hg & He & Hl). exists G. split_and!; [done| |done]. intros e'. rewrite He. naive_solver.
  - intros k. unfold add_gap. rewrite dom_comp. naive_solver.
Qed.

(** ** Edges *)
Lemma si_edge_to c gs src tgt st st' Q D P C : si st Q D P → W c = Some C → holds_component gs C → Edge src tgt ∈ co_edges C →
  create_edge_to c gs src st tgt = Some st' →
  si st' Q (λ k e, D k e ∨ k = comp_of c ∧ e = Edge src tgt ∧ ∃ l, Q tgt l ∧ is_Some (L !! (tgt, l))) P.
Proof.
  intros S HC [Him (ops & outs & Ho & HLab)] He. destruct S as [(leak & M & I & HM) Hc Hd] eqn:ES. clear ES.
  unfold create_edge_to. destruct (get_all_keys_lemma N.compare _ _ _ tgt None None I) as [_ Hk].
  assert ((∃ l, Q tgt l ∧ is_Some (L !! (tgt, l))) ↔ am_get_all_keys (g_node_annos st) tgt None None ≠ []) as Hlabel.
  { split.
    - intros (l & Hq & v & Hv) E. specialize (Hk l). rewrite E in Hk. apply (not_elem_of_nil l). apply Hk. split; [|done]. exists v. by apply HM.
    - intros Hne. destruct (am_get_all_keys (g_node_annos st) tgt None None) as [|l ls]; [done|].
      assert (l ∈ l :: ls) as Hl by by left. apply Hk in Hl as [[v Hv] _]. apply HM in Hv as [H1 H2]. exists l. split; [done|by exists v]. }
  destruct (am_get_all_keys (g_node_annos st) tgt None None) as [|l0 ls] eqn:El.
  { intros [= <-]. eapply si_ext; [exact S|done| |done]. intros k e. split; [by left|]. intros [?|(_ & _ & H)]; [done|]. by apply Hlabel in H. }
  set (k := comp_of c). set (e := Edge src tgt). set (g1 := adj_add_edge (writable st k) e). intros E.
  assert (fold_opt (λ st a, let '(g, ok) := adj_add_anno (writable st k) e a.1 a.2 in if ok then Some (set_comp st k g) else None)
    (set_comp st k g1) (am_get_annotations (gs_annos gs) e) = Some st') as E' by exact E. clear E.
  assert (∃ g', fold_left (anno_loop e) (am_get_annotations (gs_annos gs) e) (g1, true) = (g', true) ∧ st' = set_comp st k g') as (g' & Eg & ->).
  { clearbody g1. clear -E'. revert g1 E'. generalize (am_get_annotations (gs_annos gs) e). intros l. induction l as [|[a v] l IH]; intros g1; cbn [fold_opt fold_left].
    - intros [= <-]. by exists g1.
    - unfold anno_loop at 2. cbn [fst snd]. rewrite writable_comp, decide_True by done. destruct (adj_add_anno g1 e a v) as [g2 ok]. destruct ok; [|done].
      intros E. apply (IH g2). rewrite <- E. f_equal. unfold set_comp. cbn. by rewrite insert_insert. }
  destruct (Hc k) as ([E0 A0] & Hg & HE & HA). cbn [gr_edges gr_annos] in *.
  assert (src ≠ tgt) as Hne by (intros ->; by apply (HP c C HC) in He).
  pose proof (ginv_add _ _ e Hg : ginv g1 _) as I1. cbn [graph_step gr_edges gr_annos] in I1. rewrite decide_False in I1 by done.
  pose proof (anno_loop_lemma e _ _ _ _ _ I1 ltac:(set_solver) Eg) as I2.
  pose proof (inv_run_new edge_compare ops _ _ Ho) as [_ (leak' & Ie & _)].
  rewrite <- HLab in Ie. destruct (get_annotations_lemma edge_compare _ _ _ e Ie) as [Hnd Hann].
  assert (∀ l v, lab k e l v ↔ (l, v) ∈ am_get_annotations (gs_annos gs) e) as Hlab.
  { intros l v. rewrite Hann. unfold lab, k. rewrite name_comp, HC. naive_solver. }
  constructor.
  - exists leak, M. done.
  - intros k'. rewrite writable_comp. destruct (decide (k' = k)) as [-> |Hk'].
    + eexists. split_and!; [exact I2| |]; cbn [gr_edges gr_annos].
      * intros e'. rewrite elem_of_union, elem_of_singleton, HE. naive_solver.
      * intros e' l v. rewrite (add_annos_lookup e _ Hnd). rewrite HA. split.
        -- intros [[-> Hin]|[_ [HD Hl]]]; [|naive_solver]. split; [|by apply Hlab]. right. naive_solver.
        -- intros [[HD|(_ & -> & _)] Hl].
           ++ destruct (decide (e' = e)) as [-> |Hee]; [left; split; [done|by apply Hlab]|]. right. naive_solver.
           ++ left. split; [done|by apply Hlab].
    + destruct (Hc k') as (G & Hg' & HE' & HA'). exists G. split_and!; [done| |].
      * intros e'. rewrite HE'. naive_solver.
      * intros e' l v. rewrite HA'. naive_solver.
  - intros k'. rewrite dom_comp. intros [-> |Hk']; [left; exists e; right; naive_solver|]. destruct (Hd k' Hk') as [[e' ?]|?]; [left; exists e'; by left|by right].
Qed.
(** The edges of component [c] from [src] *)
Definition wanted (Q : N → anno_key → Prop) (ctype : option N) (src : N) (k : comp) (e : edge) : Prop :=
  source e = src ∧ copied W ctype (name_of k) ∧ is_Some (get_storage cs (name_of k)) ∧
  (∃ C, W (name_of k) = Some C ∧ e ∈ co_edges C) ∧ ∃ l, Q (target e) l ∧ is_Some (L !! (target e, l)).
Lemma is_index_iff c : is_index c = true ↔ index_component c.
Proof.
  unfold is_index, index_component. rewrite !orb_true_iff, !andb_true_iff, negb_true_iff, !bool_decide_eq_true, bool_decide_eq_false. naive_solver.
Qed.
Lemma si_edges ctype st st' Q D P src : si st Q D P → create_edges cs (all_components cs ctype None) st src = Some st' →
  si st' Q (λ k e, D k e ∨ wanted Q ctype src k e) P.
Proof.
  intros S E. unfold create_edges in E.
  pose proof (λ H0 Hs, fold_opt_inv _ (λ (l : list cname) st, si st Q (λ k e, D k e ∨ name_of k ∈ l ∧ wanted Q ctype src k e) P) _ [] _ _ H0 Hs E) as HI.
  cbn [app] in HI. feed specialize HI.
  - eapply si_ext; [exact S|done| |done]. intros k e. rewrite elem_of_nil. naive_solver.
  - intros l s c s' Hin HS. apply (all_components_in cs W HG) in Hin as ([C HC] & Ht & _). destruct (is_index c) eqn:Ei.
    { intros [= <-]. eapply si_ext; [exact HS|done| |done]. intros k e. rewrite elem_of_app, elem_of_list_singleton. split; [naive_solver|].
      intros [?|[[?|Hn] Hw]]; [by left|right; naive_solver|]. destruct Hw as (_ & (_ & Hx & _) & _). apply is_index_iff in Ei. by rewrite Hn in Hx. }
    destruct (get_storage cs c) as [gs|] eqn:Eg.
    + pose proof (get_storage_holds cs W HG c gs C Eg HC) as Hh. intros E2.
      pose proof (λ H0 Hs, fold_opt_inv _ (λ (ts : list N) st, si st Q (λ k e, (D k e ∨ name_of k ∈ l ∧ wanted Q ctype src k e) ∨
        k = comp_of c ∧ source e = src ∧ target e ∈ ts ∧ ∃ l, Q (target e) l ∧ is_Some (L !! (target e, l))) P) _ [] _ _ H0 Hs E2) as HI2.
      cbn [app] in HI2. feed specialize HI2.
      * eapply si_ext; [exact HS|done| |done]. intros k e. rewrite elem_of_nil. naive_solver.
      * intros ts s1 t s2 Hts HS1 E3. apply (im_out _ _ (proj1 Hh)) in Hts.
        eapply si_ext; [eapply si_edge_to; [exact HS1|exact HC|exact Hh|exact Hts|exact E3]|done| |done].
        intros k [a b]. rewrite elem_of_app, elem_of_list_singleton. cbn [source target]. split.
        -- intros [[?|?]|(-> & [= -> ->] & ?)]; [by left|right; naive_solver|right; naive_solver].
        -- intros [?|(-> & -> & [?| ->] & ?)]; [left; by left|left; right; naive_solver|right; naive_solver].
      * eapply si_ext; [exact HI2|done| |done]. intros k [a b]. rewrite elem_of_app, elem_of_list_singleton. cbn [source target]. split.
        -- intros [[?|?]|(-> & -> & Hb & Hl)]; [by left|right; naive_solver|]. right. rewrite name_comp. split; [by right|].
           apply (im_out _ _ (proj1 Hh)) in Hb. unfold wanted. rewrite name_comp. cbn [source target]. split_and!; [done| |by exists gs|by exists C|done].
           split_and!; [by exists C| |done]. intros Hx. apply is_index_iff in Hx. congruence.
        -- intros [?|[[?|Hn] Hw]]; [left; by left|left; right; naive_solver|]. right. rewrite <- Hn, comp_name. unfold wanted in Hw. rewrite Hn in Hw. cbn [source target] in Hw.
           destruct Hw as (-> & _ & _ & (C' & HC' & He) & Hl). assert (C' = C) as -> by congruence. split_and!; [done|done| |done]. apply (im_out _ _ (proj1 Hh)). done.
    + intros [= <-]. eapply si_ext; [exact HS|done| |done]. intros k e. rewrite elem_of_app, elem_of_list_singleton. split; [naive_solver|].
      intros [?|[[?|Hn] Hw]]; [by left|right; naive_solver|]. destruct Hw as (_ & _ & [gs Hx] & _). rewrite Hn in Hx. congruence.
  - eapply si_ext; [exact HI|done| |done]. intros k e. split; [naive_solver|]. intros [?|Hw]; [by left|]. right. split; [|done].
    apply (all_components_in cs W HG). destruct Hw as (_ & (Hw & _ & Ht) & _). done.
Qed.

(** ** Matches *)
Definition tok (n : N) : bool := match th with Some t => is_token t n | None => false end.
Definition gap_step (s : list match_ * option N * list edge) (m : match_) : list match_ * option N * list edge :=
  if decide (m ∈ s.1.1) then s
  else if tok m.1 then (m :: s.1.1, Some m.1, s.2 ++ gap_edge order s.1.2 m.1) else (m :: s.1.1, s.1.2, s.2).
Definition gap_run (ms : list match_) := fold_left gap_step ms ([], None, []).
Definition Sn (ms : list match_) (n : N) (_ : anno_key) : Prop := ∃ k, (n, k) ∈ ms.
Record bi (ms : list match_) (b : building) : Prop := {
  bi_seen : ∀ m, m ∈ b_seen b ↔ m ∈ ms;
  bi_seen2 : ∀ m, m ∈ (gap_run ms).1.1 ↔ m ∈ ms;
  bi_prev : b_prev b = (gap_run ms).1.2;
  bi_graph : si (b_graph b) (Sn ms) (λ _ _, False) (λ e, e ∈ (gap_run ms).2 ∧ source e ≠ target e)
}.
Lemma si_gaps l : ∀ st Q P, si st Q (λ _ _, False) P → si (fold_left add_gap l st) Q (λ _ _, False) (λ e, P e ∨ e ∈ l ∧ source e ≠ target e).
Proof.
  induction l as [|e l IH]; intros st Q P S; cbn [fold_left].
  - eapply si_ext; [exact S|done|done|]. intros e. rewrite elem_of_nil. naive_solver.
  - eapply si_ext; [apply IH, si_gap, S|done|done|]. intros e'. rewrite elem_of_cons. naive_solver.
Qed.
Lemma bi_step ms b m b' : bi ms b → add_match labels th order b m = Some b' → bi (ms ++ [m]) b'.
Proof.
  intros [H1 H2 H3 H4]. unfold add_match.
  assert (gap_run (ms ++ [m]) = gap_step (gap_run ms) m) as Er by (unfold gap_run; by rewrite fold_left_app).
  destruct (decide (m ∈ b_seen b)) as [Hm|Hm].
  - intros [= <-]. assert (m ∈ (gap_run ms).1.1) as Hm' by by apply H2, H1. apply H1 in Hm.
    constructor; rewrite ?Er; unfold gap_step; rewrite ?decide_True by done; try done.
    + intros m'. rewrite H1, elem_of_app, elem_of_list_singleton. naive_solver.
    + intros m'. rewrite H2, elem_of_app, elem_of_list_singleton. naive_solver.
    + eapply si_ext; [exact H4| |done|done]. intros n k. unfold Sn. setoid_rewrite elem_of_app. setoid_rewrite elem_of_list_singleton. split; [naive_solver|].
      intros (k' & [?|<-]); eauto.
  - assert (m ∉ (gap_run ms).1.1) as Hm' by (rewrite H2, <- H1; done). rewrite H1 in Hm.
    fold (tok m.1). destruct (tok m.1) eqn:Et.
    + destruct (create_node labels _ m.1) as [st'|] eqn:Ec; [|done]. intros [= <-].
      constructor; rewrite ?Er; unfold gap_step; rewrite ?decide_False by done; rewrite ?Et; cbn [fst snd b_seen b_prev b_graph]; try done.
      * intros m'. rewrite elem_of_union, elem_of_singleton, H1, elem_of_app, elem_of_list_singleton. naive_solver.
      * intros m'. rewrite elem_of_cons, H2, elem_of_app, elem_of_list_singleton. naive_solver.
      * eapply si_ext; [eapply si_node; [eapply si_gaps, H4|exact Ec]| |done|].
        -- intros n k. unfold Sn. setoid_rewrite elem_of_app. setoid_rewrite elem_of_list_singleton. destruct m as [m0 mk]. cbn [fst]. split; [naive_solver|].
           intros (k' & [?|[= -> ->]]); eauto.
        -- intros e. rewrite elem_of_app, H3. naive_solver.
    + destruct (create_node labels _ m.1) as [st'|] eqn:Ec; [|done]. intros [= <-].
      constructor; rewrite ?Er; unfold gap_step; rewrite ?decide_False by done; rewrite ?Et; cbn [fst snd b_seen b_prev b_graph]; try done.
      * intros m'. rewrite elem_of_union, elem_of_singleton, H1, elem_of_app, elem_of_list_singleton. naive_solver.
      * intros m'. rewrite elem_of_cons, H2, elem_of_app, elem_of_list_singleton. naive_solver.
      * eapply si_ext; [eapply si_node; [exact H4|exact Ec]| |done|done].
        intros n k. unfold Sn. setoid_rewrite elem_of_app. setoid_rewrite elem_of_list_singleton. destruct m as [m0 mk]. cbn [fst]. split; [naive_solver|].
        intros (k' & [?|[= -> ->]]); eauto.
Qed.
Lemma bi_start : bi [] (Building ∅ None g_empty).
Proof.
  constructor; cbn [b_seen b_prev b_graph].
  - intros m. rewrite elem_of_nil. set_solver.
  - done.
  - done.
  - eapply si_ext; [apply si_empty| |done|].
  + intros n k. unfold Sn. setoid_rewrite elem_of_nil. naive_solver.
  + intros e. cbn. rewrite elem_of_nil. naive_solver.
Qed.
Lemma chosen_snoc it r idx : chosen_list (it ++ [r]) idx = chosen_list it idx ++ match r with IOk g => omap (λ i, g !! i) idx | _ => [] end.
Proof.
  unfold chosen_list. induction it as [|x it IH]; [apply app_nil_r|]. cbn [app]. rewrite !fmap_cons.
  etransitivity; [apply (f_equal (app _)); exact IH|]. apply (assoc_L (++)).
Qed.
Lemma bi_run it idx b : fold_opt (add_group labels th order idx) (Building ∅ None g_empty) it = Some b → bi (chosen_list it idx) b ∧ IErr ∉ it ∧ IPanic ∉ it.
Proof.
  intros E. pose proof (λ H0 Hs, fold_opt_inv _ (λ l b, bi (chosen_list l idx) b ∧ IErr ∉ l ∧ IPanic ∉ l) _ [] _ _ H0 Hs E) as HI. cbn [app] in HI. apply HI.
  - split; [apply bi_start|]. split; apply not_elem_of_nil.
  - intros D a r a' _ (Ha & He & Hp) Er. rewrite chosen_snoc, !not_elem_of_app, !elem_of_list_singleton. destruct r as [g| |]; [|done..]. split; [|naive_solver].
    cbn in Er. revert Er. generalize (omap (λ i, g !! i) idx) as l. intros l El.
    pose proof (λ H0 Hs, fold_opt_inv _ (λ l b, bi (chosen_list D idx ++ l) b) _ [] _ _ H0 Hs El) as HJ. cbn [app] in HJ. apply HJ; [by rewrite app_nil_r|].
    intros D' x m x' _ Hx Ex. rewrite (assoc_L (++)). eapply bi_step; [exact Hx|exact Ex].
Qed.
Lemma subgraph_si it idx ctype st : subgraph labels cs th order it idx ctype = Some st →
  si st (Sn (chosen_list it idx)) (λ k e, ∃ m, m ∈ chosen_list it idx ∧ wanted (Sn (chosen_list it idx)) ctype m.1 k e)
     (λ e, e ∈ (gap_run (chosen_list it idx)).2 ∧ source e ≠ target e).
Proof.
  unfold subgraph. destruct (fold_opt _ _ it) as [b|] eqn:Eb; [|done]. apply bi_run in Eb as ([H1 _ _ H4] & _). intros E.
  pose proof (λ H0 Hs, fold_opt_inv _ (λ l st, si st (Sn (chosen_list it idx)) (λ k e, ∃ m, m ∈ l ∧ wanted (Sn (chosen_list it idx)) ctype m.1 k e)
     (λ e, e ∈ (gap_run (chosen_list it idx)).2 ∧ source e ≠ target e)) _ [] _ _ H0 Hs E) as HI. cbn [app] in HI.
  eapply si_ext; [apply HI| | |]; try done.
  - eapply si_ext; [exact H4|done| |done]. intros k e. setoid_rewrite elem_of_nil. naive_solver.
  - intros D s m s' _ HS Es. eapply si_ext; [eapply si_edges; [exact HS|exact Es]|done| |done]. intros k e. setoid_rewrite elem_of_app. setoid_rewrite elem_of_list_singleton. naive_solver.
  - intros k e. setoid_rewrite elem_of_elements. setoid_rewrite H1. done.
Qed.
End proofs.
