From Coq Require Import NArith String Lia.
From stdpp Require Import base list gmap sorting pretty.
From Verif Require GraphMLProofs.
From Verif Require Import KeySer CompPath Types SymbolTable SortMatches Joins JoinsSpec JoinsProofs Conjunction ConjunctionSpec ConjunctionProofs ConjPlanProofs ConjunctionProps Plan PlanSpec PlanProofs PlanProps RelAnnisMaps RelAnnisDuplicates Query QuerySpec QueryProofs EndToEnd EndToEndSpec EndToEndProofs.

(** ** Lists *)
Lemma map_of_function {A} (f : nat → option A) n : (∀ i, n <= i → f i = None) → ∃ m : gmap nat A, ∀ i, m !! i = f i.
Proof.
  revert f. induction n as [|n IH]; intros f Hf; [exists ∅; intros i; rewrite lookup_empty; symmetry; apply Hf; lia|].
  destruct (IH (λ i, if decide (i = n) then None else f i)) as [m Hm].
  { intros i Hi. destruct (decide (i = n)); [done|]. apply Hf. lia. }
  destruct (f n) as [x|] eqn:En.
  - exists (<[n := x]> m). intros i. destruct (decide (i = n)) as [-> |Hne]; [by rewrite lookup_insert|]. rewrite lookup_insert_ne by done. rewrite Hm. by rewrite decide_False.
  - exists m. intros i. rewrite Hm. destruct (decide (i = n)) as [-> |Hne]; [done|done].
Qed.
Lemma nodup_fmap_inj {A B} (f : A → B) l x y : NoDup (f <$> l) → x ∈ l → y ∈ l → f x = f y → x = y.
Proof.
  induction l as [|z l IH]; intros Hn Hx Hy Hf; [inversion Hx|]. cbn in Hn. apply NoDup_cons in Hn as [Hz Hn].
  apply elem_of_cons in Hx. apply elem_of_cons in Hy. destruct Hx as [-> |Hx], Hy as [-> |Hy]; [done| | |by apply IH].
  - destruct Hz. rewrite Hf. apply elem_of_list_fmap. by exists y.
  - destruct Hz. rewrite <- Hf. apply elem_of_list_fmap. by exists x.
Qed.
Lemma sorted_inj l i j s : StronglySorted lt l → l !! i = Some s → l !! j = Some s → i = j.
Proof.
  intros H. assert (NoDup l) as Hn; [|intros H1 H2; by eapply NoDup_lookup]. induction H as [|x l H IH Hx]; [constructor|]. constructor; [|done]. intros Hin. rewrite Forall_forall in Hx. specialize (Hx x Hin). lia.
Qed.
Definition kept {A} (nodes : list (A * bool)) (starts : list nat) : list nat := omap (λ p : A * bool * nat, if p.1.2 then None else Some p.2) (zip nodes starts).
Lemma elem_of_kept {A} (nodes : list (A * bool)) starts s : s ∈ kept nodes starts ↔ ∃ i x, nodes !! i = Some (x, false) ∧ starts !! i = Some s.
Proof.
  unfold kept. rewrite elem_of_list_omap. split.
  - intros ([[x o] s'] & Hin & E). cbn in E. destruct o; [done|]. injection E as ->. apply elem_of_list_lookup in Hin as [i Hi]. apply lookup_zip_with_Some in Hi as (n & s' & [= <- <-] & H1 & H2). eauto.
  - intros (i & x & H1 & H2). exists ((x, false), s). split; [|done]. apply elem_of_list_lookup. exists i. apply lookup_zip_with_Some. eauto.
Qed.
Lemma kept_sorted {A} (nodes : list (A * bool)) : ∀ starts, StronglySorted lt starts → StronglySorted lt (kept nodes starts).
Proof.
  induction nodes as [|[x o] nodes IH]; intros [|s starts] H; [constructor..|]. apply StronglySorted_inv in H as [H Hs]. unfold kept. cbn. fold (kept nodes starts).
  destruct o; [by apply IH|]. constructor; [by apply IH|]. apply Forall_forall. intros s' Hs'. apply elem_of_kept in Hs' as (i & x' & _ & Hi). rewrite Forall_forall in Hs. apply Hs. by eapply elem_of_list_lookup_2.
Qed.
Lemma kept_all {A} (nodes : list (A * bool)) : ∀ starts, length nodes = length starts → (∀ n, n ∈ nodes → n.2 = false) → kept nodes starts = starts.
Proof.
  induction nodes as [|[x o] nodes IH]; intros [|s starts] Hl Hn; [done..|]. unfold kept. cbn. assert (o = false) as -> by (apply (Hn (x, o)); left). f_equal.
  apply IH; [by injection Hl|]. intros n H. apply Hn. by right.
Qed.
Lemma kept_none {A} (nodes : list (A * bool)) starts : (∀ k x s, nodes !! k = Some (x, false) → starts !! k = Some s → False) → kept nodes starts = [].
Proof.
  intros H. destruct (kept nodes starts) as [|s l] eqn:E; [done|]. assert (s ∈ kept nodes starts) as Hs by (rewrite E; left).
  apply elem_of_kept in Hs as (i & x & H1 & H2). destruct (H i x s H1 H2).
Qed.
Lemma output_kept {A B} (t : A → B) (env : nat → match_) (nodes : list (A * bool)) : ∀ starts (mg : group), length nodes = length starts → length mg <= length nodes →
  (∀ k x s, nodes !! k = Some (x, false) → starts !! k = Some s → mg !! k = Some (env s)) →
  snd <$> filter (λ p, p.1.2 = true) (zip ((λ n, (t n.1, negb n.2)) <$> nodes) mg) = env <$> kept nodes starts.
Proof.
  induction nodes as [|[x o] nodes IH]; intros [|s starts] mg Hl Hm H; [done..|].
  destruct mg as [|m mg].
  { rewrite (kept_none ((x, o) :: nodes) (s :: starts)); [done|]. intros k x' s' H1 H2. specialize (H k x' s' H1 H2). by rewrite lookup_nil in H. }
  assert (snd <$> filter (λ p, p.1.2 = true) (zip ((λ n, (t n.1, negb n.2)) <$> nodes) mg) = env <$> kept nodes starts) as IHm.
  { apply IH; [by injection Hl|cbn in Hm; lia|]. intros k x' s' H1 H2. apply (H (S k) x' s' H1 H2). }
  unfold kept. cbn [fmap list_fmap zip zip_with omap list_omap fst snd]. fold (kept nodes starts). destruct o; cbn [negb].
  - rewrite filter_cons_False by done. exact IHm.
  - rewrite filter_cons_True by done. cbn [fmap list_fmap snd]. unfold fmap in IHm. f_equal; [|exact IHm]. specialize (H 0 x s eq_refl eq_refl). by injection H.
Qed.

Section Results.
Context {Spec Bop Uop Op : Type}.
Notation literal := (literal Spec Bop Uop). Notation qconj := (qconj Spec Bop Uop).
Context (sat : Spec → match_ → Prop) (bop : Bop → match_ → match_ → Prop) (uop : Uop → match_ → Prop).
Context (E : engine Spec Bop Uop Op) (query : list (list literal)) (HE : engine_ok sat bop uop E query).

(** ** Alternatives *)
Lemma alternatives_lookup (lits : list (list literal)) : ∀ off qs, map_alternatives off lits = Some qs → length qs = length lits ∧
  ∀ i q, qs !! i = Some q → ∃ c, lits !! i = Some c ∧ map_conjunction (c_offset q) c = Some q.
Proof.
  induction lits as [|c lits IH]; intros off qs H; cbn [map_alternatives] in H; [injection H as <-; split; [done|]; intros i q Hi; by rewrite lookup_nil in Hi|].
  destruct (map_conjunction off c) as [q0|] eqn:E0; [|done]. cbn in H. destruct (map_alternatives (off + length (c_nodes q0)) lits) as [qs'|] eqn:E'; [|done]. injection H as <-.
  destruct (IH _ _ E') as [L Hq]. split; [cbn; by f_equal|]. intros [|i] q Hi; cbn in Hi.
  - injection Hi as <-. exists c. split; [done|]. destruct (map_conjunction_output _ _ _ E0) as [_ ->]. done.
  - by apply Hq.
Qed.
Lemma alternatives_cover (lits : list (list literal)) : ∀ off qs, map_alternatives off lits = Some qs →
  ∀ v, off <= v < off + sum_list (length ∘ c_nodes <$> qs) → ∃ q, q ∈ qs ∧ c_offset q <= v < c_offset q + length (c_nodes q).
Proof.
  induction lits as [|c lits IH]; intros off qs H v Hv; cbn [map_alternatives] in H; [injection H as <-; cbn in Hv; lia|].
  destruct (map_conjunction off c) as [q0|] eqn:E0; [|done]. cbn in H. destruct (map_alternatives (off + length (c_nodes q0)) lits) as [qs'|] eqn:E'; [|done]. injection H as <-.
  destruct (map_conjunction_output _ _ _ E0) as [_ Ho]. cbn in Hv. destruct (decide (v < off + length (c_nodes q0))).
  - exists q0. split; [left|lia].
  - destruct (IH _ _ E' v) as (q & Hq & Hv'); [lia|]. exists q. split; [by right|done].
Qed.
(** What a mapped alternative is *)
Lemma alternative_mapped off c (q : qconj) : alternative_fine c → unary_mandatory off c → map_conjunction off c = Some q →
  ∃ starts, positions c starts ∧ length (c_nodes q) = length starts ∧ operands_ok q ∧ (∃ i, mandatory q i) ∧ found_positions c (kept (c_nodes q) starts) ∧
    (∀ i v sp o, c_nodes q !! i = Some (v, sp, o) → ∃ s var, starts !! i = Some s ∧ node_at c s (sp, var, o) ∧ v = match var with Some n => Name n | None => Num (off + i + 1) end) ∧
    ∀ env a, (∀ i s, starts !! i = Some s → a i = env s) → conj_holds sat bop uop q a ↔ ∀ l, l ∈ c → literal_holds sat bop uop off c env l.
Proof.
  intros Hf Hu Eq. destruct Hf as [Hc Hd Hs]. destruct (map_conjunction_spec sat bop uop off c Hc Hd) as [[Hn _]|(q' & starts & Eq' & _ & Hp & Hl & _ & Hr & Hh)]; [congruence|].
  assert (q' = q) as -> by congruence. exists starts.
  assert (∀ s sp var o, node_at c s (sp, var, o) → ∃ i v, c_nodes q !! i = Some (v, sp, o) ∧ starts !! i = Some s) as Hback.
  { intros s sp var o Ha. assert (s ∈ starts) as Hin by (apply Hp; eauto). apply elem_of_list_lookup in Hin as [i Hi].
    destruct (lookup_lt_is_Some_2 (c_nodes q) i) as [[[v sp'] o'] Hrow]; [rewrite Hl; by eapply lookup_lt_Some|].
    destruct (Hr _ _ _ _ Hrow) as (s' & var' & Hs' & Ha' & _). assert (s' = s) as -> by congruence. pose proof (Hc _ _ _ Ha Ha') as [= <- <- <-]. eauto. }
  split_and!; [done|done| | | |done|done].
  - by eapply (map_conjunction_operands off c q).
  - destruct Hs as (s & sp & var & Ha). destruct (Hback _ _ _ _ Ha) as (i & v & Hi & _). exists i, v, sp. done.
  - split; [apply kept_sorted, Hp|]. intros s. rewrite elem_of_kept. split.
    + intros (i & [v sp] & H1 & H2). destruct (Hr _ _ _ _ H1) as (s' & var & Hs' & Ha & _). assert (s' = s) as -> by congruence. eauto.
    + intros (sp & var & Ha). destruct (Hback _ _ _ _ Ha) as (i & v & H1 & H2). eauto.
Qed.
Lemma positions_unique (c : list literal) s1 s2 : positions c s1 → positions c s2 → s1 = s2.
Proof. intros [A1 B1] [A2 B2]. apply (strict_sorted_ext lt); [intros x; lia|intros x y z; lia|exact A1|exact A2|]. intros x. by rewrite B1, B2. Qed.
Lemma found_positions_unique (c : list literal) s1 s2 : found_positions c s1 → found_positions c s2 → s1 = s2.
Proof. intros [A1 B1] [A2 B2]. apply (strict_sorted_ext lt); [intros x; lia|intros x y z; lia|exact A1|exact A2|]. intros x. by rewrite B1, B2. Qed.
Lemma offset_unique (lits : list (list literal)) i o1 o2 : offset_of lits i o1 → offset_of lits i o2 → o1 = o2.
Proof.
  intros (s1 & H1 & ->) (s2 & H2 & ->). f_equal. f_equal. revert s2 H2. induction H1 as [|c st cs sts Hc H1 IH]; intros s2 H2; inversion H2; subst; [done|].
  f_equal; [by eapply positions_unique|by apply IH].
Qed.
Lemma alternatives_offset (lits : list (list literal)) : ∀ qs, (∀ c, c ∈ lits → consistent c ∧ distinct_names c) → map_alternatives 0 lits = Some qs → ∀ i q, qs !! i = Some q → offset_of lits i (c_offset q).
Proof.
  intros qs Hc Hm i q Hi. pose proof (map_alternatives_offset _ _ _ Hm i q Hi) as Ho. destruct (alternatives_lookup _ _ _ Hm) as [L Hq].
  destruct (map_alternatives_spec sat bop uop lits 0 qs) as (startss & L1 & L2 & H); [by apply Forall_forall|done|].
  exists (take i startss). split.
  - apply Forall2_same_length_lookup_2; [rewrite !take_length; lia|]. intros k c st Hk Hst. apply lookup_take_Some in Hk as [Hk Hlt]. apply lookup_take_Some in Hst as [Hst _].
    destruct (H k c Hk) as (q' & st' & _ & E2 & Hp & _). by assert (st' = st) as -> by congruence.
  - rewrite Ho. cbn. assert (∀ n, length <$> (c_nodes <$> take n qs) = length <$> take n startss) as Heq.
    { intros n. rewrite !fmap_take. f_equal. apply list_eq. intros k. rewrite !list_lookup_fmap. destruct (qs !! k) as [q'|] eqn:Ek.
      - destruct (Hq _ _ Ek) as (c & Hk & _). destruct (H k c Hk) as (q'' & st' & E1 & E2 & _ & Hl & _). rewrite E2. cbn. congruence.
      - apply lookup_ge_None in Ek. rewrite (proj2 (lookup_ge_None startss k)) by lia. done. }
    rewrite Heq. generalize (take i startss). clear. induction l as [|x l IH]; [done|]. cbn. rewrite app_length. lia.
Qed.

(** ** Results of the plans *)
Context (parallel : bool) (loop_buffer index_buffer : nat) (Hlb : 0 < loop_buffer) (Hib : 0 < index_buffer).
Context (outer_left : exec (Op := Op) → exec (Op := Op) → bool) (switch : bin (Op := Op) → bool).
Notation plan_yields := (plan_yields E parallel loop_buffer index_buffer outer_left switch).
Lemma plan_keys (qs : list qconj) alts : few_annotation_keys sat query → (∀ q, q ∈ qs → (operands_ok q ∧ parts query q) ∧ (∃ i, mandatory q i) ∧ check_components_connected (compile E q) = None) →
  Forall2 plan_yields (compile E <$> qs) alts → few_keys alts.
Proof.
  intros (K & K1 & K2 & K3) Hq Hp. exists K. split_and!; [done|done|]. intros pos items g m Ha Hg Hm. apply elem_of_list_lookup in Ha as [i Hi].
  destruct (Forall2_lookup_r _ _ _ _ _ Hp Hi) as (q' & Hqi & order & e & out & Ho & Ee & Eo & [= -> ->]). rewrite list_lookup_fmap in Hqi.
  destruct (qs !! i) as [q|] eqn:Eqi; [|done]. cbn in Hqi. injection Hqi as <-. apply elem_of_list_lookup_2 in Eqi. destruct (Hq q Eqi) as (O & M & C).
  apply C35_accepted_iff_connected in C.
  destruct (plan_spec (e_filter E) (e_reflexive E) (e_retrieve E) (e_inverse E) parallel loop_buffer index_buffer Hlb Hib _ (compile_valid sat bop uop E query HE q O M) outer_left switch order Ho C) as (e' & E' & _ & H).
  assert (e' = e) as -> by congruence. destruct (H out Eo) as (_ & W & _ & S & _). apply elem_of_oks in Hg. destruct (S _ Hg) as [L Hsol].
  apply elem_of_list_lookup in Hm as [k Hk]. destruct W as [W1 W2]. destruct (W2 k) as [v Hv]; [rewrite <- L; by eapply lookup_lt_Some|].
  destruct Hsol as (_ & F & _). destruct (F v m) as [(n & s & Hn & _ & Es & Hin) _]; [rewrite lookup_assign, Hv; cbn; exact Hk|].
  rewrite compile_node in Hn. destruct (c_nodes q !! v) as [[[vn sp] o]|] eqn:Ev; [|done]. cbn in Hn. injection Hn as <-. cbn in Es.
  destruct HE as [_ _ _ H4 _]. assert (search_in query sp) as Hsp by (by eapply (parts_nodes _ _ (proj2 O))). destruct (H4 sp Hsp) as (s' & Es' & _ & Hs). assert (s' = s) as -> by congruence. apply (K3 sp); [done|]. by apply Hs.
Qed.
(** A match of the plan of an alternative, its nodes in the output and the assignment *)
Definition env_of (starts : list nat) (a : gmap nat match_) (s : nat) : match_ := default default_match (i ← list_find (λ x, x = s) starts; a !! i.1).
Lemma env_of_lookup starts a i s : StronglySorted lt starts → starts !! i = Some s → env_of starts a s = total_of a i.
Proof.
  intros Hs Hi. unfold env_of, total_of. destruct (list_find (λ x, x = s) starts) as [[j x]|] eqn:Ef.
  - apply list_find_Some in Ef as (Hj & -> & _). cbn. by rewrite (sorted_inj _ _ _ _ Hs Hi Hj).
  - rewrite list_find_None, Forall_forall in Ef. destruct (Ef s); [by eapply elem_of_list_lookup_2|done].
Qed.
Lemma laid_out_length (q : qconj) a mg : (∀ i, is_Some (a !! i) ↔ mandatory q i) → laid_out a mg → length mg <= length (c_nodes q).
Proof.
  intros D (_ & _ & L). destruct (decide (length mg <= length (c_nodes q))) as [|Hgt]; [done|]. destruct (L (length (c_nodes q))) as (w & Hw & Hs); [lia|].
  apply D in Hs as (v & sp & Hv). apply lookup_lt_Some in Hv. lia.
Qed.
(** The output of a match is the list of the matches of the mandatory nodes *)
Lemma output_of_match (q : qconj) a mg env (starts : list nat) (t : vname * Spec → list N) : (∀ i, is_Some (a !! i) ↔ mandatory q i) → laid_out a mg → length (c_nodes q) = length starts →
  (∀ i s m, starts !! i = Some s → a !! i = Some m → m = env s) →
  snd <$> filter (λ p, p.1.2 = true) (zip ((λ n, (t n.1, negb n.2)) <$> c_nodes q) mg) = env <$> kept (c_nodes q) starts.
Proof.
  intros D Hl Hlen He. apply output_kept; [done|by eapply laid_out_length|]. intros k [v sp] s Hk Hs. destruct (proj2 (D k)) as [m Hm]; [by exists v, sp|].
  rewrite (proj1 Hl k m Hm). by rewrite (He _ _ _ Hs Hm).
Qed.
Lemma match_without_optional (q : qconj) a mg : (∀ i, is_Some (a !! i) ↔ mandatory q i) → laid_out a mg → (∀ n, n ∈ c_nodes q → n.2 = false) →
  length mg = length (c_nodes q) ∧ ∀ i, mg !! i = a !! i.
Proof.
  intros D Hl Hn. pose proof (laid_out_length _ _ _ D Hl) as L.
  assert (∀ i, i < length (c_nodes q) → is_Some (a !! i)) as Hs.
  { intros i Hi. apply D. destruct (lookup_lt_is_Some_2 _ _ Hi) as [[[v sp] o] Hr]. exists v, sp. rewrite Hr. f_equal. f_equal. apply (Hn (v, sp, o)). by eapply elem_of_list_lookup_2. }
  assert (length mg = length (c_nodes q)) as HL.
  { destruct (decide (length mg = length (c_nodes q))) as [|Hne]; [done|]. destruct (Hs (length mg)) as [m Hm]; [lia|]. apply (proj1 Hl) in Hm. apply lookup_lt_Some in Hm. lia. }
  split; [done|]. intros i. destruct (decide (i < length (c_nodes q))) as [Hi|Hi].
  - destruct (Hs i Hi) as [m Hm]. rewrite Hm. by apply (proj1 Hl).
  - rewrite (proj2 (lookup_ge_None mg i)) by lia. destruct (a !! i) as [m|] eqn:Ea; [|done]. destruct (proj1 (D i)) as (v & sp & Hv); [by eexists|]. apply lookup_lt_Some in Hv. lia.
Qed.

(** ** The output *)
Lemma vars_of_optional (q : qconj) : vars_ok q → out_inv q → vars_of q = AltVars (c_offset q) ((λ n, (var_text n.1.1, negb n.2)) <$> c_nodes q).
Proof.
  intros Hv Ho. unfold vars_of. f_equal. apply list_fmap_ext. intros i [[v sp] o] Hi. cbn. f_equal. destruct o; cbn.
  - apply bool_decide_eq_false_2. intros Hin. apply Ho in Hin as [sp' Hin]. apply elem_of_list_lookup in Hin as [j Hj].
    assert (Some i = Some j) as [= ->] by (rewrite <- (proj2 (Hv v i)), <- (proj2 (Hv v j)); eauto). congruence.
  - apply bool_decide_eq_true_2. apply Ho. exists sp. by eapply elem_of_list_lookup_2.
Qed.
Lemma names_distinct off (c : list literal) (q : qconj) (starts : list nat) : vars_ok q → names_no_numbers c →
  (∀ i v sp o, c_nodes q !! i = Some (v, sp, o) → ∃ s var, starts !! i = Some s ∧ node_at c s (sp, var, o) ∧ v = match var with Some n => Name n | None => Num (off + i + 1) end) →
  NoDup (var_text ∘ fst ∘ fst <$> c_nodes q).
Proof.
  intros Hv Hn Hr. apply NoDup_alt. intros i j x Hi Hj. rewrite list_lookup_fmap in Hi, Hj.
  destruct (c_nodes q !! i) as [[[v sp] o]|] eqn:Ei; [|done]. destruct (c_nodes q !! j) as [[[w sp'] o']|] eqn:Ej; [|done]. cbn in Hi, Hj. injection Hi as <-. injection Hj as Hvw.
  destruct (Hr _ _ _ _ Ei) as (s & var & _ & Ai & ->), (Hr _ _ _ _ Ej) as (s' & var' & _ & Aj & ->).
  assert (∀ (k : nat) n s sp o, node_at c s (sp, Some n, o) → str (pretty k) ≠ n) as Hne.
  { intros k n s0 sp0 o0 Ha Heq. destruct (Hn _ _ _ _ Ha) as (b & r & -> & Hb). pose proof (pretty_digits (N.of_nat k)) as Hd.
    assert (pretty (N.of_nat k) = pretty k) as Hp by done. rewrite Hp, Heq in Hd. apply Forall_cons in Hd as [Hd _]. done. }
  destruct var as [n|], var' as [n'|]; cbn in Hvw.
  - subst n'. assert (Some i = Some j) as [= ->]; [|done]. rewrite <- (proj2 (Hv (Name n) i)), <- (proj2 (Hv (Name n) j)); eauto.
  - destruct (Hne (off + j + 1) n s sp o Ai). done.
  - destruct (Hne (off + i + 1) n' s' sp' o' Aj). done.
  - assert (∀ a b : string, str a = str b → a = b) as Hs by (intros a b; apply GraphMLProofs.str_inj). apply Hs, (inj pretty) in Hvw. lia.
Qed.

(** ** The results of a query *)
Notation lits := query.
Theorem answers_spec alts out : few_annotation_keys sat lits →
  (∀ c, c ∈ lits → alternative_fine c) → (∀ i c off, lits !! i = Some c → offset_of lits i off → unary_mandatory off c) →
  (∀ c, c ∈ lits → no_optional c) ∨ (∃ c, lits = [c] ∧ names_no_numbers c) →
  answers E parallel loop_buffer index_buffer outer_left switch lits alts out →
  no_error out ∧ NoDup (oks out) ∧
  (∀ g, g ∈ oks out → ∃ i c off, lits !! i = Some c ∧ offset_of lits i off ∧ alternative_result sat bop uop off c g) ∧
  (∀ i c off g, lits !! i = Some c → offset_of lits i off → alternative_result sat bop uop off c g → all_reflexive E c ∨ NoDup g → g ∈ oks out).
Proof.
  intros HK Hfine Hun Hopt (qs & Hm & Hconn & Hp & Hx). destruct (alternatives_lookup _ _ _ Hm) as [Lq Hq].
  assert (∀ c, c ∈ lits → consistent c ∧ distinct_names c) as Hcd by (intros c Hc; destruct (Hfine c Hc); done).
  pose proof (alternatives_offset lits qs Hcd Hm) as Hoff.
  assert (∀ i q, qs !! i = Some q → ∃ c, lits !! i = Some c ∧ offset_of lits i (c_offset q) ∧ map_conjunction (c_offset q) c = Some q ∧ alternative_fine c ∧ unary_mandatory (c_offset q) c) as HQ.
  { intros i q Hi. destruct (Hq i q Hi) as (c & Hc & Ec). exists c. split_and!; [done|by apply Hoff|done|apply Hfine; by eapply elem_of_list_lookup_2|]. eapply Hun; [done|by apply Hoff]. }
  assert (∀ q, q ∈ qs → (operands_ok q ∧ parts lits q) ∧ (∃ i, mandatory q i) ∧ check_components_connected (compile E q) = None) as Hqs.
  { intros q Hin. pose proof Hin as Hin'. apply elem_of_list_lookup in Hin as [i Hi]. destruct (HQ i q Hi) as (c & Hc & _ & Ec & F & U).
    assert (parts lits q) as HP by (eapply map_conjunction_parts; [by eapply elem_of_list_lookup_2|apply F|exact Ec]).
    destruct (alternative_mapped _ _ _ F U Ec) as (starts & _ & _ & O & M & _). split_and!; [done|done|done|by apply Hconn]. }
  pose proof (plan_keys qs alts HK Hqs Hp) as Hkeys.
  destruct (C33_solutions (e_filter E) (e_reflexive E) (e_retrieve E) (e_inverse E) parallel loop_buffer index_buffer outer_left switch (compile E <$> qs) alts Hlb Hib) as (l & El & Nl & Sl & Cl & _); [|exact Hp|done|].
  { intros q' Hin. apply elem_of_list_fmap in Hin as (q & -> & Hin). destruct (Hqs q Hin) as (O & M & C). split; [by eapply compile_valid|done]. }
  (* the output of the matches *)
  assert (no_error out ∧ NoDup (oks out) ∧ ∃ f : group → group, (∀ g, g ∈ oks out ↔ ∃ mg, mg ∈ oks l ∧ g = f mg) ∧
    ∀ i q c starts a env mg, qs !! i = Some q → lits !! i = Some c → length (c_nodes q) = length starts → (∀ i, is_Some (a !! i) ↔ mandatory q i) → laid_out a mg →
      (∀ i v sp o, c_nodes q !! i = Some (v, sp, o) → ∃ s var, starts !! i = Some s ∧ node_at c s (sp, var, o) ∧ v = match var with Some n => Name n | None => Num (c_offset q + i + 1) end) →
      (∀ i s m, starts !! i = Some s → a !! i = Some m → m = env s) → f mg = env <$> kept (c_nodes q) starts) as (No & Nd & f & Hf & Hout).
  { destruct Hopt as [Hopt|(c & -> & Hnames)].
    - destruct (C33_output_if_all_included alts (vars_of <$> qs) (sum_list (length ∘ c_nodes <$> qs))) with (l := l) as (out' & Eo & No & Nd & Hout); [| |done|done| |].
      + apply Forall_forall. intros av Hin v Hv. apply elem_of_list_fmap in Hin as (q & -> & Hin). unfold vars_of in Hv. cbn in Hv. apply elem_of_list_fmap in Hv as (n & -> & Hn). cbn.
        apply bool_decide_eq_true_2. apply elem_of_list_lookup in Hin as [i Hi]. destruct (HQ i q Hi) as (c & Hc & _ & Ec & F & U). destruct (map_conjunction_output _ _ _ Ec) as [Ho _].
        destruct (alternative_mapped _ _ _ F U Ec) as (starts & _ & _ & _ & _ & _ & Hr & _). apply elem_of_list_lookup in Hn as [k Hk]. destruct n as [[v sp] o]. cbn.
        destruct (Hr _ _ _ _ Hk) as (s & var & _ & Ha & _). apply Hopt in Ha; [|by eapply elem_of_list_lookup_2]. cbn in Ha. subst o. apply Ho. exists sp. by eapply elem_of_list_lookup_2.
      + intros v Hv. destruct (alternatives_cover lits 0 qs Hm v) as (q & Hin & Hv'); [lia|]. exists (vars_of q). split; [apply elem_of_list_fmap; eauto|]. unfold vars_of. cbn. by rewrite fmap_length.
      + intros mg Hmg. destruct (Sl mg Hmg) as (q' & a & Hin & Hsol & Hlay). apply elem_of_list_fmap in Hin as (q & -> & Hin). destruct (Hqs q Hin) as (O & _).
        apply (compile_solution sat bop uop E query HE q a O) in Hsol as [D _]. pose proof (laid_out_length _ _ _ D Hlay) as L. revert Hin L. clear. induction qs as [|q' qs IH]; intros Hin L; [inversion Hin|].
        cbn. apply elem_of_cons in Hin as [-> |Hin]; [lia|]. specialize (IH Hin L). lia.
      + rewrite Hx in Eo. injection Eo as <-. split_and!; [done|done|]. exists id. split; [intros g; rewrite Hout; split; [eauto|by intros (? & ? & ->)]|].
        intros i q c starts a env mg Hi Hc Hl D Hlay Hr He. unfold id.
        assert (∀ n, n ∈ c_nodes q → n.2 = false) as Hno.
        { intros [[v sp] o] Hin. apply elem_of_list_lookup in Hin as [k Hk]. destruct (Hr _ _ _ _ Hk) as (s & var & _ & Ha & _). cbn. apply (Hopt c) in Ha; [done|by eapply elem_of_list_lookup_2]. }
        destruct (match_without_optional q a mg D Hlay Hno) as [Lmg Hmg]. rewrite kept_all by done. apply list_eq. intros k. rewrite list_lookup_fmap.
        destruct (starts !! k) as [s|] eqn:Es; cbn.
        * destruct (lookup_lt_is_Some_2 mg k) as [m Hk]; [rewrite Lmg, Hl; by eapply lookup_lt_Some|]. rewrite Hk. f_equal. eapply He; [done|]. by rewrite <- Hmg.
        * apply lookup_ge_None in Es. apply lookup_ge_None. lia.
    - destruct qs as [|q [|q2 qs]]; [done| |done]. destruct (HQ 0 q eq_refl) as (c' & [= <-] & _ & Ec & F & U).
      destruct (map_conjunction_operands _ _ _ F U Ec) as [Hv _]. destruct (map_conjunction_output _ _ _ Ec) as [Ho _].
      destruct (alternative_mapped _ _ _ F U Ec) as (starts & Hpos & Hl & _ & _ & _ & Hr & _).
      assert (c_offset q = 0) as H0 by (rewrite (map_alternatives_offset _ _ _ Hm 0 q eq_refl); done).
      cbn [fmap list_fmap] in Hx. rewrite (vars_of_optional q Hv Ho), H0 in Hx.
      destruct (C33_output_of_one_alternative alts ((λ n, (var_text n.1.1, negb n.2)) <$> c_nodes q)) with (l := l) as (out' & Eo & No & Nd & Hout); [|done|done|].
      { rewrite <- list_fmap_compose. exact (names_distinct _ _ _ _ Hv Hnames Hr). }
      rewrite Hx in Eo. injection Eo as <-. split_and!; [done|done|].
      exists (λ mg, snd <$> filter (λ p, p.1.2 = true) (zip ((λ n, (var_text n.1.1, negb n.2)) <$> c_nodes q) mg)). split; [exact Hout|].
      intros [|i] q' c' starts' a env mg Hi Hc Hl' D Hlay _ He; [|done]. cbn in Hi. injection Hi as <-.
      exact (output_of_match q a mg env starts' (λ p, var_text p.1) D Hlay Hl' He). }
  split_and!; [done|done| |].
  - intros g Hg. apply Hf in Hg as (mg & Hmg & ->). destruct (Sl mg Hmg) as (q' & a & Hin & Hsol & Hlay). apply elem_of_list_fmap in Hin as (q & -> & Hin).
    destruct (Hqs q Hin) as (O & _). apply (compile_solution sat bop uop E query HE q a O) in Hsol as [D Hh]. apply elem_of_list_lookup in Hin as [i Hi].
    destruct (HQ i q Hi) as (c & Hc & Hof & Ec & F & U). destruct (alternative_mapped _ _ _ F U Ec) as (starts & Hpos & Hl & _ & _ & Hfp & Hr & Hmean).
    exists i, c, (c_offset q). split_and!; [done|done|]. exists (env_of starts a), (kept (c_nodes q) starts).
    assert (∀ k s, starts !! k = Some s → total_of a k = env_of starts a s) as He by (intros k s Hk; symmetry; apply env_of_lookup; [apply Hpos|done]).
    split_and!; [by apply (Hmean _ _ He)|done|]. eapply Hout; [exact Hi|exact Hc|done|done|done|exact Hr|].
    intros k s m Hk Hm'. rewrite <- (He _ _ Hk). unfold total_of. by rewrite Hm'.
  - intros i c off g Hc Hof (env & starts' & Hlit & Hfp' & ->) Hcond.
    destruct (lookup_lt_is_Some_2 qs i) as [q Hi]; [rewrite Lq; by eapply lookup_lt_Some|]. destruct (HQ i q Hi) as (c' & Hc' & Hof' & Ec & F & U).
    assert (c' = c) as -> by congruence. rewrite (offset_unique _ _ _ _ Hof Hof') in Hlit.
    destruct (alternative_mapped _ _ _ F U Ec) as (starts & Hpos & Hl & O & _ & Hfp & Hr & Hmean). rewrite (found_positions_unique _ _ _ Hfp' Hfp) in Hcond |- *.
    destruct (map_of_function (λ k, n ← c_nodes q !! k; s ← starts !! k; if (n : vname * Spec * bool).2 then None else Some (env s)) (length (c_nodes q))) as [a Ha].
    { intros k Hk. by rewrite (proj2 (lookup_ge_None _ _) Hk). }
    assert (∀ k m, a !! k = Some m ↔ ∃ v sp s, c_nodes q !! k = Some (v, sp, false) ∧ starts !! k = Some s ∧ m = env s) as Ha'.
    { intros k m. rewrite Ha. destruct (c_nodes q !! k) as [[[v sp] o]|]; cbn; [|split; [done|intros (? & ? & ? & [=] & _)]]. destruct (starts !! k) as [s|]; cbn; [|split; [done|intros (? & ? & ? & _ & [=] & _)]].
      destruct o; [split; [done|intros (? & ? & ? & [=] & _)]|]. split; [intros [= <-]; eauto 6|intros (? & ? & ? & _ & [= <-] & ->); done]. }
    assert (∀ k, is_Some (a !! k) ↔ mandatory q k) as D.
    { intros k. split; [intros [m Hm']; apply Ha' in Hm' as (v & sp & _ & Hk & _); by exists v, sp|]. intros (v & sp & Hk). destruct (Hr _ _ _ _ Hk) as (s & _ & Hs & _). exists (env s). apply Ha'. eauto 6. }
    assert (∀ k s m, starts !! k = Some s → a !! k = Some m → m = env s) as Hae.
    { intros k s m Hs Hm'. apply Ha' in Hm' as (_ & _ & s' & _ & Hs' & ->). congruence. }
    assert (solution (e_filter E) (compile E q) a) as Hsol.
    { apply (compile_solution sat bop uop E query HE q a (Logic.conj O (map_conjunction_parts _ _ _ _ (elem_of_list_lookup_2 _ _ _ Hc) (fine_consistent _ F) Ec))). split; [done|].
      set (b := λ k, default default_match (env <$> starts !! k)). assert (conj_holds sat bop uop q b) as Hb by (apply (Hmean env b); [intros k s Hs; unfold b; by rewrite Hs|exact Hlit]).
      assert (∀ k, mandatory q k → total_of a k = b k) as Hab.
      { intros k Hk. destruct (proj2 (D k) Hk) as [m Hm']. unfold total_of, b. rewrite Hm'. apply Ha' in Hm' as (_ & _ & s & _ & -> & ->). done. }
      destruct O as [Ou Ob]. destruct Hb as [B1 B2 B3]. constructor.
      - intros k v sp Hk. rewrite Hab by (by exists v, sp). by eapply B1.
      - intros u k Hk. rewrite Hab by (by eapply Ou). by apply B2.
      - intros o n lo ro Hin. destruct (Ob _ _ _ _ Hin) as (_ & _ & Ml & Mr). rewrite (Hab _ Ml), (Hab _ Mr). by apply B3. }
    destruct (Cl (compile E q) a) as (mg & Hmg & Hlay); [apply elem_of_list_fmap; exists q; split; [done|by eapply elem_of_list_lookup_2]|done| |].
    { destruct Hcond as [Href|Hnd]; [left; by eapply compile_unrestricted|right]. intros k1 k2 m H1 H2. apply Ha' in H1 as (v1 & sp1 & s1 & N1 & S1 & ->). apply Ha' in H2 as (v2 & sp2 & s2 & N2 & S2 & Heq).
      assert (s1 = s2) as ->; [|eapply sorted_inj; [apply Hpos|done|done]]. eapply (nodup_fmap_inj env); [exact Hnd| | |exact Heq]; apply elem_of_kept; eauto. }
    apply Hf. exists mg. split; [done|]. symmetry. eapply Hout; [exact Hi|exact Hc|done|exact D|done|exact Hr|exact Hae].
Qed.
(** Queries with connected alternatives have answers, whatever the optimizer and the scheduler decide *)
Theorem answers_exist qs orders : few_annotation_keys sat lits →
  (∀ c, c ∈ lits → alternative_fine c) → (∀ i c off, lits !! i = Some c → offset_of lits i off → unary_mandatory off c) →
  map_alternatives 0 lits = Some qs → (∀ q, q ∈ qs → check_components_connected (compile E q) = None) →
  (∀ i q, qs !! i = Some q → orders i ≡ₚ seq 0 (length (c_binary q))) →
  ∃ alts out, answers E parallel loop_buffer index_buffer outer_left switch lits alts out.
Proof.
  intros HK Hfine Hun Hm Hconn Hord. destruct (alternatives_lookup _ _ _ Hm) as [Lq Hq].
  assert (∀ c, c ∈ lits → consistent c ∧ distinct_names c) as Hcd by (intros c Hc; destruct (Hfine c Hc); done).
  pose proof (alternatives_offset lits qs Hcd Hm) as Hoff.
  assert (∀ i q, qs !! i = Some q → (operands_ok q ∧ parts lits q) ∧ (∃ i, mandatory q i) ∧ check_components_connected (compile E q) = None) as Hqs.
  { intros i q Hi. destruct (Hq i q Hi) as (c & Hc & Ec). assert (alternative_fine c) as F by (apply Hfine; by eapply elem_of_list_lookup_2).
    assert (unary_mandatory (c_offset q) c) as U by (eapply Hun; [done|by apply Hoff]).
    destruct (alternative_mapped _ _ _ F U Ec) as (starts & _ & _ & O & M & _). split_and!; [done|eapply map_conjunction_parts; [by eapply elem_of_list_lookup_2|apply F|exact Ec]|done|]. apply Hconn. by eapply elem_of_list_lookup_2. }
  assert (∃ alts, Forall2 plan_yields (compile E <$> qs) alts) as [alts Hp].
  { clear -Hqs Hord HE Hlb Hib. revert orders Hord. induction qs as [|q qs IH]; intros orders Hord; [exists []; constructor|].
    destruct (IH (λ i q' Hi, Hqs (S i) q' Hi) (λ i, orders (S i)) (λ i q' Hi, Hord (S i) q' Hi)) as [alts Hp]. destruct (Hqs 0 q eq_refl) as (O & M & C).
    apply C35_accepted_iff_connected in C.
    destruct (plan_spec (e_filter E) (e_reflexive E) (e_retrieve E) (e_inverse E) parallel loop_buffer index_buffer Hlb Hib _ (compile_valid sat bop uop E query HE q O M) outer_left switch (orders 0)) as (e & Ee & (out & Eo) & _); [|exact C|].
    { unfold compile. cbn. rewrite fmap_length. by apply (Hord 0). }
    exists (AOk (node_pos e) out :: alts). constructor; [|done]. exists (orders 0), e, out. split_and!; [|done|done|done]. unfold compile. cbn. rewrite fmap_length. by apply (Hord 0). }
  assert (∀ q, q ∈ qs → (operands_ok q ∧ parts lits q) ∧ (∃ i, mandatory q i) ∧ check_components_connected (compile E q) = None) as Hqs' by (intros q Hin; apply elem_of_list_lookup in Hin as [i Hi]; by eapply Hqs).
  pose proof (plan_keys qs alts HK Hqs' Hp) as Hkeys.
  destruct (C33_solutions (e_filter E) (e_reflexive E) (e_retrieve E) (e_inverse E) parallel loop_buffer index_buffer outer_left switch (compile E <$> qs) alts Hlb Hib) as (l & El & _); [|exact Hp|done|].
  { intros q' Hin. apply elem_of_list_fmap in Hin as (q & -> & Hin). destruct (Hqs' q Hin) as (O & M & C). split; [by eapply compile_valid|done]. }
  exists alts. unfold answers, execute_query. rewrite El. cbn. eexists. exists qs. split_and!; [done|done|done|reflexivity].
Qed.
End Results.
