(** Proofs about the positions of the nodes of frequency definitions. *)
From stdpp Require Import base list gmap sorting.
From Coq Require Import NArith Lia.
From Verif Require Import KeySer Types Joins Query QuerySpec QueryProofs Frequency EndToEndSpec FrequencyNodeSpec.

(** ** Sorted lists *)
#[local] Instance lt_antisymm : AntiSymm (=) lt.
Proof. intros x y H1 H2. lia. Qed.
Lemma sorted_nodup l : StronglySorted lt l → NoDup l.
Proof. induction 1 as [|x l Hs IH Hf]; constructor; [|done]. intros Hx. rewrite Forall_forall in Hf. specialize (Hf x Hx). lia. Qed.
Lemma sorted_same l l' : StronglySorted lt l → StronglySorted lt l' → (∀ x, x ∈ l ↔ x ∈ l') → l = l'.
Proof. intros H H' E. apply (StronglySorted_unique lt); [done|done|]. apply NoDup_Permutation; [by apply sorted_nodup|by apply sorted_nodup|done]. Qed.
Lemma sorted_take l : StronglySorted lt l → ∀ k s x, l !! k = Some s → x ∈ take k l ↔ x ∈ l ∧ x < s.
Proof.
  induction 1 as [|y l Hs IH Hf]; intros k s x Hk; [by rewrite lookup_nil in Hk|]. rewrite Forall_forall in Hf. destruct k as [|k]; cbn in Hk |- *.
  - injection Hk as ->. split; [intros H; inversion H|]. intros [[-> |H]%elem_of_cons Hx]; [lia|]. specialize (Hf x H). lia.
  - rewrite !elem_of_cons, (IH k s x Hk). split; [|tauto]. intros [-> |[H1 H2]]; [|tauto]. split; [by left|]. apply Hf. by eapply elem_of_list_lookup_2.
Qed.

Section Proofs.
Context {Spec Bop Uop : Type}.
Notation literal := (literal Spec Bop Uop). Notation qconj := (qconj Spec Bop Uop).

Lemma positions_same (c : list literal) l l' : positions c l → positions c l' → l = l'.
Proof. intros [H1 H2] [H1' H2']. apply sorted_same; [done|done|]. intros x. by rewrite H2, H2'. Qed.

(** ** Variables of an alternative *)
Lemma map_vars off (c : list literal) q : consistent c → distinct_names c → map_conjunction off c = Some q →
  ∃ starts, positions c starts ∧ c_offset q = off ∧ length (c_nodes q) = length starts ∧
    (∀ v s, refers off c v s ↔ ∃ i, c_variables q !! v = Some i ∧ starts !! i = Some s) ∧ ∀ v i, c_variables q !! v = Some i → i < length starts.
Proof.
  intros Hc Hd E. unfold map_conjunction in E.
  destruct (node_positions_spec (X := unit) (λ _ _, True) (λ _ _ _, True) (λ _ _, True) c (node_at c) Hc [] ltac:(split; [constructor|intros ? ? H; inversion H]) ltac:(done)) as [[_ E']|[Hnm (m & E' & Hm & He)]]; rewrite E' in E; [done|].
  cbn [mbind option_bind] in E. clear E'.
  assert (Hall : ∀ s e, (s, e) ∈ m ↔ node_at c s e). { intros s e. rewrite He. split; [intros [H|H]; [done|inversion H]|auto]. }
  destruct (add_nodes_spec m (with_offset off : qconj)) as (q0 & ids & Eq0 & Hv & Hn & Hids & Hu & Hb & Ho).
  { intros v j. cbn. rewrite lookup_empty. split; [done|]. intros (? & ? & H). by rewrite lookup_nil in H. }
  { intros i j v sp o sp' o' Hi Hj. cbn in Hi, Hj. rewrite list_lookup_imap in Hi, Hj. destruct (m !! i) as [[s1 e1]|] eqn:E1; [|done]. destruct (m !! j) as [[s2 e2]|] eqn:E2; [|done].
    cbn in Hi, Hj. injection Hi as Hi _ _. injection Hj as Hj _ _. destruct (m_lookup c m Hall _ _ _ E1) as [S1 A1], (m_lookup c m Hall _ _ _ E2) as [S2 A2].
    rewrite <- Hj in Hi. destruct e1 as [[sp1 [n1|]] o1], e2 as [[sp2 [n2|]] o2]; unfold name_of in Hi; cbn in Hi; try done.
    - injection Hi as ->. rewrite (Hd _ _ _ _ _ _ _ A1 A2) in S1. by eapply (starts_inj c m Hm).
    - injection Hi as Hi. lia. }
  rewrite Eq0 in E. cbn [c_nodes with_offset length app c_offset c_unary c_binary] in Hn, Ho, Hu, Hb, E.
  destruct (unary_literals_spec (X := unit) (λ _ _, True) (λ _ _ _, True) (λ _ _, True) c q0) as [[_ E1]|[_ (q1 & E1 & (F11 & F12 & F13) & _)]]; rewrite E1 in E; [done|].
  cbn [mbind option_bind] in E.
  assert (vars_ok q1) as V1. { intros v j. rewrite F11, F12. apply Hv. }
  destruct (binary_literals_spec (X := unit) (λ _ _, True) (λ _ _ _, True) (λ _ _, True) ids c q1 V1) as [[_ E2]|[_ (q2 & E2 & (F21 & F22 & F23) & _)]]; rewrite E2 in E; [done|].
  injection E as <-. exists (m.*1). split_and!.
  - split; [by destruct Hm|]. intros s. rewrite elem_of_list_fmap. split.
    + intros ([s' e] & -> & Hin). exists e. by apply Hall.
    + intros [e Hin]. exists (s, e). split; [done|]. by apply Hall.
  - congruence.
  - rewrite F21, F11, Hn, imap_length, fmap_length. done.
  - intros v s. rewrite F22, F12. apply (refers_idx off c m Hm Hall q0 Hv Hn).
  - intros v i Hi. rewrite F22, F12 in Hi. apply Hv in Hi as (sp & o & Hi). rewrite Hn in Hi. apply lookup_lt_Some in Hi. by rewrite imap_length in Hi; rewrite fmap_length.
Qed.
Lemma refers_node off (c : list literal) v s : refers off c v s → ∃ e, node_at c s e.
Proof. destruct v as [k|n]; [intros [(sp & o & H) _]|intros (sp & o & H)]; eauto. Qed.

(** ** Variables of the query *)
Lemma alternatives_vars (alts : list (list literal)) : ∀ off qs, Forall (λ c, consistent c ∧ distinct_names c) alts → map_alternatives off alts = Some qs →
  ∃ startss, Forall2 positions alts startss ∧
  (∀ v i c starts s j, alts !! i = Some c → startss !! i = Some starts → refers (off + length (concat (take i startss))) c v s → starts !! j = Some s →
     (∀ i' c' s', i' < i → alts !! i' = Some c' → ¬ refers (off + length (concat (take i' startss))) c' v s') →
     get_variable_pos qs v = Some (off + length (concat (take i startss)) + j)) ∧
  (∀ v, (∀ i c s, alts !! i = Some c → ¬ refers (off + length (concat (take i startss))) c v s) → get_variable_pos qs v = None).
Proof.
  induction alts as [|c alts IH]; intros off qs Hc H; cbn [map_alternatives] in H.
  - injection H as <-. exists []. split_and!; [constructor| |done]. intros v i c starts s j Hi. by rewrite lookup_nil in Hi.
  - apply Forall_cons in Hc as [[Hc1 Hc2] Hc]. destruct (map_conjunction off c) as [q|] eqn:E; [|done]. cbn [mbind option_bind] in H.
    destruct (map_alternatives (off + length (c_nodes q)) alts) as [qs'|] eqn:E'; [|done]. cbn in H. injection H as <-.
    destruct (map_vars off c q Hc1 Hc2 E) as (starts & Hp & Ho & Hl & Hr & Hlt). destruct (IH _ _ Hc E') as (startss & HF & H1 & H2). rewrite Hl in H1, H2.
    exists (starts :: startss). split; [by constructor|].
    assert (∀ v, (∀ s, ¬ refers off c v s) → c_variables q !! v = None) as Hnone.
    { intros v Hno. destruct (c_variables q !! v) as [i|] eqn:Ev; [|done]. exfalso.
      destruct (lookup_lt_is_Some_2 starts i (Hlt v i Ev)) as [s Hs]. apply (Hno s). apply Hr. eauto. }
    assert (∀ i, off + length starts + length (concat (take i startss)) = off + length (concat (take (S i) (starts :: startss)))) as Hlen.
    { intros i. cbn. rewrite app_length. lia. }
    split.
    + intros v [|i] d st s j Hi Hst Href Hj Hfirst; cbn [get_variable_pos]; unfold resolve_variable_pos.
      * cbn in Hi, Hst. injection Hi as <-. injection Hst as <-. cbn [take concat length] in Href |- *. rewrite Nat.add_0_r in Href |- *.
        apply Hr in Href as (k & Hk & Hs). rewrite Hk. cbn. f_equal. rewrite Ho. assert (k = j) as ->; [|lia].
        eapply (NoDup_lookup starts); [apply sorted_nodup, Hp|done|done].
      * cbn in Hi, Hst. rewrite Hnone.
        -- cbn [fmap option_fmap option_map]. rewrite <- Hlen. apply (H1 v i d st s j); [done|done|by rewrite Hlen|done|]. intros i' c' s' Hi' Hc'. rewrite Hlen. apply (Hfirst (S i') c' s'); [lia|done].
        -- intros s'. pose proof (Hfirst 0 c s' ltac:(lia) eq_refl) as Hx. cbn in Hx. by rewrite Nat.add_0_r in Hx.
    + intros v Hno. cbn [get_variable_pos]. unfold resolve_variable_pos. rewrite Hnone.
      * cbn [fmap option_fmap option_map]. apply H2. intros i d s Hd. rewrite Hlen. by apply (Hno (S i) d s).
      * intros s. pose proof (Hno 0 c s eq_refl) as Hx. cbn in Hx. by rewrite Nat.add_0_r in Hx.
Qed.

Lemma positions_list (alts : list (list literal)) l l' : Forall2 positions alts l → Forall2 positions alts l' → l = l'.
Proof.
  intros H. revert l'. induction H as [|c st alts l H1 HF IH]; intros l' H'; inversion H'; subst; [done|]. f_equal; [by eapply positions_same|by apply IH].
Qed.
Lemma offset_taken (alts : list (list literal)) l i off : Forall2 positions alts l → offset_of alts i off ↔ off = length (concat (take i l)).
Proof.
  intros H. split.
  - intros (l' & HF & ->). by rewrite (positions_list _ _ _ HF (Forall2_take _ _ _ _ H)).
  - intros ->. exists (take i l). split; [by apply Forall2_take|done].
Qed.
(** ** The index among all searches and the one among the searches that are not optional *)
Lemma index_sum (c : list literal) all found s j k B : consistent c → positions c all → found_positions c found → optional_before c s B →
  all !! j = Some s → found !! k = Some s → j = k + length B.
Proof.
  intros Hc [Ha1 Ha2] [Hf1 Hf2] [HB1 HB2] Hj Hk. assert (take j all ≡ₚ take k found ++ B) as E.
  { apply NoDup_Permutation.
    - eapply (NoDup_app (take j all) (drop j all)). rewrite take_drop. by apply sorted_nodup.
    - apply NoDup_app. split_and!; [|intros x Hx HxB|done].
      + eapply (NoDup_app (take k found) (drop k found)). rewrite take_drop. by apply sorted_nodup.
      + apply (sorted_take _ Hf1 k s x Hk) in Hx as [Hx _]. apply Hf2 in Hx as (sp & var & Hx). apply HB2 in HxB as [_ (sp' & var' & Hx')]. by specialize (Hc x _ _ Hx Hx').
    - intros x. rewrite elem_of_app, (sorted_take _ Ha1 j s x Hj), (sorted_take _ Hf1 k s x Hk), HB2, Ha2, Hf2. split.
      + intros [([[sp var] [|]] & He) Hx]; [right|left]; eauto.
      + intros [[(sp & var & H) Hx]|[Hx (sp & var & H)]]; eauto. }
  apply Permutation_length in E. rewrite app_length, !take_length in E. apply lookup_lt_Some in Hj. apply lookup_lt_Some in Hk. lia.
Qed.
Lemma position_lemma (alts : list (list literal)) qs i c off v s found k B : well_named alts → map_alternatives 0 alts = Some qs →
  alts !! i = Some c → offset_of alts i off → refers off c v s → (∀ i' s', i' < i → ¬ known_at alts i' v s') →
  found_positions c found → found !! k = Some s → optional_before c s B →
  get_variable_pos qs v = Some (off + k + length B).
Proof.
  intros Hw E Hi Hoff Hr Hfirst Hf Hk HB. destruct (alternatives_vars alts 0 qs Hw E) as (startss & HF & H1 & _).
  destruct (Forall2_lookup_l _ _ _ _ _ HF Hi) as (all & Hall & Hp). apply (offset_taken _ _ _ _ HF) in Hoff as ->.
  destruct (refers_node _ _ _ _ Hr) as [e He]. assert (s ∈ all) as Hs by (apply Hp; eauto). apply elem_of_list_lookup in Hs as [j Hj].
  rewrite (H1 v i c all s j Hi Hall Hr Hj).
  - cbn [Nat.add]. f_equal. rewrite (index_sum c all found s j k B) by (done || by apply (proj1 (Forall_lookup _ _) Hw i)). lia.
  - intros i' c' s' Hlt Hc' Href. apply (Hfirst i' s' Hlt). exists c', (length (concat (take i' startss))). split_and!; [done| |done]. by apply (offset_taken _ _ _ _ HF).
Qed.
Lemma unknown_lemma (alts : list (list literal)) qs v : well_named alts → map_alternatives 0 alts = Some qs →
  (∀ i s, ¬ known_at alts i v s) → get_variable_pos qs v = None.
Proof.
  intros Hw E Hno. destruct (alternatives_vars alts 0 qs Hw E) as (startss & HF & _ & H2). apply H2. intros i c s Hc Hr. apply (Hno i s).
  exists c, (length (concat (take i startss))). split_and!; [done| |done]. by apply (offset_taken _ _ _ _ HF).
Qed.
End Proofs.
