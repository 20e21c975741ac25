(** Proofs about the configuration files: visualizers and example queries. *)
From Coq Require Import NArith ZArith Ascii String Sorting.Sorted Lia.
From stdpp Require Import base list gmap pretty.
From Verif Require Import KeySer KeySerSpec Types CompPath Service RelAnnis RelAnnisSpec RelAnnisFields RelAnnisFilesSpec RelAnnisFiles RelAnnisConfig RelAnnisConfigSpec RelAnnisConfigText.

(** ** Sorted lists *)
Definition by_order (a b : entry) : Prop := (en_order a <= en_order b)%Z.
Lemma sorted_orders l : StronglySorted by_order l → Sorted Z.le (en_order <$> l).
Proof.
  induction 1 as [|x l H IH Hx]; cbn [fmap list_fmap]; [constructor|]. constructor; [done|]. destruct l as [|y l]; cbn [fmap list_fmap]; constructor. inversion Hx; subst. done.
Qed.
Lemma sorted_filter (P : entry → Prop) `{∀ x, Decision (P x)} l : StronglySorted by_order l → StronglySorted by_order (filter P l).
Proof.
  induction 1 as [|x l H' IH Hx]; [constructor|]. rewrite filter_cons. destruct (decide (P x)); [|done]. constructor; [done|]. apply Forall_forall. intros y [_ Hy]%elem_of_list_filter. rewrite Forall_forall in Hx. by apply Hx.
Qed.
Lemma sorted_insert l1 x l2 : StronglySorted by_order (l1 ++ l2) → Forall (λ y, by_order y x) l1 → Forall (λ y, by_order x y) l2 → StronglySorted by_order (l1 ++ [x] ++ l2).
Proof.
  induction l1 as [|y l1 IH]; intros Hs H1 H2; cbn [app] in *; [by constructor|]. inversion Hs; inversion H1; subst. constructor; [by apply IH|]. apply Forall_app. match goal with H : Forall _ (l1 ++ l2) |- _ => apply Forall_app in H as [? ?] end. split; [done|]. by constructor.
Qed.
Lemma sorted_lookup l i x : StronglySorted by_order l → l !! i = Some x → Forall (λ y, by_order y x) (take (S i) l) ∧ Forall (λ y, by_order x y) (drop (S i) l).
Proof.
  intros Hs. revert i. induction Hs as [|y l Hs IH Hy]; intros [|i] Hi; [done|done|..].
  - injection Hi as ->. cbn [take drop]. split; [constructor; [unfold by_order; lia|constructor]|done].
  - cbn [lookup list_lookup] in Hi. destruct (IH i Hi) as [H1 H2]. split; [|done]. change (take (S (S i)) (y :: l)) with (y :: take (S i) l). constructor; [|done]. rewrite Forall_forall in Hy. apply Hy. by eapply elem_of_list_lookup_2.
Qed.

(** ** The rules *)
Definition keeps (r : vrow) (e : entry) : Prop := en_default e = false ∨ ¬ overrides r e.
Definition inv (rows : list vrow) (entries : list entry) : Prop :=
  ∃ kept defined, StronglySorted by_order entries ∧ entries ≡ₚ kept ++ defined ∧ NoDup kept ∧
    (∀ d, d ∈ kept ↔ d ∈ default_rules ∧ ∀ r, r ∈ rows → ¬ overrides r d) ∧ Forall2 defines (filter (λ r, vw_visibility r ≠ None) rows) defined.
Lemma default_true d : d ∈ default_rules → en_default d = true.
Proof. intros H. repeat (apply elem_of_cons in H as [-> |H]; [done|]). by apply elem_of_nil in H. Qed.
Lemma defined_false rows defined : Forall2 defines rows defined → Forall (λ e, en_default e = false) defined.
Proof. induction 1 as [|r e rows' es [H _] _ IH]; constructor; done. Qed.
Lemma inv_filter rows r entries (P : entry → Prop) `{∀ x, Decision (P x)} kept defined : (∀ e, P e ↔ keeps r e) →
  StronglySorted by_order entries → entries ≡ₚ kept ++ defined → NoDup kept → (∀ d, d ∈ kept ↔ d ∈ default_rules ∧ ∀ r, r ∈ rows → ¬ overrides r d) →
  Forall (λ e, en_default e = false) defined →
  StronglySorted by_order (filter P entries) ∧ filter P entries ≡ₚ filter P kept ++ defined ∧ NoDup (filter P kept) ∧
  (∀ d, d ∈ filter P kept ↔ d ∈ default_rules ∧ ∀ r', r' ∈ rows ++ [r] → ¬ overrides r' d).
Proof.
  intros HP Hs Hp Hn Hk Hd. split_and!.
  - by apply sorted_filter.
  - rewrite Hp, filter_app. f_equiv. assert (filter P defined = defined) as ->; [|done]. clear -HP Hd. induction Hd as [|e l He Hl IH]; [done|]. rewrite filter_cons_True by (apply HP; by left). by rewrite IH.
  - by apply NoDup_filter.
  - intros d. rewrite elem_of_list_filter, Hk, HP. unfold keeps. split.
    + intros [[H1|H1] [H2 H3]]; [rewrite default_true in H1 by done; done|]. split; [done|]. intros r' [Hr| ->%elem_of_list_singleton]%elem_of_app; [by apply H3|done].
    + intros [H1 H2]. split; [right; apply H2; set_solver|]. split; [done|]. intros r' Hr. apply H2. set_solver.
Qed.
Lemma step_inv search rows r entries : good_search search → inv rows entries → ∃ entries', rule_step search entries r = Some entries' ∧ inv (rows ++ [r]) entries'.
Proof.
  intros HS (kept & defined & Hs & Hp & Hn & Hk & Hd). pose proof (defined_false _ _ Hd) as Hf. unfold rule_step. destruct (vw_visibility r) as [v|] eqn:Ev.
  - cbv zeta. set (P := λ e, en_default e = false ∨ vr_layer (en_rule e) = None ∨ _). cbn [vr_layer] in P.
    destruct (inv_filter rows r entries P kept defined) as (F1 & F2 & F3 & F4); try done.
    { intros e. unfold P, keeps, overrides. rewrite Ev. destruct (vr_layer (en_rule e)) as [l|], (vw_layer r) as [l'|]; naive_solver. }
    set (es := filter P entries) in *. set (x := Entry (vw_order r) false _).
    assert (∃ i, match search (en_order <$> es) (vw_order r) with inl i => S i | inr i => i end = i ∧ i ≤ length es ∧ Forall (λ y, by_order y x) (take i es) ∧ Forall (λ y, by_order x y) (drop i es)) as (i & -> & Hi & H1 & H2).
    { specialize (HS (en_order <$> es) (vw_order r) (sorted_orders _ F1)). destruct (search (en_order <$> es) (vw_order r)) as [i|i].
      - exists (S i). rewrite list_lookup_fmap in HS. destruct (es !! i) as [y|] eqn:Ey; [|done]. injection HS as HS. split_and!; [done|by apply lookup_lt_Some in Ey| |]; destruct (sorted_lookup es i y F1 Ey) as [G1 G2]; (eapply Forall_impl; [eassumption|]); intros z; unfold by_order; cbn [en_order x]; lia.
      - exists i. destruct HS as (L1 & L2 & L3). rewrite fmap_length in L1. rewrite <- fmap_take, Forall_fmap in L2. rewrite <- fmap_drop, Forall_fmap in L3. split_and!; [done|done| |]; (eapply Forall_impl; [eassumption|]); intros z; unfold by_order, compose; cbn [en_order x]; lia. }
    unfold vec_insert. rewrite decide_True by done. eexists. split; [done|]. exists (filter P kept), (defined ++ [x]). split_and!; [|..|done|].
    + apply sorted_insert; [by rewrite take_drop|done|done].
    + transitivity (x :: es).
      { rewrite <- (take_drop i es) at 3. cbn [app]. symmetry. apply Permutation_middle. }
      rewrite F2, app_assoc. by rewrite <- Permutation_cons_append.
    + done.
    + rewrite filter_app. apply Forall2_app; [done|]. rewrite filter_cons_True by (by rewrite Ev). constructor; [|constructor]. unfold defines, x. cbn [en_default en_order en_rule vr_element vr_layer vr_type vr_name vr_visibility vr_mappings]. split_and!; [done..|]. apply collect_spec.
  - eexists. split; [done|]. match goal with |- inv _ (filter ?Q _) => set (P := Q) end.
    destruct (inv_filter rows r entries P kept defined) as (F1 & F2 & F3 & F4); try done.
    { intros e. unfold P, keeps, overrides. rewrite Ev. split.
      - intros [H|H]; [by left|right; naive_solver].
      - intros [H|H]; [by left|]. right. destruct (decide (vr_name (en_rule e) = vw_name r)); [|by left]. right. destruct (decide (vr_element (en_rule e) = vw_element r)); [|by left]. right. destruct (decide (vr_layer (en_rule e) = vw_layer r)); [|by left]. right. intros H'. by apply H. }
    exists (filter P kept), defined. split_and!; try done. rewrite filter_app, filter_cons_False by (rewrite Ev; naive_solver). cbn [app]. by rewrite app_nil_r.
Qed.
Lemma rules_inv search rows : good_search search → ∃ entries, rules_of search rows = Some entries ∧ inv rows entries.
Proof.
  intros HS. unfold rules_of. induction rows as [|r rows IH] using rev_ind.
  - exists default_rules. split; [done|]. exists default_rules, []. rewrite app_nil_r. split_and!; [|done| | |constructor].
    + unfold default_rules. repeat (constructor; [|repeat (apply List.Forall_cons; [unfold by_order; cbn [en_order]; lia|]); apply List.Forall_nil]). constructor.
    + apply (NoDup_fmap_1 en_order). apply (bool_decide_unpack _). vm_compute. exact I.
    + intros d. split; [intros H; split; [done|]; intros r Hr; by apply elem_of_nil in Hr|by intros [H _]].
  - destruct IH as (es & E & Hi). rewrite fold_left_app. cbn [fold_left]. rewrite E. by apply step_inv.
Qed.
Lemma rules_resolved search rows : good_search search → ∃ entries, rules_of search rows = Some entries ∧ resolved rows (map en_rule entries).
Proof.
  intros HS. destruct (rules_inv search rows HS) as (es & E & kept & defined & H1 & H2 & H3 & H4 & H5). exists es. split; [done|]. exists kept, defined, es. split_and!; try done. by apply sorted_orders.
Qed.
(** ** The rows *)
Lemma parse_order z : (- 2 ^ 63 <= z < 2 ^ 63)%Z → parse_i64 (str (pretty z)) = Some z.
Proof.
  intros Hz. destruct z as [|p|p].
  - vm_compute. reflexivity.
  - change (pretty (Z.pos p)) with (pretty (N.pos p)). destruct (pretty_head (N.pos p)) as (b & l & E & Hb). pose proof (parse_number 9223372036854775807 (N.pos p) ltac:(lia)) as HN. unfold parse_i64. rewrite E in HN |- *. rewrite bool_decide_false by lia. by rewrite HN.
  - change (pretty (Z.neg p)) with (String.String "-"%char (pretty (N.pos p))). rewrite str_char. destruct (pretty_head (N.pos p)) as (b & l & E & Hb). pose proof (parse_number 9223372036854775808 (N.pos p) ltac:(lia)) as HN. unfold parse_i64. rewrite bool_decide_true by done.
    unfold parse_num in HN. rewrite E in HN |- *. rewrite bool_decide_false in HN by lia. by rewrite HN.
Qed.
Lemma mappings_written l : Forall (λ p, trimmed p.1 ∧ trimmed p.2 ∧ 58%N ∉ p.1 ∧ 59%N ∉ p.1 ∧ 59%N ∉ p.2) l → parse_mappings (write_mappings l) = l.
Proof.
  intros H. unfold parse_mappings, write_mappings. destruct l as [|p l]; [done|]. rewrite split_join; [|done|].
  - induction H as [|[k v] l' (H1 & H2 & H3 & H4 & H5) Hl IH]; [done|]. cbn [fmap list_fmap omap list_omap fst snd] in *. rewrite split_first_app by done. rewrite !trim_trimmed by done. f_equal. exact IH.
  - apply Forall_fmap. eapply Forall_impl; [exact H|]. intros [k v] (H1 & H2 & H3 & H4 & H5). unfold compose. cbn [fst snd] in *. intros [Hx|[Hx|Hx]%elem_of_cons]%elem_of_app; done.
Qed.
Lemma mappings_padded raw l : Forall2 (λ r p, trim_of r.1 p.1 ∧ trim_of r.2 p.2 ∧ 58%N ∉ r.1 ∧ 59%N ∉ r.1 ∧ 59%N ∉ r.2) raw l → parse_mappings (write_mappings raw) = l.
Proof.
  intros H. unfold parse_mappings, write_mappings. destruct raw as [|p raw]; [by inversion H|]. rewrite split_join; [|done|].
  - revert H. generalize (p :: raw). intros raw' H. induction H as [|[k v] [k' v'] l1 l2 (H1 & H2 & H3 & H4 & H5) Hl IH]; [done|]. cbn [fmap list_fmap omap list_omap fst snd] in *. rewrite split_first_app by done. apply trim_iff in H1, H2. rewrite H1, H2. f_equal. exact IH.
  - apply Forall_fmap. clear -H. revert H. generalize (p :: raw). intros raw' H. induction H as [|[k v] y l1 l2 (H1 & H2 & H3 & H4 & H5) Hl IH]; constructor; [|done]. unfold compose. cbn [fst snd] in *. intros [Hx|[Hx|Hx]%elem_of_cons]%elem_of_app; done.
Qed.
Lemma visibility_written v : (if decide (visibility_name v = str "removed") then None
     else Some (if decide (visibility_name v = str "visible") then Visible else if decide (visibility_name v = str "permanent") then Permanent
                else if decide (visibility_name v = str "preloaded") then Preloaded else Hidden)) = v.
Proof. destruct v as [[]|]; vm_compute; reflexivity. Qed.
Lemma vrow_written v33 wv r : (v33 = true → wv = true) → writable_vrow wv r → parse_vrow v33 (write_field <$> vrow_fields wv r) = Some r.
Proof.
  intros Hv (Hn & Hz & Hh & Hm). unfold parse_vrow. rewrite fmap_length. assert (v33 || Nat.eqb (length (vrow_fields wv r)) 9 = wv) as -> by (destruct wv, v33; done || by (specialize (Hv eq_refl))).
  rewrite (field_written _ 2 (vw_layer r) Hn) by (by destruct wv). cbn [mbind option_bind]. rewrite (field_written _ 3 _ Hn eq_refl). cbn [mbind option_bind].
  rewrite (not_null_written _ 4 _ Hn eq_refl). cbn [mbind option_bind]. rewrite (not_null_written _ 5 _ Hn eq_refl). cbn [mbind option_bind].
  assert ((if wv then get_field_not_null (write_field <$> vrow_fields wv r) 6 else Some (str "hidden")) = Some (visibility_name (vw_visibility r))) as ->.
  { destruct wv; [by rewrite (not_null_written _ 6 _ Hn eq_refl)|]. by rewrite Hh. }
  cbn [mbind option_bind]. rewrite (field_written _ (if wv then 7 else 6) (Some (str (pretty (vw_order r)))) Hn) by (destruct wv; reflexivity). cbn [mbind option_bind].
  rewrite (field_written _ (if wv then 8 else 7) (Some (write_mappings (vw_mappings r))) Hn) by (by destruct wv). rewrite visibility_written, parse_order, mappings_written by done. cbn [default from_option].
  destruct r as [layer el ty name vis order maps]. cbn [vw_layer vw_element vw_type vw_name vw_visibility vw_order vw_mappings]. by destruct el as [[]|].
Qed.
Lemma rules_loaded search v33 wv rows : good_search search → (v33 = true → wv = true) → Forall (writable_vrow wv) rows →
  ∃ rules, load_rules search v33 (Some (write_table (vrow_fields wv <$> rows))) = Some rules ∧ resolved rows rules.
Proof.
  intros HS Hv H. unfold load_rules. rewrite (table_written (parse_vrow v33) (vrow_fields wv) id _ (if wv then 9 else 8)); [|destruct wv; lia|by destruct wv|].
  - rewrite list_fmap_id. destruct (rules_resolved search rows HS) as (es & -> & Hr). by eexists.
  - intros x Hx. rewrite List.Forall_forall in H. apply vrow_written; [done|]. by apply H, elem_of_list_In.
Qed.
Lemma examples_loaded k rows : Forall (λ r, no_null r ∧ length r = S (S k)) rows →
  load_examples (Some (write_table rows)) = Some (omap (λ r, match r with Some q :: Some d :: _ => Some (q, d) | _ => None end) rows).
Proof.
  intros H. unfold load_examples. rewrite <- (list_fmap_id rows) at 1. rewrite (table_written parse_qrow id (λ r, (r !!! 0, r !!! 1)) rows (S (S k))); [|lia| |].
  - f_equal. induction H as [|r rows [_ Hl] H IH]; [done|]. destruct r as [|a [|b r]]; [done..|]. cbn [fmap list_fmap omap list_omap]. change ((a :: b :: r) !!! 0) with a. change ((a :: b :: r) !!! 1) with b. destruct a, b; [by f_equal|exact IH..].
  - intros x Hx. rewrite List.Forall_forall in H. by apply H, elem_of_list_In.
  - intros x Hx. rewrite List.Forall_forall in H. destruct (H x) as [Hn Hl]; [by apply elem_of_list_In|]. destruct x as [|a [|b x]]; [done..|]. unfold parse_qrow. change (id (a :: b :: x)) with (a :: b :: x). rewrite (field_written _ 0 a Hn eq_refl). cbn [mbind option_bind]. by rewrite (field_written _ 1 b Hn eq_refl).
Qed.
