(** Proofs about the configuration files: settings, visualizers and example queries. *)
From Coq Require Import NArith ZArith String Sorting.Sorted Lia.
From stdpp Require Import base list gmap pretty.
From Verif Require Import KeySer KeySerSpec Types CompPath Service RelAnnis RelAnnisSpec RelAnnisFilesSpec RelAnnisFiles RelAnnisConfig RelAnnisConfigSpec RelAnnisConfigText.

(** ** Settings *)
Lemma setting_fold_inv {A C} (I : C → Prop) (P : bytes → A → Prop) (f : C → bytes → C) (proj : C → A) ls c0 :
  I c0 → (∀ c l, l ∈ ls → I c → I (f c l)) →
  (∀ c l, l ∈ ls → I c → P l (proj (f c l)) ∨ ((∀ a, ¬ P l a) ∧ proj (f c l) = proj c)) → I (fold_left f ls c0) ∧ setting P ls (proj c0) (proj (fold_left f ls c0)).
Proof.
  intros H0 HI H. induction ls as [|l ls IH] using rev_ind.
  - split; [done|]. right. split; [|done]. intros l a Hl. by apply elem_of_nil in Hl.
  - destruct IH as [IH1 IH]; [intros c l' Hl; apply HI; set_solver|intros c l' Hl; apply H; set_solver|]. rewrite fold_left_app. cbn [fold_left].
    split; [apply HI; [set_solver|done]|]. destruct (H (fold_left f ls c0) l) as [Hp|[Hn E]]; [set_solver|done| |].
    + left. exists ls, l, []. split_and!; [done|done|]. intros l' a' Hl. by apply elem_of_nil in Hl.
    + rewrite E. destruct IH as [(l1 & x & l2 & -> & Hx & H2)|[Hno ->]].
      * left. exists l1, x, (l2 ++ [l]). split_and!; [by rewrite <- app_assoc|done|]. intros l' a' [Hl| ->%elem_of_list_singleton]%elem_of_app; [by apply H2|by apply Hn].
      * right. split; [|done]. intros l' a' [Hl| ->%elem_of_list_singleton]%elem_of_app; [by apply Hno|by apply Hn].
Qed.
Lemma setting_fold {A C} (P : bytes → A → Prop) (f : C → bytes → C) (proj : C → A) ls c0 :
  (∀ c l, P l (proj (f c l)) ∨ ((∀ a, ¬ P l a) ∧ proj (f c l) = proj c)) → setting P ls (proj c0) (proj (fold_left f ls c0)).
Proof. intros H. apply (setting_fold_inv (λ _, True)); naive_solver. Qed.
Lemma key_ne (a b : string) : bool_decide (str a = str b) = false → str a ≠ str b.
Proof. by intros H%bool_decide_eq_false. Qed.
(** the projections of one step *)
Ltac keys := repeat match goal with
  | H : str ?a = str ?b |- _ => exfalso; revert H; apply key_ne; vm_compute; reflexivity
  | H : str ?a = str ?b ∧ _ |- _ => exfalso; destruct H as [H _]; revert H; apply key_ne; vm_compute; reflexivity
  end.
Ltac step_cases := unfold property_step; destruct (split_first _ _) as [[k v]|]; [|done]; repeat case_decide; subst; try done; repeat match goal with |- context [match parse_num ?a ?b with _ => _ end] => destruct (parse_num a b) end; try done.
Section proj.
  Context (c : config) (l : bytes).
  Lemma step_max : cf_max (property_step c l) = match split_first 61%N l with Some (k, v) => if decide (k = str "max-context") then match parse_num usize_limit v with Some n => Some n | None => cf_max c end else cf_max c | None => cf_max c end.
  Proof. destruct c. step_cases. Qed.
  Lemma step_default : cf_default (property_step c l) = match split_first 61%N l with Some (k, v) => if decide (k = str "default-context") then match parse_num usize_limit v with Some n => n | None => cf_default c end else cf_default c | None => cf_default c end.
  Proof. destruct c. step_cases; keys. Qed.
  Lemma step_page : cf_page_size (property_step c l) = match split_first 61%N l with Some (k, v) => if decide (k = str "results-per-page") then match parse_num usize_limit v with Some n => n | None => cf_page_size c end else cf_page_size c | None => cf_page_size c end.
  Proof. destruct c. step_cases; keys. Qed.
  Lemma step_segmentation : cf_segmentation (property_step c l) = match split_first 61%N l with Some (k, v) => if decide (k = str "default-context-segmentation" ∧ v ≠ []) then Some v else cf_segmentation c | None => cf_segmentation c end.
  Proof. destruct c. step_cases; destruct_and?; subst; keys. Qed.
  Lemma step_base : cf_base_text (property_step c l) = match split_first 61%N l with Some (k, v) => if decide (k = str "default-base-text-segmentation" ∧ v ≠ []) then Some v else cf_base_text c | None => cf_base_text c end.
  Proof. destruct c. step_cases; destruct_and?; subst; keys. Qed.
  Lemma step_hidden : cf_hidden (property_step c l) = match split_first 61%N l with Some (k, v) => if decide (k = str "hidden_annos" ∧ v ≠ []) then trim <$> split_comma v else cf_hidden c | None => cf_hidden c end.
  Proof. destruct c. step_cases; destruct_and?; subst; keys. Qed.
  Lemma step_timeline : cf_timeline (property_step c l) = match split_first 61%N l with Some (k, v) =>
      if decide (k = str "virtual_tokenization_from_namespace" ∧ lower v = str "true") then FromNamespace
      else if decide (k = str "virtual_tokenization_mapping" ∧ v ≠ []) then FromMapping (collect_map (omap (split_first 61%N) (split_comma v))) else cf_timeline c | None => cf_timeline c end.
  Proof. destruct c. step_cases; destruct_and?; subst; keys. Qed.
  Lemma step_sizes : cf_sizes (property_step c l) = cf_sizes c.
  Proof. destruct c. step_cases. Qed.
End proj.
Lemma number_line_split key l n : bool_decide (61%N ∉ str key) = true → number_line key l n ↔ ∃ v, split_first 61%N l = Some (str key, v) ∧ parse_num usize_limit v = Some n.
Proof. intros H. unfold number_line. split; intros (v & H1 & H2); exists v; split; [by apply line_of_split|by apply parse_num_spec|by apply line_of_split|by apply parse_num_spec]. Qed.
Lemma text_line_split key l t : bool_decide (61%N ∉ str key) = true → text_line key l t ↔ split_first 61%N l = Some (str key, t) ∧ t ≠ [].
Proof. intros H. unfold text_line. by rewrite line_of_split. Qed.
Lemma trim_all items names : Forall2 trim_of items names → names = trim <$> items.
Proof. induction 1 as [|x y xs ys Hx Ht IH]; [done|]. cbn [fmap list_fmap]. apply trim_iff in Hx. by rewrite Hx, <- IH. Qed.
Lemma hidden_split l names : hidden_line l names ↔ ∃ v, split_first 61%N l = Some (str "hidden_annos", v) ∧ v ≠ [] ∧ names = trim <$> split_comma v.
Proof.
  unfold hidden_line, split_comma. split.
  - intros (items & -> & Hne & Hi & Hc & Ht). exists (join 44 items). split_and!; [by apply line_of_split|done|]. rewrite split_join by done. by apply trim_all.
  - intros (v & Hv%line_of_split & Hne & ->); [|done]. destruct (join_split 44 v) as (H1 & H2 & H3). exists (split_on (sepb 44%N) [] v). rewrite H1. split_and!; [done..|].
    apply Forall2_fmap_r. apply Forall_Forall2_diag. apply Forall_true. intros x. apply trim_spec.
Qed.
Definition item_of (x : bytes) : bytes + bytes * bytes := match split_first 61%N x with Some p => inr p | None => inl x end.
Lemma item_of_text x : item_text (item_of x) = x.
Proof. unfold item_of. destruct (split_first_cases 61 x) as [(k & v & -> & -> & _)|[-> _]]; done. Qed.
Lemma mapping_split l m : mapping_line l m ↔ ∃ v, split_first 61%N l = Some (str "virtual_tokenization_mapping", v) ∧ v ≠ [] ∧ m = collect_map (omap (split_first 61%N) (split_comma v)).
Proof.
  unfold mapping_line, split_comma. split.
  - intros (items & H). cbv zeta in H. destruct H as (-> & Hne & Hi & Hc & Hm). exists (join 44 (item_text <$> items)). split_and!; [by apply line_of_split|done|].
    rewrite split_join; [|by destruct items|].
    2:{ apply Forall_fmap. eapply Forall_impl; [exact Hc|]. intros [x|[k v]]; [naive_solver|]. intros (H1 & H2 & H3) [H|[H|H]%elem_of_cons]%elem_of_app; done. }
    apply (map_of_unique _ _ _ Hm). assert (omap (split_first 61%N) (item_text <$> items) = omap (λ i : bytes + bytes * bytes, match i with inl _ => None | inr p => Some p end) items) as ->; [|apply collect_spec].
    clear Hne Hi Hm. induction Hc as [|i items Hc1 Hc IH]; [done|]. cbn [fmap list_fmap omap list_omap]. destruct i as [x|[k v]]; cbn [item_text].
    + destruct (split_first_cases 61 x) as [(k & v & _ & -> & _)|[-> _]]; [exfalso; destruct Hc1 as [_ Hc1]; apply Hc1; set_solver|]. exact IH.
    + rewrite split_first_app by naive_solver. by f_equal.
  - intros (v & Hv%line_of_split & Hne & ->); [|done]. destruct (join_split 44 v) as (H1 & H2 & H3). exists (item_of <$> split_on (sepb 44%N) [] v). cbv zeta. rewrite <- list_fmap_compose.
    assert ((item_text ∘ item_of) <$> split_on (sepb 44%N) [] v = split_on (sepb 44%N) [] v) as E. { rewrite <- (list_fmap_id (split_on _ _ _)) at 2. apply list_fmap_ext. intros i x _. apply item_of_text. }
    rewrite E, H1. split_and!; [done|done|by destruct (split_on _ _ _)| |].
    + apply Forall_fmap. eapply Forall_impl; [exact H2|]. intros x Hx. unfold compose, item_of. destruct (split_first_cases 61 x) as [(k & w & -> & -> & Hk)|[-> Hk]]; [|done]. split_and!; [set_solver|done|set_solver].
    + assert (omap (λ i : bytes + bytes * bytes, match i with inl _ => None | inr p => Some p end) (item_of <$> split_on (sepb 44%N) [] v) = omap (split_first 61%N) (split_on (sepb 44%N) [] v)) as ->; [|apply collect_spec].
      clear. induction (split_on (sepb 44%N) [] v) as [|x l IH]; [done|]. cbn [fmap list_fmap omap list_omap]. unfold item_of at 1. destruct (split_first 61 x); [by f_equal|exact IH].
Qed.
Lemma lower_same v t : Forall (λ b, ¬ (65 <= b <= 90)%N) t → lower v = t ↔ same_letters v t.
Proof.
  intros Ht. unfold same_letters, lower. revert v. induction Ht as [|b t Hb Ht IH]; intros [|a v]; cbn [fmap list_fmap].
  - split; [constructor|done].
  - split; [done|inversion 1].
  - split; [done|inversion 1].
  - specialize (IH v). split.
    + intros [= E1 E2]. constructor; [|by apply IH]. destruct (N.leb_spec 65 a), (N.leb_spec a 90); cbn [andb] in E1; first [by left|right; lia].
    + inversion 1 as [|? ? ? ? E1 E2]; subst. f_equal; [|by apply IH]. destruct (N.leb_spec 65 a), (N.leb_spec a 90); cbn [andb]; lia.
Qed.
Lemma true_letters : Forall (λ b, ¬ (65 <= b <= 90)%N) (str "true").
Proof. change (str "true") with [116; 114; 117; 101]%N. repeat (apply List.Forall_cons; [lia|]). apply List.Forall_nil. Qed.

Ltac other := right; split; [intros ? ?|]; [|try done].
Lemma number_setting (key : string) (proj : config → N) ls c0 : bool_decide (61%N ∉ str key) = true →
  (∀ c l, proj (property_step c l) = match split_first 61%N l with Some (k, v) => if decide (k = str key) then match parse_num usize_limit v with Some n => n | None => proj c end else proj c | None => proj c end) →
  setting (number_line key) ls (proj c0) (proj (fold_left property_step ls c0)).
Proof.
  intros Hk H. apply setting_fold. intros c l. rewrite H, number_line_split by done. destruct (split_first 61%N l) as [[k v]|] eqn:E.
  - destruct (decide (k = str key)) as [Hd|Hd]; [subst k; destruct (parse_num usize_limit v) as [n|] eqn:En; [left; by exists v|]|]; right; (split; [|done]); intros a (v' & H1 & H2)%number_line_split; try done; congruence.
  - right. split; [|done]. intros a (v' & H1 & H2)%number_line_split; [|done]. congruence.
Qed.
Lemma text_setting (key : string) (proj : config → option bytes) ls c0 : bool_decide (61%N ∉ str key) = true →
  (∀ c l, proj (property_step c l) = match split_first 61%N l with Some (k, v) => if decide (k = str key ∧ v ≠ []) then Some v else proj c | None => proj c end) →
  setting (opt (text_line key)) ls (proj c0) (proj (fold_left property_step ls c0)).
Proof.
  intros Hk H. apply setting_fold. intros c l. rewrite H. destruct (split_first 61%N l) as [[k v]|] eqn:E.
  - destruct (decide (k = str key ∧ v ≠ [])) as [Hd|Hd]; [destruct Hd as [-> Hv]; left; exists v; split; [done|]; by apply text_line_split|]. right. split; [|done]. intros a (t & -> & [H1 H2]%text_line_split); [|done]. rewrite E in H1. injection H1 as -> ->. by apply Hd.
  - right. split; [|done]. intros a (t & -> & [H1 H2]%text_line_split); [congruence|done].
Qed.
Lemma max_setting ls c0 : setting (opt (number_line "max-context")) ls (cf_max c0) (cf_max (fold_left property_step ls c0)).
Proof.
  apply setting_fold. intros c l. rewrite step_max. destruct (split_first 61%N l) as [[k v]|] eqn:E.
  - case_decide as Hd; [subst k; destruct (parse_num usize_limit v) as [n|] eqn:En; [left; exists n; split; [done|]; apply number_line_split; [done|]; by exists v|]|]; right; (split; [|done]); intros a (n & -> & (v' & H1 & H2)%number_line_split); try done; congruence.
  - right. split; [|done]. intros a (n & -> & (v' & H1 & H2)%number_line_split); [congruence|done].
Qed.
Lemma hidden_setting ls c0 : setting hidden_line ls (cf_hidden c0) (cf_hidden (fold_left property_step ls c0)).
Proof.
  apply setting_fold. intros c l. rewrite step_hidden. destruct (split_first 61%N l) as [[k v]|] eqn:E.
  - case_decide as Hd; [destruct Hd as [-> Hv]; left; apply hidden_split; by exists v|]. right. split; [|done]. intros a (v' & H1 & H2 & _)%hidden_split. rewrite E in H1. injection H1 as -> ->. by apply Hd.
  - right. split; [|done]. intros a (v' & H1 & H2 & _)%hidden_split. congruence.
Qed.
Lemma namespace_line l : (∃ v, l = line_of "virtual_tokenization_from_namespace" v ∧ same_letters v (str "true")) ↔ ∃ v, split_first 61%N l = Some (str "virtual_tokenization_from_namespace", v) ∧ lower v = str "true".
Proof. split; intros (v & H1 & H2); exists v; (split; [by apply line_of_split|]); apply lower_same; done || apply true_letters. Qed.
Lemma timeline_setting ls c0 : setting timeline_line ls (cf_timeline c0) (cf_timeline (fold_left property_step ls c0)).
Proof.
  apply setting_fold. intros c l. rewrite step_timeline. destruct (split_first 61%N l) as [[k v]|] eqn:E.
  - case_decide as Hd; [destruct Hd as [-> Hv]; left; left; split; [done|]; apply namespace_line; by exists v|].
    case_decide as Hd2; [destruct Hd2 as [-> Hv]; left; right; eexists; split; [done|]; apply mapping_split; by exists v|].
    right. split; [|done]. intros a [[-> (v' & H1 & H2)%namespace_line]|(m & -> & (v' & H1 & H2 & _)%mapping_split)]; rewrite E in H1; injection H1 as -> ->; [by apply Hd|by apply Hd2].
  - right. split; [|done]. intros a [[-> (v' & H1 & H2)%namespace_line]|(m & -> & (v' & H1 & H2 & _)%mapping_split)]; congruence.
Qed.
(** ** Context steps *)
Lemma steps_spec v max : v ≠ 0%N → ∃ l, steps v max = Some l ∧ Sorted N.lt l ∧ ∀ n, n ∈ l ↔ (0 < n)%N ∧ (v | n)%N ∧ (n <= max)%N.
Proof.
  intros Hv. unfold steps. rewrite decide_False by done. eexists. split; [done|]. set (cnt := if (max <? v)%N then 0 else _). split.
  - generalize cnt. clear -Hv. intros cnt. assert (∀ k, Sorted N.lt ((λ k, v + N.of_nat k * v)%N <$> seq k cnt)) as H; [|apply H]. induction cnt as [|m IH]; intros k; cbn [seq fmap list_fmap]; [constructor|].
    constructor; [apply IH|]. destruct m; cbn [seq fmap list_fmap]; constructor. nia.
  - intros n. rewrite elem_of_list_fmap. split.
    + intros (k & -> & Hk%elem_of_seq). unfold cnt in Hk. destruct (N.ltb_spec max v) as [H|H]; [lia|]. split_and!; [lia|exists (1 + N.of_nat k)%N; lia|].
      assert (N.of_nat k <= (max - v) / v)%N as Hk' by lia. pose proof (N.mul_div_le (max - v) v Hv). nia.
    + intros (H1 & (q & ->) & H3). exists (N.to_nat (q - 1)). assert (0 < q)%N by nia. split; [nia|]. apply elem_of_seq. unfold cnt. destruct (N.ltb_spec max v) as [H'|H']; [nia|].
      assert (q - 1 <= (max - v) / v)%N; [|lia]. apply N.div_le_lower_bound; [done|]. nia.
Qed.
Definition with_sizes (c : config) (l : list N) : config := Config (cf_max c) (cf_default c) l (cf_segmentation c) (cf_base_text c) (cf_page_size c) (cf_hidden c) (cf_timeline c).
Definition total_step (c : config) (l : bytes) : config := default c (steps_step (Some c) l).
Lemma steps_line c l n : number_line "context-steps" l n → steps_step (Some c) l = match steps n (default n (cf_max c)) with Some s => Some (with_sizes c s) | None => None end.
Proof. intros (v & H1 & H2)%number_line_split; [|done]. unfold steps_step. rewrite H1, decide_True by done. by rewrite H2. Qed.
Lemma steps_other c l : (∀ n, ¬ number_line "context-steps" l n) → steps_step (Some c) l = Some c.
Proof.
  intros H. unfold steps_step. destruct (split_first 61%N l) as [[k v]|] eqn:E; [|done]. case_decide; [|done]. subst k. destruct (parse_num usize_limit v) as [n|] eqn:En; [|done]. exfalso. apply (H n), number_line_split; [done|]. by exists v.
Qed.
Lemma number_line_dec key l : bool_decide (61%N ∉ str key) = true → (∃ n, number_line key l n) ∨ (∀ n, ¬ number_line key l n).
Proof.
  intros H. destruct (split_first 61%N l) as [[k v]|] eqn:E.
  - destruct (decide (k = str key)) as [-> |Hk]; [destruct (parse_num usize_limit v) as [n|] eqn:En; [left; exists n; apply number_line_split; [done|]; by exists v|]|]; right; intros n (v' & H1 & H2)%number_line_split; try done; congruence.
  - right. intros n (v' & H1 & H2)%number_line_split; [congruence|done].
Qed.
Lemma number_line_fun key l n n' : bool_decide (61%N ∉ str key) = true → number_line key l n → number_line key l n' → n = n'.
Proof. intros H (v & H1 & H2)%number_line_split (v' & H1' & H2')%number_line_split; try done. rewrite H1 in H1'. injection H1' as <-. congruence. Qed.
Lemma steps_total ls c : (∀ l, l ∈ ls → ¬ number_line "context-steps" l 0) → fold_left steps_step ls (Some c) = Some (fold_left total_step ls c).
Proof.
  revert c. induction ls as [|l ls IH]; intros c H; [done|]. cbn [fold_left]. assert (∃ c', steps_step (Some c) l = Some c') as [c' E].
  { destruct (number_line_dec "context-steps" l) as [[n Hn]|Hn]; [done| |]. - rewrite (steps_line c l n Hn). destruct (steps_spec n (default n (cf_max c))) as (s & -> & _); [|by eexists]. intros ->. by apply (H l); [left|].
    - rewrite steps_other by done. by eexists. }
  unfold total_step at 2. rewrite E. cbn [default from_option]. apply IH. intros l' Hl. apply H. by right.
Qed.
Lemma steps_panic ls c : (∃ l, l ∈ ls ∧ number_line "context-steps" l 0) → fold_left steps_step ls c = None.
Proof.
  assert (fold_left steps_step ls None = None) as HN. { induction ls; [done|]. cbn [fold_left]. done. }
  revert c. induction ls as [|l ls IH]; intros c (l0 & Hl & H0); [by apply elem_of_nil in Hl|]. cbn [fold_left]. apply elem_of_cons in Hl as [-> |Hl].
  - destruct c as [c|]; [|done]. rewrite (steps_line c l 0 H0). done.
  - apply IH; [done|]. by exists l0.
Qed.
Lemma total_step_fields c l : ∃ s, total_step c l = with_sizes c s.
Proof.
  unfold total_step. destruct (number_line_dec "context-steps" l) as [[n Hn]|Hn]; [done| |].
  - rewrite (steps_line c l n Hn). destruct (steps _ _); [by eexists|]. exists (cf_sizes c). by destruct c.
  - rewrite steps_other by done. exists (cf_sizes c). by destruct c.
Qed.
Lemma total_fields ls c : ∃ s, fold_left total_step ls c = with_sizes c s.
Proof.
  revert c. induction ls as [|l ls IH]; intros c; [exists (cf_sizes c); by destruct c|]. cbn [fold_left]. destruct (IH (total_step c l)) as [s ->]. destruct (total_step_fields c l) as [s' ->]. by exists s.
Qed.
Lemma sizes_setting ls c : (∀ l, l ∈ ls → ¬ number_line "context-steps" l 0) → setting (steps_to (cf_max c)) ls (cf_sizes c) (cf_sizes (fold_left total_step ls c)).
Proof.
  intros H. apply (setting_fold_inv (λ c', cf_max c' = cf_max c)); [done| |].
  - intros c' l _ Hc. destruct (total_step_fields c' l) as [s ->]. exact Hc.
  - intros c' l Hl Hc. destruct (number_line_dec "context-steps" l) as [[n Hn]|Hn]; [done| |].
    + left. assert (n ≠ 0%N) as Hn0 by (intros ->; by apply (H l)). destruct (steps_spec n (default n (cf_max c')) Hn0) as (s & E & Hs & Hm). exists n. unfold total_step. rewrite (steps_line c' l n Hn), E. cbn [default from_option with_sizes cf_sizes]. split_and!; [done|done|]. by rewrite <- Hc.
    + right. unfold total_step. rewrite steps_other by done. split; [|done]. intros a (v & Hv & _). by apply (Hn v).
Qed.
Lemma properties_loaded ls : Forall good_line ls → (∀ l, l ∈ ls → ¬ number_line "context-steps" l 0) → ∃ c, load_properties (Some (write_lines ls)) = Some c ∧ configured ls c.
Proof.
  intros Hg H0. unfold load_properties. rewrite lines_written by done. set (c := fold_left property_step ls config_default). rewrite steps_total by done. eexists. split; [done|].
  assert (cf_sizes c = [0; 1; 2; 5; 10]%N) as Hs. { subst c. change [0; 1; 2; 5; 10]%N with (cf_sizes config_default). generalize config_default. clear. induction ls as [|l ls IH]; intros c; [done|]. cbn [fold_left]. by rewrite IH, step_sizes. }
  pose proof (sizes_setting ls c H0) as HS. rewrite Hs in HS. destruct (total_fields ls c) as [s E]. rewrite E in HS |- *. constructor; cbn [with_sizes cf_max cf_default cf_sizes cf_segmentation cf_base_text cf_page_size cf_hidden cf_timeline] in *.
  - apply (max_setting ls config_default).
  - apply (number_setting "default-context" cf_default ls config_default); [done|apply step_default].
  - apply (number_setting "results-per-page" cf_page_size ls config_default); [done|apply step_page].
  - apply (text_setting "default-context-segmentation" cf_segmentation ls config_default); [done|apply step_segmentation].
  - apply (text_setting "default-base-text-segmentation" cf_base_text ls config_default); [done|apply step_base].
  - apply (hidden_setting ls config_default).
  - apply (timeline_setting ls config_default).
  - exact HS.
Qed.
Lemma properties_panic ls : Forall good_line ls → (∃ l, l ∈ ls ∧ number_line "context-steps" l 0) → load_properties (Some (write_lines ls)) = None.
Proof. intros Hg H. unfold load_properties. rewrite lines_written by done. by apply steps_panic. Qed.
