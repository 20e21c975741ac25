(** C26: components, their directories and their textual form. *)
From Coq Require Import NArith String.
From stdpp Require Import base list.
From Verif Require Import KeySer CompPath CompPathSpec CompPathProofs.

(** C26: the textual form can be parsed exactly if the layer has no slash. Missing for the full property: layers with a
    slash, see [C26_textual_form_refuted]. *)
Theorem C26_textual_form_partial : ∀ c, comp_parse (comp_show c) = Some c ↔ slash ∉ c_layer c.
Proof. exact parse_show_iff. Qed.
Print Assumptions C26_textual_form_partial.

(** C26: parsing accepts nothing but textual forms, and each has one component. *)
Theorem C26_parse_is_textual_form : ∀ s c, comp_parse s = Some c → comp_show c = s.
Proof. intros s c H. exact (proj1 (parse_show s c H)). Qed.
Print Assumptions C26_parse_is_textual_form.

(** C26: different components have different directories if layers and names can be used as file names. *)
Theorem C26_directories_differ_partial : ∀ c c', plain c → plain c' → comp_dir c = comp_dir c' → c = c'.
Proof. exact comp_dir_inj. Qed.
Print Assumptions C26_directories_differ_partial.

(** C26: and the directory is below the directory "gs" of the corpus. *)
Theorem C26_directory_below_corpus_partial :
  ∀ c, plain c → (comp_dir c).1 = false ∧ ∃ r, (comp_dir c).2 = str "gs" :: r.
Proof. exact comp_dir_below. Qed.
Print Assumptions C26_directory_below_corpus_partial.

(** C26: after storing components, exactly these are found again. *)
Theorem C26_stored_components_found_partial :
  ∀ cs c, Forall plain cs → c ∈ find_components (map (λ c, (comp_dir c).2) cs) ↔ c ∈ cs.
Proof. exact find_spec. Qed.
Print Assumptions C26_stored_components_found_partial.

Local Open Scope string_scope.
(** C26: two components in one directory. *)
Theorem C26_directories_differ_refuted :
  (∃ c c', c ≠ c' ∧ c_layer c = [] ∧ comp_dir c = comp_dir c') ∧
  (∃ c c', c ≠ c' ∧ comp_dir c = comp_dir c' ∧ c_layer c ≠ default_layer ∧ c_layer c' ≠ default_layer).
Proof.
  split.
  - exists (Component Dominance [] (str "edge")), (Component Dominance default_layer (str "edge")).
    split; [discriminate|]. split; vm_compute; reflexivity.
  - exists (Component Pointing (str "a/b") (str "c")), (Component Pointing (str "a") (str "b/c")).
    split; [discriminate|]. split; [vm_compute; reflexivity|]. split; discriminate.
Qed.
Print Assumptions C26_directories_differ_refuted.

(** C26: a component outside of the corpus directory. *)
Theorem C26_directory_below_corpus_refuted :
  (∃ c, (comp_dir c).1 = true) ∧ (∃ c, comp_dir c = (false, [str ".."; str "x"])).
Proof.
  split; [exists (Component Pointing (str "/tmp") (str "x")); vm_compute; reflexivity|].
  exists (Component Pointing (str "../../../") (str "x")). vm_compute; reflexivity.
Qed.
Print Assumptions C26_directory_below_corpus_refuted.

(** C26: a component with a slash in its name is not found again after it was stored. *)
Theorem C26_stored_components_found_refuted : ∃ c, c_layer c = str "l" ∧ find_components [(comp_dir c).2] = [].
Proof. exists (Component Pointing (str "l") (str "dep/rel")). split; vm_compute; reflexivity. Qed.
Print Assumptions C26_stored_components_found_refuted.

(** C26: the textual form of different components can be the same. *)
Theorem C26_textual_form_refuted : ∃ c c', c ≠ c' ∧ comp_show c = comp_show c' ∧ comp_parse (comp_show c) = Some c'.
Proof.
  exists (Component Pointing (str "a/b") (str "c")), (Component Pointing (str "a") (str "b/c")).
  split; [discriminate|]. split; vm_compute; reflexivity.
Qed.
Print Assumptions C26_textual_form_refuted.

Definition ex_comps : list component :=
  [Component Ordering (str "annis") []; Component Dominance (str "syntax") (str "edge"); Component Dominance (str "syntax") [];
   Component Pointing [] (str "dep")].
Example ex_plain : Forall plain ex_comps.
Proof. apply (bool_decide_eq_true _). vm_compute. reflexivity. Qed.
Example ex_found : find_components (map (λ c, (comp_dir c).2) ex_comps) ≠ [].
Proof. vm_compute. discriminate. Qed.
Example ex_slash_in_name : comp_parse (str "Pointing//a/b") = Some (Component Pointing [] (str "a/b")).
Proof. vm_compute. reflexivity. Qed.
