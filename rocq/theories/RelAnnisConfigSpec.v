(** Specification of the configuration files of a relANNIS corpus: their columns, and what a list of settings or visualizers means. *)
From Coq Require Import NArith ZArith String Sorting.Sorted.
From stdpp Require Import base list gmap pretty.
From Verif Require Import KeySer KeySerSpec Types CompPath RelAnnis RelAnnisSpec RelAnnisFilesSpec RelAnnisConfig.

(** ** Text *)
Definition join (sep : N) (l : list bytes) : bytes := match l with [] => [] | x :: l => x ++ concat ((λ y, sep :: y) <$> l) end.
Definition white (b : N) : Prop := b = 32%N ∨ (9 <= b <= 13)%N.
Definition trimmed (s : bytes) : Prop := ∀ b, (head s = Some b ∨ last s = Some b) → ¬ white b.
(** what remains of [s] without the white space around it *)
Definition trim_of (s t : bytes) : Prop := trimmed t ∧ ∃ a b, s = a ++ t ++ b ∧ Forall white a ∧ Forall white b.
(** the files: every line ends with a line feed *)
Definition write_lines (ls : list bytes) : bytes := concat ((λ l, l ++ [10%N]) <$> ls).
Definition good_line (l : bytes) : Prop := 10%N ∉ l ∧ last l ≠ Some 13%N.
(** decimal numbers of 64 bits, with an optional plus sign *)
Definition digits_value (s : bytes) : N := foldl (λ n b, n * 10 + (b - 48))%N 0%N s.
Definition is_number (s : bytes) (n : N) : Prop :=
  ∃ ds, (s = ds ∨ s = 43%N :: ds) ∧ ds ≠ [] ∧ Forall (λ b, 48 <= b <= 57)%N ds ∧ n = digits_value ds ∧ (n < 2 ^ 64)%N.

(** ** Settings: [setting P ls v]: [v] is the value of the last line that [P] accepts *)
Definition line_of (key : string) (v : bytes) : bytes := str key ++ 61%N :: v.
Definition last_setting {A} (P : bytes → A → Prop) (ls : list bytes) (a : A) : Prop :=
  ∃ l1 l l2, ls = l1 ++ l :: l2 ∧ P l a ∧ ∀ l' a', l' ∈ l2 → ¬ P l' a'.
Definition no_setting {A} (P : bytes → A → Prop) (ls : list bytes) : Prop := ∀ l a, l ∈ ls → ¬ P l a.
(** the value is the last setting, and without one the given one *)
Definition setting {A} (P : bytes → A → Prop) (ls : list bytes) (none v : A) : Prop :=
  last_setting P ls v ∨ (no_setting P ls ∧ v = none).
Definition number_line (key : string) (l : bytes) (n : N) : Prop := ∃ v, l = line_of key v ∧ is_number v n.
Definition text_line (key : string) (l : bytes) (t : bytes) : Prop := l = line_of key t ∧ t ≠ [].
Definition opt {A} (P : bytes → A → Prop) (l : bytes) (a : option A) : Prop := ∃ x, a = Some x ∧ P l x.
(** hidden_annos: a list of names with commas between them *)
Definition hidden_line (l : bytes) (names : list bytes) : Prop :=
  ∃ items, l = line_of "hidden_annos" (join 44 items) ∧ join 44 items ≠ [] ∧ items ≠ [] ∧ Forall (λ x, 44%N ∉ x) items ∧ Forall2 trim_of items names.
Definition same_letters (s t : bytes) : Prop := Forall2 (λ a b, a = b ∨ (65 <= a <= 90)%N ∧ b = (a + 32)%N) s t.
(** the map of a list of pairs: the last pair of a key counts *)
Definition map_of (pairs : list (bytes * bytes)) (m : gmap bytes bytes) : Prop :=
  ∀ k v, m !! k = Some v ↔ ∃ l1 l2, pairs = l1 ++ (k, v) :: l2 ∧ k ∉ l2.*1.
(** virtual_tokenization_mapping: pairs key=value with commas between them; items without an equal sign are ignored *)
Definition item_text (i : bytes + bytes * bytes) : bytes := match i with inl x => x | inr (k, v) => k ++ 61%N :: v end.
Definition mapping_line (l : bytes) (m : gmap bytes bytes) : Prop :=
  ∃ (items : list (bytes + bytes * bytes)), let text := join 44 (item_text <$> items) in
    l = line_of "virtual_tokenization_mapping" text ∧ text ≠ [] ∧ items ≠ [] ∧
    Forall (λ i, match i with inl x => 44%N ∉ x ∧ 61%N ∉ x | inr (k, v) => 44%N ∉ k ∧ 61%N ∉ k ∧ 44%N ∉ v end) items ∧
    map_of (omap (λ i, match i with inl _ => None | inr p => Some p end) items) m.
Definition timeline_line (l : bytes) (t : timeline) : Prop :=
  (t = FromNamespace ∧ ∃ v, l = line_of "virtual_tokenization_from_namespace" v ∧ same_letters v (str "true")) ∨
  (∃ m, t = FromMapping m ∧ mapping_line l m).
(** context-steps: the multiples of the step up to the maximum *)
Definition steps_to (max : option N) (l : bytes) (sizes : list N) : Prop :=
  ∃ v, number_line "context-steps" l v ∧ Sorted N.lt sizes ∧ ∀ n, n ∈ sizes ↔ (0 < n)%N ∧ (v | n)%N ∧ (n <= default v max)%N.
Record configured (ls : list bytes) (c : config) : Prop := {
  co_max : setting (opt (number_line "max-context")) ls None (cf_max c);
  co_default : setting (number_line "default-context") ls 5%N (cf_default c);
  co_page : setting (number_line "results-per-page") ls 10%N (cf_page_size c);
  co_segmentation : setting (opt (text_line "default-context-segmentation")) ls None (cf_segmentation c);
  co_base_text : setting (opt (text_line "default-base-text-segmentation")) ls None (cf_base_text c);
  co_hidden : setting hidden_line ls [] (cf_hidden c);
  co_timeline : setting timeline_line ls Explicit (cf_timeline c);
  co_sizes : setting (steps_to (cf_max c)) ls [0; 1; 2; 5; 10]%N (cf_sizes c) }.

(** ** Visualizers *)
(** slice::binary_search_by_key of the standard library *)
Definition good_search (search : searcher) : Prop :=
  ∀ l x, Sorted Z.le l → match search l x with
    | inl i => l !! i = Some x
    | inr i => i ≤ length l ∧ Forall (λ y, y < x)%Z (take i l) ∧ Forall (λ y, x < y)%Z (drop i l)
    end.
(** the row removes the default visualizer *)
Definition overrides (r : vrow) (d : entry) : Prop :=
  match vw_visibility r with
  | None => vr_name (en_rule d) = vw_name r ∧ vr_type (en_rule d) = vw_type r ∧ vr_element (en_rule d) = vw_element r ∧ vr_layer (en_rule d) = vw_layer r
  | Some _ => ∃ l, vw_layer r = Some l ∧ vr_layer (en_rule d) = Some l
  end.
Definition defines (r : vrow) (e : entry) : Prop :=
  en_default e = false ∧ en_order e = vw_order r ∧ vr_element (en_rule e) = vw_element r ∧ vr_layer (en_rule e) = vw_layer r ∧
  vr_type (en_rule e) = vw_type r ∧ vr_name (en_rule e) = vw_name r ∧ vw_visibility r = Some (vr_visibility (en_rule e)) ∧ map_of (vw_mappings r) (vr_mappings (en_rule e)).
(** the result is sorted by the order of the rows, and has the rows that are no removals and the default visualizers that no row overrides *)
Definition resolved (rows : list vrow) (rules : list vrule) : Prop :=
  ∃ kept defined entries,
    rules = map en_rule entries ∧ Sorted Z.le (en_order <$> entries) ∧ entries ≡ₚ kept ++ defined ∧
    NoDup kept ∧ (∀ d, d ∈ kept ↔ d ∈ default_rules ∧ ∀ r, r ∈ rows → ¬ overrides r d) ∧
    Forall2 defines (filter (λ r, vw_visibility r ≠ None) rows) defined.
(** resolver_vis_map.tab: corpus, version, namespace, element, type, name, (visibility,) order, mappings *)
Definition visibility_name (v : option visibility) : bytes :=
  str match v with None => "removed" | Some Hidden => "hidden" | Some Visible => "visible" | Some Permanent => "permanent" | Some Preloaded => "preloaded" end.
Definition write_mappings (l : list (bytes * bytes)) : bytes := join 59 ((λ p, p.1 ++ 58%N :: p.2) <$> l).
Definition vrow_fields (with_visibility : bool) (r : vrow) : list (option bytes) :=
  [null; null; vw_layer r; match vw_element r with Some ENode => Some (str "node") | Some EEdge => Some (str "edge") | None => null end;
   Some (vw_type r); Some (vw_name r)] ++
  (if with_visibility then [Some (visibility_name (vw_visibility r))] else []) ++
  [Some (str (pretty (vw_order r))); Some (write_mappings (vw_mappings r))].
Definition writable_vrow (with_visibility : bool) (r : vrow) : Prop :=
  no_null (vrow_fields with_visibility r) ∧ (- 2 ^ 63 <= vw_order r < 2 ^ 63)%Z ∧ (with_visibility = false → vw_visibility r = Some Hidden) ∧
  Forall (λ p, trimmed p.1 ∧ trimmed p.2 ∧ 58%N ∉ p.1 ∧ 59%N ∉ p.1 ∧ 59%N ∉ p.2) (vw_mappings r).
