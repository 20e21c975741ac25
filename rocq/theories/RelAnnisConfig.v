(** Model of the corpus configuration that is read with a relANNIS corpus (/repo/graphannis/src/annis/db/relannis.rs l.35-111, l.298-316 and
    l.457-718, types of /repo/graphannis/src/annis/types.rs l.93-244).
    Simplifications: [str::trim] removes ASCII white space only, and [to_lowercase] changes ASCII letters only. The binary search of the
    standard library is a parameter: for equal keys its documentation leaves the position open. *)
From Coq Require Import NArith ZArith String.
From stdpp Require Import base list gmap.
From Verif Require Import KeySer KeySerSpec Types CompPath Service RelAnnis.

(** l.308-316: annis.version *)
Definition is_annis_33 (version : option bytes) : bool := match version with Some v => bool_decide (v = str "3.3") | None => false end.

(** ** Visualizers *)
Inductive element := ENode | EEdge.
Global Instance element_eq_dec : EqDecision element.
Proof. solve_decision. Defined.
Inductive visibility := Hidden | Visible | Permanent | Preloaded.
Record vrule := VRule { vr_element : option element; vr_layer : option bytes; vr_type : bytes; vr_name : bytes; vr_visibility : visibility; vr_mappings : gmap bytes bytes }.
Record entry := Entry { en_order : Z; en_default : bool; en_rule : vrule }.
(** l.37-110 *)
Definition default_rules : list entry :=
  [Entry (-1) true (VRule None None (str "kwic") (str "kwic") Permanent ∅);
   Entry 101 true (VRule (Some ENode) (Some (str "tiger")) (str "tree") (str "tree") Hidden ∅);
   Entry 102 true (VRule (Some ENode) (Some (str "exmaralda")) (str "grid") (str "exmaralda") Hidden ∅);
   Entry 103 true (VRule (Some ENode) (Some (str "mmax")) (str "grid") (str "mmax") Hidden ∅);
   Entry 104 true (VRule (Some EEdge) (Some (str "mmax")) (str "discourse") (str "coref") Hidden ∅);
   Entry 105 true (VRule (Some ENode) (Some (str "urml")) (str "grid") (str "urml") Hidden ∅)].
(** core::num: FromStr for i64 *)
Definition parse_i64 (s : bytes) : option Z :=
  match s with
  | [] => None
  | b :: r => if bool_decide (b = 45%N) then match r with [] => None | _ => (λ n, - Z.of_N n)%Z <$> parse_digits 9223372036854775808 0 r end
              else Z.of_N <$> parse_num 9223372036854775807 s
  end.
(** BTreeMap::from_iter: of several pairs with the same key the last one counts *)
Definition collect_map (l : list (bytes * bytes)) : gmap bytes bytes := list_to_map (reverse l).
(** str::split_once, splitn(2, _) *)
Fixpoint split_first (sep : N) (s : bytes) : option (bytes * bytes) :=
  match s with
  | [] => None
  | b :: s => if decide (b = sep) then Some ([], s) else match split_first sep s with Some (x, y) => Some (b :: x, y) | None => None end
  end.
(** l.514-532: pairs separated by semicolons, with a colon between key and value *)
Definition parse_mappings (s : bytes) : list (bytes * bytes) :=
  omap (λ kv, match split_first 58%N kv with Some (k, v) => Some (trim k, trim v) | None => None end) (split_on (λ b, bool_decide (b = 59%N)) [] s).
(** l.486-513, 548-563: one row. [None] as visibility stands for "removed" *)
Record vrow := VRow { vw_layer : option bytes; vw_element : option element; vw_type : bytes; vw_name : bytes; vw_visibility : option visibility; vw_order : Z; vw_mappings : list (bytes * bytes) }.
Definition parse_vrow (v33 : bool) (r : list bytes) : option vrow :=
  let has_visibility := v33 || Nat.eqb (length r) 9 in
  layer ← get_field r 2; el ← get_field r 3; ty ← get_field_not_null r 4; name ← get_field_not_null r 5;
  vis ← (if has_visibility then get_field_not_null r 6 else Some (str "hidden"));
  order ← get_field r (if has_visibility then 7 else 6);
  Some (VRow layer
    match el with Some e => if decide (e = str "node") then Some ENode else if decide (e = str "edge") then Some EEdge else None | None => None end
    ty name
    (if decide (vis = str "removed") then None
     else Some (if decide (vis = str "visible") then Visible else if decide (vis = str "permanent") then Permanent
                else if decide (vis = str "preloaded") then Preloaded else Hidden))
    match order with Some o => default 0%Z (parse_i64 o) | None => 0%Z end
    match get_field r (if has_visibility then 8 else 7) with Some (Some m) => parse_mappings m | _ => [] end).
(** slice::binary_search_by_key: [inl i] is Ok(i), [inr i] is Err(i) *)
Notation searcher := (list Z → Z → nat + nat)%type.
(** Vec::insert: [None] is a panic *)
Definition vec_insert {A} (i : nat) (x : A) (l : list A) : option (list A) := if decide (i ≤ length l) then Some (take i l ++ [x] ++ drop i l) else None.
(** l.536-573 *)
Definition rule_step (search : searcher) (rules : list entry) (r : vrow) : option (list entry) :=
  match vw_visibility r with
  | None =>
      Some $ filter (λ e, en_default e = false ∨ vr_name (en_rule e) ≠ vw_name r ∨ vr_element (en_rule e) ≠ vw_element r ∨
                   vr_layer (en_rule e) ≠ vw_layer r ∨ vr_type (en_rule e) ≠ vw_type r) rules
  | Some v =>
      let rule := VRule (vw_element r) (vw_layer r) (vw_type r) (vw_name r) v (collect_map (vw_mappings r)) in
      let rules := filter (λ e, en_default e = false ∨ vr_layer (en_rule e) = None ∨ vr_layer (en_rule e) ≠ vr_layer rule) rules in
      vec_insert (match search (en_order <$> rules) (vw_order r) with inl i => S i | inr i => i end) (Entry (vw_order r) false rule) rules
  end.
Definition rules_of (search : searcher) (rows : list vrow) : option (list entry) := fold_left (λ rules r, match rules with Some l => rule_step search l r | None => None end) rows (Some default_rules).
(** l.457-577: without the file there are no visualizers *)
Definition load_rules (search : searcher) (v33 : bool) (file : option bytes) : option (list vrule) :=
  match file with
  | None => Some []
  | Some s => match parse_table (parse_vrow v33) s with
              | Some rows => match rules_of search rows with Some rules => Some (map en_rule rules) | None => None end
              | None => None
              end
  end.
(** l.579-622: query and description *)
Definition parse_qrow (r : list bytes) : option (option bytes * option bytes) := q ← get_field r 0; d ← get_field r 1; Some (q, d).
Definition load_examples (file : option bytes) : option (list (bytes * bytes)) :=
  match file with
  | None => Some []
  | Some s => match parse_table parse_qrow s with
              | Some rows => Some (omap (λ x : option bytes * option bytes, match x with (Some q, Some d) => Some (q, d) | _ => None end) rows)
              | None => None
              end
  end.

(** ** Properties *)
Inductive timeline := Explicit | FromNamespace | FromMapping (m : gmap bytes bytes).
(** types.rs l.109-194 *)
Record config := Config {
  cf_max : option N; cf_default : N; cf_sizes : list N; cf_segmentation : option bytes;
  cf_base_text : option bytes; cf_page_size : N; cf_hidden : list bytes; cf_timeline : timeline }.
Definition config_default : config := Config None 5 [0; 1; 2; 5; 10]%N None None 10 [] Explicit.
(** str::lines: the lines end with a line feed, and a carriage return before it is removed; nothing after the last line feed is no line *)
Definition strip_cr (l : bytes) : bytes := match reverse l with 13%N :: r => reverse r | _ => l end.
Definition lines (s : bytes) : list bytes :=
  let l := split_on (λ b, bool_decide (b = 10%N)) [] s in
  match reverse l with [] :: r => strip_cr <$> reverse r | last :: r => (strip_cr <$> reverse r) ++ [last] | [] => [] end.
Definition usize_limit : N := 18446744073709551615.
Definition lower (s : bytes) : bytes := (λ b, if (65 <=? b)%N && (b <=? 90)%N then (b + 32)%N else b) <$> s.
Definition split_comma (s : bytes) : list bytes := split_on (λ b, bool_decide (b = 44%N)) [] s.
(** l.646-693 *)
Definition property_step (c : config) (line : bytes) : config :=
  match split_first 61%N line with
  | None => c
  | Some (k, v) =>
      let 'Config max def sizes seg base page hidden tl := c in
      if decide (k = str "max-context") then match parse_num usize_limit v with Some n => Config (Some n) def sizes seg base page hidden tl | None => c end
      else if decide (k = str "default-context") then match parse_num usize_limit v with Some n => Config max n sizes seg base page hidden tl | None => c end
      else if decide (k = str "results-per-page") then match parse_num usize_limit v with Some n => Config max def sizes seg base n hidden tl | None => c end
      else if decide (k = str "default-context-segmentation" ∧ v ≠ []) then Config max def sizes (Some v) base page hidden tl
      else if decide (k = str "default-base-text-segmentation" ∧ v ≠ []) then Config max def sizes seg (Some v) page hidden tl
      else if decide (k = str "hidden_annos" ∧ v ≠ []) then Config max def sizes seg base page (trim <$> split_comma v) tl
      else if decide (k = str "virtual_tokenization_from_namespace" ∧ lower v = str "true") then Config max def sizes seg base page hidden FromNamespace
      else if decide (k = str "virtual_tokenization_mapping" ∧ v ≠ []) then Config max def sizes seg base page hidden (FromMapping (collect_map (omap (split_first 61%N) (split_comma v))))
      else c
  end.
(** Range::step_by: a step of zero panics *)
Definition steps (v max : N) : option (list N) :=
  if decide (v = 0%N) then None
  else Some ((λ k, v + N.of_nat k * v)%N <$> seq 0 (if (max <? v)%N then 0 else N.to_nat ((max - v) / v + 1))).
(** l.697-716: [None] is a panic *)
Definition steps_step (c : option config) (line : bytes) : option config :=
  match c, split_first 61%N line with
  | Some c, Some (k, v) =>
      if decide (k = str "context-steps") then
        match parse_num usize_limit v with
        | Some n => match steps n (default n (cf_max c)) with
                    | Some l => Some (Config (cf_max c) (cf_default c) l (cf_segmentation c) (cf_base_text c) (cf_page_size c) (cf_hidden c) (cf_timeline c))
                    | None => None
                    end
        | None => Some c
        end
      else Some c
  | _, _ => c
  end.
(** l.624-718 *)
Definition load_properties (file : option bytes) : option config :=
  match file with
  | None => Some config_default
  | Some s => fold_left steps_step (lines s) (Some (fold_left property_step (lines s) config_default))
  end.
