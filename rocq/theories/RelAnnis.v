(** Model of the import of corpora in the relANNIS format (/repo/graphannis/src/annis/db/relannis.rs l.113-373 and l.720-2209): from the
    rows of the tables to the list of update events. The configuration of the corpus (l.457-718) is in RelAnnisConfig.v.
    Simplifications. Maps on disk (DiskMap, C04-C07) are finite maps, iterated in the order of their keys. The rows of a table are parsed
    before they are used, and a loop that fills several maps is one fold for each map; an error of any kind is [None], so it does not
    matter which error comes first. Strings are their UTF-8 bytes, and files are valid UTF-8 without NUL, which the CSV library would take
    as quote. Progress messages and warnings are left out. *)
From Coq Require Import NArith Ascii String.
From stdpp Require Import base list gmap pretty.
From Verif Require Import KeySer KeySerSpec SortedMap Types AnnoMem Percent CompPath GraphUpdate GraphApply.

(** ** Files and fields *)
(** l.768-774, crate csv: lines end with a line feed or a carriage return, empty lines are skipped, fields end with a tabulator, and all
    records must have the same number of fields *)
Fixpoint split_on (sep : N → bool) (cur s : bytes) : list bytes :=
  match s with
  | [] => [cur]
  | b :: s => if sep b then cur :: split_on sep [] s else split_on sep (cur ++ [b]) s
  end.
Definition is_eol (b : N) : bool := bool_decide (b = 10%N) || bool_decide (b = 13%N).
Definition is_tab (b : N) : bool := bool_decide (b = 9%N).
Definition records (s : bytes) : option (list (list bytes)) :=
  let rs := split_on is_tab [] <$> filter (λ l, l ≠ []) (split_on is_eol [] s) in
  match rs with
  | [] => Some []
  | r :: rs' => if forallb (λ x, Nat.eqb (length x) (length r)) rs' then Some rs else None
  end.
(** l.796-839 *)
Definition unescape_char (b : N) : option N :=
  if bool_decide (b ∈ [92; 34; 39; 96; 36]%N) then Some b
  else if bool_decide (b = 110%N) then Some 10%N
  else if bool_decide (b = 114%N) then Some 13%N
  else if bool_decide (b = 116%N) then Some 9%N
  else None.
Fixpoint escape_field (s : bytes) : bytes :=
  match s with
  | [] => []
  | b :: s' =>
      if bool_decide (b = 92%N) then
        match s' with
        | e :: s'' => match unescape_char e with Some c => c :: escape_field s'' | None => b :: escape_field s' end
        | [] => [b]
        end
      else b :: escape_field s'
  end.
(** l.776-794: None is the error MissingColumn *)
Definition get_field (r : list bytes) (i : nat) : option (option bytes) :=
  match r !! i with
  | Some f => Some (if decide (f = str "NULL") then None else Some (escape_field f))
  | None => None
  end.
(** l.841-855 *)
Definition get_field_not_null (r : list bytes) (i : nat) : option bytes :=
  match get_field r i with Some (Some f) => Some f | _ => None end.
(** core::num: FromStr for u32 and u64 *)
Fixpoint parse_digits (limit acc : N) (s : bytes) : option N :=
  match s with
  | [] => Some acc
  | b :: s => if (48 <=? b)%N && (b <=? 57)%N then
                let n := (acc * 10 + (b - 48))%N in if (n <=? limit)%N then parse_digits limit n s else None
              else None
  end.
Definition parse_num (limit : N) (s : bytes) : option N :=
  match match s with b :: r => if bool_decide (b = 43%N) then r else s | [] => [] end with
  | [] => None
  | r => parse_digits limit 0 r
  end.
Definition u32_max : N := 4294967295.
Definition u64_max : N := 18446744073709551615.
Definition get_u32 (r : list bytes) (i : nat) : option N := get_field_not_null r i ≫= parse_num u32_max.
Definition get_u64 (r : list bytes) (i : nat) : option N := get_field_not_null r i ≫= parse_num u64_max.

(** ** Rows of the tables *)
(** l.887-910: corpus.tab *)
Record crow := CRow { cr_id : N; cr_name : bytes; cr_doc : bool; cr_pre : N; cr_post : N }.
Definition parse_crow (r : list bytes) : option crow :=
  id ← get_u32 r 0; name ← get_field_not_null r 1; ty ← get_field_not_null r 2; pre ← get_u32 r 4; post ← get_u32 r 5;
  Some (CRow id name (bool_decide (ty = str "DOCUMENT")) pre post).
(** l.970-992: text.tab. The corpus is only given in version 3.3 *)
Record trow := TRow { tr_id : N; tr_corpus : option N; tr_name : bytes; tr_val : bytes }.
Definition parse_trow (v33 : bool) (r : list bytes) : option trow :=
  id ← get_u32 r (if v33 then 1 else 0); name ← get_field_not_null r (if v33 then 2 else 1);
  val ← get_field_not_null r (if v33 then 3 else 2);
  if v33 then c ← get_u32 r 0; Some (TRow id (Some c) name val) else Some (TRow id None name val).
(** l.1408-1592: node.tab. A token has an index and a text, a node of a segmentation a name, an index and, in version 3.3, a text *)
Inductive nkind :=
| KTok (index : N) (span : bytes)
| KSeg (name : bytes) (index : N) (span : option bytes)
| KPlain.
Record nrow := NRow {
  nr_id : N; nr_text : N; nr_corpus : N; nr_layer : option bytes; nr_name : bytes;
  nr_left_char : N; nr_right_char : N; nr_left : N; nr_right : N; nr_kind : nkind }.
Definition parse_kind (v33 : bool) (r : list bytes) : option nkind :=
  let segs := v33 || Nat.ltb 10 (length r) in
  match get_field r 7 with
  | None => None
  | Some (Some raw) =>
      span ← get_field_not_null r (if segs then 12 else 9); i ← parse_num u32_max raw; Some (KTok i span)
  | Some None =>
      if segs then
        match get_field r (if v33 then 11 else 8) with
        | None => None
        | Some None => Some KPlain
        | Some (Some name) =>
            i ← get_u32 r (if v33 then 10 else 9);
            if v33 then match get_field r 12 with Some span => Some (KSeg name i span) | None => None end
            else Some (KSeg name i None)
        end
      else Some KPlain
  end.
Definition parse_nrow (v33 : bool) (r : list bytes) : option nrow :=
  id ← get_u64 r 0; text ← get_u32 r 1; corpus ← get_u32 r 2; layer ← get_field r 3; name ← get_field_not_null r 4;
  lc ← get_u32 r 5; rc ← get_u32 r 6; l ← get_u32 r (if v33 then 8 else 5); rt ← get_u32 r (if v33 then 9 else 6);
  k ← parse_kind v33 r;
  Some (NRow id text corpus layer name lc rc l rt k).
(** l.1665-1672, 1988-1993: node_annotation.tab and corpus_annotation.tab *)
Record arow := ARow { ar_id : N; ar_ns : bytes; ar_name : bytes; ar_val : option bytes }.
Definition parse_arow (limit : N) (r : list bytes) : option arow :=
  id ← get_field_not_null r 0 ≫= parse_num limit; ns ← get_field r 1; name ← get_field_not_null r 2; v ← get_field r 3;
  Some (ARow id (default [] ns) name v).
(** l.1737-1743, 2201-2209: component.tab. A row without a type is skipped *)
Definition short_ctype (s : bytes) : option actype :=
  if decide (s = str "c") then Some Coverage else if decide (s = str "d") then Some Dominance
  else if decide (s = str "p") then Some Pointing else if decide (s = str "o") then Some Ordering else None.
Notation acomp := (actype * bytes * bytes)%type.
Definition parse_comp (r : list bytes) : option (option (N * acomp)) :=
  id ← get_u32 r 0;
  match get_field r 1 with
  | None => None
  | Some None => Some None
  | Some (Some ty) => layer ← get_field r 2; name ← get_field r 3; t ← short_ctype ty;
                      Some (Some (id, (t, default [] layer, default [] name)))
  end.
(** l.1822-1844, 1862: rank.tab *)
Record rrow := RRow { rr_pre : N; rr_node : N; rr_comp : N; rr_parent : option N }.
Definition parse_rrow (v33 : bool) (r : list bytes) : option rrow :=
  pre ← get_u32 r 0; node ← get_u64 r (if v33 then 3 else 2); c ← get_u32 r (if v33 then 4 else 3);
  match get_field r (if v33 then 5 else 4) with
  | None => None
  | Some None => Some (RRow pre node c None)
  | Some (Some p) => p ← parse_num u32_max p; Some (RRow pre node c (Some p))
  end.
(** l.1929-1937: edge_annotation.tab. The name is only needed if the edge exists; here a missing column is always an error *)
Record erow := ERow { er_pre : N; er_ns : bytes; er_name : option bytes; er_val : option bytes }.
Definition parse_erow (r : list bytes) : option erow :=
  pre ← get_u32 r 0; ns ← get_field r 1; name ← get_field r 2; v ← get_field r 3;
  Some (ERow pre (default [] ns) name v).

Record tables := Tables {
  t_corpus : list crow; t_text : list trow; t_cannos : list arow; t_nodes : list nrow; t_nannos : list arow;
  t_comps : list (N * acomp); t_ranks : list rrow; t_eannos : list erow }.
(** The files, each as its text *)
Record files := Files {
  f_corpus : bytes; f_text : bytes; f_cannos : bytes; f_nodes : bytes; f_nannos : bytes; f_comps : bytes; f_ranks : bytes; f_eannos : bytes }.
Definition parse_table {A} (f : list bytes → option A) (s : bytes) : option (list A) := records s ≫= mapM f.
Definition parse_files (v33 : bool) (f : files) : option tables :=
  c ← parse_table parse_crow (f_corpus f); t ← parse_table (parse_trow v33) (f_text f); ca ← parse_table (parse_arow u32_max) (f_cannos f);
  n ← parse_table (parse_nrow v33) (f_nodes f); na ← parse_table (parse_arow u64_max) (f_nannos f); co ← parse_table parse_comp (f_comps f);
  r ← parse_table (parse_rrow v33) (f_ranks f); e ← parse_table parse_erow (f_eannos f);
  Some (Tables c t ca n na (omap id co) r e).

(** ** Names *)
(** corpusstorage.rs l.328-340 *)
Definition node_name_encode_set (b : N) : bool := is_control b || bool_decide (b ∈ str ":/ %\<>""|?*").
Definition encode_name (s : bytes) : bytes := pct_encode node_name_encode_set s.
(** l.235-246 *)
Record centry := CEntry { ce_pre : N; ce_post : N; ce_name : bytes; ce_norm : bytes }.
Record ctable := CTable { ct_top : bytes; ct_by_pre : gmap N N; ct_by_id : gmap N centry }.
(** l.891-907: the names of documents that have been seen before are changed *)
Definition duplicate_name (n : bytes) (count : N) : bytes := n ++ str "_duplicated_document_name_" ++ str (pretty count).
Fixpoint rename_documents (seen : gmap bytes N) (rs : list crow) : list crow :=
  match rs with
  | [] => []
  | r :: rs =>
      if cr_doc r then
        let count := (default 0 (seen !! cr_name r) + 1)%N in
        (if (1 <? count)%N then CRow (cr_id r) (duplicate_name (cr_name r) count) true (cr_pre r) (cr_post r) else r)
          :: rename_documents (<[cr_name r := count]> seen) rs
      else r :: rename_documents seen rs
  end.
(** Entries of a map with numbers as keys, in their order *)
Definition by_key {V} (m : gmap N V) : list (N * V) := sort_list (λ a b, (a.1 ?= b.1)%N) (map_to_list m).
(** l.877-940 *)
Definition corpus_table (rows : list crow) : option ctable :=
  let rs := rename_documents ∅ rows in
  let by_id := fold_left (λ m r, <[cr_id r := CEntry (cr_pre r) (cr_post r) (cr_name r) (encode_name (cr_name r))]> m) rs ∅ in
  let by_pre := fold_left (λ m r, <[cr_pre r := cr_id r]> m) rs ∅ in
  match by_key by_pre with
  | [] => None
  | (_, top) :: _ => match by_id !! top with Some e => Some (CTable (ce_name e) by_pre by_id) | None => None end
  end.
(** itertools: join("/") *)
Fixpoint join_slash (l : list bytes) : bytes :=
  match l with [] => [] | [x] => x | x :: l => x ++ [slash] ++ join_slash l end.
(** l.2003-2018 *)
Definition parent_path (t : ctable) (c : N) : option bytes :=
  match ct_by_id t !! c with
  | None => None
  | Some e =>
      Some (join_slash (ce_norm <$> filter (λ p, (ce_post e < ce_post p)%N)
        (omap (λ x : N * N, ct_by_id t !! x.2) (filter (λ x : N * N, (x.1 < ce_pre e)%N) (by_key (ct_by_pre t))))))
  end.
(** l.2020-2029 *)
Definition corpus_path (t : ctable) (c : N) : option bytes :=
  match parent_path t c, ct_by_id t !! c with
  | Some p, Some e => Some (p ++ [slash] ++ ce_norm e)
  | _, _ => None
  end.
(** l.1442-1447 *)
Definition node_path (t : ctable) (r : nrow) : option bytes :=
  match corpus_path t (nr_corpus r) with Some p => Some (p ++ str "#" ++ nr_name r) | None => None end.

(** ** Nodes *)
Definition annis_ns : bytes := str "annis".
Definition default_ns : bytes := str "default_ns".
(** l.1448-1463, 1527-1532, 1571-1578 *)
Definition node_events (t : ctable) (r : nrow) : option (list event) :=
  match node_path t r with
  | None => None
  | Some p =>
      Some ([AddNode p (str "node")] ++
        match nr_layer r with Some ((_ :: _) as l) => [AddNodeLabel p annis_ns (str "layer") l] | _ => [] end ++
        match nr_kind r with
        | KTok _ span | KSeg _ _ (Some span) => [AddNodeLabel p annis_ns (str "tok") span]
        | _ => []
        end)
  end.
(** The maps filled by load_node_tab, l.1418-1592. Positions are a corpus, a text and a number *)
Definition pos : Type := N * N * N.
Definition pos_of (r : nrow) (v : N) : pos := (nr_corpus r, nr_text r, v).
Definition id_to_name (t : ctable) (rs : list nrow) : gmap N bytes :=
  fold_left (λ m r, match node_path t r with Some p => <[nr_id r := p]> m | None => m end) rs ∅.
Definition nodes_by_text (rs : list nrow) : gset (N * N * N) := list_to_set ((λ r, (nr_text r, nr_corpus r, nr_id r)) <$> rs).
Definition node_to (f : nrow → N) (rs : list nrow) : gmap N pos := fold_left (λ m r, <[nr_id r := pos_of r (f r)]> m) rs ∅.
Definition token_by (f : nrow → N) (rs : list nrow) : gmap pos N :=
  fold_left (λ m r, match nr_kind r with KTok _ _ => <[pos_of r (f r) := nr_id r]> m | _ => m end) rs ∅.
Definition token_to_index (rs : list nrow) : gmap N pos :=
  fold_left (λ m r, match nr_kind r with KTok i _ => <[nr_id r := pos_of r i]> m | _ => m end) rs ∅.
(** The key is the name of the segmentation (empty for tokens) and the position *)
Definition token_by_index (rs : list nrow) : gmap (bytes * pos) N :=
  fold_left (λ m r, match nr_kind r with
                    | KTok i _ => <[([], pos_of r i) := nr_id r]> m
                    | KSeg s i _ => <[(s, pos_of r i) := nr_id r]> m
                    | KPlain => m
                    end) rs ∅.
Definition missing_span (rs : list nrow) : gmap N bytes :=
  fold_left (λ m r, match nr_kind r with KSeg s _ None => <[nr_id r := s]> m | _ => m end) rs ∅.
(** l.1427-1440 *)
Notation texts := (gmap (N * option N) (bytes * bytes)).
Definition parse_texts (rs : list trow) : texts := fold_left (λ m r, <[(tr_id r, tr_corpus r) := (tr_name r, tr_val r)]> m) rs ∅.
Definition complete_texts (v33 : bool) (m : texts) (rs : list nrow) : texts :=
  if v33 then m
  else fold_left (λ m r, match m !! (nr_text r, None) with
                         | Some x => <[(nr_text r, Some (nr_corpus r)) := x]> (delete (nr_text r, None) m)
                         | None => m
                         end) rs m.
(** The order of TextProperty, l.113-119: segmentation, corpus, text, number *)
Definition pos_compare (a b : pos) : comparison :=
  match (a.1.1 ?= b.1.1)%N with Eq => match (a.1.2 ?= b.1.2)%N with Eq => (a.2 ?= b.2)%N | c => c end | c => c end.
Definition index_compare (a b : bytes * pos) : comparison :=
  match lex_compare a.1 b.1 with Eq => pos_compare a.2 b.2 | c => c end.
Definition by_index (m : gmap (bytes * pos) N) : list ((bytes * pos) * N) := sort_list (λ a b, index_compare a.1 b.1) (map_to_list m).
(** l.1016-1048 *)
Definition same_text (a b : bytes * pos) : bool := bool_decide (a.1 = b.1 ∧ a.2.1 = b.2.1).
Fixpoint order_events (names : gmap N bytes) (prev : option ((bytes * pos) * N)) (l : list ((bytes * pos) * N)) : option (list event) :=
  match l with
  | [] => Some []
  | x :: l =>
      match order_events names (Some x) l with
      | None => None
      | Some es =>
          match prev with
          | Some y =>
              if same_text y.1 x.1 then
                match names !! y.2, names !! x.2 with
                | Some a, Some b =>
                    Some (GraphUpdate.AddEdge a b (if decide (x.1.1 = []) then annis_ns else default_ns) (actype_name Ordering) x.1.1 :: es)
                | _, _ => None
                end
              else Some es
          | None => Some es
          end
      end
  end.
(** l.1662-1697. NULL becomes the largest character, see Types.v *)
Definition nanno_events (names missing : gmap N bytes) (r : arow) : option (list event) :=
  match names !! ar_id r with
  | None => None
  | Some n =>
      Some (if decide (ar_ns r = annis_ns ∧ ar_name r = str "tok") then []
            else (match missing !! ar_id r, ar_val r with
                  | Some s, Some v => if decide (s = ar_name r) then [AddNodeLabel n annis_ns (str "tok") v] else []
                  | _, _ => []
                  end) ++ [AddNodeLabel n (ar_ns r) (ar_name r) (default char_max (ar_val r))])
  end.

(** ** Corpora and texts *)
(** l.1969-2000 *)
Definition corpus_annos (rs : list arow) : gmap (N * anno_key) bytes :=
  fold_left (λ m r, <[(ar_id r, AnnoKey (ar_name r) (ar_ns r)) := default char_max (ar_val r)]> m) rs ∅.
(** l.2061-2079, 2112-2130: the sorted part of the map with the number of the corpus *)
Definition corpus_labels (annos : gmap (N * anno_key) bytes) (c : N) (name : bytes) : list event :=
  (λ x : (N * anno_key) * bytes, AddNodeLabel name (ak_ns x.1.2) (ak_name x.1.2) x.2) <$>
    sort_list (λ a b, anno_key_compare a.1.2 b.1.2) (filter (λ x, x.1.1 = c) (map_to_list annos)).
(** l.720-766: [ext] lists the files in ExtData or in the sub-folder of a document, with their absolute path *)
Definition part_of (a b : bytes) : event := GraphUpdate.AddEdge a b annis_ns (actype_name PartOf) [].
Definition file_events (ext : option bytes → list (bytes * bytes)) (parent : bytes) (document : option bytes) : list event :=
  concat ((λ f : bytes * bytes, let n := parent ++ [slash] ++ f.1 in
    [AddNode n (str "file"); AddNodeLabel n annis_ns (str "file") f.2; part_of n parent]) <$> ext document).
(** l.2040-2082 *)
Definition top_events (v33 : bool) (t : ctable) (annos : gmap (N * anno_key) bytes) (ext : option bytes → list (bytes * bytes)) : list event :=
  [AddNode (ct_top t) (str "corpus"); AddNodeLabel (ct_top t) annis_ns (str "relannis-version") (str (if v33 then "3.3" else "3.2"))] ++
  match ct_by_pre t !! 0%N with
  | Some c => corpus_labels annos c (ct_top t) ++ file_events ext (ct_top t) None
  | None => []
  end.
(** l.2085-2144 *)
Definition subcorpus_events (t : ctable) (annos : gmap (N * anno_key) bytes) (ext : option bytes → list (bytes * bytes)) (x : N * N) :
    option (list event) :=
  if decide (x.1 = 0%N) then Some []
  else
    match ct_by_id t !! x.2, corpus_path t x.2, parent_path t x.2 with
    | Some e, Some n, Some parent =>
        Some ([AddNode n (str "corpus")] ++
              (if decide (ce_pre e + 1 = ce_post e)%N then [AddNodeLabel n annis_ns (str "doc") (ce_name e)] else []) ++
              corpus_labels annos x.2 n ++ [part_of n parent] ++ file_events ext n (Some (ce_name e)))
    | _, _, _ => None
    end.
(** The order of TextKey, l.162-166 *)
Definition text_key_compare (a b : N * option N) : comparison :=
  match (a.1 ?= b.1)%N with
  | Eq => match a.2, b.2 with Some x, Some y => (x ?= y)%N | None, Some _ => Lt | Some _, None => Gt | None, None => Eq end
  | c => c
  end.
Definition by_text (m : texts) : list ((N * option N) * (bytes * bytes)) := sort_list (λ a b, text_key_compare a.1 b.1) (map_to_list m).
(** l.2170-2195: the nodes of a text, in the order of their numbers *)
Definition nodes_of_text (s : gset (N * N * N)) (text corpus : N) : list N :=
  sort_list N.compare (snd <$> filter (λ x : N * N * N, x.1 = (text, corpus)) (elements s)).
(** l.2148-2197 *)
Definition text_events (t : ctable) (names : gmap N bytes) (nodes : gset (N * N * N)) (x : (N * option N) * (bytes * bytes)) :
    option (list event) :=
  match x.1.2 with
  | None => Some []
  | Some c =>
      match corpus_path t c with
      | None => None
      | Some p =>
          let n := p ++ str "#" ++ encode_name x.2.1 in
          match mapM (λ i, names !! i) (nodes_of_text nodes x.1.1 c) with
          | None => None
          | Some l => Some ([AddNode n (str "datasource"); part_of n p] ++ ((λ a, part_of a n) <$> l))
          end
      end
  end.

(** ** White space between tokens *)
(** str::chars: a character is a byte with the continuation bytes that follow *)
Definition is_cont (b : N) : bool := (128 <=? b)%N && (b <=? 191)%N.
Fixpoint chars (s : bytes) : list bytes :=
  match s with
  | [] => []
  | b :: s' => match chars s' with
               | c :: cs => if match c with d :: _ => is_cont d | [] => false end then (b :: c) :: cs else [b] :: c :: cs
               | [] => [[b]]
               end
  end.
(** l.1264-1352: [rest] is the text from the offset [off] on, [first] whether there was no token before *)
Fixpoint white_space (names : gmap N bytes) (left right : gmap N pos) (toks : list N) (first : bool) (rest : list bytes) (off : nat) :
    list event :=
  match toks with
  | [] => []
  | t :: ts =>
      match left !! t, right !! t with
      | Some l, Some r =>
          let l := N.to_nat l.2 in let r := N.to_nat r.2 in
          let name_label k cs := match names !! t with Some n => [AddNodeLabel n annis_ns (str k) (concat cs)] | None => [] end in
          let before := take (l - 1 - off) rest in
          let is_before := first && Nat.ltb off l in
          let rest1 := if is_before then drop (l - 1 - off) rest else rest in
          let off1 := if is_before then off + length before else off in
          let off2 := off1 + length (take (r - off1) rest1) in
          let rest2 := drop (r - off1) rest1 in
          let next := match ts with t' :: _ => left !! t' | [] => None end in
          let after := match next with Some e => take (N.to_nat e.2 - off2) rest2 | None => rest2 end in
          let rest3 := match next with Some e => drop (N.to_nat e.2 - off2) rest2 | None => [] end in
          (if is_before then name_label "tok-whitespace-before"%string before else []) ++
            name_label "tok-whitespace-after"%string after ++
            white_space names left right ts false rest3 (off2 + length after)
      | _, _ => white_space names left right ts false rest off
      end
  end.
(** l.1239-1263: the tokens of the text, without the largest possible index, in the order of their index *)
Definition tokens_of_text (m : gmap (bytes * pos) N) (text : N) (corpus : option N) : list N :=
  snd <$> filter (λ x : (bytes * pos) * N, x.1.1 = [] ∧ x.1.2.1 = (default 0%N corpus, text) ∧ (x.1.2.2 < u32_max)%N) (by_index m).
Definition text_white_space (names : gmap N bytes) (left right : gmap N pos) (m : gmap (bytes * pos) N)
    (x : (N * option N) * (bytes * bytes)) : list event :=
  white_space names left right (tokens_of_text m x.1.1 x.1.2) true (chars x.2.2) 0.

(** ** Edges *)
Record ranks := Ranks {
  rk_comps : gmap N acomp; rk_edges : gmap N (N * N); rk_coverage : gset (N * N); rk_parentless : gmap N acomp }.
Definition ranks_empty : ranks := Ranks ∅ ∅ ∅ ∅.
(** l.1843-1885: one row, with the events of the rows before *)
Definition rank_step (names : gmap N bytes) (nodes : gmap N N) (comps : gmap N acomp) (st : option (list event * ranks)) (r : rrow) :
    option (list event * ranks) :=
  match st with
  | None => None
  | Some (es, k) =>
      match rr_parent r with
      | Some p =>
          match nodes !! p, comps !! rr_comp r with
          | Some source, Some c =>
              match names !! source, names !! rr_node r with
              | Some a, Some b =>
                  Some (es ++ [GraphUpdate.AddEdge a b c.1.2 (actype_name c.1.1) c.2],
                    Ranks (<[rr_pre r := c]> (rk_comps k)) (<[rr_pre r := (source, rr_node r)]> (rk_edges k))
                      (if decide (c.1.1 = Coverage) then {[(source, rr_node r)]} ∪ rk_coverage k else rk_coverage k) (rk_parentless k))
              | _, _ => None
              end
          | _, _ => st
          end
      | None =>
          match comps !! rr_comp r with
          | Some c => if decide (c.1.1 = Coverage)
                      then Some (es, Ranks (rk_comps k) (rk_edges k) (rk_coverage k) (<[rr_node r := c]> (rk_parentless k))) else st
          | None => st
          end
      end
  end.
(** l.1820-1828, 1731-1744 *)
Definition pre_to_node (rs : list rrow) : gmap N N := fold_left (λ m r, <[rr_pre r := rr_node r]> m) rs ∅.
Definition component_by_id (l : list (N * acomp)) : gmap N acomp := fold_left (λ m x, <[x.1 := x.2]> m) l ∅.
Definition load_ranks (names : gmap N bytes) (comps : list (N * acomp)) (rs : list rrow) : option (list event * ranks) :=
  fold_left (rank_step names (pre_to_node rs) (component_by_id comps)) rs (Some ([], ranks_empty)).
(** l.1926-1956 *)
Definition eanno_events (names : gmap N bytes) (k : ranks) (r : erow) : option (list event) :=
  match rk_comps k !! er_pre r, rk_edges k !! er_pre r with
  | Some c, Some e =>
      match er_name r, names !! e.1, names !! e.2 with
      | Some n, Some a, Some b => Some [AddEdgeLabel a b c.1.2 (actype_name c.1.1) c.2 (er_ns r) n (default char_max (er_val r))]
      | _, _, _ => None
      end
  | _, _ => Some []
  end.

(** ** Coverage *)
(** l.1116-1178: the tokens at the given numbers; an error stops the loop, the events before are kept *)
Fixpoint coverage_loop (names : gmap N bytes) (index : gmap (bytes * pos) N) (k : ranks) (n corpus text : N) (l : list N) : list event :=
  match l with
  | [] => []
  | i :: l =>
      match index !! ([], (corpus, text, i)) with
      | None => []
      | Some tok =>
          if decide (n = tok ∨ (n, tok) ∈ rk_coverage k) then coverage_loop names index k n corpus text l
          else
            let c : bytes * bytes :=
              if decide (Exists (λ e : N * N, e.1 = n) (elements (rk_coverage k))) then (annis_ns, str "autogenerated-coverage")
              else match rk_parentless k !! n with Some c => (c.1.2, c.2) | None => ([], []) end in
            match names !! n, names !! tok with
            | Some a, Some b => GraphUpdate.AddEdge a b c.1 (actype_name Coverage) c.2 :: coverage_loop names index k n corpus text l
            | _, _ => []
            end
      end
  end.
Definition range_incl (i j : N) : list N := (λ k, i + N.of_nat k)%N <$> seq 0 (N.to_nat (j + 1 - i)).
(** l.1053-1106 *)
Definition node_coverage (names : gmap N bytes) (rs : list nrow) (k : ranks) (n : N) : list event :=
  match node_to nr_left rs !! n, node_to nr_right rs !! n with
  | Some lp, Some rp =>
      let lt := token_by nr_left rs !! lp in
      let rt := token_by nr_right rs !! rp in
      match match lt with Some t => Some t | None => rt end with
      | None => []
      | Some l =>
          match token_to_index rs !! l, token_to_index rs !! default l rt with
          | Some i, Some j => coverage_loop names (token_by_index rs) k n i.1.1 i.1.2 (range_incl i.2 j.2)
          | _, _ => []
          end
      end
  | _, _ => []
  end.
(** l.1195-1220 *)
Definition coverage_events (names : gmap N bytes) (rs : list nrow) (k : ranks) : list event :=
  concat ((λ x : N * pos, if decide (is_Some (token_to_index rs !! x.1)) then [] else node_coverage names rs k x.1) <$>
    by_key (node_to nr_left rs)).

(** ** The import *)
Definition concat_opt {A B} (f : A → option (list B)) (l : list A) : option (list B) :=
  match mapM f l with Some x => Some (concat x) | None => None end.
(** l.298-345, 375-455, 1748-1782 *)
Definition import_events (v33 : bool) (ext : option bytes → list (bytes * bytes)) (T : tables) : option (bytes * list event) :=
  t ← corpus_table (t_corpus T);
  let rs := t_nodes T in
  let names := id_to_name t rs in
  let tx := complete_texts v33 (parse_texts (t_text T)) rs in
  let annos := corpus_annos (t_cannos T) in
  e1 ← concat_opt (node_events t) rs;
  e2 ← order_events names None (by_index (token_by_index rs));
  e3 ← concat_opt (nanno_events names (missing_span rs)) (t_nannos T);
  let e4 := top_events v33 t annos ext in
  e5 ← concat_opt (subcorpus_events t annos ext) (by_key (ct_by_pre t));
  e6 ← concat_opt (text_events t names (nodes_by_text rs)) (by_text tx);
  let e7 := concat (text_white_space names (node_to nr_left_char rs) (node_to nr_right_char rs) (token_by_index rs) <$> by_text tx) in
  '(e8, k) ← load_ranks names (t_comps T) (t_ranks T);
  e9 ← concat_opt (eanno_events names k) (t_eannos T);
  Some (ct_top t, e1 ++ e2 ++ e3 ++ e4 ++ e5 ++ e6 ++ e7 ++ e8 ++ e9 ++ coverage_events names rs k).
(** l.321-345: the import of the files of a directory *)
Definition load (v33 : bool) (ext : option bytes → list (bytes * bytes)) (f : files) : option (bytes * list event) :=
  parse_files v33 f ≫= import_events v33 ext.
(** aql/model.rs l.42-77: FromStr and the number of a component type *)
Definition actype_number (t : actype) : N :=
  match t with Coverage => 0 | Dominance => 2 | Pointing => 3 | Ordering => 4 | LeftToken => 5 | RightToken => 6 | PartOf => 7 end.
Definition annis_ctype (s : bytes) : option N := actype_number <$> actype_parse s.
