(** Model of the export to and the import from GraphML (/repo/core/src/graph/serialization/graphml.rs l.25-712).
    The XML library (quick-xml 0.28) is not part of the repository: writing and reading is a function from written events to read events,
    [transfer]. Simplifications: components are adjacency lists in memory; progress messages and errors of storages are left out; an XML file
    with the end mark of CDATA and a tag inside of CDATA is an error; references to characters by number are errors (the export writes none). *)
From Coq Require Import NArith Ascii String.
From stdpp Require Import base list gmap pretty.
From Verif Require Import KeySer KeySerSpec SortedMap Types SymbolTable AnnoMem Adjacency QName CompPath GraphUpdate GraphApply ListExtra.

(** ** XML *)
(** Written events: names and values as they are given to the writer *)
Inductive wevent :=
  | WDecl
  | WStart (name : bytes) (atts : list (bytes * bytes))
  | WEmpty (name : bytes) (atts : list (bytes * bytes))
  | WText (t : bytes)
  | WCData (t : bytes)
  | WEnd (name : bytes).
(** Read events: values as they are in the file *)
Inductive xevent :=
  | XStart (name : bytes) (atts : list (bytes * bytes))
  | XEnd (name : bytes)
  | XText (t : bytes)
  | XCData (t : bytes)
  | XOther
  | XBad.

(** quick_xml::escape::escape: < > & ' and double quotes *)
Definition esc_byte (b : N) : bytes :=
  if decide (b = 60%N) then str "&lt;"
  else if decide (b = 62%N) then str "&gt;"
  else if decide (b = 38%N) then str "&amp;"
  else if decide (b = 39%N) then str "&apos;"
  else if decide (b = 34%N) then str "&quot;"
  else [b].
Definition escape (s : bytes) : bytes := s ≫= esc_byte.
(** quick_xml::escape::unescape *)
Definition entity (e : bytes) : option N :=
  if decide (e = str "lt") then Some 60%N
  else if decide (e = str "gt") then Some 62%N
  else if decide (e = str "amp") then Some 38%N
  else if decide (e = str "apos") then Some 39%N
  else if decide (e = str "quot") then Some 34%N
  else None.
(** [p] is the entity which is being read, in reverse *)
Fixpoint unesc (p : option bytes) (s : bytes) : option bytes :=
  match s, p with
  | [], None => Some []
  | [], Some _ => None
  | b :: r, None => if decide (b = 38%N) then unesc (Some []) r else match unesc None r with Some x => Some (b :: x) | None => None end
  | b :: r, Some e => if decide (b = 59%N)
                      then match entity (reverse e), unesc None r with Some c, Some x => Some (c :: x) | _, _ => None end
                      else unesc (Some (b :: e)) r
  end.
Definition unescape (s : bytes) : option bytes := unesc None s.
Definition esc_atts (l : list (bytes * bytes)) : list (bytes * bytes) := (λ a, (a.1, escape a.2)) <$> l.
(** Position of the end mark of CDATA *)
Definition cdata_end : bytes := str "]]>".
Fixpoint find_end (s : bytes) : option (bytes * bytes) :=
  if bool_decide (take 3 s = cdata_end) then Some ([], drop 3 s)
  else match s with
       | [] => None
       | b :: r => match find_end r with Some (x, y) => Some (b :: x, y) | None => None end
       end.
Definition read_cdata (t : bytes) : list xevent :=
  match find_end t with
  | None => [XCData t]
  | Some (x, y) => if decide (60%N ∈ y) then [XCData x; XBad] else [XCData x; XText (y ++ cdata_end)]
  end.
(** The writer with an indentation of 4 spaces ([brk]: the next element starts a new line), followed by the reader with empty elements
    expanded, which finds no text event where there is no text *)
Definition line (brk : bool) (ind : nat) : list xevent := if brk then [XText (10%N :: repeat 32%N (4 * ind))] else [].
Fixpoint transfer (ind : nat) (brk : bool) (es : list wevent) : list xevent :=
  match es with
  | [] => []
  | WDecl :: r => line brk ind ++ XOther :: transfer ind true r
  | WStart n a :: r => line brk ind ++ XStart n (esc_atts a) :: transfer (S ind) true r
  | WEnd n :: r => line brk (pred ind) ++ XEnd n :: transfer (pred ind) true r
  | WEmpty n a :: r => line brk ind ++ XStart n (esc_atts a) :: XEnd n :: transfer ind true r
  | WText t :: r => match t with [] => [] | _ => [XText (escape t)] end ++ transfer ind false r
  | WCData t :: r => read_cdata t ++ transfer ind false r
  end.

(** ** Export *)
Definition t_key : bytes := str "key".
Definition t_data : bytes := str "data".
Definition t_node : bytes := str "node".
Definition t_edge : bytes := str "edge".
Definition t_graph : bytes := str "graph".
Definition t_graphml : bytes := str "graphml".
Definition a_id : bytes := str "id".
Definition a_name : bytes := str "attr.name".
Definition a_source : bytes := str "source".
Definition a_target : bytes := str "target".
Definition a_label : bytes := str "label".
(** format!("k{}", id_counter) *)
Definition key_id (n : N) : bytes := str "k" ++ str (pretty n).

(** l.34-45, l.57-65, l.90-98 *)
Definition key_elem (id for_ name : bytes) : wevent :=
  WEmpty t_key [(a_id, id); (str "for", for_); (a_name, name); (str "attr.type", str "string")].
(** l.47-104: the mapping, the counter and the written elements *)
Definition keyst : Type := gmap anno_key bytes * N * list wevent.
Definition add_key (s : keyst) (k : anno_key) : keyst :=
  let '(m, n, out) := s in
  match m !! k with
  | Some _ => s
  | None => (<[k := key_id n]> m, (n + 1)%N, out ++ [key_elem (key_id n) t_node (join_qname (ak_ns k) (ak_name k))])
  end.

Section GraphML.
(** The component type: FromStr, and Debug, which is the same as Display; the components which are created by the index; a sort function for
    components, and for sorted exports a sort function for annotation keys and nodes. *)
Context (ct : bytes → option N) (ctname : N → bytes) (auto : list comp).
Context (sort_comps : list comp → list comp) (sort_keys : list anno_key → list anno_key) (sort_nodes : list N → list N).

(** types.rs l.235-240 *)
Definition comp_text (c : comp) : bytes := ctname c.1.1 ++ [slash] ++ c.1.2 ++ [slash] ++ c.2.
(** types.rs l.242-267 *)
Definition comp_of_text (s : bytes) : option comp :=
  match splitn 3 s with
  | [t; l; n] => match ct t with Some k => Some (k, l, n) | None => None end
  | _ => None
  end.

(** get_all_components(None, None), l.72-82 *)
Definition user_comps (st : gstate) : list comp := filter (λ c, c ∉ auto) (sort_comps (map_to_list (g_comps st)).*1).
(** l.25-107 *)
Definition write_keys (config : bool) (st : gstate) : keyst :=
  let s0 : keyst := if config then (∅, 1%N, [key_elem (key_id 0) t_graph (str "configuration")]) else (∅, 0%N, []) in
  let s1 := fold_left add_key (filter (λ k, k ≠ node_name_key) (sort_keys (am_annotation_keys (g_node_annos st)))) s0 in
  fold_left (λ s c, match g_comps st !! c with Some g => fold_left add_key (am_annotation_keys (g_annos g)) s | None => s end) (user_comps st) s1.

(** l.109-127 *)
Definition write_data (m : gmap anno_key bytes) (a : anno_key * bytes) : option (list wevent) :=
  match m !! a.1 with
  | Some id => Some [WStart t_data [(t_key, id)]; WText a.2; WEnd t_data]
  | None => None
  end.
Fixpoint write_all {A} (f : A → option (list wevent)) (l : list A) : option (list wevent) :=
  match l with
  | [] => Some []
  | x :: r => match f x, write_all f r with Some a, Some b => Some (a ++ b) | _, _ => None end
  end.
(** sort_unstable_by_key by the id of the key *)
Definition by_key_id (m : gmap anno_key bytes) (a b : anno_key * bytes) : comparison := lex_compare (default [] (m !! a.1)) (default [] (m !! b.1)).
Definition sorted_annos (m : gmap anno_key bytes) (l : list (anno_key * bytes)) : list (anno_key * bytes) := sort_list (by_key_id m) l.

(** l.142-193 *)
Definition write_node (m : gmap anno_key bytes) (st : gstate) (n : N) : option (list wevent) :=
  match am_get_value (g_node_annos st) n node_name_key with
  | Some name =>
      match am_get_annotations (g_node_annos st) n with
      | [] => Some [WEmpty t_node [(a_id, name)]]
      | l => match write_all (write_data m) (filter (λ a, a.1 ≠ node_name_key) (sorted_annos m l)) with
             | Some d => Some (WStart t_node [(a_id, name)] :: d ++ [WEnd t_node])
             | None => None
             end
      end
  | None => Some []
  end.
Definition node_list (st : gstate) : list N :=
  sort_nodes (am_exact_search (g_node_annos st) (Some (ak_ns node_type_key)) (ak_name node_type_key) VAny).*1.

(** l.195-278: the edges in the order in which they are written, with the names of both nodes *)
Definition named (st : gstate) (n : N) : option bytes := am_get_value (g_node_annos st) n node_name_key.
Definition edge_list (st : gstate) : list (comp * adj * edge * bytes * bytes) :=
  c ← user_comps st;
  match g_comps st !! c with
  | Some g => x ← sort_nodes (adj_sources g);
              match named st x with
              | Some a => y ← sort_nodes (adj_out g x);
                          match named st y with Some b => [(c, g, Edge x y, a, b)] | None => [] end
              | None => []
              end
  | None => []
  end.
Definition write_edge (m : gmap anno_key bytes) (ix : nat * (comp * adj * edge * bytes * bytes)) : option (list wevent) :=
  let '(i, (c, g, e, a, b)) := ix in
  match write_all (write_data m) (sorted_annos m (am_get_annotations (g_annos g) e)) with
  | Some d => Some (WStart t_edge [(a_id, str "e" ++ str (pretty (N.of_nat i))); (a_source, a); (a_target, b); (a_label, comp_text c)] :: d ++ [WEnd t_edge])
  | None => None
  end.
(** l.280-408 *)
Definition export (config : option bytes) (st : gstate) : option (list wevent) :=
  let '(m, _, header) := write_keys (match config with Some _ => true | None => false end) st in
  match write_all (write_node m st) (node_list st), write_all (write_edge m) (imap pair (edge_list st)) with
  | Some ns, Some es =>
      Some ([WDecl; WStart t_graphml []] ++ header ++
            [WStart t_graph [(str "edgedefault", str "directed"); (str "parse.order", str "nodesfirst"); (str "parse.nodeids", str "free"); (str "parse.edgeids", str "canonical")]] ++
            match config with Some c => [WStart t_data [(t_key, str "k0")]; WCData c; WEnd t_data] | None => [] end ++
            ns ++ es ++ [WEnd t_graph; WEnd t_graphml])
  | _, _ => None
  end.

(** ** Import *)
(** The order in which a HashMap is drained *)
Context (drain : gmap anno_key bytes → list (anno_key * bytes)).

(** l.515-529 *)
Record rstate := RState {
  rd_keys : gmap bytes anno_key;
  rd_level : nat;
  rd_graph : bool;
  rd_node : option bytes;
  rd_key : option bytes;
  rd_source : option bytes;
  rd_target : option bytes;
  rd_comp : option bytes;
  rd_value : option bytes;
  rd_data : gmap anno_key bytes;
  rd_config : option bytes;
  rd_nodes : list event;
  rd_edges : list event
}.
Definition rd_init : rstate := RState ∅ 0 false None None None None None None ∅ None [] [].

(** The value of the last attribute with a name, which is how the loops over attributes assign it *)
Definition att (n : bytes) (l : list (bytes * bytes)) (old : option bytes) : option bytes :=
  fold_left (λ r a, if decide (a.1 = n) then Some a.2 else r) l old.
(** l.410-439 *)
Definition add_annotation_key (keys : gmap bytes anno_key) (l : list (bytes * bytes)) : gmap bytes anno_key :=
  match att a_id l None, att a_name l None with
  | Some id, Some q => let '(ns, name) := split_qname q in <[id := AnnoKey name (default [] ns)]> keys
  | _, _ => keys
  end.
(** l.441-466 *)
Definition node_events (id : option bytes) (data : gmap anno_key bytes) : list event :=
  match id with
  | Some n => AddNode n (default (str "node") (data !! node_type_key)) ::
              ((λ kv, AddNodeLabel n (ak_ns kv.1) (ak_name kv.1) kv.2) <$> drain (delete node_type_key data))
  | None => []
  end.
(** l.468-504 *)
Definition edge_events (src tgt comp : option bytes) (data : gmap anno_key bytes) : list event :=
  match src, tgt, comp with
  | Some s, Some t, Some c =>
      match comp_of_text c with
      | Some (k, l, n) => GraphUpdate.AddEdge s t l (ctname k) n ::
                          ((λ kv, AddEdgeLabel s t l (ctname k) n (ak_ns kv.1) (ak_name kv.1) kv.2) <$> drain data)
      | None => []
      end
  | _, _, _ => []
  end.
(** What is left of the data after it was drained; it is not drained if there is no id or no component *)
Definition after_node (id : option bytes) (data : gmap anno_key bytes) : gmap anno_key bytes := match id with Some _ => ∅ | None => data end.
Definition after_edge (src tgt comp : option bytes) (data : gmap anno_key bytes) : gmap anno_key bytes :=
  match src, tgt, comp with Some _, Some _, Some c => match comp_of_text c with Some _ => ∅ | None => data end | _, _, _ => data end.

(** l.534-585 *)
Definition on_start (s : rstate) (name : bytes) (atts : list (bytes * bytes)) : rstate :=
  let '(RState keys level g nd k src tgt c v d cfg ns es) := s in
  let level := S level in
  if decide (name = t_graph ∧ level = 2) then RState keys level true nd k src tgt c v d cfg ns es
  else if decide (name = t_key ∧ level = 2) then RState (add_annotation_key keys atts) level g nd k src tgt c v d cfg ns es
  else if decide (name = t_node ∧ g = true ∧ level = 3) then RState keys level g (att a_id atts nd) k src tgt c v ∅ cfg ns es
  else if decide (name = t_edge ∧ g = true ∧ level = 3)
  then RState keys level g nd k (att a_source atts src) (att a_target atts tgt) (att a_label atts c) v ∅ cfg ns es
  else if decide (name = t_data) then RState keys level g nd (att t_key atts k) src tgt c v d cfg ns es
  else RState keys level g nd k src tgt c v d cfg ns es.
(** l.586-588 *)
Definition on_text (s : rstate) (t : bytes) : option rstate :=
  let '(RState keys level g nd k src tgt c v d cfg ns es) := s in
  if decide (g = true ∧ level = 4 ∧ is_Some k) then
    match unescape t with Some x => Some (RState keys level g nd k src tgt c (Some x) d cfg ns es) | None => None end
  else Some s.
(** l.590-599 *)
Definition on_cdata (s : rstate) (t : bytes) : rstate :=
  let '(RState keys level g nd k src tgt c v d cfg ns es) := s in
  if decide (g = true ∧ level = 3 ∧ k = Some (str "k0")) then RState keys level g nd k src tgt c v d (Some t) ns es else s.
(** l.600-657 *)
Definition on_end (s : rstate) (name : bytes) : rstate :=
  let '(RState keys level g nd k src tgt c v d cfg ns es) := s in
  let level := pred level in
  if decide (name = t_graph) then RState keys level false nd k src tgt c v d cfg ns es
  else if decide (name = t_node) then RState keys level g None k src tgt c v (after_node nd d) cfg (ns ++ node_events nd d) es
  else if decide (name = t_edge) then RState keys level g nd k None None None v (after_edge src tgt c d) cfg ns (es ++ edge_events src tgt c d)
  else if decide (name = t_data) then
    RState keys level g nd None src tgt c None
      (match k with Some id => match keys !! id with Some ak => <[ak := default [] v]> d | None => d end | None => d end) cfg ns es
  else RState keys level g nd k src tgt c v d cfg ns es.
Definition read_step (s : rstate) (e : xevent) : option rstate :=
  match e with
  | XStart n a => Some (on_start s n a)
  | XText t => on_text s t
  | XCData t => Some (on_cdata s t)
  | XEnd n => Some (on_end s n)
  | XOther => Some s
  | XBad => None
  end.
(** l.506-667 *)
Fixpoint read_all (s : rstate) (xs : list xevent) : option rstate :=
  match xs with
  | [] => Some s
  | x :: r => match read_step s x with Some s' => read_all s' r | None => None end
  end.
(** l.683-699: the update with all nodes before the edges, and the configuration. The numbers of the events are the ones from add_event. *)
Definition numbered_from (n : N) (es : list event) : list (N * event) := imap (λ i e, (n + N.of_nat i, e)%N) es.
Definition read_graphml (xs : list xevent) : option (list (N * event) * option bytes) :=
  match read_all rd_init xs with
  | Some s => Some (numbered_from 1 (rd_nodes s ++ rd_edges s), rd_config s)
  | None => None
  end.
(** l.669-712: import into a graph with default components [start] *)
Definition import (start : gstate) (xs : list xevent) : option (gstate * option bytes) :=
  match read_graphml xs with
  | Some (u, cfg) => match apply_update ct start u with Some st => Some (st, cfg) | None => None end
  | None => None
  end.
End GraphML.

(** /repo/core/src/graph/mod.rs l.199-205: a new graph with the default components [D] of the component type *)
Definition g_start (D : gset comp) : gstate := GState (g_node_annos g_empty) (gset_to_gmap adj_new D) 0.
