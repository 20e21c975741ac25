(** Model of the C interface (/repo/capi/src: lib.rs, cerror.rs, data.rs, update.rs, graph.rs, corpusstorage.rs).
    Simplifications: a pointer to an object is the object, [None] is the null pointer, and a pointer to a C string is the memory that
    starts there; nothing is freed, so invalid pointers, [annis_free] and [annis_str_free] are not modelled; the operations of the corpus
    storage and of graphs are arguments (they are modelled in other files); memory without terminator ends the string. *)
From stdpp Require Import base list.
From Coq Require Import NArith.
From Verif Require Import KeySer Types GraphUpdate QName Frequency.

(** *** Strings *)
(** [std::ffi::CStr::from_ptr]: the bytes before the first NUL *)
Fixpoint c_bytes (mem : bytes) : bytes := match mem with [] => [] | b :: r => if (b =? 0)%N then [] else b :: c_bytes r end.
(** [to_string_lossy], that is [String::from_utf8_lossy]: each sequence of bytes that can not be continued is replaced by U+FFFD *)
Definition between (a b x : N) : bool := (a <=? x)%N && (x <=? b)%N.
Definition cont (x : N) : bool := between 128 191 x.
Definition second3 (b c : N) : bool :=
  (b =? 224)%N && between 160 191 c || between 225 236 b && cont c || (b =? 237)%N && between 128 159 c || between 238 239 b && cont c.
Definition second4 (b c : N) : bool := (b =? 240)%N && between 144 191 c || between 241 243 b && cont c || (b =? 244)%N && between 128 143 c.
Definition replacement : bytes := [239; 191; 189]%N.
Fixpoint lossy (l : bytes) : bytes :=
  match l with
  | [] => []
  | b :: r =>
      if (b <? 128)%N then b :: lossy r
      else if between 194 223 b then
        match r with
        | c :: r1 => if cont c then b :: c :: lossy r1 else replacement ++ lossy r
        | [] => replacement
        end
      else if between 224 239 b then
        match r with
        | c :: r1 =>
            if second3 b c then
              match r1 with
              | d :: r2 => if cont d then b :: c :: d :: lossy r2 else replacement ++ lossy r1
              | [] => replacement
              end
            else replacement ++ lossy r
        | [] => replacement
        end
      else if between 240 244 b then
        match r with
        | c :: r1 =>
            if second4 b c then
              match r1 with
              | d :: r2 =>
                  if cont d then
                    match r2 with
                    | e :: r3 => if cont e then b :: c :: d :: e :: lossy r3 else replacement ++ lossy r2
                    | [] => replacement
                    end
                  else replacement ++ lossy r1
              | [] => replacement
              end
            else replacement ++ lossy r
        | [] => replacement
        end
      else replacement ++ lossy r
  end.
(** lib.rs l.22-30 *)
Definition cptr := option bytes.
Definition cstr (p : cptr) : bytes := match p with None => [] | Some mem => lossy (c_bytes mem) end.
(** [CString::new]: an error if there is a NUL. A [CString] is given by its bytes without the terminator *)
Definition cstring_new (s : bytes) : option bytes := if existsb (N.eqb 0) s then None else Some s.
(** [unwrap_or_default] *)
Definition cstring (s : bytes) : bytes := default [] (cstring_new s).
(** [CString::as_ptr], [CString::into_raw] *)
Definition as_ptr (s : bytes) : cptr := Some (s ++ [0%N]).

(** *** Errors *)
(** An error: its kind (cerror.rs l.36-49), its message and the messages of its causes *)
Record rerr := RErr { re_kind : bytes; re_msg : bytes; re_causes : list bytes }.
Inductive rres (T : Type) := ROk (v : T) | RFail (e : rerr).
Global Arguments ROk {_} _.
Global Arguments RFail {_} _.
(** cerror.rs l.8-13: message and kind *)
Definition error_list := list (bytes * bytes).
(** the word Cause *)
Definition cause : bytes := [67; 97; 117; 115; 101]%N.
(** cerror.rs l.19-35 *)
Fixpoint cause_iterator (causes : list bytes) : error_list := match causes with [] => [] | m :: r => (cstring m, cstring cause) :: cause_iterator r end.
(** cerror.rs l.53-65 *)
Definition create_error_list (e : rerr) : error_list := (cstring (re_msg e), cstring (re_kind e)) :: cause_iterator (re_causes e).
(** The argument [err]: a null pointer, or a pointer to a variable with a pointer to a list of errors *)
Definition err_ptr := option (option error_list).
(** lib.rs l.32-46 *)
Definition map_cerr {T} (x : rres T) (p : err_ptr) : option T * err_ptr :=
  match x with
  | ROk v => (Some v, p)
  | RFail e => (None, match p with Some _ => Some (Some (create_error_list e)) | None => None end)
  end.

(** *** Vectors, matrices and tables (data.rs, cerror.rs l.104-131) *)
(** data.rs l.71-82 *)
Definition vec_size {T} (v : list T) : nat := length v.
Definition vec_get {T} (v : list T) (i : nat) : option T := if i <? length v then v !! i else None.
(** data.rs l.91-100 *)
Definition vec_str_get (v : list bytes) (i : nat) : cptr := if i <? length v then match v !! i with Some s => as_ptr s | None => None end else None.
(** data.rs l.110-117 *)
Definition vec_str_push (v : list bytes) (p : cptr) : list bytes := match cstring_new (cstr p) with Some s => v ++ [s] | None => v end.
(** cerror.rs l.110-131 *)
Definition error_get_msg (l : error_list) (i : nat) : cptr := match vec_get l i with Some e => as_ptr e.1 | None => None end.
Definition error_get_kind (l : error_list) (i : nat) : cptr := match vec_get l i with Some e => as_ptr e.2 | None => None end.
(** data.rs l.120-144, graph.rs l.22-39: the strings of annotations and components *)
Definition string_out (s : bytes) : cptr := as_ptr (cstring s).
(** data.rs l.251-280 *)
Definition matrix_nrows (m : list (list bytes)) : nat := vec_size m.
Definition matrix_ncols (m : list (list bytes)) : nat := match m with [] => 0 | r :: _ => length r end.
Definition matrix_get (m : list (list bytes)) (row col : nat) : cptr :=
  match m !! row with
  | Some r => match r !! col with Some s => as_ptr s | None => None end
  | None => None
  end.
(** data.rs l.282-324 *)
Definition freq_table := list (list bytes * nat).
Definition freqtable_nrows (t : freq_table) : nat := vec_size t.
Definition freqtable_ncols (t : freq_table) : nat := match t with [] => 0 | r :: _ => length r.1 end.
Definition freqtable_get (t : freq_table) (row col : nat) : cptr :=
  match t !! row with
  | Some r => match r.1 !! col with Some s => as_ptr s | None => None end
  | None => None
  end.
Definition freqtable_count (t : freq_table) (row : nat) : nat := match t !! row with Some r => r.2 | None => 0 end.

(** *** Iterators (data.rs l.46-69) *)
(** The items that are left, the result and the error *)
Definition iter_next {T} (it : list (rres T)) (p : err_ptr) : list (rres T) * option T * err_ptr :=
  match it with
  | [] => ([], None, p)
  | x :: r => let '(v, p') := map_cerr x p in (r, v, p')
  end.

(** *** Updates (update.rs) *)
Inductive update_call :=
| CAddNode (node_name node_type : cptr)
| CDeleteNode (node_name : cptr)
| CAddNodeLabel (node_name anno_ns anno_name anno_value : cptr)
| CDeleteNodeLabel (node_name anno_ns anno_name : cptr)
| CAddEdge (source_node target_node layer component_type component_name : cptr)
| CDeleteEdge (source_node target_node layer component_type component_name : cptr)
| CAddEdgeLabel (source_node target_node layer component_type component_name anno_ns anno_name anno_value : cptr)
| CDeleteEdgeLabel (source_node target_node layer component_type component_name anno_ns anno_name : cptr).
(** l.19-254: the event that is added *)
Definition call_event (c : update_call) : event :=
  match c with
  | CAddNode n t => AddNode (cstr n) (cstr t)
  | CDeleteNode n => DeleteNode (cstr n)
  | CAddNodeLabel n ns a v => AddNodeLabel (cstr n) (cstr ns) (cstr a) (cstr v)
  | CDeleteNodeLabel n ns a => DeleteNodeLabel (cstr n) (cstr ns) (cstr a)
  | CAddEdge s t l ct cn => AddEdge (cstr s) (cstr t) (cstr l) (cstr ct) (cstr cn)
  | CDeleteEdge s t l ct cn => DeleteEdge (cstr s) (cstr t) (cstr l) (cstr ct) (cstr cn)
  | CAddEdgeLabel s t l ct cn ns a v => AddEdgeLabel (cstr s) (cstr t) (cstr l) (cstr ct) (cstr cn) (cstr ns) (cstr a) (cstr v)
  | CDeleteEdgeLabel s t l ct cn ns a => DeleteEdgeLabel (cstr s) (cstr t) (cstr l) (cstr ct) (cstr cn) (cstr ns) (cstr a)
  end.
(** The error of [add_event] (its text does not matter) *)
Definition update_error : rerr := RErr [] [] [].
Definition c_update (g : gupdate) (c : update_call) (p : err_ptr) : gupdate * err_ptr :=
  match gu_add g (call_event c) with
  | Some g' => (g', (map_cerr (ROk tt) p).2)
  | None => (g, (map_cerr (T := unit) (RFail update_error) p).2)
  end.
Fixpoint c_updates (g : gupdate) (cs : list update_call) (p : err_ptr) : gupdate * err_ptr :=
  match cs with [] => (g, p) | c :: r => let '(g', p') := c_update g c p in c_updates g' r p' end.

(** *** Graphs (graph.rs) *)
(** l.95-119. [None]: there is no such component *)
Fixpoint c_edges (source : N) (targets : list (rres N)) (p : err_ptr) : list (N * N) * err_ptr :=
  match targets with
  | [] => ([], p)
  | t :: r =>
      let '(v, p1) := map_cerr t p in
      let '(l, p2) := c_edges source r p1 in
      (match v with Some target => (source, target) :: l | None => l end, p2)
  end.
Definition graph_outgoing_edges (gs : option (N → list (rres N))) (source : N) (p : err_ptr) : list (N * N) * err_ptr :=
  match gs with Some out => c_edges source (out source) p | None => ([], p) end.
(** l.55-71 and 121-141 *)
Definition annotations_for {T} (annos : option (rres (list T))) (p : err_ptr) : option (list T) * err_ptr :=
  match annos with Some r => map_cerr r p | None => (Some [], p) end.

(** *** The corpus storage (corpusstorage.rs) *)
(** l.105-108, 132-135, 182-185: the strings of a vector *)
Definition corpus_names (names : list bytes) : list bytes := lossy <$> names.
(** l.95-118, without timeout *)
Definition cs_count (count : list bytes → bytes → rres N) (names : list bytes) (query : cptr) (p : err_ptr) : N * err_ptr :=
  let '(v, p') := map_cerr (count (corpus_names names) (cstr query)) p in (default 0%N v, p').
(** l.128-150 *)
Definition cs_count_extra (count : list bytes → bytes → rres (N * N)) (names : list bytes) (query : cptr) (p : err_ptr) : (N * N) * err_ptr :=
  let '(v, p') := map_cerr (count (corpus_names names) (cstr query)) p in (default (0, 0)%N v, p').
(** l.172-208 *)
Definition cs_find {O} (find : list bytes → bytes → N → option N → O → rres (list bytes)) (names : list bytes) (query : cptr) (offset : N)
    (limit : option N) (order : O) (p : err_ptr) : option (list bytes) * err_ptr :=
  let '(v, p') := map_cerr (find (corpus_names names) (cstr query) offset limit order) p in ((λ l : list bytes, cstring <$> l) <$> v, p').
(** l.225-253: the segmentation is optional *)
Definition cs_subgraph {G} (subgraph : bytes → list bytes → N → N → option bytes → rres G) (corpus : cptr) (node_ids : list bytes)
    (left right : N) (segmentation : cptr) (p : err_ptr) : option G * err_ptr :=
  map_cerr (subgraph (cstr corpus) (corpus_names node_ids) left right (match segmentation with None => None | Some m => Some (cstr (Some m)) end)) p.
(** [str::split] with a comma *)
Fixpoint split_comma (s : bytes) : list bytes :=
  match s with
  | [] => [[]]
  | b :: r =>
      if (b =? 44)%N then [] :: split_comma r
      else match split_comma r with x :: l => (b :: x) :: l | [] => [[b]] end
  end.
(** l.391-396 *)
Definition table_def (s : bytes) : list freq_def := omap freq_def_from_str (split_comma s).
(** l.369-421 *)
Definition cs_frequency (freq : list bytes → bytes → list freq_def → rres freq_table) (names : list bytes) (query definition : cptr)
    (p : err_ptr) : option freq_table * err_ptr :=
  let '(v, p') := map_cerr (freq (corpus_names names) (cstr query) (table_def (cstr definition))) p in
  ((λ t : freq_table, (λ r : list bytes * nat, (cstring <$> r.1, r.2)) <$> t) <$> v, p').
(** l.428-446 *)
Definition cs_list (corpora : rres (list bytes)) (p : err_ptr) : option (list bytes) * err_ptr :=
  let '(v, p') := map_cerr corpora p in ((λ l : list bytes, omap cstring_new l) <$> v, p').
(** l.455-531: rows with namespace, name and value *)
Definition anno_row (a : bytes * bytes * bytes) : option (list bytes) :=
  match cstring_new a.1.1, cstring_new a.1.2, cstring_new a.2 with
  | Some ns, Some name, Some val => Some [ns; name; val]
  | _, _, _ => None
  end.
Definition cs_list_annotations (list_annos : bytes → bool → bool → rres (list (bytes * bytes * bytes))) (corpus : cptr)
    (list_values most_frequent : bool) (p : err_ptr) : option (list (list bytes)) * err_ptr :=
  let '(v, p') := map_cerr (list_annos (cstr corpus) list_values most_frequent) p in ((λ l : list (bytes * bytes * bytes), omap anno_row l) <$> v, p').
(** l.543-563, 688-697 *)
Definition cs_bool (r : rres bool) (p : err_ptr) : bool * err_ptr := let '(v, p') := map_cerr r p in (default false v, p').
