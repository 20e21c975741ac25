(** How queries are written: descriptions of queries, their words, layouts of words as text, and what the descriptions mean. *)
From Coq Require Import NArith String.
From stdpp Require Import base list pretty.
From Verif Require Import KeySer KeySerSpec CompPath RelAnnis NodeSearch TokenOps EdgeOps Query AqlLexer AqlLexerSpec AqlGrammar.

(** ** Descriptions *)
Inductive value := Plain (v : bytes) | Pattern (v : bytes).
Notation qualified := (option bytes * bytes)%type.
Inductive search := FindNode | FindTok | FindTokValue (equal : bool) (v : value) | FindValue (v : value) | FindAnno (q : qualified) (equal : bool) (v : value) | FindName (q : qualified).
Record node := MkNode { n_var : option bytes; n_search : search; n_optional : bool }.
Inductive reference := ByNumber (n : N) | ByName (s : bytes).
Inductive term := TermRef (r : reference) | TermNode (n : node).
(** Numbers can have a comma before them, as in .norm,1,5 *)
Inductive distance := Direct | AnyDistance | Exactly (comma : bool) (n : N) | Between (comma : bool) (min max : N).
Inductive operator :=
| Dominates (name : bytes) (d : distance) | DominatesBy (name : bytes) (q : qualified) (equal : bool) (v : value)
| Points (name : bytes) (d : distance) | PointsBy (name : bytes) (q : qualified) (equal : bool) (v : value)
| Precedes (seg : option bytes) (d : distance) | IsNear (seg : option bytes) (d : distance) | IsPartOf (d : distance)
| Overlaps | CoversSame | Includes | LeftAligned | RightAligned | SameNode.
Notation step := (bool * operator * term)%type.
Inductive part :=
| PNode (n : node)
| PChain (t : term) (s : step) (l : list step)
| PCompare (r : reference) (s : bool * reference) (l : list (bool * reference))
| PArity (r : reference) (d : distance)
| PMeta (q : qualified) (equal : bool) (v : value).
Inductive query := QPart (p : part) | QAnd (a b : query) | QOr (a b : query).

(** ** Words *)
Definition number_word (n : N) : bytes := str (pretty n).
Definition qualified_words (q : qualified) : list bytes := match q with (Some ns, name) => [ns; str ":"; name] | (None, name) => [name] end.
Definition equal_words (equal : bool) : list bytes := [if equal then str "=" else str "!="].
Definition value_words (v : value) : list bytes := match v with Plain v => [34%N :: v ++ [34%N]] | Pattern v => [47%N :: v ++ [47%N]] end.
Definition search_words (s : search) : list bytes :=
  match s with
  | FindNode => [str "node"]
  | FindTok => [str "tok"]
  | FindTokValue eq v => str "tok" :: equal_words eq ++ value_words v
  | FindValue v => value_words v
  | FindAnno q eq v => qualified_words q ++ equal_words eq ++ value_words v
  | FindName q => qualified_words q
  end.
Definition node_words (n : node) : list bytes :=
  match n_var n with Some v => [v ++ str "#"] | None => [] end ++ search_words (n_search n) ++ if n_optional n then [str "?"] else [].
Definition reference_words (r : reference) : list bytes := match r with ByNumber n => [35%N :: number_word n] | ByName s => [35%N :: s] end.
Definition term_words (t : term) : list bytes := match t with TermRef r => reference_words r | TermNode n => node_words n end.
Definition comma_words (comma : bool) : list bytes := if comma then [str ","] else [].
Definition distance_words (d : distance) : list bytes :=
  match d with Direct => [] | AnyDistance => [str "*"] | Exactly c n => comma_words c ++ [number_word n] | Between c a b => comma_words c ++ [number_word a; str ","; number_word b] end.
Definition by_words (q : qualified) (eq : bool) (v : value) : list bytes := str "[" :: qualified_words q ++ equal_words eq ++ value_words v ++ [str "]"].
Definition operator_words (o : operator) : list bytes :=
  match o with
  | Dominates name d => (str ">" ++ name) :: distance_words d
  | DominatesBy name q eq v => (str ">" ++ name) :: by_words q eq v
  | Points name d => (str "->" ++ name) :: distance_words d
  | PointsBy name q eq v => (str "->" ++ name) :: by_words q eq v
  | Precedes seg d => (str "." ++ default [] seg) :: distance_words d
  | IsNear seg d => (str "^" ++ default [] seg) :: distance_words d
  | IsPartOf d => str "@" :: distance_words d
  | Overlaps => [str "_o_"] | CoversSame => [str "_=_"] | Includes => [str "_i_"] | LeftAligned => [str "_l_"] | RightAligned => [str "_r_"] | SameNode => [str "_ident_"]
  end.
Definition negation_words (negated : bool) : list bytes := if negated then [str "!"] else [].
Definition step_words (s : step) : list bytes := negation_words s.1.1 ++ operator_words s.1.2 ++ term_words s.2.
Definition compare_words (s : bool * reference) : list bytes := (if s.1 then str "==" else str "!=") :: reference_words s.2.
Definition part_words (p : part) : list bytes :=
  match p with
  | PNode n => node_words n
  | PChain t s l => term_words t ++ concat (step_words <$> s :: l)
  | PCompare r s l => reference_words r ++ concat (compare_words <$> s :: l)
  | PArity r d => reference_words r ++ str ":arity" :: str "=" :: distance_words d
  | PMeta q eq v => str "meta::" :: qualified_words q ++ equal_words eq ++ value_words v
  end.
(** Conjunctions bind more tightly than disjunctions, and both are read from the left; other nestings need parentheses. The level is 0 for
    any query, 1 for an operand of a disjunction on the right and of a conjunction on the left, 2 for an operand of a conjunction on the right *)
Definition in_parentheses (b : bool) (ws : list bytes) : list bytes := if b then str "(" :: ws ++ [str ")"] else ws.
Fixpoint words (level : nat) (q : query) : list bytes :=
  match q with
  | QPart p => part_words p
  | QAnd a b => in_parentheses (Nat.leb 2 level) (words 1 a ++ str "&" :: words 2 b)
  | QOr a b => in_parentheses (Nat.leb 1 level) (words 0 a ++ str "|" :: words 1 b)
  end.

(** ** Which descriptions can be written *)
Definition keywords : list bytes := str <$> ["tok"; "node"; "_ident_"; "_o_"; "_i_"; "_l_"; "_r_"]%string.
(** [a-zA-Z_%][a-zA-Z0-9_\-%]* *)
Definition name_ok (s : bytes) : Prop := matches id_regex s.
Definition id_ok (s : bytes) : Prop := name_ok s ∧ s ∉ keywords.
(** [a-zA-Z][a-zA-Z0-9]* *)
Definition var_ok (s : bytes) : Prop := matches (Seq (Chars letter) letters_digits) s.
(** Values have no quotation mark, and slashes in regular expressions have a backslash *)
Definition value_ok (v : value) : Prop :=
  match v with
  | Plain v => 34%N ∉ v
  | Pattern v => matches (Seq (Star (Chars (none_of [47; 92]%N))) (Star (Seq (Text [92%N]) (Seq (Chars (none_of [10%N])) (Star (Chars (none_of [47; 92]%N))))))) v
  end.
Definition qualified_ok (q : qualified) : Prop := match q.1 with Some ns => id_ok ns | None => True end ∧ id_ok q.2.
Definition search_ok (s : search) : Prop :=
  match s with FindNode | FindTok => True | FindTokValue _ v | FindValue v => value_ok v | FindAnno q _ v => qualified_ok q ∧ value_ok v | FindName q => qualified_ok q end.
Definition node_ok (n : node) : Prop := match n_var n with Some v => var_ok v | None => True end ∧ search_ok (n_search n).
(** Numbers have 64 bits *)
Definition number_ok (n : N) : Prop := (n <= u64_max)%N.
Definition reference_ok (r : reference) : Prop := match r with ByNumber n => number_ok n | ByName s => var_ok s end.
Definition term_ok (t : term) : Prop := match t with TermRef r => reference_ok r | TermNode n => node_ok n end.
Definition distance_ok (d : distance) : Prop := match d with Direct | AnyDistance => True | Exactly _ n => number_ok n | Between _ a b => number_ok a ∧ number_ok b end.
Definition operator_ok (o : operator) : Prop :=
  match o with
  | Dominates name d => (name = [] ∨ name_ok name) ∧ distance_ok d
  | DominatesBy name q _ v => (name = [] ∨ name_ok name) ∧ qualified_ok q ∧ value_ok v
  | Points name d => name_ok name ∧ distance_ok d
  | PointsBy name q _ v => name_ok name ∧ qualified_ok q ∧ value_ok v
  | Precedes seg d | IsNear seg d => match seg with Some s => name_ok s | None => True end ∧ distance_ok d
  | IsPartOf d => distance_ok d
  | _ => True
  end.
Definition step_ok (s : step) : Prop := operator_ok s.1.2 ∧ term_ok s.2.
Definition part_ok (p : part) : Prop :=
  match p with
  | PNode n => node_ok n
  | PChain t s l => term_ok t ∧ Forall step_ok (s :: l)
  | PCompare r s l => reference_ok r ∧ Forall (λ s : bool * reference, reference_ok s.2) (s :: l)
  | PArity r d => reference_ok r ∧ distance_ok d ∧ d ≠ Direct
  | PMeta q _ v => qualified_ok q ∧ value_ok v
  end.
Fixpoint query_ok (q : query) : Prop := match q with QPart p => part_ok p | QAnd a b | QOr a b => query_ok a ∧ query_ok b end.

(** ** Layouts of words *)
Inductive Spaces : bytes → Prop := spaces_nil : Spaces [] | spaces_cons w s : w ∈ white_spaces → Spaces s → Spaces (w ++ s).
(** The last byte of words that no following text extends: ( ) | & ? ! @ = [ ] , * # / and the quotation mark *)
Definition closers : list N := [40; 41; 124; 38; 63; 33; 64; 61; 91; 93; 44; 42; 35; 47; 34]%N.
(** A letter, digit, _, %, - or # can follow a word directly only if the word has a closed end or is a colon (and the text is not :arity);
    = cannot follow = and !, =_ cannot follow the word _, and :: cannot follow the word meta. Spaces are needed between other words *)
Definition may_touch (w rest : bytes) : Prop :=
  match rest with
  | [] => True
  | c :: _ =>
      if letter c || digit c || one_of [95; 45; 37; 35]%N c
      then (∃ x, last w = Some x ∧ x ∈ closers) ∨ w = str ":" ∧ take 5 rest ≠ str "arity"
      else if (c =? 61)%N then last w ≠ Some 61%N ∧ last w ≠ Some 33%N ∧ (w ≠ str "_" ∨ take 2 rest ≠ str "=_")
      else if (c =? 58)%N then w ≠ str "meta" ∨ take 2 rest ≠ str "::" else True
  end.
(** A text at the offset [off] that consists of the words, with the positions of the words *)
Inductive LaidOut : nat → list bytes → bytes → list nat → Prop :=
| laid_end off g : Spaces g → LaidOut off [] g []
| laid_word off g w ws text ps : Spaces g → may_touch w text → LaidOut (off + length g + length w) ws text ps → LaidOut off (w :: ws) (g ++ w ++ text) ((off + length g) :: ps).

(** ** What descriptions mean; [ps] are the positions of the words *)
Definition value_pair (v : value) : bytes * bool := match v with Plain v => (v, false) | Pattern v => (v, true) end.
Definition anno_search (meta : bool) (q : qualified) (equal : bool) (v : value) : spec :=
  match equal, v with
  | true, Plain v => SExact q.1 q.2 (Some v) meta
  | false, Plain v => SNotExact q.1 q.2 v meta
  | true, Pattern v => SRegex q.1 q.2 v meta
  | false, Pattern v => SNotRegex q.1 q.2 v meta
  end.
Definition search_meaning (s : search) : spec :=
  match s with
  | FindNode => SAnyNode
  | FindTok => SAnyTok
  | FindTokValue true (Plain v) => STokExact v true
  | FindTokValue false (Plain v) => STokNotExact v
  | FindTokValue true (Pattern v) => STokRegex v true
  | FindTokValue false (Pattern v) => STokNotRegex v
  | FindValue (Plain v) => STokExact v false
  | FindValue (Pattern v) => STokRegex v false
  | FindAnno q equal v => anno_search false q equal v
  | FindName q => SExact q.1 q.2 None false
  end.
Definition first (ps : list nat) : nat := default 0 (head ps).
Definition reference_meaning (r : reference) : vname := match r with ByNumber n => Num (N.to_nat n) | ByName s => Name s end.
Definition term_meaning (ps : list nat) (t : term) : aql_operand :=
  match t with TermRef r => ORef (reference_meaning r) | TermNode n => OLit (search_meaning (n_search n)) (first ps) (n_var n) (n_optional n) end.
Definition distance_meaning (d : distance) : range_spec :=
  match d with Direct => RBound 1 1 | AnyDistance => RUnbound | Exactly _ n => RBound n n | Between _ a b => RBound a b end.
Definition by_meaning (q : qualified) (equal : bool) (v : value) : edge_label :=
  match equal, v with
  | true, Plain v => LExact q.1 q.2 (Some v)
  | false, Plain v => LNotExact q.1 q.2 v
  | true, Pattern v => LRegex q.1 q.2 v
  | false, Pattern v => LNotRegex q.1 q.2 v
  end.
Definition operator_meaning (o : operator) : aql_bop :=
  match o with
  | Dominates name d => BDominance name (distance_meaning d) None
  | DominatesBy name q eq v => BDominance name (RBound 1 1) (Some (by_meaning q eq v))
  | Points name d => BPointing name (distance_meaning d) None
  | PointsBy name q eq v => BPointing name (RBound 1 1) (Some (by_meaning q eq v))
  | Precedes seg d => BPrecedence seg (distance_meaning d)
  | IsNear seg d => BNear seg (distance_meaning d)
  | IsPartOf d => BPartOf (distance_meaning d)
  | Overlaps => BOverlap | CoversSame => BIdentCov | Includes => BInclusion | LeftAligned => BLeft | RightAligned => BRight | SameNode => BIdentNode
  end.
(** a chain is the conjunction of its operators, the right operand of an operator is the left one of the next *)
Fixpoint chain_meaning (ps : list nat) (lhs : aql_operand) (s : step) (l : list step) (before : option aql_expr) : aql_expr :=
  let rhs := term_meaning (drop (length (negation_words s.1.1 ++ operator_words s.1.2)) ps) s.2 in
  let this := Terminal (LBin lhs (operator_meaning s.1.2) rhs s.1.1) in
  let e := match before with Some e => And e this | None => this end in
  match l with
  | [] => e
  | s' :: l => chain_meaning (drop (length (step_words s)) ps) rhs s' l (Some e)
  end.
Fixpoint compare_meaning (lhs : vname) (s : bool * reference) (l : list (bool * reference)) (before : option aql_expr) : aql_expr :=
  let rhs := reference_meaning s.2 in
  let this := Terminal (LBin (ORef lhs) (BCompare s.1) (ORef rhs) false) in
  let e := match before with Some e => And e this | None => this end in
  match l with
  | [] => e
  | s' :: l => compare_meaning rhs s' l (Some e)
  end.
Definition part_meaning (ps : list nat) (p : part) : aql_expr :=
  match p with
  | PNode n => Terminal (LNode (search_meaning (n_search n)) (first ps) (n_var n) (n_optional n))
  | PChain t s l => chain_meaning (drop (length (term_words t)) ps) (term_meaning ps t) s l None
  | PCompare r s l => compare_meaning (reference_meaning r) s l None
  | PArity r d => Terminal (LUn (reference_meaning r) (UArity (distance_meaning d)))
  | PMeta q eq v => Terminal (LMeta (anno_search true q eq v))
  end.
Fixpoint meaning (level : nat) (ps : list nat) (q : query) : aql_expr :=
  match q with
  | QPart p => part_meaning ps p
  | QAnd a b => let ps := drop (if Nat.leb 2 level then 1 else 0) ps in And (meaning 1 ps a) (meaning 2 (drop (S (length (words 1 a))) ps) b)
  | QOr a b => let ps := drop (if Nat.leb 1 level then 1 else 0) ps in Or (meaning 0 ps a) (meaning 1 (drop (S (length (words 0 a))) ps) b)
  end.
