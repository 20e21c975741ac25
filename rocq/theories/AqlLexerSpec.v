(** The tokens of a text: at each position the longest match of a rule, and the first rule of several. The rules are the terminals of the
    grammar (/repo/graphannis/src/annis/db/aql/parser.lalrpop) as regular expressions. *)
From Coq Require Import NArith String.
From stdpp Require Import base list.
From Verif Require Import KeySer KeySerSpec CompPath AqlLexer.

Inductive regex := Text (l : bytes) | Chars (p : N → bool) | Seq (a b : regex) | Star (a : regex) | Maybe (a : regex).
Inductive matches : regex → bytes → Prop :=
| m_text l : matches (Text l) l
| m_chars p b : p b = true → matches (Chars p) [b]
| m_seq a b s t : matches a s → matches b t → matches (Seq a b) (s ++ t)
| m_star_nil a : matches (Star a) []
| m_star a s t : matches a s → matches (Star a) t → matches (Star a) (s ++ t)
| m_maybe_nil a : matches (Maybe a) []
| m_maybe a s : matches a s → matches (Maybe a) s.

Definition upper (b : N) : bool := (65 <=? b)%N && (b <=? 90)%N.
Definition lower (b : N) : bool := (97 <=? b)%N && (b <=? 122)%N.
Definition letter (b : N) : bool := upper b || lower b.
Definition digit (b : N) : bool := (48 <=? b)%N && (b <=? 57)%N.
Definition one_of (l : list N) (b : N) : bool := existsb (N.eqb b) l.
Definition none_of (l : list N) (b : N) : bool := negb (one_of l b).
(** [a-zA-Z_%][a-zA-Z0-9_\-%]* *)
Definition id_regex : regex := Seq (Chars (λ b, letter b || one_of [95; 37]%N b)) (Star (Chars (λ b, letter b || digit b || one_of [95; 45; 37]%N b))).
Definition letters_digits : regex := Star (Chars (λ b, letter b || digit b)).
Definition rule : Type := regex * (bytes → token).
Definition word (l : string) (t : token) : rule := (Text (str l), λ _, t).
Definition without_ends (s : bytes) : bytes := take (length s - 2) (drop 1 s).
Definition rules : list rule :=
  (* l.24-32 *)
  [word "tok" TTok; word "node" TNode; word "_=_" TIdentCov; word "_ident_" TIdentNode; word "_o_" TOverlap; word "_i_" TInclusion; word "_l_" TLeft; word "_r_" TRight;
   word "|" TOr; word "&" TAnd; word "(" TLPar; word ")" TRPar; word "?" TOptional; word "!" TBang; word "meta::" TMeta; word "@" TAt; word "==" TEqEq; word "!=" TNotEq;
   word ":arity" TArity; word "=" TEq; word "[" TLBr; word "]" TRBr; word "," TComma; word "*" TStar; word ":" TColon;
   (* l.34: [a-zA-Z_%][a-zA-Z0-9_\-%]* *)
   (id_regex, TId);
   (* l.35: #[0-9]+ *)
   (Seq (Text (str "#")) (Seq (Chars digit) (Star (Chars digit))), λ s, TNodeRef (drop 1 s));
   (* l.36: #[a-zA-Z][a-zA-Z0-9]* *)
   (Seq (Text (str "#")) (Seq (Chars letter) letters_digits), λ s, TVarRef (drop 1 s));
   (* l.37: [a-zA-Z][a-zA-Z0-9]*# *)
   (Seq (Seq (Chars letter) letters_digits) (Text (str "#")), λ s, TVarDef (take (length s - 1) s));
   (* l.38: [0-9]+ *)
   (Seq (Chars digit) (Star (Chars digit)), TDigits);
   (* l.322, l.331: >([a-zA-Z_%][a-zA-Z0-9_\-%]* )? *)
   (Seq (Text (str ">")) (Maybe id_regex), λ s, TDom (drop 1 s));
   (* l.348, l.357: ->[a-zA-Z_%][a-zA-Z0-9_\-%]* *)
   (Seq (Text (str "->")) id_regex, λ s, TPoint (drop 2 s));
   (* l.374: \.([a-zA-Z_%][a-zA-Z0-9_\-%]* )? *)
   (Seq (Text (str ".")) (Maybe id_regex), λ s, TPrec (drop 1 s));
   (* l.394: \^([a-zA-Z_%][a-zA-Z0-9_\-%]* )? *)
   (Seq (Text (str "^")) (Maybe id_regex), λ s, TNear (drop 1 s));
   (* l.463: a quotation mark (34), others, a quotation mark *)
   (Seq (Text [34%N]) (Seq (Star (Chars (none_of [34%N]))) (Text [34%N])), λ s, TQuoted (without_ends s));
   (* l.466: /[^/\\]*(\\.[^/\\]* )*/ *)
   (Seq (Text (str "/")) (Seq (Star (Chars (none_of [47; 92]%N)))
     (Seq (Star (Seq (Text [92%N]) (Seq (Chars (none_of [10%N])) (Star (Chars (none_of [47; 92]%N)))))) (Text (str "/")))), λ s, TRegex (without_ends s))].

(** The white space characters of Unicode in UTF-8: U+0009 to U+000D, U+0020, U+0085, U+00A0, U+1680, U+2000 to U+200A, U+2028, U+2029, U+202F,
    U+205F and U+3000 *)
Definition white_spaces : list bytes :=
  [[9]; [10]; [11]; [12]; [13]; [32]; [194; 133]; [194; 160]; [225; 154; 128];
   [226; 128; 128]; [226; 128; 129]; [226; 128; 130]; [226; 128; 131]; [226; 128; 132]; [226; 128; 133]; [226; 128; 134]; [226; 128; 135]; [226; 128; 136]; [226; 128; 137]; [226; 128; 138];
   [226; 128; 168]; [226; 128; 169]; [226; 128; 175]; [226; 129; 159]; [227; 128; 128]]%N.
(** The tokens of a text that starts at the offset [off] *)
Inductive Tokenized : nat → bytes → list (nat * token) → Prop :=
| tokenized_end off : Tokenized off [] []
| tokenized_space off w s ts : w ∈ white_spaces → Tokenized (off + length w) s ts → Tokenized off (w ++ s) ts
| tokenized_token off w s ts i r make : w ≠ [] → rules !! i = Some (r, make) → matches r w →
    (∀ j r' make' w' s', rules !! j = Some (r', make') → matches r' w' → w ++ s = w' ++ s' → length w' < length w ∨ length w' = length w ∧ i ≤ j) →
    Tokenized (off + length w) s ts → Tokenized off (w ++ s) ((off, make w) :: ts).
