(** Model of the lexer of AQL queries (/repo/graphannis/src/annis/db/aql/parser.lalrpop). The lexer is generated by LALRPOP from the
    terminals of the grammar: at each position the longest match of a terminal is taken, of several terminals with the same match the one
    with the highest precedence (the first group of l.24-32, then literals, then regular expressions), and white space is skipped.
    The regular expressions are scanners, which AqlLexerProofs.v compares with the regular expressions. Queries are their UTF-8 bytes. *)
From Coq Require Import NArith String.
From stdpp Require Import base list.
From Verif Require Import KeySer KeySerSpec CompPath.

(** The terminals of the grammar; those with text have the text without the marks around it *)
Inductive token :=
| TTok | TNode | TIdentCov | TIdentNode | TOverlap | TInclusion | TLeft | TRight
| TId (s : bytes) | TNodeRef (s : bytes) | TVarRef (s : bytes) | TVarDef (s : bytes) | TDigits (s : bytes)
| TDom (s : bytes) | TPoint (s : bytes) | TPrec (s : bytes) | TNear (s : bytes) | TQuoted (s : bytes) | TRegex (s : bytes)
| TOr | TAnd | TLPar | TRPar | TOptional | TBang | TMeta | TAt | TEqEq | TNotEq | TArity | TEq | TLBr | TRBr | TComma | TStar | TColon.

(** ** Scanners: the length of the longest prefix that matches *)
Definition between (a b x : N) : bool := (a <=? x)%N && (x <=? b)%N.
Definition is_alpha (b : N) : bool := between 65 90 b || between 97 122 b.
Definition is_num (b : N) : bool := between 48 57 b.
Definition is_alnum (b : N) : bool := is_alpha b || is_num b.
(** [a-zA-Z_%] and [a-zA-Z0-9_\-%] *)
Definition id_start (b : N) : bool := is_alpha b || (b =? 95)%N || (b =? 37)%N.
Definition id_char (b : N) : bool := id_start b || is_num b || (b =? 45)%N.
Fixpoint span (p : N → bool) (s : bytes) : nat := match s with b :: r => if p b then S (span p r) else 0 | [] => 0 end.
Definition scan_lit (l s : bytes) : option nat := if decide (take (length l) s = l) then Some (length l) else None.
(** l.34: [a-zA-Z_%][a-zA-Z0-9_\-%]* *)
Definition scan_id (s : bytes) : option nat := match s with b :: r => if id_start b then Some (S (span id_char r)) else None | [] => None end.
(** l.38: [0-9]+ *)
Definition scan_digits (s : bytes) : option nat := match span is_num s with 0 => None | n => Some n end.
(** l.35: #[0-9]+ *)
Definition scan_node_ref (s : bytes) : option nat :=
  match s with b :: r => if (b =? 35)%N then match span is_num r with 0 => None | n => Some (S n) end else None | [] => None end.
(** l.36: #[a-zA-Z][a-zA-Z0-9]* *)
Definition scan_var_ref (s : bytes) : option nat :=
  match s with b :: a :: r => if (b =? 35)%N && is_alpha a then Some (S (S (span is_alnum r))) else None | _ => None end.
(** l.37: [a-zA-Z][a-zA-Z0-9]*# *)
Definition scan_var_def (s : bytes) : option nat :=
  match s with
  | a :: r => if is_alpha a then match r !! span is_alnum r with Some b => if (b =? 35)%N then Some (S (S (span is_alnum r))) else None | None => None end else None
  | [] => None
  end.
(** l.322, l.331: >([a-zA-Z_%][a-zA-Z0-9_\-%]* )?, l.374 with a dot and l.394 with a circumflex *)
Definition scan_op (c : N) (s : bytes) : option nat :=
  match s with b :: r => if (b =? c)%N then Some (S (default 0 (scan_id r))) else None | [] => None end.
(** l.348, l.357: ->[a-zA-Z_%][a-zA-Z0-9_\-%]* *)
Definition scan_point (s : bytes) : option nat :=
  match s with b :: a :: r => if (b =? 45)%N && (a =? 62)%N then match scan_id r with Some n => Some (S (S n)) | None => None end else None | _ => None end.
(** l.463: a quotation mark, anything but quotation marks, a quotation mark *)
Definition scan_quoted (s : bytes) : option nat :=
  match s with
  | b :: r => if (b =? 34)%N then let n := span (λ c, negb (c =? 34)%N) r in if decide (r !! n = Some 34%N) then Some (S (S n)) else None else None
  | [] => None
  end.
(** l.466: /[^/\\]*(\\.[^/\\]* )*/ where the dot is anything but a line feed; [scan_body] is the length up to the closing slash *)
Fixpoint scan_body (s : bytes) : option nat :=
  match s with
  | [] => None
  | b :: r =>
      if (b =? 47)%N then Some 1
      else if (b =? 92)%N then
        match r with
        | c :: r' => if (c =? 10)%N then None else match scan_body r' with Some n => Some (S (S n)) | None => None end
        | [] => None
        end
      else match scan_body r with Some n => Some (S n) | None => None end
  end.
Definition scan_regex (s : bytes) : option nat :=
  match s with b :: r => if (b =? 47)%N then match scan_body r with Some n => Some (S n) | None => None end else None | [] => None end.

(** ** The terminals in the order of their precedence *)
Notation terminal := ((bytes → option nat) * (bytes → token))%type.
Definition lit (l : string) (t : token) : terminal := (scan_lit (str l), λ _, t).
(** the text without its first and last byte *)
Definition inner (s : bytes) : bytes := take (length s - 2) (drop 1 s).
Definition terminals : list terminal :=
  (* l.24-32 *)
  [lit "tok" TTok; lit "node" TNode; lit "_=_" TIdentCov; lit "_ident_" TIdentNode; lit "_o_" TOverlap; lit "_i_" TInclusion; lit "_l_" TLeft; lit "_r_" TRight] ++
  (* literals of the rules *)
  [lit "|" TOr; lit "&" TAnd; lit "(" TLPar; lit ")" TRPar; lit "?" TOptional; lit "!" TBang; lit "meta::" TMeta; lit "@" TAt; lit "==" TEqEq; lit "!=" TNotEq;
   lit ":arity" TArity; lit "=" TEq; lit "[" TLBr; lit "]" TRBr; lit "," TComma; lit "*" TStar; lit ":" TColon] ++
  (* l.34-38 and regular expressions of the rules *)
  [(scan_id, TId); (scan_node_ref, λ s, TNodeRef (drop 1 s)); (scan_var_ref, λ s, TVarRef (drop 1 s)); (scan_var_def, λ s, TVarDef (take (length s - 1) s)); (scan_digits, TDigits);
   (scan_op 62, λ s, TDom (drop 1 s)); (scan_point, λ s, TPoint (drop 2 s)); (scan_op 46, λ s, TPrec (drop 1 s)); (scan_op 94, λ s, TNear (drop 1 s));
   (scan_quoted, λ s, TQuoted (inner s)); (scan_regex, λ s, TRegex (inner s))].
(** the longest match, the first one of several *)
Fixpoint longest (ts : list terminal) (s : bytes) : option (nat * (bytes → token)) :=
  match ts with
  | [] => None
  | (scan, make) :: ts =>
      match scan s, longest ts s with
      | Some n, Some (m, make') => if n <? m then Some (m, make') else Some (n, make)
      | Some n, None => Some (n, make)
      | None, r => r
      end
  end.
(** \s: the length of the white space character at the start, 0 if there is none *)
Definition space_len (s : bytes) : nat :=
  match s with
  | b :: r =>
      if between 9 13 b || (b =? 32)%N then 1
      else match r with
      | c :: r' =>
          if (b =? 194)%N && ((c =? 133)%N || (c =? 160)%N) then 2
          else match r' with
          | d :: _ => if ((b =? 225)%N && (c =? 154)%N && (d =? 128)%N) ||
                         ((b =? 226)%N && (c =? 128)%N && (between 128 138 d || (d =? 168)%N || (d =? 169)%N || (d =? 175)%N)) ||
                         ((b =? 226)%N && (c =? 129)%N && (d =? 159)%N) || ((b =? 227)%N && (c =? 128)%N && (d =? 128)%N) then 3 else 0
          | [] => 0
          end
      | [] => 0
      end
  | [] => 0
  end.
(** the tokens with their start; [None] is the error InvalidToken *)
Fixpoint lex (fuel off : nat) (s : bytes) : option (list (nat * token)) :=
  match fuel, s with
  | _, [] => Some []
  | 0, _ => None
  | S fuel, _ =>
      match space_len s with
      | 0 => match longest terminals s with
             | Some (n, make) => match lex fuel (off + n) (drop n s) with Some ts => Some ((off, make (take n s)) :: ts) | None => None end
             | None => None
             end
      | n => lex fuel (off + n) (drop n s)
      end
  end.
Definition tokens (s : bytes) : option (list (nat * token)) := lex (length s) 0 s.
