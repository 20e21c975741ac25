(** Model of the descriptions of the nodes of a query (corpusstorage.rs node_descriptions, conjunction.rs get_node_descriptions, nodesearch.rs Display).
    Not modelled: quirks mode. *)
From Coq Require Import NArith String.
From stdpp Require Import base list pretty.
From Verif Require Import KeySer CompPath NodeSearch Query AqlLexer AqlGrammar AqlParser.

(** types.rs l.26-39 *)
Record description := Description { d_alternative : nat; d_fragment : bytes; d_variable : bytes; d_anno_name : option bytes; d_optional : bool }.
(** nodesearch.rs l.299-355 *)
Definition display_name (ns : option bytes) (name : bytes) : bytes := match ns with Some ns => ns ++ str ":" ++ name | None => name end.
Definition display_spec (s : spec) : bytes :=
  match s with
  | SExact ns name (Some val) _ => display_name ns name ++ str "=""" ++ val ++ str """"
  | SExact ns name None _ => display_name ns name
  | SNotExact ns name val _ => display_name ns name ++ str "!=""" ++ val ++ str """"
  | SRegex ns name val _ => display_name ns name ++ str "=/" ++ val ++ str "/"
  | SNotRegex ns name val _ => display_name ns name ++ str "!=/" ++ val ++ str "/"
  | STokExact val leafs_only => if leafs_only then str "tok=""" ++ val ++ str """" else str """" ++ val ++ str """"
  | STokNotExact val => str "tok!=""" ++ val ++ str """"
  | STokRegex val leafs_only => if leafs_only then str "tok=/" ++ val ++ str "/" else str "/" ++ val ++ str "/"
  | STokNotRegex val => str "tok!=/" ++ val ++ str "/"
  | SAnyTok => str "tok"
  | SAnyNode => str "node"
  end.
(** conjunction.rs l.286-305: the name of the variable is the number as decimal text unless it is given *)
Definition variable_text (v : vname) : bytes := match v with Name s => s | Num n => str (pretty (N.of_nat n)) end.
(** conjunction.rs l.264-269 *)
Definition spec_anno_name (s : spec) : option bytes :=
  match s with SExact _ name _ _ => Some name | SRegex _ name _ _ => Some name | _ => None end.
(** conjunction.rs l.262-280 *)
Definition get_node_descriptions (q : qconj spec aql_bop aql_uop) : list description :=
  (λ n : vname * spec * bool, Description 0 (display_spec n.1.2) (variable_text n.1.1) (spec_anno_name n.1.2) n.2) <$> c_nodes q.
(** corpusstorage.rs l.2373-2379 *)
Fixpoint number_descriptions (component_nr : nat) (qs : list (qconj spec aql_bop aql_uop)) : list description :=
  match qs with
  | [] => []
  | alt :: r => ((λ n, Description component_nr (d_fragment n) (d_variable n) (d_anno_name n) (d_optional n)) <$> get_node_descriptions alt)
                ++ number_descriptions (S component_nr) r
  end.
Inductive described := Described (ds : list description) | QueryError | DescribePanic.
(** corpusstorage.rs l.2362-2382; aql/mod.rs l.487-560 *)
Definition node_descriptions (simplify : aql_expr → aql_expr) (query : bytes) : described :=
  match parse_aql query with
  | Panic => DescribePanic
  | SyntaxError => QueryError
  | Parsed e =>
      match map_alternatives 0 (get_alternatives_from_dnf (simplify e)) with
      | Some qs => Described (number_descriptions 0 qs)
      | None => QueryError
      end
  end.
