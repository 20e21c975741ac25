(** What the description of a node search says. *)
From Coq Require Import NArith String.
From stdpp Require Import base list.
From Verif Require Import KeySer CompPath NodeSearch Query AqlSpec Descriptions.

(** The description with the index [j] of all, in the alternative [i], of a node search: the words of the search without spaces, its
    variable or the number of the node, its annotation name unless the search is negated *)
Record describes (i j : nat) (n : node) (d : description) : Prop := Describes {
  ds_alternative : d_alternative d = i;
  ds_fragment : d_fragment d = concat (search_words (n_search n));
  ds_variable : d_variable d = match n_var n with Some v => v | None => number_word (N.of_nat (j + 1)) end;
  ds_anno_name : d_anno_name d = match n_search n with FindAnno q true _ | FindName q => Some q.2 | _ => None end;
  ds_optional : d_optional d = n_optional n }.
(** The name of the annotation of a search, with its namespace *)
Definition searched_name (s : search) : option qualified := match s with FindAnno q _ _ | FindName q => Some q | _ => None end.
Definition starts_with_arity (s : search) : Prop := ∃ ns name, searched_name s = Some (Some ns, name) ∧ take 5 name = str "arity".
