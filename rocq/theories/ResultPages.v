(** Model of the requests for results and their number in several corpora (/repo/graphannis/src/annis/db/corpusstorage.rs l.1592-1617,
    1994-2072): the iterators of the execution plans (EndToEnd.v) are the input of counting and of finding with offset and limit (Paging.v).
    Simplifications: as in Paging.v; a match is tagged with the number of its corpus, so that the comparison and the description of
    matches, which depend on the corpus, are functions of the tagged match. *)
From stdpp Require Import base list.
From Verif Require Import Types SortMatches Joins Paging.

(** l.1738-1739, 1767-1772: an item of the plan of the corpus [i]; an error ends the request *)
Definition tag_item (i : nat) (it : item) : option (nat * group) := match it with IOk g => Some (i, g) | IErr | IPanic => None end.
(** The items of the plan of a corpus, and whether they are returned in their order (l.1730-1739) *)
Record run := Run { r_items : list item; r_direct : bool }.
Definition corpus_search (i : nat) (r : run) : Paging.search (nat * group) := Paging.Search (tag_item i <$> r_items r) (r_direct r).
Definition searches (runs : list run) : list (Paging.search (nat * group)) := imap corpus_search runs.
