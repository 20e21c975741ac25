(** Model of frequency queries over stored corpora (/repo/graphannis/src/annis/db/corpusstorage.rs l.2274-2356): the labels are the ones of
    the annotation storage of the corpus (AnnoMem.v), the matches are the ones of the execution plan of the query (EndToEnd.v).
    Simplifications: as in Frequency.v. *)
From stdpp Require Import base list gmap.
From Coq Require Import NArith.
From Verif Require Import KeySer Types AnnoMem SortMatches TokenHelper Joins Query Frequency.

(** l.2290-2291, 2305, 2325: a corpus whose plan has these items *)
Definition stored (db : corpus) (items : list item) : fcorpus :=
  FCorpus (am_get_value (cp_annos db)) (am_get_qnames (cp_annos db)) (Some items).
