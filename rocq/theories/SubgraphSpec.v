(** What a copied subgraph is. *)
From stdpp Require Import base list gmap.
From Coq Require Import NArith.
From Verif Require Import KeySer SortedMap Types SymbolTable AnnoMem AnnoSpec GraphSpec Adjacency AdjacencySpec Storage StorageSpec GraphApply
  SortMatches Joins EdgeOps EdgeOpsSpec TokenHelper TokenSearchSpec Subgraph.

(** The nodes at the given positions of the matches *)
Definition chosen (it : list item) (idx : list nat) (n : N) : Prop := ∃ r i k, IOk r ∈ it ∧ i ∈ idx ∧ r !! i = Some (n, k).
(** A function gives the labels of all nodes *)
Definition gives_labels (f : N → list (anno_key * bytes)) (L : gmap (N * anno_key) bytes) : Prop :=
  ∀ n, NoDup (f n).*1 ∧ ∀ k v, (k, v) ∈ f n ↔ L !! (n, k) = Some v.
(** Components which are computed from others *)
Definition index_component (c : cname) : Prop :=
  cn_type c = 5%N ∨ cn_type c = 6%N ∨ (cn_type c = 0%N ∧ cn_layer c = annis ∧ cn_name c ≠ []).
(** The components that are copied *)
Definition copied (W : cname → option component) (ctype : option N) (c : cname) : Prop :=
  is_Some (W c) ∧ ¬ index_component c ∧ ∀ t, ctype = Some t → cn_type c = t.
(** Components as they are left by updates: no loops, and labels only for edges *)
Definition plain (W : cname → option component) : Prop :=
  ∀ c C, W c = Some C → (∀ x, Edge x x ∉ co_edges C) ∧ ∀ e k, is_Some (co_labels C !! (e, k)) → e ∈ co_edges C.
(** [n] has a label, so it is a node of the graph *)
Definition labelled (L : gmap (N * anno_key) bytes) (n : N) : Prop := ∃ k, is_Some (L !! (n, k)).
(** The list without the later ones of equal elements *)
Fixpoint firsts (seen : list match_) (l : list match_) : list match_ :=
  match l with
  | [] => []
  | m :: r => if decide (m ∈ seen) then firsts seen r else m :: firsts (m :: seen) r
  end.
(** The matches at the given positions, one after the other *)
Definition chosen_list (it : list item) (idx : list nat) : list match_ :=
  mjoin ((λ r, match r with IOk g => omap (λ i, g !! i) idx | _ => [] end) <$> it).
(** [a] and [b] follow each other in the list *)
Definition adjacent (l : list N) (a b : N) : Prop := ∃ l1 l2, l = l1 ++ a :: b :: l2.
(** Chosen tokens which follow each other but not in the text: more than one step apart in the order of the text *)
Definition apart_in (token : N → bool) (distance : N → N → option N) (ms : list match_) (a b : N) : Prop :=
  adjacent (filter (λ n, token n = true) (firsts [] ms).*1) a b ∧ ∃ d, distance a b = Some d ∧ (1 < d)%N.
(** The token [b] is the next token after [a] in the list of matches (without repetitions), and comes later in the same text, but not directly *)
Definition next_after_gap (c : content) (ms : list match_) (a b : N) : Prop :=
  (∃ l1 mid l2, (firsts [] ms).*1 = l1 ++ a :: mid ++ b :: l2 ∧ token c a ∧ token c b ∧ ∀ x, x ∈ mid → ¬ token c x) ∧
  precedes c a b ∧ ¬ edge_rel (ct_order c) a b.
(** The number of labels that are copied, with repetitions *)
Definition node_labels (f : N → list (anno_key * bytes)) (ms : list match_) : nat := sum_list_with (λ m : match_, length (f m.1)) ms.
Definition edge_labels (cs : components) (ms : list match_) : nat :=
  sum_list_with (λ m : match_, sum_list_with (λ c : cname * option storage, match c.2 with
    | Some gs => sum_list_with (λ t, length (am_get_annotations (gs_annos gs) (Edge m.1 t))) (gs_out gs m.1)
    | None => 0
    end) cs) ms.
