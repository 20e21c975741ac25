(** The context of matches. *)
From stdpp Require Import base list gmap.
From Coq Require Import NArith.
From Verif Require Import KeySer SortedMap Types SymbolTable AnnoMem AnnoSpec GraphSpec Adjacency AdjacencySpec Storage StorageSpec
  GraphApply TokenHelper TokenSearchSpec.

(** The elements of a hash set in any order *)
Definition hash_order (hash : gset N → list N) : Prop := ∀ X, NoDup (hash X) ∧ ∀ x, x ∈ hash X ↔ x ∈ X.
(** From a node outside of the component, a search for the distance 0 finds at most this node *)
Definition at_most_itself (gs : storage) (G : gset edge) : Prop :=
  ∀ x y, x ∉ all_nodes G → y ∈ gs_connected gs x 0 (Included 0%N) ∨ y ∈ gs_connected_inverse gs x 0 (Included 0%N) → y = x.

(** [n] covers [t] *)
Definition covers (c : content) (n t : N) : Prop := ∃ G, G ∈ ct_cov c ∧ edge_rel G n t.
(** Tokens of a match: the token itself or the tokens it covers *)
Definition covered (c : content) (n t : N) : Prop := token c t ∧ (t = n ∨ covers c n t ∧ ¬ token c n).
(** All covered tokens are from one text *)
Definition one_text (c : content) (n : N) : Prop :=
  ∀ a b, covered c n a → covered c n b → a = b ∨ precedes c a b ∨ precedes c b a.

(** [s] is [k] steps before [x], or less if the text starts with [s] *)
Definition clipped_before (G : gset edge) (x : N) (k : nat) (s : N) : Prop :=
  ∃ p, walk (edge_rel G) s p x ∧ length p ≤ k ∧ (length p = k ∨ ¬ is_target G s).
Definition clipped_after (G : gset edge) (x : N) (k : nat) (e : N) : Prop :=
  ∃ p, walk (edge_rel G) x p e ∧ length p ≤ k ∧ (length p = k ∨ ¬ is_source G e).

(** The token [t] is in the context of the match [n]: between two of its tokens, at most [l] tokens before or at most [r] tokens
    after one of them *)
Definition in_context (c : content) (n : N) (l r : nat) (t : N) : Prop :=
  (∃ a b, covered c n a ∧ covered c n b ∧ reachable (edge_rel (ct_order c)) a t ∧ reachable (edge_rel (ct_order c)) t b) ∨
  (∃ a p, covered c n a ∧ walk (edge_rel (ct_order c)) t p a ∧ length p ≤ l) ∨
  (∃ b p, covered c n b ∧ walk (edge_rel (ct_order c)) b p t ∧ length p ≤ r).
(** The first and the last token of a match *)
Definition first_covered (c : content) (n a : N) : Prop :=
  covered c n a ∧ ∀ t, covered c n t → reachable (edge_rel (ct_order c)) a t.
Definition last_covered (c : content) (n b : N) : Prop :=
  covered c n b ∧ ∀ t, covered c n t → reachable (edge_rel (ct_order c)) t b.
(** [S] are the order edges of a segmentation, [x] is a segment which shares a token with [n] *)
Definition segment_of (c : content) (S : gset edge) (n x : N) : Prop := x ∈ all_nodes S ∧ ∃ t, covered c n t ∧ covers c x t.
(** [t] is the token at the left (right) border of [x] *)
Definition left_border (c : content) (x t : N) : Prop := token c x ∧ t = x ∨ ¬ token c x ∧ edge_rel (ct_left c) x t.
Definition right_border (c : content) (x t : N) : Prop := token c x ∧ t = x ∨ ¬ token c x ∧ edge_rel (ct_right c) x t.
(** In the order of the text *)
Definition in_text_order (c : content) (l : list N) : Prop :=
  ∀ i j a b, l !! i = Some a → l !! j = Some b → i < j → precedes c a b.
(** The contexts of two matches are the same, or one is completely before the other one in the text *)
Definition apart (c : content) (l r : nat) (n m : N) : Prop :=
  (∀ t, in_context c n l r t ↔ in_context c m l r t) ∨
  (∀ t u, in_context c n l r t → in_context c m l r u → precedes c t u) ∨
  (∀ t u, in_context c n l r t → in_context c m l r u → precedes c u t).
(** There is a gap between the tokens [a] and [b] of [nodes]: other tokens of the text are between them, but none of [nodes] *)
Definition gap (c : content) (nodes : list N) (a b : N) : Prop :=
  a ∈ nodes ∧ b ∈ nodes ∧ token c a ∧ token c b ∧ precedes c a b ∧ ¬ edge_rel (ct_order c) a b ∧
  ∀ u, u ∈ nodes → token c u → precedes c a u → ¬ precedes c u b.
(** Nodes of the context of the match [n]: its tokens in text order, and each token after the nodes which cover it *)
Definition window_nodes (c : content) (n : N) (l r : nat) (out : list N) : Prop :=
  ∃ groups : list (list N * N),
    out = mjoin ((λ g, g.1 ++ [g.2]) <$> groups) ∧ in_text_order c groups.*2 ∧
    (∀ t, t ∈ groups.*2 ↔ in_context c n l r t) ∧
    ∀ ns t, (ns, t) ∈ groups → NoDup ns ∧ ∀ y, y ∈ ns ↔ covers c y t.
