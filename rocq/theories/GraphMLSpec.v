(** Specification of the round trip through GraphML. *)
From Coq Require Import NArith String.
From stdpp Require Import base list gmap.
From Verif Require Import KeySer Types GraphApply GraphApplySpec CompPath.

(** No character that has to be escaped in XML *)
Definition xml_plain (s : bytes) : Prop := Forall (λ b, b ∉ [34; 38; 39; 60; 62]%N) s.
(** No character that has to be escaped in a qualified name or in XML *)
Definition key_plain (s : bytes) : Prop := Forall (λ b, (32 < b < 127)%N ∧ b ≠ 58%N ∧ b ≠ 37%N) s ∧ xml_plain s.
Definition no_cdata_end (s : bytes) : Prop := ∀ a b, s ≠ a ++ str "]]>" ++ b.

(** Graphs which GraphML can represent: every node has a type, and no name needs an escape. Only the values of labels are arbitrary. [auto] are
    the components which are created by the index, [ct] and [ctname] parse and print the type of a component. *)
Record exportable (ct : bytes → option N) (ctname : N → bytes) (auto : list comp) (A : lgraph) : Prop := {
  ex_nodes : ∀ n, is_node A n → xml_plain n ∧ is_Some (lg_labels A !! (n, node_type_key));
  ex_keys : ∀ n k, is_Some (lg_labels A !! (n, k)) → key_plain (ak_ns k) ∧ key_plain (ak_name k);
  ex_ekeys : ∀ c p k, c ∉ auto → is_Some (lg_elabels A !! (c, p, k)) → key_plain (ak_ns k) ∧ key_plain (ak_name k);
  ex_comps : ∀ t l n p, ((t, l, n), p) ∈ lg_edges A → (t, l, n) ∉ auto →
    ct (ctname t) = Some t ∧ slash ∉ ctname t ∧ slash ∉ l ∧ xml_plain (ctname t) ∧ xml_plain l ∧ xml_plain n
}.

(** The graph which is expected: all nodes and labels, and all edges and their labels, except the ones in components which are created by the
    index. [D] are the components of every new graph. *)
Definition written (auto : list comp) (D : gset comp) (A : lgraph) : lgraph :=
  let E := filter (λ x, x.1 ∉ auto) (lg_edges A) in
  LGraph (lg_labels A) (D ∪ set_map fst E) E (filter (λ x, x.1.1.1 ∉ auto) (lg_elabels A)).

(** The abstract graph without nodes *)
Definition lg_start (D : gset comp) : lgraph := LGraph ∅ D ∅ ∅.
