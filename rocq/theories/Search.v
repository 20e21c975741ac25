(** The search based queries of any storage whose neighbour functions hold the edge set [G] *)
From stdpp Require Import base list gmap fin_maps fin_sets.
From Coq Require Import NArith Lia.
From Verif Require Import KeySer SortedMap Types SymbolTable Dfs DfsProofs DfsQueries GraphSpec Adjacency AdjacencySpec AdjacencyProofs.

Section search.
Context (G : gset edge) (out inn : N → list N).
Context (Hout : ∀ x y, y ∈ out x ↔ Edge x y ∈ G) (Hinn : ∀ x y, x ∈ inn y ↔ Edge x y ∈ G).
Context (Hids : ids_ok G).
Notation R := (edge_rel G).

Lemma sv_out (n a b : N) : a ∈ ({[n]} ∪ all_nodes G : gset N) → b ∈ out a → b ∈ ({[n]} ∪ all_nodes G : gset N).
Proof using Hout. intros _ Hb%Hout. apply (all_nodes_edge G a b) in Hb. apply elem_of_union. right. apply Hb. Qed.
Lemma sv_in (n a b : N) : a ∈ ({[n]} ∪ all_nodes G : gset N) → b ∈ inn a → b ∈ ({[n]} ∪ all_nodes G : gset N).
Proof using Hinn. intros _ Hb%Hinn. apply (all_nodes_edge G b a) in Hb. apply elem_of_union. right. apply Hb. Qed.
Lemma sv_self (n : N) : n ∈ ({[n]} ∪ all_nodes G : gset N).
Proof using. apply elem_of_union. left. by apply elem_of_singleton. Qed.
Lemma si_out a b : b ∈ out a → (a < node_bound)%N ∧ (b < node_bound)%N.
Proof using Hout Hids. intros Hb%Hout. by apply Hids. Qed.
Lemma si_in a b : b ∈ inn a → (a < node_bound)%N ∧ (b < node_bound)%N.
Proof using Hinn Hids. intros Hb%Hinn. destruct (Hids _ _ Hb). done. Qed.

Lemma search_find n min max : max ≠ Excluded 0%N →
  ∃ f0, ∀ f, f0 ≤ f → ∃ l, find_connected f out n min max = Some l ∧ NoDup l ∧
    ∀ m, m ∈ l ↔ ∃ p, simple_path R n p m ∧ in_distance min max (length p).
Proof using Hout Hids.
  intros Hm. destruct (find_connected_lemma out _ (sv_out n) si_out n min max (sv_self n) Hm) as (f0 & Hf).
  exists f0. intros f Hf0. destruct (Hf f Hf0) as (l & El & Hnd & Hl). exists l. split_and!; [done..|].
  intros m. rewrite Hl. f_equiv. intros p. f_equiv. apply simple_path_ext. intros a b. by apply Hout.
Qed.
Lemma search_find_inverse n min max : max ≠ Excluded 0%N →
  ∃ f0, ∀ f, f0 ≤ f → ∃ l, find_connected_inverse f inn n min max = Some l ∧ NoDup l ∧
    ∀ m, m ∈ l ↔ ∃ p, simple_path R m p n ∧ in_distance min max (length p).
Proof using Hinn Hids.
  intros Hm. destruct (find_connected_inverse_lemma inn _ (sv_in n) si_in n min max (sv_self n) Hm) as (f0 & Hf).
  exists f0. intros f Hf0. destruct (Hf f Hf0) as (l & El & Hnd & Hl). exists l. split_and!; [done..|].
  intros m. rewrite Hl. split.
  - intros (p & Hp & Hd). apply (simple_path_ext _ (λ a b, R b a)) in Hp; [|intros a b; by apply Hinn].
    apply simple_path_reverse in Hp as (q & Hq & Hlen). exists q. rewrite Hlen. done.
  - intros (p & Hp & Hd). apply simple_path_reverse in Hp as (q & Hq & Hlen). exists q. rewrite Hlen. split; [|done].
    eapply simple_path_ext; [|done]. intros a b. by apply Hinn.
Qed.
Lemma search_is_connected n t min max : max ≠ Excluded 0%N →
  ∃ f0, ∀ f, f0 ≤ f → ∃ b, is_connected f out n t min max = Some b ∧
    (b = true ↔ ∃ p, simple_path R n p t ∧ in_distance min max (length p)).
Proof using Hout Hids.
  intros Hm. destruct (is_connected_lemma out _ (sv_out n) si_out n t min max (sv_self n) Hm) as (f0 & Hf).
  exists f0. intros f Hf0. destruct (Hf f Hf0) as (b & El & Hb). exists b. split; [done|].
  rewrite Hb. f_equiv. intros p. f_equiv. apply simple_path_ext. intros a c. by apply Hout.
Qed.
Lemma search_distance n t :
  ∃ f0, ∀ f, f0 ≤ f → ∃ r, distance f out n t = Some r ∧
    match r with
    | Some d => ∃ p, simple_path R n p t ∧ length p = d
    | None => ¬ reachable R n t
    end.
Proof using Hout Hids.
  destruct (distance_lemma out _ (sv_out n) si_out n t (sv_self n)) as (f0 & Hf).
  exists f0. intros f Hf0. destruct (Hf f Hf0) as (r & El & Hr). exists r. split; [done|]. destruct r.
  - destruct Hr as (p & Hp & Hlen). exists p. split; [|done]. eapply simple_path_ext; [|done]. intros a c. symmetry. by apply Hout.
  - intros [p Hp]. apply Hr. exists p. eapply walk_ext; [|done]. intros a c. by apply Hout.
Qed.
End search.

(** Paths in graphs with at most one outgoing edge per node *)
Lemma one_child_prefix (E : N → N → Prop) : (∀ x a b, E x a → E x b → a = b) →
  ∀ p s t q u, walk E s p t → walk E s q u → length p ≤ length q → p `prefix_of` q.
Proof.
  intros H1. induction p as [|x p IH]; intros s t q u Hp Hq Hl; [apply prefix_nil|].
  destruct q as [|y q]; [simpl in Hl; lia|]. simpl in *. destruct Hp as [Hx Hp], Hq as [Hy Hq].
  assert (x = y) as -> by (by apply (H1 s)). apply prefix_cons. eapply IH; [done|done|lia].
Qed.
Lemma walk_end (E : N → N → Prop) p x t : walk E x p t → t = default x (last p).
Proof.
  revert x. induction p as [|y p IH]; intros x; simpl; [done|]. intros [_ Hw]. rewrite (IH _ Hw). destruct p; [done|].
  rewrite !last_cons_cons. simpl. destruct (last (n :: p)) eqn:E1; [done|]. by apply last_None in E1.
Qed.
Lemma one_child_unique (E : N → N → Prop) : (∀ x a b, E x a → E x b → a = b) →
  ∀ s t p q, simple_path E s p t → simple_path E s q t → p = q.
Proof.
  intros H1. assert (∀ s t p q, simple_path E s p t → simple_path E s q t → length p ≤ length q → p = q) as H.
  { intros s t p q [Hp Np] [Hq Nq] Hl. destruct (one_child_prefix E H1 p s t q t Hp Hq Hl) as [r ->].
    destruct r as [|y r] using rev_ind; [by rewrite app_nil_r|]. exfalso.
    pose proof (walk_end _ _ _ _ Hp) as E1. pose proof (walk_end _ _ _ _ Hq) as E2.
    rewrite (assoc_L (++)), last_snoc in E2. simpl in E2. subst y.
    assert (t ∈ s :: p) as Hin.
    { rewrite E1. destruct (last p) eqn:E3; simpl; [|by left]. right. apply last_Some in E3 as [l' ->].
      apply elem_of_app. right. by left. }
    rewrite (assoc_L (++)) in Nq. change (s :: (p ++ r) ++ [t]) with ((s :: p ++ r) ++ [t]) in Nq.
    apply NoDup_app in Nq as (_ & Nq & _). apply (Nq t); [|by left].
    change (s :: p ++ r) with ((s :: p) ++ r). apply elem_of_app. by left. }
  intros s t p q Hp Hq. destruct (decide (length p ≤ length q)); [by eapply H|]. symmetry. eapply H; [done|done|lia].
Qed.
