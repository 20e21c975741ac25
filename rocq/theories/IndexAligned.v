(** From the derived edges of a graph to the conditions of the operators on tokens. *)
From stdpp Require Import base list gmap.
From Coq Require Import NArith Lia.
From Verif Require Import KeySer SortedMap Types SymbolTable AnnoMem AnnoSpec GraphSpec Adjacency AdjacencySpec Storage GraphUpdate GraphApply GraphApplySpec TokenHelper
  TokenSearchSpec ContextSpec TokenOpsSpec DfsProofs Index IndexSpec IndexHist.

Section aligned.
  Context (st : gstate) (c : content) (IC : index_correct st) (SC : same_content st c) (AP : tokens_apart st) (AC : order_acyclic st) (OT : ∀ n, in_one_text st n).
  Lemma coverage_apart x t : coverage_edge st x t → text_edge st x t.
  Proof. by left. Qed.
  Lemma covers_iff x t : covers c x t ↔ coverage_edge st x t ∨ edge_in st inherited x t.
  Proof using SC.
    rewrite (sc_cov _ _ SC). split.
    - intros (k & Hk & He). destruct (decide (k = inherited)) as [->|Hn]; [by right|]. left. by exists k.
    - intros [(k & Hk & _ & He)|He]; [by exists k|]. exists inherited. by split.
  Qed.
  Lemma source_covers x : covers_something c x ↔ ∃ y, covers c x y.
  Proof.
    unfold covers_something, covers, is_source, edge_rel. split.
    - intros (G & HG & y & Hy). by exists y, G.
    - intros (y & G & HG & Hy). exists G. split; [done|]. by exists y.
  Qed.
  Lemma token_same n : token c n ↔ text_token st n.
  Proof using IC SC AP.
    unfold token, text_token. rewrite (sc_labels _ _ SC), source_covers. split; intros [Hl Hn]; (split; [done|]); intros [y Hy]; apply Hn.
    - exists y. apply covers_iff. by left.
    - apply covers_iff in Hy as [Hy|Hy]; [by exists y|]. exfalso. apply (ic_inherited _ IC) in Hy as [(Hne & Ht & Hr) _]. apply Hne, AP; done.
  Qed.
  Lemma covered_same x t : ¬ token c x → covered c x t ↔ text_of st x t.
  Proof using IC SC AP.
    intros Hx. unfold covered. split.
    - intros [Ht [->|[Hc _]]]; [done|]. assert (x ≠ t) as Hne by (by intros ->). apply covers_iff in Hc as [Hc|Hc]; [|by apply (ic_inherited _ IC) in Hc as [? _]].
      split_and!; [done|by apply token_same|]. exists [t]. split; [by left|done].
    - intros Ht. pose proof Ht as (Hne & Htok & _). split; [by apply token_same|]. right. split; [|done].
      apply covers_iff. destruct (decide (Exists (λ k : comp, k.1.1 = t_coverage ∧ k ≠ inherited ∧ t ∈ from_option (λ g, adj_out g x) [] (g_comps st !! k)) (elements (dom (g_comps st))))) as [Hd|Hd].
      + left. apply Exists_exists in Hd as (k & _ & A & B & D). exists k. split_and!; [done|done|]. destruct (g_comps st !! k) as [g|] eqn:E; [|by apply elem_of_nil in D]. by exists g.
      + right. apply (ic_inherited _ IC). split; [done|]. intros (k & A & B & g & E & D). apply Hd, Exists_exists. exists k. split_and!; [|done|done|by rewrite E].
        apply elem_of_elements, elem_of_dom. by eexists.
  Qed.
  Lemma walk_order p : ∀ x t, walk (edge_rel (ct_order c)) x p t ↔ walk (edge_in st order_comp) x p t.
  Proof using SC. induction p as [|y p IH]; intros x t; cbn; [done|]. by rewrite (sc_order _ _ SC), IH. Qed.
  Lemma reach_before x t : reachable (edge_rel (ct_order c)) x t ↔ x = t ∨ comes_before st x t.
  Proof using SC.
    split.
    - intros [p Hw]. apply walk_order in Hw. destruct p as [|y p]; [by left|]. right. by exists (y :: p).
    - intros [->|(p & _ & Hw)]; [by exists []|]. exists p. by apply walk_order.
  Qed.
  Lemma before_cycle a b : comes_before st a b → comes_before st b a → False.
  Proof using AC. intros (p & Hp & Hw) (q & Hq & Hv). apply (AC a). exists (p ++ q). split; [by destruct p|]. by eapply walk_app. Qed.
  Lemma side (G : gset edge) k (first : N → N → Prop) (far : N → N → Prop) :
    (∀ x y, edge_rel G x y ↔ edge_in st k x y) → aligned_by st k first → (∀ x t, far x t ↔ x = t ∨ first x t) → (∀ x t, first x t → first t x → False) →
    ∀ x t, edge_rel G x t ↔ ¬ token c x ∧ covered c x t ∧ ∀ u, covered c x u → far t u.
  Proof using IC SC AP OT.
    intros HG AB Hfar Hcyc x t. rewrite HG. split.
    - intros He. pose proof (al_text _ _ _ AB _ _ He) as Ht. assert (¬ token c x) as Hx.
      { intros Hx%token_same. destruct Ht as (Hne & Ht & Hr). by apply Hne, AP. }
      split; [done|]. split; [by apply covered_same|]. intros u Hu%covered_same; [|done]. apply Hfar. by apply (al_first _ _ _ AB x).
    - intros (Hx & Ht%covered_same & Hall); [|done]. destruct (al_some _ _ _ AB x t Ht) as [u Hu]. pose proof (al_text _ _ _ AB _ _ Hu) as Hut.
      destruct (al_first _ _ _ AB x u t (OT x) Hu Ht) as [->|Hb]; [done|]. exfalso. assert (far t u) as Hf by (by apply Hall, covered_same).
      apply Hfar in Hf as [->|Hf]; by eapply Hcyc.
  Qed.
  Lemma aligned_lemma : aligned c.
  Proof using IC SC AP AC OT.
    split; intros x t.
    - unfold first_covered. apply (side (ct_left c) left_comp (comes_before st)); [apply (sc_left _ _ SC)|apply (ic_left _ IC)|apply reach_before|apply before_cycle].
    - unfold last_covered. apply (side (ct_right c) right_comp (λ a b, comes_before st b a) (λ a b, reachable (edge_rel (ct_order c)) b a)); [apply (sc_right _ _ SC)|apply (ic_right _ IC)| |].
      + intros a b. rewrite reach_before. naive_solver.
      + intros a b A B. by eapply before_cycle.
  Qed.
End aligned.

Lemma history_aligned fuel rnd hash optimize us st : hash_order hash → us ≠ [] → aql_updates fuel rnd hash optimize g_default us = Some st →
  safe_history fuel rnd hash optimize g_default us → (∀ n, in_one_text st n) → (∃ c, same_content st c) ∧ ∀ c, same_content st c → aligned c.
Proof.
  intros Hh Hne Hr Hs Ho. destruct (history_all fuel rnd hash optimize Hh us st Hne Hr Hs) as (IC & HR & HU). split; [by apply content_exists|].
  intros c SC. apply (aligned_lemma st c IC SC); [apply HU|apply HU|done].
Qed.
