(** Proofs about the optimization of the join order. *)
From stdpp Require Import base list gmap relations.
From Coq Require Import NArith Lia.
From Verif Require Import Types SortMatches Joins JoinsSpec JoinsProofs Conjunction ConjunctionSpec ConjunctionProofs ConjPlanProofs.

Lemma swap_perm a b l : a < length l → b < length l → ∃ l', swap a b l = Some l' ∧ l' ≡ₚ l.
Proof.
  intros [x Hx]%lookup_lt_is_Some_2 [y Hy]%lookup_lt_is_Some_2. unfold swap. rewrite Hx. cbn [mbind option_bind]. rewrite Hy. cbn [mbind option_bind].
  eexists. split; [done|]. apply Permutation_inj. split; [by rewrite !insert_length|].
  exists (λ i, if decide (i = a) then b else if decide (i = b) then a else i). split.
  - intros i j. repeat case_decide; congruence.
  - intros i. apply lookup_lt_Some in Hx as La. apply lookup_lt_Some in Hy as Lb.
    destruct (decide (i = a)) as [->|D1].
    + by rewrite list_lookup_insert by (by rewrite insert_length).
    + rewrite list_lookup_insert_ne by done. destruct (decide (i = b)) as [->|D2].
      * by rewrite list_lookup_insert.
      * by rewrite list_lookup_insert_ne by done.
Qed.
Lemma family_perm n rnd cur : (∀ i, (rnd i).1 < length cur ∧ (rnd i).2 < length cur) →
  ∃ fam, family n rnd cur = Some fam ∧ Forall (λ l, l ≡ₚ cur) fam.
Proof.
  revert rnd cur. induction n as [|n IH]; intros rnd cur H; cbn [family]; [by exists []|].
  destruct (H 0) as [H1 H2]. destruct (swap_perm _ _ _ H1 H2) as (l & -> & Hl). cbn [mbind option_bind].
  destruct (IH (λ i, rnd (S i)) l) as (fam & -> & Hf).
  { intros i. rewrite Hl. apply H. }
  cbn [mbind option_bind]. eexists. split; [done|]. constructor; [done|]. eapply Forall_impl; [exact Hf|]. intros x Hx. by rewrite Hx.
Qed.

Section Opt.
Context {Op : Type} (oretrieve : Op → option (match_ → option (list match_))) (oinverse : Op → option Op)
  (outer_left : exec (Op := Op) → exec (Op := Op) → bool) (switch : bin (Op := Op) → bool) (plan_cost : exec (Op := Op) → nat).
Context (q : conj (Op := Op)).
Notation make_plan := (make_exec_plan_with_order oretrieve oinverse outer_left switch).
Lemma optimize_unfold fuel rnd : 2 <= length (q_binary q) →
  optimize_join_order oretrieve oinverse outer_left switch plan_cost fuel q rnd =
  (e ← make_plan q (seq 0 (length (q_binary q)));
   optimize_loop oretrieve oinverse outer_left switch plan_cost fuel q rnd (seq 0 (length (q_binary q))) (plan_cost e) 0).
Proof. unfold optimize_join_order. destruct (length (q_binary q)) as [|[|n]]; [lia|lia|done]. Qed.
Lemma optimize_small fuel rnd : length (q_binary q) <= 1 →
  optimize_join_order oretrieve oinverse outer_left switch plan_cost fuel q rnd = Some (seq 0 (length (q_binary q))).
Proof. unfold optimize_join_order. destruct (length (q_binary q)) as [|[|n]]; [done|done|lia]. Qed.
Context (Hplan : ∀ order, order ≡ₚ seq 0 (length (q_binary q)) → is_Some (make_plan q order)).
Let K := 5 * length (q_binary q).

Lemma best_of_spec orders best cost better :
  Forall (λ l, l ≡ₚ seq 0 (length (q_binary q))) orders → best ≡ₚ seq 0 (length (q_binary q)) →
  ∃ best' cost' better', best_of oretrieve oinverse outer_left switch plan_cost q orders best cost better = Some (best', cost', better') ∧
    best' ≡ₚ seq 0 (length (q_binary q)) ∧ cost' <= cost ∧ (better' = better ∨ cost' < cost).
Proof.
  intros Ho. revert best cost better. induction Ho as [|o orders Ho Hos IH]; intros best cost better Hb; cbn [best_of].
  - eexists _, _, _. split_and!; [done|done|lia|by left].
  - destruct (Hplan o Ho) as [e ->]. cbn [mbind option_bind]. case_decide as D.
    + destruct (IH o (plan_cost e) true Ho) as (b' & c' & be' & -> & H1 & H2 & H3). eexists _, _, _. split_and!; [done|done|lia|right; lia].
    + destruct (IH best cost better Hb) as (b' & c' & be' & -> & H1 & H2 & H3). eexists _, _, _. split_and!; done.
Qed.
Lemma optimize_loop_spec fuel rnd best cost unsucc :
  (∀ i, (rnd i).1 < length (q_binary q) ∧ (rnd i).2 < length (q_binary q)) →
  best ≡ₚ seq 0 (length (q_binary q)) → cost * S K + (K - unsucc) <= fuel →
  ∃ order, optimize_loop oretrieve oinverse outer_left switch plan_cost fuel q rnd best cost unsucc = Some order ∧
    order ≡ₚ seq 0 (length (q_binary q)).
Proof.
  revert rnd best cost unsucc. induction fuel as [|fuel IH]; intros rnd best cost unsucc Hr Hb Hf; cbn [optimize_loop]; fold K.
  - rewrite decide_True by lia. eauto.
  - case_decide as D; [eauto|]. 
    destruct (family_perm 4 rnd best) as (fam & -> & Hfam).
    { intros i. rewrite Hb, seq_length. apply Hr. }
    cbn [mbind option_bind].
    destruct (best_of_spec fam best cost false) as (b' & c' & be' & -> & H1 & H2 & H3); [|done|].
    { eapply Forall_impl; [exact Hfam|]. intros x Hx. by rewrite Hx. }
    cbn [mbind option_bind]. apply IH; [intros i; apply Hr|done|].
    destruct be'.
    + destruct H3 as [H3|H3]; [done|]. nia.
    + nia.
Qed.
Theorem optimize_spec rnd :
  (∀ i, (rnd i).1 < length (q_binary q) ∧ (rnd i).2 < length (q_binary q)) ∨ length (q_binary q) <= 1 →
  ∃ fuel, ∀ more, ∃ order, optimize_join_order oretrieve oinverse outer_left switch plan_cost (fuel + more) q rnd = Some order ∧
    order ≡ₚ seq 0 (length (q_binary q)).
Proof.
  intros Hr. destruct (Hplan (seq 0 (length (q_binary q))) ltac:(done)) as [e He].
  exists (plan_cost e * S K + K). intros more. destruct (decide (length (q_binary q) <= 1)) as [D|D].
  - rewrite optimize_small by done. eauto.
  - destruct Hr as [Hr|Hr]; [|lia]. rewrite optimize_unfold by lia. rewrite He. cbn [mbind option_bind].
    apply optimize_loop_spec; [done|done|lia].
Qed.
End Opt.

(** ** Sequential execution is deterministic and can be computed *)
Section Run.
Context {Op : Type} (ofilter : Op → match_ → match_ → option bool) (oreflexive : Op → bool)
        (oretrieve : Op → option (match_ → option (list match_))) (b1 b2 : nat).
Notation emits := (emits ofilter oreflexive oretrieve false b1 b2).
Lemma emits_det e o1 o2 : emits e o1 → emits e o2 → o1 = o2.
Proof.
  intros H. revert o2. induction H as [nr s|u idx e l H IH|o li ri e l H IH|o glob lo li ri l r ol or out H1 IH1 H2 IH2 H3|o glob li l nr s f ol out H1 IH1 H2 H3];
    intros o2 Ho; inversion Ho; subst.
  - done.
  - f_equal. auto.
  - f_equal. auto.
  - match goal with H : emits l ?x, H' : emits l ?y |- _ => assert (x = y) as <- by (first [by apply IH1|symmetry; by apply IH1]); clear H H' end.
    match goal with H : emits r ?x, H' : emits r ?y |- _ => assert (x = y) as <- by (first [by apply IH2|symmetry; by apply IH2]); clear H H' end.
    unfold sequential_loop in *. destruct lo; by eapply yields_det.
  - assert (f0 = f) as -> by congruence. match goal with H : emits l ?x, H' : emits l ?y |- _ => assert (x = y) as <- by (first [by apply IH1|symmetry; by apply IH1]); clear H H' end. by eapply yields_det.
Qed.
Fixpoint collect {S} (next : S → option item * S) (fuel : nat) (st : S) : option (list item) :=
  match fuel with
  | 0 => None
  | Datatypes.S f => match next st with (None, _) => Some [] | (Some i, st') => r ← collect next f st'; Some (i :: r) end
  end.
Lemma collect_yields {S} (next : S → option item * S) fuel st out : collect next fuel st = Some out → yields next st out.
Proof.
  revert st out. induction fuel as [|f IH]; intros st out; [done|]. cbn [collect].
  destruct (next st) as [[i|] st'] eqn:E.
  - destruct (collect next f st') as [r|] eqn:Er; [|done]. cbn [mbind option_bind]. intros [= <-]. eapply yields_item; [exact E|]. by apply IH.
  - intros [= <-]. by eapply yields_end.
Qed.
Fixpoint run (e : exec (Op := Op)) : option (list item) :=
  match e with
  | ESearch _ s => Some (s_items s)
  | EUnary u idx e => filter_unary u idx <$> run e
  | EFilter o li ri e => filter_binary (ofilter o) li ri <$> run e
  | ENested o glob lo li ri l r => ol ← run l; or ← run r;
      if lo then collect (nl_next (ofilter o) (oreflexive o) glob true li ri) 1000 (nl_new ol or)
      else collect (nl_next (ofilter o) (oreflexive o) glob false ri li) 1000 (nl_new or ol)
  | EIndex o glob li l nr s => f ← oretrieve o; ol ← run l;
      collect (ij_next (oreflexive o) glob li f (s_keys s) (s_cond s) (s_const s)) 1000 (ij_new ol)
  end.
Lemma run_emits e out : run e = Some out → emits e out.
Proof.
  revert out. induction e as [nr s|u idx e IH|o li ri e IH|o glob lo li ri l IHl r IHr|o glob li l IHl nr s]; intros out; cbn [run].
  - intros [= <-]. constructor.
  - destruct (run e); [|done]. intros [= <-]. constructor. auto.
  - destruct (run e); [|done]. intros [= <-]. constructor. auto.
  - destruct (run l) as [ol|]; [|done]. destruct (run r) as [or|]; [|done]. cbn [mbind option_bind]. intros H.
    econstructor; [by apply IHl|by apply IHr|]. unfold sequential_loop. destruct lo; by eapply collect_yields.
  - destruct (oretrieve o) as [f|] eqn:Ef; [|done]. destruct (run l) as [ol|]; [|done]. cbn [mbind option_bind]. intros H.
    econstructor; [by apply IHl|exact Ef|]. by eapply collect_yields.
Qed.
End Run.
