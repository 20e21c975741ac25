(** Proofs about the planning of a conjunction. *)
From stdpp Require Import base list gmap relations.
From Coq Require Import NArith Lia.
From Verif Require Import Types SortMatches Joins JoinsSpec JoinsProofs Conjunction ConjunctionSpec.

Lemma update_same m c : update_components m c c = m.
Proof. unfold update_components. by rewrite decide_True. Qed.
Lemma lookup_update m from to v : update_components m from to !! v = (λ c, if decide (c = from) then to else c) <$> m !! v.
Proof.
  unfold update_components. case_decide as H.
  - subst. destruct (m !! v) as [c|]; [|done]. simpl. case_decide; by subst.
  - by rewrite lookup_fmap.
Qed.

(** ** The check of the connections *)
Section Check.
Context {Op : Type} (q : conj (Op := Op)).
Lemma lookup_initial v c : initial_components q !! v = Some c ↔ c = v ∧ bound_node q v.
Proof.
  unfold initial_components.
  assert (∀ ns k v c, (list_to_map (omap (λ p : nat * qnode, if n_optional p.2 then None else Some (q_offset q + p.1, q_offset q + p.1))
      (imap (λ i, pair (k + i)) ns)) : gmap nat nat) !! v = Some c ↔ c = v ∧ ∃ i n, v = q_offset q + (k + i) ∧ ns !! i = Some n ∧ n_optional n = false) as H.
  { clear v c. induction ns as [|n ns IH]; intros k v c.
    - split; [done|]. intros (_ & i & n & _ & H & _). by rewrite lookup_nil in H.
    - cbn [imap]. specialize (IH (S k)).
      rewrite (imap_ext ((λ i : nat, pair (k + i)) ∘ S) (λ i, pair (S k + i))); [|intros i x Hx; simpl; f_equal; lia].
      cbn [omap list_omap snd fst]. destruct (n_optional n) eqn:En.
      + rewrite (IH v c). split; intros (-> & i & n' & H1 & H2 & H3); (split; [done|]).
        * exists (S i), n'. split_and!; [lia|done|done].
        * destruct i as [|i]; [simpl in H2; congruence|]. exists i, n'. split_and!; [lia|done|done].
      + cbn [list_to_map foldr fst snd uncurry]. rewrite lookup_insert_Some. split.
        * intros [[<- <-]|[Hne H]].
          -- split; [done|]. exists 0, n. split_and!; [lia|done|done].
          -- apply (IH v c) in H as (-> & i & n' & H1 & H2 & H3). split; [done|]. exists (S i), n'. split_and!; [lia|done|done].
        * intros (-> & i & n' & H1 & H2 & H3). destruct i as [|i]; [left; lia|]. right. split; [lia|].
          apply (IH v v). split; [done|]. exists i, n'. split_and!; [lia|done|done]. }
  rewrite (H (q_nodes q) 0 v c). split; intros [-> Hv]; (split; [done|]).
  - destruct Hv as (i & n & H1 & H2 & H3). exists i. split; [lia|]. by exists n.
  - destruct Hv as (i & H1 & n & H2 & H3). exists i, n. split_and!; [lia|done|done].
Qed.
Definition links (ops : list (bin (Op := Op))) (v w : nat) : Prop :=
  ∃ b, b ∈ ops ∧ b_binding b = true ∧ b_left b = v ∧ b_right b = w ∧ bound_node q v ∧ bound_node q w.
Definition merged_inv (ops : list (bin (Op := Op))) (m : gmap nat nat) : Prop :=
  (∀ v, is_Some (m !! v) ↔ bound_node q v) ∧
  (∀ v w c, m !! v = Some c → m !! w = Some c → rtsc (links ops) v w) ∧
  (∀ v w, links ops v w → m !! v = m !! w).
Lemma rtsc_subrel {A} (R R' : relation A) v w : (∀ x y, R x y → R' x y) → rtsc R v w → rtsc R' v w.
Proof. intros H. apply (rtsc_congruence (λ x, x)). exact H. Qed.
Lemma links_snoc ops b v w : links ops v w → links (ops ++ [b]) v w.
Proof. intros (b' & Hb & H). exists b'. split; [|done]. apply elem_of_app. by left. Qed.
Lemma merge_inv ops m b : merged_inv ops m → merged_inv (ops ++ [b]) (merge_operands m b).
Proof.
  intros (Hd & Hr & Hl). unfold merge_operands. destruct (b_binding b) eqn:Eb.
  - destruct (m !! b_left b) as [cl|] eqn:El, (m !! b_right b) as [cr|] eqn:Er.
    + rewrite update_same. split_and!.
      * intros v. rewrite lookup_update, fmap_is_Some. apply Hd.
      * assert (rtsc (links (ops ++ [b])) (b_left b) (b_right b)) as Hlr.
        { apply rtsc_lr. exists b. split_and!; [apply elem_of_app; right; by left|done|done|done|apply Hd; eauto|apply Hd; eauto]. }
        assert (∀ v w c, m !! v = Some c → m !! w = Some c → rtsc (links (ops ++ [b])) v w) as Hr'.
        { intros v w c H1 H2. apply (rtsc_subrel (links ops)); [apply links_snoc|]. by (eapply Hr; eassumption). }
        intros v w c. rewrite !lookup_update. destruct (m !! v) as [cv|] eqn:Ev; [|done].
        destruct (m !! w) as [cw|] eqn:Ew; [|done]. cbn [fmap option_fmap option_map]. intros [= H1] [= H2].
        assert (Equivalence (rtsc (links (ops ++ [b])))) as Heq by apply rtsc_equivalence.
        case_decide as D1; case_decide as D2; subst;
          first [eapply Hr'; eassumption
                |transitivity (b_right b); [eapply Hr'; eassumption|]; transitivity (b_left b); [by symmetry|]; eapply Hr'; eassumption
                |transitivity (b_left b); [eapply Hr'; eassumption|]; transitivity (b_right b); [done|]; eapply Hr'; eassumption].
      * intros v w (b' & Hb & H1 & H2 & H3 & H4 & H5). rewrite !lookup_update.
        apply elem_of_app in Hb as [Hb|Hb%elem_of_list_singleton].
        -- f_equal. apply Hl. by exists b'.
        -- subst b' v w. rewrite El, Er. cbn [fmap option_fmap option_map]. f_equal. case_decide; case_decide; congruence.
    + split_and!; [done| |].
      * intros v w c H1 H2. apply (rtsc_subrel (links ops)); [apply links_snoc|]. by (eapply Hr; eassumption).
      * intros v w (b' & Hb & H1 & H2 & H3 & H4 & H5). apply elem_of_app in Hb as [Hb|Hb%elem_of_list_singleton].
        -- apply Hl. by exists b'.
        -- subst b' v w. apply Hd in H5 as [? ?]. congruence.
    + split_and!; [done| |].
      * intros v w c H1 H2. apply (rtsc_subrel (links ops)); [apply links_snoc|]. by (eapply Hr; eassumption).
      * intros v w (b' & Hb & H1 & H2 & H3 & H4 & H5). apply elem_of_app in Hb as [Hb|Hb%elem_of_list_singleton].
        -- apply Hl. by exists b'.
        -- subst b' v w. apply Hd in H4 as [? ?]. congruence.
    + split_and!; [done| |].
      * intros v w c H1 H2. apply (rtsc_subrel (links ops)); [apply links_snoc|]. by (eapply Hr; eassumption).
      * intros v w (b' & Hb & H1 & H2 & H3 & H4 & H5). apply elem_of_app in Hb as [Hb|Hb%elem_of_list_singleton].
        -- apply Hl. by exists b'.
        -- subst b' v w. apply Hd in H4 as [? ?]. congruence.
  - split_and!; [done| |].
    + intros v w c H1 H2. apply (rtsc_subrel (links ops)); [apply links_snoc|]. by (eapply Hr; eassumption).
    + intros v w (b' & Hb & H1 & H2 & H3 & H4 & H5). apply elem_of_app in Hb as [Hb|Hb%elem_of_list_singleton].
      * apply Hl. by exists b'.
      * congruence.
Qed.
Lemma merged : merged_inv (q_binary q) (fold_left merge_operands (q_binary q) (initial_components q)).
Proof.
  assert (∀ ops pre m, merged_inv pre m → merged_inv (pre ++ ops) (fold_left merge_operands ops m)) as H.
  { induction ops as [|b ops IH]; intros pre m H; simpl; [by rewrite app_nil_r|].
    rewrite (cons_middle b pre ops), app_assoc. apply IH. by apply merge_inv. }
  apply (H _ []). split_and!.
  - intros v. split; [intros [c Hc]; by apply lookup_initial in Hc as [_ Hc]|]. intros Hv. exists v. by apply lookup_initial.
  - intros v w c H1 H2. apply lookup_initial in H1 as [-> _], H2 as [<- _]. reflexivity.
  - intros v w (b & Hb & _). inversion Hb.
Qed.
Lemma merged_connected v w : bound_node q v → bound_node q w →
  let m := fold_left merge_operands (q_binary q) (initial_components q) in
  m !! v = m !! w ↔ connected q v w.
Proof.
  cbv zeta. destruct merged as (Hd & Hr & Hl). intros Hv Hw. split.
  - intros E. apply Hd in Hv as [c Hc]. apply (Hr v w c); congruence.
  - intros H. induction H as [|v x w H1 H2 IH]; [done|].
    assert (bound_node q x ∧ fold_left merge_operands (q_binary q) (initial_components q) !! v = fold_left merge_operands (q_binary q) (initial_components q) !! x) as [Hx E].
    { destruct H1 as [H1|H1].
      - split; [|by apply Hl]. by destruct H1 as (b & _ & _ & _ & _ & _ & ?).
      - split; [|symmetry; by apply Hl]. by destruct H1 as (b & _ & _ & _ & _ & ? & _). }
    rewrite E. by apply IH.
Qed.
Lemma first_mismatch_some f l : match first_mismatch (Some f) l with
  | None => ∀ n c, (n, c) ∈ l → c = f
  | Some n => ∃ l1 c l2, l = l1 ++ (n, c) :: l2 ∧ c ≠ f ∧ ∀ n' c', (n', c') ∈ l1 → c' = f
  end.
Proof.
  induction l as [|[n c] l IH]; cbn [first_mismatch].
  - intros n c H. inversion H.
  - case_decide as D.
    + subst c. destruct (first_mismatch (Some f) l) as [n'|].
      * destruct IH as (l1 & c & l2 & -> & Hc & H). exists ((n, f) :: l1), c, l2. split_and!; [done|done|].
        intros n'' c' [[= -> ->]|Hin]%elem_of_cons; [done|]. by eapply H.
      * intros n'' c' [[= -> ->]|Hin]%elem_of_cons; [done|]. by eapply IH.
    + exists [], c, l. split_and!; [done|congruence|]. intros n' c' H. inversion H.
Qed.
Lemma bound_range v : bound_node q v → v ∈ seq (q_offset q) (length (q_nodes q)).
Proof. intros (i & -> & n & Hn & _). apply elem_of_seq. apply lookup_lt_Some in Hn. lia. Qed.
(** The components in the order of the nodes *)
Lemma omap_seq_split (m : gmap nat nat) l1 n c l2 start len :
  omap (λ n, (λ c, (n, c)) <$> m !! n) (seq start len) = l1 ++ (n, c) :: l2 →
  m !! n = Some c ∧ ∀ n' c', m !! n' = Some c' → start ≤ n' < start + len → (n' < n ↔ (n', c') ∈ l1).
Proof.
  revert start l1. induction len as [|len IH]; intros start l1 E; [destruct l1; discriminate|].
  cbn [seq omap list_omap] in E. destruct (m !! start) as [c0|] eqn:E0; cbn [fmap option_fmap option_map] in E.
  - destruct l1 as [|x l1]; cbn [app] in E.
    + injection E as -> -> E. split; [done|]. intros n' c' Hn' Hr. split; [lia|]. intros H. inversion H.
    + injection E as <- E. assert (n ∈ seq (S start) len) as Hn.
      { assert ((n, c) ∈ omap (λ n, (λ c, (n, c)) <$> m !! n) (seq (S start) len)) as Hin.
        { setoid_rewrite E. apply elem_of_app. right. left. }
        apply elem_of_list_omap in Hin as (k & Hk & Hk2). destruct (m !! k) as [ck|]; [|done]. by injection Hk2 as -> ->. }
      apply elem_of_seq in Hn. apply IH in E as [H1 H2]. split; [done|]. intros n' c' Hn' Hr.
      destruct (decide (n' = start)) as [->|D].
      * split; [|lia]. intros _. rewrite E0 in Hn'. injection Hn' as ->. left.
      * rewrite (H2 n' c' Hn') by lia. rewrite elem_of_cons. split; [by right|]. intros [[= -> ->]|H]; done.
  - apply IH in E as [H1 H2]. split; [done|]. intros n' c' Hn' Hr. apply H2; [done|].
    destruct (decide (n' = start)) as [->|D]; [congruence|lia].
Qed.
Lemma check_spec :
  match check_components_connected q with
  | None => all_connected q
  | Some v => bound_node q v ∧ ∃ first, bound_node q first ∧ first < v ∧ ¬ connected q first v ∧
                ∀ w, bound_node q w → w < v → first ≤ w ∧ connected q first w
  end.
Proof.
  unfold check_components_connected.
  pose proof merged as (Hd & _). pose proof merged_connected as Hc. cbv zeta in Hc.
  set (m := fold_left merge_operands (q_binary q) (initial_components q)) in *.
  assert (∀ n c, (n, c) ∈ omap (λ n, (λ c, (n, c)) <$> m !! n) (seq (q_offset q) (length (q_nodes q))) ↔ m !! n = Some c) as Hel.
  { intros n c. rewrite elem_of_list_omap. split.
    - intros (k & Hk & Hk2). destruct (m !! k) as [ck|] eqn:Ek; [|done]. injection Hk2 as -> ->. done.
    - intros H. exists n. rewrite H. split; [|done]. apply bound_range. apply Hd. eauto. }
  destruct (omap (λ n, (λ c, (n, c)) <$> m !! n) (seq (q_offset q) (length (q_nodes q)))) as [|[n0 c0] l] eqn:E.
  - cbn [first_mismatch]. intros v w Hv Hw. apply Hd in Hv as [c Hv]. apply Hel in Hv. inversion Hv.
  - cbn [first_mismatch]. pose proof (first_mismatch_some c0 l) as H.
    destruct (first_mismatch (Some c0) l) as [v|].
    + destruct H as (l1 & c & l2 & -> & Hne & Hl1). 
      assert (m !! n0 = Some c0) as Hn0 by (apply Hel; left).
      assert (bound_node q n0) as Hb0 by (apply Hd; eauto).
      change ((n0, c0) :: l1 ++ (v, c) :: l2) with (((n0, c0) :: l1) ++ (v, c) :: l2) in E.
      pose proof E as E'. apply omap_seq_split in E as [Hv Hlt].
      assert (bound_node q v) as Hbv by (apply Hd; eauto).
      split; [done|]. exists n0. split_and!; [done| | |].
      * apply (Hlt n0 c0 Hn0); [|left]. apply bound_range, elem_of_seq in Hb0. lia.
      * rewrite <- Hc by done. rewrite Hn0, Hv. congruence.
      * intros w Hw Hwv. pose proof (bound_range _ Hw) as Hr. apply elem_of_seq in Hr. pose proof Hw as Hw'.
        apply Hd in Hw' as [cw Hcw]. apply (Hlt w cw Hcw Hr) in Hwv as Hin.
        apply (omap_seq_split m [] n0 c0) in E' as [_ H0]. specialize (H0 w cw Hcw Hr). split.
        -- destruct (decide (w < n0)) as [D|D]; [|lia]. apply H0 in D. inversion D.
        -- rewrite <- Hc by done. rewrite Hn0, Hcw. f_equal. apply elem_of_cons in Hin as [[= -> ->]|Hin]; [done|].
           symmetry. by eapply Hl1.
    + intros v w Hv Hw. rewrite <- Hc by done. assert (∀ x, bound_node q x → m !! x = Some c0) as Hx.
      { intros x Hx. apply Hd in Hx as [cx Hx]. rewrite Hx. apply Hel in Hx. apply elem_of_cons in Hx as [[= -> ->]|Hx]; [done|].
        f_equal. by eapply H. }
      by rewrite !Hx.
Qed.
End Check.
