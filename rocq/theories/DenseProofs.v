(** Proofs about the dense adjacency list *)
From stdpp Require Import base list gmap fin_maps fin_sets sorting.
From Coq Require Import NArith Lia.
From Verif Require Import KeySer KeySerSpec SortedMap Types SymbolTable SymTabIface AnnoMem AnnoMemProofs Dfs GraphSpec
  Adjacency AdjacencySpec AdjacencyProofs CopyProofs ListExtra Linear EdgeAnnoProofs Dense DenseSpec.

Section dense.
Context (G : gset edge) (out : N → list N) (annos : edge → list (anno_key * bytes)).
Context (H1c : one_child G) (Hnd : ∀ x, NoDup (out x)) (Hout : ∀ x y, y ∈ out x ↔ Edge x y ∈ G).

Lemma out_cases x : out x = [] ∨ ∃ y, out x = [y].
Proof using H1c Hnd Hout.
  pose proof (Hnd x) as Hn. pose proof (Hout x) as Ho. destruct (out x) as [|a [|b l]]; [by left|right; eauto|]. exfalso.
  assert (a = b) as ->.
  { apply (H1c x); apply Ho; [left|right; left]. }
  apply NoDup_cons in Hn as [Hn _]. apply Hn. left.
Qed.

Definition dense_ok (s : da) (n : nat) (xs : list N) : Prop :=
  length (da_edges s) = n ∧
  (∀ x y, y ∈ da_out s x ↔ x ∈ xs ∧ Edge x y ∈ G) ∧
  (∀ y, nsorted (da_in s y)) ∧ (∀ x y, x ∈ da_in s y ↔ x ∈ xs ∧ Edge x y ∈ G).

Lemma copy_nodes_none xs : fold_left (da_copy_node out annos) xs None = None.
Proof. by induction xs. Qed.
Lemma copy_nodes_false xs s : fold_left (da_copy_node out annos) xs (Some (s, false)) = Some (s, false).
Proof. by induction xs. Qed.

Lemma dense_fold n : (∀ x, is_source G x → N.to_nat x < n) → ∀ xs D s, NoDup (D ++ xs) → dense_ok s n D →
  ∃ s' ok, fold_left (da_copy_node out annos) xs (Some (s, true)) = Some (s', ok) ∧
    (da_annos s', ok) = fold_left (insert_annos annos) (xs ≫= λ x, (λ y, Edge x y) <$> out x) (da_annos s, true) ∧
    (ok = true → dense_ok s' n (D ++ xs)).
Proof using All.
  intros Hn. induction xs as [|x xs IH]; intros D s HD Hs.
  - exists s, true. split_and!; [done|done|]. by rewrite app_nil_r.
  - replace (D ++ x :: xs) with ((D ++ [x]) ++ xs) in * by (by rewrite <- (assoc_L (++))).
    assert (x ∉ D) as HxD.
    { apply NoDup_app in HD as (HD & _ & _). apply NoDup_app in HD as (_ & HD & _). intros Hin. apply (HD x Hin). by left. }
    cbn [fold_left]. rewrite bind_cons, fold_left_app. destruct (out_cases x) as [Ex|[y Ey]].
    + unfold da_copy_node at 2. rewrite Ex. cbn [head fmap list_fmap fold_left]. apply IH; [done|].
      destruct Hs as (H1 & H2 & H3 & H4).
      assert (∀ y, Edge x y ∉ G) as Hno. { intros y Hy%Hout. rewrite Ex in Hy. by apply elem_of_nil in Hy. }
      split_and!; [done| |done|].
      * intros a b. rewrite H2, elem_of_app, elem_of_list_singleton. split; [naive_solver|]. intros [[?| ->] He]; [done|]. by destruct (Hno b).
      * intros a b. rewrite H4, elem_of_app, elem_of_list_singleton. split; [naive_solver|]. intros [[?| ->] He]; [done|]. by destruct (Hno b).
    + assert (Edge x y ∈ G) as Hxy. { apply Hout. rewrite Ey. by left. }
      assert (∀ b, Edge x b ∈ G → b = y) as Huniq. { intros b Hb. by apply (H1c x). }
      unfold da_copy_node at 2. rewrite Ey. cbn [head fmap list_fmap fold_left]. destruct Hs as (H1 & H2 & H3 & H4).
      rewrite decide_True by (rewrite H1; apply Hn; by exists y).
      destruct (insert_annos annos (da_annos s, true) (Edge x y)) as [a1 ok1] eqn:Ea. simpl.
      destruct ok1.
      * edestruct (IH (D ++ [x])) as (s' & ok & E1 & E2 & E3); [done| |].
        2: { eexists s', ok. split_and!; [exact E1| |exact E3]. rewrite E2. done. }
        unfold dense_ok, da_out, da_in. simpl. split_and!.
        -- by rewrite insert_length.
        -- intros a b. destruct (decide (a = x)) as [->|Hne].
           ++ rewrite list_lookup_insert by (rewrite H1; apply Hn; by exists y).
              rewrite elem_of_app, !elem_of_list_singleton. split; [intros ->; tauto|]. intros [_ Hb]. by apply Huniq.
           ++ rewrite list_lookup_insert_ne by lia. fold (da_out s a). rewrite H2, elem_of_app, elem_of_list_singleton. naive_solver.
        -- intros b. unfold adj_list. destruct (decide (b = y)) as [->|Hne]; [rewrite lookup_insert|rewrite lookup_insert_ne by done].
           ++ apply bs_insert_sorted, H3.
           ++ apply H3.
        -- intros a b. unfold adj_list at 1. rewrite elem_of_app, elem_of_list_singleton.
           destruct (decide (b = y)) as [->|Hne]; [rewrite lookup_insert|rewrite lookup_insert_ne by done]; simpl.
           ++ rewrite bs_insert_elem. change (adj_list (da_inverse s) y) with (da_in s y). rewrite H4. naive_solver.
           ++ change (a ∈ da_in s b ↔ (a ∈ D ∨ a = x) ∧ Edge a b ∈ G). rewrite H4. split; [naive_solver|].
              intros [[?| ->] He]; [done|]. by destruct Hne; apply Huniq.
      * rewrite copy_nodes_false, insert_annos_fold_false. eexists _, _. split; [done|]. by split.
Qed.
End dense.

Lemma da_sources_lemma s x : x ∈ da_sources s ↔ ∃ y, y ∈ da_out s x.
Proof.
  unfold da_sources. rewrite elem_of_list_omap. split.
  - intros ([i [y|]] & Hin & Heq); simpl in Heq; [|done]. injection Heq as <-.
    apply elem_of_lookup_imap in Hin as (i' & o & [= <- <-] & Hi). exists y. unfold da_out. rewrite Nat2N.id, Hi. left.
  - intros (y & Hy). unfold da_out in Hy. destruct (da_edges s !! N.to_nat x) as [[z|]|] eqn:E; [|by apply elem_of_nil in Hy..].
    exists (N.to_nat x, Some z). split; [|simpl; by rewrite N2Nat.id]. apply elem_of_lookup_imap. eauto.
Qed.
Lemma da_sources_nodup s : NoDup (da_sources s).
Proof.
  unfold da_sources. generalize (da_edges s). intros l.
  assert (∀ k, NoDup (omap (λ ie : nat * option N, match ie.2 with Some _ => Some (N.of_nat ie.1) | None => None end)
       (imap (λ i e, (k + i, e)) l)) ∧ ∀ x, x ∈ omap (λ ie : nat * option N, match ie.2 with Some _ => Some (N.of_nat ie.1) | None => None end)
       (imap (λ i e, (k + i, e)) l) → k ≤ N.to_nat x) as Hk; [|apply (Hk 0)].
  induction l as [|o l IH]; intros k; [split; [constructor|by intros x ?%elem_of_nil]|].
  cbn [imap omap list_omap fst snd]. rewrite Nat.add_0_r.
  destruct (IH (S k)) as [I1 I2].
  assert (imap ((λ i e, (k + i, e)) ∘ S) l = imap (λ i e, (S k + i, e)) l) as ->.
  { apply imap_ext. intros i x _. simpl. f_equal. lia. }
  destruct o as [y|]; split.
  - constructor; [|done]. intros Hin%I2. rewrite Nat2N.id in Hin. lia.
  - intros x [->|Hx%I2]%elem_of_cons; [rewrite Nat2N.id; lia|lia].
  - done.
  - intros x Hx%I2. lia.
Qed.

Lemma dense_copy_ok largest g st s : fits_dense largest (gr_edges g) → dense_copy_of largest g st s true →
  (∀ x, NoDup (da_out s x) ∧ ∀ y, y ∈ da_out s x ↔ Edge x y ∈ gr_edges g) ∧
  (∀ y, NoDup (da_in s y) ∧ ∀ x, x ∈ da_in s y ↔ Edge x y ∈ gr_edges g) ∧
  da_stats s = st ∧ ∃ leak, inv edge_compare (da_annos s) leak (gr_annos g).
Proof.
  intros [H1c Hl] (sources & out & annos & H & Hc). unfold da_copy in Hc.
  destruct (dense_fold (gr_edges g) out annos H1c (h_out_nd _ _ _ _ H) (h_out _ _ _ _ H) (S (N.to_nat largest))) with
    (xs := sources) (D := @nil N) (s := DA (replicate (S (N.to_nat largest)) None) ∅ (am_clear (da_annos da_new)) (da_stats da_new))
    as (s' & ok & E1 & E2 & E3).
  - intros x Hx%Hl. lia.
  - apply H.
  - split_and!.
    + by rewrite <- (replicate_length (S (N.to_nat largest)) (@None N)) at 2.
    + intros x y. unfold da_out. cbn [da_edges]. split; [|by intros [?%elem_of_nil _]].
      destruct (replicate _ _ !! N.to_nat x) as [o|] eqn:E; [|by intros ?%elem_of_nil].
      apply lookup_replicate in E as [-> _]. by intros ?%elem_of_nil.
    + intros y. unfold da_in, adj_list. simpl. constructor.
    + intros x y. unfold da_in, adj_list. simpl. split; [by intros ?%elem_of_nil|by intros [?%elem_of_nil _]].
  - rewrite E1 in Hc. destruct ok; [|congruence]. injection Hc as <-. destruct (E3 eq_refl) as (_ & H2 & H3 & H4). simpl in *.
    assert (∀ x y, x ∈ sources ∧ Edge x y ∈ gr_edges g ↔ Edge x y ∈ gr_edges g) as Hs.
    { intros x y. split; [naive_solver|]. intros He. split; [|done]. apply (h_sources _ _ _ _ H). by exists y. }
    split_and!.
    + intros x. split; [|intros y; by rewrite <- Hs, <- H2]. unfold da_out. simpl.
      destruct (da_edges s' !! N.to_nat x) as [[?|]|]; [apply NoDup_singleton|constructor..].
    + intros y. split; [apply nsorted_NoDup, H3|]. intros x. by rewrite <- Hs, <- H4.
    + done.
    + simpl in E2. symmetry in E2.
      eapply (insert_edges_all annos (gr_annos g) (gr_edges g) (h_annos_nd _ _ _ _ H) (h_annos _ _ _ _ H)); [|apply H| |exact E2].
      * intros [a b]. rewrite elem_of_list_bind. split.
        -- intros (x & (y & [= -> ->] & Hy)%elem_of_list_fmap & _). by apply (h_out _ _ _ _ H).
        -- intros He. exists a. split; [apply elem_of_list_fmap; exists b; split; [done|by apply (h_out _ _ _ _ H)]|].
           apply (h_sources _ _ _ _ H). by exists b.
      * exists 0, ∅. apply AnnoMemProofs.inv_new.
Qed.

Lemma dense_copy_total largest g sources out annos st : fits_dense largest (gr_edges g) → holds sources out annos g →
  ∃ s ok, da_copy da_new (Some largest) sources out annos st = Some (s, ok) ∧
   ((N.of_nat (sum_list_with (λ e, length (annos e)) (elements (gr_edges g))) <= usize_max)%N → ok = true).
Proof.
  intros [H1c Hl] H. unfold da_copy.
  destruct (dense_fold (gr_edges g) out annos H1c (h_out_nd _ _ _ _ H) (h_out _ _ _ _ H) (S (N.to_nat largest))) with
    (xs := sources) (D := @nil N) (s := DA (replicate (S (N.to_nat largest)) None) ∅ (am_clear (da_annos da_new)) (da_stats da_new))
    as (s' & ok & E1 & E2 & E3).
  - intros x Hx%Hl. lia.
  - apply H.
  - split_and!.
    + by rewrite <- (replicate_length (S (N.to_nat largest)) (@None N)) at 2.
    + intros x y. unfold da_out. cbn [da_edges]. split; [|by intros [?%elem_of_nil _]].
      destruct (replicate _ _ !! N.to_nat x) as [o|] eqn:E; [|by intros ?%elem_of_nil].
      apply lookup_replicate in E as [-> _]. by intros ?%elem_of_nil.
    + intros y. unfold da_in, adj_list. simpl. constructor.
    + intros x y. unfold da_in, adj_list. simpl. split; [by intros ?%elem_of_nil|by intros [?%elem_of_nil _]].
  - rewrite E1. assert ((N.of_nat (sum_list_with (λ e, length (annos e)) (elements (gr_edges g))) <= usize_max)%N → ok = true) as Hok.
    { intros Hsum. simpl in E2. symmetry in E2.
      eapply (insert_edges_ok_new annos (gr_annos g) (gr_edges g) (h_annos_nd _ _ _ _ H) (h_annos _ _ _ _ H)); [|exact Hsum|exact E2].
      intros e (x & (y & -> & Hy)%elem_of_list_fmap & _)%elem_of_list_bind. by apply (h_out _ _ _ _ H). }
    destruct ok; [|exists s', false; done]. eexists _, true. done.
Qed.
