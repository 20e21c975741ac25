From stdpp Require Import base list gmap fin_sets sets fin_maps.
From Coq Require Import NArith Lia.
From Verif Require Import SymbolTable SymbolTableSpec.

Section proofs.
Context {V : Type} `{Countable V}.
Implicit Types (t : symtab V) (m : gmap nat V).

Record st_inv t m : Prop := {
  inv_id : ∀ s v, by_id t !! s = Some (Some v) ↔ m !! s = Some v;
  inv_val : ∀ s v, by_value t !! v = Some s ↔ m !! s = Some v;
  inv_empty : ∀ s, s ∈ empty_slots t ↔ by_id t !! s = Some None;
  inv_nodup : NoDup (empty_slots t)
}.

Lemma st_inv_new : st_inv st_new ∅.
Proof.
  constructor; simpl; intros; rewrite ?lookup_empty, ?lookup_nil; try done.
  - split; [intros ?%elem_of_nil; done|done].
  - constructor.
Qed.

Lemma inv_inj t m s1 s2 v : st_inv t m → m !! s1 = Some v → m !! s2 = Some v → s1 = s2.
Proof. intros I H1 H2. apply (inv_val _ _ I) in H1, H2. congruence. Qed.

Lemma inv_none_iff t m s : st_inv t m → m !! s = None ↔
   (by_id t !! s = None ∨ by_id t !! s = Some None).
Proof.
  intros I. destruct (m !! s) as [v|] eqn:E.
  - apply (inv_id _ _ I) in E. rewrite E. split; [done|intros [?|?]; done].
  - destruct (by_id t !! s) as [[v|]|] eqn:E2; [|tauto|tauto].
    apply (inv_id _ _ I) in E2. congruence.
Qed.

Lemma inv_full_size t m : st_inv t m → empty_slots t = [] → size m = length (by_id t).
Proof.
  intros I E.
  assert (dom m = (set_seq 0 (length (by_id t)) : gset nat)) as D.
  { apply set_eq. intros s. rewrite elem_of_dom, elem_of_set_seq. split.
    - intros [v Hv]. apply (inv_id _ _ I) in Hv. apply lookup_lt_Some in Hv. lia.
    - intros [_ Hs]. simpl in Hs. apply lookup_lt_is_Some in Hs as [[v|] Hv].
      + apply (inv_id _ _ I) in Hv. eauto.
      + apply (inv_empty _ _ I) in Hv. rewrite E in Hv. by apply elem_of_nil in Hv. }
  rewrite <- size_dom, D. apply size_set_seq.
Qed.

Lemma st_inv_insert t m v :
  st_inv t m →
  ∃ m', sym_spec usize_max m (StInsert v) (OutSym (st_insert t v).2) m' ∧
        st_inv (st_insert t v).1 m'.
Proof.
  intros I. unfold st_insert. destruct (by_value t !! v) as [s|] eqn:Ev.
  - exists m. split; [|done]. apply spec_insert_known. by apply (inv_val _ _ I).
  - assert (∀ s', m !! s' ≠ Some v) as Hfresh.
    { intros s' Hs'. apply (inv_val _ _ I) in Hs'. congruence. }
    destruct (empty_slots t) as [|slot rest] eqn:Ee.
    + destruct (N.ltb_spec (N.of_nat (length (by_id t))) usize_max) as [Hlt|Hge].
      * simpl. rewrite app_length; simpl.
        replace (length (by_id t) + 1 - 1) with (length (by_id t)) by lia.
        set (n := length (by_id t)).
        assert (by_id t !! n = None) as Hn by (apply lookup_ge_None; done).
        assert (m !! n = None) as Hmn by (apply (inv_none_iff _ _ _ I); auto).
        exists (<[n := v]> m). split; [by apply spec_insert_new|].
        constructor; simpl.
        -- intros s w. destruct (decide (s = n)) as [->|Hs].
           ++ rewrite lookup_app_r by done. rewrite Nat.sub_diag; simpl.
              rewrite lookup_insert. split; congruence.
           ++ rewrite lookup_insert_ne by done.
              destruct (decide (s < n)).
              ** rewrite lookup_app_l by done. apply (inv_id _ _ I).
              ** rewrite lookup_ge_None_2 by (rewrite app_length; simpl; unfold n in *; lia).
                 split; [done|]. intros Hw. apply (inv_id _ _ I) in Hw.
                 apply lookup_lt_Some in Hw. unfold n in *; lia.
        -- intros s w. destruct (decide (w = v)) as [->|Hw].
           ++ rewrite lookup_insert. split.
              ** intros [= <-]. by rewrite lookup_insert.
              ** intros Hs. destruct (decide (s = n)) as [->|]; [done|].
                 rewrite lookup_insert_ne in Hs by done. by apply Hfresh in Hs.
           ++ rewrite lookup_insert_ne by done. rewrite (inv_val _ _ I).
              destruct (decide (s = n)) as [->|].
              ** rewrite Hmn, lookup_insert. split; congruence.
              ** by rewrite lookup_insert_ne.
        -- intros s. split; [by intros ?%elem_of_nil|]. intros Hs.
           destruct (decide (s < n)).
           ++ rewrite lookup_app_l in Hs by done. apply (inv_empty _ _ I) in Hs.
              rewrite Ee in Hs. done.
           ++ apply lookup_app_Some in Hs as [Hs|[_ Hs]].
              ** apply lookup_lt_Some in Hs. unfold n in *; lia.
              ** apply list_lookup_singleton_Some in Hs as [_ ?]; congruence.
        -- constructor.
      * exists m. split; [|done]. apply spec_insert_full; [done|].
        rewrite (inv_full_size t m) by done. lia.
    + simpl. assert (by_id t !! slot = Some None) as Hslot.
      { apply (inv_empty _ _ I). rewrite Ee. by left. }
      assert (m !! slot = None) as Hms by (apply (inv_none_iff _ _ _ I); auto).
      pose proof (inv_nodup _ _ I) as ND. rewrite Ee in ND. apply NoDup_cons in ND as [Hnin ND].
      pose proof (lookup_lt_Some _ _ _ Hslot) as Hlen.
      exists (<[slot := v]> m). split; [by apply spec_insert_new|].
      constructor; simpl.
      * intros s w. destruct (decide (s = slot)) as [->|].
        -- rewrite list_lookup_insert by done. rewrite lookup_insert. split; congruence.
        -- rewrite list_lookup_insert_ne, lookup_insert_ne by done. apply (inv_id _ _ I).
      * intros s w. destruct (decide (w = v)) as [->|Hw].
        -- rewrite lookup_insert. split.
           ++ intros [= <-]. by rewrite lookup_insert.
           ++ intros Hs. destruct (decide (s = slot)) as [->|]; [done|].
              rewrite lookup_insert_ne in Hs by done. by apply Hfresh in Hs.
        -- rewrite lookup_insert_ne by done. rewrite (inv_val _ _ I).
           destruct (decide (s = slot)) as [->|].
           ++ rewrite Hms, lookup_insert. split; congruence.
           ++ by rewrite lookup_insert_ne.
      * intros s. destruct (decide (s = slot)) as [->|].
        -- rewrite list_lookup_insert by done. split; [done|congruence].
        -- rewrite list_lookup_insert_ne by done. rewrite <- (inv_empty _ _ I), Ee.
           rewrite elem_of_cons. naive_solver.
      * done.
Qed.

Lemma st_inv_remove t m s :
  st_inv t m →
  OutVal (st_remove t s).2 = OutVal (V:=V) (m !! s) ∧
  st_inv (st_remove t s).1 (delete s m).
Proof.
  intros I. unfold st_remove. destruct (decide (s < length (by_id t))) as [Hlt|Hge].
  - pose proof Hlt as [ov Hov]%lookup_lt_is_Some. rewrite Hov. destruct ov as [v|].
    + pose proof (proj1 (inv_id _ _ I _ _) Hov) as Hm. simpl. rewrite Hm. split; [done|].
      constructor; simpl.
      * intros s' w. destruct (decide (s' = s)) as [->|].
        -- rewrite list_lookup_insert, lookup_delete by done. split; congruence.
        -- rewrite list_lookup_insert_ne, lookup_delete_ne by done. apply (inv_id _ _ I).
      * intros s' w. destruct (decide (w = v)) as [->|].
        -- rewrite lookup_delete. split; [done|]. intros Hs'.
           apply lookup_delete_Some in Hs' as [Hne Hs'].
           destruct Hne. eapply inv_inj; eauto.
        -- rewrite lookup_delete_ne by done. rewrite (inv_val _ _ I).
           rewrite lookup_delete_Some. split; [|naive_solver].
           intros Hs'. split; [|done]. intros ->. congruence.
      * intros s'. rewrite elem_of_cons. destruct (decide (s' = s)) as [->|].
        -- rewrite list_lookup_insert by done. naive_solver.
        -- rewrite list_lookup_insert_ne by done. rewrite <- (inv_empty _ _ I). naive_solver.
      * constructor; [|apply (inv_nodup _ _ I)].
        intros Hin. apply (inv_empty _ _ I) in Hin. congruence.
    + assert (m !! s = None) as Hm by (apply (inv_none_iff _ _ _ I); auto).
      simpl. rewrite Hm, delete_notin by done. split; [done|].
      rewrite list_insert_id by done. destruct t; done.
  - assert (m !! s = None) as Hm.
    { apply (inv_none_iff _ _ _ I). left. apply lookup_ge_None. lia. }
    simpl. rewrite Hm, delete_notin by done. done.
Qed.

Lemma st_rebuild_spec (l : list (option V)) :
  ∀ i acc, (∀ j k v, l !! j = Some (Some v) → l !! k = Some (Some v) → j = k) →
  (∀ v s, st_rebuild i l acc !! v = Some s ↔
     ((∃ j, l !! j = Some (Some v) ∧ s = i + j) ∨
      ((∀ j, l !! j ≠ Some (Some v)) ∧ acc !! v = Some s))).
Proof.
  induction l as [|[w|] l IH]; intros i acc Hinj v s; simpl.
  - split.
    + intros. right. split; [|done]. intros j. by rewrite lookup_nil.
    + intros [[j [Hj _]]|[_ ?]]; [|done]. by rewrite lookup_nil in Hj.
  - rewrite IH.
    2:{ intros j k u Hj Hk. specialize (Hinj (S j) (S k) u Hj Hk). lia. }
    split.
    + intros [[j [Hj ->]]|[Hno Hacc]].
      * left. exists (S j). split; [done|lia].
      * destruct (decide (v = w)) as [->|].
        -- rewrite lookup_insert in Hacc. injection Hacc as <-. left. exists 0. split; [done|lia].
        -- rewrite lookup_insert_ne in Hacc by done. right. split; [|done].
           intros [|j]; simpl; [congruence|apply Hno].
    + intros [[[|j] [Hj ->]]|[Hno Hacc]]; simpl in *.
      * injection Hj as ->. right. split.
        -- intros j Hj. specialize (Hinj 0 (S j) v eq_refl Hj). lia.
        -- rewrite lookup_insert. f_equal. lia.
      * left. exists j. split; [done|lia].
      * right. split; [intros j; apply (Hno (S j))|].
        rewrite lookup_insert_ne; [done|]. intros ->. by apply (Hno 0).
  - rewrite IH.
    2:{ intros j k u Hj Hk. specialize (Hinj (S j) (S k) u Hj Hk). lia. }
    split.
    + intros [[j [Hj ->]]|[Hno Hacc]].
      * left. exists (S j). split; [done|lia].
      * right. split; [|done]. intros [|j]; simpl; [done|apply Hno].
    + intros [[[|j] [Hj ->]]|[Hno Hacc]]; simpl in *; [done| |].
      * left. exists j. split; [done|lia].
      * right. split; [intros j; apply (Hno (S j))|done].
Qed.

Lemma st_inv_reload t m : st_inv t m → st_inv (st_reload t) m.
Proof.
  intros I. constructor; simpl; [apply (inv_id _ _ I)| |apply (inv_empty _ _ I)|apply (inv_nodup _ _ I)].
  intros s v. rewrite st_rebuild_spec.
  - rewrite lookup_empty. split.
    + intros [[j [Hj ->]]|[_ ?]]; [|done]. by apply (inv_id _ _ I).
    + intros Hm. left. exists s. split; [by apply (inv_id _ _ I)|done].
  - intros j k w Hj Hk. apply (inv_id _ _ I) in Hj, Hk. eapply inv_inj; eauto.
Qed.

Lemma st_run_refines ops : ∀ t m, st_inv t m →
  ∃ m', sym_spec_run usize_max m ops (st_run t ops).2 m' ∧ st_inv (st_run t ops).1 m'.
Proof.
  induction ops as [|o ops IH]; intros t m I; simpl.
  { exists m. split; [constructor|done]. }
  assert (∃ m1, sym_spec usize_max m o (st_step t o).2 m1 ∧ st_inv (st_step t o).1 m1) as [m1 [Hs I1]].
  { destruct o as [v|s| |]; simpl.
    - destruct (st_inv_insert t m v I) as [m1 [? ?]].
      destruct (st_insert t v); eauto.
    - destruct (st_inv_remove t m s I) as [Ho I1]. destruct (st_remove t s); simpl in *.
      rewrite Ho. exists (delete s m). split; [constructor|done].
    - exists ∅. split; [constructor|]. apply st_inv_new.
    - exists m. split; [constructor|]. by apply st_inv_reload. }
  destruct (st_step t o) as [t1 r]; simpl in *.
  destruct (IH t1 m1 I1) as [m2 [Hr I2]].
  destruct (st_run t1 ops) as [t2 rs]; simpl in *.
  exists m2. split; [econstructor; eauto|done].
Qed.

Lemma st_get_value_inv t m s : st_inv t m → st_get_value t s = m !! s.
Proof.
  intros I. unfold st_get_value. destruct (decide _) as [Hlt|Hge].
  - destruct (by_id t !! s) as [[v|]|] eqn:E.
    + symmetry. by apply (inv_id _ _ I).
    + symmetry. apply (inv_none_iff _ _ _ I); auto.
    + symmetry. apply (inv_none_iff _ _ _ I); auto.
  - symmetry. apply (inv_none_iff _ _ _ I). left. apply lookup_ge_None. lia.
Qed.

Lemma symbol_table_refines_map_lemma (ops : list (st_op V)) (t : symtab V) (outs : list (st_out V)) :
  st_run st_new ops = (t, outs) →
  ∃ m : gmap nat V,
    sym_spec_run usize_max ∅ ops outs m ∧
    (∀ s, st_get_value t s = m !! s) ∧
    (∀ v s, st_get_symbol t v = Some s ↔ m !! s = Some v).
Proof.
  intros E. destruct (st_run_refines ops st_new ∅ st_inv_new) as [m [Hr I]].
  rewrite E in *; simpl in *. exists m. split; [done|]. split.
  - intros s. by apply st_get_value_inv.
  - intros v s. apply (inv_val _ _ I).
Qed.

Lemma symbol_table_injective_lemma (ops : list (st_op V)) s1 s2 v :
  st_get_value (st_run st_new ops).1 s1 = Some v →
  st_get_value (st_run st_new ops).1 s2 = Some v → s1 = s2.
Proof.
  destruct (st_run_refines ops st_new ∅ st_inv_new) as [m [_ I]].
  rewrite !(st_get_value_inv _ m) by done. by apply inv_inj with (t := (st_run st_new ops).1).
Qed.
End proofs.
