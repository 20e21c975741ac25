From stdpp Require Import base list gmap fin_maps.
From Coq Require Import NArith Lia.
From Verif Require Import KeySer KeySerSpec ListExtra SortedMap Types TypesProofs SymbolTable
  SymbolTableSpec SymbolTableProofs SymTabIface AnnoMem AnnoSpec.

Section counts.
Context {T : Type} `{Countable T}.
Implicit Types M : gmap (T * anno_key) bytes.

Lemma count_insert_new M i ak av ak' : M !! (i, ak) = None →
  count_key (<[(i, ak) := av]> M) ak' = (if decide (ak' = ak) then 1 else 0) + count_key M ak'.
Proof.
  intros Hn. unfold count_key. destruct (decide (ak' = ak)) as [->|Hne].
  - rewrite map_filter_insert_True by done. rewrite map_size_insert_None; [done|].
    rewrite map_filter_lookup_None. by left.
  - rewrite map_filter_insert_False by (simpl; congruence).
    rewrite delete_notin by done. done.
Qed.
Lemma count_insert_old M i ak av ak' : is_Some (M !! (i, ak)) →
  count_key (<[(i, ak) := av]> M) ak' = count_key M ak'.
Proof.
  intros [v Hv]. unfold count_key. destruct (decide (ak' = ak)) as [->|Hne].
  - rewrite map_filter_insert_True by done. rewrite map_size_insert_Some; [done|].
    exists v. rewrite map_filter_lookup_Some. done.
  - rewrite map_filter_insert_False by (simpl; congruence).
    rewrite map_filter_delete. rewrite delete_notin; [done|].
    rewrite map_filter_lookup_None. right. simpl. congruence.
Qed.
Lemma count_delete M i ak ak' : is_Some (M !! (i, ak)) →
  count_key M ak' = (if decide (ak' = ak) then 1 else 0) + count_key (delete (i, ak) M) ak'.
Proof.
  intros [v Hv]. pose proof (count_insert_new (delete (i, ak) M) i ak v ak') as E.
  rewrite lookup_delete, insert_delete in E by done. by apply E.
Qed.
Lemma count_zero M ak i : count_key M ak = 0 → M !! (i, ak) = None.
Proof.
  unfold count_key. intros E%map_size_empty_inv.
  destruct (M !! (i, ak)) as [v|] eqn:Hv; [|done].
  assert (filter (λ x : T * anno_key * bytes, x.1.2 = ak) M !! (i, ak) = Some v) as Hf
    by by rewrite map_filter_lookup_Some. by rewrite E in Hf.
Qed.
Lemma count_pos M ak : count_key M ak ≠ 0 → ∃ i, is_Some (M !! (i, ak)).
Proof.
  unfold count_key. intros Hn.
  destruct (map_choose (filter (λ x : T * anno_key * bytes, x.1.2 = ak) M)) as ([i k] & v & Hv).
  { intros E. rewrite E in Hn. by rewrite map_size_empty in Hn. }
  rewrite map_filter_lookup_Some in Hv. destruct Hv as [Hv Hk]. simpl in Hk. subst k. by exists i, v.
Qed.
Lemma count_empty ak : count_key (T:=T) ∅ ak = 0.
Proof. unfold count_key. rewrite map_filter_empty. apply map_size_empty. Qed.
End counts.

Section proofs.
Context {T : Type} `{Countable T} (tcmp : T → T → comparison) `{!CmpOrder tcmp}.
Implicit Types (s : am T) (M : gmap (T * anno_key) bytes) (ba : gmap nat (gmap nat (gset T)))
  (sy : T → nat → option nat) (keys : symtab anno_key) (vals : symtab bytes)
  (sizes : list (anno_key * nat)).

(** [i] is listed in the inverse index under symbols [k] and [v]. *)
Definition in_anno ba k v i : Prop := ∃ m X, ba !! k = Some m ∧ m !! v = Some X ∧ i ∈ X.

Lemma in_anno_add ba k v i k' v' i' :
  in_anno (add_to_by_anno ba k v i) k' v' i' ↔ in_anno ba k' v' i' ∨ (k' = k ∧ v' = v ∧ i' = i).
Proof.
  unfold in_anno, add_to_by_anno. destruct (decide (k' = k)) as [->|Hk].
  - rewrite lookup_insert. split.
    + intros (m & X & [= <-] & HX & Hi). destruct (decide (v' = v)) as [->|Hv].
      * rewrite lookup_insert in HX. injection HX as <-.
        apply elem_of_union in Hi as [->%elem_of_singleton|Hi]; [by right|]. left.
        destruct (ba !! k) as [m|]; simpl in *; [|by rewrite lookup_empty in Hi].
        destruct (m !! v) as [X|] eqn:EX; simpl in *; [|set_solver]. by exists m, X.
      * rewrite lookup_insert_ne in HX by done. left.
        destruct (ba !! k) as [m|]; simpl in *; [|by rewrite lookup_empty in HX]. by exists m, X.
    + intros [(m & X & Hm & HX & Hi)|(_ & -> & ->)].
      * rewrite Hm; simpl. destruct (decide (v' = v)) as [->|Hv].
        -- eexists _, _. split; [done|]. rewrite lookup_insert. split; [done|]. rewrite HX. set_solver.
        -- eexists _, _. split; [done|]. rewrite lookup_insert_ne by done. by rewrite HX.
      * eexists _, _. split; [done|]. rewrite lookup_insert. split; [done|]. set_solver.
  - rewrite lookup_insert_ne by done. naive_solver.
Qed.

Definition ba_nonempty ba : Prop := ∀ k m, ba !! k = Some m → m ≠ ∅ ∧ ∀ v X, m !! v = Some X → X ≠ ∅.

Lemma ba_nonempty_add ba k v i : ba_nonempty ba → ba_nonempty (add_to_by_anno ba k v i).
Proof.
  intros Hne k' m. unfold add_to_by_anno. destruct (decide (k' = k)) as [->|Hk].
  - rewrite lookup_insert. intros [= <-]. split; [apply insert_non_empty|].
    intros v' X. destruct (decide (v' = v)) as [->|Hv].
    + rewrite lookup_insert. intros [= <-]. set_solver.
    + rewrite lookup_insert_ne by done. destruct (ba !! k) as [m|] eqn:E; simpl.
      * by apply (Hne k).
      * by rewrite lookup_empty.
  - rewrite lookup_insert_ne by done. apply Hne.
Qed.

Lemma in_anno_remove ba a i k' v' i' :
  in_anno (remove_from_by_anno ba a i) k' v' i' ↔
  in_anno ba k' v' i' ∧ ¬ (k' = a.1 ∧ v' = a.2 ∧ i' = i).
Proof.
  destruct a as [k v]. unfold remove_from_by_anno, in_anno; simpl.
  destruct (ba !! k) as [m|] eqn:Ek; simpl; [|naive_solver].
  destruct (m !! v) as [X|] eqn:Ev; simpl; [|naive_solver].
  destruct (decide (X ∖ {[i]} = ∅)) as [HX|HX].
  - assert (∀ j, j ∈ X → j = i) as HXi.
    { intros j Hj. destruct (decide (j = i)) as [|Hji]; [done|]. exfalso.
      assert (j ∈ X ∖ {[i]}) as Hin by (apply elem_of_difference; split; [done|by rewrite elem_of_singleton]).
      rewrite HX in Hin. by apply elem_of_empty in Hin. }
    destruct (decide (delete v m = ∅)) as [Hm|Hm].
    + destruct (decide (k' = k)) as [->|Hk].
      * rewrite lookup_delete. split; [naive_solver|].
        intros [(m' & X' & Hm' & HX' & Hi) Hn]. exfalso.
        assert (m' = m) by congruence. subst m'. destruct (decide (v' = v)) as [->|Hv].
        -- assert (X' = X) by congruence. subst X'. naive_solver.
        -- assert (delete v m !! v' = None) as E by (rewrite Hm; apply lookup_empty).
           rewrite lookup_delete_ne in E by done. congruence.
      * rewrite lookup_delete_ne by done. naive_solver.
    + destruct (decide (k' = k)) as [->|Hk].
      * rewrite lookup_insert, Ek. destruct (decide (v' = v)) as [->|Hv].
        -- split.
           ++ intros (m' & X' & [= <-] & HX' & Hi). by rewrite lookup_delete in HX'.
           ++ naive_solver.
        -- split.
           ++ intros (m' & X' & [= <-] & HX' & Hi). rewrite lookup_delete_ne in HX' by done. naive_solver.
           ++ intros [(m' & X' & [= <-] & HX' & Hi) Hn]. eexists _, X'.
              rewrite lookup_delete_ne by done. done.
      * rewrite lookup_insert_ne by done. naive_solver.
  - destruct (decide (k' = k)) as [->|Hk].
    + rewrite lookup_insert, Ek. destruct (decide (v' = v)) as [->|Hv].
      * split.
        -- intros (m' & X' & [= <-] & HX' & Hi). rewrite lookup_insert in HX'. injection HX' as <-.
           apply elem_of_difference in Hi as [Hi Hni]. split; [by exists m, X|].
           intros (_ & _ & ->). set_solver.
        -- intros [(m' & X' & [= <-] & HX' & Hi) Hn]. assert (X' = X) by congruence. subst X'.
           eexists _, _. rewrite lookup_insert. split; [done|]. split; [done|].
           apply elem_of_difference. split; [done|]. intros ->%elem_of_singleton. naive_solver.
      * split.
        -- intros (m' & X' & [= <-] & HX' & Hi). rewrite lookup_insert_ne in HX' by done. naive_solver.
        -- intros [(m' & X' & [= <-] & HX' & Hi) Hn]. eexists _, X'.
           rewrite lookup_insert_ne by done. done.
    + rewrite lookup_insert_ne by done. naive_solver.
Qed.

Lemma ba_nonempty_remove ba a i : ba_nonempty ba → ba_nonempty (remove_from_by_anno ba a i).
Proof.
  destruct a as [k v]. unfold remove_from_by_anno; simpl. intros Hne.
  destruct (ba !! k) as [m|] eqn:Ek; [|done]. destruct (m !! v) as [X|] eqn:Ev; [|done].
  pose proof (Hne k m Ek) as [Hm0 HX0].
  destruct (decide (X ∖ {[i]} = ∅)) as [HX|HX]; [destruct (decide (delete v m = ∅)) as [Hm|Hm]|].
  - intros k' m'. destruct (decide (k' = k)) as [->|]; [by rewrite lookup_delete|].
    rewrite lookup_delete_ne by done. apply Hne.
  - intros k' m'. destruct (decide (k' = k)) as [->|].
    + rewrite lookup_insert. intros [= <-]. split; [done|]. intros v' X'.
      rewrite lookup_delete_Some. intros [_ ?]. eauto.
    + rewrite lookup_insert_ne by done. apply Hne.
  - intros k' m'. destruct (decide (k' = k)) as [->|].
    + rewrite lookup_insert. intros [= <-]. split; [apply insert_non_empty|]. intros v' X'.
      rewrite lookup_insert_Some. intros [[_ <-]|[_ ?]]; eauto.
    + rewrite lookup_insert_ne by done. apply Hne.
Qed.

Lemma in_anno_delete ba k k' v i :
  in_anno (delete k ba) k' v i ↔ k' ≠ k ∧ in_anno ba k' v i.
Proof.
  unfold in_anno. destruct (decide (k' = k)) as [->|].
  - rewrite lookup_delete. naive_solver.
  - rewrite lookup_delete_ne by done. naive_solver.
Qed.
Lemma ba_nonempty_delete ba k : ba_nonempty ba → ba_nonempty (delete k ba).
Proof. intros Hne k' m. rewrite lookup_delete_Some. intros [_ ?]. by apply (Hne k'). Qed.

Lemma value_used_false ba v : value_used ba v = false → ∀ k i, ¬ in_anno ba k v i.
Proof.
  intros Hf k i (m & X & Hm & HX & _). unfold value_used in Hf.
  assert (existsb (λ kv : nat * gmap nat (gset T), bool_decide (is_Some (kv.2 !! v))) (map_to_list ba) = true) as Ht.
  { apply existsb_exists. exists (k, m). split.
    - apply elem_of_list_In. by apply elem_of_map_to_list.
    - apply bool_decide_eq_true. simpl. by rewrite HX. }
  congruence.
Qed.

(** The invariant, with the symbol level content [sy] kept separate from [by_container]. *)
Record core sy ba sizes keys vals (total leak : nat) M : Prop := {
  c_keys : st_ok keys;
  c_vals : st_ok vals;
  c_sy : ∀ i k v, sy i k = Some v ↔
     ∃ ak av, st_get_value keys k = Some ak ∧ st_get_value vals v = Some av ∧ M !! (i, ak) = Some av;
  c_syms : ∀ i ak av, M !! (i, ak) = Some av →
     ∃ k v, st_get_value keys k = Some ak ∧ st_get_value vals v = Some av;
  c_ba : ∀ k v i, in_anno ba k v i ↔ sy i k = Some v;
  c_ne : ba_nonempty ba;
  c_sorted : al_sorted anno_key_compare sizes;
  c_sizes : ∀ ak, al_get anno_key_compare sizes ak =
     if decide (count_key M ak = 0) then None else Some (count_key M ak);
  c_total : total = size M + leak
}.

Lemma core_insert_sym sy ba sizes keys vals total leak M ak av keys' vals' rk rv :
  core sy ba sizes keys vals total leak M →
  st_insert keys ak = (keys', rk) → st_insert vals av = (vals', rv) →
  core sy ba sizes keys' vals' total leak M.
Proof.
  intros C Ek Ev.
  destruct (st_ok_insert _ _ _ _ (c_keys _ _ _ _ _ _ _ _ C) Ek) as [Hok Hk].
  destruct (st_ok_insert _ _ _ _ (c_vals _ _ _ _ _ _ _ _ C) Ev) as [Hov Hv].
  assert (∀ (s : nat) x, st_get_value keys s = Some x → st_get_value keys' s = Some x) as Mk.
  { destruct rk; [intros s x ?; apply Hk; auto|by subst]. }
  assert (∀ (s : nat) x, st_get_value vals s = Some x → st_get_value vals' s = Some x) as Mv.
  { destruct rv; [intros s x ?; apply Hv; auto|by subst]. }
  destruct C as [C1 C2 C3 C4 C5 C6 C7 C8 C9]. constructor; try done.
  - intros i k v. rewrite C3. split.
    + intros (a & b & ? & ? & ?). exists a, b. auto.
    + intros (a & b & Ha & Hb & HM). exists a, b.
      destruct (C4 _ _ _ HM) as (k0 & v0 & Hk0 & Hv0).
      rewrite (st_ok_inj keys' a k k0) by auto. rewrite (st_ok_inj vals' b v v0) by auto. done.
  - intros i a b HM. destruct (C4 _ _ _ HM) as (k0 & v0 & Hk0 & Hv0). exists k0, v0; auto.
Qed.

Definition upd sy i k (r : option nat) : T → nat → option nat :=
  λ i' k', if decide (i' = i ∧ k' = k) then r else sy i' k'.
Lemma upd_eq sy i k r : upd sy i k r i k = r.
Proof. unfold upd. by rewrite decide_True. Qed.
Lemma upd_ne sy i k r i' k' : ¬ (i' = i ∧ k' = k) → upd sy i k r i' k' = sy i' k'.
Proof. intros. unfold upd. by rewrite decide_False. Qed.

Lemma core_ext sy sy' ba sizes keys vals total leak M :
  (∀ i k, sy' i k = sy i k) →
  core sy ba sizes keys vals total leak M → core sy' ba sizes keys vals total leak M.
Proof.
  intros E [C1 C2 C3 C4 C5 C6 C7 C8 C9]. constructor; try done.
  - intros i k v. by rewrite E, C3.
  - intros k v i. by rewrite E, C5.
Qed.

Lemma core_sy_none sy ba sizes keys vals total leak M i k ak :
  core sy ba sizes keys vals total leak M → st_get_value keys k = Some ak →
  sy i k = None ↔ M !! (i, ak) = None.
Proof.
  intros C Hk. split; intros Hn.
  - destruct (M !! (i, ak)) as [av|] eqn:E; [|done].
    destruct (c_syms _ _ _ _ _ _ _ _ C _ _ _ E) as (k' & v & Hk' & Hv).
    rewrite (st_ok_inj keys ak k' k) in Hk' by (try done; apply (c_keys _ _ _ _ _ _ _ _ C)).
    assert (sy i k = Some v) by (apply (c_sy _ _ _ _ _ _ _ _ C); eauto). congruence.
  - destruct (sy i k) as [v|] eqn:E; [|done].
    apply (c_sy _ _ _ _ _ _ _ _ C) in E as (a & b & ? & ? & ?). congruence.
Qed.

Lemma core_insert_new sy ba sizes keys vals total leak M i k v ak av :
  core sy ba sizes keys vals total leak M →
  st_get_value keys k = Some ak → st_get_value vals v = Some av → sy i k = None →
  core (upd sy i k (Some v)) (add_to_by_anno ba k v i)
    (al_insert anno_key_compare sizes ak (S (default 0 (al_get anno_key_compare sizes ak))))
    keys vals (S total) leak (<[(i, ak) := av]> M).
Proof.
  intros C Hk Hv Hn. assert (M !! (i, ak) = None) as HM by by apply (core_sy_none _ _ _ _ _ _ _ _ _ k _ C).
  destruct C as [C1 C2 C3 C4 C5 C6 C7 C8 C9]. constructor; try done.
  - intros i' k' v'. destruct (decide (i' = i ∧ k' = k)) as [[-> ->]|Hne].
    + rewrite upd_eq. split.
      * intros [= <-]. exists ak, av. by rewrite lookup_insert.
      * intros (a & b & Ha & Hb & HI). assert (a = ak) by congruence. subst a.
        rewrite lookup_insert in HI. injection HI as <-. f_equal. by apply (st_ok_inj vals av).
    + rewrite upd_ne by done. rewrite C3. split.
      * intros (a & b & Ha & Hb & HI). exists a, b. rewrite lookup_insert_ne; [done|].
        intros [= -> ->]. apply Hne. split; [done|]. by apply (st_ok_inj keys a).
      * intros (a & b & Ha & Hb & HI). exists a, b. rewrite lookup_insert_ne in HI; [done|].
        intros [= -> ->]. apply Hne. split; [done|]. by apply (st_ok_inj keys a).
  - intros i' a b. rewrite lookup_insert_Some. intros [[[= <- <-] <-]|[_ ?]]; [by exists k, v|eauto].
  - intros k' v' i'. rewrite in_anno_add, C5. destruct (decide (i' = i ∧ k' = k)) as [[-> ->]|Hne].
    + rewrite upd_eq. split; [intros [?|(_ & -> & _)]; congruence|]. intros [= ->]; auto.
    + rewrite upd_ne by done. naive_solver.
  - by apply ba_nonempty_add.
  - apply al_insert_sorted; [apply _|done].
  - intros ak'. rewrite al_get_insert by apply _. rewrite count_insert_new by done.
    destruct (anno_key_compare ak' ak) eqn:E.
    + apply (cmp_eq anno_key_compare) in E. subst ak'. rewrite !(decide_True (P := ak = ak)) by done.
      rewrite decide_False by lia. rewrite C8. destruct (decide _) as [->|]; done.
    + rewrite (decide_False (P:=ak' = ak)); [apply C8|]. intros ->. by rewrite (cmp_refl anno_key_compare) in E.
    + rewrite (decide_False (P:=ak' = ak)); [apply C8|]. intros ->. by rewrite (cmp_refl anno_key_compare) in E.
  - rewrite map_size_insert_None by done. lia.
Qed.

Lemma core_replace sy ba sizes keys vals total leak M i k v0 v ak av :
  core sy ba sizes keys vals total leak M →
  st_get_value keys k = Some ak → st_get_value vals v = Some av → sy i k = Some v0 → v0 ≠ v →
  core (upd sy i k (Some v)) (add_to_by_anno (remove_from_by_anno ba (k, v0) i) k v i)
    sizes keys vals total leak (<[(i, ak) := av]> M).
Proof.
  intros C Hk Hv Hs Hne0. assert (is_Some (M !! (i, ak))) as HM.
  { apply (c_sy _ _ _ _ _ _ _ _ C) in Hs as (a & b & ? & ? & ?). assert (a = ak) by congruence. subst. by eexists. }
  destruct C as [C1 C2 C3 C4 C5 C6 C7 C8 C9]. constructor; try done.
  - intros i' k' v'. destruct (decide (i' = i ∧ k' = k)) as [[-> ->]|Hne].
    + rewrite upd_eq. split.
      * intros [= <-]. exists ak, av. by rewrite lookup_insert.
      * intros (a & b & Ha & Hb & HI). assert (a = ak) by congruence. subst a.
        rewrite lookup_insert in HI. injection HI as <-. f_equal. by apply (st_ok_inj vals av).
    + rewrite upd_ne by done. rewrite C3. split.
      * intros (a & b & Ha & Hb & HI). exists a, b. rewrite lookup_insert_ne; [done|].
        intros [= -> ->]. apply Hne. split; [done|]. by apply (st_ok_inj keys a).
      * intros (a & b & Ha & Hb & HI). exists a, b. rewrite lookup_insert_ne in HI; [done|].
        intros [= -> ->]. apply Hne. split; [done|]. by apply (st_ok_inj keys a).
  - intros i' a b. rewrite lookup_insert_Some. intros [[[= <- <-] <-]|[_ ?]]; [by exists k, v|eauto].
  - intros k' v' i'. rewrite in_anno_add, in_anno_remove, C5; simpl.
    destruct (decide (i' = i ∧ k' = k)) as [[-> ->]|Hne].
    + rewrite upd_eq. split; [|intros [= ->]; auto].
      intros [[? Hn]|(_ & -> & _)]; [|done]. exfalso. apply Hn. split; [done|]. split; [congruence|done].
    + rewrite upd_ne by done. naive_solver.
  - by apply ba_nonempty_add, ba_nonempty_remove.
  - intros ak'. by rewrite count_insert_old.
  - by rewrite map_size_insert_Some.
Qed.

Lemma core_remove sy ba sizes keys vals total leak M i k v ak ba' sizes' keys' :
  core sy ba sizes keys vals total leak M →
  st_get_value keys k = Some ak → sy i k = Some v →
  decrease_key (remove_from_by_anno ba (k, v) i) sizes keys ak k = (ba', sizes', keys') →
  total ≠ 0 ∧
  core (upd sy i k None) ba' sizes' keys' (check_and_remove_value_symbol ba' vals v)
    (total - 1) leak (delete (i, ak) M).
Proof.
  intros C Hk Hs Hd. assert (is_Some (M !! (i, ak))) as HM.
  { apply (c_sy _ _ _ _ _ _ _ _ C) in Hs as (a & b & ? & ? & ?). assert (a = ak) by congruence. subst. by eexists. }
  destruct C as [C1 C2 C3 C4 C5 C6 C7 C8 C9].
  set (M' := delete (i, ak) M).
  pose proof (λ ak', count_delete M i ak ak' HM) as Hcnt. fold M' in Hcnt.
  assert (size M = S (size M')) as Hsz.
  { destruct HM as [x Hx]. unfold M'. rewrite <- (insert_delete M (i, ak) x Hx) at 1.
    apply map_size_insert_None. apply lookup_delete. }
  split; [lia|].
  (* facts about the inverse index before the key is dropped *)
  set (ba1 := remove_from_by_anno ba (k, v) i) in Hd.
  assert (∀ k' v' i', in_anno ba1 k' v' i' ↔ upd sy i k None i' k' = Some v') as Hba1.
  { intros k' v' i'. unfold ba1. rewrite in_anno_remove, C5; simpl.
    destruct (decide (i' = i ∧ k' = k)) as [[-> ->]|Hne].
    - rewrite upd_eq. split; [|done]. intros [? Hn]. exfalso. apply Hn. split; [done|]. split; [congruence|done].
    - rewrite upd_ne by done. naive_solver. }
  assert (∀ i' k' v', upd sy i k None i' k' = Some v' ↔
     ∃ ak' av, st_get_value keys k' = Some ak' ∧ st_get_value vals v' = Some av ∧ M' !! (i', ak') = Some av) as Hsy1.
  { intros i' k' v'. destruct (decide (i' = i ∧ k' = k)) as [[-> ->]|Hne].
    - rewrite upd_eq. split; [done|]. intros (a & b & Ha & Hb & HI). assert (a = ak) by congruence. subst a.
      unfold M' in HI. by rewrite lookup_delete in HI.
    - rewrite upd_ne by done. rewrite C3. unfold M'. split.
      + intros (a & b & Ha & Hb & HI). exists a, b. rewrite lookup_delete_ne; [done|].
        intros [= -> ->]. apply Hne. split; [done|]. by apply (st_ok_inj keys a).
      + intros (a & b & Ha & Hb & HI). exists a, b. apply lookup_delete_Some in HI as [_ ?]. done. }
  assert (∀ i' a b, M' !! (i', a) = Some b → M !! (i', a) = Some b) as HM'.
  { intros i' a b. unfold M'. rewrite lookup_delete_Some. naive_solver. }
  (* effect of decrease_key *)
  assert (st_ok keys' ∧
     (∀ k' a, (st_get_value keys' k' = Some a ↔ st_get_value keys k' = Some a ∧ (count_key M' ak = 0 → k' ≠ k))) ∧
     (∀ k' v' i', in_anno ba' k' v' i' ↔ in_anno ba1 k' v' i') ∧ ba_nonempty ba' ∧
     al_sorted anno_key_compare sizes' ∧
     ∀ a, al_get anno_key_compare sizes' a = if decide (count_key M' a = 0) then None else Some (count_key M' a))
    as (K1 & K2 & K3 & K4 & K5 & K6).
  { assert (ba_nonempty ba1) as Hne1 by by apply ba_nonempty_remove.
    unfold decrease_key in Hd. rewrite C8 in Hd. rewrite !(Hcnt ak), !(decide_True (P := ak = ak)) in Hd by done.
    rewrite decide_False in Hd by lia.
    replace (1 + count_key M' ak - 1) with (count_key M' ak) in Hd by lia.
    assert (∀ a, al_get anno_key_compare (al_insert anno_key_compare sizes ak (count_key M' ak)) a =
       if decide (a = ak) then Some (count_key M' ak) else if decide (count_key M' a = 0) then None else Some (count_key M' a)) as Hg.
    { intros a. rewrite al_get_insert by apply _. destruct (anno_key_compare a ak) eqn:E.
      - apply (cmp_eq anno_key_compare) in E. subst. by rewrite decide_True.
      - rewrite (decide_False (P:=a=ak)) by (intros ->; by rewrite (cmp_refl anno_key_compare) in E).
        assert (a ≠ ak) as Hna by (intros ->; by rewrite (cmp_refl anno_key_compare) in E). rewrite C8. pose proof (Hcnt a) as Hca. rewrite (decide_False (P := a = ak)) in Hca by done. simpl in Hca. by rewrite Hca.
      - rewrite (decide_False (P:=a=ak)) by (intros ->; by rewrite (cmp_refl anno_key_compare) in E).
        assert (a ≠ ak) as Hna by (intros ->; by rewrite (cmp_refl anno_key_compare) in E). rewrite C8. pose proof (Hcnt a) as Hca. rewrite (decide_False (P := a = ak)) in Hca by done. simpl in Hca. by rewrite Hca. }
    destruct (decide (count_key M' ak = 0)) as [Hz|Hz]; injection Hd as <- <- <-.
    - destruct (st_ok_remove keys k C1) as [Kok Kget]. split_and!.
      + done.
      + intros k' a. rewrite Kget. destruct (decide (k' = k)) as [->|]; naive_solver.
      + intros k' v' i'. rewrite in_anno_delete. split; [naive_solver|]. intros Hi. split; [|done].
        intros ->. apply Hba1 in Hi. apply Hsy1 in Hi as (a & b & Ha & Hb & HI).
        assert (a = ak) by congruence. subst a. rewrite (count_zero M' ak i' Hz) in HI. done.
      + by apply ba_nonempty_delete.
      + apply al_remove_sorted. apply al_insert_sorted; [apply _|done].
      + intros a. rewrite al_get_remove by first [apply _ | (apply al_insert_sorted; [apply _|done])]. rewrite Hg.
        destruct (anno_key_compare a ak) eqn:E.
        * apply (cmp_eq anno_key_compare) in E. subst. by rewrite decide_True.
        * rewrite (decide_False (P:=a=ak)) by (intros ->; by rewrite (cmp_refl anno_key_compare) in E). done.
        * rewrite (decide_False (P:=a=ak)) by (intros ->; by rewrite (cmp_refl anno_key_compare) in E). done.
    - split_and!; try done.
      + intros k' a. naive_solver.
      + apply al_insert_sorted; [apply _|done].
      + intros a. rewrite Hg. destruct (decide (a = ak)) as [->|]; [|done]. by rewrite decide_False. }
  (* effect of check_and_remove_value_symbol *)
  set (vals' := check_and_remove_value_symbol ba' vals v).
  assert (st_ok vals' ∧ ∀ v' b, st_get_value vals' v' = Some b ↔
     st_get_value vals v' = Some b ∧ (v' = v → value_used ba' v = true)) as [V1 V2].
  { unfold vals', check_and_remove_value_symbol. destruct (value_used ba' v) eqn:Eu.
    - split; [done|]. naive_solver.
    - destruct (st_ok_remove vals v C2) as [Vok Vget]. split; [done|]. intros v' b. rewrite Vget.
      destruct (decide (v' = v)) as [->|]; naive_solver. }
  constructor; try done.
  - intros i' k' v'. rewrite Hsy1. split.
    + intros (a & b & Ha & Hb & HI). exists a, b. rewrite K2, V2. split_and!; try done.
      * intros Hz ->. assert (a = ak) by congruence. subst. by rewrite (count_zero M' ak i' Hz) in HI.
      * intros ->. destruct (value_used ba' v) eqn:Eu; [done|].
        exfalso. apply (value_used_false _ _ Eu k' i'). apply K3, Hba1, Hsy1. eauto.
    + intros (a & b & Ha & Hb & HI). apply K2 in Ha as [Ha _]. apply V2 in Hb as [Hb _]. eauto.
  - intros i' a b HI. destruct (C4 _ _ _ (HM' _ _ _ HI)) as (k' & v' & Hk' & Hv').
    assert (upd sy i k None i' k' = Some v') as Hu by (apply Hsy1; eauto).
    exists k', v'. rewrite K2, V2. split_and!; try done.
    + intros Hz ->. assert (a = ak) by congruence. subst. by rewrite (count_zero M' ak i' Hz) in HI.
    + intros ->. destruct (value_used ba' v) eqn:Eu; [done|].
      exfalso. apply (value_used_false _ _ Eu k' i'). by apply K3, Hba1.
  - intros k' v' i'. by rewrite K3.
  - lia.
Qed.

Lemma core_reload sy ba sizes keys vals total leak M :
  core sy ba sizes keys vals total leak M →
  core sy ba sizes (st_reload keys) (st_reload vals) total leak M.
Proof.
  intros [C1 C2 C3 C4 C5 C6 C7 C8 C9].
  destruct (st_ok_reload keys C1) as [K1 K2]. destruct (st_ok_reload vals C2) as [V1 V2].
  by constructor.
Qed.

(** Symbol level content of a storage *)
Definition sym s (i : T) (k : nat) : option nat :=
  match by_container s !! i with Some l => al_get Nat.compare l k | None => None end.

Record inv s (leak : nat) M : Prop := {
  i_core : core (sym s) (by_anno s) (anno_key_sizes s) (anno_keys s) (anno_values s)
             (total_number_of_annos s) leak M;
  i_cont : ∀ i l, by_container s !! i = Some l → al_sorted Nat.compare l;
  i_largest : ∀ i ak, is_Some (M !! (i, ak)) → ∃ x, largest_item s = Some x ∧ tcmp i x ≠ Gt
}.

Lemma inv_new : inv am_new 0 ∅.
Proof.
  constructor; simpl.
  - constructor; simpl.
    + apply st_ok_new.
    + apply st_ok_new.
    + intros i k v. unfold sym; simpl. rewrite lookup_empty. split; [done|].
      intros (a & b & ? & ? & HI). by rewrite lookup_empty in HI.
    + intros i a b. by rewrite lookup_empty.
    + intros k v i. unfold sym, in_anno; simpl. rewrite !lookup_empty. naive_solver.
    + intros k m. by rewrite lookup_empty.
    + constructor.
    + intros ak. by rewrite count_empty.
    + by rewrite map_size_empty.
  - intros i l. by rewrite lookup_empty.
  - intros i ak [x Hx]. by rewrite lookup_empty in Hx.
Qed.

Lemma inv_clear s leak M : inv s leak M → inv (am_clear s) (total_number_of_annos s) ∅.
Proof.
  intros _. destruct inv_new as [C ? ?]. constructor; simpl; try done.
  destruct C. by constructor.
Qed.

Lemma default_sorted s leak M i : inv s leak M →
  al_sorted Nat.compare (default [] (by_container s !! i)).
Proof.
  intros I. destruct (by_container s !! i) eqn:E; simpl; [by eapply i_cont|constructor].
Qed.

Lemma sym_default s i k : sym s i k = al_get Nat.compare (default [] (by_container s !! i)) k.
Proof. unfold sym. by destruct (by_container s !! i). Qed.

Lemma insert_cont_sorted s leak M i l : inv s leak M → al_sorted Nat.compare l →
  ∀ i' l', <[i := l]> (by_container s) !! i' = Some l' → al_sorted Nat.compare l'.
Proof.
  intros I Hl i' l'. rewrite lookup_insert_Some. intros [[_ <-]|[_ ?]]; [done|by eapply i_cont].
Qed.

Lemma tcmp_le_refl i : tcmp i i ≠ Gt.
Proof. by rewrite (cmp_refl tcmp). Qed.
Lemma grow_largest_ge (l : option T) i x : (l = Some x ∨ x = i) → 
  ∃ y, grow_largest tcmp l i = Some y ∧ tcmp x y ≠ Gt.
Proof.
  intros Hl. unfold grow_largest. destruct l as [z|].
  - destruct (tcmp z i) eqn:E.
    + exists z. split; [done|]. apply (cmp_eq tcmp) in E. destruct Hl as [[= ->]| ->]; subst; apply tcmp_le_refl.
    + exists i. split; [done|]. destruct Hl as [[= ->]| ->]; [by rewrite E|apply tcmp_le_refl].
    + exists z. split; [done|]. destruct Hl as [[= ->]| ->]; [apply tcmp_le_refl|].
      apply (cmp_gt_lt tcmp) in E. by rewrite E.
  - exists i. split; [done|]. destruct Hl as [?| ->]; [done|apply tcmp_le_refl].
Qed.
Lemma tcmp_le_trans a b c : tcmp a b ≠ Gt → tcmp b c ≠ Gt → tcmp a c ≠ Gt.
Proof.
  destruct (tcmp a b) eqn:E1; [|..]; try done; destruct (tcmp b c) eqn:E2; try done; intros _ _.
  - apply (cmp_eq tcmp) in E1. subst. by rewrite E2.
  - apply (cmp_eq tcmp) in E1. subst. by rewrite E2.
  - apply (cmp_eq tcmp) in E2. subst. by rewrite E1.
  - by rewrite (cmp_trans tcmp _ _ _ E1 E2).
Qed.

Lemma inv_insert s leak M i ak av s' b : inv s leak M → am_insert tcmp s i ak av = (s', b) →
  inv s' leak (if b then <[(i, ak) := av]> M else M).
Proof.
  intros I Hi. unfold am_insert in Hi. pose proof (default_sorted s leak M i I) as Hsort.
  pose proof (i_core _ _ _ I) as C.
  destruct (st_insert (anno_keys s) ak) as [keys' [k|]] eqn:Ek.
  2:{ injection Hi as <- <-. destruct (st_ok_insert _ _ _ _ (c_keys _ _ _ _ _ _ _ _ C) Ek) as [_ ->].
      by destruct s. }
  destruct (st_insert (anno_values s) av) as [vals' rv] eqn:Ev.
  pose proof (core_insert_sym _ _ _ _ _ _ _ _ _ _ _ _ _ _ C Ek Ev) as C'.
  destruct (st_ok_insert _ _ _ _ (c_keys _ _ _ _ _ _ _ _ C) Ek) as [Hok [Hk _]].
  destruct (st_ok_insert _ _ _ _ (c_vals _ _ _ _ _ _ _ _ C) Ev) as [Hov Hv].
  destruct rv as [v|].
  2:{ injection Hi as <- <-. constructor; simpl; [done|apply (i_cont _ _ _ I)|apply (i_largest _ _ _ I)]. }
  destruct Hv as [Hv _].
  destruct (al_get Nat.compare (default [] (by_container s !! i)) k) as [v0|] eqn:Eg.
  - pose proof Eg as Hs0. rewrite <- sym_default in Hs0.
    destruct (proj1 (c_sy _ _ _ _ _ _ _ _ C' i k v0) Hs0) as (a & b0 & Ha & Hb & HM).
    assert (a = ak) by congruence. subst a.
    destruct (decide (v0 = v)) as [->|Hne]; injection Hi as <- <-.
    + assert (b0 = av) by congruence. subst b0. rewrite (insert_id M) by done.
      constructor; simpl; [|by eapply insert_cont_sorted|apply (i_largest _ _ _ I)].
      eapply core_ext; [|apply C']. intros i' k'. unfold sym at 1; simpl.
      destruct (decide (i' = i)) as [->|]; [|by rewrite lookup_insert_ne].
      by rewrite lookup_insert, sym_default.
    + constructor; simpl.
      * eapply core_ext; [|apply core_replace with (v0 := v0); try done]. intros i' k'.
        unfold sym at 1; simpl. destruct (decide (i' = i)) as [->|].
        -- rewrite lookup_insert, al_get_insert by apply _. destruct (Nat.compare k' k) eqn:E.
           ++ apply (cmp_eq Nat.compare) in E. subst. by rewrite upd_eq.
           ++ rewrite upd_ne, sym_default; [done|]. intros [_ ->]. by rewrite (cmp_refl Nat.compare) in E.
           ++ rewrite upd_ne, sym_default; [done|]. intros [_ ->]. by rewrite (cmp_refl Nat.compare) in E.
        -- rewrite lookup_insert_ne, upd_ne by naive_solver. done.
      * eapply insert_cont_sorted; [done|]. apply al_insert_sorted; [apply _|done].
      * intros i' a Hs. apply (i_largest _ _ _ I i' a). destruct Hs as [x Hx].
        apply lookup_insert_Some in Hx as [[[= <- <-] _]|[_ ?]]; by eexists.
  - pose proof Eg as Hs0. rewrite <- sym_default in Hs0. injection Hi as <- <-.
    constructor; simpl.
    + eapply core_ext; [|by apply core_insert_new]. intros i' k'.
      unfold sym at 1; simpl. destruct (decide (i' = i)) as [->|].
      * rewrite lookup_insert, al_get_insert by apply _. destruct (Nat.compare k' k) eqn:E.
        -- apply (cmp_eq Nat.compare) in E. subst. by rewrite upd_eq.
        -- rewrite upd_ne, sym_default; [done|]. intros [_ ->]. by rewrite (cmp_refl Nat.compare) in E.
        -- rewrite upd_ne, sym_default; [done|]. intros [_ ->]. by rewrite (cmp_refl Nat.compare) in E.
      * rewrite lookup_insert_ne, upd_ne by naive_solver. done.
    + eapply insert_cont_sorted; [done|]. apply al_insert_sorted; [apply _|done].
    + intros i' a Hs. destruct Hs as [x Hx].
      apply lookup_insert_Some in Hx as [[[= <- <-] _]|[_ ?]].
      * apply grow_largest_ge. by right.
      * destruct (i_largest _ _ _ I i' a) as (y & Hy & Hle); [by eexists|].
        destruct (grow_largest_ge (largest_item s) i y) as (z & Hz & Hle'); [by left|].
        exists z. split; [done|]. by eapply tcmp_le_trans.
Qed.

Lemma get_value_lemma s leak M i ak : inv s leak M → am_get_value s i ak = M !! (i, ak).
Proof.
  intros I. pose proof (i_core _ _ _ I) as C. unfold am_get_value.
  destruct (M !! (i, ak)) as [av|] eqn:HM.
  - destruct (c_syms _ _ _ _ _ _ _ _ C _ _ _ HM) as (k & v & Hk & Hv).
    pose proof Hk as Hk'. apply st_ok_sym in Hk'; [|apply (c_keys _ _ _ _ _ _ _ _ C)]. rewrite Hk'.
    assert (sym s i k = Some v) as Hs by (apply (c_sy _ _ _ _ _ _ _ _ C); eauto).
    unfold sym in Hs. destruct (by_container s !! i) as [l|]; [|done]. by rewrite Hs.
  - destruct (st_get_symbol (anno_keys s) ak) as [k|] eqn:Ek; [|done].
    apply st_ok_sym in Ek; [|apply (c_keys _ _ _ _ _ _ _ _ C)].
    pose proof (proj2 (core_sy_none _ _ _ _ _ _ _ _ i k ak C Ek) HM) as Hn. unfold sym in Hn.
    destruct (by_container s !! i) as [l|]; [|done]. by rewrite Hn.
Qed.

Lemma has_value_lemma s leak M i ak : inv s leak M →
  am_has_value s i ak = bool_decide (is_Some (M !! (i, ak))).
Proof.
  intros I. pose proof (i_core _ _ _ I) as C. unfold am_has_value.
  destruct (M !! (i, ak)) as [av|] eqn:HM.
  - destruct (c_syms _ _ _ _ _ _ _ _ C _ _ _ HM) as (k & v & Hk & Hv).
    pose proof Hk as Hk'. apply st_ok_sym in Hk'; [|apply (c_keys _ _ _ _ _ _ _ _ C)]. rewrite Hk'.
    assert (sym s i k = Some v) as Hs by (apply (c_sy _ _ _ _ _ _ _ _ C); eauto).
    unfold sym in Hs. destruct (by_container s !! i) as [l|]; [|done]. by rewrite Hs.
  - rewrite bool_decide_eq_false_2 by (intros [? ?]; done).
    destruct (st_get_symbol (anno_keys s) ak) as [k|] eqn:Ek; [|done].
    apply st_ok_sym in Ek; [|apply (c_keys _ _ _ _ _ _ _ _ C)].
    pose proof (proj2 (core_sy_none _ _ _ _ _ _ _ _ i k ak C Ek) HM) as Hn. unfold sym in Hn.
    destruct (by_container s !! i) as [l|]; [|done]. by rewrite Hn.
Qed.

Lemma inv_remove_annotation s leak M i ak s' r : inv s leak M →
  am_remove_annotation s i ak = (s', r) → inv s' leak (delete (i, ak) M) ∧ r = M !! (i, ak).
Proof.
  intros I Hr. pose proof (i_core _ _ _ I) as C. pose proof (get_value_lemma s leak M i ak I) as Hgv.
  unfold am_get_value in Hgv. unfold am_remove_annotation in Hr.
  destruct (st_get_symbol (anno_keys s) ak) as [k|] eqn:Ek.
  2:{ injection Hr as <- <-. rewrite <- Hgv. rewrite delete_notin by done. done. }
  destruct (by_container s !! i) as [l|] eqn:El.
  2:{ injection Hr as <- <-. rewrite <- Hgv. rewrite delete_notin by done. done. }
  apply st_ok_sym in Ek; [|apply (c_keys _ _ _ _ _ _ _ _ C)].
  destruct (al_get Nat.compare l k) as [v|] eqn:Eg.
  - assert (sym s i k = Some v) as Hs by (unfold sym; by rewrite El).
    destruct (decrease_key _ _ _ _ _) as [[ba' sizes'] keys'] eqn:Ed. injection Hr as <- <-.
    split; [|done].
    destruct (core_remove _ _ _ _ _ _ _ _ _ _ _ _ _ _ _ C Ek Hs Ed) as [_ C'].
    pose proof (i_cont _ _ _ I i l El) as Hl.
    pose proof (al_remove_sorted Nat.compare l k Hl) as Hl'.
    constructor; simpl.
    + eapply core_ext; [|apply C']. intros i' k'. unfold sym at 1; simpl.
      destruct (decide (i' = i)) as [->|Hne].
      * assert (al_get Nat.compare (al_remove Nat.compare l k) k' = upd (sym s) i k None i k') as E.
        { rewrite al_get_remove by (done || apply _). unfold upd, sym. rewrite El.
          destruct (Nat.compare k' k) eqn:E.
          - apply (cmp_eq Nat.compare) in E. subst. by rewrite decide_True.
          - rewrite decide_False; [done|]. intros [_ ->]. by rewrite (cmp_refl Nat.compare) in E.
          - rewrite decide_False; [done|]. intros [_ ->]. by rewrite (cmp_refl Nat.compare) in E. }
        rewrite <- E. destruct (decide (_ = [])) as [->|]; [by rewrite lookup_delete|by rewrite lookup_insert].
      * rewrite upd_ne by naive_solver. unfold sym.
        destruct (decide (_ = [])); [by rewrite lookup_delete_ne|by rewrite lookup_insert_ne].
    + intros i' l'. destruct (decide (_ = [])).
      * rewrite lookup_delete_Some. intros [_ ?]. by eapply i_cont.
      * by eapply insert_cont_sorted.
    + intros i' a [x Hx]. apply lookup_delete_Some in Hx as [_ ?]. eapply i_largest; [done|by eexists].
  - injection Hr as <- <-. split; [|done].
    rewrite (delete_notin M) by (by symmetry).
    assert (∀ i', (if decide (l = []) then delete i (by_container s) else <[i := l]> (by_container s)) !! i'
                  = by_container s !! i' ∨ (l = [] ∧ i' = i ∧ (if decide (l = []) then delete i (by_container s) else <[i := l]> (by_container s)) !! i' = None)) as Hlk.
    { intros i'. destruct (decide (l = [])) as [->|].
      - destruct (decide (i' = i)) as [->|]; [right; by rewrite lookup_delete|left; by rewrite lookup_delete_ne].
      - left. destruct (decide (i' = i)) as [->|]; [by rewrite lookup_insert|by rewrite lookup_insert_ne]. }
    constructor; simpl; [| |apply (i_largest _ _ _ I)].
    + eapply core_ext; [|apply C]. intros i' k'. unfold sym; simpl.
      destruct (Hlk i') as [->|(-> & -> & ->)]; [done|by rewrite El].
    + intros i' l' Hl'. destruct (Hlk i') as [E|(-> & -> & E)]; rewrite E in Hl'; [|done]. by eapply i_cont.
Qed.

(** Loop of remove_item *)
Definition rest_sym s (i : T) (l : list (nat * nat)) : T → nat → option nat :=
  λ i' k', if decide (i' = i) then al_get Nat.compare l k' else sym s i' k'.

Lemma remove_item_loop i l : ∀ s s0 leak M, al_sorted Nat.compare l →
  core (rest_sym s0 i l) (by_anno s) (anno_key_sizes s) (anno_keys s) (anno_values s)
       (total_number_of_annos s) leak M →
  by_container s !! i = None →
  (∀ i', i' ≠ i → by_container s !! i' = by_container s0 !! i') →
  ∃ M', let s' := fold_left (remove_item_step i) l s in
    core (sym s') (by_anno s') (anno_key_sizes s') (anno_keys s') (anno_values s')
       (total_number_of_annos s') leak M' ∧
    by_container s' = by_container s ∧ largest_item s' = largest_item s ∧
    ∀ i' ak, i' ≠ i → M' !! (i', ak) = M !! (i', ak).
Proof.
  induction l as [|[k v] l IH]; intros s s0 leak M Hl C Hc Hne; simpl.
  - exists M. split; [|done]. eapply core_ext; [|apply C]. intros i' k'. unfold rest_sym, sym.
    destruct (decide (i' = i)) as [->|]; [by rewrite Hc|]. by rewrite Hne.
  - assert (rest_sym s0 i ((k, v) :: l) i k = Some v) as Hs.
    { unfold rest_sym. rewrite decide_True by done. simpl. by rewrite Nat.compare_refl. }
    destruct (proj1 (c_sy _ _ _ _ _ _ _ _ C i k v) Hs) as (ak & av & Hk & Hv & HM).
    destruct (decrease_key (remove_from_by_anno (by_anno s) (k, v) i) (anno_key_sizes s)
                (anno_keys s) ak k) as [[ba' sizes'] keys'] eqn:Ed.
    destruct (core_remove _ _ _ _ _ _ _ _ _ _ _ _ _ _ _ C Hk Hs Ed) as [_ C'].
    apply al_sorted_inv in Hl as [Hl Hf].
    edestruct (IH (remove_item_step i s (k, v)) s0 leak (delete (i, ak) M) Hl) as (M' & C'' & Hc' & Hlg & HM').
    + unfold remove_item_step; simpl. rewrite Hk, Ed; simpl. eapply core_ext; [|apply C'].
      intros i' k'. unfold upd, rest_sym. destruct (decide (i' = i ∧ k' = k)) as [[-> ->]|Hn].
      * rewrite decide_True by done. apply al_get_none; [apply _|]. intros v' Hv'.
        rewrite Forall_forall in Hf. specialize (Hf _ Hv'). simpl in Hf. by rewrite Nat.compare_refl in Hf.
      * destruct (decide (i' = i)) as [->|]; [|done]. simpl.
        destruct (Nat.compare k' k) eqn:E; [|done|done]. apply (cmp_eq Nat.compare) in E. naive_solver.
    + unfold remove_item_step; simpl. rewrite Hk, Ed; done.
    + unfold remove_item_step; simpl. rewrite Hk, Ed; done.
    + exists M'. split; [done|]. unfold remove_item_step in Hc', Hlg; simpl in *. rewrite Hk, Ed in Hc', Hlg; simpl in *.
      unfold remove_item_step in *; simpl in *. rewrite Hk, Ed in *.
      split_and!; [done|done|]. intros i' a Hi'. rewrite HM' by done. rewrite lookup_delete_ne; [done|naive_solver].
Qed.

Lemma inv_remove_item s leak M i s' b : inv s leak M → am_remove_item s i = (s', b) →
  inv s' leak (filter (λ x, x.1.1 ≠ i) M) ∧ (b = true ↔ ∃ k, is_Some (M !! (i, k))).
Proof.
  intros I Hr. pose proof (i_core _ _ _ I) as C. unfold am_remove_item in Hr.
  destruct (by_container s !! i) as [l|] eqn:El.
  - injection Hr as <- <-. pose proof (i_cont _ _ _ I i l El) as Hl. split.
    + set (s1 := AM _ _ _ _ _ _ _).
      destruct (remove_item_loop i l s1 s leak M Hl) as (M' & C' & Hc & Hlg & HM').
      { simpl. eapply core_ext; [|apply C]. intros i' k'. unfold rest_sym.
        destruct (decide (i' = i)) as [->|]; [|done]. unfold sym. by rewrite El. }
      { simpl. by rewrite lookup_delete. }
      { intros i' ?. simpl. by rewrite lookup_delete_ne. }
      set (s2 := fold_left _ _ _) in *. simpl in C'.
      assert (M' = filter (λ x, x.1.1 ≠ i) M) as <-.
      { apply map_eq. intros [i' a]. destruct (decide (i' = i)) as [->|Hne].
        - transitivity (@None bytes).
          + destruct (M' !! (i, a)) as [x|] eqn:Ex; [|done].
            destruct (c_syms _ _ _ _ _ _ _ _ C' _ _ _ Ex) as (k & v & Hk & Hv).
            assert (sym s2 i k = Some v) as Hs by (apply (c_sy _ _ _ _ _ _ _ _ C'); eauto).
            unfold sym in Hs. rewrite Hc in Hs. simpl in Hs. by rewrite lookup_delete in Hs.
          + symmetry. rewrite map_filter_lookup_None. right. naive_solver.
        - rewrite HM' by done. destruct (M !! (i', a)) as [x|] eqn:Ex.
          + symmetry. by rewrite map_filter_lookup_Some.
          + symmetry. rewrite map_filter_lookup_None. by left. }
      constructor; [done| |].
      * intros i' l'. rewrite Hc. simpl. rewrite lookup_delete_Some. intros [_ ?]. by eapply i_cont.
      * intros i' a [x Hx]. rewrite Hlg. simpl. eapply (i_largest _ _ _ I i' a).
        destruct (decide (i' = i)) as [->|Hne]; [|rewrite HM' in Hx by done; by eexists].
        destruct (c_syms _ _ _ _ _ _ _ _ C' _ _ _ Hx) as (k & v & Hk & Hv).
        assert (sym s2 i k = Some v) as Hs by (apply (c_sy _ _ _ _ _ _ _ _ C'); eauto).
        unfold sym in Hs. rewrite Hc in Hs. simpl in Hs. by rewrite lookup_delete in Hs.
    + destruct l as [|[k v] l].
      * split; [done|]. intros [a [x Hx]]. exfalso.
        destruct (c_syms _ _ _ _ _ _ _ _ C _ _ _ Hx) as (k & v & Hk & Hv).
        assert (sym s i k = Some v) as Hs by (apply (c_sy _ _ _ _ _ _ _ _ C); eauto).
        unfold sym in Hs. by rewrite El in Hs.
      * split; [|done]. intros _. assert (sym s i k = Some v) as Hs.
        { unfold sym. rewrite El. simpl. by rewrite Nat.compare_refl. }
        apply (c_sy _ _ _ _ _ _ _ _ C) in Hs as (a & b & _ & _ & Hx). by exists a, b.
  - injection Hr as <- <-.
    assert (∀ a, M !! (i, a) = None) as Hn.
    { intros a. destruct (M !! (i, a)) as [x|] eqn:Hx; [|done].
      destruct (c_syms _ _ _ _ _ _ _ _ C _ _ _ Hx) as (k & v & Hk & Hv).
      assert (sym s i k = Some v) as Hs by (apply (c_sy _ _ _ _ _ _ _ _ C); eauto).
      unfold sym in Hs. by rewrite El in Hs. }
    split.
    + assert (filter (λ x, x.1.1 ≠ i) M = M) as ->; [|done].
      apply map_filter_id. intros [i0 a] x Hx He. simpl in He. subst i0. by rewrite Hn in Hx.
    + split; [done|]. intros [a [x Hx]]. by rewrite Hn in Hx.
Qed.

Lemma inv_step s leak M o s' out : inv s leak M → am_step tcmp s o = (s', out) →
  as_out M o out ∧ ∃ leak', inv s' leak' (as_step M o out) ∧ (o ≠ AmClear → leak' = leak).
Proof.
  intros I Hs. destruct o as [i k v|i k|i| |]; simpl in *.
  - destruct (am_insert tcmp s i k v) as [s1 b] eqn:E. injection Hs as <- <-.
    pose proof (inv_insert _ _ _ _ _ _ _ _ I E) as I'. destruct b; (split; [auto|]); by exists leak.
  - destruct (am_remove_annotation s i k) as [s1 r] eqn:E. injection Hs as <- <-.
    destruct (inv_remove_annotation _ _ _ _ _ _ _ I E) as [I' ->]. split; [done|]. by exists leak.
  - destruct (am_remove_item s i) as [s1 b] eqn:E. injection Hs as <- <-.
    destruct (inv_remove_item _ _ _ _ _ _ I E) as [I' Hb]. split; [by exists b|]. by exists leak.
  - injection Hs as <- <-. split; [done|]. exists (total_number_of_annos s). split; [by eapply inv_clear|done].
  - injection Hs as <- <-. split; [done|]. exists leak. split; [|done].
    destruct I as [C ? ?]. constructor; simpl; try done. by apply core_reload.
Qed.

Lemma inv_run ops : ∀ s leak M s' outs, inv s leak M → am_run tcmp s ops = (s', outs) →
  as_outs_ok M ops outs ∧ ∃ leak', inv s' leak' (as_run M ops outs) ∧ (AmClear ∉ ops → leak' = leak).
Proof.
  induction ops as [|o ops IH]; intros s leak M s' outs I; simpl.
  - intros [= <- <-]. split; [done|]. by exists leak.
  - destruct (am_step tcmp s o) as [s1 r] eqn:E1. destruct (am_run tcmp s1 ops) as [s2 rs] eqn:E2.
    intros [= <- <-]. destruct (inv_step _ _ _ _ _ _ I E1) as [Ho (leak1 & I1 & Hl1)].
    destruct (IH _ _ _ _ _ I1 E2) as [Hos (leak2 & I2 & Hl2)]. split; [done|].
    exists leak2. split; [done|]. intros Hn. rewrite Hl2, Hl1; [done| |].
    + intros ->. apply Hn. by left.
    + intros ?. apply Hn. by right.
Qed.

Lemma inv_run_new ops s outs : am_run tcmp am_new ops = (s, outs) →
  as_outs_ok ∅ ops outs ∧ ∃ leak, inv s leak (as_run ∅ ops outs) ∧ (AmClear ∉ ops → leak = 0).
Proof. apply inv_run, inv_new. Qed.

(** No insert fails before [usize_max] operations *)
Lemma decrease_key_len ba sizes keys ak k ba' sizes' keys' :
  decrease_key ba sizes keys ak k = (ba', sizes', keys') →
  length (by_id keys') = length (by_id keys).
Proof.
  unfold decrease_key. destruct (match al_get _ _ _ with Some _ => _ | None => _ end) as [sizes1 n].
  destruct (decide (n = 0)); intros [= <- <- <-]; [apply st_remove_len|done].
Qed.
Lemma check_len ba vals v : length (by_id (check_and_remove_value_symbol ba vals v)) = length (by_id vals).
Proof. unfold check_and_remove_value_symbol. destruct (value_used _ _); [done|apply st_remove_len]. Qed.

Lemma remove_item_step_len i s a :
  length (by_id (anno_keys (remove_item_step i s a))) = length (by_id (anno_keys s)) ∧
  length (by_id (anno_values (remove_item_step i s a))) = length (by_id (anno_values s)).
Proof.
  unfold remove_item_step. destruct (st_get_value (anno_keys s) a.1) as [ak|]; simpl.
  - destruct (decrease_key _ _ _ _ _) as [[ba' sizes'] keys'] eqn:Ed; simpl.
    by rewrite check_len, (decrease_key_len _ _ _ _ _ _ _ _ Ed).
  - by rewrite check_len.
Qed.

Lemma step_len s o s' out n : am_step tcmp s o = (s', out) →
  length (by_id (anno_keys s)) ≤ n → length (by_id (anno_values s)) ≤ n →
  length (by_id (anno_keys s')) ≤ S n ∧ length (by_id (anno_values s')) ≤ S n ∧
  ((N.of_nat n < usize_max)%N → out ≠ AmErr).
Proof.
  intros Hs Hk Hv. destruct o as [i k v|i k|i| |]; simpl in *.
  - unfold am_insert in Hs.
    pose proof (st_insert_len (anno_keys s) k) as Lk. pose proof (st_insert_some (anno_keys s) k) as Sk.
    pose proof (st_insert_len (anno_values s) v) as Lv. pose proof (st_insert_some (anno_values s) v) as Sv.
    destruct (st_insert (anno_keys s) k) as [keys' [ks|]]; simpl in *.
    + destruct (st_insert (anno_values s) v) as [vals' [vs|]]; simpl in *.
      * destruct (al_get _ _ _) as [v0|]; [destruct (decide _)|]; injection Hs as <- <-; simpl;
          (split_and!; [lia|lia|done]).
      * injection Hs as <- <-; simpl. split_and!; [lia|lia|].
        intros Hn. exfalso. destruct Sv as [? ?]; [lia|done].
    + injection Hs as <- <-; simpl. split_and!; [lia|lia|].
      intros Hn. exfalso. destruct Sk as [? ?]; [lia|done].
  - destruct (am_remove_annotation s i k) as [s1 r] eqn:E. injection Hs as <- <-.
    unfold am_remove_annotation in E.
    destruct (st_get_symbol (anno_keys s) k) as [ks|]; [|injection E as <- <-; split_and!; [lia|lia|done]].
    destruct (by_container s !! i) as [l|]; [|injection E as <- <-; split_and!; [lia|lia|done]].
    destruct (al_get Nat.compare l ks) as [v|]; [|injection E as <- <-; simpl; split_and!; [lia|lia|done]].
    destruct (decrease_key _ _ _ _ _) as [[ba' sizes'] keys'] eqn:Ed. injection E as <- <-; simpl.
    rewrite check_len, (decrease_key_len _ _ _ _ _ _ _ _ Ed). split_and!; [lia|lia|done].
  - destruct (am_remove_item s i) as [s1 b] eqn:E. injection Hs as <- <-. unfold am_remove_item in E.
    destruct (by_container s !! i) as [l|]; injection E as <- <-; [|split_and!; [lia|lia|done]].
    assert (∀ l s, length (by_id (anno_keys (fold_left (remove_item_step i) l s))) = length (by_id (anno_keys s)) ∧
       length (by_id (anno_values (fold_left (remove_item_step i) l s))) = length (by_id (anno_values s))) as Hf.
    { clear. induction l as [|a l IH]; intros s; simpl; [done|].
      destruct (IH (remove_item_step i s a)) as [-> ->]. apply remove_item_step_len. }
    edestruct Hf as [-> ->]. simpl. split_and!; [lia|lia|done].
  - injection Hs as <- <-; simpl. split_and!; [lia|lia|done].
  - injection Hs as <- <-; simpl. split_and!; [lia|lia|done].
Qed.

Lemma run_no_err ops : ∀ s n s' outs, am_run tcmp s ops = (s', outs) →
  length (by_id (anno_keys s)) ≤ n → length (by_id (anno_values s)) ≤ n →
  (N.of_nat (n + length ops) <= usize_max)%N → AmErr ∉ outs.
Proof.
  induction ops as [|o ops IH]; intros s n s' outs; simpl.
  - intros [= <- <-] _ _ _. apply not_elem_of_nil.
  - destruct (am_step tcmp s o) as [s1 r] eqn:E1. destruct (am_run tcmp s1 ops) as [s2 rs] eqn:E2.
    intros [= <- <-] Hk Hv Hn.
    destruct (step_len _ _ _ _ n E1 Hk Hv) as (Hk' & Hv' & He).
    rewrite not_elem_of_cons. split.
    + intros <-. apply He; [lia|done].
    + apply (IH s1 (S n) s2); [done|lia|lia|lia].
Qed.
End proofs.
