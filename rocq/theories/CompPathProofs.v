From Coq Require Import NArith Ascii String.
From stdpp Require Import base list.
From Verif Require Import KeySer CompPath CompPathSpec.

Lemma actype_name_plain t : slash ∉ actype_name t ∧ actype_name t ≠ [] ∧ actype_name t ≠ str "." ∧ actype_name t ≠ str "..".
Proof.
  split_and!; [|by destruct t..].
  assert (bool_decide (slash ∉ actype_name t) = true) as H by (destruct t; vm_compute; reflexivity).
  by apply bool_decide_eq_true in H.
Qed.
Lemma actype_name_inj t u : actype_name t = actype_name u → t = u.
Proof. destruct t, u; intros H; try reflexivity; vm_compute in H; discriminate H. Qed.
Lemma actype_parse_name t : actype_parse (actype_name t) = Some t.
Proof. destruct t; vm_compute; reflexivity. Qed.
Lemma actype_parse_Some s t : actype_parse s = Some t → s = actype_name t.
Proof.
  unfold actype_parse. destruct (list_find _ _) as [[i u]|] eqn:E; [|done]. cbn. intros [= <-].
  apply list_find_Some in E as (_ & H & _). done.
Qed.

Lemma split_at_app x y : slash ∉ x → split_at (x ++ slash :: y) = Some (x, y).
Proof.
  induction x as [|b x IH]; intros H; cbn.
  - done.
  - apply not_elem_of_cons in H as [Hb H]. rewrite decide_False by congruence. by rewrite (IH H).
Qed.
Lemma split_at_Some s x y : split_at s = Some (x, y) → s = x ++ slash :: y ∧ slash ∉ x.
Proof.
  revert x y. induction s as [|b s IH]; intros x y; cbn; [done|]. case_decide as Hb.
  - intros [= <- <-]. subst. split; [done|apply not_elem_of_nil].
  - destruct (split_at s) as [[x' y']|]; cbn; [|done]. intros [= <- <-].
    destruct (IH _ _ eq_refl) as [-> H]. split; [done|]. apply not_elem_of_cons. by split; [congruence|].
Qed.

Lemma show_parse c : slash ∉ c_layer c → comp_parse (comp_show c) = Some c.
Proof.
  intros Hl. unfold comp_parse, comp_show. cbn [splitn app].
  rewrite split_at_app by apply actype_name_plain. rewrite split_at_app by done.
  rewrite actype_parse_name. by destruct c.
Qed.
Lemma parse_show s c : comp_parse s = Some c → comp_show c = s ∧ slash ∉ c_layer c.
Proof.
  unfold comp_parse, comp_show. cbn [splitn].
  destruct (split_at s) as [[t r]|] eqn:E1; [|done]. destruct (split_at r) as [[l n]|] eqn:E2; [|done].
  destruct (actype_parse t) as [t'|] eqn:E3; [|done]. cbn. intros [= <-]. cbn.
  apply actype_parse_Some in E3 as ->. apply split_at_Some in E1 as [-> _], E2 as [-> ?]. done.
Qed.
Lemma parse_show_iff c : comp_parse (comp_show c) = Some c ↔ slash ∉ c_layer c.
Proof. split; [by intros [_ H]%parse_show|apply show_parse]. Qed.

(** ** Directories *)
Lemma parts_plain x cur : slash ∉ x → parts x cur = [reverse cur ++ x].
Proof.
  revert cur. induction x as [|b x IH]; intros cur H; cbn; [by rewrite app_nil_r|].
  apply not_elem_of_cons in H as [Hb H]. rewrite decide_False by congruence. rewrite IH by done.
  rewrite reverse_cons, <- app_assoc. done.
Qed.
Lemma parts_app x y cur : slash ∉ x → parts (x ++ slash :: y) cur = (reverse cur ++ x) :: parts y [].
Proof.
  revert cur. induction x as [|b x IH]; intros cur H; cbn; [by rewrite app_nil_r|].
  apply not_elem_of_cons in H as [Hb H]. rewrite decide_False by congruence. rewrite IH by done.
  rewrite reverse_cons, <- app_assoc. done.
Qed.
Lemma push_plain p x : last p ≠ Some slash → p ≠ [] → x = [] ∨ slash ∉ x → push p x = p ++ slash :: x.
Proof.
  intros Hp Hn Hx. unfold push. destruct (last p) as [e|] eqn:E; [|by apply last_None in E].
  destruct x as [|b x].
  - rewrite decide_False by congruence. done.
  - destruct Hx as [?|Hx]; [done|]. apply not_elem_of_cons in Hx as [Hb _].
    rewrite (decide_False (P := b = slash)) by congruence. rewrite decide_False by congruence. done.
Qed.
Lemma last_plain p x : slash ∉ x → x ≠ [] → last (p ++ slash :: x) ≠ Some slash.
Proof.
  intros H Hx. replace (p ++ slash :: x) with ((p ++ [slash]) ++ x) by (by rewrite <- app_assoc).
  destruct (last x) as [e|] eqn:E; [|by apply last_None in E].
  rewrite last_app, E. intros [= ->]. apply H. apply last_Some in E as [l ->]. apply elem_of_app. right. by left.
Qed.

Definition layer_dir (l : bytes) : bytes := if decide (l = []) then default_layer else l.
Lemma default_plain : file_name default_layer ∧ default_layer ≠ [].
Proof.
  split; [|by vm_compute]. split; [|by split; vm_compute].
  assert (bool_decide (slash ∉ default_layer) = true) as H by (vm_compute; reflexivity).
  by apply bool_decide_eq_true in H.
Qed.
Lemma layer_dir_plain l : file_name l → file_name (layer_dir l) ∧ layer_dir l ≠ [].
Proof. unfold layer_dir. intros H. case_decide; [apply default_plain|by split]. Qed.

Lemma walk_plain acc x : x ≠ [] → x ≠ str "." → x ≠ str ".." → walk_part acc x = x :: acc.
Proof. intros. unfold walk_part. rewrite decide_False by tauto. by rewrite decide_False. Qed.

Definition gs_name : bytes := str "gs".
Definition plain_dir (t : actype) (l n : bytes) : list bytes :=
  [gs_name; actype_name t; layer_dir l] ++ (if decide (n = []) then [] else [n]).
Lemma relative_path_plain t l n : file_name l → file_name n →
  relative_path (Component t l n) = gs_name ++ slash :: actype_name t ++ slash :: layer_dir l ++ slash :: n.
Proof.
  intros Hl Hn. unfold relative_path. cbn [c_type c_layer c_name]. fold (layer_dir l).
  destruct (layer_dir_plain l Hl) as [(Hl1 & _) Hl2]. pose proof (actype_name_plain t) as (Ht & Ht0 & _).
  change (push [] (str "gs")) with gs_name.
  rewrite (push_plain gs_name) by (first [by vm_compute|by right]).
  rewrite (push_plain (_ ++ _)).
  - rewrite (push_plain _ n).
    + by rewrite <- !app_assoc.
    + by apply last_plain.
    + by intros [? [=]]%app_eq_nil.
    + right. apply Hn.
  - by apply last_plain.
  - by vm_compute.
  - by right.
Qed.
Lemma comp_dir_plain t l n : file_name l → file_name n → comp_dir (Component t l n) = (false, plain_dir t l n).
Proof.
  intros Hl Hn. unfold comp_dir. rewrite relative_path_plain by done. unfold resolve. f_equal.
  destruct (layer_dir_plain l Hl) as [(Hl1 & Hl3 & Hl4) Hl2]. pose proof (actype_name_plain t) as (Ht & Ht0 & Ht1 & Ht2).
  rewrite parts_app.
  2: { assert (bool_decide (slash ∉ gs_name) = true) as H by (vm_compute; reflexivity). by apply bool_decide_eq_true in H. }
  rewrite parts_app by done. rewrite parts_app by done. rewrite parts_plain by apply Hn.
  change (reverse [] ++ gs_name) with gs_name. cbn [reverse rev_append rev' app].
  cbn [fold_left]. rewrite (walk_plain [] gs_name) by by vm_compute.
  rewrite (walk_plain _ (actype_name t)) by done. rewrite (walk_plain _ (layer_dir l)) by done.
  unfold plain_dir. case_decide as E.
  - subst. unfold walk_part. rewrite decide_True by by left. done.
  - rewrite walk_plain; [done|done|apply Hn..].
Qed.
Lemma layer_dir_inj l l' : l ≠ default_layer → l' ≠ default_layer → layer_dir l = layer_dir l' → l = l'.
Proof. unfold layer_dir. repeat case_decide; congruence. Qed.
Lemma plain_dir_inj t l n t' l' n' : l ≠ default_layer → l' ≠ default_layer →
  plain_dir t l n = plain_dir t' l' n' → Component t l n = Component t' l' n'.
Proof.
  intros Hl Hl' [= H1%actype_name_inj H2%layer_dir_inj H3]; [|done..]. subst.
  repeat case_decide; simplify_eq; done.
Qed.
Lemma comp_dir_inj c c' : plain c → plain c' → comp_dir c = comp_dir c' → c = c'.
Proof.
  destruct c as [t l n], c' as [t' l' n']. intros (H1 & H2 & H3) (H1' & H2' & H3'). cbn in *.
  rewrite !comp_dir_plain by done. intros H. apply (f_equal snd) in H. cbn [snd] in H. by apply plain_dir_inj.
Qed.
Lemma comp_dir_below c : plain c → (comp_dir c).1 = false ∧ (∃ r, (comp_dir c).2 = str "gs" :: r).
Proof. destruct c as [t l n]. intros (H1 & H2 & H3). rewrite comp_dir_plain by done. split; [done|]. by eexists. Qed.

(** ** Finding the components *)
Lemma entries_in cfgs p x : x ∈ entries cfgs p ↔ ∃ r, p ++ x :: r ∈ cfgs.
Proof.
  unfold entries. rewrite elem_of_list_omap. split.
  - intros (d & Hd & H). case_decide as E; [|done]. destruct (drop (length p) d) as [|y r] eqn:E2; [done|].
    cbn in H. injection H as <-. exists r. rewrite <- E2, <- E at 1. by rewrite take_drop.
  - intros [r Hr]. eexists. split; [exact Hr|]. rewrite take_app. rewrite decide_True by done. by rewrite drop_app.
Qed.

Lemma has_cfg_spec cs c : Forall plain cs → plain c → has_cfg ((λ c, (comp_dir c).2) <$> cs) c = true ↔ c ∈ cs.
Proof.
  intros Hcs Hc. unfold has_cfg. rewrite andb_true_iff, !bool_decide_eq_true, elem_of_list_fmap.
  rewrite Forall_forall in Hcs. split.
  - intros (H1 & c' & H2 & H). assert (c = c') as ->; [|done]. apply comp_dir_inj; [done|by apply Hcs|].
    destruct (comp_dir_below c' (Hcs _ H)) as [H3 _]. rewrite (surjective_pairing (comp_dir c)), (surjective_pairing (comp_dir c')).
    congruence.
  - intros H. split; [by apply comp_dir_below|]. by exists c.
Qed.

Lemma find_spec cs c : Forall plain cs → c ∈ find_components ((λ c, (comp_dir c).2) <$> cs) ↔ c ∈ cs.
Proof.
  intros Hcs. set (cfgs := _ <$> cs).
  assert (∀ d, d ∈ cfgs ↔ ∃ t l n, d = plain_dir t l n ∧ Component t l n ∈ cs ∧ plain (Component t l n)) as Hd.
  { intros d. unfold cfgs. rewrite elem_of_list_fmap. rewrite Forall_forall in Hcs. split.
    - intros ([t l n] & -> & H). exists t, l, n. pose proof (Hcs _ H) as Hp. split; [|done].
      destruct Hp as (? & _ & ?). by rewrite comp_dir_plain.
    - intros (t & l & n & -> & H & Hp). exists (Component t l n). split; [|done].
      destruct Hp as (? & _ & ?). by rewrite comp_dir_plain. }
  unfold find_components. rewrite elem_of_list_bind. split.
  - intros (t & H & _). apply elem_of_list_bind in H as (layer & H & Hlayer). cbv zeta in H.
    apply elem_of_list_filter in H as [Hf H].
    apply entries_in in Hlayer as [r Hr]. apply Hd in Hr as (t1 & l1 & n1 & E1 & _ & (P1 & P2 & _)). cbn in P1, P2.
    unfold plain_dir in E1. cbn in E1. injection E1 as E1 E2 _. apply actype_name_inj in E1 as <-.
    assert ((if decide (layer = default_layer) then [] else layer) = l1) as El.
    { rewrite E2. unfold layer_dir. destruct (decide (l1 = [])) as [->|]; [by rewrite decide_True|by rewrite decide_False]. }
    rewrite El in H. apply elem_of_cons in H as [->|H].
    + apply (has_cfg_spec cs) in Hf; [done|done|]. split_and!; cbn; try done.
      split_and!; [apply not_elem_of_nil|by vm_compute|by vm_compute].
    + apply elem_of_list_fmap in H as (n & -> & Hn). apply entries_in in Hn as [r2 Hr2].
      apply Hd in Hr2 as (t2 & l2 & n2 & E4 & _ & (_ & _ & P3)). cbn in P3.
      unfold plain_dir in E4. destruct (decide (n2 = [])); [discriminate E4|].
      apply (f_equal (λ l, l !! 3)) in E4. cbn [lookup list_lookup app] in E4. injection E4 as ->.
      apply (has_cfg_spec cs) in Hf; [done|done|]. by split_and!.
  - intros H. destruct c as [t l n]. rewrite Forall_forall in Hcs. pose proof (Hcs _ H) as Hp.
    assert (plain_dir t l n ∈ cfgs) as Hin by (apply Hd; by exists t, l, n).
    exists t. split; [|destruct t; repeat (first [apply elem_of_list_here|apply elem_of_list_further])].
    apply elem_of_list_bind. exists (layer_dir l). split.
    + cbv zeta. apply elem_of_list_filter.
      assert ((if decide (layer_dir l = default_layer) then [] else layer_dir l) = l) as ->.
      { destruct Hp as (_ & Hl & _). cbn in Hl. unfold layer_dir. destruct (decide (l = [])) as [->|]; [by rewrite decide_True|].
        by rewrite decide_False. }
      split; [apply has_cfg_spec; [by apply Forall_forall|done|done]|].
      destruct (decide (n = [])) as [->|Hn]; [left|right]. apply elem_of_list_fmap. exists n. split; [done|].
      apply entries_in. exists []. unfold plain_dir in Hin. rewrite decide_False in Hin by done. exact Hin.
    + apply entries_in. exists (if decide (n = []) then [] else [n]). exact Hin.
Qed.
