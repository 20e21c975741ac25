(** Proofs about copying linked files. *)
From Coq Require Import NArith String.
From stdpp Require Import base list gmap.
From Verif Require Import KeySer Types CompPath Service LinkedFiles LinkedFilesSpec LinkedFilesProofs.

(** The files [fs'] come from [fs] by writing files with the names [W] to the directory [D], and making directories there *)
Definition grown (D : path) (W : list bytes) (fs fs' : files) : Prop :=
  (∀ p, (∀ s, s ∈ W → p ≠ file_in D s) → fs' !! p = fs !! p ∨ (fs !! p = None ∧ fs' !! p = Some Dir ∧ inside D p)) ∧
  (∀ p, fs !! p = Some Dir → fs' !! p = Some Dir).
Lemma grown_refl D W fs : grown D W fs fs.
Proof. split; [intros p _; by left|done]. Qed.
Lemma grown_trans D W1 W2 fs1 fs2 fs3 : grown D W1 fs1 fs2 → grown D W2 fs2 fs3 → grown D (W1 ++ W2) fs1 fs3.
Proof.
  intros [A1 B1] [A2 B2]. split; [|intros p Hp; by apply B2, B1]. intros p Hp.
  destruct (A1 p) as [E1|(E1 & E2 & E3)]; [intros s Hs; apply Hp, elem_of_app; by left| |].
  - destruct (A2 p) as [E|(F1 & F2 & F3)]; [intros s Hs; apply Hp, elem_of_app; by right| |].
    + left. congruence.
    + right. split_and!; congruence.
  - right. split_and!; [done|by apply B2|done].
Qed.
Lemma grown_weaken D W1 W2 fs1 fs2 : W1 ⊆ W2 → grown D W1 fs1 fs2 → grown D W2 fs1 fs2.
Proof. intros HW [A B]. split; [|done]. intros p Hp. apply A. intros s Hs. by apply Hp, HW. Qed.
Lemma inside_file D s : inside D (file_in D s).
Proof. exists (parts s []). done. Qed.
Lemma grown_outside D W fs fs' p : grown D W fs fs' → ¬ inside D p → fs' !! p = fs !! p.
Proof. intros [A _] Hp. destruct (A p) as [|(_ & _ & ?)]; [|done|done]. intros s _ ->. by apply Hp, inside_file. Qed.
Lemma grown_dir D W fs fs' p : grown D W fs fs' → is_dir fs p = true → is_dir fs' p = true.
Proof. intros [_ B]. unfold is_dir. rewrite !bool_decide_eq_true. intros [|H]; [by left|right; by apply B]. Qed.
Lemma grown_dir_exists D W fs fs' s : grown D W fs fs' → dir_exists fs s = true → dir_exists fs' s = true.
Proof. intros H. apply dir_mono. intros p. by apply (grown_dir D W). Qed.
Lemma file_in_inj D s s' : file_in D s = file_in D s' → s = s'.
Proof. intros [= E]. apply app_inv_head in E. pose proof (join_parts_parts s []) as H1. pose proof (join_parts_parts s' []) as H2. rewrite E in H1. cbn in *. congruence. Qed.
Lemma Forall2_impl_in {A B} (P Q : A → B → Prop) l k : Forall2 P l k → (∀ x y, x ∈ l → P x y → Q x y) → Forall2 Q l k.
Proof.
  induction 1 as [|x y l k H HF IH]; intros Hi; constructor.
  - apply Hi; [by left|done].
  - apply IH. intros x' y' Hx'. apply Hi. by right.
Qed.
(** A file stays if it is not written again *)
Lemma grown_file D W fs fs' s t : grown D W fs fs' → fs !! file_in D s = Some (File t) → s ∉ W → fs' !! file_in D s = Some (File t).
Proof.
  intros [A _] Hf Hs. destruct (A (file_in D s)) as [E|(E & _)]; [|congruence|congruence]. intros s' Hs' E. apply Hs.
  apply file_in_inj in E as ->. done.
Qed.

Lemma walk_outside fs fs' D a acc ps : (∀ p, ¬ inside D p → fs' !! p = fs !! p) →
  (∀ k, ¬ inside D (a, reverse (fold_left (step a) (take k ps) acc))) → walk fs' a acc ps = walk fs a acc ps.
Proof.
  intros Ho. revert acc. induction ps as [|p ps IH]; intros acc Hk; cbn [walk]; [done|].
  assert (is_dir fs' (a, reverse acc) = is_dir fs (a, reverse acc)) as ->.
  { unfold is_dir. rewrite (Ho (a, reverse acc)); [done|]. by apply (Hk 0). }
  destruct (is_dir _ _); [|done]. apply IH. intros k. by apply (Hk (S k)).
Qed.
Lemma locate_outside fs fs' D s : (∀ p, ¬ inside D p → fs' !! p = fs !! p) → never_enters D s → locate fs' s = locate fs s.
Proof. intros Ho Hn. unfold locate. rewrite (walk_outside fs fs' D); done. Qed.
Lemma never_place D s : never_enters D s → ¬ inside D (place s).
Proof. intros H. pose proof (H (length (parts s []))) as Hk. by rewrite take_ge in Hk. Qed.
Lemma read_outside fs fs' D s : (∀ p, ¬ inside D p → fs' !! p = fs !! p) → never_enters D s → read_file fs' s = read_file fs s.
Proof.
  intros Ho Hn. unfold read_file. rewrite (locate_outside fs fs' D) by done. destruct (locate fs s) as [p|] eqn:E; [|done].
  rewrite Ho; [done|]. rewrite (locate_place _ _ _ E). by apply never_place.
Qed.

Lemma create_parent_grown fs base s fs1 ok : base ≠ [] → plain s → dir_exists fs base = true → create_parent fs (push base s) = (fs1, ok) →
  grown (place base) [] fs fs1 ∧ fs1 !! file_in (place base) s = fs !! file_in (place base) s.
Proof.
  intros Hb Hs Hd. destruct (place base) as [a d] eqn:Hp. rewrite (create_parent_push fs base a d) by done. intros H.
  pose proof (mkdirs_effect _ _ _ _ _ _ H) as He.
  assert (∀ k, 0 < k ≤ length (removelast (parts s [])) → reverse (fold_left (step a) (take k (removelast (parts s []))) (reverse d)) = d ++ take k (removelast (parts s []))) as Hf.
  { intros k Hk. rewrite fold_plain; [by rewrite reverse_app, !reverse_involutive|]. apply Forall_take. apply Forall_forall. intros x Hx.
    unfold plain in Hs. rewrite Forall_forall in Hs. apply Hs. pose proof (parts_ne s []) as Hne. destruct (exists_last Hne) as (l & y & E). rewrite E in *.
    rewrite removelast_last in Hx. apply elem_of_app. by left. }
  split.
  - split.
    + intros p _. destruct (He p) as [E|(E1 & E2 & k & Hk & E3)]; [by left|right]. split_and!; [done|done|]. rewrite Hf in E3 by done. eexists. exact E3.
    + intros p E. destruct (He p) as [->|(E1 & _)]; [done|congruence].
  - destruct (He (file_in (a, d) s)) as [E|(E1 & E2 & k & Hk & E3)]; [done|]. rewrite Hf in E3 by done. injection E3 as E3. cbn in E3. apply app_inv_head in E3.
    apply (f_equal length) in E3. rewrite take_length in E3. pose proof (parts_ne s []) as Hne. destruct (exists_last Hne) as (l & y & E). rewrite E in *.
    rewrite removelast_last in *. rewrite app_length in E3. cbn in E3. lia.
Qed.
Lemma locate_file_in fs base s p : base ≠ [] → plain s → locate fs (push base s) = Some p → p = file_in (place base) s.
Proof. intros Hb Hs H. rewrite (locate_place _ _ _ H). by apply place_push. Qed.
Lemma write_grown fs base s t fs' : base ≠ [] → plain s → write_file fs (push base s) t = Some fs' →
  grown (place base) [s] fs fs' ∧ fs' = <[file_in (place base) s := File t]> fs.
Proof.
  intros Hb Hs H. unfold write_file in H. destruct (locate fs _) as [p|] eqn:E; [|done]. apply locate_file_in in E as ->; [|done|done].
  destruct (is_dir _ _) eqn:Ed; [done|]. injection H as <-. split; [|done]. split.
  - intros p Hp. left. rewrite lookup_insert_ne; [done|]. intros <-. apply (Hp s); [by left|done].
  - intros p Hp. rewrite lookup_insert_ne; [done|]. intros <-. unfold is_dir in Ed. rewrite bool_decide_eq_false in Ed. tauto.
Qed.
Lemma copy_file_spec fs base s src t fs' : base ≠ [] → plain s → never_enters (place base) src → read_file fs src = Some t →
  copy_file fs src (push base s) = Some fs' → grown (place base) [s] fs fs' ∧ fs' = <[file_in (place base) s := File t]> fs.
Proof.
  intros Hb Hs Hn Ht. unfold copy_file. rewrite Ht. destruct (decide (locate fs src = locate fs (push base s))) as [E|E].
  - exfalso. unfold read_file in Ht. destruct (locate fs src) as [p|] eqn:E1; [|done]. symmetry in E. apply locate_file_in in E; [|done|done].
    apply (never_place _ _ Hn). rewrite <- (locate_place _ _ _ E1), E. apply inside_file.
  - by apply write_grown.
Qed.

(** * Import *)
Lemma is_file_node_links n name v : is_file_node n = true → n !! annis_key "node_name" = Some name → n !! annis_key "file" = Some v → links n name v.
Proof. intros H ? ?. unfold is_file_node in H. apply bool_decide_eq_true in H. done. Qed.
Lemma links_fun n name v name' v' : links n name v → links n name' v' → name = name' ∧ v = v'.
Proof. intros (_ & A & B) (_ & A' & B'). split; congruence. Qed.
Definition name_list (n : node_annos) : list bytes := file_names [n].
Lemma file_names_cons n g : file_names (n :: g) = name_list n ++ file_names g.
Proof.
  unfold name_list, file_names. cbn [omap list_omap]. destruct (decide _); [|reflexivity]. destruct (n !! annis_key "node_name"); reflexivity.
Qed.
Lemma name_list_links n name v : links n name v → name_list n = [name].
Proof. intros (A & B & _). unfold name_list, file_names. cbn. rewrite decide_True by done. by rewrite B. Qed.

Lemma copy_link_grown fs old new n fs' r : new ≠ [] → dir_exists fs new = true → Forall plain (name_list n) →
  copy_link fs old new n = (fs', r) → grown (place new) (name_list n) fs fs'.
Proof.
  intros Hne Hd Hp. unfold copy_link. destruct (is_file_node n) eqn:Ef; [|intros [= <- _]; apply grown_refl].
  destruct (n !! annis_key "file") as [v|] eqn:Ev; [|intros [= <- _]; apply grown_refl].
  destruct (read_file fs (push old v)) as [t|] eqn:Et; [|intros [= <- _]; apply grown_refl].
  destruct (n !! annis_key "node_name") as [name|] eqn:En; [|intros [= <- _]; apply grown_refl].
  pose proof (is_file_node_links _ _ _ Ef En Ev) as Hl. rewrite (name_list_links _ _ _ Hl) in *. apply List.Forall_cons_iff in Hp as [Hp _].
  cbv zeta. destruct (create_parent fs (push new name)) as [fs1 ok] eqn:Ec. destruct (create_parent_grown _ _ _ _ _ Hne Hp Hd Ec) as [G1 _].
  assert (grown (place new) [name] fs fs1) as G1' by (apply (grown_weaken _ []); [apply list_subseteq_nil|done]).
  destruct ok; [|by intros [= <- _]]. destruct (copy_file fs1 _ _) as [fs2|] eqn:Ecp; [|by intros [= <- _]].
  assert (grown (place new) [name] fs1 fs2) as G2.
  { unfold copy_file in Ecp. destruct (read_file fs1 (push old v)); [|done]. by destruct (write_grown _ _ _ _ _ Hne Hp Ecp). }
  pose proof (grown_trans _ _ _ _ _ _ G1 G2) as G. destruct (strip_path _ _); by intros [= <- _].
Qed.
Lemma copy_link_spec fs old new n fs' n' : new ≠ [] → dir_exists fs new = true → Forall plain (name_list n) →
  (∀ name v, links n name v → never_enters (place new) (push old v)) →
  copy_link fs old new n = (fs', Some n') → imported fs fs' old (place new) n n'.
Proof.
  intros Hne Hd Hp Hout. unfold copy_link, imported.
  assert (∀ name v, links n name v → is_file_node n = true ∧ n !! annis_key "node_name" = Some name ∧ n !! annis_key "file" = Some v) as Hli.
  { intros name v (A & B & C). split_and!; [|done|done]. unfold is_file_node. by apply bool_decide_true. }
  destruct (is_file_node n) eqn:Ef.
  2:{ intros [= <- <-]. split; [|done]. intros name v t Hl. by destruct (Hli _ _ Hl). }
  destruct (n !! annis_key "file") as [v|] eqn:Ev.
  2:{ intros [= <- <-]. split; [|done]. intros name v t Hl. by destruct (Hli _ _ Hl) as (_ & _ & ?). }
  destruct (read_file fs (push old v)) as [t|] eqn:Et.
  2:{ intros [= <- <-]. split; [|done]. intros name v' t Hl. destruct (Hli _ _ Hl) as (_ & _ & [= <-]). congruence. }
  destruct (n !! annis_key "node_name") as [name|] eqn:En.
  2:{ intros [= <- <-]. split; [|done]. intros name v' t' Hl. by destruct (Hli _ _ Hl) as (_ & ? & _). }
  pose proof (is_file_node_links _ _ _ Ef En Ev) as Hl. rewrite (name_list_links _ _ _ Hl) in *. apply List.Forall_cons_iff in Hp as [Hp _].
  cbv zeta. destruct (create_parent fs (push new name)) as [fs1 ok] eqn:Ec. destruct (create_parent_grown _ _ _ _ _ Hne Hp Hd Ec) as [G1 _].
  destruct ok; [|done]. destruct (copy_file fs1 _ _) as [fs2|] eqn:Ecp; [|done].
  rewrite strip_push by done. intros [= <- <-].
  assert (read_file fs1 (push old v) = Some t) as Et1.
  { rewrite <- Et. apply (read_outside _ _ (place new)); [intros p; by apply (grown_outside _ [])|by apply (Hout name)]. }
  destruct (copy_file_spec _ _ _ _ _ _ Hne Hp (Hout _ _ Hl) Et1 Ecp) as [_ ->]. split.
  - intros name' v' t' Hl' Ht'. destruct (links_fun _ _ _ _ _ Hl Hl') as [<- <-]. rewrite Et in Ht'. injection Ht' as <-. split; [done|]. by rewrite lookup_insert.
  - intros H. by destruct (H name v t).
Qed.

Lemma copy_links_grown fs old new g fs' r : new ≠ [] → dir_exists fs new = true → Forall plain (file_names g) →
  copy_links fs old new g = (fs', r) → grown (place new) (file_names g) fs fs'.
Proof.
  intros Hne. revert fs r. induction g as [|n g IH]; intros fs r Hd Hp; cbn [copy_links]; [intros [= <- _]; apply grown_refl|].
  rewrite file_names_cons in *. apply Forall_app in Hp as [Hp1 Hp2].
  destruct (copy_link fs old new n) as [fs1 r1] eqn:E1. pose proof (copy_link_grown _ _ _ _ _ _ Hne Hd Hp1 E1) as G1.
  destruct r1 as [n'|]; [|intros [= <- _]; eapply grown_weaken; [|exact G1]; set_solver].
  destruct (copy_links fs1 old new g) as [fs2 r2] eqn:E2. intros [= <- _]. eapply grown_trans; [exact G1|]. eapply IH; [|done|exact E2].
  by eapply grown_dir_exists.
Qed.
Lemma imported_outside fs1 fs2 fs' old D n n' : (∀ name v, links n name v → read_file fs1 (push old v) = read_file fs2 (push old v)) →
  imported fs1 fs' old D n n' → imported fs2 fs' old D n n'.
Proof.
  intros H [A B]. split.
  - intros name v t Hl Ht. rewrite <- (H _ _ Hl) in Ht. by apply A with v.
  - intros Hn. apply B. intros name v t Hl. rewrite (H _ _ Hl). by apply Hn with name.
Qed.
Lemma copy_links_spec fs old new g fs' g' : new ≠ [] → dir_exists fs new = true → named_well g →
  (∀ n name v, n ∈ g → links n name v → never_enters (place new) (push old v)) →
  copy_links fs old new g = (fs', Some g') → Forall2 (imported fs fs' old (place new)) g g'.
Proof.
  intros Hne. revert fs g'. induction g as [|n g IH]; intros fs g' Hd [Hp Hnd] Hout; cbn [copy_links]; [intros [= _ <-]; constructor|].
  rewrite file_names_cons in *. apply Forall_app in Hp as [Hp1 Hp2]. apply NoDup_app in Hnd as (_ & Hdis & Hnd).
  destruct (copy_link fs old new n) as [fs1 r1] eqn:E1. pose proof (copy_link_grown _ _ _ _ _ _ Hne Hd Hp1 E1) as G1.
  destruct r1 as [n'|]; [|done]. pose proof (grown_dir_exists _ _ _ _ _ G1 Hd) as Hd1.
  destruct (copy_links fs1 old new g) as [fs2 r2] eqn:E2. pose proof (copy_links_grown _ _ _ _ _ _ Hne Hd1 Hp2 E2) as G2.
  destruct r2 as [g2|]; cbn; [|done]. intros [= <- <-]. constructor.
  - pose proof (copy_link_spec _ _ _ _ _ _ Hne Hd Hp1 (λ name v, Hout n name v (elem_of_list_here _ _)) E1) as [A B]. split; [|done].
    intros name v t Hl Ht. destruct (A _ _ _ Hl Ht) as [-> Hf]. split; [done|]. eapply grown_file; [exact G2|done|].
    apply Hdis. rewrite (name_list_links _ _ _ Hl). by left.
  - assert (Forall2 (imported fs1 fs2 old (place new)) g g2) as H.
    { apply (IH fs1); [done|done| |done]. intros m name v Hm. apply Hout. by right. }
    eapply Forall2_impl_in; [exact H|]. intros x y Hx. apply imported_outside. intros name v Hl.
    apply (read_outside _ _ (place new)); [intros p; by apply (grown_outside _ (name_list n))|]. apply (Hout x name); [by right|done].
Qed.
