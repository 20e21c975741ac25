(** Numbering of the trees unfolded from a graph: lemmas about the depth first traversal in prepost.rs *)
From stdpp Require Import base list gmap fin_maps fin_sets sorting.
From Coq Require Import NArith Lia.
From Verif Require Import KeySer KeySerSpec SortedMap Types SymbolTable SymTabIface AnnoMem AnnoMemProofs Dfs DfsProofs
  GraphSpec Adjacency AdjacencySpec AdjacencyProofs StatsProofs CopyProofs ListExtra Linear EdgeAnnoProofs LinearProofs PrePost.

Definition contains (o o' : ppo) : Prop := (pre_of o <= pre_of o')%N ∧ (post_of o' <= post_of o)%N.
Definition posl (os : list (N * ppo)) : list N := os ≫= λ o, [pre_of o.2; post_of o.2].

Lemma posl_app os1 os2 : posl (os1 ++ os2) = posl os1 ++ posl os2.
Proof. apply bind_app. Qed.
Lemma elem_of_posl os i : i ∈ posl os ↔ ∃ x o, (x, o) ∈ os ∧ (i = pre_of o ∨ i = post_of o).
Proof.
  unfold posl. rewrite elem_of_list_bind. split.
  - intros ([x o] & Hi & Ho). exists x, o. simpl in Hi. rewrite !elem_of_cons in Hi. split; [done|].
    destruct Hi as [?|[?|[]%elem_of_nil]]; auto.
  - intros (x & o & Ho & Hi). exists (x, o). split; [|done]. simpl. rewrite !elem_of_cons. tauto.
Qed.

Section num.
Context (out : N → list N).
Notation E := (λ a b, b ∈ out a).

Fixpoint num_list (f : N → N → list (N * ppo) * N) (l : list N) (c : N) : list (N * ppo) * N :=
  match l with
  | [] => ([], c)
  | y :: l' => let r1 := f y c in let r2 := num_list f l' r1.2 in (r1.1 ++ r2.1, r2.2)
  end.
Fixpoint num (k : nat) (d : N) (x : N) (c : N) : list (N * ppo) * N :=
  match k with
  | 0 => ([], c)
  | S k' =>
      let r := num_list (num k' (d + 1)) (reverse (out x)) (c + 1) in
      (r.1 ++ [(x, PPO c r.2 d)], (r.2 + 1)%N)
  end.

Lemma num_list_mono f l : (∀ y c, (c <= (f y c).2)%N) → ∀ c, (c <= (num_list f l c).2)%N.
Proof.
  intros Hf. induction l as [|y l IH]; intros c; simpl; [lia|]. pose proof (Hf y c). specialize (IH (f y c).2). lia.
Qed.
Lemma num_mono k : ∀ d x c, (c <= (num k d x c).2)%N.
Proof.
  induction k as [|k IH]; intros d x c; simpl; [lia|].
  pose proof (num_list_mono (num k (d + 1)) (reverse (out x)) (IH _) (c + 1)). lia.
Qed.

(** *** What the numbers say about the graph *)
Record occ_ok (lo hi : N) (os : list (N * ppo)) : Prop := {
  oc_range : ∀ x o, (x, o) ∈ os → (lo <= pre_of o)%N ∧ (pre_of o < post_of o)%N ∧ (post_of o < hi)%N;
  oc_nodup : NoDup (posl os);
  oc_sound : ∀ x o y o', (x, o) ∈ os → (y, o') ∈ os → contains o o' →
    ∃ p, walk E x p y ∧ level_of o' = (level_of o + N.of_nat (length p))%N;
  oc_cover : ∀ x o p y, (x, o) ∈ os → walk E x p y →
    ∃ o', (y, o') ∈ os ∧ contains o o' ∧ level_of o' = (level_of o + N.of_nat (length p))%N
}.

Lemma occ_ok_nil c c' : occ_ok c c' [].
Proof. constructor; [|constructor|..]; intros; exfalso; by eapply not_elem_of_nil. Qed.

Lemma occ_ok_app a b c os1 os2 : occ_ok a b os1 → occ_ok b c os2 → (a <= b)%N → (b <= c)%N → occ_ok a c (os1 ++ os2).
Proof.
  intros H1 H2 Hab Hbc. constructor.
  - intros x o [Ho|Ho]%elem_of_app; [apply (oc_range _ _ _ H1) in Ho|apply (oc_range _ _ _ H2) in Ho]; lia.
  - rewrite posl_app. apply NoDup_app. split_and!; [apply H1| |apply H2].
    intros i (x & o & Ho & Hi)%elem_of_posl (x' & o' & Ho' & Hi')%elem_of_posl.
    apply (oc_range _ _ _ H1) in Ho. apply (oc_range _ _ _ H2) in Ho'. lia.
  - intros x o y o' [Ho|Ho]%elem_of_app [Ho'|Ho']%elem_of_app Hc.
    + by eapply (oc_sound _ _ _ H1).
    + apply (oc_range _ _ _ H1) in Ho. apply (oc_range _ _ _ H2) in Ho'. destruct Hc. lia.
    + apply (oc_range _ _ _ H2) in Ho. apply (oc_range _ _ _ H1) in Ho'. destruct Hc. lia.
    + by eapply (oc_sound _ _ _ H2).
  - intros x o p y [Ho|Ho]%elem_of_app Hw.
    + destruct (oc_cover _ _ _ H1 x o p y Ho Hw) as (o' & ? & ?). exists o'. rewrite elem_of_app. tauto.
    + destruct (oc_cover _ _ _ H2 x o p y Ho Hw) as (o' & ? & ?). exists o'. rewrite elem_of_app. tauto.
Qed.

Lemma num_list_ok (f : N → N → list (N * ppo) * N) (d : N) (l : list N) :
  (∀ y c, (c <= (f y c).2)%N) →
  (∀ y c, y ∈ l → occ_ok c (f y c).2 (f y c).1 ∧ ∃ r, (y, r) ∈ (f y c).1 ∧ level_of r = d ∧
     ∀ z o, (z, o) ∈ (f y c).1 → contains r o) →
  ∀ c, occ_ok c (num_list f l c).2 (num_list f l c).1 ∧
    (∀ y, y ∈ l → ∃ r, (y, r) ∈ (num_list f l c).1 ∧ level_of r = d) ∧
    (∀ z o, (z, o) ∈ (num_list f l c).1 → ∃ y r, y ∈ l ∧ (y, r) ∈ (num_list f l c).1 ∧ level_of r = d ∧ contains r o).
Proof.
  intros Hm. induction l as [|y l IH]; intros Hf c; simpl.
  - split_and!; [apply occ_ok_nil|intros y Hy; by apply elem_of_nil in Hy|intros z o Hz; by apply elem_of_nil in Hz].
  - destruct (Hf y c) as [H1 (r & Hr & Hl & Hc)]; [by left|].
    destruct (IH ltac:(intros; apply Hf; by right) (f y c).2) as (H2 & Hy2 & Hz2). split_and!.
    + eapply occ_ok_app; [done|done|apply Hm|by apply num_list_mono].
    + intros y' [->|Hy']%elem_of_cons.
      * exists r. rewrite elem_of_app. tauto.
      * destruct (Hy2 y' Hy') as (r' & ? & ?). exists r'. rewrite elem_of_app. tauto.
    + intros z o [Hz|Hz]%elem_of_app.
      * exists y, r. rewrite elem_of_app. split_and!; [by left|by left|done|by eapply Hc].
      * destruct (Hz2 z o Hz) as (y' & r' & ? & ? & ? & ?). exists y', r'. rewrite elem_of_app. split_and!; [by right|by right|done|done].
Qed.

Lemma num_ok k : ∀ d x c, (∀ p y, walk E x p y → length p < k) →
  occ_ok c (num k d x c).2 (num k d x c).1 ∧
  ∃ r, (x, r) ∈ (num k d x c).1 ∧ level_of r = d ∧ ∀ z o, (z, o) ∈ (num k d x c).1 → contains r o.
Proof.
  induction k as [|k IH]; intros d x c Hk.
  { specialize (Hk [] x eq_refl). simpl in Hk. lia. }
  simpl. destruct (num_list_ok (num k (d + 1)) (d + 1) (reverse (out x)) (num_mono k _)) with (c := (c + 1)%N) as (Hok & Hy & Hz).
  { intros y c' Hy. apply IH. intros p z Hw. specialize (Hk (y :: p) z). simpl in Hk.
    rewrite elem_of_reverse in Hy. specialize (Hk (conj Hy Hw)). lia. }
  set (r := num_list (num k (d + 1)) (reverse (out x)) (c + 1)) in *.
  assert (c + 1 <= r.2)%N as Hc by apply num_list_mono, num_mono.
  assert (∀ z o, (z, o) ∈ r.1 → contains (PPO c r.2 d) o) as Hroot.
  { intros z o Ho. apply (oc_range _ _ _ Hok) in Ho. split; simpl; lia. }
  assert (∀ z o, (z, o) ∈ r.1 ++ [(x, PPO c r.2 d)] → (z, o) ∈ r.1 ∨ (z = x ∧ o = PPO c r.2 d)) as Hin.
  { intros z o [?|Ho%elem_of_list_singleton]%elem_of_app; [by left|right; by injection Ho]. }
  split.
  2: { exists (PPO c r.2 d). split_and!; [apply elem_of_app; right; by left|done|].
       intros z o [Ho|[-> ->]]%Hin; [by eapply Hroot|split; lia]. }
  constructor.
  - intros z o [Ho|[-> ->]]%Hin; simpl; [apply (oc_range _ _ _ Hok) in Ho|]; lia.
  - rewrite posl_app. apply NoDup_app. split_and!; [apply Hok| |].
    + intros i (z & o & Ho & Hi)%elem_of_posl Hi'. apply (oc_range _ _ _ Hok) in Ho. simpl in Hi'.
      rewrite !elem_of_cons in Hi'. destruct Hi' as [?|[?|[]%elem_of_nil]]; lia.
    + simpl. apply NoDup_cons. split; [|apply NoDup_singleton]. rewrite elem_of_list_singleton. lia.
  - intros z o z' o' [Ho|[-> ->]]%Hin [Ho'|[-> ->]]%Hin Hcont.
    + by eapply (oc_sound _ _ _ Hok).
    + apply (oc_range _ _ _ Hok) in Ho. destruct Hcont. simpl in *. lia.
    + destruct (Hz z' o' Ho') as (y & r' & Hyl & Hr' & Hl & Hc').
      destruct (oc_sound _ _ _ Hok y r' z' o' Hr' Ho' Hc') as (p & Hw & Hlev).
      exists (y :: p). split; [split; [by rewrite elem_of_reverse in Hyl|done]|]. rewrite Hlev, Hl. simpl. lia.
    + exists []. split; [done|]. simpl. lia.
  - intros z o p y [Ho|[-> ->]]%Hin Hw.
    + destruct (oc_cover _ _ _ Hok z o p y Ho Hw) as (o' & ? & ?). exists o'. rewrite elem_of_app. tauto.
    + destruct p as [|y' p].
      * simpl in Hw. subst y. exists (PPO c r.2 d). split_and!; [apply elem_of_app; right; by left|split; lia|simpl; lia].
      * destruct Hw as [Hy' Hw]. destruct (Hy y') as (r' & Hr' & Hl); [by rewrite elem_of_reverse|].
        destruct (oc_cover _ _ _ Hok y' r' p y Hr' Hw) as (o' & Ho' & Hc' & Hlev).
        exists o'. split_and!; [apply elem_of_app; by left|by eapply Hroot|]. rewrite Hlev, Hl. simpl. lia.
Qed.

(** *** The number of values *)
Fixpoint upaths (k : nat) (x : N) : list (list N) :=
  match k with
  | 0 => []
  | S k' => [x] :: (cons x <$> (reverse (out x) ≫= upaths k'))
  end.
Lemma upaths_walk k : ∀ x q, q ∈ upaths k x → ∃ p y, walk E x p y ∧ q = x :: p.
Proof.
  induction k as [|k IH]; intros x q Hq; simpl in Hq; [by apply elem_of_nil in Hq|].
  apply elem_of_cons in Hq as [->|Hq]; [by exists [], x|].
  apply elem_of_list_fmap in Hq as (q' & -> & Hq'). apply elem_of_list_bind in Hq' as (y & Hq' & Hy).
  apply IH in Hq' as (p & z & Hw & ->). exists (y :: p), z. split; [|done]. split; [by rewrite elem_of_reverse in Hy|done].
Qed.
Lemma upaths_complete k : ∀ x p y, walk E x p y → length p < k → x :: p ∈ upaths k x.
Proof.
  induction k as [|k IH]; intros x p y Hw Hl; [lia|]. cbn [upaths]. destruct p as [|z p]; [by left|]. right.
  apply elem_of_list_fmap. exists (z :: p). split; [done|]. destruct Hw as [Hz Hw]. simpl in Hl.
  apply elem_of_list_bind. exists z. split; [apply (IH z p y Hw); lia|by apply elem_of_reverse].
Qed.
Lemma upaths_nodup k : (∀ x, NoDup (out x)) → ∀ x, NoDup (upaths k x).
Proof.
  intros Hnd. induction k as [|k IH]; intros x; simpl; [constructor|]. apply NoDup_cons. split.
  - intros (q & Heq & Hq)%elem_of_list_fmap. apply elem_of_list_bind in Hq as (y & (p & z & _ & ->)%upaths_walk & _). done.
  - apply NoDup_fmap_inj_on; [|by intros ? ? _ _ [= ->]]. apply NoDup_bind_ext.
    + rewrite (reverse_Permutation (out x)). apply Hnd.
    + intros; apply IH.
    + intros y y' q _ _ (p & z & _ & ->)%upaths_walk (p' & z' & _ & [= -> _])%upaths_walk. done.
Qed.
Lemma num_count k : ∀ d x c, length (num k d x c).1 = length (upaths k x) ∧
  (num k d x c).2 = (c + 2 * N.of_nat (length (upaths k x)))%N.
Proof.
  induction k as [|k IH]; intros d x c; [simpl; split; [done|lia]|].
  assert (∀ l c, length (num_list (num k (d + 1)) l c).1 = length (l ≫= upaths k) ∧
     (num_list (num k (d + 1)) l c).2 = (c + 2 * N.of_nat (length (l ≫= upaths k)))%N) as Hl.
  { induction l as [|y l IHl]; intros c'; [simpl; split; [done|lia]|]. cbn [num_list fst snd]. rewrite bind_cons.
    destruct (IHl (num k (d + 1) y c').2) as [H1 H2]. destruct (IH (d + 1)%N y c') as [H3 H4].
    rewrite !app_length, H1, H2, H3, H4. split; [done|lia]. }
  destruct (Hl (reverse (out x)) (c + 1)%N) as [H1 H2]. cbn [num upaths fst snd length].
  rewrite app_length, H1, H2, fmap_length. cbn [length]. split; lia.
Qed.
End num.

(** *** The traversal computes these numbers *)
Section process.
Context (out : N → list N) (omax lmax : N).
Notation E := (λ a b, b ∈ out a).

Lemma exit_while_cons d c x pre lv st m : exit_while omax d c ((x, pre, lv) :: st) m =
  if d <? S (length st) then exit_while omax d (next_order omax c) st (push_order m (x, PPO pre c lv))
  else NState c ((x, pre, lv) :: st) m.
Proof using. done. Qed.
Lemma exits_comp d d' s : d ≤ d' → exits omax d (exits omax d' s) = exits omax d s.
Proof using.
  intros Hd. destruct s as [c st m]. unfold exits. cbn [n_cur n_stack n_map]. revert c m.
  induction st as [|[[x pre] lv] st IH]; intros c m; [done|]. rewrite !exit_while_cons.
  destruct (d' <? S (length st)) eqn:E1.
  - replace (d <? S (length st)) with true; [apply IH|].
    symmetry. apply Nat.ltb_lt in E1. apply Nat.ltb_lt. lia.
  - cbn [n_cur n_stack n_map]. by rewrite exit_while_cons.
Qed.
Lemma exits_id d s : length (n_stack s) ≤ d → exits omax d s = s.
Proof using.
  destruct s as [c [|[[x pre] lv] st] m]; unfold exits; [done|]. cbn [n_cur n_stack n_map length]. rewrite exit_while_cons.
  intros H. replace (d <? S (length st)) with false; [done|]. symmetry. apply Nat.ltb_ge. done.
Qed.
Lemma exits_length d s : d ≤ length (n_stack s) → length (n_stack (exits omax d s)) = d.
Proof using.
  destruct s as [c st m]. unfold exits. cbn [n_cur n_stack n_map]. revert c m.
  induction st as [|[[x pre] lv] st IH]; intros c m H; [simpl in *; lia|]. rewrite exit_while_cons.
  destruct (d <? S (length st)) eqn:E1.
  - apply IH. apply Nat.ltb_lt in E1. lia.
  - apply Nat.ltb_ge in E1. simpl in *. lia.
Qed.
Lemma exits_one d s x pre lv st c m : s = NState c ((x, pre, lv) :: st) m → length st = d →
  exits omax d s = NState (next_order omax c) st (push_order m (x, PPO pre c lv)).
Proof using.
  intros -> Hl. unfold exits. cbn [n_cur n_stack n_map]. rewrite exit_while_cons.
  replace (d <? S (length st)) with true; [|symmetry; apply Nat.ltb_lt; lia].
  pose proof (exits_id d (NState (next_order omax c) st (push_order m (x, PPO pre c lv)))) as H.
  unfold exits in H. simpl in H. apply H. lia.
Qed.
Lemma next_order_lt c : (c + 1 <= omax)%N → next_order omax c = (c + 1)%N.
Proof using. intros H. unfold next_order. apply N.mod_small. lia. Qed.

Context (Hac : acyclic E) (Hlmax : (lmax <= usize_max)%N).

Definition good (st : nstate * nat) (d : nat) : Prop := length (n_stack st.1) = S st.2 ∧ d ≤ length (n_stack st.1).

Lemma process k : ∀ pre x st, 1 ≤ length pre → (∀ z, z ∈ pre → ¬ reachable E x z) →
  (∀ p y, walk E x p y → (N.of_nat (length pre + length p) <= lmax)%N) → good st (length pre) →
  ((num out k (N.of_nat (length pre)) x (n_cur (exits omax (length pre) st.1))).2 <= omax)%N →
  good (fold_left (copy_step omax lmax) (enum out 1 usize_max k pre x) st) (length pre) ∧
  exits omax (length pre) (fold_left (copy_step omax lmax) (enum out 1 usize_max k pre x) st).1 =
  let s := exits omax (length pre) st.1 in
  let r := num out k (N.of_nat (length pre)) x (n_cur s) in
  NState r.2 (n_stack s) (fold_left push_order r.1 (n_map s)).
Proof using Hac Hlmax.
  induction k as [|k IH]; intros pre x [s lst] Hd Hpre Hlev [Hg1 Hg2] Hmax; cbv zeta.
  { simpl. split; [done|]. by destruct (exits _ _ _). }
  simpl enum. rewrite decide_False by (intros Hin; apply (Hpre x Hin), reachable_refl).
  set (d := length pre) in *. cbn [fst] in *.
  assert (N.of_nat d <= lmax)%N as Hdl by (specialize (Hlev [] x eq_refl); simpl in Hlev; lia).
  unfold in_rng. replace ((1 <=? N.of_nat d)%N) with true by (symmetry; apply N.leb_le; lia).
  replace ((N.of_nat d <=? usize_max)%N) with true by (symmetry; apply N.leb_le; lia). simpl andb.
  cbn [app fold_left].
  assert (∃ c0 st0 m0, exits omax d s = NState c0 st0 m0) as (c0 & st0 & m0 & Es) by (destruct (exits omax d s); eauto).
  assert (length st0 = d) as Hst0 by (pose proof (exits_length d s Hg2) as H0; by rewrite Es in H0).
  assert (copy_step omax lmax (s, lst) (x, d) = (NState (next_order omax c0) ((x, c0, N.of_nat d) :: st0) m0, d)) as Hstep.
  { unfold copy_step. simpl in Hg1. replace (if d <=? lst then exits omax d s else s) with (exits omax d s).
    - rewrite Es. replace (N.of_nat d <=? lmax)%N with true by (symmetry; apply N.leb_le; lia). done.
    - destruct (d <=? lst) eqn:E1; [done|]. apply Nat.leb_gt in E1. apply exits_id. lia. }
  rewrite Hstep. clear Hstep. rewrite Es in Hmax |- *. cbn [n_cur n_stack n_map] in *. simpl num in Hmax |- *.
  set (r := num_list (num out k (N.of_nat d + 1)) (reverse (out x)) (c0 + 1)) in *. cbn [fst snd] in *.
  assert (c0 + 1 <= r.2)%N as Hr by apply num_list_mono, num_mono.
  rewrite (next_order_lt c0) by lia.
  (* the children *)
  assert (∀ l st c m, (∀ y, y ∈ l → y ∈ out x) → good st (S d) →
    exits omax (S d) st.1 = NState c ((x, c0, N.of_nat d) :: st0) m →
    ((num_list (num out k (N.of_nat d + 1)) l c).2 <= omax)%N →
    let r := num_list (num out k (N.of_nat d + 1)) l c in
    good (fold_left (copy_step omax lmax) (l ≫= enum out 1 usize_max k (pre ++ [x])) st) (S d) ∧
    exits omax (S d) (fold_left (copy_step omax lmax) (l ≫= enum out 1 usize_max k (pre ++ [x])) st).1 =
      NState r.2 ((x, c0, N.of_nat d) :: st0) (fold_left push_order r.1 m)) as Hl.
  { induction l as [|y l IHl]; intros st c m Hy Hg He Hm; cbv zeta; [done|].
    rewrite bind_cons, fold_left_app. cbn [num_list fst snd] in Hm |- *.
    assert (length (pre ++ [x]) = S d) as Hlen by (rewrite app_length; simpl; lia).
    assert (y ∈ out x) as Hyx by (apply Hy; by left).
    assert (c <= (num out k (N.of_nat d + 1) y c).2)%N by apply num_mono.
    assert ((num out k (N.of_nat d + 1) y c).2 <= omax)%N.
    { pose proof (num_list_mono (num out k (N.of_nat d + 1)) l (num_mono _ _ _) (num out k (N.of_nat d + 1) y c).2). lia. }
    replace (N.of_nat d + 1)%N with (N.of_nat (S d)) in * by lia.
    destruct (IH (pre ++ [x]) y st) as [Hg' He'].
    - lia.
    - intros z [Hz| ->%elem_of_list_singleton]%elem_of_app (p & Hw).
      + apply (Hpre z Hz). exists (y :: p). by split.
      + apply (Hac x). exists (y :: p). split; [done|]. by split.
    - intros p z Hw. specialize (Hlev (y :: p) z (conj Hyx Hw)). simpl in Hlev. rewrite Hlen. lia.
    - by rewrite Hlen.
    - rewrite Hlen, He. done.
    - cbv zeta in He'. rewrite Hlen, He in He'. rewrite Hlen in Hg'. cbn [n_cur n_stack n_map] in He'.
      destruct (IHl _ _ _ ltac:(intros; apply Hy; by right) Hg' He' Hm) as [H1 H2]. cbv zeta in H2.
      split; [done|]. rewrite H2. by rewrite fold_left_app. }
  assert ((if (N.of_nat d <? usize_max)%N then reverse (out x) ≫= enum out 1 usize_max k (pre ++ [x]) else []) =
    reverse (out x) ≫= enum out 1 usize_max k (pre ++ [x])) as ->.
  { destruct (out x) as [|y l] eqn:Eo; [by destruct (_ <? _)%N|].
    assert (walk E x [y] y) as Hw by (split; [rewrite Eo; by left|done]). specialize (Hlev [y] y Hw). simpl in Hlev.
    replace (N.of_nat d <? usize_max)%N with true; [done|]. symmetry. apply N.ltb_lt. lia. }
  destruct (Hl (reverse (out x)) (NState (c0 + 1) ((x, c0, N.of_nat d) :: st0) m0, d) (c0 + 1)%N m0) as [Hg' He'].
  - intros y. by rewrite elem_of_reverse.
  - split; simpl; lia.
  - apply exits_id. simpl. lia.
  - fold r. lia.
  - cbv zeta in He'. fold r in He'. split; [destruct Hg' as [? ?]; split; [done|lia]|].
    rewrite <- (exits_comp d (S d)) by lia. rewrite He'. rewrite (exits_one d _ x c0 (N.of_nat d) st0 _ _ eq_refl Hst0).
    rewrite next_order_lt by lia. rewrite fold_left_app. done.
Qed.
End process.
