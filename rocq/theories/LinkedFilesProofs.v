(** Proofs about the linked files: the file system. *)
From Coq Require Import NArith String.
From stdpp Require Import base list gmap.
From Verif Require Import KeySer Types Percent PercentProofs CompPath CompPathProofs CorpusDir Service ServiceProofs LinkedFiles LinkedFilesSpec.

Lemma step_skip a acc p : ¬ real p → step a acc p = acc.
Proof.
  intros H. unfold step. destruct (decide _) as [(-> & -> & ->)|_].
  - exfalso. apply H. split; by vm_compute.
  - unfold walk_part. rewrite decide_True; [done|]. unfold real in H. destruct (decide (p = [])); [by left|]. right.
    destruct (decide (p = str ".")); [done|]. tauto.
Qed.
Lemma step_plain a acc p : plain_part p → step a acc p = p :: acc.
Proof.
  intros (H1 & H2 & H3). unfold step. rewrite decide_False by tauto. unfold walk_part. rewrite !decide_False by tauto. done.
Qed.
Lemma plain_real p : plain_part p → real p.
Proof. by intros (? & ? & ?). Qed.
Lemma fold_plain a acc ps : Forall plain_part ps → fold_left (step a) ps acc = reverse ps ++ acc.
Proof.
  revert acc. induction ps as [|p ps IH]; intros acc H; [done|]. apply List.Forall_cons_iff in H as [Hp H]. cbn [fold_left].
  rewrite step_plain, IH by done. by rewrite reverse_cons, <- app_assoc.
Qed.
Lemma filter_plain ps : Forall plain_part ps → filter real ps = ps.
Proof. induction 1 as [|p ps Hp H IH]; [done|]. rewrite filter_cons_True by (by apply plain_real). by rewrite IH. Qed.
Lemma fold_real a acc ps : fold_left (step a) (filter real ps) acc = fold_left (step a) ps acc.
Proof.
  revert acc. induction ps as [|p ps IH]; intros acc; [done|]. destruct (decide (real p)).
  - rewrite filter_cons_True by done. cbn [fold_left]. apply IH.
  - rewrite filter_cons_False by done. cbn [fold_left]. by rewrite step_skip.
Qed.

Lemma walk_app fs a acc ps qs : walk fs a acc (ps ++ qs) = acc' ← walk fs a acc ps; walk fs a acc' qs.
Proof. revert acc. induction ps as [|p ps IH]; intros acc; cbn [app walk]; [done|]. destruct (is_dir _ _); [apply IH|done]. Qed.
Lemma walk_fold fs a acc ps acc' : walk fs a acc ps = Some acc' → acc' = fold_left (step a) ps acc.
Proof.
  revert acc. induction ps as [|p ps IH]; intros acc; cbn [walk fold_left]; [by intros [= <-]|]. destruct (is_dir _ _); [apply IH|done].
Qed.
Lemma locate_place fs s p : locate fs s = Some p → p = place s.
Proof.
  unfold locate, place. destruct (walk _ _ _ _) as [acc|] eqn:E; cbn; [|done]. intros [= <-]. by rewrite (walk_fold _ _ _ _ _ E).
Qed.
Lemma walk_is_dir fs a acc ps acc' : walk fs a acc ps = Some acc' → is_dir fs (a, reverse acc') = true → is_dir fs (a, reverse acc) = true.
Proof. destruct ps as [|p ps]; cbn [walk]; [by intros [= <-]|]. by destruct (is_dir fs (a, reverse acc)). Qed.
(** Parts that do not move are no obstacle in a directory *)
Lemma walk_real fs a acc ps acc' : walk fs a acc (filter real ps) = Some acc' → is_dir fs (a, reverse acc') = true → walk fs a acc ps = Some acc'.
Proof.
  revert acc. induction ps as [|p ps IH]; intros acc H Hd; [done|]. destruct (decide (real p)).
  - rewrite filter_cons_True in H by done. cbn [walk] in *. destruct (is_dir fs (a, reverse acc)); [|done]. by apply IH.
  - rewrite filter_cons_False in H by done. cbn [walk]. rewrite (walk_is_dir _ _ _ _ _ H Hd), step_skip by done. by apply IH.
Qed.
Lemma mkdirs_skip fs a acc ps acc' qs : walk fs a acc ps = Some acc' → is_dir fs (a, reverse acc') = true →
  mkdirs fs a acc (filter real ps ++ qs) = mkdirs fs a acc' qs.
Proof.
  revert acc. induction ps as [|p ps IH]; intros acc H Hd; cbn [walk] in H; [by injection H as <-|].
  destruct (is_dir fs (a, reverse acc)) eqn:E; [|done]. destruct (decide (real p)).
  - rewrite filter_cons_True by done. cbn [app mkdirs]. rewrite (walk_is_dir _ _ _ _ _ H Hd). by apply IH.
  - rewrite filter_cons_False by done. rewrite step_skip in H by done. by apply IH.
Qed.
(** Making directories does nothing but make directories *)
Lemma mkdirs_effect fs a acc ps fs' ok : mkdirs fs a acc ps = (fs', ok) →
  ∀ p, fs' !! p = fs !! p ∨ (fs !! p = None ∧ fs' !! p = Some Dir ∧ ∃ k, 0 < k ≤ length ps ∧ p = (a, reverse (fold_left (step a) (take k ps) acc))).
Proof.
  revert fs acc. induction ps as [|q ps IH]; intros fs acc; cbn [mkdirs]; [intros [= <- _]; by left|].
  destruct (is_dir fs _) eqn:E.
  - intros H p. destruct (IH _ _ H p) as [Hp|(H1 & H2 & k & Hk & Hp)]; [by left|]. right. split_and!; [done|done|].
    exists (S k). split; [cbn; lia|done].
  - destruct (fs !! (a, reverse (step a acc q))) as [x|] eqn:El; [intros [= <- _]; by left|]. intros H p.
    destruct (IH _ _ H p) as [Hp|(H1 & H2 & k & Hk & Hp)].
    + destruct (decide (p = (a, reverse (step a acc q)))) as [-> |Hne].
      * right. rewrite Hp, lookup_insert. split_and!; [done|done|]. exists 1. split; [cbn; lia|]. cbn [take fold_left]. by rewrite take_0.
      * left. by rewrite Hp, lookup_insert_ne.
    + destruct (decide (p = (a, reverse (step a acc q)))) as [-> |Hne]; [by rewrite lookup_insert in H1|].
      rewrite lookup_insert_ne in H1 by done. right. split_and!; [done|done|]. exists (S k). split; [cbn; lia|done].
Qed.
Lemma mkdirs_dir fs a acc ps fs' ok p : mkdirs fs a acc ps = (fs', ok) → is_dir fs p = true → is_dir fs' p = true.
Proof.
  intros H Hp. unfold is_dir in *. rewrite bool_decide_eq_true in *. destruct Hp as [|Hp]; [by left|]. right.
  destruct (mkdirs_effect _ _ _ _ _ _ H p) as [E|(E & _)]; congruence.
Qed.
Lemma walk_mono fs fs' a acc ps acc' : (∀ p, is_dir fs p = true → is_dir fs' p = true) → walk fs a acc ps = Some acc' →
  walk fs' a acc ps = Some acc'.
Proof.
  intros Hd. revert acc. induction ps as [|p ps IH]; intros acc; cbn [walk]; [done|].
  destruct (is_dir fs (a, reverse acc)) eqn:E; [|done]. rewrite (Hd _ E). apply IH.
Qed.
Lemma mkdirs_walk fs a acc ps fs' : is_dir fs (a, reverse acc) = true → mkdirs fs a acc ps = (fs', true) →
  ∃ acc', walk fs' a acc ps = Some acc' ∧ is_dir fs' (a, reverse acc') = true.
Proof.
  revert fs acc. induction ps as [|q ps IH]; intros fs acc Hd; cbn [mkdirs].
  - intros [= <-]. exists acc. done.
  - destruct (is_dir fs (a, reverse (step a acc q))) eqn:E.
    + intros H. destruct (IH _ _ E H) as (acc' & H1 & H2). exists acc'. cbn [walk]. by rewrite (mkdirs_dir _ _ _ _ _ _ _ H Hd).
    + destruct (fs !! (a, reverse (step a acc q))) eqn:El; [done|]. intros H.
      assert (is_dir (<[(a, reverse (step a acc q)):=Dir]> fs) (a, reverse (step a acc q)) = true) as E'.
      { unfold is_dir. apply bool_decide_true. right. by rewrite lookup_insert. }
      destruct (IH _ _ E' H) as (acc' & H1 & H2). exists acc'. cbn [walk]. rewrite (mkdirs_dir _ _ _ _ _ _ _ H); [done|].
      unfold is_dir in *. rewrite bool_decide_eq_true in *. destruct Hd as [|Hd]; [by left|]. right.
      rewrite lookup_insert_ne; [done|]. congruence.
Qed.
Lemma dir_mono fs fs' s : (∀ p, is_dir fs p = true → is_dir fs' p = true) → dir_exists fs s = true → dir_exists fs' s = true.
Proof.
  intros Hd. unfold dir_exists, locate. destruct (walk fs _ _ _) as [acc|] eqn:E; cbn; [|done]. rewrite (walk_mono _ _ _ _ _ _ Hd E). cbn. apply Hd.
Qed.
Lemma dir_exists_walk fs s : dir_exists fs s = true ↔ ∃ acc, walk fs (absolute s) [] (parts s []) = Some acc ∧ is_dir fs (absolute s, reverse acc) = true ∧
  place s = (absolute s, reverse acc).
Proof.
  unfold dir_exists, locate. split.
  - destruct (walk fs _ _ _) as [acc|] eqn:E; cbn; [|done]. intros H. exists acc. split_and!; [done|done|]. unfold place.
    by rewrite (walk_fold _ _ _ _ _ E).
  - intros (acc & -> & H & _). done.
Qed.
Lemma root_dir fs a : is_dir fs (a, []) = true.
Proof. unfold is_dir. apply bool_decide_true. by left. Qed.
Lemma create_dir_all_ok fs s fs' : create_dir_all fs s = (fs', true) → dir_exists fs' s = true.
Proof.
  intros H. unfold create_dir_all in H. destruct (mkdirs_walk _ _ [] _ _ (root_dir _ _) H) as (acc & H1 & H2).
  apply dir_exists_walk. exists acc. unfold components_of in H1. apply walk_real in H1; [|done]. split_and!; [done|done|].
  unfold place. by rewrite (walk_fold _ _ _ _ _ H1).
Qed.

(** * Joining paths *)
Lemma parts_ne s cur : parts s cur ≠ [].
Proof. revert cur. induction s as [|b s IH]; intros cur; cbn [parts]; [done|]. by destruct (decide _). Qed.
Lemma push_parts base s : base ≠ [] → absolute s = false → ∃ ps, parts (push base s) [] = ps ++ parts s [] ∧
  (parts base [] = ps ∨ parts base [] = ps ++ [[]]) ∧ absolute (push base s) = absolute base.
Proof.
  intros Hb Hs. destruct (last base) as [e|] eqn:El; [|by apply last_None in El].
  assert (∀ q t, q ≠ [] → absolute (q ++ t) = absolute q) as Ha by (by intros [] ?).
  destruct s as [|b s].
  - cbn [push]. rewrite El. destruct (decide (e = slash)) as [-> |].
    + apply last_Some in El as [q ->]. exists (parts q []). rewrite parts_app. cbn [parts]. split_and!; [done|by right|done].
    + exists (parts base []). rewrite parts_app. split_and!; [done|by left|by apply Ha].
  - cbn [push]. assert (b ≠ slash) as Hbs. { intros ->. by vm_compute in Hs. } rewrite decide_False by done. rewrite El.
    destruct (decide (e = slash)) as [-> |].
    + apply last_Some in El as [q ->]. exists (parts q []). rewrite <- app_assoc. cbn [app]. rewrite !parts_app. split_and!; [done|by right|].
      by destruct q.
    + exists (parts base []). cbn [app]. rewrite parts_app. split_and!; [done|by left|by apply Ha].
Qed.
Lemma components_push base s : base ≠ [] → absolute s = false → components_of (push base s) = components_of base ++ components_of s.
Proof.
  intros Hb Hs. destruct (push_parts base s Hb Hs) as (ps & H1 & H2 & _). unfold components_of. rewrite H1, filter_app. f_equal.
  destruct H2 as [-> | ->]; [done|]. rewrite filter_app. by rewrite app_nil_r.
Qed.
Lemma plain_relative s : plain s → absolute s = false.
Proof.
  unfold plain. destruct s as [|b s]; [done|]. cbn [parts absolute]. intros H. apply bool_decide_false. intros ->.
  rewrite decide_True in H by done. apply List.Forall_cons_iff in H as [(H & _) _]. done.
Qed.
(** A path below an existing directory *)
Lemma locate_push fs base a d s : base ≠ [] → absolute s = false → dir_exists fs base = true → place base = (a, d) →
  locate fs (push base s) = acc ← walk fs a (reverse d) (parts s []); Some (a, reverse acc).
Proof.
  intros Hb Hs Hd Hp. apply dir_exists_walk in Hd as (acc & H1 & H2 & H3). rewrite H3 in Hp. injection Hp as <- <-. rewrite reverse_involutive.
  destruct (push_parts base s Hb Hs) as (ps & E1 & E2 & E3). unfold locate. rewrite E1, E3, walk_app.
  destruct E2 as [E2|E2]; rewrite E2 in H1.
  - by rewrite H1.
  - rewrite walk_app in H1. destruct (walk fs (absolute base) [] ps) as [acc0|]; cbn in H1; [|done].
    destruct (is_dir fs (absolute base, reverse acc0)); [|done]. rewrite step_skip in H1 by (by intros []). injection H1 as ->. done.
Qed.
Lemma mkdirs_push fs base a d qs : dir_exists fs base = true → place base = (a, d) →
  mkdirs fs (absolute base) [] (components_of base ++ qs) = mkdirs fs a (reverse d) qs.
Proof.
  intros Hd Hp. apply dir_exists_walk in Hd as (acc & H1 & H2 & H3). rewrite H3 in Hp. injection Hp as <- <-. rewrite reverse_involutive.
  unfold components_of. by apply mkdirs_skip.
Qed.
Lemma absolute_push base s : base ≠ [] → absolute s = false → absolute (push base s) = absolute base.
Proof. intros Hb Hs. by destruct (push_parts base s Hb Hs) as (ps & _ & _ & E). Qed.
Lemma removelast_app_ne {A} (l k : list A) : k ≠ [] → removelast (l ++ k) = l ++ removelast k.
Proof. apply removelast_app. Qed.
Lemma create_parent_push fs base a d s : base ≠ [] → plain s → dir_exists fs base = true → place base = (a, d) →
  create_parent fs (push base s) = mkdirs fs a (reverse d) (removelast (parts s [])).
Proof.
  intros Hb Hs Hd Hp. unfold create_parent. rewrite components_push by (done || by apply plain_relative).
  rewrite absolute_push by (done || by apply plain_relative). unfold components_of at 2. rewrite filter_plain by done.
  rewrite removelast_app_ne by apply parts_ne. by apply mkdirs_push.
Qed.
Lemma create_dir_all_push fs base a d s : base ≠ [] → plain s → dir_exists fs base = true → place base = (a, d) →
  create_dir_all fs (push base s) = mkdirs fs a (reverse d) (parts s []).
Proof.
  intros Hb Hs Hd Hp. unfold create_dir_all. rewrite components_push by (done || by apply plain_relative).
  rewrite absolute_push by (done || by apply plain_relative). unfold components_of at 2. rewrite filter_plain by done. by apply mkdirs_push.
Qed.
Lemma place_push base s : base ≠ [] → plain s → place (push base s) = file_in (place base) s.
Proof.
  intros Hb Hs. destruct (push_parts base s Hb (plain_relative _ Hs)) as (ps & E1 & E2 & E3). unfold place, file_in. cbn [fst snd]. rewrite E1, E3, fold_left_app, fold_plain by done.
  rewrite reverse_app, reverse_involutive. f_equal. f_equal. f_equal. destruct E2 as [-> | ->]; [done|]. rewrite fold_left_app. cbn [fold_left].
  by rewrite step_skip by (by intros []).
Qed.

Lemma join_parts_cons p ps : ps ≠ [] → join_parts (p :: ps) = p ++ slash :: join_parts ps.
Proof. by destruct ps. Qed.
Lemma join_parts_parts s cur : join_parts (parts s cur) = reverse cur ++ s.
Proof.
  revert cur. induction s as [|b s IH]; intros cur; cbn [parts]; [cbn; by rewrite app_nil_r|]. destruct (decide (b = slash)) as [-> |].
  - rewrite join_parts_cons by apply parts_ne. by rewrite IH.
  - rewrite IH, reverse_cons, <- app_assoc. done.
Qed.
Lemma strip_parts_app ps qs : (∀ q, head qs = Some q → real q) → strip_parts (filter real ps) (ps ++ qs) = Some qs.
Proof.
  intros Hq. induction ps as [|p ps IH]; cbn [app].
  - rewrite filter_nil. destruct qs as [|q qs]; cbn [strip_parts]; [done|]. rewrite decide_True by (by apply Hq). done.
  - cbn [strip_parts]. destruct (decide (real p)).
    + rewrite filter_cons_True by done. by rewrite decide_True.
    + by rewrite filter_cons_False.
Qed.
Lemma strip_push base s : base ≠ [] → plain s → strip_path base (push base s) = Some s.
Proof.
  intros Hb Hs. destruct (push_parts base s Hb (plain_relative _ Hs)) as (ps & E1 & E2 & E3). unfold strip_path. rewrite decide_True by done.
  assert (components_of base = filter real ps) as ->.
  { unfold components_of. destruct E2 as [-> | ->]; [done|]. rewrite filter_app. by rewrite app_nil_r. }
  rewrite E1, strip_parts_app.
  - cbn. f_equal. by rewrite join_parts_parts.
  - unfold plain in Hs. destruct (parts s []) as [|q qs]; [done|]. intros ? [= <-]. apply List.Forall_cons_iff in Hs as [Hq _]. by apply plain_real.
Qed.
