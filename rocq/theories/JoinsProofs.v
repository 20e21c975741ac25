(** Proofs about the joins. *)
From stdpp Require Import base list gmap sorting.
From Coq Require Import NArith Lia.
From Verif Require Import Types SortMatches Joins JoinsSpec PagingProofs.

(** ** Iterators *)
Lemma yields_det {S : Type} (next : S → option item * S) st l1 l2 : yields next st l1 → yields next st l2 → l1 = l2.
Proof.
  intros H1. revert l2. induction H1 as [st st' E|st x st' l E H IH]; intros l2 H2; inversion H2; subst; try congruence.
  assert (x = x0 ∧ st' = st'0) as [-> ->] by (split; congruence). f_equal. auto.
Qed.
(** An iterator whose remaining items are described by [D] *)
Lemma yields_denoted {S : Type} (next : S → option item * S) (D : S → list item) (I : S → Prop) :
  (∀ st, I st → match next st with (None, _) => D st = [] | (Some x, st') => D st = x :: D st' ∧ I st' end) →
  ∀ st, I st → ∀ out, yields next st out ↔ out = D st.
Proof.
  intros H st HI out. split.
  - intros Hy. revert HI. induction Hy as [st st' E|st x st' l E Hy IH]; intros HI; specialize (H st HI); rewrite E in H.
    + done.
    + destruct H as [H HI']. rewrite H. f_equal. auto.
  - intros ->. remember (D st) as l eqn:El. revert st HI El. induction l as [|x l IH]; intros st HI El.
    + specialize (H st HI). destruct (next st) as [[x|] st'] eqn:E.
      * destruct H as [H _]. rewrite H in El. discriminate.
      * by eapply yields_end.
    + specialize (H st HI). destruct (next st) as [[y|] st'] eqn:E.
      * destruct H as [H HI']. rewrite H in El. injection El as -> El. eapply yields_item; [exact E|auto].
      * rewrite H in El. discriminate.
Qed.

(** ** Interleaving *)
Lemma interleave_perm ls out : interleave ls out → out ≡ₚ mjoin ls.
Proof.
  induction 1 as [ls Hf|ls1 x l ls2 out H IH].
  - induction Hf as [|l ls -> Hf IH]; [done|]. exact IH.
  - rewrite IH, !mjoin_concat, !concat_app. simpl. by rewrite (Permutation_middle (concat ls1) (l ++ concat ls2) x).
Qed.
Lemma interleave_exists ls : interleave ls (mjoin ls).
Proof.
  rewrite mjoin_concat. remember (concat ls) as out eqn:E. revert ls E. induction out as [|x out IH]; intros ls E.
  - apply interleave_end. symmetry in E. clear -E. induction ls as [|l ls IH]; [constructor|]. simpl in E.
    apply app_eq_nil in E as [-> E]. constructor; auto.
  - assert (∃ ls1 l ls2, ls = ls1 ++ (x :: l) :: ls2 ∧ out = concat (ls1 ++ l :: ls2)) as (ls1 & l & ls2 & -> & ->).
    { clear IH. induction ls as [|l ls IH]; [discriminate|]. destruct l as [|y l].
      - destruct (IH E) as (ls1 & l & ls2 & -> & ->). by exists ([] :: ls1), l, ls2.
      - simpl in E. injection E as -> ->. by exists [], l, ls. }
    apply interleave_item. auto.
Qed.

(** ** Lists *)
Lemma oks_app l1 l2 : oks (l1 ++ l2) = oks l1 ++ oks l2.
Proof. unfold oks. apply omap_app. Qed.
Lemma elem_of_oks g l : g ∈ oks l ↔ IOk g ∈ l.
Proof.
  unfold oks. rewrite elem_of_list_omap. split.
  - intros ([g'| |] & Hin & H); try discriminate. by injection H as ->.
  - intros H. by exists (IOk g).
Qed.
Lemma oks_perm l1 l2 : l1 ≡ₚ l2 → oks l1 ≡ₚ oks l2.
Proof. intros H. unfold oks. induction H as [|[]| [] []|]; simpl; try reflexivity; try (by constructor); by etrans. Qed.
Lemma oks_no_error l : no_error l → l = IOk <$> oks l.
Proof.
  intros [He Hp]. induction l as [|[g| |] l IH]; [done| | |].
  - simpl. f_equal. apply IH; intros H; [apply He|apply Hp]; by right.
  - destruct He. by left.
  - destruct Hp. by left.
Qed.
Lemma pairs_cons {A B} (a : A) ls (rs : list B) : pairs (a :: ls) rs = ((λ b, (a, b)) <$> rs) ++ pairs ls rs.
Proof. done. Qed.
Lemma pairs_app {A B} (l1 l2 : list A) (rs : list B) : pairs (l1 ++ l2) rs = pairs l1 rs ++ pairs l2 rs.
Proof. unfold pairs. rewrite fmap_app, !mjoin_concat. apply concat_app. Qed.
Lemma elem_of_pairs {A B} (p : A * B) ls rs : p ∈ pairs ls rs ↔ p.1 ∈ ls ∧ p.2 ∈ rs.
Proof.
  destruct p as [a b]. simpl. induction ls as [|x ls IH].
  - split; [intros H; inversion H|]. intros [H _]. inversion H.
  - rewrite pairs_cons, elem_of_app, IH, elem_of_list_fmap, elem_of_cons. split.
    + intros [(y & [= -> ->] & Hy)|[H1 H2]]; auto.
    + intros [[->|H1] H2]; [left|right]; eauto.
Qed.
Lemma pairs_swap {A B} (ls : list A) (rs : list B) : pairs rs ls ≡ₚ (λ p, (p.2, p.1)) <$> pairs ls rs.
Proof.
  induction ls as [|a ls IH].
  - simpl. induction rs as [|b rs IH]; [done|]. rewrite pairs_cons. exact IH.
  - rewrite pairs_cons, fmap_app, <- IH. clear IH. induction rs as [|b rs IH].
    + done.
    + rewrite !pairs_cons. simpl. constructor. rewrite IH, Permutation_app_swap_app. done.
Qed.
Lemma pairs_nodup {A B} (ls : list A) (rs : list B) : NoDup ls → NoDup rs → NoDup (pairs ls rs).
Proof.
  intros Hl Hr. induction Hl as [|a ls Ha Hl IH]; [constructor|]. rewrite pairs_cons. apply NoDup_app. split_and!.
  - by apply (NoDup_fmap_2 _).
  - intros [x y] Hx Hy. apply elem_of_list_fmap in Hx as (z & [= -> ->] & _). apply elem_of_pairs in Hy as [Hy _]. done.
  - done.
Qed.

(** ** The checks of a nested loop *)
Section NL.
Context (op : match_ → match_ → option bool) (reflexive global : bool).

Lemma different_to_spec m1 m2 : different_to m1 m2 = true ↔ m1 ≠ m2.
Proof. unfold different_to. rewrite negb_true_iff, bool_decide_eq_false. done. Qed.
Lemma different_to_all_spec m g : different_to_all m g = true ↔ m ∉ g.
Proof.
  unfold different_to_all. rewrite forallb_forall. split.
  - intros H Hin. apply elem_of_list_In in Hin. apply H in Hin. by apply different_to_spec in Hin.
  - intros H x Hin. apply different_to_spec. intros ->. apply H. by apply elem_of_list_In.
Qed.

Section Orient.
Context (lo : bool) (oi ii : nat).
Notation check := (nl_check op lo oi ii (nl_allowed reflexive global)).
Notation check1 := (nl_check op lo oi ii (nl_allowed_first reflexive)).

(** [o] and [i] can be joined, seen from the outer side *)
Definition ok_pair (o i : group) : Prop :=
  if lo then joinable op reflexive global oi ii o i else joinable op reflexive global ii oi i o.
Global Instance ok_pair_dec o i : Decision (ok_pair o i).
Proof. unfold ok_pair. destruct lo; apply _. Defined.

Lemma allowed_spec o i mo mi :
  nl_allowed reflexive global o i mo mi = true ↔
  (reflexive = true ∨ (global = true ∧ mo ∉ i ∧ mi ∉ o) ∨ (global = false ∧ mo ≠ mi)).
Proof.
  unfold nl_allowed. rewrite !orb_true_iff, !andb_true_iff, negb_true_iff, !different_to_all_spec, different_to_spec.
  tauto.
Qed.
Lemma check_ok o i g : check o i = Some (IOk g) ↔ ok_pair o i ∧ g = o ++ i.
Proof.
  unfold nl_check, ok_pair, joinable, nl_filter.
  destruct (o !! oi) as [mo|] eqn:Eo, (i !! ii) as [mi|] eqn:Ei; destruct lo; rewrite ?Eo, ?Ei;
    try (split; [discriminate|intros [[] _]]).
  - destruct (op mo mi) as [[]|]; simpl.
    + destruct (nl_allowed reflexive global o i mo mi) eqn:Ea.
      * apply allowed_spec in Ea. split; [intros [= <-]; done|]. by intros [_ ->].
      * split; [discriminate|]. intros [[_ H] _]. apply allowed_spec in H. congruence.
    + split; [discriminate|]. by intros [[H _] _].
    + split; [discriminate|]. by intros [[H _] _].
  - destruct (op mi mo) as [[]|]; simpl.
    + destruct (nl_allowed reflexive global o i mo mi) eqn:Ea.
      * apply allowed_spec in Ea. split; [intros [= <-]; split; [split; [done|]|done]; naive_solver|]. by intros [_ ->].
      * split; [discriminate|]. intros [[_ H] _].
        assert (nl_allowed reflexive global o i mo mi = true); [apply allowed_spec; naive_solver|congruence].
    + split; [discriminate|]. by intros [[H _] _].
    + split; [discriminate|]. by intros [[H _] _].
Qed.
(** The same for the first pass, which does not look at the other matches of the groups *)
Lemma check1_ok o i g :
  check1 o i = Some (IOk g) ↔
  g = o ++ i ∧ ∃ mo mi, o !! oi = Some mo ∧ i !! ii = Some mi ∧ nl_filter op lo mo mi = Some true ∧ (reflexive = true ∨ mo ≠ mi).
Proof.
  unfold nl_check.
  destruct (o !! oi) as [mo|] eqn:Eo, (i !! ii) as [mi|] eqn:Ei;
    try (split; [discriminate|intros (_ & ? & ? & ? & ? & _); congruence]).
  destruct (nl_filter op lo mo mi) as [[]|] eqn:Ef; simpl.
  - destruct (nl_allowed_first reflexive o i mo mi) eqn:Ea.
    + split; [|by intros [-> _]]. intros [= <-]. split; [done|]. exists mo, mi. split_and!; [done|done|exact Ef|].
      unfold nl_allowed_first in Ea. apply orb_true_iff in Ea as [Ea|Ea]; [apply orb_true_iff in Ea as [Ea|Ea]; [by left|]|];
        right; apply negb_true_iff, bool_decide_eq_false in Ea; by intros ->.
    + split; [discriminate|]. intros (_ & mo' & mi' & [= <-] & [= <-] & _ & H). exfalso.
      unfold nl_allowed_first in Ea. apply orb_false_iff in Ea as [Ea E2]. apply orb_false_iff in Ea as [Er E1].
      apply negb_false_iff, bool_decide_eq_true in E1. apply negb_false_iff, bool_decide_eq_true in E2.
      destruct H as [H|H]; [congruence|]. apply H. destruct mo, mi. simpl in *. by subst.
  - split; [discriminate|]. intros (_ & mo' & mi' & [= <-] & [= <-] & H & _). congruence.
  - split; [discriminate|]. intros (_ & mo' & mi' & [= <-] & [= <-] & H & _). congruence.
Qed.
Lemma check_same o i : reflexive = true ∨ global = false → check1 o i = check o i.
Proof.
  intros H. unfold nl_check. destruct (o !! oi) as [mo|], (i !! ii) as [mi|]; try done.
  destruct (nl_filter op lo mo mi) as [b|]; [|done].
  assert (nl_allowed_first reflexive o i mo mi = nl_allowed reflexive global o i mo mi) as ->; [|done].
  destruct (nl_allowed reflexive global o i mo mi) eqn:Ea.
  - apply allowed_spec in Ea. unfold nl_allowed_first. destruct reflexive; [done|]. simpl.
    destruct H as [H|H]; [done|]. destruct Ea as [Ea|[[Ea _]|[_ Ea]]]; [done|congruence|].
    apply orb_true_iff. destruct (decide (mo.1 = mi.1)) as [E1|E1].
    + right. apply negb_true_iff, bool_decide_eq_false. intros E2. apply Ea. destruct mo, mi. simpl in *. by subst.
    + left. by apply negb_true_iff, bool_decide_eq_false.
  - unfold nl_allowed_first. destruct reflexive; [discriminate Ea|]. destruct global; [destruct H; discriminate|].
    unfold nl_allowed in Ea. simpl in Ea. unfold different_to in Ea. apply negb_false_iff, bool_decide_eq_true in Ea as ->.
    simpl. by rewrite !bool_decide_eq_true_2.
Qed.
Lemma check_no_panic al o i : oi < length o → ii < length i → nl_check op lo oi ii al o i ≠ Some IPanic.
Proof.
  intros [mo Ho]%lookup_lt_is_Some_2 [mi Hi]%lookup_lt_is_Some_2. unfold nl_check. rewrite Ho, Hi.
  destruct (nl_filter op lo mo mi) as [b|]; [|done]. by destruct (b && al o i mo mi).
Qed.
Lemma check_no_err al o i : total op → nl_check op lo oi ii al o i ≠ Some IErr.
Proof.
  intros Ht. unfold nl_check. destruct (o !! oi) as [mo|], (i !! ii) as [mi|]; try done.
  destruct (nl_filter op lo mo mi) as [b|] eqn:Ef.
  - by destruct (b && al o i mo mi).
  - unfold nl_filter in Ef. destruct lo; by apply Ht in Ef.
Qed.

(** ** What the nested loop yields *)
Definition row (al : group → group → match_ → match_ → bool) (o : group) (l : list item) : list item :=
  mjoin ((λ i, match i with IOk g => option_list (nl_check op lo oi ii al o g) | e => [e] end) <$> l).
Definition rows (outer : list item) (cache : list group) : list item :=
  mjoin ((λ x, match x with IOk o => row (nl_allowed reflexive global) o (IOk <$> cache) | e => [e] end) <$> outer).
Fixpoint stream (outer inner : list item) (cache : list group) : list item :=
  match outer with
  | [] => []
  | IOk o :: r => row (nl_allowed_first reflexive) o inner ++ rows r (cache ++ oks inner)
  | e :: r => e :: stream r inner cache
  end.
Fixpoint resumed (p : nat) (outer : list item) (cache : list group) : list item :=
  match outer with
  | [] => []
  | IOk o :: r => row (nl_allowed reflexive global) o (IOk <$> drop p cache) ++ rows r cache
  | e :: r => e :: resumed p r cache
  end.
Definition denoted (st : nl) : list item :=
  match nl_pos st with
  | None => stream (nl_outer st) (nl_inner st) (nl_cache st)
  | Some p => resumed p (nl_outer st) (nl_cache st)
  end.
Lemma resumed_0 outer cache : resumed 0 outer cache = rows outer cache.
Proof. induction outer as [|[] r IH]; [done|done| |]; cbn; by rewrite IH. Qed.

Lemma row_cons al o i l : row al o (i :: l) = (match i with IOk g => option_list (nl_check op lo oi ii al o g) | e => [e] end) ++ row al o l.
Proof. done. Qed.
Lemma scan_cached_spec o cache p :
  match scan_cached op reflexive global lo oi ii o (drop p cache) p with
  | (Some x, p') => row (nl_allowed reflexive global) o (IOk <$> drop p cache) =
                    x :: row (nl_allowed reflexive global) o (IOk <$> drop p' cache)
  | (None, _) => row (nl_allowed reflexive global) o (IOk <$> drop p cache) = []
  end.
Proof.
  remember (drop p cache) as l eqn:E. revert p E. induction l as [|i r IH]; intros p E; [done|].
  assert (r = drop (S p) cache) as Er.
  { replace (S p) with (p + 1) by lia. by rewrite <- drop_drop, <- E. }
  cbn [scan_cached]. rewrite fmap_cons, row_cons. destruct (check o i) as [x|] eqn:Ec.
  - simpl. by rewrite Er.
  - specialize (IH (S p) Er). simpl. exact IH.
Qed.
Lemma scan_first_spec o inner cache :
  match scan_first op reflexive lo oi ii o inner cache with
  | (Some x, inner', cache') => row (nl_allowed_first reflexive) o inner = x :: row (nl_allowed_first reflexive) o inner' ∧
                                cache' ++ oks inner' = cache ++ oks inner
  | (None, inner', cache') => row (nl_allowed_first reflexive) o inner = [] ∧ inner' = [] ∧ cache' = cache ++ oks inner
  end.
Proof.
  revert cache. induction inner as [|[i| |] r IH]; intros cache; cbn [scan_first].
  - split_and!; [done|done|by rewrite app_nil_r].
  - rewrite row_cons. destruct (check1 o i) as [x|] eqn:Ec.
    + simpl. split; [done|]. by rewrite <- app_assoc.
    + specialize (IH (cache ++ [i])). destruct (scan_first op reflexive lo oi ii o r (cache ++ [i])) as [[[x|] inner'] cache'].
      * simpl in *. rewrite <- app_assoc in IH. exact IH.
      * simpl in *. rewrite <- app_assoc in IH. exact IH.
  - rewrite row_cons. done.
  - rewrite row_cons. done.
Qed.
Lemma nl_loop_spec outer inner cache pos :
  match nl_loop op reflexive global lo oi ii outer inner cache pos with
  | (None, _) => denoted (NL outer inner cache pos) = []
  | (Some x, st') => denoted (NL outer inner cache pos) = x :: denoted st'
  end.
Proof.
  revert inner cache pos. induction outer as [|[o| |] r IH]; intros inner cache pos; cbn [nl_loop].
  - by destruct pos.
  - destruct pos as [p|].
    + pose proof (scan_cached_spec o cache p) as Hs.
      destruct (scan_cached op reflexive global lo oi ii o (drop p cache) p) as [[x|] p'].
      * unfold denoted. cbn [nl_pos nl_outer nl_cache nl_inner resumed]. by rewrite Hs.
      * specialize (IH inner cache (Some 0)).
        assert (denoted (NL (IOk o :: r) inner cache (Some p)) = denoted (NL r inner cache (Some 0))) as E.
        { unfold denoted. cbn [nl_pos nl_outer nl_cache resumed]. by rewrite Hs, resumed_0. }
        rewrite E. exact IH.
    + pose proof (scan_first_spec o inner cache) as Hs.
      destruct (scan_first op reflexive lo oi ii o inner cache) as [[[x|] inner'] cache'].
      * destruct Hs as [H1 H2]. unfold denoted. cbn [nl_pos nl_outer nl_cache nl_inner stream]. by rewrite H1, H2.
      * destruct Hs as (H1 & -> & H2). specialize (IH [] cache' (Some 0)).
        assert (denoted (NL (IOk o :: r) inner cache None) = denoted (NL r [] cache' (Some 0))) as E.
        { unfold denoted. cbn [nl_pos nl_outer nl_cache nl_inner stream]. by rewrite H1, H2, resumed_0. }
        rewrite E. exact IH.
  - by destruct pos.
  - by destruct pos.
Qed.
Theorem nl_yields outer inner out :
  yields (nl_next op reflexive global lo oi ii) (nl_new outer inner) out ↔ out = stream outer inner [].
Proof.
  rewrite (yields_denoted _ denoted (λ _, True)); [done| |done].
  intros [ou inn ca po] _. unfold nl_next. pose proof (nl_loop_spec ou inn ca po) as H. cbn [nl_outer nl_inner nl_cache nl_pos].
  destruct (nl_loop op reflexive global lo oi ii ou inn ca po) as [[x|] st']; auto.
Qed.

(** ** The matches among them *)
Lemma oks_mjoin ls : oks (mjoin ls) = mjoin (oks <$> ls).
Proof. rewrite !mjoin_concat. induction ls as [|l ls IH]; [done|]. rewrite fmap_cons. cbn [concat]. by rewrite oks_app, IH. Qed.
Lemma row_oks o l :
  oks (row (nl_allowed reflexive global) o l) = (λ p, p.1 ++ p.2) <$> filter (λ p, ok_pair p.1 p.2) (pairs [o] (oks l)).
Proof.
  induction l as [|i l IH]; [done|]. rewrite row_cons, oks_app, IH. destruct i as [g| |]; [|done|done].
  cbn [oks omap list_omap]. unfold pairs. cbn [fmap list_fmap mjoin list_join app]. rewrite filter_cons.
  case_decide as Hp; cbn [fst snd] in Hp.
  - assert (check o g = Some (IOk (o ++ g))) as -> by (by apply check_ok). done.
  - destruct (check o g) as [[x| |]|] eqn:E; try done. apply check_ok in E as [E _]. done.
Qed.
Lemma rows_oks outer cache :
  oks (rows outer cache) = (λ p, p.1 ++ p.2) <$> filter (λ p, ok_pair p.1 p.2) (pairs (oks outer) cache).
Proof.
  induction outer as [|[o| |] r IH]; [done| |exact IH|exact IH]. 
  change (rows (IOk o :: r) cache) with (row (nl_allowed reflexive global) o (IOk <$> cache) ++ rows r cache).
  rewrite oks_app, IH, row_oks. change (oks (IOk o :: r)) with (o :: oks r).
  rewrite (pairs_cons o (oks r)), filter_app, fmap_app.
  assert (oks (IOk <$> cache) = cache) as ->.
  { clear. induction cache as [|g c IH]; [done|]. cbn. f_equal. exact IH. }
  assert (pairs [o] cache = (λ b, (o, b)) <$> cache) as ->; [|done].
  rewrite (pairs_cons o). apply app_nil_r.
Qed.
Lemma row_same o l : reflexive = true ∨ global = false →
  row (nl_allowed_first reflexive) o l = row (nl_allowed reflexive global) o l.
Proof. intros H. induction l as [|[g| |] l IH]; [done| | |]; rewrite !row_cons, IH; [by rewrite check_same|done|done]. Qed.
Lemma stream_same outer inner cache : reflexive = true ∨ global = false →
  oks (stream outer inner cache) =
  match oks outer with
  | [] => []
  | o :: r => (λ p, p.1 ++ p.2) <$> filter (λ p, ok_pair p.1 p.2) (pairs [o] (oks inner) ++ pairs r (cache ++ oks inner))
  end.
Proof.
  intros H. induction outer as [|[o| |] r IH]; [done| |exact IH|exact IH]. cbn [stream].
  rewrite oks_app, rows_oks, (row_same o inner H), row_oks. change (oks (IOk o :: r)) with (o :: oks r).
  cbv beta iota. by rewrite filter_app, fmap_app.
Qed.
Lemma stream_oks outer inner : reflexive = true ∨ global = false →
  oks (stream outer inner []) = (λ p, p.1 ++ p.2) <$> filter (λ p, ok_pair p.1 p.2) (pairs (oks outer) (oks inner)).
Proof.
  intros H. rewrite (stream_same _ _ _ H). destruct (oks outer) as [|o r]; [done|]. rewrite app_nil_l.
  change (o :: r) with ([o] ++ r). by rewrite pairs_app.
Qed.

(** No panic and no error without a reason *)
Lemma elem_of_row al o l x :
  x ∈ row al o l ↔ ∃ i, i ∈ l ∧ match i with IOk g => nl_check op lo oi ii al o g = Some x | e => x = e end.
Proof.
  induction l as [|i l IH].
  - split; [intros H; inversion H|]. intros (i & Hi & _). inversion Hi.
  - rewrite row_cons, elem_of_app, IH. split.
    + intros [H|(j & Hj & H)]; [exists i|exists j]; (split; [|]); [by left| |by right|done].
      destruct i as [g| |]; [|by apply elem_of_list_singleton in H..].
      destruct (nl_check op lo oi ii al o g); [|inversion H]. apply elem_of_list_singleton in H. by subst.
    + intros (j & Hj & H). apply elem_of_cons in Hj as [->|Hj]; [left|right; eauto].
      destruct i as [g| |]; [rewrite H|subst..]; by left.
Qed.
Lemma elem_of_rows outer cache x :
  x ∈ rows outer cache ↔
  ∃ y, y ∈ outer ∧ match y with IOk o => x ∈ row (nl_allowed reflexive global) o (IOk <$> cache) | e => x = e end.
Proof.
  induction outer as [|y l IH].
  - split; [intros H; inversion H|]. intros (i & Hi & _). inversion Hi.
  - assert (rows (y :: l) cache = (match y with IOk o => row (nl_allowed reflexive global) o (IOk <$> cache) | e => [e] end) ++ rows l cache) as -> by done.
    rewrite elem_of_app, IH. split.
    + intros [H|(j & Hj & H)]; [exists y|exists j]; (split; [|]); [by left| |by right|done].
      destruct y as [g| |]; [done|by apply elem_of_list_singleton in H..].
    + intros (j & Hj & H). apply elem_of_cons in Hj as [->|Hj]; [left|right; eauto].
      destruct y as [g| |]; [done|subst..]; by left.
Qed.
(** Where an item of the nested loop comes from *)
Lemma elem_of_stream outer inner x :
  x ∈ stream outer inner [] →
  (x ∈ outer ∧ x ∉ IOk <$> oks outer) ∨ (x ∈ inner ∧ x ∉ IOk <$> oks inner) ∨
  ∃ o i al, IOk o ∈ outer ∧ IOk i ∈ inner ∧ nl_check op lo oi ii al o i = Some x.
Proof.
  assert (∀ e (l : list item), e = IErr ∨ e = IPanic → e ∉ IOk <$> oks l) as Hne.
  { intros e l He (g & -> & _)%elem_of_list_fmap. by destruct He. }
  induction outer as [|y r IH]; [intros H; inversion H|]. cbn [stream]. destruct y as [o| |].
  - rewrite elem_of_app, elem_of_row, elem_of_rows. intros [(i & Hi & H)|(y & Hy & H)].
    + destruct i as [i| |].
      * right. right. exists o, i, (nl_allowed_first reflexive). split_and!; [by left|done|done].
      * right. left. subst. split; [done|]. apply Hne. by left.
      * right. left. subst. split; [done|]. apply Hne. by right.
    + destruct y as [o'| |].
      * apply elem_of_row in H as (i & Hi & H). apply elem_of_list_fmap in Hi as (g & -> & Hg).
        right. right. exists o', g, (nl_allowed reflexive global). split_and!; [by right|by apply elem_of_oks|done].
      * left. subst. split; [by right|]. apply Hne. by left.
      * left. subst. split; [by right|]. apply Hne. by right.
  - intros H. apply elem_of_cons in H as [->|H]; [left; split; [by left|]; apply Hne; by left|].
    destruct (IH H) as [[H1 H2]|[H1|(o & i & al & H1 & H2)]].
    + left. split; [by right|]. exact H2.
    + right. by left.
    + right. right. exists o, i, al. split; [by right|done].
  - intros H. apply elem_of_cons in H as [->|H]; [left; split; [by left|]; apply Hne; by right|].
    destruct (IH H) as [[H1 H2]|[H1|(o & i & al & H1 & H2)]].
    + left. split; [by right|]. exact H2.
    + right. by left.
    + right. right. exists o, i, al. split; [by right|done].
Qed.
(** Errors of the joined results are yielded *)
Lemma stream_err_outer outer inner e : (e = IErr ∨ e = IPanic) → e ∈ outer → e ∈ stream outer inner [].
Proof.
  intros He Hin. induction outer as [|y r IH]; [inversion Hin|]. apply elem_of_cons in Hin as [<-|Hin].
  - destruct He as [-> | ->]; by left.
  - destruct y as [o| |]; cbn [stream].
    + apply elem_of_app. right. apply elem_of_rows. exists e. split; [done|]. by destruct He as [-> | ->].
    + right. auto.
    + right. auto.
Qed.
Lemma stream_err_inner outer inner e : (e = IErr ∨ e = IPanic) → oks outer ≠ [] → e ∈ inner → e ∈ stream outer inner [].
Proof.
  intros He Ho Hin. induction outer as [|y r IH]; [done|]. destruct y as [o| |]; cbn [stream].
  - apply elem_of_app. left. apply elem_of_row. exists e. split; [done|]. by destruct He as [-> | ->].
  - right. by apply IH.
  - right. by apply IH.
Qed.
End Orient.
End NL.

Lemma row_first op reflexive lo oi ii o l :
  row op lo oi ii (nl_allowed_first reflexive) o l = row op lo oi ii (nl_allowed reflexive false) o l.
Proof. apply (row_same op reflexive false). by right. Qed.
(** The rows: the first one is computed without [global] *)
Lemma stream_global op reflexive global lo oi ii outer inner :
  oks (stream op reflexive global lo oi ii outer inner []) =
  match oks outer with
  | [] => []
  | o :: r => (λ p, p.1 ++ p.2) <$>
              (filter (λ p, ok_pair op reflexive false lo oi ii p.1 p.2) (pairs [o] (oks inner)) ++
               filter (λ p, ok_pair op reflexive global lo oi ii p.1 p.2) (pairs r (oks inner)))
  end.
Proof.
  induction outer as [|[o| |] r IH]; [done| |exact IH|exact IH]. cbn [stream].
  rewrite oks_app, rows_oks, (row_first op reflexive lo oi ii o inner), row_oks.
  change (oks (IOk o :: r)) with (o :: oks r). cbv beta iota. by rewrite fmap_app.
Qed.
Lemma joinable_weaken op reflexive global li ri gl gr :
  joinable op reflexive global li ri gl gr → joinable op reflexive false li ri gl gr.
Proof.
  unfold joinable. destruct (gl !! li) as [ml|] eqn:El, (gr !! ri) as [mr|] eqn:Er; try done.
  intros [H1 H2]. split; [done|]. destruct H2 as [H2|[(_ & H2 & _)|[_ H2]]]; [by left| |by right; right].
  right. right. split; [done|]. intros ->. apply H2. by eapply elem_of_list_lookup_2.
Qed.
Lemma ok_pair_weaken op reflexive global lo oi ii o i :
  ok_pair op reflexive global lo oi ii o i → ok_pair op reflexive false lo oi ii o i.
Proof. unfold ok_pair. destruct lo; apply joinable_weaken. Qed.
Lemma filter_weaken_submseteq {A} (P Q : A → Prop) `{∀ x, Decision (P x), ∀ x, Decision (Q x)} (l : list A) :
  (∀ x, P x → Q x) → filter P l ⊆+ filter Q l.
Proof.
  intros H1. induction l as [|x l IH]; [done|]. rewrite !filter_cons. case_decide as Hp.
  - rewrite decide_True; [by apply submseteq_skip|]. auto.
  - case_decide; [by apply submseteq_cons|done].
Qed.

(** ** Left and right *)
Lemma filter_fmap' {A B} (f : A → B) (P : B → Prop) `{∀ x, Decision (P x)} (l : list A) :
  filter P (f <$> l) = f <$> filter (λ x, P (f x)) l.
Proof. induction l as [|x l IH]; [done|]. rewrite fmap_cons, !filter_cons, IH. by case_decide. Qed.
Lemma filter_perm' {A} (P : A → Prop) `{∀ x, Decision (P x)} (l1 l2 : list A) : l1 ≡ₚ l2 → filter P l1 ≡ₚ filter P l2.
Proof. intros E. by rewrite E. Qed.
Lemma joined_outer op reflexive global (lo : bool) li ri ls rs :
  joined op reflexive global lo li ri ls rs ≡ₚ
  (λ p, p.1 ++ p.2) <$>
  filter (λ p, ok_pair op reflexive global lo (if lo then li else ri) (if lo then ri else li) p.1 p.2)
    (if lo then pairs ls rs else pairs rs ls).
Proof.
  unfold joined. destruct lo; [done|].
  rewrite (filter_perm' _ _ _ (pairs_swap ls rs)), filter_fmap', <- list_fmap_compose. done.
Qed.

Theorem sequential_loop_spec op reflexive global lo li ri l r :
  (∃ out, sequential_loop op reflexive global lo li ri l r out) ∧
  ∀ out, sequential_loop op reflexive global lo li ri l r out →
    (reflexive = true ∨ global = false → oks out ≡ₚ joined op reflexive global lo li ri (oks l) (oks r)).
Proof.
  unfold sequential_loop. destruct lo; (split; [eexists; apply nl_yields; reflexivity|]); intros out Hy H;
    apply nl_yields in Hy as ->; rewrite (stream_oks _ _ _ _ _ _ _ _ H).
  - by rewrite (joined_outer op reflexive global true).
  - by rewrite (joined_outer op reflexive global false).
Qed.
Theorem sequential_loop_bounds op reflexive global lo li ri l r out :
  sequential_loop op reflexive global lo li ri l r out →
  joined op reflexive global lo li ri (oks l) (oks r) ⊆+ oks out ∧
  oks out ⊆+ joined op reflexive false lo li ri (oks l) (oks r).
Proof.
  assert (∀ (oi ii : nat) o i ou inn,
    ou = (match oks o with [] => [] | o :: r => (λ p : group * group, p.1 ++ p.2) <$>
              (filter (λ p, ok_pair op reflexive false lo oi ii p.1 p.2) (pairs [o] (oks i)) ++
               filter (λ p, ok_pair op reflexive global lo oi ii p.1 p.2) (pairs r (oks i))) end) → inn = () →
    ((λ p, p.1 ++ p.2) <$> filter (λ p, ok_pair op reflexive global lo oi ii p.1 p.2) (pairs (oks o) (oks i))) ⊆+ ou ∧
    ou ⊆+ ((λ p, p.1 ++ p.2) <$> filter (λ p, ok_pair op reflexive false lo oi ii p.1 p.2) (pairs (oks o) (oks i)))) as H.
  { intros oi ii o i ou inn -> _. destruct (oks o) as [|g gs]; [done|].
    change (g :: gs) with ([g] ++ gs). rewrite (pairs_app [g] gs), !filter_app. split; apply fmap_submseteq.
    - apply submseteq_app; [|done]. apply filter_weaken_submseteq. intros p. apply ok_pair_weaken.
    - apply submseteq_app; [done|]. apply filter_weaken_submseteq. intros p. apply ok_pair_weaken. }
  unfold sequential_loop. intros Hy. rewrite !(joined_outer op reflexive _ lo).
  destruct lo; apply nl_yields in Hy as ->; apply (H _ _ _ _ _ ()); try done; apply stream_global.
Qed.
Lemma has_operand_in idx l g : has_operand idx l → IOk g ∈ l → idx < length g.
Proof. intros H Hin. apply elem_of_oks in Hin. unfold has_operand in H. rewrite Forall_forall in H. auto. Qed.
Theorem sequential_loop_no_error op reflexive global lo li ri l r out :
  sequential_loop op reflexive global lo li ri l r out → has_operand li l → has_operand ri r →
  no_error l → no_error r → total op → no_error out.
Proof.
  intros Hy Hl Hr [He1 Hp1] [He2 Hp2] Ht. unfold sequential_loop in Hy.
  destruct lo; apply nl_yields in Hy as ->; split; intros H;
    apply elem_of_stream in H as [[H _]|[[H _]|(o & i & al & H1 & H2 & H)]]; try done.
  - by apply check_no_err in H.
  - apply check_no_panic in H; [done|by eapply has_operand_in..].
  - by apply check_no_err in H.
  - apply check_no_panic in H; [done|by eapply has_operand_in..].
Qed.
Theorem sequential_loop_errors op reflexive global lo li ri l r out :
  sequential_loop op reflexive global lo li ri l r out → oks l ≠ [] → oks r ≠ [] →
  IErr ∈ l ∨ IErr ∈ r → IErr ∈ out.
Proof.
  intros Hy Hl Hr H. unfold sequential_loop in Hy.
  destruct lo; apply nl_yields in Hy as ->; destruct H as [H|H].
  - apply stream_err_outer; auto.
  - apply stream_err_inner; auto.
  - apply stream_err_inner; auto.
  - apply stream_err_outer; auto.
Qed.

(** ** Parallel nested loop *)
Section PNL.
Context (op : match_ → match_ → option bool) (reflexive global lo : bool) (oi ii buffer_size : nat).
Hypothesis Hsize : 0 < buffer_size.

Definition all_outer (st : pnl) : list group := option_list (p_current st) ++ oks (p_outer st).
(** The combinations which are still to be checked *)
Definition pending (st : pnl) : list (group * group) :=
  match all_outer st with
  | [] => []
  | o :: r => match p_pos st with
              | Some p => pairs [o] (drop p (p_cache st)) ++ pairs r (p_cache st)
              | None => pairs [o] (oks (p_inner st)) ++ pairs r (p_cache st ++ oks (p_inner st))
              end
  end.
Lemma pairs_1 {A B} (a : A) (l : list B) : pairs [a] l = (λ b, (a, b)) <$> l.
Proof. rewrite pairs_cons. apply app_nil_r. Qed.
Lemma fill_cached_spec o l p buf :
  match fill_cached buffer_size o l p buf with
  | (p', buf', full) => ∃ n, p' = p + n ∧ n <= length l ∧ buf' = buf ++ pairs [o] (take n l) ∧
                             (full = false → n = length l) ∧ (full = true → buffer_size <= length buf')
  end.
Proof.
  revert p buf. induction l as [|i r IH]; intros p buf; cbn [fill_cached].
  - exists 0. split_and!; [lia|simpl; lia|by rewrite app_nil_r|done|done].
  - case_decide as Hd.
    + exists 1. split_and!; [lia|simpl; lia|done|done|done].
    + specialize (IH (S p) (buf ++ [(o, i)])).
      destruct (fill_cached buffer_size o r (S p) (buf ++ [(o, i)])) as [[p' buf'] full].
      destruct IH as (n & -> & Hn & -> & Hf & Ht). exists (S n). split_and!; [lia|simpl; lia| | |done].
      * rewrite <- app_assoc. f_equal.
      * intros E. simpl. rewrite (Hf E). done.
Qed.
Lemma fill_first_spec o inner cache buf errs :
  match fill_first buffer_size o inner cache buf errs with
  | (inner', cache', buf', errs', full) =>
      ∃ gs, oks inner = gs ++ oks inner' ∧ cache' = cache ++ gs ∧ buf' = buf ++ pairs [o] gs ∧
            (full = false → inner' = []) ∧ (full = true → buffer_size <= length buf') ∧
            (∃ k, errs' = errs ++ replicate k IErr)
  end.
Proof.
  revert cache buf errs. induction inner as [|i r IH]; intros cache buf errs; cbn [fill_first].
  - exists []. split_and!; [done|by rewrite app_nil_r|by rewrite app_nil_r|done|done|exists 0; by rewrite app_nil_r].
  - destruct i as [i| |].
    + case_decide as Hd.
      * exists [i]. split_and!; try done. exists 0. by rewrite app_nil_r.
      * specialize (IH (cache ++ [i]) (buf ++ [(o, i)]) errs).
        destruct (fill_first buffer_size o r (cache ++ [i]) (buf ++ [(o, i)]) errs) as [[[[inner' cache'] buf'] errs'] full].
        destruct IH as (gs & H1 & -> & -> & H4 & H5 & H6). exists (i :: gs). split_and!; try done.
        -- simpl. by rewrite H1.
        -- by rewrite <- app_assoc.
        -- by rewrite <- app_assoc.
    + specialize (IH cache buf (errs ++ [IErr])).
      destruct (fill_first buffer_size o r cache buf (errs ++ [IErr])) as [[[[inner' cache'] buf'] errs'] full].
      destruct IH as (gs & H1 & -> & -> & H4 & H5 & k & ->). exists gs. split_and!; try done.
      exists (S k). by rewrite <- app_assoc.
    + specialize (IH cache buf (errs ++ [IErr])).
      destruct (fill_first buffer_size o r cache buf (errs ++ [IErr])) as [[[[inner' cache'] buf'] errs'] full].
      destruct IH as (gs & H1 & -> & -> & H4 & H5 & k & ->). exists gs. split_and!; try done.
      exists (S k). by rewrite <- app_assoc.
Qed.

(** A state without a current outer match whose cache is used from its start *)
Lemma pending_start cur outer inner cache :
  pending (PNL outer cur inner cache (Some 0)) = pairs (option_list cur ++ oks outer) cache.
Proof.
  unfold pending, all_outer. cbn [p_current p_outer p_pos p_cache]. destruct (option_list cur ++ oks outer) as [|o r]; [done|].
  rewrite drop_0. by rewrite (pairs_cons o r), pairs_1.
Qed.
Lemma pending_cur o outer inner cache pos :
  pending (PNL (IOk o :: outer) None inner cache pos) = pending (PNL outer (Some o) inner cache pos).
Proof. done. Qed.

Lemma next_match_buffer_spec fuel st buf errs :
  length (p_outer st) < fuel →
  ∃ st' buf' errs', next_match_buffer buffer_size fuel st buf errs = Some (st', buf', errs') ∧
    buf' ++ pending st' = buf ++ pending st ∧
    (∃ k, errs' = errs ++ replicate k IErr) ∧
    (length buf' < buffer_size → pending st' = []).
Proof.
  revert st buf errs. induction fuel as [|f IH]; intros st buf errs Hf; [lia|].
  cbn [next_match_buffer]. case_decide as Hd.
  { exists st, buf, errs. split_and!; [done|done|exists 0; by rewrite app_nil_r|lia]. }
  (* consuming an outer match *)
  assert (∀ outer inner cache pos buf errs, length outer <= f →
    ∃ st' buf' errs',
      match peek_outer outer None with
      | (None, outer', cur) => Some (PNL outer' cur inner cache pos, buf, errs)
      | (Some (Some _), outer', cur) => next_match_buffer buffer_size f (PNL outer' cur inner cache pos) buf errs
      | (Some None, outer', cur) => next_match_buffer buffer_size f (PNL outer' cur inner cache pos) buf (errs ++ [IErr])
      end = Some (st', buf', errs') ∧
      buf' ++ pending st' = buf ++ pending (PNL outer None inner cache pos) ∧
      (∃ k, errs' = errs ++ replicate k IErr) ∧ (length buf' < buffer_size → pending st' = [])) as Hadv.
  { clear -IH. intros outer inner cache pos buf errs Hl. unfold peek_outer. destruct outer as [|i r].
    - exists (PNL [] None inner cache pos), buf, errs. split_and!; [done|done|exists 0; by rewrite app_nil_r|]. intros _.
      by destruct pos.
    - destruct i as [o| |].
      + rewrite pending_cur. apply IH. simpl in *. lia.
      + destruct (IH (PNL r None inner cache pos) buf (errs ++ [IErr])) as (st' & buf' & errs' & H1 & H2 & (k & H3) & H4).
        { simpl in *. lia. }
        exists st', buf', errs'. split_and!; [done|done| |done]. exists (S k). rewrite H3. by rewrite <- app_assoc.
      + destruct (IH (PNL r None inner cache pos) buf (errs ++ [IErr])) as (st' & buf' & errs' & H1 & H2 & (k & H3) & H4).
        { simpl in *. lia. }
        exists st', buf', errs'. split_and!; [done|done| |done]. exists (S k). rewrite H3. by rewrite <- app_assoc. }
  destruct st as [outer cur inner cache pos]. cbn [p_outer p_current p_inner p_cache p_pos] in *.
  (* an outer match [o] *)
  assert (∀ o outer' errs, length outer' <= f →
    ∃ st' buf' errs',
      match pos with
      | Some p => match fill_cached buffer_size o (drop p cache) p buf with
                  | (p', buf', true) => Some (PNL outer' (Some o) inner cache (Some p'), buf', errs)
                  | (_, buf', false) =>
                      match peek_outer outer' None with
                      | (None, outer'', cur) => Some (PNL outer'' cur inner cache (Some 0), buf', errs)
                      | (Some (Some _), outer'', cur) => next_match_buffer buffer_size f (PNL outer'' cur inner cache (Some 0)) buf' errs
                      | (Some None, outer'', cur) => next_match_buffer buffer_size f (PNL outer'' cur inner cache (Some 0)) buf' (errs ++ [IErr])
                      end
                  end
      | None => match fill_first buffer_size o inner cache buf errs with
                | (inner', cache', buf', errs', true) => Some (PNL outer' (Some o) inner' cache' None, buf', errs')
                | (inner', cache', buf', errs', false) =>
                      match peek_outer outer' None with
                      | (None, outer'', cur) => Some (PNL outer'' cur inner' cache' (Some 0), buf', errs')
                      | (Some (Some _), outer'', cur) => next_match_buffer buffer_size f (PNL outer'' cur inner' cache' (Some 0)) buf' errs'
                      | (Some None, outer'', cur) => next_match_buffer buffer_size f (PNL outer'' cur inner' cache' (Some 0)) buf' (errs' ++ [IErr])
                      end
                end
      end = Some (st', buf', errs') ∧
      buf' ++ pending st' = buf ++ pending (PNL outer' (Some o) inner cache pos) ∧
      (∃ k, errs' = errs ++ replicate k IErr) ∧ (length buf' < buffer_size → pending st' = [])) as Hcur.
  { intros o outer' errs1 Hl. destruct pos as [p|].
    - pose proof (fill_cached_spec o (drop p cache) p buf) as Hs.
      destruct (fill_cached buffer_size o (drop p cache) p buf) as [[p' buf'] full].
      destruct Hs as (n & -> & Hn & Hb & Hff & Hft).
      assert (pending (PNL outer' (Some o) inner cache (Some p)) =
              pairs [o] (take n (drop p cache)) ++ pairs [o] (drop (p + n) cache) ++ pairs (oks outer') cache) as Hpe.
      { unfold pending, all_outer. cbn [p_current p_outer p_pos p_cache option_list app]. rewrite app_assoc. f_equal.
        rewrite !pairs_1, <- fmap_app. f_equal. rewrite <- (drop_drop cache n p). symmetry. apply take_drop. }
      destruct full.
      + eexists _, _, _. split; [reflexivity|]. split_and!; [|exists 0; by rewrite app_nil_r|intros H; specialize (Hft eq_refl); lia].
        rewrite Hpe, Hb, <- app_assoc. f_equal.
      + destruct (Hadv outer' inner cache (Some 0) buf' errs1) as (st' & buf2 & errs2 & H1 & H2 & H3 & H4); [done|].
        exists st', buf2, errs2. split_and!; [done| |done|done]. rewrite H2, Hpe, Hb, pending_start, <- app_assoc. f_equal. f_equal.
        rewrite (drop_ge cache (p + n)); [done|]. rewrite (Hff eq_refl), drop_length. lia.
    - pose proof (fill_first_spec o inner cache buf errs1) as Hs.
      destruct (fill_first buffer_size o inner cache buf errs1) as [[[[inner' cache'] buf'] errs'] full].
      destruct Hs as (gs & Hi & -> & Hb & Hff & Hft & k & Hk).
      assert (pending (PNL outer' (Some o) inner cache None) =
              pairs [o] gs ++ pairs [o] (oks inner') ++ pairs (oks outer') (cache ++ gs ++ oks inner')) as Hpe.
      { unfold pending, all_outer. cbn [p_current p_outer p_pos p_cache p_inner option_list app]. rewrite app_assoc, Hi. f_equal.
        by rewrite !pairs_1, <- fmap_app. }
      destruct full.
      + eexists _, _, _. split; [reflexivity|]. split_and!; [|by exists k|intros H; specialize (Hft eq_refl); lia].
        rewrite Hpe, Hb, <- app_assoc. f_equal. f_equal.
        unfold pending, all_outer. cbn [p_current p_outer p_pos p_cache p_inner option_list app]. by rewrite <- app_assoc.
      + destruct (Hadv outer' inner' (cache ++ gs) (Some 0) buf' errs') as (st' & buf2 & errs2 & H1 & H2 & (k2 & H3) & H4); [done|].
        exists st', buf2, errs2. split_and!; [done| | |done].
        * rewrite H2, Hpe, Hb, pending_start, <- app_assoc. f_equal. f_equal. rewrite (Hff eq_refl).
          cbn [oks omap list_omap option_list app]. by rewrite app_nil_r.
        * exists (k + k2). rewrite H3, Hk, <- app_assoc. by rewrite replicate_add. }
  unfold peek_outer at 1. destruct cur as [o|].
  - destruct (Hcur o outer errs) as (st' & buf' & errs' & H); [lia|]. exists st', buf', errs'. exact H.
  - destruct outer as [|i r].
    + destruct (Hadv [] inner cache pos buf errs) as (st' & buf' & errs' & H); [simpl; lia|].
      exists st', buf', errs'. exact H.
    + destruct i as [o| |].
      * destruct (Hcur o r errs) as (st' & buf' & errs' & H); [simpl in Hf; lia|]. exists st', buf', errs'. exact H.
      * destruct (Hadv r inner cache pos buf (errs ++ [IErr])) as (st' & buf' & errs' & H1 & H2 & (k & H3) & H4); [simpl in Hf; lia|].
        exists st', buf', errs'. split_and!; [done|done| |done]. exists (S k). rewrite H3. by rewrite <- app_assoc.
      * destruct (Hadv r inner cache pos buf (errs ++ [IErr])) as (st' & buf' & errs' & H1 & H2 & (k & H3) & H4); [simpl in Hf; lia|].
        exists st', buf', errs'. split_and!; [done|done| |done]. exists (S k). rewrite H3. by rewrite <- app_assoc.
Qed.

Notation check := (nl_check op lo oi ii (nl_allowed reflexive global)).
Notation yieldsp := (pnl_yields op reflexive global lo oi ii buffer_size).
Definition checked (l : list (group * group)) : list item := mjoin ((λ p, option_list (check p.1 p.2)) <$> l).
Lemma checked_app l1 l2 : checked (l1 ++ l2) = checked l1 ++ checked l2.
Proof. unfold checked. rewrite fmap_app, !mjoin_concat. apply concat_app. Qed.

(** The parallel join ends, and yields the checked combinations, and errors of the joined results *)
Lemma pnl_ends st : ∃ out, yieldsp st out.
Proof.
  remember (length (pending st)) as n eqn:E. revert st E. induction n as [n IH] using lt_wf_ind. intros st ->.
  destruct (next_match_buffer_spec (2 + length (p_outer st)) st [] []) as (st' & buf & errs & H1 & H2 & H3 & H4); [lia|].
  destruct buf as [|p buf].
  - exists []. by eapply pnl_end.
  - destruct (IH (length (pending st'))) with (st := st') as [rest Hr]; [|done|].
    { apply (f_equal length) in H2. rewrite !app_length in H2. simpl in H2. lia. }
    eexists. eapply pnl_buffer; [exact H1|done|apply interleave_exists|exact Hr].
Qed.
Lemma pnl_spec st out : yieldsp st out → ∃ k, out ≡ₚ replicate k IErr ++ checked (pending st).
Proof.
  induction 1 as [st st' errs H|st st' buf errs out rest H Hb Hi Hr IH].
  - destruct (next_match_buffer_spec (2 + length (p_outer st)) st [] []) as (st2 & buf2 & errs2 & H1 & H2 & H3 & H4); [lia|].
    rewrite H in H1. injection H1 as <- <- <-. simpl in H2. rewrite <- H2, H4; [|simpl; lia]. by exists 0.
  - destruct (next_match_buffer_spec (2 + length (p_outer st)) st [] []) as (st2 & buf2 & errs2 & H1 & H2 & (k & H3) & H4); [lia|].
    rewrite H in H1. injection H1 as <- <- <-. simpl in H2, H3. destruct IH as [k2 IH].
    exists (k + k2). rewrite <- H2, checked_app, replicate_add, H3, IH. apply interleave_perm in Hi. fold (checked buf) in Hi.
    rewrite Hi, <- !app_assoc. apply Permutation_app_head. rewrite !app_assoc. apply Permutation_app_tail, Permutation_app_comm.
Qed.
(** Without errors in the joined results, no errors are added *)
Definition is_ok (i : item) : Prop := match i with IOk _ => True | _ => False end.
Lemma no_error_ok l : no_error l ↔ Forall is_ok l.
Proof.
  split.
  - intros [H1 H2]. apply Forall_forall. intros [g| |] Hin; done.
  - intros H. rewrite Forall_forall in H. split; intros Hin; by apply H in Hin.
Qed.
Lemma fill_first_ok o inner cache buf errs : Forall is_ok inner →
  match fill_first buffer_size o inner cache buf errs with (inner', _, _, errs', _) => errs' = errs ∧ Forall is_ok inner' end.
Proof.
  intros H. revert cache buf. induction H as [|[i| |] r Hi H IH]; intros cache buf; cbn [fill_first]; [done| |done|done].
  case_decide; [done|apply IH].
Qed.
Lemma next_match_buffer_ok fuel st buf errs st' buf' errs' : Forall is_ok (p_outer st) → Forall is_ok (p_inner st) →
  next_match_buffer buffer_size fuel st buf errs = Some (st', buf', errs') →
  errs' = errs ∧ Forall is_ok (p_outer st') ∧ Forall is_ok (p_inner st').
Proof.
  revert st buf errs. induction fuel as [|f IH]; intros st buf errs Ho Hi; [done|]. cbn [next_match_buffer].
  case_decide; [by intros [= <- <- <-]|].
  assert (∀ outer inner cache pos buf errs, Forall is_ok outer → Forall is_ok inner →
    match peek_outer outer None with
      | (None, outer', cur) => Some (PNL outer' cur inner cache pos, buf, errs)
      | (Some (Some _), outer', cur) => next_match_buffer buffer_size f (PNL outer' cur inner cache pos) buf errs
      | (Some None, outer', cur) => next_match_buffer buffer_size f (PNL outer' cur inner cache pos) buf (errs ++ [IErr])
      end = Some (st', buf', errs') → errs' = errs ∧ Forall is_ok (p_outer st') ∧ Forall is_ok (p_inner st')) as Hadv.
  { clear -IH. intros outer inner cache pos buf errs Ho Hi. unfold peek_outer. destruct Ho as [|[o| |] r Hx Ho].
    - intros [= <- <- <-]. split_and!; [done|constructor|done].
    - by apply IH.
    - done.
    - done. }
  destruct st as [outer cur inner cache pos]. cbn [p_outer p_current p_inner p_cache p_pos] in *.
  assert (∀ o outer', Forall is_ok outer' →
    match pos with
      | Some p => match fill_cached buffer_size o (drop p cache) p buf with
                  | (p', buf', true) => Some (PNL outer' (Some o) inner cache (Some p'), buf', errs)
                  | (_, buf', false) =>
                      match peek_outer outer' None with
                      | (None, outer'', cur) => Some (PNL outer'' cur inner cache (Some 0), buf', errs)
                      | (Some (Some _), outer'', cur) => next_match_buffer buffer_size f (PNL outer'' cur inner cache (Some 0)) buf' errs
                      | (Some None, outer'', cur) => next_match_buffer buffer_size f (PNL outer'' cur inner cache (Some 0)) buf' (errs ++ [IErr])
                      end
                  end
      | None => match fill_first buffer_size o inner cache buf errs with
                | (inner', cache', buf', errs', true) => Some (PNL outer' (Some o) inner' cache' None, buf', errs')
                | (inner', cache', buf', errs', false) =>
                      match peek_outer outer' None with
                      | (None, outer'', cur) => Some (PNL outer'' cur inner' cache' (Some 0), buf', errs')
                      | (Some (Some _), outer'', cur) => next_match_buffer buffer_size f (PNL outer'' cur inner' cache' (Some 0)) buf' errs'
                      | (Some None, outer'', cur) => next_match_buffer buffer_size f (PNL outer'' cur inner' cache' (Some 0)) buf' (errs' ++ [IErr])
                      end
                end
      end = Some (st', buf', errs') → errs' = errs ∧ Forall is_ok (p_outer st') ∧ Forall is_ok (p_inner st')) as Hcur.
  { intros o outer' Ho'. destruct pos as [p|].
    - destruct (fill_cached buffer_size o (drop p cache) p buf) as [[p' buf1] []]; [by intros [= <- <- <-]|by apply Hadv].
    - pose proof (fill_first_ok o inner cache buf errs Hi) as Hs.
      destruct (fill_first buffer_size o inner cache buf errs) as [[[[inner' cache'] buf1] errs1] []]; destruct Hs as [-> Hs].
      + by intros [= <- <- <-].
      + by apply Hadv. }
  unfold peek_outer at 1. destruct cur as [o|]; [by apply Hcur|].
  destruct Ho as [|[o| |] r Hx Ho]; [apply Hadv; [constructor|done]|by apply Hcur|done|done].
Qed.
Lemma pnl_spec_exact st out : yieldsp st out → Forall is_ok (p_outer st) → Forall is_ok (p_inner st) →
  out ≡ₚ checked (pending st).
Proof.
  induction 1 as [st st' errs H|st st' buf errs out rest H Hb Hi Hr IH]; intros Ho Hn.
  - destruct (next_match_buffer_spec (2 + length (p_outer st)) st [] []) as (st2 & buf2 & errs2 & H1 & H2 & H3 & H4); [lia|].
    rewrite H in H1. injection H1 as <- <- <-. simpl in H2. rewrite <- H2, H4; [done|simpl; lia].
  - destruct (next_match_buffer_spec (2 + length (p_outer st)) st [] []) as (st2 & buf2 & errs2 & H1 & H2 & (k & H3) & H4); [lia|].
    destruct (next_match_buffer_ok _ _ _ _ _ _ _ Ho Hn H) as (-> & Ho' & Hn').
    rewrite H in H1. injection H1 as <- <- <-. simpl in H2.
    rewrite <- H2, checked_app, (IH Ho' Hn'). apply interleave_perm in Hi. fold (checked buf) in Hi. by rewrite Hi.
Qed.
Lemma checked_oks l : oks (checked l) = (λ p, p.1 ++ p.2) <$> filter (λ p, ok_pair op reflexive global lo oi ii p.1 p.2) l.
Proof.
  induction l as [|[o i] l IH]; [done|]. change ((o, i) :: l) with ([(o, i)] ++ l). rewrite checked_app, oks_app, IH.
  unfold checked. cbn [fmap list_fmap mjoin list_join fst snd app]. rewrite filter_cons. cbn [fst snd].
  case_decide as Hp.
  - assert (check o i = Some (IOk (o ++ i))) as -> by (by apply check_ok). done.
  - destruct (check o i) as [[x| |]|] eqn:E; try done. apply check_ok in E as [E _]. done.
Qed.
Lemma oks_replicate_err k : oks (replicate k IErr) = [].
Proof. induction k; done. Qed.

(** ** The theorem *)
Lemma pending_new outer inner : pending (pnl_new outer inner) = pairs (oks outer) (oks inner).
Proof.
  unfold pending, pnl_new, all_outer. cbn [p_current p_outer p_pos p_cache p_inner option_list app].
  destruct (oks outer) as [|o r]; [done|].
  rewrite app_nil_l. change (o :: r) with ([o] ++ r). by rewrite pairs_app.
Qed.
End PNL.

Theorem parallel_loop_spec op reflexive global lo buffer li ri l r : 0 < buffer →
  (∃ out, parallel_loop op reflexive global lo buffer li ri l r out) ∧
  ∀ out, parallel_loop op reflexive global lo buffer li ri l r out →
    oks out ≡ₚ joined op reflexive global lo li ri (oks l) (oks r) ∧
    (has_operand li l → has_operand ri r → IPanic ∉ out ∧ (no_error l → no_error r → total op → no_error out)).
Proof.
  intros Hb. unfold parallel_loop.
  assert (∀ (oi ii : nat) (o i out : list item), pnl_yields op reflexive global lo oi ii buffer (pnl_new o i) out →
    oks out ≡ₚ (λ p, p.1 ++ p.2) <$> filter (λ p, ok_pair op reflexive global lo oi ii p.1 p.2) (pairs (oks o) (oks i)) ∧
    (has_operand oi o → has_operand ii i → IPanic ∉ out ∧ (no_error o → no_error i → total op → no_error out))) as H.
  { intros oi ii o i out Hy. 
    assert (has_operand oi o → has_operand ii i → IPanic ∉ checked op reflexive global lo oi ii (pairs (oks o) (oks i))) as Hnp.
    { intros Ho Hi Hin. unfold checked in Hin. apply elem_of_list_join in Hin as (ls & Hin & Hls).
      apply elem_of_list_fmap in Hls as ([a b] & -> & [Ha Hb']%elem_of_pairs). cbn [fst snd] in *.
      destruct (nl_check op lo oi ii (nl_allowed reflexive global) a b) eqn:E; [|inversion Hin].
      apply elem_of_list_singleton in Hin as <-. apply check_no_panic in E; [done| |].
      - apply elem_of_oks in Ha. by eapply has_operand_in.
      - apply elem_of_oks in Hb'. by eapply has_operand_in. }
    destruct (pnl_spec _ _ _ _ _ _ _ Hb _ _ Hy) as [k Hk]. rewrite pending_new in Hk. split.
    - rewrite (oks_perm _ _ Hk), oks_app, oks_replicate_err, app_nil_l. by rewrite checked_oks.
    - intros Ho Hi. split.
      + rewrite Hk. rewrite not_elem_of_app. split; [|auto]. intros [H _]%elem_of_replicate. done.
      + intros Ho2 Hi2 Ht. apply no_error_ok in Ho2. apply no_error_ok in Hi2.
        pose proof (pnl_spec_exact _ _ _ _ _ _ _ Hb _ _ Hy Ho2 Hi2) as Hex. rewrite pending_new in Hex.
        split; rewrite Hex; [|auto]. intros Hin. unfold checked in Hin. apply elem_of_list_join in Hin as (ls & Hin & Hls).
        apply elem_of_list_fmap in Hls as ([a b] & -> & _). cbn [fst snd] in *.
        destruct (nl_check op lo oi ii (nl_allowed reflexive global) a b) eqn:E; [|inversion Hin].
        apply elem_of_list_singleton in Hin as <-. by apply check_no_err in E. }
  split.
  - destruct lo; by apply pnl_ends.
  - intros out Hy. rewrite (joined_outer op reflexive global lo). destruct lo; apply H in Hy as [H1 H2]; (split; [done|]); intros Hl Hr.
    + auto.
    + destruct (H2 Hr Hl) as [H3 H4]. auto.
Qed.

(** ** Index join *)
Section IJ.
Context (reflexive global : bool) (lhs_idx : nat) (retrieve : match_ → option (list match_)) (keys : N → list anno_key)
        (cond : list (match_ → option bool)) (const : option anno_key).
Notation all_conds := (all_cond cond).
Notation scan := (thread_scan reflexive global cond const).
Notation thr := (thread reflexive global lhs_idx retrieve keys cond const).
Notation allowed := (ij_allowed reflexive global).
Notation out_m := (output_match const).

Lemma skip_same_length n l : length (skip_same n l) <= length l.
Proof. induction l as [|m l IH]; [done|]. simpl. case_decide; simpl; lia. Qed.
Lemma after_match_length n l : length (after_match const n l) <= length l.
Proof. unfold after_match. destruct const; [apply skip_same_length|done]. Qed.
Lemma scan_fuel f g ml l : length l <= f → scan f g ml l = scan (length l) g ml l.
Proof.
  assert (∀ n f l, length l <= n → length l <= f → scan f g ml l = scan n g ml l) as H.
  { intros n. induction n as [|n IH]; intros f' l' Hn Hf.
    - destruct l'; [|simpl in Hn; lia]. by destruct f'.
    - destruct l' as [|m r]; [by destruct f'|]. destruct f' as [|f']; [simpl in Hf; lia|]. cbn [thread_scan].
      simpl in Hn, Hf. pose proof (after_match_length (output_match const m).1 r).
      destruct (all_cond_par cond m) as [es inc]. f_equal. destruct inc; [|apply IH; lia].
      destruct (allowed g ml (output_match const m)); [f_equal|]; apply IH; lia. }
  intros Hl. by apply H.
Qed.

Hypothesis Hcond : conds_total cond.
Lemma all_cond_spec m : all_conds m = Some true ↔ Forall (λ f, f m = Some true) cond.
Proof.
  clear Hcond. induction cond as [|f r IH]; [split; [constructor|done]|]. cbn [all_cond]. rewrite Forall_cons, <- IH.
  destruct (f m) as [[]|]; naive_solver.
Qed.
Lemma all_cond_total m : ∃ b, all_conds m = Some b ∧ all_cond_par cond m = ([], b).
Proof.
  unfold conds_total in Hcond. induction cond as [|f r IH]; [by exists true|]. cbn [all_cond all_cond_par].
  assert (f m ≠ None) as Hf by (apply Hcond; by left).
  destruct (f m) as [[]|]; [|by exists false|done]. apply IH. intros f' m' Hin. apply Hcond. by right.
Qed.
Lemma scan_cons g ml m r :
  scan (length (m :: r)) g ml (m :: r) =
  match all_conds m with
  | Some true => if allowed g ml (out_m m)
                 then IOk (g ++ [out_m m]) :: scan (length (after_match const (out_m m).1 r)) g ml (after_match const (out_m m).1 r)
                 else scan (length r) g ml r
  | _ => scan (length r) g ml r
  end.
Proof.
  cbn [length thread_scan]. destruct (all_cond_total m) as (b & -> & ->). destruct b; [|done]. cbn [app].
  destruct (allowed g ml (output_match const m)); [|done]. f_equal. apply scan_fuel, after_match_length.
Qed.
Lemma ij_scan_spec g ml l :
  match ij_scan reflexive global cond const g ml l with
  | (Some x, l') => scan (length l) g ml l = x :: scan (length l') g ml l'
  | (None, _) => scan (length l) g ml l = []
  end.
Proof.
  induction l as [|m r IH]; [done|]. rewrite scan_cons. cbn [ij_scan].
  destruct (all_cond_total m) as (b & -> & _). destruct b; [|exact IH].
  destruct (allowed g ml (out_m m)); [done|exact IH].
Qed.

Definition retrieves (i : item) : Prop :=
  match i with IOk g => ∃ l, candidates lhs_idx retrieve keys g = COk l | _ => True end.
Definition ij_denoted (st : ij) : list item :=
  match ij_lhs st with
  | IOk g :: r => match ij_cand st, g !! lhs_idx with
                  | Some l, Some ml => scan (length l) g ml l ++ mjoin (thr <$> r)
                  | _, _ => mjoin (thr <$> ij_lhs st)
                  end
  | l => mjoin (thr <$> l)
  end.
Lemma candidates_idx g l : candidates lhs_idx retrieve keys g = COk l → ∃ ml, g !! lhs_idx = Some ml.
Proof. unfold candidates. destruct (g !! lhs_idx); [eauto|discriminate]. Qed.
Lemma thr_ok g l ml : candidates lhs_idx retrieve keys g = COk l → g !! lhs_idx = Some ml →
  thr (IOk g) = scan (length l) g ml l.
Proof. intros H1 H2. unfold thread. by rewrite H1, H2. Qed.
Definition starts_ok (l : list item) : Prop := match l with IOk _ :: _ => True | _ => False end.
Definition ij_inv (st : ij) : Prop := Forall retrieves (ij_lhs st) ∧ (is_Some (ij_cand st) → starts_ok (ij_lhs st)).
Lemma ij_loop_spec lhs cand : Forall retrieves lhs → (is_Some cand ↔ starts_ok lhs) →
  match ij_loop reflexive global lhs_idx retrieve keys cond const lhs cand with
  | (None, _) => ij_denoted (IJ lhs cand) = []
  | (Some x, st') => ij_denoted (IJ lhs cand) = x :: ij_denoted st' ∧ ij_inv st'
  end.
Proof.
  revert cand. induction lhs as [|i r IH]; intros cand HF Hc; cbn [ij_loop]; [done|].
  apply Forall_cons in HF as [Hi HF]. destruct i as [g| |].
  - destruct cand as [l|]; [|by destruct Hc as [_ Hc]; destruct Hc]. destruct Hi as [l0 Hl0]. destruct (candidates_idx _ _ Hl0) as [ml Hml].
    rewrite Hml. pose proof (ij_scan_spec g ml l) as Hs.
    assert (ij_denoted (IJ (IOk g :: r) (Some l)) = scan (length l) g ml l ++ mjoin (thr <$> r)) as HD.
    { unfold ij_denoted. cbn [ij_lhs ij_cand]. by rewrite Hml. }
    destruct (ij_scan reflexive global cond const g ml l) as [[x|] l'].
    + rewrite HD, Hs. split; [|split; [constructor; [by exists l0|done]|done]].
      unfold ij_denoted. cbn [ij_lhs ij_cand]. by rewrite Hml.
    + rewrite HD, Hs. cbn [app].
      assert (match next_candidates lhs_idx retrieve keys r with
              | COk l => mjoin (thr <$> r) = ij_denoted (IJ r (Some l)) ∧ starts_ok r
              | CNone => ¬ starts_ok r ∧ mjoin (thr <$> r) = ij_denoted (IJ r None) | _ => False end) as Hn.
      { unfold next_candidates. destruct r as [|[g2| |] r2]; [by split; [intros []|]| |by split; [intros []|]|by split; [intros []|]].
        apply Forall_cons in HF as [[l2 Hl2] _]. rewrite Hl2. unfold ij_denoted. cbn [ij_lhs ij_cand].
        destruct (candidates_idx _ _ Hl2) as [ml2 Hml2]. rewrite Hml2, fmap_cons. by rewrite <- (thr_ok _ _ _ Hl2 Hml2). }
      destruct (next_candidates lhs_idx retrieve keys r) as [| | |l2]; [| done | done|].
      * destruct Hn as [Hn ->]. apply IH; [done|]. split; [intros [? [=]]|done].
      * destruct Hn as [-> Hn]. apply IH; [done|]. split; [done|eauto].
  - destruct cand; [by destruct Hc as [Hc _]; destruct Hc|]. split; [|split; [done|intros [? [=]]]].
    unfold ij_denoted. cbn [ij_lhs ij_cand]. by destruct r as [|[]].
  - destruct cand; [by destruct Hc as [Hc _]; destruct Hc|]. split; [|split; [done|intros [? [=]]]].
    unfold ij_denoted. cbn [ij_lhs ij_cand]. by destruct r as [|[]].
Qed.
Theorem ij_yields lhs out : Forall retrieves lhs →
  yields (ij_next reflexive global lhs_idx retrieve keys cond const) (ij_new lhs) out ↔ out = mjoin (thr <$> lhs).
Proof.
  intros HF. rewrite (yields_denoted _ ij_denoted ij_inv).
  - unfold ij_denoted, ij_new. cbn [ij_lhs ij_cand]. by destruct lhs as [|[]].
  - clear lhs HF. intros [lhs cand] [HF Hc]. cbn [ij_lhs ij_cand] in *. unfold ij_next. cbn [ij_lhs ij_cand].
    destruct cand as [l|].
    + apply ij_loop_spec; [done|]. split; [done|eauto].
    + destruct lhs as [|[g| |] r].
      * apply (ij_loop_spec [] None); [done|]. split; [intros [? [=]]|done].
      * pose proof HF as HF2. apply Forall_cons in HF2 as [[l Hl] _]. unfold next_candidates. rewrite Hl.
        pose proof (ij_loop_spec (IOk g :: r) (Some l) HF) as H. destruct (candidates_idx _ _ Hl) as [ml Hml].
        assert (ij_denoted (IJ (IOk g :: r) None) = ij_denoted (IJ (IOk g :: r) (Some l))) as ->.
        { unfold ij_denoted. cbn [ij_lhs ij_cand]. rewrite Hml, fmap_cons. by rewrite <- (thr_ok _ _ _ Hl Hml). }
        apply H. split; [done|eauto].
      * apply (ij_loop_spec (IErr :: r) None); [done|]. split; [intros [? [=]]|done].
      * apply (ij_loop_spec (IPanic :: r) None); [done|]. split; [intros [? [=]]|done].
  - split; [done|]. intros [? [=]].
Qed.

(** ** What the index join finds *)
Lemma skip_same_in n l m : m ∈ l → m ∈ skip_same n l ∨ m.1 = n.
Proof.
  induction l as [|x l IH]; [auto|]. simpl. case_decide as Hx; [|auto].
  intros [->|H]%elem_of_cons; [by right|auto].
Qed.
Lemma in_skip_same n l m : m ∈ skip_same n l → m ∈ l.
Proof. induction l as [|x l IH]; [done|]. simpl. case_decide; [|done]. intros Hin. right. auto. Qed.
Lemma elem_of_scan g ml n l x : length l = n →
  x ∈ scan (length l) g ml l ↔ ∃ m, m ∈ l ∧ all_conds m = Some true ∧ allowed g ml (out_m m) = true ∧ x = IOk (g ++ [out_m m]).
Proof.
  revert l. induction n as [n IH] using lt_wf_ind. intros l El. destruct l as [|m r].
  { split; [intros H; inversion H|]. intros (m & H & _). inversion H. }
  rewrite scan_cons. simpl in El.
  assert (Hskip : all_conds m ≠ Some true ∨ allowed g ml (out_m m) ≠ true →
    x ∈ scan (length r) g ml r ↔ ∃ m', m' ∈ m :: r ∧ all_conds m' = Some true ∧ allowed g ml (out_m m') = true ∧ x = IOk (g ++ [out_m m'])).
  { intros Hno. rewrite (IH (length r)); [|lia|done]. split.
    - intros (m' & H1 & H). exists m'. split; [by right|done].
    - intros (m' & H1 & H2 & H3 & H4). apply elem_of_cons in H1 as [->|H1]; [|by exists m'].
      by destruct Hno as [Hno|Hno]; destruct Hno. }
  destruct (all_conds m) as [[]|] eqn:Ec; [|by apply Hskip; left..].
  destruct (allowed g ml (out_m m)) eqn:Ea; [|by apply Hskip; right].
  pose proof (after_match_length (out_m m).1 r).
  rewrite elem_of_cons, (IH (length (after_match const (out_m m).1 r))); [|lia|done]. split.
  - intros [->|(m' & H1 & H2)].
    + exists m. split; [by left|done].
    + exists m'. split; [|done]. right. unfold after_match in H1. destruct const; [by eapply in_skip_same|done].
  - intros (m' & H1 & H2 & H3 & H4). apply elem_of_cons in H1 as [->|H1]; [by left|].
    unfold after_match. destruct const as [k|] eqn:Ek; [|right; by exists m'].
    destruct (skip_same_in m.1 r m' H1) as [H5|H5].
    + right. by exists m'.
    + left. rewrite H4. unfold output_match. by rewrite H5.
Qed.

(** Candidates of a node stand together *)
Definition grouped (l : list match_) : Prop :=
  ∀ l1 a l2 b l3, l = l1 ++ a :: l2 ++ b :: l3 → a.1 = b.1 → Forall (λ c, c.1 = a.1) l2.
Lemma grouped_cons m l : grouped (m :: l) → grouped l.
Proof. intros H l1 a l2 b l3 -> E. by apply (H (m :: l1) a l2 b l3). Qed.
Lemma grouped_skip n l : grouped l → grouped (skip_same n l).
Proof. induction l as [|m l IH]; [done|]. simpl. intros H. case_decide; [|done]. eapply IH, grouped_cons, H. Qed.
Lemma skip_same_none m l : grouped (m :: l) → ∀ x, x ∈ skip_same m.1 l → x.1 ≠ m.1.
Proof.
  assert (∀ l0, Forall (λ c, c.1 = m.1) l0 → grouped (m :: l0 ++ l) → ∀ x, x ∈ skip_same m.1 l → x.1 ≠ m.1) as H.
  { induction l as [|y l IH]; intros l0 Hl0 Hg x Hx; [inversion Hx|]. simpl in Hx. case_decide as Hy.
    - apply (IH (l0 ++ [y])); [|by rewrite <- app_assoc|done]. apply Forall_app. split; [done|]. by constructor.
    - apply elem_of_cons in Hx as [->|Hx]; [done|]. intros Hxn. apply elem_of_list_split in Hx as (l1 & l2 & ->).
      specialize (Hg [] m (l0 ++ y :: l1) x l2). cbn [app] in Hg. rewrite <- app_assoc in Hg. specialize (Hg eq_refl (eq_sym Hxn)).
      apply Forall_app in Hg as [_ Hg]. apply Forall_cons in Hg as [Hg _]. done. }
  intros Hg. by apply (H []).
Qed.
Lemma scan_nodup g ml n l : length l = n → NoDup l → (is_Some const → grouped l) → NoDup (scan (length l) g ml l).
Proof.
  revert l. induction n as [n IH] using lt_wf_ind. intros l El Hnd Hg. destruct l as [|m r]; [constructor|].
  rewrite scan_cons. simpl in El. apply NoDup_cons in Hnd as [Hm Hnd].
  assert (NoDup (scan (length r) g ml r)) as Hr.
  { apply (IH (length r)); [lia|done|done|]. intros Hs. eapply grouped_cons. by apply Hg. }
  destruct (all_conds m) as [[]|]; [|done|done]. destruct (allowed g ml (out_m m)); [|done].
  pose proof (after_match_length (out_m m).1 r).
  apply NoDup_cons. split.
  - rewrite (elem_of_scan _ _ _ _ _ eq_refl). intros (m' & H1 & _ & _ & H4). injection H4 as H4. apply (inj (app g)) in H4. injection H4 as H4.
    unfold after_match in H1. unfold output_match in H4, H1. destruct const as [k|] eqn:Ek.
    + apply (skip_same_none m) in H1; [|by apply Hg]. injection H4 as H4. congruence.
    + congruence.
  - apply (IH (length (after_match const (out_m m).1 r))); [lia|done| |].
    + unfold after_match. destruct const; [|done]. clear -Hnd. induction Hnd as [|y r Hy Hnd IH]; [constructor|].
      simpl. case_decide; [done|by constructor].
    + intros Hs. unfold after_match. destruct const; [|by destruct Hs]. apply grouped_skip. eapply grouped_cons. by apply Hg.
Qed.

(** ** Parallel index join *)
Lemma pij_spec size lhs out : 0 < size → pij_yields reflexive global lhs_idx retrieve keys cond const size lhs out →
  out ≡ₚ mjoin (thr <$> lhs).
Proof.
  intros Hs. induction 1 as [lhs H|lhs out rest H Hi Hr IH].
  - destruct lhs; [done|]. destruct size; [lia|discriminate].
  - apply interleave_perm in Hi. rewrite Hi, IH, !mjoin_concat, <- concat_app, <- fmap_app, take_drop. done.
Qed.
Lemma pij_ends size lhs : 0 < size → ∃ out, pij_yields reflexive global lhs_idx retrieve keys cond const size lhs out.
Proof.
  intros Hs. remember (length lhs) as n eqn:E. revert lhs E. induction n as [n IH] using lt_wf_ind. intros lhs ->.
  destruct lhs as [|i r]; [exists []; apply pij_end; by destruct size|].
  destruct (IH (length (drop size (i :: r)))) with (lhs := drop size (i :: r)) as [rest Hr]; [|done|].
  { rewrite drop_length. simpl. lia. }
  eexists. eapply pij_buffer; [destruct size; [lia|done]|apply interleave_exists|exact Hr].
Qed.

(** ** Compared to a nested loop with the results of the search *)
Context (op : match_ → match_ → option bool) (rs : list match_).
Hypothesis Hret : retrieval_agrees op retrieve rs.
Hypothesis Hsearch : search_agrees keys cond const rs.

Lemma retrieves_all lhs : has_operand lhs_idx lhs → Forall retrieves lhs.
Proof.
  intros H. apply Forall_forall. intros [g| |] Hin; [|done|done]. apply (has_operand_in _ _ _ H) in Hin.
  apply lookup_lt_is_Some_2 in Hin as [ml Hml]. unfold retrieves, candidates. rewrite Hml.
  destruct (Hret ml) as (nodes & -> & _). eauto.
Qed.
Lemma ij_allowed_spec g ml m : g !! lhs_idx = Some ml →
  allowed g ml m = true ↔ (reflexive = true ∨ (global = true ∧ ml ∉ [m] ∧ m ∉ g) ∨ (global = false ∧ ml ≠ m)).
Proof.
  intros Hml. unfold ij_allowed. rewrite !orb_true_iff, !andb_true_iff, negb_true_iff, different_to_all_spec, different_to_spec.
  rewrite elem_of_list_singleton. apply elem_of_list_lookup_2 in Hml. split.
  - intros [H|[[H1 H2]|[H1 H2]]]; [by left|right; left|right; right; auto]. split_and!; [done| |done]. by intros ->.
  - intros [H|[(H1 & _ & H2)|[H1 H2]]]; auto.
Qed.
Lemma elem_of_thr g x : lhs_idx < length g →
  x ∈ thr (IOk g) ↔ ∃ m, m ∈ rs ∧ joinable op reflexive global lhs_idx 0 g [m] ∧ x = IOk (g ++ [m]).
Proof.
  intros [ml Hml]%lookup_lt_is_Some_2. destruct (Hret ml) as (nodes & Hn & Hag).
  unfold thread, candidates. rewrite Hml, Hn. rewrite (elem_of_scan _ _ _ _ _ eq_refl). unfold joinable. rewrite Hml.
  cbn [lookup list_lookup]. split.
  - intros ([n k] & H1 & H2 & H3 & ->). apply elem_of_list_join in H1 as (l & H1 & Hl).
    apply elem_of_list_fmap in Hl as (y & -> & Hy). apply elem_of_list_fmap in H1 as (k' & [= -> ->] & Hk).
    apply all_cond_spec in H2.
    assert (out_m (y.1, k') = (y.1, default k' const)) as Eo by (unfold output_match; by destruct const).
    rewrite Eo in *. exists (y.1, default k' const).
    assert ((y.1, default k' const) ∈ rs) as Hrs by (apply Hsearch; eauto).
    split_and!; [done| |by apply ij_allowed_spec|done]. apply Hag; [done|]. by exists y.
  - intros ([n k] & Hrs & [H1 H2] & ->). apply Hag in H1 as (y & Hy & Ey); [|done]. simpl in Ey. subst n.
    pose proof Hrs as Hrs2. apply Hsearch in Hrs2 as (k' & Hk & Hc & ->). exists (y.1, k').
    assert (out_m (y.1, k') = (y.1, default k' const)) as -> by (unfold output_match; by destruct const).
    split_and!; [|by apply all_cond_spec|by apply ij_allowed_spec|done].
    apply elem_of_list_join. exists ((λ k, (y.1, k)) <$> keys y.1). split.
    + apply elem_of_list_fmap. by exists k'.
    + apply elem_of_list_fmap. by exists y.
Qed.
Lemma elem_of_index_join lhs g : has_operand lhs_idx lhs →
  g ∈ oks (mjoin (thr <$> lhs)) ↔ g ∈ joined op reflexive global true lhs_idx 0 (oks lhs) ((λ m, [m]) <$> rs).
Proof.
  intros Hl. rewrite elem_of_oks, elem_of_list_join. unfold joined. rewrite elem_of_list_fmap. split.
  - intros (l & H & (i & -> & Hi)%elem_of_list_fmap). destruct i as [gl| |]; [|apply elem_of_list_singleton in H; done..].
    apply elem_of_thr in H as (m & Hm & Hj & [= ->]); [|by eapply has_operand_in].
    exists (gl, [m]). split; [done|]. apply elem_of_list_filter. split; [done|]. apply elem_of_pairs. split; [by apply elem_of_oks|].
    apply elem_of_list_fmap. by exists m.
  - intros ([gl gr] & -> & [Hj [H1 H2]%elem_of_pairs]%elem_of_list_filter). cbn [fst snd] in *.
    apply elem_of_list_fmap in H2 as (m & -> & Hm). apply elem_of_oks in H1. exists (thr (IOk gl)). split.
    + apply elem_of_thr; [by eapply has_operand_in|]. by exists m.
    + apply elem_of_list_fmap. by exists (IOk gl).
Qed.
Lemma thr_no_error i : (∀ g, i = IOk g → lhs_idx < length g) → ∀ x, x ∈ thr i → x = i ∨ ∃ g, x = IOk g.
Proof.
  intros Hi x Hx. destruct i as [g| |].
  - apply elem_of_thr in Hx as (m & _ & _ & ->); eauto.
  - left. by apply elem_of_list_singleton in Hx.
  - left. by apply elem_of_list_singleton in Hx.
Qed.
Lemma index_join_no_error lhs : has_operand lhs_idx lhs → no_error lhs → no_error (mjoin (thr <$> lhs)).
Proof.
  intros Hl [H1 H2]. split; intros (l & H & (i & -> & Hi)%elem_of_list_fmap)%elem_of_list_join.
  - apply thr_no_error in H as [<-|[g [=]]]; [done|]. intros g ->. by eapply has_operand_in.
  - apply thr_no_error in H as [<-|[g [=]]]; [done|]. intros g ->. by eapply has_operand_in.
Qed.

(** Each match once *)
Lemma candidates_grouped (nodes : list match_) : NoDup (fst <$> nodes) →
  grouped (mjoin ((λ m', (λ k, (m'.1, k)) <$> keys m'.1) <$> nodes)).
Proof.
  intros Hnd l1 a l2 b l3 E Eab. rewrite mjoin_concat in E. revert l1 l2 E. induction nodes as [|y nodes IH]; intros l1 l2 E.
  { by destruct l1. }
  cbn [fmap list_fmap concat] in E. apply NoDup_cons in Hnd as [Hy Hnd].
  assert (∀ (x : match_), x ∈ concat ((λ m', (λ k, (m'.1, k)) <$> keys m'.1) <$> nodes) → x.1 ≠ y.1) as Hother.
  { intros x Hx Ex. rewrite <- mjoin_concat in Hx. apply elem_of_list_join in Hx as (l & Hl & Hin).
    apply elem_of_list_fmap in Hin as (z & -> & Hz). apply elem_of_list_fmap in Hl as (k & -> & _).
    apply Hy. apply elem_of_list_fmap. exists z. auto. }
  apply app_eq_inv in E as [(k & E1 & E2)|(k & E1 & E2)].
  - (* l1 ends inside of the first part *)
    destruct k as [|c k].
    + cbn [app] in E2. apply (IH Hnd [] l2). by rewrite E2.
    + cbn [app] in E2. injection E2 as <- E2.
      assert (∀ x, x ∈ a :: k → x.1 = y.1) as Hk.
      { intros x Hx. assert (x ∈ (λ k, (y.1, k)) <$> keys y.1) as Hx2 by (rewrite E1; apply elem_of_app; by right).
        apply elem_of_list_fmap in Hx2 as (k2 & -> & _). done. }
      assert (a.1 = y.1) as Ea by (apply Hk; by left).
      apply app_eq_inv in E2 as [(k2 & E3 & E4)|(k2 & E3 & E4)].
      * exfalso. apply (Hother b); [|congruence]. rewrite E4. apply elem_of_app. right. by left.
      * apply Forall_forall. intros x Hx. rewrite Ea. apply Hk. right. rewrite E3. apply elem_of_app. by left.
  - apply (IH Hnd k l2). done.
Qed.
Lemma candidates_nodup (nodes : list match_) : NoDup (fst <$> nodes) → (∀ n, NoDup (keys n)) →
  NoDup (mjoin ((λ m', (λ k, (m'.1, k)) <$> keys m'.1) <$> nodes)).
Proof.
  intros Hnd Hk. rewrite mjoin_concat. induction nodes as [|y nodes IH]; [constructor|]. cbn [fmap list_fmap concat].
  apply NoDup_cons in Hnd as [Hy Hnd]. apply NoDup_app. split_and!.
  - apply (NoDup_fmap_2 _), Hk.
  - intros x Hx Hx2. rewrite <- mjoin_concat in Hx2. apply elem_of_list_join in Hx2 as (l & Hl & Hin).
    apply elem_of_list_fmap in Hin as (z & -> & Hz). apply elem_of_list_fmap in Hl as (k & -> & _).
    apply elem_of_list_fmap in Hx as (k2 & [= E _] & _). apply Hy. apply elem_of_list_fmap. by exists z.
  - auto.
Qed.
Lemma thr_nodup g : lhs_idx < length g → (∀ n, NoDup (keys n)) →
  (∀ m nodes, retrieve m = Some nodes → NoDup (fst <$> nodes)) → NoDup (thr (IOk g)).
Proof.
  intros [ml Hml]%lookup_lt_is_Some_2 Hk Hr. destruct (Hret ml) as (nodes & Hn & _).
  unfold thread, candidates. rewrite Hml, Hn. apply (scan_nodup _ _ _ _ eq_refl).
  - apply candidates_nodup; [by eapply Hr|done].
  - intros _. apply candidates_grouped. by eapply Hr.
Qed.
Lemma index_join_nodup lhs : has_operand lhs_idx lhs → NoDup (oks lhs) → (∀ n, NoDup (keys n)) →
  (∀ m nodes, retrieve m = Some nodes → NoDup (fst <$> nodes)) → NoDup (oks (mjoin (thr <$> lhs))).
Proof.
  intros Hl Hnd Hk Hr. rewrite oks_mjoin, mjoin_concat. induction lhs as [|i lhs IH]; [constructor|]. cbn [fmap list_fmap concat].
  destruct i as [g| |].
  - change (oks (IOk g :: lhs)) with (g :: oks lhs) in Hnd. apply NoDup_cons in Hnd as [Hg Hnd].
    unfold has_operand in Hl. change (oks (IOk g :: lhs)) with (g :: oks lhs) in Hl. apply Forall_cons in Hl as [Hlg Hl].
    apply NoDup_app. split_and!.
    + pose proof (thr_nodup g Hlg Hk Hr) as Ht. clear -Ht. induction Ht as [|x l Hx Ht IH]; [constructor|].
      destruct x as [x| |]; [|exact IH|exact IH]. change (oks (IOk x :: l)) with (x :: oks l). constructor; [|done].
      by rewrite elem_of_oks.
    + intros x Hx Hx2. apply elem_of_oks in Hx. apply elem_of_thr in Hx as (m & _ & _ & [= ->]); [|done].
      rewrite <- mjoin_concat, <- oks_mjoin in Hx2. apply elem_of_oks in Hx2. apply elem_of_list_join in Hx2 as (l & H1 & H2).
      apply elem_of_list_fmap in H2 as (i & -> & Hi). destruct i as [g2| |]; [|apply elem_of_list_singleton in H1; done..].
      apply elem_of_thr in H1 as (m2 & _ & _ & [= H1]); [|by eapply has_operand_in].
      apply app_inj_tail in H1 as [-> _]. apply Hg. by apply elem_of_oks.
    + by apply IH.
  - by apply IH.
  - by apply IH.
Qed.
End IJ.
Lemma joined_nodup op reflexive global li ri ls (rs : list match_) : NoDup ls → NoDup rs →
  NoDup (joined op reflexive global true li ri ls ((λ m, [m]) <$> rs)).
Proof.
  intros Hl Hr. unfold joined. apply NoDup_fmap_2_strong.
  - intros [g1 r1] [g2 r2] [_ [_ H1]%elem_of_pairs]%elem_of_list_filter [_ [_ H2]%elem_of_pairs]%elem_of_list_filter E.
    cbn [fst snd] in *. apply elem_of_list_fmap in H1 as (m1 & -> & _). apply elem_of_list_fmap in H2 as (m2 & -> & _).
    apply app_inj_tail in E as [-> ->]. done.
  - apply NoDup_filter, pairs_nodup; [done|]. apply (NoDup_fmap_2 _). done.
Qed.
