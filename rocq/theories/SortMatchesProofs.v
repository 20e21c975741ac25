From stdpp Require Import base list.
From Coq Require Import NArith Arith Lia.
From Verif Require Import KeySer KeySerSpec SortedMap Types TypesProofs QuickSort QuickSortSpec QuickSortProofs SortMatches SortMatchesSpec.

(** ** Total preorders *)
Lemma tpo_all {T} (P : T → Prop) cmp : total_preorder cmp → total_preorder_on P cmp.
Proof. intros [H1 H2]. split; [auto|]. intros x y z _ _ _. apply H2. Qed.
Lemma cmp_order_tp {T} (cmp : T → T → comparison) : CmpOrder cmp → total_preorder cmp.
Proof.
  intros H. split.
  - intros x y. apply (cmp_anti cmp).
  - intros x y z Hxy Hyz. destruct (cmp x y) eqn:E1; [|destruct (cmp y z) eqn:E2|]; try done.
    + apply (cmp_eq cmp) in E1 as ->. done.
    + apply (cmp_eq cmp) in E2 as ->. by rewrite E1.
    + by rewrite (cmp_trans cmp _ _ _ E1 E2).
Qed.
Lemma tpo_map {A B} (P : A → Prop) (f : A → B) cmp : total_preorder cmp → total_preorder_on P (λ x y, cmp (f x) (f y)).
Proof. intros [H1 H2]. split; [auto|]. intros x y z _ _ _. apply H2. Qed.

Section Tpo.
Context {T : Type} (P : T → Prop).
Lemma tpo_eq_split cmp x y z : total_preorder_on P cmp → P x → P y → P z → cmp x y ≠ Gt → cmp y z ≠ Gt → cmp x z = Eq →
  cmp x y = Eq ∧ cmp y z = Eq.
Proof using.
  intros H Px Py Pz H1 H2 H3.
  assert (cmp z x ≠ Gt) as H4 by (rewrite (tpo_flip _ _ H x z) by done; by rewrite H3).
  pose proof (tpo_trans _ _ H y z x Py Pz Px H2 H4) as H5. pose proof (tpo_trans _ _ H z x y Pz Px Py H4 H1) as H6.
  rewrite (tpo_flip _ _ H x y) in H5 by done. rewrite (tpo_flip _ _ H y z) in H6 by done.
  destruct (cmp x y), (cmp y z); done.
Qed.
Lemma then_tpo c1 c2 : total_preorder_on P c1 →
  (∀ x y, P x → P y → c1 x y = Eq → c2 y x = CompOpp (c2 x y)) →
  (∀ x y z, P x → P y → P z → c1 x y = Eq → c1 y z = Eq → c1 x z = Eq → c2 x y ≠ Gt → c2 y z ≠ Gt → c2 x z ≠ Gt) →
  total_preorder_on P (λ x y, match c1 x y with Eq => c2 x y | r => r end).
Proof using.
  intros H F Tr. split.
  - intros x y Px Py. rewrite (tpo_flip _ _ H x y) by done. destruct (c1 x y) eqn:E; [exact (F x y Px Py E)|done|done].
  - intros x y z Px Py Pz H1 H2.
    assert (c1 x y ≠ Gt) as H1' by (intros E; by rewrite E in H1). assert (c1 y z ≠ Gt) as H2' by (intros E; by rewrite E in H2).
    pose proof (tpo_trans _ _ H x y z Px Py Pz H1' H2') as H3. destruct (c1 x z) eqn:E; [|done|done].
    destruct (tpo_eq_split c1 x y z) as [E1 E2]; [done..|]. rewrite E1 in H1. rewrite E2 in H2. exact (Tr x y z Px Py Pz E1 E2 E H1 H2).
Qed.
Lemma then_tpo' c1 c2 : total_preorder_on P c1 → total_preorder_on P c2 →
  total_preorder_on P (λ x y, match c1 x y with Eq => c2 x y | r => r end).
Proof using.
  intros H1 H2. apply then_tpo; [done| |].
  - intros x y Px Py _. by apply (tpo_flip _ _ H2).
  - intros x y z Px Py Pz _ _ _. by apply (tpo_trans _ _ H2).
Qed.
Lemma tpo_ext c c' : (∀ x y, P x → P y → c x y = c' x y) → total_preorder_on P c → total_preorder_on P c'.
Proof using.
  intros He H. split.
  - intros x y Px Py. rewrite <- !He by done. by apply (tpo_flip _ _ H).
  - intros x y z Px Py Pz. rewrite <- !He by done. by apply (tpo_trans _ _ H).
Qed.
(** Lexicographic comparison; [s] is the result for a shorter first list *)
Fixpoint lexl (c : T → T → comparison) (s : comparison) (l1 l2 : list T) : comparison :=
  match l1, l2 with
  | [], [] => Eq
  | [], _ :: _ => s
  | _ :: _, [] => CompOpp s
  | x :: r1, y :: r2 => match c x y with Eq => lexl c s r1 r2 | r => r end
  end.
Lemma lexl_tpo c s : total_preorder_on P c → s ≠ Eq → total_preorder_on (Forall P) (lexl c s).
Proof using.
  intros H Hs. split.
  - intros l1. induction l1 as [|x l1 IH]; intros [|y l2] F1 F2; cbn; [done|done|by rewrite CompOpp_involutive|].
    apply Forall_cons in F1 as [? ?], F2 as [? ?]. rewrite (tpo_flip _ _ H x y) by done. destruct (c x y); cbn; [by apply IH|done|done].
  - intros l1. induction l1 as [|x l1 IH]; intros [|y l2] [|z l3] F1 F2 F3; cbn; try done; try (by destruct s).
    apply Forall_cons in F1 as [Px Fx], F2 as [Py Fy], F3 as [Pz Fz]. intros H1 H2.
    assert (c x y ≠ Gt) as H1' by (intros E; by rewrite E in H1). assert (c y z ≠ Gt) as H2' by (intros E; by rewrite E in H2).
    assert (c x z ≠ Gt) as H3 by (by apply (tpo_trans _ _ H x y z)). destruct (c x z) eqn:E; [|done|done].
    destruct (tpo_eq_split c x y z) as [E1 E2]; [done..|]. rewrite E1 in H1. rewrite E2 in H2. by apply (IH l2).
Qed.
End Tpo.
Lemma tp_on_True {T} (cmp : T → T → comparison) : total_preorder_on (λ _, True) cmp → total_preorder cmp.
Proof.
  intros H. split.
  - intros x y. by apply (tpo_flip _ _ H).
  - intros x y z. by apply (tpo_trans _ _ H).
Qed.

(** ** Paths *)
Section Paths.
Context (coll : bytes → bytes → comparison) (decode : bytes → bytes) (Hcoll : total_preorder coll).
Lemma zip_lexl l1 l2 : match compare_zip coll l1 l2 with Eq => Nat.compare (length l1) (length l2) | r => r end = lexl coll Lt l1 l2.
Proof using.
  revert l2. induction l1 as [|x l1 IH]; intros [|y l2]; cbn; [done..|]. rewrite <- IH. by destruct (coll x y).
Qed.
Lemma quirks_lexl l1 l2 :
  match match last l1, last l2 with Some d1, Some d2 => coll (decode d1) (decode d2) | _, _ => Eq end with
  | Eq => Nat.compare (length l1) (length l2) | r => r end =
  match lexl coll Lt (option_list (decode <$> last l1)) (option_list (decode <$> last l2)) with
  | Eq => Nat.compare (length l1) (length l2) | r => r end.
Proof using.
  destruct l1 as [|x l1 _] using rev_ind; destruct l2 as [|y l2 _] using rev_ind; rewrite ?last_snoc; cbn; try done.
  - rewrite app_length. cbn. destruct (length l2 + 1) eqn:E; [lia|done].
  - rewrite app_length. cbn. destruct (length l1 + 1) eqn:E; [lia|done].
  - by destruct (coll (decode x) (decode y)).
Qed.
Lemma path_tp quirks : total_preorder (compare_document_path coll decode quirks).
Proof using Hcoll.
  apply tp_on_True.
  assert (∀ {A} (f : A → list bytes), total_preorder_on (λ _, True) (λ x y, lexl coll Lt (f x) (f y))) as Hl.
  { intros A f. apply tpo_map. apply tp_on_True.
    pose proof (lexl_tpo (λ _, True) coll Lt (tpo_all _ _ Hcoll) ltac:(done)) as [H1 H2].
    split; [intros x y _ _; apply H1; by apply Forall_forall|intros x y z _ _ _; apply H2; by apply Forall_forall]. }
  unfold compare_document_path. destruct quirks.
  - eapply tpo_ext; [intros x y _ _; symmetry; apply quirks_lexl|].
    apply (then_tpo' (λ _, True) (λ x y, lexl coll Lt _ _)).
    + apply (Hl _ (λ x, option_list (decode <$> last (path_parts x)))).
    + apply (tpo_map _ (λ x, length (path_parts x))). apply cmp_order_tp, _.
  - eapply tpo_ext; [intros x y _ _; symmetry; apply zip_lexl|]. apply (Hl _ path_parts).
Qed.
End Paths.

Section Matches.
Context (name : N → option bytes) (left : N → option N) (conn : N → N → bool) (with_order : bool)
        (coll : bytes → bytes → comparison) (decode : bytes → bytes) (quirks : bool).
Notation compare_match := (compare_match name left conn with_order coll decode quirks).
Notation compare_elements := (compare_elements name left conn with_order coll decode quirks).
Notation compare_groups := (compare_groups name left conn with_order coll decode quirks).
Notation compare_fresh := (compare_fresh name left conn with_order coll decode quirks).
Notation compare_many := (compare_many name left conn with_order coll decode quirks).

(** ** Caches *)
Definition cache_ok (c : cache) : Prop :=
  (∀ n v, (n, v) ∈ c_name c → name n = Some v) ∧ (∀ n v, (n, v) ∈ c_left c → left n = v).
Lemma assoc_in {V} (l : list (N * V)) k v : assoc l k = Some v → (k, v) ∈ l.
Proof using.
  unfold assoc. destruct (list_find _ l) as [[i [k' v']]|] eqn:E; [|done]. cbn. intros [= <-].
  apply list_find_Some in E as (Hi & Hk & _). cbn in Hk. subst. by eapply elem_of_list_lookup_2.
Qed.
Lemma put_in {V} (l : list (N * V)) k v x : x ∈ put l k v → x = (k, v) ∨ x ∈ l.
Proof using.
  unfold put. intros H. apply (elem_of_take (take _ _) _ _ : _ → _) in H || idtac.
  apply elem_of_take in H as (i & Hi & _). apply elem_of_list_lookup_2 in Hi.
  apply elem_of_cons in Hi as [->|Hi]; [by left|]. right. by apply elem_of_list_filter in Hi as [_ ?].
Qed.
Lemma get_name_ok c n : cache_ok c → (get_name name c n).1 = name n ∧ cache_ok (get_name name c n).2.
Proof using.
  intros [H1 H2]. unfold get_name. destruct (assoc (c_name c) n) as [v|] eqn:E.
  - apply assoc_in in E. cbn. split; [symmetry; by apply H1|]. split; [|exact H2]. cbn.
    intros m w [[= -> ->]|?]%put_in; by apply H1.
  - destruct (name n) as [v|] eqn:En; cbn; [|done]. split; [done|]. split; [|exact H2]. cbn.
    intros m w [[= -> ->]|?]%put_in; [done|by apply H1].
Qed.
Lemma get_left_ok c n : cache_ok c → (get_left left c n).1 = left n ∧ cache_ok (get_left left c n).2.
Proof using.
  intros [H1 H2]. unfold get_left. destruct (assoc (c_left c) n) as [v|] eqn:E; cbn.
  - apply assoc_in in E. split; [symmetry; by apply H2|]. split; [exact H1|]. cbn.
    intros m w [[= -> ->]|?]%put_in; by apply H2.
  - split; [done|]. split; [exact H1|]. cbn. intros m w [[= -> ->]|?]%put_in; [done|by apply H2].
Qed.

(** The comparison of nodes without caches *)
Definition in_names (n1 n2 : bytes) (a b : N) : comparison := match coll n1 n2 with Eq => (a ?= b)%N | r => r end.
Definition in_doc (n1 n2 : bytes) (a b : N) : comparison :=
  if with_order then match left a, left b with
    | Some t1, Some t2 => if conn t1 t2 then Lt else if conn t2 t1 then Gt else in_names n1 n2 a b
    | _, _ => in_names n1 n2 a b end
  else in_names n1 n2 a b.
Definition node_cmp (a b : N) : comparison :=
  match name a, name b with
  | Some v1, Some v2 =>
      match compare_document_path coll decode quirks (split_path_and_nodename v1).1 (split_path_and_nodename v2).1 with
      | Eq => in_doc (split_path_and_nodename v1).2 (split_path_and_nodename v2).2 a b
      | r => r end
  | _, _ => (a ?= b)%N
  end.
Definition match_cmp (m1 m2 : match_) : comparison :=
  if (m1.1 =? m2.1)%N then anno_key_compare m1.2 m2.2 else node_cmp m1.1 m2.1.
Lemma compare_match_ok c m1 m2 : cache_ok c → (compare_match c m1 m2).1 = match_cmp m1 m2 ∧ cache_ok (compare_match c m1 m2).2.
Proof using.
  intros Hc. unfold SortMatches.compare_match, match_cmp. destruct (m1.1 =? m2.1)%N; [done|]. unfold node_cmp.
  destruct (get_name_ok c m1.1 Hc) as [E1 Hc1]. destruct (get_name name c m1.1) as [v1 c1]. cbn in E1, Hc1. subst v1.
  destruct (get_name_ok c1 m2.1 Hc1) as [E2 Hc2]. destruct (get_name name c1 m2.1) as [v2 c2]. cbn in E2, Hc2. subst v2.
  destruct (name m1.1) as [v1|], (name m2.1) as [v2|]; try done.
  destruct (split_path_and_nodename v1) as [p1 n1], (split_path_and_nodename v2) as [p2 n2]. cbn [fst snd].
  destruct (compare_document_path _ _ _ _ _); [|done|done]. unfold in_doc. destruct with_order; [|done].
  destruct (get_left_ok c2 m1.1 Hc2) as [E3 Hc3]. destruct (get_left left c2 m1.1) as [t1 c3]. cbn in E3, Hc3. subst t1.
  destruct (get_left_ok c3 m2.1 Hc3) as [E4 Hc4]. destruct (get_left left c3 m2.1) as [t2 c4]. cbn in E4, Hc4. subst t2.
  destruct (left m1.1), (left m2.1); done.
Qed.
Lemma elements_ok c g1 g2 : cache_ok c →
  (compare_elements c g1 g2).1 = match lexl match_cmp Gt g1 g2 with r => match (compare_elements c g1 g2).1 with Eq => Eq | _ => r end end ∧
  cache_ok (compare_elements c g1 g2).2.
Proof using.
  revert c g2. induction g1 as [|m1 g1 IH]; intros c [|m2 g2] Hc; cbn; [done..|].
  destruct (compare_match_ok c m1 m2 Hc) as [E Hc']. destruct (compare_match c m1 m2) as [r c']. cbn in E, Hc'. subst r.
  destruct (match_cmp m1 m2) eqn:Em; [|done|done]. by apply IH.
Qed.
Lemma elements_eq c g1 g2 : cache_ok c → (compare_elements c g1 g2).1 = Eq → Nat.compare (length g2) (length g1) = lexl match_cmp Gt g1 g2.
Proof using.
  revert c g2. induction g1 as [|m1 g1 IH]; intros c [|m2 g2] Hc; cbn; [done..|].
  destruct (compare_match_ok c m1 m2 Hc) as [E Hc']. destruct (compare_match c m1 m2) as [r c']. cbn in E, Hc'. subst r.
  destruct (match_cmp m1 m2) eqn:Em; [|done|done]. by apply IH.
Qed.
Lemma groups_ok c g1 g2 : cache_ok c →
  (compare_groups c g1 g2).1 = lexl match_cmp Gt g1 g2 ∧ cache_ok (compare_groups c g1 g2).2.
Proof using.
  intros Hc. unfold SortMatches.compare_groups. destruct (elements_ok c g1 g2 Hc) as [E Hc'].
  pose proof (elements_eq c g1 g2 Hc) as He. destruct (compare_elements c g1 g2) as [r c']. cbn in *.
  destruct r; cbn; split; auto.
Qed.
Lemma new_ok : cache_ok cache_new.
Proof using. split; intros n v []%elem_of_nil. Qed.
Lemma fresh_eq g1 g2 : compare_fresh g1 g2 = lexl match_cmp Gt g1 g2.
Proof using. apply groups_ok, new_ok. Qed.
Lemma many_ok c l : cache_ok c → compare_many c l = map (λ p, compare_fresh p.1 p.2) l.
Proof using.
  revert c. induction l as [|[g1 g2] l IH]; intros c Hc; cbn; [done|].
  destruct (groups_ok c g1 g2 Hc) as [E Hc']. destruct (compare_groups c g1 g2) as [r c']. cbn in E, Hc'. subst r.
  rewrite fresh_eq. f_equal. by apply IH.
Qed.

(** ** The order *)
Definition path_cmp (a b : N) : comparison :=
  match name a, name b with
  | Some v1, Some v2 => compare_document_path coll decode quirks (split_path_and_nodename v1).1 (split_path_and_nodename v2).1
  | _, _ => Eq
  end.
Context (Hcoll : total_preorder coll) (Hord : acyclic_order conn)
        (S : N → Prop) (HS : one_order_per_document S name left conn (λ a b, path_cmp a b = Eq)).

Definition nname (a : N) : bytes := match name a with Some v => (split_path_and_nodename v).2 | None => [] end.
Definition npath (a : N) : bytes := match name a with Some v => (split_path_and_nodename v).1 | None => [] end.
Lemma path_cmp_eq a b : S a → S b → path_cmp a b = compare_document_path coll decode quirks (npath a) (npath b).
Proof using HS.
  intros Ha Hb. unfold path_cmp, npath. destruct HS as [HS0 _]. destruct (HS0 a Ha) as [v ->], (HS0 b Hb) as [w ->]. done.
Qed.
Lemma path_cmp_tpo : total_preorder_on S path_cmp.
Proof using Hcoll HS.
  eapply tpo_ext; [intros x y Hx Hy; symmetry; by apply path_cmp_eq|]. apply (tpo_map _ npath). by apply path_tp.
Qed.
Lemma names_tpo (P : N → Prop) : total_preorder_on P (λ a b, in_names (nname a) (nname b) a b).
Proof using Hcoll.
  unfold in_names. apply (then_tpo' P (λ a b, coll (nname a) (nname b))); [by apply tpo_map|].
  apply tpo_all, cmp_order_tp, _.
Qed.
Lemma conn_asym t u : conn t u = true → conn u t = false.
Proof using Hord.
  destruct Hord as [H1 H2]. intros H. destruct (conn u t) eqn:E; [|done]. pose proof (H2 _ _ _ H E) as Hx. by rewrite H1 in Hx.
Qed.
Lemma path_refl a : S a → path_cmp a a = Eq.
Proof using Hcoll HS.
  intros Ha. pose proof (tpo_flip _ _ path_cmp_tpo a a Ha Ha) as H. by destruct (path_cmp a a).
Qed.
Lemma in_doc_flip a b : in_doc (nname b) (nname a) b a = CompOpp (in_doc (nname a) (nname b) a b).
Proof using Hcoll Hord.
  pose proof (tpo_flip _ _ (names_tpo (λ _, True)) a b I I) as Hn. cbn in Hn.
  unfold in_doc. destruct with_order; [|done]. destruct (left a) as [t|], (left b) as [u|]; try done.
  destruct (conn u t) eqn:E1, (conn t u) eqn:E2; try done. apply conn_asym in E1. congruence.
Qed.
Lemma in_doc_trans a b c : S a → S b → S c → path_cmp a b = Eq → path_cmp b c = Eq → path_cmp a c = Eq →
  in_doc (nname a) (nname b) a b ≠ Gt → in_doc (nname b) (nname c) b c ≠ Gt → in_doc (nname a) (nname c) a c ≠ Gt.
Proof using Hcoll HS Hord.
  intros Sa Sb Sc Hab Hbc Hac.
  pose proof (tpo_trans _ _ (names_tpo (λ _, True)) a b c I I I) as Hn. cbn in Hn.
  pose proof (path_refl a Sa) as Haa.
  destruct HS as [_ HS1]. destruct (HS1 a Sa) as [Hall|Hall]; unfold in_doc; destruct with_order; try done.
  - destruct (Hall a b) as (t & u & Ea & Eb & Htu); [done..|].
    destruct (Hall b c) as (u' & v & Eb' & Ec & Huv); [done..|]. rewrite Eb in Eb'. injection Eb' as <-.
    destruct (Hall a c) as (t' & v' & Ea' & Ec' & Htv); [done..|]. rewrite Ea in Ea'. injection Ea' as <-.
    rewrite Ec in Ec'. injection Ec' as <-. rewrite Ea, Eb, Ec.
    destruct Hord as [Hirr Htr].
    destruct (conn t u) eqn:E1.
    + intros _. destruct (conn u v) eqn:E2; [by rewrite (Htr _ _ _ E1 E2)|]. destruct (conn v u) eqn:E3; [done|].
      destruct Huv as [<- | [?|?]]; [|congruence..]. by rewrite E1.
    + destruct (conn u t) eqn:E2; [done|]. destruct Htu as [<- | [?|?]]; [|congruence..].
      destruct (conn t v) eqn:E3; [done|]. destruct (conn v t) eqn:E4; done.
  - pose proof (Hall a b Sa Sb Haa Hab) as H1. pose proof (Hall b c Sb Sc Hab Hac) as H2. pose proof (Hall a c Sa Sc Haa Hac) as H3.
    unfold unordered in *. destruct (left a) as [t|] eqn:Ea, (left b) as [u|] eqn:Eb, (left c) as [v|] eqn:Ec;
      repeat match goal with H : ∀ t u, Some ?x = Some t → Some ?y = Some u → _ |- _ =>
        destruct (H x y eq_refl eq_refl) as [?E ?E]; clear H end;
      repeat match goal with H : conn _ _ = false |- _ => rewrite H; clear H end; apply Hn.
Qed.
Lemma node_cmp_eq a b : S a → S b →
  node_cmp a b = match path_cmp a b with Eq => in_doc (nname a) (nname b) a b | r => r end.
Proof using HS.
  intros Ha Hb. unfold node_cmp, path_cmp, nname. destruct HS as [HS0 _].
  destruct (HS0 a Ha) as [v ->], (HS0 b Hb) as [w ->]. done.
Qed.
Lemma node_cmp_tpo : total_preorder_on S node_cmp.
Proof using Hcoll HS Hord.
  eapply tpo_ext; [intros x y Hx Hy; symmetry; by apply node_cmp_eq|].
  apply (then_tpo S path_cmp (λ a b, in_doc (nname a) (nname b) a b)); [apply path_cmp_tpo| |].
  - intros x y _ _ _. apply in_doc_flip.
  - intros x y z. apply in_doc_trans.
Qed.
Lemma coll_refl x : coll x x = Eq.
Proof using Hcoll. pose proof (tp_flip _ Hcoll x x) as H. by destruct (coll x x). Qed.
Lemma node_cmp_id a b : S a → S b → node_cmp a b = Eq ↔ a = b.
Proof using Hcoll HS Hord.
  intros Ha Hb. rewrite node_cmp_eq by done. split.
  - destruct (path_cmp a b); [|done|done]. unfold in_doc, in_names.
    destruct with_order; [destruct (left a), (left b); [destruct (conn _ _); [done|]; destruct (conn _ _); [done|]| | |]|];
      (destruct (coll _ _); [apply N.compare_eq|done|done]).
  - intros <-. rewrite path_refl by done. unfold in_doc, in_names. rewrite coll_refl, N.compare_refl.
    destruct Hord as [Hirr _]. destruct with_order; [|done]. destruct (left a); [|done]. by rewrite Hirr.
Qed.
Lemma match_cmp_tpo : total_preorder_on (λ m, S m.1) match_cmp.
Proof using Hcoll HS Hord.
  eapply (tpo_ext _ (λ m1 m2, match node_cmp m1.1 m2.1 with Eq => anno_key_compare m1.2 m2.2 | r => r end)).
  - intros x y Hx Hy. unfold match_cmp. destruct (N.eqb_spec x.1 y.1) as [E|E].
    + rewrite E. by rewrite (proj2 (node_cmp_id y.1 y.1 Hy Hy) eq_refl).
    + destruct (node_cmp x.1 y.1) eqn:E2; [|done|done]. by apply node_cmp_id in E2.
  - apply then_tpo'.
    + pose proof node_cmp_tpo as [H1 H2]. split; [intros; by apply H1|]. intros x y z Px Py Pz. by apply H2.
    + apply tpo_map. apply cmp_order_tp, _.
Qed.
Lemma groups_tpo : total_preorder_on (Forall (λ m, S m.1)) compare_fresh.
Proof using Hcoll HS Hord.
  eapply tpo_ext; [intros x y _ _; symmetry; apply fresh_eq|]. apply lexl_tpo; [apply match_cmp_tpo|done].
Qed.
Lemma match_cmp_id m1 m2 : S m1.1 → S m2.1 → match_cmp m1 m2 = Eq → m1 = m2.
Proof using Hcoll HS Hord.
  intros H1 H2. unfold match_cmp. destruct (N.eqb_spec m1.1 m2.1) as [E|E].
  - intros Ek. apply (cmp_eq anno_key_compare) in Ek. destruct m1, m2. cbn in *. by subst.
  - by intros Hx%node_cmp_id.
Qed.
Lemma groups_id g1 g2 : Forall (λ m, S m.1) g1 → Forall (λ m, S m.1) g2 → compare_fresh g1 g2 = Eq → g1 = g2.
Proof using Hcoll HS Hord.
  rewrite fresh_eq. revert g2. induction g1 as [|x g1 IH]; intros [|y g2] F1 F2; cbn; try done.
  apply Forall_cons in F1 as [? ?], F2 as [? ?]. destruct (match_cmp x y) eqn:E; [|done|done].
  intros Hgr. apply match_cmp_id in E; [|done..]. subst. f_equal. by apply IH.
Qed.
End Matches.

(** ** Sorting items that satisfy [P] *)
Section SortOn.
Context {T : Type} (P : T → Prop) (c c' : T → T → comparison) (Hag : ∀ x y, P x → P y → c x y = c' x y).
Lemma swap_P (l : list T) i j l' : try_swap l i j = Some l' → Forall P l → Forall P l'.
Proof using.
  unfold try_swap. destruct (l !! i) as [x|] eqn:Ei, (l !! j) as [y|] eqn:Ej; cbn; try done.
  intros [= <-] H. case_decide; [done|]. apply Forall_insert; [apply Forall_insert; [done|]|]; by eapply Forall_lookup_1.
Qed.
Lemma sift_ext s d l : Forall P l → sift c s d l = sift c' s d l ∧ ∀ r, sift c s d l = Some r → Forall P r.
Proof using Hag.
  revert l. induction d as [|d IH]; intros l H; cbn; [split; [done|]; by intros ? [= <-]|].
  destruct (l !! (s + d)) as [x|] eqn:Ex; cbn; [|done]. destruct (l !! (s + d + 1)) as [y|] eqn:Ey; cbn; [|done].
  rewrite (Hag x y) by (by eapply Forall_lookup_1). destruct (is_ge (c' x y)); [|split; [done|]; by intros ? [= <-]].
  destruct (try_swap l (s + d) (s + d + 1)) as [l'|] eqn:El; cbn; [|done]. apply IH. by eapply swap_P.
Qed.
Lemma insertion_ext s i n l : Forall P l →
  insertion_sort c s i n l = insertion_sort c' s i n l ∧ ∀ r, insertion_sort c s i n l = Some r → Forall P r.
Proof using Hag.
  revert i l. induction n as [|n IH]; intros i l H; cbn; [split; [done|]; by intros ? [= <-]|].
  destruct (sift_ext s (i - s) l H) as [<- H2]. destruct (sift c s (i - s) l) as [l'|]; cbn; [|done]. apply IH. by apply H2.
Qed.
Lemma ploop_ext pv i j n l : P pv → Forall P l →
  partition_loop c pv i j n l = partition_loop c' pv i j n l ∧ ∀ r k, partition_loop c pv i j n l = Some (r, k) → Forall P r.
Proof using Hag.
  intros Hp. revert i j l. induction n as [|n IH]; intros i j l H; cbn; [split; [done|]; by intros ? ? [= <- <-]|].
  destruct (l !! j) as [x|] eqn:Ex; cbn; [|done]. rewrite (Hag x pv) by (first [done|by eapply Forall_lookup_1]).
  destruct (c' x pv); [| |by apply IH].
  all: destruct (try_swap l i j) as [l'|] eqn:El; cbn; [|done]; apply IH; by eapply swap_P.
Qed.
Lemma partition_ext s e l : Forall P l →
  partition c s e l = partition c' s e l ∧ ∀ r k, partition c s e l = Some (r, k) → Forall P r.
Proof using Hag.
  intros H. unfold partition. destruct (l !! (e - 1)) as [pv|] eqn:Ep; cbn; [|done].
  assert (P pv) as Hp by (by eapply Forall_lookup_1).
  destruct (ploop_ext pv s s (e - 1 - s) l Hp H) as [<- H2].
  destruct (partition_loop c pv s s (e - 1 - s) l) as [[l1 i]|]; cbn; [|done]. split; [done|].
  destruct (try_swap l1 i (e - 1)) as [l2|] eqn:El; cbn; [|done]. intros r k [= <- <-]. eapply swap_P; [exact El|]. by eapply H2.
Qed.
Lemma median_ext i1 i2 i3 v1 v2 v3 : P v1 → P v2 → P v3 →
  median3 c (i1, v1) (i2, v2) (i3, v3) = median3 c' (i1, v1) (i2, v2) (i3, v3).
Proof using Hag.
  intros H1 H2 H3. unfold median3. cbn [snd]. rewrite (Hag v2 v1) by done.
  destruct (is_lt (c' v2 v1)); cbn [snd].
  - rewrite (Hag v3 v2) by done. destruct (is_lt (c' v3 v2)); cbn [snd]; by rewrite Hag.
  - rewrite (Hag v3 v1) by done. destruct (is_lt (c' v3 v1)); cbn [snd]; by rewrite Hag.
Qed.
Lemma randomized_ext rnd k s e l : Forall P l →
  randomized_partition c rnd k s e l = randomized_partition c' rnd k s e l ∧
  ∀ r q, randomized_partition c rnd k s e l = Some (r, q) → Forall P r.
Proof using Hag.
  intros H. unfold randomized_partition. cbv zeta.
  destruct (l !! random_range rnd k s e) as [v1|] eqn:E1; cbn [mbind option_bind]; [|done].
  destruct (l !! random_range rnd (k + 1) s e) as [v2|] eqn:E2; cbn [mbind option_bind]; [|done].
  destruct (l !! random_range rnd (k + 2) s e) as [v3|] eqn:E3; cbn [mbind option_bind]; [|done].
  rewrite median_ext by (by eapply Forall_lookup_1).
  destruct (try_swap l (e - 1) _) as [l1|] eqn:El; cbn [mbind option_bind]; [|done]. apply partition_ext. by eapply swap_P.
Qed.
Lemma quicksort_ext f rnd k s e max l : Forall P l →
  quicksort c f rnd k s e max l = quicksort c' f rnd k s e max l ∧ ∀ r q, quicksort c f rnd k s e max l = Done (r, q) → Forall P r.
Proof using Hag.
  revert k s e l. induction f as [|f IH]; intros k s e l H; [done|]. cbn [quicksort].
  destruct (decide (1 < e - s)); [|split; [done|]; by intros ? ? [= <- <-]].
  destruct (decide (e - s ≤ 20)).
  { destruct (insertion_ext s s (e - s) l H) as [<- H2]. split; [done|].
    destruct (insertion_sort c s s (e - s) l); [|done]. intros r q [= <- <-]. by apply H2. }
  destruct (randomized_ext rnd k s e l H) as [<- H2].
  destruct (randomized_partition c rnd k s e l) as [[l1 q]|]; [|done].
  destruct (IH (k + 3) s q l1) as [<- H3]; [by eapply H2|].
  destruct (quicksort c f rnd (k + 3) s q max l1) as [[l2 k2]| |]; [|done|done].
  destruct (decide (q < max)); [apply IH; by eapply H3|]. split; [done|]. intros r q' [= <- <-]. by eapply H3.
Qed.
Lemma sort_ext f rnd l n : Forall P l → sort_first_n_items c f rnd l n = sort_first_n_items c' f rnd l n.
Proof using Hag. intros H. unfold sort_first_n_items. by destruct (quicksort_ext f rnd 0 0 (length l) n l H) as [<- _]. Qed.
End SortOn.

Lemma sort_first_on {T} (P : T → Prop) `{∀ x, Decision (P x)} cmp f rnd l n : total_preorder_on P cmp → Forall P l →
  match sort_first_n_items cmp f rnd l n with
  | Done l' => l' ≡ₚ l ∧ first_sorted cmp n l' | Failed => False | NoFuel => True end.
Proof.
  intros Ht Hl.
  set (c' := λ x y, if decide (P x) then if decide (P y) then cmp x y else Lt else if decide (P y) then Gt else Eq).
  assert (∀ x y, P x → P y → cmp x y = c' x y) as Hag.
  { intros x y Hx Hy. unfold c'. by rewrite !decide_True. }
  assert (total_preorder c') as Hc'.
  { split.
    - intros x y. unfold c'. destruct (decide (P x)), (decide (P y)); try done. by apply (tpo_flip _ _ Ht).
    - intros x y z. unfold c'. destruct (decide (P x)), (decide (P y)), (decide (P z)); try done. by apply (tpo_trans _ _ Ht). }
  rewrite (sort_ext P cmp c' Hag) by done. pose proof (sort_first_ok c' Hc' f rnd l n) as Hs.
  destruct (sort_first_n_items c' f rnd l n) as [l'| |]; [|done|done]. destruct Hs as [Hp Hs]. split; [done|].
  rewrite <- Hp in Hl. rewrite Forall_forall in Hl.
  intros i j x y Hi Hij Hx Hy. rewrite Hag.
  - by apply (Hs i j).
  - apply Hl. by eapply elem_of_list_lookup_2.
  - apply Hl. by eapply elem_of_list_lookup_2.
Qed.

Lemma one_order_path S name left conn coll decode quirks :
  one_order_per_document S name left conn (same_document coll decode quirks name) →
  one_order_per_document S name left conn (λ a b, path_cmp name coll decode quirks a b = Eq).
Proof.
  intros [H1 H2]. split; [done|]. intros a Ha.
  assert (∀ b, S b → path_cmp name coll decode quirks a b = Eq → same_document coll decode quirks name a b) as He.
  { intros b Hb. unfold path_cmp, same_document. destruct (H1 a Ha) as [v ->], (H1 b Hb) as [w ->]. eauto. }
  destruct (H2 a Ha) as [H|H]; [left|right]; intros b c Hb Hc Hab Hac; apply H; auto.
Qed.
Lemma tpo_sub {T} (P Q : T → Prop) cmp : (∀ x, Q x → P x) → total_preorder_on P cmp → total_preorder_on Q cmp.
Proof. intros Hq [H1 H2]. split; [auto|]. intros x y z Hx Hy Hz. apply H2; auto. Qed.
Lemma lexl_id {T} (c : T → T → comparison) s l1 l2 : (∀ x y, c x y = Eq ↔ x = y) → s ≠ Eq → lexl c s l1 l2 = Eq ↔ l1 = l2.
Proof.
  intros H Hs. revert l2. induction l1 as [|x l1 IH]; intros [|y l2]; cbn; [done|done|by destruct s|].
  destruct (c x y) eqn:E.
  - apply H in E as ->. rewrite IH. split; congruence.
  - split; [done|]. intros [= -> ->]. by rewrite (proj2 (H y y) eq_refl) in E.
  - split; [done|]. intros [= -> ->]. by rewrite (proj2 (H y y) eq_refl) in E.
Qed.
Lemma default_same_path decode p q :
  compare_document_path lex_compare decode false p q = Eq ↔ path_parts p = path_parts q.
Proof.
  unfold compare_document_path. rewrite zip_lexl. apply lexl_id; [|done]. intros x y. apply (cmp_eq lex_compare).
Qed.
Lemma sorted_unique_on {T} `{EqDecision T} cmp (P : T → Prop) l l1 l2 : total_preorder_on P cmp → Forall P l →
  (∀ x y, P x → P y → cmp x y = Eq → x = y) → l1 ≡ₚ l → l2 ≡ₚ l → ascending cmp l1 → ascending cmp l2 → l1 = l2.
Proof.
  intros Ht. revert l l2. induction l1 as [|x l1 IH]; intros l l2 Hl Hid Hp1 Hp2 H1 H2.
  { apply Permutation_nil in Hp1. subst. symmetry in Hp2. by apply Permutation_nil in Hp2. }
  destruct l2 as [|y l2]. { apply Permutation_nil in Hp2. subst. symmetry in Hp1. by apply Permutation_nil in Hp1. }
  rewrite <- Hp1 in Hl. pose proof Hl as Hl'. rewrite Hp1, <- Hp2 in Hl'.
  apply Forall_cons in Hl as [Px Pl], Hl' as [Py Pl'].
  assert (x = y) as <-.
  { destruct (decide (x = y)) as [|Hne]; [done|].
    assert (x ∈ y :: l2) as Hx by (rewrite Hp2, <- Hp1; by left). assert (y ∈ x :: l1) as Hy by (rewrite Hp1, <- Hp2; by left).
    apply elem_of_cons in Hx as [->|[i Hi]%elem_of_list_lookup]; [done|].
    apply elem_of_cons in Hy as [->|[j Hj]%elem_of_list_lookup]; [done|].
    pose proof (H1 0 (Datatypes.S j) x y ltac:(lia) eq_refl Hj) as C1.
    pose proof (H2 0 (Datatypes.S i) y x ltac:(lia) eq_refl Hi) as C2.
    apply Hid; [done..|]. rewrite (tpo_flip _ _ Ht x y) in C2 by done. by destruct (cmp x y). }
  f_equal. apply (IH l1); [done|done|done| | |].
  - apply (Permutation_cons_inv (a := x)). by rewrite Hp2, Hp1.
  - intros i j y z Hij Hy Hz. apply (H1 (Datatypes.S i) (Datatypes.S j)); [lia|done|done].
  - intros i j y z Hij Hy Hz. apply (H2 (Datatypes.S i) (Datatypes.S j)); [lia|done|done].
Qed.
Lemma sort_on_ok {T} `{EqDecision T} (P : T → Prop) cmp f rnd l : total_preorder_on P cmp → Forall P l →
  match sort cmp f rnd l with Done l' => l' ≡ₚ l ∧ ascending cmp l' | Failed => False | NoFuel => True end.
Proof.
  intros Ht Hl. unfold sort. rewrite Forall_forall in Hl.
  pose proof (sort_first_on (λ x, x ∈ l) cmp f rnd l (length l)) as H.
  assert (total_preorder_on (λ x, x ∈ l) cmp) as Ht' by (by apply (tpo_sub P)).
  specialize (H Ht' ltac:(by apply Forall_forall)).
  destruct (sort_first_n_items cmp f rnd l (length l)) as [l'| |]; [|done|done]. destruct H as [Hp Hs]. split; [done|].
  intros i j x y Hij Hi Hj. apply (Hs i j); [|done..]. rewrite <- Hp. by apply lookup_lt_Some in Hi.
Qed.
