(** Proofs about the plans of a conjunction and their results. *)
From stdpp Require Import base list gmap relations.
From Coq Require Import NArith Lia.
From Verif Require Import Types SortMatches Joins JoinsSpec JoinsProofs JoinsProps Conjunction ConjunctionSpec ConjunctionProofs.

(** ** Positions of the variables in a match *)
Definition wfpos (p : gmap nat nat) : Prop :=
  (∀ v i, p !! v = Some i → i < size p) ∧ (∀ i, i < size p → ∃ v, p !! v = Some i).
Lemma lookup_join_pos p r v : join_pos p r !! v = match r !! v with Some i => Some (i + size p) | None => p !! v end.
Proof.
  unfold join_pos. destruct (r !! v) as [i|] eqn:E.
  - apply lookup_union_Some_l. by rewrite lookup_fmap, E.
  - apply lookup_union_r. by rewrite lookup_fmap, E.
Qed.
Lemma join_pos_some p r v : is_Some (join_pos p r !! v) ↔ is_Some (p !! v) ∨ is_Some (r !! v).
Proof.
  rewrite lookup_join_pos. destruct (r !! v) as [i|]; split; eauto.
  intros [H|[? ?]]; done.
Qed.
Lemma size_join_pos p r : p ##ₘ r → size (join_pos p r) = size p + size r.
Proof.
  intros H. unfold join_pos. rewrite map_size_disj_union; [rewrite map_size_fmap; lia|].
  apply map_disjoint_spec. intros i x y. rewrite lookup_fmap. destruct (r !! i) as [z|] eqn:E; [|done].
  intros _ Hp. rewrite map_disjoint_spec in H. exact (H i _ _ Hp E).
Qed.
Lemma wfpos_join p r : p ##ₘ r → wfpos p → wfpos r → wfpos (join_pos p r).
Proof.
  intros Hd [P1 P2] [R1 R2]. rewrite map_disjoint_spec in Hd. split; rewrite size_join_pos by (by apply map_disjoint_spec).
  - intros v i. rewrite lookup_join_pos. destruct (r !! v) as [j|] eqn:E.
    + intros [= <-]. apply R1 in E. lia.
    + intros H. apply P1 in H. lia.
  - intros i Hi. destruct (decide (i < size p)) as [D|D].
    + destruct (P2 i D) as [v Hv]. exists v. rewrite lookup_join_pos. destruct (r !! v) as [j|] eqn:E; [|done].
      destruct (Hd v _ _ Hv E).
    + destruct (R2 (i - size p)) as [v Hv]; [lia|]. exists v. rewrite lookup_join_pos, Hv. f_equal. lia.
Qed.
Lemma wfpos_singleton v : wfpos {[v := 0]}.
Proof.
  split; rewrite map_size_singleton.
  - intros w i [-> <-]%lookup_singleton_Some. lia.
  - intros i Hi. exists v. rewrite lookup_singleton. f_equal. lia.
Qed.
Lemma lookup_assign p g v : assign p g !! v = p !! v ≫= λ i, g !! i.
Proof. unfold assign. by rewrite lookup_omap. Qed.
Lemma assign_some p g v : wfpos p → length g = size p → is_Some (assign p g !! v) ↔ is_Some (p !! v).
Proof.
  intros [P1 _] Hl. rewrite lookup_assign. destruct (p !! v) as [i|] eqn:E; simpl; [|by split; intros [? ?]].
  split; [eauto|]. intros _. apply lookup_lt_is_Some. rewrite Hl. by eapply P1.
Qed.
Lemma assign_value p g m : wfpos p → length g = size p → m ∈ g → ∃ v, assign p g !! v = Some m.
Proof.
  intros [_ P2] Hl Hm. apply elem_of_list_lookup in Hm as [i Hi].
  destruct (P2 i) as [v Hv]; [rewrite <- Hl; by eapply lookup_lt_Some|]. exists v. by rewrite lookup_assign, Hv.
Qed.
Lemma assign_join p r g1 g2 : p ##ₘ r → wfpos p → wfpos r → length g1 = size p → length g2 = size r →
  assign (join_pos p r) (g1 ++ g2) = assign p g1 ∪ assign r g2.
Proof.
  intros Hd [P1 _] Hr L1 L2. rewrite map_disjoint_spec in Hd. apply map_eq. intros v. rewrite lookup_assign, lookup_join_pos.
  destruct (r !! v) as [j|] eqn:E.
  - simpl. rewrite lookup_app_r by lia. replace (j + size p - length g1) with j by lia.
    rewrite lookup_union_r; [by rewrite lookup_assign, E|]. rewrite lookup_assign. destruct (p !! v) eqn:E2; [|done].
    destruct (Hd v _ _ E2 E).
  - destruct (p !! v) as [i|] eqn:E2; simpl.
    + apply P1 in E2 as Hi. rewrite lookup_app_l by lia. symmetry. rewrite lookup_union_l; [by rewrite lookup_assign, E2|].
      by rewrite lookup_assign, E.
    + symmetry. apply lookup_union_None. by rewrite !lookup_assign, E, E2.
Qed.
Lemma assign_inj p g1 g2 : wfpos p → length g1 = size p → length g2 = size p → assign p g1 = assign p g2 → g1 = g2.
Proof.
  intros [_ P2] L1 L2 E. apply list_eq_same_length with (n := size p); [done|done|].
  intros i x y Hi H1 H2. destruct (P2 i Hi) as [v Hv].
  assert (assign p g1 !! v = assign p g2 !! v) as E' by (by rewrite E). rewrite !lookup_assign, Hv in E'. simpl in E'. congruence.
Qed.
Definition restrict (p : gmap nat nat) (a : gmap nat match_) : gmap nat match_ :=
  map_imap (λ v m, match p !! v with Some _ => Some m | None => None end) a.
Lemma lookup_restrict p a v : restrict p a !! v = match p !! v with Some _ => a !! v | None => None end.
Proof. unfold restrict. rewrite map_lookup_imap. destruct (a !! v), (p !! v); done. Qed.

(** ** Joins *)
Section Plan.
Context {Op : Type} (ofilter : Op → match_ → match_ → option bool) (oreflexive : Op → bool)
        (oretrieve : Op → option (match_ → option (list match_))) (oinverse : Op → option Op).
Context (parallel : bool) (loop_buffer index_buffer : nat).
Context (Hlb : 0 < loop_buffer) (Hib : 0 < index_buffer).
Context (q : conj (Op := Op)) (Hq : valid ofilter oreflexive oretrieve oinverse q).
Notation emits := (emits ofilter oreflexive oretrieve parallel loop_buffer index_buffer).

(** Matches for the variables at [p], as far as it is known with the operators [us] and [ops] *)
Definition found_with (us : list (nat * (match_ → option bool))) (i : nat) (m : match_) : Prop :=
  (∃ n s, q_nodes q !! i = Some n ∧ n_optional n = false ∧ n_search n = Some s ∧ IOk [m] ∈ s_items s) ∧
  ∀ u, (i, u) ∈ us → u m = Some true.
Definition holds (o : Op) (l r : nat) (a : gmap nat match_) : Prop :=
  ∀ ml mr, a !! l = Some ml → a !! r = Some mr → ofilter o ml mr = Some true.
Definition sat us (p : gmap nat nat) (ops : list (bin (Op := Op))) (a : gmap nat match_) : Prop :=
  (∀ v, is_Some (a !! v) ↔ is_Some (p !! v)) ∧ (∀ v m, a !! v = Some m → found_with us v m) ∧
  ∀ b, b ∈ ops → holds (b_op b) (b_left b - q_offset q) (b_right b - q_offset q) a.
Definition good (a : gmap nat match_) : Prop := unrestricted ofilter oreflexive q ∨ distinct a.
Definition sem us (ops : list (bin (Op := Op))) (p : gmap nat nat) (out : list item) : Prop :=
  no_error out ∧ (∀ g, g ∈ oks out → length g = size p ∧ sat us p ops (assign p g)) ∧
  (∀ a, sat us p ops a → good a → ∃ g, g ∈ oks out ∧ assign p g = a) ∧
  (no_repetition oretrieve oinverse q → NoDup (oks out)).

(** Another form of an operator of the query *)
Definition form (b : bin (Op := Op)) (o : Op) (l r : nat) : Prop :=
  oreflexive o = oreflexive (b_op b) ∧
  ((l = b_left b - q_offset q ∧ r = b_right b - q_offset q ∧ ∀ ml mr, ofilter o ml mr = ofilter (b_op b) ml mr) ∨
   (r = b_left b - q_offset q ∧ l = b_right b - q_offset q ∧ ∀ ml mr, ofilter o mr ml = ofilter (b_op b) ml mr)).
Lemma form_holds b o l r a : form b o l r → holds o l r a ↔ holds (b_op b) (b_left b - q_offset q) (b_right b - q_offset q) a.
Proof.
  intros [_ [(-> & -> & H)|(-> & -> & H)]]; unfold holds; split; intros Hh ml mr H1 H2; specialize (Hh _ _ H2 H1) || specialize (Hh _ _ H1 H2).
  - by rewrite <- H. - by rewrite H. - by rewrite <- H. - by rewrite H.
Qed.
Lemma form_self b : form b (b_op b) (b_left b - q_offset q) (b_right b - q_offset q).
Proof. split; [done|]. by left. Qed.
Lemma form_inverse b o l r o' : form b o l r → oinverse o = Some o' → form b o' r l.
Proof.
  intros [Hr H] Ho. destruct (valid_inverse _ _ _ _ _ Hq _ _ Ho) as [H1 H2]. split; [congruence|].
  destruct H as [(-> & -> & H)|(-> & -> & H)]; [right|left]; (split_and!; [done|done|]); intros ml mr; rewrite <- H; apply H1.
Qed.

(** The results of a join of [o1] and [o2] *)
Definition joins (op : match_ → match_ → option bool) (refl glob lo : bool) (li ri : nat) (o1 o2 out : list item) : Prop :=
  (∀ g, g ∈ oks out → ∃ g1 g2, g1 ∈ oks o1 ∧ g2 ∈ oks o2 ∧ joinable op refl false li ri g1 g2 ∧ g = if lo then g1 ++ g2 else g2 ++ g1) ∧
  (∀ g1 g2, g1 ∈ oks o1 → g2 ∈ oks o2 → joinable op refl glob li ri g1 g2 → (if lo then g1 ++ g2 else g2 ++ g1) ∈ oks out).
Lemma elem_of_joined op refl glob lo li ri ls rs g :
  g ∈ joined op refl glob lo li ri ls rs ↔
  ∃ g1 g2, g1 ∈ ls ∧ g2 ∈ rs ∧ joinable op refl glob li ri g1 g2 ∧ g = if lo then g1 ++ g2 else g2 ++ g1.
Proof.
  unfold joined. rewrite elem_of_list_fmap. split.
  - intros ([g1 g2] & -> & H). apply elem_of_list_filter in H as [H1 H2]. apply elem_of_pairs in H2 as [H2 H3]. exists g1, g2. done.
  - intros (g1 & g2 & H1 & H2 & H3 & ->). exists (g1, g2). split; [done|]. apply elem_of_list_filter. split; [done|].
    by apply elem_of_pairs.
Qed.
Lemma joined_nodup' op refl glob lo li ri ls rs n k :
  Forall (λ g, length g = n) ls → Forall (λ g, length g = k) rs → NoDup ls → NoDup rs →
  NoDup (joined op refl glob lo li ri ls rs).
Proof.
  intros Hn Hk Hl Hr. unfold joined. rewrite Forall_forall in Hn, Hk.
  apply NoDup_fmap_2_strong; [|by apply NoDup_filter, pairs_nodup].
  intros [a1 a2] [b1 b2] Ha Hb E. apply elem_of_list_filter in Ha as [_ [Ha1 Ha2]%elem_of_pairs], Hb as [_ [Hb1 Hb2]%elem_of_pairs].
  cbn [fst snd] in *. apply Hn in Ha1, Hb1. apply Hk in Ha2, Hb2. destruct lo.
  - apply app_inj_1 in E as [-> ->]; [done|congruence].
  - apply app_inj_1 in E as [-> ->]; [done|congruence].
Qed.

Lemma join_sem us ops b o l r p1 p2 lo glob li ri o1 o2 out :
  b ∈ q_binary q → form b o l r → glob = b_global b →
  p1 ##ₘ p2 → wfpos p1 → wfpos p2 → p1 !! l = Some li → p2 !! r = Some ri →
  (∀ c, c ∈ ops → ∀ p p' x y, (p = p1 ∧ p' = p2) ∨ (p = p2 ∧ p' = p1) →
     p !! (b_left c - q_offset q) = Some x → p' !! (b_right c - q_offset q) = Some y → False) →
  sem us ops p1 o1 → sem us ops p2 o2 →
  no_error out → (no_repetition oretrieve oinverse q → NoDup (oks out)) →
  joins (ofilter o) (oreflexive o) glob lo li ri o1 o2 out →
  sem us (b :: ops) (if lo then join_pos p1 p2 else join_pos p2 p1) out.
Proof.
  intros Hb Hf -> Hd W1 W2 Hl Hr Hcross (_ & S1 & C1 & _) (_ & S2 & C2 & _) Hne Hnd [Js Jc].
  set (p := if lo then join_pos p1 p2 else join_pos p2 p1).
  pose proof Hd as Hd0.
  assert (Hd' : p2 ##ₘ p1) by (by apply map_disjoint_sym).
  assert (∀ v, is_Some (p !! v) ↔ is_Some (p1 !! v) ∨ is_Some (p2 !! v)) as Hp.
  { intros v. unfold p. destruct lo; rewrite join_pos_some; tauto. }
  assert (∀ g1 g2, length g1 = size p1 → length g2 = size p2 →
            assign p (if lo then g1 ++ g2 else g2 ++ g1) = assign p1 g1 ∪ assign p2 g2) as Ha.
  { intros g1 g2 L1 L2. unfold p. destruct lo; rewrite assign_join by done; [done|].
    apply map_union_comm. apply map_disjoint_spec. intros v x y. rewrite !lookup_assign.
    destruct (p2 !! v) eqn:E2, (p1 !! v) eqn:E1; try done. rewrite map_disjoint_spec in Hd. destruct (Hd v _ _ E1 E2). }
  assert (∀ g1 g2 v, length g1 = size p1 → length g2 = size p2 → 
    (assign p1 g1 ∪ assign p2 g2) !! v = match p1 !! v with Some _ => assign p1 g1 !! v | None => assign p2 g2 !! v end) as Hu.
  { intros g1 g2 v L1 L2. destruct (p1 !! v) as [i|] eqn:E1.
    - apply lookup_union_l. rewrite lookup_assign. destruct (p2 !! v) eqn:E2; [|done]. rewrite map_disjoint_spec in Hd. destruct (Hd v _ _ E1 E2).
    - apply lookup_union_r. by rewrite lookup_assign, E1. }
  rewrite map_disjoint_spec in Hd. split_and!; [done| | |done].
  - intros g Hg. destruct (Js g Hg) as (g1 & g2 & G1 & G2 & HJ & ->).
    destruct (S1 _ G1) as [L1 (A1 & F1 & B1)], (S2 _ G2) as [L2 (A2 & F2 & B2)]. split.
    { unfold p. destruct lo; rewrite app_length, size_join_pos by done; lia. }
    rewrite Ha by done. split_and!.
    + intros v. rewrite Hu by done. rewrite Hp. destruct (p1 !! v) as [i|] eqn:E1.
      * rewrite A1, E1. split; eauto.
      * rewrite A2. split; [by right|]. intros [[? ?]|?]; done.
    + intros v m. rewrite Hu by done. destruct (p1 !! v) as [i|]; [apply F1|apply F2].
    + intros c [->|Hc]%elem_of_cons.
      * apply (form_holds _ _ _ _ _ Hf). intros ml mr. rewrite !Hu by done. rewrite Hl.
        destruct (p1 !! r) eqn:E; [destruct (Hd r _ _ E Hr)|]. rewrite !lookup_assign, Hl, Hr. cbn [mbind option_bind].
        intros Hml Hmr. unfold joinable in HJ. rewrite Hml, Hmr in HJ. by destruct HJ.
      * intros ml mr. rewrite !Hu by done.
        destruct (p1 !! (b_left c - q_offset q)) as [x|] eqn:E1, (p1 !! (b_right c - q_offset q)) as [y|] eqn:E2.
        -- by apply B1.
        -- intros _. rewrite lookup_assign. destruct (p2 !! (b_right c - q_offset q)) as [y|] eqn:E3; [|done].
           exfalso. eapply (Hcross c Hc p1 p2); [left; split; reflexivity|exact E1|exact E3].
        -- rewrite lookup_assign. destruct (p2 !! (b_left c - q_offset q)) as [x|] eqn:E3; [|done].
           exfalso. eapply (Hcross c Hc p2 p1); [right; split; reflexivity|exact E3|exact E2].
        -- by apply B2.
  - intros a (A & F & B) Hg.
    assert (∀ p0, (∀ v, is_Some (p0 !! v) → is_Some (p !! v)) → sat us p0 ops (restrict p0 a) ∧ good (restrict p0 a)) as Hres.
    { intros p0 Hp0. split.
      - split_and!.
        + intros v. rewrite lookup_restrict. split.
          * intros [m Hm]. destruct (p0 !! v); [eauto|done].
          * intros Hv. pose proof Hv as Hv'. apply Hp0, A in Hv'. destruct Hv as [i ->]. exact Hv'.
        + intros v m. rewrite lookup_restrict. destruct (p0 !! v); [apply F|done].
        + intros c Hc ml mr. rewrite !lookup_restrict. destruct (p0 !! (b_left c - q_offset q)), (p0 !! (b_right c - q_offset q)); try done.
          apply B. by right.
      - destruct Hg as [Hg|Hg]; [by left|right]. intros i j m. rewrite !lookup_restrict.
        destruct (p0 !! i), (p0 !! j); try done. apply Hg. }
    destruct (Hres p1) as [R1 G1]; [intros v Hv; apply Hp; by left|].
    destruct (Hres p2) as [R2 G2]; [intros v Hv; apply Hp; by right|].
    destruct (C1 _ R1 G1) as (g1 & Hg1 & E1), (C2 _ R2 G2) as (g2 & Hg2 & E2).
    pose proof (S1 _ Hg1) as [L1 _]. pose proof (S2 _ Hg2) as [L2 _].
    exists (if lo then g1 ++ g2 else g2 ++ g1). split.
    + apply Jc; [done|done|].
      assert (∃ ml, a !! l = Some ml ∧ g1 !! li = Some ml) as (ml & Hml & Hml').
      { assert (is_Some (a !! l)) as [ml Hml] by (apply A, Hp; left; eauto). exists ml. split; [done|].
        assert (restrict p1 a !! l = Some ml) as H by (by rewrite lookup_restrict, Hl). rewrite <- E1, lookup_assign, Hl in H. done. }
      assert (∃ mr, a !! r = Some mr ∧ g2 !! ri = Some mr) as (mr & Hmr & Hmr').
      { assert (is_Some (a !! r)) as [mr Hmr] by (apply A, Hp; right; eauto). exists mr. split; [done|].
        assert (restrict p2 a !! r = Some mr) as H by (by rewrite lookup_restrict, Hr). rewrite <- E2, lookup_assign, Hr in H. done. }
      unfold joinable. rewrite Hml', Hmr'.
      assert (ofilter o ml mr = Some true) as Hop.
      { assert (holds o l r a) as Hh by (apply (form_holds b); [done|]; apply B; left). by apply Hh. }
      split; [done|]. destruct Hg as [Hg|Hg].
      * destruct (Hg b Hb) as [Hg1'|[Hg1' Hg2']]; [left|right; right].
        -- destruct Hf as [-> _]. done.
        -- split; [done|]. intros ->. destruct Hf as [_ [(_ & _ & Hf)|(_ & _ & Hf)]]; rewrite Hf in Hop; by apply Hg2' in Hop.
      * assert (l ≠ r) as Hlr. { intros ->. destruct (Hd r _ _ Hl Hr). }
        assert (ml ≠ mr) as Hne'. { intros ->. apply Hlr. by eapply Hg. }
        destruct (b_global b); [right; left|right; right; done]. split_and!; [done| |].
        -- intros Hin. apply (assign_value p2) in Hin as [v Hv]; [|done|done]. rewrite E2, lookup_restrict in Hv.
           destruct (p2 !! v) as [x|] eqn:Ev; [|done]. assert (v = l) as -> by (by eapply Hg). destruct (Hd l _ _ Hl Ev).
        -- intros Hin. apply (assign_value p1) in Hin as [v Hv]; [|done|done]. rewrite E1, lookup_restrict in Hv.
           destruct (p1 !! v) as [x|] eqn:Ev; [|done]. assert (v = r) as -> by (by eapply Hg). destruct (Hd r _ _ Ev Hr).
    + rewrite Ha by done. rewrite E1, E2. apply map_eq. intros v. 
      destruct (p1 !! v) as [i|] eqn:D1.
      * rewrite lookup_union_l; [by rewrite lookup_restrict, D1|]. rewrite lookup_restrict.
        destruct (p2 !! v) eqn:D2; [destruct (Hd v _ _ D1 D2)|done].
      * rewrite lookup_union_r; [|by rewrite lookup_restrict, D1]. rewrite lookup_restrict.
        destruct (p2 !! v) eqn:D2; [done|]. destruct (a !! v) eqn:D; [|done].
        assert (is_Some (p !! v)) as H by (apply A; eauto). apply Hp in H as [[? ?]|[? ?]]; congruence.
Qed.

(** ** Filters *)
Lemma elem_of_filter_binary op li ri l g :
  g ∈ oks (filter_binary op li ri l) ↔ g ∈ oks l ∧ ∃ a b, g !! li = Some a ∧ g !! ri = Some b ∧ op a b = Some true.
Proof.
  unfold filter_binary. rewrite oks_mjoin. split.
  - intros H. apply elem_of_list_join in H as (x & H1 & H2). apply elem_of_list_fmap in H2 as (y & -> & H2).
    apply elem_of_list_fmap in H2 as (i & -> & Hi). destruct i as [g'| |]; [|inversion H1..].
    destruct (g' !! li) as [a|] eqn:Ea, (g' !! ri) as [b|] eqn:Eb; try (by inversion H1).
    destruct (op a b) as [[]|] eqn:Eo; try (by inversion H1). apply elem_of_list_singleton in H1 as ->.
    split; [by apply elem_of_oks|]. eauto.
  - intros [H (a & b & Ha & Hb & Ho)]. apply elem_of_list_join. exists [g]. split; [by apply elem_of_list_singleton|].
    apply elem_of_list_fmap. exists [IOk g]. split; [done|]. apply elem_of_list_fmap. exists (IOk g).
    split; [by rewrite Ha, Hb, Ho|]. by apply elem_of_oks.
Qed.
Lemma elem_of_filter_unary u i l g :
  g ∈ oks (filter_unary u i l) ↔ g ∈ oks l ∧ ∃ a, g !! i = Some a ∧ u a = Some true.
Proof.
  unfold filter_unary. rewrite oks_mjoin. split.
  - intros H. apply elem_of_list_join in H as (x & H1 & H2). apply elem_of_list_fmap in H2 as (y & -> & H2).
    apply elem_of_list_fmap in H2 as (it & -> & Hi). destruct it as [g'| |]; [|inversion H1..].
    destruct (g' !! i) as [a|] eqn:Ea; try (by inversion H1).
    destruct (u a) as [[]|] eqn:Eo; try (by inversion H1). apply elem_of_list_singleton in H1 as ->.
    split; [by apply elem_of_oks|]. eauto.
  - intros [H (a & Ha & Ho)]. apply elem_of_list_join. exists [g]. split; [by apply elem_of_list_singleton|].
    apply elem_of_list_fmap. exists [IOk g]. split; [done|]. apply elem_of_list_fmap. exists (IOk g).
    split; [by rewrite Ha, Ho|]. by apply elem_of_oks.
Qed.
Lemma mjoin_sublist {A B} (f : A → list B) (h : list A) (k : list B) :
  NoDup k → (∃ e : A → option B, k = omap e h ∧ ∀ x, x ∈ h → f x = [] ∨ ∃ y, e x = Some y ∧ f x = [y]) → NoDup (mjoin (f <$> h)).
Proof.
  intros Hk (e & -> & He). induction h as [|x h IH]; [constructor|].
  change (NoDup (f x ++ mjoin (f <$> h))). assert (He' : ∀ x, x ∈ h → f x = [] ∨ ∃ y, e x = Some y ∧ f x = [y]) by (intros z Hz; apply He; by right).
  destruct (He x) as [E|(y & Ey & E)]; [by left| |]; rewrite E.
  - cbn [omap list_omap] in Hk. simpl. destruct (e x); [apply NoDup_cons in Hk as [_ Hk]|]; auto.
  - cbn [omap list_omap] in Hk. rewrite Ey in Hk. apply NoDup_cons in Hk as [Hn Hk]. cbn [app]. constructor; [|auto].
    intros Hin. apply elem_of_list_join in Hin as (z & H1 & H2). apply elem_of_list_fmap in H2 as (w & -> & Hw).
    apply Hn. apply elem_of_list_omap. exists w. split; [done|]. destruct (He' w Hw) as [E2|(y' & Ey' & E2)]; rewrite E2 in H1; [inversion H1|].
    by apply elem_of_list_singleton in H1 as ->.
Qed.
Lemma filter_binary_nodup op li ri l : NoDup (oks l) → NoDup (oks (filter_binary op li ri l)).
Proof.
  intros H. unfold filter_binary. rewrite oks_mjoin, <- list_fmap_compose. eapply mjoin_sublist; [exact H|].
  eexists. split; [reflexivity|]. intros [g| |] _; [|by left..]. cbn. destruct (g !! li), (g !! ri); try (by left).
  destruct (op _ _) as [[]|]; try (by left). right. by exists g.
Qed.
Lemma filter_unary_nodup u i l : NoDup (oks l) → NoDup (oks (filter_unary u i l)).
Proof.
  intros H. unfold filter_unary. rewrite oks_mjoin, <- list_fmap_compose. eapply mjoin_sublist; [exact H|].
  eexists. split; [reflexivity|]. intros [g| |] _; [|by left..]. cbn. destruct (g !! i); try (by left).
  destruct (u _) as [[]|]; try (by left). right. by exists g.
Qed.
Lemma filter_binary_no_error op li ri l : total op → has_operand li l → has_operand ri l → no_error l → no_error (filter_binary op li ri l).
Proof.
  intros Ht Hl Hr [E1 E2]. unfold filter_binary.
  assert (∀ x, x ∈ filter_binary op li ri l → (∃ g, x = IOk g) ∨ x ∈ l) as H; [|].
  { intros x Hx. apply elem_of_list_join in Hx as (y & H1 & H2). apply elem_of_list_fmap in H2 as (i & -> & Hi).
    destruct i as [g| |]; [|apply elem_of_list_singleton in H1 as ->; by right..].
    apply (has_operand_in _ _ _ Hl) in Hi as Hi1. apply (has_operand_in _ _ _ Hr) in Hi as Hi2.
    apply lookup_lt_is_Some_2 in Hi1 as [a Ha], Hi2 as [b Hb]. rewrite Ha, Hb in H1.
    destruct (op a b) as [[]|] eqn:Eo; [apply elem_of_list_singleton in H1 as ->; eauto|inversion H1|by apply Ht in Eo]. }
  split; intros Hx; apply H in Hx as [[g ?]|?]; done.
Qed.
Lemma filter_unary_no_error u i l : (∀ m, u m ≠ None) → has_operand i l → no_error l → no_error (filter_unary u i l).
Proof.
  intros Ht Hl [E1 E2]. unfold filter_unary.
  assert (∀ x, x ∈ filter_unary u i l → (∃ g, x = IOk g) ∨ x ∈ l) as H; [|].
  { intros x Hx. apply elem_of_list_join in Hx as (y & H1 & H2). apply elem_of_list_fmap in H2 as (it & -> & Hi).
    destruct it as [g| |]; [|apply elem_of_list_singleton in H1 as ->; by right..].
    apply (has_operand_in _ _ _ Hl) in Hi as Hi1.
    apply lookup_lt_is_Some_2 in Hi1 as [a Ha]. rewrite Ha in H1.
    destruct (u a) as [[]|] eqn:Eo; [apply elem_of_list_singleton in H1 as ->; eauto|inversion H1|by apply Ht in Eo]. }
  split; intros Hx; apply H in Hx as [[g ?]|?]; done.
Qed.
Lemma sem_operand us ops p out v i : wfpos p → sem us ops p out → p !! v = Some i → has_operand i out.
Proof.
  intros [P1 _] (_ & S & _) Hv. apply Forall_forall. intros g Hg. apply S in Hg as [-> _]. by eapply P1.
Qed.
Lemma filter_sem us ops b o l r p li ri out :
  form b o l r → wfpos p → p !! l = Some li → p !! r = Some ri → sem us ops p out →
  sem us (b :: ops) p (filter_binary (ofilter o) li ri out).
Proof.
  intros Hf Hw Hl Hr Hs. pose proof Hs as (Hn & S & C & D). split_and!.
  - apply filter_binary_no_error; [apply (valid_filter _ _ _ _ _ Hq)|by eapply sem_operand|by eapply sem_operand|done].
  - intros g Hg. apply elem_of_filter_binary in Hg as [Hg (x & y & Hx & Hy & Ho)].
    destruct (S g Hg) as (L & A & F & B). split; [done|]. split_and!; [done|done|].
    intros c [->|Hc]%elem_of_cons; [|by apply B]. apply (form_holds _ _ _ _ _ Hf). intros ml mr.
    rewrite !lookup_assign, Hl, Hr. cbn [mbind option_bind]. congruence.
  - intros a (A & F & B) Hg. destruct (C a) as (g & Hin & Ha); [split_and!; [done|done|]; intros c Hc; apply B; by right|done|].
    exists g. split; [|done]. apply elem_of_filter_binary. split; [done|]. destruct (S g Hin) as [L _].
    assert (is_Some (g !! li)) as [x Hx] by (apply lookup_lt_is_Some; rewrite L; by eapply Hw).
    assert (is_Some (g !! ri)) as [y Hy] by (apply lookup_lt_is_Some; rewrite L; by eapply Hw).
    exists x, y. split_and!; [done|done|]. assert (holds o l r a) as Hh by (apply (form_holds b); [done|]; apply B; left).
    apply Hh; rewrite <- Ha, lookup_assign, ?Hl, ?Hr; done.
  - intros Hr'. by apply filter_binary_nodup, D.
Qed.
Lemma unary_sem us p u i j out :
  (∀ m, u m ≠ None) → wfpos p → p !! i = Some j → sem us [] p out →
  sem ((i, u) :: us) [] p (filter_unary u j out).
Proof.
  intros Ht Hw Hi Hs. pose proof Hs as (Hn & S & C & D). split_and!.
  - apply filter_unary_no_error; [done|by eapply sem_operand|done].
  - intros g Hg. apply elem_of_filter_unary in Hg as [Hg (x & Hx & Ho)].
    destruct (S g Hg) as (L & A & F & B). split; [done|]. split_and!; [done| |].
    + intros v m Hv. destruct (F v m Hv) as [F1 F2]. split; [done|]. intros u' [[= -> ->]|Hu]%elem_of_cons; [|by apply F2].
      rewrite lookup_assign, Hi in Hv. cbn [mbind option_bind] in Hv. congruence.
    + intros c Hc. inversion Hc.
  - intros a (A & F & B) Hg. destruct (C a) as (g & Hin & Ha); [|done|].
    { split_and!; [done| |intros c Hc; inversion Hc]. intros v m Hv. destruct (F v m Hv) as [F1 F2]. split; [done|].
      intros u' Hu. apply F2. by right. }
    exists g. split; [|done]. apply elem_of_filter_unary. split; [done|]. destruct (S g Hin) as [L _].
    assert (is_Some (g !! j)) as [x Hx] by (apply lookup_lt_is_Some; rewrite L; by eapply Hw).
    exists x. split; [done|]. assert (a !! i = Some x) as Hax by (by rewrite <- Ha, lookup_assign, Hi).
    apply (F i x Hax). left.
  - intros Hr. by apply filter_unary_nodup, D.
Qed.

(** ** Execution nodes *)
Definition Sem us ops (e : exec (Op := Op)) : Prop := (∃ out, emits e out) ∧ ∀ out, emits e out → sem us ops (node_pos e) out.
Definition query_search (nr : nat) (s : search) : Prop := ∃ n, q_nodes q !! nr = Some n ∧ n_optional n = false ∧ n_search n = Some s.
Definition searches_ok (e : exec (Op := Op)) : Prop := ∀ nr s, as_nodesearch e = Some (nr, s) → query_search nr s.

Lemma oks_singletons (rs : list match_) : oks ((λ m, IOk [m]) <$> rs) = (λ m, [m]) <$> rs.
Proof. induction rs as [|m rs IH]; [done|]. cbn. f_equal. exact IH. Qed.
Lemma query_search_ok nr s : query_search nr s → search_ok ofilter oretrieve (uses oinverse q) s.
Proof.
  intros (n & H1 & H2 & H3). destruct (valid_search _ _ _ _ _ Hq _ _ H1 H2) as (s' & H4 & H5). congruence.
Qed.
Lemma search_sem nr s : query_search nr s → Sem [] [] (ESearch nr s).
Proof.
  intros Hs. split; [eexists; constructor|]. intros out He. inversion He; subst. cbn [node_pos].
  destruct (query_search_ok _ _ Hs) as (rs & E & _). rewrite E. split_and!.
  - apply no_error_ok, Forall_fmap, Forall_true. done.
  - intros g. rewrite oks_singletons. intros (m & -> & Hm)%elem_of_list_fmap. split; [by rewrite map_size_singleton|].
    assert (∀ v, assign {[nr := 0]} [m] !! v = if decide (nr = v) then Some m else None) as Ha.
    { intros v. rewrite lookup_assign. case_decide as D; [subst; by rewrite lookup_singleton|by rewrite lookup_singleton_ne]. }
    split_and!.
    + intros v. rewrite Ha. case_decide as D; [subst; rewrite lookup_singleton|rewrite lookup_singleton_ne by done];
        split; intros [? ?]; eauto; discriminate.
    + intros v m'. rewrite Ha. case_decide as D; [|done]. intros [= <-]. subst v. split; [|intros u Hu; inversion Hu].
      destruct Hs as (n & H1 & H2 & H3). exists n, s. split_and!; [done|done|done|]. rewrite E. apply elem_of_list_fmap. eauto.
    + intros b Hb. inversion Hb.
  - intros a (A & F & _) _. assert (is_Some (a !! nr)) as [m Hm] by (apply A; rewrite lookup_singleton; eauto).
    exists [m]. split.
    + rewrite oks_singletons. apply elem_of_list_fmap. exists m. split; [done|].
      destruct (F nr m Hm) as [(n & s' & H1 & H2 & H3 & H4) _]. destruct Hs as (n' & H1' & H2' & H3').
      assert (s' = s) as -> by congruence. rewrite E in H4. apply elem_of_list_fmap in H4 as (m' & [= ->] & H4). done.
    + apply map_eq. intros v. rewrite lookup_assign. destruct (decide (nr = v)) as [<-|D].
      * rewrite lookup_singleton, Hm. done.
      * rewrite lookup_singleton_ne by done. simpl. destruct (a !! v) as [x|] eqn:Ex; [|done].
        assert (is_Some (({[nr := 0]} : gmap nat nat) !! v)) as [? H] by (apply A; eauto). by rewrite lookup_singleton_ne in H.
  - intros [Hr _]. destruct Hs as (n & H1 & H2 & H3). destruct (Hr _ _ _ H1 H3) as [Hnd _]. rewrite E in Hnd.
    rewrite oks_singletons. apply NoDup_fmap_1 in Hnd. apply (NoDup_fmap_2 (λ m : match_, [m])); done.
Qed.
Lemma submseteq_nodup {A} (l k : list A) : l ⊆+ k → NoDup k → NoDup l.
Proof. intros (k' & E)%submseteq_Permutation H. rewrite E in H. by apply NoDup_app in H as (? & _ & _). Qed.

(** Both operands are in different execution nodes *)
Definition separate (ops : list (bin (Op := Op))) (p1 p2 : gmap nat nat) : Prop :=
  ∀ c, c ∈ ops → ∀ p p' x y, (p = p1 ∧ p' = p2) ∨ (p = p2 ∧ p' = p1) →
     p !! (b_left c - q_offset q) = Some x → p' !! (b_right c - q_offset q) = Some y → False.
Lemma nested_sem us ops b o l r lo li ri e1 e2 :
  b ∈ q_binary q → form b o l r → node_pos e1 ##ₘ node_pos e2 → wfpos (node_pos e1) → wfpos (node_pos e2) →
  node_pos e1 !! l = Some li → node_pos e2 !! r = Some ri → separate ops (node_pos e1) (node_pos e2) →
  Sem us ops e1 → Sem us ops e2 → Sem us (b :: ops) (ENested o (b_global b) lo li ri e1 e2).
Proof.
  intros Hb Hf Hd W1 W2 Hl Hr Hc [[x1 X1] S1] [[x2 X2] S2]. split.
  - destruct parallel eqn:Ep.
    + destruct (parallel_loop_spec (ofilter o) (oreflexive o) (b_global b) lo loop_buffer li ri x1 x2 Hlb) as [[out Ho] _].
      exists out. econstructor; [exact X1|exact X2|]. exact Ho.
    + destruct (sequential_loop_spec (ofilter o) (oreflexive o) (b_global b) lo li ri x1 x2) as [[out Ho] _].
      exists out. econstructor; [exact X1|exact X2|]. exact Ho.
  - intros out He. inversion He as [| | |o' glob lo' li' ri' l' r' ol or out' E1 E2 Hj|]; subst.
    pose proof (S1 _ E1) as M1. pose proof (S2 _ E2) as M2.
    pose proof (sem_operand _ _ _ _ _ _ W1 M1 Hl) as O1. pose proof (sem_operand _ _ _ _ _ _ W2 M2 Hr) as O2.
    cbn [node_pos].
    assert (Ht : total (ofilter o)) by apply (valid_filter _ _ _ _ _ Hq).
    assert (joined (ofilter o) (oreflexive o) (b_global b) lo li ri (oks ol) (oks or) ⊆+ oks out ∧
            oks out ⊆+ joined (ofilter o) (oreflexive o) false lo li ri (oks ol) (oks or) ∧ no_error out) as (B1 & B2 & Hne).
    { destruct parallel.
      - destruct (parallel_loop_spec (ofilter o) (oreflexive o) (b_global b) lo loop_buffer li ri ol or Hlb) as [_ H].
        destruct (H _ Hj) as [H1 H2]. destruct (H2 O1 O2) as [_ H3]. rewrite H1. split_and!; [done| |apply H3; [apply M1|apply M2|done]].
        unfold joined. apply fmap_submseteq. apply sublist_submseteq.
        clear. induction (pairs (oks ol) (oks or)) as [|x t IH]; [done|]. rewrite !filter_cons.
        case_decide as D1; [rewrite decide_True by (by eapply joinable_weaken); by constructor|].
        case_decide as D2; [by constructor|done].
      - destruct (sequential_loop_bounds _ _ _ _ _ _ _ _ _ Hj) as [H1 H2]. split_and!; [done|done|].
        eapply sequential_loop_no_error; [exact Hj|done|done|apply M1|apply M2|done]. }
    eapply join_sem; try done.
    + intros Hnr. eapply submseteq_nodup; [exact B2|]. destruct M1 as (_ & M1 & _ & N1), M2 as (_ & M2 & _ & N2).
      eapply joined_nodup'; [..|by apply N1|by apply N2]; apply Forall_forall; intros g Hg; [by apply M1|by apply M2].
    + split.
      * intros g Hg. apply elem_of_joined. by eapply elem_of_submseteq.
      * intros g1 g2 G1 G2 HJ. eapply elem_of_submseteq; [|exact B1]. apply elem_of_joined. eauto 10.
Qed.
Lemma index_sem us ops b o l r li f e1 nr s :
  b ∈ q_binary q → form b o l r → uses oinverse q o → query_search nr s → oretrieve o = Some f → node_pos e1 ##ₘ {[nr := 0]} → wfpos (node_pos e1) →
  node_pos e1 !! l = Some li → nr = r → separate ops (node_pos e1) {[nr := 0]} →
  Sem us ops e1 → Sem us ops (ESearch nr s) → Sem us (b :: ops) (EIndex o (b_global b) li e1 nr s).
Proof.
  intros Hb Hf Huse Hs Hre Hd W1 Hl -> Hc [[x1 X1] S1] [_ S2].
  specialize (S2 (s_items s) ltac:(constructor)). cbn [node_pos] in S2.
  destruct (query_search_ok _ _ Hs) as (rs & E & Hct & Hsa & Hra). specialize (Hra _ _ Huse Hre).
  split.
  - pose proof (S1 _ X1) as M1. pose proof (sem_operand _ _ _ _ _ _ W1 M1 Hl) as O1.
    destruct parallel eqn:Ep.
    + destruct (pij_ends (oreflexive o) (b_global b) li f (s_keys s) (s_cond s) (s_const s) index_buffer x1 Hib) as [out Ho].
      exists out. econstructor; [exact X1|exact Hre|]. exact Ho.
    + eexists. econstructor; [exact X1|exact Hre|]. apply ij_yields; [done| |reflexivity]. by eapply retrieves_all.
  - intros out He. inversion He as [| | | |o' glob li' l' nr' s' f' ol out' E1 E2 Hj]; subst.
    assert (f' = f) as -> by congruence.
    pose proof (S1 _ E1) as M1. pose proof (sem_operand _ _ _ _ _ _ W1 M1 Hl) as O1. cbn [node_pos].
    assert (yields (ij_next (oreflexive o) (b_global b) li f (s_keys s) (s_cond s) (s_const s)) (ij_new ol) out ∨
      ∃ size, 0 < size ∧ pij_yields (oreflexive o) (b_global b) li f (s_keys s) (s_cond s) (s_const s) size ol out) as Hy.
    { destruct parallel; [right; eauto|by left]. }
    destruct (C32_index_join (ofilter o) _ _ _ _ _ _ _ rs ol out O1 Hct Hra Hsa Hy) as [J Hne].
    specialize (Hne ltac:(apply M1)).
    change (join_pos (node_pos e1) {[r := 0]}) with (if true then join_pos (node_pos e1) {[r := 0]} else join_pos {[r := 0]} (node_pos e1)).
    eapply join_sem with (o1 := ol) (o2 := s_items s) (ri := 0); try done.
    + apply wfpos_singleton.
    + apply lookup_singleton.
    + intros Hnr. pose proof Hnr as [Hr1 Hr2]. destruct Hs as (n & H1 & H2 & H3). destruct (Hr1 _ _ _ H1 H3) as [Hnd Hk]. rewrite E in Hnd.
      apply NoDup_fmap_1 in Hnd. erewrite (C32_index_join_once (ofilter o)); [apply joined_nodup; [by apply M1|done]| | | | | | | | |exact Hy]; try done.
      * intros m nodes Hm. eapply Hr2; [exact Huse|exact Hre|exact Hm].
      * by apply M1.
    + rewrite E. unfold joins. rewrite oks_singletons. split.
      * intros g Hg. apply J in Hg. apply elem_of_joined in Hg as (g1 & g2 & G1 & G2 & G3 & G4). exists g1, g2. split_and!; [done|done| |done].
        by eapply joinable_weaken.
      * intros g1 g2 G1 G2 HJ. apply J. apply elem_of_joined. eauto 10.
Qed.

(** ** Planning *)
Context (outer_left : exec (Op := Op) → exec (Op := Op) → bool) (switch : bin (Op := Op) → bool).
Notation create_join := (create_join oretrieve oinverse outer_left).
Notation add_binary_operator := (add_binary_operator oretrieve oinverse outer_left switch).
Notation add_binary := (add_binary oretrieve oinverse outer_left switch).
Notation make_plan := (make_exec_plan_with_order oretrieve oinverse outer_left switch).

Lemma separate_sym ops p1 p2 : separate ops p1 p2 → separate ops p2 p1.
Proof. intros H c Hc p p' x y Hp. eapply (H c Hc). tauto. Qed.
Lemma create_join_sem us ops b o l r li ri e1 e2 :
  b ∈ q_binary q → form b o l r → uses oinverse q o → node_pos e1 ##ₘ node_pos e2 → wfpos (node_pos e1) → wfpos (node_pos e2) →
  node_pos e1 !! l = Some li → node_pos e2 !! r = Some ri → separate ops (node_pos e1) (node_pos e2) →
  searches_ok e1 → searches_ok e2 →
  Sem us ops e1 → Sem us ops e2 →
  let e := create_join o (b_global b) e1 e2 li ri in
  Sem us (b :: ops) e ∧ wfpos (node_pos e) ∧ searches_ok e ∧ 
  (∀ v, is_Some (node_pos e !! v) ↔ is_Some (node_pos e1 !! v) ∨ is_Some (node_pos e2 !! v)) ∧
  (component_nr e = component_nr e1 ∨ component_nr e = component_nr e2).
Proof.
  intros Hb Hf Huse Hd W1 W2 Hl Hr Hc K1 K2 S1 S2 e. unfold e, Conjunction.create_join. clear e.
  assert (Hd' : node_pos e2 ##ₘ node_pos e1) by (by apply map_disjoint_sym).
  set (nested := ENested o (b_global b) (outer_left e1 e2) li ri e1 e2).
  assert (Sem us (b :: ops) nested ∧ wfpos (node_pos nested) ∧ searches_ok nested ∧
     (∀ v, is_Some (node_pos nested !! v) ↔ is_Some (node_pos e1 !! v) ∨ is_Some (node_pos e2 !! v)) ∧
     (component_nr nested = component_nr e1 ∨ component_nr nested = component_nr e2)) as Hnested.
  { split_and!.
    - by eapply nested_sem.
    - unfold nested. cbn [node_pos]. destruct (outer_left e1 e2); by apply wfpos_join.
    - intros nr s H. discriminate.
    - intros v. unfold nested. cbn [node_pos]. destruct (outer_left e1 e2); rewrite join_pos_some; tauto.
    - unfold nested. cbn [component_nr]. destruct (outer_left e1 e2); auto. }
  assert (∀ nr s o', as_nodesearch e1 = Some (nr, s) → oinverse o = Some o' → is_Some (oretrieve o') →
     let e := EIndex o' (b_global b) ri e2 nr s in
     Sem us (b :: ops) e ∧ wfpos (node_pos e) ∧ searches_ok e ∧ 
     (∀ v, is_Some (node_pos e !! v) ↔ is_Some (node_pos e1 !! v) ∨ is_Some (node_pos e2 !! v)) ∧
     (component_nr e = component_nr e1 ∨ component_nr e = component_nr e2)) as Hinv.
  { intros nr s o' Es Eo [f Ef] e. destruct e1 as [nr' s'| | | |]; try discriminate. cbn in Es. injection Es as -> ->.
    cbn [node_pos] in *. apply lookup_singleton_Some in Hl as Hl'. destruct Hl' as [-> <-]. split_and!.
    - eapply (index_sem _ _ _ _ r l); try done; [by eapply form_inverse|by eapply uses_inverse|by apply (K1 l)|by apply separate_sym].
    - unfold e. cbn [node_pos]. apply wfpos_join; [done|done|]. done.
    - intros nr' s' H. discriminate.
    - intros v. unfold e. cbn [node_pos]. rewrite join_pos_some. tauto.
    - right. done. }
  assert (∀ nr s, as_nodesearch e2 = Some (nr, s) → is_Some (oretrieve o) →
     let e := EIndex o (b_global b) li e1 nr s in
     Sem us (b :: ops) e ∧ wfpos (node_pos e) ∧ searches_ok e ∧ 
     (∀ v, is_Some (node_pos e !! v) ↔ is_Some (node_pos e1 !! v) ∨ is_Some (node_pos e2 !! v)) ∧
     (component_nr e = component_nr e1 ∨ component_nr e = component_nr e2)) as Hidx.
  { intros nr s Es [f Ef] e. destruct e2 as [nr' s'| | | |]; try discriminate. cbn in Es. injection Es as -> ->.
    cbn [node_pos] in *. apply lookup_singleton_Some in Hr as Hr'. destruct Hr' as [-> <-]. split_and!.
    - eapply (index_sem _ _ _ _ l r); try done. by apply (K2 r).
    - unfold e. cbn [node_pos]. by apply wfpos_join.
    - intros nr' s' H. discriminate.
    - intros v. unfold e. cbn [node_pos]. by rewrite join_pos_some.
    - left. done. }
  assert (let e := match as_nodesearch e1 with
                   | Some (nr, s) => match oinverse o with
                       | Some o' => if oretrieve o' then EIndex o' (b_global b) ri e2 nr s else nested
                       | None => nested end
                   | None => nested end in
     Sem us (b :: ops) e ∧ wfpos (node_pos e) ∧ searches_ok e ∧ 
     (∀ v, is_Some (node_pos e !! v) ↔ is_Some (node_pos e1 !! v) ∨ is_Some (node_pos e2 !! v)) ∧
     (component_nr e = component_nr e1 ∨ component_nr e = component_nr e2)) as Hsecond.
  { destruct (as_nodesearch e1) as [[nr s]|] eqn:E1; [|exact Hnested]. destruct (oinverse o) as [o'|] eqn:Eo; [|exact Hnested].
    destruct (oretrieve o') as [f|] eqn:Ef; [|exact Hnested]. apply (Hinv nr s o'); [done|done|]. rewrite Ef. eauto. }
  cbv zeta in *. destruct (as_nodesearch e2) as [[nr s]|] eqn:E2; [|exact Hsecond].
  destruct (oretrieve o) as [f|] eqn:Ef; [|exact Hsecond]. apply Hidx; [done|eauto].
Qed.

Record inv us ops (st : state (Op := Op)) : Prop := Inv {
  inv_dom : ∀ v, is_Some (n2c st !! v) ↔ variable q v;
  inv_exec : ∀ v c, n2c st !! v = Some c → ∃ e, c2e st !! c = Some e ∧ is_Some (node_pos e !! v);
  inv_comp : ∀ c e, c2e st !! c = Some e →
    component_nr e = c ∧ n2c st !! c = Some c ∧ wfpos (node_pos e) ∧ (∀ v, is_Some (node_pos e !! v) → n2c st !! v = Some c) ∧
    searches_ok e ∧ Sem us ops e;
  inv_ops : ∀ b, b ∈ ops → n2c st !! (b_left b - q_offset q) = n2c st !! (b_right b - q_offset q) }.

Lemma inv_disjoint us ops st c1 c2 e1 e2 : inv us ops st → c2e st !! c1 = Some e1 → c2e st !! c2 = Some e2 → c1 ≠ c2 →
  node_pos e1 ##ₘ node_pos e2.
Proof.
  intros I H1 H2 Hne. apply map_disjoint_spec. intros v x y Hx Hy.
  destruct (inv_comp _ _ _ I _ _ H1) as (_ & _ & _ & N1 & _). destruct (inv_comp _ _ _ I _ _ H2) as (_ & _ & _ & N2 & _).
  apply Hne. assert (n2c st !! v = Some c1) as A1 by (apply N1; eauto). assert (n2c st !! v = Some c2) as A2 by (apply N2; eauto).
  congruence.
Qed.

Lemma sem_unaffected us ops b p out :
  ¬ (is_Some (p !! (b_left b - q_offset q)) ∧ is_Some (p !! (b_right b - q_offset q))) →
  sem us ops p out → sem us (b :: ops) p out.
Proof.
  intros Hn (N & S & C & D). split_and!; [done| | |done].
  - intros g Hg. destruct (S g Hg) as (L & A & F & B). split; [done|]. split_and!; [done|done|].
    intros c [->|Hc]%elem_of_cons; [|by apply B]. intros ml mr H1 H2. exfalso. apply Hn. split; apply A; eauto.
  - intros a (A & F & B). apply C. split_and!; [done|done|]. intros c Hc. apply B. by right.
Qed.
Lemma oriented_form b : ∃ o l r, oriented oinverse switch q b = (o, l, r) ∧ form b o l r ∧ (b ∈ q_binary q → uses oinverse q o).
Proof.
  unfold oriented. destruct (oinverse (b_op b)) as [o'|] eqn:E.
  - destruct (switch b).
    + eexists _, _, _. split_and!; [done| |]; [eapply form_inverse; [|exact E]; apply form_self|]. intros Hb. eapply uses_inverse; [by apply uses_operator|done].
    + eexists _, _, _. split_and!; [done|apply form_self|apply uses_operator].
  - eexists _, _, _. split_and!; [done|apply form_self|apply uses_operator].
Qed.
Lemma bound_variable v : bound_node q v → variable q (v - q_offset q).
Proof. intros (i & -> & Hi). by replace (q_offset q + i - q_offset q) with i by lia. Qed.
Lemma form_variables b o l r : b ∈ q_binary q → form b o l r → variable q l ∧ variable q r.
Proof.
  intros Hb Hf. destruct (valid_binary _ _ _ _ _ Hq b Hb) as [H1%bound_variable H2%bound_variable].
  destruct Hf as [_ [(-> & -> & _)|(-> & -> & _)]]; done.
Qed.
Lemma form_operands (P : nat → Prop) b o l r : form b o l r →
  P (b_left b - q_offset q) ∧ P (b_right b - q_offset q) ↔ P l ∧ P r.
Proof. intros [_ [(-> & -> & _)|(-> & -> & _)]]; tauto. Qed.
Lemma form_equal {A} (f : nat → A) b o l r : form b o l r → f l = f r → f (b_left b - q_offset q) = f (b_right b - q_offset q).
Proof. intros [_ [(-> & -> & _)|(-> & -> & _)]]; done. Qed.

Lemma add_binary_operator_inv us ops st b : inv us ops st → b ∈ q_binary q →
  ∃ st', add_binary_operator q st b = Some st' ∧ inv us (b :: ops) st'.
Proof.
  intros I Hb. destruct (oriented_form b) as (o & l & r & Eo & Hf & Huse). specialize (Huse Hb). unfold Conjunction.add_binary_operator. rewrite Eo.
  destruct (form_variables _ _ _ _ Hb Hf) as [Vl Vr].
  apply (inv_dom _ _ _ I) in Vl as [cl Hcl], Vr as [cr Hcr]. rewrite Hcl, Hcr. cbn [mbind option_bind].
  destruct (inv_exec _ _ _ I _ _ Hcl) as (el & Hel & [il Hil]). destruct (inv_exec _ _ _ I _ _ Hcr) as (er & Her & [ir Hir]).
  rewrite Hel. cbn [mbind option_bind]. rewrite Hil. cbn [mbind option_bind].
  destruct (inv_comp _ _ _ I _ _ Hel) as (Cl & Nl & Wl & Ml & Kl & Sl).
  destruct (inv_comp _ _ _ I _ _ Her) as (Cr & Nr & Wr & Mr & Kr & Sr).
  destruct (decide (cl = cr)) as [<-|Hne].
  - assert (er = el) as -> by congruence. rewrite Hir. cbn [mbind option_bind]. eexists. split; [reflexivity|].
    cbn [component_nr]. rewrite Cl, !update_same. constructor; cbn [n2c c2e].
    + apply (inv_dom _ _ _ I).
    + intros v c Hv. destruct (decide (c = cl)) as [->|Hc].
      * eexists. rewrite lookup_insert. split; [done|]. cbn [node_pos].
        destruct (inv_exec _ _ _ I _ _ Hv) as (e & He & Hin). congruence.
      * rewrite lookup_insert_ne, lookup_delete_ne by done. by apply (inv_exec _ _ _ I).
    + intros c e He. destruct (decide (c = cl)) as [->|Hc].
      * rewrite lookup_insert in He. injection He as <-. cbn [component_nr node_pos]. split_and!; [done|done|done|done| |].
        -- intros nr s H. discriminate.
        -- destruct Sl as [[out Ho] Sl]. split; [eexists; constructor; exact Ho|]. intros out' He'. inversion He'; subst.
           cbn [node_pos]. eapply filter_sem; try done. by apply Sl.
      * rewrite lookup_insert_ne, lookup_delete_ne in He by done. destruct (inv_comp _ _ _ I _ _ He) as (H1 & H2 & H3 & H4 & H5 & H6 & H7).
        split_and!; try done. split; [done|]. intros out Ho. apply sem_unaffected; [|by apply H7].
        rewrite (form_operands (λ v, is_Some (node_pos e !! v)) b o l r Hf). intros [Hl' _]. apply H4 in Hl'. congruence.
    + intros c [->|Hc]%elem_of_cons; [|by apply (inv_ops _ _ _ I)]. apply (form_equal (λ v, n2c st !! v) b o l r Hf). congruence.
  - rewrite lookup_delete_ne by done. rewrite Her. cbn [mbind option_bind]. rewrite Hir. cbn [mbind option_bind].
    eexists. split; [reflexivity|].
    assert (Hdis : node_pos el ##ₘ node_pos er) by (by eapply inv_disjoint).
    assert (Hsep : separate ops (node_pos el) (node_pos er)).
    { intros c Hc p p' x y Hp Hx Hy. pose proof (inv_ops _ _ _ I c Hc) as E.
      destruct Hp as [[-> ->]|[-> ->]].
      - rewrite (Ml (b_left c - q_offset q)), (Mr (b_right c - q_offset q)) in E by eauto. congruence.
      - rewrite (Mr (b_left c - q_offset q)), (Ml (b_right c - q_offset q)) in E by eauto. congruence. }
    destruct (create_join_sem us ops b o l r il ir el er Hb Hf Huse Hdis Wl Wr Hil Hir Hsep Kl Kr Sl Sr) as (S & W & K & P & C).
    set (e := create_join o (b_global b) el er il ir) in *. set (c := component_nr e) in *. rewrite Cl, Cr in C.
    assert (∀ v, update_components (update_components (n2c st) cl c) cr c !! v =
                 (λ x, if decide (x = cl ∨ x = cr) then c else x) <$> n2c st !! v) as Hup.
    { intros v. rewrite !lookup_update. destruct (n2c st !! v) as [x|]; [|done]. cbn [fmap option_fmap option_map]. f_equal.
      repeat case_decide; try done; naive_solver. }
    constructor; cbn [n2c c2e].
    + intros v. rewrite Hup, fmap_is_Some. apply (inv_dom _ _ _ I).
    + intros v d. rewrite Hup. destruct (n2c st !! v) as [x|] eqn:Ev; [|done]. cbn [fmap option_fmap option_map]. intros [= <-].
      destruct (inv_exec _ _ _ I _ _ Ev) as (ex & Hex & Hin). case_decide as D.
      * exists e. rewrite lookup_insert. split; [done|]. apply P. destruct D as [-> | ->]; [left|right]; congruence.
      * exists ex. split; [|done]. rewrite lookup_insert_ne, !lookup_delete_ne by naive_solver. done.
    + intros d ex Hd. destruct (decide (d = c)) as [->|Hdc].
      * rewrite lookup_insert in Hd. injection Hd as <-. split_and!; try done.
        -- rewrite Hup. destruct C as [C|C]; rewrite C; [rewrite Nl|rewrite Nr]; cbn [fmap option_fmap option_map]; by rewrite decide_True by auto.
        -- intros v Hv. rewrite Hup. apply P in Hv as [Hv|Hv]; [rewrite (Ml v Hv)|rewrite (Mr v Hv)]; cbn [fmap option_fmap option_map];
             by rewrite decide_True by auto.
      * rewrite lookup_insert_ne in Hd by done. apply lookup_delete_Some in Hd as [D1 [D2 Hd]%lookup_delete_Some].
        destruct (inv_comp _ _ _ I _ _ Hd) as (H1 & H2 & H3 & H4 & H5 & H6 & H7).
        split_and!; try done.
        -- rewrite Hup, H2. cbn [fmap option_fmap option_map]. by rewrite decide_False by naive_solver.
        -- intros v Hv. rewrite Hup, (H4 v Hv). cbn [fmap option_fmap option_map]. by rewrite decide_False by naive_solver.
        -- split; [done|]. intros out Ho. apply sem_unaffected; [|by apply H7].
           rewrite (form_operands (λ v, is_Some (node_pos ex !! v)) b o l r Hf). intros [Hl' _]. apply H4 in Hl'. congruence.
    + intros d [->|Hd]%elem_of_cons.
      * apply (form_equal (λ v, update_components (update_components (n2c st) cl c) cr c !! v) b o l r Hf).
        rewrite !Hup, Hcl, Hcr. cbn [fmap option_fmap option_map]. by rewrite !decide_True by auto.
      * rewrite !Hup. by rewrite (inv_ops _ _ _ I d Hd).
Qed.
Lemma add_binary_inv us order ops st :
  inv us ops st → (∀ i, i ∈ order → i < length (q_binary q)) →
  ∃ st' ops', add_binary q order st = Some st' ∧ inv us ops' st' ∧
    ∀ b, b ∈ ops' ↔ b ∈ ops ∨ ∃ i, i ∈ order ∧ q_binary q !! i = Some b.
Proof.
  revert ops st. induction order as [|i order IH]; intros ops st I Ho.
  - exists st, ops. split_and!; [done|done|]. intros b. split; [by left|]. intros [H|(i & H & _)]; [done|inversion H].
  - cbn [Conjunction.add_binary]. destruct (lookup_lt_is_Some_2 (q_binary q) i) as [b Hb]; [apply Ho; left|].
    rewrite Hb. cbn [mbind option_bind].
    destruct (add_binary_operator_inv us ops st b I) as (st1 & E1 & I1); [by eapply elem_of_list_lookup_2|].
    rewrite E1. cbn [mbind option_bind].
    destruct (IH _ _ I1) as (st2 & ops2 & E2 & I2 & H2); [intros j Hj; apply Ho; by right|].
    exists st2, ops2. split_and!; [done|done|]. intros c. rewrite H2, elem_of_cons. split.
    + intros [[->|H]|(j & Hj & H)]; [right; exists i; split; [left|done]|by left|right; exists j; split; [by right|done]].
    + intros [H|(j & [->|Hj]%elem_of_cons & H)]; [auto|left; left; congruence|right; eauto].
Qed.

(** The nodes and their unary operators *)
Lemma add_nodes_spec ns i (st st' : state (Op := Op)) failed : add_nodes i ns st = (st', failed) →
  (∀ k n, ns !! k = Some n → n_optional n = false → is_Some (n_search n)) →
  failed = false ∧
  (∀ v, n2c st' !! v = match (if decide (i <= v) then ns !! (v - i) else None) with
                       | Some n => if n_optional n then n2c st !! v else Some v | None => n2c st !! v end) ∧
  (∀ v, c2e st' !! v = match (if decide (i <= v) then ns !! (v - i) else None) with
                       | Some n => if n_optional n then c2e st !! v else (λ s, ESearch v s) <$> n_search n | None => c2e st !! v end).
Proof.
  revert i st. induction ns as [|n ns IH]; intros i st E Hs; cbn [add_nodes] in E.
  - injection E as <- <-. split_and!; [done| |]; intros v; case_decide; done.
  - assert (Hs' : ∀ k n, ns !! k = Some n → n_optional n = false → is_Some (n_search n)) by (intros k; apply (Hs (S k))).
    assert (∀ v, (if decide (i <= v) then (n :: ns) !! (v - i) else None) =
                 if decide (v = i) then Some n else if decide (S i <= v) then ns !! (v - S i) else None) as Hl.
    { intros v. case_decide; case_decide; try case_decide; try lia; subst; [by rewrite Nat.sub_diag| |done].
      by replace (v - i) with (S (v - S i)) by lia. }
    destruct (n_optional n) eqn:Eo.
    + destruct (IH _ _ E Hs') as (H1 & H2 & H3). split_and!; [done| |]; intros v; rewrite Hl, ?H2, ?H3;
        (destruct (decide (v = i)) as [->|D]; [rewrite Eo; by rewrite decide_False by lia|done]).
    + destruct (Hs 0 n eq_refl Eo) as [s Es]. rewrite Es in E.
      destruct (IH _ _ E Hs') as (H1 & H2 & H3). split_and!; [done| |]; intros v; rewrite Hl, ?H2, ?H3; cbn [n2c c2e];
        (destruct (decide (v = i)) as [->|D]; [rewrite Eo; rewrite decide_False by lia; rewrite lookup_insert, ?Es; done|]);
        by rewrite !lookup_insert_ne by done.
Qed.
Lemma nodes_inv : ∃ st, add_nodes 0 (q_nodes q) (State ∅ ∅) = (st, false) ∧ inv [] [] st ∧
  ∀ c e, c2e st !! c = Some e → node_pos e = {[c := 0]}.
Proof.
  destruct (add_nodes 0 (q_nodes q) (State ∅ ∅)) as [st failed] eqn:E.
  destruct (add_nodes_spec _ _ _ _ _ E) as (-> & Hn & Hc).
  { intros k n Hk Ho. destruct (valid_search _ _ _ _ _ Hq _ _ Hk Ho) as (s & -> & _). eauto. }
  assert (∀ v, n2c st !! v = match q_nodes q !! v with Some n => if n_optional n then None else Some v | None => None end) as Hn'.
  { intros v. rewrite Hn. rewrite decide_True by lia. rewrite Nat.sub_0_r. cbn [n2c]. rewrite lookup_empty. done. }
  assert (∀ v, c2e st !! v = match q_nodes q !! v with Some n => if n_optional n then None else ESearch v <$> n_search n | None => None end) as Hc'.
  { intros v. rewrite Hc. rewrite decide_True by lia. rewrite Nat.sub_0_r. cbn [c2e]. rewrite lookup_empty. done. }
  assert (∀ c e, c2e st !! c = Some e → ∃ s, e = ESearch c s ∧ query_search c s ∧ n2c st !! c = Some c) as Hce.
  { intros c e. rewrite Hc', Hn'. destruct (q_nodes q !! c) as [n|] eqn:En; [|done]. destruct (n_optional n) eqn:Eo; [done|].
    destruct (n_search n) as [s|] eqn:Es; [|done]. intros [= <-]. exists s. split_and!; [done| |done]. exists n. done. }
  exists st. split; [done|]. split.
  - constructor.
    + intros v. rewrite Hn'. unfold variable. destruct (q_nodes q !! v) as [n|] eqn:En.
      * destruct (n_optional n) eqn:Eo; split; [by intros [? ?]|intros (n' & [= <-] & ?); congruence|eauto|eauto].
      * split; [by intros [? ?]|]. intros (n & ? & _). done.
    + intros v c. rewrite Hn'. destruct (q_nodes q !! v) as [n|] eqn:En; [|done]. destruct (n_optional n) eqn:Eo; [done|]. intros [= <-].
      rewrite Hc', En, Eo. destruct (valid_search _ _ _ _ _ Hq _ _ En Eo) as (s & -> & _). eexists. split; [done|]. cbn [node_pos].
      rewrite lookup_singleton. eauto.
    + intros c e He. destruct (Hce c e He) as (s & -> & Hs & Hcc). split_and!; [done|done|apply wfpos_singleton| | |by apply search_sem].
      * intros v [x Hx]. cbn [node_pos] in Hx. apply lookup_singleton_Some in Hx as [<- _]. done.
      * intros nr s' [= <- <-]. done.
    + intros b Hb. inversion Hb.
  - intros c e He. destruct (Hce c e He) as (s & -> & _). done.
Qed.
Lemma add_unary_inv us0 us st :
  inv us0 [] st → (∀ c e, c2e st !! c = Some e → node_pos e = {[c := 0]}) → (∀ i u, (i, u) ∈ us → variable q i ∧ ∀ m, u m ≠ None) →
  ∃ st' us', add_unary us st = Some st' ∧ inv us' [] st' ∧ ∀ x, x ∈ us' ↔ x ∈ us0 ∨ x ∈ us.
Proof.
  revert us0 st. induction us as [|[i u] us IH]; intros us0 st I Hp Hu.
  - exists st, us0. split_and!; [done|done|]. intros x. split; [by left|]. intros [H|H]; [done|inversion H].
  - cbn [add_unary]. destruct (Hu i u) as [Vi Ht]; [left|]. apply (inv_dom _ _ _ I) in Vi as [c Hc].
    destruct (inv_exec _ _ _ I _ _ Hc) as (e & He & [x Hx]).
    pose proof Hx as Hx'. rewrite (Hp _ _ He) in Hx'. apply lookup_singleton_Some in Hx' as [-> <-].
    rewrite He. cbn [mbind option_bind].
    destruct (inv_comp _ _ _ I _ _ He) as (Ce & Ne & We & Me & Ke & [[out Ho] Se]).
    destruct (IH ((i, u) :: us0) (State (n2c st) (<[i:=EUnary u 0 e]> (delete i (c2e st))))) as (st' & us' & E' & I' & H').
    + constructor; cbn [n2c c2e].
      * apply (inv_dom _ _ _ I).
      * intros v c Hv. destruct (decide (c = i)) as [->|D].
        -- eexists. rewrite lookup_insert. split; [done|]. cbn [node_pos]. destruct (inv_exec _ _ _ I _ _ Hv) as (e' & He' & Hin). congruence.
        -- rewrite lookup_insert_ne, lookup_delete_ne by done. by apply (inv_exec _ _ _ I).
      * intros c e' He'. destruct (decide (c = i)) as [->|D].
        -- rewrite lookup_insert in He'. injection He' as <-. cbn [component_nr node_pos]. split_and!; [done|done|done|done|intros nr s H; discriminate|].
           split; [eexists; constructor; exact Ho|]. intros out' He'. inversion He'; subst. cbn [node_pos].
           apply unary_sem; [done|done|done|by apply Se].
        -- rewrite lookup_insert_ne, lookup_delete_ne in He' by done.
           destruct (inv_comp _ _ _ I _ _ He') as (H1 & H2 & H3 & H4 & H5 & H6 & H7). split_and!; try done. split; [done|].
           intros out' Ho'. destruct (H7 _ Ho') as (N & S & C & Dd). 
           assert (∀ a, sat us0 (node_pos e') [] a ↔ sat ((i, u) :: us0) (node_pos e') [] a) as Hsat.
           { intros a. split; intros (A & F & B); (split_and!; [done| |done]); intros v m Hv; destruct (F v m Hv) as [F1 F2]; (split; [done|]).
             - intros u' [[= -> ->]|Hin]%elem_of_cons; [|by apply F2]. exfalso. apply D.
               assert (is_Some (node_pos e' !! i)) as Hi by (apply A; eauto). apply H4 in Hi. congruence.
             - intros u' Hin. apply F2. by right. }
           split_and!; [done| | |done].
           ++ intros g Hg. destruct (S g Hg) as [L Hs]. split; [done|]. by apply Hsat.
           ++ intros a Ha. apply C. by apply Hsat.
      * intros b Hb. inversion Hb.
    + cbn [c2e]. intros c e' He'. destruct (decide (c = i)) as [->|D].
      * rewrite lookup_insert in He'. injection He' as <-. cbn [node_pos]. by apply Hp.
      * rewrite lookup_insert_ne, lookup_delete_ne in He' by done. by apply Hp.
    + intros j u' Hj. apply Hu. by right.
    + exists st', us'. split_and!; [done|done|]. intros y. rewrite H', !elem_of_cons. tauto.
Qed.

(** ** Plans *)
Lemma connected_component us ops st v w : inv us ops st → (∀ b, b ∈ q_binary q → b ∈ ops) → connected q v w →
  n2c st !! (v - q_offset q) = n2c st !! (w - q_offset q).
Proof.
  intros I Ho H. induction H as [|v x w H1 H2 IH]; [done|]. rewrite <- IH.
  destruct H1 as [(b & Hb & _ & <- & <- & _)|(b & Hb & _ & <- & <- & _)]; [|symmetry]; by apply (inv_ops _ _ _ I), Ho.
Qed.
Theorem plan_spec order : order ≡ₚ seq 0 (length (q_binary q)) → all_connected q →
  ∃ e, make_plan q order = Some e ∧ (∃ out, emits e out) ∧
    ∀ out, emits e out → no_error out ∧ wfpos (node_pos e) ∧ (∀ v, is_Some (node_pos e !! v) ↔ variable q v) ∧
      (∀ g, g ∈ oks out → length g = size (node_pos e) ∧ solution ofilter q (assign (node_pos e) g)) ∧
      (∀ a, solution ofilter q a → good a → ∃ g, g ∈ oks out ∧ assign (node_pos e) g = a) ∧
      (no_repetition oretrieve oinverse q → NoDup (oks out)).
Proof.
  intros Hord Hcon. unfold make_exec_plan_with_order. destruct nodes_inv as (st0 & E0 & I0 & P0). rewrite E0.
  destruct (add_unary_inv [] (q_unary q) st0 I0 P0) as (st1 & us & E1 & I1 & Hus).
  { apply (valid_unary _ _ _ _ _ Hq). }
  rewrite E1. cbn [mbind option_bind].
  destruct (add_binary_inv us order [] st1 I1) as (st2 & ops & E2 & I2 & Hops).
  { intros i Hi. rewrite Hord in Hi. apply elem_of_seq in Hi. lia. }
  rewrite E2. cbn [mbind option_bind].
  assert (∀ b, b ∈ ops ↔ b ∈ q_binary q) as Hops'.
  { intros b. rewrite Hops. split.
    - intros [H|(i & _ & H)]; [inversion H|by eapply elem_of_list_lookup_2].
    - intros [i Hi]%elem_of_list_lookup. right. exists i. split; [|done]. rewrite Hord. apply elem_of_seq. apply lookup_lt_Some in Hi. lia. }
  assert (∀ u, u ∈ us ↔ u ∈ q_unary q) as Hus'.
  { intros u. rewrite Hus. split; [|by right]. intros [H|H]; [inversion H|done]. }
  destruct (valid_some _ _ _ _ _ Hq) as [i0 Hi0]. pose proof Hi0 as Hi0'. apply (inv_dom _ _ _ I2) in Hi0' as [c Hc].
  assert (∀ v, variable q v → n2c st2 !! v = Some c) as Hall.
  { intros v Hv. rewrite <- Hc. replace v with (q_offset q + v - q_offset q) by lia. replace i0 with (q_offset q + i0 - q_offset q) by lia.
    eapply connected_component; [exact I2|intros b; apply Hops'|]. apply Hcon; [by exists v|by exists i0]. }
  destruct (inv_exec _ _ _ I2 _ _ Hc) as (e & He & _).
  destruct (inv_comp _ _ _ I2 _ _ He) as (Ce & Ne & We & Me & Ke & [Hex Se]).
  assert (variable q c) as Vc by (apply (inv_dom _ _ _ I2); eauto).
  assert (head (omap (λ c, c2e st2 !! c) (seq 0 (length (q_nodes q)))) = Some e) as ->.
  { assert (∀ d e', c2e st2 !! d = Some e' → d = c) as Hd.
    { intros d e' Hd. destruct (inv_comp _ _ _ I2 _ _ Hd) as (_ & Nd & _). rewrite Hall in Nd; [congruence|].
      apply (inv_dom _ _ _ I2). eauto. }
    assert (c ∈ seq 0 (length (q_nodes q))) as Hin.
    { destruct Vc as (n & Hn & _). apply lookup_lt_Some in Hn. apply elem_of_seq. lia. }
    clear -Hd Hin He. induction (seq 0 (length (q_nodes q))) as [|x l IH]; [inversion Hin|]. cbn [omap list_omap].
    destruct (c2e st2 !! x) as [ex|] eqn:Ex.
    - apply Hd in Ex as Ex'. subst x. cbn. congruence.
    - apply elem_of_cons in Hin as [->|Hin]; [congruence|]. by apply IH. }
  assert (∀ v, is_Some (node_pos e !! v) ↔ variable q v) as Hdom.
  { intros v. split.
    - intros Hv. apply Me in Hv. apply (inv_dom _ _ _ I2). eauto.
    - intros Hv. apply Hall in Hv. destruct (inv_exec _ _ _ I2 _ _ Hv) as (e' & He' & Hin). congruence. }
  exists e. split; [done|]. split; [done|]. intros out Ho. destruct (Se _ Ho) as (N & S & C & D). split_and!; [done|done|done| | |done].
  - intros g Hg. destruct (S g Hg) as (L & A & F & B). split; [done|]. split_and!.
    + intros i. rewrite A. apply Hdom.
    + intros i m Hm. destruct (F i m Hm) as [F1 F2]. split; [done|]. intros u Hu. by apply F2, Hus'.
    + intros b Hb. destruct (valid_binary _ _ _ _ _ Hq b Hb) as [V1%bound_variable V2%bound_variable].
      apply Hdom, A in V1 as [ml Hml], V2 as [mr Hmr]. exists ml, mr. split_and!; [done|done|]. apply B; [by apply Hops'|done|done].
  - intros a (A & F & B) Hg. apply C; [|done]. split_and!.
    + intros v. rewrite A. symmetry. apply Hdom.
    + intros v m Hm. destruct (F v m Hm) as [F1 F2]. split; [done|]. intros u Hu. by apply F2, Hus'.
    + intros b Hb ml mr Hml Hmr. apply Hops' in Hb. destruct (B b Hb) as (ml' & mr' & H1 & H2 & H3). congruence.
Qed.
End Plan.
