From Coq Require Import NArith QArith Qround Lqa.
From stdpp Require Import base list gmap fin_maps sorting.
From Verif Require Import KeySer KeySerSpec SortedMap Types TypesProofs SymbolTable AnnoMem AnnoSpec AnnoMemProofs AnnoMemQueries ListExtra SymTabIface Histogram HistogramSpec.
Local Open Scope nat_scope.

(** * Positions *)
Lemma hist_loop_spec sampled nb : 2 ≤ nb → nb ≤ length sampled → ∀ n i pos frac,
  pos * (nb - 1) + frac = i * (length sampled - 1) → frac < nb - 1 → i + n ≤ nb →
  ∃ l, hist_loop n sampled nb ((length sampled - 1) / (nb - 1)) ((length sampled - 1) mod (nb - 1)) pos frac = Some l ∧
    length l = n ∧ ∀ j, j < n → l !! j = sampled !! ((i + j) * (length sampled - 1) / (nb - 1)).
Proof.
  intros H2 Hnb. set (L := length sampled - 1). set (m := nb - 1).
  assert (L = m * (L / m) + L mod m) as HL by (apply Nat.div_mod; lia).
  assert (L mod m < m) as Hm by (apply Nat.mod_upper_bound; lia).
  induction n as [|n IH]; intros i pos frac Hp Hf Hi; simpl.
  { exists []. split_and!; [done|done|lia]. }
  assert (pos = i * L / m) as Hpos.
  { apply (Nat.div_unique _ _ _ frac); [lia|]. lia. }
  assert (pos ≤ L) as HpL.
  { rewrite Hpos. apply Nat.div_le_upper_bound; [lia|]. nia. }
  destruct (lookup_lt_is_Some_2 sampled pos) as [x Hx]; [unfold L in *; lia|].
  rewrite Hx. simpl. fold m.
  assert (∃ l, (if m <=? frac + L mod m
     then hist_loop n sampled nb (L / m) (L mod m) (pos + L / m + 1) (frac + L mod m - m)
     else hist_loop n sampled nb (L / m) (L mod m) (pos + L / m) (frac + L mod m)) = Some l ∧
     length l = n ∧ ∀ j, j < n → l !! j = sampled !! ((S i + j) * L / m)) as (l & -> & Hl & Hj).
  { destruct (Nat.leb_spec m (frac + L mod m)).
    - apply IH; [|lia|lia]. simpl. nia.
    - apply IH; [|lia|lia]. simpl. nia. }
  simpl. exists (x :: l). split_and!; [done|simpl; lia|].
  intros [|j] Hjn; simpl.
  - by rewrite Nat.add_0_r, <- Hpos.
  - rewrite Hj by lia. f_equal. f_equal. lia.
Qed.

Lemma hist_bounds_spec buckets sampled : ∃ h, hist_bounds buckets sampled = Some h ∧
  ((buckets = 0 ∨ length sampled < 2) → h = []) ∧
  (0 < buckets → 2 ≤ length sampled →
   length h = length sampled `min` (buckets + 1) ∧
   (∀ i, i < length h → h !! i = sampled !! (i * (length sampled - 1) / (length h - 1)) ∧
         i * (length sampled - 1) / (length h - 1) < length sampled) ∧
   h !! 0 = sampled !! 0 ∧ last h = last sampled).
Proof.
  unfold hist_bounds, num_hist_bounds. set (n := length sampled).
  destruct (Nat.ltb_spec n (buckets + 1)) as [Hn|Hn].
  - destruct (Nat.leb_spec 2 n) as [H2|H2].
    + destruct (hist_loop_spec sampled n H2 (le_n _) n 0 0 0) as (l & El & Hl & Hj); [lia|lia|lia|].
      exists l. split; [done|]. split; [intros ?; exfalso; lia|]. intros _ _. rewrite Hl. fold n in Hj.
      split; [lia|]. split.
      { intros i Hi. split; [by apply Hj|]. rewrite Nat.div_mul by lia. lia. }
      split; [rewrite Hj by lia; f_equal; apply Nat.div_0_l; lia|].
      rewrite !last_lookup, Hl. fold n. rewrite Hj by lia. f_equal. simpl. rewrite Nat.div_mul; lia.
    + exists []. split; [done|]. split; [done|intros; exfalso; lia].
  - destruct (Nat.leb_spec 2 (buckets + 1)) as [H2|H2].
    + destruct (hist_loop_spec sampled (buckets + 1) H2 Hn (buckets + 1) 0 0 0) as (l & El & Hl & Hj); [lia|lia|lia|].
      exists l. split; [done|]. split; [intros ?; exfalso; lia|]. intros _ _. rewrite Hl. fold n in Hj.
      split; [lia|]. split.
      { intros i Hi. split; [by apply Hj|]. apply Nat.div_lt_upper_bound; [lia|]. nia. }
      split.
      { rewrite Hj by lia. f_equal. simpl. apply Nat.div_0_l. lia. }
      rewrite !last_lookup, Hl. fold n. rewrite Hj by lia. f_equal. simpl.
      rewrite Nat.mul_comm. replace (pred (buckets + 1)) with (buckets + 1 - 1) by lia. rewrite Nat.div_mul; lia.
    + exists []. split; [done|]. split; [done|intros; exfalso; lia].
Qed.

Lemma lex_le_trans : Transitive str_not_above.
Proof.
  intros a b c. unfold str_not_above. intros H1 H2 H3.
  destruct (lex_compare a b) eqn:E1; [| |done].
  - apply (cmp_eq lex_compare) in E1. by subst.
  - destruct (lex_compare b c) eqn:E2; [| |done].
    + apply (cmp_eq lex_compare) in E2. subst. congruence.
    + pose proof (cmp_trans lex_compare a b c E1 E2). congruence.
Qed.
Lemma sorted_lookup_le (l : list bytes) i j a b : StronglySorted str_not_above l → i ≤ j →
  l !! i = Some a → l !! j = Some b → str_not_above a b.
Proof.
  intros Hs. revert i j. induction Hs as [|x l Hs IH Hf]; intros i j Hij Ha Hb; [done|].
  destruct i as [|i], j as [|j]; simpl in *; [|  |lia|].
  - injection Ha as ->. injection Hb as ->. unfold str_not_above. by rewrite lex_refl.
  - injection Ha as ->. rewrite Forall_forall in Hf. apply Hf. by eapply elem_of_list_lookup_2.
  - apply (IH i j); [lia|done|done].
Qed.
Lemma sorted_of_lookup (l : list bytes) : (∀ i j a b, i ≤ j → l !! i = Some a → l !! j = Some b → str_not_above a b) →
  StronglySorted str_not_above l.
Proof.
  induction l as [|x l IH]; intros Hl; constructor.
  - apply IH. intros i j a b ? ? ?. apply (Hl (S i) (S j)); [lia|done|done].
  - apply Forall_forall. intros y [j Hj]%elem_of_list_lookup. apply (Hl 0 (S j)); [lia|done|done].
Qed.
Lemma hist_sorted buckets sampled h : hist_bounds buckets sampled = Some h → StronglySorted str_not_above sampled →
  StronglySorted str_not_above h ∧ ∀ v, v ∈ h → v ∈ sampled.
Proof.
  intros E Hs. destruct (hist_bounds_spec buckets sampled) as (h' & E' & Hn & Hy). rewrite E in E'. injection E' as <-.
  destruct (decide (buckets = 0 ∨ length sampled < 2)) as [Hd|Hd].
  { rewrite (Hn Hd). split; [constructor|]. by intros v ?%elem_of_nil. }
  destruct Hy as (_ & Hi & _); [lia|lia|]. split.
  - apply sorted_of_lookup. intros i j a b Hij Ha Hb.
    pose proof (lookup_lt_Some _ _ _ Ha). pose proof (lookup_lt_Some _ _ _ Hb).
    rewrite (proj1 (Hi i ltac:(lia))) in Ha. rewrite (proj1 (Hi j ltac:(lia))) in Hb.
    refine (sorted_lookup_le _ _ _ _ _ Hs _ Ha Hb).
    destruct (decide (length h = 1)) as [->|]; [simpl; lia|].
    apply Nat.div_le_mono; [lia|]. nia.
  - intros v [i Hv]%elem_of_list_lookup. pose proof (lookup_lt_Some _ _ _ Hv).
    rewrite (proj1 (Hi i ltac:(lia))) in Hv. by eapply elem_of_list_lookup_2.
Qed.

(** * Buckets *)
Lemma str_le_true a b : str_le a b = true ↔ str_not_above a b.
Proof. unfold str_le, str_not_above. destruct (lex_compare a b); naive_solver. Qed.
Lemma bucket_matches_le lower upper h : bucket_matches lower upper h ≤ length h - 1.
Proof.
  induction h as [|b [|e h] IH]; simpl; [lia|lia|]. simpl in IH. destruct (_ && _); lia.
Qed.
Lemma str_total a b : str_not_above a b ∨ str_not_above b a.
Proof.
  unfold str_not_above. rewrite (cmp_anti lex_compare a b). destruct (lex_compare a b); simpl; [left|left|right]; done.
Qed.
(** A value between the first and the last bound lies in a bucket. *)
Lemma bucket_found lower upper h v a b : h !! 0 = Some a → last h = Some b → 2 ≤ length h →
  str_not_above a v → str_not_above v b → str_not_above lower v → str_not_above v upper →
  1 ≤ bucket_matches lower upper h.
Proof.
  intros Ha Hb Hl Hav Hvb Hlv Hvu. revert a Ha Hav Hb Hl.
  induction h as [|x [|y h] IH]; intros a Ha Hav Hb Hl; [simpl in *; lia|simpl in *; lia|].
  simpl in Ha. injection Ha as ->. change (bucket_matches lower upper (a :: y :: h)) with
    ((if str_le a upper && str_le lower y then 1 else 0) + bucket_matches lower upper (y :: h)).
  destruct (str_total v y) as [Hvy|Hvy].
  - rewrite (proj2 (str_le_true a upper)); [|by eapply lex_le_trans].
    rewrite (proj2 (str_le_true lower y)); [simpl; lia|]. eapply lex_le_trans; done.
  - destruct h as [|z h].
    + simpl in Hb. injection Hb as ->.
      rewrite (proj2 (str_le_true a upper)); [|by eapply lex_le_trans].
      rewrite (proj2 (str_le_true lower b)); [simpl; lia|]. eapply lex_le_trans; done.
    + assert (1 ≤ bucket_matches lower upper (y :: z :: h)); [|lia].
      apply (IH y); [done|done|done|simpl; lia].
Qed.

(** * The estimates *)
Lemma bucket_count_zero lower upper h : length h < 2 → bucket_matches lower upper h = 0.
Proof. destruct h as [|? [|? ?]]; simpl; [done|done|lia]. Qed.

Section estimates.
Context {T : Type} `{Countable T} (tcmp : T → T → comparison) `{!CmpOrder tcmp}.
Implicit Types s : @am T _ _.
Implicit Types M : gmap (T * anno_key) bytes.
Implicit Types hs : gmap nat (list bytes).

(** contribution of a key *)
Definition the_histo s hs key : list bytes := default [] (st_get_symbol (anno_keys s) key ≫= λ k, hs !! k).
Lemma guess_step_eq s leak M hs lower upper u b c key : inv tcmp s leak M →
  guess_step s hs lower upper (u, b, c) key =
   (u + count_key M key,
    b + (if decide (count_key M key = 0) then 0 else length (the_histo s hs key) - 1),
    c + (if decide (count_key M key = 0) then 0 else bucket_matches lower upper (the_histo s hs key))).
Proof.
  intros I. unfold guess_step, the_histo. pose proof (i_core _ _ _ _ I) as C. rewrite (c_sizes _ _ _ _ _ _ _ _ C).
  destruct (decide (count_key M key = 0)) as [Hz|Hz]; [rewrite Hz; f_equal; [f_equal|]; lia|].
  destruct (st_get_symbol (anno_keys s) key ≫= λ k, hs !! k) as [h|]; simpl.
  - destruct h as [|x [|y h]]; [f_equal; [f_equal|]; simpl; lia|f_equal; [f_equal|]; simpl; lia|done].
  - f_equal; [f_equal|]; lia.
Qed.
Lemma guess_fold s leak M hs lower upper keys : inv tcmp s leak M → ∀ u b c,
  fold_left (guess_step s hs lower upper) keys (u, b, c) =
   (u + sum_list (count_key M <$> keys),
    b + sum_list ((λ key, if decide (count_key M key = 0) then 0 else length (the_histo s hs key) - 1) <$> keys),
    c + sum_list ((λ key, if decide (count_key M key = 0) then 0 else bucket_matches lower upper (the_histo s hs key)) <$> keys)).
Proof.
  intros I. induction keys as [|k keys IH]; intros u b c.
  - simpl. f_equal; [f_equal|]; lia.
  - cbn [fold_left]. rewrite (guess_step_eq _ _ _ _ _ _ _ _ _ _ I), IH. rewrite !fmap_cons.
    cbn [sum_list sum_list_with]. unfold sum_list. cbn [sum_list_with id]. f_equal; [f_equal|]; lia.
Qed.
Lemma qualified_keys_spec s leak M ns name : inv tcmp s leak M →
  NoDup (qualified_keys s ns name) ∧
  ∀ key, (∃ i, is_Some (M !! (i, key))) → (key ∈ qualified_keys s ns name ↔ key_matches ns name key).
Proof.
  intros I. unfold qualified_keys, key_matches. destruct ns as [ns|].
  - split; [apply NoDup_singleton|]. intros [n m] _. rewrite elem_of_list_singleton. simpl. naive_solver.
  - destruct (qnames_lemma _ _ _ _ name I) as [Hnd Hk]. split; [done|]. intros key Hex. rewrite Hk. naive_solver.
Qed.
Lemma qualified_keys_matches s leak M ns name key : inv tcmp s leak M → key ∈ qualified_keys s ns name → key_matches ns name key.
Proof.
  intros I. unfold qualified_keys, key_matches. destruct ns as [ns|].
  - intros ->%elem_of_list_singleton. done.
  - destruct (qnames_lemma _ _ _ _ name I) as [Hnd Hk]. rewrite Hk. naive_solver.
Qed.
Lemma universe_spec s leak M ns name : inv tcmp s leak M →
  sum_list (count_key M <$> qualified_keys s ns name) = size (filter (λ x, key_matches ns name x.1.2) M).
Proof.
  intros I. destruct (qualified_keys_spec s leak M ns name I) as [Hnd Hk].
  set (l := (λ k, (k, count_key M k)) <$> qualified_keys s ns name).
  assert (l.*1 = qualified_keys s ns name) as El.
  { unfold l. rewrite <- list_fmap_compose. unfold compose. simpl. apply list_fmap_id. }
  assert (sum_list (count_key M <$> qualified_keys s ns name) = sum_sizes l) as ->.
  { unfold l. clear. induction (qualified_keys s ns name); simpl; [done|]. unfold sum_list in *. simpl. f_equal. exact IHl. }
  rewrite (sum_sizes_lemma M) by (first [by rewrite El | intros k n (? & [= -> ->] & _)%elem_of_list_fmap; done]).
  rewrite El. f_equal. apply map_filter_ext. intros [i k] v HM. simpl. apply Hk. exists i. by rewrite HM.
Qed.
Lemma sum_le {A} (f g : A → nat) l : (∀ x, x ∈ l → f x ≤ g x) → sum_list (f <$> l) ≤ sum_list (g <$> l).
Proof.
  induction l as [|x l IH]; intros Hl; simpl; [lia|]. assert (f x ≤ g x) by (apply Hl; by left).
  assert (sum_list (f <$> l) ≤ sum_list (g <$> l)) by (apply IH; intros; apply Hl; by right).
  change (f x + sum_list (f <$> l) ≤ g x + sum_list (g <$> l)). lia.
Qed.
Lemma sum_in {A} (f : A → nat) l x : x ∈ l → f x ≤ sum_list (f <$> l).
Proof.
  induction 1 as [x l|x y l Hx IH]; rewrite fmap_cons; [cbn [sum_list_with]; unfold id; lia|].
  change (f x ≤ f y + sum_list (f <$> l)). lia.
Qed.

Lemma q_of_nat_le n m : n ≤ m → (q_of_nat n <= q_of_nat m)%Q.
Proof. intros. unfold q_of_nat. rewrite <- Zle_Qle. lia. Qed.
Lemma rnd_nat rnd n : rounding rnd → (Z.of_nat n <= 2 ^ 53)%Z → (rnd (q_of_nat n) == q_of_nat n)%Q.
Proof. intros R Hn. apply R. lia. Qed.
Lemma rnd_compat rnd : rounding rnd → ∀ x y, (x == y → rnd x == rnd y)%Q.
Proof. intros R x y E. apply Qle_antisym; apply R; rewrite E; apply Qle_refl. Qed.
Lemma round_le q n : (q <= q_of_nat n)%Q → round_usize q ≤ n.
Proof.
  intros Hq. unfold round_usize.
  assert (Qfloor (q + (1 # 2)) <= Z.of_nat n)%Z; [|lia].
  assert (Qfloor (q + (1 # 2)) < Z.of_nat n + 1)%Z; [|lia].
  rewrite Zlt_Qlt. eapply Qle_lt_trans; [apply Qfloor_le|].
  rewrite inject_Z_plus. unfold q_of_nat in Hq.
  apply (Qle_lt_trans _ (inject_Z (Z.of_nat n) + (1 # 2))); [apply Qplus_le_compat; [done|apply Qle_refl]|].
  apply Qplus_lt_r. done.
Qed.
Lemma round_ge_1 q : ((1 # 2) <= q)%Q → 1 ≤ round_usize q.
Proof.
  intros Hq. unfold round_usize. assert (1 <= Qfloor (q + (1 # 2)))%Z; [|lia].
  rewrite <- (Qfloor_Z 1) at 1. apply Qfloor_resp_le.
  unfold inject_Z. lra.
Qed.

(** Parts shared by the bounds *)
Lemma guess_eq rnd s leak M hs ns name lower upper : inv tcmp s leak M →
  ∃ b c, (∀ key, key ∈ qualified_keys s ns name → count_key M key ≠ 0 →
            bucket_matches lower upper (the_histo s hs key) ≤ c) ∧
    c ≤ b ∧
    b ≤ sum_list ((λ key, if decide (count_key M key = 0) then 0 else length (the_histo s hs key) - 1) <$> qualified_keys s ns name) ∧
    guess_max_count rnd s hs ns name lower upper =
      let u := size (filter (λ x, key_matches ns name x.1.2) M) in
      if 0 <? b then round_usize (rnd (rnd (rnd (q_of_nat c) / rnd (q_of_nat b)) * rnd (q_of_nat u)))%Q else 0.
Proof.
  intros I. unfold guess_max_count. rewrite (guess_fold _ _ _ _ _ _ _ I). rewrite !Nat.add_0_l.
  rewrite (universe_spec _ _ _ _ _ I).
  set (b := sum_list ((λ key, if decide (count_key M key = 0) then 0 else length _ - 1) <$> _)).
  set (c := sum_list ((λ key, if decide (count_key M key = 0) then 0 else bucket_matches _ _ _) <$> _)).
  exists b, c. split_and!; [| |done|done].
  - intros key Hk Hc. unfold c.
    pose proof (sum_in (λ key, if decide (count_key M key = 0) then 0 else bucket_matches lower upper (the_histo s hs key)) _ _ Hk) as Hs.
    simpl in Hs. by rewrite decide_False in Hs.
  - apply sum_le. intros k _. destruct (decide _); [lia|apply bucket_matches_le].
Qed.

Lemma guess_le rnd s leak M hs ns name lower upper : inv tcmp s leak M → rounding rnd →
  (Z.of_nat (size (filter (λ x, key_matches ns name x.1.2) M)) <= 2 ^ 53)%Z →
  guess_max_count rnd s hs ns name lower upper ≤ size (filter (λ x, key_matches ns name x.1.2) M).
Proof.
  intros I R Hu. destruct (guess_eq rnd s leak M hs ns name lower upper I) as (b & c & _ & Hcb & _ & ->).
  set (u := size _) in *. simpl. destruct (Nat.ltb_spec 0 b) as [Hb|]; [|lia].
  apply round_le.
  assert (rnd (rnd (q_of_nat c) / rnd (q_of_nat b)) <= 1)%Q as Hsel.
  { assert (rnd 1 == 1)%Q as E1 by (apply (rnd_exact _ R 1); lia).
    assert (0 <= rnd (q_of_nat b))%Q as H0.
    { rewrite <- (rnd_nat rnd 0 R) by lia. apply R. by apply q_of_nat_le; lia. }
    assert (rnd (q_of_nat c) <= rnd (q_of_nat b))%Q as Hle by (apply R, q_of_nat_le; lia).
    apply (Qle_trans _ (rnd 1%Q)); [apply R|rewrite E1; apply Qle_refl].
    destruct (Qeq_dec (rnd (q_of_nat b)) 0) as [Ez|Ez].
    - rewrite Ez. unfold Qdiv. rewrite Qmult_0_r. discriminate.
    - apply Qle_shift_div_r; [|lra]. destruct (Qle_lt_or_eq _ _ H0) as [?|E]; [done|]. by destruct Ez. }
  assert (rnd (q_of_nat u) == q_of_nat u)%Q as Eu by (by apply rnd_nat).
  apply (Qle_trans _ (rnd (q_of_nat u))); [|rewrite Eu; apply Qle_refl]. apply R. rewrite Eu.
  assert (0 <= q_of_nat u)%Q by (apply (q_of_nat_le 0); lia). nra.
Qed.

(** * Regular expressions *)
Lemma number_by_name_le s leak M ns name : inv tcmp s leak M →
  am_number_by_name s ns name ≤ size (filter (λ x, key_matches ns name x.1.2) M).
Proof.
  intros I. destruct ns as [ns|].
  - rewrite (number_by_name_lemma _ _ _ _ _ _ I) by done. done.
  - pose proof (i_core _ _ _ _ I) as C. pose proof (c_sorted _ _ _ _ _ _ _ _ C) as Hs. unfold am_number_by_name.
    set (l := al_range anno_key_compare _ _ _).
    assert (al_sorted anno_key_compare l) as Hls by (unfold l, al_range; by apply al_sorted_filter).
    rewrite (sum_sizes_lemma M).
    + rewrite <- !(size_dom (D := gset (T * anno_key))). apply subseteq_size. intros [i k]. rewrite !elem_of_dom. intros [l0 E].
      apply map_filter_lookup_Some in E as [E Hk]. simpl in Hk.
      assert (filter (λ x, key_matches None name x.1.2) M !! (i, k) = Some l0) as ->; [|by eexists].
      apply map_filter_lookup_Some. split; [done|]. simpl. unfold key_matches. split; [|done].
      apply elem_of_list_fmap in Hk as ([k' n] & -> & Hk). unfold l, al_range in Hk.
      apply elem_of_list_filter in Hk as [Hk _]. simpl in *. apply andb_true_iff in Hk as [H1 H2].
      unfold anno_key_compare in *. simpl in *.
      rewrite (cmp_anti lex_compare name (ak_name k')) in H2.
      destruct (lex_compare name (ak_name k')) eqn:E'; simpl in *; try done.
      by apply (cmp_eq lex_compare) in E'.
    + by apply (al_sorted_NoDup anno_key_compare).
    + intros k n Hk. unfold l, al_range in Hk. apply elem_of_list_filter in Hk as [_ Hk].
      by apply (sizes_in _ _ _ _ _ _ I) in Hk as [-> _].
Qed.
Lemma guess_regex_le rnd pick s leak M hs ns name parsed : inv tcmp s leak M →
  guess_max_count_regex rnd pick s hs ns name parsed ≤ size (filter (λ x, key_matches ns name x.1.2) M).
Proof.
  intros I. pose proof (number_by_name_le s leak M ns name I). unfold guess_max_count_regex.
  destruct parsed as [|l|[re|]]; lia.
Qed.

(** * The most frequent value *)
Lemma count_fold l m v : fold_left count_value_step l m !! v =
  (if decide (occurrences v l = 0) then m !! v else Some (occurrences v l + default 0 (m !! v))).
Proof.
  revert m. induction l as [|x l IH]; intros m; [done|]. cbn [fold_left]. rewrite IH. unfold count_value_step, occurrences.
  rewrite filter_cons. destruct (decide (x = v)) as [->|Hne].
  - rewrite lookup_insert. cbn [length default from_option id]. repeat case_decide; try lia; f_equal; unfold default, id; simpl; lia.
  - rewrite lookup_insert_ne by done. done.
Qed.
Lemma max_fold (l : list (bytes * nat)) : ∀ (n : nat) (v : bytes), let r := fold_left (λ (acc : nat * bytes) (vc : bytes * nat), if acc.1 <=? vc.2 then (vc.2, vc.1) else acc) l (n, v) in
  n ≤ r.1 ∧ (∀ x, x ∈ l → x.2 ≤ r.1) ∧ (r = (n, v) ∨ (r.2, r.1) ∈ l).
Proof.
  induction l as [|[x c] l IH]; intros n v; cbn [fold_left].
  - simpl. split_and!; [done|by intros ? ?%elem_of_nil|by left].
  - simpl. destruct (Nat.leb_spec n c) as [Hc|Hc].
    + destruct (IH c x) as (H1 & H2 & H3). split_and!; [lia| |].
      * intros y [->|Hy]%elem_of_cons; [done|by apply H2].
      * destruct H3 as [->|H3]; [right; by left|right; by right].
    + destruct (IH n v) as (H1 & H2 & H3). split_and!; [lia| |].
      * intros y [->|Hy]%elem_of_cons; [simpl; lia|by apply H2].
      * destruct H3 as [->|H3]; [by left|right; by right].
Qed.
Definition all_bounds s hs ns name : list bytes := qualified_keys s ns name ≫= the_histo s hs.
Lemma most_frequent_spec s hs ns name :
  match guess_most_frequent_value s hs ns name with
  | Some v => v ∈ all_bounds s hs ns name ∧ ∀ w, occurrences w (all_bounds s hs ns name) ≤ occurrences v (all_bounds s hs ns name)
  | None => all_bounds s hs ns name = []
  end.
Proof.
  unfold guess_most_frequent_value. change (qualified_keys s ns name ≫= _) with (all_bounds s hs ns name).
  set (l := all_bounds s hs ns name). set (m := fold_left count_value_step l ∅).
  assert (∀ v n, m !! v = Some n ↔ n = occurrences v l ∧ n ≠ 0) as Hm.
  { intros v n. unfold m. rewrite count_fold, lookup_empty. simpl. rewrite Nat.add_0_r. destruct (decide _); naive_solver. }
  assert (∀ v, v ∈ l ↔ occurrences v l ≠ 0) as Hocc.
  { intros v. unfold occurrences. split.
    - intros Hv E%nil_length_inv. assert (v ∈ filter (λ x, x = v) l) as Hf by (by apply elem_of_list_filter).
      rewrite E in Hf. by apply elem_of_nil in Hf.
    - intros Hn. destruct (filter (λ x, x = v) l) as [|y l'] eqn:E; [done|].
      assert (y ∈ filter (λ x, x = v) l) as Hf by (rewrite E; by left). apply elem_of_list_filter in Hf as [-> ?]. done. }
  case_bool_decide as Hempty.
  - destruct l as [|x l'] eqn:El; [done|]. exfalso. assert (occurrences x (x :: l') ≠ 0) as Hx by (apply Hocc; by left).
    assert (m !! x = Some (occurrences x (x :: l'))) as E by (by apply Hm). by rewrite Hempty in E.
  - destruct (max_fold (map_to_list m) 0 []) as (_ & Hmax & Hr). set (r := fold_left _ (map_to_list m) _) in *.
    assert ((r.2, r.1) ∈ map_to_list m) as Hin.
    { destruct Hr as [Hr|]; [|done]. exfalso. apply Hempty. apply map_empty. intros v. destruct (m !! v) eqn:E; [|done].
      pose proof (Hmax (v, n)) as Hv. rewrite elem_of_map_to_list in Hv. specialize (Hv E). apply Hm in E. rewrite Hr in Hv. simpl in Hv. lia. }
    apply elem_of_map_to_list, Hm in Hin as [E Hne]. split; [apply Hocc; by rewrite <- E|].
    intros w. rewrite <- E. destruct (decide (occurrences w l = 0)); [lia|].
    apply (Hmax (w, occurrences w l)). apply elem_of_map_to_list. by apply Hm.
Qed.

(** * Sampling *)
Lemma omap_length_all {A B} (f : A → option B) l : (∀ x, x ∈ l → is_Some (f x)) → length (omap f l) = length l.
Proof.
  induction l as [|x l IH]; intros Hl; simpl; [done|]. destruct (Hl x) as [y Hy]; [by left|].
  rewrite Hy. simpl. f_equal. apply IH. intros. apply Hl. by right.
Qed.
Lemma imap_pair_fst {A} (l : list A) : (imap pair l).*1 = seq 0 (length l).
Proof.
  apply list_eq. intros i. rewrite list_lookup_fmap, list_lookup_imap. destruct (decide (i < length l)) as [Hi|Hi].
  - rewrite lookup_seq_lt by done. destruct (lookup_lt_is_Some_2 l i Hi) as [x ->]. done.
  - rewrite lookup_seq_ge by lia. rewrite (lookup_ge_None_2 l i) by lia. done.
Qed.
Lemma filter_index_length {A} (l : list A) (idx : gset nat) : (∀ i, i ∈ idx → i < length l) →
  length (filter (λ x : nat * A, x.1 ∈ idx) (imap pair l)) = size idx.
Proof.
  intros Hi. unfold size, set_size. simpl. rewrite <- (fmap_length fst). apply Permutation_length.
  assert (NoDup (imap pair l).*1) as Hnd by (rewrite imap_pair_fst; apply NoDup_seq).
  apply NoDup_Permutation; [|apply NoDup_elements|].
  - apply NoDup_fmap_inj_on; [apply NoDup_filter; by eapply NoDup_fmap_1|].
    intros [i x] [j y] [_ H1]%elem_of_list_filter [_ H2]%elem_of_list_filter E. simpl in E. subst j.
    apply elem_of_lookup_imap in H1 as (i1 & x1 & [= <- <-] & H1).
    apply elem_of_lookup_imap in H2 as (i2 & x2 & [= <- <-] & H2). congruence.
  - intros i. rewrite elem_of_elements, elem_of_list_fmap. split.
    + intros ([j x] & -> & [? _]%elem_of_list_filter). done.
    + intros Hin. destruct (lookup_lt_is_Some_2 l i (Hi i Hin)) as [x Hx]. exists (i, x). split; [done|].
      apply elem_of_list_filter. split; [done|]. apply elem_of_lookup_imap. by exists i, x.
Qed.
Lemma repeated_in (m : gmap nat (gset T)) v : v ∈ repeated_values m ↔ ∃ X, m !! v = Some X ∧ size X ≠ 0.
Proof.
  unfold repeated_values. rewrite elem_of_list_bind. split.
  - intros ([v' X] & Hv & Hin). simpl in *. apply elem_of_replicate in Hv as [-> ?]. apply elem_of_map_to_list in Hin. eauto.
  - intros (X & HX & Hs). exists (v, X). split; [|by apply elem_of_map_to_list]. simpl. by apply elem_of_replicate.
Qed.
Lemma repeated_length s leak M key k m : inv tcmp s leak M → st_get_symbol (anno_keys s) key = Some k → by_anno s !! k = Some m →
  length (repeated_values m) = count_key M key.
Proof.
  intros I Hk Hm. destruct (all_items_lemma _ _ _ _ (Some (ak_ns key)) (ak_name key) I) as [Hnd Hin].
  assert (value_maps s (Some (ak_ns key)) (ak_name key) = [(key, m)]) as Evm.
  { unfold value_maps. simpl. replace (AnnoKey (ak_name key) (ak_ns key)) with key by (by destruct key).
    rewrite Hk. simpl. rewrite Hm. done. }
  rewrite Evm in *. unfold all_items in *. simpl in *. rewrite app_nil_r in *.
  set (items := map_to_list m ≫= λ vi : nat * gset T, elements vi.2) in *.
  assert (length (repeated_values m) = length items) as ->.
  { unfold items, repeated_values. clear. induction (map_to_list m) as [|[v X] l IH]; [done|].
    rewrite !bind_cons, !app_length, replicate_length, IH. done. }
  rewrite <- (fmap_length (λ item : T, (item, key)) items).
  unfold count_key, size, map_size. rewrite <- (fmap_length fst (map_to_list _)). apply Permutation_length.
  apply NoDup_Permutation; [done|apply NoDup_fst_map_to_list|].
  intros [i key']. rewrite Hin. rewrite elem_of_list_fmap. unfold key_matches. split.
  - intros [[E1 E2] [v Hv]]. assert (key' = key) as -> by (destruct key, key'; simpl in *; congruence).
    exists ((i, key), v). split; [done|]. apply elem_of_map_to_list, map_filter_lookup_Some. done.
  - intros ([[i' k'] v] & [= <- <-] & Hv). apply elem_of_map_to_list, map_filter_lookup_Some in Hv as [Hv E]. simpl in E. subst.
    split; [done|eauto].
Qed.
Lemma sampled_spec s leak M key k m idx : inv tcmp s leak M → st_get_symbol (anno_keys s) key = Some k → by_anno s !! k = Some m →
  valid_sample max_sampled_annotations (count_key M key) idx →
  StronglySorted str_not_above (sampled_values s m idx) ∧
  length (sampled_values s m idx) = count_key M key `min` max_sampled_annotations ∧
  (∀ v, v ∈ sampled_values s m idx → ∃ i, M !! (i, key) = Some v) ∧
  (count_key M key ≤ max_sampled_annotations → ∀ i v, M !! (i, key) = Some v → v ∈ sampled_values s m idx).
Proof.
  intros I Hk Hm [Hlt Hsz]. pose proof (repeated_length _ _ _ _ _ _ I Hk Hm) as Hlen. unfold sampled_values.
  set (l := filter (λ x : nat * nat, x.1 ∈ idx) _). set (f := λ x : nat * nat, st_get_value (anno_values s) x.2).
  assert (∀ x, x ∈ l → ∃ v, f x = Some v ∧ ∃ i, M !! (i, key) = Some v) as Hval.
  { intros [i vs] [_ Hx]%elem_of_list_filter. apply elem_of_lookup_imap in Hx as (i1 & x1 & [= <- <-] & Hx).
    apply elem_of_list_lookup_2, repeated_in in Hx as (X & HX & _).
    destruct (values_of_key _ _ _ _ _ _ _ I Hk Hm (vs, X)) as (v & Hv & _ & Hi); [by apply elem_of_map_to_list|].
    exists v. done. }
  split_and!.
  - apply sort_list_sorted; [apply lex_le_trans|done|]. intros a b Hab. unfold str_not_above. rewrite (cmp_anti lex_compare a b). by rewrite Hab.
  - rewrite (Permutation_length (sort_list_perm lex_compare _)).
    rewrite omap_length_all by (intros x Hx; destruct (Hval x Hx) as (v & ? & _); by exists v).
    unfold l. rewrite filter_index_length; [done|]. by rewrite Hlen.
  - intros v. rewrite (sort_list_perm lex_compare), elem_of_list_omap. intros (x & Hx & Hf).
    destruct (Hval x Hx) as (v' & Hv' & Hi). unfold f in *. assert (v' = v) as -> by congruence. done.
  - intros Hmax i v HM. rewrite (sort_list_perm lex_compare), elem_of_list_omap.
    destruct (value_ba _ _ _ _ _ _ _ I HM) as (k' & m' & vs & X & Hk' & Hm' & Hv & HX & Hi).
    assert (k' = k) by congruence. subst k'. assert (m' = m) by congruence. subst m'.
    assert (vs ∈ repeated_values m) as [j Hj]%elem_of_list_lookup.
    { apply repeated_in. exists X. split; [done|]. intros E%size_empty_inv. apply leibniz_equiv in E. subst. set_solver. }
    exists (j, vs). split.
    + apply elem_of_list_filter. simpl. split; [|apply elem_of_lookup_imap; by exists j, vs].
      assert (idx = set_seq 0 (count_key M key)) as ->.
      { assert (idx ⊆ set_seq 0 (count_key M key)) as Hsub.
        { intros x Hx. apply elem_of_set_seq. specialize (Hlt x Hx). lia. }
        pose proof (size_difference _ _ Hsub) as Hd. rewrite size_set_seq in Hd.
        assert (size (set_seq 0 (count_key M key) ∖ idx) = 0) as Hz%size_empty_inv by lia.
        apply set_eq. intros x. split; [apply Hsub|]. intros Hx. destruct (decide (x ∈ idx)); [done|]. set_solver. }
      apply elem_of_set_seq. apply lookup_lt_Some in Hj. lia.
    + apply st_ok_sym in Hv; [done|apply (i_core _ _ _ _ I)].
Qed.

Definition samples_ok s M (choice : nat → gset nat) : Prop :=
  ∀ key k, st_get_symbol (anno_keys s) key = Some k → valid_sample max_sampled_annotations (count_key M key) (choice k).
Lemma histo_spec s leak M key k m idx : inv tcmp s leak M → st_get_symbol (anno_keys s) key = Some k → by_anno s !! k = Some m →
  valid_sample max_sampled_annotations (count_key M key) idx →
  ∃ h, hist_bounds max_histogram_buckets (sampled_values s m idx) = Some h ∧ histogram_of M key h.
Proof.
  intros I Hk Hm Hv. destruct (sampled_spec _ _ _ _ _ _ _ I Hk Hm Hv) as (Hs & Hl & Hin & Hall).
  destruct (hist_bounds_spec max_histogram_buckets (sampled_values s m idx)) as (h & Eh & Hn & Hy).
  exists h. split; [done|]. destruct (hist_sorted _ _ _ Eh Hs) as [Hhs Hhin]. unfold histogram_of, max_histogram_buckets, max_sampled_annotations in *.
  split_and!; [| done | intros v ?; apply Hin; by apply Hhin |].
  - destruct (decide _) as [Hd|Hd]; [rewrite Hn; [done|right; lia]|]. destruct Hy as [-> _]; lia.
  - intros [H2 Hmax]. destruct Hy as (Elen & _ & H0 & HL); [lia|lia|].
    destruct (lookup_lt_is_Some_2 h 0) as [a Ha]; [lia|].
    destruct (last h) as [b|] eqn:Eb; [|apply last_None in Eb; subst; done].
    exists a, b. split_and!; [done|done|]. intros i v HM.
    specialize (Hall ltac:(lia) i v HM). apply elem_of_list_lookup in Hall as [j Hj].
    rewrite H0 in Ha. rewrite last_lookup in HL. symmetry in HL. split.
    + refine (sorted_lookup_le _ _ _ _ _ Hs _ Ha Hj). lia.
    + refine (sorted_lookup_le _ _ _ _ _ Hs _ Hj HL). apply lookup_lt_Some in Hj. lia.
Qed.
Lemma calc_spec s leak M choice : inv tcmp s leak M → samples_ok s M choice → ∀ keys acc,
  ∃ hs, calculate_statistics s choice keys acc = Some hs ∧
   ∀ key k, st_get_symbol (anno_keys s) key = Some k → count_key M key ≠ 0 →
     (key ∈ keys ∨ ∃ h, acc !! k = Some h ∧ histogram_of M key h) → ∃ h, hs !! k = Some h ∧ histogram_of M key h.
Proof.
  intros I Hok. pose proof (i_core _ _ _ _ I) as C. induction keys as [|key0 keys IH]; intros acc; simpl.
  { exists acc. split; [done|]. intros key k _ _ [?%elem_of_nil|?]; done. }
  assert (∀ key k, st_get_symbol (anno_keys s) key = Some k → count_key M key ≠ 0 → ∃ m, by_anno s !! k = Some m) as Hba.
  { intros key k Hk Hc. destruct (count_pos M key Hc) as [i [v HM]].
    destruct (value_ba _ _ _ _ _ _ _ I HM) as (k' & m & vs & X & Hk' & Hm & _). exists m. congruence. }
  destruct (st_get_symbol (anno_keys s) key0) as [k0|] eqn:Ek0.
  - destruct (by_anno s !! k0) as [m|] eqn:Em.
    + destruct (histo_spec _ _ _ _ _ _ _ I Ek0 Em (Hok _ _ Ek0)) as (h & -> & Hh). simpl.
      destruct (IH (<[k0:=h]> acc)) as (hs & -> & Hhs). exists hs. split; [done|].
      intros key k Hk Hc Hor. apply Hhs; [done|done|].
      assert (k = k0 → key = key0) as Hinj.
      { intros ->. apply st_ok_sym in Hk, Ek0; [|apply C..]. congruence. }
      destruct (decide (k = k0)) as [->|Hne].
      * right. exists h. rewrite lookup_insert. by rewrite Hinj.
      * destruct Hor as [[->|Hin]%elem_of_cons|(h' & Hh' & ?)]; [congruence|by left|].
        right. exists h'. by rewrite lookup_insert_ne.
    + destruct (IH acc) as (hs & -> & Hhs). exists hs. split; [done|]. intros key k Hk Hc Hor. apply Hhs; [done|done|].
      destruct Hor as [[->|Hin]%elem_of_cons|?]; [|by left|by right].
      destruct (Hba _ _ Hk Hc) as [m ?]. congruence.
  - destruct (IH acc) as (hs & -> & Hhs). exists hs. split; [done|]. intros key k Hk Hc Hor. apply Hhs; [done|done|].
    destruct Hor as [[->|Hin]%elem_of_cons|?]; [congruence|by left|by right].
Qed.
Lemma statistics_spec s leak M choice : inv tcmp s leak M → samples_ok s M choice →
  ∃ hs, am_calculate_statistics s choice = Some hs ∧
   ∀ key, (∃ i, is_Some (M !! (i, key))) → ∃ k h, st_get_symbol (anno_keys s) key = Some k ∧ hs !! k = Some h ∧ histogram_of M key h.
Proof.
  intros I Hok. destruct (calc_spec s leak M choice I Hok (anno_key_sizes s).*1 ∅) as (hs & E & Hhs).
  exists hs. split; [done|]. intros key (i & v & HM).
  destruct (value_ba _ _ _ _ _ _ _ I HM) as (k & m & vs & X & Hk & _).
  assert (count_key M key ≠ 0) as Hc by (intros Hz; by rewrite (count_zero M key i Hz) in HM).
  destruct (Hhs key k Hk Hc) as (h & ? & ?); [|eauto].
  left. apply elem_of_list_fmap. exists (key, count_key M key). split; [done|]. by apply (sizes_in _ _ _ _ _ _ I).
Qed.

(** * Estimates that are not zero *)
Lemma guess_ge rnd s leak M choice hs ns name lower upper key i v : inv tcmp s leak M → samples_ok s M choice →
  am_calculate_statistics s choice = Some hs → rounding rnd →
  (Z.of_nat (size (filter (λ x, key_matches ns name x.1.2) M)) <= 2 ^ 53)%Z →
  key_matches ns name key → M !! (i, key) = Some v → str_not_above lower v → str_not_above v upper →
  2 ≤ count_key M key ≤ max_sampled_annotations →
  1 ≤ guess_max_count rnd s hs ns name lower upper.
Proof.
  intros I Hok E R Hu Hkm HM Hlv Hvu Hc. destruct (statistics_spec _ _ _ _ I Hok) as (hs' & E' & Hst).
  rewrite E in E'. injection E' as <-.
  destruct (guess_eq rnd s leak M hs ns name lower upper I) as (b & c & Hin & Hcb & Hb & ->).
  assert (∀ key, count_key M key ≠ 0 → histogram_of M key (the_histo s hs key)) as Hh.
  { intros key' Hc'. destruct (count_pos M key' Hc') as [j Hj]. destruct (Hst key' (ex_intro _ j Hj)) as (k & h & Hk & Hkh & ?).
    unfold the_histo. rewrite Hk. simpl. by rewrite Hkh. }
  assert (1 ≤ c) as Hc1.
  { etrans; [|apply (Hin key); [|lia]].
    - destruct (Hh key ltac:(lia)) as (Hl & _ & _ & Hab). destruct (Hab Hc) as (a & z & Ha & Hz & Hv).
      destruct (Hv i v HM) as [? ?]. apply (bucket_found _ _ _ v a z); try done. rewrite Hl. rewrite decide_False by lia. lia.
    - apply (qualified_keys_spec _ _ _ ns name I); [|done]. exists i. by rewrite HM. }
  set (u := size _) in *. simpl. assert (b ≤ u) as Hbu.
  { etrans; [exact Hb|]. unfold u. rewrite <- (universe_spec _ _ _ _ _ I). apply sum_le. intros key' _.
    destruct (decide _) as [|Hn]; [lia|]. destruct (Hh key' Hn) as (-> & _). destruct (decide _); lia. }
  destruct (Nat.ltb_spec 0 b) as [Hb0|]; [|lia]. apply round_ge_1.
  assert (rnd (q_of_nat c) == q_of_nat c)%Q as Ec by (apply rnd_nat; [done|lia]).
  assert (rnd (q_of_nat b) == q_of_nat b)%Q as Eb by (apply rnd_nat; [done|lia]).
  assert (rnd (q_of_nat u) == q_of_nat u)%Q as Eu by (apply rnd_nat; [done|lia]).
  set (Qc := q_of_nat c) in *. set (Qb := q_of_nat b) in *. set (Qu := q_of_nat u) in *.
  assert (1 <= Qc)%Q as Hqc by (apply (q_of_nat_le 1 c); lia).
  assert (1 <= Qb)%Q as Hqb by (apply (q_of_nat_le 1 b); lia).
  assert (Qb <= Qu)%Q as Hqbu by (apply q_of_nat_le; lia).
  assert (Qb <= inject_Z (2 ^ 53))%Q as Hq53 by (unfold Qb, q_of_nat; rewrite <- Zle_Qle; lia).
  set (q := (Qc / Qb)%Q).
  assert (q * Qb == Qc)%Q as Eq.
  { unfold q. rewrite Qmult_comm. apply Qmult_div_r. intros E0. rewrite E0 in Hqb. by apply Hqb. }
  assert (1 # (2 ^ 100)%positive <= q)%Q as Hq.
  { unfold q. apply Qle_shift_div_l; [lra|].
    apply (Qle_trans _ ((1 # 2 ^ 100) * inject_Z (2 ^ 53))); [|apply (Qle_trans _ 1); [discriminate|done]].
    rewrite !(Qmult_comm (1 # 2 ^ 100)). apply Qmult_le_compat_r; [done|discriminate]. }
  set (x := rnd (rnd Qc / rnd Qb)%Q).
  assert ((3 # 4) * q <= x)%Q as Hx.
  { apply (Qle_trans _ (rnd q)); [by apply R|]. unfold x. apply R. unfold q. rewrite Ec, Eb. apply Qle_refl. }
  assert (0 <= q)%Q as Hq0 by (apply (Qle_trans _ (1 # 2 ^ 100)); [discriminate|done]).
  assert (1 <= q * Qu)%Q as Hqu by nra.
  set (y := (x * rnd Qu)%Q).
  assert (3 # 4 <= y)%Q as Hy by (unfold y; rewrite Eu; nra).
  apply (Qle_trans _ ((3 # 4) * y)); [lra|]. apply R. apply (Qle_trans _ (3 # 4)); [discriminate|done].
Qed.
End estimates.
