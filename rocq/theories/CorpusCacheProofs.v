(** Proofs about the corpus cache. *)
From stdpp Require Import base list gmap sorting.
From Coq Require Import NArith Lia.
From Verif Require Import CorpusCache CorpusCacheSpec.

(** ** Cache *)
Definition keys_ok (c : cache) : Prop := NoDup (c.*1).
Lemma cache_get_Some c name e : keys_ok c → cache_get c name = Some e ↔ (name, e) ∈ c.
Proof.
  unfold keys_ok, cache_get. induction c as [|[n x] c IH]; intros Hn; cbn.
  - split; [done|]. intros H. inversion H.
  - apply NoDup_cons in Hn as [Hn Hn']. cbn in Hn. rewrite elem_of_cons. destruct (decide (n = name)) as [->|Hne]; cbn.
    + split.
      * intros [= ->]. by left.
      * intros [[= ->]|H]; [done|]. destruct Hn. apply elem_of_list_fmap. by exists (name, e).
    + rewrite <- (IH Hn'). destruct (list_find _ c) as [[i y]|]; cbn; split; try done.
      * intros ?. by right.
      * intros [[= -> ->]|H]; [done|exact H].
      * intros [[= -> ->]|H]; done.
Qed.
Lemma cache_get_None c name : cache_get c name = None ↔ name ∉ c.*1.
Proof.
  unfold cache_get. induction c as [|[n x] c IH]; cbn; [split; [intros _ H; inversion H|done]|].
  rewrite not_elem_of_cons. destruct (decide (n = name)) as [->|Hne]; cbn; [split; [done|tauto]|].
  rewrite <- IH. destruct (list_find _ c) as [[i y]|]; cbn; split; try done; intros [_ H]; done.
Qed.
Lemma keys_ok_filter (P : N * option nat → Prop) `{∀ x, Decision (P x)} c : keys_ok c → keys_ok (filter P c).
Proof.
  unfold keys_ok. induction c as [|a c IH]; intros Hn; [done|]. rewrite fmap_cons in Hn. apply NoDup_cons in Hn as [Ha Hn].
  rewrite filter_cons. destruct (decide (P a)); [|by apply IH]. rewrite fmap_cons. apply NoDup_cons. split; [|by apply IH].
  intros Hin. apply Ha. apply elem_of_list_fmap in Hin as (x & -> & Hx). apply elem_of_list_filter in Hx as [_ Hx]. apply elem_of_list_fmap. by exists x.
Qed.
Lemma filter_ext_in {A} (P Q : A → Prop) `{∀ x, Decision (P x)} `{∀ x, Decision (Q x)} (l : list A) :
  (∀ x, x ∈ l → P x ↔ Q x) → filter P l = filter Q l.
Proof.
  induction l as [|a l IH]; intros Hx; [done|]. rewrite !filter_cons. pose proof (Hx a ltac:(left)) as Ha.
  rewrite IH by (intros; apply Hx; by right). destruct (decide (P a)), (decide (Q a)); tauto.
Qed.
Lemma pair_unique c name e e' : keys_ok c → (name, e) ∈ c → (name, e') ∈ c → e = e'.
Proof. intros Hn H1 H2. apply cache_get_Some in H1, H2; [congruence|done|done]. Qed.

Lemma filter_all {A} (P : A → Prop) `{∀ x, Decision (P x)} (l : list A) : (∀ x, x ∈ l → P x) → filter P l = l.
Proof.
  induction l as [|a l IH]; intros Hx; [done|]. rewrite filter_cons, decide_True by (apply Hx; left). f_equal. apply IH. intros. apply Hx. by right.
Qed.
Lemma keys_ok_mid pre n x rest : keys_ok (pre ++ (n, x) :: rest) → n ∉ pre.*1 ∧ n ∉ rest.*1 ∧ keys_ok (pre ++ rest).
Proof.
  unfold keys_ok. rewrite !fmap_app, fmap_cons. cbn. rewrite !NoDup_app, NoDup_cons. intros (H1 & H2 & H3 & H4). split_and!; [|done|done| |done].
  - intros Hn. apply (H2 _ Hn). left.
  - intros y Hy Hy'. apply (H2 _ Hy). by right.
Qed.
Lemma remove_mid pre n x rest : keys_ok (pre ++ (n, x) :: rest) → cache_remove (pre ++ (n, x) :: rest) n = pre ++ rest.
Proof.
  intros (H1 & H2 & _)%keys_ok_mid. unfold cache_remove. rewrite filter_app, filter_cons, decide_False by (cbn; tauto).
  rewrite !filter_all; [done| |]; intros [m y] Hm; cbn; intros ->; [apply H2|apply H1]; apply elem_of_list_fmap; by exists (n, y).
Qed.
Lemma check_loop_spec e keep : ∀ rest k pre, keys_ok (pre ++ rest) → ∃ r,
  check_loop e keep (rest.*1) k (pre ++ rest) = (pre ++ filter (λ p, p ∉ take r (filter (removable keep) rest)) rest, k + r) ∧
  r <= length (filter (removable keep) rest) ∧ (∀ j, j < r → (e_limit e < e_size e (k + j))%N) ∧
  ((e_size e (k + r) <= e_limit e)%N ∨ r = length (filter (removable keep) rest)).
Proof.
  induction rest as [|[n x] rest IH]; intros k pre Hn.
  { exists 0. cbn. rewrite Nat.add_0_r. split_and!; [done|lia|intros; lia|by right]. }
  assert (cache_get (pre ++ (n, x) :: rest) n = Some x) as Hg.
  { apply cache_get_Some; [done|]. apply elem_of_app. right. left. }
  pose proof (keys_ok_mid _ _ _ _ Hn) as (Hp & Hr & Hk).
  assert ((n, x) ∉ rest) as Hnr. { intros H. apply Hr. apply elem_of_list_fmap. by exists (n, x). }
  rewrite fmap_cons. cbn [check_loop fst]. rewrite Hg. destruct (N.ltb_spec (e_limit e) (e_size e k)) as [Hlt|Hge].
  - destruct (decide (removable keep (n, x))) as [Hrem|Hrem].
    + assert ((match x with Some _ => true | None => false end) && negb (bool_decide (n ∈ keep)) = true) as Hb.
      { destruct Hrem as [Hx Hkp]. cbn in Hx, Hkp. destruct x; [|done]. cbn. by rewrite bool_decide_false. }
      rewrite Hb, remove_mid by done. destruct (IH (S k) pre Hk) as (r & E & H1 & H2 & H3). exists (S r). rewrite E.
      rewrite (filter_cons_True (removable keep)) by done. cbn [take length]. split_and!.
      * f_equal; [|lia]. f_equal. rewrite filter_cons_False by (intros H; apply H; left). apply filter_ext_in. intros p Hp'.
        rewrite not_elem_of_cons. split; [|tauto]. intros H. split; [intros ->; done|done].
      * lia.
      * intros [|j] Hj; [by rewrite Nat.add_0_r|]. replace (k + S j) with (S k + j) by lia. apply H2. lia.
      * replace (k + S r) with (S k + r) by lia. destruct H3 as [H3|H3]; [by left|right; lia].
    + assert ((match x with Some _ => true | None => false end) && negb (bool_decide (n ∈ keep)) = false) as Hb.
      { destruct x; [|done]. cbn. destruct (decide (n ∈ keep)); [by rewrite bool_decide_true|]. destruct Hrem. split; [done|done]. }
      rewrite Hb. destruct (IH k (pre ++ [(n, x)])) as (r & E & H1 & H2 & H3); [by rewrite <- app_assoc|]. exists r.
      rewrite <- app_assoc in E. cbn [app] in E. rewrite E. rewrite (filter_cons_False (removable keep)) by done. split_and!; [|done|done|done].
      f_equal. rewrite <- app_assoc. cbn [app]. f_equal. rewrite filter_cons_True; [done|]. intros H. apply Hnr.
      apply elem_of_take in H as (i & H & _). apply elem_of_list_lookup_2, elem_of_list_filter in H. tauto.
  - exists 0. split_and!; [|lia|intros; lia|left; rewrite Nat.add_0_r; lia]. rewrite take_0, filter_all; [f_equal; lia|]. intros y _ H. inversion H.
Qed.
Theorem check_spec e keep c : keys_ok c → ∃ r,
  evicts e keep c (check_cache_size_and_remove_with_cache e keep c).1 r ∧
  (check_cache_size_and_remove_with_cache e keep c).2 = bool_decide (0 < r).
Proof.
  intros Hn. destruct (check_loop_spec e keep c 0 []) as (r & E & H1 & H2 & H3); [done|]. exists r.
  unfold check_cache_size_and_remove_with_cache. cbn [app] in E. rewrite E. cbn. split; [split_and!; done|].
  destruct r; [done|]. rewrite bool_decide_false, bool_decide_true by lia. done.
Qed.

(** What a check does to single entries *)
Lemma check_sub e keep c p : keys_ok c → p ∈ (check_cache_size_and_remove_with_cache e keep c).1 → p ∈ c.
Proof. intros Hn H. destruct (check_spec e keep c Hn) as (r & (_ & E & _) & _). rewrite E in H. apply elem_of_list_filter in H. tauto. Qed.
Lemma check_keys e keep c : keys_ok c → keys_ok (check_cache_size_and_remove_with_cache e keep c).1.
Proof. intros Hn. destruct (check_spec e keep c Hn) as (r & (_ & E & _) & _). rewrite E. by apply keys_ok_filter. Qed.
Lemma check_kept e keep c p : keys_ok c → p ∈ c → ¬ removable keep p → p ∈ (check_cache_size_and_remove_with_cache e keep c).1.
Proof.
  intros Hn Hp Hr. destruct (check_spec e keep c Hn) as (r & (_ & E & _) & _). rewrite E. apply elem_of_list_filter. split; [|done].
  intros H. apply elem_of_take in H as (i & H & _). apply elem_of_list_lookup_2, elem_of_list_filter in H. tauto.
Qed.
Lemma elem_of_remove c name (p : N * option nat) : p ∈ cache_remove c name ↔ p ∈ c ∧ p.1 ≠ name.
Proof. unfold cache_remove. rewrite elem_of_list_filter. tauto. Qed.
Lemma remove_keys c name : keys_ok c → keys_ok (cache_remove c name).
Proof. apply keys_ok_filter. Qed.
Lemma insert_keys c name e : keys_ok c → keys_ok (cache_insert c name e).
Proof.
  intros Hn. unfold cache_insert, keys_ok. rewrite fmap_app. apply NoDup_app. split_and!; [by apply remove_keys| |apply NoDup_singleton].
  intros n H1 H2. apply elem_of_list_singleton in H2 as ->. apply elem_of_list_fmap in H1 as (p & E & Hp). apply elem_of_remove in Hp as [_ Hp]. by apply Hp.
Qed.
Lemma elem_of_insert c name e (p : N * option nat) : p ∈ cache_insert c name e ↔ (p ∈ c ∧ p.1 ≠ name) ∨ p = (name, e).
Proof. unfold cache_insert. rewrite elem_of_app, elem_of_remove, elem_of_list_singleton. done. Qed.
(** Order of loading *)
Lemma order_filter (P : N * option nat → Prop) `{∀ x, Decision (P x)} c : in_loading_order c → in_loading_order (filter P c).
Proof.
  unfold in_loading_order. induction c as [|[n [i|]] c IH]; intros Hs; [done| |].
  - cbn [omap list_omap snd] in Hs. apply StronglySorted_inv in Hs as [Hs Hf]. specialize (IH Hs). rewrite filter_cons. destruct (decide (P (n, Some i))); [|done].
    cbn [omap list_omap snd]. constructor; [done|]. rewrite Forall_forall in *. intros x Hx. apply Hf. apply elem_of_list_omap in Hx as (y & Hy & E).
    apply elem_of_list_filter in Hy as [_ Hy]. apply elem_of_list_omap. by exists y.
  - cbn [omap list_omap snd] in Hs. specialize (IH Hs). rewrite filter_cons. by destruct (decide (P (n, None))).
Qed.
Lemma order_snoc (c : cache) n i : in_loading_order c → (∀ m j, (m, Some j) ∈ c → j < i) → in_loading_order (c ++ [(n, Some i)]).
Proof.
  unfold in_loading_order. induction c as [|[m [j|]] c IH]; intros Hs Hi; cbn [app omap list_omap snd] in *.
  - repeat constructor.
  - apply StronglySorted_inv in Hs as [Hs Hf]. constructor; [apply IH; [done|]; intros; eapply Hi; right; eassumption|].
    rewrite Forall_forall in *. intros x Hx. apply elem_of_list_omap in Hx as (y & Hy & E). apply elem_of_app in Hy as [Hy|Hy].
    + apply Hf. apply elem_of_list_omap. by exists y.
    + apply elem_of_list_singleton in Hy as ->. injection E as <-. eapply Hi. left.
  - apply IH; [done|]. intros. eapply Hi. right. eassumption.
Qed.
Lemma order_snoc_None (c : cache) n : in_loading_order c → in_loading_order (c ++ [(n, None)]).
Proof.
  unfold in_loading_order. assert (omap snd (c ++ [(n, None)]) = omap snd c) as ->; [|done].
  induction c as [|[m [j|]] c IH]; cbn [app omap list_omap snd]; [done|by rewrite IH|exact IH].
Qed.

Section Storage.
Context {G U : Type} (app : G → U → option G) (empty : G).
Notation state := (state G U). Notation op := (op G U).
Implicit Types (s : state) (o : op).
(** Invariant of every history *)
Record inv s : Prop := {
  i_keys : keys_ok (s_cache s);
  i_order : in_loading_order (s_cache s);
  i_clock : ∀ n i, (n, Some i) ∈ s_cache s → i < s_clock s;
  i_disk : ∀ n i, (n, Some i) ∈ s_cache s → is_Some (s_disk s !! n) }.
Lemma check_order e keep c : keys_ok c → in_loading_order c → in_loading_order (check_cache_size_and_remove_with_cache e keep c).1.
Proof. intros Hn Ho. destruct (check_spec e keep c Hn) as (r & (_ & E & _) & _). rewrite E. by apply order_filter. Qed.
(** Loading: the final cache *)
Lemma load_inv s name create e1 e2 s' r : inv s → load_entry_with_lock app empty s name create e1 e2 = (s', r) →
  inv s' ∧ s_workers s' = s_workers s ∧ s_threads s' = s_threads s ∧
  (∀ n e, (n, e) ∈ s_cache s' → (n, e) ∈ s_cache s ∨ (n = name ∧ e = Some (s_clock s) ∧ r = Some (s_clock s))) ∧
  match r with
  | None => s_disk s' = s_disk s ∧ s_heap s' = s_heap s ∧ s_clock s' = s_clock s
  | Some id => id = s_clock s ∧ s_clock s' = S id ∧ (name, Some id) ∈ s_cache s' ∧
      ∃ g, s_heap s' = <[id := g]> (s_heap s) ∧
        ((s_disk s !! name = None ∧ create = true ∧ g = empty ∧ s_disk s' = <[name := Dir (Some empty) None]> (s_disk s)) ∨
         ((s_disk s !! name ≫= open_dir app) = Some g ∧ s_disk s' = s_disk s))
  end.
Proof.
  intros [Hk Ho Hc Hd] E.
  assert (∀ disk : gmap N (dir G U), (∀ n, is_Some (s_disk s !! n) → is_Some (disk !! n)) → is_Some (disk !! name) →
    let c := (check_cache_size_and_remove_with_cache e1 [name] (s_cache s)).1 in
    let c' := (check_cache_size_and_remove_with_cache e2 [name] (cache_insert c name (Some (s_clock s)))).1 in
    keys_ok c' ∧ in_loading_order c' ∧ (∀ n i, (n, Some i) ∈ c' → i < S (s_clock s)) ∧ (∀ n i, (n, Some i) ∈ c' → is_Some (disk !! n)) ∧
    (name, Some (s_clock s)) ∈ c' ∧
    (∀ n e, (n, e) ∈ c' → (n, e) ∈ s_cache s ∨ (n = name ∧ e = Some (s_clock s)))) as Hcache.
  { intros disk H1 H2 c c'. assert (keys_ok c) as Hkc by by apply check_keys. assert (in_loading_order c) as Hoc by by apply check_order.
    assert (keys_ok (cache_insert c name (Some (s_clock s)))) as Hki by by apply insert_keys.
    assert (∀ n e, (n, e) ∈ c' → (n, e) ∈ s_cache s ∨ n = name ∧ e = Some (s_clock s)) as Hsub.
    { intros n e H. apply check_sub in H; [|done]. apply elem_of_insert in H as [[H _]|H]; [left; by apply check_sub in H|right; by injection H as -> ->]. }
    split_and!.
    - by apply check_keys.
    - apply check_order; [done|]. apply order_snoc; [by apply order_filter|]. intros m j H. apply elem_of_remove in H as [H _]. apply check_sub in H; [|done]. by eapply Hc.
    - intros n i H. apply Hsub in H as [H|[-> H]]; [apply Hc in H; lia|injection H as ->; lia].
    - intros n i H. apply Hsub in H as [H|[-> H]]; [apply H1; by eapply Hd|done].
    - apply check_kept; [done|apply elem_of_insert; by right|]. intros [_ H]. apply H. left.
    - exact Hsub. }
  unfold load_entry_with_lock in E. destruct (s_disk s !! name) as [d|] eqn:Ed.
  - destruct (open_dir app d) as [g|] eqn:Eo; injection E as <- <-; cbn.
    + destruct (Hcache (s_disk s)) as (H1 & H2 & H3 & H4 & H5 & H6); [done|by eexists|]. split_and!; [by constructor|done|done| |done|done|done|].
      * intros n e H. apply H6 in H as [H|[-> ->]]; [by left|right; done].
      * exists g. split; [done|]. right. split; [done|done].
    + split_and!; [|done|done| |done|done|done].
      * constructor; cbn; [by apply check_keys|by apply check_order| |]; intros n i H; apply check_sub in H; eauto.
      * intros n e H. left. by apply check_sub in H.
  - destruct create; injection E as <- <-; cbn.
    + destruct (Hcache (<[name := Dir (Some empty) None]> (s_disk s))) as (H1 & H2 & H3 & H4 & H5 & H6).
      { intros n Hn. destruct (decide (n = name)) as [->|]; [rewrite lookup_insert; by eexists|by rewrite lookup_insert_ne]. }
      { rewrite lookup_insert. by eexists. }
      split_and!; [by constructor|done|done| |done|done|done|].
      * intros n e H. apply H6 in H as [H|[-> ->]]; [by left|right; done].
      * exists empty. split; [done|]. left. split_and!; done.
    + split_and!; [by constructor|done|done|by left|done|done|done].
Qed.
Lemma apply_inv s name id u s' a : inv s → apply_update app s name id u = (s', a) → inv s'.
Proof.
  intros [Hk Ho Hc Hd] E. unfold apply_update in E. destruct (s_heap s !! id) as [g|]; [|injection E as <- <-; by constructor].
  destruct (app g u); injection E as <- <-; constructor; cbn; try done. intros n i H. destruct (decide (n = name)) as [->|]; [rewrite lookup_insert; by eexists|].
  rewrite lookup_insert_ne by done. by eapply Hd.
Qed.
Lemma step_inv s o : inv s → inv (step app empty s o).1.
Proof.
  intros Hi. pose proof Hi as [Hk Ho Hc Hd]. destruct o as [t name create|t e1 e2|t u|w|name|name|name e1 e2|name g ow e1 e2|keep e]; cbn [step].
  - cbn. unfold get_entry. destruct (cache_get (s_cache s) name) as [[id|]|] eqn:E; [by constructor|by constructor|]. constructor; cbn.
    + unfold keys_ok. rewrite fmap_app. apply NoDup_app. split_and!; [done| |apply NoDup_singleton]. intros n Hn H. apply elem_of_list_singleton in H as ->.
      by apply cache_get_None in E.
    + by apply order_snoc_None.
    + intros n i H. apply elem_of_app in H as [H|H]; [by eapply Hc|]. apply elem_of_list_singleton in H. discriminate H.
    + intros n i H. apply elem_of_app in H as [H|H]; [by eapply Hd|]. apply elem_of_list_singleton in H. discriminate H.
  - destruct (s_threads s !! t) as [[name create|]|]; [|done|done]. destruct (load_entry_with_lock app empty s name create e1 e2) as [s' r] eqn:E.
    apply load_inv in E as ([H1 H2 H3 H4] & _); [|done]. destruct r; by constructor.
  - destruct (s_threads s !! t) as [[|name id]|]; [done| |done]. destruct (apply_update app s name id u) as [s' a] eqn:E. by eapply apply_inv.
  - unfold sync. destruct (s_workers s !! w) as [[name id]|]; [|done]. constructor; cbn; try done. intros n i H. apply Hd in H.
    destruct (s_disk s !! name) eqn:E1; [|done]. destruct (s_heap s !! id); [|done]. destruct (decide (n = name)) as [->|]; [rewrite lookup_insert; by eexists|by rewrite lookup_insert_ne].
  - constructor; cbn; [by apply remove_keys|by apply order_filter| |]; intros n i [H _]%elem_of_remove; eauto.
  - constructor; cbn; [by apply remove_keys|by apply order_filter| |]; intros n i [H Hn]%elem_of_remove; [eauto|]. rewrite lookup_delete_ne by (cbn in Hn; done). eauto.
  - destruct (_ || _); [done|]. destruct (load_entry_with_lock app empty s name true e1 e2) as [s' r] eqn:E. apply load_inv in E as (H & _); [|done]. by destruct r.
  - unfold import. destruct (negb ow && _).
    + constructor; cbn; [by apply check_keys|by apply check_order| |]; intros n i H; apply check_sub in H; eauto.
    + cbn. assert (keys_ok (check_cache_size_and_remove_with_cache e1 [] (s_cache s)).1) as Hk1 by by apply check_keys.
      assert (keys_ok (cache_insert (check_cache_size_and_remove_with_cache e1 [] (s_cache s)).1 name None)) as Hk2 by by apply insert_keys.
      assert (∀ n i, (n, Some i) ∈ (check_cache_size_and_remove_with_cache e2 [name] (cache_insert (check_cache_size_and_remove_with_cache e1 [] (s_cache s)).1 name None)).1 → (n, Some i) ∈ s_cache s) as Hs.
      { intros n i H. apply check_sub in H; [|done]. apply elem_of_insert in H as [[H _]|H]; [by apply check_sub in H|discriminate H]. }
      constructor; cbn.
      * by apply check_keys.
      * apply check_order; [done|]. apply order_snoc_None, order_filter, check_order; done.
      * eauto.
      * intros n i H. apply Hs, Hd in H. destruct (decide (n = name)) as [->|]; [rewrite lookup_insert; by eexists|by rewrite lookup_insert_ne].
  - destruct (check_cache_size_and_remove_with_cache e keep (s_cache s)) as [c b] eqn:E. cbn.
    assert (c = (check_cache_size_and_remove_with_cache e keep (s_cache s)).1) as -> by by rewrite E.
    constructor; cbn; [by apply check_keys|by apply check_order| |]; intros n i H; apply check_sub in H; eauto.
Qed.
Lemma run_inv l : ∀ s, inv s → inv (run app empty s l).1.
Proof.
  induction l as [|o l IH]; intros s Hi; [done|]. cbn [run]. destruct (step app empty s o) as [s1 a] eqn:E. pose proof (step_inv s o Hi) as H1. rewrite E in H1.
  specialize (IH s1 H1). destruct (run app empty s1 l) as [s2 as_]. done.
Qed.
Lemma initial_inv disk : inv (initial disk).
Proof. constructor; cbn; [apply NoDup_nil_2|constructor| |]; intros n i H; inversion H. Qed.

(** ** Contents *)
Record cinv s (d : gmap N G) : Prop := {
  c_heap : ∀ n i, (n, Some i) ∈ s_cache s → s_heap s !! i = d !! n;
  c_dom : ∀ n, is_Some (s_disk s !! n) ↔ is_Some (d !! n);
  c_saved : ∀ n, ¬ unsaved s n → (s_disk s !! n ≫= open_dir app) = d !! n;
  c_worker : ∀ n i, (n, i) ∈ s_workers s → (n, Some i) ∈ s_cache s }.
Lemma cached_iff s n i : inv s → is_cached s n i ↔ (n, Some i) ∈ s_cache s.
Proof. intros Hi. apply cache_get_Some, Hi. Qed.
Lemma order_inj (c : cache) n m i : in_loading_order c → (n, Some i) ∈ c → (m, Some i) ∈ c → n = m.
Proof.
  unfold in_loading_order. induction c as [|[k [j|]] c IH]; intros Hs H1 H2; [inversion H1| |].
  - cbn [omap list_omap snd] in Hs. apply StronglySorted_inv in Hs as [Hs Hf]. rewrite Forall_forall in Hf.
    assert (∀ x, (x, Some i) ∈ c → j < i) as Hl. { intros x Hx. apply Hf. apply elem_of_list_omap. by exists (x, Some i). }
    apply elem_of_cons in H1 as [H1|H1]; apply elem_of_cons in H2 as [H2|H2].
    + injection H1 as -> _. injection H2 as -> _. done.
    + injection H1 as -> ->. apply Hl in H2. lia.
    + injection H2 as -> ->. apply Hl in H1. lia.
    + by apply IH.
  - cbn [omap list_omap snd] in Hs. apply elem_of_cons in H1 as [H1|H1]; [discriminate H1|]. apply elem_of_cons in H2 as [H2|H2]; [discriminate H2|]. by apply IH.
Qed.
(** A step that only drops entries from the cache *)
Lemma drop_cinv s c d : inv s → cinv s d → (∀ n i, (n, Some i) ∈ c → (n, Some i) ∈ s_cache s) →
  (∀ n i, (n, Some i) ∈ s_cache s → (n, Some i) ∉ c → ¬ unsaved s n) →
  cinv (State c (s_disk s) (s_heap s) (s_clock s) (s_workers s) (s_threads s)) d.
Proof.
  intros Hi [H1 H2 H3 H4] Hs Hu. constructor; cbn; [eauto|done|done|]. intros n i Hw. pose proof (H4 n i Hw) as Hc.
  destruct (decide ((n, Some i) ∈ c)) as [|Hn]; [done|]. destruct (Hu n i Hc Hn). by exists i.
Qed.
Lemma step_cinv s o d : inv s → cinv s d → calm app empty s o → cinv (step app empty s o).1 (documented app empty s o (step app empty s o).2 d).
Proof.
  intros Hi Hci [Hcalm Hcalm']. pose proof (step_inv s o Hi) as Hi'. pose proof Hci as [H1 H2 H3 H4].
  assert (∀ n i, (n, Some i) ∈ s_cache s → (n, Some i) ∉ s_cache (step app empty s o).1 → ¬ unsaved s n) as Hlost.
  { intros n i Ha Hb. eapply Hcalm; [by apply cached_iff|]. intros Hx. apply cached_iff in Hx; [|done]. by apply Hb. }
  assert (∀ n, (∀ i, (n, Some i) ∉ s_cache s) → ¬ unsaved s n) as Hnc. { intros n Hn [i Hw]. eapply Hn, H4, Hw. }
  clear Hcalm. destruct o as [t name create|t e1 e2|t u|w|name|name|name e1 e2|name g ow e1 e2|keep e]; cbn [step] in *.
  - cbn in *. unfold get_entry in *. destruct (cache_get (s_cache s) name) as [[id|]|] eqn:E; constructor; cbn; try done.
    + intros n i H. apply elem_of_app in H as [H|H]; [by apply H1|]. apply elem_of_list_singleton in H. discriminate H.
    + intros n i H. apply elem_of_app. left. by apply H4.
  - destruct (s_threads s !! t) as [[name create|]|] eqn:Et; cbn [documented fst snd]; [|by rewrite ?Et|by rewrite ?Et].
    destruct (load_entry_with_lock app empty s name create e1 e2) as [s' r] eqn:E.
    pose proof (load_inv _ _ _ _ _ _ _ Hi E) as (Hi'' & Hw & Hth & Hsub & Hr). destruct r as [id|]; cbn [documented fst snd set_thread] in *.
    + rewrite Et. destruct Hr as (-> & Hc & Hin & g & Hh & Hcase).
      assert (¬ unsaved s name) as Hun. { apply Hnc. intros i H. eapply (Hcalm' name create); [done|]. apply cached_iff; done. }
      assert (default empty (d !! name) = g) as Hg.
      { destruct Hcase as [(Hd & _ & -> & _)|(Ho & _)].
        - destruct (d !! name) eqn:Ex; [|done]. assert (is_Some (s_disk s !! name)) as [? Hx] by (apply H2; by eexists). congruence.
        - rewrite H3 in Ho by done. by rewrite Ho. }
      rewrite Hg. constructor; cbn.
      * intros n i H. apply Hsub in H as [H|(-> & H & _)].
        -- destruct (decide (n = name)) as [->|Hne].
           { destruct (Hcalm' name create eq_refl i). by apply cached_iff. }
           rewrite Hh, lookup_insert_ne by (apply i_clock in H; [lia|done]). rewrite lookup_insert_ne by done. by apply H1.
        -- injection H as ->. by rewrite Hh, !lookup_insert.
      * intros n. destruct (decide (n = name)) as [->|Hne].
        -- rewrite lookup_insert. split; [by eexists|]. intros _. eapply i_disk; [exact Hi''|exact Hin].
        -- rewrite lookup_insert_ne by done. rewrite <- H2. destruct Hcase as [(_ & _ & _ & ->)|(_ & ->)]; [by rewrite lookup_insert_ne|done].
      * intros n Hn. destruct (decide (n = name)) as [->|Hne].
        -- rewrite lookup_insert. destruct Hcase as [(_ & _ & -> & ->)|(Ho & ->)]; [by rewrite lookup_insert|done].
        -- rewrite lookup_insert_ne by done. assert (¬ unsaved s n) as Hn'. { unfold unsaved in *. cbn in Hn. by rewrite Hw in Hn. }
           rewrite <- H3 by done. destruct Hcase as [(_ & _ & _ & ->)|(_ & ->)]; [by rewrite lookup_insert_ne|done].
      * intros n i H. rewrite Hw in H. pose proof (H4 n i H) as Hx. destruct (decide ((n, Some i) ∈ s_cache s')) as [|Hn]; [done|].
        destruct (Hlost n i Hx Hn). by exists i.
    + destruct Hr as (Hd & Hh & _). constructor; cbn.
      * intros n i H. apply Hsub in H as [H|(_ & _ & H)]; [|done]. rewrite Hh. by apply H1.
      * intros n. by rewrite Hd.
      * intros n Hn. rewrite Hd. apply H3. intros [i Hx]. apply Hn. exists i. cbn. by rewrite Hw.
      * intros n i H. rewrite Hw in H. pose proof (H4 n i H) as Hx. destruct (decide ((n, Some i) ∈ s_cache s')) as [|Hn]; [done|].
        destruct (Hlost n i Hx Hn). by exists i.
  - destruct (s_threads s !! t) as [[|name id]|] eqn:Et; cbn [documented fst snd]; [done| |done].
    destruct (Hcalm' name id eq_refl) as [Hcd Hfail]. apply cached_iff in Hcd; [|done].
    assert (is_Some (d !! name)) as [g Hg]. { apply H2. by eapply i_disk. }
    pose proof (H1 _ _ Hcd) as Hh. rewrite Hg in Hh. unfold apply_update in *. rewrite Hh in *. destruct (app g u) as [g'|] eqn:Ea; cbn [documented fst snd] in *.
    + rewrite Et. constructor; cbn.
      * intros n i H. destruct (decide (n = name)) as [->|Hne].
        -- assert (i = id) as -> by (pose proof (pair_unique _ _ _ _ (i_keys _ Hi) H Hcd); congruence). rewrite lookup_insert, lookup_partial_alter, Hg. by rewrite <- Ea.
        -- rewrite lookup_insert_ne; [rewrite lookup_partial_alter_ne by done; by apply H1|]. intros ->. apply Hne. by eapply order_inj; [apply Hi| |].
      * intros n. destruct (decide (n = name)) as [->|Hne].
        -- rewrite lookup_insert, lookup_partial_alter, Hg. cbn. rewrite Ea. split; by eexists.
        -- rewrite lookup_insert_ne, lookup_partial_alter_ne by done. apply H2.
      * intros n Hn. destruct (decide (n = name)) as [->|Hne].
        -- destruct Hn. exists id. cbn. apply elem_of_app. right. left.
        -- rewrite lookup_insert_ne, lookup_partial_alter_ne by done. apply H3. intros [i Hx]. apply Hn. exists i. cbn. apply elem_of_app. by left.
      * intros n i H. apply elem_of_app in H as [H|H]; [by apply H4|]. apply elem_of_list_singleton in H. injection H as -> ->. done.
    + specialize (Hfail eq_refl). specialize (H3 name Hfail). rewrite Hg in H3. rewrite H3. constructor; cbn; try done.
      * intros n i H. destruct (decide (i = id)) as [->|Hne]; [|rewrite lookup_insert_ne by done; by apply H1]. rewrite lookup_insert. rewrite <- Hg. f_equal. symmetry. by eapply order_inj; [apply Hi| |].
      * apply Hci.
  - cbn [documented fst snd] in *. unfold sync in *. destruct (s_workers s !! w) as [[name id]|] eqn:Ew; [|done].
    pose proof (elem_of_list_lookup_2 _ _ _ Ew) as Hw. pose proof (H4 _ _ Hw) as Hcd. destruct (i_disk _ Hi _ _ Hcd) as [dd Hdd].
    assert (is_Some (d !! name)) as [g Hg] by (apply H2; by eexists). pose proof (H1 _ _ Hcd) as Hh. rewrite Hg in Hh. rewrite Hdd, Hh. constructor; cbn.
    + done.
    + intros n. destruct (decide (n = name)) as [->|Hne]; [rewrite lookup_insert, Hg; split; by eexists|by rewrite lookup_insert_ne].
    + intros n Hn. destruct (decide (n = name)) as [->|Hne]; [by rewrite lookup_insert, Hg|]. rewrite lookup_insert_ne by done. apply H3. intros [i Hx]. apply Hn. exists i. cbn.
      apply elem_of_list_lookup in Hx as [k Hk]. rewrite delete_take_drop. apply elem_of_app. destruct (decide (k < w)).
      * left. apply elem_of_take. by exists k.
      * right. destruct (decide (k = w)) as [->|]; [congruence|]. apply elem_of_list_lookup. exists (k - S w). rewrite lookup_drop. rewrite <- Hk. f_equal. lia.
    + intros n i H. apply H4. rewrite delete_take_drop in H. apply elem_of_app in H as [H|H].
      * apply elem_of_take in H as (k & H & _). by apply elem_of_list_lookup_2 in H.
      * apply elem_of_list_lookup in H as [k H]. rewrite lookup_drop in H. by apply elem_of_list_lookup_2 in H.
  - cbn [documented fst snd] in *. apply drop_cinv; [done|done| |done]. intros n i H. by apply elem_of_remove in H as [H _].
  - cbn [documented fst snd] in *.
    assert (¬ unsaved s name) as Hun.
    { intros [i Hw]. pose proof (H4 _ _ Hw) as Hc. apply (Hlost _ _ Hc); [|by exists i]. cbn. intros [_ Hx]%elem_of_remove. by apply Hx. }
    assert (cinv (State (cache_remove (s_cache s) name) (delete name (s_disk s)) (s_heap s) (s_clock s) (s_workers s) (s_threads s)) (delete name d)) as Hgoal.
    { constructor; cbn.
      - intros n i [H Hn]%elem_of_remove. rewrite lookup_delete_ne by (cbn in Hn; done). by apply H1.
      - intros n. destruct (decide (n = name)) as [->|]; [rewrite !lookup_delete; split; intros [? ?]; done|by rewrite !lookup_delete_ne].
      - intros n Hn. destruct (decide (n = name)) as [->|]; [by rewrite !lookup_delete|rewrite !lookup_delete_ne by done]. apply H3. intros [i Hx]. apply Hn. by exists i.
      - intros n i H. apply elem_of_remove. split; [by apply H4|]. cbn. intros ->. apply Hun. by exists i. }
    destruct (_ || _) eqn:Eb; [done|]. assert (delete name d = d) as Hdel.
    { apply delete_notin. destruct (d !! name) eqn:Ex; [|done]. assert (is_Some (s_disk s !! name)) as Hx by (apply H2; by eexists).
      rewrite bool_decide_true in Eb by done. done. }
    by rewrite Hdel in Hgoal.
  - destruct (bool_decide (is_Some (cache_get (s_cache s) name)) || bool_decide (is_Some (s_disk s !! name))) eqn:Eb; cbn [documented fst snd]; [done|].
    apply orb_false_iff in Eb as [Eb1 Eb2]. apply bool_decide_eq_false in Eb1, Eb2.
    assert (s_disk s !! name = None) as Ed by (by apply eq_None_not_Some). assert (cache_get (s_cache s) name = None) as Ec by (by apply eq_None_not_Some).
    destruct (load_entry_with_lock app empty s name true e1 e2) as [s' r] eqn:E. pose proof (load_inv _ _ _ _ _ _ _ Hi E) as (Hi'' & Hw & Hth & Hsub & Hr).
    destruct r as [id|]; cbn [documented fst snd] in *.
    + destruct Hr as (-> & Hc & Hin & g & Hh & Hcase). destruct Hcase as [(_ & _ & -> & Hd)|(Ho & _)]; [|rewrite Ed in Ho; done].
      constructor.
      * intros n i H. apply Hsub in H as [H|(-> & H & _)].
        -- assert (n ≠ name). { intros ->. apply cache_get_Some in H; [congruence|apply Hi]. }
           rewrite Hh, lookup_insert_ne by (apply i_clock in H; [lia|done]). rewrite lookup_insert_ne by done. by apply H1.
        -- injection H as ->. by rewrite Hh, !lookup_insert.
      * intros n. rewrite Hd. destruct (decide (n = name)) as [->|Hne]; [rewrite !lookup_insert; split; by eexists|by rewrite !lookup_insert_ne].
      * intros n Hn. rewrite Hd. destruct (decide (n = name)) as [->|Hne]; [by rewrite !lookup_insert|rewrite !lookup_insert_ne by done]. apply H3.
        intros [i Hx]. apply Hn. exists i. by rewrite Hw.
      * intros n i H. rewrite Hw in H. pose proof (H4 n i H) as Hx. destruct (decide ((n, Some i) ∈ s_cache s')) as [|Hn]; [done|].
        destruct (Hlost n i Hx Hn). by exists i.
    + unfold load_entry_with_lock in E. rewrite Ed in E. discriminate E.
  - unfold import in *. destruct (negb ow && _) eqn:Eb; cbn [documented fst snd] in *.
    + apply drop_cinv; [done|done| |done]. intros n i H. apply check_sub in H; [done|apply Hi].
    + assert (keys_ok (check_cache_size_and_remove_with_cache e1 [] (s_cache s)).1) as Hk1 by (apply check_keys, Hi).
      assert (keys_ok (cache_insert (check_cache_size_and_remove_with_cache e1 [] (s_cache s)).1 name None)) as Hk2 by by apply insert_keys.
      assert (∀ n i, (n, Some i) ∈ (check_cache_size_and_remove_with_cache e2 [name] (cache_insert (check_cache_size_and_remove_with_cache e1 [] (s_cache s)).1 name None)).1 → (n, Some i) ∈ s_cache s ∧ n ≠ name) as Hs.
      { intros n i H. apply check_sub in H; [|done]. apply elem_of_insert in H as [[H Hn]|H]; [split; [apply check_sub in H; [done|apply Hi]|done]|discriminate H]. }
      assert (¬ unsaved s name) as Hun.
      { intros [i Hw]. pose proof (H4 _ _ Hw) as Hc. apply (Hlost _ _ Hc); [|by exists i]. cbn. intros [_ Hx]%Hs. by apply Hx. }
      constructor; cbn.
      * intros n i [H Hn]%Hs. rewrite lookup_insert_ne by done. by apply H1.
      * intros n. destruct (decide (n = name)) as [->|Hne]; [rewrite !lookup_insert; split; by eexists|by rewrite !lookup_insert_ne].
      * intros n Hn. destruct (decide (n = name)) as [->|Hne]; [by rewrite !lookup_insert|rewrite !lookup_insert_ne by done]. apply H3. intros [i Hx]. apply Hn. by exists i.
      * intros n i H. pose proof (H4 _ _ H) as Hc. destruct (decide ((n, Some i) ∈ (check_cache_size_and_remove_with_cache e2 [name] (cache_insert (check_cache_size_and_remove_with_cache e1 [] (s_cache s)).1 name None)).1)) as [|Hn]; [done|].
        destruct (Hlost _ _ Hc Hn). by exists i.
  - destruct (check_cache_size_and_remove_with_cache e keep (s_cache s)) as [c b] eqn:E. cbn [documented fst snd] in *.
    assert (c = (check_cache_size_and_remove_with_cache e keep (s_cache s)).1) as Hc by by rewrite E.
    destruct b; (apply drop_cinv; [done|done| |done]); intros n i H; rewrite Hc in H; (apply check_sub in H; [done|apply Hi]).
Qed.
Lemma run_cinv l : ∀ s d, inv s → cinv s d → calm_run app empty s l → inv (run app empty s l).1 ∧ cinv (run app empty s l).1 (documented_run app empty s l d).
Proof.
  induction l as [|o l IH]; intros s d Hi Hc Hcalm; [done|]. cbn [run documented_run calm_run] in *. destruct Hcalm as [Hc1 Hc2].
  pose proof (step_inv s o Hi) as Hi1. pose proof (step_cinv s o d Hi Hc Hc1) as Hci1. destruct (step app empty s o) as [s1 a] eqn:E. cbn [fst snd] in *.
  destruct (IH s1 _ Hi1 Hci1 Hc2) as [H1 H2]. by destruct (run app empty s1 l) as [s2 as_].
Qed.
Lemma initial_cinv disk : (∀ n x, disk !! n = Some x → open_dir app x ≠ None) → cinv (initial disk) (omap (open_dir app) disk).
Proof.
  intros Ho. constructor; cbn.
  - intros n i H. inversion H.
  - intros n. rewrite lookup_omap. destruct (disk !! n) as [x|] eqn:E; [|split; intros [? H]; discriminate H]. specialize (Ho n x E). cbn. destruct (open_dir app x); [|done]. split; by eexists.
  - intros n _. rewrite lookup_omap. by destruct (disk !! n).
  - intros n i H. inversion H.
Qed.
Lemma request_spec s d t n g create e1 e2 : inv s → cinv s d → d !! n = Some g →
  ∃ i, let s' := (run app empty s [OGet t n create; OLoad t e1 e2]).1 in
    s_threads s' !! t = Some (Holding n i) ∧ is_cached s' n i ∧ s_heap s' !! i = Some g.
Proof.
  intros Hi Hc Hg. pose proof Hc as [H1 H2 H3 H4]. pose proof (step_inv s (OGet t n create) Hi) as Hi1. cbn [run step]. cbn [step fst] in Hi1. unfold get_entry in *.
  destruct (cache_get (s_cache s) n) as [[i|]|] eqn:E.
  - exists i. cbn. rewrite lookup_insert. cbn. rewrite lookup_insert. split_and!; [done|done|]. rewrite <- Hg. apply H1. apply cache_get_Some; [apply Hi|done].
  - cbn [s_threads]. rewrite lookup_insert. set (s1 := State _ _ _ _ _ _) in *. 
    assert ((s_disk s !! n ≫= open_dir app) = Some g) as Ho.
    { rewrite H3; [done|]. intros [i Hw]. apply H4 in Hw. apply cache_get_Some in Hw; [congruence|apply Hi]. }
    destruct (load_entry_with_lock app empty s1 n create e1 e2) as [s2 r] eqn:El. pose proof (load_inv _ _ _ _ _ _ _ Hi1 El) as (Hi2 & _ & _ & _ & Hr).
    destruct r as [i|].
    + destruct Hr as (-> & _ & Hin & g' & Hh & Hcase). exists (s_clock s1). cbn [set_thread s_threads fst snd s_heap]. rewrite lookup_insert. split_and!; [done| |].
      * apply (cached_iff s2); done.
      * rewrite Hh, lookup_insert. destruct Hcase as [(Hx & _)|(Hx & _)]; cbn in Hx; [rewrite Hx in Ho; done|congruence].
    + exfalso. unfold load_entry_with_lock in El. cbn in El. destruct (s_disk s !! n) as [dd|]; [|done]. cbn in Ho. rewrite Ho in El. discriminate El.
  - cbn [s_threads]. rewrite lookup_insert. set (s1 := State _ _ _ _ _ _) in *. 
    assert ((s_disk s !! n ≫= open_dir app) = Some g) as Ho.
    { rewrite H3; [done|]. intros [i Hw]. apply H4 in Hw. apply cache_get_Some in Hw; [congruence|apply Hi]. }
    destruct (load_entry_with_lock app empty s1 n create e1 e2) as [s2 r] eqn:El. pose proof (load_inv _ _ _ _ _ _ _ Hi1 El) as (Hi2 & _ & _ & _ & Hr).
    destruct r as [i|].
    + destruct Hr as (-> & _ & Hin & g' & Hh & Hcase). exists (s_clock s1). cbn [set_thread s_threads fst snd s_heap]. rewrite lookup_insert. split_and!; [done| |].
      * apply (cached_iff s2); done.
      * rewrite Hh, lookup_insert. destruct Hcase as [(Hx & _)|(Hx & _)]; cbn in Hx; [rewrite Hx in Ho; done|congruence].
    + exfalso. unfold load_entry_with_lock in El. cbn in El. destruct (s_disk s !! n) as [dd|]; [|done]. cbn in Ho. rewrite Ho in El. discriminate El.
Qed.
(** ** Existing corpora *)
Lemma create_spec s name e1 e2 : inv s → ¬ leftover s name →
  let r := step app empty s (OCreate name e1 e2) in
  r.2 = RAnswer (bool_decide (s_disk s !! name = None)) ∧
  (s_disk s !! name ≠ None → r.1 = s) ∧
  (s_disk s !! name = None → s_disk r.1 = <[name := Dir (Some empty) None]> (s_disk s) ∧ ∃ i, is_cached r.1 name i ∧ s_heap r.1 !! i = Some empty).
Proof.
  intros Hi Hl. cbn [step]. destruct (s_disk s !! name) as [x|] eqn:Ed.
  - rewrite (bool_decide_true (is_Some (Some x))) by by eexists. rewrite orb_true_r. cbn. split_and!; done.
  - assert (cache_get (s_cache s) name = None) as Ec.
    { destruct (cache_get (s_cache s) name) as [[i|]|] eqn:E; [|by destruct Hl|done]. apply cache_get_Some in E; [|apply Hi]. apply i_disk in E as [? E]; [congruence|done]. }
    rewrite Ec. cbn [orb]. rewrite !bool_decide_false by (intros [? ?]; done). cbn [orb].
    destruct (load_entry_with_lock app empty s name true e1 e2) as [s' r] eqn:E. pose proof (load_inv _ _ _ _ _ _ _ Hi E) as (Hi' & _ & _ & _ & Hr).
    destruct r as [i|]; cbn.
    + destruct Hr as (-> & _ & Hin & g & Hh & Hcase). destruct Hcase as [(_ & _ & -> & Hd)|(Hx & _)]; [|by rewrite Ed in Hx]. split_and!; [done|done|]. intros _. split; [done|].
      exists (s_clock s). split; [by apply cached_iff|]. by rewrite Hh, lookup_insert.
    + unfold load_entry_with_lock in E. rewrite Ed in E. discriminate E.
Qed.
Lemma delete_spec s name : inv s →
  let r := step app empty s (ODelete name) in
  (¬ leftover s name → r.2 = RAnswer (bool_decide (is_Some (s_disk s !! name)))) ∧
  s_disk r.1 = delete name (s_disk s) ∧ cache_get (s_cache r.1) name = None ∧ (∀ n, n ≠ name → cache_get (s_cache r.1) n = cache_get (s_cache s) n).
Proof.
  intros Hi. cbn [step fst snd s_cache s_disk]. split_and!.
  - intros Hl. f_equal. destruct (s_disk s !! name) as [x|] eqn:Ed; [by rewrite bool_decide_true by by eexists|].
    destruct (cache_get (s_cache s) name) as [[i|]|] eqn:E; [|by destruct Hl|done]. apply cache_get_Some in E; [|apply Hi]. apply i_disk in E as [? E]; [congruence|done].
  - done.
  - apply cache_get_None. intros H. apply elem_of_list_fmap in H as (p & -> & Hp). apply elem_of_remove in Hp as [_ Hp]. done.
  - intros n Hn. apply option_eq. intros e. rewrite cache_get_Some by (apply remove_keys, Hi). rewrite cache_get_Some by apply Hi. rewrite elem_of_remove. cbn. tauto.
Qed.
Lemma import_spec s name g ow e1 e2 : inv s → ¬ leftover s name →
  let r := step app empty s (OImport name g ow e1 e2) in
  (ow = false → s_disk s !! name ≠ None → r.2 = RError ∧ s_disk r.1 = s_disk s) ∧
  (ow = true ∨ s_disk s !! name = None → r.2 = RAnswer true ∧ s_disk r.1 = <[name := Dir (Some g) None]> (s_disk s) ∧ cache_get (s_cache r.1) name = Some None).
Proof.
  intros Hi Hl. cbn [step]. unfold import.
  assert (keys_ok (check_cache_size_and_remove_with_cache e1 [] (s_cache s)).1) as Hk1 by (apply check_keys, Hi).
  assert (keys_ok (cache_insert (check_cache_size_and_remove_with_cache e1 [] (s_cache s)).1 name None)) as Hk2 by by apply insert_keys.
  assert (is_Some (cache_get (check_cache_size_and_remove_with_cache e1 [] (s_cache s)).1 name) → is_Some (s_disk s !! name)) as Hx.
  { intros [e He]. apply cache_get_Some in He; [|done]. apply check_sub in He; [|apply Hi]. destruct e as [i|]; [by eapply i_disk|].
    destruct (s_disk s !! name) eqn:E; [by eexists|]. destruct Hl. split; [apply cache_get_Some; [apply Hi|done]|done]. }
  split.
  - intros -> Hd. rewrite (bool_decide_true (is_Some (s_disk s !! name))) by (by apply not_eq_None_Some). rewrite orb_true_r. done.
  - intros Hc. assert (negb ow && (bool_decide (is_Some (cache_get (check_cache_size_and_remove_with_cache e1 [] (s_cache s)).1 name)) || bool_decide (is_Some (s_disk s !! name))) = false) as ->.
    { destruct Hc as [-> |Hd]; [done|]. rewrite !bool_decide_false; [by rewrite andb_false_r|rewrite Hd; intros [? ?]; done|]. intros H. apply Hx in H as [? H]. congruence. }
    cbn. split_and!; [done|done|]. apply cache_get_Some; [by apply check_keys|]. apply check_kept; [done|apply elem_of_insert; by right|]. intros [H _]. by apply H.
Qed.
Lemma leftover_step s o name : inv s → leftover (step app empty s o).1 name →
  leftover s name ∨ ∃ t create, o = OGet t name create ∧ s_disk s !! name = None.
Proof.
  intros Hi [Hc Hd]. pose proof (step_inv s o Hi) as Hi'. apply cache_get_Some in Hc; [|apply Hi'].
  assert ((name, None) ∈ s_cache s → s_disk s !! name = None → leftover s name) as Hl.
  { intros H1 H2. split; [apply cache_get_Some; [apply Hi|done]|done]. }
  clear Hi'. destruct o as [t name' create|t e1 e2|t u|w|name'|name'|name' e1 e2|name' g ow e1 e2|keep e]; cbn [step] in *.
  - cbn in *. unfold get_entry in *. destruct (cache_get (s_cache s) name') as [[id|]|] eqn:E; cbn in *; [left; by apply Hl|left; by apply Hl|].
    apply elem_of_app in Hc as [Hc|Hc]; [left; by apply Hl|]. apply elem_of_list_singleton in Hc. injection Hc as ->. right. by exists t, create.
  - left. destruct (s_threads s !! t) as [[name' create|]|]; cbn in *; [|by apply Hl|by apply Hl].
    destruct (load_entry_with_lock app empty s name' create e1 e2) as [s' r] eqn:E. pose proof (load_inv _ _ _ _ _ _ _ Hi E) as (Hi' & _ & _ & Hsub & Hr).
    assert ((name, None) ∈ s_cache s') as Hc' by (by destruct r). assert (s_disk s' !! name = None) as Hd' by (by destruct r).
    apply Hsub in Hc' as [Hc'|(_ & H & _)]; [|discriminate H]. apply Hl; [done|]. destruct r as [i|].
    + destruct Hr as (_ & _ & _ & g & _ & [(_ & _ & _ & Hx)|(_ & Hx)]); [|congruence]. rewrite Hx in Hd'. apply lookup_insert_None in Hd'. tauto.
    + destruct Hr as (Hx & _). congruence.
  - left. destruct (s_threads s !! t) as [[|name' id]|]; cbn in *; [by apply Hl| |by apply Hl]. unfold apply_update in *. destruct (s_heap s !! id) as [g|]; [|by apply Hl].
    destruct (app g u); cbn in *; [apply Hl; [done|]; apply lookup_insert_None in Hd; tauto|by apply Hl].
  - left. cbn in *. unfold sync in *. destruct (s_workers s !! w) as [[name' id]|]; cbn in *; [|by apply Hl]. apply Hl; [done|].
    destruct (s_disk s !! name'), (s_heap s !! id); [apply lookup_insert_None in Hd; tauto|done|done|done].
  - left. cbn in *. apply elem_of_remove in Hc as [Hc _]. by apply Hl.
  - left. cbn in *. apply elem_of_remove in Hc as [Hc Hn]. apply Hl; [done|]. rewrite lookup_delete_ne in Hd by (cbn in Hn; done). done.
  - left. destruct (_ || _); cbn in *; [by apply Hl|].
    destruct (load_entry_with_lock app empty s name' true e1 e2) as [s' r] eqn:E. pose proof (load_inv _ _ _ _ _ _ _ Hi E) as (Hi' & _ & _ & Hsub & Hr).
    assert ((name, None) ∈ s_cache s') as Hc' by (by destruct r). assert (s_disk s' !! name = None) as Hd' by (by destruct r).
    apply Hsub in Hc' as [Hc'|(_ & H & _)]; [|discriminate H]. apply Hl; [done|]. destruct r as [i|].
    + destruct Hr as (_ & _ & _ & g & _ & [(_ & _ & _ & Hx)|(_ & Hx)]); [|congruence]. rewrite Hx in Hd'. apply lookup_insert_None in Hd'. tauto.
    + destruct Hr as (Hx & _). congruence.
  - left. unfold import in *. destruct (negb ow && _); cbn in *.
    + apply Hl; [|done]. apply check_sub in Hc; [done|apply Hi].
    + apply lookup_insert_None in Hd as [Hd Hn]. apply Hl; [|done]. apply check_sub in Hc; [|by apply insert_keys, check_keys, Hi].
      apply elem_of_insert in Hc as [[Hc _]|Hc]; [apply check_sub in Hc; [done|apply Hi]|by injection Hc as ->].
  - left. destruct (check_cache_size_and_remove_with_cache e keep (s_cache s)) as [c b] eqn:E. cbn in *.
    assert (c = (check_cache_size_and_remove_with_cache e keep (s_cache s)).1) as -> by by rewrite E. apply Hl; [|done]. apply check_sub in Hc; [done|apply Hi].
Qed.
End Storage.
