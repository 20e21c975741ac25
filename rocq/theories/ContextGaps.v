From stdpp Require Import base list gmap sorting.
From Coq Require Import NArith Arith Lia.
From Verif Require Import KeySer KeySerSpec SortedMap Types TypesProofs SymbolTable AnnoMem AnnoSpec GraphSpec Adjacency AdjacencySpec
  AdjacencyProofs Storage StorageSpec GraphApply TokenHelper TokenSearchSpec TokenSearchProofs QuickSort QuickSortSpec QuickSortProofs
  QuickSortAny SortMatches SortMatchesSpec SortMatchesProofs Dfs DfsProofs LinearProofs Context ContextSpec ContextProofs.

(** The tokens in the order in which they are seen first *)
Fixpoint new_tokens (th : helper) (seen : gset N) (l : list N) : list N :=
  match l with
  | [] => []
  | n :: l' => if decide (n ∈ seen) then new_tokens th seen l'
               else if is_token th n then n :: new_tokens th ({[n]} ∪ seen) l' else new_tokens th ({[n]} ∪ seen) l'
  end.
Definition dist_gap (order : storage) (p n : N) : bool :=
  match gs_distance order p n with Some d => bool_decide (1 < d)%N | None => false end.
Fixpoint pair_gaps (order : storage) (prev : option N) (ts : list N) : list edge :=
  match ts with
  | [] => []
  | n :: ts' => (match prev with Some p => if dist_gap order p n then [Edge p n] else [] | None => [] end) ++ pair_gaps order (Some n) ts'
  end.
Lemma gap_edges_pairs th order l : ∀ seen prev, gap_edges th order seen prev l = pair_gaps order prev (new_tokens th seen l).
Proof.
  induction l as [|n l IH]; intros seen prev; cbn [gap_edges new_tokens]; [done|]. destruct (decide (n ∈ seen)); [apply IH|].
  destruct (is_token th n); [|apply IH]. cbn [pair_gaps]. rewrite IH. f_equal. destruct prev as [p|]; [|done]. unfold dist_gap.
  destruct (gs_distance order p n) as [d|]; [|done]. by destruct (decide (1 < d)%N) as [Hd|Hd]; [rewrite bool_decide_eq_true_2|rewrite bool_decide_eq_false_2].
Qed.
Lemma pair_gaps_in order ts : ∀ prev a b, Edge a b ∈ pair_gaps order prev ts ↔
  dist_gap order a b = true ∧ (prev = Some a ∧ head ts = Some b ∨ ∃ i, ts !! i = Some a ∧ ts !! S i = Some b).
Proof.
  induction ts as [|n ts IH]; intros prev a b; cbn [pair_gaps].
  - rewrite elem_of_nil. split; [done|]. by intros [_ [[_ ?]|(i & Hi & _)]].
  - rewrite elem_of_app, IH. split.
    + intros [Hin|[Hd [[[= ->] Hh]|(i & Hi & Hj)]]].
      * destruct prev as [p|]; [|by apply elem_of_nil in Hin]. destruct (dist_gap order p n) eqn:E; [|by apply elem_of_nil in Hin].
        apply elem_of_list_singleton in Hin as [= -> ->]. split; [done|]. by left.
      * split; [done|]. right. exists 0. split; [done|]. by destruct ts.
      * split; [done|]. right. exists (S i). done.
    + intros [Hd [[-> Hh]|(i & Hi & Hj)]].
      * left. cbn in Hh. injection Hh as ->. rewrite Hd. by left.
      * right. split; [done|]. destruct i as [|i]; [left; cbn in Hi; injection Hi as ->; split; [done|]; by destruct ts|right; by exists i].
Qed.
Lemma new_tokens_in th l : ∀ seen x, x ∈ new_tokens th seen l ↔ x ∈ l ∧ x ∉ seen ∧ is_token th x = true.
Proof.
  induction l as [|n l IH]; intros seen x; cbn [new_tokens].
  - rewrite !elem_of_nil. naive_solver.
  - destruct (decide (n ∈ seen)) as [Hn|Hn].
    + rewrite IH, elem_of_cons. naive_solver.
    + destruct (is_token th n) eqn:E.
      * rewrite !elem_of_cons, IH, not_elem_of_union, not_elem_of_singleton. clear -E Hn. destruct (decide (x = n)) as [->|]; intuition congruence.
      * rewrite IH, elem_of_cons, not_elem_of_union, not_elem_of_singleton. clear -E Hn. destruct (decide (x = n)) as [->|]; intuition congruence.
Qed.
Lemma new_tokens_app th l1 : ∀ seen l2, (∀ n, n ∈ l1 → n ∉ seen → is_token th n = false) →
  ∃ seen', (∀ x, is_token th x = true → x ∈ seen' ↔ x ∈ seen) ∧ new_tokens th seen (l1 ++ l2) = new_tokens th seen' l2.
Proof.
  induction l1 as [|n l1 IH]; intros seen l2 Hl; [by exists seen|]. cbn [app new_tokens].
  destruct (decide (n ∈ seen)) as [Hn|Hn].
  - apply IH. intros m Hm. apply Hl. by right.
  - rewrite (Hl n) by (done || by left). destruct (IH ({[n]} ∪ seen) l2) as (seen' & Hs & He).
    + intros m Hm Hm'. apply Hl; [by right|]. set_solver.
    + exists seen'. split; [|done]. intros x Hx. rewrite Hs by done. rewrite elem_of_union, elem_of_singleton. split; [|by right].
      intros [->|?]; [|done]. rewrite (Hl n) in Hx; [done|by left|done].
Qed.
Lemma new_tokens_seen th l : ∀ seen seen', (∀ x, is_token th x = true → x ∈ seen ↔ x ∈ seen') → new_tokens th seen l = new_tokens th seen' l.
Proof.
  induction l as [|n l IH]; intros seen seen' Hs; [done|]. cbn [new_tokens]. destruct (is_token th n) eqn:E.
  - pose proof (Hs n E) as Hn. destruct (decide (n ∈ seen)), (decide (n ∈ seen')); try tauto; [by apply IH|]. f_equal. apply IH.
    intros x Hx. rewrite !elem_of_union, (Hs x Hx). done.
  - assert (∀ s : gset N, (if decide (n ∈ s) then new_tokens th s l else new_tokens th ({[n]} ∪ s) l) = new_tokens th s l) as Hd.
    { intros s. destruct (decide (n ∈ s)); [done|]. apply IH. intros x Hx. rewrite elem_of_union, elem_of_singleton. split; [|by right].
      intros [->|?]; [congruence|done]. }
    rewrite !Hd. by apply IH.
Qed.
Lemma new_tokens_none th l : ∀ seen, (∀ x, x ∈ l → is_token th x = true → x ∈ seen) → new_tokens th seen l = [].
Proof.
  intros seen Hl. destruct (new_tokens th seen l) as [|x r] eqn:E; [done|]. assert (x ∈ new_tokens th seen l) as Hx by (rewrite E; by left).
  apply new_tokens_in in Hx as (H1 & H2 & H3). by apply Hl in H3.
Qed.

Section Gaps.
Context (db : corpus) (c : content) (H : holds_content db c) (T : texts_ok c).
Context (order : storage) (Eo : cp_order db = Some order) (Hself : at_most_itself order (ct_order c)).
Notation O := (ct_order c).
Context (th : helper) (Eth : th_new db = Some th).

Lemma precedes_irrefl a : ¬ precedes c a a.
Proof using T. destruct T as (Hch & _). apply (before_irrefl O Hch). Qed.
Lemma precedes_trans a b d : precedes c a b → precedes c b d → precedes c a d.
Proof using. apply before_trans. Qed.
Lemma dist_gap_iff a b : dist_gap order a b = true ↔ precedes c a b ∧ ¬ edge_rel O a b.
Proof using H T Eo.
  pose proof (order_implements db c H order Eo) as I. destruct T as (Hch & _). unfold dist_gap.
  pose proof (im_distance _ _ I a b) as Hd. destruct (gs_distance order a b) as [d|].
  - destruct Hd as (p & [Hw _] & Hlen). rewrite bool_decide_eq_true. split.
    + intros Hd. split; [exists p; split; [|done]; intros ->; simpl in Hlen; lia|]. intros He.
      assert (p = [b]) as -> by (by apply (chain_walk_eq O Hch a p [b] b)). simpl in Hlen. lia.
    + intros [(q & Hq & Hw') Hne]. rewrite (chain_walk_eq O Hch a p q b Hw Hw') in *. destruct q as [|x [|y q]]; [done| |simpl in Hlen; lia].
      destruct Hw' as [He Hx]. simpl in Hx. by subst x.
  - split; [done|]. intros [(p & _ & Hw) _]. destruct Hd. by exists p.
Qed.
Lemma gaps_of_ordered l a b : in_text_order c (new_tokens th ∅ l) → Edge a b ∈ gap_edges th order ∅ None l ↔ gap c l a b.
Proof using All.
  intros Ho. rewrite gap_edges_pairs, pair_gaps_in, dist_gap_iff.
  assert (∀ x, x ∈ new_tokens th ∅ l ↔ x ∈ l ∧ token c x) as Hin.
  { intros x. rewrite new_tokens_in, (is_token_iff db c H th x Eth). set_solver. }
  set (ts := new_tokens th ∅ l) in *. split.
  - intros [[Hp Hne] [[? _]|(i & Hi & Hj)]]; [done|].
    destruct (proj1 (Hin a) (elem_of_list_lookup_2 _ _ _ Hi)). destruct (proj1 (Hin b) (elem_of_list_lookup_2 _ _ _ Hj)).
    split_and!; [done..|]. intros u Hu Htu Hau Hub. assert (u ∈ ts) as Hut by (by apply Hin).
    apply elem_of_list_lookup in Hut as [k Hk]. destruct (lt_eq_lt_dec k i) as [[Hlt|Heq]|Hgt].
    + pose proof (Ho _ _ _ _ Hk Hi Hlt) as Hc. apply (precedes_irrefl a). by apply (precedes_trans a u a).
    + subst k. rewrite Hi in Hk. injection Hk as <-. by apply (precedes_irrefl a).
    + destruct (decide (k = S i)) as [->|]; [rewrite Hj in Hk; injection Hk as <-; by apply (precedes_irrefl b)|].
      pose proof (Ho _ _ _ _ Hj Hk ltac:(lia)) as Hc. apply (precedes_irrefl b). by apply (precedes_trans b u b).
  - intros (Ha & Hb & Ta & Tb & Hp & Hne & Hno). split; [done|]. right.
    assert (a ∈ ts) as Ha' by (by apply Hin). assert (b ∈ ts) as Hb' by (by apply Hin).
    apply elem_of_list_lookup in Ha' as [i Hi]. apply elem_of_list_lookup in Hb' as [j Hj]. exists i. split; [done|].
    assert (i < j) as Hij.
    { destruct (lt_eq_lt_dec i j) as [[Hlt|He]|Hlt]; [done|subst j; rewrite Hi in Hj; injection Hj as <-; by apply precedes_irrefl in Hp|].
      pose proof (Ho _ _ _ _ Hj Hi Hlt) as Hc. destruct (precedes_irrefl a). by apply (precedes_trans a b a). }
    destruct (decide (j = S i)) as [->|]; [done|]. destruct (lookup_lt_is_Some_2 ts (S i)) as [u Hu]; [apply lookup_lt_Some in Hj; lia|].
    destruct (proj1 (Hin u) (elem_of_list_lookup_2 _ _ _ Hu)) as [Hul Htu]. destruct (Hno u Hul Htu).
    + apply (Ho _ _ _ _ Hi Hu). lia.
    + apply (Ho _ _ _ _ Hu Hj). lia.
Qed.
(** Blocks of tokens which are the same or come after each other *)
Lemma blocks_order (bs : list (list N)) : ∀ seen,
  (∀ k, k ∈ bs → in_text_order c (new_tokens th ∅ k)) →
  (∀ i j k k', i < j → bs !! i = Some k → bs !! j = Some k' →
     (∀ t, token c t → t ∈ k ↔ t ∈ k') ∨ ∀ t u, token c t → token c u → t ∈ k → u ∈ k' → precedes c t u) →
  (∀ k, k ∈ bs → (∀ t, token c t → t ∈ k → t ∈ seen) ∨ (∀ t, token c t → t ∈ k → t ∉ seen)) →
  in_text_order c (new_tokens th seen (mjoin bs)).
Proof using All.
  assert (∀ x, is_token th x = true ↔ token c x) as Htok by (intros x; by apply (is_token_iff db c H th x Eth)).
  induction bs as [|k bs IH]; intros seen Hone Hpair Hseen; [intros i j a b Hi; done|].
  change (mjoin (k :: bs)) with (k ++ mjoin bs).
  assert (new_tokens th seen (k ++ mjoin bs) = new_tokens th seen k ++ new_tokens th (list_to_set k ∪ seen) (mjoin bs)) as ->.
  { generalize (mjoin bs). clear. intros l. revert seen. induction k as [|n k IH]; intros seen.
    - cbn [app new_tokens]. apply new_tokens_seen. intros x _. set_solver.
    - cbn [app new_tokens]. destruct (decide (n ∈ seen)) as [Hn|Hn].
      + rewrite IH. f_equal. apply new_tokens_seen. intros x _. set_solver.
      + assert (new_tokens th (list_to_set k ∪ ({[n]} ∪ seen)) l = new_tokens th (list_to_set (n :: k) ∪ seen) l) as Hr.
        { apply new_tokens_seen. intros x _. set_solver. }
        destruct (is_token th n); rewrite IH, Hr; done. }
  assert (in_text_order c (new_tokens th (list_to_set k ∪ seen) (mjoin bs))) as Hrest.
  { apply IH.
    - intros k' Hk'. apply Hone. by right.
    - intros i j k1 k2 Hij H1 H2. by apply (Hpair (S i) (S j) k1 k2 ltac:(lia)).
    - intros k' Hk'. destruct (Hseen k') as [Hs|Hs]; [by right|left; intros t Ht Hin; apply elem_of_union; right; by apply Hs|].
      apply elem_of_list_lookup in Hk' as [j Hj]. destruct (Hpair 0 (S j) k k' ltac:(lia) eq_refl Hj) as [He|Hb].
      + left. intros t Ht Hin. apply elem_of_union. left. apply elem_of_list_to_set. by apply He.
      + right. intros t Ht Hin. rewrite elem_of_union, elem_of_list_to_set. intros [Hk|Hk]; [|by apply (Hs t)].
        apply (precedes_irrefl t). by apply Hb. }
  assert (in_text_order c (new_tokens th seen k)) as Hk.
  { destruct (Hseen k) as [Hs|Hs]; [by left| |].
    - rewrite new_tokens_none; [intros i j a b Hi; done|]. intros x Hx Ht. apply Hs; [by apply Htok|done].
    - replace (new_tokens th seen k) with (new_tokens th ∅ k); [apply Hone; by left|].
      clear -Hs Htok. assert (∀ s, (∀ t, token c t → t ∈ k → t ∉ seen) → new_tokens th s k = new_tokens th (s ∪ seen) k) as Hg.
      { induction k as [|n k IHk]; intros s Hs'; [done|]. cbn [new_tokens].
        assert (∀ t, token c t → t ∈ k → t ∉ seen) as Hs2 by (intros t Ht Hin; apply Hs'; [done|by right]).
        destruct (is_token th n) eqn:E.
        + assert (n ∉ seen) as Hn by (apply Hs'; [by apply Htok|by left]).
          destruct (decide (n ∈ s)); [rewrite decide_True by set_solver; apply IHk; [done..]|].
          rewrite decide_False by set_solver. f_equal. rewrite IHk by done. apply new_tokens_seen. intros x _. set_solver.
        + assert (∀ s : gset N, (if decide (n ∈ s) then new_tokens th s k else new_tokens th ({[n]} ∪ s) k) = new_tokens th s k) as Hd.
          { intros s0. destruct (decide (n ∈ s0)); [done|]. apply new_tokens_seen. intros x Hx. rewrite elem_of_union, elem_of_singleton. split; [|by right].
            intros [->|?]; [congruence|done]. }
          rewrite !Hd. by apply IHk. }
      rewrite (Hg ∅ Hs). apply new_tokens_seen. intros x _. set_solver. }
  intros i j a b Hi Hj Hij. destruct (decide (j < length (new_tokens th seen k))) as [Hlt|Hge].
  - rewrite lookup_app_l in Hi, Hj by lia. by apply (Hk i j).
  - rewrite lookup_app_r in Hj by lia. destruct (decide (i < length (new_tokens th seen k))) as [Hlt|Hge'].
    + rewrite lookup_app_l in Hi by lia. apply elem_of_list_lookup_2, new_tokens_in in Hi as (Ha1 & Ha2 & Ha3).
      apply elem_of_list_lookup_2, new_tokens_in in Hj as (Hb1 & Hb2 & Hb3). apply elem_of_list_join in Hb1 as (k' & Hb1 & Hk').
      apply elem_of_list_lookup in Hk' as [m Hm]. destruct (Hpair 0 (S m) k k' ltac:(lia) eq_refl Hm) as [He|Hb].
      * exfalso. apply Hb2. apply elem_of_union. left. apply elem_of_list_to_set. apply He; [by apply Htok|done].
      * apply Hb; [by apply Htok|by apply Htok|done|done].
    + rewrite lookup_app_r in Hi by lia. apply (Hrest _ _ _ _ Hi Hj). lia.
Qed.
(** The tokens of one window *)
Lemma window_new_tokens n l r out : window_nodes c n l r out →
  in_text_order c (new_tokens th ∅ out).
Proof using All.
  intros (gr & -> & Ho & _ & Hc).
  assert (∀ x, is_token th x = true ↔ token c x) as Htok by (intros x; by apply (is_token_iff db c H th x Eth)).
  assert (∀ seen, (∀ t, t ∈ gr.*2 → token c t → t ∉ seen) → sublist (new_tokens th seen (mjoin ((λ g, g.1 ++ [g.2]) <$> gr))) gr.*2) as Hs.
  { assert (NoDup gr.*2) as Hnd.
    { apply NoDup_alt. intros i j x Hi Hj. destruct (lt_eq_lt_dec i j) as [[Hlt|?]|Hlt]; [|done|].
      - destruct (precedes_irrefl x). by apply (Ho i j).
      - destruct (precedes_irrefl x). by apply (Ho j i). }
    clear Ho. induction gr as [|[ns t] gr IH]; intros seen Hseen; [constructor|].
    change (mjoin ((λ g : list N * N, g.1 ++ [g.2]) <$> (ns, t) :: gr)) with ((ns ++ [t]) ++ mjoin ((λ g : list N * N, g.1 ++ [g.2]) <$> gr)). rewrite <- app_assoc.
    destruct (new_tokens_app th ns seen ([t] ++ mjoin ((λ g : list N * N, g.1 ++ [g.2]) <$> gr))) as (seen' & Hs' & ->).
    { intros y Hy _. destruct (Hc ns t ltac:(by left)) as [_ Hy']. apply Hy' in Hy. apply not_true_is_false. intros Ht%Htok.
      by apply (covers_not_token c y t). }
    cbn [app new_tokens]. rewrite fmap_cons in Hnd. apply NoDup_cons in Hnd as [Hnt Hnd]. cbn [snd] in *.
    rewrite fmap_cons. cbn [snd].
    assert (∀ ns0 t0, (ns0, t0) ∈ gr → NoDup ns0 ∧ ∀ y, y ∈ ns0 ↔ covers c y t0) as Hc' by (intros ns0 t0 Hin; apply Hc; by right).
    assert (∀ u, u ∈ gr.*2 → token c u → u ∉ seen') as Hu.
    { intros u Hu Htu Hin. apply Hs' in Hin; [|by apply Htok]. revert Hin. apply Hseen; [by right|done]. }
    destruct (decide (t ∈ seen')); [apply sublist_cons, (IH Hc' Hnd _ Hu)|].
    destruct (is_token th t).
    - apply sublist_skip. apply (IH Hc' Hnd). intros u Hu1 Hu2 Hin. apply elem_of_union in Hin as [->%elem_of_singleton|Hin]; [done|].
      by apply (Hu u).
    - apply sublist_cons. apply (IH Hc' Hnd). intros u Hu1 Hu2 Hin. apply elem_of_union in Hin as [->%elem_of_singleton|Hin]; [done|].
      by apply (Hu u). }
  specialize (Hs ∅ ltac:(set_solver)). revert Hs Ho. generalize (new_tokens th ∅ (mjoin ((λ g, g.1 ++ [g.2]) <$> gr))), gr.*2. clear.
  intros l k Hs Ho. induction Hs as [|x l k Hs IH|x l k Hs IH].
  - done.
  - assert (in_text_order c k) as Hk by (intros i j a b Hi Hj Hij; apply (Ho (S i) (S j)); [done..|lia]).
    intros i j a b Hi Hj Hij. destruct j as [|j]; [lia|]. destruct i as [|i]; [|apply (IH Hk i j); [done..|lia]].
    cbn in Hi. injection Hi as <-. cbn in Hj. apply elem_of_list_lookup_2 in Hj. 
    assert (b ∈ k) as Hin by (eapply elem_of_submseteq; [exact Hj|by apply sublist_submseteq]).
    apply elem_of_list_lookup in Hin as [m Hm]. apply (Ho 0 (S m)); [done..|lia].
  - apply IH. intros i j a b Hi Hj Hij. apply (Ho (S i) (S j)); [done..|lia].
Qed.

Context (hash : gset N → list N) (Hhash : hash_order hash) (fuel : nat) (rnd : nat → nat).
(** The tokens of all windows *)
Definition is_window (l r : nat) (n : N) (x : N * N) : Prop :=
  ∃ p, walk (edge_rel O) x.1 p x.2 ∧ ∀ t, t ∈ x.1 :: p ↔ in_context c n l r t.
Lemma region_window l r n x : one_text c n → in_limit O (Included (N.of_nat l)) → in_limit O (Included (N.of_nat r)) →
  region hash fuel rnd db n l r None = ROk x → is_window l r n x.
Proof using All.
  intros Hone Hl Hr HR. pose proof (region_lemma db c H T order Eo Hself hash Hhash fuel rnd n l r Hone Hl Hr) as HL. rewrite HR in HL.
  destruct x as [s e]. destruct HL as (a & b & Ca & Cb & Hab & Hs & He). by apply (window_context c T n l r a b s e).
Qed.
Lemma window_ends l r n x : is_window l r n x → in_context c n l r x.1 ∧ in_context c n l r x.2 ∧
  (∀ t, in_context c n l r t → reachable (edge_rel O) x.1 t ∧ reachable (edge_rel O) t x.2).
Proof using.
  intros (p & Hw & Hp). split_and!.
  - apply Hp. by left.
  - apply Hp. apply last_Some_elem_of. by apply (walk_last (edge_rel O)).
  - intros t Ht%Hp. destruct (walk_mem O p _ _ t Hw Ht) as (q & q' & Hq & Hq' & _). split; [by exists q|by exists q'].
Qed.
Lemma reach_precedes a b d : reachable (edge_rel O) a b → precedes c b d → precedes c a d.
Proof using. intros [p Hp] (q & Hq & Hw). exists (p ++ q). split; [by destruct p|]. by eapply walk_app. Qed.
Lemma precedes_reach a b d : precedes c a b → reachable (edge_rel O) b d → precedes c a d.
Proof using. intros (q & Hq & Hw) [p Hp]. exists (q ++ p). split; [by destruct q|]. by eapply walk_app. Qed.
Lemma reach_anti a b : reachable (edge_rel O) a b → reachable (edge_rel O) b a → a = b.
Proof using T.
  clear Hself. intros [p Hp] [q Hq]. destruct T as (Hch & _). pose proof (chain_cycle O Hch a (p ++ q) (walk_app _ _ _ _ _ _ Hp Hq)) as He.
  apply app_eq_nil in He as [-> _]. done.
Qed.
Section Windows.
Context (l r : nat) (ns : list N).
Context (Hap : ∀ n m, n ∈ ns → m ∈ ns → apart c l r n m).
Definition window_of (x : N * N) : Prop := ∃ n, n ∈ ns ∧ is_window l r n x.
Lemma windows_apart x y : window_of x → window_of y → x = y ∨ precedes c x.2 y.1 ∨ precedes c y.2 x.1.
Proof using T Hap.
  clear Hself. intros (n & Hn & Wx) (m & Hm & Wy). destruct (window_ends l r n x Wx) as (X1 & X2 & X3). destruct (window_ends l r m y Wy) as (Y1 & Y2 & Y3).
  destruct (Hap n m Hn Hm) as [He|[Hb|Hb]].
  - left. apply injective_projections.
    + apply reach_anti; [apply X3; by apply He|apply Y3; by apply He].
    + apply reach_anti; [apply Y3; by apply He|apply X3; by apply He].
  - right. left. by apply Hb.
  - right. right. by apply Hb.
Qed.
Lemma window_inner x : window_of x → reachable (edge_rel O) x.1 x.2.
Proof using. intros (n & _ & p & Hw & _). by exists p. Qed.
Lemma region_cmp_spec x y : window_of x → window_of y →
  (region_cmp order x y = Eq ↔ x = y) ∧ (region_cmp order x y = Lt ↔ precedes c x.2 y.1) ∧ (region_cmp order x y = Gt ↔ precedes c y.2 x.1).
Proof using All.
  intros Wx Wy. pose proof (windows_apart x y Wx Wy) as Hxy. pose proof (window_inner x Wx) as Ix. pose proof (window_inner y Wy) as Iy.
  assert (¬ precedes c x.2 x.1) as Nx by (intros Hc; apply (precedes_irrefl x.1); by eapply reach_precedes).
  assert (precedes c x.2 y.1 → precedes c y.2 x.1 → False) as Nxy.
  { intros H1 H2. apply Nx. eapply precedes_trans; [exact H1|]. by eapply reach_precedes. }
  destruct T as (Hch & _). pose proof (order_implements db c H order Eo) as I. unfold region_cmp.
  destruct (decide (x = y)) as [->|Hne]; [clear -Nx; naive_solver|].
  pose proof (is_connected_iff O Hch order I Hself x.2 y.1) as C1. pose proof (is_connected_iff O Hch order I Hself y.2 x.1) as C2.
  fold (precedes c x.2 y.1) in C1. fold (precedes c y.2 x.1) in C2.
  destruct (gs_is_connected order x.2 y.1 1 Unbounded), (gs_is_connected order y.2 x.1 1 Unbounded);
    repeat match goal with H : true = true ↔ _ |- _ => apply proj1 in H; specialize (H eq_refl)
                         | H : false = true ↔ _ |- _ => apply proj2 in H end; clear -Hne Hxy Nx Nxy C1 C2; naive_solver.
Qed.
Lemma region_cmp_tpo : total_preorder_on window_of (region_cmp order).
Proof using All.
  split.
  - intros x y Px Py. destruct (region_cmp_spec x y Px Py) as (A1 & A2 & A3). destruct (region_cmp_spec y x Py Px) as (B1 & B2 & B3).
    clear -A1 A2 A3 B1 B2 B3. destruct (region_cmp order x y); simpl; naive_solver.
  - intros x y z Px Py Pz H1 H2 H3. destruct (region_cmp_spec x y Px Py) as (A1 & A2 & A3).
    destruct (region_cmp_spec y z Py Pz) as (B1 & B2 & B3). destruct (region_cmp_spec x z Px Pz) as (C1 & C2 & C3). apply C3 in H3.
    assert (x = y ∨ precedes c x.2 y.1) as Q1 by (clear -A1 A2 A3 H1; destruct (region_cmp order x y); naive_solver).
    assert (y = z ∨ precedes c y.2 z.1) as Q2 by (clear -B1 B2 B3 H2; destruct (region_cmp order y z); naive_solver).
    pose proof (window_inner x Px) as Ix. pose proof (window_inner y Py) as Iy. pose proof (window_inner z Pz) as Iz.
    assert (x = z ∨ precedes c x.2 z.1) as Q3.
    { destruct Q1 as [->|Q1]; [done|]. destruct Q2 as [->|Q2]; [by right|]. right. eapply precedes_trans; [exact Q1|]. by eapply reach_precedes. }
    apply (precedes_irrefl z.2). destruct Q3 as [->|Q3].
    + eapply precedes_reach; [exact H3|done].
    + eapply precedes_reach; [|exact Iz]. eapply precedes_reach in H3; [|exact Ix]. by eapply precedes_trans.
Qed.
Context (Hone : ∀ n, n ∈ ns → one_text c n) (Hl : in_limit O (Included (N.of_nat l))) (Hr : in_limit O (Included (N.of_nat r))).
Lemma overlapped_order out : overlapped hash fuel rnd db ns l r None out → in_text_order c (new_tokens th ∅ out).
Proof using All.
  intros Ho. destruct Ho as [th' o rs rs' ls Hth Eo' Hrs Hsort HF]. rewrite Eo in Eo'. injection Eo' as <-. rewrite Eth in Hth. injection Hth as <-.
  pose proof (regions_lemma db c H T order Eo Hself hash Hhash fuel rnd l r ns Hone Hl Hr) as HR. rewrite Hrs in HR. destruct HR as [R1 _].
  assert (Forall window_of rs) as HW.
  { apply Forall_forall. intros x Hx. destruct (R1 x Hx) as (n & Hn & En). exists n. split; [done|]. apply region_window; [by apply Hone|done..]. }
  pose proof (sort_on_ok window_of (region_cmp order) fuel rnd rs region_cmp_tpo HW) as Hs. rewrite Hsort in Hs. destruct Hs as [Hp Ha].
  assert (∀ x k, x ∈ rs' → emits (token_next hash th order x.2) (token_iter_new hash th x.1) k → ∃ n, is_window l r n x ∧ n ∈ ns ∧ window_nodes c n l r k) as Hk.
  { intros [s e] k Hx He. rewrite Hp in Hx. destruct (R1 _ Hx) as (n & Hn & En). exists n. split; [apply region_window; [by apply Hone|done..]|]. split; [done|].
    destruct (window_emits db c H T order Eo Hself hash Hhash fuel rnd th n l r s e Eth (Hone n Hn) Hl Hr En) as (k' & He' & Hw).
    by rewrite <- (emits_fun _ _ _ _ He He') in Hw. }
  assert (∀ n k t, window_nodes c n l r k → token c t → t ∈ k → in_context c n l r t) as Htok.
  { intros n k t Hw Ht Hin. apply (window_nodes_iff c n l r k t Hw) in Hin as (u & Hu & [->|Hc]); [done|].
    by destruct (covers_not_token c t u Hc). }
  apply (blocks_order).
  - intros k Hin. apply elem_of_list_lookup in Hin as [i Hi]. destruct (Forall2_lookup_r _ _ _ _ _ HF Hi) as (x & Hx & He).
    destruct (Hk x k (elem_of_list_lookup_2 _ _ _ Hx) He) as (n & _ & _ & Hw). by apply (window_new_tokens n l r).
  - intros i j k k' Hij Hi Hj. destruct (Forall2_lookup_r _ _ _ _ _ HF Hi) as (x & Hx & He). destruct (Forall2_lookup_r _ _ _ _ _ HF Hj) as (y & Hy & He').
    destruct (Hk x k (elem_of_list_lookup_2 _ _ _ Hx) He) as (n & Wx & Hn & Nx). destruct (Hk y k' (elem_of_list_lookup_2 _ _ _ Hy) He') as (m & Wy & Hm & Ny).
    assert (window_of x) as Px by (by exists n). assert (window_of y) as Py by (by exists m).
    pose proof (Ha i j x y Hij Hx Hy) as Hle. destruct (region_cmp_spec x y Px Py) as (A1 & A2 & A3).
    assert (x = y ∨ precedes c x.2 y.1) as [<-|Hb] by (clear -A1 A2 A3 Hle; destruct (region_cmp order x y); naive_solver).
    + left. rewrite (emits_fun _ _ _ _ He He'). done.
    + right. intros t u Ht Hu Hin Hin'. destruct (window_ends l r n x Wx) as (_ & _ & X). destruct (window_ends l r m y Wy) as (_ & _ & Y).
      eapply reach_precedes; [apply X; by apply (Htok n k)|]. eapply precedes_reach; [exact Hb|]. apply Y. by apply (Htok m k').
  - intros k _. right. set_solver.
Qed.
Lemma subgraph_gaps part_of P out : implements part_of P → (∀ n, is_target P n → ¬ token c n) →
  subgraph_nodes hash fuel rnd db part_of ns l r None out →
  ∀ a b, Edge a b ∈ gap_edges th order ∅ None out ↔ gap c out a b.
Proof using All.
  intros IP Hpar Hs a b. destruct Hs as [th' o Hth Ho]. rewrite Eth in Hth. injection Hth as <-. apply (gaps_of_ordered).
  pose proof (overlapped_order o Ho) as Hord.
  assert (∀ x, is_token th x = true ↔ token c x) as Htok by (intros x; by apply (is_token_iff db c H th x Eth)).
  destruct (new_tokens_app th (filter (λ n, is_token th n = false) ns) ∅ (o ++ parents hash part_of ns)) as (seen' & Hseen & ->).
  { intros n Hn _. by apply elem_of_list_filter in Hn as [? _]. }
  rewrite (new_tokens_seen th _ seen' ∅ Hseen).
  assert (new_tokens th ∅ (o ++ parents hash part_of ns) = new_tokens th ∅ o) as ->; [|done].
  assert (∀ x, x ∈ parents hash part_of ns → is_token th x = false) as Hp.
  { intros x Hx. apply not_true_is_false. intros Ht%Htok. revert Ht. apply Hpar. unfold parents in Hx.
    rewrite (proj2 (Hhash _)), elem_of_list_to_set, elem_mjoin_fmap in Hx. destruct Hx as (n & _ & Hx).
    apply (im_connected _ _ IP n x 1 Unbounded Logic.I (or_intror (N.le_refl 1))) in Hx as (p & [Hw _] & [Hd _]).
    destruct p as [|y p _] using rev_ind; [simpl in Hd; lia|]. apply walk_app_inv in Hw as (z & _ & Hz & Hy). simpl in Hy. subst y. by exists z. }
  revert Hp. generalize (parents hash part_of ns), (∅ : gset N). clear. intros ps seen Hp. revert seen. induction o as [|n o IH]; intros seen; cbn [app new_tokens].
  - apply new_tokens_none. intros x Hx Ht. by rewrite Hp in Ht.
  - destruct (decide (n ∈ seen)); [apply IH|]. destruct (is_token th n); [f_equal|]; apply IH.
Qed.
End Windows.
End Gaps.
