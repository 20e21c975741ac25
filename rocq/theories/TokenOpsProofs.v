From stdpp Require Import base list gmap.
From Coq Require Import NArith Arith Lia.
From Verif Require Import KeySer SortedMap Types SymbolTable AnnoMem AnnoSpec GraphSpec Adjacency AdjacencySpec
  AdjacencyProofs Storage StorageSpec GraphApply TokenHelper TokenSearchSpec TokenSearchProofs Dfs DfsProofs LinearProofs ContextSpec
  ContextProofs TokenOps TokenOpsSpec.

(** ** Chains *)
Lemma chain_connected G a b x : chains G → reachable (edge_rel G) x a → reachable (edge_rel G) x b →
  reachable (edge_rel G) a b ∨ reachable (edge_rel G) b a.
Proof.
  intros Hch [p Hp] [q Hq]. destruct (le_ge_dec (length p) (length q)).
  - destruct (chain_fwd G Hch p x a b q Hp Hq) as (w & Hw & _); [lia|]. left. by exists w.
  - destruct (chain_fwd G Hch q x b a p Hq Hp) as (w & Hw & _); [lia|]. right. by exists w.
Qed.
Lemma chain_connected_inv G a b x : chains G → reachable (edge_rel G) a x → reachable (edge_rel G) b x →
  reachable (edge_rel G) a b ∨ reachable (edge_rel G) b a.
Proof.
  intros Hch [p Hp] [q Hq]. destruct (le_ge_dec (length p) (length q)).
  - destruct (chain_back G Hch a p x b q Hp Hq) as (w & Hw & _); [lia|]. right. by exists w.
  - destruct (chain_back G Hch b q x a p Hq Hp) as (w & Hw & _); [lia|]. left. by exists w.
Qed.
Lemma chain_antisym G a b : chains G → reachable (edge_rel G) a b → reachable (edge_rel G) b a → a = b.
Proof.
  intros Hch [p Hp] [q Hq]. pose proof (chain_cycle G Hch a (p ++ q) (walk_app _ _ _ _ _ _ Hp Hq)) as E.
  apply app_eq_nil in E as [-> _]. exact Hp.
Qed.
Lemma reach_refl (E : N → N → Prop) a : reachable E a a.
Proof. by exists []. Qed.
Lemma reach_trans (E : N → N → Prop) a b d : reachable E a b → reachable E b d → reachable E a d.
Proof. intros [p Hp] [q Hq]. exists (p ++ q). by eapply walk_app. Qed.
Lemma steps_iff G dist a b : chains G → steps G dist a b ↔ path_in_range G a b (min_dist dist) (max_dist dist).
Proof.
  intros (_ & _ & Hac). unfold steps, path_in_range, in_distance. setoid_rewrite (λ p, acyclic_simple _ a p b Hac).
  destruct dist; simpl; naive_solver.
Qed.
Lemma reach_range G a b : chains G → reachable (edge_rel G) a b ↔ path_in_range G a b 0 Unbounded.
Proof.
  intros (_ & _ & Hac). unfold reachable, path_in_range, in_distance. setoid_rewrite (λ p, acyclic_simple _ a p b Hac).
  split; intros (p & Hp); exists p; [|naive_solver]. split_and!; [done|lia|done].
Qed.
Lemma reach_node G (P : N → Prop) a b : (∀ n, n ∈ all_nodes G → P n) → P a ∨ P b → reachable (edge_rel G) a b → P a ∧ P b.
Proof.
  intros HG Hab [p Hp]. destruct p as [|x p]; [simpl in Hp; subst; naive_solver|]. split.
  - apply HG. by apply (all_nodes_edge G a x), Hp.
  - apply HG.
    assert (∀ p y, y ∈ all_nodes G → walk (edge_rel G) y p b → b ∈ all_nodes G) as Hall.
    { clear. induction p as [|z p IH]; intros y Hy Hw; [by simpl in Hw; subst|]. destruct Hw as [He Hw]. apply (IH z); [|done].
      by apply (all_nodes_edge G y z). }
    destruct Hp as [He Hp]. apply (Hall p x); [|done]. by apply (all_nodes_edge G a x).
Qed.

Section Ops.
Context (db : corpus) (c : content) (H : holds_content db c) (T : texts_ok c).
Context (order : storage) (Eo : cp_order db = Some order) (th : helper) (Eth : th_new db = Some th).
Context (hash : gset N → list N) (Hhash : hash_order hash).
Notation O := (ct_order c).
Notation E := (edge_rel O).
Lemma ord_chains : chains O.
Proof using T. apply T. Qed.
Lemma ord_token n : n ∈ all_nodes O → token c n.
Proof using T. apply T. Qed.
Lemma ord_impl : implements order O.
Proof using H Eo. pose proof (hc_order db c H) as Ho. rewrite Eo in Ho. apply Ho. Qed.
Lemma left_impl : implements (th_left th) (ct_left c).
Proof using H Eth. destruct (th_some db c H) as (th' & E' & _ & _ & IL & IR). rewrite Eth in E'. by injection E' as <-. Qed.
Lemma right_impl : implements (th_right th) (ct_right c).
Proof using H Eth. destruct (th_some db c H) as (th' & E' & _ & _ & IL & IR). rewrite Eth in E'. by injection E' as <-. Qed.
Lemma in_left x t : x ∈ gs_in (th_left th) t ↔ edge_rel (ct_left c) x t.
Proof using H Eth. apply (im_in _ _ left_impl). Qed.
Lemma in_right x t : x ∈ gs_in (th_right th) t ↔ edge_rel (ct_right c) x t.
Proof using H Eth. apply (im_in _ _ right_impl). Qed.

Context (WA : well_aligned c).
Lemma lb_fun x t u : left_border c x t → left_border c x u → t = u.
Proof using WA.
  intros [[? ->]|[Hn H1]] [[? ->]|[Hn' H2]]; [done..|]. by apply (wa_left_one c WA x).
Qed.
Lemma rb_fun x t u : right_border c x t → right_border c x u → t = u.
Proof using WA.
  intros [[? ->]|[Hn H1]] [[? ->]|[Hn' H2]]; [done..|]. by apply (wa_right_one c WA x).
Qed.
Lemma lt_iff x t : left_token_for th x = Some t ↔ left_border c x t.
Proof using H Eth WA.
  pose proof (left_token_lemma db c H th x Eth) as HL. destruct (left_token_for th x) as [u|].
  - split; [by intros [= ->]|]. intros Ht. f_equal. by apply (lb_fun x).
  - split; [done|]. intros Ht. by destruct (HL t).
Qed.
Lemma rt_iff x t : right_token_for th x = Some t ↔ right_border c x t.
Proof using H Eth WA.
  pose proof (right_token_lemma db c H th x Eth) as HL. destruct (right_token_for th x) as [u|].
  - split; [by intros [= ->]|]. intros Ht. f_equal. by apply (rb_fun x).
  - split; [done|]. intros Ht. by destruct (HL t).
Qed.
Lemma lb_token x t : left_border c x t → token c t.
Proof using WA. intros [[? ->]|[_ Ht]]; [done|]. by apply (wa_left c WA x). Qed.
Lemma rb_token x t : right_border c x t → token c t.
Proof using WA. intros [[? ->]|[_ Ht]]; [done|]. by apply (wa_right c WA x). Qed.
Lemma lb_rb x t : left_border c x t → ∃ u, right_border c x u ∧ reachable E t u.
Proof using WA.
  intros [[? ->]|[Hn Ht]].
  - exists x. split; [by left|]. apply reach_refl.
  - destruct (proj1 (wa_both c WA x) (ex_intro _ t Ht)) as [u Hu]. exists u. split; [by right|]. by apply (wa_order c WA x).
Qed.
Lemma rb_lb x u : right_border c x u → ∃ t, left_border c x t ∧ reachable E t u.
Proof using WA.
  intros [[? ->]|[Hn Ht]].
  - exists x. split; [by left|]. apply reach_refl.
  - destruct (proj2 (wa_both c WA x) (ex_intro _ u Ht)) as [t Ht']. exists t. split; [by right|]. by apply (wa_order c WA x).
Qed.
Lemma lb_rb_order x t u : left_border c x t → right_border c x u → reachable E t u.
Proof using WA. intros HL HR. destruct (lb_rb x t HL) as (u' & Hu' & Hr). by rewrite (rb_fun x u u' HR Hu'). Qed.
Lemma lb_in x t : token c t → left_border c x t ↔ x = t ∨ edge_rel (ct_left c) x t.
Proof using WA.
  intros Ht. split.
  - intros [[? ->]|[_ ?]]; auto.
  - intros [->|He]; [by left|right]. split; [|done]. by apply (wa_left c WA x t).
Qed.
Lemma rb_in x t : token c t → right_border c x t ↔ x = t ∨ edge_rel (ct_right c) x t.
Proof using WA.
  intros Ht. split.
  - intros [[? ->]|[_ ?]]; auto.
  - intros [->|He]; [by left|right]. split; [|done]. by apply (wa_right c WA x t).
Qed.
Lemma lr_iff x l r : left_right_token_for th x = (Some l, Some r) ↔ left_border c x l ∧ right_border c x r.
Proof using H Eth WA.
  rewrite <- lt_iff, <- rt_iff. unfold left_right_token_for, left_token_for, right_token_for. destruct (is_token th x); split; intros HH;
    try (injection HH as <- <-; done); try (by injection HH as -> ->); destruct HH as [E1 E2]; congruence.
Qed.
Lemma range_token s t dist : token c s ∨ token c t → path_in_range O s t (min_dist dist) (max_dist dist) → token c s ∧ token c t.
Proof using T.
  intros Hs (p & [Hp _] & _). apply (reach_node O); [apply ord_token|done|]. by exists p.
Qed.
(** Tokens in the given order, with the nodes at their left (right) border *)
Lemma left_aligned_iff L x : (∀ t, t ∈ L → token c t) →
  x ∈ mjoin ((λ t, t :: gs_in (th_left th) t) <$> L) ↔ ∃ t, t ∈ L ∧ left_border c x t.
Proof using H Eth WA.
  intros HL. rewrite elem_mjoin_fmap. split.
  - intros (t & Ht & Hx). exists t. split; [done|]. apply lb_in; [by apply HL|]. rewrite elem_of_cons, in_left in Hx. done.
  - intros (t & Ht & Hx). exists t. split; [done|]. apply lb_in in Hx; [|by apply HL]. by rewrite elem_of_cons, in_left.
Qed.
Lemma right_aligned_iff L x : (∀ t, t ∈ L → token c t) →
  x ∈ mjoin ((λ t, t :: gs_in (th_right th) t) <$> L) ↔ ∃ t, t ∈ L ∧ right_border c x t.
Proof using H Eth WA.
  intros HL. rewrite elem_mjoin_fmap. split.
  - intros (t & Ht & Hx). exists t. split; [done|]. apply rb_in; [by apply HL|]. rewrite elem_of_cons, in_right in Hx. done.
  - intros (t & Ht & Hx). exists t. split; [done|]. apply rb_in in Hx; [|by apply HL]. by rewrite elem_of_cons, in_right.
Qed.
Lemma left_group_nodup t : token c t → NoDup (t :: gs_in (th_left th) t).
Proof using H Eth WA.
  intros Ht. apply NoDup_cons. split; [|apply (im_in_nd _ _ left_impl)]. rewrite in_left. intros He. by destruct (wa_left c WA _ _ He).
Qed.
Lemma right_group_nodup t : token c t → NoDup (t :: gs_in (th_right th) t).
Proof using H Eth WA.
  intros Ht. apply NoDup_cons. split; [|apply (im_in_nd _ _ right_impl)]. rewrite in_right. intros He. by destruct (wa_right c WA _ _ He).
Qed.
Lemma left_aligned_nodup L : (∀ t, t ∈ L → token c t) → NoDup L → NoDup (mjoin ((λ t, t :: gs_in (th_left th) t) <$> L)).
Proof using H Eth WA.
  intros HL Hnd. apply mjoin_nodup; [done|intros t Ht; by apply left_group_nodup, HL|].
  intros a b x Ha Hb Hxa Hxb. rewrite elem_of_cons, in_left in Hxa, Hxb. apply (lb_fun x); apply lb_in; auto.
Qed.
Lemma right_aligned_nodup L : (∀ t, t ∈ L → token c t) → NoDup L → NoDup (mjoin ((λ t, t :: gs_in (th_right th) t) <$> L)).
Proof using H Eth WA.
  intros HL Hnd. apply mjoin_nodup; [done|intros t Ht; by apply right_group_nodup, HL|].
  intros a b x Ha Hb Hxa Hxb. rewrite elem_of_cons, in_right in Hxa, Hxb. apply (rb_fun x); apply rb_in; auto.
Qed.

(** ** Precedence *)
Section Dist.
Context (dist : range_spec) (Hd : dist_ok O (token c) dist).
Notation mi := (min_dist dist).
Notation ma := (max_dist dist).
Lemma conn_def s : token c s → s ∈ all_nodes O ∨ (1 <= mi)%N.
Proof using Hd. destruct Hd as (_ & _ & [?|Hn]); auto. Qed.
Lemma conn_iff s t : token c s → t ∈ gs_connected order s mi ma ↔ path_in_range O s t mi ma.
Proof using H Eo Hd. intros Hs. apply (im_connected _ _ ord_impl); [apply Hd|by apply conn_def]. Qed.
Lemma conn_inv_iff s t : token c s → t ∈ gs_connected_inverse order s mi ma ↔ path_in_range O t s mi ma.
Proof using H Eo Hd. intros Hs. apply (im_inverse _ _ ord_impl); [apply Hd..|by apply conn_def]. Qed.
Lemma is_conn_iff s t : token c s → gs_is_connected order s t mi ma = true ↔ path_in_range O s t mi ma.
Proof using H Eo Hd. intros Hs. apply (im_is_connected _ _ ord_impl); [apply Hd|by apply conn_def]. Qed.
Lemma prec_filter_iff a b : precedence_filter th order None dist a b = true ↔
  ∃ s e, right_border c a s ∧ left_border c b e ∧ path_in_range O s e mi ma.
Proof using H Eo Eth WA Hd.
  unfold precedence_filter. destruct (right_token_for th a) as [s|] eqn:Es.
  - apply rt_iff in Es. destruct (left_token_for th b) as [e|] eqn:Ee.
    + apply lt_iff in Ee. rewrite is_conn_iff by by eapply rb_token. split; [by eauto|].
      intros (s' & e' & Hs' & He' & Hp). by rewrite (rb_fun a s s' Es Hs'), (lb_fun b e e' Ee He').
    + split; [done|]. intros (s' & e' & _ & He' & _). apply lt_iff in He'. congruence.
  - split; [done|]. intros (s' & e' & Hs' & _). apply rt_iff in Hs'. congruence.
Qed.
Lemma prec_forward a : match right_token_for th a with
    | Some s => (∀ t, t ∈ gs_connected order s mi ma → token c t) ∧ NoDup (gs_connected order s mi ma)
    | None => True
    end.
Proof using H T Eo Eth WA Hd.
  destruct (right_token_for th a) as [s|] eqn:Es; [|done]. apply rt_iff in Es. split.
  - intros t Ht. apply conn_iff in Ht; [|by eapply rb_token]. eapply range_token; [|done]. left. by eapply rb_token.
  - apply (im_connected_nd _ _ ord_impl). apply Hd.
Qed.
Lemma prec_backward a : match left_token_for th a with
    | Some s => (∀ t, t ∈ gs_connected_inverse order s mi ma → token c t) ∧ NoDup (gs_connected_inverse order s mi ma)
    | None => True
    end.
Proof using H T Eo Eth WA Hd.
  destruct (left_token_for th a) as [s|] eqn:Es; [|done]. apply lt_iff in Es. split.
  - intros t Ht. apply conn_inv_iff in Ht; [|by eapply lb_token]. apply (range_token t s dist) in Ht; [apply Ht|]. right. by eapply lb_token.
  - apply (im_inverse_nd _ _ ord_impl); apply Hd.
Qed.
Lemma prec_retrieve_iff a b : b ∈ precedence_retrieve th order None dist a ↔
  ∃ s e, right_border c a s ∧ left_border c b e ∧ path_in_range O s e mi ma.
Proof using H T Eo Eth WA Hd.
  unfold precedence_retrieve. cbn [default]. pose proof (prec_forward a) as HF. destruct (right_token_for th a) as [s|] eqn:Es.
  - apply rt_iff in Es. change (default order None) with order. rewrite left_aligned_iff by apply HF. split.
    + intros (t & Ht & Hb). apply conn_iff in Ht; [|by eapply rb_token]. eauto.
    + intros (s' & e & Hs' & He & Hp). rewrite <- (rb_fun a s s' Es Hs') in Hp. exists e. split; [|done].
      apply conn_iff; [by eapply rb_token|done].
  - split; [by intros ?%elem_of_nil|]. intros (s' & e' & Hs' & _). apply rt_iff in Hs'. congruence.
Qed.
Lemma prec_retrieve_nodup a : NoDup (precedence_retrieve th order None dist a).
Proof using H T Eo Eth WA Hd.
  unfold precedence_retrieve. pose proof (prec_forward a) as HF. destruct (right_token_for th a) as [s|]; [|constructor].
  by apply left_aligned_nodup; apply HF.
Qed.
Lemma inv_retrieve_iff a b : b ∈ inverse_precedence_retrieve th order None dist a ↔
  ∃ s e, right_border c b s ∧ left_border c a e ∧ path_in_range O s e mi ma.
Proof using H T Eo Eth WA Hd.
  unfold inverse_precedence_retrieve. pose proof (prec_backward a) as HF. destruct (left_token_for th a) as [s|] eqn:Es.
  - apply lt_iff in Es. change (default order None) with order. rewrite right_aligned_iff by apply HF. split.
    + intros (t & Ht & Hb). apply conn_inv_iff in Ht; [|by eapply lb_token]. eauto.
    + intros (s' & e & Hs' & He & Hp). rewrite <- (lb_fun a s e Es He) in Hp. exists s'. split; [|done].
      apply conn_inv_iff; [by eapply lb_token|done].
  - split; [by intros ?%elem_of_nil|]. intros (s' & e' & _ & He' & _). apply lt_iff in He'. congruence.
Qed.
Lemma inv_retrieve_nodup a : NoDup (inverse_precedence_retrieve th order None dist a).
Proof using H T Eo Eth WA Hd.
  unfold inverse_precedence_retrieve. pose proof (prec_backward a) as HF. destruct (left_token_for th a) as [s|]; [|constructor].
  by apply right_aligned_nodup; apply HF.
Qed.
Lemma near_filter_iff a b : near_filter th order None dist a b = true ↔
  (∃ s e, right_border c a s ∧ left_border c b e ∧ path_in_range O s e mi ma) ∨
  (∃ s e, right_border c b s ∧ left_border c a e ∧ path_in_range O s e mi ma).
Proof using H Eo Eth WA Hd.
  unfold near_filter. destruct (right_token_for th a) as [s|] eqn:Es.
  - apply rt_iff in Es. destruct (rb_lb a s Es) as (s' & Es' & _). destruct (left_token_for th b) as [e|] eqn:Ee.
    + apply lt_iff in Ee. destruct (lb_rb b e Ee) as (e' & Ee' & _). rewrite (proj2 (lt_iff a s') Es'), (proj2 (rt_iff b e') Ee').
      rewrite orb_true_iff, !is_conn_iff by by eapply rb_token. split; [by intros [?|?]; [left|right]; eauto|].
      intros [(s1 & e1 & Hs1 & He1 & Hp)|(s1 & e1 & Hs1 & He1 & Hp)]; [left|right].
      * by rewrite (rb_fun a s s1 Es Hs1), (lb_fun b e e1 Ee He1).
      * by rewrite (rb_fun b e' s1 Ee' Hs1), (lb_fun a s' e1 Es' He1).
    + split; [done|]. intros [(s1 & e1 & Hs1 & He1 & Hp)|(s1 & e1 & Hs1 & He1 & Hp)].
      * apply lt_iff in He1. congruence.
      * destruct (rb_lb b s1 Hs1) as (x & Hx & _). apply lt_iff in Hx. congruence.
  - split; [done|]. intros [(s1 & e1 & Hs1 & He1 & Hp)|(s1 & e1 & Hs1 & He1 & Hp)].
    + apply rt_iff in Hs1. congruence.
    + destruct (lb_rb a e1 He1) as (x & Hx & _). apply rt_iff in Hx. congruence.
Qed.
Lemma near_retrieve_eq a b : b ∈ near_retrieve hash th order None dist a ↔
  b ∈ precedence_retrieve th order None dist a ∨ b ∈ inverse_precedence_retrieve th order None dist a.
Proof using Hhash.
  clear -Hhash. unfold near_retrieve. rewrite (proj2 (Hhash _)), elem_of_list_to_set, elem_of_app. unfold precedence_retrieve, inverse_precedence_retrieve.
  destruct (right_token_for th a), (left_token_for th a); reflexivity.
Qed.
End Dist.

(** ** Overlap *)
Lemma dist_some s e : is_Some (gs_distance order s e) ↔ reachable E s e.
Proof using H Eo.
  pose proof (im_distance _ _ ord_impl s e) as Hd. destruct (gs_distance order s e) as [d|].
  - split; [|by eauto]. destruct Hd as (p & [Hp _] & _). intros _. by exists p.
  - split; [by intros [? ?]|done].
Qed.
Lemma overlap_filter_iff rx a b : overlap_filter th order rx a b = true ↔ (rx = true ∧ a = b) ∨
  ∃ la ra lb rb, left_border c a.1 la ∧ right_border c a.1 ra ∧ left_border c b.1 lb ∧ right_border c b.1 rb ∧ reachable E la rb ∧ reachable E lb ra.
Proof using H Eo Eth WA.
  unfold overlap_filter. destruct (rx && bool_decide (a = b)) eqn:Er.
  { split; [|done]. intros _. left. apply andb_true_iff in Er as [-> Er]. by apply bool_decide_eq_true in Er. }
  assert (¬ (rx = true ∧ a = b)) as Hn.
  { intros [-> ->]. rewrite bool_decide_eq_true_2 in Er by done. done. }
  trans (∃ la ra lb rb, left_token_for th a.1 = Some la ∧ right_token_for th a.1 = Some ra ∧ left_token_for th b.1 = Some lb ∧
    right_token_for th b.1 = Some rb ∧ reachable E la rb ∧ reachable E lb ra).
  2: { setoid_rewrite lt_iff. setoid_rewrite rt_iff. tauto. }
  destruct (left_token_for th a.1) as [la|]; [|split; [done|by intros (? & ? & ? & ? & ? & _)]].
  destruct (right_token_for th a.1) as [ra|]; [|split; [done|by intros (? & ? & ? & ? & ? & ? & _)]].
  destruct (left_token_for th b.1) as [lb|]; [|split; [done|by intros (? & ? & ? & ? & ? & ? & ? & _)]].
  destruct (right_token_for th b.1) as [rb|]; [|split; [done|by intros (? & ? & ? & ? & ? & ? & ? & ? & _)]].
  pose proof (dist_some la rb) as D1. pose proof (dist_some lb ra) as D2.
  split.
  - intros Hd. exists la, ra, lb, rb. split_and!; try done; [apply D1; by destruct (gs_distance order la rb)|].
    apply D2. destruct (gs_distance order la rb); [|done]. by destruct (gs_distance order lb ra).
  - intros (? & ? & ? & ? & [= <-] & [= <-] & [= <-] & [= <-] & R1 & R2). apply D1 in R1 as [? ->]. by apply D2 in R2 as [? ->].
Qed.

(** ** Inclusion *)
Lemma tok_reach_node s t : (∀ t, token c t → t ∈ all_nodes O) → token c s → reachable E s t → t ∈ all_nodes O.
Proof using T. intros Hall Hs Hr. apply Hall. by apply (reach_node O (token c) s t ord_token (or_introl Hs)). Qed.
Section Incl.
Context (Hlim : in_limit O (Included (N.of_nat (size (all_nodes O))))) (Hall : ∀ t, token c t → t ∈ all_nodes O).
Lemma lim_le l : (l <= N.of_nat (size (all_nodes O)))%N → in_limit O (Included l).
Proof using Hlim. unfold in_limit in *. lia. Qed.
Lemma dist_limit s e l : gs_distance order s e = Some l → (∃ p, walk E s p e ∧ l = N.of_nat (length p)) ∧ in_limit O (Included l).
Proof using H Eo T Hlim.
  intros Hd. pose proof (im_distance _ _ ord_impl s e) as Hd'. rewrite Hd in Hd'. destruct Hd' as (p & [Hp _] & <-). split; [by exists p|].
  apply lim_le. pose proof (acyclic_path_length O s p e (proj2 (proj2 ord_chains)) Hp). lia.
Qed.
Lemma incl_conn s t l : token c s → in_limit O (Included l) →
  gs_is_connected order s t 0 (Included l) = true ↔ ∃ p, walk E s p t ∧ (N.of_nat (length p) <= l)%N.
Proof using H Eo T Hall.
  intros Hs Hl. rewrite (im_is_connected _ _ ord_impl) by auto. unfold path_in_range, in_distance.
  setoid_rewrite (λ p, acyclic_simple _ s p t (proj2 (proj2 ord_chains))). split; intros (p & ?); exists p; [naive_solver|]. split_and!; [naive_solver|lia|naive_solver].
Qed.
Lemma incl_find s t l : token c s → in_limit O (Included l) →
  t ∈ gs_connected order s 0 (Included l) ↔ ∃ p, walk E s p t ∧ (N.of_nat (length p) <= l)%N.
Proof using H Eo T Hall.
  intros Hs Hl. rewrite (im_connected _ _ ord_impl) by auto. unfold path_in_range, in_distance.
  setoid_rewrite (λ p, acyclic_simple _ s p t (proj2 (proj2 ord_chains))). split; intros (p & ?); exists p; [naive_solver|]. split_and!; [naive_solver|lia|naive_solver].
Qed.
(** Both borders of [b] are between those of [a] *)
Lemma incl_between la ra lb rb p : walk E la p ra → reachable E lb rb →
  (∃ q, walk E la q lb ∧ (N.of_nat (length q) <= N.of_nat (length p))%N) ∧ (∃ q, walk E rb q ra ∧ (N.of_nat (length q) <= N.of_nat (length p))%N) ↔
  reachable E la lb ∧ reachable E rb ra.
Proof using T.
  intros Hp [m Hm]. split.
  - intros [(q & Hq & _) (r & Hr & _)]. split; [by exists q|by exists r].
  - intros [[q Hq] [r Hr]].
    assert (p = q ++ m ++ r) as ->.
    { apply (chain_walk_eq O ord_chains la p (q ++ m ++ r) ra Hp). eapply walk_app; [done|]. by eapply walk_app. }
    rewrite !app_length. split; [exists q|exists r]; split; [done|lia|done|lia].
Qed.
Lemma inclusion_filter_iff a b : inclusion_filter th order a b = true ↔
  ∃ la ra lb rb, left_border c a la ∧ right_border c a ra ∧ left_border c b lb ∧ right_border c b rb ∧ reachable E la lb ∧ reachable E rb ra.
Proof using H Eo T Eth WA Hlim Hall.
  unfold inclusion_filter. destruct (left_right_token_for th a) as [oa oa'] eqn:Ea, (left_right_token_for th b) as [ob ob'] eqn:Eb. split.
  - destruct oa as [la|], oa' as [ra|], ob as [lb|], ob' as [rb|]; try done. apply lr_iff in Ea as [La Ra], Eb as [Lb Rb].
    destruct (gs_distance order la ra) as [l|] eqn:Ed; [|done]. apply dist_limit in Ed as [(p & Hp & ->) Hl].
    rewrite andb_true_iff, !incl_conn by (first [done|by eapply lb_token|by eapply rb_token]). intros HH.
    apply (incl_between la ra lb rb p Hp) in HH; [|by eapply lb_rb_order]. exists la, ra, lb, rb. naive_solver.
  - intros (la & ra & lb & rb & La & Ra & Lb & Rb & HH). pose proof (conj La Ra) as E1. apply lr_iff in E1. rewrite Ea in E1. injection E1 as -> ->.
    pose proof (conj Lb Rb) as E2. apply lr_iff in E2. rewrite Eb in E2. injection E2 as -> ->.
    destruct (gs_distance order la ra) as [l|] eqn:Ed.
    + apply dist_limit in Ed as [(p & Hp & ->) Hl].
      rewrite andb_true_iff, !incl_conn by (first [done|by eapply lb_token|by eapply rb_token]).
      apply (incl_between la ra lb rb p Hp); [by eapply lb_rb_order|done].
    + pose proof (proj2 (dist_some la ra) (lb_rb_order a la ra La Ra)) as [? ?]. congruence.
Qed.
Lemma inclusion_retrieve_iff a b : b ∈ inclusion_retrieve th order a ↔
  ∃ la ra lb rb, left_border c a la ∧ right_border c a ra ∧ left_border c b lb ∧ right_border c b rb ∧ reachable E la lb ∧ reachable E rb ra.
Proof using H Eo T Eth WA Hlim Hall.
  unfold inclusion_retrieve. destruct (left_right_token_for th a) as [oa oa'] eqn:Ea. split.
  - destruct oa as [la|]; [|by intros ?%elem_of_nil]. destruct oa' as [ra|]; [|by intros ?%elem_of_nil]. apply lr_iff in Ea as [La Ra].
    destruct (gs_distance order la ra) as [l|] eqn:Ed; [|by intros ?%elem_of_nil]. apply dist_limit in Ed as [(p & Hp & ->) Hl].
    rewrite elem_mjoin_fmap. intros (t & Ht & Hb). apply incl_find in Ht; [|by eapply lb_token|done].
    assert (token c t) as Htt.
    { destruct Ht as (q & Hq & _). apply (reach_node O (token c) la t ord_token); [left; by eapply lb_token|by exists q]. }
    exists la, ra. apply elem_of_cons in Hb as [->|Hb].
    + exists t, t. split_and!; [done|done|by left|by left|destruct Ht as (q & Hq & _); by exists q|].
      destruct Ht as (q & Hq & Hlen). destruct (chain_fwd O ord_chains q la t ra p Hq Hp) as (w & Hw & _); [lia|]. by exists w.
    + apply elem_of_list_filter in Hb as [Hf Hb]. apply in_left in Hb. destruct (head (gs_out (th_right th) b)) as [e|] eqn:Ee; [|done].
      assert (edge_rel (ct_right c) b e) as Hbe by (apply (im_out _ _ right_impl); by apply head_Some_elem_of).
      pose proof (wa_left c WA _ _ Hb) as [Hnb _].
      apply incl_conn in Hf; [|by eapply (wa_right c WA)|done]. destruct Ht as (q & Hq & _), Hf as (r & Hr & _).
      exists t, e. split_and!; [done|done|by right|by right|by exists q|by exists r].
  - intros (la & ra & lb & rb & La & Ra & Lb & Rb & R1 & R2). pose proof (conj La Ra) as E1. apply lr_iff in E1. rewrite Ea in E1. injection E1 as -> ->.
    destruct (gs_distance order la ra) as [l|] eqn:Ed.
    2: { pose proof (proj2 (dist_some la ra) (lb_rb_order a la ra La Ra)) as [? ?]. congruence. }
    apply dist_limit in Ed as [(p & Hp & ->) Hl].
    destruct (proj2 (incl_between la ra lb rb p Hp (lb_rb_order b lb rb Lb Rb)) (conj R1 R2)) as [Q1 Q2].
    apply elem_mjoin_fmap. exists lb. split; [apply incl_find; [by eapply lb_token|done|done]|].
    destruct Lb as [[Hb ->]|[Hb Lb]]; [by left|]. destruct Rb as [[? _]|[_ Rb]]; [done|]. right. apply elem_of_list_filter. split; [|by apply in_left].
    destruct (head (gs_out (th_right th) b)) as [e|] eqn:Ee.
    + apply head_Some_elem_of in Ee. apply (im_out _ _ right_impl) in Ee. rewrite (wa_right_one c WA b e rb Ee Rb).
      apply incl_conn; [by eapply (wa_right c WA)|done|done].
    + apply head_None in Ee. apply (im_out _ _ right_impl) in Rb. rewrite Ee in Rb. by apply elem_of_nil in Rb.
Qed.
Lemma inclusion_retrieve_nodup a : NoDup (inclusion_retrieve th order a).
Proof using H Eo T Eth WA Hlim Hall.
  unfold inclusion_retrieve. destruct (left_right_token_for th a) as [oa oa'] eqn:Ea.
  destruct oa as [la|]; [|constructor]. destruct oa' as [ra|]; [|constructor]. apply lr_iff in Ea as [La Ra].
  destruct (gs_distance order la ra) as [l|] eqn:Ed; [|constructor]. apply dist_limit in Ed as [(p & Hp & ->) Hl].
  assert (∀ t, t ∈ gs_connected order la 0 (Included (N.of_nat (length p))) → token c t) as HL.
  { intros t (q & Hq & _)%incl_find; [|by eapply lb_token|done]. apply (reach_node O (token c) la t ord_token); [left; by eapply lb_token|by exists q]. }
  apply mjoin_nodup; [apply (im_connected_nd _ _ ord_impl); done| |].
  - intros t Ht. pose proof (left_group_nodup t (HL t Ht)) as [Hnt Hnd]%NoDup_cons. apply NoDup_cons.
    split; [|by apply NoDup_filter]. intros [_ Hin]%elem_of_list_filter. done.
  - intros x y z Hx Hy Hzx Hzy. rewrite elem_of_cons, elem_of_list_filter, in_left in Hzx, Hzy.
    apply (lb_fun z); apply lb_in; [by apply HL|naive_solver|by apply HL|naive_solver].
Qed.
End Incl.

(** ** Identical coverage and alignment *)
Lemma identical_filter_iff a b : identical_filter th a b = true ↔
  ∃ l r, left_border c a l ∧ left_border c b l ∧ right_border c a r ∧ right_border c b r.
Proof using H Eth WA.
  unfold identical_filter. setoid_rewrite <- lt_iff. setoid_rewrite <- rt_iff.
  destruct (left_token_for th a), (right_token_for th a), (left_token_for th b), (right_token_for th b);
    rewrite ?andb_true_iff, ?bool_decide_eq_true; naive_solver.
Qed.
Lemma identical_retrieve_iff a b : b ∈ identical_retrieve th a ↔
  ∃ l r, left_border c a l ∧ left_border c b l ∧ right_border c a r ∧ right_border c b r.
Proof using H Eth WA.
  unfold identical_retrieve. destruct (left_token_for th a) as [l|] eqn:El.
  2: { split; [by intros ?%elem_of_nil|]. intros (l & r & Hl & _). apply lt_iff in Hl. congruence. }
  destruct (right_token_for th a) as [r|] eqn:Er.
  2: { split; [by intros ?%elem_of_nil|]. intros (l' & r & _ & _ & Hr & _). apply rt_iff in Hr. congruence. }
  apply lt_iff in El. apply rt_iff in Er. rewrite elem_of_app, elem_of_list_filter, in_left. split.
  - intros [Hb|[Hf Hb]].
    + destruct (decide (l = r)) as [<-|]; [|by apply elem_of_nil in Hb]. apply elem_of_list_singleton in Hb as ->.
      exists l, l. pose proof (lb_token a l El). split_and!; [done|by left|done|by left].
    + destruct (right_token_for th b) as [r'|] eqn:Er'; [|done]. apply bool_decide_eq_true in Hf as <-. apply rt_iff in Er'.
      exists l, r. split_and!; [done| |done|done]. right. split; [|done]. by eapply (wa_left c WA).
  - intros (l' & r' & Hl & Lb & Hr & Rb). rewrite <- (lb_fun a l l' El Hl) in Lb. rewrite <- (rb_fun a r r' Er Hr) in Rb.
    pose proof Rb as Rb'. apply rt_iff in Rb'. rewrite Rb'. destruct Lb as [[Hb ->]|[Hb Lb]].
    + left. destruct Rb as [[_ ->]|[? _]]; [|done]. rewrite decide_True by done. by left.
    + right. split; [by apply bool_decide_eq_true|done].
Qed.
Lemma identical_retrieve_nodup a : NoDup (identical_retrieve th a).
Proof using H Eth WA.
  unfold identical_retrieve. destruct (left_token_for th a) as [l|] eqn:El; [|constructor]. destruct (right_token_for th a) as [r|]; [|constructor].
  apply lt_iff in El. pose proof (left_group_nodup l (lb_token a l El)) as [Hn Hnd]%NoDup_cons.
  apply NoDup_app. split_and!; [destruct (decide _); [apply NoDup_singleton|constructor]| |by apply NoDup_filter].
  intros x Hx Hf. destruct (decide _); [|by apply elem_of_nil in Hx]. apply elem_of_list_singleton in Hx as ->. by apply elem_of_list_filter in Hf as [_ Hf].
Qed.
Lemma left_filter_iff a b : left_filter th a b = true ↔ ∃ l, left_border c a l ∧ left_border c b l.
Proof using H Eth WA.
  unfold left_filter. setoid_rewrite <- lt_iff. destruct (left_token_for th a), (left_token_for th b); rewrite ?bool_decide_eq_true; naive_solver.
Qed.
Lemma right_filter_iff a b : right_filter th a b = true ↔ ∃ l, right_border c a l ∧ right_border c b l.
Proof using H Eth WA.
  unfold right_filter. setoid_rewrite <- rt_iff. destruct (right_token_for th a), (right_token_for th b); rewrite ?bool_decide_eq_true; naive_solver.
Qed.
Lemma left_retrieve_iff a b : b ∈ left_retrieve th a ↔ ∃ l, left_border c a l ∧ left_border c b l.
Proof using H Eth WA.
  unfold left_retrieve. destruct (left_token_for th a) as [l|] eqn:El.
  - apply lt_iff in El. rewrite elem_of_cons, in_left, <- lb_in by by eapply lb_token. split; [by eauto|].
    intros (l' & Ha & Hb). by rewrite (lb_fun a l l' El Ha).
  - split; [by intros ?%elem_of_nil|]. intros (l & Hl & _). apply lt_iff in Hl. congruence.
Qed.
Lemma right_retrieve_iff a b : b ∈ right_retrieve th a ↔ ∃ l, right_border c a l ∧ right_border c b l.
Proof using H Eth WA.
  unfold right_retrieve. destruct (right_token_for th a) as [l|] eqn:El.
  - apply rt_iff in El. rewrite elem_of_cons, in_right, <- rb_in by by eapply rb_token. split; [by eauto|].
    intros (l' & Ha & Hb). by rewrite (rb_fun a l l' El Ha).
  - split; [by intros ?%elem_of_nil|]. intros (l & Hl & _). apply rt_iff in Hl. congruence.
Qed.
Lemma left_retrieve_nodup a : NoDup (left_retrieve th a).
Proof using H Eth WA.
  unfold left_retrieve. destruct (left_token_for th a) as [l|] eqn:El; [|constructor]. apply lt_iff in El. apply left_group_nodup. by eapply lb_token.
Qed.
Lemma right_retrieve_nodup a : NoDup (right_retrieve th a).
Proof using H Eth WA.
  unfold right_retrieve. destruct (right_token_for th a) as [l|] eqn:El; [|constructor]. apply rt_iff in El. apply right_group_nodup. by eapply rb_token.
Qed.
End Ops.
