From stdpp Require Import base list gmap.
From Coq Require Import NArith Arith Lia.
From Verif Require Import KeySer SortedMap Types SymbolTable AnnoMem AnnoSpec GraphSpec Adjacency AdjacencySpec
  AdjacencyProofs Storage StorageSpec GraphApply TokenHelper TokenSearchSpec TokenSearchProofs Dfs DfsProofs LinearProofs Context ContextSpec
  ContextProofs TokenOps TokenOpsSpec TokenOpsProofs.

Lemma chain_max (R : N → N → Prop) L : (∀ a, R a a) → (∀ a b d, R a b → R b d → R a d) → L ≠ [] →
  (∀ a b, a ∈ L → b ∈ L → R a b ∨ R b a) → ∃ m, m ∈ L ∧ ∀ a, a ∈ L → R a m.
Proof.
  intros Hr Ht. induction L as [|x L IH]; intros Hne Hc; [done|]. destruct L as [|y L].
  - exists x. split; [by left|]. by intros a ->%elem_of_list_singleton.
  - destruct IH as (m & Hm & Hmax); [done|intros a b Ha Hb; apply Hc; by right|].
    destruct (Hc x m) as [Hx|Hx]; [by left|by right| |].
    + exists m. split; [by right|]. intros a [->|Ha]%elem_of_cons; auto.
    + exists x. split; [by left|]. intros a [->|Ha]%elem_of_cons; [done|]. apply (Ht a m x); [by apply Hmax|done].
Qed.

Section Aligned.
Context (db : corpus) (c : content) (H : holds_content db c) (T : texts_ok c).
Notation O := (ct_order c).
Notation E := (edge_rel O).
Lemma first_fun x t u : first_covered c x t → first_covered c x u → t = u.
Proof using T. intros [Ct Ht] [Cu Hu]. apply (chain_antisym O); [apply T|by apply Ht|by apply Hu]. Qed.
Lemma last_fun x t u : last_covered c x t → last_covered c x u → t = u.
Proof using T. intros [Ct Ht] [Cu Hu]. apply (chain_antisym O); [apply T|by apply Hu|by apply Ht]. Qed.
Lemma covered_list x : ∃ L : list N, ∀ t, t ∈ L ↔ covered c x t.
Proof using H.
  destruct (th_some db c H) as (th & Eth & _). exists (covered_tokens elements th x). intros t.
  apply (covered_tokens_iff db c H elements); [|done]. intros X. split; [apply NoDup_elements|]. intros y. by rewrite elem_of_elements.
Qed.
Lemma first_last x t : first_covered c x t → ∃ u, last_covered c x u.
Proof using H T.
  intros [Ct Ht]. destruct (covered_list x) as [L HL].
  destruct (chain_max (reachable E) L) as (m & Hm & Hmax); [apply reach_refl|apply reach_trans|intros ->; by apply HL, elem_of_nil in Ct| |].
  - intros a b Ha Hb. apply (chain_connected O a b t); [apply T|by apply Ht, HL|by apply Ht, HL].
  - exists m. split; [by apply HL|]. intros a Ha. by apply Hmax, HL.
Qed.
Lemma last_first x t : last_covered c x t → ∃ u, first_covered c x u.
Proof using H T.
  intros [Ct Ht]. destruct (covered_list x) as [L HL].
  destruct (chain_max (λ a b, reachable E b a) L) as (m & Hm & Hmax);
    [apply reach_refl|intros a b d H1 H2; by eapply reach_trans|intros ->; by apply HL, elem_of_nil in Ct| |].
  - intros a b Ha Hb. apply or_comm, (chain_connected_inv O a b t); [apply T|by apply Ht, HL|by apply Ht, HL].
  - exists m. split; [by apply HL|]. intros a Ha. by apply Hmax, HL.
Qed.
Lemma first_reach_last x t u : first_covered c x t → last_covered c x u → reachable E t u.
Proof using. intros [Ct Ht] [Cu Hu]. by apply Ht. Qed.
Context (A : aligned c).
Lemma aligned_well : well_aligned c.
Proof using H T A.
  destruct A as [AL AR]. constructor.
  - intros x t [Hx [[Ht _] _]]%AL. done.
  - intros x t [Hx [[Ht _] _]]%AR. done.
  - intros x t u [_ Ht]%AL [_ Hu]%AL. by apply (first_fun x).
  - intros x t u [_ Ht]%AR [_ Hu]%AR. by apply (last_fun x).
  - intros x. split.
    + intros [t [Hx Ht]%AL]. destruct (first_last x t Ht) as [u Hu]. exists u. by apply AR.
    + intros [t [Hx Ht]%AR]. destruct (last_first x t Ht) as [u Hu]. exists u. by apply AL.
  - intros x t u [_ Ht]%AL [_ Hu]%AR. by eapply first_reach_last.
Qed.
Lemma token_covered x t : token c x → covered c x t ↔ t = x.
Proof using. intros Hx. unfold covered. split; [intros [_ [?|[_ ?]]]; done|]. intros ->. by split; [|left]. Qed.
Lemma lb_first x t : left_border c x t ↔ first_covered c x t.
Proof using A H.
  destruct A as [AL AR]. destruct (th_some db c H) as (th & Eth & _). pose proof (is_token_iff db c H th x Eth) as Hd.
  assert (token c x ∨ ¬ token c x) as [Hx|Hx] by (destruct (is_token th x); naive_solver).
  - unfold first_covered. setoid_rewrite (λ t, token_covered x t Hx). split.
    + intros [[_ ->]|[? _]]; [|done]. split; [done|]. intros ? ->. apply reach_refl.
    + intros [-> _]. by left.
  - split; [intros [[? _]|[_ Ht]]; [done|]; by apply AL|]. intros Ht. right. split; [done|]. by apply AL.
Qed.
Lemma rb_last x t : right_border c x t ↔ last_covered c x t.
Proof using A H.
  destruct A as [AL AR]. destruct (th_some db c H) as (th & Eth & _). pose proof (is_token_iff db c H th x Eth) as Hd.
  assert (token c x ∨ ¬ token c x) as [Hx|Hx] by (destruct (is_token th x); naive_solver).
  - unfold last_covered. setoid_rewrite (λ t, token_covered x t Hx). split.
    + intros [[_ ->]|[? _]]; [|done]. split; [done|]. intros ? ->. apply reach_refl.
    + intros [-> _]. by left.
  - split; [intros [[? _]|[_ Ht]]; [done|]; by apply AR|]. intros Ht. right. split; [done|]. by apply AR.
Qed.
End Aligned.

(** ** Overlap *)
(** Two nodes without holes overlap iff they share a token *)
Lemma overlap_share c a b la ra lb rb : chains (ct_order c) → contiguous c a → contiguous c b →
  first_covered c a la → last_covered c a ra → first_covered c b lb → last_covered c b rb →
  reachable (edge_rel (ct_order c)) la rb → reachable (edge_rel (ct_order c)) lb ra → ∃ t, covered c a t ∧ covered c b t.
Proof.
  intros Hch Ha Hb Fa La Fb Lb R1 R2. destruct (chain_connected_inv (ct_order c) la lb ra Hch) as [R|R].
  - by eapply first_reach_last.
  - done.
  - exists lb. split; [|apply Fb]. apply (Ha la ra lb); [apply Fa|apply La|done|done].
  - exists la. split; [apply Fa|]. apply (Hb lb rb la); [apply Fb|apply Lb|done|done].
Qed.

Section Cands.
Context (db : corpus) (c : content) (H : holds_content db c) (T : texts_ok c).
Context (order : storage) (Eo : cp_order db = Some order) (th : helper) (Eth : th_new db = Some th).
Context (hash : gset N → list N) (Hhash : hash_order hash).
Notation O := (ct_order c).
Notation E := (edge_rel O).
Lemma covers_not_token n t : covers c n t → ¬ token c n.
Proof using. intros (G & HG & He) [_ Hn]. apply Hn. exists G. split; [done|]. by exists t. Qed.
Lemma covered_share a b : covers_tokens c → (∃ t, covered c a t ∧ covered c b t) ↔
  (token c a ∧ (a = b ∨ covers c b a)) ∨ (∃ t, covers c a t ∧ (t = b ∨ covers c b t)).
Proof using.
  intros Hct. split.
  - intros (t & [Ht Ha] & [_ Hb]). destruct Ha as [<-|[Ha Hna]].
    + left. split; [done|]. destruct Hb as [<-|[Hb _]]; auto.
    + right. exists t. split; [done|]. destruct Hb as [<-|[Hb _]]; auto.
  - intros [[Ha [<-|Hb]]|(t & Ha & Hb)].
    + exists a. split; split; auto.
    + exists a. split; split; auto. right. split; [done|]. by eapply covers_not_token.
    + exists t. pose proof (Hct a t Ha). split; split; auto; [right; split; [done|]; by eapply covers_not_token|].
      destruct Hb as [->|Hb]; [by left|]. right. split; [done|]. by eapply covers_not_token.
Qed.
Lemma cov_connected a t : Forall (λ G, in_limit G (Included 1%N)) (ct_cov c) →
  (∃ gs, gs ∈ th_cov th ∧ t ∈ gs_connected gs a 1 (Included 1%N)) ↔ ∃ gs, gs ∈ th_cov th ∧ t ∈ gs_out gs a ∧ t ≠ a.
Proof using H Eth.
  intros Hl. destruct (th_some db c H) as (th' & E' & _ & Ec & _). rewrite Eth in E'. injection E' as <-.
  assert (∀ gs, gs ∈ th_cov th → t ∈ gs_connected gs a 1 (Included 1%N) ↔ t ∈ gs_out gs a ∧ t ≠ a) as Hgs.
  { intros gs Hgs. rewrite Ec in Hgs. apply elem_of_list_filter in Hgs as [_ Hgs].
    apply elem_of_list_lookup in Hgs as [i Hi]. destruct (Forall2_lookup_l _ _ _ _ _ (hc_cov db c H) Hi) as (G & HG & IG).
    rewrite Forall_forall in Hl. pose proof (Hl G (elem_of_list_lookup_2 _ _ _ HG)) as HlG.
    rewrite (im_connected _ _ IG) by (auto; right; lia). rewrite (im_out _ _ IG). unfold path_in_range, in_distance, simple_path. split.
    - intros (p & [Hp Hnd] & Hlen). destruct p as [|x [|y p]]; simpl in *; [lia| |lia]. destruct Hp as [He ->]. split; [done|].
      apply NoDup_cons in Hnd as [Hnd _]. intros ->. apply Hnd. by left.
    - intros [He Hne]. exists [t]. split; [split; [by simpl|]|split; simpl; lia].
      apply NoDup_cons. split; [by rewrite elem_of_list_singleton|apply NoDup_singleton]. }
  split; intros (gs & Hin & Ht); exists gs; (split; [done|]); by apply Hgs.
Qed.
(** Coverage edges do not lead to the node itself *)
Lemma covers_irrefl a : covers_tokens c → ¬ covers c a a.
Proof using. intros Hct Ha. eapply covers_not_token; [done|]. by eapply Hct. Qed.
Lemma overlap_retrieve_iff rx a b : covers_tokens c → Forall (λ G, in_limit G (Included 1%N)) (ct_cov c) →
  b ∈ overlap_retrieve hash th rx a ↔ (rx = true ∧ a = b) ∨ ∃ t, covered c a t ∧ covered c b t.
Proof using H Eth Hhash.
  clear T Eo order. intros Hct Hlim. unfold overlap_retrieve. rewrite (proj2 (Hhash _)), elem_of_union, elem_of_list_to_set.
  assert (b ∈ (if rx then {[a]} else ∅ : gset N) ↔ rx = true ∧ a = b) as -> by (clear; destruct rx; set_solver).
  apply or_iff_compat_l. rewrite (covered_share a b Hct). pose proof (is_token_iff db c H th a Eth) as Ha.
  set (near := λ t, mjoin ((λ gs', gs_in gs' t) <$> th_cov th) ++ [t]).
  assert (∀ t, b ∈ near t ↔ t = b ∨ covers c b t) as Hnear.
  { intros t. unfold near. rewrite elem_of_app, elem_of_list_singleton, elem_mjoin_fmap, (cov_in_iff db c H th b t Eth). clear. naive_solver. }
  assert (th_cov th = [] → ∀ x, ¬ covers c x a) as Hempty.
  { intros Ecov x Hx. apply (cov_in_iff db c H th x a Eth) in Hx as (gs & Hgs & _). rewrite Ecov in Hgs. by apply elem_of_nil in Hgs. }
  pose proof (λ t, cov_connected a t Hlim) as Hconn. pose proof (λ t, cov_iff db c H th a t Eth) as Hcov.
  clearbody near. destruct (is_token th a) eqn:Ea.
  - assert (token c a) as Hta by by apply Ha.
    assert ((∃ t, covers c a t ∧ (t = b ∨ covers c b t)) ↔ False) as ->.
    { split; [|done]. intros (t & Hc & _). exact (covers_not_token a t Hc Hta). }
    clear Hconn Hcov. destruct (th_cov th) as [|g gs]; cbn [andb].
    + rewrite bool_decide_eq_true_2 by done. rewrite elem_of_list_singleton. split; [by intros ->; left; split; [|left]|].
      intros [[_ [->|Hb]]|[]]; [done|]. by destruct (Hempty eq_refl b).
    + rewrite bool_decide_eq_false_2 by done. rewrite elem_mjoin_fmap. setoid_rewrite elem_mjoin_fmap. split.
      * intros (g' & Hg' & t & ->%elem_of_list_singleton & Hb). left. split; [done|]. by apply Hnear.
      * intros [[_ Hb]|[]]. exists g. split; [by left|]. exists a. split; [by left|]. by apply Hnear.
  - cbn [andb]. assert (¬ token c a) as Hna by (intros Hta; by apply Ha in Hta). rewrite elem_mjoin_fmap. setoid_rewrite elem_mjoin_fmap. split.
    + intros (g & Hg & t & Ht & Hb). right. exists t. split; [|by apply Hnear].
      destruct (proj1 (Hconn t)) as (g' & Hg' & Ht' & _); [by exists g|]. apply Hcov. by exists g'.
    + intros [[? _]|(t & Ht & Hb)]; [done|]. pose proof Ht as Ht'. apply Hcov in Ht as (g & Hg & Ht).
      destruct (proj2 (Hconn t)) as (g' & Hg' & Hc').
      { exists g. split_and!; [done|done|]. intros ->. by apply (covers_irrefl a Hct). }
      exists g'. split; [done|]. exists t. split; [done|]. by apply Hnear.
Qed.
Lemma overlap_retrieve_nodup rx a : NoDup (overlap_retrieve hash th rx a).
Proof using Hhash. apply Hhash. Qed.
Lemma near_retrieve_nodup seg dist a : NoDup (near_retrieve hash th order seg dist a).
Proof using Hhash. apply Hhash. Qed.
(** ** Segmentations *)
Section Seg.
Context (WA : well_aligned c) (gs : storage) (S : gset edge) (IS : implements gs S) (HS : chains S) (dist : range_spec).
Context (Hlim : in_limit S (max_dist dist)) (Hrange : range_ok (min_dist dist) (max_dist dist)).
Context (Hnt : ∀ n, n ∈ all_nodes S → ¬ token c n).
Lemma seg_left_nil t : t ∈ all_nodes S → gs_in (th_left th) t = [].
Proof using H Eth WA Hnt.
  intros Ht. destruct (gs_in (th_left th) t) as [|x l] eqn:Ex; [done|]. exfalso. apply (Hnt t Ht). apply (wa_left c WA x t).
  apply (in_left db c H th Eth). rewrite Ex. by left.
Qed.
Lemma seg_right_nil t : t ∈ all_nodes S → gs_in (th_right th) t = [].
Proof using H Eth WA Hnt.
  intros Ht. destruct (gs_in (th_right th) t) as [|x l] eqn:Ex; [done|]. exfalso. apply (Hnt t Ht). apply (wa_right c WA x t).
  apply (in_right db c H th Eth). rewrite Ex. by left.
Qed.
Lemma mjoin_nil (f : N → list N) L : (∀ t, t ∈ L → f t = []) → mjoin ((λ t, t :: f t) <$> L) = L.
Proof using.
  induction L as [|t L IH]; intros Hf; [done|]. cbn [fmap list_fmap]. change (mjoin ((t :: f t) :: ((λ t, t :: f t) <$> L))) with
    ((t :: f t) ++ mjoin ((λ t, t :: f t) <$> L)). rewrite (Hf t) by by left. rewrite IH; [done|]. intros u Hu. apply Hf. by right.
Qed.
Lemma range_nodes x y : path_in_range S x y (min_dist dist) (max_dist dist) → (1 <= min_dist dist)%N ∨ x ∈ all_nodes S ∨ y ∈ all_nodes S → x ∈ all_nodes S ∧ y ∈ all_nodes S.
Proof using.
  intros (p & [Hp _] & Hd & _) Hx. assert (p ≠ [] ∨ p = []) as [Hne| ->] by (destruct p; auto).
  - destruct p as [|z p]; [done|].
    assert (x ∈ all_nodes S) as H1 by by apply (all_nodes_edge S x z), Hp.
    apply (reach_node S (λ n, n ∈ all_nodes S) x y); [done|by left|by exists (z :: p)].
  - simpl in *. subst. destruct Hx as [?|[?|?]]; [lia|done|done].
Qed.
Context (a : N) (Ha : (1 <= min_dist dist)%N ∨ a ∈ all_nodes S).
Lemma seg_retrieve : precedence_retrieve th order (Some gs) dist a = gs_connected gs a (min_dist dist) (max_dist dist).
Proof using H Eth WA IS Hlim Hnt Ha.
  unfold precedence_retrieve. cbn [default]. apply mjoin_nil. intros t Ht. apply seg_left_nil. apply (im_connected _ _ IS) in Ht; [|done|tauto].
  apply (range_nodes a t Ht). tauto.
Qed.
Lemma seg_inv_retrieve : inverse_precedence_retrieve th order (Some gs) dist a = gs_connected_inverse gs a (min_dist dist) (max_dist dist).
Proof using H Eth WA IS Hlim Hrange Hnt Ha.
  unfold inverse_precedence_retrieve. cbn [default]. apply mjoin_nil. intros t Ht. apply seg_right_nil. apply (im_inverse _ _ IS) in Ht; [|done|done|tauto].
  apply (range_nodes t a Ht). tauto.
Qed.
Lemma seg_near b : b ∈ near_retrieve hash th order (Some gs) dist a ↔
  b ∈ precedence_retrieve th order (Some gs) dist a ∨ b ∈ inverse_precedence_retrieve th order (Some gs) dist a.
Proof using Hhash.
  unfold near_retrieve. rewrite (proj2 (Hhash _)), elem_of_list_to_set, elem_of_app. reflexivity.
Qed.
End Seg.

(** ** All operators *)
Context (seg_edges : storage → gset edge).
Lemma op_filter_borders op a b : aligned c → op_usable c seg_edges op a.1 b.1 → (op = OOverlap true → a.1 = b.1 → a.2 = b.2) →
  op_filter th order op a b = true ↔ op_holds c seg_edges op a.1 b.1.
Proof using H T Eo Eth.
  intros A HU Hk. pose proof (aligned_well db c H T A) as WA. pose proof (lb_first db c H A) as LF. pose proof (rb_last db c H A) as RL.
  destruct op as [seg dist|seg dist|seg dist|rx| | | |]; cbn [op_filter op_holds op_usable] in *.
  - destruct seg as [gs|].
    + destruct HU as (IS & HS & Hl & Hr & Hd). unfold precedence_filter. rewrite steps_iff by done. apply (im_is_connected _ _ IS); [done|].
      destruct Hd as [?|Hd]; [by right|]. left. apply Hd. by left.
    + rewrite (prec_filter_iff db c H order Eo th Eth WA dist HU). setoid_rewrite RL. setoid_rewrite LF. setoid_rewrite (λ d x y, steps_iff O d x y (proj1 T)). done.
  - destruct seg as [gs|].
    + destruct HU as (IS & HS & Hl & Hr & Hd). unfold inverse_precedence_filter. rewrite steps_iff by done. apply (im_is_connected _ _ IS); [done|].
      destruct Hd as [?|Hd]; [by right|]. left. apply Hd. by right.
    + trans (precedence_filter th order None dist b.1 a.1 = true).
      { unfold inverse_precedence_filter, precedence_filter. destruct (left_token_for th a.1), (right_token_for th b.1); reflexivity. }
      rewrite (prec_filter_iff db c H order Eo th Eth WA dist HU). setoid_rewrite RL. setoid_rewrite LF. setoid_rewrite (λ d x y, steps_iff O d x y (proj1 T)). done.
  - destruct seg as [gs|].
    + destruct HU as (IS & HS & Hl & Hr & Hd). unfold near_filter. rewrite !steps_iff by done. rewrite orb_true_iff.
      rewrite !(im_is_connected _ _ IS) by (first [done|destruct Hd as [?|Hd]; [by right|left; apply Hd; auto]]). done.
    + rewrite (near_filter_iff db c H order Eo th Eth WA dist HU). setoid_rewrite RL. setoid_rewrite LF. setoid_rewrite (λ d x y, steps_iff O d x y (proj1 T)). done.
  - rewrite (overlap_filter_iff db c H order Eo th Eth WA). setoid_rewrite RL. setoid_rewrite LF. apply or_iff_compat_r. split.
    + by intros [-> ->].
    + intros [-> Hab]. split; [done|]. destruct a as [a k], b as [b k']. cbn in *. subst. by rewrite (Hk eq_refl eq_refl).
  - destruct HU as [Hl Hall]. rewrite (inclusion_filter_iff db c H T order Eo th Eth WA Hl Hall). setoid_rewrite RL. setoid_rewrite LF. done.
  - rewrite (identical_filter_iff db c H th Eth WA). setoid_rewrite RL. setoid_rewrite LF. done.
  - rewrite (left_filter_iff db c H th Eth WA). setoid_rewrite LF. done.
  - rewrite (right_filter_iff db c H th Eth WA). setoid_rewrite RL. done.
Qed.
Lemma op_candidates op a b : aligned c → op_usable c seg_edges op a.1 b → candidates_usable c seg_edges op →
  b ∈ op_retrieve hash th order op a ↔ op_holds c seg_edges op a.1 b.
Proof using H T Eo Eth Hhash.
  intros A HU HC. pose proof (aligned_well db c H T A) as WA. pose proof (lb_first db c H A) as LF. pose proof (rb_last db c H A) as RL.
  destruct op as [seg dist|seg dist|seg dist|rx| | | |]; cbn [op_retrieve op_holds op_usable candidates_usable] in *.
  - destruct seg as [gs|].
    + destruct HU as (IS & HS & Hl & Hr & Hd). assert ((1 <= min_dist dist)%N ∨ a.1 ∈ all_nodes (seg_edges gs)) as Ha.
      { destruct Hd as [?|Hd]; [by left|]. right. apply Hd. by left. }
      rewrite (seg_retrieve WA gs (seg_edges gs) IS dist Hl HC a.1 Ha), steps_iff by done. apply (im_connected _ _ IS); [done|tauto].
    + rewrite (prec_retrieve_iff db c H T order Eo th Eth WA dist HU). setoid_rewrite RL. setoid_rewrite LF. setoid_rewrite (λ d x y, steps_iff O d x y (proj1 T)). done.
  - destruct seg as [gs|].
    + destruct HU as (IS & HS & Hl & Hr & Hd). assert ((1 <= min_dist dist)%N ∨ a.1 ∈ all_nodes (seg_edges gs)) as Ha.
      { destruct Hd as [?|Hd]; [by left|]. right. apply Hd. by left. }
      rewrite (seg_inv_retrieve WA gs (seg_edges gs) IS dist Hl Hr HC a.1 Ha), steps_iff by done. apply (im_inverse _ _ IS); [done|done|tauto].
    + rewrite (inv_retrieve_iff db c H T order Eo th Eth WA dist HU). setoid_rewrite RL. setoid_rewrite LF. setoid_rewrite (λ d x y, steps_iff O d x y (proj1 T)). done.
  - destruct seg as [gs|].
    + destruct HU as (IS & HS & Hl & Hr & Hd). assert ((1 <= min_dist dist)%N ∨ a.1 ∈ all_nodes (seg_edges gs)) as Ha.
      { destruct Hd as [?|Hd]; [by left|]. right. apply Hd. by left. }
      rewrite seg_near, (seg_retrieve WA gs (seg_edges gs) IS dist Hl HC a.1 Ha), (seg_inv_retrieve WA gs (seg_edges gs) IS dist Hl Hr HC a.1 Ha), !steps_iff by done.
      rewrite (im_connected _ _ IS), (im_inverse _ _ IS) by (done || tauto). done.
    + rewrite (near_retrieve_eq order th hash Hhash), (prec_retrieve_iff db c H T order Eo th Eth WA dist HU), (inv_retrieve_iff db c H T order Eo th Eth WA dist HU).
      setoid_rewrite RL. setoid_rewrite LF. setoid_rewrite (λ d x y, steps_iff O d x y (proj1 T)). done.
  - destruct HC as (Htext & Hcon & Hct & Hlim). rewrite overlap_retrieve_iff by done. apply or_iff_compat_l. split.
    + intros (t & Ha & Hb).
      assert (∀ x, covered c x t → ∃ l r, first_covered c x l ∧ last_covered c x r ∧ reachable E l t ∧ reachable E t r) as Hex; [|].
      2: { destruct (Hex a.1 Ha) as (la & ra & ? & ? & ? & ?), (Hex b Hb) as (lb & rb & ? & ? & ? & ?). exists la, ra, lb, rb.
           split_and!; try done; by eapply reach_trans. }
      intros x Hx. destruct (covered_list db c H x) as [L HL].
      assert (∀ u v, u ∈ L → v ∈ L → reachable E u v ∨ reachable E v u) as Hcmp.
      { intros u v Hu%HL Hv%HL. destruct (Htext x u v Hu Hv) as [->|[(p & _ & Hp)|(p & _ & Hp)]]; [left; apply reach_refl|left; by exists p|right; by exists p]. }
      assert (L ≠ []) as Hne by (intros ->; by apply HL, elem_of_nil in Hx).
      destruct (chain_max (reachable E) L) as (r & Hr & Hmax); [apply reach_refl|apply reach_trans|done|done|].
      destruct (chain_max (λ u v, reachable E v u) L) as (l & Hl & Hmin);
        [apply reach_refl|intros u v w H1 H2; by eapply reach_trans|done|intros u v Hu Hv; apply or_comm; by apply Hcmp|].
      exists l, r. split_and!; [split; [by apply HL|]; intros u Hu; by apply Hmin, HL|split; [by apply HL|]; intros u Hu; by apply Hmax, HL|by apply Hmin, HL|by apply Hmax, HL].
    + intros (la & ra & lb & rb & Fa & La & Fb & Lb & R1 & R2). apply (overlap_share c a.1 b la ra lb rb); [apply T|done..].
  - destruct HU as [Hl Hall]. rewrite (inclusion_retrieve_iff db c H T order Eo th Eth WA Hl Hall). setoid_rewrite RL. setoid_rewrite LF. done.
  - rewrite (identical_retrieve_iff db c H th Eth WA). setoid_rewrite RL. setoid_rewrite LF. done.
  - rewrite (left_retrieve_iff db c H th Eth WA). setoid_rewrite LF. done.
  - rewrite (right_retrieve_iff db c H th Eth WA). setoid_rewrite RL. done.
Qed.
Lemma op_nodup op a : well_aligned c → op_usable c seg_edges op a.1 a.1 → candidates_usable c seg_edges op → NoDup (op_retrieve hash th order op a).
Proof using H T Eo Eth Hhash.
  intros WA HU HC. destruct op as [seg dist|seg dist|seg dist|rx| | | |]; cbn [op_retrieve op_usable candidates_usable] in *.
  - destruct seg as [gs|]; [|by apply (prec_retrieve_nodup db c H T)].
    destruct HU as (IS & HS & Hl & Hr & Hd). assert ((1 <= min_dist dist)%N ∨ a.1 ∈ all_nodes (seg_edges gs)) as Ha.
    { destruct Hd as [?|Hd]; [by left|]. right. apply Hd. by left. }
    rewrite (seg_retrieve WA gs (seg_edges gs) IS dist Hl HC a.1 Ha). by apply (im_connected_nd _ _ IS).
  - destruct seg as [gs|]; [|by apply (inv_retrieve_nodup db c H T)].
    destruct HU as (IS & HS & Hl & Hr & Hd). assert ((1 <= min_dist dist)%N ∨ a.1 ∈ all_nodes (seg_edges gs)) as Ha.
    { destruct Hd as [?|Hd]; [by left|]. right. apply Hd. by left. }
    rewrite (seg_inv_retrieve WA gs (seg_edges gs) IS dist Hl Hr HC a.1 Ha). by apply (im_inverse_nd _ _ IS).
  - apply near_retrieve_nodup.
  - apply overlap_retrieve_nodup.
  - by apply (inclusion_retrieve_nodup db c H T order Eo th Eth WA); apply HU.
  - by apply (identical_retrieve_nodup db c H).
  - by apply (left_retrieve_nodup db c H).
  - by apply (right_retrieve_nodup db c H).
Qed.
(** Candidates and check also agree if the edges to the left-most and right-most token are well-formed, but not correct *)
Lemma op_agree op a b k : well_aligned c → (∀ rx, op ≠ OOverlap rx) → op_usable c seg_edges op a.1 b → candidates_usable c seg_edges op →
  b ∈ op_retrieve hash th order op a ↔ op_filter th order op a (b, k) = true.
Proof using H T Eo Eth Hhash.
  intros WA Hov HU HC. destruct op as [seg dist|seg dist|seg dist|rx| | | |]; cbn [op_retrieve op_filter op_usable candidates_usable fst] in *.
  - destruct seg as [gs|].
    + destruct HU as (IS & HS & Hl & Hr & Hd). assert ((1 <= min_dist dist)%N ∨ a.1 ∈ all_nodes (seg_edges gs)) as Ha.
      { destruct Hd as [?|Hd]; [by left|]. right. apply Hd. by left. }
      rewrite (seg_retrieve WA gs (seg_edges gs) IS dist Hl HC a.1 Ha). cbn [precedence_filter].
      rewrite (im_connected _ _ IS), (im_is_connected _ _ IS) by (done || tauto). done.
    + by rewrite (prec_retrieve_iff db c H T order Eo th Eth WA dist HU), (prec_filter_iff db c H order Eo th Eth WA dist HU).
  - destruct seg as [gs|].
    + destruct HU as (IS & HS & Hl & Hr & Hd). assert (∀ x, x = a.1 ∨ x = b → (1 <= min_dist dist)%N ∨ x ∈ all_nodes (seg_edges gs)) as Ha.
      { destruct Hd as [?|Hd]; [by left|]. intros x Hx. right. apply Hd. tauto. }
      pose proof (Ha a.1 (or_introl eq_refl)). pose proof (Ha b (or_intror eq_refl)).
      rewrite (seg_inv_retrieve WA gs (seg_edges gs) IS dist Hl Hr HC a.1) by done. cbn [inverse_precedence_filter].
      rewrite (im_inverse _ _ IS), (im_is_connected _ _ IS) by (done || tauto). done.
    + rewrite (inv_retrieve_iff db c H T order Eo th Eth WA dist HU).
      trans (precedence_filter th order None dist b a.1 = true); [symmetry; apply (prec_filter_iff db c H order Eo th Eth WA dist HU)|].
      unfold inverse_precedence_filter, precedence_filter. destruct (left_token_for th a.1), (right_token_for th b); reflexivity.
  - destruct seg as [gs|].
    + destruct HU as (IS & HS & Hl & Hr & Hd). assert (∀ x, x = a.1 ∨ x = b → (1 <= min_dist dist)%N ∨ x ∈ all_nodes (seg_edges gs)) as Ha.
      { destruct Hd as [?|Hd]; [by left|]. intros x Hx. right. apply Hd. tauto. }
      pose proof (Ha a.1 (or_introl eq_refl)). pose proof (Ha b (or_intror eq_refl)).
      rewrite seg_near, (seg_retrieve WA gs (seg_edges gs) IS dist Hl HC a.1), (seg_inv_retrieve WA gs (seg_edges gs) IS dist Hl Hr HC a.1) by done.
      cbn [near_filter]. rewrite orb_true_iff.
      rewrite (im_connected _ _ IS), (im_inverse _ _ IS), !(im_is_connected _ _ IS) by (done || tauto). done.
    + rewrite (near_retrieve_eq order th hash Hhash), (prec_retrieve_iff db c H T order Eo th Eth WA dist HU), (inv_retrieve_iff db c H T order Eo th Eth WA dist HU).
      symmetry. apply (near_filter_iff db c H order Eo th Eth WA dist HU).
  - by destruct (Hov rx).
  - destruct HU as [Hl Hall]. by rewrite (inclusion_retrieve_iff db c H T order Eo th Eth WA Hl Hall), (inclusion_filter_iff db c H T order Eo th Eth WA Hl Hall).
  - by rewrite (identical_retrieve_iff db c H th Eth WA), (identical_filter_iff db c H th Eth WA).
  - by rewrite (left_retrieve_iff db c H th Eth WA), (left_filter_iff db c H th Eth WA).
  - by rewrite (right_retrieve_iff db c H th Eth WA), (right_filter_iff db c H th Eth WA).
Qed.
End Cands.

(** ** Inverse operators *)
Lemma op_inverse_filter th order cost op op' a b : op_inverse order cost op = Some op' → op_filter th order op' b a = op_filter th order op a b.
Proof.
  destruct op as [seg dist|seg dist|seg dist|rx| | | |]; cbn [op_inverse]; intros Hi; try (injection Hi as <-); cbn [op_filter].
  - destruct (cost _); [|done]. injection Hi as <-. cbn [op_filter]. unfold inverse_precedence_filter, precedence_filter. destruct seg; [done|].
    destruct (left_token_for th b.1), (right_token_for th a.1); reflexivity.
  - unfold inverse_precedence_filter, precedence_filter. destruct seg; [done|].
    destruct (right_token_for th b.1), (left_token_for th a.1); reflexivity.
  - unfold near_filter. destruct seg; [apply orb_comm|].
    destruct (right_token_for th a.1), (left_token_for th b.1), (left_token_for th a.1), (right_token_for th b.1); try reflexivity. apply orb_comm.
  - unfold overlap_filter. rewrite (bool_decide_ext (b = a) (a = b)) by done. destruct (rx && bool_decide (a = b)); [done|].
    destruct (right_token_for th a.1), (left_token_for th b.1), (left_token_for th a.1), (right_token_for th b.1); try reflexivity.
    destruct (gs_distance order _ _), (gs_distance order _ _); reflexivity.
  - done.
  - unfold identical_filter.
    destruct (right_token_for th a.1), (left_token_for th b.1), (left_token_for th a.1), (right_token_for th b.1); try reflexivity.
    f_equal; by apply bool_decide_ext.
  - unfold left_filter. destruct (left_token_for th b.1), (left_token_for th a.1); try reflexivity. by apply bool_decide_ext.
  - unfold right_filter. destruct (right_token_for th b.1), (right_token_for th a.1); try reflexivity. by apply bool_decide_ext.
Qed.
(** ** Tokens of both nodes *)
Section Share.
Context (c : content) (Hch : chains (ct_order c)) (a b : N) (Ha : contiguous c a) (Hb : contiguous c b).
Context (Fa : ∃ l r, first_covered c a l ∧ last_covered c a r) (Fb : ∃ l r, first_covered c b l ∧ last_covered c b r).
Lemma overlap_tokens se : op_holds c se (OOverlap false) a b ↔ ∃ t, covered c a t ∧ covered c b t.
Proof using All.
  cbn [op_holds]. split.
  - intros [[? _]|(la & ra & lb & rb & ? & ? & ? & ? & ? & ?)]; [done|]. by apply (overlap_share c a b la ra lb rb).
  - intros (t & Ca & Cb). right. destruct Fa as (la & ra & ? & ?), Fb as (lb & rb & ? & ?). exists la, ra, lb, rb. split_and!; try done.
    + eapply reach_trans; [by apply H|by apply H2].
    + eapply reach_trans; [by apply H1|by apply H0].
Qed.
Lemma inclusion_tokens se : op_holds c se OInclusion a b ↔ ∀ t, covered c b t → covered c a t.
Proof using All.
  cbn [op_holds]. split.
  - intros (la & ra & lb & rb & [Ca F1] & [Ca' F2] & [Cb F3] & [Cb' F4] & R1 & R2) t Ht. apply (Ha la ra t); [done|done| |].
    + eapply reach_trans; [done|by apply F3].
    + eapply reach_trans; [by apply F4|done].
  - intros Hsub. destruct Fa as (la & ra & [Ca F1] & [Ca' F2]), Fb as (lb & rb & [Cb F3] & [Cb' F4]). exists la, ra, lb, rb.
    split_and!; [done|done|done|done|by apply F1, Hsub|by apply F2, Hsub].
Qed.
End Share.
