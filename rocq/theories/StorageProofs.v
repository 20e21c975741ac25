(** The linear storage and the adjacency list implement the interface of graph storages. *)
From stdpp Require Import base list gmap fin_maps sorting.
From Coq Require Import NArith Lia ConstructiveEpsilon.
From Verif Require Import KeySer KeySerSpec SortedMap Types SymbolTable AnnoMem Dfs DfsProofs DfsQueries GraphSpec Adjacency AdjacencySpec
  AnnoMemProofs AnnoMemQueries AdjacencyProofs CopyProofs Linear LinearSpec LinearProofs LinearQueries Storage StorageSpec.

(** linear.rs as a GraphStorage *)
Definition lin_storage (pmax : N) (s : lin) : storage :=
  Storage (lin_out pmax s) (lin_in s) (lin_sources s) (lin_roots s) (lin_find_connected s) (lin_find_connected_inverse s)
    (lin_distance s) (lin_is_connected s) (l_annos s) (s_nodes <$> l_stats s).

Section lin.
Context (pmax : N) (G : gset edge) (s : lin) (L : lin_ok s G) (F : fits_linear pmax G).

Lemma lin_missing x : x ∉ all_nodes G → l_pos s !! x = None.
Proof using L. intros H. apply eq_None_not_Some. by rewrite (lo_all _ _ L). Qed.
Lemma lin_missing_connected x min max : x ∉ all_nodes G → lin_find_connected s x min max = [].
Proof using L. intros H. unfold lin_find_connected. by rewrite (lin_missing x H). Qed.
Lemma lin_missing_inverse x min max : x ∉ all_nodes G → lin_find_connected_inverse s x min max = [].
Proof using L. intros H. unfold lin_find_connected_inverse. by rewrite (lin_missing x H). Qed.

Lemma lin_implements : (∀ st, l_stats s = Some st → s_nodes st = 0 → G = ∅) → implements (lin_storage pmax s) G.
Proof using L F.
  intros Hst. split; cbn.
  - apply (lin_out_lemma pmax G s L F).
  - apply (lin_out_lemma pmax G s L F).
  - apply (lin_in_lemma pmax G s L F).
  - apply (lin_in_lemma pmax G s L F).
  - apply (lin_sources_lemma pmax G s L F).
  - apply (lin_sources_lemma pmax G s L F).
  - apply (lin_roots_lemma pmax G s L F).
  - apply (lin_roots_lemma pmax G s L F).
  - intros x min max Hm. destruct (decide (x ∈ all_nodes G)) as [Hx|Hx].
    + apply (lin_find_connected_lemma pmax G s L F x min max (or_introl Hx)). by destruct max.
    + rewrite lin_missing_connected by done. constructor.
  - intros x y min max Hm Hx. apply (lin_find_connected_lemma pmax G s L F x min max Hx). by destruct max.
  - intros x min max Hm Hr. destruct (decide (x ∈ all_nodes G)) as [Hx|Hx].
    + apply (lin_find_connected_inverse_lemma pmax G s L F x min max (or_introl Hx)). by destruct max.
    + rewrite lin_missing_inverse by done. constructor.
  - intros x y min max Hm Hr Hx. apply (lin_find_connected_inverse_lemma pmax G s L F x min max Hx). by destruct max.
  - intros x y min max Hm Hx. by apply (lin_is_connected_lemma pmax G s L F).
  - intros x y. pose proof (lin_distance_lemma pmax G s L F x y) as H. destruct (lin_distance s x y) as [d|]; [|done].
    destruct H as [(p & Hp & Hl) _]. exists p. split; [|lia]. apply acyclic_simple; [|done]. apply F.
  - destruct (l_stats s) as [st|] eqn:E; [|done]. intros [= H]. by apply (Hst st).
Qed.
Lemma lin_chain_order : chain_order (lin_storage pmax s) G.
Proof using L F.
  intros x i j a b Ha Hb Hij. cbn in *. unfold lin_find_connected in *.
  destruct (l_pos s !! x) as [[r o]|] eqn:Ex; [|done]. destruct (l_chains s !! r) as [l|] eqn:El; [|done].
  destruct (usize_max <? o + 0)%N; [done|]. destruct (_ <? _)%N; [|done]. rewrite lookup_drop in Ha, Hb.
  set (k := N.to_nat (o + 0)) in *. clearbody k. clear Ex.
  replace (k + j) with (k + i + (j - i)) in Hb by lia. set (n := j - i) in *. clearbody n. clear Hij. revert Ha.
  set (q := k + i) in *. clearbody q. clear k i j. revert q a Hb. induction n as [|n IH]; intros q a Hb Ha.
  - rewrite Nat.add_0_r in Hb. simplify_eq. by exists [].
  - destruct (l !! S q) as [c|] eqn:Ec.
    2: { apply lookup_ge_None in Ec. apply lookup_lt_Some in Hb. lia. }
    destruct (IH (S q) c) as [p Hp]; [by replace (S q + n) with (q + S n) by lia|done|]. exists (c :: p). split; [|done].
    by apply (lo_out _ _ L r l q a).
Qed.
Lemma lin_finds_nothing : finds_nothing (lin_storage pmax s) G.
Proof using L. intros x Hx. by apply lin_missing_connected. Qed.
End lin.

(** The result of a search which needs some amount of fuel *)
Section run.
Context {A : Type} (f : nat → option A).
Lemma run_dec n : {is_Some (f n)} + {¬ is_Some (f n)}.
Proof. destruct (f n); [left; eauto|right; by intros [? [=]]]. Defined.
Definition run_total (H : ∃ n, is_Some (f n)) : A :=
  let n := constructive_indefinite_ground_description_nat _ run_dec H in
  match f (proj1_sig n) as r return is_Some r → A with Some a => λ _, a | None => λ H, match is_Some_None H with end end (proj2_sig n).
Lemma run_total_some H : ∃ n, f n = Some (run_total H).
Proof.
  unfold run_total. destruct (constructive_indefinite_ground_description_nat _ run_dec H) as [n Hn]. cbn. exists n.
  destruct (f n); [done|by destruct (is_Some_None Hn)].
Qed.
End run.

(** Distances of a depth first search along a chain *)
Section chain.
Context (nb : N → list N) (Hone : ∀ x, length (nb x) ≤ 1).

Lemma enum_sorted min max k : ∀ pre node,
  StronglySorted (λ a b : N * nat, a.2 < b.2) (enum nb min max k pre node) ∧
  ∀ x, x ∈ enum nb min max k pre node → length pre ≤ x.2.
Proof using Hone.
  induction k as [|k IH]; intros pre node; cbn [enum]; [split; [constructor|by intros ? ?%elem_of_nil]|].
  destruct (decide (node ∈ pre)); [split; [constructor|by intros ? ?%elem_of_nil]|].
  destruct (IH (pre ++ [node]) (match nb node with o :: _ => o | [] => 0%N end)) as [Hs Hb].
  assert ((if (N.of_nat (length pre) <? max)%N then reverse (nb node) ≫= enum nb min max k (pre ++ [node]) else []) = [] ∨
          (if (N.of_nat (length pre) <? max)%N then reverse (nb node) ≫= enum nb min max k (pre ++ [node]) else []) =
          enum nb min max k (pre ++ [node]) (match nb node with o :: _ => o | [] => 0%N end)) as Hr.
  { destruct (_ <? _)%N; [|by left]. pose proof (Hone node) as H1. destruct (nb node) as [|o [|o' l]]; [by left| |simpl in H1; lia].
    right. change (reverse [o]) with [o]. rewrite bind_cons. by rewrite app_nil_r. }
  set (rest := if (N.of_nat (length pre) <? max)%N then _ else _) in *.
  assert (StronglySorted (λ a b : N * nat, a.2 < b.2) rest ∧ ∀ x, x ∈ rest → S (length pre) ≤ x.2) as [Hs' Hb'].
  { destruct Hr as [->| ->]; [split; [constructor|by intros ? ?%elem_of_nil]|]. split; [done|]. intros x Hx%Hb. rewrite app_length in Hx. simpl in Hx. lia. }
  destruct (in_rng min max (length pre)); simpl.
  - split.
    + constructor; [done|]. apply Forall_forall. intros x Hx%Hb'. simpl. lia.
    + intros x [->|Hx%Hb']%elem_of_cons; simpl; lia.
  - split; [done|]. intros x Hx%Hb'. lia.
Qed.
End chain.

Lemma first_visits_sorted (l : list (N * nat)) : ∀ V, StronglySorted (λ a b : N * nat, a.2 < b.2) l →
  ∀ i j a b, first_visits V l !! i = Some a → first_visits V l !! j = Some b → i < j →
  ∃ d e, (a, d) ∈ l ∧ (b, e) ∈ l ∧ d < e.
Proof.
  induction l as [|[x d] l IH]; intros V Hs i j a b Ha Hb Hij; [done|]. apply StronglySorted_inv in Hs as [Hs Hx]. cbn in Ha, Hb.
  destruct (decide (x ∈ V)).
  - destruct (IH V Hs i j a b Ha Hb Hij) as (d1 & d2 & H1 & H2 & Hlt). exists d1, d2. split_and!; [by right|by right|done].
  - destruct j as [|j]; [lia|]. destruct i as [|i]; cbn in Ha, Hb.
    + injection Ha as <-. apply elem_of_list_lookup_2 in Hb.
      destruct (first_visits_spec l ({[x]} ∪ V)) as [_ Hin]. apply Hin in Hb as (_ & e & He). exists d, e. split_and!; [by left|by right|].
      rewrite Forall_forall in Hx. exact (Hx _ He).
    + destruct (IH _ Hs i j a b Ha Hb ltac:(lia)) as (d1 & d2 & H1 & H2 & Hlt). exists d1, d2. split_and!; [by right|by right|done].
Qed.

(** adjacencylist.rs as a GraphStorage; its searches end *)
Section adj.
Context (s : adj) (g : graph) (I : ginv s g) (Hids : ids_ok (gr_edges g)).
Notation G := (gr_edges g).

Definition plain (max : bound N) : Prop := match max with Excluded _ => False | _ => True end.
Lemma plain_not max : plain max → max ≠ Excluded 0%N.
Proof. by destruct max. Qed.
Lemma connected_ends x min max : plain max → ∃ n, is_Some (find_connected n (adj_out s) x min max).
Proof using I Hids.
  intros H%plain_not. destruct (adj_find_connected s g I Hids x min max H) as (f & Hf). exists f.
  destruct (Hf f (le_n f)) as (l & -> & _). eauto.
Qed.
Lemma inverse_ends x min max : plain max → ∃ n, is_Some (find_connected_inverse n (adj_in s) x min max).
Proof using I Hids.
  intros H%plain_not. destruct (adj_find_connected_inverse s g I Hids x min max H) as (f & Hf). exists f.
  destruct (Hf f (le_n f)) as (l & -> & _). eauto.
Qed.
Lemma is_connected_ends x y min max : plain max → ∃ n, is_Some (is_connected n (adj_out s) x y min max).
Proof using I Hids.
  intros H%plain_not. destruct (adj_is_connected s g I Hids x y min max H) as (f & Hf). exists f.
  destruct (Hf f (le_n f)) as (l & -> & _). eauto.
Qed.
Lemma distance_ends x y : ∃ n, is_Some (distance n (adj_out s) x y).
Proof using I Hids.
  destruct (adj_distance s g I Hids x y) as (f & Hf). exists f. destruct (Hf f (le_n f)) as (l & -> & _). eauto.
Qed.
Definition of_plain {A} (d : A) (f : bound N → nat → option A) (H : ∀ max, plain max → ∃ n, is_Some (f max n)) (max : bound N) : A :=
  match max with
  | Unbounded => run_total (f Unbounded) (H Unbounded Logic.I)
  | Included m => run_total (f (Included m)) (H (Included m) Logic.I)
  | Excluded _ => d
  end.
Lemma of_plain_some {A} (d : A) f H max : plain max → ∃ n, f max n = Some (of_plain d f H max).
Proof. destruct max; [intros _|done|intros _]; apply run_total_some. Qed.

Definition adj_storage : storage :=
  Storage (adj_out s) (adj_in s) (adj_sources s) (adj_roots s)
    (λ x min, of_plain [] (λ max n, find_connected n (adj_out s) x min max) (connected_ends x min))
    (λ x min, of_plain [] (λ max n, find_connected_inverse n (adj_in s) x min max) (inverse_ends x min))
    (λ x y, N.of_nat <$> run_total (λ n, distance n (adj_out s) x y) (distance_ends x y))
    (λ x y min, of_plain false (λ max n, is_connected n (adj_out s) x y min max) (is_connected_ends x y min))
    (g_annos s) (s_nodes <$> g_stats s).

(** The functions of this storage are those of the adjacency list, with enough fuel *)
Lemma adj_storage_runs x y min max : plain max → ∃ f,
  find_connected f (adj_out s) x min max = Some (gs_connected adj_storage x min max) ∧
  find_connected_inverse f (adj_in s) x min max = Some (gs_connected_inverse adj_storage x min max) ∧
  is_connected f (adj_out s) x y min max = Some (gs_is_connected adj_storage x y min max) ∧
  ∃ d, distance f (adj_out s) x y = Some d ∧ gs_distance adj_storage x y = N.of_nat <$> d.
Proof.
  intros Hp. pose proof (plain_not max Hp) as Hne.
  destruct (adj_find_connected s g I Hids x min max Hne) as (f1 & H1).
  destruct (adj_find_connected_inverse s g I Hids x min max Hne) as (f2 & H2).
  destruct (adj_is_connected s g I Hids x y min max Hne) as (f3 & H3).
  destruct (adj_distance s g I Hids x y) as (f4 & H4).
  destruct (of_plain_some [] (λ max n, find_connected n (adj_out s) x min max) (connected_ends x min) max Hp) as (n1 & E1).
  destruct (of_plain_some [] (λ max n, find_connected_inverse n (adj_in s) x min max) (inverse_ends x min) max Hp) as (n2 & E2).
  destruct (of_plain_some false (λ max n, is_connected n (adj_out s) x y min max) (is_connected_ends x y min) max Hp) as (n3 & E3).
  destruct (run_total_some (λ n, distance n (adj_out s) x y) (distance_ends x y)) as (n4 & E4).
  exists (n1 `max` n2 `max` n3 `max` n4). cbn.
  assert (∀ nb st mi ma n f r, n ≤ f → dfs_loop nb mi ma n st = Some r → dfs_loop nb mi ma f st = Some r) as Hm.
  { intros. by eapply loop_mono. }
  split_and!.
  - cbn in E1. unfold find_connected in *. destruct (max_of_bound max); [|done]. cbn in *.
    destruct (dfs_loop _ _ _ n1 _) as [r|] eqn:Er; [|done]. by rewrite (Hm _ _ _ _ n1 (n1 `max` n2 `max` n3 `max` n4) r ltac:(lia) Er).
  - cbn in E2. unfold find_connected_inverse in *. destruct (max_of_bound max); [|done]. cbn in *.
    destruct (dfs_loop _ _ _ n2 _) as [r|] eqn:Er; [|done]. by rewrite (Hm _ _ _ _ n2 (n1 `max` n2 `max` n3 `max` n4) r ltac:(lia) Er).
  - cbn in E3. unfold is_connected in *. destruct (max_of_bound max); [|done]. cbn in *.
    destruct (dfs_loop _ _ _ n3 _) as [r|] eqn:Er; [|done]. by rewrite (Hm _ _ _ _ n3 (n1 `max` n2 `max` n3 `max` n4) r ltac:(lia) Er).
  - exists (run_total (λ n, distance n (adj_out s) x y) (distance_ends x y)). split; [|done]. cbn in E4. unfold distance in *.
    destruct (dfs_loop _ _ _ n4 _) as [r|] eqn:Er; [|done]. by rewrite (Hm _ _ _ _ n4 (n1 `max` n2 `max` n3 `max` n4) r ltac:(lia) Er).
Qed.

Lemma find_connected_any n nb x min max l f : find_connected n nb x min max = Some l → n ≤ f → find_connected f nb x min max = Some l.
Proof.
  unfold find_connected. destruct (max_of_bound max); [|done]. cbn. destruct (dfs_loop _ _ _ n _) as [r|] eqn:Er; [|done].
  intros [= <-] Hf. by rewrite (loop_mono _ _ _ n f _ r Hf Er).
Qed.
Lemma find_inverse_any n nb x min max l f : find_connected_inverse n nb x min max = Some l → n ≤ f → find_connected_inverse f nb x min max = Some l.
Proof.
  unfold find_connected_inverse. destruct (max_of_bound max); [|done]. cbn. destruct (dfs_loop _ _ _ n _) as [r|] eqn:Er; [|done].
  intros [= <-] Hf. by rewrite (loop_mono _ _ _ n f _ r Hf Er).
Qed.
Lemma is_connected_any n nb x y min max l f : is_connected n nb x y min max = Some l → n ≤ f → is_connected f nb x y min max = Some l.
Proof.
  unfold is_connected. destruct (max_of_bound max); [|done]. cbn. destruct (dfs_loop _ _ _ n _) as [r|] eqn:Er; [|done].
  intros [= <-] Hf. by rewrite (loop_mono _ _ _ n f _ r Hf Er).
Qed.
Lemma distance_any n nb x y l f : distance n nb x y = Some l → n ≤ f → distance f nb x y = Some l.
Proof.
  unfold distance. destruct (dfs_loop _ _ _ n _) as [r|] eqn:Er; [|done].
  intros [= <-] Hf. by rewrite (loop_mono _ _ _ n f _ r Hf Er).
Qed.

Lemma limit_plain max : in_limit G max → plain max.
Proof. by destruct max. Qed.
Lemma adj_connected_spec x min max : plain max → NoDup (gs_connected adj_storage x min max) ∧
  ∀ y, y ∈ gs_connected adj_storage x min max ↔ path_in_range G x y min max.
Proof.
  intros Hp. destruct (adj_storage_runs x x min max Hp) as (n & E & _).
  destruct (adj_find_connected s g I Hids x min max (plain_not _ Hp)) as (f & Hf).
  destruct (Hf (n `max` f) ltac:(lia)) as (l & El & Hnd & Hl).
  rewrite (find_connected_any _ _ _ _ _ _ (n `max` f) E ltac:(lia)) in El. apply (inj Some) in El. subst l. done.
Qed.
Lemma adj_inverse_spec x min max : plain max → NoDup (gs_connected_inverse adj_storage x min max) ∧
  ∀ y, y ∈ gs_connected_inverse adj_storage x min max ↔ path_in_range G y x min max.
Proof.
  intros Hp. destruct (adj_storage_runs x x min max Hp) as (n & _ & E & _).
  destruct (adj_find_connected_inverse s g I Hids x min max (plain_not _ Hp)) as (f & Hf).
  destruct (Hf (n `max` f) ltac:(lia)) as (l & El & Hnd & Hl).
  rewrite (find_inverse_any _ _ _ _ _ _ (n `max` f) E ltac:(lia)) in El. apply (inj Some) in El. subst l. done.
Qed.
Lemma adj_implements : (∀ st, g_stats s = Some st → s_nodes st = 0 → G = ∅) → implements adj_storage G.
Proof.
  intros Hst. destruct (sources_spec s g I) as (H1 & H2 & H3 & H4). split.
  - intros x. apply nsorted_NoDup, I.
  - apply (gi_out _ _ I).
  - intros x. apply nsorted_NoDup, I.
  - intros x y. apply (gi_in _ _ I).
  - done.
  - done.
  - done.
  - done.
  - intros x min max Hm. by apply adj_connected_spec, limit_plain.
  - intros x y min max Hm _. by apply adj_connected_spec, limit_plain.
  - intros x min max Hm _. by apply adj_inverse_spec, limit_plain.
  - intros x y min max Hm _ _. by apply adj_inverse_spec, limit_plain.
  - intros x y min max Hm _. pose proof (limit_plain _ Hm) as Hp. destruct (adj_storage_runs x y min max Hp) as (n & _ & _ & E & _).
    destruct (adj_is_connected s g I Hids x y min max (plain_not _ Hp)) as (f & Hf).
    destruct (Hf (n `max` f) ltac:(lia)) as (l & El & Hl).
    rewrite (is_connected_any _ _ _ _ _ _ _ (n `max` f) E ltac:(lia)) in El. apply (inj Some) in El. subst l. done.
  - intros x y. destruct (run_total_some (λ n, distance n (adj_out s) x y) (distance_ends x y)) as (n & E).
    destruct (adj_distance s g I Hids x y) as (f & Hf). destruct (Hf (n `max` f) ltac:(lia)) as (l & El & Hl).
    cbn in E. rewrite (distance_any _ _ _ _ _ (n `max` f) E ltac:(lia)) in El. injection El as Er. cbn. rewrite Er.
    destruct l as [d|]; cbn; [|done]. destruct Hl as (p & Hp & <-). by exists p.
  - cbn. destruct (g_stats s) as [st|] eqn:E; [|done]. intros [= H]. by apply (Hst st).
Qed.
Lemma adj_finds_itself : finds_itself adj_storage G.
Proof.
  intros x Hx. destruct (adj_connected_spec x 0 Unbounded Logic.I) as [Hnd Hl].
  assert (∀ y, y ∈ gs_connected adj_storage x 0 Unbounded ↔ y = x) as H.
  { intros y. rewrite Hl. split.
    - intros (p & [Hw _] & _). destruct p as [|z p]; [done|]. destruct Hw as [He _]. destruct Hx. by apply (all_nodes_edge G x z).
    - intros ->. exists []. split; [|by split]. split; [done|]. apply NoDup_singleton. }
  apply Permutation_singleton_r. apply NoDup_Permutation; [done|apply NoDup_singleton|]. intros y. by rewrite H, elem_of_list_singleton.
Qed.
Lemma adj_chain_order : one_child G → chain_order adj_storage G.
Proof.
  intros Hone x i j a b Ha Hb Hij. destruct (adj_storage_runs x x 0 Unbounded Logic.I) as (n & E & _).
  assert (∀ y, length (adj_out s y) ≤ 1) as H1.
  { intros y. destruct (adj_out s y) as [|c [|d l]] eqn:El; simpl; [lia|lia|exfalso].
    pose proof (nsorted_NoDup _ (gi_out_sorted _ _ I y)) as Hnd. rewrite El in Hnd. apply NoDup_cons in Hnd as [Hc _]. apply Hc.
    rewrite (Hone y c d); [by left| |].
    - apply (gi_out _ _ I). rewrite El. by left.
    - apply (gi_out _ _ I). rewrite El. right. by left. }
  destruct (find_connected n (adj_out s) x 0 Unbounded) as [l|] eqn:El; [|done]. apply (inj Some) in E.
  rewrite <- E in Ha, Hb. clear E. unfold find_connected in El. cbn in El.
  destruct (dfs_loop (adj_out s) 0 usize_max n (dfs_new x)) as [[r st]|] eqn:Er; [|done]. injection El as <-. cbn in Ha, Hb.
  assert (StronglySorted (λ a b : N * nat, a.2 < b.2) r ∧ ∀ m d, (m, d) ∈ r → ∃ p, walk (edge_rel G) x p m ∧ d = length p) as [Hs Hp].
  { split.
    - set (k := S (size (verts g x ∖ list_to_set []))).
      destruct (big_step (adj_out s) 0 usize_max (verts g x) (verts_out s g I x) k [] x (dfs_new x) []) as (m & s' & L & S' & _).
      { lia. } { exact (verts_self s g I x). } { constructor. } { done. } { exact (fits_new (dfs_new x) x eq_refl eq_refl eq_refl eq_refl). }
      assert (dfs_loop (adj_out s) 0 usize_max (m + 1) (dfs_new x) = Some (enum (adj_out s) 0 usize_max k [] x, s')) as Em.
      { rewrite L. simpl. rewrite S'. simpl. by rewrite app_nil_r. }
      pose proof (f_equal fst (loop_det _ _ _ _ _ _ _ _ Em Er)) as Hr. change (enum (adj_out s) 0 usize_max k [] x = r) in Hr. rewrite <- Hr. by apply enum_sorted.
    - destruct (search_total (adj_out s) 0 usize_max (verts g x) (verts_out s g I x) (dfs_new x) x) as (f0 & Hf); try done.
      { exact (verts_self s g I x). }
      destruct (Hf f0 (le_n _)) as (l & s' & E1 & Hl & _). pose proof (loop_det _ _ _ _ _ _ _ _ E1 Er) as [= -> _].
      intros m d (p & [Hw _] & -> & _)%Hl. exists p. split; [|done]. eapply walk_ext; [|done]. intros u v. by apply (out_rel s g). }
  destruct (first_visits_sorted r ∅ Hs i j a b Ha Hb Hij) as (d1 & d2 & [p1 [W1 ->]]%Hp & [p2 [W2 ->]]%Hp & Hlt). clear -Hone W1 W2 Hlt.
  revert x p2 W1 W2 Hlt. induction p1 as [|c p1 IH]; intros x p2 W1 W2 Hlt.
  - simpl in W1. subst. by exists p2.
  - destruct p2 as [|c' p2]; [simpl in Hlt; lia|]. destruct W1 as [E1 W1], W2 as [E2 W2].
    rewrite (Hone x c' c E2 E1) in *. apply (IH c p2); [done|done|simpl in Hlt; lia].
Qed.
End adj.
