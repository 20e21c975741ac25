(** C70: the listings of components and annotations describe the corpus. *)
From stdpp Require Import base list gmap fin_maps sorting.
From Coq Require Import NArith.
From Verif Require Import KeySer KeySerSpec SortedMap SymbolTable Types TypesProofs AnnoMem AnnoSpec AnnoMemProofs AnnoMemQueries AnnoDisk AnnoDiskSpec
  AnnoDiskProofs AnnoDiskQueries AnnoDiskProps Adjacency GraphUpdate GraphApply Persist PersistSpec PersistProps Listing ListingSpec ListingProofs.

(** Annotations of nodes or edges in main memory, after any history: the names, all values, or the most frequent value of
    every name. *)
Theorem C70_annotations_in_memory {T} `{Countable T} (tcmp : T → T → comparison) `{!CmpOrder tcmp} :
  ∀ ops s outs list_values most_frequent, am_run tcmp am_new ops = (s, outs) →
  let M := as_run ∅ ops outs in
  ∃ l, list_am (Some s) list_values most_frequent = Some l ∧
    if list_values then if most_frequent then lists_most_frequent M l else lists_values M l else lists_names M l.
Proof.
  intros ops s outs lv mff Hr M. destruct (inv_run_new tcmp ops s outs Hr) as [_ (leak & I & _)].
  exact (list_am_lemma tcmp s leak M lv mff I).
Qed.
Print Assumptions C70_annotations_in_memory.

(** On disk, under the conditions of C11: the names and all values. Missing: the most frequent values (refuted below) and
    other histories. *)
Theorem C70_annotations_on_disk_partial {T} `{Countable T} (P : T → Prop) (tcmp : T → T → comparison)
  `{!CmpOrder tcmp} (w : nat) (ser : T → bytes) (parse : bytes → res T) :
  item_ok P tcmp w ser parse →
  ∀ n ops list_values most_frequent, list_values && most_frequent = false →
  Forall (op_ok P) ops → no_overwrite ∅ ops → tidy_history n ops → (N.of_nat (length ops) <= usize_max)%N →
  let M := as_content ops in
  ∃ d outs l, ad_run tcmp w ser (ad_new n) ops = Some (d, outs) ∧ list_ad w (Some d) list_values most_frequent = Some l ∧
    if list_values then lists_values M l else lists_names M l.
Proof.
  intros IO n ops lv mff Hf Ho Hno Ht Hlen M.
  destruct (run_new P tcmp w ser parse IO n ops Ho Hno Ht Hlen) as (d & outs & Hd & _ & _ & D & _).
  destruct (list_ad_lemma P tcmp w ser parse IO d M lv mff D) as (l & El & Hl). exists d, outs, l.
  split; [exact Hd|]. split; [exact El|]. destruct lv, mff; [discriminate Hf|exact Hl..].
Qed.
Print Assumptions C70_annotations_on_disk_partial.

(** On disk, "only the most frequent values" gives for every name the least frequent one. *)
Theorem C70_least_frequent_on_disk {T} `{Countable T} (P : T → Prop) (tcmp : T → T → comparison)
  `{!CmpOrder tcmp} (w : nat) (ser : T → bytes) (parse : bytes → res T) :
  item_ok P tcmp w ser parse →
  ∀ n ops, Forall (op_ok P) ops → no_overwrite ∅ ops → tidy_history n ops → (N.of_nat (length ops) <= usize_max)%N →
  ∃ d outs l, ad_run tcmp w ser (ad_new n) ops = Some (d, outs) ∧ list_ad w (Some d) true true = Some l ∧
    lists_least_frequent (as_content ops) l.
Proof.
  intros IO n ops Ho Hno Ht Hlen.
  destruct (run_new P tcmp w ser parse IO n ops Ho Hno Ht Hlen) as (d & outs & Hd & _ & _ & D & _).
  destruct (list_ad_lemma P tcmp w ser parse IO d (as_content ops) true true D) as (l & El & Hl). exists d, outs, l.
  exact (conj Hd (conj El Hl)).
Qed.
Print Assumptions C70_least_frequent_on_disk.

(** Two nodes have the value x and one has the value y; the listing of the most frequent values shows x if the annotations are in
    main memory and y if they are on disk. *)
Theorem C70_most_frequent_on_disk_refuted :
  ∃ ops : list (am_op N),
    list_am (Some (am_run N.compare am_new ops).1) true true = Some [(key_a, [120%N])] ∧
    match ad_run N.compare 8 (uint_create_key 8) (ad_new 10000) ops with
    | Some (d, _) => list_ad 8 (Some d) true true = Some [(key_a, [121%N])]
    | None => False
    end ∧
    count_value (as_content ops) key_a [120%N] = 2 ∧ count_value (as_content ops) key_a [121%N] = 1.
Proof.
  exists [AmInsert 1%N key_a [120%N]; AmInsert 2%N key_a [120%N]; AmInsert 3%N key_a [121%N]].
  split; [vm_compute; reflexivity|]. split; [vm_compute; reflexivity|]. split; vm_compute; reflexivity.
Qed.
Print Assumptions C70_most_frequent_on_disk_refuted.

(** A corpus or component that does not exist has no annotations. *)
Theorem C70_nothing_to_list : ∀ list_values most_frequent,
  list_am (T := N) None list_values most_frequent = Some [] ∧ list_am (T := edge) None list_values most_frequent = Some [] ∧
  (∀ w, list_ad (T := N) w None list_values most_frequent = Some []) ∧
  ∀ ctype name, list_components (FS None None) ctype name = [].
Proof. intros lv mff. split; [reflexivity|]. split; [reflexivity|]. split; reflexivity. Qed.
Print Assumptions C70_nothing_to_list.

(** When everything is saved, the components of the corpus that pass the filters are listed, every one once. Missing: the time
    between an update and its background synchronisation, see below. *)
Theorem C70_components_partial : ∀ ct s m c ctype name, hist ct Saved s m c →
  NoDup (list_components s ctype name) ∧
  ∀ x, x ∈ list_components s ctype name ↔ is_Some (c.2 !! x) ∧ requested ctype name x.
Proof. exact saved_components. Qed.
Print Assumptions C70_components_partial.

(** Until the synchronisation the list is the one before the update, *)
Theorem C70_components_until_saved : ∀ ct s m c l m' acts ctype name, hist ct Saved s (Some m) c →
  do_update ct s m l = Some (m', acts) →
  list_components (run_acts s acts) ctype name = list_components s ctype name.
Proof. exact logged_components. Qed.
Print Assumptions C70_components_until_saved.

Local Open Scope N_scope.
Definition c70_update : list (N * event) := [(1, GraphUpdate.AddEdge pa pb [] p_edge [120])].
(** so a component that was added by an update that returned, and that queries use, is not listed. *)
Theorem C70_components_refuted :
  ∃ ct s m c m' acts c' x, hist ct Saved s (Some m) c ∧ do_update ct s m c70_update = Some (m', acts) ∧
    hist ct Logged (run_acts s acts) (Some m') c' ∧ is_Some (c'.2 !! x) ∧ x ∉ list_components (run_acts s acts) None None ∧
    x ∈ list_components (run_acts (run_acts s acts) (do_sync (run_acts s acts) m')) None None.
Proof.
  set (x := (default 0 (default_ctype p_edge), [] : bytes, [120]) : comp).
  assert (match do_update default_ctype p_fs (of_gstate p_start) c70_update,
                apply_update default_ctype (GState (content_of p_start).1 (content_of p_start).2 0) c70_update with
    | Some (m', acts), Some g =>
        bool_decide (is_Some ((content_of g).2 !! x)) && bool_decide (x ∉ list_components (run_acts p_fs acts) None None)
    | _, _ => false end = true) as H by (vm_compute; reflexivity).
  exists default_ctype, p_fs, (of_gstate p_start), (content_of p_start).
  destruct (do_update default_ctype p_fs (of_gstate p_start) c70_update) as [[m' acts]|] eqn:E1; [|discriminate H].
  destruct (apply_update default_ctype _ c70_update) as [g|] eqn:E2; [|discriminate H].
  apply andb_true_iff in H as [H1 H2]. apply bool_decide_eq_true in H1. apply bool_decide_eq_true in H2.
  exists m', acts, (content_of g), x.
  pose proof (h_persist default_ctype p_start) as Hp.
  assert (hist default_ctype Logged (run_acts p_fs acts) (Some m') (content_of g)) as Hl.
  { apply (h_update default_ctype p_fs (of_gstate p_start) (content_of p_start) c70_update m' acts (content_of g) Hp E1).
    exists g, 0. split; [exact E2|reflexivity]. }
  split; [exact Hp|]. split; [first [exact E1|reflexivity]|]. split; [exact Hl|]. split; [exact H1|]. split; [exact H2|].
  apply (saved_components default_ctype _ (Some m') (content_of g) None None).
  - apply (h_sync default_ctype Logged); [discriminate|exact Hl].
  - split; [exact H1|]. split; intros ? [=].
Qed.
Print Assumptions C70_components_refuted.

(** The conditions can be met: the history of C11 and the graph of C24. *)
Example C70_example :
  match ad_run N.compare 8 (uint_create_key 8) (ad_new 10000) C11_history with
  | Some (d, _) => list_ad 8 (Some d) false false = Some [(key_a, []); (AnnoKey [98] [], [])] ∧
                   list_ad 8 (Some d) true false = Some [(key_a, [122]); (AnnoKey [98] [], [121])]
  | None => False
  end ∧
  list_am (Some (am_run N.compare am_new C11_history).1) true true = Some [(key_a, [122]); (AnnoKey [98] [], [121])] ∧
  hist default_ctype Saved p_fs (Some (of_gstate p_start)) (content_of p_start) ∧
  length (list_components p_fs None None) = 1%nat ∧ list_components p_fs None (Some [121]) = [] ∧
  list_components p_fs (Some 77) None = [].
Proof.
  split; [vm_compute; split; reflexivity|]. split; [vm_compute; reflexivity|]. split; [exact (h_persist default_ctype p_start)|].
  split; [vm_compute; reflexivity|]. split; vm_compute; reflexivity.
Qed.
