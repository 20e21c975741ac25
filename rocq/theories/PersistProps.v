(** C24, C25: updates and saves survive crashes. *)
From stdpp Require Import base list gmap.
From Coq Require Import NArith.
From Verif Require Import KeySer Types AnnoMem Adjacency GraphUpdate GraphApply Persist PersistSpec PersistProofs.

(** C24: after any history (see [hist]) opening the location yields the content after all acknowledged updates. Missing for
    the full property: an update before the background save of the last one has finished, and a crash between a recovery and
    the next complete background save; both lose updates, see the refutations below. *)
Theorem C24_acknowledged_updates_survive_partial :
  ∀ ct ph s m c, hist ct ph s m c → ph ≠ Recovered → opened_content ct s = Some c.
Proof. exact hist_open. Qed.
Print Assumptions C24_acknowledged_updates_survive_partial.

(** C24: and so does the graph in memory, whether or not its components are loaded. *)
Theorem C24_memory_has_acknowledged_updates_partial :
  ∀ ct ph s m c, hist ct ph s (Some m) c → mem_content s m = Some c.
Proof. exact hist_mem. Qed.
Print Assumptions C24_memory_has_acknowledged_updates_partial.

(** C25: a crash at any step of the background save leaves the complete updated content for the next process. Missing for
    the full property: the process after that one, see [C25_second_open_refuted]. *)
Theorem C25_crash_in_save_partial :
  ∀ ct s m c k, hist ct Logged s (Some m) c →
  opened_content ct (run_acts s (take k (do_sync s m))) = Some c.
Proof.
  intros ct s m c k H. destruct (decide (k < length (do_sync s m))) as [Hk|Hk].
  - exact (hist_open ct Logged _ None c (h_sync_crash ct s m c k H Hk) ltac:(done)).
  - rewrite take_ge by (apply not_lt; exact Hk).
    exact (hist_open ct Saved _ (Some m) c (h_sync ct Logged s m c ltac:(done) H) ltac:(done)).
Qed.
Print Assumptions C25_crash_in_save_partial.

(** C25: a crash at any step of an update leaves the content before or after it. *)
Theorem C25_crash_in_update_partial :
  ∀ ct s m c l m' acts c' k, hist ct Saved s (Some m) c → do_update ct s m l = Some (m', acts) → updates_to ct c l c' →
  opened_content ct (run_acts s (take k acts)) = Some c ∨ opened_content ct (run_acts s (take k acts)) = Some c'.
Proof.
  intros ct s m c l m' acts c' k H Hu Hc. destruct (decide (k < length acts)) as [Hk|Hk].
  - left. exact (hist_open ct Saved _ None c (h_update_crash ct s m c l m' acts k H Hu Hk) ltac:(done)).
  - right. rewrite take_ge by (apply not_lt; exact Hk).
    exact (hist_open ct Logged _ (Some m') c' (h_update ct s m c l m' acts c' H Hu Hc) ltac:(done)).
Qed.
Print Assumptions C25_crash_in_update_partial.

(** C25: crashes while a process recovers from a backup, as often as they happen, do not matter. *)
Theorem C25_crash_in_recovery_partial :
  ∀ ct s c m acts k, hist ct Logged s None c → do_open ct s = Some (m, acts) → k < length acts →
  opened_content ct (run_acts s (take k acts)) = Some c.
Proof.
  intros ct s c m acts k H Ho Hk.
  exact (hist_open ct Logged _ None c (h_open_crash ct s c m acts k H Ho Hk) ltac:(done)).
Qed.
Print Assumptions C25_crash_in_recovery_partial.

Local Open Scope N_scope.
Definition pa : bytes := [97].
Definition pb : bytes := [98].
Definition p_edge : bytes := [69; 100; 103; 101].
(** A graph with the nodes a and b and an edge *)
Definition p_start : gstate :=
  default g_empty (apply_updates default_ctype g_empty
    [[(1, AddNode pa [110]); (2, AddNode pb [110]); (3, GraphUpdate.AddEdge pa pb [] p_edge [])]]).
Definition p_fs : fs := run_acts (FS None None) (do_persist (of_gstate p_start)).
Definition p_c : bytes := [99].
Definition p_d : bytes := [100].

(** C24: two updates that both return without a background save in between: after a crash the first one is lost. *)
Theorem C24_second_update_refuted :
  ∃ ct g s l1 m1 a1 l2 m2 a2 c n,
    s = run_acts (FS None None) (do_persist (of_gstate g)) ∧
    do_update ct s (of_gstate g) l1 = Some (m1, a1) ∧
    do_update ct (run_acts s a1) m1 l2 = Some (m2, a2) ∧
    am_has_node_name node_name_key (m_annos m2) n = true ∧
    opened_content ct (run_acts (run_acts s a1) a2) = Some c ∧ am_has_node_name node_name_key c.1 n = false.
Proof.
  assert (match do_update default_ctype p_fs (of_gstate p_start) [(1, AddNode p_c [110])] with
    | Some (m1, a1) => match do_update default_ctype (run_acts p_fs a1) m1 [(1, AddNode p_d [110])] with
       | Some (m2, a2) => am_has_node_name node_name_key (m_annos m2) p_c &&
          match opened_content default_ctype (run_acts (run_acts p_fs a1) a2) with
          | Some c => negb (am_has_node_name node_name_key c.1 p_c)
          | None => false end
       | None => false end
    | None => false end = true) as H by (vm_compute; reflexivity).
  exists default_ctype, p_start, p_fs, [(1, AddNode p_c [110])].
  destruct (do_update default_ctype p_fs (of_gstate p_start) _) as [[m1 a1]|] eqn:E1; [|discriminate H].
  exists m1, a1, [(1, AddNode p_d [110])].
  destruct (do_update default_ctype (run_acts p_fs a1) m1 _) as [[m2 a2]|] eqn:E2; [|discriminate H].
  apply andb_true_iff in H as [H1 H].
  destruct (opened_content default_ctype (run_acts (run_acts p_fs a1) a2)) as [c|] eqn:E3; [|discriminate H].
  exists m2, a2, c, p_c. apply negb_true_iff in H.
  split; [reflexivity|]. split; [first [exact E1|reflexivity]|]. split; [first [exact E2|reflexivity]|]. split; [exact H1|].
  split; [exact E3|exact H].
Qed.
Print Assumptions C24_second_update_refuted.

(** C25: a crash in the background save after the old directory was moved. The first process that opens the location
    recovers the graph from the backup, but saves it to the wrong place (current/current) and removes the backup; a second
    process cannot open the graph, or (if the crash happened later) sees the nodes without the edges. *)
Theorem C25_second_open_refuted :
  ∃ ct g s l m acts, s = run_acts (FS None None) (do_persist (of_gstate g)) ∧
    do_update ct s (of_gstate g) l = Some (m, acts) ∧
    (∃ k m' acts', let s1 := run_acts (run_acts s acts) (take k (do_sync (run_acts s acts) m)) in
       do_open ct s1 = Some (m', acts') ∧ do_open ct (run_acts s1 acts') = None) ∧
    (∃ k m' acts' c c', let s1 := run_acts (run_acts s acts) (take k (do_sync (run_acts s acts) m)) in
       do_open ct s1 = Some (m', acts') ∧ mem_content (run_acts s1 acts') m' = Some c ∧
       opened_content ct (run_acts s1 acts') = Some c' ∧ c.2 ≠ ∅ ∧ c'.2 = ∅).
Proof.
  assert (match do_update default_ctype p_fs (of_gstate p_start) [(1, AddNode p_c [110])] with
    | Some (m, acts) =>
       (let s1 := run_acts (run_acts p_fs acts) (take 1 (do_sync (run_acts p_fs acts) m)) in
        match do_open default_ctype s1 with
        | Some (m', acts') => match do_open default_ctype (run_acts s1 acts') with None => true | Some _ => false end
        | None => false end) &&
       (let s1 := run_acts (run_acts p_fs acts) (take 4 (do_sync (run_acts p_fs acts) m)) in
        match do_open default_ctype s1 with
        | Some (m', acts') =>
            match mem_content (run_acts s1 acts') m', opened_content default_ctype (run_acts s1 acts') with
            | Some c, Some c' => Nat.eqb (size c.2) 1 && Nat.eqb (size c'.2) 0
            | _, _ => false end
        | None => false end)
    | None => false end = true) as H by (vm_compute; reflexivity).
  exists default_ctype, p_start, p_fs, [(1, AddNode p_c [110])].
  destruct (do_update default_ctype p_fs (of_gstate p_start) _) as [[m acts]|] eqn:E1; [|discriminate H].
  exists m, acts. cbv zeta in H. apply andb_true_iff in H as [H1 H2].
  split; [reflexivity|]. split; [first [exact E1|reflexivity]|]. split.
  - exists 1%nat. destruct (do_open default_ctype _) as [[m' acts']|] eqn:E2; [|discriminate H1].
    exists m', acts'. cbv zeta. split; [first [exact E2|reflexivity]|]. destruct (do_open default_ctype (run_acts _ acts')); [discriminate H1|reflexivity].
  - exists 4%nat. clear H1. destruct (do_open default_ctype _) as [[m' acts']|] eqn:E2; [|discriminate H2].
    exists m', acts'. cbv zeta. destruct (mem_content _ m') as [c|] eqn:E3; [|discriminate H2].
    destruct (opened_content default_ctype _) as [c'|] eqn:E4; [|discriminate H2]. exists c, c'.
    apply andb_true_iff in H2 as [Ha Hb]. apply Nat.eqb_eq in Ha, Hb.
    split; [first [exact E2|reflexivity]|]. split; [first [exact E3|reflexivity]|]. split; [first [exact E4|reflexivity]|]. split.
    + intros Hc. rewrite Hc, map_size_empty in Ha. discriminate Ha.
    + by apply map_size_empty_inv in Hb.
Qed.
Print Assumptions C25_second_open_refuted.

(** C25: the background save of a graph that was opened but whose components were not loaded yet drops the edges. *)
Theorem C25_save_of_unloaded_refuted :
  ∃ ct g s m acts c c', s = run_acts (FS None None) (do_persist (of_gstate g)) ∧
    do_open ct s = Some (m, acts) ∧ acts = [] ∧ opened_content ct s = Some c ∧ c.2 ≠ ∅ ∧
    opened_content ct (run_acts s (do_sync s m)) = Some c' ∧ c'.2 = ∅.
Proof.
  assert (match do_open default_ctype p_fs with
    | Some (m, []) => match opened_content default_ctype p_fs, opened_content default_ctype (run_acts p_fs (do_sync p_fs m)) with
       | Some c, Some c' => Nat.eqb (size c.2) 1 && Nat.eqb (size c'.2) 0
       | _, _ => false end
    | _ => false end = true) as H by (vm_compute; reflexivity).
  exists default_ctype, p_start, p_fs.
  destruct (do_open default_ctype p_fs) as [[m [|]]|] eqn:E1; [|discriminate H|discriminate H]. exists m, [].
  destruct (opened_content default_ctype p_fs) as [c|] eqn:E2; [|discriminate H].
  destruct (opened_content default_ctype (run_acts p_fs (do_sync p_fs m))) as [c'|] eqn:E3; [|discriminate H].
  exists c, c'. apply andb_true_iff in H as [Ha Hb]. apply Nat.eqb_eq in Ha, Hb.
  split; [reflexivity|]. split; [first [exact E1|reflexivity]|]. split; [reflexivity|].
  split; [first [exact E2|reflexivity]|]. split; [|split; [first [exact E3|reflexivity]|]].
  - intros Hc. rewrite Hc, map_size_empty in Ha. discriminate Ha.
  - by apply map_size_empty_inv in Hb.
Qed.
Print Assumptions C25_save_of_unloaded_refuted.

(** The hypotheses hold: save, update, crash in the background save, recovery, complete background save, crash. *)
Example hist_example : ∃ s m c, hist default_ctype Saved s m c ∧ c.2 ≠ ∅ ∧ am_has_node_name node_name_key c.1 p_c = true.
Proof.
  pose proof (h_persist default_ctype p_start) as H0. fold p_fs in H0.
  set (l := [(1, AddNode p_c [110])]).
  assert (match do_update default_ctype p_fs (of_gstate p_start) l with
    | Some (m, acts) => bool_decide (4 < length (do_sync (run_acts p_fs acts) m))%nat
    | None => false end = true) as H by (vm_compute; reflexivity).
  assert (match apply_update default_ctype p_start l with
    | Some g => Nat.eqb (size (g_comps g)) 1 && am_has_node_name node_name_key (g_node_annos g) p_c | None => false end = true) as Hg
    by (vm_compute; reflexivity).
  destruct (apply_update default_ctype p_start l) as [g|] eqn:Eg; [|discriminate Hg].
  destruct (do_update default_ctype p_fs (of_gstate p_start) l) as [[m acts]|] eqn:E1; [|discriminate H].
  apply bool_decide_eq_true in H. clearbody l.
  assert (updates_to default_ctype (content_of p_start) l (content_of g)) as Hu.
  { exists g, (g_change p_start). split; [|reflexivity]. rewrite <- Eg. reflexivity. }
  pose proof (h_update _ _ _ _ _ _ _ _ H0 E1 Hu) as H1.
  pose proof (h_sync_crash _ _ _ _ 4 H1 H) as H2.
  destruct (hist_can_open _ _ _ _ _ H2 ltac:(done)) as [[m' acts'] Eo].
  pose proof (h_open_logged _ _ _ _ _ H2 Eo) as H3.
  pose proof (h_sync _ Recovered _ _ _ ltac:(done) H3) as H4.
  eexists _, None, _. split; [refine (h_crash _ _ _ _ _ _ H4); done|].
  apply andb_true_iff in Hg as [Ha Hb]. apply Nat.eqb_eq in Ha. split; [|exact Hb].
  intros Hc. cbn in Hc. rewrite Hc, map_size_empty in Ha. discriminate Ha.
Qed.
