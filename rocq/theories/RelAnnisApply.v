(** The events of an import can be applied to an empty graph. *)
From Coq Require Import NArith String Lia.
From stdpp Require Import base list gmap sorting.
From Verif Require Import KeySer KeySerSpec SortedMap Types AnnoMem AnnoMemQueries CompPath GraphUpdate GraphApply GraphApplySpec RelAnnis RelAnnisSpec RelAnnisMaps RelAnnisTree
  RelAnnisNames RelAnnisRun RelAnnisParts RelAnnisGraph RelAnnisCorpora ListExtra.

Lemma additive_deletes ct C es : ∀ A, Forall additive es → deletes_ok ct C A es.
Proof. induction es as [|e es IH]; intros A H; [done|]. apply Forall_cons in H as [H1 H2]. split; [by destruct e|]. by apply IH. Qed.
Lemma keeps_annis n a v : a ≠ str "node_name" → keeps_names (AddNodeLabel n annis_ns a v).
Proof. intros H E. injection E as E. done. Qed.
Ltac keep := first [exact I | apply keeps_annis; discriminate].
Section apply.
Context (t : ctree) (T : tables) (ST : sound_tables t T) (v33 : bool) (ext : option bytes → list (bytes * bytes)) (NN : no_names T).
Context (ct : ctable) (top : bytes) (es e1 e2 e3 e5 e6 e8 e9 : list event) (k : ranks) (PA : parts t T v33 ext ct top es e1 e2 e3 e5 e6 e8 e9 k).
Local Notation names := (id_to_name ct (t_nodes T)).
Lemma keep1 : Forall keeps_names e1.
Proof.
  apply Forall_forall. intros e He. apply (concat_opt_elem _ _ _ _ (pa_e1 _ _ _ _ _ _ _ _ _ _ _ _ _ _ _ PA)) in He as (r & y & Hr & Hy & He). unfold node_events in Hy. destruct (node_path ct r) as [p|]; [|done]. injection Hy as <-.
  apply elem_of_cons in He as [-> |He]; [keep|]. apply elem_of_app in He as [He|He].
  - destruct (nr_layer r) as [[|b l]|]; try (by apply elem_of_nil in He). apply elem_of_list_singleton in He. subst. keep.
  - destruct (nr_kind r) as [i s|s i [sp|]|]; try (by apply elem_of_nil in He); apply elem_of_list_singleton in He; subst; keep.
Qed.
Lemma keep3 : Forall keeps_names e3.
Proof.
  apply Forall_forall. intros e He. apply (concat_opt_elem _ _ _ _ (pa_e3 _ _ _ _ _ _ _ _ _ _ _ _ _ _ _ PA)) in He as (r & y & Hr & Hy & He). unfold nanno_events in Hy. destruct (names !! ar_id r) as [n|]; [|done]. injection Hy as <-.
  destruct (decide _); [by apply elem_of_nil in He|]. apply elem_of_app in He as [He|He].
  - destruct (missing_span (t_nodes T) !! ar_id r) as [s|]; [|by apply elem_of_nil in He]. destruct (ar_val r); [|by apply elem_of_nil in He]. destruct (decide _); [|by apply elem_of_nil in He]. apply elem_of_list_singleton in He. subst. keep.
  - apply elem_of_list_singleton in He. subst. cbn. apply (proj1 (Forall_forall _ _) NN r). apply elem_of_app. by left.
Qed.
Lemma keep_labels c n : Forall keeps_names (corpus_labels (corpus_annos (t_cannos T)) c n).
Proof.
  apply Forall_forall. intros e He. unfold corpus_labels in He. apply elem_of_list_fmap in He as ([[c' kk] v] & -> & He). rewrite (sort_list_perm _ _), elem_of_list_filter, elem_of_map_to_list in He. destruct He as [_ He]. cbn in He |- *.
  rewrite corpus_annos_spec in He. unfold annotation in He. apply last_Some_elem_of in He. apply elem_of_list_fmap in He as (a & _ & Ha). apply elem_of_list_filter in Ha as [[_ <-] Ha].
  cbn. apply (proj1 (Forall_forall _ _) NN a). apply elem_of_app. by right.
Qed.
Lemma keep_files p d : Forall keeps_names (file_events ext p d).
Proof.
  apply Forall_forall. intros e He. unfold file_events in He. apply elem_of_list_In, in_concat in He as (y & Hy & He). apply elem_of_list_In, elem_of_list_fmap in Hy as (f & -> & _). apply elem_of_list_In in He. cbv zeta in He.
  apply elem_of_cons in He as [-> |He]; [keep|]. apply elem_of_cons in He as [-> |He]; [keep|]. apply elem_of_list_singleton in He as ->. exact I.
Qed.
Lemma keep4 : Forall keeps_names (top_events v33 ct (corpus_annos (t_cannos T)) ext).
Proof.
  unfold top_events. apply Forall_app. split; [repeat constructor; keep|]. destruct (ct_by_pre ct !! 0%N); [|constructor]. apply Forall_app. split; [apply keep_labels|apply keep_files].
Qed.
Lemma keep5 : Forall keeps_names e5.
Proof.
  apply Forall_forall. intros e He. apply (concat_opt_elem _ _ _ _ (pa_e5 _ _ _ _ _ _ _ _ _ _ _ _ _ _ _ PA)) in He as (r & y & Hr & Hy & He). unfold subcorpus_events in Hy. destruct (decide _); [injection Hy as <-; by apply elem_of_nil in He|].
  destruct (ct_by_id ct !! r.2) as [ce|]; [|done]. destruct (corpus_path ct r.2) as [m|]; [|done]. destruct (parent_path ct r.2) as [p|]; [|done]. injection Hy as <-.
  revert e He. apply Forall_forall. apply Forall_cons; split; [exact I|]. apply Forall_app; split; [destruct (decide _); [|constructor]; repeat constructor; keep|].
  apply Forall_app; split; [apply keep_labels|]. apply Forall_cons; split; [exact I|]. apply keep_files.
Qed.
Lemma import_keeps : Forall keeps_names es.
Proof.
  rewrite (pa_es _ _ _ _ _ _ _ _ _ _ _ _ _ _ _ PA). apply Forall_app; split; [|apply Forall_app; split; [|apply Forall_app; split; [|apply Forall_app; split; [|apply Forall_app; split; [|apply Forall_app; split; [|apply Forall_app; split; [|apply Forall_app; split; [|apply Forall_app; split]]]]]]]].
  - exact keep1.
  - eapply Forall_impl; [exact (P2 t T ST v33 ext ct top es e1 e2 e3 e5 e6 e8 e9 k PA)|]. by intros [].
  - exact keep3.
  - exact keep4.
  - exact keep5.
  - eapply Forall_impl; [exact (P6 t T v33 ext ct top es e1 e2 e3 e5 e6 e8 e9 k PA)|]. by intros [].
  - apply Forall_forall. intros e He. apply (e7_labels t T ST ct (pa_table _ _ _ _ _ _ _ _ _ _ _ _ _ _ _ PA)) in He as (n & a & v & -> & _ & Ha). apply keeps_annis. destruct Ha as [-> | ->]; discriminate.
  - eapply Forall_impl; [exact (P8 t T ST v33 ext ct top es e1 e2 e3 e5 e6 e8 e9 k PA)|]. by intros [].
  - eapply Forall_impl; [exact (P9 t T ST v33 ext ct top es e1 e2 e3 e5 e6 e8 e9 k PA)|]. by intros [].
  - eapply Forall_impl; [exact (P10 t T ST v33 ext ct top es e1 e2 e3 e5 e6 e8 e9 k PA)|]. by intros [].
Qed.
End apply.
Lemma import_history t T v33 ext top es : sound_tables t T → sound_files ext → no_names T → import_events v33 ext T = Some (top, es) → history_ok annis_ctype lg_empty [es].
Proof.
  intros ST SF NN H. destruct (import_parts t T ST v33 ext top es H) as (ct & e1 & e2 & e3 & e5 & e6 & e8 & e9 & k & PA). cbn. split; [|split; [|done]].
  - eapply import_keeps; done.
  - apply additive_deletes. eapply import_additive; done.
Qed.
