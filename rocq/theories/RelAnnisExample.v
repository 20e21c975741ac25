(** A corpus for the examples of the import of relANNIS. *)
From Coq Require Import NArith String Lia.
From stdpp Require Import base list gmap.
From Verif Require Import KeySer KeySerSpec SortedMap Types CompPath GraphUpdate GraphApply GraphApplySpec RelAnnis RelAnnisSpec RelAnnisFilesSpec.

Definition ex_tree (top : bytes) : ctree := CT 0 top false [CT 1 (str "d1") true []; CT 2 (str "sub") false [CT 3 (str "d2") true []]].
(** Two spaces, two tokens with a space between, a span of both tokens and a node that dominates the span *)
Definition ex_text : trow := TRow 0 (Some 1%N) (str "text") (str "  The cat.").
Definition ex_t1 : nrow := NRow 1 0 1 None (str "t1") 2 5 0 0 (KTok 0 (str "The")).
Definition ex_t2 : nrow := NRow 2 0 1 None (str "t2") 6 9 1 1 (KTok 1 (str "cat")).
Definition ex_s : nrow := NRow 3 0 1 (Some (str "mylayer")) (str "s") 2 9 0 1 KPlain.
Definition ex_v : nrow := NRow 4 0 1 None (str "v") 2 9 0 1 KPlain.
Definition ex_tables (top : bytes) : tables :=
  Tables (tree_rows 0 (ex_tree top)).1 [ex_text]
    [ARow 0 [] (str "lang") (Some (str "en")); ARow 1 [] (str "author") (Some (str "X"))] [ex_t1; ex_t2; ex_s; ex_v] [ARow 3 (str "ns") (str "cat") (Some (str "NP"))]
    [(0%N, (Dominance, str "syntax", str "edge")); (1%N, (Coverage, str "exm", []))]
    [RRow 0 4 0 None; RRow 1 3 0 (Some 0%N); RRow 2 3 1 None] [ERow 1 (str "ns") (Some (str "func")) (Some (str "obj"))].
Definition ex_ext (d : option bytes) : list (bytes * bytes) := if decide (d = Some (str "d1")) then [(str "a.wav", str "/x/a.wav")] else [].
Ltac compute_it := apply (bool_decide_unpack _); vm_compute; exact I.
Lemma ex_files : sound_files ex_ext.
Proof. intros d f H. unfold ex_ext in H. destruct (decide _); [|by apply elem_of_nil in H]. apply elem_of_list_singleton in H as ->. compute_it. Qed.
Lemma ex_refs : ∀ top, sound_refs true (ex_tables top).
Proof.
  intros top. constructor.
  - compute_it.
  - intros i c name val (r & Hr & _ & _ & _ & Hc). apply elem_of_list_singleton in Hr as ->. injection Hc as <-. apply elem_of_cons. right. apply elem_of_cons. by left.
  - intros r i j c (Hr & -> & _ & r' & Hr' & _ & <-). cbn [t_nodes t_ranks ex_tables] in *. split.
    + repeat (apply elem_of_cons in Hr' as [-> |Hr']; [compute_it|]). by apply elem_of_nil in Hr'.
    + repeat (apply elem_of_cons in Hr as [-> |Hr]; [compute_it|]). by apply elem_of_nil in Hr.
  - apply Forall_forall. intros e He. apply elem_of_list_singleton in He as ->. by eexists.
Qed.
Lemma ex_chars : ∀ top, sound_chars (ex_tables top).
Proof.
  intros top. constructor; cbn [t_nodes ex_tables].
  - intros r i Hr Hi. repeat (apply elem_of_cons in Hr as [-> |Hr]; [first [discriminate Hi | injection Hi as <-; by vm_compute]|]). by apply elem_of_nil in Hr.
  - intros r Hr _. repeat (apply elem_of_cons in Hr as [-> |Hr]; [by vm_compute|]). by apply elem_of_nil in Hr.
  - intros r r' i j Hr Hr' _ Hi Hj Hij.
    repeat (apply elem_of_cons in Hr as [-> |Hr]; [repeat (apply elem_of_cons in Hr' as [-> |Hr']; [first [discriminate Hi | discriminate Hj | injection Hi as <-; injection Hj as <-; first [by vm_compute | by vm_compute in Hij]]|]); by apply elem_of_nil in Hr'|]). by apply elem_of_nil in Hr.
Qed.
Lemma ex_sound_tokens : ∀ top, sound_tokens (ex_tables top).
Proof.
  intros top. constructor; try compute_it. apply Forall_forall. intros r Hr s i v H. cbn [t_nodes ex_tables] in Hr. repeat (apply elem_of_cons in Hr as [-> |Hr]; [discriminate H|]). by apply elem_of_nil in Hr.
Qed.
Lemma ex_sound_texts : ∀ top, sound_texts (ex_tree top) true (ex_tables top).
Proof.
  intros top. split; [compute_it|]. split; [apply Forall_forall; intros r Hr; apply elem_of_list_singleton in Hr as ->; split; [done|by eexists]|]. split; [compute_it|].
  intros i c name val (r & Hr & _ & _ & _ & Hc). apply elem_of_list_singleton in Hr as ->. injection Hc as <-. done.
Qed.
Lemma ex_ranks : ∀ top, sound_ranks (ex_tables top).
Proof. intros top. constructor; compute_it. Qed.
Lemma ex_sound top : top ≠ [] → Forall (λ b, b < 256)%N top → hash ∉ top → sound_corpus (ex_tree top) true (ex_tables top).
Proof.
  intros H1 H2 H3. constructor; [|apply ex_ranks|apply ex_sound_texts|apply ex_sound_tokens|apply ex_chars|apply ex_refs].
  constructor; try compute_it.
  - reflexivity.
  - cbn [t_corpus ex_tables tree_rows ex_tree fst]. constructor; [done|]. compute_it.
Qed.
Lemma ex_writable : writable true (ex_tables (str "top")).
Proof.
  constructor; try compute_it.
  - apply Forall_forall. intros r Hr. apply elem_of_list_singleton in Hr as ->. split; [compute_it|]. split; [by vm_compute|]. exists 1%N. split; [done|by vm_compute].
  - apply Forall_forall. intros r Hr. cbn [t_nodes ex_tables] in Hr. repeat (apply elem_of_cons in Hr as [-> |Hr]; [split; [compute_it|]; repeat (split; [by vm_compute|]); done|]). by apply elem_of_nil in Hr.
  - apply Forall_forall. intros r Hr. cbn [t_ranks ex_tables] in Hr. repeat (apply elem_of_cons in Hr as [-> |Hr]; [repeat (split; [by vm_compute|]); intros p Hp; first [discriminate Hp | injection Hp as <-; by vm_compute]|]). by apply elem_of_nil in Hr.
Qed.
Definition ex_events (top : bytes) : list event := match import_events true ex_ext (ex_tables top) with Some x => x.2 | None => [] end.
Lemma ex_import : import_events true ex_ext (ex_tables (str "top")) = Some (str "top", ex_events (str "top")).
Proof. vm_compute. reflexivity. Qed.
