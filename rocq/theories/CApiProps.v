(** Property theorems for the C interface (C76). *)
From stdpp Require Import base list.
From Coq Require Import NArith Lia.
From Verif Require Import KeySer Types Bincode GraphUpdate GraphUpdateSpec GraphUpdateProofs QName Frequency CApi CApiSpec CApiProofs.

(** A string argument is the text before the first NUL, a null pointer the empty text; whatever the memory holds, the library gets valid
    UTF-8 without NUL *)
Theorem C76_string_arguments : ∀ p, text (cstr p) ∧ ∀ s, holds p s → utf8 s → cstr p = s.
Proof. intros p. split; [apply cstr_text|]. intros s. apply cstr_holds. Qed.
(** A string result is a C string with the text, and given as argument it is the same text again. Missing: texts with a NUL *)
Theorem C76_string_results_partial : ∀ s, 0%N ∉ s → points (string_out s) s ∧ (utf8 s → cstr (string_out s) = s).
Proof. intros s H. split; [by apply string_out_points|]. intros Hu. by apply string_round_trip. Qed.
(** A text with a NUL becomes the empty string *)
Theorem C76_nul_refuted : ∃ s t, utf8 s ∧ utf8 t ∧ s ≠ t ∧ string_out s = string_out t ∧ points (string_out s) [].
Proof.
  exists [97; 0]%N, []. split_and!; [by exists [97; 0]%N; split; [repeat constructor|]|by exists []|done|vm_compute; reflexivity|].
  split; [apply not_elem_of_nil|]. by exists [].
Qed.

(** Update calls record the events that the client means, in their order, without an error *)
Theorem C76_updates : ∀ calls events p, Forall2 call_means calls events → Forall event_ok events → Forall (λ e, Forall utf8 (event_strings e)) events →
  (N.of_nat (length calls) < 2 ^ 64)%N →
  ∃ g, c_updates gu_new calls p = (g, p) ∧ (gu_iter g).2 = Some (imap (λ i e, (N.of_nat (S i), e)) events).
Proof.
  intros calls events p H Hok Hu Hn. assert (call_event <$> calls = events) as E.
  { clear Hok Hn. induction H as [|c e calls events Hc _ IH]; [done|]. apply Forall_cons in Hu as [Hu1 Hu]. cbn. by rewrite (call_event_means c e), IH. }
  destruct (updates_run calls gu_new [] p linv_new) as (g & Eg & I); [by rewrite E|done|]. exists g. split; [exact Eg|]. rewrite E in I.
  by destruct (linv_iter _ _ I) as (g' & -> & _).
Qed.

(** The error variable stays a null pointer exactly for successful calls. After an error it is a list with the message and kind of the
    error and the messages of its causes, and the result is a fixed value *)
Theorem C76_count : ∀ count ptrs names q query, Forall2 holds ptrs names → Forall text names → holds q query → utf8 query →
  outcome (count names query) (cs_count count (filled ptrs) q) 0%N (λ n r, r = n).
Proof.
  intros count ptrs names q query Hp Ht Hq Hu. apply (outcome_ok _ _ (default 0%N)); [|done|done].
  intros p. unfold cs_count. by rewrite (filled_ok ptrs names), corpus_names_ok, (cstr_holds q query).
Qed.
Theorem C76_count_extra : ∀ count ptrs names q query, Forall2 holds ptrs names → Forall text names → holds q query → utf8 query →
  outcome (count names query) (cs_count_extra count (filled ptrs) q) (0, 0)%N (λ n r, r = n).
Proof.
  intros count ptrs names q query Hp Ht Hq Hu. apply (outcome_ok _ _ (default (0, 0)%N)); [|done|done].
  intros p. unfold cs_count_extra. by rewrite (filled_ok ptrs names), corpus_names_ok, (cstr_holds q query).
Qed.
(** Missing here and below: results with a NUL (C76_nul_refuted) *)
Theorem C76_find_partial {O} : ∀ find ptrs names q query offset limit (order : O), Forall2 holds ptrs names → Forall text names → holds q query → utf8 query →
  outcome (find names query offset limit order) (cs_find find (filled ptrs) q offset limit order) None
    (λ matches r, ∃ v, r = Some v ∧ vec_size v = length matches ∧ ((∀ m, m ∈ matches → 0%N ∉ m) → shows (vec_size v) (vec_str_get v) matches)).
Proof.
  intros find ptrs names q query offset limit order Hp Ht Hq Hu. apply (outcome_ok _ _ (fmap (fmap cstring))); [|done|].
  - intros p. unfold cs_find. by rewrite (filled_ok ptrs names), corpus_names_ok, (cstr_holds q query).
  - intros l _. exists (cstring <$> l). split_and!; [done|unfold vec_size; by rewrite fmap_length|]. intros Hl.
    assert (cstring <$> l = l) as ->. { rewrite <- (list_fmap_id l) at 2. apply list_fmap_ext. intros i s Hs. apply cstring_ok, Hl. by eapply elem_of_list_lookup_2. }
    by apply vec_str_shows.
Qed.
(** The segmentation is absent if its pointer is null *)
Theorem C76_subgraph {G} : ∀ (subgraph : bytes → list bytes → N → N → option bytes → rres G) c corpus ptrs ids left right s segmentation,
  holds c corpus → utf8 corpus → Forall2 holds ptrs ids → Forall text ids →
  match segmentation with None => s = None | Some t => points s t ∧ utf8 t end →
  outcome (subgraph corpus ids left right segmentation) (cs_subgraph subgraph c (filled ptrs) left right s) None (λ g r, r = Some g).
Proof.
  intros subgraph c corpus ptrs ids left right s segmentation Hc Hu Hp Ht Hs. apply (outcome_ok _ _ id); [|done|by intros v _].
  intros p. unfold cs_subgraph. rewrite (filled_ok ptrs ids), corpus_names_ok, (cstr_holds c corpus) by done.
  assert (match s with None => None | Some m => Some (cstr (Some m)) end = segmentation) as ->.
  { destruct segmentation as [t|]; [|by rewrite Hs]. destruct Hs as [Hs Ht']. pose proof (cstr_holds s t (or_intror Hs) Ht') as E. destruct Hs as [_ (rest & ->)]. exact (f_equal Some E). }
  by destruct (map_cerr _ p).
Qed.
(** Definitions joined with commas are the columns of a frequency table *)
Theorem C76_frequency_partial : ∀ freq ptrs names q query d ds defs, Forall2 holds ptrs names → Forall text names → holds q query → utf8 query →
  ds ≠ [] → Forall (λ d, 44%N ∉ d) ds → Forall2 (λ d f, freq_def_from_str d = Some f) ds defs → holds d (join_comma ds) → utf8 (join_comma ds) →
  outcome (freq names query defs) (cs_frequency freq (filled ptrs) q d) None
    (λ table r, ∃ t, r = Some t ∧ freqtable_nrows t = length table ∧ (∀ i, freqtable_count t i = default 0 (snd <$> table !! i)) ∧
       ∀ n, (∀ r, r ∈ table → length r.1 = n ∧ ∀ s, s ∈ r.1 → 0%N ∉ s) → shows_rows (freqtable_nrows t) (freqtable_ncols t) (freqtable_get t) table.*1).
Proof.
  intros freq ptrs names q query d ds defs Hp Ht Hq Hu Hn Hc Hd Hh Hj.
  apply (outcome_ok _ _ (fmap (M := option) (λ t : freq_table, (λ r : list bytes * nat, (cstring <$> r.1, r.2)) <$> t))); [|done|].
  - intros p. unfold cs_frequency. by rewrite (filled_ok ptrs names), corpus_names_ok, (cstr_holds q query), (cstr_holds d (join_comma ds)), (table_def_ok ds defs).
  - intros t _. unfold freq_table in *. eexists. split; [reflexivity|]. split_and!.
    + unfold freqtable_nrows, vec_size. apply fmap_length.
    + intros i. unfold freqtable_count, freq_table. rewrite list_lookup_fmap. by destruct (t !! i).
    + intros n H. assert ((λ r : list bytes * nat, (cstring <$> r.1, r.2)) <$> t = t) as ->.
      { rewrite <- (list_fmap_id t) at 2. apply list_fmap_ext. intros i [r k] Hr. cbn. destruct (H (r, k)) as [_ Hs]; [by eapply elem_of_list_lookup_2|]. f_equal.
        rewrite <- (list_fmap_id r) at 2. apply list_fmap_ext. intros j s Hj'. apply cstring_ok, Hs. by eapply elem_of_list_lookup_2. }
      by apply (freqtable_shows t n).
Qed.
(** An invalid definition is no error: its column is missing, and the columns after it are moved *)
Theorem C76_invalid_definition_refuted : ∃ d ds, holds d (join_comma ds) ∧ utf8 (join_comma ds) ∧ Forall (λ d, 44%N ∉ d) ds ∧
  ∃ bad, bad ∈ ds ∧ freq_def_from_str bad = None ∧
  ∀ freq names q, outcome (freq (corpus_names names) (cstr q) [FreqDef None [98%N] [50%N]]) (cs_frequency freq names q d) None (λ table r, is_Some r).
Proof.
  exists (Some [97; 44; 50; 58; 98; 0]%N), [[97]; [50; 58; 98]]%N. split_and!.
  - right. split; [apply (bool_decide_unpack _); vm_compute; exact I|]. by exists [].
  - exists [97; 44; 50; 58; 98]%N. by split; [repeat constructor|].
  - apply (bool_decide_unpack _); vm_compute; exact I.
  - exists [97%N]. split_and!; [left|by vm_compute|]. intros freq names q.
    apply (outcome_ok _ _ (fmap (M := option) (λ t : freq_table, (λ r : list bytes * nat, (cstring <$> r.1, r.2)) <$> t))); [|done|by intros v _].
    intros p. unfold cs_frequency. by replace (table_def (cstr (Some [97; 44; 50; 58; 98; 0]%N))) with [FreqDef None [98%N] [50%N]] by (vm_compute; reflexivity).
Qed.
(** The names of the corpora, and the annotations of a corpus: rows with namespace, name and value *)
Theorem C76_corpora_partial : ∀ corpora, outcome corpora (cs_list corpora) None
  (λ l r, (∀ s, s ∈ l → 0%N ∉ s) → ∃ v, r = Some v ∧ shows (vec_size v) (vec_str_get v) l).
Proof.
  intros corpora. apply (outcome_ok _ _ (fmap (M := option) (λ l : list bytes, omap cstring_new l))); [done|done|]. intros l _ H. exists l. split; [|by apply vec_str_shows].
  cbn. f_equal. induction l as [|s l IH]; [done|]. cbn. rewrite cstring_new_ok by (apply H; left). f_equal. apply IH. intros s' Hs. apply H. by right.
Qed.
Theorem C76_annotations_partial : ∀ list_annos c corpus values frequent, holds c corpus → utf8 corpus →
  outcome (list_annos corpus values frequent) (cs_list_annotations list_annos c values frequent) None
    (λ annos r, (∀ a, a ∈ annos → 0%N ∉ a.1.1 ∧ 0%N ∉ a.1.2 ∧ 0%N ∉ a.2) →
       ∃ m, r = Some m ∧ shows_rows (matrix_nrows m) (matrix_ncols m) (matrix_get m) ((λ a, [a.1.1; a.1.2; a.2]) <$> annos)).
Proof.
  intros list_annos c corpus values frequent Hc Hu. apply (outcome_ok _ _ (fmap (M := option) (λ l : list (bytes * bytes * bytes), omap anno_row l))); [|done|].
  - intros p. unfold cs_list_annotations. by rewrite (cstr_holds c corpus).
  - intros l _ H. exists ((λ a : bytes * bytes * bytes, [a.1.1; a.1.2; a.2]) <$> l). split.
    + cbn. f_equal. induction l as [|a l IH]; [done|]. cbn. unfold anno_row at 1. destruct (H a) as (H1 & H2 & H3); [left|]. rewrite !cstring_new_ok by done.
      f_equal. apply IH. intros b Hb. apply H. by right.
    + apply (matrix_shows _ 3). intros r (a & -> & Ha)%elem_of_list_fmap. destruct (H a Ha) as (H1 & H2 & H3). split; [done|].
      intros s Hs. repeat (apply elem_of_cons in Hs as [->|Hs]; [done|]). by apply elem_of_nil in Hs.
Qed.
(** Validation and deletion: the result is false after an error *)
Theorem C76_bool : ∀ r, outcome r (cs_bool r) false (λ b c, c = b).
Proof. intros r. by apply (outcome_ok _ _ (default false)). Qed.

(** A client that calls an iterator until the result is null gets all items, or the ones before the first error, which is then reported *)
Theorem C76_iterator {T} : ∀ it : list (rres T), (∃ vs q, drains it (Some None) vs q) ∧ ∀ vs q, drains it (Some None) vs q →
  (it = ROk <$> vs ∧ q = Some None) ∨ ∃ e rest l, it = (ROk <$> vs) ++ RFail e :: rest ∧ q = Some (Some l) ∧ l ≠ [] ∧ (no_nul e → reports l e).
Proof. intros it. split; [apply drain_exists|]. intros vs q. apply drain_results. Qed.
(** Without a variable for errors an error can not be told from the end *)
Theorem C76_iterator_without_variable_refuted : ∃ it it' : list (rres N), it ≠ it' ∧ RFail (RErr [] [97%N] []) ∈ it ∧
  drains it None [1%N] None ∧ drains it' None [1%N] None ∧ it' = [ROk 1%N].
Proof.
  exists [ROk 1%N; RFail (RErr [] [97%N] []); ROk 2%N], [ROk 1%N]. split_and!; [done|right; left| | |done].
  - eapply drain_item; [reflexivity|]. by eapply drain_end.
  - eapply drain_item; [reflexivity|]. by eapply drain_end.
Qed.
(** Without an error all edges are returned; with errors exactly the edges that could be read, and the last error is reported *)
Theorem C76_outgoing_edges : ∀ out source l q, graph_outgoing_edges (Some out) source (Some None) = (l, q) →
  (q = Some None ∧ out source = (λ e, ROk e.2) <$> l ∧ Forall (λ e, e.1 = source) l) ∨
  (∃ e errs, RFail e ∈ out source ∧ q = Some (Some errs) ∧ errs ≠ [] ∧ (no_nul e → reports errs e) ∧ ∀ a b, (a, b) ∈ l ↔ a = source ∧ ROk b ∈ out source).
Proof.
  intros out source l q H. cbn in H. pose proof (edges_results source (out source) (Some None)) as Hl. pose proof (edges_errors source (out source) None) as Hq.
  rewrite H in Hl, Hq. cbn [fst snd] in Hl, Hq. generalize dependent (out source). intros ts _ Hl Hq.
  destruct (last _) as [e|] eqn:E.
  - right. exists e, (create_error_list e). split_and!; [|done|done|apply error_reports|].
    + apply last_Some in E as (l' & E). assert (e ∈ omap (λ t : rres N, match t with ROk _ => None | RFail e => Some e end) ts) as He by (rewrite E; apply elem_of_app; right; left).
      apply elem_of_list_omap in He as ([v|e'] & He & Ee); [done|]. by injection Ee as ->.
    + intros a b. rewrite Hl, elem_of_list_fmap. split.
      * intros (t & [= -> ->] & ([v|e'] & Ht & Et)%elem_of_list_omap); [|done]. injection Et as ->. done.
      * intros [-> Hb]. exists b. split; [done|]. apply elem_of_list_omap. by exists (ROk b).
  - left. apply last_None in E. split; [done|]. subst l. clear Hq. induction ts as [|[t|e] ts IH]; [split; [done|constructor]| |discriminate E]. cbn in *. destruct (IH E) as [IH1 IH2].
    split; [by rewrite <- IH1|]. by constructor.
Qed.

(** ** Examples *)
(** The texts are [ä] and [n], the second argument is a null pointer *)
Example updates_ex : Forall2 call_means [CAddNode (Some [195; 164; 0; 7]%N) None; CDeleteNode (Some [110; 0]%N)] [AddNode [195; 164]%N []; DeleteNode [110]%N] ∧
  Forall event_ok [AddNode [195; 164]%N []; DeleteNode [110]%N] ∧ Forall (λ e, Forall utf8 (event_strings e)) [AddNode [195; 164]%N []; DeleteNode [110]%N].
Proof.
  split_and!.
  - constructor; [|constructor; [|constructor]]; constructor; try (by left); right; (split; [apply (bool_decide_unpack _); vm_compute; exact I|]); by eexists.
  - repeat constructor.
  - repeat (apply Forall_cons; split); try (by apply Forall_nil); [by exists [228%N]; split; [repeat constructor|]|by exists []|by exists [110%N]; split; [repeat constructor|]].
Qed.
(** A truncated sequence is replaced *)
Example replaced_ex : cstr (Some [97; 226; 130; 98; 0]%N) = [97; 239; 191; 189; 98]%N.
Proof. vm_compute. reflexivity. Qed.
Example names_ex : Forall2 holds [Some [99; 0]%N; Some [195; 164; 0]%N] [[99]; [195; 164]]%N ∧ Forall text [[99]; [195; 164]]%N ∧
  cs_find (λ names q o l (order : unit), ROk (q :: names)) (filled [Some [99; 0]%N; Some [195; 164; 0]%N]) None 0 (Some 3%N) tt (Some None) =
    (Some [[]; [99]; [195; 164]]%N, Some None).
Proof.
  split_and!; [| |vm_compute; reflexivity].
  - constructor; [|constructor; [|constructor]]; right; (split; [apply (bool_decide_unpack _); vm_compute; exact I|]); by exists [].
  - repeat (apply Forall_cons; split); [| |by apply Forall_nil]; (split; [|apply (bool_decide_unpack _); vm_compute; exact I]);
    [by exists [99%N]; split; [repeat constructor|]|by exists [228%N]; split; [repeat constructor|]].
Qed.
Example definitions_ex : Forall2 (λ d f, freq_def_from_str d = Some f) [[49; 58; 97]; [50; 58; 98]]%N [FreqDef None [97]%N [49]%N; FreqDef None [98]%N [50]%N] ∧
  join_comma [[49; 58; 97]; [50; 58; 98]]%N = [49; 58; 97; 44; 50; 58; 98]%N.
Proof. split; [|done]. by repeat constructor. Qed.
Example error_ex : reports (create_error_list (RErr [75%N] [109%N] [[99%N]])) (RErr [75%N] [109%N] [[99%N]]) ∧
  create_error_list (RErr [75%N] [109%N] [[99%N]]) = [([109], [75]); ([99], cause)]%N.
Proof.
  split; [|done]. apply error_reports. split_and!; [apply (bool_decide_unpack _); vm_compute; exact I|apply (bool_decide_unpack _); vm_compute; exact I|].
  intros m ->%elem_of_list_singleton. apply (bool_decide_unpack _); vm_compute; exact I.
Qed.
Example edges_ex : graph_outgoing_edges (Some (λ _, [ROk 2%N; RFail (RErr [] [97%N] []); ROk 3%N])) 1%N (Some None) =
  ([(1, 2); (1, 3)]%N, Some (Some [([97]%N, [])])).
Proof. vm_compute. reflexivity. Qed.
Print Assumptions C76_string_arguments.
Print Assumptions C76_string_results_partial.
Print Assumptions C76_nul_refuted.
Print Assumptions C76_updates.
Print Assumptions C76_count.
Print Assumptions C76_count_extra.
Print Assumptions C76_find_partial.
Print Assumptions C76_subgraph.
Print Assumptions C76_frequency_partial.
Print Assumptions C76_invalid_definition_refuted.
Print Assumptions C76_corpora_partial.
Print Assumptions C76_annotations_partial.
Print Assumptions C76_bool.
Print Assumptions C76_iterator.
Print Assumptions C76_iterator_without_variable_refuted.
Print Assumptions C76_outgoing_edges.
