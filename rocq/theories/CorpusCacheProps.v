(** Properties C37, C51 and C52: the cache of loaded corpora, updates and existence of corpora. *)
From stdpp Require Import base list gmap sorting.
From Coq Require Import NArith Lia.
From Verif Require Import CorpusCache CorpusCacheSpec CorpusCacheProofs.

(** ** C37 *)
(** For every content of the cache, a check removes the removable entries from the beginning, one by one, until the measured
    size is within the limit or nothing removable is left; it answers whether something was removed *)
Theorem C37_check e keep (c : cache) : NoDup (c.*1) → ∃ r,
  evicts e keep c (check_cache_size_and_remove_with_cache e keep c).1 r ∧
  (check_cache_size_and_remove_with_cache e keep c).2 = bool_decide (0 < r).
Proof. exact (check_spec e keep c). Qed.
(** Entries to be kept, and those not loaded, are never removed *)
Theorem C37_kept e keep (c : cache) p : NoDup (c.*1) → p ∈ c → p.1 ∈ keep ∨ p.2 = None →
  p ∈ (check_cache_size_and_remove_with_cache e keep c).1.
Proof. intros Hn Hp Hk. apply check_kept; [done|done|]. intros [H1 H2]. destruct Hk; done. Qed.
(** If the measured size depends on the content of the cache only, it is afterwards within the limit or nothing can be removed *)
Theorem C37_within_limit (size : cache → N) limit keep (c : cache) : NoDup (c.*1) →
  let e := Env limit (λ j, size (filter (λ p, p ∉ take j (filter (removable keep) c)) c)) in
  let c' := (check_cache_size_and_remove_with_cache e keep c).1 in
  (size c' <= limit)%N ∨ ∀ p, p ∈ c' → ¬ removable keep p.
Proof.
  intros Hn e c'. destruct (check_spec e keep c Hn) as (r & (_ & E & _ & [H|H]) & _).
  - left. unfold c'. rewrite E. exact H.
  - right. intros p Hp Hr. unfold c' in Hp. rewrite E in Hp. apply elem_of_list_filter in Hp as [Hp1 Hp2]. apply Hp1. rewrite take_ge by lia. apply elem_of_list_filter. done.
Qed.
(** After every history of operations and for every schedule, the loaded entries are in the order of loading and names are
    unique, so the check above removes the one that was loaded first *)
Theorem C37_order {G U : Type} (app : G → U → option G) empty disk l :
  let c := s_cache (run app empty (initial disk) l).1 in NoDup (c.*1) ∧ in_loading_order c.
Proof. destruct (run_inv app empty l (initial disk) (initial_inv disk)) as [H1 H2 _ _]. split; [exact H1|exact H2]. Qed.
(** A requested corpus is in the cache when the request has succeeded, even if the limit is exceeded *)
Theorem C37_requested {G U : Type} (app : G → U → option G) empty disk l t e1 e2 name create :
  let s := (run app empty (initial disk) l).1 in let r := step app empty s (OLoad t e1 e2) in
  s_threads s !! t = Some (Looking name create) → r.2 = RAnswer true →
  ∃ i, s_threads r.1 !! t = Some (Holding name i) ∧ is_cached r.1 name i ∧ is_Some (s_heap r.1 !! i).
Proof.
  intros s r Ht Ha. subst r. pose proof (run_inv app empty l (initial disk) (initial_inv disk)) as Hi. fold s in Hi. cbn [step] in *. rewrite Ht in *.
  destruct (load_entry_with_lock app empty s name create e1 e2) as [s' [i|]] eqn:E; [|discriminate Ha].
  pose proof (load_inv app empty _ _ _ _ _ _ _ Hi E) as (Hi' & _ & _ & _ & -> & _ & Hin & g & Hh & _). exists (s_clock s).
  cbn [set_thread s_threads s_heap fst]. rewrite lookup_insert. split_and!; [done|by apply (cached_iff s')|]. rewrite Hh, lookup_insert. by eexists.
Qed.
(** Three corpora: the oldest one which is not kept is removed, the size is then within the limit *)
Example check_example : check_cache_size_and_remove_with_cache (Env 25 (λ j, 30 - 10 * N.of_nat j)%N) [1%N] [(1%N, Some 0); (4%N, None); (2%N, Some 1); (3%N, Some 2)]
  = ([(1%N, Some 0); (4%N, None); (3%N, Some 2)], true).
Proof. vm_compute. reflexivity. Qed.

(** ** C51 *)
(** Whoever asks for a corpus gets the graph with all the updates acknowledged before, for all schedules in which no entry
    leaves the cache and no update fails while a background worker has to save the corpus, and no corpus is loaded twice *)
Theorem C51_updates_visible_partial {G U : Type} (app : G → U → option G) empty disk l :
  (∀ n x, disk !! n = Some x → open_dir app x ≠ None) → calm_run app empty (initial disk) l →
  let s := (run app empty (initial disk) l).1 in
  let d := documented_run app empty (initial disk) l (omap (open_dir app) disk) in
  (∀ n, is_Some (s_disk s !! n) ↔ is_Some (d !! n)) ∧
  ∀ t n g create e1 e2, d !! n = Some g → ∃ i,
    let s' := (run app empty s [OGet t n create; OLoad t e1 e2]).1 in
    s_threads s' !! t = Some (Holding n i) ∧ is_cached s' n i ∧ s_heap s' !! i = Some g.
Proof.
  intros Ho Hc s d. destruct (run_cinv app empty l (initial disk) _ (initial_inv disk) (initial_cinv app disk Ho) Hc) as [Hi Hci]. split.
  - exact (c_dom _ _ _ Hci).
  - intros t n g create e1 e2 Hg. exact (request_spec app empty s d t n g create e1 e2 Hi Hci Hg).
Qed.
(** Updates of the examples: numbers are appended, 0 fails *)
Definition add (g : list N) (u : N) : option (list N) := if decide (u = 0%N) then None else Some (g ++ [u]).
Definition large : env := Env 100 (λ _, 10%N).
Definition small : env := Env 100 (λ _, 1000%N).
Definition seen (s : state (list N) N) (t : N) : option (list N) :=
  match s_threads s !! t with Some (Holding _ i) => s_heap s !! i | _ => None end.
(** A test for the premise *)
Definition calm_test (s : state (list N) N) (o : op (list N) N) : bool :=
  let r := step add [] s o in
  forallb (λ w, bool_decide (cache_get (s_cache s) w.1 = cache_get (s_cache r.1) w.1)) (s_workers s) &&
  match o with
  | OLoad t _ _ => match s_threads s !! t with
                   | Some (Looking name _) => match cache_get (s_cache s) name with Some (Some _) => false | _ => true end
                   | _ => true
                   end
  | OApply t u => match s_threads s !! t with
                  | Some (Holding name i) => bool_decide (cache_get (s_cache s) name = Some (Some i)) && match r.2 with RError => false | _ => true end
                  | _ => true
                  end
  | _ => true
  end.
Fixpoint calm_test_run (s : state (list N) N) (l : list (op (list N) N)) : bool :=
  match l with [] => true | o :: r => calm_test s o && calm_test_run (step add [] s o).1 r end.
Lemma calm_test_ok s o : calm_test s o = true → calm add [] s o.
Proof.
  intros [H1 H2]%andb_true_iff. split.
  - intros n i Hc Hn [j Hj]. apply Hn. rewrite forallb_forall in H1. apply elem_of_list_In in Hj. specialize (H1 _ Hj). apply bool_decide_eq_true in H1.
    cbn [fst] in H1. unfold is_cached in *. by rewrite <- H1.
  - destruct o as [| |t u| | | | | |]; try exact I.
    + intros n c Ht i Hc. rewrite Ht in H2. unfold is_cached in Hc. by rewrite Hc in H2.
    + intros n i Ht. rewrite Ht in H2. apply andb_true_iff in H2 as [H2 H3]. apply bool_decide_eq_true in H2. split; [exact H2|].
      intros E. by rewrite E in H3.
Qed.
Lemma calm_test_run_ok l : ∀ s, calm_test_run s l = true → calm_run add [] s l.
Proof.
  induction l as [|o l IH]; intros s H; [exact I|]. apply andb_true_iff in H as [H1 H2]. split; [by apply calm_test_ok|by apply IH].
Qed.
(** The premises hold for histories with updates, an eviction and a new corpus *)
Definition calm_history : list (op (list N) N) :=
  [OCreate 1 large large; OGet 9 1 false; OLoad 9 large large; OApply 9 5%N; OApply 9 6%N; OSync 0; OSync 0; OGet 8 2 true; OLoad 8 small small;
   OGet 9 1 false; OLoad 9 small small; OApply 9 7%N; OSync 0; ODelete 2].
Example calm_example : calm_run add [] (initial ∅) calm_history ∧
  documented_run add [] (initial ∅) calm_history ∅ !! 1%N = Some [5; 6; 7]%N ∧
  (run add [] (initial ∅) calm_history).2 =
    [RAnswer true; RNone; RNone; RAnswer true; RAnswer true; RNone; RNone; RNone; RAnswer true; RNone; RAnswer true; RAnswer true; RNone; RAnswer true].
Proof.
  split_and!; [|vm_compute; reflexivity|vm_compute; reflexivity]. apply calm_test_run_ok. vm_compute. reflexivity.
Qed.
(** An entry leaves the cache while its background worker has not finished: the worker later overwrites the corpus on disk
    with its old version, and an acknowledged update (6) is lost *)
Theorem C51_evicted_before_save_refuted : ∃ l : list (op (list N) N),
  let r := run add [] (initial ∅) l in
  r.2 = [RAnswer true; RNone; RNone; RAnswer true; RAnswer true; RNone; RAnswer true; RAnswer true; RNone; RNone; RAnswer true; RNone; RAnswer true] ∧
  l !! 3 = Some (OApply 9 5)%N ∧ l !! 7 = Some (OApply 9 6)%N ∧ s_workers r.1 = [] ∧ seen r.1 9 = Some [5]%N.
Proof.
  exists [OCreate 1 large large; OGet 9 1 false; OLoad 9 large large; OApply 9 5%N; OCheck [] small; OGet 9 1 false; OLoad 9 large large; OApply 9 6%N;
          OSync 1; OSync 0; OUnload 1; OGet 9 1 false; OLoad 9 large large].
  split_and!; vm_compute; reflexivity.
Qed.
(** An update fails before the earlier ones are saved: the graph is read again from the disk, where the log has only the last
    one of them, and an acknowledged update (5) is lost *)
Theorem C51_failing_update_refuted : ∃ l : list (op (list N) N),
  let r := run add [] (initial ∅) l in
  r.2 = [RAnswer true; RNone; RNone; RAnswer true; RAnswer true; RError; RNone; RNone] ∧
  l !! 3 = Some (OApply 9 5)%N ∧ l !! 4 = Some (OApply 9 6)%N ∧ s_workers r.1 = [] ∧ seen r.1 9 = Some [6]%N.
Proof.
  exists [OCreate 1 large large; OGet 9 1 false; OLoad 9 large large; OApply 9 5%N; OApply 9 6%N; OApply 9 0%N; OSync 0; OSync 0].
  split_and!; vm_compute; reflexivity.
Qed.
(** Two threads load the same corpus at the same time: the second one replaces the entry of the first one, whose acknowledged
    update is not seen by later requests *)
Theorem C51_concurrent_loading_refuted : ∃ l : list (op (list N) N),
  let r := run add [] (initial {[1%N := Dir (Some []) None]}) l in
  r.2 = [RNone; RNone; RAnswer true; RAnswer true; RAnswer true; RNone; RNone] ∧
  l !! 4 = Some (OApply 1 5)%N ∧ s_workers r.1 = [] ∧ seen r.1 3 = Some [].
Proof.
  exists [OGet 1 1 false; OGet 2 1 false; OLoad 1 large large; OLoad 2 large large; OApply 1 5%N; OSync 0; OGet 3 1 false].
  split_and!; vm_compute; reflexivity.
Qed.
(** A corpus is deleted and created again before a background worker has started: the deleted content comes back *)
Theorem C51_deleted_content_refuted : ∃ l : list (op (list N) N),
  let r := run add [] (initial ∅) l in
  r.2 = [RAnswer true; RNone; RNone; RAnswer true; RAnswer true; RAnswer true; RNone; RAnswer true; RNone; RAnswer true] ∧
  l !! 4 = Some (ODelete 1)%N ∧ documented_run add [] (initial ∅) l ∅ !! 1%N = Some [] ∧ seen r.1 9 = Some [5]%N.
Proof.
  exists [OCreate 1 large large; OGet 9 1 false; OLoad 9 large large; OApply 9 5%N; ODelete 1; OCreate 1 large large; OSync 0; OUnload 1; OGet 9 1 false; OLoad 9 large large].
  split_and!; vm_compute; reflexivity.
Qed.

(** ** C52 *)
(** Unless a name without corpus is in the cache, creating a corpus succeeds iff there is none with this name *)
Theorem C52_create_partial {G U : Type} (app : G → U → option G) empty disk l name e1 e2 :
  let s := (run app empty (initial disk) l).1 in let r := step app empty s (OCreate name e1 e2) in
  ¬ leftover s name →
  r.2 = RAnswer (bool_decide (s_disk s !! name = None)) ∧
  (s_disk s !! name ≠ None → r.1 = s) ∧
  (s_disk s !! name = None → s_disk r.1 = <[name := Dir (Some empty) None]> (s_disk s) ∧
                            ∃ i, is_cached r.1 name i ∧ s_heap r.1 !! i = Some empty).
Proof. intros s r Hl. exact (create_spec app empty s name e1 e2 (run_inv app empty l _ (initial_inv disk)) Hl). Qed.
(** Deleting removes the corpus and nothing else, and answers whether there was one *)
Theorem C52_delete_partial {G U : Type} (app : G → U → option G) empty disk l name :
  let s := (run app empty (initial disk) l).1 in let r := step app empty s (ODelete name) in
  (¬ leftover s name → r.2 = RAnswer (bool_decide (is_Some (s_disk s !! name)))) ∧
  s_disk r.1 = delete name (s_disk s) ∧ cache_get (s_cache r.1) name = None ∧
  (∀ n, n ≠ name → cache_get (s_cache r.1) n = cache_get (s_cache s) n).
Proof. intros s r. exact (delete_spec app empty s name (run_inv app empty l _ (initial_inv disk))). Qed.
(** An import without overwriting fails iff the corpus exists; other imports replace the corpus *)
Theorem C52_import_partial {G U : Type} (app : G → U → option G) empty disk l name g overwrite e1 e2 :
  let s := (run app empty (initial disk) l).1 in let r := step app empty s (OImport name g overwrite e1 e2) in
  ¬ leftover s name →
  (overwrite = false → s_disk s !! name ≠ None → r.2 = RError ∧ s_disk r.1 = s_disk s) ∧
  (overwrite = true ∨ s_disk s !! name = None →
     r.2 = RAnswer true ∧ s_disk r.1 = <[name := Dir (Some g) None]> (s_disk s) ∧ cache_get (s_cache r.1) name = Some None).
Proof. intros s r Hl. exact (import_spec app empty s name g overwrite e1 e2 (run_inv app empty l _ (initial_inv disk)) Hl). Qed.
(** Such a name comes only from a request for a corpus that does not exist *)
Theorem C52_leftover {G U : Type} (app : G → U → option G) empty disk l o name :
  let s := (run app empty (initial disk) l).1 in
  leftover (step app empty s o).1 name → leftover s name ∨ ∃ t create, o = OGet t name create ∧ s_disk s !! name = None.
Proof. intros s. exact (leftover_step app empty s o name (run_inv app empty l _ (initial_inv disk))). Qed.
(** After a failed request for a missing corpus, it cannot be created or imported, and deleting it succeeds *)
Theorem C52_failed_request_refuted : ∃ l : list (op (list N) N),
  let s := (run add [] (initial ∅) l).1 in
  (run add [] (initial ∅) l).2 = [RNone; RError] ∧ s_disk s !! 7%N = None ∧
  (step add [] s (OCreate 7 large large)).2 = RAnswer false ∧ s_disk (step add [] s (OCreate 7 large large)).1 !! 7%N = None ∧
  (step add [] s (OImport 7 [] false large large)).2 = RError ∧
  (step add [] s (ODelete 7)).2 = RAnswer true.
Proof. exists [OGet 9 7 false; OLoad 9 large large]. split_and!; vm_compute; reflexivity. Qed.
Print Assumptions C37_check.
Print Assumptions C37_kept.
Print Assumptions C37_within_limit.
Print Assumptions C37_order.
Print Assumptions C37_requested.
Print Assumptions C51_updates_visible_partial.
Print Assumptions C51_evicted_before_save_refuted.
Print Assumptions C51_failing_update_refuted.
Print Assumptions C51_concurrent_loading_refuted.
Print Assumptions C51_deleted_content_refuted.
Print Assumptions C52_create_partial.
Print Assumptions C52_delete_partial.
Print Assumptions C52_leftover.
Print Assumptions C52_failed_request_refuted.
Print Assumptions C52_import_partial.
