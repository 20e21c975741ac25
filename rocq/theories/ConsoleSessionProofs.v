(** Proofs about a query at the end of a session. *)
From Coq Require Import NArith String.
From stdpp Require Import base list gmap.
From Verif Require Import KeySer Types CompPath Service RelAnnis RelAnnisConfig RelAnnisConfigSpec RelAnnisConfigText LinkedFiles Frequency Console ConsoleSpec ConsoleProofs ConsoleRuns ConsoleProps ConsoleExactSpec ConsoleExactProofs.
Section Session.
Context {W Ans : Type} (api : call → W → W * option Ans) (names : Ans → list bytes) (exists_file : W → bytes → bool).
Notation exec := (exec api names exists_file). Notation start_loop := (start_loop api names exists_file).
Lemma open_step r line w r' d : (∀ args, ¬ typed "set-parallel-search" args line) → exec r line w = Some (r', d) → ru_open r' = ru_open r ∧ ru_parallel r' = ru_parallel r.
Proof.
  intros Hp. rewrite exec_command. setoid_rewrite typed_iff in Hp; [|done]. destruct (parse_line line) as [cmd args]. cbn [fst snd]. destruct (Console.command _ _ _ _ _ _ _) as [[r1 d1]|] eqn:E; [|done].
  intros [= <- _]. assert (cmd ≠ str "set-parallel-search") as Hn by (intros ->; by apply (Hp args)). apply command_cases in E. destruct E as [-> |E]; [done|].
  repeat (destruct E as [(Hc & ? & E)|E]; [first [destruct (Hn Hc)|rewrite E; done]|]). destruct E as (Hc & ? & E). by rewrite E.
Qed.
Lemma open_run lines : (∀ l args, l ∈ lines → ¬ typed "set-parallel-search" args l) → ∀ r w r' w' cs out, start_loop r lines w = (r', w', cs, out) → ru_open r' = ru_open r.
Proof.
  induction lines as [|l lines IH]; intros Hp r w r' w' cs out; cbn [Console.start_loop]; [by intros [= <- _ _ _]|].
  destruct (exec r l w) as [[r1 d]|] eqn:E; [|by intros [= <- _ _ _]]. destruct (start_loop r1 lines (d_world d)) as [[[r2 w2] cs2] out2] eqn:E2. intros [= -> _ _ _].
  apply IH in E2; [|intros x args Hx; apply Hp; by right]. rewrite E2. eapply open_step; [|exact E]. intros args. apply Hp. left.
Qed.
Lemma selection_run lines : (∀ l args, l ∈ lines → ¬ typed "corpus" args l) → ∀ r w r' w' cs out, start_loop r lines w = (r', w', cs, out) → ru_corpora r' = ru_corpora r.
Proof.
  induction lines as [|l lines IH]; intros Hp r w r' w' cs out; cbn [Console.start_loop]; [by intros [= <- _ _ _]|].
  destruct (exec r l w) as [[r1 d]|] eqn:E; [|by intros [= <- _ _ _]]. destruct (start_loop r1 lines (d_world d)) as [[[r2 w2] cs2] out2] eqn:E2. intros [= -> _ _ _].
  apply IH in E2; [|intros x args Hx; apply Hp; by right]. rewrite E2. eapply selection_kept; [|exact E]. intros args. apply Hp. left.
Qed.
(** A session: some lines, the selection, other lines, the query *)
Lemma session_lemma pre sel post line w ws text r0 w0 cs0 out0 w1 a :
  (∀ l, l ∈ pre ++ sel :: post → ¬ ends l) → (∀ l args, l ∈ pre ++ sel :: post → ¬ typed "set-parallel-search" args l) → (∀ l args, l ∈ post → ¬ typed "corpus" args l) →
  typed "corpus" (unwords ws) sel → ws ≠ [] → Forall word ws → typed "find" text line →
  start_loop runner_new pre w = (r0, w0, cs0, out0) → api CList w0 = (w1, Some a) → filter (λ s, s ∈ names a) ws ≠ [] →
  ∃ r w2 cs out, start_loop runner_new (pre ++ sel :: post) w = (r, w2, cs, out) ∧
    let c := CFind (SearchQuery (filter (λ s, s ∈ names a) ws) text (ru_language r) (ru_timeout r)) (ru_offset r) (ru_limit r) (ru_order r) in
    ∀ w3 x, api c w2 = (w3, x) → start_loop runner_new (pre ++ sel :: post ++ [line]) w = (r, w3, cs ++ [c], out ++ [match x with Some a => Answer a | None => Problem end]).
Proof.
  intros He Hp Hc Hsel Hn Hw Hf E0 Ea Hs.
  assert (ru_open r0 = true) as Ho. { rewrite (open_run pre (λ l args Hl, Hp l args (proj2 (elem_of_app _ _ _) (or_introl Hl))) _ _ _ _ _ _ E0). done. }
  destruct (corpus_lemma api names exists_file r0 sel w0 ws w1 a Hsel Hn Hw Ho Ea) as (d & Ed).
  set (r1 := with_corpora r0 (filter (λ s, s ∈ names a) ws)) in *.
  destruct (start_loop r1 post (d_world d)) as [[[r w2] cs2] out2] eqn:E2.
  assert (start_loop r0 (sel :: post) w0 = (r, w2, d_calls d ++ cs2, d_output d ++ out2)) as E1. { cbn [Console.start_loop]. by rewrite Ed, E2. }
  assert (∀ l, l ∈ pre → ¬ ends l) as Hpre by (intros l Hl; apply He, elem_of_app; by left).
  pose proof (append_lemma api names exists_file pre (sel :: post) Hpre _ _ _ _ _ _ _ _ _ _ E0 E1) as E.
  exists r, w2, (cs0 ++ d_calls d ++ cs2), (out0 ++ d_output d ++ out2). split; [exact E|]. intros c w3 x Ex.
  assert (ru_corpora r = filter (λ s, s ∈ names a) ws) as Hrc by (by rewrite (selection_run post Hc _ _ _ _ _ _ E2)).
  assert (ru_open r = true) as Hro.
  { rewrite (open_run post (λ l args Hl, Hp l args (proj2 (elem_of_app _ _ _) (or_intror (elem_of_list_further _ _ _ Hl)))) _ _ _ _ _ _ E2). exact Ho. }
  assert (exec r line w2 = Some (r, answered w3 c x)) as El.
  { unfold c in *. rewrite <- Hrc in *. by apply find_lemma. }
  change (pre ++ sel :: post ++ [line]) with (pre ++ (sel :: post) ++ [line]). rewrite app_assoc.
  apply (append_lemma api names exists_file _ [line] He _ _ _ _ _ _ _ _ _ _ E (single_lemma api names exists_file _ _ _ _ _ El)).
Qed.
End Session.
