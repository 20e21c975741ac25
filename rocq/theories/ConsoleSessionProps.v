(** C80: a query at the end of a session. *)
From Coq Require Import NArith String.
From stdpp Require Import base list gmap.
From Verif Require Import KeySer Types CompPath Service RelAnnis RelAnnisConfig RelAnnisConfigSpec LinkedFiles Frequency Console ConsoleSpec ConsoleProofs ConsoleRuns ConsoleProps ConsoleExactSpec ConsoleExactProofs ConsoleSessionProofs.

(** For any session with a last selection, a query after it is asked with exactly the selected corpora that exist,
    the typed text, and the values of the last lines that set offset, limit, order, language and time-out;
    its answer is the last output. (Sessions that switch the parallel search are left to C80_parallel.) *)
Theorem C80_session : ∀ (W Ans : Type) (api : call → W → W * option Ans) names exists_file pre sel post line w ws text r0 w0 cs0 out0 w1 a,
  let lines := pre ++ sel :: post in
  (∀ l, l ∈ lines → ¬ ends l) → (∀ l args, l ∈ lines → ¬ typed "set-parallel-search" args l) → (∀ l args, l ∈ post → ¬ typed "corpus" args l) →
  typed "corpus" (unwords ws) sel → ws ≠ [] → Forall word ws → typed "find" text line →
  start_loop api names exists_file runner_new pre w = (r0, w0, cs0, out0) → api CList w0 = (w1, Some a) → filter (λ s, s ∈ names a) ws ≠ [] →
  ∃ offset limit order lang timeout, setting offset_line lines 0%N offset ∧ setting limit_line lines None limit ∧ setting order_line lines Normal order ∧
    setting language_line lines PlainAql lang ∧ setting timeout_line lines None timeout ∧
    let c := CFind (SearchQuery (filter (λ s, s ∈ names a) ws) text lang timeout) offset limit order in
    ∃ r w2 cs out, start_loop api names exists_file runner_new lines w = (r, w2, cs, out) ∧ ∀ w3 x, api c w2 = (w3, x) →
      start_loop api names exists_file runner_new (lines ++ [line]) w = (r, w3, cs ++ [c], out ++ [match x with Some a => Answer a | None => Problem end]).
Proof.
  intros W Ans api names exists_file pre sel post line w ws text r0 w0 cs0 out0 w1 a lines He Hp Hc Hsel Hn Hw Hf E0 Ea Hs.
  destruct (session_lemma api names exists_file pre sel post line w ws text r0 w0 cs0 out0 w1 a He Hp Hc Hsel Hn Hw Hf E0 Ea Hs) as (r & w2 & cs & out & E & H).
  destruct (C80_settings W Ans api names exists_file lines w r w2 cs out He E) as (H1 & H2 & H3 & _ & H4 & H5).
  exists (ru_offset r), (ru_limit r), (ru_order r), (ru_language r), (ru_timeout r). do 5 (split; [assumption|]). exists r, w2, cs, out. split; [exact E|]. intros w3 x Ex. rewrite <- (H w3 x Ex). unfold lines. by rewrite <- app_assoc.
Qed.
Print Assumptions C80_session.
(** The session of ConsoleProps meets the hypotheses: its first line selects two of three typed names *)
Example session_hypotheses : session = [] ++ str "corpus a x b" :: tail session ∧ Forall word [str "a"; str "x"; str "b"] ∧
  filter (λ s, s ∈ id [str "a"; str "b"]) [str "a"; str "x"; str "b"] = [str "a"; str "b"] ∧
  (∀ l args, l ∈ session → ¬ typed "set-parallel-search" args l) ∧ (∀ l args, l ∈ tail session → ¬ typed "corpus" args l).
Proof.
  split_and!; [done| |vm_compute; reflexivity| |].
  - repeat constructor; try (intros Hx; vm_compute in Hx; discriminate Hx); apply (bool_decide_unpack _); vm_compute; exact I.
  - intros l args Hl. rewrite typed_iff by done. unfold session in Hl. rewrite !elem_of_cons, elem_of_nil in Hl.
    destruct Hl as [-> |[-> |[-> |[-> |[-> |[-> |[-> |[-> |[]]]]]]]]]; intros Hx; vm_compute in Hx; discriminate Hx.
  - intros l args Hl. rewrite typed_iff by done. unfold session in Hl. cbn [tail] in Hl. rewrite !elem_of_cons, elem_of_nil in Hl.
    destruct Hl as [-> |[-> |[-> |[-> |[-> |[-> |[-> |[]]]]]]]]; intros Hx; vm_compute in Hx; discriminate Hx.
Qed.
