(** C50: statistics of the annotation values and the estimates of match counts. The storage is the one after an arbitrary
    history [ops] of changes, [as_run ∅ ops outs] is its content (AnnoSpec.v). The sample is an arbitrary valid one, and
    floating point numbers are rounded by an arbitrary [rnd] as described by [rounding] (HistogramSpec.v). *)
From Coq Require Import NArith QArith.
From stdpp Require Import base list gmap fin_maps sorting.
From Verif Require Import KeySer KeySerSpec SortedMap Types TypesProofs SymbolTable AnnoMem AnnoSpec AnnoMemProofs AnnoMemQueries
  Histogram HistogramSpec HistogramProofs.
Local Open Scope nat_scope.

(** C50: for every number of samples and buckets, the bounds of the histogram are found (no index is out of range), they are
    evenly distributed over the samples, and contain the first and the last one. *)
Theorem C50_positions : ∀ buckets sampled, ∃ h, hist_bounds buckets sampled = Some h ∧
  ((buckets = 0 ∨ length sampled < 2) → h = []) ∧
  (0 < buckets → 2 ≤ length sampled →
   length h = length sampled `min` (buckets + 1) ∧
   (∀ i, i < length h → h !! i = sampled !! (i * (length sampled - 1) / (length h - 1)) ∧
         i * (length sampled - 1) / (length h - 1) < length sampled) ∧
   h !! 0 = sampled !! 0 ∧ last h = last sampled).
Proof. exact hist_bounds_spec. Qed.
Print Assumptions C50_positions.

(** C50: calculating the statistics never fails, and every key that is used gets a histogram of its values. *)
Theorem C50_statistics {T} `{Countable T} (tcmp : T → T → comparison) `{!CmpOrder tcmp} :
  ∀ ops s outs, am_run tcmp am_new ops = (s, outs) →
  let M := as_run ∅ ops outs in
  ∀ choice, (∀ key k, st_get_symbol (anno_keys s) key = Some k → valid_sample 2500 (count_key M key) (choice k)) →
  ∃ hs, am_calculate_statistics s choice = Some hs ∧
    ∀ key, (∃ i, is_Some (M !! (i, key))) →
      ∃ k h, st_get_symbol (anno_keys s) key = Some k ∧ hs !! k = Some h ∧ histogram_of M key h.
Proof.
  intros ops s outs Hr M choice. destruct (inv_run_new tcmp ops s outs Hr) as [_ (leak & I & _)].
  exact (statistics_spec tcmp s leak M choice I).
Qed.
Print Assumptions C50_statistics.

(** C50: the estimate never exceeds the number of annotations with the name (below 2^53 of them, the numbers that f64 represents
    exactly), even if the histograms [hs] are outdated. *)
Theorem C50_estimate_bounded {T} `{Countable T} (tcmp : T → T → comparison) `{!CmpOrder tcmp} :
  ∀ ops s outs, am_run tcmp am_new ops = (s, outs) →
  let M := as_run ∅ ops outs in
  ∀ rnd hs ns name lower upper, rounding rnd →
  let number := size (filter (λ x, key_matches ns name x.1.2) M) in
  (Z.of_nat number <= 2 ^ 53)%Z →
  guess_max_count rnd s hs ns name lower upper ≤ number.
Proof.
  intros ops s outs Hr M rnd hs ns name lower upper R. destruct (inv_run_new tcmp ops s outs Hr) as [_ (leak & I & _)].
  exact (guess_le tcmp rnd s leak M hs ns name lower upper I R).
Qed.
Print Assumptions C50_estimate_bounded.

(** C50: the same for regular expressions, without restriction. *)
Theorem C50_estimate_regex_bounded {T} `{Countable T} (tcmp : T → T → comparison) `{!CmpOrder tcmp} :
  ∀ ops s outs, am_run tcmp am_new ops = (s, outs) →
  let M := as_run ∅ ops outs in
  ∀ rnd pick hs ns name parsed,
  guess_max_count_regex rnd pick s hs ns name parsed ≤ size (filter (λ x, key_matches ns name x.1.2) M).
Proof.
  intros ops s outs Hr M rnd pick hs ns name parsed. destruct (inv_run_new tcmp ops s outs Hr) as [_ (leak & I & _)].
  exact (guess_regex_le tcmp rnd pick s leak M hs ns name parsed I).
Qed.
Print Assumptions C50_estimate_regex_bounded.

(** C50: with current statistics the estimate is not zero if there is a matching annotation whose key has at least two
    annotations, all of which were sampled. *)
Theorem C50_estimate_not_zero_partial {T} `{Countable T} (tcmp : T → T → comparison) `{!CmpOrder tcmp} :
  ∀ ops s outs, am_run tcmp am_new ops = (s, outs) →
  let M := as_run ∅ ops outs in
  ∀ choice hs, (∀ key k, st_get_symbol (anno_keys s) key = Some k → valid_sample 2500 (count_key M key) (choice k)) →
  am_calculate_statistics s choice = Some hs →
  ∀ rnd ns name lower upper, rounding rnd →
  (Z.of_nat (size (filter (λ x, key_matches ns name x.1.2) M)) <= 2 ^ 53)%Z →
  ∀ i key v, key_matches ns name key → M !! (i, key) = Some v → str_not_above lower v → str_not_above v upper →
  2 ≤ count_key M key ≤ 2500 →
  1 ≤ guess_max_count rnd s hs ns name lower upper.
Proof.
  intros ops s outs Hr M choice hs Hok Hs rnd ns name lower upper R Hu i key v Hk HM Hl Hup Hc.
  destruct (inv_run_new tcmp ops s outs Hr) as [_ (leak & I & _)].
  exact (guess_ge tcmp rnd s leak M choice hs ns name lower upper key i v I Hok Hs R Hu Hk HM Hl Hup Hc).
Qed.
Print Assumptions C50_estimate_not_zero_partial.

(** Without the restriction this is false: a key with a single annotation has no histogram, and the estimate is zero. *)
Theorem C50_estimate_not_zero_refuted :
  ∃ (ops : list (am_op N)) (choice : nat → gset nat) (hs : gmap nat (list bytes)) (key : anno_key) (v : bytes),
    let '(s, outs) := am_run N.compare am_new ops in
    as_run ∅ ops outs !! (1%N, key) = Some v ∧
    am_calculate_statistics s choice = Some hs ∧
    guess_max_count id s hs None (ak_name key) v v = 0.
Proof.
  exists [AmInsert 1%N (AnnoKey [97%N] []) [98%N]], (λ _, {[0]}), (<[0 := []]> ∅), (AnnoKey [97%N] []), [98%N].
  vm_compute. split; [|split]; reflexivity.
Qed.
Print Assumptions C50_estimate_not_zero_refuted.

(** C50: the value guessed as the most frequent one occurs most often in the histograms of the keys with the name. *)
Theorem C50_most_frequent {T} `{Countable T} : ∀ (s : @am T _ _) (hs : gmap nat (list bytes)) ns name,
  let bounds := qualified_keys s ns name ≫= λ key, default [] (st_get_symbol (anno_keys s) key ≫= λ k, hs !! k) in
  match guess_most_frequent_value s hs ns name with
  | Some v => v ∈ bounds ∧ ∀ w, occurrences w bounds ≤ occurrences v bounds
  | None => bounds = []
  end.
Proof. exact most_frequent_spec. Qed.
Print Assumptions C50_most_frequent.

(** Exact arithmetic is a rounding. *)
Example C50_rounding_exact : rounding id.
Proof.
  constructor; unfold id.
  - intros x y E. exact E.
  - intros z _. apply Qeq_refl.
  - intros x Hx. rewrite <- (Qmult_1_l x) at 2. apply Qmult_le_compat_r; [discriminate|].
    apply (Qle_trans _ (1 # 2 ^ 100)); [discriminate|exact Hx].
Qed.

(** A storage with 300 annotations: 251 bounds, and a value gets the estimate 2. *)
Definition C50_ops : list (am_op N) :=
  (λ n, AmInsert (N.of_nat n) (AnnoKey [97%N] []) [N.of_nat (n / 200); N.of_nat (n mod 200)]) <$> seq 0 300.
Example C50_case :
  let s := (am_run N.compare am_new C50_ops).1 in
  match am_calculate_statistics s (λ _, set_seq 0 300) with
  | Some hs => length <$> hs !! 0 = Some 251 ∧ guess_max_count id s hs None [97%N] [0%N; 7%N] [0%N; 7%N] = 2 ∧
               guess_max_count id s hs None [97%N] [0%N] [2%N] = 300 ∧
               guess_max_count_regex id (take 20) s hs None [97%N] (Prefixes [[0%N]]) = 202
  | None => False
  end.
Proof. vm_compute. repeat split; reflexivity. Qed.
Example C50_sample : valid_sample 2500 300 (set_seq 0 300).
Proof. split; [intros i Hi; apply elem_of_set_seq in Hi; lia|]. rewrite size_set_seq. reflexivity. Qed.
