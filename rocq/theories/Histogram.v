(** Model of the statistics of the in-memory annotation storage and the estimates based on them
    (/repo/core/src/annostorage/inmemory.rs l.693-868 and 910-980).

    Simplifications: the random sample of indexes is a parameter ([choice], for each key symbol); hash maps are finite maps, so
    the order of their entries is arbitrary; an f64 is a rational number and each conversion and operation on f64 applies an
    arbitrary rounding [rnd]; the regular expression engine is a parameter (see [parsed_regex]). *)
From Coq Require Import NArith QArith Qround.
From stdpp Require Import base list gmap fin_maps.
From Verif Require Import KeySer KeySerSpec SortedMap Types SymbolTable AnnoMem.
Local Open Scope nat_scope.

(** l.911-912 *)
Definition max_histogram_buckets : nat := 250.
Definition max_sampled_annotations : nat := 2500.

(** l.949-954 *)
Definition num_hist_bounds (buckets len : nat) : nat :=
  if len <? buckets + 1 then len else buckets + 1.
(** l.967-975: the loop over the histogram bounds; None if the index is out of range (a panic) *)
Fixpoint hist_loop (n : nat) (sampled : list bytes) (nb delta delta_fraction pos pos_fraction : nat) : option (list bytes) :=
  match n with
  | 0 => Some []
  | S n' =>
      item ← sampled !! pos;
      let pos1 := pos + delta in
      let frac1 := pos_fraction + delta_fraction in
      rest ← (if nb - 1 <=? frac1 then hist_loop n' sampled nb delta delta_fraction (pos1 + 1) (frac1 - (nb - 1))
              else hist_loop n' sampled nb delta delta_fraction pos1 frac1);
      Some (item :: rest)
  end.
(** l.949-976 *)
Definition hist_bounds (buckets : nat) (sampled : list bytes) : option (list bytes) :=
  let nb := num_hist_bounds buckets (length sampled) in
  if 2 <=? nb then
    let delta := (length sampled - 1) / (nb - 1) in
    let delta_fraction := (length sampled - 1) mod (nb - 1) in
    hist_loop nb sampled nb delta delta_fraction 0 0
  else Some [].

(** l.709-731: buckets of a histogram that overlap with the search range *)
Definition str_le (a b : bytes) : bool := match lex_compare a b with Gt => false | _ => true end.
Fixpoint bucket_matches (lower upper : bytes) (histo : list bytes) : nat :=
  match histo with
  | b :: ((e :: _) as r) => (if str_le b upper && str_le lower e then 1 else 0) + bucket_matches lower upper r
  | _ => 0
  end.
(** f64::round and the conversion to usize, for numbers that are not negative *)
Definition round_usize (q : Q) : nat := Z.to_nat (Qfloor (q + (1 # 2))).
(** The conversion of an f64 to usize truncates *)
Definition trunc_usize (q : Q) : nat := Z.to_nat (Qfloor q).
Definition q_of_nat (n : nat) : Q := inject_Z (Z.of_nat n).

(** Result of parsing a regular expression: a syntax error, the literal prefixes that are valid UTF-8 (l.758-771), or no prefix
    set and the compiled expression (None: compile error, l.772-775) *)
Inductive parsed_regex := BadRegex | Prefixes (l : list bytes) | NoPrefix (re : option (bytes → bool)).

Section stats.
Context {T : Type} `{Countable T}.
Implicit Types s : @am T _ _.

(** l.917-945: the sampled values of a key with the symbol [k], sorted *)
Definition repeated_values (m : gmap nat (gset T)) : list nat :=
  map_to_list m ≫= λ vi : nat * gset T, replicate (size vi.2) vi.1.
Definition sampled_values s (m : gmap nat (gset T)) (idx : gset nat) : list bytes :=
  sort_list lex_compare
    (omap (λ x : nat * nat, st_get_value (anno_values s) x.2)
       (filter (λ x : nat * nat, x.1 ∈ idx) (imap pair (repeated_values m)))).
(** l.910-980: the new histogram bounds *)
Fixpoint calculate_statistics s (choice : nat → gset nat) (keys : list anno_key) (acc : gmap nat (list bytes))
  : option (gmap nat (list bytes)) :=
  match keys with
  | [] => Some acc
  | key :: r =>
      match st_get_symbol (anno_keys s) key with
      | Some k =>
          match by_anno s !! k with
          | Some m =>
              hist ← hist_bounds max_histogram_buckets (sampled_values s m (choice k));
              calculate_statistics s choice r (<[k := hist]> acc)
          | None => calculate_statistics s choice r acc
          end
      | None => calculate_statistics s choice r acc
      end
  end.
Definition am_calculate_statistics s (choice : nat → gset nat) : option (gmap nat (list bytes)) :=
  calculate_statistics s choice (anno_key_sizes s).*1 ∅.

(** l.701-707 *)
Definition qualified_keys s (ns : option bytes) (name : bytes) : list anno_key :=
  match ns with Some ns => [AnnoKey name ns] | None => am_get_qnames s name end.
Implicit Types hs : gmap nat (list bytes).
(** l.713-738: universe_size, sum_histogram_buckets, count_matches *)
Definition guess_step s hs (lower upper : bytes) (acc : nat * nat * nat) (key : anno_key) : nat * nat * nat :=
  let '(universe, buckets, count) := acc in
  match al_get anno_key_compare (anno_key_sizes s) key with
  | Some anno_size =>
      match st_get_symbol (anno_keys s) key ≫= λ k, hs !! k with
      | Some histo =>
          if 2 <=? length histo then
            (universe + anno_size, buckets + (length histo - 1), count + bucket_matches lower upper histo)
          else (universe + anno_size, buckets, count)
      | None => (universe + anno_size, buckets, count)
      end
  | None => acc
  end.
(** l.693-747 *)
Definition guess_max_count (rnd : Q → Q) s hs (ns : option bytes) (name lower upper : bytes) : nat :=
  let '(universe, buckets, count) := fold_left (guess_step s hs lower upper) (qualified_keys s ns name) (0, 0, 0) in
  if 0 <? buckets then
    let selectivity := rnd (rnd (q_of_nat count) / rnd (q_of_nat buckets))%Q in
    round_usize (rnd (selectivity * rnd (q_of_nat universe))%Q)
  else 0.
(** l.792-823: [pick] is the random sample of at most 20 bounds *)
Definition guess_sampled (rnd : Q → Q) (pick : list bytes → list bytes) (re : bytes → bool) (anno_size : nat) (histo : list bytes) : nat :=
  if bool_decide (histo = []) then 0
  else
    let sampled := pick histo in
    let matches := length (filter (λ v, re v = true) sampled) in
    if bool_decide (length sampled = matches) then anno_size
    else if bool_decide (matches = 0) then trunc_usize (rnd (rnd (q_of_nat anno_size) / rnd (q_of_nat (length sampled)))%Q)
    else trunc_usize (rnd (rnd (q_of_nat anno_size) * rnd (rnd (q_of_nat matches) / rnd (q_of_nat (length sampled))))%Q).
(** l.749-830 *)
Definition guess_max_count_regex (rnd : Q → Q) (pick : list bytes → list bytes) s hs (ns : option bytes) (name : bytes) (parsed : parsed_regex) : nat :=
  let total := am_number_by_name s ns name in
  match parsed with
  | BadRegex => 0
  | Prefixes l => sum_list ((λ p, guess_max_count rnd s hs ns name p (p ++ char_max)) <$> l) `min` total
  | NoPrefix None => 0 `min` total
  | NoPrefix (Some re) =>
      sum_list ((λ key, match st_get_symbol (anno_keys s) key with
                        | Some k =>
                            let anno_size := default 0 (al_get anno_key_compare (anno_key_sizes s) key) in
                            match hs !! k with Some histo => guess_sampled rnd pick re anno_size histo | None => 0 end
                        | None => 0
                        end) <$> qualified_keys s ns name) `min` total
  end.
(** l.832-868 *)
Definition count_value_step (m : gmap bytes nat) (v : bytes) : gmap bytes nat := <[v := S (default 0 (m !! v))]> m.
Definition guess_most_frequent_value s hs (ns : option bytes) (name : bytes) : option bytes :=
  let sampled := fold_left count_value_step
       (qualified_keys s ns name ≫= λ key, default [] (st_get_symbol (anno_keys s) key ≫= λ k, hs !! k)) ∅ in
  if bool_decide (sampled = ∅) then None
  else Some (fold_left (λ (acc : nat * bytes) (vc : bytes * nat), if acc.1 <=? vc.2 then (vc.2, vc.1) else acc)
               (map_to_list sampled) (0, [])).2.
End stats.
