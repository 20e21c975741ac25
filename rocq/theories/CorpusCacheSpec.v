(** Specification of the corpus cache and of the contents of the corpora of a storage. *)
From stdpp Require Import base list gmap sorting.
From Coq Require Import NArith.
From Verif Require Import CorpusCache.

(** ** Check of the cache *)
(** Entries which can be removed: loaded ones that are not requested to be kept *)
Definition removable (keep : list N) (p : N * option nat) : Prop := p.2 ≠ None ∧ p.1 ∉ keep.
Global Instance removable_dec keep p : Decision (removable keep p).
Proof. unfold removable. apply _. Defined.
(** The [r] removable entries at the beginning are removed, one after the other as long as the measured size is above the
    limit *)
Definition evicts (e : env) (keep : list N) (c c' : cache) (r : nat) : Prop :=
  let candidates := filter (removable keep) c in
  r <= length candidates ∧
  c' = filter (λ p, p ∉ take r candidates) c ∧
  (∀ j, j < r → (e_limit e < e_size e j)%N) ∧
  ((e_size e r <= e_limit e)%N ∨ r = length candidates).
(** The numbers of the loaded graphs grow: they are in the order of loading *)
Definition in_loading_order (c : cache) : Prop := StronglySorted lt (omap snd c).

(** ** Contents of the corpora as documented *)
Section Storage.
Context {G U : Type} (app : G → U → option G) (empty : G).
Notation state := (state G U). Notation op := (op G U).
Definition documented (s : state) (o : op) (a : answer) (d : gmap N G) : gmap N G :=
  match a with
  | RAnswer true =>
      match o with
      | OApply t u => match s_threads s !! t with
                      | Some (Holding name _) => partial_alter (λ g, g ← g; app g u) name d
                      | _ => d
                      end
      | OLoad t _ _ => match s_threads s !! t with
                       | Some (Looking name _) => <[name := default empty (d !! name)]> d
                       | _ => d
                       end
      | ODelete name => delete name d
      | OCreate name _ _ => <[name := empty]> d
      | OImport name g _ _ _ => <[name := g]> d
      | _ => d
      end
  | _ => d
  end.
Fixpoint documented_run (s : state) (l : list op) (d : gmap N G) : gmap N G :=
  match l with
  | [] => d
  | o :: r => let '(s', a) := step app empty s o in documented_run s' r (documented s o a d)
  end.
(** A background worker has still to save the corpus *)
Definition unsaved (s : state) (name : N) : Prop := ∃ id, (name, id) ∈ s_workers s.
Definition is_cached (s : state) (name : N) (id : nat) : Prop := cache_get (s_cache s) name = Some (Some id).
(** Schedules without the three problems below: no loaded entry is replaced or removed from the cache while it is unsaved; an
    update uses the cached entry; and no update fails while the corpus is unsaved *)
Definition calm (s : state) (o : op) : Prop :=
  (∀ name id, is_cached s name id → ¬ is_cached (step app empty s o).1 name id → ¬ unsaved s name) ∧
  (match o with
   | OLoad t _ _ => ∀ name create, s_threads s !! t = Some (Looking name create) → ∀ id, ¬ is_cached s name id
   | OApply t u => ∀ name id, s_threads s !! t = Some (Holding name id) → is_cached s name id ∧
                     ((step app empty s o).2 = RError → ¬ unsaved s name)
   | _ => True
   end).
Fixpoint calm_run (s : state) (l : list op) : Prop :=
  match l with [] => True | o :: r => calm s o ∧ calm_run (step app empty s o).1 r end.
(** A name in the cache without a corpus *)
Definition leftover (s : state) (name : N) : Prop := cache_get (s_cache s) name = Some None ∧ s_disk s !! name = None.
End Storage.
