(** Proofs about the files of components. *)
From Coq Require Import NArith String.
From stdpp Require Import base list gmap.
From Verif Require Import KeySer Types CompPath AnnoMem Adjacency Dense Linear PrePost ComponentFiles ComponentFilesSpec.

Section Proofs.
Context {A B : Type}.
(** Names of fields which are different from each other and from the other files *)
Definition names_ok (first second : string) : bool :=
  bool_decide (NoDup [field_file first; field_file second; field_file "annos"; str "stats.toml"; str "edge_stats.bin"; str "component.bin"]).
Lemma load_saved (first second : string) (d : dir A B) s : names_ok first second = true → no_old_files d (st_stats s) → load_from first second (save_to first second d s) = Some s.
Proof.
  intros Hn%bool_decide_eq_true [Hc Hs]. rewrite !NoDup_cons, !not_elem_of_cons in Hn.
  destruct Hn as ((H12 & H13 & H14 & H15 & H16 & _) & (H23 & H24 & H25 & H26 & _) & (H34 & H35 & H36 & _) & (H45 & H46 & _) & (H56 & _) & _).
  set (d1 := <[field_file "annos" := FAnnos (st_annos s)]> (<[field_file second := FSecond (st_second s)]> (<[field_file first := FFirst (st_first s)]> d))).
  assert (∀ k, k ≠ str "stats.toml" → save_to first second d s !! k = d1 !! k) as Hk.
  { intros k Hk. unfold save_to, save_statistics. fold d1. destruct (st_stats s); [rewrite lookup_insert_ne by done|]; by rewrite lookup_delete_ne. }
  assert (d1 !! field_file first = Some (FFirst (st_first s))) as E1 by (unfold d1; by rewrite !lookup_insert_ne, lookup_insert by done).
  assert (d1 !! field_file second = Some (FSecond (st_second s))) as E2 by (unfold d1; by rewrite lookup_insert_ne, lookup_insert by done).
  assert (d1 !! field_file "annos" = Some (FAnnos (st_annos s))) as E3 by (unfold d1; by rewrite lookup_insert).
  assert (d1 !! str "component.bin" = None) as E4 by (unfold d1; by rewrite !lookup_insert_ne by done).
  assert (d1 !! str "edge_stats.bin" = d !! str "edge_stats.bin") as E5 by (unfold d1; by rewrite !lookup_insert_ne by done).
  assert (load_statistics (save_to first second d s) = Some (st_stats s)) as El.
  { unfold load_statistics. rewrite (Hk (str "edge_stats.bin")), E5 by done. unfold save_to, save_statistics. destruct (st_stats s) as [x|].
    - by rewrite lookup_insert.
    - rewrite lookup_delete. by rewrite Hs. }
  unfold load_from, read_first, read_second, read_annos. rewrite (Hk (str "component.bin")), E4, El by done. cbn [mbind option_bind].
  rewrite (Hk (field_file first)), E1 by done. cbn [mbind option_bind]. rewrite (Hk (field_file second)), E2 by done. cbn [mbind option_bind].
  rewrite (Hk (field_file "annos")), E3 by done. by destruct s.
Qed.
Lemma load_old (first second : string) (d : dir A B) a b x v : d !! str "component.bin" = Some (FOld a b x v) → load_from first second d = Some (Storage a b x (from_v1 <$> v)).
Proof. intros E. unfold load_from. by rewrite E. Qed.
Lemma old_wins (first second : string) (d : dir A B) s : names_ok first second = true → d !! str "component.bin" ≠ None → load_from first second (save_to first second d s) = load_from first second d.
Proof.
  intros Hn%bool_decide_eq_true Hc. rewrite !NoDup_cons, !not_elem_of_cons in Hn.
  destruct Hn as ((H12 & H13 & H14 & H15 & H16 & _) & (H23 & H24 & H25 & H26 & _) & (H34 & H35 & H36 & _) & (H45 & H46 & _) & (H56 & _) & _).
  assert (save_to first second d s !! str "component.bin" = d !! str "component.bin") as E.
  { unfold save_to, save_statistics. destruct (st_stats s); [rewrite lookup_insert_ne by done|]; rewrite lookup_delete_ne by done; by rewrite !lookup_insert_ne by done. }
  unfold load_from. rewrite E. by destruct (d !! str "component.bin").
Qed.
Lemma load_old_statistics (first second : string) (d : dir A B) a b x s : d !! str "component.bin" = None → d !! str "stats.toml" = None → d !! str "edge_stats.bin" = Some (FOldStats s) →
  d !! field_file first = Some (FFirst a) → d !! field_file second = Some (FSecond b) → d !! field_file "annos" = Some (FAnnos x) →
  load_from first second d = Some (Storage a b x (from_v1 <$> s)).
Proof. intros E1 E2 E3 E4 E5 E6. unfold load_from, load_statistics, read_first, read_second, read_annos. by rewrite E1, E2, E3, E4, E5, E6. Qed.
Lemma read_first_some (d : dir A B) (n : string) a : read_first d n = Some a → d !! field_file n = Some (FFirst a).
Proof. unfold read_first. destruct (d !! field_file n) as [[]|]; by intros [= ->]. Qed.
Lemma read_second_some (d : dir A B) (n : string) b : read_second d n = Some b → d !! field_file n = Some (FSecond b).
Proof. unfold read_second. destruct (d !! field_file n) as [[]|]; by intros [= ->]. Qed.
Lemma read_annos_some (d : dir A B) x : read_annos d = Some x → d !! field_file "annos" = Some (FAnnos x).
Proof. unfold read_annos. destruct (d !! field_file "annos") as [[]|]; by intros [= ->]. Qed.
(** Nothing is made up: what is loaded stands in the files *)
Lemma load_origin (first second : string) (d : dir A B) s : load_from first second d = Some s →
  (∃ v, d !! str "component.bin" = Some (FOld (st_first s) (st_second s) (st_annos s) v)) ∨
  (d !! field_file first = Some (FFirst (st_first s)) ∧ d !! field_file second = Some (FSecond (st_second s)) ∧ d !! field_file "annos" = Some (FAnnos (st_annos s))).
Proof.
  unfold load_from. destruct (d !! str "component.bin") as [[]|] eqn:Ec; try done; [intros [= <-]; left; eexists; done|].
  destruct (load_statistics d) as [st|]; [|done]. cbn. destruct (read_first d first) as [a|] eqn:E1; [|done]. destruct (read_second d second) as [b|] eqn:E2; [|done].
  destruct (read_annos d) as [x|] eqn:E3; [|done]. intros [= <-]. right. split_and!; [by apply read_first_some|by apply read_second_some|by apply read_annos_some].
Qed.
End Proofs.
Lemma old_same s : same_but_roots (from_v1 (as_old s)) s.
Proof. by destruct s. Qed.
Lemma old_exact s : from_v1 (as_old s) = s ↔ s_root_nodes s = if decide (0 < s_nodes s) then 1 else 0.
Proof. destruct s as [c t n r m f i dp v sf]. cbn. split; [by intros [= ->]|]. intros ->. done. Qed.
