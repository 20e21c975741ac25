(** The conditions on linked files can be decided (used by the examples only). *)
From Coq Require Import NArith String.
From stdpp Require Import base list gmap.
From Verif Require Import KeySer Types PercentProofs CompPath CorpusDir Service LinkedFiles LinkedFilesSpec.

Global Instance inside_dec dir p : Decision (inside dir p).
Proof.
  refine (cast_if (decide (dir.1 = p.1 ∧ dir.2 `prefix_of` p.2))).
  - abstract (match goal with H : _ ∧ _ |- _ => destruct H as [H1 [rel H2]] end; exists rel; destruct dir, p; cbn in *; by subst).
  - intros [rel ->]. apply n. cbn. split; [done|]. by exists rel.
Defined.
Global Instance never_enters_dec dir s : Decision (never_enters dir s).
Proof.
  refine (cast_if (decide (Forall (λ k, ¬ inside dir (absolute s, reverse (fold_left (step (absolute s)) (take k (parts s [])) [])))
                             (seq 0 (S (length (parts s []))))))).
  - intros k. rewrite Forall_forall in f. destruct (decide (k ≤ length (parts s []))) as [Hk|Hk].
    + apply f, elem_of_seq. lia.
    + rewrite take_ge by lia. rewrite <- (take_ge (parts s []) (length (parts s []))) by lia. apply f, elem_of_seq. lia.
  - intros H. apply n, Forall_forall. intros k _. apply H.
Defined.
Global Instance plain_part_dec p : Decision (plain_part p).
Proof. unfold plain_part. apply _. Defined.
Global Instance plain_dec p : Decision (plain p).
Proof. unfold plain. apply _. Defined.
Global Instance named_well_dec g : Decision (named_well g).
Proof. unfold named_well. apply _. Defined.
Global Instance storage_ok_dec db fs : Decision (storage_ok db fs).
Proof. unfold storage_ok. apply _. Defined.
Global Instance name_ok_dec c : Decision (name_ok c).
Proof. unfold name_ok. apply _. Defined.
Global Instance simple_name_dec c : Decision (simple_name c).
Proof. unfold simple_name. apply _. Defined.
Global Instance prefix_free_dec l : Decision (prefix_free l).
Proof.
  refine (cast_if (decide (Forall (λ s, Forall (λ s', s ≠ s' → ¬ parts s [] `prefix_of` parts s' []) l) l))).
  - intros s s' H1 H2. rewrite Forall_forall in f. specialize (f s H1). rewrite Forall_forall in f. by apply f.
  - intros H. apply n, Forall_forall. intros s H1. apply Forall_forall. intros s' H2. by apply H.
Defined.
Global Instance portable_dec c g : Decision (portable c g).
Proof. unfold portable. apply _. Defined.
Global Instance unrelated_dec p q : Decision (unrelated p q).
Proof. unfold unrelated. apply _. Defined.
Global Instance vacant_dec fs dir : Decision (vacant fs dir).
Proof.
  refine (cast_if (decide (map_Forall (λ p _, ¬ inside dir p) fs))).
  - intros p Hp. destruct (fs !! p) as [x|] eqn:E; [|done]. by destruct (m p x E Hp).
  - intros H. apply n. intros p x E Hp. by rewrite (H p Hp) in E.
Defined.
Global Instance may_import_dec db st c ow : Decision (may_import db st c ow).
Proof. unfold may_import. apply _. Defined.
(** All links of a graph *)
Definition all_links (g : graph) : list (bytes * bytes) :=
  omap (λ n : node_annos, if decide (n !! annis_key "node_type" = Some (str "file")) then
                            match n !! annis_key "node_name", n !! annis_key "file" with Some x, Some v => Some (x, v) | _, _ => None end
                          else None) g.
Lemma all_links_spec (P : bytes → bytes → Prop) (g : graph) : Forall (λ e, P e.1 e.2) (all_links g) →
  ∀ n name v, n ∈ g → links n name v → P name v.
Proof.
  intros HF n name v Hn (H1 & H2 & H3). rewrite Forall_forall in HF. apply (HF (name, v)). apply elem_of_list_omap.
  exists n. split; [done|]. rewrite decide_True by done. by rewrite H2, H3.
Qed.
Lemma ordinary_spec (name : bytes) : (∀ q, last (parts name []) = Some q → q ≠ str "corpus.annis" ∧ q ≠ str "corpus.tab" ∧
  Forall (λ k, lower <$> drop k q ≠ str "graphml") (seq 0 (S (length q)))) → ordinary name.
Proof.
  intros H q Hq. destruct (H q Hq) as (? & ? & HF). repeat split; try done. intros x e ->. rewrite Forall_forall in HF.
  specialize (HF (length (x ++ str "."))). rewrite app_assoc, drop_app in HF. apply HF, elem_of_seq. rewrite !app_length. lia.
Qed.
Lemma ordinary_check (name : bytes) : match last (parts name []) with
  | Some q => q ≠ str "corpus.annis" ∧ q ≠ str "corpus.tab" ∧ Forall (λ k, lower <$> drop k q ≠ str "graphml") (seq 0 (S (length q)))
  | None => True end → ordinary name.
Proof. intros H. apply ordinary_spec. intros q Hq. by rewrite Hq in H. Qed.
