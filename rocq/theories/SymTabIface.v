(** Consequences of the symbol table invariant used by clients of the table. *)
From stdpp Require Import base list gmap.
From Coq Require Import NArith Lia.
From Verif Require Import SymbolTable SymbolTableSpec SymbolTableProofs.

Section iface.
Context {V : Type} `{Countable V}.
Implicit Types (t : symtab V).

Definition st_ok t : Prop := ∃ m, st_inv t m.

Lemma st_ok_new : st_ok st_new.
Proof. exists ∅. apply st_inv_new. Qed.
Lemma st_ok_clear t : st_ok (st_clear t).
Proof. apply st_ok_new. Qed.
Lemma st_get_value_new s : st_get_value (V:=V) st_new s = None.
Proof. by rewrite (st_get_value_inv _ _ s st_inv_new), lookup_empty. Qed.

Lemma st_ok_sym t v s : st_ok t → st_get_symbol t v = Some s ↔ st_get_value t s = Some v.
Proof.
  intros [m I]. rewrite (st_get_value_inv t m s I). unfold st_get_symbol. apply (inv_val _ _ I).
Qed.
Lemma st_ok_inj t v s1 s2 : st_ok t →
  st_get_value t s1 = Some v → st_get_value t s2 = Some v → s1 = s2.
Proof. intros I H1 H2. apply (st_ok_sym _ _ _ I) in H1, H2. congruence. Qed.

Lemma st_ok_insert t v t' r : st_ok t → st_insert t v = (t', r) →
  st_ok t' ∧
  match r with
  | Some s => st_get_value t' s = Some v ∧
      (∀ s' x, st_get_value t' s' = Some x ↔ st_get_value t s' = Some x ∨ (s' = s ∧ x = v))
  | None => t' = t
  end.
Proof.
  intros [m I] E. pose proof (st_inv_insert t m v I) as [m' [Hs I']].
  rewrite E in Hs, I'; simpl in *. split; [by exists m'|].
  inversion Hs as [m0 v0 s Hm|m0 v0 s Hf Hn|m0 v0 Hf Hc| | |]; subst.
  - rewrite (st_get_value_inv t' m' s I'). split; [done|]. intros s' x.
    rewrite (st_get_value_inv t' m' s' I'), (st_get_value_inv t m' s' I).
    split; [auto|]. intros [?|[-> ->]]; done.
  - rewrite (st_get_value_inv t' _ s I'), lookup_insert. split; [done|]. intros s' x.
    rewrite (st_get_value_inv t' _ s' I'), (st_get_value_inv t m s' I).
    destruct (decide (s' = s)) as [->|].
    + rewrite lookup_insert, Hn. naive_solver.
    + rewrite lookup_insert_ne by done. naive_solver.
  - unfold st_insert in E. destruct (by_value t !! v); [congruence|].
    destruct (empty_slots t); [|congruence]. destruct (_ <? _)%N; congruence.
Qed.

Lemma st_ok_remove t s : st_ok t →
  st_ok (st_remove t s).1 ∧
  ∀ s', st_get_value (st_remove t s).1 s' = if decide (s' = s) then None else st_get_value t s'.
Proof.
  intros [m I]. destruct (st_inv_remove t m s I) as [_ I']. split; [by eexists|].
  intros s'. rewrite (st_get_value_inv _ _ s' I'), (st_get_value_inv t m s' I).
  destruct (decide _) as [->|]; [apply lookup_delete|by rewrite lookup_delete_ne].
Qed.

Lemma st_ok_reload t : st_ok t →
  st_ok (st_reload t) ∧ ∀ s, st_get_value (st_reload t) s = st_get_value t s.
Proof.
  intros [m I]. pose proof (st_inv_reload t m I) as I'. split; [by eexists|].
  intros s. by rewrite (st_get_value_inv _ _ s I'), (st_get_value_inv t m s I).
Qed.

(** Growth of the table *)
Lemma st_insert_len t v :
  length (by_id (st_insert t v).1) ≤ S (length (by_id t)).
Proof.
  unfold st_insert. destruct (by_value t !! v); simpl; [lia|].
  destruct (empty_slots t); simpl; [|rewrite insert_length; lia].
  destruct (_ <? _)%N; simpl; [rewrite app_length; simpl|]; lia.
Qed.
Lemma st_insert_some t v : (N.of_nat (length (by_id t)) < usize_max)%N →
  is_Some (st_insert t v).2.
Proof.
  intros Hl. unfold st_insert. destruct (by_value t !! v); simpl; [by eexists|].
  destruct (empty_slots t); simpl; [|by eexists].
  apply N.ltb_lt in Hl. rewrite Hl. by eexists.
Qed.
Lemma st_remove_len t s : length (by_id (st_remove t s).1) = length (by_id t).
Proof.
  unfold st_remove. destruct (decide _); [|done].
  destruct (by_id t !! s) as [[]|]; simpl; by rewrite insert_length.
Qed.
End iface.
