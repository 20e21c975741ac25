From stdpp Require Import base list.
From Coq Require Import NArith Lia.
From Verif Require Import KeySer KeySerSpec KeySerProofs Bincode GraphUpdate GraphUpdateSpec.

(** ** Encoding *)
Lemma take_exact_app a r : take_exact (length a) (a ++ r) = Some (a, r).
Proof.
  unfold take_exact. rewrite decide_True by (rewrite app_length; lia). by rewrite take_app, drop_app.
Qed.
Lemma le_length w n : length (le_bytes w n) = w.
Proof. unfold le_bytes. by rewrite reverse_length, be_bytes_length. Qed.
Lemma read_int_app w n r : fits w n → read_int w (le_bytes w n ++ r) = Some (n, r).
Proof.
  intros Hf. unfold read_int. rewrite <- (le_length w n) at 1. rewrite take_exact_app. simpl.
  unfold from_le, le_bytes. by rewrite reverse_involutive, from_be_be.
Qed.
Lemma unvarint_app n r : (n < 2 ^ 64)%N → unvarint (varint n ++ r) = Some (n, r).
Proof.
  intros Hn. unfold varint. destruct (N.ltb_spec n 251) as [H|H].
  { simpl. destruct (N.ltb_spec n 251); [done|lia]. }
  destruct (N.ltb_spec n 65536); [|destruct (N.ltb_spec n 4294967296)].
  - apply (read_int_app 2). unfold fits. change (2 ^ (8 * N.of_nat 2))%N with 65536%N. lia.
  - apply (read_int_app 4). unfold fits. change (2 ^ (8 * N.of_nat 4))%N with 4294967296%N. lia.
  - apply (read_int_app 8). unfold fits. change (2 ^ (8 * N.of_nat 8))%N with (2 ^ 64)%N. lia.
Qed.
Lemma dec_string_app s r : string_ok s → dec_string (enc_string s ++ r) = Some (s, r).
Proof.
  intros Hs. unfold dec_string, enc_string. rewrite <- app_assoc, unvarint_app by done. simpl.
  rewrite Nat2N.id. apply take_exact_app.
Qed.
Lemma dec_strings_app ss r : Forall string_ok ss → dec_strings (length ss) (enc_strings ss ++ r) = Some (ss, r).
Proof.
  induction 1 as [|s ss Hs _ IH]; [done|]. unfold enc_strings. rewrite bind_cons. cbn [dec_strings length].
  rewrite <- app_assoc, dec_string_app by done. simpl. unfold enc_strings in IH. by rewrite IH.
Qed.
Lemma read_event_app e r : event_ok e → read_event (enc_event e ++ r) = Some (e, r).
Proof.
  assert (∀ tag ss, (tag < 8)%N → Forall string_ok ss → length ss = event_arity tag →
    read_event ((varint tag ++ enc_strings ss) ++ r) = (e ← event_of tag ss; Some (e, r))) as H.
  { intros tag ss Ht Hs Hl. unfold read_event. rewrite <- app_assoc, unvarint_app by lia. simpl. rewrite <- Hl, dec_strings_app by done. done. }
  intros He. unfold event_ok in He. destruct e; cbn [enc_event event_strings] in *; rewrite H; done || lia.
Qed.
Lemma dec_enc_event e : event_ok e → dec_event (enc_event e) = Some e.
Proof.
  intros He. unfold dec_event. rewrite <- (app_nil_r (enc_event e)), read_event_app by done. done.
Qed.
Lemma dec_entries_app l r : Forall (λ x : N * event, (x.1 < 2 ^ 64)%N ∧ event_ok x.2) l →
  dec_entries (length l) ((l ≫= λ x, varint x.1 ++ enc_event x.2) ++ r) = Some (l, r).
Proof.
  induction 1 as [|[id e] l [Hi He] _ IH]; [done|]. rewrite bind_cons. cbn [dec_entries length fst snd] in *.
  rewrite <- !app_assoc, unvarint_app by done. simpl. rewrite read_event_app by done. simpl. by rewrite IH.
Qed.
Lemma dec_enc_updates l : (N.of_nat (length l) < 2 ^ 64)%N → Forall (λ x : N * event, (x.1 < 2 ^ 64)%N ∧ event_ok x.2) l →
  dec_updates (enc_updates (N.of_nat (length l), l)) = Some l.
Proof.
  intros Hl HF. unfold dec_updates, enc_updates. cbn [fst snd]. rewrite unvarint_app by done. cbn [mbind option_bind].
  rewrite Nat2N.id. rewrite <- (app_nil_r (l ≫= _)), dec_entries_app by done. done.
Qed.

(** ** The log *)
Definition set_table (c : changeset) : table := match c with InProgress t => t | Finished t => t end.
Definition entry (x : N * event) : bytes * bytes := (uint_create_key 8 x.1, enc_event x.2).
Definition entries (log : list event) : table := entry <$> numbered log.
Record linv (g : gupdate) (log : list event) : Prop := {
  l_counter : u_counter g = N.of_nat (length log);
  l_tables : (set_table <$> u_sets g) ≫= id = entries log;
  l_ok : Forall event_ok log;
  l_len : (N.of_nat (length log) < 2 ^ 64)%N
}.
Lemma numbered_snoc log e : numbered (log ++ [e]) = numbered log ++ [(N.of_nat (S (length log)), e)].
Proof. unfold numbered. rewrite imap_app. simpl. by rewrite Nat.add_0_r. Qed.
Lemma numbered_length log : length (numbered log) = length log.
Proof. apply imap_length. Qed.
Lemma numbered_ok log : (N.of_nat (length log) < 2 ^ 64)%N → Forall event_ok log →
  Forall (λ x : N * event, (x.1 < 2 ^ 64)%N ∧ event_ok x.2) (numbered log).
Proof.
  intros Hl Hok. apply Forall_lookup. intros i [n e] Hi. unfold numbered in Hi. rewrite list_lookup_imap in Hi.
  destruct (log !! i) as [e'|] eqn:E; [|done]. simpl in Hi. injection Hi as <- <-. simpl. split.
  - apply lookup_lt_Some in E. lia.
  - by eapply Forall_lookup_1.
Qed.
Lemma key_lt a b : (a < b)%N → (b < 2 ^ 64)%N → lex_compare (uint_create_key 8 a) (uint_create_key 8 b) = Lt.
Proof.
  intros Hab Hb. unfold uint_create_key. rewrite lex_be_mod.
  change (256 ^ N.of_nat 8)%N with (2 ^ 64)%N. rewrite !N.mod_small by lia. by apply N.compare_lt_iff.
Qed.
Lemma entries_last log k v : last (entries log) = Some (k, v) → k = uint_create_key 8 (N.of_nat (length log)) ∧ log ≠ [].
Proof.
  destruct log as [|e log _] using rev_ind; [done|]. unfold entries. rewrite numbered_snoc, fmap_app, last_app. simpl.
  rewrite app_length. simpl. intros [= <- <-]. split; [|by destruct log]. by rewrite Nat.add_1_r.
Qed.
Lemma last_suffix {A} (a b : list A) x : last b = Some x → last (a ++ b) = Some x.
Proof. intros H. by rewrite last_app, H. Qed.
Lemma tb_add_ok a t log e : a ++ t = entries log → (N.of_nat (S (length log)) < 2 ^ 64)%N →
  tb_add t (uint_create_key 8 (N.of_nat (S (length log)))) (enc_event e) =
    Some (t ++ [entry (N.of_nat (S (length log)), e)]).
Proof.
  intros Ht Hl. unfold tb_add. destruct (last t) as [[k0 v0]|] eqn:E; [|done].
  apply (last_suffix a) in E. rewrite Ht in E. apply entries_last in E as [-> _]. rewrite key_lt; [done|lia|done].
Qed.
Lemma linv_new : linv gu_new [].
Proof. by split. Qed.
Lemma linv_add g log e : linv g log → event_ok e → (N.of_nat (S (length log)) < 2 ^ 64)%N →
  ∃ g', gu_add g e = Some g' ∧ linv g' (log ++ [e]).
Proof.
  intros [Hc Ht Hok Hl] He Hn. unfold gu_add. rewrite Hc.
  destruct (N.eqb_spec (N.of_nat (length log)) 18446744073709551615) as [Heq|_]; [exfalso; lia|].
  assert (∃ before t, current_inprogress (u_sets g) = (before, t) ∧ ((set_table <$> before) ≫= id) ++ t = entries log) as (before & t & Ec & Hbt).
  { unfold current_inprogress. destruct (u_sets g) as [|c cs _] eqn:E using rev_ind; [exists [], []; done|].
    rewrite reverse_app. simpl. rewrite <- Ht, fmap_app, bind_app. destruct c as [t|t].
    - exists cs, t. rewrite reverse_involutive. split; [done|]. simpl. by rewrite app_nil_r.
    - exists (cs ++ [Finished t]), []. split; [done|]. rewrite fmap_app, bind_app. by rewrite app_nil_r. }
  rewrite Ec. replace (N.of_nat (length log) + 1)%N with (N.of_nat (S (length log))) by lia.
  rewrite (tb_add_ok _ t log e Hbt Hn). simpl. eexists. split; [reflexivity|]. split; simpl.
  - rewrite app_length. simpl. lia.
  - rewrite fmap_app, bind_app. simpl. rewrite app_nil_r, app_assoc, Hbt. unfold entries. rewrite numbered_snoc, fmap_app. done.
  - apply Forall_app. split; [done|]. by apply Forall_singleton.
  - rewrite app_length. simpl. lia.
Qed.
Lemma tables_finish cs : tables (finish_all cs) = set_table <$> cs.
Proof. unfold tables, finish_all. induction cs as [|[t|t] cs IH]; [done|..]; cbn; f_equal; exact IH. Qed.
Lemma mapM_entries l : Forall (λ x : N * event, (x.1 < 2 ^ 64)%N ∧ event_ok x.2) l → mapM entry_event (entry <$> l) = Some l.
Proof.
  induction 1 as [|[id e] l [Hi He] _ IH]; [done|]. rewrite fmap_cons. cbn [mapM].
  assert (entry_event (entry (id, e)) = Some (id, e)) as ->; [|cbn [mbind option_bind]; by rewrite IH].
  unfold entry_event, entry. cbn [fst snd] in *.
  rewrite <- (app_nil_r (uint_create_key 8 id)), uint_roundtrip by exact Hi. by rewrite dec_enc_event.
Qed.
Lemma linv_iter g log : linv g log → ∃ g', gu_iter g = (g', Some (numbered log)) ∧ linv g' log.
Proof.
  intros [Hc Ht Hok Hl]. unfold gu_iter. eexists. rewrite tables_finish, Ht. unfold entries.
  rewrite mapM_entries by by apply numbered_ok. split; [done|]. split; simpl; [done| |done|done].
  rewrite <- Ht. f_equal. unfold finish_all. rewrite <- list_fmap_compose. apply list_fmap_ext. by intros ? [].
Qed.
Lemma de_entries_ok log2 : ∀ log1, Forall event_ok (log1 ++ log2) → (N.of_nat (length (log1 ++ log2)) < 2 ^ 64)%N →
  de_entries (entries log1) (N.of_nat (length log1)) (imap (λ i e, (N.of_nat (S (length log1 + i)), e)) log2) =
   Some (entries (log1 ++ log2), N.of_nat (length (log1 ++ log2))).
Proof.
  induction log2 as [|e log2 IH]; intros log1 Hok Hl.
  - simpl. by rewrite app_nil_r.
  - rewrite imap_cons. cbn [de_entries]. rewrite Nat.add_0_r. rewrite (tb_add_ok [] (entries log1) log1 e); [|done|rewrite app_length in Hl; simpl in Hl; lia].
    cbn [mbind option_bind]. rewrite (cons_middle e), app_assoc in Hok, Hl. specialize (IH (log1 ++ [e]) Hok Hl). rewrite (cons_middle e log1 log2), app_assoc.
    rewrite <- IH. rewrite app_length. cbn [length]. replace (length log1 + 1) with (S (length log1)) by lia.
    unfold entries at 2. rewrite numbered_snoc, fmap_app. cbn [fmap list_fmap]. f_equal.
    apply imap_ext. intros i x _. simpl. f_equal. lia.
Qed.
Lemma linv_reload g log : linv g log → ∃ g', gu_step g UReload = Some (g', []) ∧ linv g' log.
Proof.
  intros I. pose proof I as [Hc Ht Hok Hl]. destruct (linv_iter g log I) as (g1 & Ei & [Hc1 _ _ _]).
  cbn [gu_step]. unfold gu_serialize. rewrite Ei. cbn [snd mbind option_bind]. unfold gu_len. rewrite Hc1.
  replace (N.of_nat (length log), numbered log) with (N.of_nat (length (numbered log)), numbered log) by by rewrite numbered_length.
  rewrite dec_enc_updates; [|by rewrite numbered_length|by apply numbered_ok].
  cbn [mbind option_bind]. unfold gu_deserialize.
  pose proof (de_entries_ok log [] Hok Hl) as Hd. cbn [app length Nat.add] in Hd. unfold numbered at 1.
  change (entries []) with (@nil (bytes * bytes)) in Hd. change (N.of_nat 0) with 0%N in Hd. rewrite Hd. cbn [mbind option_bind]. eexists. split; [reflexivity|]. split; simpl; [done| |done|done]. by rewrite app_nil_r.
Qed.
Lemma run_log ops : ∀ g log, linv g log → Forall op_ok ops → (N.of_nat (length log + length ops) < 2 ^ 64)%N →
  ∃ g', gu_run g ops = Some (g', log_run log ops).
Proof.
  induction ops as [|o ops IH]; intros g log I Hok Hn; [by eexists|].
  apply Forall_cons in Hok as [Ho Hok].
  assert (∃ g1, gu_step g o = Some (g1, log_shows log o) ∧ linv g1 (log_after log o)) as (g1 & E1 & I1).
  { destruct o as [e| |].
    - cbn [length] in Hn. destruct (linv_add g log e I Ho ltac:(lia)) as (g1 & E1 & I1). exists g1. cbn [gu_step]. rewrite E1. done.
    - destruct (linv_iter g log I) as (g1 & E1 & I1). exists g1. cbn [gu_step]. rewrite E1. done.
    - destruct (linv_reload g log I) as (g1 & E1 & I1). by exists g1. }
  cbn [gu_run log_run]. rewrite E1. simpl.
  destruct (IH g1 (log_after log o) I1 Hok) as (g2 & ->).
  { cbn [length] in Hn. destruct o; simpl; rewrite ?app_length; simpl; lia. }
  simpl. exists g2. repeat f_equal.
  - unfold gu_len. apply I1.
  - unfold gu_is_empty. rewrite (l_counter _ _ I1). destruct (log_after log o); [done|]. by case_bool_decide.
Qed.
