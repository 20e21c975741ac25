(** Reading of written tables. *)
From Coq Require Import NArith String Lia.
From stdpp Require Import base list gmap.
From Verif Require Import KeySer KeySerSpec CompPath RelAnnis RelAnnisSpec ListExtra.

Lemma escape_value_app a b : escape_value (a ++ b) = escape_value a ++ escape_value b.
Proof. induction a as [|x a IH]; [reflexivity|]. cbn [app escape_value]. by rewrite IH, (assoc_L (++)). Qed.
Lemma escape_round s : escape_field (escape_value s) = s.
Proof.
  induction s as [|b s IH]; [reflexivity|]. cbn [escape_value].
  destruct (decide (b = 92%N)) as [-> |H1]; [cbn [app escape_field]; cbn; by rewrite IH|].
  destruct (decide (b = 10%N)) as [-> |H2]; [cbn [app escape_field]; cbn; by rewrite IH|].
  destruct (decide (b = 13%N)) as [-> |H3]; [cbn [app escape_field]; cbn; by rewrite IH|].
  destruct (decide (b = 9%N)) as [-> |H4]; [cbn [app escape_field]; cbn; by rewrite IH|].
  cbn [app escape_field]. rewrite bool_decide_false by done. by rewrite IH.
Qed.
Lemma escape_value_plain s : Forall (λ b, b ≠ 9 ∧ b ≠ 10 ∧ b ≠ 13)%N (escape_value s).
Proof.
  induction s as [|b s IH]; [constructor|]. cbn [escape_value]. apply Forall_app. split; [|exact IH].
  repeat case_decide; repeat constructor; done.
Qed.
Lemma write_field_plain v : Forall (λ b, b ≠ 9 ∧ b ≠ 10 ∧ b ≠ 13)%N (write_field v).
Proof. destruct v as [v|]; [apply escape_value_plain|]. cbn. repeat constructor; done. Qed.
Lemma split_on_plain sep cur s : Forall (λ b, sep b = false) s → split_on sep cur s = [cur ++ s].
Proof.
  revert cur. induction s as [|b s IH]; intros cur H; cbn [split_on]; [by rewrite app_nil_r|]. apply Forall_cons in H as [H1 H2].
  rewrite H1, IH by done. by rewrite <- (assoc_L (++)).
Qed.
Lemma split_on_sep sep cur s b r : Forall (λ b, sep b = false) s → sep b = true → split_on sep cur (s ++ b :: r) = (cur ++ s) :: split_on sep [] r.
Proof.
  revert cur. induction s as [|x s IH]; intros cur H Hb; cbn [app split_on]; [by rewrite Hb, app_nil_r|]. apply Forall_cons in H as [H1 H2].
  rewrite H1, IH by done. by rewrite <- (assoc_L (++)).
Qed.
Lemma split_row r : r ≠ [] → split_on is_tab [] (write_row r) = write_field <$> r.
Proof.
  induction r as [|v r IH]; intros Hr; [done|]. assert (Forall (λ b, is_tab b = false) (write_field v)) as Hv.
  { eapply Forall_impl; [apply write_field_plain|]. intros b (H & _). by apply bool_decide_false. }
  destruct r as [|w r]; [cbn [write_row]|change (write_row (v :: w :: r)) with (write_field v ++ 9%N :: write_row (w :: r))].
  - by rewrite split_on_plain.
  - rewrite split_on_sep by done. rewrite IH by done. reflexivity.
Qed.
Lemma write_row_plain r : Forall (λ b, is_eol b = false) (write_row r).
Proof.
  assert (∀ v, Forall (λ b, is_eol b = false) (write_field v)) as Hv.
  { intros v. eapply Forall_impl; [apply write_field_plain|]. intros b (_ & H1 & H2). unfold is_eol. by rewrite !bool_decide_false. }
  induction r as [|v r IH]; [constructor|]. destruct r as [|w r]; [apply Hv|]. change (write_row (v :: w :: r)) with (write_field v ++ 9%N :: write_row (w :: r)). apply Forall_app. split; [apply Hv|].
  constructor; [reflexivity|exact IH].
Qed.
Lemma write_row_ne r : 2 ≤ length r → write_row r ≠ [].
Proof. destruct r as [|v [|w r]]; cbn; [lia|lia|]. intros _ E. apply app_eq_nil in E as [_ E]. done. Qed.
Lemma records_written rows k : 2 ≤ k → Forall (λ r, length r = k) rows → records (write_table rows) = Some (map (fmap write_field) rows).
Proof.
  intros Hk Hr. unfold records.
  assert (split_on is_tab [] <$> filter (λ l, l ≠ []) (split_on is_eol [] (write_table rows)) = map (fmap write_field) rows) as E.
  { induction rows as [|r rows IH]; [reflexivity|]. apply Forall_cons in Hr as [H1 H2]. unfold write_table. cbn [fmap list_fmap concat].
    rewrite <- (assoc_L (++)). cbn [app]. rewrite split_on_sep; [|apply write_row_plain|reflexivity]. cbn [app].
    rewrite filter_cons_True by (apply write_row_ne; lia). cbn [fmap list_fmap map]. f_equal; [apply split_row; intros ->; cbn in H1; lia|]. apply IH. exact H2. }
  rewrite E. destruct rows as [|r rows]; [reflexivity|]. cbn [map]. apply Forall_cons in Hr as [H1 H2].
  assert (forallb (λ x : list bytes, length x =? length (write_field <$> r)) (map (fmap write_field) rows) = true) as ->; [|reflexivity].
  apply forallb_forall. intros x Hx. apply in_map_iff in Hx as (y & <- & Hy). apply elem_of_list_In in Hy.
  rewrite !fmap_length. rewrite Forall_forall in H2. rewrite (H2 y Hy), H1. apply Nat.eqb_refl.
Qed.
Lemma get_written v : v ≠ Some (str "NULL") → (if decide (write_field v = str "NULL") then None else Some (escape_field (write_field v))) = v.
Proof.
  destruct v as [v|]; cbn [write_field]; intros H.
  - assert (escape_value v ≠ str "NULL") as Hn.
    { intros E. apply H. f_equal. rewrite <- (escape_round v), E. vm_compute. reflexivity. }
    rewrite decide_False by done. by rewrite escape_round.
  - by rewrite decide_True.
Qed.
Lemma read_written r : Forall (λ v, v ≠ Some (str "NULL")) r → read_row (write_field <$> r) = r.
Proof.
  intros H. apply list_eq. intros i. unfold read_row. rewrite !list_lookup_fmap. rewrite fmap_length.
  destruct (r !! i) as [v|] eqn:E.
  - rewrite lookup_seq_lt by (by eapply lookup_lt_Some). cbn. unfold get_field. rewrite list_lookup_fmap, E. cbn. f_equal.
    apply get_written. rewrite Forall_forall in H. apply H. by eapply elem_of_list_lookup_2.
  - apply lookup_ge_None in E. rewrite lookup_seq_ge by lia. reflexivity.
Qed.
