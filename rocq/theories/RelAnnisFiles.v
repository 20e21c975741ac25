(** The tables survive writing and reading. *)
From Coq Require Import NArith String Lia.
From stdpp Require Import base list gmap pretty.
From Verif Require Import KeySer KeySerSpec Types CompPath RelAnnis RelAnnisSpec RelAnnisFields RelAnnisFilesSpec.

(** ** Numbers *)
Lemma digits_app limit s1 : ∀ acc s2, parse_digits limit acc (s1 ++ s2) = match parse_digits limit acc s1 with Some a => parse_digits limit a s2 | None => None end.
Proof. induction s1 as [|b s IH]; intros acc s2; [done|]. cbn [app parse_digits]. destruct (_ && _); [|done]. cbv zeta. destruct (_ <=? _)%N; [apply IH|done]. Qed.
Lemma str_char c s : str (String.String c s) = N.of_nat (Ascii.nat_of_ascii c) :: str s.
Proof. done. Qed.
Lemma pretty_digit d : (d < 10)%N → N.of_nat (Ascii.nat_of_ascii (pretty_N_char d)) = (48 + d)%N.
Proof. intros H. assert (d ∈ [0;1;2;3;4;5;6;7;8;9]%N) as Hd by (rewrite !elem_of_cons; lia). repeat (apply elem_of_cons in Hd as [-> |Hd]; [vm_compute; reflexivity|]). by apply elem_of_nil in Hd. Qed.
Lemma pretty_go_digits limit : ∀ x s, (x <= limit)%N → parse_digits limit 0 (str (pretty_N_go x s)) = parse_digits limit x (str s).
Proof.
  induction x as [x IH] using (well_founded_induction N.lt_wf_0). intros s Hx. destruct (decide (0 < x)%N) as [H|H].
  - rewrite pretty_N_go_step by done. rewrite IH.
    + rewrite str_char. cbn [parse_digits]. pose proof (N.mod_upper_bound x 10 ltac:(done)). rewrite pretty_digit by done. rewrite (proj2 (N.leb_le 48 _)), (proj2 (N.leb_le (48 + _) 57)) by (generalize dependent (x `mod` 10)%N; intros; lia). cbn [andb]. cbv zeta.
      assert (x `div` 10 * 10 + (48 + x `mod` 10 - 48) = x)%N as ->. { pose proof (N.div_mod x 10 ltac:(done)) as E. clear IH. generalize dependent (x `mod` 10)%N. generalize dependent (x `div` 10)%N. intros; lia. } by rewrite (proj2 (N.leb_le _ _)).
    + apply N.div_lt; lia.
    + etransitivity; [|exact Hx]. apply N.div_le_upper_bound; lia.
  - assert (x = 0%N) as -> by lia. by rewrite pretty_N_go_0.
Qed.
Lemma pretty_head (n : N) : ∃ b l, str (pretty n) = b :: l ∧ (48 <= b <= 57)%N.
Proof.
  assert (∀ x s, (0 < x)%N → ∃ b l, str (pretty_N_go x s) = b :: l ∧ (48 <= b <= 57)%N) as H.
  { induction x as [x IH] using (well_founded_induction N.lt_wf_0). intros s Hx. rewrite pretty_N_go_step by done. destruct (decide (0 < x `div` 10)%N) as [H|H].
    - apply IH; [apply N.div_lt; lia|done].
    - assert (x `div` 10 = 0)%N as -> by (clear IH; generalize dependent (x `div` 10)%N; intros; lia). rewrite pretty_N_go_0, str_char. pose proof (N.mod_upper_bound x 10 ltac:(done)). eexists _, _. split; [done|]. rewrite pretty_digit by done. clear IH. generalize dependent (x `mod` 10)%N. intros; lia. }
  unfold pretty, pretty_N. destruct (decide (n = 0%N)) as [-> |Hn]; [exists 48%N, []; split; [vm_compute; reflexivity|lia]|]. apply H. lia.
Qed.
Lemma parse_number limit n : (n <= limit)%N → parse_num limit (str (pretty n)) = Some n.
Proof.
  intros H. unfold parse_num. destruct (pretty_head n) as (b & l & E & Hb). assert (parse_digits limit 0 (str (pretty n)) = Some n) as Hp.
  { unfold pretty, pretty_N. destruct (decide (n = 0%N)) as [-> |Hn]; [by destruct limit|]. by rewrite pretty_go_digits. }
  rewrite E in *. rewrite bool_decide_false by lia. exact Hp.
Qed.
Lemma number_ok (n : N) : number n ≠ Some (str "NULL").
Proof. unfold number. intros H. destruct (pretty_head n) as (b & l & E & Hb). rewrite E in H. injection H as H _. vm_compute in H. subst. lia. Qed.
(** ** Fields *)
Lemma field_written r i v : Forall (λ v, v ≠ Some (str "NULL")) r → r !! i = Some v → get_field (write_field <$> r) i = Some v.
Proof.
  intros Hn H. unfold get_field. rewrite list_lookup_fmap, H. cbn [fmap option_fmap option_map]. f_equal. apply get_written. rewrite Forall_forall in Hn. apply Hn. eapply elem_of_list_lookup_2. exact H.
Qed.
Lemma not_null_written r i v : Forall (λ v, v ≠ Some (str "NULL")) r → r !! i = Some (Some v) → get_field_not_null (write_field <$> r) i = Some v.
Proof. intros Hn H. unfold get_field_not_null. by rewrite (field_written r i (Some v)). Qed.
Lemma num_written limit r i n : Forall (λ v, v ≠ Some (str "NULL")) r → r !! i = Some (number n) → (n <= limit)%N → get_field_not_null (write_field <$> r) i ≫= parse_num limit = Some n.
Proof. intros Hn H Hl. rewrite (not_null_written r i _ Hn H). cbn [mbind option_bind]. by apply parse_number. Qed.
Lemma table_written {A B} (f : list bytes → option B) (g : A → list (option bytes)) (h : A → B) (l : list A) k : 2 ≤ k → (∀ x, x ∈ l → length (g x) = k) →
  (∀ x, x ∈ l → f (write_field <$> g x) = Some (h x)) → parse_table f (write_table (g <$> l)) = Some (h <$> l).
Proof.
  intros Hk Hl Hf. unfold parse_table. rewrite (records_written _ k Hk).
  - cbn [mbind option_bind]. induction l as [|x l IH]; [done|]. cbn [fmap list_fmap map mapM]. rewrite Hf by left. cbn [mbind option_bind]. change (map (fmap write_field) (list_fmap _ _ g l)) with (map (fmap write_field) (g <$> l)).
    rewrite IH; [done| |]; intros y Hy; [apply Hl|apply Hf]; by right.
  - apply Forall_forall. intros y Hy. apply elem_of_list_fmap in Hy as (x & -> & Hx). by apply Hl.
Qed.
Ltac field := first [eapply num_written; [eassumption|reflexivity|assumption] | eapply not_null_written; [eassumption|reflexivity] | eapply field_written; [eassumption|reflexivity]].
Ltac rd := match goal with
  | |- context [get_u32 (write_field <$> ?r) ?i] => let E := fresh in assert (get_u32 (write_field <$> r) i = Some _) as E by (unfold get_u32; field); rewrite E; clear E; cbn [mbind option_bind]
  | |- context [get_u64 (write_field <$> ?r) ?i] => let E := fresh in assert (get_u64 (write_field <$> r) i = Some _) as E by (unfold get_u64; field); rewrite E; clear E; cbn [mbind option_bind]
  | |- context [get_field_not_null (write_field <$> ?r) ?i ≫= parse_num ?l] => let E := fresh in assert (get_field_not_null (write_field <$> r) i ≫= parse_num l = Some _) as E by field; rewrite E; clear E; cbn [mbind option_bind]
  | |- context [get_field_not_null (write_field <$> ?r) ?i] => let E := fresh in assert (get_field_not_null (write_field <$> r) i = Some _) as E by field; rewrite E; clear E; cbn [mbind option_bind]
  | |- context [get_field (write_field <$> ?r) ?i] => let E := fresh in assert (get_field (write_field <$> r) i = Some _) as E by field; rewrite E; clear E; cbn [mbind option_bind]
  end.
Lemma crow_written r : no_null (crow_fields r) → (cr_id r <= u32_max)%N → (cr_pre r <= u32_max)%N → (cr_post r <= u32_max)%N → parse_crow (write_field <$> crow_fields r) = Some r.
Proof. intros H H1 H2 H3. unfold parse_crow. repeat rd. destruct r as [i n [] p q]; [by rewrite bool_decide_true|]. rewrite bool_decide_false; [done|]. vm_compute. discriminate. Qed.
Lemma trow_written v33 r : no_null (trow_fields v33 r) → (tr_id r <= u32_max)%N → (if v33 then ∃ c, tr_corpus r = Some c ∧ (c <= u32_max)%N else tr_corpus r = None) →
  parse_trow v33 (write_field <$> trow_fields v33 r) = Some r.
Proof.
  intros H H1 H2. unfold parse_trow. destruct v33; destruct r as [i c n v]; cbn [tr_corpus tr_id] in *.
  - destruct H2 as (c' & -> & Hc). repeat rd. done.
  - subst c. repeat rd. done.
Qed.
Lemma arow_written limit r : no_null (arow_fields r) → (ar_id r <= limit)%N → parse_arow limit (write_field <$> arow_fields r) = Some r.
Proof. intros H H1. unfold parse_arow. repeat rd. by destruct r. Qed.
Lemma erow_written r : no_null (erow_fields r) → (er_pre r <= u32_max)%N → parse_erow (write_field <$> erow_fields r) = Some r.
Proof. intros H H1. unfold parse_erow. repeat rd. by destruct r. Qed.
Lemma comp_written c : no_null (comp_fields c) → (c.1 <= u32_max)%N → c.2.1.1 ∈ [Coverage; Dominance; Pointing; Ordering] → parse_comp (write_field <$> comp_fields c) = Some (Some c).
Proof.
  intros H H1 H2. unfold parse_comp. repeat rd. destruct c as [i [[ty l] n]]. cbn [fst snd] in *.
  repeat (apply elem_of_cons in H2 as [-> |H2]; [vm_compute; reflexivity|]). by apply elem_of_nil in H2.
Qed.
Lemma rrow_written v33 r : (rr_pre r <= u32_max)%N → (rr_node r <= u64_max)%N → (rr_comp r <= u32_max)%N → (∀ p, rr_parent r = Some p → (p <= u32_max)%N) →
  parse_rrow v33 (write_field <$> rrow_fields v33 r) = Some r.
Proof.
  intros H1 H2 H3 H4. assert (Forall (λ v, v ≠ Some (str "NULL")) (rrow_fields v33 r)) as Hn.
  { unfold rrow_fields. destruct v33; destruct (rr_parent r); cbn [app]; repeat constructor; first [apply number_ok | discriminate]. }
  destruct r as [pre node c [p|]]; cbn [rr_pre rr_node rr_comp rr_parent] in *; unfold parse_rrow; destruct v33; repeat rd; cbn [rr_pre rr_node rr_comp rr_parent number]; try (unfold number; cbn [mbind option_bind]; rewrite (parse_number u32_max p) by (by apply H4)); try reflexivity.
Qed.
Lemma nrow_written v33 r : no_null (nrow_fields v33 r) → (nr_id r <= u64_max)%N → (nr_text r <= u32_max)%N → (nr_corpus r <= u32_max)%N →
    (nr_left_char r <= u32_max)%N → (nr_right_char r <= u32_max)%N → (nr_left r <= u32_max)%N → (nr_right r <= u32_max)%N →
    (match nr_kind r with KTok i _ | KSeg _ i _ => (i <= u32_max)%N | KPlain => True end) →
    (v33 = false → nr_left r = nr_left_char r ∧ nr_right r = nr_right_char r ∧ ∀ s i x, nr_kind r ≠ KSeg s i (Some x)) →
  parse_nrow v33 (write_field <$> nrow_fields v33 r) = Some r.
Proof.
  intros Hn H1 H2 H3 H4 H5 H6 H7 H8 H9. assert (parse_kind v33 (write_field <$> nrow_fields v33 r) = Some (nr_kind r)) as Hk.
  { unfold parse_kind. assert ((v33 || Nat.ltb 10 (length (write_field <$> nrow_fields v33 r))) = true) as ->. { rewrite fmap_length. by destruct v33. }
    destruct r as [i x c l n lc rc le ri k]. cbn [nr_kind] in *. destruct k as [ix s|s ix sp|].
    - assert (get_field (write_field <$> nrow_fields v33 (NRow i x c l n lc rc le ri (KTok ix s))) 7 = Some (number ix)) as -> by (destruct v33; field). unfold number.
      assert (get_field_not_null (write_field <$> nrow_fields v33 (NRow i x c l n lc rc le ri (KTok ix s))) 12 = Some s) as -> by (destruct v33; field). cbn [mbind option_bind]. by rewrite parse_number.
    - assert (get_field (write_field <$> nrow_fields v33 (NRow i x c l n lc rc le ri (KSeg s ix sp))) 7 = Some None) as -> by (destruct v33; field).
      destruct v33; repeat rd; [done|]. destruct sp as [x'|]; [|done]. destruct (H9 eq_refl) as (_ & _ & H). by destruct (H s ix x').
    - assert (get_field (write_field <$> nrow_fields v33 (NRow i x c l n lc rc le ri KPlain)) 7 = Some None) as -> by (destruct v33; field). destruct v33; repeat rd; done. }
  unfold parse_nrow. destruct v33; repeat rd; rewrite Hk; cbn [mbind option_bind]; [by destruct r|]. destruct (H9 eq_refl) as (E1 & E2 & _). destruct r. cbn in E1, E2 |- *. by subst.
Qed.
Lemma files_written v33 T : writable v33 T → parse_files v33 (write_files v33 T) = Some T.
Proof.
  intros [W1 W2 W3 W4 W5 W6 W7 W8]. rewrite List.Forall_forall in W1; rewrite List.Forall_forall in W2; rewrite List.Forall_forall in W3; rewrite List.Forall_forall in W4; rewrite List.Forall_forall in W5; rewrite List.Forall_forall in W6; rewrite List.Forall_forall in W7; rewrite List.Forall_forall in W8. unfold parse_files, write_files. cbn [f_corpus f_text f_cannos f_nodes f_nannos f_comps f_ranks f_eannos].
  rewrite (table_written parse_crow crow_fields id _ 7); [|lia|done|]. 2:{ intros x Hx%elem_of_list_In. destruct (W1 x Hx) as (? & ? & ? & ?). by apply crow_written. }
  cbn [mbind option_bind]. rewrite (table_written (parse_trow v33) (trow_fields v33) id _ (if v33 then 4 else 3)); [|destruct v33; lia|by destruct v33|]. 2:{ intros x Hx%elem_of_list_In. destruct (W2 x Hx) as (? & ? & ?). by apply trow_written. }
  cbn [mbind option_bind]. rewrite (table_written (parse_arow u32_max) arow_fields id _ 4); [|lia|done|]. 2:{ intros x Hx%elem_of_list_In. destruct (W3 x Hx) as (? & ?). by apply arow_written. }
  cbn [mbind option_bind]. rewrite (table_written (parse_nrow v33) (nrow_fields v33) id _ 13); [|lia|by destruct v33|]. 2:{ intros x Hx%elem_of_list_In. destruct (W4 x Hx) as (? & ? & ? & ? & ? & ? & ? & ? & ? & ?). by apply nrow_written. }
  cbn [mbind option_bind]. rewrite (table_written (parse_arow u64_max) arow_fields id _ 4); [|lia|done|]. 2:{ intros x Hx%elem_of_list_In. destruct (W5 x Hx) as (? & ?). by apply arow_written. }
  cbn [mbind option_bind]. rewrite (table_written parse_comp comp_fields Some _ 4); [|lia|done|]. 2:{ intros x Hx%elem_of_list_In. destruct (W6 x Hx) as (? & ? & ?). by apply comp_written. }
  cbn [mbind option_bind]. rewrite (table_written (parse_rrow v33) (rrow_fields v33) id _ (if v33 then 7 else 6)); [|destruct v33; lia|by destruct v33|]. 2:{ intros x Hx%elem_of_list_In. destruct (W7 x Hx) as (? & ? & ? & ?). by apply rrow_written. }
  cbn [mbind option_bind]. rewrite (table_written parse_erow erow_fields id _ 4); [|lia|done|]. 2:{ intros x Hx%elem_of_list_In. destruct (W8 x Hx) as (? & ?). by apply erow_written. }
  cbn [mbind option_bind]. rewrite !list_fmap_id. assert (omap id (Some <$> t_comps T) = t_comps T) as ->. { clear. induction (t_comps T) as [|c l IH]; [done|]. exact (f_equal (cons c) IH). } by destruct T.
Qed.
