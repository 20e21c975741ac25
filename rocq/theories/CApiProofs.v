(** Proofs for the C interface. *)
From stdpp Require Import base list.
From Coq Require Import NArith ZArith Lia ZifyBool.
From Verif Require Import KeySer Types Bincode GraphUpdate GraphUpdateSpec GraphUpdateProofs GraphUpdateProps QName Frequency CApi CApiSpec.
Ltac Zify.zify_post_hook ::= Z.to_euclidean_division_equations.

(** *** UTF-8 *)
Ltac boolhyps := unfold second3, second4, cont, between in *.
Lemma lossy_encode c r : scalar c → lossy (encode c ++ r) = encode c ++ lossy r.
Proof.
  intros Hc. unfold scalar in Hc. unfold encode.
  destruct (N.ltb_spec c 128); [cbn [app lossy]; by rewrite (proj2 (N.ltb_lt _ _)) by lia|].
  destruct (N.ltb_spec c 2048).
  { cbn [app lossy]. rewrite (proj2 (N.ltb_ge _ _)) by lia.
    assert (between 194 223 (192 + c / 64)%N = true) as -> by (boolhyps; lia). assert (cont (128 + c mod 64)%N = true) as -> by (boolhyps; lia). done. }
  destruct (N.ltb_spec c 65536).
  { cbn [app lossy]. rewrite (proj2 (N.ltb_ge _ _)) by lia.
    assert (between 194 223 (224 + c / 4096)%N = false) as -> by (boolhyps; lia). assert (between 224 239 (224 + c / 4096)%N = true) as -> by (boolhyps; lia).
    assert (second3 (224 + c / 4096)%N (128 + (c / 64) mod 64)%N = true) as -> by (boolhyps; lia).
    assert (cont (128 + c mod 64)%N = true) as -> by (boolhyps; lia). done. }
  cbn [app lossy]. rewrite (proj2 (N.ltb_ge _ _)) by lia.
  assert (between 194 223 (240 + c / 262144)%N = false) as -> by (boolhyps; lia). assert (between 224 239 (240 + c / 262144)%N = false) as -> by (boolhyps; lia).
  assert (between 240 244 (240 + c / 262144)%N = true) as -> by (boolhyps; lia).
  assert (second4 (240 + c / 262144)%N (128 + (c / 4096) mod 64)%N = true) as -> by (boolhyps; lia).
  assert (cont (128 + (c / 64) mod 64)%N = true) as -> by (boolhyps; lia). assert (cont (128 + c mod 64)%N = true) as -> by (boolhyps; lia). done.
Qed.
Lemma lossy_utf8 s : utf8 s → lossy s = s.
Proof. intros (cs & Hc & ->). induction Hc as [|c cs Hc _ IH]; [done|]. cbn [fmap list_fmap concat]. by rewrite lossy_encode, IH. Qed.
Lemma utf8_nil : utf8 [].
Proof. by exists []. Qed.
Lemma utf8_cons c s : scalar c → utf8 s → utf8 (encode c ++ s).
Proof. intros Hc (cs & Hs & ->). exists (c :: cs). by split; [constructor|]. Qed.
Lemma utf8_replacement s : utf8 s → utf8 (replacement ++ s).
Proof. intros H. apply (utf8_cons 65533 s); [unfold scalar; lia|done]. Qed.
Lemma encode1 b : (b < 128)%N → encode b = [b].
Proof. intros H. unfold encode. by rewrite (proj2 (N.ltb_lt _ _)) by lia. Qed.
Lemma encode2 b c : between 194 223 b = true → cont c = true → ∃ x, scalar x ∧ encode x = [b; c].
Proof.
  intros Hb Hc. exists ((b - 192) * 64 + (c - 128))%N. boolhyps. split; [unfold scalar; lia|]. unfold encode.
  rewrite (proj2 (N.ltb_ge _ _)) by lia. rewrite (proj2 (N.ltb_lt _ _)) by lia. f_equal; [lia|]. f_equal. lia.
Qed.
Lemma encode3 b c d : between 224 239 b = true → second3 b c = true → cont d = true → ∃ x, scalar x ∧ encode x = [b; c; d].
Proof.
  intros Hb Hc Hd. assert (128 ≤ c ∧ c ≤ 191 ∧ (b = 224 → 160 ≤ c) ∧ (b = 237 → c ≤ 159))%N as (H1 & H2 & H3 & H4) by (boolhyps; lia).
  assert (224 ≤ b ∧ b ≤ 239 ∧ 128 ≤ d ∧ d ≤ 191)%N as (H5 & H6 & H7 & H8) by (boolhyps; lia). clear Hb Hc Hd.
  exists ((b - 224) * 4096 + (c - 128) * 64 + (d - 128))%N. split; [unfold scalar; lia|]. unfold encode.
  rewrite !(proj2 (N.ltb_ge _ _)) by lia. rewrite (proj2 (N.ltb_lt _ _)) by lia. f_equal; [lia|]. f_equal; [lia|]. f_equal. lia.
Qed.
Lemma encode4 b c d e : between 240 244 b = true → second4 b c = true → cont d = true → cont e = true → ∃ x, scalar x ∧ encode x = [b; c; d; e].
Proof.
  intros Hb Hc Hd He. assert (128 ≤ c ∧ c ≤ 191 ∧ (b = 240 → 144 ≤ c) ∧ (b = 244 → c ≤ 143))%N as (H1 & H2 & H3 & H4) by (boolhyps; lia).
  assert (240 ≤ b ∧ b ≤ 244 ∧ 128 ≤ d ∧ d ≤ 191 ∧ 128 ≤ e ∧ e ≤ 191)%N as (H5 & H6 & H7 & H8 & H9 & H10) by (boolhyps; lia). clear Hb Hc Hd He.
  exists ((b - 240) * 262144 + (c - 128) * 4096 + (d - 128) * 64 + (e - 128))%N. split; [unfold scalar; lia|]. unfold encode.
  rewrite !(proj2 (N.ltb_ge _ _)) by lia. f_equal; [lia|]. f_equal; [lia|]. f_equal; [lia|]. f_equal. lia.
Qed.
Lemma utf8_lossy l : utf8 (lossy l).
Proof.
  induction l as [l IH] using (well_founded_induction (well_founded_ltof _ length)). unfold ltof in IH.
  destruct l as [|b r]; [exact utf8_nil|]. assert (utf8 replacement) as HR by apply (utf8_replacement []), utf8_nil.
  cbn [length] in IH. cbn [lossy]. destruct (N.ltb_spec b 128).
  { replace (b :: lossy r) with (encode b ++ lossy r) by (by rewrite encode1). apply utf8_cons; [unfold scalar; lia|]. apply IH. lia. }
  destruct (between 194 223 b) eqn:B2.
  { destruct r as [|c r1]; [done|]. destruct (cont c) eqn:C; [|apply utf8_replacement, IH; lia].
    destruct (encode2 b c B2 C) as (x & Hx & E). change (utf8 ([b; c] ++ lossy r1)). rewrite <- E. apply utf8_cons; [done|]. apply IH. cbn. lia. }
  destruct (between 224 239 b) eqn:B3.
  { destruct r as [|c r1]; [done|]. destruct (second3 b c) eqn:C; [|apply utf8_replacement, IH; lia].
    destruct r1 as [|d r2]; [done|]. destruct (cont d) eqn:D; [|apply utf8_replacement, IH; cbn; lia].
    destruct (encode3 b c d B3 C D) as (x & Hx & E). change (utf8 ([b; c; d] ++ lossy r2)). rewrite <- E. apply utf8_cons; [done|]. apply IH. cbn. lia. }
  destruct (between 240 244 b) eqn:B4; [|apply utf8_replacement, IH; lia].
  destruct r as [|c r1]; [done|]. destruct (second4 b c) eqn:C; [|apply utf8_replacement, IH; lia].
  destruct r1 as [|d r2]; [done|]. destruct (cont d) eqn:D; [|apply utf8_replacement, IH; cbn; lia].
  destruct r2 as [|e r3]; [done|]. destruct (cont e) eqn:E'; [|apply utf8_replacement, IH; cbn; lia].
  destruct (encode4 b c d e B4 C D E') as (x & Hx & E). change (utf8 ([b; c; d; e] ++ lossy r3)). rewrite <- E. apply utf8_cons; [done|]. apply IH. cbn. lia.
Qed.
Lemma lossy_no_nul l : 0%N ∉ l → 0%N ∉ lossy l.
Proof.
  assert (0%N ∉ replacement) as HR by (apply (bool_decide_unpack _); vm_compute; exact I).
  induction l as [l IH] using (well_founded_induction (well_founded_ltof _ length)). unfold ltof in IH. intros Hl.
  assert (∀ k, suffix k l → length k < length l → 0%N ∉ lossy k) as H.
  { intros k (p & ->) Hk. apply IH; [done|]. intros Hi. apply Hl, elem_of_app. by right. }
  destruct l as [|b r]; [cbn; apply not_elem_of_nil|]. cbn [lossy].
  repeat match goal with
  | |- context [if ?x then _ else _] => destruct x
  | |- context [match ?l with [] => _ | _ :: _ => _ end] => is_var l; destruct l
  end; try exact HR; rewrite ?not_elem_of_app; try (split; [exact HR|]);
  rewrite ?not_elem_of_cons in *; repeat match goal with H : _ ∧ _ |- _ => destruct H end; repeat (split; [done|]);
  (apply H; [|cbn; lia]); first [by exists [b] | by eexists [_; _] | by eexists [_; _; _] | by eexists [_; _; _; _]].
Qed.

(** *** C strings *)
Lemma c_bytes_app s rest : 0%N ∉ s → c_bytes (s ++ 0%N :: rest) = s.
Proof.
  induction s as [|b s IH]; intros Hs; [done|]. apply not_elem_of_cons in Hs as [Hb Hs]. cbn [app c_bytes].
  destruct (N.eqb_spec b 0) as [->|_]; [by destruct Hb|]. by rewrite IH.
Qed.
Lemma c_bytes_no_nul m : 0%N ∉ c_bytes m.
Proof.
  induction m as [|b m IH]; cbn [c_bytes]; [apply not_elem_of_nil|]. destruct (N.eqb_spec b 0); [apply not_elem_of_nil|].
  apply not_elem_of_cons. split; [congruence|done].
Qed.
Lemma cstr_text p : text (cstr p).
Proof.
  destruct p as [m|]; cbn [cstr]; [|split; [exact utf8_nil|apply not_elem_of_nil]]. split; [apply utf8_lossy|]. apply lossy_no_nul, c_bytes_no_nul.
Qed.
Lemma cstr_holds p s : holds p s → utf8 s → cstr p = s.
Proof. intros [[-> ->]|[H0 (rest & ->)]] Hu; [done|]. cbn [cstr]. rewrite c_bytes_app by done. by apply lossy_utf8. Qed.
Lemma existsb_nul s : existsb (N.eqb 0) s = true ↔ 0%N ∈ s.
Proof.
  rewrite existsb_exists. split; [intros (x & Hx & Ex)|intros H; exists 0%N; split; [by apply elem_of_list_In|done]].
  apply N.eqb_eq in Ex as <-. by apply elem_of_list_In.
Qed.
Lemma cstring_new_ok s : 0%N ∉ s → cstring_new s = Some s.
Proof. intros H. unfold cstring_new. destruct (existsb _ s) eqn:E; [|done]. by apply existsb_nul in E. Qed.
Lemma cstring_new_nul s : 0%N ∈ s → cstring_new s = None.
Proof. intros H. unfold cstring_new. by rewrite (proj2 (existsb_nul s) H). Qed.
Lemma cstring_ok s : 0%N ∉ s → cstring s = s.
Proof. intros H. unfold cstring. by rewrite cstring_new_ok. Qed.
Lemma as_ptr_points s : 0%N ∉ s → points (as_ptr s) s.
Proof. intros H. split; [done|]. by exists []. Qed.
Lemma string_out_points s : 0%N ∉ s → points (string_out s) s.
Proof. intros H. unfold string_out. rewrite cstring_ok by done. by apply as_ptr_points. Qed.
Lemma string_round_trip s : text s → cstr (string_out s) = s.
Proof. intros [Hu H0]. apply cstr_holds; [right; by apply string_out_points|done]. Qed.

(** *** Vectors *)
Lemma vec_get_lookup {T} (v : list T) i : vec_get v i = v !! i.
Proof. unfold vec_get. destruct (Nat.ltb_spec i (length v)); [done|]. symmetry. by apply lookup_ge_None_2. Qed.
Lemma vec_str_shows v : (∀ s, s ∈ v → 0%N ∉ s) → shows (vec_size v) (vec_str_get v) v.
Proof.
  intros H. split; [done|]. intros i. unfold vec_str_get. destruct (v !! i) as [s|] eqn:E.
  - rewrite (proj2 (Nat.ltb_lt _ _)) by (by eapply lookup_lt_Some). apply as_ptr_points, H. by eapply elem_of_list_lookup_2.
  - by destruct (i <? length v).
Qed.
Lemma matrix_shows m n : (∀ r, r ∈ m → length r = n ∧ ∀ s, s ∈ r → 0%N ∉ s) → shows_rows (matrix_nrows m) (matrix_ncols m) (matrix_get m) m.
Proof.
  intros H. split; [done|]. intros i. unfold matrix_get. destruct (m !! i) as [r|] eqn:E; [|done]. destruct (H r) as [Hl Hr]; [by eapply elem_of_list_lookup_2|].
  split.
  - destruct m as [|r0 m']; [done|]. cbn [matrix_ncols]. destruct (H r0) as [H0 _]; [left|]. congruence.
  - intros j. destruct (r !! j) as [s|] eqn:Ej; [|done]. apply as_ptr_points, Hr. by eapply elem_of_list_lookup_2.
Qed.
Lemma freqtable_shows (t : freq_table) n : (∀ r, r ∈ t → length r.1 = n ∧ ∀ s, s ∈ r.1 → 0%N ∉ s) →
  shows_rows (freqtable_nrows t) (freqtable_ncols t) (freqtable_get t) t.*1.
Proof.
  intros H. split; [by rewrite fmap_length|]. intros i. unfold freqtable_get, freq_table in *. rewrite list_lookup_fmap. destruct (t !! i) as [r|] eqn:E; cbn; [|done].
  destruct (H r) as [Hl Hr]; [by eapply elem_of_list_lookup_2|]. split.
  - destruct t as [|r0 m']; [done|]. cbn [freqtable_ncols]. destruct (H r0) as [H0 _]; [left|]. congruence.
  - intros j. destruct (r.1 !! j) as [s|] eqn:Ej; [|done]. apply as_ptr_points, Hr. by eapply elem_of_list_lookup_2.
Qed.
Lemma filled_from v ptrs names : Forall2 holds ptrs names → Forall text names → fold_left vec_str_push ptrs v = v ++ names.
Proof.
  intros H. revert v. induction H as [|p s ptrs names Hp _ IH]; intros v Ht; [by rewrite app_nil_r|]. apply Forall_cons in Ht as [[Hu H0] Ht].
  cbn [fold_left]. rewrite IH by done. unfold vec_str_push. rewrite (cstr_holds p s) by done. rewrite cstring_new_ok by done. by rewrite <- app_assoc.
Qed.
Lemma filled_ok ptrs names : Forall2 holds ptrs names → Forall text names → filled ptrs = names.
Proof. apply (filled_from []). Qed.
Lemma corpus_names_ok names : Forall text names → corpus_names names = names.
Proof. induction 1 as [|s names [Hu _] _ IH]; [done|]. unfold corpus_names in *. cbn [fmap list_fmap]. by rewrite IH, lossy_utf8. Qed.

(** *** Errors *)
Lemma causes_lookup cs i : cause_iterator cs !! i = (λ m, (cstring m, cstring cause)) <$> cs !! i.
Proof. revert i. induction cs as [|m cs IH]; intros [|i]; try done. apply IH. Qed.
Lemma causes_length cs : length (cause_iterator cs) = length cs.
Proof. induction cs as [|m cs IH]; [done|]. cbn. by rewrite IH. Qed.
Lemma error_reports e : no_nul e → reports (create_error_list e) e.
Proof.
  intros (Hm & Hk & Hc). split.
  - split; [unfold vec_size; cbn; by rewrite causes_length|]. intros i. unfold error_get_msg. rewrite vec_get_lookup. destruct i as [|i].
    + cbn. rewrite cstring_ok by done. by apply as_ptr_points.
    + cbn [create_error_list lookup list_lookup]. change (match re_causes e !! i with Some s => points (match cause_iterator (re_causes e) !! i with Some e0 => as_ptr e0.1 | None => None end) s | None => match cause_iterator (re_causes e) !! i with Some e0 => as_ptr e0.1 | None => None end = None end).
      rewrite causes_lookup. destruct (re_causes e !! i) as [m|] eqn:E; [|done]. cbn.
      assert (0%N ∉ m) as H by (apply Hc; by eapply elem_of_list_lookup_2). rewrite cstring_ok by done. by apply as_ptr_points.
  - unfold error_get_kind. rewrite vec_get_lookup. cbn. rewrite cstring_ok by done. by apply as_ptr_points.
Qed.
Lemma outcome_ok {T U} (r : rres T) (call : err_ptr → U * err_ptr) f failed (good : T → U → Prop) :
  (∀ p, call p = let '(v, p') := map_cerr r p in (f v, p')) → f None = failed → (∀ v, r = ROk v → good v (f (Some v))) → outcome r call failed good.
Proof.
  intros H Hf Hg. unfold outcome. rewrite H. destruct r as [v|e]; cbn [map_cerr].
  - exists (f (Some v)). split; [done|]. by apply Hg.
  - exists (create_error_list e). rewrite Hf. split_and!; [done|done|apply error_reports].
Qed.

(** *** Iterators *)
Lemma drain_results {T} (it : list (rres T)) vs q : drains it (Some None) vs q →
  (it = ROk <$> vs ∧ q = Some None) ∨ ∃ e rest l, it = (ROk <$> vs) ++ RFail e :: rest ∧ q = Some (Some l) ∧ l ≠ [] ∧ (no_nul e → reports l e).
Proof.
  remember (Some None) as p eqn:Hp. intros H. induction H as [it p it' p' H|it p it' p' v vs q H Hd IH]; subst p.
  - destruct it as [|[v|e] r]; cbn in H; [injection H as <- <-; by left|done|]. injection H as <- <-. right.
    exists e, r, (create_error_list e). split_and!; [done|done|done|apply error_reports].
  - destruct it as [|[w|e] r]; cbn in H; [done| |done]. injection H as <- -> <-. destruct (IH eq_refl) as [[-> ->]|(e & rest & l & -> & -> & Hl & Hr)]; [by left|].
    right. by exists e, rest, l.
Qed.
Lemma drain_exists {T} (it : list (rres T)) p : ∃ vs q, drains it p vs q.
Proof.
  induction it as [|[v|e] r IH].
  - exists [], p. by eapply drain_end.
  - destruct IH as (vs & q & IH). exists (v :: vs), q. by eapply drain_item.
  - eexists [], _. by eapply drain_end.
Qed.

(** *** Updates *)
Lemma call_event_means c e : call_means c e → Forall utf8 (event_strings e) → call_event c = e.
Proof.
  intros H Hu. destruct H; cbn [event_strings] in Hu; repeat (apply Forall_cons in Hu as [? Hu]); cbn [call_event];
  repeat (erewrite cstr_holds by eassumption); reflexivity.
Qed.
Lemma updates_run cs g log p : linv g log → Forall event_ok (call_event <$> cs) → (N.of_nat (length log + length cs) < 2 ^ 64)%N →
  ∃ g', c_updates g cs p = (g', p) ∧ linv g' (log ++ (call_event <$> cs)).
Proof.
  revert g log. induction cs as [|c cs IH]; intros g log I Hok Hn; [exists g; by rewrite app_nil_r|].
  cbn [fmap list_fmap length] in *. apply Forall_cons in Hok as [He Hok]. destruct (linv_add g log (call_event c) I He ltac:(lia)) as (g1 & E1 & I1).
  cbn [c_updates]. unfold c_update. rewrite E1. cbn [map_cerr snd]. destruct (IH g1 _ I1 Hok) as (g' & E' & I'); [rewrite app_length; cbn; lia|].
  exists g'. split; [exact E'|]. by rewrite <- app_assoc in I'.
Qed.

(** *** Edges *)
Definition ok_of {T} (x : rres T) : option T := match x with ROk v => Some v | RFail _ => None end.
Lemma edges_results source ts p : (c_edges source ts p).1 = (λ t, (source, t)) <$> omap ok_of ts.
Proof.
  revert p. induction ts as [|[t|e] ts IH]; intros p; [done| |]; cbn [c_edges map_cerr].
  - specialize (IH p). destruct (c_edges source ts p). cbn in *. by rewrite IH.
  - specialize (IH (match p with Some _ => Some (Some (create_error_list e)) | None => None end)). destruct (c_edges source ts _). cbn in *. done.
Qed.
Lemma edges_errors source ts x : (c_edges source ts (Some x)).2 = Some (match last (omap (λ t : rres N, match t with ROk _ => None | RFail e => Some e end) ts) with
  Some e => Some (create_error_list e) | None => x end).
Proof.
  revert x. induction ts as [|[t|e] ts IH]; intros x; [done| |]; cbn [c_edges map_cerr omap list_omap].
  - specialize (IH x). destruct (c_edges source ts (Some x)). cbn [snd] in *. exact IH.
  - specialize (IH (Some (create_error_list e))). destruct (c_edges source ts _). cbn [snd] in *. rewrite IH.
    destruct (omap _ ts) as [|e' k]; [done|]. change (last (e :: e' :: k)) with (last (e' :: k)). destruct (last (e' :: k)) eqn:El; [done|]. by apply last_None in El.
Qed.

(** *** Frequency definitions *)
Lemma split_comma_cons s : ∃ x l, split_comma s = x :: l.
Proof. destruct s as [|b r]; cbn; [by eexists _, _|]. destruct (b =? 44)%N; [by eexists _, _|]. destruct (split_comma r); by eexists _, _. Qed.
Lemma split_comma_app d s : 44%N ∉ d → split_comma (d ++ 44%N :: s) = d :: split_comma s.
Proof.
  induction d as [|b d IH]; intros H; [done|]. apply not_elem_of_cons in H as [Hb H]. cbn [app split_comma]. rewrite IH by done.
  destruct (N.eqb_spec b 44) as [->|_]; [by destruct Hb|done].
Qed.
Lemma split_comma_end d : 44%N ∉ d → split_comma d = [d].
Proof.
  induction d as [|b d IH]; intros H; [done|]. apply not_elem_of_cons in H as [Hb H]. cbn [split_comma]. rewrite IH by done.
  destruct (N.eqb_spec b 44) as [->|_]; [by destruct Hb|done].
Qed.
Lemma split_join ds : ds ≠ [] → Forall (λ d, 44%N ∉ d) ds → split_comma (join_comma ds) = ds.
Proof.
  induction ds as [|d ds IH]; intros Hn H; [done|]. apply Forall_cons in H as [Hd H]. destruct ds as [|d' ds]; [by apply split_comma_end|].
  cbn [join_comma]. change (match ds with [] => d' | _ :: _ => d' ++ 44%N :: join_comma ds end) with (join_comma (d' :: ds)).
  rewrite split_comma_app by done. by rewrite IH.
Qed.
Lemma table_def_ok ds defs : ds ≠ [] → Forall (λ d, 44%N ∉ d) ds → Forall2 (λ d f, freq_def_from_str d = Some f) ds defs → table_def (join_comma ds) = defs.
Proof.
  intros Hn Hc H. unfold table_def. rewrite split_join by done. clear Hn Hc. induction H as [|d f ds defs Hd _ IH]; [done|]. cbn. rewrite Hd. by rewrite IH.
Qed.
