From stdpp Require Import base list gmap fin_maps sorting.
From Coq Require Import NArith Lia.
From Verif Require Import KeySer KeySerSpec KeySerProofs SortedMap DiskMap DiskMapSpec DiskMapProofs Types
  TypesProofs SymbolTable SymTabIface AnnoMem AnnoSpec AnnoMemProofs AnnoMemQueries AnnoDisk AnnoDiskSpec ListExtra.

(** ** Disk maps with byte keys, by the relation they represent *)
Section repr.
Context {V : Type}.
Notation bdm := (diskmap bytes V).
Definition dinv (m : bdm) c := dm_inv (V:=V) (λ _, True) lex_compare (λ b : bytes, b) m c.
Definition repr (m : bdm) (R : bytes → V → Prop) : Prop :=
  ∃ c, dinv m c ∧ ∀ b v, c b = Some v ↔ R b v.
Implicit Types m : bdm.

Lemma repr_ext m R R' : (∀ b v, R b v ↔ R' b v) → repr m R → repr m R'.
Proof. intros E (c & I & Hc). exists c. split; [done|]. intros b v. by rewrite Hc. Qed.
Lemma repr_new n : repr (dm_new n None) (λ _ _, False).
Proof. exists empty_content. split; [apply DiskMapProofs.inv_new|]. done. Qed.
Lemma repr_get m R b v : repr m R → dm_get lex_compare (λ b, b) m b = Some v ↔ R b v.
Proof. intros (c & I & Hc). rewrite (i_get _ _ _ _ _ I) by done. apply Hc. Qed.
Lemma repr_get_none m R b : repr m R → dm_get lex_compare (λ b, b) m b = None ↔ ∀ v, ¬ R b v.
Proof.
  intros HR. split.
  - intros E v Hv. apply (repr_get m R b v HR) in Hv. congruence.
  - intros Hn. destruct (dm_get _ _ m b) as [v|] eqn:E; [|done]. apply (repr_get m R b v HR) in E. by destruct (Hn v).
Qed.
Lemma repr_insert m R b v : repr m R →
  repr (dm_insert lex_compare m b v) (λ b' v', (b' = b ∧ v' = v) ∨ (b' ≠ b ∧ R b' v')).
Proof.
  intros (c & I & Hc). exists (spec_step c (DmInsert b v)). split.
  - by apply (DiskMapProofs.inv_insert _ _ _ _ bytes_key_ok).
  - intros b' v'. simpl. destruct (decide (b' = b)) as [->|Hne].
    + naive_solver.
    + rewrite Hc. naive_solver.
Qed.
Lemma repr_remove m R b : repr m R →
  let r := dm_remove lex_compare (λ b, b) m b in
  repr r.1 (λ b' v', b' ≠ b ∧ R b' v') ∧ r.2 = dm_get lex_compare (λ b, b) m b.
Proof.
  intros (c & I & Hc) r. destruct (DiskMapProofs.inv_remove _ _ _ _ bytes_key_ok m c b Logic.I I) as [I' Hr].
  split.
  - eexists. split; [exact I'|]. intros b' v'. simpl. destruct (decide (b' = b)) as [->|Hne].
    + naive_solver.
    + rewrite Hc. naive_solver.
  - unfold r. unfold dm_remove. destruct (dm_get lex_compare (λ b, b) m b); done.
Qed.
Lemma repr_clear m R : repr m R → repr (dm_clear m) (λ _ _, False).
Proof.
  intros _. exists empty_content. split; [|done]. constructor; simpl; try done; constructor.
Qed.
Lemma repr_reopen m R n : repr m R →
  ∃ t, dm_write_to lex_compare (λ b, b) (λ b, Ok b) m = Some t ∧ repr (dm_new n (Some t)) R.
Proof.
  intros (c & I & Hc). destruct (inv_reopen _ _ _ _ bytes_key_ok m c n I) as (t & E & I').
  exists t. split; [done|]. by exists c.
Qed.
Lemma repr_range m R s e : repr m R → range_panics lex_compare s e = false →
  ∃ l, dm_range lex_compare (λ b, b) (λ b, Ok b) m s e = Some l ∧ al_sorted lex_compare l ∧
    ∀ b v, (b, v) ∈ l ↔ R b v ∧ lower_ok lex_compare s b ∧ upper_ok lex_compare e b.
Proof.
  intros (c & I & Hc) Hp.
  destruct (range_lemma _ _ _ _ bytes_key_ok m c s e I) as (l & E & Hs & Hl); [by destruct s|by destruct e|done|].
  exists l. split_and!; [done..|]. intros b v. by rewrite Hl, Hc.
Qed.
Lemma repr_iter m R : repr m R →
  ∃ l, dm_iter lex_compare (λ b, b) (λ b, Ok b) m = Some l ∧ al_sorted lex_compare l ∧ ∀ b v, (b, v) ∈ l ↔ R b v.
Proof.
  intros (c & I & Hc). destruct (iter_lemma _ _ _ _ bytes_key_ok m c I) as (l & E & Hs & Hl).
  exists l. split_and!; [done..|]. intros b v. by rewrite Hl, Hc.
Qed.
Lemma repr_is_empty m R : repr m R →
  ∃ x, dm_is_empty lex_compare (λ b, b) (λ b, Ok b) m = Some x ∧ (x = true ↔ ∀ b v, ¬ R b v).
Proof.
  intros (c & I & Hc). destruct (is_empty_lemma _ _ _ _ bytes_key_ok m c I) as (x & E & Hx).
  exists x. split; [done|]. rewrite Hx. split.
  - intros Hn b v Hv. apply Hc in Hv. by rewrite Hn in Hv.
  - intros Hn b. destruct (c b) as [v|] eqn:Ec; [|done]. by apply Hc, Hn in Ec.
Qed.

(** No tombstones on disk *)
Definition c1_clean m : Prop := ∀ c1 b, dm_c1 m = Some c1 → al_get lex_compare c1 b ≠ Some None.
Lemma repr_contains m R b : repr m R → c1_clean m →
  dm_contains_key lex_compare (λ b, b) m b = true ↔ ∃ v, R b v.
Proof.
  intros HR Hn. pose proof HR as (c & I & Hc).
  rewrite (contains_key_lemma _ _ _ m c b I Logic.I); [|intros c1 Hc1; by apply Hn].
  split.
  - intros [v Hv]. exists v. by apply (repr_get m R).
  - intros [v Hv]. exists v. by apply (repr_get m R).
Qed.

(** (A) nothing was ever removed *)
Definition clean m : Prop := ∀ b, no_tomb lex_compare m b.
Lemma clean_c1 m : clean m → c1_clean m.
Proof. intros Hc c1 b E. by apply (Hc b). Qed.
Lemma clean_insert m R b v : repr m R → clean m → clean (dm_insert lex_compare m b v).
Proof.
  intros (c & I & _) Hc b'. eapply (no_tomb_step _ _ _ _ bytes_key_ok m c (DmInsert b v)); [done|done|done|apply Hc|done].
Qed.
Lemma clean_new n t : clean (dm_new n t).
Proof. split; done. Qed.

(** (B) everything is still in memory; [L] contains all keys ever inserted *)
Definition young (L : list bytes) m : Prop :=
  dm_c1 m = None ∧ (∀ b x, al_get lex_compare (dm_c0 m) b = Some x → b ∈ L).
Lemma young_c1 L m : young L m → c1_clean m.
Proof. intros [E _] c1 b. congruence. Qed.
Lemma young_len L (l : list (bytes * option V)) : al_sorted lex_compare l →
  (∀ b x, al_get lex_compare l b = Some x → b ∈ L) → length l ≤ length L.
Proof.
  intros Hs Hl. rewrite <- (fmap_length fst l). apply submseteq_length.
  apply NoDup_submseteq; [by apply (al_sorted_NoDup lex_compare)|].
  intros b ([b' x] & -> & Hin)%elem_of_list_fmap. apply (Hl _ x). apply al_get_iff; [apply _|done..].
Qed.
Lemma young_c0 L m R b x : repr m R → young L m → length (b :: L) < dm_max m →
  young (b :: L) (dm_evict lex_compare (DM (dm_max m) (al_insert lex_compare (dm_c0 m) b x) (dm_c1 m) (dm_c2 m))).
Proof.
  intros (c & I & _) [E Hl] Hn.
  assert (∀ b' x', al_get lex_compare (al_insert lex_compare (dm_c0 m) b x) b' = Some x' → b' ∈ b :: L) as Hl'.
  { intros b' x'. rewrite al_get_insert by apply _. destruct (lex_compare b' b) eqn:Ec.
    - apply (cmp_eq lex_compare) in Ec as ->. intros _. by left.
    - intros Hg. right. by eapply Hl.
    - intros Hg. right. by eapply Hl. }
  unfold dm_evict. simpl. rewrite decide_False; [by split|].
  assert (length (al_insert lex_compare (dm_c0 m) b x) ≤ length (b :: L)); [|lia].
  apply young_len; [|done]. apply al_insert_sorted; [apply _|]. apply (i_s0 _ _ _ _ _ I).
Qed.
Lemma young_insert L m R b v : repr m R → young L m → length (b :: L) < dm_max m →
  young (b :: L) (dm_insert lex_compare m b v).
Proof. apply young_c0. Qed.
Lemma young_weaken L L' m : (∀ b, b ∈ L → b ∈ L') → young L m → young L' m.
Proof. intros HL [E Hl]. split; [done|]. intros b x Hb. by eapply HL, Hl. Qed.
Lemma young_remove L m R b : repr m R → young L m → (∀ v, R b v → b ∈ L) → length L < dm_max m →
  young L (dm_remove lex_compare (λ b, b) m b).1.
Proof.
  intros HR HL Hb Hn. unfold dm_remove. destruct (dm_get lex_compare (λ b, b) m b) as [v|] eqn:Eg; [|done].
  simpl. apply (repr_get m R b v HR) in Eg. apply Hb in Eg.
  pose proof HR as (c & I & _). destruct HL as [E Hl].
  assert (∀ b' x', al_get lex_compare (al_insert lex_compare (dm_c0 m) b None) b' = Some x' → b' ∈ L) as Hl'.
  { intros b' x'. rewrite al_get_insert by apply _. destruct (lex_compare b' b) eqn:Ec.
    - apply (cmp_eq lex_compare) in Ec as ->. done.
    - intros Hg. by eapply Hl.
    - intros Hg. by eapply Hl. }
  unfold dm_evict. simpl. rewrite decide_False; [by split|].
  assert (length (al_insert lex_compare (dm_c0 m) b None) ≤ length L); [|lia].
  apply young_len; [|done]. apply al_insert_sorted; [apply _|]. apply (i_s0 _ _ _ _ _ I).
Qed.
Lemma young_new L n t : young L (dm_new n t).
Proof. split; done. Qed.
Lemma young_clear L m : young L (dm_clear m).
Proof. split; done. Qed.
Lemma dm_insert_max m b v : dm_max (dm_insert lex_compare m b v) = dm_max m.
Proof. unfold dm_insert, dm_evict. by case_decide. Qed.
Lemma dm_remove_max m b : dm_max (dm_remove lex_compare (λ b, b) m b).1 = dm_max m.
Proof. unfold dm_remove. destruct (dm_get _ _ m b); [|done]. simpl. unfold dm_evict. by case_decide. Qed.
End repr.

(** ** Key encodings *)
Section keys.
Context {T : Type} `{Countable T} (P : T → Prop) (tcmp : T → T → comparison) (w : nat)
  (ser : T → bytes) (parse : bytes → res T).
Context (IO : item_ok P tcmp w ser parse).

Lemma ser_item_inj i j : P i → P j → ser i = ser j → i = j.
Proof.
  intros Hi Hj E. pose proof (key_parse _ _ _ _ (it_key _ _ _ _ _ IO)) as Hp.
  pose proof (Hp i Hi) as E1. rewrite E, (Hp j Hj) in E1. congruence.
Qed.

Definition sym_fits (k : nat) : Prop := (N.of_nat k < usize_max)%N.
Lemma sym_fits8 k : sym_fits k → fits 8 (N.of_nat k).
Proof. unfold sym_fits, fits, usize_max. simpl. lia. Qed.
Lemma be8_inj a b : sym_fits a → sym_fits b → be_bytes 8 (N.of_nat a) = be_bytes 8 (N.of_nat b) → a = b.
Proof.
  intros Ha%sym_fits8 Hb%sym_fits8 E. apply (f_equal from_be) in E.
  rewrite !from_be_be in E by done. lia.
Qed.
Lemma container_key_inj i j a b : P i → P j → sym_fits a → sym_fits b →
  container_key ser i a = container_key ser j b → i = j ∧ a = b.
Proof.
  intros Hi Hj Ha Hb E. unfold container_key in E.
  apply app_inj_1 in E as [E1 E2]; [|by rewrite !(it_len _ _ _ _ _ IO)].
  split; [by apply ser_item_inj|by apply be8_inj].
Qed.
Lemma qname_key_inj i j a b v x : P i → P j → sym_fits a → sym_fits b →
  qname_key (ser i) a v = qname_key (ser j) b x → i = j ∧ a = b ∧ v = x.
Proof.
  intros Hi Hj Ha Hb E. unfold qname_key in E.
  apply app_inj_1 in E as [E1 E2]; [|by rewrite !be_bytes_length].
  change ([0%N] ++ ser i) with ([0%N] ++ ser i) in E2. rewrite !(assoc_L (++)) in E2.
  apply app_inj_2 in E2 as [E2 E3]; [|by rewrite !(it_len _ _ _ _ _ IO)].
  apply app_inj_2 in E2 as [E2 _]; [|done].
  split_and!; [by apply ser_item_inj|by apply be8_inj|done].
Qed.
End keys.

(** ** Invariant *)
Section inv.
Context {T : Type} `{Countable T} (P : T → Prop) (tcmp : T → T → comparison) `{!CmpOrder tcmp} (w : nat)
  (ser : T → bytes) (parse : bytes → res T).
Context (IO : item_ok P tcmp w ser parse).
Implicit Types (M : gmap (T * anno_key) bytes) (s : ad T) (symbols : symtab anno_key).

Definition RC symbols M (b : bytes) (v : bytes) : Prop :=
  ∃ i ak k, M !! (i, ak) = Some v ∧ st_get_value symbols k = Some ak ∧ b = container_key ser i k.
Definition RQ symbols M (b : bytes) (x : bool) : Prop :=
  x = true ∧ ∃ i ak k v, M !! (i, ak) = Some v ∧ st_get_value symbols k = Some ak ∧ b = qname_key (ser i) k v.

Definition sizes_ok (sizes : list (anno_key * nat)) M : Prop :=
  al_sorted anno_key_compare sizes ∧
  ∀ ak, al_get anno_key_compare sizes ak = if decide (count_key M ak = 0) then None else Some (count_key M ak).

Record dinvar s M : Prop := {
  a_sym : st_ok (d_symbols s);
  a_len : (N.of_nat (length (by_id (d_symbols s))) <= usize_max)%N;
  a_P : ∀ i ak v, M !! (i, ak) = Some v → P i ∧ value_ok v;
  a_has : ∀ i ak, is_Some (M !! (i, ak)) → ∃ k, st_get_value (d_symbols s) k = Some ak;
  a_c : repr (d_container s) (RC (d_symbols s) M);
  a_q : repr (d_qname s) (RQ (d_symbols s) M);
  a_sizes : sizes_ok (d_sizes s) M;
  a_largest : ∀ i ak, is_Some (M !! (i, ak)) → ∃ x, d_largest s = Some x ∧ tcmp i x ≠ Gt
}.

Lemma st_value_fits symbols k ak : (N.of_nat (length (by_id symbols)) <= usize_max)%N →
  st_get_value symbols k = Some ak → sym_fits k.
Proof.
  unfold st_get_value, sym_fits. destruct (decide _) as [Hk|]; [|done]. intros Hl _. lia.
Qed.
Lemma a_fits s M k ak : dinvar s M → st_get_value (d_symbols s) k = Some ak → sym_fits k.
Proof. intros I. apply st_value_fits. apply I. Qed.

Lemma st_insert_max symbols ak : (N.of_nat (length (by_id symbols)) <= usize_max)%N →
  (N.of_nat (length (by_id (st_insert symbols ak).1)) <= usize_max)%N.
Proof.
  intros Hl. unfold st_insert. destruct (by_value symbols !! ak); [done|].
  destruct (empty_slots symbols); simpl; [|by rewrite insert_length].
  destruct (_ <? _)%N eqn:E; simpl; [|done]. apply N.ltb_lt in E. rewrite app_length. simpl. lia.
Qed.

Lemma RC_at symbols M i ak k v : st_ok symbols → (N.of_nat (length (by_id symbols)) <= usize_max)%N →
  (∀ i ak v, M !! (i, ak) = Some v → P i ∧ value_ok v) → P i → st_get_value symbols k = Some ak →
  RC symbols M (container_key ser i k) v ↔ M !! (i, ak) = Some v.
Proof.
  intros Hok Hl HP Hi Hk. split.
  - intros (j & bk & k' & HM & Hk' & E).
    destruct (HP _ _ _ HM) as [Hj _].
    destruct (container_key_inj P tcmp w ser parse IO i j k k') as [-> ->]; [done..| | |done|]; try (by eapply st_value_fits).
    assert (bk = ak) as -> by congruence. done.
  - intros HM. by exists i, ak, k.
Qed.

Lemma a_RC s M i ak k v : dinvar s M → P i → st_get_value (d_symbols s) k = Some ak →
  RC (d_symbols s) M (container_key ser i k) v ↔ M !! (i, ak) = Some v.
Proof. intros I. apply RC_at; apply I. Qed.

(** Symbols of keys that are not used do not matter. *)
Lemma RC_symbols symbols symbols' M :
  (∀ i ak k, is_Some (M !! (i, ak)) → st_get_value symbols k = Some ak ↔ st_get_value symbols' k = Some ak) →
  ∀ b v, RC symbols M b v ↔ RC symbols' M b v.
Proof.
  intros Hs b v. split; intros (i & ak & k & HM & Hk & E); exists i, ak, k; (split_and!; [done| |done]);
    by apply (Hs i ak k); [eauto|].
Qed.
Lemma RQ_symbols symbols symbols' M :
  (∀ i ak k, is_Some (M !! (i, ak)) → st_get_value symbols k = Some ak ↔ st_get_value symbols' k = Some ak) →
  ∀ b v, RQ symbols M b v ↔ RQ symbols' M b v.
Proof.
  intros Hs b x. split; intros (Hx & i & ak & k & v & HM & Hk & E); (split; [done|]); exists i, ak, k, v; (split_and!; [done| |done]);
    by apply (Hs i ak k); [eauto|].
Qed.
Lemma dinvar_symbols s M symbols' : dinvar s M → st_ok symbols' →
  (N.of_nat (length (by_id symbols')) <= usize_max)%N →
  (∀ i ak k, is_Some (M !! (i, ak)) → st_get_value (d_symbols s) k = Some ak ↔ st_get_value symbols' k = Some ak) →
  dinvar (AD (d_container s) (d_qname s) symbols' (d_sizes s) (d_largest s)) M.
Proof.
  intros [I1 I2 I3 I4 I5 I6 I7 I8] Hok Hl Hs. constructor; simpl; try done.
  - intros i ak HM. destruct (I4 i ak HM) as [k Hk]. exists k. by apply (Hs i ak k).
  - eapply repr_ext; [|exact I5]. by apply RC_symbols.
  - eapply repr_ext; [|exact I6]. by apply RQ_symbols.
Qed.

Lemma dinvar_new n : dinvar (ad_new n) ∅.
Proof.
  constructor; simpl.
  - apply st_ok_new.
  - unfold usize_max. lia.
  - intros i ak v. by rewrite lookup_empty.
  - intros i ak [v Hv]. by rewrite lookup_empty in Hv.
  - eapply repr_ext; [|apply repr_new]. intros b v. split; [done|]. intros (? & ? & ? & HM & _). by rewrite lookup_empty in HM.
  - eapply repr_ext; [|apply repr_new]. intros b v. split; [done|]. intros (_ & ? & ? & ? & ? & HM & _). by rewrite lookup_empty in HM.
  - split; [constructor|]. intros ak. rewrite count_empty. done.
  - intros i ak [v Hv]. by rewrite lookup_empty in Hv.
Qed.

Lemma dinvar_clear s M : dinvar s M → dinvar (ad_clear s) ∅.
Proof.
  intros I. constructor; simpl; try apply I.
  - intros i ak v. by rewrite lookup_empty.
  - intros i ak [v Hv]. by rewrite lookup_empty in Hv.
  - eapply repr_ext; [|eapply repr_clear, I]. intros b v. split; [done|]. intros (? & ? & ? & HM & _). by rewrite lookup_empty in HM.
  - eapply repr_ext; [|eapply repr_clear, I]. intros b v. split; [done|]. intros (_ & ? & ? & ? & ? & HM & _). by rewrite lookup_empty in HM.
  - split; [constructor|]. intros ak. rewrite count_empty. done.
  - intros i ak [v Hv]. by rewrite lookup_empty in Hv.
Qed.

Lemma dinvar_reload s M : dinvar s M →
  ∃ s', ad_reload s = Some s' ∧ dinvar s' M ∧
    dm_c0 (d_container s') = [] ∧ dm_c1 (d_container s') = None ∧ dm_max (d_container s') = dm_max (d_container s) ∧
    length (by_id (d_symbols s')) = length (by_id (d_symbols s)) ∧
    ∀ k, st_get_value (d_symbols s') k = st_get_value (d_symbols s) k.
Proof.
  intros I. unfold ad_reload.
  destruct (repr_reopen _ _ (dm_max (d_container s)) (a_c _ _ I)) as (t1 & -> & R1).
  destruct (repr_reopen _ _ (dm_max (d_qname s)) (a_q _ _ I)) as (t2 & -> & R2).
  destruct (st_ok_reload _ (a_sym _ _ I)) as [Hok Hv].
  eexists. split; [done|]. split; [|done]. constructor; simpl; [done|apply I|apply I| | | |apply I|apply I].
  - intros i ak HM. destruct (a_has _ _ I i ak HM) as [k Hk]. exists k. by rewrite Hv.
  - eapply repr_ext; [|exact R1]. apply RC_symbols. intros. by rewrite Hv.
  - eapply repr_ext; [|exact R2]. apply RQ_symbols. intros. by rewrite Hv.
Qed.

(** ** insert *)
Lemma insert_symbols s M ak symbols' k : dinvar s M → st_insert (d_symbols s) ak = (symbols', Some k) →
  st_get_value symbols' k = Some ak ∧
  dinvar (AD (d_container s) (d_qname s) symbols' (d_sizes s) (d_largest s)) M.
Proof.
  intros I E. destruct (st_ok_insert _ _ _ _ (a_sym _ _ I) E) as [Hok [Hk Hv]]. split; [done|].
  apply dinvar_symbols; [done|done| |].
  - pose proof (st_insert_max (d_symbols s) ak (a_len _ _ I)) as Hl. by rewrite E in Hl.
  - intros i ak' k' HM. rewrite Hv. split; [auto|]. intros [?|[-> ->]]; [done|].
    destruct (a_has _ _ I i ak HM) as [k0 Hk0].
    assert (st_get_value symbols' k0 = Some ak) as Hk0' by (apply Hv; auto).
    by rewrite (st_ok_inj symbols' ak k k0 Hok Hk Hk0').
Qed.

Lemma existed_iff s M i ak k : dinvar s M → c1_clean (d_container s) → P i →
  st_get_value (d_symbols s) k = Some ak →
  (match d_largest s with None => true | Some l => match tcmp i l with Gt => false | _ => true end end &&
   dm_contains_key lex_compare (λ b : bytes, b) (d_container s) (container_key ser i k)) = true ↔ is_Some (M !! (i, ak)).
Proof.
  intros I Hc Hi Hk. rewrite andb_true_iff.
  rewrite (repr_contains _ _ _ (a_c _ _ I) Hc). split.
  - intros [_ [v Hv]]. apply (a_RC s M i ak k v I Hi Hk) in Hv. by exists v.
  - intros [v HM]. split.
    + destruct (a_largest _ _ I i ak) as (x & -> & Hx); [by eexists|]. by destruct (tcmp i x).
    + exists v. by apply (a_RC s M i ak k v I Hi Hk).
Qed.

Lemma dinvar_insert s M i ak av s' b : dinvar s M → c1_clean (d_container s) → P i → value_ok av →
  (∀ v0, M !! (i, ak) = Some v0 → v0 = av) →
  ad_insert tcmp ser s i ak av = (s', b) →
  dinvar s' (if b then <[(i, ak) := av]> M else M).
Proof.
  intros I Hc Hi Hav Hno E. unfold ad_insert in E.
  destruct (st_insert (d_symbols s) ak) as [symbols' [k|]] eqn:Es.
  2:{ injection E as <- <-. destruct (st_ok_insert _ _ _ _ (a_sym _ _ I) Es) as [_ ->]. by destruct s. }
  destruct (insert_symbols s M ak symbols' k I Es) as [Hk I1].
  pose proof (existed_iff _ M i ak k I1 Hc Hi Hk) as Hex. simpl in Hex.
  set (e := (_ && _)) in Hex. fold e in E. clearbody e.
  assert (∀ i' ak' v', <[(i, ak):=av]> M !! (i', ak') = Some v' → P i' ∧ value_ok v') as HP'.
  { intros i' ak' v'. rewrite lookup_insert_Some. intros [[[= <- <-] <-]|[_ HM]]; [done|by eapply I]. }
  assert (∀ i' ak', is_Some (<[(i, ak):=av]> M !! (i', ak')) → ∃ k, st_get_value symbols' k = Some ak') as Hhas'.
  { intros i' ak' [v' Hv']. apply lookup_insert_Some in Hv' as [[[= <- <-] <-]|[_ HM]]; [eauto|].
    apply (a_has _ _ I1 i' ak'). by eexists. }
  assert (repr (dm_insert lex_compare (d_container s) (container_key ser i k) av)
    (RC symbols' (<[(i, ak):=av]> M))) as Hrc.
  { eapply repr_ext; [|apply repr_insert, (a_c _ _ I1)]. simpl. intros b' v'. split.
    - intros [[-> ->]|[Hne (i' & ak' & k' & HM & Hk' & ->)]].
      + exists i, ak, k. by rewrite lookup_insert.
      + exists i', ak', k'. split_and!; [|done..]. rewrite lookup_insert_ne; [done|]. intros [= <- <-]. apply Hne.
        by rewrite (st_ok_inj symbols' ak k k' (a_sym _ _ I1) Hk Hk').
    - intros (i' & ak' & k' & HM & Hk' & ->). destruct (decide ((i', ak') = (i, ak))) as [[= -> ->]|Hne].
      + left. rewrite lookup_insert in HM. injection HM as <-.
        by rewrite (st_ok_inj symbols' ak k k' (a_sym _ _ I1) Hk Hk').
      + right. rewrite lookup_insert_ne in HM by congruence. split; [|by exists i', ak', k'].
        intros Ek. destruct (container_key_inj P tcmp w ser parse IO i' i k' k) as [-> ->];
          [by eapply I|done|by eapply (a_fits _ _ _ _ I1)|by eapply (a_fits _ _ _ _ I1)|done|]. congruence. }
  assert (repr (dm_insert lex_compare (d_qname s) (qname_key (ser i) k av) true)
    (RQ symbols' (<[(i, ak):=av]> M))) as Hrq.
  { eapply repr_ext; [|apply repr_insert, (a_q _ _ I1)]. simpl. intros b' x. split.
    - intros [[-> ->]|[Hne (-> & i' & ak' & k' & v' & HM & Hk' & ->)]].
      + split; [done|]. exists i, ak, k, av. by rewrite lookup_insert.
      + split; [done|]. exists i', ak', k', v'. split_and!; [|done..]. rewrite lookup_insert_ne; [done|]. intros [= <- <-]. apply Hne.
        rewrite (Hno _ HM). by rewrite (st_ok_inj symbols' ak k k' (a_sym _ _ I1) Hk Hk').
    - intros (-> & i' & ak' & k' & v' & HM & Hk' & ->). destruct (decide ((i', ak') = (i, ak))) as [[= -> ->]|Hne].
      + left. rewrite lookup_insert in HM. injection HM as <-.
        by rewrite (st_ok_inj symbols' ak k k' (a_sym _ _ I1) Hk Hk').
      + right. rewrite lookup_insert_ne in HM by congruence. split; [|split; [done|by exists i', ak', k', v']].
        intros Ek. destruct (qname_key_inj P tcmp w ser parse IO i' i k' k v' av) as (-> & -> & _);
          [by eapply I|done|by eapply (a_fits _ _ _ _ I1)|by eapply (a_fits _ _ _ _ I1)|done|]. congruence. }
  destruct e; injection E as <- <-.
  - assert (is_Some (M !! (i, ak))) as HM by (by apply Hex). constructor; simpl; try done; try apply I1.
    + destruct (a_sizes _ _ I1) as [Hs1 Hs2]. split; [done|]. intros ak'. rewrite count_insert_old by done. apply Hs2.
    + intros i' ak' [v' Hv']. apply lookup_insert_Some in Hv' as [[[= <- <-] <-]|[_ HM']].
      * by apply (a_largest _ _ I1 i ak).
      * apply (a_largest _ _ I1 i' ak'). by eexists.
  - assert (M !! (i, ak) = None) as HM.
    { destruct (M !! (i, ak)) eqn:EM; [|done]. assert (false = true) by (apply Hex; by eexists). done. }
    constructor; simpl; try done; try apply I1.
    + destruct (a_sizes _ _ I1) as [Hs1 Hs2]. split; [apply al_insert_sorted; [apply _|done]|].
      intros ak'. rewrite al_get_insert by apply _. rewrite count_insert_new by done. simpl in Hs2. rewrite !Hs2.
      destruct (anno_key_compare ak' ak) eqn:Ec.
      * apply (cmp_eq anno_key_compare) in Ec as ->. rewrite (decide_True (P := ak = ak)) by done. simpl.
        destruct (decide (count_key M ak = 0)) as [->|]; simpl; done.
      * rewrite (decide_False (P := ak' = ak)); [done|]. intros ->. by rewrite (cmp_refl anno_key_compare) in Ec.
      * rewrite (decide_False (P := ak' = ak)); [done|]. intros ->. by rewrite (cmp_refl anno_key_compare) in Ec.
    + intros i' ak' [v' Hv']. apply lookup_insert_Some in Hv' as [[[= <- <-] <-]|[_ HM']].
      * by apply (grow_largest_ge tcmp); auto.
      * destruct (a_largest _ _ I1 i' ak') as (x & Ex & Hx); [by eexists|]. simpl in Ex.
        destruct (grow_largest_ge tcmp (d_largest s) i x) as (y & Ey & Hy); [auto|].
        exists y. split; [done|]. by eapply (tcmp_le_trans tcmp).
Qed.

(** ** remove *)
Lemma drop_key_lemma sizes symbols M i ak k : st_ok symbols → sizes_ok sizes M → is_Some (M !! (i, ak)) →
  st_get_value symbols k = Some ak →
  let r := drop_key sizes symbols ak in
  sizes_ok r.1 (delete (i, ak) M) ∧ st_ok r.2 ∧ length (by_id r.2) = length (by_id symbols) ∧
  ∀ i' ak' k', is_Some (delete (i, ak) M !! (i', ak')) →
    st_get_value symbols k' = Some ak' ↔ st_get_value r.2 k' = Some ak'.
Proof.
  intros Hok [Hs1 Hs2] HM Hk r.
  pose proof (λ ak', count_delete M i ak ak' HM) as Hcnt.
  pose proof (Hcnt ak) as Hak. rewrite decide_True in Hak by done.
  unfold r, drop_key. rewrite Hs2. rewrite decide_False by lia.
  assert (count_key M ak - 1 = count_key (delete (i, ak) M) ak) as -> by lia.
  assert (∀ ak', al_get anno_key_compare (al_insert anno_key_compare sizes ak (count_key (delete (i, ak) M) ak)) ak' =
    if decide (ak' = ak) then Some (count_key (delete (i, ak) M) ak)
    else if decide (count_key (delete (i, ak) M) ak' = 0) then None else Some (count_key (delete (i, ak) M) ak')) as Hget.
  { intros ak'. rewrite al_get_insert by apply _. destruct (anno_key_compare ak' ak) eqn:Ec.
    - apply (cmp_eq anno_key_compare) in Ec as ->. by rewrite (decide_True (P := ak = ak)).
    - assert (ak' ≠ ak) by (intros ->; by rewrite (cmp_refl anno_key_compare) in Ec).
      rewrite (decide_False (P := ak' = ak)) by done. rewrite Hs2. specialize (Hcnt ak').
      rewrite (decide_False (P := ak' = ak)) in Hcnt by done. by rewrite Hcnt.
    - assert (ak' ≠ ak) by (intros ->; by rewrite (cmp_refl anno_key_compare) in Ec).
      rewrite (decide_False (P := ak' = ak)) by done. rewrite Hs2. specialize (Hcnt ak').
      rewrite (decide_False (P := ak' = ak)) in Hcnt by done. by rewrite Hcnt. }
  assert (al_sorted anno_key_compare (al_insert anno_key_compare sizes ak (count_key (delete (i, ak) M) ak))) as Hsort
    by (apply al_insert_sorted; [apply _|done]).
  destruct (decide (count_key (delete (i, ak) M) ak = 0)) as [H0|H0]; simpl.
  - assert (st_get_symbol symbols ak = Some k) as -> by (by apply st_ok_sym).
    destruct (st_ok_remove symbols k Hok) as [Hok' Hv]. split_and!; [|done|apply st_remove_len|].
    + split; [by apply al_remove_sorted|]. intros ak'. rewrite al_get_remove; [|apply _|done].
      rewrite Hget. destruct (anno_key_compare ak' ak) eqn:Ec.
      * apply (cmp_eq anno_key_compare) in Ec as ->. by rewrite decide_True.
      * rewrite (decide_False (P := ak' = ak)); [done|]. intros ->. by rewrite (cmp_refl anno_key_compare) in Ec.
      * rewrite (decide_False (P := ak' = ak)); [done|]. intros ->. by rewrite (cmp_refl anno_key_compare) in Ec.
    + intros i' ak' k' HM'. rewrite Hv. destruct (decide (k' = k)) as [->|]; [|done].
      split; [|done]. intros Hk'. assert (ak' = ak) as -> by congruence.
      rewrite (count_zero _ ak i' H0) in HM'. by destruct HM'.
  - split_and!; [|done..]. split; [done|]. intros ak'. rewrite Hget.
    destruct (decide (ak' = ak)) as [->|]; [|done]. by rewrite decide_False.
Qed.

Lemma remove_entry_lemma s M i k ak : dinvar s M → P i → st_get_value (d_symbols s) k = Some ak →
  let r := remove_entry ser s i (container_key ser i k) k ak in
  r.2 = M !! (i, ak) ∧ dinvar r.1 (delete (i, ak) M) ∧
  d_container r.1 = (dm_remove lex_compare (λ b : bytes, b) (d_container s) (container_key ser i k)).1 ∧
  length (by_id (d_symbols r.1)) = length (by_id (d_symbols s)) ∧
  (∀ i' ak' k', is_Some (delete (i, ak) M !! (i', ak')) →
    st_get_value (d_symbols s) k' = Some ak' ↔ st_get_value (d_symbols r.1) k' = Some ak').
Proof.
  intros I Hi Hk r. unfold r, remove_entry.
  destruct (repr_remove _ _ (container_key ser i k) (a_c _ _ I)) as [Rc Er].
  destruct (dm_remove lex_compare (λ b : bytes, b) (d_container s) (container_key ser i k)) as [c' r'] eqn:Ed.
  simpl in Rc, Er.
  assert (r' = M !! (i, ak)) as Hr.
  { rewrite Er. destruct (M !! (i, ak)) as [v|] eqn:HM.
    - apply (repr_get _ _ _ _ (a_c _ _ I)). by apply (a_RC s M i ak k v I Hi Hk).
    - apply (repr_get_none _ _ _ (a_c _ _ I)). intros v Hv. apply (a_RC s M i ak k v I Hi Hk) in Hv. congruence. }
  clear Er. subst r'. destruct (M !! (i, ak)) as [v|] eqn:HM.
  2:{ simpl. split_and!; [done| |done|done|].
      - rewrite delete_notin by done. constructor; simpl; try apply I.
        eapply repr_ext; [|exact Rc]. simpl. intros b v'. split; [tauto|]. intros HR. split; [|done]. intros ->.
        apply (a_RC s M i ak k v' I Hi Hk) in HR. congruence.
      - done. }
  pose proof (drop_key_lemma (d_sizes s) (d_symbols s) M i ak k (a_sym _ _ I) (a_sizes _ _ I)) as Hdk.
  specialize (Hdk ltac:(eauto) Hk). simpl in Hdk.
  destruct (drop_key (d_sizes s) (d_symbols s) ak) as [sizes' symbols'] eqn:Edk. simpl in *.
  destruct Hdk as (Hsz & Hok' & Hlen & Hsym). split_and!; [done| |done|done|done].
  destruct (repr_remove _ _ (qname_key (ser i) k v) (a_q _ _ I)) as [Rq _].
  assert (∀ i' ak' v', delete (i, ak) M !! (i', ak') = Some v' → M !! (i', ak') = Some v' ∧ (i', ak') ≠ (i, ak)) as HM'.
  { intros i' ak' v'. rewrite lookup_delete_Some. intros [? ?]. split; [done|congruence]. }
  constructor; simpl.
  - done.
  - rewrite Hlen. apply I.
  - intros i' ak' v' [? _]%HM'. by eapply I.
  - intros i' ak' HS. pose proof HS as [v' [Hv' _]%HM']. destruct (a_has _ _ I i' ak') as [k' Hk']; [by eexists|].
    exists k'. by apply (Hsym i' ak' k').
  - eapply repr_ext; [|exact Rc]. simpl. intros b v'. etrans; [|by apply (RC_symbols (d_symbols s) symbols')]. split.
    + intros [Hne (i' & ak' & k' & HMi & Hk' & ->)]. exists i', ak', k'. split_and!; [|done..].
      rewrite lookup_delete_ne; [done|]. intros [= <- <-]. apply Hne.
      by rewrite (st_ok_inj _ ak k k' (a_sym _ _ I) Hk Hk').
    + intros (i' & ak' & k' & [HMi Hne]%HM' & Hk' & ->). split; [|by exists i', ak', k'].
      intros Ek. destruct (container_key_inj P tcmp w ser parse IO i' i k' k) as [-> ->];
        [by eapply I|done|by eapply (a_fits _ _ _ _ I)|by eapply (a_fits _ _ _ _ I)|done|]. congruence.
  - eapply repr_ext; [|exact Rq]. simpl. intros b x. etrans; [|by apply (RQ_symbols (d_symbols s) symbols')]. split.
    + intros [Hne (Hx & i' & ak' & k' & v' & HMi & Hk' & ->)]. split; [done|]. exists i', ak', k', v'. split_and!; [|done..].
      rewrite lookup_delete_ne; [done|]. intros [= <- <-]. apply Hne. assert (v' = v) as -> by congruence.
      by rewrite (st_ok_inj _ ak k k' (a_sym _ _ I) Hk Hk').
    + intros (Hx & i' & ak' & k' & v' & [HMi Hne]%HM' & Hk' & ->). split; [|split; [done|by exists i', ak', k', v']].
      intros Ek. destruct (qname_key_inj P tcmp w ser parse IO i' i k' k v' v) as (-> & -> & _);
        [by eapply I|done|by eapply (a_fits _ _ _ _ I)|by eapply (a_fits _ _ _ _ I)|done|]. congruence.
  - done.
  - intros i' ak' [v' [Hv' _]%HM']. apply (a_largest _ _ I i' ak'). by eexists.
Qed.

Lemma remove_annotation_lemma s M i ak : dinvar s M → P i →
  let r := ad_remove_annotation ser s i ak in
  r.2 = M !! (i, ak) ∧ dinvar r.1 (delete (i, ak) M) ∧
  (r.1 = s ∨ ∃ k, st_get_value (d_symbols s) k = Some ak ∧
   d_container r.1 = (dm_remove lex_compare (λ b : bytes, b) (d_container s) (container_key ser i k)).1) ∧
  length (by_id (d_symbols r.1)) = length (by_id (d_symbols s)).
Proof.
  intros I Hi r. unfold r, ad_remove_annotation. destruct (st_get_symbol (d_symbols s) ak) as [k|] eqn:Ek.
  - apply st_ok_sym in Ek; [|apply I]. destruct (remove_entry_lemma s M i k ak I Hi Ek) as (? & ? & ? & ? & _).
    split_and!; eauto.
  - simpl. assert (M !! (i, ak) = None) as HM.
    { destruct (M !! (i, ak)) eqn:HM; [|done]. destruct (a_has _ _ I i ak) as [k Hk]; [by eexists|].
      apply st_ok_sym in Hk; [|apply I]. congruence. }
    split_and!; [done| |auto|done]. by rewrite delete_notin.
Qed.

Lemma parse_symbol_key i k : sym_fits k → parse_symbol (drop w (container_key ser i k)) = Some k.
Proof.
  intros Hk. unfold container_key. rewrite drop_app_alt by (symmetry; apply (it_len _ _ _ _ _ IO)).
  unfold parse_symbol. rewrite <- (app_nil_r (be_bytes 8 _)).
  rewrite (uint_roundtrip 8) by (by apply sym_fits8). f_equal. lia.
Qed.

(** Bounds of the range that contains all entries of an item *)
Lemma lex_app_l a b c : lex_compare (a ++ b) (a ++ c) = lex_compare b c.
Proof. rewrite lex_app_same by done. by rewrite lex_refl. Qed.
Lemma container_range_panics i :
  range_panics lex_compare (Included (container_key ser i 0)) (Included (container_key_max ser i)) = false.
Proof. simpl. unfold container_key, container_key_max. rewrite lex_app_l. done. Qed.
Lemma be8_le_max k : sym_fits k → lex_compare (be_bytes 8 (N.of_nat k)) (be_bytes 8 usize_max) ≠ Gt.
Proof.
  intros Hk. rewrite (uint_order 8); [|by apply sym_fits8|done].
  unfold sym_fits in Hk. rewrite (proj2 (N.compare_lt_iff _ _) Hk). done.
Qed.
Lemma be8_ge_min k : sym_fits k → lex_compare (be_bytes 8 (N.of_nat 0)) (be_bytes 8 (N.of_nat k)) ≠ Gt.
Proof.
  intros Hk. rewrite (uint_order 8); [|done|by apply sym_fits8].
  rewrite N.compare_le_iff. lia.
Qed.
Lemma in_container_range i j k : sym_fits k → P i → P j →
  lower_ok lex_compare (Included (container_key ser i 0)) (container_key ser j k) ∧
  upper_ok lex_compare (Included (container_key_max ser i)) (container_key ser j k) ↔ j = i.
Proof.
  intros Hk Hi Hj. simpl. unfold container_key, container_key_max.
  rewrite !lex_app_same by (by rewrite !(it_len _ _ _ _ _ IO)). split.
  - intros [Hlo Hup]. pose proof (key_order _ _ _ _ (it_key _ _ _ _ _ IO)) as Ho.
    destruct (lex_compare (ser i) (ser j)) eqn:E.
    + apply (cmp_eq lex_compare) in E. symmetry. by eapply (ser_item_inj P).
    + rewrite (cmp_anti lex_compare (ser i) (ser j)), E in Hup. simpl in Hup. done.
    + done.
  - intros ->. rewrite lex_refl. split; [by apply be8_ge_min|by apply be8_le_max].
Qed.

Lemma container_range s M i : dinvar s M → P i →
  ∃ l, dm_range lex_compare (λ b : bytes, b) (λ b : bytes, Ok b) (d_container s)
         (Included (container_key ser i 0)) (Included (container_key_max ser i)) = Some l ∧
    al_sorted lex_compare l ∧
    ∀ b v, (b, v) ∈ l ↔ ∃ ak k, M !! (i, ak) = Some v ∧ st_get_value (d_symbols s) k = Some ak ∧ b = container_key ser i k.
Proof.
  intros I Hi. destruct (repr_range _ _ _ _ (a_c _ _ I) (container_range_panics i)) as (l & E & Hs & Hl).
  exists l. split_and!; [done..|]. intros b v. rewrite Hl. split.
  - intros ((j & ak & k & HM & Hk & ->) & Hb).
    apply in_container_range in Hb as ->; [eauto|by eapply (a_fits _ _ _ _ I)|done|by eapply I].
  - intros (ak & k & HM & Hk & ->). split; [by exists i, ak, k|].
    apply in_container_range; [by eapply (a_fits _ _ _ _ I)|done..].
Qed.

(** remove_item: [A] is any property of the main map that is kept by removing entries of the item *)
Lemma remove_loop_lemma (A : diskmap bytes bytes → Prop) i l : ∀ s M res, dinvar s M → P i → A (d_container s) →
  (∀ m b, b ∈ l.*1 → A m → (∃ R, repr m R) → A (dm_remove lex_compare (λ b : bytes, b) m b).1) →
  al_sorted lex_compare l →
  (∀ b v, (b, v) ∈ l ↔ ∃ ak k, M !! (i, ak) = Some v ∧ st_get_value (d_symbols s) k = Some ak ∧ b = container_key ser i k) →
  ∃ s', remove_loop w ser s i l res = Some (s', match l with [] => res | _ => true end) ∧
    dinvar s' (filter (λ x, x.1.1 ≠ i) M) ∧ A (d_container s') ∧
    length (by_id (d_symbols s')) = length (by_id (d_symbols s)).
Proof.
  induction l as [|[b v] l IH]; intros s M res I Hi HA Hkeep Hs Hl; simpl.
  - exists s. split_and!; [done| |done|done].
    rewrite map_filter_id; [done|]. intros [j ak] v HM. simpl. intros ->.
    destruct (a_has _ _ I i ak) as [k Hk]; [by eexists|].
    assert ((container_key ser i k, v) ∈ ([] : list (bytes * bytes))) as Hin by (apply Hl; eauto).
    by apply elem_of_nil in Hin.
  - destruct (proj1 (Hl b v)) as (ak & k & HM & Hk & ->); [by left|].
    rewrite parse_symbol_key by (by eapply (a_fits _ _ _ _ I)).
    unfold resolve. rewrite Hk. simpl.
    destruct (remove_entry_lemma s M i k ak I Hi Hk) as (Er & I' & Ec & Elen & Esym).
    destruct (remove_entry ser s i (container_key ser i k) k ak) as [s1 r1]. simpl in *. subst r1. rewrite HM.
    apply al_sorted_inv in Hs as [Hs Hf]. simpl in Hf.
    destruct (IH s1 (delete (i, ak) M) true) as (s' & E' & I'' & HA' & El'); [done|done| | |done| |].
    + rewrite Ec. apply Hkeep; [by left|done|]. eexists. apply I.
    + intros m b Hb. apply Hkeep. by right.
    + intros b v'. split.
      * intros Hin. destruct (proj1 (Hl b v')) as (ak' & k' & HM' & Hk' & ->); [by right|].
        assert (ak' ≠ ak) as Hne.
        { intros ->. rewrite Forall_forall in Hf. specialize (Hf _ Hin). simpl in Hf.
          rewrite (st_ok_inj _ ak k k' (a_sym _ _ I) Hk Hk') in Hf. by rewrite lex_refl in Hf. }
        exists ak', k'. rewrite lookup_delete_ne by congruence. split_and!; [done| |done].
        apply (Esym i ak' k'); [|done]. rewrite lookup_delete_ne by congruence. by eexists.
      * intros (ak' & k' & HM' & Hk' & ->). pose proof HM' as Hd. apply lookup_delete_Some in HM' as [Hne HM'].
        assert (st_get_value (d_symbols s) k' = Some ak') as Hk2 by (apply (Esym i ak' k'); [by eexists|done]).
        assert ((container_key ser i k', v') ∈ (container_key ser i k, v) :: l) as Hin by (apply Hl; by exists ak', k').
        apply elem_of_cons in Hin as [[= Ek _]|Hin]; [|done].
        exfalso. apply Hne. f_equal.
        destruct (container_key_inj P tcmp w ser parse IO i i k' k) as [_ ->];
          [done|done|by eapply (a_fits _ _ _ _ I)|by eapply (a_fits _ _ _ _ I)|done|]. congruence.
    + exists s'. split_and!; [|  |done|by rewrite El', Elen].
      * rewrite E'. by destruct l.
      * replace (filter (λ x, x.1.1 ≠ i) M) with (filter (λ x, x.1.1 ≠ i) (delete (i, ak) M)); [done|].
        apply map_eq. intros [j a]. apply option_eq. intros x. rewrite !map_filter_lookup_Some. simpl.
        rewrite lookup_delete_Some. split; [naive_solver|]. intros [? ?]. split; [|done]. split; [|done]. congruence.
Qed.

Lemma remove_item_lemma (A : diskmap bytes bytes → Prop) s M i : dinvar s M → P i → A (d_container s) →
  (∀ m b v, RC (d_symbols s) M b v → A m → (∃ R, repr m R) → A (dm_remove lex_compare (λ b : bytes, b) m b).1) →
  ∃ s' r, ad_remove_item w ser s i = Some (s', r) ∧ (r = true ↔ ∃ k, is_Some (M !! (i, k))) ∧
    dinvar s' (filter (λ x, x.1.1 ≠ i) M) ∧ A (d_container s') ∧
    length (by_id (d_symbols s')) = length (by_id (d_symbols s)).
Proof.
  intros I Hi HA Hkeep. unfold ad_remove_item.
  destruct (container_range s M i I Hi) as (l & -> & Hs & Hl).
  destruct (remove_loop_lemma A i l s M false) as (s' & E & I' & HA' & Hlen); [done..| |done|done|].
  { intros m b ([b' v] & -> & Hin)%elem_of_list_fmap. apply (Hkeep _ _ v).
    apply Hl in Hin as (ak & k & ? & ? & ?). by exists i, ak, k. }
  exists s', (match l with [] => false | _ => true end). split_and!; [done| |done..].
  destruct l as [|[b v] l].
  - split; [done|]. intros [ak [v HM]]. destruct (a_has _ _ I i ak) as [k Hk]; [by eexists|].
    assert ((container_key ser i k, v) ∈ ([] : list (bytes * bytes))) as Hin by (apply Hl; eauto).
    by apply elem_of_nil in Hin.
  - split; [|done]. intros _. destruct (proj1 (Hl b v)) as (ak & k & HM & _); [by left|]. eauto.
Qed.

(** ** Histories *)
Definition young2 (n : nat) (L : list bytes) (m : diskmap bytes bytes) : Prop :=
  dm_max m = n ∧ young L m ∧ ∀ b v, dm_get lex_compare (λ b : bytes, b) m b = Some v → b ∈ L.
(** [f]: no removals happen in this history *)
Definition keep (f : bool) (n : nat) (L : list bytes) (m : diskmap bytes bytes) : Prop :=
  if f then clean m else young2 n L m.

Lemma keep_c1 f n L m : keep f n L m → c1_clean m.
Proof. destruct f; simpl; [apply clean_c1|]. intros (_ & Hy & _). by eapply young_c1. Qed.
Lemma keep_insert f n L m b v : (∃ R, repr m R) → keep f n L m → (f = false → S (length L) < n) →
  keep f n (b :: L) (dm_insert lex_compare m b v).
Proof.
  intros [R HR] Hk Hn. destruct f; simpl in *; [by eapply clean_insert|].
  destruct Hk as (E & Hy & Hg). specialize (Hn eq_refl). split_and!.
  - by rewrite dm_insert_max.
  - eapply young_insert; [done|done|]. simpl. lia.
  - intros b' v' Hb'. apply (repr_get _ _ _ _ (repr_insert _ _ b v HR)) in Hb' as [[-> _]|[_ Hb']]; [by left|].
    right. eapply Hg. by apply (repr_get _ _ _ _ HR).
Qed.
Lemma keep_remove n L m b : (∃ R, repr m R) → young2 n L m → length L < n → 
  young2 n L (dm_remove lex_compare (λ b : bytes, b) m b).1.
Proof.
  intros [R HR] (E & Hy & Hg) Hn. split_and!.
  - by rewrite dm_remove_max.
  - eapply young_remove; [done|done| |lia]. intros v Hv. eapply Hg. by apply (repr_get _ _ _ _ HR).
  - intros b' v' Hb'. apply (repr_get _ _ _ _ (proj1 (repr_remove _ _ b HR))) in Hb' as [_ Hb'].
    eapply Hg. by apply (repr_get _ _ _ _ HR).
Qed.

Lemma as_step_ok M o out : out ≠ AmErr → as_step M o out = as_step M o AmOk.
Proof. intros Hne. destruct o; simpl; try done. by destruct out. Qed.

Lemma step_lemma f n L s M o : dinvar s M → op_ok P o → 
  (∀ i k v, o = AmInsert i k v → ∀ v0, M !! (i, k) = Some v0 → v0 = v) →
  keep f n L (d_container s) → (N.of_nat (length (by_id (d_symbols s))) < usize_max)%N →
  (f = true → is_removal o = false) →
  (f = false → length L + (if is_insert o then 1 else 0) < n) →
  ∃ s' out L', ad_step tcmp w ser s o = Some (s', out) ∧ out ≠ AmErr ∧ as_out M o out ∧
    dinvar s' (as_step M o AmOk) ∧ length (by_id (d_symbols s')) ≤ S (length (by_id (d_symbols s))) ∧
    keep f n L' (d_container s') ∧ length L' ≤ length L + (if is_insert o then 1 else 0).
Proof.
  intros I Ho Hno Hk Hlen Hf Hn. destruct o as [i ak av|i ak|i| |]; simpl in *.
  - destruct Ho as [Hi Hav].
    pose proof (st_insert_some (d_symbols s) ak Hlen) as Hsome. pose proof (st_insert_len (d_symbols s) ak) as Hsl.
    destruct (ad_insert tcmp ser s i ak av) as [s' b] eqn:E.
    assert (b = true ∧ (∃ k, d_container s' = dm_insert lex_compare (d_container s) (container_key ser i k) av) ∧
      d_symbols s' = (st_insert (d_symbols s) ak).1) as (-> & [k Ec] & Es).
    { unfold ad_insert in E. destruct (st_insert (d_symbols s) ak) as [symbols' [k|]]; simpl in *; [|by destruct Hsome].
      destruct (_ && _); injection E as <- <-; simpl; split_and!; eauto. }
    exists s', AmOk, (container_key ser i k :: L). split_and!; [done|done|auto| | | |simpl; lia].
    + apply (dinvar_insert s M i ak av s' true); [done|by eapply keep_c1|done|done|by eapply Hno|done].
    + by rewrite Es.
    + rewrite Ec. apply keep_insert; [eexists; apply I|done|]. intros ->. specialize (Hn eq_refl). lia.
  - destruct (remove_annotation_lemma s M i ak I Ho) as (Er & I' & Hc & Hl).
    destruct (ad_remove_annotation ser s i ak) as [s' r]. simpl in *. subst r.
    destruct f; [by specialize (Hf eq_refl)|]. specialize (Hn eq_refl).
    exists s', (AmVal (M !! (i, ak))), L. split_and!; [done|done|done|done|lia| |lia].
    destruct Hc as [->|(k & _ & ->)]; [done|]. apply keep_remove; [eexists; apply I|done|lia].
  - destruct f; [by specialize (Hf eq_refl)|]. specialize (Hn eq_refl).
    destruct (remove_item_lemma (young2 n L) s M i I Ho Hk) as (s' & r & -> & Hr & I' & HA & Hl).
    { intros m b v _ Hm HR. apply keep_remove; [done|done|lia]. }
    exists s', (AmBool r), L. split_and!; [done|done|eauto|done|lia|done|lia].
  - exists (ad_clear s), AmOk, L. split_and!; [done|done|done|by eapply dinvar_clear|simpl; lia| |lia].
    simpl. destruct f; simpl in *; [split; done|]. destruct Hk as (E & _ & _). split_and!; [done|apply young_clear|done].
  - destruct (dinvar_reload s M I) as (s' & -> & I' & E0 & E1 & Em & El & Ev).
    exists s', AmOk, L. split_and!; [done|done|done|done|lia| |lia].
    destruct f; simpl in *.
    + intros b. split; rewrite ?E0, ?E1; done.
    + destruct Hk as (E & [_ _] & Hg). split_and!; [congruence| |].
      * split; [done|]. by rewrite E0.
      * intros b v Hb. apply (repr_get _ _ _ _ (a_c _ _ I')) in Hb. simpl in Hb.
        eapply Hg. apply (repr_get _ _ _ _ (a_c _ _ I)).
        destruct Hb as (i & ak & k & HM & Hk & ->). exists i, ak, k. split_and!; [done| |done].
        by rewrite <- Ev.
Qed.

Lemma run_lemma f n ops : ∀ L s M, dinvar s M → Forall (op_ok P) ops → no_overwrite M ops →
  keep f n L (d_container s) →
  (N.of_nat (length (by_id (d_symbols s)) + length ops) <= usize_max)%N →
  (f = true → Forall (λ o, is_removal o = false) ops) →
  (f = false → length L + length (filter (λ o, is_insert o = true) ops) < n) →
  ∃ s' outs, ad_run tcmp w ser s ops = Some (s', outs) ∧ AmErr ∉ outs ∧ as_outs_ok M ops outs ∧
    dinvar s' (fold_left (λ M o, as_step M o AmOk) ops M) ∧ c1_clean (d_container s').
Proof.
  induction ops as [|o ops IH]; intros L s M I Ho Hno Hk Hlen Hf Hn; simpl.
  - exists s, []. split_and!; [done|apply not_elem_of_nil|done|done|by eapply keep_c1].
  - apply Forall_cons in Ho as [Ho1 Ho]. destruct Hno as [Hno1 Hno]. simpl in Hlen.
    destruct (step_lemma f n L s M o) as (s1 & out & L1 & -> & Hne & Hout & I1 & Hlen1 & Hk1 & HL1).
    { done. } { done. } { intros i k v ->. done. } { done. } { lia. }
    { intros Hft. by apply Hf, Forall_cons in Hft as [? _]. }
    { intros Hff. specialize (Hn Hff). rewrite filter_cons in Hn. destruct (is_insert o); simpl in *; lia. }
    destruct (IH L1 s1 (as_step M o AmOk)) as (s2 & outs & -> & Hnn & Hos & I2 & Hc); try done.
    { lia. }
    { intros Hft. by apply Hf, Forall_cons in Hft as [_ ?]. }
    { intros Hff. specialize (Hn Hff). rewrite filter_cons in Hn. destruct (is_insert o); simpl in *; lia. }
    exists s2, (out :: outs). split_and!; [done| | | |done|done].
    + apply not_elem_of_cons. done.
    + done.
    + by rewrite (as_step_ok M o out).
Qed.

Lemma run_new n ops : Forall (op_ok P) ops → no_overwrite ∅ ops → tidy_history n ops →
  (N.of_nat (length ops) <= usize_max)%N →
  ∃ s outs, ad_run tcmp w ser (ad_new n) ops = Some (s, outs) ∧ AmErr ∉ outs ∧ as_outs_ok ∅ ops outs ∧
    dinvar s (as_content ops) ∧ c1_clean (d_container s).
Proof.
  intros Ho Hno Ht Hlen. destruct Ht as [Ht|Ht].
  - apply (run_lemma true n ops []); [apply dinvar_new|done|done|apply clean_new|exact Hlen|done|done].
  - apply (run_lemma false n ops []); [apply dinvar_new|done|done| |exact Hlen|done|done].
    split_and!; [done|apply young_new|done].
Qed.
End inv.
