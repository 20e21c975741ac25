(** Proofs about the round trip through GraphML. *)
From Coq Require Import NArith Ascii String.
From stdpp Require Import base list gmap pretty sorting.
From Verif Require Import GraphSpec KeySer KeySerSpec SortedMap Types SymbolTable AnnoMem AnnoSpec AnnoMemProofs AnnoMemQueries Adjacency AdjacencySpec AdjacencyProofs
  QName QNameProofs CompPath CompPathProofs GraphUpdate GraphApply GraphApplySpec GraphApplyProofs GraphApplyHistory ListExtra GraphML GraphMLSpec.

(** ** XML *)
Lemma escape_plain s : xml_plain s → escape s = s.
Proof.
  induction 1 as [|b s Hb _ IH]; [done|]. unfold escape in *. cbn [mbind list_bind]. rewrite IH.
  assert (esc_byte b = [b]) as ->; [|done]. unfold esc_byte.
  assert (∀ x, x ∈ [34; 38; 39; 60; 62]%N → b ≠ x) as H by (by intros x Hx ->).
  repeat (rewrite decide_False; [|apply H; repeat constructor]). done.
Qed.
Lemma unesc_escape s : ∀ r, unesc None (escape s ++ r) = match unesc None r with Some x => Some (s ++ x) | None => None end.
Proof.
  induction s as [|b s IH]; intros r; [cbn [escape mbind list_bind app]; by destruct (unesc None r)|].
  change (escape (b :: s)) with (esc_byte b ++ escape s). rewrite <- app_assoc.
  assert (∀ r', unesc None (esc_byte b ++ r') = match unesc None r' with Some x => Some (b :: x) | None => None end) as Hb.
  { intros r'. unfold esc_byte.
    destruct (decide (b = 60%N)) as [->|]; [cbn; by destruct (unesc None r')|].
    destruct (decide (b = 62%N)) as [->|]; [cbn; by destruct (unesc None r')|].
    destruct (decide (b = 38%N)) as [->|]; [cbn; by destruct (unesc None r')|].
    destruct (decide (b = 39%N)) as [->|]; [cbn; by destruct (unesc None r')|].
    destruct (decide (b = 34%N)) as [->|]; [cbn; by destruct (unesc None r')|].
    cbn [app unesc]. rewrite decide_False by done. done. }
  rewrite Hb, IH. by destruct (unesc None r).
Qed.
Lemma unescape_escape s : unescape (escape s) = Some s.
Proof. unfold unescape. rewrite <- (app_nil_r (escape s)), unesc_escape. cbn. by rewrite app_nil_r. Qed.
Lemma escape_nil s : escape s = [] → s = [].
Proof.
  destruct s as [|b s]; [done|]. change (escape (b :: s)) with (esc_byte b ++ escape s). intros [H _]%app_nil.
  revert H. unfold esc_byte. repeat case_decide; done.
Qed.

(** Indentation and line break after the events *)
Fixpoint tr_end (ind : nat) (brk : bool) (es : list wevent) : nat * bool :=
  match es with
  | [] => (ind, brk)
  | WDecl :: r | WEmpty _ _ :: r => tr_end ind true r
  | WStart _ _ :: r => tr_end (S ind) true r
  | WEnd _ :: r => tr_end (pred ind) true r
  | WText _ :: r | WCData _ :: r => tr_end ind false r
  end.
Lemma transfer_app a : ∀ ind brk b, transfer ind brk (a ++ b) = transfer ind brk a ++ transfer (tr_end ind brk a).1 (tr_end ind brk a).2 b.
Proof.
  induction a as [|[] a IH]; intros ind brk b; [done|..]; cbn [app transfer tr_end]; rewrite IH; rewrite ?app_comm_cons, ?app_assoc; done.
Qed.
Lemma tr_end_app a : ∀ ind brk b, tr_end ind brk (a ++ b) = tr_end (tr_end ind brk a).1 (tr_end ind brk a).2 b.
Proof. induction a as [|[] a IH]; intros ind brk b; [done|..]; cbn [app tr_end]; apply IH. Qed.

Lemma find_end_None s : no_cdata_end s → find_end s = None.
Proof.
  induction s as [|b s IH]; intros H; [done|]. cbn [find_end].
  destruct (bool_decide (take 3 (b :: s) = cdata_end)) eqn:E.
  - apply bool_decide_eq_true in E. exfalso. apply (H [] (drop 3 (b :: s))). cbn [app]. change (str "]]>") with cdata_end. rewrite <- E.
    by rewrite take_drop.
  - rewrite IH; [done|]. intros x y ->. by apply (H (b :: x) y).
Qed.

Section read.
Context (ct : bytes → option N) (ctname : N → bytes) (drain : gmap anno_key bytes → list (anno_key * bytes)).
Notation read_all := (read_all ct ctname drain).
Notation node_events := (node_events drain).
Notation edge_events := (edge_events ct ctname drain).

Lemma read_app a : ∀ s b, read_all s (a ++ b) = match read_all s a with Some s' => read_all s' b | None => None end.
Proof. induction a as [|x a IH]; intros s b; [done|]. cbn [app GraphML.read_all]. destruct (read_step ct ctname drain s x); [apply IH|done]. Qed.

(** Between elements, and inside of the element of a node or of an edge *)
Definition rb K lvl g nd src tgt c d cfg ns es : rstate := RState K lvl g nd None src tgt c None d cfg ns es.
Lemma read_line K lvl g nd src tgt c d cfg ns es ind r :
  read_all (rb K lvl g nd src tgt c d cfg ns es) (line true ind ++ r) = read_all (rb K lvl g nd src tgt c d cfg ns es) r.
Proof.
  cbn [line app GraphML.read_all read_step]. unfold on_text, rb. rewrite decide_False; [done|]. intros (_ & _ & [? ?]). done.
Qed.

(** One label *)
Definition data_elem (id v : bytes) : list wevent := [WStart t_data [(t_key, id)]; WText v; WEnd t_data].
Lemma read_data K nd src tgt c d cfg ns es ind id ak v r :
  xml_plain id → K !! id = Some ak →
  read_all (rb K 3 true nd src tgt c d cfg ns es) (transfer ind true (data_elem id v) ++ r) =
  read_all (rb K 3 true nd src tgt c (<[ak := v]> d) cfg ns es) r.
Proof.
  intros Hid HK. unfold data_elem. cbn [transfer]. rewrite <- app_assoc, read_line. cbn [esc_atts fmap list_fmap fst snd].
  rewrite (escape_plain _ Hid).
  cbn [app GraphML.read_all read_step]. unfold on_start, rb. rewrite (decide_False (P := t_data = t_graph ∧ _)) by (by intros [? _]).
  rewrite (decide_False (P := t_data = t_key ∧ _)) by (by intros [? _]).
  rewrite (decide_False (P := t_data = t_node ∧ _)) by (by intros [? _]).
  rewrite (decide_False (P := t_data = t_edge ∧ _)) by (by intros [? _]).
  rewrite decide_True by done.
  assert (att t_key [(t_key, id)] None = Some id) as -> by (unfold att; cbn [fold_left fst snd]; by rewrite decide_True).
  assert (∀ v0, on_end ct ctname drain (RState K 4 true nd (Some id) src tgt c v0 d cfg ns es) t_data =
    RState K 3 true nd None src tgt c None (<[ak := default [] v0]> d) cfg ns es) as Hend.
  { intros v0. unfold on_end. rewrite (decide_False (P := t_data = t_graph)) by done. rewrite (decide_False (P := t_data = t_node)) by done.
    rewrite (decide_False (P := t_data = t_edge)) by done. rewrite decide_True by done. by rewrite HK. }
  destruct v as [|b v].
  - cbn [app line GraphML.read_all read_step]. rewrite Hend. done.
  - cbn [app line GraphML.read_all read_step]. unfold on_text. rewrite decide_True by (split_and!; [done|done|by exists id]).
    rewrite unescape_escape. rewrite Hend. done.
Qed.
Lemma data_end ind id v : tr_end ind true (data_elem id v) = (ind, true).
Proof. done. Qed.
(** Labels with their ids; an id of a key that is read *)
Lemma read_datas K nd src tgt c cfg ns es ind (l : list (bytes * anno_key * bytes)) : ∀ d r,
  (∀ x, x ∈ l → xml_plain x.1.1 ∧ K !! x.1.1 = Some x.1.2) →
  read_all (rb K 3 true nd src tgt c d cfg ns es) (transfer ind true (l ≫= λ x, data_elem x.1.1 x.2) ++ r) =
  read_all (rb K 3 true nd src tgt c (fold_left (λ m x, <[x.1.2 := x.2]> m) l d) cfg ns es) r.
Proof.
  induction l as [|x l IH]; intros d r Hl; [done|]. cbn [mbind list_bind fold_left]. rewrite transfer_app, data_end. cbn [fst snd].
  destruct (Hl x) as [H1 H2]; [apply elem_of_cons; by left|].
  rewrite <- app_assoc. rewrite (read_data _ _ _ _ _ _ _ _ _ _ _ _ _ _ H1 H2). apply IH. intros y Hy. apply Hl, elem_of_cons. by right.
Qed.
Lemma datas_end ind (l : list (bytes * anno_key * bytes)) : tr_end ind true (l ≫= λ x, data_elem x.1.1 x.2) = (ind, true).
Proof. induction l as [|x l IH]; [done|]. cbn [mbind list_bind]. rewrite tr_end_app, data_end. exact IH. Qed.

(** One node *)
Definition node_elem (name : bytes) (l : list (bytes * anno_key * bytes)) : list wevent :=
  WStart t_node [(a_id, name)] :: (l ≫= λ x, data_elem x.1.1 x.2) ++ [WEnd t_node].
Lemma node_end ind name l : tr_end ind true (node_elem name l) = (ind, true).
Proof. unfold node_elem. cbn [tr_end]. rewrite tr_end_app, datas_end. done. Qed.
Lemma read_node K d cfg ns es ind name l r :
  xml_plain name → (∀ x, x ∈ l → xml_plain x.1.1 ∧ K !! x.1.1 = Some x.1.2) →
  read_all (rb K 2 true None None None None d cfg ns es) (transfer ind true (node_elem name l) ++ r) =
  read_all (rb K 2 true None None None None ∅ cfg (ns ++ node_events (Some name) (fold_left (λ m x, <[x.1.2 := x.2]> m) l ∅)) es) r.
Proof.
  intros Hn Hl. unfold node_elem. cbn [transfer]. rewrite <- app_assoc, read_line. cbn [esc_atts fmap list_fmap fst snd].
  rewrite (escape_plain _ Hn). rewrite transfer_app, datas_end. cbn [fst snd].
  cbn [app GraphML.read_all read_step]. unfold on_start, rb at 1. rewrite (decide_False (P := t_node = t_graph ∧ _)) by (by intros [? _]).
  rewrite (decide_False (P := t_node = t_key ∧ _)) by (by intros [? _]).
  rewrite (decide_True (P := t_node = t_node ∧ _)) by done.
  assert (att a_id [(a_id, name)] None = Some name) as -> by (unfold att; cbn [fold_left fst snd]; by rewrite decide_True).
  fold (rb K 3 true (Some name) None None None ∅ cfg ns es). rewrite <- app_assoc, read_datas by done.
  cbn [transfer]. rewrite <- app_assoc, read_line. cbn [app GraphML.read_all read_step]. unfold on_end, rb at 1.
  rewrite (decide_False (P := t_node = t_graph)) by done. rewrite (decide_True (P := t_node = t_node)) by done. done.
Qed.
(** One edge *)
Definition edge_elem (id a b t : bytes) (l : list (bytes * anno_key * bytes)) : list wevent :=
  WStart t_edge [(a_id, id); (a_source, a); (a_target, b); (a_label, t)] :: (l ≫= λ x, data_elem x.1.1 x.2) ++ [WEnd t_edge].
Lemma edge_end ind id a b t l : tr_end ind true (edge_elem id a b t l) = (ind, true).
Proof. unfold edge_elem. cbn [tr_end]. rewrite tr_end_app, datas_end. done. Qed.
Lemma read_edge K d cfg ns es ind id a b t cm l r :
  xml_plain a → xml_plain b → xml_plain t → comp_of_text ct t = Some cm → (∀ x, x ∈ l → xml_plain x.1.1 ∧ K !! x.1.1 = Some x.1.2) →
  read_all (rb K 2 true None None None None d cfg ns es) (transfer ind true (edge_elem id a b t l) ++ r) =
  read_all (rb K 2 true None None None None ∅ cfg ns (es ++ edge_events (Some a) (Some b) (Some t) (fold_left (λ m x, <[x.1.2 := x.2]> m) l ∅))) r.
Proof.
  intros Ha Hb Ht Hc Hl. unfold edge_elem. cbn [transfer]. rewrite <- app_assoc, read_line. cbn [esc_atts fmap list_fmap fst snd].
  rewrite (escape_plain _ Ha), (escape_plain _ Hb), (escape_plain _ Ht). rewrite transfer_app, datas_end. cbn [fst snd].
  cbn [app GraphML.read_all read_step]. unfold on_start, rb at 1. rewrite (decide_False (P := t_edge = t_graph ∧ _)) by (by intros [? _]).
  rewrite (decide_False (P := t_edge = t_key ∧ _)) by (by intros [? _]).
  rewrite (decide_False (P := t_edge = t_node ∧ _)) by (by intros [? _]).
  rewrite (decide_True (P := t_edge = t_edge ∧ _)) by done.
  set (xs := [(a_id, escape id); (a_source, a); (a_target, b); (a_label, t)]).
  assert (att a_source xs None = Some a) as -> by reflexivity.
  assert (att a_target xs None = Some b) as -> by reflexivity.
  assert (att a_label xs None = Some t) as -> by reflexivity.
  fold (rb K 3 true None (Some a) (Some b) (Some t) ∅ cfg ns es). rewrite <- app_assoc, read_datas by done.
  cbn [transfer]. rewrite <- app_assoc, read_line. cbn [app GraphML.read_all read_step]. unfold on_end, rb at 1.
  rewrite (decide_False (P := t_edge = t_graph)) by done. rewrite (decide_False (P := t_edge = t_node)) by done.
  rewrite (decide_True (P := t_edge = t_edge)) by done. unfold after_edge. rewrite Hc. done.
Qed.
End read.

(** ** Keys *)
Lemma str_inj a b : str a = str b → a = b.
Proof.
  unfold str. intros H. rewrite <- (string_of_list_ascii_of_string a), <- (string_of_list_ascii_of_string b). f_equal.
  revert H. generalize (list_ascii_of_string a), (list_ascii_of_string b). induction l as [|x l IH]; intros [|y l0]; try done. cbn [map].
  intros [= Hx H]. apply Nat2N.inj in Hx. apply (f_equal ascii_of_nat) in Hx. rewrite !ascii_nat_embedding in Hx. subst y. f_equal. by apply IH.
Qed.
Lemma key_id_inj a b : key_id a = key_id b → a = b.
Proof. unfold key_id. intros H%app_inv_head%str_inj. by apply (inj pretty) in H. Qed.
Lemma pretty_go_plain : ∀ x s, xml_plain (str s) → xml_plain (str (pretty_N_go x s)).
Proof.
  intros x. induction (N.lt_wf_0 x) as [x _ IH]; intros s Hs. destruct (decide (0 < x)%N) as [Hx|Hx].
  - rewrite pretty_N_go_step by done. apply IH; [apply N.div_lt; lia|]. constructor; [|done].
    unfold pretty_N_char. repeat case_match; apply (bool_decide_eq_true _); vm_compute; reflexivity.
  - assert (x = 0%N) as -> by lia. by rewrite pretty_N_go_0.
Qed.
Lemma pretty_plain (n : N) : xml_plain (str (pretty n)).
Proof.
  unfold pretty, pretty_N. destruct (decide (n = 0%N)); [repeat constructor; apply (bool_decide_eq_true _); vm_compute; reflexivity|].
  apply pretty_go_plain. constructor.
Qed.
Lemma key_id_plain n : xml_plain (key_id n).
Proof. unfold key_id, xml_plain. apply Forall_app. split; [|apply pretty_plain]. repeat constructor; apply (bool_decide_eq_true _); vm_compute; reflexivity. Qed.

Definition plain_key (k : anno_key) : Prop := key_plain (ak_ns k) ∧ key_plain (ak_name k).
Lemma join_plain k : plain_key k → xml_plain (join_qname (ak_ns k) (ak_name k)).
Proof.
  intros [[H1 H2] [H3 H4]].
  assert (∀ s, Forall (λ b, (32 < b < 127)%N ∧ b ≠ 58%N ∧ b ≠ 37%N) s → Percent.pct_encode qname_set s = s) as E.
  { intros s Hs. apply PercentProofs.pct_encode_id. eapply Forall_impl; [exact Hs|]. intros b [[B1 B2] [B3 B4]].
    unfold Percent.should_encode, qname_set, Percent.is_control.
    repeat (apply orb_false_iff; split); try (apply N.leb_gt; lia); apply N.eqb_neq; lia. }
  unfold join_qname. rewrite (E (ak_name k)) by done. apply Forall_app. split; [|done]. destruct (ak_ns k) as [|b s] eqn:En; [constructor|].
  rewrite E by done. apply Forall_app. split; [done|]. repeat constructor; apply (bool_decide_eq_true _); vm_compute; reflexivity.
Qed.
Lemma split_plain k : plain_key k → (let '(ns, name) := split_qname (join_qname (ak_ns k) (ak_name k)) in AnnoKey name (default [] ns)) = k.
Proof.
  intros [[H1 _] [H3 _]]. rewrite split_join_ascii.
  - destruct k as [nm ns]. cbn. by destruct ns.
  - eapply Forall_impl; [exact H1|]. cbn. lia.
  - eapply Forall_impl; [exact H3|]. cbn. lia.
Qed.

(** The keys which are read from the header *)
Definition header_step (K : gmap bytes anno_key) (e : wevent) : gmap bytes anno_key :=
  match e with WEmpty _ a => add_annotation_key K (esc_atts a) | _ => K end.
Definition is_key (e : wevent) : Prop := ∃ a, e = WEmpty t_key a.
Lemma header_elem K n f k : plain_key k → header_step K (key_elem (key_id n) f (join_qname (ak_ns k) (ak_name k))) = <[key_id n := k]> K.
Proof.
  intros Hk. pose proof (split_plain k Hk) as Hs. unfold header_step, key_elem. cbn [esc_atts fmap list_fmap fst snd].
  rewrite (escape_plain _ (key_id_plain n)), (escape_plain _ (join_plain k Hk)). unfold add_annotation_key.
  set (xs := [(a_id, key_id n); _; _; _]).
  assert (att a_id xs None = Some (key_id n)) as -> by reflexivity.
  assert (att a_name xs None = Some (join_qname (ak_ns k) (ak_name k))) as -> by reflexivity.
  destruct (split_qname (join_qname (ak_ns k) (ak_name k))) as [ns name]. by rewrite Hs.
Qed.

Record kinv (s : keyst) : Prop := {
  ki_id : ∀ k id, s.1.1 !! k = Some id → ∃ i, (i < s.1.2)%N ∧ id = key_id i;
  ki_read : ∀ k id, s.1.1 !! k = Some id → fold_left header_step s.2 ∅ !! id = Some k;
  ki_elem : Forall is_key s.2
}.
Lemma add_key_inv s k : plain_key k → kinv s → kinv (add_key s k) ∧ (∀ k', is_Some ((add_key s k).1.1 !! k') ↔ k' = k ∨ is_Some (s.1.1 !! k')).
Proof.
  intros Hk [I1 I2 I3]. destruct s as [[m n] out]. cbn [fst snd] in *. unfold add_key. destruct (m !! k) as [id|] eqn:Em.
  - split; [by split|]. intros k'. cbn. split; [by right|]. intros [->|H]; [by exists id|done].
  - split.
    + split; cbn [fst snd].
      * intros k' id [[<- <-]|[Hne H]]%lookup_insert_Some; [exists n; split; [lia|done]|]. destruct (I1 k' id H) as (i & Hi & ->). exists i. split; [lia|done].
      * intros k' id. rewrite fold_left_app. cbn [fold_left]. rewrite header_elem by done.
        intros [[<- <-]|[Hne H]]%lookup_insert_Some; [by rewrite lookup_insert|]. rewrite lookup_insert_ne; [by apply I2|].
        destruct (I1 k' id H) as (i & Hi & ->). intros Heq%key_id_inj. lia.
      * apply Forall_app. split; [done|]. constructor; [|constructor]. by eexists.
    + intros k'. cbn [fst snd]. split.
      * intros [id [[<- _]|[_ H]]%lookup_insert_Some]; [by left|right; by exists id].
      * intros [->|[id H]]; [rewrite lookup_insert; by eexists|]. destruct (decide (k = k')) as [->|]; [rewrite lookup_insert; by eexists|].
        rewrite lookup_insert_ne by done. by exists id.
Qed.
Lemma add_keys_inv l : ∀ s, Forall plain_key l → kinv s →
  kinv (fold_left add_key l s) ∧ (∀ k', is_Some ((fold_left add_key l s).1.1 !! k') ↔ k' ∈ l ∨ is_Some (s.1.1 !! k')).
Proof.
  induction l as [|k l IH]; intros s Hl Hs; cbn [fold_left].
  - split; [done|]. intros k'. rewrite elem_of_nil. tauto.
  - apply Forall_cons in Hl as [Hk Hl]. destruct (add_key_inv s k Hk Hs) as [H1 H2]. destruct (IH _ Hl H1) as [H3 H4]. split; [done|].
    intros k'. rewrite H4, H2, elem_of_cons. tauto.
Qed.

(** ** Lists of elements *)
Lemma write_all_bind {A B} (f : A → option (list wevent)) (g : A → B) (h : B → list wevent) l :
  (∀ x, x ∈ l → f x = Some (h (g x))) → write_all f l = Some ((g <$> l) ≫= h).
Proof.
  induction l as [|x l IH]; intros Hf; [done|]. cbn [write_all fmap list_fmap mbind list_bind]. rewrite Hf by (apply elem_of_cons; by left).
  rewrite IH; [done|]. intros y Hy. apply Hf, elem_of_cons. by right.
Qed.
Lemma fold_insert {V X} (f : X → anno_key) (g : X → V) (L : list X) : ∀ (d : gmap anno_key V) k, NoDup (f <$> L) →
  fold_left (λ m x, <[f x := g x]> m) L d !! k = match (list_to_map ((λ x, (f x, g x)) <$> L) : gmap anno_key V) !! k with Some v => Some v | None => d !! k end.
Proof.
  induction L as [|x L IH]; intros d k Hnd; [done|]. cbn [fmap list_fmap] in Hnd. apply NoDup_cons in Hnd as [Hx Hnd].
  cbn [fold_left fmap list_fmap list_to_map foldr curry]. rewrite IH by done. cbn [list_to_map foldr fst snd].
  destruct (decide (k = f x)) as [->|Hne].
  - rewrite !lookup_insert. rewrite not_elem_of_list_to_map_1; [done|]. rewrite <- list_fmap_compose. exact Hx.
  - by rewrite !lookup_insert_ne by done.
Qed.
