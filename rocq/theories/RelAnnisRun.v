(** The graph after a list of events that only add something. *)
From Coq Require Import NArith Lia.
From stdpp Require Import base list gmap.
From Verif Require Import KeySer KeySerSpec SortedMap Types CompPath GraphUpdate GraphApply GraphApplySpec RelAnnis RelAnnisMaps ListExtra.

Definition additive (e : event) : Prop :=
  match e with AddNode _ _ | AddNodeLabel _ _ _ _ | GraphUpdate.AddEdge _ _ _ _ _ | AddEdgeLabel _ _ _ _ _ _ _ _ => True | _ => False end.
Definition adds (n : bytes) (es : list event) : Prop := ∃ t, AddNode n t ∈ es.
Lemma adds_app n l1 l2 : adds n (l1 ++ l2) ↔ adds n l1 ∨ adds n l2.
Proof. unfold adds. setoid_rewrite elem_of_app. naive_solver. Qed.
Lemma adds_nil n : ¬ adds n [].
Proof. intros [t H]. by apply elem_of_nil in H. Qed.

Section run.
Context (ct : bytes → option N).
Local Notation step := (lg_step ct).
Local Notation run := (lg_run ct).
Lemma run_app A l1 l2 : run A (l1 ++ l2) = run (run A l1) l2.
Proof. unfold lg_run. by rewrite fold_left_app. Qed.
Lemma run_cons A e l : run A (e :: l) = run (step A e) l.
Proof. reflexivity. Qed.
Lemma lg_labels_with A s t l ty cn f : (∀ c, lg_labels (f c) = lg_labels A) → lg_labels (with_edge ct A s t l ty cn f) = lg_labels A.
Proof. intros Hf. unfold with_edge. destruct (ct ty); [|done]. destruct (decide _); [apply Hf|done]. Qed.
Lemma lg_edges_with A s t l ty cn f : (∀ c, lg_edges (f c) = lg_edges A) → lg_edges (with_edge ct A s t l ty cn f) = lg_edges A.
Proof. intros Hf. unfold with_edge. destruct (ct ty); [|done]. destruct (decide _); [apply Hf|done]. Qed.
Lemma lg_elabels_with A s t l ty cn f : (∀ c, lg_elabels (f c) = lg_elabels A) → lg_elabels (with_edge ct A s t l ty cn f) = lg_elabels A.
Proof. intros Hf. unfold with_edge. destruct (ct ty); [|done]. destruct (decide _); [apply Hf|done]. Qed.
(** ** Nodes *)
Lemma step_node A e n : additive e → is_node (step A e) n ↔ is_node A n ∨ ∃ t, e = AddNode n t.
Proof.
  intros He. destruct A as [L C E X]. destruct e as [m t|m|m ns a v|m ns a|s t l ty cn|s t l ty cn|s t l ty cn ns a v|s t l ty cn ns a]; try done; cbn [lg_step].
  - destruct (decide _) as [Hd|Hd].
    + split; [by left|]. intros [H|[t' E']]; [done|]. by injection E' as -> ->.
    + unfold is_node at 1. cbn. rewrite lookup_insert_is_Some', lookup_insert_is_Some'. split.
      * intros [H|[H|H]]; [injection H as -> H; discriminate H| |by left]. injection H as ->. right. by exists t.
      * intros [H|[t' E']]; [by right; right|]. injection E' as -> ->. right. by left.
  - destruct (decide _) as [Hd|Hd]; [|naive_solver]. unfold is_node at 1. cbn. rewrite lookup_insert_is_Some'. split.
    + intros [H|H]; [|by left]. injection H as -> _ _. by left.
    + intros [H|[? ?]]; [by right|done].
  - unfold is_node at 1. rewrite lg_labels_with by done. naive_solver.
  - unfold is_node at 1. rewrite lg_labels_with by done. naive_solver.
Qed.
Lemma run_node A es n : Forall additive es → is_node (run A es) n ↔ is_node A n ∨ adds n es.
Proof.
  revert A. induction es as [|e es IH]; intros A He; [cbn; unfold adds; setoid_rewrite elem_of_nil; naive_solver|]. apply Forall_cons in He as [H1 H2].
  rewrite run_cons, IH, step_node by done. unfold adds. setoid_rewrite elem_of_cons. naive_solver.
Qed.
Lemma empty_node n : ¬ is_node lg_empty n.
Proof. unfold is_node, lg_empty. cbn. rewrite lookup_empty. by intros [? ?]. Qed.
(** ** Labels *)
Definition label_of (n : bytes) (k : anno_key) (e : event) : option bytes :=
  match e with AddNodeLabel m ns a v => if decide (m = n ∧ AnnoKey a ns = k) then Some v else None | _ => None end.
(** Labels are only added to nodes that have been added before, or are in [S] *)
Definition grounded (S : bytes → Prop) (es : list event) : Prop :=
  ∀ l1 n ns a v l2, es = l1 ++ AddNodeLabel n ns a v :: l2 → S n ∨ adds n l1.
Lemma grounded_nil S : grounded S [].
Proof. clear ct. intros l1 n ns a v l2 E. destruct l1; discriminate E. Qed.
Lemma grounded_app S l1 l2 : grounded S l1 → grounded (λ n, S n ∨ adds n l1) l2 → grounded S (l1 ++ l2).
Proof. clear ct.
  intros H1 H2 k1 n ns a v k2 E. apply app_eq_app in E as (d & [[-> E]|[-> E]]).
  - destruct d as [|x d].
    + cbn in E. destruct (H2 [] n ns a v k2 (eq_sym E)) as [H|H]; [rewrite app_nil_r in H; done|by apply adds_nil in H].
    + injection E as <- ->. eapply H1. reflexivity.
  - rewrite adds_app. destruct (H2 d n ns a v k2 E) as [[H|H]|H]; naive_solver.
Qed.
Lemma grounded_mono (S S' : bytes → Prop) l : (∀ n, S n → S' n) → grounded S l → grounded S' l.
Proof. clear ct. intros HS H l1 n ns a v l2 E. destruct (H l1 n ns a v l2 E); auto. Qed.
Lemma grounded_simple (S : bytes → Prop) l : (∀ n ns a v, AddNodeLabel n ns a v ∈ l → S n) → grounded S l.
Proof. clear ct. intros H l1 n ns a v l2 ->. left. eapply H. apply elem_of_app. right. left. Qed.
Lemma step_label A e n k : additive e → k ≠ node_name_key → k ≠ node_type_key → (∀ m ns a v, e = AddNodeLabel m ns a v → is_node A m) →
  lg_labels (step A e) !! (n, k) = match label_of n k e with Some v => Some v | None => lg_labels A !! (n, k) end.
Proof.
  intros He Hk1 Hk2 Hg. destruct A as [L C E X]. destruct e as [m t|m|m ns a v|m ns a|s t l ty cn|s t l ty cn|s t l ty cn ns a v|s t l ty cn ns a]; try done; cbn [lg_step label_of].
  - destruct (decide _); [done|]. cbn. rewrite !lookup_insert_ne; [done| |]; intros H; injection H as ??; congruence.
  - rewrite decide_True by (eapply Hg; done). cbn. destruct (decide _) as [[-> <-]|Hd]; [by rewrite lookup_insert|]. rewrite lookup_insert_ne; [done|].
    intros H. injection H as -> H. apply Hd. done.
  - by rewrite lg_labels_with.
  - by rewrite lg_labels_with.
Qed.
Lemma last_cons_option {A B} (f : A → option B) x l : last (omap f (x :: l)) = match last (omap f l) with Some v => Some v | None => f x end.
Proof. cbn. destruct (f x); [rewrite last_cons|]; by destruct (last (omap f l)). Qed.
Lemma run_labels es : ∀ A n k, Forall additive es → k ≠ node_name_key → k ≠ node_type_key → grounded (is_node A) es →
  lg_labels (run A es) !! (n, k) = match last (omap (label_of n k) es) with Some v => Some v | None => lg_labels A !! (n, k) end.
Proof.
  induction es as [|e es IH]; intros A n k He Hk1 Hk2 Hg; [reflexivity|]. apply Forall_cons in He as [H1 H2]. rewrite run_cons, IH; try done.
  - rewrite last_cons_option. destruct (last (omap (label_of n k) es)); [done|]. apply step_label; try done. intros m ns a v ->.
    destruct (Hg [] m ns a v es eq_refl) as [H|H]; [done|by apply adds_nil in H].
  - intros l1 m ns a v l2 E. rewrite step_node by done. destruct (Hg (e :: l1) m ns a v l2) as [H|H]; [by rewrite E|by left; left|].
    destruct H as [t H]. apply elem_of_cons in H as [H|H]; [left; right; exists t; by rewrite H|right; by exists t].
Qed.
(** The type of a node is given by the first event that adds it *)
Definition type_of (n : bytes) (e : event) : option bytes := match e with AddNode m t => if decide (m = n) then Some t else None | _ => None end.
Definition keeps_types (e : event) : Prop := match e with AddNodeLabel _ ns a _ => AnnoKey a ns ≠ node_type_key | _ => True end.
Lemma run_types es : ∀ A n, Forall additive es → Forall keeps_types es → (¬ is_node A n → lg_labels A !! (n, node_type_key) = None) →
  lg_labels (run A es) !! (n, node_type_key) =
    if decide (is_node A n) then lg_labels A !! (n, node_type_key) else head (omap (type_of n) es).
Proof.
  induction es as [|e es IH]; intros A n He Hk HA.
  - cbn. destruct (decide _); [done|by apply HA].
  - apply Forall_cons in He as [H1 H2]. apply Forall_cons in Hk as [K1 K2]. rewrite run_cons.
    assert (lg_labels (step A e) !! (n, node_type_key) = if decide (is_node A n) then lg_labels A !! (n, node_type_key) else type_of n e) as Es.
    { destruct A as [L C E X]. destruct e as [m t|m|m ns a v|m ns a|s t l ty cn|s t l ty cn|s t l ty cn ns a v|s t l ty cn ns a]; try done; cbn [lg_step type_of] in *.
      - destruct (decide (is_node (LGraph L C E X) m)) as [Hm|Hm].
        + destruct (decide (m = n)) as [-> |Hn]; [by rewrite decide_True|]. destruct (decide _); [done|]. by apply HA.
        + cbn. destruct (decide (m = n)) as [-> |Hn]; [rewrite lookup_insert; by rewrite decide_False|].
          rewrite !lookup_insert_ne by (intros H; by injection H). destruct (decide _); [done|]. by apply HA.
      - destruct (decide (is_node (LGraph L C E X) m)) as [Hm|Hm].
        + cbn [lg_labels]. rewrite lookup_insert_ne by (intros H; apply K1; congruence). destruct (decide _); [done|]. by apply HA.
        + destruct (decide _); [done|]. by apply HA.
      - rewrite lg_labels_with by done. destruct (decide _); [done|by apply HA].
      - rewrite lg_labels_with by done. destruct (decide _); [done|by apply HA]. }
    rewrite IH; try done.
    + destruct (decide (is_node (step A e) n)) as [Hn|Hn].
      * rewrite Es. destruct (decide (is_node A n)) as [Hn'|Hn']; [done|]. apply step_node in Hn as [Hn|[t ->]]; [done| |done]. cbn. by rewrite decide_True.
      * rewrite decide_False by (intros H; apply Hn; apply step_node; [done|by left]). cbn. destruct (type_of n e) as [t|] eqn:Et; [|done]. exfalso. apply Hn. apply step_node; [done|].
        right. destruct e; try done. cbn in Et. destruct (decide _); [|done]. subst. by eexists.
    + intros Hn. rewrite Es. rewrite decide_False by (intros H; apply Hn; apply step_node; [done|by left]).
      destruct (type_of n e) as [t|] eqn:Et; [|done]. exfalso. apply Hn. apply step_node; [done|]. right. destruct e; try done. cbn in Et. destruct (decide _); [|done]. subst. by eexists.
Qed.
(** ** Edges *)
Lemma step_edge A e c a b : additive e → (c, (a, b)) ∈ lg_edges (step A e) ↔ (c, (a, b)) ∈ lg_edges A ∨
  ∃ ty, e = GraphUpdate.AddEdge a b c.1.2 ty c.2 ∧ ct ty = Some c.1.1 ∧ a ≠ b ∧ is_node A a ∧ is_node A b.
Proof.
  intros He. destruct A as [L C E X]. destruct e as [m t|m|m ns x v|m ns x|s t l ty cn|s t l ty cn|s t l ty cn ns x v|s t l ty cn ns x]; try done; cbn [lg_step].
  - destruct (decide _); cbn; naive_solver.
  - destruct (decide _); cbn; naive_solver.
  - unfold with_edge. destruct (ct ty) as [k|] eqn:Ek.
    + destruct (decide _) as [[H1 H2]|Hd].
      * cbn. destruct (decide (s = t)) as [-> |Hst].
        -- split; [by left|]. intros [H|(ty' & H & ? & Hab & _)]; [done|]. injection H as -> -> _ _ _. done.
        -- rewrite elem_of_union, elem_of_singleton. split.
           ++ intros [H|H]; [|by left]. injection H as -> -> ->. right. exists ty. done.
           ++ intros [H|(ty' & H & Hk & Hab & _)]; [by right|]. left. injection H as -> -> -> -> ->. rewrite Ek in Hk. injection Hk as ->.
              by destruct c as [[? ?] ?].
      * split; [by left|]. intros [H|(ty' & H & Hk & Hab & Ha & Hb)]; [done|]. injection H as -> -> -> -> ->. exfalso. by apply Hd.
    + split; [by left|]. intros [H|(ty' & H & Hk & Hab & Ha & Hb)]; [done|]. injection H as -> -> -> -> ->. congruence.
  - rewrite lg_edges_with by done. naive_solver.
Qed.
Lemma run_edges es : ∀ A c a b, Forall additive es → (c, (a, b)) ∈ lg_edges (run A es) ↔ (c, (a, b)) ∈ lg_edges A ∨
  ∃ l1 l2 ty, es = l1 ++ GraphUpdate.AddEdge a b c.1.2 ty c.2 :: l2 ∧ ct ty = Some c.1.1 ∧ a ≠ b ∧
    (is_node A a ∨ adds a l1) ∧ (is_node A b ∨ adds b l1).
Proof.
  induction es as [|e es IH]; intros A c a b He.
  - split; [by left|]. intros [H|(l1 & l2 & ty & E & _)]; [done|]. destruct l1; discriminate E.
  - apply Forall_cons in He as [H1 H2]. rewrite run_cons, IH, step_edge by done. split.
    + intros [[H|(ty & -> & Hk & Hab & Ha & Hb)]|(l1 & l2 & ty & -> & Hk & Hab & Ha & Hb)]; [by left| |].
      * right. exists [], es, ty. repeat split; try done; by left.
      * right. exists (e :: l1), l2, ty. split; [done|]. split; [done|]. split; [done|]. rewrite step_node in Ha, Hb by done. unfold adds in *. setoid_rewrite elem_of_cons. naive_solver.
    + intros [H|(l1 & l2 & ty & E & Hk & Hab & Ha & Hb)]; [by left; left|]. destruct l1 as [|e' l1].
      * injection E as -> ->. left. right. exists ty. split; [done|]. split; [done|]. split; [done|].
        split; [destruct Ha as [H|H]|destruct Hb as [H|H]]; try done; by apply adds_nil in H.
      * injection E as <- ->. right. exists l1, l2, ty. split; [done|]. split; [done|]. split; [done|]. rewrite !step_node by done. unfold adds in *.
        setoid_rewrite elem_of_cons in Ha. setoid_rewrite elem_of_cons in Hb. naive_solver.
Qed.
(** An edge between nodes that are added somewhere before *)
Lemma run_edge_in A l1 l2 c a b : Forall additive (l1 ++ l2) → a ≠ b → adds a l1 → adds b l1 →
  (∃ ty, GraphUpdate.AddEdge a b c.1.2 ty c.2 ∈ l2 ∧ ct ty = Some c.1.1) → (c, (a, b)) ∈ lg_edges (run A (l1 ++ l2)).
Proof.
  intros He Hab Ha Hb (ty & Hin & Hk). apply run_edges; [done|]. right. apply elem_of_list_split in Hin as (k1 & k2 & ->).
  exists (l1 ++ k1), k2, ty. rewrite <- (assoc_L (++)). rewrite !adds_app. naive_solver.
Qed.
Lemma run_edge_only es c a b : Forall additive es → (c, (a, b)) ∈ lg_edges (run lg_empty es) →
  ∃ ty, GraphUpdate.AddEdge a b c.1.2 ty c.2 ∈ es ∧ ct ty = Some c.1.1 ∧ a ≠ b ∧ adds a es ∧ adds b es.
Proof.
  intros He H. apply run_edges in H as [H|(l1 & l2 & ty & -> & Hk & Hab & Ha & Hb)]; [by apply elem_of_empty in H| |done].
  exists ty. split; [apply elem_of_app; right; left|]. split; [done|]. split; [done|]. rewrite !adds_app.
  destruct Ha as [Ha|Ha]; [by apply empty_node in Ha|]. destruct Hb as [Hb|Hb]; [by apply empty_node in Hb|]. split; by left.
Qed.
(** ** Labels of edges *)
Definition elabel_of (c : comp) (a b : bytes) (k : anno_key) (e : event) : option bytes :=
  match e with
  | AddEdgeLabel s t l ty cn ns x v => if decide (s = a ∧ t = b ∧ l = c.1.2 ∧ cn = c.2 ∧ ct ty = Some c.1.1 ∧ AnnoKey x ns = k) then Some v else None
  | _ => None
  end.
Lemma step_elabel A e c a b k : additive e → a ≠ b →
  (∀ l ty cn ns x v, e = AddEdgeLabel a b l ty cn ns x v → is_node A a ∧ is_node A b ∧ ∀ n, ct ty = Some n → (n, l, cn, (a, b)) ∈ lg_edges A) →
  lg_elabels (step A e) !! (c, (a, b), k) = match elabel_of c a b k e with Some v => Some v | None => lg_elabels A !! (c, (a, b), k) end.
Proof.
  intros He Hab Hg. destruct A as [L C E X]. destruct e as [m t|m|m ns x v|m ns x|s t l ty cn|s t l ty cn|s t l ty cn ns x v|s t l ty cn ns x]; try done; cbn [lg_step elabel_of].
  - destruct (decide _); done.
  - destruct (decide _); done.
  - rewrite lg_elabels_with by done. done.
  - unfold with_edge. destruct (ct ty) as [n|] eqn:En.
    + destruct (decide (s = a ∧ t = b)) as [[-> ->]|Hst].
      * destruct (Hg l ty cn ns x v eq_refl) as (G1 & G2 & G3). rewrite decide_True by done. cbn. cbn in G3. rewrite decide_True by (by apply G3).
        destruct (decide _) as [(_ & _ & -> & -> & H & <-)|Hd].
        -- injection H as ->. destruct c as [[? ?] ?]. by rewrite lookup_insert.
        -- rewrite lookup_insert_ne; [done|]. intros H. injection H as <- <-. apply Hd. done.
      * rewrite (decide_False (P := s = a ∧ _)) by naive_solver. destruct (decide _); [|done]. cbn. destruct (decide _); [|done]. rewrite lookup_insert_ne; [done|].
        intros H. injection H as ? ? ? ?. apply Hst. done.
    + destruct (decide _) as [(_ & _ & _ & _ & H & _)|Hd]; [discriminate H|done].
Qed.
Lemma run_elabels es : ∀ A c a b k, Forall additive es → a ≠ b →
  (∀ l1 l ty cn ns x v l2, es = l1 ++ AddEdgeLabel a b l ty cn ns x v :: l2 → is_node (run A l1) a ∧ is_node (run A l1) b ∧ ∀ n, ct ty = Some n → (n, l, cn, (a, b)) ∈ lg_edges (run A l1)) →
  lg_elabels (run A es) !! (c, (a, b), k) = match last (omap (elabel_of c a b k) es) with Some v => Some v | None => lg_elabels A !! (c, (a, b), k) end.
Proof.
  induction es as [|e es IH]; intros A c a b k He Hab Hg; [reflexivity|]. apply Forall_cons in He as [H1 H2]. rewrite run_cons, IH; try done.
  - rewrite last_cons_option. destruct (last _); [done|]. apply step_elabel; try done. intros l ty cn ns x v ->. by apply (Hg [] l ty cn ns x v es).
  - intros l1 l ty cn ns x v l2 ->. by apply (Hg (e :: l1) l ty cn ns x v l2).
Qed.
End run.
