(** Properties of the configuration that is imported with a corpus in the relANNIS format. *)
From Coq Require Import NArith ZArith String Sorting.Sorted Lia.
From stdpp Require Import base list gmap pretty.
From Verif Require Import KeySer KeySerSpec Types CompPath RelAnnis RelAnnisSpec RelAnnisFilesSpec RelAnnisConfig RelAnnisConfigSpec RelAnnisConfigText RelAnnisConfigProofs RelAnnisVisualizers.

(** ** C65: configuration *)
(** corpus.properties: every setting has the value of its last valid line. Missing: a context step of zero *)
Theorem C65_properties_partial : ∀ ls, Forall good_line ls → (∀ l, l ∈ ls → ¬ number_line "context-steps" l 0) →
  ∃ c, load_properties (Some (write_lines ls)) = Some c ∧ configured ls c.
Proof. exact properties_loaded. Qed.
Definition ex_lines : list bytes := [str "context-steps=5"; str "max-context=20"; str "hidden_annos=a::b, c"; str "results-per-page=many"; str "comment"; str "max-context=12"; str "virtual_tokenization_mapping=a=b,c,a=d"].
Lemma ex_lines_good : Forall good_line ex_lines.
Proof. unfold ex_lines. repeat (apply List.Forall_cons; [split; [apply (bool_decide_unpack _); vm_compute; exact I|vm_compute; discriminate]|]). apply List.Forall_nil. Qed.
Example C65_properties_case : Forall good_line ex_lines ∧ (∀ l, l ∈ ex_lines → ¬ number_line "context-steps" l 0) ∧
  ∃ m, load_properties (Some (write_lines ex_lines)) = Some (Config (Some 12%N) 5 [5; 10]%N None None 10 [str "a::b"; str "c"] (FromMapping m)) ∧ m !! str "a" = Some (str "d").
Proof.
  split; [exact ex_lines_good|]. split.
  - intros l Hl (v & H1 & H2)%number_line_split; [|done]. unfold ex_lines in Hl. repeat (apply elem_of_cons in Hl as [-> |Hl]; [vm_compute in H1; first [discriminate H1|injection H1 as <-; vm_compute in H2; discriminate H2]|]). by apply elem_of_nil in Hl.
  - eexists. split; vm_compute; reflexivity.
Qed.
(** The missing case: with a context step of zero the import panics *)
Theorem C65_zero_step_refuted : ∀ ls, Forall good_line ls → (∃ l, l ∈ ls ∧ number_line "context-steps" l 0) → load_properties (Some (write_lines ls)) = None.
Proof. exact properties_panic. Qed.
Example C65_zero_step_case : number_line "context-steps" (str "context-steps=0") 0.
Proof. exists (str "0"). split; [done|]. exists (str "0"). split; [by left|]. split; [done|]. split; [|split; [done|lia]]. change (str "0") with [48%N]. apply List.Forall_cons; [lia|apply List.Forall_nil]. Qed.
Theorem C65_no_properties : load_properties None = Some (Config None 5 [0; 1; 2; 5; 10]%N None None 10 [] Explicit).
Proof. reflexivity. Qed.

(** The visualizers: sorted by their order, and those of the table with the default ones that no row replaces *)
Theorem C65_visualizers : ∀ search v33 with_visibility rows, good_search search → (v33 = true → with_visibility = true) → Forall (writable_vrow with_visibility) rows →
  ∃ rules, load_rules search v33 (Some (write_table (vrow_fields with_visibility <$> rows))) = Some rules ∧ resolved rows rules.
Proof. exact rules_loaded. Qed.
(** a search that meets the documentation of the standard library: the first element that is not smaller *)
Fixpoint first_search (i : nat) (l : list Z) (x : Z) : nat + nat :=
  match l with
  | [] => inr i
  | y :: l => if (y =? x)%Z then inl i else if (x <? y)%Z then inr i else first_search (S i) l x
  end.
Lemma first_search_spec l x : ∀ i, Sorted Z.le l → match first_search i l x with
    | inl j => ∃ k, j = i + k ∧ l !! k = Some x
    | inr j => ∃ k, j = i + k ∧ k ≤ length l ∧ Forall (λ y, y < x)%Z (take k l) ∧ Forall (λ y, x < y)%Z (drop k l)
    end.
Proof.
  induction l as [|y l IH]; intros i Hs; cbn [first_search].
  - exists 0. split; [lia|]. split; [done|]. split; constructor.
  - destruct (Z.eqb_spec y x) as [-> |Hy]; [exists 0; split; [lia|done]|]. destruct (Z.ltb_spec x y) as [Hx|Hx].
    + exists 0. split; [lia|]. cbn [length take drop]. split; [lia|]. split; [constructor|]. apply Sorted_StronglySorted in Hs; [|intros ? ? ?; lia]. inversion Hs as [|? ? ? Hf]; subst. constructor; [done|]. eapply Forall_impl; [exact Hf|]. cbv beta. intros; lia.
    + inversion Hs; subst. specialize (IH (S i) ltac:(done)). destruct (first_search (S i) l x) as [j|j].
      * destruct IH as (k & -> & E). exists (S k). split; [lia|done].
      * destruct IH as (k & -> & H2' & H3' & H4'). exists (S k). cbn [length take drop]. split; [lia|]. split; [lia|]. split; [constructor; [lia|done]|done].
Qed.
Lemma first_search_good : good_search (first_search 0).
Proof.
  intros l x Hs. pose proof (first_search_spec l x 0 Hs) as H. destruct (first_search 0 l x) as [j|j]; destruct H as (k & -> & H); exact H.
Qed.
Definition ex_vrows : list vrow :=
  [VRow (Some (str "mmax")) (Some ENode) (str "grid") (str "annotations") (Some Visible) 7 [(str "a", str "b")];
   VRow None None (str "kwic") (str "kwic") None 0 []; VRow (Some (str "dep")) None (str "arch") (str "arrows") (Some Hidden) 7 []].
Example C65_visualizers_case : Forall (writable_vrow true) ex_vrows ∧
  match load_rules (first_search 0) true (Some (write_table (vrow_fields true <$> ex_vrows))) with
  | Some rules => map vr_name rules = [str "annotations"; str "arrows"; str "tree"; str "exmaralda"; str "urml"]
  | None => False
  end.
Proof.
  split; [|vm_compute; reflexivity]. unfold ex_vrows.
  repeat (apply List.Forall_cons; [split; [unfold no_null, vrow_fields; cbn [app]; repeat (apply List.Forall_cons; [vm_compute; discriminate|]); apply List.Forall_nil|split; [cbn [vw_order]; lia|split; [done|]]; cbn [vw_mappings]; try apply List.Forall_nil]|]); try apply List.Forall_nil.
  apply List.Forall_cons; [|apply List.Forall_nil]. cbn [fst snd]. assert (∀ b, b = 97%N ∨ b = 98%N → trimmed [b]) as Ht. { intros b Hb c Hc Hw. assert (c = b) as -> by (destruct Hc as [[= ->]|[= ->]]; done). destruct Hw, Hb; lia. }
  split; [apply (Ht 97%N); by left|]. split; [apply (Ht 98%N); by right|]. split_and!; apply (bool_decide_unpack _); vm_compute; exact I.
Qed.
(** White space around keys and values of mappings is ignored *)
Theorem C65_mappings : ∀ raw l, Forall2 (λ r p, trim_of r.1 p.1 ∧ trim_of r.2 p.2 ∧ 58%N ∉ r.1 ∧ 59%N ∉ r.1 ∧ 59%N ∉ r.2) raw l → parse_mappings (write_mappings raw) = l.
Proof. exact mappings_padded. Qed.
Print Assumptions C65_mappings.
Example ex_mappings : parse_mappings (str " a : b ;c:d:e; f") = [(str "a", str "b"); (str "c", str "d:e")].
Proof. vm_compute. reflexivity. Qed.
(** Without the table there are no visualizers, not even the default ones *)
Theorem C65_no_visualizers : ∀ search v33, load_rules search v33 None = Some [].
Proof. reflexivity. Qed.

(** The example queries: the rows that have a query and a description, in the order of the rows *)
Theorem C65_examples : ∀ k rows, Forall (λ r, no_null r ∧ length r = 2 + k) rows →
  load_examples (Some (write_table rows)) = Some (omap (λ r, match r with Some q :: Some d :: _ => Some (q, d) | _ => None end) rows).
Proof. exact examples_loaded. Qed.
Example C65_examples_case : load_examples (Some (write_table [[Some (str "tok"); Some (str "all	tokens")]; [null; Some (str "nothing")]])) = Some [(str "tok", str "all	tokens")].
Proof. vm_compute. reflexivity. Qed.

(** The version is the exact content of annis.version: a line feed at its end makes it the older version *)
Theorem C65_version_refuted : is_annis_33 (Some (str "3.3")) = true ∧ is_annis_33 (Some (str "3.3" ++ [10%N])) = false.
Proof. split; vm_compute; reflexivity. Qed.

Print Assumptions C65_properties_partial.
Print Assumptions C65_zero_step_refuted.
Print Assumptions C65_no_properties.
Print Assumptions C65_visualizers.
Print Assumptions C65_no_visualizers.
Print Assumptions C65_examples.
Print Assumptions C65_version_refuted.
