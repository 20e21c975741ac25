(** The words of a description are its tokens *)
From Coq Require Import NArith String Lia.
From stdpp Require Import base list pretty.
From Verif Require Import KeySer KeySerSpec CompPath RelAnnis RelAnnisFiles NodeSearch TokenOps EdgeOps Query AqlLexer AqlLexerSpec AqlLexerProofs AqlTokens AqlGrammar AqlParser AqlSpec AqlLayout.
Set Default Proof Using "Type".

(** ** Words of the rules *)
Ltac literal_word i := match goal with |- is_word ?w _ => let l := eval vm_compute in w in
  exists i; eexists _, _; split; [reflexivity|split; [apply text_inv; reflexivity|split; [reflexivity|]]] end.
Lemma literal_is_word i l mk : rules !! i = Some (Text l, mk) → forallb (λ x : rule, match x.1 with Text l' => negb (bool_decide (l' = l)) | _ => false end) (take i rules) = true → is_word l (mk l).
Proof.
  intros Hi H. exists i, (Text l), mk. split; [done|]. split; [by apply text_inv|]. split; [done|]. intros j r' mk' Hj Hj' Hr'. rewrite forallb_forall in H.
  assert ((r', mk') ∈ take i rules) as Hin by (eapply elem_of_list_lookup_2; rewrite lookup_take; [exact Hj'|done]). apply elem_of_list_In, H in Hin. cbn [fst] in Hin.
  destruct r'; try discriminate. apply text_inv in Hr'. subst. by rewrite bool_decide_true in Hin.
Qed.
Ltac lit_word i := first [refine (literal_is_word i _ _ eq_refl _); vm_compute; reflexivity].
Lemma id_is_word s : id_ok s → is_word s (TId s).
Proof.
  intros [H Hk]. exists 25, id_regex, TId. split; [done|]. split; [done|]. split; [done|]. intros j r' mk' Hj Hj' Hr'. apply id_matches in H.
  assert (Forall (λ x : rule, ∃ l, x.1 = Text l ∧ (l ∈ keywords ∨ id_pred l = false)) (take 25 rules)) as Hall.
  { unfold rules. cbn [take]. repeat (apply List.Forall_cons; [eexists; split; [reflexivity|]; first [right; vm_compute; reflexivity|left; apply (bool_decide_unpack _); vm_compute; exact I]|]). apply List.Forall_nil. }
  rewrite List.Forall_forall in Hall. destruct (Hall (r', mk')) as (l & El & Hl); [apply elem_of_list_In; eapply elem_of_list_lookup_2; rewrite lookup_take; [exact Hj'|done]|]. cbn [fst] in El. subst r'. apply text_inv in Hr'. subst l. destruct Hl; congruence.
Qed.
Ltac no_first := vm_compute; reflexivity.
Lemma digit_cases b : digit b = true → (b = 48 ∨ b = 49 ∨ b = 50 ∨ b = 51 ∨ b = 52 ∨ b = 53 ∨ b = 54 ∨ b = 55 ∨ b = 56 ∨ b = 57)%N.
Proof. unfold digit. rewrite andb_true_iff, !N.leb_le. lia. Qed.
Lemma digits_is_word s : s ≠ [] → forallb is_num s = true → is_word s (TDigits s).
Proof.
  intros Hne H. destruct s as [|b s]; [done|]. eapply (word_by_first 29 _ TDigits b s); [reflexivity|by apply digits_matches|]. cbn in H. apply andb_true_iff in H as [Hb _]. apply digit_cases in Hb. repeat destruct Hb as [-> |Hb]; try no_first. subst b. no_first.
Qed.
Lemma node_ref_is_word s : s ≠ [] → forallb is_num s = true → is_word (35%N :: s) (TNodeRef s).
Proof. intros Hne H. eapply (word_by_first 26 _ (λ s, TNodeRef (drop 1 s)) 35 s); [reflexivity| |no_first]. apply (m_seq _ _ [35%N]); [constructor|by apply digits_matches]. Qed.
Lemma alpha_not_num b : is_alpha b = true → is_num b = false.
Proof. unfold is_alpha, is_num, between. rewrite orb_true_iff, !andb_true_iff, !N.leb_le, andb_false_iff, !N.leb_gt. lia. Qed.
Lemma var_ref_is_word s : var_ok s → is_word (35%N :: s) (TVarRef s).
Proof.
  intros H. exists 27, (Seq (Text (str "#")) (Seq (Chars letter) letters_digits)), (λ s, TVarRef (drop 1 s)). split; [done|]. split; [apply (m_seq _ _ [35%N]); [constructor|done]|]. split; [done|].
  intros j r' mk' Hj Hj' Hr'. destruct (decide (j = 26)) as [-> |Hne].
  - injection Hj' as <- _. apply seq_inv in Hr' as (s1 & s2 & E & H1 & H2). apply text_inv in H1. subst s1. injection E as <-. apply digits_matches in H2 as [_ H2]. apply alnum_matches in H. destruct s as [|b s]; [done|]. cbn in H, H2. apply andb_true_iff in H as [H _], H2 as [H2 _]. apply alpha_not_num in H. congruence.
  - apply first_spec in Hr'. assert (forallb (λ x : rule, negb (first_b x.1 35)) (take 26 rules) = true) as Hall by no_first. rewrite forallb_forall in Hall.
    assert ((r', mk') ∈ take 26 rules) as Hin by (eapply elem_of_list_lookup_2; rewrite lookup_take; [exact Hj'|lia]). apply elem_of_list_In, Hall in Hin. cbn [fst] in Hin. by rewrite Hr' in Hin.
Qed.
Lemma var_def_is_word s : var_ok s → is_word (s ++ str "#") (TVarDef s).
Proof.
  intros H. exists 28, (Seq (Seq (Chars letter) letters_digits) (Text (str "#"))), (λ s, TVarDef (take (length s - 1) s)). split; [done|]. split; [apply m_seq; [done|constructor]|].
  split; [f_equal; rewrite app_length; change (length (str "#")) with 1; replace (length s + 1 - 1) with (length s) by lia; apply take_app|].
  intros j r' mk' Hj Hj' Hr'. apply alnum_matches in H. destruct s as [|b s]; [done|]. cbn in H. apply andb_true_iff in H as [Hb H].
  assert (Forall (λ x : rule, (∃ l, x.1 = Text l ∧ 35%N ∉ l) ∨ x.1 = id_regex ∨ ∃ r, x.1 = Seq (Text (str "#")) r) (take 28 rules)) as Hall.
  { unfold rules. cbn [take]. repeat (apply List.Forall_cons; [first [left; eexists; split; [reflexivity|apply (bool_decide_unpack _); vm_compute; exact I]|right; left; reflexivity|right; right; eexists; reflexivity]|]). apply List.Forall_nil. }
  rewrite List.Forall_forall in Hall. destruct (Hall (r', mk')) as [(l & El & Hl)|[E|(r & E)]]; [apply elem_of_list_In; eapply elem_of_list_lookup_2; rewrite lookup_take; [exact Hj'|done]|..]; cbn [fst] in *; subst r'.
  - apply text_inv in Hr'. subst l. apply Hl. apply elem_of_app. right. apply (bool_decide_unpack _); vm_compute; exact I.
  - apply id_matches, id_pred_all in Hr'. rewrite forallb_app in Hr'. apply andb_true_iff in Hr' as [_ Hr']. discriminate.
  - apply seq_inv in Hr' as (s1 & s2 & E & H1 & _). apply text_inv in H1. subst s1. cbn in E. injection E as -> _. discriminate.
Qed.
Lemma op_is_word i c mk : rules !! i = Some (Seq (Text [c]) (Maybe id_regex), mk) → forallb (λ x : rule, negb (first_b x.1 c)) (take i rules) = true → ∀ s, s = [] ∨ name_ok s → is_word (c :: s) (mk (c :: s)).
Proof. intros Hi Hf s Hs. eapply word_by_first; [done| |done]. apply (m_seq _ _ [c]); [constructor|]. apply maybe_inv. destruct Hs as [-> |Hs]; [by left|by right]. Qed.
Lemma point_is_word s : name_ok s → is_word (str "->" ++ s) (TPoint s).
Proof. intros H. refine (word_by_first 31 _ (λ s, TPoint (drop 2 s)) 45 (62%N :: s) eq_refl _ _); [|no_first]. apply (m_seq _ _ [45; 62]%N); [constructor|done]. Qed.
Lemma without_ends_spec a v b : without_ends (a :: v ++ [b]) = v.
Proof. unfold without_ends. cbn. rewrite app_length. cbn. replace (length v + 1 - 1) with (length v) by lia. apply take_app. Qed.
Definition value_tok (v : value) : token := match v with Plain v => TQuoted v | Pattern v => TRegex v end.
Lemma value_is_word v : value_ok v → Forall2 is_word (value_words v) [value_tok v].
Proof.
  intros H. destruct v as [v|v]; cbn [value_ok value_tok value_words] in *; (apply List.Forall2_cons; [|apply List.Forall2_nil]).
  - pose proof (word_by_first 34 _ (λ s, TQuoted (without_ends s)) 34 (v ++ [34%N]) eq_refl) as Hw. cbn [fst] in Hw. rewrite without_ends_spec in Hw. apply Hw; [|no_first]. apply (m_seq _ _ [34%N]); [constructor|]. apply m_seq; [|constructor]. apply star_chars. rewrite forallb_forall. intros x Hx. rewrite none_of_one. apply negb_true_iff, N.eqb_neq. intros ->. apply H. by apply elem_of_list_In.
  - pose proof (word_by_first 35 _ (λ s, TRegex (without_ends s)) 47 (v ++ [47%N]) eq_refl) as Hw. cbn [fst] in Hw. rewrite without_ends_spec in Hw. apply Hw; [|no_first]. apply (m_seq _ _ [47%N]); [constructor|]. apply seq_inv in H as (s1 & s2 & -> & H1 & H2). rewrite <- (assoc_L (++)). apply m_seq; [done|]. apply m_seq; [done|constructor].
Qed.

(** ** Numbers *)
Lemma parse_digits_spec limit s : ∀ acc n, parse_digits limit acc s = Some n → forallb is_num s = true ∧ foldl (λ n b, n * 10 + (b - 48))%N acc s = n.
Proof.
  induction s as [|b s IH]; intros acc n H; cbn in H |- *; [split; congruence|]. destruct ((48 <=? b)%N && (b <=? 57)%N) eqn:E; [|discriminate]. destruct (acc * 10 + (b - 48) <=? limit)%N; [|discriminate].
  assert (is_num b = true) as -> by done. by apply IH.
Qed.
Lemma number_word_spec n : number_ok n → number_word n ≠ [] ∧ forallb is_num (number_word n) = true ∧ digits_number (number_word n) = n ∧ parse_num u64_max (number_word n) = Some n.
Proof.
  intros H. unfold number_word. destruct (pretty_head n) as (b & l & E & Hb). pose proof (parse_number u64_max n H) as Hp. rewrite E in *. split; [done|]. pose proof Hp as Hp'. unfold parse_num in Hp. rewrite bool_decide_false in Hp by lia. apply parse_digits_spec in Hp as [H1 H2]. done.
Qed.

(** ** Words of descriptions *)
Definition qualified_toks (q : qualified) : list token := match q with (Some ns, name) => [TId ns; TColon; TId name] | (None, name) => [TId name] end.
Definition equal_toks (equal : bool) : list token := [if equal then TEq else TNotEq].
Definition search_toks (s : search) : list token :=
  match s with
  | FindNode => [TNode] | FindTok => [TTok]
  | FindTokValue eq v => TTok :: equal_toks eq ++ [value_tok v]
  | FindValue v => [value_tok v]
  | FindAnno q eq v => qualified_toks q ++ equal_toks eq ++ [value_tok v]
  | FindName q => qualified_toks q
  end.
Definition node_toks (n : node) : list token := match n_var n with Some v => [TVarDef v] | None => [] end ++ search_toks (n_search n) ++ if n_optional n then [TOptional] else [].
Definition reference_tok (r : reference) : token := match r with ByNumber n => TNodeRef (number_word n) | ByName s => TVarRef s end.
Definition term_toks (t : term) : list token := match t with TermRef r => [reference_tok r] | TermNode n => node_toks n end.
Definition comma_toks (comma : bool) : list token := if comma then [TComma] else [].
Definition distance_toks (d : distance) : list token :=
  match d with Direct => [] | AnyDistance => [TStar] | Exactly c n => comma_toks c ++ [TDigits (number_word n)] | Between c a b => comma_toks c ++ [TDigits (number_word a); TComma; TDigits (number_word b)] end.
Definition by_toks (q : qualified) (eq : bool) (v : value) : list token := TLBr :: qualified_toks q ++ equal_toks eq ++ [value_tok v] ++ [TRBr].
Definition operator_toks (o : operator) : list token :=
  match o with
  | Dominates name d => TDom name :: distance_toks d
  | DominatesBy name q eq v => TDom name :: by_toks q eq v
  | Points name d => TPoint name :: distance_toks d
  | PointsBy name q eq v => TPoint name :: by_toks q eq v
  | Precedes seg d => TPrec (default [] seg) :: distance_toks d
  | IsNear seg d => TNear (default [] seg) :: distance_toks d
  | IsPartOf d => TAt :: distance_toks d
  | Overlaps => [TOverlap] | CoversSame => [TIdentCov] | Includes => [TInclusion] | LeftAligned => [TLeft] | RightAligned => [TRight] | SameNode => [TIdentNode]
  end.
Definition negation_toks (negated : bool) : list token := if negated then [TBang] else [].
Definition step_toks (s : step) : list token := negation_toks s.1.1 ++ operator_toks s.1.2 ++ term_toks s.2.
Definition compare_toks (s : bool * reference) : list token := [if s.1 then TEqEq else TNotEq; reference_tok s.2].
Definition part_toks (p : part) : list token :=
  match p with
  | PNode n => node_toks n
  | PChain t s l => term_toks t ++ concat (step_toks <$> s :: l)
  | PCompare r s l => [reference_tok r] ++ concat (compare_toks <$> s :: l)
  | PArity r d => [reference_tok r] ++ TArity :: TEq :: distance_toks d
  | PMeta q eq v => TMeta :: qualified_toks q ++ equal_toks eq ++ [value_tok v]
  end.
Definition toks_in_parentheses (b : bool) (ts : list token) : list token := if b then TLPar :: ts ++ [TRPar] else ts.
Fixpoint toks (level : nat) (q : query) : list token :=
  match q with
  | QPart p => part_toks p
  | QAnd a b => toks_in_parentheses (Nat.leb 2 level) (toks 1 a ++ TAnd :: toks 2 b)
  | QOr a b => toks_in_parentheses (Nat.leb 1 level) (toks 0 a ++ TOr :: toks 1 b)
  end.
Notation read ws ts := (Forall2 is_word ws ts).
Lemma read_one w t : is_word w t → read [w] [t].
Proof. intros H. apply List.Forall2_cons; [done|apply List.Forall2_nil]. Qed.
Lemma qualified_read q : qualified_ok q → read (qualified_words q) (qualified_toks q).
Proof.
  destruct q as [[ns|] name]; intros [H1 H2]; cbn in *.
  - apply List.Forall2_cons; [by apply id_is_word|]. apply List.Forall2_cons; [lit_word 24|]. by apply read_one, id_is_word.
  - by apply read_one, id_is_word.
Qed.
Lemma equal_read eq : read (equal_words eq) (equal_toks eq).
Proof. destruct eq; apply read_one; [lit_word 19|lit_word 17]. Qed.
Lemma search_read s : search_ok s → read (search_words s) (search_toks s).
Proof.
  destruct s as [| |eq v|v|q eq v|q]; cbn [search_ok search_words search_toks]; intros H.
  - apply read_one. lit_word 1.
  - apply read_one. lit_word 0.
  - apply List.Forall2_cons; [lit_word 0|]. apply Forall2_app; [apply equal_read|by apply value_is_word].
  - by apply value_is_word.
  - destruct H. apply Forall2_app; [by apply qualified_read|]. apply Forall2_app; [apply equal_read|by apply value_is_word].
  - by apply qualified_read.
Qed.
Lemma node_read n : node_ok n → read (node_words n) (node_toks n).
Proof.
  intros [H1 H2]. unfold node_words, node_toks. apply Forall2_app.
  - destruct (n_var n); [by apply read_one, var_def_is_word|apply List.Forall2_nil].
  - apply Forall2_app; [by apply search_read|]. destruct (n_optional n); [apply read_one; lit_word 12|apply List.Forall2_nil].
Qed.
Lemma reference_read r : reference_ok r → read (reference_words r) [reference_tok r].
Proof.
  destruct r as [n|s]; intros H; apply read_one.
  - destruct (number_word_spec n H) as (H1 & H2 & _). by apply node_ref_is_word.
  - by apply var_ref_is_word.
Qed.
Lemma term_read t : term_ok t → read (term_words t) (term_toks t).
Proof. destruct t; [by apply reference_read|by apply node_read]. Qed.
Lemma number_read n : number_ok n → is_word (number_word n) (TDigits (number_word n)).
Proof. intros H. destruct (number_word_spec n H) as (H1 & H2 & _). by apply digits_is_word. Qed.
Lemma comma_read c : read (comma_words c) (comma_toks c).
Proof. destruct c; [apply read_one; lit_word 22|apply List.Forall2_nil]. Qed.
Lemma distance_read d : distance_ok d → read (distance_words d) (distance_toks d).
Proof.
  destruct d as [| |c n|c a b]; cbn [distance_ok distance_words distance_toks]; intros H.
  - apply List.Forall2_nil.
  - apply read_one. lit_word 23.
  - apply Forall2_app; [apply comma_read|]. by apply read_one, number_read.
  - destruct H. apply Forall2_app; [apply comma_read|]. apply List.Forall2_cons; [by apply number_read|]. apply List.Forall2_cons; [lit_word 22|]. by apply read_one, number_read.
Qed.
Lemma by_read q eq v : qualified_ok q → value_ok v → read (by_words q eq v) (by_toks q eq v).
Proof.
  intros H1 H2. unfold by_words, by_toks. apply List.Forall2_cons; [lit_word 20|]. apply Forall2_app; [by apply qualified_read|]. apply Forall2_app; [apply equal_read|]. apply Forall2_app; [by apply value_is_word|]. apply read_one. lit_word 21.
Qed.
Lemma operator_read o : operator_ok o → read (operator_words o) (operator_toks o).
Proof.
  destruct o as [name d|name q eq v|name d|name q eq v|seg d|seg d|d| | | | | |]; cbn [operator_ok operator_words operator_toks]; intros H.
  - destruct H. apply List.Forall2_cons; [|by apply distance_read]. refine (op_is_word 30 62 (λ s, TDom (drop 1 s)) eq_refl _ _ _); [no_first|done].
  - destruct H as (H1 & H2 & H3). apply List.Forall2_cons; [|by apply by_read]. refine (op_is_word 30 62 (λ s, TDom (drop 1 s)) eq_refl _ _ _); [no_first|done].
  - destruct H. apply List.Forall2_cons; [|by apply distance_read]. by apply point_is_word.
  - destruct H as (H1 & H2 & H3). apply List.Forall2_cons; [|by apply by_read]. by apply point_is_word.
  - destruct H. apply List.Forall2_cons; [|by apply distance_read]. refine (op_is_word 32 46 (λ s, TPrec (drop 1 s)) eq_refl _ _ _); [no_first|]. destruct seg; [by right|by left].
  - destruct H. apply List.Forall2_cons; [|by apply distance_read]. refine (op_is_word 33 94 (λ s, TNear (drop 1 s)) eq_refl _ _ _); [no_first|]. destruct seg; [by right|by left].
  - apply List.Forall2_cons; [lit_word 15|by apply distance_read].
  - apply read_one. lit_word 4.
  - apply read_one. lit_word 2.
  - apply read_one. lit_word 5.
  - apply read_one. lit_word 6.
  - apply read_one. lit_word 7.
  - apply read_one. lit_word 3.
Qed.
Lemma step_read s : step_ok s → read (step_words s) (step_toks s).
Proof.
  intros [H1 H2]. unfold step_words, step_toks. apply Forall2_app; [destruct (s.1.1); [apply read_one; lit_word 13|apply List.Forall2_nil]|]. apply Forall2_app; [by apply operator_read|by apply term_read].
Qed.
Lemma compare_read (s : bool * reference) : reference_ok s.2 → read (compare_words s) (compare_toks s).
Proof. intros H. unfold compare_words, compare_toks. apply List.Forall2_cons; [|by apply reference_read]. destruct (s.1); [lit_word 16|lit_word 17]. Qed.
Lemma concat_read {A} (ok : A → Prop) (f : A → list bytes) (g : A → list token) l : (∀ x, ok x → read (f x) (g x)) → Forall ok l → read (concat (f <$> l)) (concat (g <$> l)).
Proof. intros H Hl. induction Hl as [|x l Hx Hl IH]; cbn; [apply List.Forall2_nil|]. apply Forall2_app; [by apply H|done]. Qed.
Lemma part_read p : part_ok p → read (part_words p) (part_toks p).
Proof.
  destruct p as [n|t s l|r s l|r d|q eq v]; cbn [part_ok part_words part_toks]; intros H.
  - by apply node_read.
  - destruct H as [H1 H2]. apply Forall2_app; [by apply term_read|]. eapply concat_read; [apply step_read|done].
  - destruct H as [H1 H2]. apply Forall2_app; [by apply reference_read|]. eapply concat_read; [apply compare_read|done].
  - destruct H as (H1 & H2 & _). apply Forall2_app; [by apply reference_read|]. apply List.Forall2_cons; [lit_word 18|]. apply List.Forall2_cons; [lit_word 19|]. by apply distance_read.
  - destruct H as [H1 H2]. apply List.Forall2_cons; [lit_word 14|]. apply Forall2_app; [by apply qualified_read|]. apply Forall2_app; [apply equal_read|by apply value_is_word].
Qed.
Lemma parentheses_read b ws ts : read ws ts → read (in_parentheses b ws) (toks_in_parentheses b ts).
Proof. intros H. destruct b; [|done]. cbn. apply List.Forall2_cons; [lit_word 10|]. apply Forall2_app; [done|]. apply read_one. lit_word 11. Qed.
Lemma query_read q : query_ok q → ∀ level, read (words level q) (toks level q).
Proof.
  induction q as [p|a IHa b IHb|a IHa b IHb]; intros H level; cbn [words toks]; [by apply part_read|..]; destruct H as [Ha Hb]; apply parentheses_read, Forall2_app; try done.
  - by apply IHa.
  - apply List.Forall2_cons; [lit_word 9|by apply IHb].
  - by apply IHa.
  - apply List.Forall2_cons; [lit_word 8|by apply IHb].
Qed.

(** ** References are small *)
Definition fits (t : token) : bool := match t with TNodeRef s => match parse_num u64_max s with Some _ => true | None => false end | _ => true end.
Lemma forallb_app2 (f g : list token) : forallb fits (f ++ g) = forallb fits f && forallb fits g.
Proof. apply forallb_app. Qed.
Lemma reference_fits r : reference_ok r → fits (reference_tok r) = true.
Proof. destruct r as [n|s]; cbn; [|done]. intros H. destruct (number_word_spec n H) as (_ & _ & _ & E). by rewrite E. Qed.
Lemma value_fits v : fits (value_tok v) = true.
Proof. by destruct v. Qed.
Lemma qualified_fits q : forallb fits (qualified_toks q) = true.
Proof. by destruct q as [[ns|] name]. Qed.
Lemma equal_fits e : forallb fits (equal_toks e) = true.
Proof. by destruct e. Qed.
Lemma node_fits n : forallb fits (node_toks n) = true.
Proof.
  unfold node_toks. rewrite !forallb_app. assert (forallb fits (search_toks (n_search n)) = true) as ->.
  { destruct (n_search n) as [| |eq v|v|q eq v|q]; cbn [search_toks]; try done; try (by destruct v).
    - by destruct eq, v.
    - rewrite !forallb_app, qualified_fits, equal_fits. cbn. by rewrite value_fits.
    - apply qualified_fits. }
  by destruct (n_var n), (n_optional n).
Qed.
Lemma term_fits t : term_ok t → forallb fits (term_toks t) = true.
Proof. destruct t; cbn [term_toks forallb]; [intros H; by rewrite reference_fits|intros _; apply node_fits]. Qed.
Lemma distance_fits d : forallb fits (distance_toks d) = true.
Proof. by destruct d as [| |[] n|[] a b]. Qed.
Lemma by_fits q e v : forallb fits (by_toks q e v) = true.
Proof. unfold by_toks. cbn [forallb fits andb]. rewrite !forallb_app, qualified_fits, equal_fits. cbn. by rewrite value_fits. Qed.
Lemma operator_fits o : forallb fits (operator_toks o) = true.
Proof. destruct o; cbn [operator_toks forallb fits andb]; try done; apply distance_fits || apply by_fits. Qed.
Lemma step_fits s : step_ok s → forallb fits (step_toks s) = true.
Proof. intros [H1 H2]. unfold step_toks. rewrite !forallb_app, operator_fits, term_fits by done. by destruct (s.1.1). Qed.
Lemma concat_fits {A} (ok : A → Prop) (g : A → list token) l : (∀ x, ok x → forallb fits (g x) = true) → Forall ok l → forallb fits (concat (g <$> l)) = true.
Proof. intros H Hl. induction Hl as [|x l Hx Hl IH]; cbn; [done|]. rewrite forallb_app, (H _ Hx). done. Qed.
Lemma part_fits p : part_ok p → forallb fits (part_toks p) = true.
Proof.
  destruct p as [n|t s l|r s l|r d|q eq v]; cbn [part_ok part_toks]; intros H.
  - apply node_fits.
  - destruct H as [H1 H2]. rewrite forallb_app, term_fits by done. cbn [andb]. by eapply concat_fits; [apply step_fits|].
  - destruct H as [H1 H2]. cbn [app forallb]. rewrite reference_fits by done. cbn [andb]. eapply concat_fits; [|exact H2]. intros x Hx. cbn. rewrite reference_fits by done. by destruct (x.1).
  - destruct H as (H1 & _). cbn. rewrite reference_fits by done. apply distance_fits.
  - cbn [forallb fits andb]. rewrite !forallb_app, qualified_fits, equal_fits. cbn. by rewrite value_fits.
Qed.
Lemma query_fits q : query_ok q → ∀ level, forallb fits (toks level q) = true.
Proof.
  induction q as [p|a IHa b IHb|a IHa b IHb]; intros H level; cbn [toks]; [by apply part_fits|..]; destruct H as [Ha Hb].
  - destruct (Nat.leb 2 level); cbn [toks_in_parentheses forallb fits andb]; rewrite ?forallb_app; cbn [forallb fits andb]; rewrite ?forallb_app, IHa, IHb by done; done.
  - destruct (Nat.leb 1 level); cbn [toks_in_parentheses forallb fits andb]; rewrite ?forallb_app; cbn [forallb fits andb]; rewrite ?forallb_app, IHa, IHb by done; done.
Qed.
