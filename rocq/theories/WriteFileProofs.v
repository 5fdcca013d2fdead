(** Proofs: every legible file can be written. *)
From Coq Require Import List Ascii String Bool PeanoNat Lia.
From Verif Require Import FlexModel FlexProofs ScanModel ScanSpec ScanProofs ScanCodeProofs ScanWordProofs GramModel GramSpec GramReadProofs
  WriteSpec WriteTokenProofs WriteLexerProofs WriteProofs WriteFileSpec.
Import ListNotations.

(** ** Characters *)
Definition cleanb (w : text) : bool := forallb (fun c => negb (Ascii.eqb c NUL) && negb (Ascii.eqb c "255")) w.
Lemma clean_b w : cleanb w = true -> clean w.
Proof. intro H. unfold cleanb in H. rewrite forallb_forall in H. split; intro J; specialize (H _ J); discriminate H. Qed.
Lemma clean_app a b : clean a -> clean b -> clean (a ++ b).
Proof. intros [A1 A2] [B1 B2]. split; intro J; apply in_app_or in J; tauto. Qed.
Lemma clean_cons a b : cleanb [a] = true -> clean b -> clean (a :: b).
Proof. intros A B. apply (clean_app [a] b); [apply clean_b; exact A | exact B]. Qed.
Lemma clean_in l w : cleanb l = true -> all_in l w -> clean w.
Proof. intros C A. apply clean_b in C. destruct C as [C1 C2]. split; intro J; apply A in J; contradiction. Qed.
Ltac clean_text := apply clean_b; vm_compute; reflexivity.
Lemma word_clean x : is_word x -> clean x.
Proof.
  intros (c & u & -> & C & U). apply (clean_in (UPPER ++ LOWER ++ DIGITS)); [vm_compute; reflexivity |]. intros d [<- | D]; [| apply U, D].
  apply in_app_or in C. destruct C as [C | C]; apply in_or_app; [left; exact C | right; apply in_or_app; left; exact C].
Qed.
Lemma spelling_clean x : spelling x -> clean x.
Proof.
  assert (P : forall c, printable c -> cleanb [c] = true).
  { intros c Hc. unfold printable in Hc. cbn [cleanb forallb]. destruct (Ascii.eqb_spec c NUL) as [-> | _]; [exfalso; change (nat_of_ascii NUL) with 0 in Hc; lia |].
    destruct (Ascii.eqb_spec c "255") as [-> | _]; [exfalso; change (nat_of_ascii "255") with 255 in Hc; lia | reflexivity]. }
  induction 1 as [| c w C H IH | c w C H IH].
  - clean_text.
  - apply clean_cons; [| exact IH]. destruct (clean_in WORD [c]) as [A B]; [vm_compute; reflexivity | intros d [<- | []]; exact C |].
    cbn [cleanb forallb]. destruct (Ascii.eqb_spec c NUL) as [-> | _]; [exfalso; apply A; left; reflexivity |].
    destruct (Ascii.eqb_spec c "255") as [-> | _]; [exfalso; apply B; left; reflexivity | reflexivity].
  - apply clean_cons; [reflexivity |]. apply clean_cons; [apply P, C | exact IH].
Qed.
Lemma single_clean x : single x -> clean x.
Proof.
  intro H. destruct H.
  - apply spelling_clean. apply sp_plain; [assumption | apply sp_nil].
  - apply spelling_clean. apply sp_escape; [assumption | apply sp_nil].
  - apply clean_cons; [reflexivity |]. change (c :: d :: w) with ([c] ++ d :: w). apply clean_app.
    + apply (clean_in (chars "xXuU")); [reflexivity |]. intros e [<- | []]; assumption.
    + apply (clean_in HEX); [reflexivity | assumption].
  - apply clean_cons; [reflexivity |]. change (c :: d :: w) with ([c] ++ d :: w). apply clean_app.
    + apply (clean_in (chars "oO")); [reflexivity |]. intros e [<- | []]; assumption.
    + apply (clean_in (chars "01234567")); [reflexivity | assumption].
  - apply clean_cons; [reflexivity |]. change (c :: d :: w) with ([c] ++ d :: w). apply clean_app.
    + apply (clean_in (chars "dD")); [reflexivity |]. intros e [<- | []]; assumption.
    + apply (clean_in DIGITS); [reflexivity | assumption].
Qed.

(** ** Pieces of a file *)
Definition seg (q : context) (ts : list (token * text)) (q' : context) : Prop :=
  exists s0, clean s0 /\ forall ts' s q2, written q' ts' s q2 -> written q (ts ++ ts') (s0 ++ s) q2.
Definition spaced (m : mode) : Prop := forall g, gap_in m g -> gap_in m (SP :: g).
Lemma written_space q ts s q' : spaced (fst q) -> written q ts s q' -> written q ts (SP :: s) q'.
Proof.
  intros P W. destruct W.
  - apply wr_end. apply P. assumption.
  - change (SP :: g ++ w ++ s) with ((SP :: g) ++ w ++ s). eapply wr_token; [apply P; assumption | eassumption | assumption | assumption].
Qed.
Lemma spaced_gap m : m = INITIAL \/ m = RULE_PARAMETERS_HEADER \/ m = RULE_LEXER \/ m = PARSERCLASS -> spaced m.
Proof.
  intros [-> | [-> | [-> | ->]]] g G; cbn [gap_in] in *; try (apply g_blank; [left; reflexivity | exact G]).
  intros d [<- | D]; [left; reflexivity | apply G, D].
Qed.
Lemma empty_gap m : gap_in m [].
Proof. destruct m; cbn [gap_in]; try apply g_nil; try reflexivity. intros d []. Qed.

(** A token with a blank behind it. *)
Definition step_tok (q : context) (x : token * text) (q' : context) : Prop :=
  exists w follow, writes q x w follow q' /\ clean w /\ (forall s, follow (SP :: s)) /\ spaced (fst q').
Lemma seg_nil q : seg q [] q.
Proof. exists []. split; [clean_text | auto]. Qed.
Lemma seg_app q1 a q2 b q3 : seg q1 a q2 -> seg q2 b q3 -> seg q1 (a ++ b) q3.
Proof.
  intros (s & S1 & S2) (s' & S1' & S2'). exists (s ++ s'). split; [apply clean_app; assumption |].
  intros ts z q W. rewrite <- !app_assoc. apply S2, S2', W.
Qed.
Lemma seg_tok q x q' : step_tok q x q' -> seg q [x] q'.
Proof.
  intros (w & follow & W & C & F & P). exists (w ++ [SP]). split; [apply clean_app; [exact C | clean_text] |].
  intros ts s q2 R. cbn [app]. rewrite <- app_assoc. cbn [app]. change (w ++ SP :: s) with ([] ++ w ++ SP :: s).
  eapply wr_token; [apply empty_gap | exact W | apply F | apply written_space; assumption].
Qed.
Lemma seg_cons q x q' ts q2 : step_tok q x q' -> seg q' ts q2 -> seg q (x :: ts) q2.
Proof. intros A B. exact (seg_app q [x] q' ts q2 (seg_tok q x q' A) B). Qed.
Lemma seg_all q ts : Forall (fun x => step_tok q x q) ts -> seg q ts q.
Proof. induction 1 as [| x l X H IH]; [apply seg_nil | exact (seg_cons q x q l q X IH)]. Qed.
Lemma seg_flat {A} q (f : A -> list (token * text)) l : Forall (fun x => seg q (f x) q) l -> seg q (flat_map f l) q.
Proof. induction 1 as [| x l' X H IH]; [apply seg_nil | cbn [flat_map]; exact (seg_app q _ q _ q X IH)]. Qed.

(** ** Tokens between rules and in them *)
Ltac in_list := cbn [In chars]; repeat (first [left; reflexivity | right]).
Lemma no_space_bound a b s s' : ~ In SP b -> a ++ SP :: s = b ++ s' -> List.length b <= List.length a.
Proof.
  revert b. induction a as [| d a IH]; intros b N E.
  - destruct b as [| e b]; [apply Nat.le_refl |]. exfalso. apply N. cbn [app] in E. injection E as <- _. left. reflexivity.
  - destruct b as [| e b]; [cbn [List.length]; lia |]. cbn [app] in E. injection E as _ E. cbn [List.length]. apply le_n_S. apply IH; [| exact E].
    intro J. apply N. right. exact J.
Qed.
Lemma keyword_space k' n : In (k', n) keywords -> ~ In SP (chars k').
Proof.
  intro H. assert (A : forallb (fun x => forallb (fun d => negb (Ascii.eqb d SP)) (chars (fst x))) keywords = true) by (vm_compute; reflexivity).
  rewrite forallb_forall in A. specialize (A _ H). cbn [fst] in A. rewrite forallb_forall in A. intro J. specialize (A _ J). discriminate A.
Qed.
Lemma keyword_clean k' n : In (k', n) keywords -> clean (chars k').
Proof.
  intro H. assert (A : forallb (fun x => cleanb (chars (fst x))) keywords = true) by (vm_compute; reflexivity).
  rewrite forallb_forall in A. apply clean_b. exact (A _ H).
Qed.
Lemma tok_keyword p k' n : In (k', n) keywords ->
  step_tok (INITIAL, p) (Tok n, [])
    (if String.eqb k' "%parserclass" || String.eqb k' "%lexerclass" then PARSERCLASS else INITIAL,
     if String.eqb k' "%<" then RuleBody else if String.eqb k' "%>" then RuleFooter else if String.eqb k' "%lexer" then RuleLexer else p).
Proof.
  intro H. eexists _, _. split; [apply w_keyword; exact H |]. split; [exact (keyword_clean k' n H) |]. split.
  - intro s. split; [exists (SP :: s); reflexivity |]. intros k2 n2 s2 J E. exact (no_space_bound _ _ _ _ (keyword_space k2 n2 J) E).
  - apply spaced_gap. cbn [fst]. destruct (String.eqb k' "%parserclass" || String.eqb k' "%lexerclass"); auto.
Qed.
(** [keyword i]: the keyword at place [i]. *)
Definition kw (i : nat) := nth i keywords (""%string, ""%string).
Lemma tok_kw p i : i < List.length keywords -> step_tok (INITIAL, p) (Tok (snd (kw i)), [])
    (if String.eqb (fst (kw i)) "%parserclass" || String.eqb (fst (kw i)) "%lexerclass" then PARSERCLASS else INITIAL,
     if String.eqb (fst (kw i)) "%<" then RuleBody else if String.eqb (fst (kw i)) "%>" then RuleFooter else if String.eqb (fst (kw i)) "%lexer" then RuleLexer else p).
Proof. intro L. apply tok_keyword. unfold kw. rewrite <- surjective_pairing. apply nth_In. exact L. Qed.
Ltac kword i := refine (tok_kw _ i _); vm_compute; lia.

Lemma over_space l : ~ In SP l -> forall s, over l (SP :: s).
Proof. intros N s. exact N. Qed.
Ltac no_space := apply over_space; let J := fresh in intro J; vm_compute in J; repeat (destruct J as [J | J]; [discriminate J |]); exact J.

Lemma tok_word p w : is_word w -> step_tok (INITIAL, p) (word_token w) (INITIAL, p).
Proof.
  intro H. eexists w, _. split; [apply w_word; exact H |]. split; [apply word_clean; exact H |]. split; [| apply spaced_gap; auto].
  intro s. split; [revert s; no_space |]. intros (_ & u & [E | E]); discriminate E.
Qed.
Lemma upper_forallb w : forallb (fun c => if in_dec ascii_dec c UPPER then true else false) w = true <-> all_in UPPER w.
Proof.
  rewrite forallb_forall. split; intros H d D; specialize (H d D); destruct (in_dec ascii_dec d UPPER); try assumption; try discriminate; try reflexivity; contradiction.
Qed.
Lemma tok_identifier p x : identifier x -> step_tok (INITIAL, p) (Tok "T_IDENTIFIER", x) (INITIAL, p).
Proof.
  intros (W & U & N). replace (Tok "T_IDENTIFIER", x) with (word_token x); [apply tok_word; exact W |]. unfold word_token.
  destruct (forallb _ x) eqn:E; [exfalso; apply U, upper_forallb, E |]. destruct (text_dec x (chars "catch")); [contradiction | reflexivity].
Qed.
Lemma terminal_word x : terminal x -> is_word x.
Proof.
  intros [NE A]. destruct x as [| d u]; [contradiction |]. exists d, u. split; [reflexivity |]. split.
  - apply in_or_app. left. apply A. left. reflexivity.
  - intros e E. apply in_or_app. left. apply A. right. exact E.
Qed.
Lemma tok_terminal p x : terminal x -> step_tok (INITIAL, p) (Tok "T_TERMINAL", x) (INITIAL, p).
Proof.
  intros T. replace (Tok "T_TERMINAL", x) with (word_token x); [apply tok_word, terminal_word, T |]. unfold word_token.
  destruct T as [_ A]. apply upper_forallb in A. rewrite A. reflexivity.
Qed.
Lemma tok_catch p : step_tok (INITIAL, p) (Tok "T_CATCH", []) (INITIAL, p).
Proof.
  change (Tok "T_CATCH", []) with (word_token (chars "catch")). apply tok_word. exists "c"%char, (chars "atch"). split; [reflexivity |]. split.
  - apply in_or_app. right. in_list.
  - intros d D. apply in_or_app. right. apply in_or_app. left. cbn [chars In] in D. repeat (destruct D as [<- | D]; [in_list |]). destruct D.
Qed.
Lemma tok_zero p : step_tok (INITIAL, p) (Chr "0", []) (INITIAL, p).
Proof.
  eexists (chars "0"), _. split; [apply (w_number p (chars "0")); split; [discriminate | intros d [<- | []]; left; reflexivity] |].
  split; [clean_text |]. split; [no_space | apply spaced_gap; auto].
Qed.
Lemma tok_number p x : is_number x -> x <> chars "0" -> step_tok (INITIAL, p) (Tok "T_NUMBER", x) (INITIAL, p).
Proof.
  intros H N. replace (Tok "T_NUMBER", x) with (number_token x) by (unfold number_token; destruct (text_dec x (chars "0")); [contradiction | reflexivity]).
  eexists x, _. split; [apply w_number; exact H |]. split; [apply (clean_in DIGITS); [reflexivity | exact (proj2 H)] |]. split; [no_space | apply spaced_gap; auto].
Qed.
Lemma tok_char p d : In d (chars "(){},#:=+*?@|&") -> step_tok (INITIAL, p) (Chr d, []) (INITIAL, p).
Proof.
  intro H. eexists [d], _. split; [apply w_char; exact H |]. split.
  - apply (clean_in (chars "(){},#:=+*?@|&")); [reflexivity |]. intros e [<- | []]; exact H.
  - split; [exact (fun _ => I) | apply spaced_gap; auto].
Qed.
Ltac char_tok := apply tok_char; in_list.
Lemma tok_semicolon p : step_tok (INITIAL, p) (Chr ";", []) (INITIAL, RuleBody).
Proof. eexists (repeat ";"%char 1), _. split; [apply w_semicolon |]. split; [clean_text |]. split; [no_space | apply spaced_gap; auto]. Qed.
Lemma tok_fixed p x w : writes (INITIAL, p) x w any (INITIAL, p) -> cleanb w = true -> step_tok (INITIAL, p) x (INITIAL, p).
Proof. intros W C. exists w, any. split; [exact W |]. split; [apply clean_b; exact C |]. split; [exact (fun _ => I) | apply spaced_gap; auto]. Qed.
Lemma tok_inline p : step_tok (INITIAL, p) (Tok "T_INLINE", []) (INITIAL, p).
Proof. eapply tok_fixed; [apply w_inline | reflexivity]. Qed.
Lemma tok_recover p : step_tok (INITIAL, p) (Tok "T_TRY_RECOVER", []) (INITIAL, p).
Proof. eapply tok_fixed; [apply w_recover | reflexivity]. Qed.
Lemma tok_rollback p : step_tok (INITIAL, p) (Tok "T_TRY_ROLLBACK", []) (INITIAL, p).
Proof. eapply tok_fixed; [apply w_rollback | reflexivity]. Qed.
Lemma tok_arrow : step_tok outer (Tok "T_ARROW", []) (INITIAL, RuleFooter).
Proof. exists (chars "->"), any. split; [apply w_arrow; discriminate |]. split; [clean_text |]. split; [exact (fun _ => I) | apply spaced_gap; auto]. Qed.
Lemma tok_string m p v : m = INITIAL \/ m = RULE_LEXER -> string_text v -> step_tok (m, p) (Tok "T_STRING", v) (m, p).
Proof.
  intros M [B C]. eexists _, any. split; [apply w_string; assumption |]. split; [| split; [exact (fun _ => I) | apply spaced_gap; cbn [fst]; tauto]].
  apply clean_app; [clean_text |]. apply clean_app; [exact C | clean_text].
Qed.
Lemma tok_code m p v : m = INITIAL \/ m = RULE_LEXER -> code_text v -> step_tok (m, p) (Tok "T_CODE", v) (match p with RuleLexer => RULE_LEXER | _ => INITIAL end, p).
Proof.
  intros M [B C]. eexists _, any. split; [apply w_code; assumption |]. split; [| split; [exact (fun _ => I) | apply spaced_gap; cbn [fst]; destruct p; tauto]].
  apply clean_app; [clean_text |]. apply clean_app; [exact C | clean_text].
Qed.
Lemma tok_arguments v : argument_text v -> step_tok outer (Tok "T_RULE_ARGUMENTS", v) outer.
Proof.
  intros (P & N & C). eexists _, any. split; [apply w_arguments; assumption |]. split; [| split; [exact (fun _ => I) | apply spaced_gap; auto]].
  apply clean_app; [clean_text |]. apply clean_app; [exact C | clean_text].
Qed.

(** ** Right sides *)
Definition tok_ok (x : token * text) : Prop := step_tok outer x outer.
Lemma f_app (a b : list (token * text)) (P : token * text -> Prop) : Forall P a -> Forall P b -> Forall P (a ++ b).
Proof. intros A B. apply Forall_app. auto. Qed.
Lemma f_one (x : token * text) (P : token * text -> Prop) : P x -> Forall P [x].
Proof. intro H. constructor; [exact H | constructor]. Qed.
Lemma f_code v : code_text v -> Forall tok_ok (code v).
Proof. intro H. apply f_one. exact (tok_code INITIAL RuleBody v (or_introl eq_refl) H). Qed.
Lemma f_char d : In d (chars "(){},#:=+*?@|&") -> Forall tok_ok (c d).
Proof. intro H. apply f_one, tok_char, H. Qed.
Lemma f_opt {A} (f : A -> tokens_) (P : A -> Prop) o : (forall x, P x -> Forall tok_ok (f x)) -> if_any P o -> Forall tok_ok (opt f o).
Proof. intros F H. destruct o as [x |]; [apply F, H | constructor]. Qed.
Lemma f_inside n m ts : Forall tok_ok ts -> Forall tok_ok (inside "(" ")" n m ts).
Proof. intro H. unfold inside. destruct (Nat.ltb m n); [| exact H]. apply f_app; [apply f_char; in_list |]. apply f_app; [exact H | apply f_char; in_list]. Qed.
Lemma f_atom a : atom_legible a -> Forall tok_ok (ashow_atom a).
Proof.
  destruct a as [x | x args]; cbn [atom_legible ashow_atom]; intro H.
  - apply f_one, tok_terminal, H.
  - destruct H as [H1 H2]. apply f_app; [apply f_one, tok_identifier, H1 |]. apply (f_opt _ argument_text); [| exact H2]. intros v V. apply f_one, tok_arguments, V.
Qed.
Ltac pieces := repeat first [apply f_app | apply f_inside | apply f_atom; assumption | apply f_code; assumption | apply f_char; solve [in_list] | assumption].
Lemma f_item i : i_legible i -> Forall tok_ok (ishow i).
Proof.
  induction i; cbn [i_legible ishow]; intro L; try match type of L with _ /\ _ => destruct L as [L1 L2] end; pieces; auto.
  - apply f_one, tok_zero.
  - apply f_one, tok_inline.
  - apply f_one, tok_identifier. assumption.
  - destruct seq; [apply f_char; in_list | constructor].
  - apply f_one, tok_identifier. assumption.
  - destruct member; apply f_char; in_list.
  - apply f_one, tok_recover.
  - apply f_one, tok_rollback.
  - apply f_one, tok_catch.
  - destruct (code_first i2); pieces; auto.
Qed.

(** ** Variables *)
Definition footer : context := (INITIAL, RuleFooter).
Definition header : context := (RULE_PARAMETERS_HEADER, RuleFooter).
Lemma spaced_header : spaced (fst header).
Proof. apply spaced_gap. auto. Qed.
Lemma tok_open : step_tok footer (Chr "[", []) header.
Proof. eexists (chars "["), _. split; [apply w_open |]. split; [clean_text |]. split; [no_space | exact spaced_header]. Qed.
Lemma tok_close : step_tok header (Chr "]", []) footer.
Proof. eexists (chars "]"), _. split; [apply w_close |]. split; [clean_text |]. split; [exact (fun _ => I) | apply spaced_gap; auto]. Qed.
Lemma tok_header w : w <> [] -> all_in WORD w -> step_tok header (header_token w) header.
Proof.
  intros NE A. eexists w, _. split; [apply w_header; assumption |]. split; [apply (clean_in WORD); [reflexivity | exact A] |]. split; [no_space | exact spaced_header].
Qed.
Lemma all_in_b l w : forallb (among l) w = true -> all_in l w.
Proof. intros H d D. rewrite forallb_forall in H. apply among_in, H, D. Qed.
Lemma tok_header_word i : i < List.length header_words -> step_tok header (Tok (snd (nth i header_words (""%string, ""%string))), []) header.
Proof.
  intro L. set (x := nth i header_words (""%string, ""%string)).
  assert (E : header_token (chars (fst x)) = (Tok (snd x), []) /\ chars (fst x) <> [] /\ forallb (among WORD) (chars (fst x)) = true).
  { unfold x. clear x. do 6 (destruct i as [| i]; [vm_compute; repeat split; discriminate |]). cbn [List.length header_words] in L. lia. }
  destruct E as (<- & NE & A). apply tok_header; [exact NE | apply all_in_b; exact A].
Qed.
Ltac hword i := refine (tok_header_word i _); vm_compute; lia.
Lemma tok_variable x : variable_name x -> step_tok header (Tok "T_IDENTIFIER", x) header.
Proof.
  intros (NE & A & N). replace (Tok "T_IDENTIFIER", x) with (header_token x); [apply tok_header; assumption |]. unfold header_token.
  destruct (find _ header_words) as [[k' n] |] eqn:F; [exfalso | reflexivity]. apply find_some in F. destruct F as [F E]. cbn [fst] in E.
  destruct (text_dec x (chars k')) as [X |]; [exact (N k' n F X) | discriminate E].
Qed.
Lemma tok_hash d : In d (chars "#;") -> step_tok header (Chr d, []) header.
Proof.
  intro H. eexists [d], _. split; [apply w_header_char; exact H |]. split.
  - apply (clean_in (chars "#;")); [reflexivity |]. intros e [<- | []]; exact H.
  - split; [exact (fun _ => I) | exact spaced_header].
Qed.
Lemma seg_type x : type_text x -> seg header (c ":" ++ t "T_IDENTIFIER" x) header.
Proof.
  intros (N & L & O & C). exists (chars ":" ++ x ++ [";"%char; SP]). split; [apply clean_app; [clean_text |]; apply clean_app; [exact C | clean_text] |].
  intros ts s q W. unfold c, t. cbn [app chars]. change (":"%char :: (x ++ [";"%char; SP]) ++ s) with ([] ++ [":"%char] ++ (x ++ [";"%char; SP]) ++ s).
  eapply wr_token; [apply empty_gap | apply (w_colon RuleFooter []); intros ? [] | |].
  - rewrite <- app_assoc. destruct x as [| d x]; [cbn [List.length] in L; lia | exact O].
  - replace ((x ++ [";"%char; SP]) ++ s) with ([] ++ (x ++ [";"%char]) ++ SP :: s) by (cbn [app]; rewrite <- !app_assoc; reflexivity).
    eapply wr_token; [reflexivity | apply w_type; assumption | exact I | apply written_space; [exact spaced_header | exact W]].
Qed.
Lemma seg_if q (b : bool) ts : seg q ts q -> seg q (if b then ts else []) q.
Proof. destruct b; [auto | intros _; apply seg_nil]. Qed.
Lemma seg_opt {A} q (f : A -> tokens_) (P : A -> Prop) o : (forall x, P x -> seg q (f x) q) -> if_any P o -> seg q (opt f o) q.
Proof. intros F H. destruct o as [x |]; [apply F, H | apply seg_nil]. Qed.
Lemma seg_var d : v_legible d -> seg header (vshow d) header.
Proof.
  intros [N T]. unfold vshow. apply (seg_app _ _ header); [apply seg_if, seg_tok; hword 2 |].
  apply (seg_app _ _ header); [apply seg_tok; destruct (vmem d); [hword 0 | hword 1] |].
  apply (seg_app _ _ header); [apply seg_tok; destruct (vtyp d) as [[[] x] |]; [hword 3 | hword 5 | hword 4] |].
  apply (seg_app _ _ header); [apply seg_if, seg_tok, tok_hash; in_list |].
  apply (seg_app _ _ header); [apply seg_tok, tok_variable, N |].
  destruct (vtyp d) as [[n x] |]; [apply seg_type; exact T | apply seg_tok, tok_hash; in_list].
Qed.
Lemma seg_vars d l : Forall v_legible (d :: l) -> seg footer (vars_show d l) footer.
Proof.
  intro H. unfold vars_show. apply (seg_app _ _ header); [apply seg_tok, tok_open |].
  apply (seg_app _ _ header); [| apply seg_tok, tok_close]. apply seg_flat. apply (Forall_impl _ seg_var H).
Qed.
Lemma seg_code p v : p <> RuleLexer -> code_text v -> seg (INITIAL, p) (code v) (INITIAL, p).
Proof. intros P H. apply seg_tok. pose proof (tok_code INITIAL p v (or_introl eq_refl) H) as T. destruct p; [exact T | exact T | contradiction]. Qed.
Lemma seg_foot f : foot_legible f -> seg footer (foot_show f) footer.
Proof.
  assert (SC : forall v, code_text v -> seg footer (code v) footer) by (intros v V; apply seg_code; [discriminate | exact V]).
  destruct f as [x | d l x | x d l]; cbn [foot_legible foot_show].
  - apply seg_opt. exact SC.
  - intros [V C]. apply (seg_app _ _ footer); [apply seg_vars, V | apply (seg_opt _ _ code_text); [exact SC | exact C]].
  - intros [V C]. apply (seg_app _ _ footer); [apply SC, C | apply seg_vars, V].
Qed.

(** ** Rules *)
Lemma f_op o : o_legible o -> Forall tok_ok (oshow o).
Proof.
  intros (A & B & C). unfold oshow. apply f_app; [| apply f_app].
  - apply (f_opt _ code_text); [| exact A]. intros x X. pieces.
  - apply f_one, tok_terminal, B.
  - apply (f_opt _ code_text); [| exact C]. intros x X. pieces.
Qed.
Lemma f_priority p : p_legible p -> Forall tok_ok (pshow p).
Proof.
  destruct p as [| x | x]; cbn [p_legible pshow]; intro H.
  - apply f_one, tok_zero.
  - destruct H. apply f_one, tok_number; assumption.
  - apply f_app; [apply f_one; kword 25 | apply f_code, H].
Qed.
Lemma f_assoc a : s_legible a -> Forall tok_ok (sshow a).
Proof.
  destruct a as [| | x | x]; cbn [s_legible sshow]; intro H.
  - apply f_one; kword 28.
  - apply f_one; kword 29.
  - apply f_app; [apply f_one; kword 30 | apply f_code, H].
  - apply f_app; [apply f_one; kword 31 | apply f_code, H].
Qed.
Lemma f_ops o : ops_legible o -> Forall tok_ok (ops_show o).
Proof.
  destruct o as [o p a | o q p a | o p | o p a | o q]; cbn [ops_legible ops_show]; intro H.
  - destruct H as (A & B & C). apply f_app; [apply f_one; kword 20 |]. apply f_app; [apply f_op, A |]. apply f_app; [apply f_priority, B | apply f_assoc, C].
  - destruct H as (A & A' & B & C). apply f_app; [apply f_one; kword 23 |]. apply f_app; [apply f_op, A |]. apply f_app; [apply f_op, A' |].
    apply f_app; [apply f_priority, B | apply f_assoc, C].
  - destruct H as (A & B). apply f_app; [apply f_one; kword 21 |]. apply f_app; [apply f_op, A | apply f_priority, B].
  - destruct H as (A & B & C). apply f_app; [apply f_one; kword 22 |]. apply f_app; [apply f_op, A |]. apply f_app; [apply f_priority, B |].
    apply (f_opt _ s_legible); [exact f_assoc | exact C].
  - destruct H as (A & B). apply f_app; [apply f_one; kword 24 |]. apply f_app; [apply f_op, A | apply f_op, B].
Qed.
Lemma seg_rule r : rule_legible r -> seg outer (rule_show r) outer.
Proof.
  destruct r as [i x f | b args l x f]; cbn [rule_legible rule_show]; intro H.
  - destruct H as (I & X & F). apply (seg_app _ _ outer); [apply seg_all, f_item, I |].
    apply (seg_app _ _ footer); [apply seg_tok, tok_arrow |]. apply (seg_app _ _ footer); [apply seg_tok, tok_identifier, X |].
    apply (seg_app _ _ footer); [apply seg_foot, F | apply seg_tok, tok_semicolon].
  - destruct H as (B & A & O & X & F). apply (seg_app _ _ outer); [apply seg_tok; kword 26 |].
    apply (seg_app _ _ outer); [apply seg_all, f_atom; split; assumption |].
    apply (seg_app _ _ outer); [apply seg_flat; apply (Forall_impl _ (fun o H => seg_all _ _ (f_ops o H)) O) |].
    apply (seg_app _ _ footer); [apply seg_tok; kword 27 |]. apply (seg_app _ _ footer); [apply seg_tok, tok_identifier, X |].
    apply (seg_app _ _ footer); [apply seg_foot, F | apply seg_tok, tok_semicolon].
Qed.

(** ** Lexer rules *)
Definition inner_lexer : context := (RULE_LEXER, RuleLexer).
Definition calm_text (s : text) : Prop := forall g u, gap g -> s <> g ++ ";"%char :: u.
Definition solid (d : ascii) : bool := proper d && negb (Ascii.eqb d ";").
Lemma calm_head d s : solid d = true -> calm_text (d :: s).
Proof.
  intros H g u G E. unfold solid in H. apply andb_true_iff in H. destruct H as [P N]. destruct g as [| e g].
  - cbn [app] in E. injection E as -> _. discriminate N.
  - cbn [app] in E. injection E as -> _. destruct (gap_cases e g G) as [[C _] | (w & d & g' & X & _)].
    + unfold proper in P. apply negb_true_iff in P. assert (A : among ("-"%char :: [SP; FF; TAB; CR; LF]) e = true) by (apply among_in; right; exact C). congruence.
    + cbn [chars app] in X. injection X as -> _. discriminate P.
Qed.
Lemma calm_arrow s : calm_text (chars "->" ++ s).
Proof.
  intros g u G E. destruct g as [| e g]; [discriminate E |]. cbn [app chars] in E. injection E as <- E.
  destruct (gap_cases _ g G) as [[C _] | (w & d & g' & X & _)].
  - cbn [In] in C. repeat (destruct C as [C | C]; [discriminate C |]). exact C.
  - cbn [chars app] in X. injection X as ->. discriminate E.
Qed.
Lemma calm_space s : calm_text s -> calm_text (SP :: s).
Proof.
  intros H g u G E. destruct g as [| e g]; [discriminate E |]. cbn [app] in E. injection E as <- E.
  apply (H g u); [apply (gap_tail SP); [left; reflexivity | exact G] | exact E].
Qed.
Lemma calm_end s : calm_text s -> ~ ends_rule s.
Proof.
  intros H (b & u & B & ->). apply (H b u); [| reflexivity]. clear H. induction b as [| d b IH]; [apply g_nil |].
  apply gap_char; [apply B; left; reflexivity | apply IH; intros e E; apply B; right; exact E].
Qed.

Definition lexer_tok (x : token * text) : Prop :=
  exists w follow, writes inner_lexer x w follow inner_lexer /\ clean w /\ (forall s, calm_text s -> follow (SP :: s)) /\ forall s, calm_text (w ++ s).
(** Tokens a semicolon may follow. *)
Definition close_tok (x : token * text) : Prop :=
  exists w follow, writes inner_lexer x w follow inner_lexer /\ clean w /\ (forall s, follow (SP :: ";"%char :: s)) /\ forall s, calm_text (w ++ s).
Lemma spaced_lexer : spaced (fst inner_lexer).
Proof. apply spaced_gap. auto. Qed.
Lemma lexer_list ts : Forall lexer_tok ts -> exists s0, clean s0 /\ (forall s, calm_text s -> calm_text (s0 ++ s)) /\
  forall ts' s q, written inner_lexer ts' s q -> calm_text s -> written inner_lexer (ts ++ ts') (s0 ++ s) q.
Proof.
  induction 1 as [| x ts (w & follow & W & C & F & N) H (s0 & C0 & N0 & R)]; [exists []; split; [clean_text | auto] |].
  exists (w ++ SP :: s0). split; [apply clean_app; [exact C |]; apply clean_cons; [reflexivity | exact C0] |].
  split; [intros s _; rewrite <- app_assoc; apply N |]. intros ts' s q Ws Cs. rewrite <- app_assoc. cbn [app].
  change (w ++ SP :: s0 ++ s) with ([] ++ w ++ SP :: s0 ++ s).
  eapply wr_token; [apply empty_gap | exact W | apply F, N0, Cs | apply written_space; [exact spaced_lexer | apply R; assumption]].
Qed.
Lemma lexer_close ts x : Forall lexer_tok ts -> close_tok x -> exists s0, clean s0 /\ (forall s, calm_text (s0 ++ s)) /\
  forall ts' z q, written inner_lexer (c ";" ++ ts') (";"%char :: z) q -> written inner_lexer ((ts ++ [x]) ++ c ";" ++ ts') (s0 ++ ";"%char :: z) q.
Proof.
  intros H (w & follow & W & C & F & N). destruct (lexer_list ts H) as (s0 & C0 & N0 & R).
  exists (s0 ++ w ++ [SP]). split; [repeat apply clean_app; try assumption; clean_text |]. split.
  - intro s. rewrite <- !app_assoc. apply N0, N.
  - intros ts' z q Wz. rewrite <- !app_assoc. apply R; [| apply N]. cbn [app]. change (w ++ SP :: ";"%char :: z) with ([] ++ w ++ SP :: ";"%char :: z).
    eapply wr_token; [apply empty_gap | exact W | apply F | apply written_space; [exact spaced_lexer | exact Wz]].
Qed.

(** Tokens that anything with a blank in front may follow. *)
Definition easy_tok (x : token * text) : Prop := lexer_tok x /\ close_tok x.
Lemma easy x w follow : writes inner_lexer x w follow inner_lexer -> clean w -> (forall s, follow (SP :: s)) -> (forall s, calm_text (w ++ s)) -> easy_tok x.
Proof. intros W C F N. split; exists w, follow; auto. Qed.
Lemma easy_char d : In d (chars "]()?|^&~*+@.") -> easy_tok (Chr d, []).
Proof.
  intro H. apply (easy _ [d] any); [apply w_lexer_char; exact H | | exact (fun _ => I) |].
  - apply (clean_in (chars "]()?|^&~*+@.")); [reflexivity |]. intros e [<- | []]; exact H.
  - intro s. apply calm_head. cbn [In chars] in H. repeat (destruct H as [<- | H]; [reflexivity |]). destruct H.
Qed.
Lemma easy_open : easy_tok (Chr "[", []).
Proof. eapply easy; [apply w_lexer_open | clean_text | no_space |]. intro s. apply calm_head. reflexivity. Qed.
Lemma easy_arrow : easy_tok (Tok "T_ARROW", []).
Proof. eapply easy; [apply w_lexer_names | clean_text | exact (fun _ => I) | exact calm_arrow]. Qed.
Lemma easy_word k' n : In (k', n) lexer_words -> easy_tok (Tok n, []).
Proof.
  intro H. eapply easy; [apply (w_lexer_word _ k'); exact H | | exact (fun _ => I) |].
  - cbn [In lexer_words] in H. repeat (destruct H as [H | H]; [injection H as <- <-; clean_text |]). destruct H.
  - intro s. cbn [In lexer_words] in H. repeat (destruct H as [H | H]; [injection H as <- <-; apply calm_head; reflexivity |]). destruct H.
Qed.
Lemma easy_string v : string_text v -> easy_tok (Tok "T_STRING", v).
Proof.
  intros [B C]. eapply easy; [apply w_string; [right; reflexivity | exact B] | | exact (fun _ => I) |].
  - apply clean_app; [clean_text |]. apply clean_app; [exact C | clean_text].
  - intro s. apply calm_head. reflexivity.
Qed.
Lemma easy_code v : code_text v -> easy_tok (Tok "T_CODE", v).
Proof.
  intros [B C]. eapply easy; [apply (w_code RULE_LEXER RuleLexer); [right; reflexivity | exact B] | | exact (fun _ => I) |].
  - apply clean_app; [clean_text |]. apply clean_app; [exact C | clean_text].
  - intro s. apply calm_head. reflexivity.
Qed.
Lemma easy_name v : is_word v -> easy_tok (Tok "T_NAMED_REGEXP", v).
Proof.
  intro H. eapply easy; [apply w_lexer_name; exact H | | exact (fun _ => I) |].
  - apply clean_app; [clean_text |]. apply clean_app; [apply word_clean, H | clean_text].
  - intro s. apply calm_head. reflexivity.
Qed.
Lemma word_solid d : In d WORD -> solid d = true.
Proof.
  intro H. apply word_in in H. revert H. generalize d. clear d. assert (A : forall d, (negb (word_ d) || solid d) = true) by (apply for_chars; vm_compute; reflexivity).
  intros d H. specialize (A d). rewrite H in A. exact A.
Qed.
Lemma spelling_calm v s : v <> [] -> spelling v -> calm_text (v ++ s).
Proof.
  intros NE H. destruct v as [| d v]; [contradiction |]. apply calm_head. apply spelling_inv in H. destruct H as [[C _] | [-> _]]; [apply word_solid, C | reflexivity].
Qed.
Lemma easy_range a b : single a -> single b -> easy_tok (Tok "T_RANGE", a ++ "-"%char :: b).
Proof.
  intros A B. eapply easy; [apply w_lexer_range; assumption | | no_space |].
  - apply clean_app; [apply single_clean, A |]. apply clean_cons; [reflexivity | apply single_clean, B].
  - intro s. rewrite <- app_assoc. apply single_char, char_piece in A. destruct A as [(d & -> & D) | (d & ds & -> & _)]; apply calm_head; [apply word_solid, word_in, D | reflexivity].
Qed.
Lemma lexer_word v : v <> [] -> spelling v -> lexer_tok (Tok "T_UNQUOTED_STRING", v) /\ (close_tok (Tok "T_UNQUOTED_STRING", v) \/ all_in WORD v).
Proof.
  intros NE H. split.
  - eexists v, _. split; [apply w_lexer_string; assumption |]. split; [apply spelling_clean, H |]. split; [| intro s; apply spelling_calm; assumption].
    intros s Cs. split; [revert s Cs; intros s _; revert s; no_space |]. intros _. apply calm_end, calm_space, Cs.
  - destruct (forallb word_ v) eqn:E; [right | left].
    + intros d D. rewrite forallb_forall in E. apply word_in, E, D.
    + eexists v, _. split; [apply w_lexer_string; assumption |]. split; [apply spelling_clean, H |]. split; [| intro s; apply spelling_calm; assumption].
      intros s. split; [generalize (";"%char :: s); no_space |]. intros A. exfalso. assert (T : forallb word_ v = true) by (apply all_word, A). congruence.
Qed.
Lemma close_name v : v <> [] -> all_in WORD v -> ~ all_in UPPER v -> close_tok (Tok "T_IDENTIFIER", v).
Proof.
  intros NE A U. eexists v, _. split; [apply w_lexer_identifier; assumption |]. split; [apply (clean_in WORD); [reflexivity | exact A] |]. split.
  - intro s. exists [SP], s. split; [intros d [<- | []]; left; reflexivity | reflexivity].
  - intro s. apply spelling_calm; [exact NE | apply spelling_word, all_word, A].
Qed.
Lemma upper_all_word v : all_in UPPER v -> all_in WORD v.
Proof. intros A d D. apply in_or_app. left. apply A, D. Qed.
Lemma close_terminal v : terminal v -> close_tok (Tok "T_TERMINAL", v).
Proof.
  intros [NE A]. eexists v, _. split; [apply w_lexer_terminal; assumption |]. split; [apply (clean_in UPPER); [reflexivity | exact A] |]. split.
  - intro s. exists [SP], s. split; [intros d [<- | []]; left; reflexivity | reflexivity].
  - intro s. apply spelling_calm; [exact NE | apply spelling_word, all_word, upper_all_word, A].
Qed.

Definition rx_tok (x : token * text) : Prop := lexer_tok x /\ (close_tok x \/ exists v, x = (Tok "T_UNQUOTED_STRING", v) /\ all_in WORD v).
Lemma rx_easy x : easy_tok x -> rx_tok x.
Proof. intros [A B]. split; auto. Qed.
Lemma rx_char d : In d (chars "[]()?|^&~*+@.") -> Forall rx_tok (c d).
Proof. intros [<- | H]; apply f_one, rx_easy; [apply easy_open | apply easy_char, H]. Qed.
Lemma rx_inside l r n m ts : In l (chars "[(") -> In r (chars "])") -> Forall rx_tok ts -> Forall rx_tok (inside l r n m ts).
Proof.
  intros Hl Hr H. unfold inside. destruct (Nat.ltb m n); [| exact H].
  apply f_app; [apply rx_char; destruct Hl as [<- | [<- | []]]; in_list |]. apply f_app; [exact H | apply rx_char; destruct Hr as [<- | [<- | []]]; in_list].
Qed.
Lemma rx_word v : v <> [] /\ spelling v -> Forall rx_tok (t "T_UNQUOTED_STRING" v).
Proof. intros [NE H]. apply f_one. destruct (lexer_word v NE H) as [A [B | B]]; split; [exact A | auto | exact A |]. right. exists v. auto. Qed.
Ltac rx_pieces := repeat first [apply f_app | apply rx_inside; [solve [in_list] | solve [in_list] |] | apply rx_char; solve [in_list] | assumption].
Lemma rx_both : (forall x, r_legible x -> Forall rx_tok (rshow x)) /\ (forall x, a_legible x -> Forall rx_tok (ashow x)).
Proof.
  apply src_both; intros; try (match goal with H : r_legible _ |- _ => cbn [r_legible] in H | H : a_legible _ |- _ => cbn [a_legible] in H end); cbn [rshow ashow];
    repeat match goal with H : ?A -> Forall rx_tok _, J : ?A |- _ => specialize (H J) end;
    try (match goal with H : r_legible _ /\ r_legible _ |- _ => destruct H as [L1 L2] | H : a_legible _ /\ a_legible _ |- _ => destruct H as [L1 L2] end;
         repeat match goal with H : ?A -> Forall rx_tok _, J : ?A |- _ => specialize (H J) end);
    rx_pieces.
  - apply f_one, rx_easy, easy_string; assumption.
  - apply rx_word; assumption.
  - apply f_one, rx_easy, easy_name; assumption.
  - apply f_one, rx_easy, easy_string; assumption.
  - match goal with H : exists _ _, _ |- _ => destruct H as (a & b & A & B & ->) end. apply f_one, rx_easy, easy_range; assumption.
  - apply rx_word; assumption.
  - apply f_one, rx_easy, easy_name; assumption.
Qed.
Lemma rx_legible x : r_legible x -> Forall rx_tok (rshow x).
Proof. apply rx_both. Qed.
Lemma rx_list ts : Forall rx_tok ts -> Forall lexer_tok ts.
Proof. apply Forall_impl. intros x H. apply H. Qed.
Lemma rshow_some x : rshow x <> [].
Proof.
  assert (A : forall n m ts, ts <> [] -> inside "(" ")" n m ts <> []) by (intros n m ts H; unfold inside; destruct (Nat.ltb m n); [discriminate | exact H]).
  induction x; cbn [rshow]; try discriminate; intro E; repeat (apply app_eq_nil in E; destruct E as [E ?]); try discriminate; eapply A; try eassumption.
Qed.

Definition ruled (l : lsrc) : Prop := exists body, lshow l = body ++ c ";" /\ exists s0, clean s0 /\ (forall s, calm_text (s0 ++ s)) /\
  forall ts' z q, written inner_lexer (c ";" ++ ts') (";"%char :: z) q -> written inner_lexer (body ++ c ";" ++ ts') (s0 ++ ";"%char :: z) q.
Lemma close_ruled l ts x : lshow l = (ts ++ [x]) ++ c ";" -> Forall lexer_tok ts -> close_tok x -> ruled l.
Proof. intros E T X. exists (ts ++ [x]). split; [exact E | apply lexer_close; assumption]. Qed.
(** What follows the expression: code, and what to return. *)
Lemma ruled_tail l front o a : lshow l = front ++ opt code o ++ lashow a ++ c ";" -> Forall lexer_tok front -> if_any code_text o -> action_legible a ->
  (o = None -> a = Skip -> exists front' x, front = front' ++ [x] /\ close_tok x) -> ruled l.
Proof.
  intros E F O A L.
  assert (FO : Forall lexer_tok (opt code o)) by (destruct o as [v |]; [apply f_one; apply easy_code, O | constructor]).
  destruct a as [x | |]; cbn [lashow action_legible] in *.
  - apply (close_ruled l (front ++ opt code o) (Tok "T_TERMINAL", x)); [rewrite E, <- !app_assoc; reflexivity | apply f_app; assumption | apply close_terminal, A].
  - apply (close_ruled l (front ++ opt code o) (Tok "T_CONTINUE", [])); [rewrite E, <- !app_assoc; reflexivity | apply f_app; assumption |].
    apply (easy_word "%continue"). in_list.
  - cbn [app] in E. destruct o as [v |].
    + apply (close_ruled l front (Tok "T_CODE", v)); [rewrite E, <- !app_assoc; reflexivity | exact F | apply easy_code, O].
    + destruct (L eq_refl eq_refl) as (front' & x & -> & X). cbn [opt app] in E. apply (close_ruled l front' x); [exact E | | exact X].
      apply Forall_app in F. apply F.
Qed.
Lemma look_front n k' x y : In (k', n) lexer_words -> r_legible x -> r_legible y -> Forall lexer_tok (rshow x ++ k n ++ c "(" ++ rshow y ++ c ")").
Proof.
  intros K X Y. apply f_app; [apply rx_list, rx_legible, X |]. apply f_app; [apply f_one; apply (easy_word k'), K |].
  apply f_app; [apply f_one; apply easy_char; in_list |]. apply f_app; [apply rx_list, rx_legible, Y | apply f_one; apply easy_char; in_list].
Qed.
Lemma legible_ruled l : l_legible l -> has_semicolon l -> ruled l.
Proof.
  destruct l as [x n | x o a | x y o a | x y o a | v | v | v]; cbn [l_legible has_semicolon]; intros H S0; try contradiction.
  - destruct H as (X & NE & A & U). apply (close_ruled _ (rshow x ++ k "T_ARROW") (Tok "T_IDENTIFIER", n)).
    + cbn [lshow]. rewrite <- !app_assoc. reflexivity.
    + apply f_app; [apply rx_list, rx_legible, X | apply f_one, easy_arrow].
    + apply close_name; assumption.
  - destruct H as (X & O & A & N). apply (ruled_tail _ (rshow x) o a); [reflexivity | apply rx_list, rx_legible, X | exact O | exact A |].
    intros E1 E2. destruct (exists_last (rshow_some x)) as (front & y & E). exists front, y. split; [exact E |].
    pose proof (rx_legible x X) as R. rewrite E in R. apply Forall_app in R. destruct R as [_ R]. apply Forall_inv in R. destruct R as [_ [R | (v & -> & V)]]; [exact R |].
    exfalso. apply (N E1 E2). exists front, v. auto.
  - destruct H as (X & Y & O & A). apply (ruled_tail _ (rshow x ++ k "T_LOOKAHEAD" ++ c "(" ++ rshow y ++ c ")") o a).
    + cbn [lshow]. rewrite <- !app_assoc. reflexivity.
    + apply (look_front _ "%la"); [in_list | exact X | exact Y].
    + exact O.
    + exact A.
    + intros _ _. exists (rshow x ++ k "T_LOOKAHEAD" ++ c "(" ++ rshow y), (Chr ")", []). split; [rewrite <- !app_assoc; reflexivity | apply easy_char; in_list].
  - destruct H as (X & Y & O & A). apply (ruled_tail _ (rshow x ++ k "T_BARRIER" ++ c "(" ++ rshow y ++ c ")") o a).
    + cbn [lshow]. rewrite <- !app_assoc. reflexivity.
    + apply (look_front _ "%ba"); [in_list | exact X | exact Y].
    + exact O.
    + exact A.
    + intros _ _. exists (rshow x ++ k "T_BARRIER" ++ c "(" ++ rshow y), (Chr ")", []). split; [rewrite <- !app_assoc; reflexivity | apply easy_char; in_list].
Qed.

(** A rule that others follow. *)
Definition ongoing (ts : list (token * text)) : Prop := exists s0, clean s0 /\ (forall s, calm_text s -> calm_text (s0 ++ s)) /\
  forall ts' s q, written inner_lexer ts' s q -> calm_text s -> written inner_lexer (ts ++ ts') (s0 ++ s) q.
Lemma ruled_ongoing l : ruled l -> ongoing (lshow l).
Proof.
  intros (body & E & s0 & C & N & R). exists (s0 ++ [";"%char; SP]). split; [apply clean_app; [exact C | clean_text] |].
  split; [intros s _; rewrite <- app_assoc; apply N |]. intros ts' s q W Cs. rewrite E, <- !app_assoc. apply R. cbn [app].
  change (";"%char :: SP :: s) with ([] ++ repeat ";"%char 1 ++ SP :: s). unfold c. cbn [app].
  eapply (wr_token inner_lexer [] (Chr ";", []) (repeat ";"%char 1)); [apply empty_gap | apply w_lexer_semicolon | apply calm_space, Cs | apply written_space; [exact spaced_lexer | exact W]].
Qed.
Lemma ongoing_app a b : ongoing a -> ongoing b -> ongoing (a ++ b).
Proof.
  intros (s1 & C1 & N1 & R1) (s2 & C2 & N2 & R2). exists (s1 ++ s2). split; [apply clean_app; assumption |].
  split; [intros s H; rewrite <- app_assoc; apply N1, N2, H |]. intros ts' s q W Cs. rewrite <- !app_assoc. apply R1; [apply R2; assumption | apply N2, Cs].
Qed.
Lemma legible_ongoing l : l_legible l -> ongoing (lshow l).
Proof.
  intro H.
  assert (FK : forall n k' v, In (k', n) lexer_words -> code_text v -> ongoing (k n ++ code v)).
  { intros n k' v K V. apply lexer_list. apply f_app; apply f_one; [apply (easy_word k'), K | apply easy_code, V]. }
  destruct l as [x n | x o a | x y o a | x y o a | v | v | v]; try (apply ruled_ongoing, legible_ruled; [exact H | exact I]).
  - apply (FK "T_FAIL"%string "%fail"%string); [in_list | exact H].
  - apply (FK "T_ENTER_RULE_SET"%string "%enter"%string); [in_list | exact H].
  - apply (FK "T_LEAVE_RULE_SET"%string "%leave"%string); [in_list | exact H].
Qed.
Lemma all_ongoing l : Forall l_legible l -> ongoing (flat_map lshow l).
Proof.
  induction 1 as [| x l X H IH]; [exists []; split; [clean_text | auto] |]. cbn [flat_map]. apply ongoing_app; [apply legible_ongoing, X | exact IH].
Qed.
Lemma seg_lexer l x : Forall l_legible (l ++ [x]) -> has_semicolon x -> seg inner_lexer (flat_map lshow (l ++ [x]) ++ c ";") outer.
Proof.
  intros H S0. apply Forall_app in H. destruct H as [H1 H2]. apply Forall_inv in H2.
  destruct (all_ongoing l H1) as (s1 & C1 & _ & R1). destruct (legible_ruled x H2 S0) as (body & E & s2 & C2 & N2 & R2).
  exists (s1 ++ s2 ++ [";"%char; SP; ";"%char; SP]). split; [apply clean_app; [exact C1 |]; apply clean_app; [exact C2 | clean_text] |].
  intros ts s q W. rewrite flat_map_app. cbn [flat_map]. rewrite app_nil_r, E, <- !app_assoc. apply R1; [| apply N2]. apply R2. cbn [app].
  change (";"%char :: SP :: ";"%char :: SP :: s) with ([] ++ (repeat ";"%char 1 ++ [SP]) ++ ";"%char :: SP :: s). unfold c. cbn [app].
  eapply (wr_token inner_lexer [] (Chr ";", []) (repeat ";"%char 1 ++ [SP])); [apply empty_gap | apply w_lexer_end; [apply g_blank; [left; reflexivity | apply g_nil] | discriminate] | exists (SP :: s); reflexivity |].
  eapply (wr_token outer [] (Chr ";", []) (repeat ";"%char 1)); [apply empty_gap | apply w_semicolon | no_space | apply written_space; [apply spaced_gap; auto | exact W]].
Qed.

(** ** Declarations *)
Definition class_part : context := (PARSERCLASS, RuleBody).
Lemma spaced_class : spaced (fst class_part).
Proof. apply spaced_gap. auto. Qed.
Lemma tok_class_open : step_tok class_part (Chr "(", []) class_part.
Proof. exists (chars "("), any. split; [apply w_class_open |]. split; [clean_text |]. split; [exact (fun _ => I) | exact spaced_class]. Qed.
Lemma tok_class_close : step_tok class_part (Chr ")", []) outer.
Proof. exists (chars ")"), any. split; [apply w_class_close |]. split; [clean_text |]. split; [exact (fun _ => I) | apply spaced_gap; auto]. Qed.
Lemma tok_class k' n : In (k', n) class_words -> step_tok class_part (Tok n, []) class_part.
Proof.
  intro H. exists (chars k'), any. split; [apply w_class; exact H |]. split; [| split; [exact (fun _ => I) | exact spaced_class]].
  cbn [In class_words] in H. repeat (destruct H as [H | H]; [injection H as <- <-; clean_text |]). destruct H.
Qed.
Ltac cword w := apply seg_tok, (tok_class w); in_list.
Lemma seg_class lexer ts v : seg class_part ts class_part -> code_text v -> seg outer (class_show lexer ++ c "(" ++ ts ++ c ")" ++ code v) outer.
Proof.
  intros T V. apply (seg_app _ _ class_part); [apply seg_tok; destruct lexer; [kword 6 | kword 5] |].
  apply (seg_app _ _ class_part); [apply seg_tok, tok_class_open |]. apply (seg_app _ _ class_part); [exact T |].
  apply (seg_app _ _ outer); [apply seg_tok, tok_class_close | apply seg_code; [discriminate | exact V]].
Qed.
Lemma seg_member m : seg class_part (member_show m) class_part.
Proof.
  destruct m; cbn [member_show]; repeat (eapply seg_app).
  - cword "public"%string.
  - cword "declaration"%string.
  - cword "protected"%string.
  - cword "declaration"%string.
  - cword "private"%string.
  - cword "declaration"%string.
  - cword "constructor"%string.
  - cword "destructor"%string.
Qed.
Lemma f_string v : string_text v -> Forall tok_ok (t "T_STRING" v).
Proof. intro H. apply f_one. apply tok_string; [left; reflexivity | exact H]. Qed.
Lemma f_token x : token_legible x -> Forall tok_ok (token_show x).
Proof.
  intros [T D]. unfold token_show. apply f_app; [apply f_one, tok_terminal, T |]. apply (f_opt _ string_text); [| exact D].
  intros v V. pieces. apply f_string, V.
Qed.
Lemma set_kw s : tok_ok (Tok (set_show s), []).
Proof. destruct s; cbn [set_show]; [kword 0 | kword 1 | kword 7 | kword 18 | kword 19 | kword 9 | kword 10 | kword 11 | kword 12 | kword 13]. Qed.
Lemma seg_decl d : d_legible d -> seg outer (dshow d) outer.
Proof.
  destruct d as [b m v | b v | x l | o v | x | s v | v | v | x v | e l]; cbn [d_legible dshow]; intro H.
  - apply seg_class; [apply seg_member | exact H].
  - apply seg_class; [cword "bits"%string | exact H].
  - apply seg_all. pose proof (Forall_inv H) as X. pose proof (Forall_inv_tail H) as L. apply f_app; [apply f_one; kword 2 |]. apply f_app; [apply f_token, X |].
    apply f_app; [| apply f_one, tok_semicolon]. induction L as [| y l Y L IH]; [constructor |]. cbn [flat_map]. apply f_app; [apply f_app; [apply f_char; in_list | apply f_token, Y] |].
    apply IH. constructor; [exact X | exact L].
  - destruct o as [[] |]; [apply seg_tok; kword 15 | apply seg_tok; kword 16 |]. apply seg_all. apply f_app; [apply f_one; kword 14 | apply f_string, H].
  - apply seg_all. apply f_app; [apply f_one; kword 3 |]. apply f_app; [apply f_one, tok_identifier, H | apply f_one, tok_semicolon].
  - apply seg_all. apply f_app; [apply f_one, set_kw | apply f_string, H].
  - apply seg_all. apply f_app; [apply f_one; kword 4 | apply f_code, H].
  - apply seg_all. apply f_app; [apply f_one; kword 8 | apply f_code, H].
  - destruct H as [X V]. apply seg_all. apply f_app; [apply f_one; kword 17 |]. apply f_app; [apply f_one, tok_identifier, X | apply f_string, V].
  - destruct H as (E & L & l' & x & -> & S0). apply (seg_app _ _ (INITIAL, RuleLexer)); [apply seg_tok; kword 32 |].
    apply (seg_app _ _ (INITIAL, RuleLexer)); [apply (seg_opt _ _ string_text); [| exact E]; intros v V; apply seg_tok, tok_string; [left; reflexivity | exact V] |].
    apply (seg_app _ _ inner_lexer); [| apply seg_lexer; assumption].
    apply seg_tok. exists (chars "->"), any. split; [apply w_lexer_arrow |]. split; [clean_text |]. split; [exact (fun _ => I) | exact spaced_lexer].
Qed.

Theorem legible_written f : legible f -> exists s, file_text (file_show f) s.
Proof.
  intros (H & D & R & T).
  assert (SG : seg outer (file_show f) outer).
  { unfold file_show. apply (seg_app _ _ outer); [apply (seg_opt _ _ code_text); [intros v V; apply seg_code; [discriminate | exact V] | exact H] |].
    apply (seg_app _ _ outer); [apply seg_flat; apply (Forall_impl _ seg_decl D) |]. apply (seg_app _ _ outer); [apply seg_flat; apply (Forall_impl _ seg_rule R) |].
    apply (seg_opt _ _ code_text); [intros v V; apply seg_code; [discriminate | exact V] | exact T]. }
  destruct SG as (s & [C1 C2] & W). exists s. specialize (W [] [] outer). rewrite !app_nil_r in W. split; [| auto]. apply W. apply wr_end. apply empty_gap.
Qed.
