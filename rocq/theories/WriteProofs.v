(** Proofs: what is written token by token is scanned as these tokens. *)
From Coq Require Import List Ascii String Bool PeanoNat ZArith Lia.
From Verif Require Import FlexModel FlexSpec FlexProofs ScanModel ScanSpec ScanProofs ScanPlaceProofs
  ScanCodeProofs ScanTextProofs ScanWordProofs WriteSpec WriteTokenProofs WriteLexerProofs.
Import ListNotations.

(** ** One token *)
Lemma word_code w : ~ holds_code (fst (word_token w)).
Proof. unfold word_token. destruct (forallb _ w); [| destruct (text_dec w (chars "catch"))]; intros [J | J]; discriminate J. Qed.
Lemma number_code w : ~ holds_code (fst (number_token w)).
Proof. unfold number_token. destruct (text_dec w (chars "0")); intros [J | J]; discriminate J. Qed.
Lemma table_code (l : list (string * string)) k n :
  forallb (fun x => negb (String.eqb (snd x) "T_CODE" || String.eqb (snd x) "T_RULE_ARGUMENTS")) l = true -> In (k, n) l -> ~ holds_code (Tok n).
Proof.
  intros F J. rewrite forallb_forall in F. specialize (F _ J). cbn [snd] in F. apply negb_true_iff, orb_false_iff in F. destruct F as [F1 F2].
  intros [E | E]; injection E as ->; [rewrite String.eqb_refl in F1; discriminate | rewrite String.eqb_refl in F2; discriminate].
Qed.
Lemma header_code w : ~ holds_code (fst (header_token w)).
Proof.
  unfold header_token. destruct (find _ header_words) as [[k n] |] eqn:E; [| intros [J | J]; discriminate J].
  apply find_some in E. exact (table_code header_words k n eq_refl (proj1 E)).
Qed.
Ltac as_is := cbn [fst]; first [apply word_code | apply number_code | apply header_code | solve [intros [J | J]; discriminate J] |
  eapply (table_code keywords); [reflexivity | eassumption] | eapply (table_code lexer_words); [reflexivity | eassumption] |
  eapply (table_code class_words); [reflexivity | eassumption]].
Lemma given_writes cfg q x w follow q' s :
  writes q x w follow q' -> ~ In NUL (w ++ s) -> follow s -> given_stored cfg q x w s q'.
Proof.
  intros W N F. destruct W.
  - apply given_as_is; [as_is |]. destruct F. apply given_word; assumption.
  - apply given_as_is; [as_is |]. apply given_number; assumption.
  - apply given_as_is; [as_is |]. apply given_keyword; assumption.
  - apply given_as_is; [as_is |]. apply given_char; assumption.
  - apply given_as_is; [as_is |]. apply given_semicolon; assumption.
  - apply given_as_is; [as_is |]. apply given_arrow; assumption.
  - apply given_as_is; [as_is |]. apply given_inline.
  - apply given_as_is; [as_is |]. apply given_recover.
  - apply given_as_is; [as_is |]. apply given_rollback.
  - apply given_as_is; [as_is |]. apply given_string; [assumption | assumption |]. apply (cstr_part [QUOTE] w ([QUOTE] ++ s)). rewrite <- !app_assoc in N. exact N.
  - apply given_code; [assumption | assumption |]. apply (cstr_part OPEN w (CLOSE ++ s)). rewrite <- !app_assoc in N. exact N.
  - apply given_arguments; [assumption | assumption |]. apply (cstr_part ["["%char] w (["]"%char] ++ s)). rewrite <- !app_assoc in N. exact N.
  - apply given_as_is; [as_is |]. apply given_open; assumption.
  - apply given_as_is; [as_is |]. apply given_close.
  - apply given_as_is; [as_is |]. apply given_header; assumption.
  - apply given_as_is; [as_is |]. apply given_header_char; assumption.
  - apply given_as_is; [as_is |]. apply given_colon; assumption.
  - apply given_as_is; [as_is |]. apply given_type; [assumption | assumption |]. apply (cstr_part [] w ([";"%char] ++ s)). rewrite <- !app_assoc in N. exact N.
  - apply given_as_is; [as_is |]. apply given_lexer_arrow.
  - apply given_as_is; [as_is |]. apply given_lexer_names.
  - apply given_as_is; [as_is |]. apply given_lexer_char; assumption.
  - apply given_as_is; [as_is |]. apply given_lexer_open; assumption.
  - apply given_as_is; [as_is |]. apply given_lexer_word; assumption.
  - apply given_as_is; [as_is |]. apply given_lexer_name; assumption.
  - apply given_as_is; [as_is |]. destruct F. apply given_lexer_string; try assumption. exact (cstr_part [] w s N).
  - apply given_as_is; [as_is |]. apply given_lexer_range; try assumption. exact (cstr_part [] _ s N).
  - apply given_as_is; [as_is |]. apply given_lexer_terminal; assumption.
  - apply given_as_is; [as_is |]. apply given_lexer_identifier; assumption.
  - apply given_as_is; [as_is |]. apply given_lexer_semicolon; assumption.
  - apply given_as_is; [as_is |]. apply given_lexer_end; assumption.
  - apply given_as_is; [as_is |]. apply given_class; assumption.
  - apply given_as_is; [as_is |]. apply given_class_open.
  - apply given_as_is; [as_is |]. apply given_class_close.
Qed.

(** ** Gaps *)
Lemma class_blank_step cfg st c u :
  smode st = PARSERCLASS -> blank c = true ->
  exists q u' st', c :: u = q ++ u' /\ q <> [] /\ forallb blank q = true /\
    step cfg st (c :: u) = (Go st', u') /\ calm st st' /\ kept st' = [].
Proof.
  intros G C. pose proof (proj2 (blank_in c) C) as Cases.
  pose proof (take_drop blank (c :: u)) as E. set (w := takew blank (c :: u)) in *. set (b := dropw blank (c :: u)) in *.
  assert (W : forallb blank w = true) by apply takew_all.
  assert (Wn : w <> []) by (unfold w; cbn [takew]; rewrite C; discriminate).
  assert (Sb : stops blank b) by apply dropw_stops.
  assert (M : matched (skip (RStar Whitespace)) (c :: u) = Some (List.length w, List.length w)).
  { rewrite m_plain by reflexivity. cbn [skip r0 pat]. unfold Whitespace, oneof. rewrite E.
    rewrite (longest_star_cls (among blanks)); [reflexivity | exact W | exact Sb]. }
  assert (B : best (rules (smode st)) (w ++ b) = Some (skip (RStar Whitespace), List.length w, List.length w)).
  { rewrite <- E, G. rewrite (best_nth PARSERCLASS c u [0; 11]).
    - cbn [map best]. change (nth 0 (rules PARSERCLASS) no_rule) with (skip (RStar Whitespace)). rewrite M.
      rewrite (m_plain (nth 11 (rules PARSERCLASS) no_rule)) by reflexivity. change (pat (nth 11 (rules PARSERCLASS) no_rule)) with dot.
      rewrite longest_dot by (exact (proj2 (blank_not_nl c C))).
      destruct w as [| d w]; [contradiction |]. cbn [List.length]. reflexivity.
    - destruct Cases as [<- | [<- | [<- | []]]]; vm_compute; reflexivity. }
  destruct (skip_step cfg st w b _ B) as (st' & ST & CA & K). exists w, b, st'.
  split; [exact E |]. split; [exact Wn |]. split; [exact W |]. rewrite E. auto.
Qed.

Lemma class_gap cfg p : forall n g s st, List.length g < n -> all_in [SP; FF; TAB; CR; LF] g -> over [SP; FF; TAB; CR; LF] s ->
  at_context (PARSERCLASS, p) st -> exists st', reads cfg st (g ++ s) [] st' s /\ at_context (PARSERCLASS, p) st'.
Proof.
  induction n as [| n IH]; intros g s st L A O C; [lia |].
  destruct g as [| c g]; [exists st; split; [apply rd_none | exact C] |].
  assert (GO : forall q b st1, c :: g = q ++ b -> q <> [] -> step cfg st ((c :: g) ++ s) = (Go st1, b ++ s) -> at_context (PARSERCLASS, p) st1 ->
    exists st', reads cfg st ((c :: g) ++ s) [] st' s /\ at_context (PARSERCLASS, p) st').
  { intros q b st1 E NE ST C1. assert (Lb : List.length b < n).
    { apply (f_equal (@List.length ascii)) in E. rewrite app_length in E. destruct q; [contradiction |]. cbn [List.length] in *. lia. }
    destruct (IH b s st1 Lb) as (st' & R & C'); [| exact O | exact C1 |].
    - intros d D. apply A. rewrite E. apply in_or_app. right. exact D.
    - exists st'. split; [| exact C']. eapply rd_go; [discriminate | exact ST | exact R]. }
  destruct C as (M & P & K). cbn [fst snd] in *.
  assert (Cc : blank c = true \/ c = CR \/ c = LF).
  { destruct (A c (or_introl eq_refl)) as [<- | [<- | [<- | [<- | [<- | []]]]]]; auto. }
  destruct Cc as [Cb | Cn].
  - destruct (class_blank_step cfg st c (g ++ s) M Cb) as (q & u' & st1 & E & NE & Q & ST & CA & K1).
    assert (St : stops blank s).
    { destruct s as [| d s]; [exact I |]. cbn [stops over] in *. destruct (blank d) eqn:D; [exfalso | reflexivity].
      apply blank_in in D. apply O. destruct D as [<- | [<- | [<- | []]]]; cbn; auto. }
    change (c :: g ++ s) with ((c :: g) ++ s) in E. symmetry in E.
    destruct (run_within blank q (c :: g) u' s E Q St) as (b & Eb & ->).
    apply (GO q b st1 Eb NE ST). apply (calm_context _ st); [repeat split; assumption | exact CA | exact K1].
  - assert (NLM : nl_at (smode st) = nl) by (rewrite M; reflexivity).
    destruct (turn_step cfg st c (g ++ s) NLM Cn) as (q & s' & st1 & E & ST & Q & M1 & K1 & F1 & Y1).
    assert (X : exists b, c :: g = q ++ b /\ s' = b ++ s).
    { destruct Q as [-> | [-> | [-> _]]]; cbn [app] in E; injection E as -> E.
      - exists g; auto.
      - destruct g as [| d g].
        + cbn [app] in E. subst s. exfalso. apply O. do 4 right. left. reflexivity.
        + cbn [app] in E. injection E as -> E. exists g. auto.
      - exists g; auto. }
    destruct X as (b & Eb & ->). apply (GO q b st1 Eb); [destruct Q as [-> | [-> | [-> _]]]; discriminate | exact ST |].
    destruct F1 as (P1 & _). repeat split; cbn [fst snd]; congruence.
Qed.

(** Tokens do not begin like gaps. *)
Lemma no_gap_char c s : ~ In c ("-"%char :: [SP; FF; TAB; CR; LF]) -> no_gap (c :: s).
Proof.
  intro N. split; [intro J; apply N; right; exact J |]. intros (v & E). cbn [chars app] in E. injection E as -> _. apply N. left. reflexivity.
Qed.
Definition proper (c : ascii) : bool := negb (among ("-"%char :: [SP; FF; TAB; CR; LF]) c).
Lemma no_gap_proper c s : proper c = true -> no_gap (c :: s).
Proof.
  intro P. apply no_gap_char. intro J. unfold proper in P. apply negb_true_iff in P.
  assert (T : among ("-"%char :: [SP; FF; TAB; CR; LF]) c = true) by (unfold among; apply existsb_exists; exists c; split; [exact J | apply Ascii.eqb_refl]).
  congruence.
Qed.
Lemma word_proper c : word_ c = true -> proper c = true.
Proof.
  assert (H : forall c, (negb (word_ c) || proper c) = true) by (apply for_chars; vm_compute; reflexivity).
  intro W. specialize (H c). rewrite W in H. exact H.
Qed.

Lemma no_gap_arrow s : no_gap (chars "->" ++ s).
Proof.
  split.
  - intro J. cbn [In] in J. repeat (destruct J as [J | J]; [discriminate J |]). exact J.
  - intros (v & E). discriminate E.
Qed.
Lemma writes_no_gap q x w follow q' s : writes q x w follow q' -> fst q <> RULE_PARAMETERS_VARNAME ->
  w <> [] /\ no_gap (w ++ s) /\ over [SP; FF; TAB; CR; LF] (w ++ s).
Proof.
  intros W NV.
  assert (OV : w <> [] -> no_gap (w ++ s) -> w <> [] /\ no_gap (w ++ s) /\ over [SP; FF; TAB; CR; LF] (w ++ s)).
  { intros NE G. split; [exact NE |]. split; [exact G |]. destruct w as [| c u]; [contradiction |]. exact (proj1 G). }
  destruct W; apply OV; try discriminate; try (apply no_gap_proper; reflexivity).
  - match goal with H : is_word _ |- _ => destruct H as (c & u & -> & _) end. discriminate.
  - match goal with H : is_word _ |- _ => destruct H as (c & u & -> & F & _) end. apply no_gap_proper, word_proper.
    apply first_in in F. unfold word_. change (first_ c || digit c = true). rewrite F. reflexivity.
  - match goal with H : is_number _ |- _ => exact (proj1 H) end.
  - match goal with H : is_number _ |- _ => destruct H as [NE D] end. destruct w as [| c u]; [contradiction |].
    apply no_gap_proper, word_proper. unfold word_. rewrite (proj1 (digit_in c)); [apply orb_true_r |]. apply D. left. reflexivity.
  - match goal with H : In _ keywords |- _ => destruct (keyword_head _ _ H) as (k' & -> & _) end. discriminate.
  - match goal with H : In _ keywords |- _ => destruct (keyword_head _ _ H) as (k' & -> & _) end. apply no_gap_proper. reflexivity.
  - apply no_gap_char. match goal with H : In _ _ |- _ => cbn [chars In] in H end.
    match goal with H : _ \/ _ |- _ => repeat (destruct H as [<- | H]; [intro J; cbn [In] in J; repeat (destruct J as [J | J]; [discriminate J |]); exact J |]); destruct H end.
  - split.
    + intro J. cbn [In] in J. repeat (destruct J as [J | J]; [discriminate J |]). exact J.
    + intros (v & E). discriminate E.
  - assumption.
  - destruct w as [| c u]; [contradiction |]. apply no_gap_proper, word_proper, word_in.
    match goal with H : all_in _ _ |- _ => apply H end. left. reflexivity.
  - apply no_gap_proper. match goal with H : In _ _ |- _ => destruct H as [<- | [<- | []]]; reflexivity end.
  - exfalso. apply NV. reflexivity.
  - exfalso. apply NV. reflexivity.
  - apply no_gap_arrow.
  - apply no_gap_arrow.
  - apply no_gap_proper. match goal with H : In _ _ |- _ => cbn [chars In] in H end.
    match goal with H : _ \/ _ |- _ => repeat (destruct H as [<- | H]; [reflexivity |]); destruct H end.
  - match goal with H : In _ lexer_words |- _ => cbn [In lexer_words] in H end.
    match goal with H : _ \/ _ |- _ => repeat (destruct H as [H | H]; [injection H as <- <-; discriminate |]); destruct H end.
  - match goal with H : In _ lexer_words |- _ => cbn [In lexer_words] in H end.
    match goal with H : _ \/ _ |- _ => repeat (destruct H as [H | H]; [injection H as <- <-; apply no_gap_proper; reflexivity |]); destruct H end.
  - assumption.
  - destruct w as [| c u]; [contradiction |]. apply no_gap_proper. match goal with H : spelling _ |- _ => apply spelling_inv in H; destruct H as [[C _] | [-> _]] end.
    + apply word_proper, word_in, C.
    + reflexivity.
  - match goal with H : single a |- _ => apply single_char, char_piece in H; destruct H as [(c & -> & _) | (c & ds & -> & _)]; discriminate end.
  - match goal with H : single a |- _ => apply single_char, char_piece in H; destruct H as [(c & -> & C) | (c & ds & -> & _)] end; apply no_gap_proper.
    + apply word_proper, C.
    + reflexivity.
  - assumption.
  - destruct w as [| c u]; [contradiction |]. apply no_gap_proper, word_proper, upper_word, upper_in.
    match goal with H : all_in _ _ |- _ => apply H end. left. reflexivity.
  - assumption.
  - destruct w as [| c u]; [contradiction |]. apply no_gap_proper, word_proper, word_in.
    match goal with H : all_in _ _ |- _ => apply H end. left. reflexivity.
  - match goal with H : In _ class_words |- _ => cbn [In class_words] in H end.
    match goal with H : _ \/ _ |- _ => repeat (destruct H as [H | H]; [injection H as <- <-; discriminate |]); destruct H end.
  - match goal with H : In _ class_words |- _ => cbn [In class_words] in H end.
    match goal with H : _ \/ _ |- _ => repeat (destruct H as [H | H]; [injection H as <- <-; apply no_gap_proper; reflexivity |]); destruct H end.
Qed.

Lemma given_gap cfg q g s : gap_in (fst q) g -> no_gap s -> over [SP; FF; TAB; CR; LF] s -> forall st, at_context q st ->
  exists st', reads cfg st (g ++ s) [] st' s /\ at_context q st'.
Proof.
  intros G NG O st A.
  assert (GEN : gap_mode (smode st) -> gap g -> exists st', reads cfg st (g ++ s) [] st' s /\ at_context q st').
  { intros GM Gg. destruct (gap_reads cfg (S (List.length g)) g st s (Nat.lt_succ_diag_r _) GM (proj2 (proj2 A)) Gg NG) as (st' & R & M' & K' & (P' & _) & _).
    exists st'. split; [exact R |]. destruct A as (M & P & K). repeat split; congruence. }
  destruct q as [m p]. cbn [fst snd] in *. pose proof (proj1 A) as M. cbn [fst] in M. unfold gap_mode in GEN. rewrite M in GEN.
  destruct m; cbn [gap_in] in G; try (apply GEN; [auto | exact G]);
    try (subst g; exists st; split; [apply rd_none | exact A]).
  exact (class_gap cfg p _ g s st (Nat.lt_succ_diag_r _) G O A).
Qed.

(** ** All tokens *)
Lemma written_reads cfg : forall q ts s q', written q ts s q' -> ~ In NUL s ->
  forall st, at_context q st -> exists st' l, reads cfg st s l st' [] /\ Forall2 (stored cfg) ts (map (fun x => (ltok x, lval x)) l) /\ at_context q' st'.
Proof.
  induction 1 as [q g G | q g x w follow q1 ts s q' G W F R IH]; intros N st A.
  - destruct (given_gap cfg q g [] G I I st A) as (st' & R' & A'). rewrite app_nil_r in R'. exists st', []. repeat split; [exact R' | constructor | apply A' ..].
  - assert (PRE : exists st1, reads cfg st (g ++ w ++ s) [] st1 (w ++ s) /\ at_context q st1).
    { assert (VN : fst q = RULE_PARAMETERS_VARNAME \/ fst q <> RULE_PARAMETERS_VARNAME) by (destruct (fst q); (left; reflexivity) || (right; discriminate)).
      destruct VN as [VN | VN].
      - rewrite VN in G. cbn [gap_in] in G. subst g. exists st. split; [apply rd_none | exact A].
      - destruct (writes_no_gap _ _ _ _ _ s W VN) as (_ & NG & O). apply given_gap; assumption. }
    destruct PRE as (st1 & R1 & A1).
    assert (N2 : ~ In NUL (w ++ s)) by (intro J; apply N; apply in_or_app; right; exact J).
    destruct (given_writes cfg _ _ _ _ _ s W N2 F st1 A1) as (st2 & y & n & Y & R2 & A2).
    assert (N3 : ~ In NUL s) by (intro J; apply N2; apply in_or_app; right; exact J).
    destruct (IH N3 st2 A2) as (st' & l & R3 & E & A').
    exists st', (Lexeme (fst y) (snd y) n :: l). split; [| split; [| exact A']].
    + change (Lexeme (fst y) (snd y) n :: l) with ([] ++ [Lexeme (fst y) (snd y) n] ++ l).
      eapply reads_app; [exact R1 |]. eapply reads_app; [exact R2 | exact R3].
    + cbn [map ltok lval]. constructor; [destruct y; exact Y | exact E].
Qed.

Lemma after_scanned l st : after l (Scanned [] st) = Scanned l st.
Proof. induction l as [| x l IH]; [reflexivity |]. cbn [after]. rewrite IH. reflexivity. Qed.

Theorem file_scanned cfg ts s : file_text ts s ->
  exists l st, scan_file cfg s = Scanned l st /\ Forall2 (stored cfg) ts (map (fun x => (ltok x, lval x)) l) /\ smode st = INITIAL /\ pos st = RuleBody.
Proof.
  intros (W & N & N2). unfold scan_file. rewrite readable_all by exact N2.
  change (scan (S (List.length s)) cfg start s) with (scan_from cfg start s).
  destruct (written_reads cfg _ _ _ _ W N start) as (st & l & R & E & A); [repeat split |].
  rewrite (reads_scan _ _ _ _ _ _ R), scan_from_nil. destruct A as (M & P & K). unfold at_end. rewrite M. cbn [fst outer].
  exists l, st. rewrite after_scanned. auto.
Qed.
(** Without line directives, the texts are those written. *)
Lemma stored_plain cfg ts us : lines cfg = BeautifulCode -> Forall2 (stored cfg) ts us -> us = ts.
Proof.
  intro B. induction 1 as [| [k w] [k' w'] ts us [E [E1 E2]] _ IH]; [reflexivity |]. cbn [fst snd] in *. subst k'. rewrite IH. f_equal. f_equal.
  unfold copied in E1. rewrite B in E1.
  assert (H : holds_code k \/ ~ holds_code k).
  { unfold holds_code. destruct k as [x | x]; [right; intros [J | J]; discriminate J |].
    destruct (string_dec x "T_CODE") as [-> | N1]; [auto |]. destruct (string_dec x "T_RULE_ARGUMENTS") as [-> | N2]; [auto |].
    right. intros [J | J]; injection J as J; contradiction. }
  destruct H; auto.
Qed.
