(** Lexer rules, declarations and whole files. *)
From Coq Require Import List NArith Ascii String Bool PeanoNat Lia.
From Verif Require Import YaccModel YaccSpec YaccProofs YaccReadProofs FlexModel ScanModel DeclModel GramModel GramTableProofs GramSpec GramFineProofs GramReadProofs GramRuleProofs.
Import ListNotations.
Open Scope string_scope.
Open Scope list_scope.

(** ** Lexer rules *)
(** All but the events, the named expressions and the end of the action. *)
Definition alike (w w' : world) : Prop :=
  generateAst w' = generateAst w /\ hasLexer w' = hasLexer w /\ automaton w' = automaton w /\ env w' = env w /\
  terminals w' = terminals w /\ bases w' = bases w /\ needStateManagement w' = needStateManagement w /\
  needOperatorStack w' = needOperatorStack w /\ undefined w' = undefined w.
Lemma alike_refl w : alike w w. Proof. repeat split. Qed.
Lemma alike_trans a b d : alike a b -> alike b d -> alike a d.
Proof.
  intros (A1 & A2 & A3 & A4 & A5 & A6 & A7 & A8 & A9) (B1 & B2 & B3 & B4 & B5 & B6 & B7 & B8 & B9). unfold alike. repeat split; congruence.
Qed.
Definition ended_by (a : laction) (w : world) : world := ends_with (lameans a) w.
Lemma action_read a b w : R "opt_lexer_action" (lashow a) b w VNone (ended_by a w).
Proof.
  destruct a as [x | |]; [by_ "opt_lexer_action" "T_TERMINAL"; [z_tok | reflexivity] | by_ "opt_lexer_action" "T_CONTINUE"; [z_tok | reflexivity] |
    by_ "opt_lexer_action" ""; [apply RA_nil | reflexivity]].
Qed.
Lemma known_rev l w : regexps w = rev l -> known w = named l.
Proof. intro E. unfold known, named, lookup. rewrite E. reflexivity. Qed.
Lemma rmeans_names l w x : regexps w = rev l -> rmeans (named l) x = rmeans (known w) x.
Proof. intro E. rewrite (known_rev l w E). reflexivity. Qed.

Lemma lexer_read s : forall b w l a l', lmeans_all (env w) l s = Some (a, l') -> regexps w = rev l ->
  exists v w', R "lexer_declaration_rest" (flat_map lshow s) b w v w' /\ events w' = rev a ++ events w /\ regexps w' = rev l' /\ alike w w'.
Proof.
  induction s as [| x s IH]; intros b w l a l' M Rg; cbn [lmeans_all flat_map] in *.
  - injection M as <- <-. exists VNone, w. split; [by_ "lexer_declaration_rest" ""; [apply RA_nil | reflexivity] | repeat split; exact Rg].
  - destruct (lmeans (env w) l x) as [[a1 l1] |] eqn:M1; [| discriminate]. destruct (lmeans_all (env w) l1 s) as [[a2 l2] |] eqn:M2; [| discriminate].
    injection M as <- <-. destruct x as [x n | x o ac | x y o ac | x y o ac | cd | cd | cd]; cbn [lmeans lshow] in *.
    + destruct (rmeans (named l) x) as [m |] eqn:Mx; [| discriminate]. injection M1 as <- <-. rewrite (rmeans_names l w) in Mx by exact Rg.
      destruct (IH (nothing :: VText [] :: VText n :: VText [] :: VRex m :: b) (name_regexp n m w) (l ++ [(n, m)]) a2 l2 M2) as (v & w' & H & E & F & G).
      { cbn. rewrite Rg, rev_app_distr. reflexivity. }
      exists (VRex m), w'. split; [| split; [exact E | split; [exact F | eapply alike_trans; [| exact G]; repeat split]]].
      rewrite <- !app_assoc. by_ "lexer_declaration_rest" "regexp T_ARROW T_IDENTIFIER ';' @4 lexer_declaration_rest";
        [eapply RA_cons; [apply r_read, Mx | a_tok; a_tok; a_tok; eapply RA_skip; [by_ "@4" ""; [apply RA_nil | reflexivity] | apply RA_one, H]] | reflexivity].
    + destruct (rmeans (named l) x) as [m |] eqn:Mx; [| discriminate]. injection M1 as <- <-. rewrite (rmeans_names l w) in Mx by exact Rg.
      destruct (IH (nothing :: VText [] :: VNone :: VText (or_empty o) :: VRex m :: b)
        (ended_by ac w <+ LexerRule (env w) (Plain m) (or_empty o ++ lameans ac)) l a2 l2 M2 Rg) as (v & w' & H & E & F & G).
      exists (VRex m), w'. split; [| split; [| split; [exact F | eapply alike_trans; [| exact G]; repeat split]]].
      * rewrite <- !app_assoc. by_ "lexer_declaration_rest" "regexp code_opt opt_lexer_action ';' @5 lexer_declaration_rest";
          [eapply RA_cons; [apply r_read, Mx | eapply RA_cons; [apply code_opt_read | eapply RA_cons; [apply action_read |
            a_tok; eapply RA_skip; [by_ "@5" ""; [apply RA_nil | reflexivity] | apply RA_one, H]]]] | reflexivity].
      * rewrite E. cbn. rewrite <- app_assoc. reflexivity.
    + destruct (rmeans (named l) x) as [m |] eqn:Mx; [| discriminate]. destruct (rmeans (named l) y) as [p |] eqn:My; [| discriminate].
      injection M1 as <- <-. rewrite (rmeans_names l w) in Mx, My by exact Rg.
      destruct (IH (nothing :: VText [] :: VNone :: VText (or_empty o) :: VText [] :: VRex p :: VText [] :: VText [] :: VRex m :: b)
        (ended_by ac w <+ LexerRule (env w) (Lookahead m p) (or_empty o ++ lameans ac)) l a2 l2 M2 Rg) as (v & w' & H & E & F & G).
      exists (VRex m), w'. split; [| split; [| split; [exact F | eapply alike_trans; [| exact G]; repeat split]]].
      * rewrite <- !app_assoc. by_ "lexer_declaration_rest" "regexp T_LOOKAHEAD '(' regexp ')' code_opt opt_lexer_action ';' @6 lexer_declaration_rest";
          [eapply RA_cons; [apply r_read, Mx | a_tok; a_tok; eapply RA_cons; [apply r_read, My | a_tok; eapply RA_cons; [apply code_opt_read | eapply RA_cons; [apply action_read |
            a_tok; eapply RA_skip; [by_ "@6" ""; [apply RA_nil | reflexivity] | apply RA_one, H]]]]] | reflexivity].
      * rewrite E. cbn. rewrite <- app_assoc. reflexivity.
    + destruct (rmeans (named l) x) as [m |] eqn:Mx; [| discriminate]. destruct (rmeans (named l) y) as [p |] eqn:My; [| discriminate].
      injection M1 as <- <-. rewrite (rmeans_names l w) in Mx, My by exact Rg.
      destruct (IH (nothing :: VText [] :: VNone :: VText (or_empty o) :: VText [] :: VRex p :: VText [] :: VText [] :: VRex m :: b)
        (ended_by ac w <+ LexerRule (env w) (Barrier m p) (or_empty o ++ lameans ac)) l a2 l2 M2 Rg) as (v & w' & H & E & F & G).
      exists (VRex m), w'. split; [| split; [| split; [exact F | eapply alike_trans; [| exact G]; repeat split]]].
      * rewrite <- !app_assoc. by_ "lexer_declaration_rest" "regexp T_BARRIER '(' regexp ')' code_opt opt_lexer_action ';' @7 lexer_declaration_rest";
          [eapply RA_cons; [apply r_read, Mx | a_tok; a_tok; eapply RA_cons; [apply r_read, My | a_tok; eapply RA_cons; [apply code_opt_read | eapply RA_cons; [apply action_read |
            a_tok; eapply RA_skip; [by_ "@7" ""; [apply RA_nil | reflexivity] | apply RA_one, H]]]]] | reflexivity].
      * rewrite E. cbn. rewrite <- app_assoc. reflexivity.
    + injection M1 as <- <-.
      destruct (IH (nothing :: VText cd :: VText [] :: b) (w <+ FailCode (env w) cd) l a2 l2 M2 Rg) as (v & w' & H & E & F & G).
      exists (VText []), w'. split; [| split; [| split; [exact F | eapply alike_trans; [| exact G]; repeat split]]].
      * rewrite <- !app_assoc. by_ "lexer_declaration_rest" "T_FAIL T_CODE @8 lexer_declaration_rest";
          [a_tok; a_tok; eapply RA_skip; [by_ "@8" ""; [apply RA_nil | reflexivity] | apply RA_one, H] | reflexivity].
      * rewrite E. cbn. rewrite <- app_assoc. reflexivity.
    + injection M1 as <- <-.
      destruct (IH (nothing :: VText cd :: VText [] :: b) (w <+ EnterCode (env w) cd) l a2 l2 M2 Rg) as (v & w' & H & E & F & G).
      exists (VText []), w'. split; [| split; [| split; [exact F | eapply alike_trans; [| exact G]; repeat split]]].
      * rewrite <- !app_assoc. by_ "lexer_declaration_rest" "T_ENTER_RULE_SET T_CODE @9 lexer_declaration_rest";
          [a_tok; a_tok; eapply RA_skip; [by_ "@9" ""; [apply RA_nil | reflexivity] | apply RA_one, H] | reflexivity].
      * rewrite E. cbn. rewrite <- app_assoc. reflexivity.
    + injection M1 as <- <-.
      destruct (IH (nothing :: VText cd :: VText [] :: b) (w <+ LeaveCode (env w) cd) l a2 l2 M2 Rg) as (v & w' & H & E & F & G).
      exists (VText []), w'. split; [| split; [| split; [exact F | eapply alike_trans; [| exact G]; repeat split]]].
      * rewrite <- !app_assoc. by_ "lexer_declaration_rest" "T_LEAVE_RULE_SET T_CODE @10 lexer_declaration_rest";
          [a_tok; a_tok; eapply RA_skip; [by_ "@10" ""; [apply RA_nil | reflexivity] | apply RA_one, H] | reflexivity].
      * rewrite E. cbn. rewrite <- app_assoc. reflexivity.
Qed.

(** ** Declarations *)
Definition push_one (e : text * text) (w : world) : world := push_terminal (fst e) (snd e) w.
Lemma tokens_more l : forall u b w0 w v, R "declared_tokens" u b w0 v w ->
  exists v', R "declared_tokens" (u ++ flat_map (fun y => c "," ++ token_show y) l) b w0 v' (fold_left (fun w y => push_one (token_means y) w) l w).
Proof.
  induction l as [| [x [d |]] l IH]; intros u b w0 w v H; cbn [flat_map fold_left].
  - rewrite app_nil_r. eauto.
  - rewrite app_assoc. apply (IH _ b w0 _ VNone). unfold token_show. cbn [fst snd opt].
    by_ "declared_tokens" "declared_tokens ',' T_TERMINAL '(' T_STRING ')'"; [eapply RA_cons; [exact H | a_tok; a_tok; a_tok; a_tok; z_tok] | reflexivity].
  - rewrite app_assoc. apply (IH _ b w0 _ VNone). unfold token_show. cbn [fst snd opt]. rewrite app_nil_r.
    by_ "declared_tokens" "declared_tokens ',' T_TERMINAL"; [eapply RA_cons; [exact H | a_tok; z_tok] | reflexivity].
Qed.
Lemma tokens_read x l b w : exists v, R "declared_tokens" (token_show x ++ flat_map (fun y => c "," ++ token_show y) l) b w v
  (fold_left (fun w y => push_one (token_means y) w) (x :: l) w).
Proof.
  cbn [fold_left]. apply (tokens_more l (token_show x) b w _ VNone). destruct x as [x [d |]]; unfold token_show; cbn [fst snd opt].
  - by_ "declared_tokens" "T_TERMINAL '(' T_STRING ')'"; [a_tok; a_tok; a_tok; z_tok | reflexivity].
  - rewrite app_nil_r. by_ "declared_tokens" "T_TERMINAL"; [z_tok | reflexivity].
Qed.
Lemma push_fields e w : let w' := push_one e w in
  generateAst w' = generateAst w /\ hasLexer w' = hasLexer w /\ automaton w' = automaton w /\ regexps w' = regexps w /\
  bases w' = bases w /\ needStateManagement w' = needStateManagement w /\
  needOperatorStack w' = needOperatorStack w /\ undefined w' = undefined w /\ events w' = events w /\
  forall x, first_of (terminals w') x = first_of (terminals w ++ [e]) x.
Proof.
  intro w'. unfold w', push_one, push_terminal. destruct e as [y d]. cbn [fst snd]. destruct (lookup y (terminals w)) as [d' |] eqn:E; repeat split.
  intro x. rewrite first_of_app. destruct (first_of (terminals w) x) eqn:F; [reflexivity |]. rewrite first_of_cons. unfold same_text.
  destruct (list_eq_dec ascii_dec y x) as [-> |]; [| reflexivity]. rewrite lookup_eq, F in E. discriminate E.
Qed.

(** What a declaration does. *)
Definition done (d : list dsrc) (a : list event) (l' : names_) (w w' : world) : Prop :=
  generateAst w' = generateAst w /\ events w' = rev a ++ events w /\ regexps w' = rev l' /\
  (forall x, first_of (terminals w') x = first_of (terminals w ++ flat_map dtokens d) x) /\
  declare_all (automaton w) (flat_map GramSpec.dtype d) = Some (automaton w') /\
  hasLexer w' = hasLexer w || existsb is_lexer d /\ bases w' = rev (flat_map dbase d) ++ bases w /\
  needStateManagement w' = needStateManagement w /\ needOperatorStack w' = needOperatorStack w /\ undefined w' = undefined w.
Lemma simple_done d a l w w' : dtokens d = [] -> GramSpec.dtype d = [] -> is_lexer d = false -> dbase d = [] ->
  alike w w' -> events w' = rev a ++ events w -> regexps w' = rev l -> done [d] a l w w'.
Proof.
  intros T Ty L B (A1 & A2 & A3 & A4 & A5 & A6 & A7 & A8 & A9) E Rg. unfold done. cbn [flat_map existsb]. rewrite T, Ty, L, B.
  cbn [app rev declare_all orb]. rewrite !app_nil_r, orb_false_r, A1, A2, A3, A5, A6, A7, A8, A9. repeat split; assumption.
Qed.
Lemma tokens_done l : forall w,
  let w' := fold_left (fun w y => push_one (token_means y) w) l w in
  generateAst w' = generateAst w /\ hasLexer w' = hasLexer w /\ automaton w' = automaton w /\ regexps w' = regexps w /\
  bases w' = bases w /\ needStateManagement w' = needStateManagement w /\
  needOperatorStack w' = needOperatorStack w /\ undefined w' = undefined w /\ events w' = events w /\
  forall x, first_of (terminals w') x = first_of (terminals w ++ map token_means l) x.
Proof.
  induction l as [| y l IH]; intro w; cbn [fold_left map].
  - rewrite app_nil_r. repeat split.
  - destruct (push_fields (token_means y) w) as (A1 & A2 & A3 & A4 & A5 & A6 & A7 & A8 & A9 & A10).
    destruct (IH (push_one (token_means y) w)) as (B1 & B2 & B3 & B4 & B5 & B6 & B7 & B8 & B9 & B10).
    repeat split; try congruence. intro x. rewrite B10, first_of_app, A10.
    replace (terminals w ++ token_means y :: map token_means l) with ((terminals w ++ [token_means y]) ++ map token_means l) by (rewrite <- app_assoc; reflexivity).
    rewrite (first_of_app (terminals w ++ [token_means y])). reflexivity.
Qed.
Ltac logged := apply simple_done; [reflexivity | reflexivity | reflexivity | reflexivity | repeat split | reflexivity | assumption].
Lemma decl_read d b w l a l' n : dmeans l d = Some (a, l') -> regexps w = rev l ->
  (hasLexer w = true -> is_type d = false) -> declare_all (automaton w) (GramSpec.dtype d) = Some n ->
  exists v w', R "declaration" (dshow d) b w v w' /\ done [d] a l' w w'.
Proof.
  intros M Rg L D. destruct d as [x m v | x v | x s | ty v | x | s v | v | v | x v | e s]; cbn [dmeans dshow] in *.
  - injection M as <- <-. exists VNone, (w <+ Member (if x then "lexerclass" else "parserclass") m v). split; [| logged].
    assert (K : forall b, R "member_declaration_rest" (c "(" ++ member_show m ++ c ")" ++ code v) b w (VMember m v) w).
    { intro b0. destruct m; cbn [member_show]; rewrite <- ?app_assoc;
        [by_ "member_declaration_rest" "'(' T_PUBLIC T_DECLARATION ')' T_CODE"; [a_tok; a_tok; a_tok; a_tok; z_tok | reflexivity]
        |by_ "member_declaration_rest" "'(' T_PROTECTED T_DECLARATION ')' T_CODE"; [a_tok; a_tok; a_tok; a_tok; z_tok | reflexivity]
        |by_ "member_declaration_rest" "'(' T_PRIVATE T_DECLARATION ')' T_CODE"; [a_tok; a_tok; a_tok; a_tok; z_tok | reflexivity]
        |by_ "member_declaration_rest" "'(' T_CONSTRUCTOR ')' T_CODE"; [a_tok; a_tok; a_tok; z_tok | reflexivity]
        |by_ "member_declaration_rest" "'(' T_DESTRUCTOR ')' T_CODE"; [a_tok; a_tok; a_tok; z_tok | reflexivity]]. }
    destruct x; cbn [class_show]; [by_ "declaration" "T_LEXERCLASS_DECLARATION member_declaration_rest" | by_ "declaration" "T_PARSERCLASS_DECLARATION member_declaration_rest"];
      try (a_tok; apply RA_one, K); reflexivity.
  - injection M as <- <-. exists VNone, (w <+ Add (if x then "lexerBits" else "bits") v). split; [| logged].
    destruct x; cbn [class_show]; [by_ "declaration" "T_LEXERCLASS_DECLARATION '(' T_BITS ')' T_CODE" | by_ "declaration" "T_PARSERCLASS_DECLARATION '(' T_BITS ')' T_CODE"];
      try (a_tok; a_tok; a_tok; a_tok; z_tok); reflexivity.
  - injection M as <- <-. destruct (tokens_read x s (VText [] :: b) w) as [v H].
    exists (VText []), (fold_left (fun w y => push_one (token_means y) w) (x :: s) w). split.
    + rewrite (app_assoc (token_show x)). by_ "declaration" "T_TOKEN_DECLARATION declared_tokens ';'"; [a_tok; eapply RA_cons; [exact H | z_tok] | reflexivity].
    + destruct (tokens_done (x :: s) w) as (A1 & A2 & A3 & A4 & A5 & A6 & A7 & A8 & A9 & A10). unfold done.
      cbn [flat_map dtokens existsb is_lexer dbase app rev GramSpec.dtype declare_all]. rewrite app_nil_r, orb_false_r. repeat split; congruence.
  - injection M as <- <-. assert (NL : hasLexer w = false) by (destruct (hasLexer w); [discriminate (L eq_refl) | reflexivity]).
    assert (Dn : forall ld, GramSpec.dtype (DType ty v) = [ld] -> lexer_type ld w = Some (set_automaton n w)).
    { intros ld E. rewrite E in D. cbn [declare_all] in D. unfold lexer_type. rewrite NL. destruct (declare (automaton w) ld); [| discriminate].
      injection D as ->. reflexivity. }
    exists VNone, (set_automaton n w). split.
    + destruct ty as [[|] |]; specialize (Dn _ eq_refl).
      * by_ "declaration" "T_TABLE_LEXER"; [z_tok |]. transitivity (match lexer_type TableLexer w with Some w => Some (VNone, w) | None => None end); [reflexivity | rewrite Dn; reflexivity].
      * by_ "declaration" "T_SEQUENCE_LEXER"; [z_tok |]. transitivity (match lexer_type SequenceLexer w with Some w => Some (VNone, w) | None => None end); [reflexivity | rewrite Dn; reflexivity].
      * by_ "declaration" "T_INPUT_ENCODING T_STRING"; [a_tok; z_tok |].
        transitivity (match lexer_type (InputEncoding (map N_of_ascii v)) w with Some w => Some (VNone, w) | None => None end); [reflexivity | rewrite Dn; reflexivity].
    + unfold done. cbn [flat_map dtokens existsb is_lexer dbase app rev]. rewrite !app_nil_r, orb_false_r. repeat split; [exact Rg | exact D].
  - injection M as <- <-. exists VNone, (w <+ Set_ "tokenStream" x). split; [| logged].
    by_ "declaration" "T_TOKEN_STREAM_DECLARATION T_IDENTIFIER ';'"; [a_tok; a_tok; z_tok | reflexivity].
  - injection M as <- <-. exists VNone, (w <+ set_means s v). split; [| logged].
    destruct s; cbn [set_show set_means];
      [by_ "declaration" "T_EXPORT_MACRO T_STRING" | by_ "declaration" "T_EXPORT_MACRO_HEADER T_STRING" | by_ "declaration" "T_INPUT_STREAM T_STRING"
      |by_ "declaration" "T_PARSER_BASE T_STRING" | by_ "declaration" "T_LEXER_BASE T_STRING" | by_ "declaration" "T_PARSER_DECLARATION_HEADER T_STRING"
      |by_ "declaration" "T_PARSER_BITS_HEADER T_STRING" | by_ "declaration" "T_AST_HEADER T_STRING" | by_ "declaration" "T_LEXER_DECLARATION_HEADER T_STRING"
      |by_ "declaration" "T_LEXER_BITS_HEADER T_STRING"]; try (a_tok; z_tok); reflexivity.
  - injection M as <- <-. exists VNone, (w <+ Set_ "namespaceCode" v). split; [| logged].
    by_ "declaration" "T_NAMESPACE_DECLARATION T_CODE"; [a_tok; z_tok | reflexivity].
  - injection M as <- <-. exists VNone, (w <+ Set_ "astCode" v). split; [| logged].
    by_ "declaration" "T_AST_DECLARATION T_CODE"; [a_tok; z_tok | reflexivity].
  - injection M as <- <-. exists VNone, (set_base x v w). split.
    + by_ "declaration" "T_AST_BASE T_IDENTIFIER T_STRING"; [a_tok; a_tok; z_tok | reflexivity].
    + unfold done. cbn [flat_map dtokens existsb is_lexer dbase app rev GramSpec.dtype declare_all]. rewrite app_nil_r, orb_false_r. repeat split. exact Rg.
  - set (e' := match e with Some e => e | None => start_name end) in *. destruct (lmeans_all e' l s) as [[a1 l1] |] eqn:M1; [| discriminate]. injection M as <- <-.
    destruct (lexer_read s (VText [] :: nothing :: match e with Some e => [VText e] | None => [] end ++ VText [] :: b) (enter_lexer e' w) l a1 l1 M1 Rg)
      as (v & w' & H & E & F & G).
    exists (VText []), w'. split.
    + destruct e as [e |]; cbn [opt app].
      * by_ "declaration" "T_LEXER T_STRING @2 T_ARROW lexer_declaration_rest ';'";
          [a_tok; a_tok; eapply RA_skip; [by_ "@2" ""; [apply RA_nil | reflexivity] | a_tok; eapply RA_cons; [exact H | z_tok]] | reflexivity].
      * by_ "declaration" "T_LEXER @3 T_ARROW lexer_declaration_rest ';'";
          [a_tok; eapply RA_skip; [by_ "@3" ""; [apply RA_nil | reflexivity] | a_tok; eapply RA_cons; [exact H | z_tok]] | reflexivity].
    + destruct G as (A1 & A2 & A3 & A4 & A5 & A6 & A7 & A8 & A9). unfold done.
      cbn [flat_map dtokens existsb is_lexer dbase app rev GramSpec.dtype declare_all]. rewrite !app_nil_r, !orb_true_r.
      rewrite A1, A2, A3, A5, A6, A7, A8, A9, E. cbn. rewrite <- app_assoc. repeat split. exact F.
Qed.
Lemma done_trans d ds a1 a2 l1 l2 w w1 w2 : done d a1 l1 w w1 -> done ds a2 l2 w1 w2 -> done (d ++ ds) (a1 ++ a2) l2 w w2.
Proof.
  intros (A1 & A2 & A3 & A4 & A5 & A6 & A7 & A8 & A9 & A10) (B1 & B2 & B3 & B4 & B5 & B6 & B7 & B8 & B9 & B10). unfold done.
  rewrite !flat_map_app, existsb_app, !rev_app_distr, B1, B2, B3, B6, B7, B8, B9, B10, A1, A2, A6, A7, A8, A9, A10, <- !app_assoc, orb_assoc.
  repeat split.
  - intro x. rewrite B4, first_of_app, A4, app_assoc, (first_of_app (terminals w ++ _)). reflexivity.
  - clear - A5 B5. revert A5. generalize (flat_map GramSpec.dtype d) as l, (automaton w) as n. induction l as [| x l IH]; intros n E; cbn [declare_all app] in *.
    + injection E as ->. exact B5.
    + destruct (declare n x); [apply IH, E | discriminate E].
Qed.
Lemma types_after ds : types_first ds = true -> forall d r, ds = d :: r -> types_first r = true.
Proof.
  intros H d r ->. cbn [types_first] in H. destruct (is_lexer d); [apply andb_true_iff in H; tauto | exact H].
Qed.
Lemma declare_app t l1 l2 : declare_all t (l1 ++ l2) = match declare_all t l1 with Some t => declare_all t l2 | None => None end.
Proof. revert t. induction l1 as [| x l IH]; intro t; cbn [declare_all app]; [reflexivity |]. destruct (declare t x); [apply IH | reflexivity]. Qed.
Lemma decls_more ds : forall d0 a0 u b w0 w l a l' n v, R "declarations" u b w0 v w -> done d0 a0 l w0 w ->
  dmeans_all l ds = Some (a, l') -> types_first ds = true -> (hasLexer w = true -> forallb (fun d => negb (is_type d)) ds = true) ->
  declare_all (automaton w) (flat_map GramSpec.dtype ds) = Some n ->
  exists v' w', R "declarations" (u ++ flat_map dshow ds) b w0 v' w' /\ done (d0 ++ ds) (a0 ++ a) l' w0 w'.
Proof.
  induction ds as [| d ds IH]; intros d0 a0 u b w0 w l a l' n v H D M T L A; cbn [flat_map dmeans_all] in *.
  - injection M as <- <-. rewrite !app_nil_r. eauto.
  - destruct (dmeans l d) as [[a1 l1] |] eqn:M1; [| discriminate]. destruct (dmeans_all l1 ds) as [[a2 l2] |] eqn:M2; [| discriminate]. injection M as <- <-.
    rewrite declare_app in A. destruct (declare_all (automaton w) (GramSpec.dtype d)) as [n1 |] eqn:A1; [| discriminate].
    assert (Rg : regexps w = rev l) by apply D.
    destruct (decl_read d (v :: b) w l a1 l1 n1 M1 Rg) as (v1 & w1 & H1 & D1); [| exact A1 |].
    { intro E. specialize (L E). cbn [forallb] in L. apply andb_true_iff in L as [L _]. apply negb_true_iff, L. }
    pose proof (done_trans _ _ _ _ _ _ _ _ _ D D1) as D2.
    destruct (IH (d0 ++ [d]) (a0 ++ a1) (u ++ dshow d) b w0 w1 l1 a2 l2 n v) as (v' & w' & Hw & Dw).
    + by_ "declarations" "declarations declaration"; [eapply RA_cons; [exact H | apply RA_one, H1] | reflexivity].
    + exact D2.
    + exact M2.
    + eapply types_after; [exact T | reflexivity].
    + intro E. destruct D1 as (_ & _ & _ & _ & _ & D6 & _). rewrite D6 in E. cbn [existsb] in E. rewrite orb_false_r in E. cbn [types_first forallb] in T, L.
      destruct (is_lexer d); [apply andb_true_iff in T; tauto |]. rewrite orb_false_r in E. specialize (L E). apply andb_true_iff in L. tauto.
    + destruct D1 as (_ & _ & _ & _ & D5 & _). cbn [flat_map] in D5. rewrite app_nil_r, A1 in D5. injection D5 as <-. exact A.
    + exists v', w'. rewrite <- !app_assoc in Dw. rewrite <- app_assoc in Hw. split; [exact Hw | exact Dw].
Qed.

(** ** Files *)
Lemma imeans_ext d d' : (forall x, d x = d' x) -> forall i, imeans d i = imeans d' i.
Proof.
  intros E i. assert (A : forall a, atom_means d a = atom_means d' a) by (intros [x | x args]; cbn; [rewrite E |]; reflexivity).
  induction i; cbn [imeans]; congruence.
Qed.
Lemma omeans_ext d d' : (forall x, d x = d' x) -> forall o, omeans d o = omeans d' o.
Proof. intros E o. unfold omeans. rewrite E. reflexivity. Qed.
Lemma rule_events_ext d d' r : (forall x, d x = d' x) -> rule_events d r = rule_events d' r.
Proof.
  intro E. unfold rule_events. f_equal. f_equal. f_equal. destruct r as [i x f | b args l x f]; cbn [rule_means].
  - f_equal. apply imeans_ext, E.
  - f_equal. f_equal. apply map_ext. intros [o p a | o q p a | o p | o p a | o q]; cbn [ops_means]; rewrite !(omeans_ext d d' E); reflexivity.
Qed.
Theorem file_read ast f : readable ast f ->
  exists v w, R "system" (file_show f) [] (empty_world ast) v w /\
    option_map (@rev event) (file_events f) = Some (events w) /\
    (forall x, lookup x (terminals w) = first_of (file_tokens f) x) /\
    (forall x, lookup x (bases w) = file_base f x) /\
    declare_all initial_type (flat_map GramSpec.dtype (all_decls f)) = Some (automaton w) /\
    hasLexer w = existsb is_lexer (all_decls f) /\
    needStateManagement w = existsb rule_try (rules_ f) /\ needOperatorStack w = existsb rule_operators (rules_ f) /\
    undefined w = false.
Proof.
  intros ([[a l'] M] & T & [n A] & K). destruct f as [hd d ds rs tl]. unfold all_decls, file_show, file_events, file_tokens, file_base in *. cbn [head_ first_decl decls_ rules_ tail_] in *.
  unfold all_decls in *. cbn [first_decl decls_] in *.
  set (w1 := empty_world ast <+ Set_ "decl" (or_empty hd)).
  pose proof M as M'. cbn [dmeans_all] in M. destruct (dmeans [] d) as [[a1 l1] |] eqn:M1; [| discriminate]. destruct (dmeans_all l1 ds) as [[a2 l2] |] eqn:M2; [| discriminate].
  injection M as <- <-. cbn [flat_map] in A. rewrite declare_app in A.
  destruct (declare_all initial_type (GramSpec.dtype d)) as [n1 |] eqn:A1; [| discriminate].
  destruct (decl_read d (VNone :: VText (or_empty hd) :: []) w1 [] a1 l1 n1 M1 eq_refl) as (v1 & w2 & H1 & D1); [discriminate | exact A1 |].
  assert (Hd : R "declarations" (dshow d) (VNone :: VText (or_empty hd) :: []) w1 v1 w2) by (by_ "declarations" "declaration"; [apply RA_one, H1 | reflexivity]).
  destruct (decls_more ds [d] a1 (dshow d) _ w1 w2 l1 a2 l2 n v1 Hd D1 M2) as (v3 & w3 & H3 & D3).
  { eapply types_after; [exact T | reflexivity]. }
  { intro E. destruct D1 as (_ & _ & _ & _ & _ & D6 & _). rewrite D6 in E. cbn in E. rewrite orb_false_r in E. cbn [types_first] in T. rewrite E in T. apply andb_true_iff in T. tauto. }
  { destruct D1 as (_ & _ & _ & _ & D5 & _). cbn [flat_map] in D5. rewrite app_nil_r in D5. change (automaton w1) with initial_type in D5. rewrite A1 in D5. injection D5 as <-. exact A. }
  destruct D3 as (D1' & D2' & D3' & D4' & D5' & D6' & D7' & D8' & D9' & D10').
  assert (Hr : R "rules" [] (v3 :: VNone :: VText (or_empty hd) :: []) w3 VNone w3) by (by_ "rules" ""; [apply RA_nil | reflexivity]).
  destruct (rules_more rs [] _ w3 w3 VNone Hr) as [v4 H4]; [rewrite D1'; exact K |].
  destruct (rules_fields rs w3) as (F1 & F2 & F3 & F4 & F5 & F6 & F7 & F8).
  set (w4 := fold_left (fun w r => after_rule r w) rs w3) in *.
  exists VNone, (w4 <+ Add "bits" (or_empty tl)). split; [| repeat split].
  - clearbody w4. by_ "system" "code_opt @1 declarations rules code_opt".
    + eapply RA_cons; [apply code_opt_read |]. eapply RA_skip. { by_ "@1" ""; [apply RA_nil |]. instantiate (1 := w1). instantiate (1 := VNone). reflexivity. }
      eapply RA_cons; [exact H3 |]. eapply RA_cons; [exact H4 |]. apply RA_one, code_opt_read.
    + reflexivity.
  - rewrite M'. cbn [option_map fst]. f_equal. change (events (w4 <+ Add "bits" (or_empty tl))) with (Add "bits" (or_empty tl) :: events w4).
    rewrite F5, D2', !rev_app_distr. cbn [rev app]. f_equal. rewrite <- !app_assoc. f_equal.
    + f_equal. apply flat_map_ext. intro r. apply rule_events_ext. intro x. unfold describe, desc, file_tokens, all_decls. cbn [first_decl decls_].
      rewrite lookup_eq, D4'. reflexivity.
  - intro x. change (terminals (w4 <+ Add "bits" (or_empty tl))) with (terminals w4). rewrite F1, lookup_eq, D4'. reflexivity.
  - intro x. change (bases (w4 <+ Add "bits" (or_empty tl))) with (bases w4). rewrite F8, lookup_eq, D7', app_nil_r. reflexivity.
  - change (automaton (w4 <+ Add "bits" (or_empty tl))) with (automaton w4). rewrite F6, <- D5'. reflexivity.
  - change (hasLexer (w4 <+ Add "bits" (or_empty tl))) with (hasLexer w4). rewrite F7, D6'. reflexivity.
  - change (needStateManagement (w4 <+ Add "bits" (or_empty tl))) with (needStateManagement w4). rewrite F2, D8'. reflexivity.
  - change (needOperatorStack (w4 <+ Add "bits" (or_empty tl))) with (needOperatorStack w4). rewrite F3, D9'. reflexivity.
  - change (undefined (w4 <+ Add "bits" (or_empty tl))) with (undefined w4). rewrite F4, D10'. reflexivity.
Qed.
