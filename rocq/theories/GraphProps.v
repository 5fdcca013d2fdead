(** What is proved about the nodes made from a grammar file, and about the parser generated
    from them: from the tokens of the file to the texts that are accepted. *)
From Coq Require Import List NArith Ascii String Bool PeanoNat Lia Relations Permutation.
From Verif Require Import GramProps GrammarProps ParserProps EndProps.
From Verif Require Import YaccModel ScanModel FlexModel GramModel GramSpec GramTableProofs GramProofs GramFileProofs.
From Verif Require Import GraphModel GraphProofs LangProofs OriginProofs FileProofs GrammarModel GrammarSpec ParserModel CheckerModel CompleteSpec ParserSpec EndSpec LangSpec.
Import ListNotations.
Open Scope string_scope.
Open Scope list_scope.

(** Any reading of a readable file. *)
Lemma any_reading ast f l n v w : readable ast f -> map (fun x => (ltok x, lval x)) l = file_show f -> read_tokens n ast (input l) = Accepted val world v w ->
  rules_pushed (rev (events w)) = map (rule_means (describe f)) (rules_ f) /\ symbols_pushed (rev (events w)) = flat_map rule_symbols (rules_ f) /\
  (forall x, lookup x (terminals w) = first_of (file_tokens f) x).
Proof.
  intros Rd E P. destruct (C92_file_read ast f l Rd E) as (n1 & v1 & w1 & P1 & _ & T & _). destruct (C93_rules_read ast f l Rd E) as (n2 & v2 & w2 & P2 & A & B).
  assert (U : forall m m' a a' b b', read_tokens m ast (input l) = Accepted val world a b -> read_tokens m' ast (input l) = Accepted val world a' b' -> b = b').
  { intros m m' a a' b b' H H'. assert (Q : read_tokens (m + m') ast (input l) = Accepted val world a b) by (rewrite (reading_more m (m + m')); [exact H | lia | rewrite H; discriminate]).
    assert (Q' : read_tokens (m + m') ast (input l) = Accepted val world a' b') by (rewrite (reading_more m' (m + m')); [exact H' | lia | rewrite H'; discriminate]).
    rewrite Q in Q'. injection Q' as _ Q'. exact Q'. }
  rewrite <- (U _ _ _ _ _ _ P1 P) in *. rewrite <- (U _ _ _ _ _ _ P2 P1) in *. auto.
Qed.
Lemma any_order w order : Permutation order (rule_ids w) -> forall e, In e order <-> In e (rule_ids w).
Proof. intros P e. split; [apply (Permutation_in _ P) | apply (Permutation_in _ (Permutation_sym P))]. Qed.

(** The texts: tokens as the lexer would deliver them, and their names. *)
Definition spells_out (w : world) (v : list id) (ws : list text) : Prop := Forall2 (fun t x => token_id w x = Some t) v ws.
(** What the author has to respect for what follows. *)
Definition respects (f : file) : Prop := nothing_recovers f /\ inlined_optional f /\ operators_not_inlined f /\ operators_only f /\ end_kept f.

(** ** C94: the nodes made from a file say what the file says
    Whatever the order the rules come in, the nodes are trees as the rest of the generator
    takes for granted, and a symbol stands for just the sentences that the file describes. *)
Theorem C94_graph : forall ast f l n v w order,
  readable ast f -> map (fun x => (ltok x, lval x)) l = file_show f -> tokens_declared f ->
  read_tokens n ast (input l) = Accepted val world v w -> Permutation order (rule_ids w) ->
  well_formed (graph w order) = true /\
  (forall x y t, token_id w x = Some t -> token_id w y = Some t -> x = y) /\
  (forall x, In x (map fst (file_tokens f)) <-> exists t, token_id w x = Some t) /\
  (forall x, In x (flat_map rule_symbols (rules_ f)) <-> exists s, symbol_id w x = Some s) /\
  (forall x s u ws, symbol_id w x = Some s -> spells_out w u ws -> (derives (graph w order) s u <-> sentence f x ws)) /\
  (forall x s u, symbol_id w x = Some s -> derives (graph w order) s u -> exists ws, spells_out w u ws /\ sentence f x ws) /\
  (forall x ws, sentence f x ws -> exists s u, symbol_id w x = Some s /\ spells_out w u ws /\ derives (graph w order) s u).
Proof.
  intros ast f l n v w order Rd E De P O. destruct (any_reading ast f l n v w Rd E P) as (Rl & Sy & To). pose proof (any_order w order O) as Ord.
  split; [exact (graph_well_formed w order (rules_known f w Rl Sy To De) (fun e I => proj1 (Ord e) I)) |].
  split; [intros x y t A B; eapply index_inj; eassumption |].
  split; [intros x; exact (token_named f w To x) |]. split; [intros x; exact (symbol_named f w Sy x) |].
  split; [intros x s u ws; exact (graph_language f w order Rl Sy To De Ord x s u ws) |].
  split; [intros x s u; exact (derives_word f w order Rl Sy To De Ord x s u) | intros x ws; exact (sentence_word f w order Rl Sy To De Ord x ws)].
Qed.
Print Assumptions C94_graph.


(** ** C95: what the parser accepts is a sentence of the file
    From the tokens of a grammar file, whatever the sets and conditions are: if the generated
    parser accepts a text, the file describes it, and all of it was read.  Full statement:
    without [respects]; false then (C47, C48). *)
Lemma texts_declared f w order u ws : (forall x, lookup x (terminals w) = first_of (file_tokens f) x) -> end_kept f -> spells_out w u ws -> ~ In (geof (graph w order)) u.
Proof.
  intros To EK H I. apply (file_end f w order To EK). destruct (forall2_left _ _ _ H _ I) as (x & _ & Ex). apply index_bounds in Ex. cbn [gterms graph]. apply in_seq. unfold GraphProofs.len in *. lia.
Qed.
Theorem C95_accepted_partial : forall ast f l n v w order first follow cond fuel x s u ws st,
  readable ast f -> map (fun x => (ltok x, lval x)) l = file_show f -> tokens_declared f -> respects f ->
  read_tokens n ast (input l) = Accepted val world v w -> Permutation order (rule_ids w) ->
  begins f x -> symbol_id w x = Some s -> spells_out w u ws ->
  parse (graph w order) first follow (stream (graph w order) u) cond fuel s = Done st ->
  sentence f x ws /\ pidx st = S (List.length ws).
Proof.
  intros ast f l n v w order first follow cond fuel x s u ws st Rd E De (R1 & R2 & R3 & R4 & R5) P O Bg Ex Sp Pa.
  destruct (any_reading ast f l n v w Rd E P) as (Rl & Sy & To). pose proof (any_order w order O) as Ord.
  pose proof (graph_well_formed w order (rules_known f w Rl Sy To De) (fun e I => proj1 (Ord e) I)) as WF.
  destruct (file_start f w order Rl Sy To De Ord x Bg) as (s' & Ex' & Is & e & i & Ie & Ke). assert (s' = s) by congruence. subst s'.
  destruct (C47_whole_input_partial (graph w order) first follow u cond fuel s st WF (file_on_top f w order Rl Sy To De Ord R3) (file_alone f w order Rl Sy To De Ord R4)
    (file_no_recovery f w order Rl Sy To De Ord R1) (file_inlined f w order Rl Sy To De Ord R2) (file_end f w order To R5) (proj1 (symbol_ok w order x s Ex)) Is (texts_declared f w order u ws To R5 Sp) Pa) as [D L].
  split; [apply (graph_language f w order Rl Sy To De Ord x s u ws Ex Sp); exact D |]. rewrite L. f_equal. clear - Sp. induction Sp; cbn [List.length]; auto.
Qed.
Print Assumptions C95_accepted_partial.

(** ** C96: the generated parser decides the language of the file
    If the tool has nothing to say about the sets and they are [careful] (CompleteSpec), the
    texts accepted are just those the file describes.  Full statement: without [careful],
    [respects], [code_accompanied]; false then (C48). *)
Theorem C96_exact_partial : forall ast f l n v w order rounds fuel first follow cond x s u ws,
  readable ast f -> map (fun x => (ltok x, lval x)) l = file_show f -> tokens_declared f -> respects f -> code_accompanied f ->
  read_tokens n ast (input l) = Accepted val world v w -> Permutation order (rule_ids w) ->
  compute_first (graph w order) rounds fuel = Some first -> compute_follow (graph w order) rounds fuel first = Some follow ->
  no_error (graph w order) first = true -> no_conflict (graph w order) first follow = true -> careful (graph w order) first follow = true ->
  begins f x -> symbol_id w x = Some s -> spells_out w u ws -> (forall k, cond k = true) ->
  ((exists k st, parse (graph w order) first follow (stream (graph w order) u) cond k s = Done st) <-> sentence f x ws).
Proof.
  intros ast f l n v w order rounds fuel first follow cond x s u ws Rd E De (R1 & R2 & R3 & R4 & R5) CA P O E1 E2 NE NC OK Bg Ex Sp C.
  destruct (any_reading ast f l n v w Rd E P) as (Rl & Sy & To). pose proof (any_order w order O) as Ord.
  pose proof (graph_well_formed w order (rules_known f w Rl Sy To De) (fun e I => proj1 (Ord e) I)) as WF.
  destruct (file_start f w order Rl Sy To De Ord x Bg) as (s' & Ex' & Is & e & i & Ie & Ke). assert (s' = s) by congruence. subst s'.
  rewrite <- (graph_language f w order Rl Sy To De Ord x s u ws Ex Sp).
  exact (C70_exact_language_partial (graph w order) rounds fuel first follow u s e i WF (file_code f w order Rl Sy To De Ord CA) (file_on_top f w order Rl Sy To De Ord R3) (file_alone f w order Rl Sy To De Ord R4)
    (file_no_recovery f w order Rl Sy To De Ord R1) (file_inlined f w order Rl Sy To De Ord R2) (file_end f w order To R5) E1 E2 NE NC OK Ie Ke Is (texts_declared f w order u ws To R5 Sp) cond C).
Qed.
Print Assumptions C96_exact_partial.
(** Without left recursion in the file it ends on every text, whatever the sets and
    conditions are, ... *)
Theorem C96_ends_partial : forall ast f l n v w order first follow cond u s,
  readable ast f -> map (fun x => (ltok x, lval x)) l = file_show f -> tokens_declared f -> end_kept f -> not_left_recursive f ->
  read_tokens n ast (input l) = Accepted val world v w -> Permutation order (rule_ids w) ->
  exists k, forall k', k <= k' -> parse (graph w order) first follow (stream (graph w order) u) cond k' s <> Out.
Proof.
  intros ast f l n v w order first follow cond u s Rd E De R5 NL P O.
  destruct (any_reading ast f l n v w Rd E P) as (Rl & Sy & To). pose proof (any_order w order O) as Ord.
  exact (C78_parser_ends_partial (graph w order) first follow cond u s (graph_well_formed w order (rules_known f w Rl Sy To De) (fun e I => proj1 (Ord e) I)) (file_end f w order To R5) (file_left f w order Rl Sy To De Ord NL)).
Qed.
Print Assumptions C96_ends_partial.
(** ... and with the conditions above it gives the right verdict on every text. *)
Theorem C96_verdict_partial : forall ast f l n v w order rounds fuel first follow cond x s u ws,
  readable ast f -> map (fun x => (ltok x, lval x)) l = file_show f -> tokens_declared f -> respects f -> code_accompanied f -> not_left_recursive f ->
  read_tokens n ast (input l) = Accepted val world v w -> Permutation order (rule_ids w) ->
  compute_first (graph w order) rounds fuel = Some first -> compute_follow (graph w order) rounds fuel first = Some follow ->
  no_error (graph w order) first = true -> no_conflict (graph w order) first follow = true -> careful (graph w order) first follow = true ->
  begins f x -> symbol_id w x = Some s -> spells_out w u ws -> (forall k, cond k = true) ->
  exists k st, parse (graph w order) first follow (stream (graph w order) u) cond k s = Done st /\ sentence f x ws \/
               parse (graph w order) first follow (stream (graph w order) u) cond k s = Fail st /\ ~ sentence f x ws.
Proof.
  intros ast f l n v w order rounds fuel first follow cond x s u ws Rd E De (R1 & R2 & R3 & R4 & R5) CA NL P O E1 E2 NE NC OK Bg Ex Sp C.
  destruct (any_reading ast f l n v w Rd E P) as (Rl & Sy & To). pose proof (any_order w order O) as Ord.
  pose proof (graph_well_formed w order (rules_known f w Rl Sy To De) (fun e I => proj1 (Ord e) I)) as WF.
  destruct (file_start f w order Rl Sy To De Ord x Bg) as (s' & Ex' & Is & e & i & Ie & Ke). assert (s' = s) by congruence. subst s'.
  pose proof (graph_language f w order Rl Sy To De Ord x s u ws Ex Sp) as GL.
  destruct (C78_verdict_partial (graph w order) rounds fuel first follow u s e i WF (file_code f w order Rl Sy To De Ord CA) (file_on_top f w order Rl Sy To De Ord R3) (file_alone f w order Rl Sy To De Ord R4)
    (file_no_recovery f w order Rl Sy To De Ord R1) (file_inlined f w order Rl Sy To De Ord R2) (file_end f w order To R5) E1 E2 NE NC OK (file_left f w order Rl Sy To De Ord NL) Ie Ke Is (texts_declared f w order u ws To R5 Sp) cond C) as (k & st & [(A & B) | (A & B)]);
    exists k, st; [left | right]; (split; [exact A |]); rewrite <- GL; exact B.
Qed.
Print Assumptions C96_verdict_partial.

(** ** C97: FIRST, in terms of the file
    The computations end for every file, and the FIRST set of a symbol holds every token that
    a sentence can begin with, and marks it if it can be empty.  Full statement: without
    [code_accompanied] and without [operands_read]; false then (C42). *)
Definition operands_read (f : file) : Prop := forall b args l x ft, In (ROperators b args l x ft) (rules_ f) -> ~ sentence f b [].
Theorem C97_sets_end : forall ast f l n v w order,
  readable ast f -> map (fun x => (ltok x, lval x)) l = file_show f -> tokens_declared f ->
  read_tokens n ast (input l) = Accepted val world v w -> Permutation order (rule_ids w) ->
  exists rounds fuel first follow, compute_first (graph w order) rounds fuel = Some first /\ compute_follow (graph w order) rounds fuel first = Some follow.
Proof.
  intros ast f l n v w order Rd E De P O. destruct (C94_graph ast f l n v w order Rd E De P O) as (WF & _). set (g := graph w order) in *.
  destruct (C45_terminates g WF (size g * size g + 2) (S (S (size g) * S (S (size g)))) ltac:(lia) ltac:(lia)) as (t & E1 & _ & F). destruct (F t) as (o & E2 & _). eauto 8.
Qed.
Print Assumptions C97_sets_end.
Theorem C97_first_partial : forall ast f l n v w order rounds fuel first,
  readable ast f -> map (fun x => (ltok x, lval x)) l = file_show f -> tokens_declared f -> code_accompanied f -> operands_read f ->
  read_tokens n ast (input l) = Accepted val world v w -> Permutation order (rule_ids w) ->
  compute_first (graph w order) rounds fuel = Some first ->
  forall x s, symbol_id w x = Some s ->
  (forall y t ws, token_id w y = Some t -> sentence f x (y :: ws) -> first s t = true) /\
  (sentence f x [] -> eps (graph w order) first s = true).
Proof.
  intros ast f l n v w order rounds fuel first Rd E De CA OR P O E1 x s Ex.
  destruct (any_reading ast f l n v w Rd E P) as (Rl & Sy & To). pose proof (any_order w order O) as Ord.
  pose proof (graph_well_formed w order (rules_known f w Rl Sy To De) (fun e I => proj1 (Ord e) I)) as WF.
  pose proof (proj1 (symbol_ok w order x s Ex)) as Ks.
  assert (ON : operands_not_empty (graph w order)) by exact (file_operands f w order Rl Sy To De Ord OR).
  assert (It : GrammarSpec.item (graph w order) s) by (split; [left; exact Ks | intros i t K; congruence]).
  destruct (C42_first_complete_partial (graph w order) rounds fuel first WF (file_code f w order Rl Sy To De Ord CA) ON E1 s It) as [A B]. split.
  - intros y t ws Et Y. destruct (sentence_word f w order Rl Sy To De Ord x (y :: ws) Y) as (s' & u & Ex' & Sp & D). assert (s' = s) by congruence. subst s'.
    inversion Sp as [|t' y' u' ws' Et' Sp']; subst. assert (t' = t) by congruence. subst t'. exact (A t u' D).
  - intros Y. apply B. apply (graph_language f w order Rl Sy To De Ord x s [] [] Ex (Forall2_nil _)). exact Y.
Qed.
Print Assumptions C97_first_partial.

(** A file as one would write it: a list of expressions, and something optional at the end. *)
Definition T (x : string) : isrc := IAtom (ATok (chars x)).
Definition S_ (x : string) : isrc := IAtom (ASym (chars x) None).
Definition tok (x : string) : text * option text := (chars x, None).
Definition no_foot : foot := FootCode None.
Definition plain_op (x : string) : osrc := Op None (chars x) None.
Definition calculator : file := File None
  (DTokens (tok "NUMBER") [tok "PLUS"; tok "MINUS"; tok "LPAREN"; tok "RPAREN"; tok "COMMA"; tok "END"]) []
  [RRule (IThen (IListOf (S_ "expression") (T "COMMA")) (IInlined (chars "rest"))) (chars "start") no_foot;
   ROperators (chars "number") None [GramSpec.OBin (plain_op "PLUS") (PNumber (chars "1")) GramSpec.Left; GramSpec.OPre (plain_op "MINUS") (PNumber (chars "2"));
     GramSpec.OParen (plain_op "LPAREN") (plain_op "RPAREN")] (chars "expression") no_foot;
   RRule (IThen (IMany (T "NUMBER")) (IOnlyCode (chars "done();"))) (chars "number") no_foot;
   RRule (IMaybe (T "END")) (chars "rest") no_foot]
  None.
Definition calculator_world : world := Eval vm_compute in
  match YaccModel.parse productions GramTableProofs.grammar_states 0%N val world sem 3000 [] (empty_world true) (input (GramProps.shown calculator)) with Accepted _ _ _ w => w | _ => empty_world true end.
Notation calculator_graph := (graph calculator_world (rule_ids calculator_world)).
Example calculator_read : readable true calculator /\ exists v, read_tokens 3000 true (input (GramProps.shown calculator)) = Accepted val world v calculator_world.
Proof.
  split; [repeat split; eexists; vm_compute; reflexivity |]. eexists. reading. reflexivity.
Qed.
Definition all_well (g : grammar) : bool := match sets g with Some (t, o) => no_error g t && no_conflict g t o && careful g t o | None => false end.
Example calculator_well : all_well calculator_graph = true.
Proof. vm_compute. reflexivity. Qed.
Ltac rule_of H := cbn [In rules_ calculator] in H; repeat destruct H as [H | H]; try (destruct H; fail); try discriminate H.
Ltac in_calculator H := destruct H as (?i & ?x & ?ft & ?I & ?P); rule_of I; injection I as <- <- <-; cbn [parts In app] in P; repeat destruct P as [P | P]; try (destruct P; fail); try discriminate P.
Example calculator_declared : tokens_declared calculator.
Proof.
  intros r x Ir Ix. rule_of Ir; subst r; cbn [rule_tokens tokens_of atom_tokens T S_ flat_map operator_tokens app In plain_op otok] in Ix; repeat destruct Ix as [<- | Ix]; try (destruct Ix; fail); vm_compute; tauto.
Qed.
Example calculator_respects : respects calculator /\ code_accompanied calculator.
Proof.
  split; [split; [| split; [| split; [| split]]] | split; [| split]].
  - intros j H. in_calculator H.
  - intros x H. in_calculator H. injection P as <-. eapply y_rule; [cbn [In rules_ calculator]; do 3 right; left; reflexivity | apply y_maybe0].
  - intros b args l x ft Ir H. rule_of Ir. injection Ir as <- <- <- <- <-. in_calculator H.
  - intros r b args l x ft Ir Ir' N. rule_of Ir. injection Ir as <- <- <- <- <-. rule_of Ir'; subst r; cbn [rule_name] in N; first [discriminate N | reflexivity].
  - vm_compute. intros H. repeat destruct H as [H | H]; try discriminate H. exact H.
  - intros i x ft Ir. rule_of Ir; injection Ir as <- <- <-; reflexivity.
  - intros i j [H | H]; in_calculator H.
  - intros i H. in_calculator H. injection P as <-. reflexivity.
Qed.
Definition rank (x : text) : nat :=
  if same x (chars "start") then 3 else if same x (chars "expression") then 2 else if same x (chars "number") then 1 else 0.
Example calculator_not_left : not_left_recursive calculator.
Proof.
  split; [| split].
  - assert (L : forall x y, clos_trans text (left_symbol calculator) x y -> rank y < rank x).
    { induction 1 as [x y L | x y z _ IH1 _ IH2]; [| lia]. inversion L as [i x' ft y' Ir Le | b args l x' ft Ir]; subst; rule_of Ir; injection Ir as <- <- <-.
      - inversion Le; subst; match goal with H : leads _ _ _ |- _ => inversion H; subst end; try (match goal with H : leads _ _ _ |- _ => inversion H; subst end); vm_compute; lia.
      - inversion Le; subst; match goal with H : leads _ _ _ |- _ => inversion H; subst end; match goal with H : leads _ _ _ |- _ => inversion H end.
      - inversion Le; subst; match goal with H : leads _ _ _ |- _ => inversion H end.
      - subst. vm_compute. lia. }
    intros x C. specialize (L x x C). lia.
  - intros i [H | H] K; in_calculator H. injection P as <-. inversion K.
  - intros i j H (K1 & K2). in_calculator H. injection P as <- <-. inversion K2.
Qed.
Example calculator_begins : begins calculator (chars "start").
Proof. split; [vm_compute; reflexivity |]. eexists. split; [left; reflexivity | reflexivity]. Qed.
Lemma calculator_number : ~ sentence calculator (chars "number") [].
Proof.
  assert (NM : ~ says calculator (IMany (T "NUMBER")) []).
    { intros H. inversion H as [| | | | | | | | | i u H1 | i u v H1 | | | | | | | | | | | |]; subst; [inversion H1 |]. destruct u; [inversion H1 | discriminate]. }
  intros H. inversion H as [i x ft u Ir Y | b args l x ft u Ir Y]; subst; rule_of Ir. injection Ir as <- <-. inversion Y; subst. match goal with Q : _ ++ _ = [] |- _ => apply app_eq_nil in Q; destruct Q as [-> ->] end. contradiction.
Qed.
Definition named (l : list string) : list text := map chars l.
(** - NUMBER NUMBER + ( NUMBER ) , NUMBER END *)
Example calculator_sentence : sentence calculator (chars "start") (named ["MINUS"; "NUMBER"; "NUMBER"; "PLUS"; "LPAREN"; "NUMBER"; "RPAREN"; "COMMA"; "NUMBER"; "END"]) /\
  ~ sentence calculator (chars "start") [].
Proof.
  assert (N1 : forall u, says calculator (IMany (T "NUMBER")) u -> sentence calculator (chars "number") u).
  { intros u H. eapply y_rule; [cbn [In rules_ calculator]; do 2 right; left; reflexivity |]. rewrite <- (app_nil_r u). apply y_then; [exact H | constructor]. }
  assert (N2 : sentence calculator (chars "number") (named ["NUMBER"])) by (apply N1, y_many1, y_tok).
  assert (N3 : sentence calculator (chars "number") (named ["NUMBER"; "NUMBER"])) by (apply N1; apply (y_many _ _ (named ["NUMBER"]) (named ["NUMBER"])); [apply y_tok | apply y_many1, y_tok]).
  split.
  - eapply y_rule; [left; reflexivity |]. apply (y_then _ _ _ (named ["MINUS"; "NUMBER"; "NUMBER"; "PLUS"; "LPAREN"; "NUMBER"; "RPAREN"; "COMMA"; "NUMBER"]) (named ["END"])).
    + apply (y_list _ _ _ (named ["MINUS"; "NUMBER"; "NUMBER"; "PLUS"; "LPAREN"; "NUMBER"; "RPAREN"]) (named ["COMMA"]) (named ["NUMBER"])).
      * apply y_sym. eapply y_expr; [right; left; reflexivity |].
        apply (y_bin _ _ _ (plain_op "PLUS") (PNumber (chars "1")) GramSpec.Left (named ["MINUS"; "NUMBER"; "NUMBER"]) (named ["LPAREN"; "NUMBER"; "RPAREN"])); [cbn; auto | |].
        -- apply (y_pre _ _ _ (plain_op "MINUS") (PNumber (chars "2")) (named ["NUMBER"; "NUMBER"])); [cbn; auto | apply y_base; exact N3].
        -- apply (y_paren _ _ _ (plain_op "LPAREN") (plain_op "RPAREN") (named ["NUMBER"])); [cbn; auto | apply y_base; exact N2].
      * apply y_tok.
      * apply y_list1, y_sym. eapply y_expr; [right; left; reflexivity |]. apply y_base. exact N2.
    + apply y_inlined. eapply y_rule; [do 3 right; left; reflexivity | apply y_maybe, y_tok].
  - pose proof calculator_number as NN.
    assert (NE : forall b l u, expression calculator b l u -> b = chars "number" -> u <> []).
    { induction 1; intros Eb Z; subst; try discriminate Z; try (apply app_eq_nil in Z; destruct Z; discriminate). exact (NN H). }
    assert (NX : ~ sentence calculator (chars "expression") []).
    { intros H. inversion H as [i x ft u Ir Y | b args l x ft u Ir Y]; subst; rule_of Ir. injection Ir as <- <- <- <-. exact (NE _ _ _ Y eq_refl eq_refl). }
    intros H. inversion H as [i x ft u Ir Y | b args l x ft u Ir Y]; subst; rule_of Ir. injection Ir as <- <-. inversion Y; subst. match goal with Q : _ ++ _ = [] |- _ => apply app_eq_nil in Q; destruct Q as [-> ->] end.
    match goal with Q : says _ (IListOf _ _) [] |- _ => inversion Q; subst end; [match goal with Q : says _ (S_ _) [] |- _ => inversion Q; subst; contradiction end |].
    match goal with Q : _ ++ _ = [] |- _ => apply app_eq_nil in Q; destruct Q as [-> _] end. match goal with Q : says _ (S_ _) [] |- _ => inversion Q; subst; contradiction end.
Qed.

(** The conditions of C94 to C97 hold for it, so every text gets its verdict. *)
Lemma sets_well g : all_well g = true -> exists t o, compute_first g 300 1500 = Some t /\ compute_follow g 300 1500 t = Some o /\
  no_error g t = true /\ no_conflict g t o = true /\ careful g t o = true.
Proof.
  unfold all_well. intros W. destruct (sets g) as [[t o]|] eqn:S0; [| discriminate]. destruct (sets_first g t o S0) as [E1 E2]. rewrite !andb_true_iff in W. destruct W as ((W1 & W2) & W3). exists t, o. exact (conj E1 (conj E2 (conj W1 (conj W2 W3)))).
Qed.
Lemma calculator_shown : map (fun x => (ltok x, lval x)) (GramProps.shown calculator) = file_show calculator.
Proof. vm_compute. reflexivity. Qed.
Definition start_of (w : world) : id := match symbol_id w (chars "start") with Some s => s | None => 0 end.
Lemma calculator_start : symbol_id calculator_world (chars "start") = Some (start_of calculator_world).
Proof. vm_compute. reflexivity. Qed.
Example C96_case : exists first follow, forall u ws, spells_out calculator_world u ws ->
  exists k st, parse calculator_graph first follow (stream calculator_graph u) always k (start_of calculator_world) = Done st /\ sentence calculator (chars "start") ws \/
               parse calculator_graph first follow (stream calculator_graph u) always k (start_of calculator_world) = Fail st /\ ~ sentence calculator (chars "start") ws.
Proof.
  destruct calculator_read as (Rd & v & P). destruct (sets_well _ calculator_well) as (t & o & E1 & E2 & W1 & W2 & W3). exists t, o.
  intros u ws Sp. destruct calculator_respects as [R1 R2].
  exact (C96_verdict_partial true calculator (GramProps.shown calculator) 3000 v calculator_world (rule_ids calculator_world) 300 1500 t o always (chars "start") (start_of calculator_world) u ws Rd
    calculator_shown calculator_declared R1 R2 calculator_not_left P (Permutation_refl _) E1 E2 W1 W2 W3 calculator_begins calculator_start Sp (fun _ => eq_refl)).
Qed.
Example C96_sentence_case : spells_out calculator_world [3; 1; 1; 2; 4; 1; 5; 6; 1; 7] (named ["MINUS"; "NUMBER"; "NUMBER"; "PLUS"; "LPAREN"; "NUMBER"; "RPAREN"; "COMMA"; "NUMBER"; "END"]).
Proof. repeat constructor. Qed.
Example C97_case : operands_read calculator.
Proof. intros b args l x ft Ir. rule_of Ir. injection Ir as <- <- <- <- <-. exact calculator_number. Qed.

(** Without declared tokens: every mention of such a token is a node of its own, which is not
    the node of any token. *)
Definition careless : file := File None (DTokens (tok "A") []) [] [RRule (IOr (IThen (T "B") (T "A")) (T "B")) (chars "start") no_foot] None.
Theorem C94_undeclared_refuted : exists ast f l n v w s u u', readable ast f /\ map (fun x => (ltok x, lval x)) l = file_show f /\
  read_tokens n ast (input l) = Accepted val world v w /\ symbol_id w (chars "start") = Some s /\
  sentence f (chars "start") (named ["B"]) /\ sentence f (chars "start") (named ["B"; "A"]) /\
  derives (graph w (rule_ids w)) s [u] /\ derives (graph w (rule_ids w)) s [u'; 1] /\ u <> u' /\ (forall x, token_id w x <> Some u /\ token_id w x <> Some u') /\
  well_formed (graph w (rule_ids w)) = false.
Proof.
  exists true, careless, (GramProps.shown careless), 2000. eexists _, _, 2, 5, 3. split; [repeat split; eexists; vm_compute; reflexivity |]. split; [vm_compute; reflexivity |].
  split; [reading; reflexivity |]. split; [vm_compute; reflexivity |].
  split; [eapply y_rule; [left; reflexivity | apply y_right, y_tok] |]. split; [eapply y_rule; [left; reflexivity | apply y_left; apply (y_then _ _ _ (named ["B"]) (named ["A"])); apply y_tok] |].
  split; [eapply (d_sym _ 2 7); [reflexivity | left; reflexivity | reflexivity |]; eapply d_altr; [reflexivity |]; apply d_term; reflexivity |].
  split; [eapply (d_sym _ 2 7); [reflexivity | left; reflexivity | reflexivity |]; eapply d_altl; [reflexivity |]; apply (d_cons _ 4 3 1 [3] [1]); [reflexivity | apply d_term; reflexivity | apply d_term; reflexivity] |].
  split; [discriminate |]. split; [| vm_compute; reflexivity].
  intros x. split; intros H; apply index_bounds in H; vm_compute in H; lia.
Qed.
Print Assumptions C94_undeclared_refuted.
