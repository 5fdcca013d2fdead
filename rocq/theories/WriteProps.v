(** From the bytes of a grammar file to what is known of it: properties C107 to C109. *)
From Coq Require Import List NArith Ascii String Bool PeanoNat Permutation Lia.
From Verif Require Import Base GramProps GraphProps UndefProps DriverProps RunProps EmitProps.
From Verif Require Import YaccModel GramModel GramFileProofs DriverModel.
From Verif Require Import GraphModel GrammarModel GrammarProofs FirstProofs CheckerModel ParserModel ParserSpec CompleteSpec EndSpec.
From Verif Require Import UndefModel RunModel CppSpec EmitModel EmitSpec.
From Verif Require Import FlexModel ScanModel ScanSpec GramSpec WriteSpec WriteFileSpec WriteProofs WriteFileProofs WriteCopyProofs WriteLangProofs LangSpec.
Import ListNotations.
Open Scope list_scope.

Definition tokens_of_scan (l : list lexeme) : list (token * text) := map (fun x => (ltok x, lval x)) l.

(** ** C107: what is written token by token is scanned as these tokens *)
(** Whatever stands between them, and whatever precedes code. *)
Theorem C107_scanned : forall cfg ts s, file_text ts s ->
  exists l st, scan_file cfg s = Scanned l st /\ Forall2 (stored cfg) ts (tokens_of_scan l) /\ smode st = INITIAL /\ pos st = RuleBody.
Proof. exact file_scanned. Qed.
Print Assumptions C107_scanned.

(** Without line directives they are just these tokens, so a text writes one list of tokens
    only. *)
Theorem C107_without_directives : forall cfg ts s, lines cfg = BeautifulCode -> file_text ts s ->
  exists l st, scan_file cfg s = Scanned l st /\ tokens_of_scan l = ts.
Proof.
  intros cfg ts s B F. destruct (C107_scanned cfg ts s F) as (l & st & E & S & _). exists l, st. split; [exact E |]. exact (stored_plain cfg _ _ B S).
Qed.
Print Assumptions C107_without_directives.
Theorem C107_unambiguous : forall ts us s, file_text ts s -> file_text us s -> ts = us.
Proof.
  intros ts us s A B.
  destruct (C107_without_directives (Config BeautifulCode []) ts s eq_refl A) as (l & st & E & <-).
  destruct (C107_without_directives (Config BeautifulCode []) us s eq_refl B) as (l' & st' & E' & <-). rewrite E in E'. injection E' as -> _. reflexivity.
Qed.
Print Assumptions C107_unambiguous.

(** A rule with a comment, code, and two semicolons. *)
Definition small_text : text := chars "A -- a" ++ [LF] ++ chars "[: x(); :]-> s;;".
Definition small_tokens : list (token * text) :=
  [(Tok "T_TERMINAL", chars "A"); (Tok "T_CODE", chars " x(); "); (Tok "T_ARROW", []); (Tok "T_IDENTIFIER", chars "s"); (Chr ";", [])].
Lemma not_in_text (c : ascii) (s : text) : existsb (Ascii.eqb c) s = false -> ~ In c s.
Proof. intros E J. assert (X : existsb (Ascii.eqb c) s = true) by (apply existsb_exists; exists c; split; [exact J | apply Ascii.eqb_refl]). congruence. Qed.
Lemma no_colon_body (w : text) : ~ In COLON w -> code_body w.
Proof.
  intro N. split.
  - intros (a & ->). apply N, in_or_app. right. left. reflexivity.
  - intros a b ->. exfalso. apply N, in_or_app. right. left. reflexivity.
Qed.
Example C107_case : file_text small_tokens small_text.
Proof.
  split; [| split; apply not_in_text; vm_compute; reflexivity].
  assert (X : small_text = [] ++ chars "A" ++ ([SP] ++ chars "--" ++ chars " a" ++ [LF]) ++ (OPEN ++ chars " x(); " ++ CLOSE) ++ [] ++ chars "->" ++ [SP] ++ chars "s" ++ [] ++ repeat ";"%char 2 ++ []) by reflexivity.
  rewrite X. unfold small_tokens.
  change (Tok "T_TERMINAL", chars "A") with (word_token (chars "A")). change (Tok "T_IDENTIFIER", chars "s") with (word_token (chars "s")).
  eapply wr_token; [constructor | apply w_word; eexists _, []; split; [reflexivity |]; split; [vm_compute; tauto | intros d []] | |].
  { split; [apply not_in_text; vm_compute; reflexivity | intros [E _]; discriminate E]. }
  eapply wr_token; [apply g_blank; [left; reflexivity |]; apply (g_comment (chars " a") LF []); [apply not_in_text; reflexivity | apply not_in_text; reflexivity | right; reflexivity | apply g_lf, g_nil] | apply w_code; [left; reflexivity | apply no_colon_body, not_in_text; reflexivity] | exact Logic.I |].
  eapply wr_token; [constructor | apply w_arrow; discriminate | exact Logic.I |].
  eapply wr_token; [apply g_blank; [left; reflexivity | constructor] | apply w_word; eexists _, []; split; [reflexivity |]; split; [vm_compute; tauto | intros d []] | |].
  { split; [apply not_in_text; vm_compute; reflexivity | intros [E _]; discriminate E]. }
  eapply wr_token; [constructor | apply w_semicolon | exact Logic.I | apply wr_end; constructor].
Qed.

(** ** C108: what can be written down *)
(** Every file whose names, codes and texts the language has a way to write has a text, and
    the text is scanned as the file's tokens. *)
Theorem C108_written : forall f, legible f -> exists s, file_text (file_show f) s.
Proof. exact legible_written. Qed.
Print Assumptions C108_written.
Theorem C108_scanned : forall cfg f, legible f -> exists s l st, scan_file cfg s = Scanned l st /\ Forall2 (stored cfg) (file_show f) (tokens_of_scan l).
Proof. intros cfg f L. destruct (C108_written f L) as (s & F). destruct (C107_scanned cfg _ _ F) as (l & st & E & S & _). exists s, l, st. auto. Qed.
Print Assumptions C108_scanned.

(** The calculator can be written. *)
Lemma word_there (x : string) : match chars x with
    | c :: u => (if in_dec ascii_dec c (UPPER ++ LOWER) then true else false) && forallb (fun d => if in_dec ascii_dec d WORD then true else false) u
    | [] => false end = true -> is_word (chars x).
Proof.
  destruct (chars x) as [| c u] eqn:E; [discriminate |]. intro H. apply andb_true_iff in H. destruct H as [H1 H2]. exists c, u. split; [reflexivity |].
  split; [destruct (in_dec ascii_dec c (UPPER ++ LOWER)); [assumption | discriminate] |]. intros d D. rewrite forallb_forall in H2. specialize (H2 d D).
  destruct (in_dec ascii_dec d WORD); [assumption | discriminate].
Qed.
Lemma all_there (l w : text) : forallb (fun d => if in_dec ascii_dec d l then true else false) w = true -> all_in l w.
Proof. intros F d D. rewrite forallb_forall in F. specialize (F d D). destruct (in_dec ascii_dec d l); [assumption | discriminate]. Qed.
Lemma not_all_there (l w : text) : forallb (fun d => if in_dec ascii_dec d l then true else false) w = false -> ~ all_in l w.
Proof. intros F A. assert (T0 : forallb (fun d => if in_dec ascii_dec d l then true else false) w = true); [| congruence]. apply forallb_forall. intros d D. destruct (in_dec ascii_dec d l) as [_ | N]; [reflexivity | destruct (N (A d D))]. Qed.
Ltac name_ := split; [apply word_there; vm_compute; reflexivity |]; split; [apply not_all_there; vm_compute; reflexivity | discriminate].
Ltac term_ := split; [discriminate | apply all_there; vm_compute; reflexivity].
Example C108_case : legible calculator.
Proof.
  split; [exact Logic.I |]. split; [| split; [| exact Logic.I]].
  - constructor; [| constructor]. repeat (constructor; [split; [term_ | exact Logic.I] |]). constructor.
  - constructor; [| constructor; [| constructor; [| constructor; [| constructor]]]].
    + repeat split; try (apply word_there; vm_compute; reflexivity); try (apply not_all_there; vm_compute; reflexivity); try (apply all_there; vm_compute; reflexivity); discriminate.
    + split; [name_ |]. split; [exact Logic.I |]. split; [| split; [name_ | exact Logic.I]].
      constructor; [| constructor; [| constructor; [| constructor]]].
      * split; [split; [exact Logic.I |]; split; [term_ | exact Logic.I] |]. split; [| exact Logic.I]. split; [split; [discriminate | apply (all_there DIGITS); vm_compute; reflexivity] | discriminate].
      * split; [split; [exact Logic.I |]; split; [term_ | exact Logic.I] |]. split; [split; [discriminate | apply (all_there DIGITS); vm_compute; reflexivity] | discriminate].
      * split; (split; [exact Logic.I |]; split; [term_ | exact Logic.I]).
    + split; [split; [term_ |] |].
      * split; [apply no_colon_body, not_in_text; reflexivity | split; apply not_in_text; reflexivity].
      * split; [name_ | exact Logic.I].
    + split; [term_ |]. split; [name_ | exact Logic.I].
Qed.

(** ** C109: from the bytes to what is known *)
(** What a run makes of the bytes [s]. *)
Definition read_bytes (cfg : config) (ast : bool) (s : text) (w : world) : Prop :=
  exists l st n v, scan_file cfg s = Scanned l st /\ read_tokens n ast (input l) = Accepted val world v w.
(** The file is read: what is known afterwards is said by a file that is the one written but
    for the line directives, and describes the same language. *)
Theorem C109_read : forall cfg ast f s, readable ast f -> file_text (file_show f) s ->
  exists g w, file_with (copied cfg) f g /\ (forall x ws, sentence g x ws <-> sentence f x ws) /\
    read_bytes cfg ast s w /\ (forall w', read_bytes cfg ast s w' -> w' = w) /\
    option_map (@rev event) (file_events g) = Some (events w) /\
    (forall x, lookup x (terminals w) = first_of (file_tokens f) x) /\
    (forall x, lookup x (bases w) = file_base f x) /\
    hasLexer w = existsb is_lexer (all_decls f) /\ GramModel.undefined w = false.
Proof.
  intros cfg ast f s Rd F. destruct (C107_scanned cfg _ _ F) as (l & st & E & S & _).
  destruct (file_shows cfg f _ S) as (g & W & L). pose proof (file_weak (copied cfg) whatever (fun _ _ _ => Logic.I) _ _ W) as A.
  pose proof (alike_readable ast _ _ A Rd) as Rg. destruct (C92_file_read ast g l Rg L) as (n & v & w & P & Ev & Te & Ba & _ & Le & _ & _ & Un).
  exists g, w. split; [exact W |]. split; [intros x ws; symmetry; apply sentence_same; exact A |]. split; [exists l, st, n, v; auto |].
  split.
  { intros w' (l' & st' & n' & v' & E' & P'). rewrite E in E'. injection E' as <- _.
    assert (Q : read_tokens (n + n') ast (input l) = Accepted val world v w) by (rewrite (GramProofs.reading_more n (n + n')); [exact P | lia | rewrite P; discriminate]).
    assert (Q' : read_tokens (n + n') ast (input l) = Accepted val world v' w') by (rewrite (GramProofs.reading_more n' (n + n')); [exact P' | lia | rewrite P'; discriminate]).
    rewrite Q in Q'. injection Q' as _ W'. auto. }
  split; [exact Ev |]. rewrite (alike_tokens _ _ A) in Te. split; [exact Te |]. split; [intro x; rewrite Ba; apply alike_base; exact A |].
  split; [rewrite Le; apply alike_lexer; exact A | exact Un].
Qed.
Print Assumptions C109_read.
(** What the bytes say does not depend on how they are looked at. *)
Theorem C109_one_file : forall ast f g s, readable ast f -> readable ast g -> file_text (file_show f) s -> file_text (file_show g) s ->
  file_events f = file_events g /\ (forall x, describe f x = describe g x) /\ (forall x, file_base f x = file_base g x).
Proof. intros ast f g s Rf Rg A B. apply (C92_one_meaning ast f g Rf Rg). exact (C107_unambiguous _ _ s A B). Qed.
Print Assumptions C109_one_file.

(** A run that has read these bytes: as [read_as] (C103), for the bytes. *)
Definition read_as_bytes (cfg : config) (ast : bool) (s : text) (w : world) (order : list id) (first follow : GrammarModel.table) (gr : grammar_read) : Prop :=
  read_bytes cfg ast s w /\ Permutation order (rule_ids w) /\
  (exists rounds fuel, compute_first (graph w order) rounds fuel = Some first /\ compute_follow (graph w order) rounds fuel first = Some follow) /\
  counts w order first follow = Some (checks gr) /\ (has_rules gr = true <-> rules_pushed (rev (events w)) <> []).
Definition respects_once (f : file) : Prop := nothing_recovers f /\ inlined_optional f /\ operators_not_inlined f /\ operators_once f /\ end_kept f.
Section B.
Variables f g : file.
Hypothesis A : file_with whatever f g.
Lemma respects_alike : respects_once f -> respects g.
Proof.
  intros (R1 & R2 & R3 & R4 & R5). split; [exact (recovers_alike f g A R1) |]. split; [exact (optional_alike f g A R2) |].
  split; [exact (not_inlined_alike f g A R3) |]. split; [exact (once_only g (once_alike f g A R4)) | exact (end_alike f g A R5)].
Qed.
Let B0 := file_sym f g A.
Lemma declared_alike : operator_tokens_declared f -> operator_tokens_declared g.
Proof.
  intros N b u l x ft y J I. destruct (operator_rule g f B0 _ _ _ _ _ J) as (u' & l' & ft' & J' & L). unfold declared. rewrite (alike_tokens _ _ A).
  apply (N _ _ _ _ _ y J'). rewrite (proj1 (like_ops_all _ _ L)). exact I.
Qed.
Lemma end_used_alike : end_not_used f -> end_not_used g.
Proof. intros N r i (ft & J) I. destruct (plain_rule g f B0 _ _ _ J) as (j & ft' & J' & L). apply (N r j (ex_intro _ ft' J')). destruct (like_same _ _ L) as (_ & -> & _). exact I. Qed.
Lemma operands_alike : operands_defined f -> operands_defined g.
Proof. intros N b u l x ft J. destruct (operator_rule g f B0 _ _ _ _ _ J) as (u' & l' & ft' & J' & _). exact (names_alike f g A b (N _ _ _ _ _ J')). Qed.
End B.
(** From the bytes of a grammar file to the verdict of the parse functions written for it: when
    the tool has succeeded with --strict-conflicts, a text is accepted just if the file
    describes it.  Full statement: without [careful], which the tool does not check (C53), for
    all conditions, and for lists of one symbol with several rules with operators. *)
Theorem C109_verdict_partial : forall cfg o gr r f bytes w order first follow cond x s u ws,
  readable (ast o) f -> file_text (file_show f) bytes ->
  a_run o gr r -> read_as_bytes cfg (ast o) bytes w order first follow gr -> exit r = Success -> parser_wanted o gr -> conflicts o = Strict ->
  operator_tokens_declared f -> end_not_used f -> respects_once f -> code_accompanied f -> not_left_recursive f -> careful (graph w order) first follow = true ->
  operands_defined f -> operators_infix f ->
  begins f x -> symbol_id w x = Some s -> spells_out w u ws -> (forall k, cond k = true) ->
  (exists fs body, EmitProps.written w order first follow fs /\ compiled fs body) /\ forall fs body, EmitProps.written w order first follow fs -> compiled fs body ->
  exists K st, (forall k, K <= k -> call (stream (graph w order) u) cond body k s (start_state (stream (graph w order) u)) = CppSpec.Return true st) /\ sentence f x ws \/
               (forall k, K <= k -> call (stream (graph w order) u) cond body k s (start_state (stream (graph w order) u)) = CppSpec.Return false st) /\ ~ sentence f x ws.
Proof.
  intros cfg o gr r f bytes w order first follow cond x s u ws Rd F Run (RB & O & Se & Ct & HR) Su PW St OT EN Re CA NL Ca OD OI Bg Ex Sp C.
  destruct RB as (l & st & n & v & E & P). destruct (C107_scanned cfg _ _ F) as (l' & st' & E' & S & _). rewrite E in E'. injection E' as <- <-.
  destruct (file_shows cfg f _ S) as (g & W & L). pose proof (file_weak (copied cfg) whatever (fun _ _ _ => Logic.I) _ _ W) as A.
  pose proof (alike_readable (ast o) _ _ A Rd) as Rg. destruct (any_reading (ast o) g l n v w Rg L P) as (Rl & _).
  assert (RA : read_as (ast o) g w order first follow gr).
  { split; [exact Rg |]. split; [exists l, n, v; auto |]. split; [exact O |]. split; [exact Se |]. split; [exact Ct |]. rewrite HR, Rl. destruct (rules_ g); cbn [map]; split; intros H Q; apply H; congruence. }
  destruct (C106_verdict_partial o gr r g w order first follow cond x s u ws Run RA Su PW St (declared_alike _ _ A OT) (end_used_alike _ _ A EN) (respects_alike _ _ A Re) (accompanied_alike _ _ A CA)
    (recursion_alike _ _ A NL) Ca (operands_alike _ _ A OD) (infix_alike _ _ A OI) (begins_alike _ _ A x Bg) Ex Sp C) as [T V].
  split; [exact T |]. intros fs body Wr Co. destruct (V fs body Wr Co) as (K & st1 & [(V1 & V2) | (V1 & V2)]); exists K, st1; [left | right]; (split; [exact V1 |]); rewrite (sentence_same f g A); exact V2.
Qed.
Print Assumptions C109_verdict_partial.

(** The calculator again: written down, it is read, and all conditions are met. *)
Lemma calculator_once : operators_once calculator.
Proof.
  intros l1 b u l x ft l2 r E I N. cbn [rules_ calculator] in E.
  destruct l1 as [| r1 [| r2 l1]]; [discriminate E | | ].
  - injection E as E0 E1 E2 E3 E4 E5 E6. subst. cbn [app In] in I. destruct I as [<- | [<- | [<- | []]]]; discriminate N.
  - destruct l1 as [| r3 [| r4 [| r5 l1]]]; discriminate E.
Qed.
Example C109_read_case : forall cfg, exists bytes, readable true calculator /\ file_text (file_show calculator) bytes /\ exists w, read_bytes cfg true bytes w.
Proof.
  intro cfg. destruct (C108_written calculator C108_case) as (s & F). exists s. split; [exact (proj1 calculator_read) |]. split; [exact F |].
  destruct (C109_read cfg true calculator s (proj1 calculator_read) F) as (g & w & _ & _ & R & _). eauto.
Qed.
Example C109_case : exists cfg bytes o r first follow, readable (ast o) calculator /\ file_text (file_show calculator) bytes /\
  a_run o calculator_read_as r /\ read_as_bytes cfg (ast o) bytes calculator_world (rule_ids calculator_world) first follow calculator_read_as /\
  exit r = Success /\ parser_wanted o calculator_read_as /\ conflicts o = Strict /\
  operator_tokens_declared calculator /\ end_not_used calculator /\ respects_once calculator /\ code_accompanied calculator /\ not_left_recursive calculator /\
  careful calculator_graph first follow = true /\ operands_defined calculator /\ operators_infix calculator /\ begins calculator (chars "start").
Proof.
  destruct (C108_written calculator C108_case) as (s & F). destruct C103_case as (o & r & first & follow & R & RA & Su & PW & St & OT & EN & Re & CA & NL & Ca & _).
  exists (Config BeautifulCode []), s, o, r, first, follow. destruct RA as (Rd & (l & n & v & L & P) & O & Se & Ct & HR).
  split; [exact Rd |]. split; [exact F |]. split; [exact R |]. split.
  { destruct (C107_without_directives (Config BeautifulCode []) _ s eq_refl F) as (l' & st & E & L').
    split; [exists l', st, n, v; split; [exact E |] |].
    - replace (input l') with (input l); [exact P |].
      assert (I0 : forall m, input m = map (fun x : token * text => (tok_of (token_name (fst x)), VText (snd x))) (tokens_of_scan m)) by (intro m; unfold input, tokens_of_scan; rewrite map_map; reflexivity).
      rewrite !I0, L'. unfold tokens_of_scan. rewrite L. reflexivity.
    - split; [exact O |]. split; [exact Se |]. split; [exact Ct |]. destruct (any_reading _ _ _ _ _ _ Rd L P) as (Rl & _). rewrite HR, Rl. split; intros _; discriminate. }
  destruct Re as (R1 & R2 & R3 & _ & R5). destruct C104_case as (_ & _ & _ & _ & _ & De & SD & OI & IE & _ & OD & _).
  repeat (split; [assumption |]). split; [split; [assumption |]; split; [assumption |]; split; [assumption |]; split; [exact calculator_once | assumption] |].
  repeat (split; [assumption |]). exact calculator_begins.
Qed.
