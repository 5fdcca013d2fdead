(** What is proved about the driver: what the command line means, when the tool fails, which
    files it leaves, and what a successful run says about the generated parser. *)
From Coq Require Import List NArith Ascii String Bool PeanoNat Lia.
From Verif Require Import FlexModel GraphModel DriverModel DriverSpec DriverProofs.
Import ListNotations.
Open Scope string_scope.
Open Scope list_scope.

(** ** C100: the command line
    The last of several options about the same thing counts, whatever else is there; the
    grammar file is the first argument that is not an option and can be opened. *)
Theorem C100_options : forall opens args o, arguments opens args no_options = Some o ->
  decided (value "--output=") [] args (language o) /\ decided (value "--namespace=") [] args (ns o) /\ decided (value "--new-visitor=") [] args (new_visitor o) /\
  decided output_switch true args (output o) /\ decided conflict_switch Permissive args (conflicts o) /\ decided ast_switch true args (ast o) /\
  decided parser_switch None args (parser_word o) /\ decided lexer_switch None args (lexer_word o) /\
  decided line_switch FullLineNumbers args (line_numbers o) /\ decided table_switch false args (DriverModel.table o) /\ decided inherit_switch false args (inherit o) /\
  decided (on "--serialize-visitor") false args (serialize o) /\ decided (on "--debug-visitor") false args (debug o) /\ decided (on "--token-text") false args (token_text o) /\
  decided (on "--terminals") false args (dump_terminals o) /\ decided (on "--symbols") false args (dump_symbols o) /\ decided (on "--rules") false args (dump_rules o) /\
  decided (on "--automata") false args (dump_automata o) /\ chosen_file opens args (file o).
Proof.
  intros opens args o E.
  split; [exact (obeyed _ _ _ _ (o_language opens) _ _ _ E) |]. split; [exact (obeyed _ _ _ _ (o_ns opens) _ _ _ E) |]. split; [exact (obeyed _ _ _ _ (o_new_visitor opens) _ _ _ E) |].
  split; [exact (obeyed _ _ _ _ (o_output opens) _ _ _ E) |]. split; [exact (obeyed _ _ _ _ (o_conflicts opens) _ _ _ E) |]. split; [exact (obeyed _ _ _ _ (o_ast opens) _ _ _ E) |].
  split; [exact (obeyed _ _ _ _ (o_parser opens) _ _ _ E) |]. split; [exact (obeyed _ _ _ _ (o_lexer opens) _ _ _ E) |].
  split; [exact (obeyed _ _ _ _ (o_line_numbers opens) _ _ _ E) |]. split; [exact (obeyed _ _ _ _ (o_table opens) _ _ _ E) |]. split; [exact (obeyed _ _ _ _ (o_inherit opens) _ _ _ E) |].
  split; [exact (obeyed _ _ _ _ (o_serialize opens) _ _ _ E) |]. split; [exact (obeyed _ _ _ _ (o_debug opens) _ _ _ E) |]. split; [exact (obeyed _ _ _ _ (o_token_text opens) _ _ _ E) |].
  split; [exact (obeyed _ _ _ _ (o_terminals opens) _ _ _ E) |]. split; [exact (obeyed _ _ _ _ (o_symbols opens) _ _ _ E) |]. split; [exact (obeyed _ _ _ _ (o_rules opens) _ _ _ E) |].
  split; [exact (obeyed _ _ _ _ (o_automata opens) _ _ _ E) |]. exact (file_chosen opens args _ _ E eq_refl).
Qed.
Print Assumptions C100_options.
(** --help and the like, anywhere: nothing is read or written. *)
Theorem C100_information : forall opens reads args, (exists x, In x args /\ information x) -> main opens reads args = Ran (Result Success [] []).
Proof. intros opens reads args H. unfold main. rewrite (proj2 (information_stops opens args no_options) H). reflexivity. Qed.
Print Assumptions C100_information.
(** An option that the tool does not know is never the reason for a failure: taking it away
    changes nothing. *)
Theorem C100_unknown : forall opens reads l x r, ~ option_word x -> opens x = false -> main opens reads (l ++ x :: r) = main opens reads (l ++ r).
Proof.
  intros opens reads l x r N Op. unfold main. replace (arguments opens (l ++ x :: r) no_options) with (arguments opens (l ++ r) no_options); [reflexivity |].
  generalize no_options. induction l as [| y l IH]; intros o; cbn [app arguments]; [| destruct (argument opens y o); auto].
  pose proof (argument_effect opens x o) as H. destruct (argument opens x o) as [o1|].
  - destruct H as [H _]. destruct H; try reflexivity; try (exfalso; apply N; match goal with H : x = chars ?w ++ ?v |- _ => exists (With w); split; [unfold all_forms; cbn [In]; tauto | exists v; exact H]
      | H : x = chars ?w |- _ => exists (Word w); split; [unfold all_forms; cbn [In]; tauto | exact H] end). congruence.
  - exfalso. apply N. destruct H as [H | [H | [H | H]]]; [exists (Word "--help") | exists (Word "--version") | exists (Word "--author") | exists (Word "--usage")]; (split; [unfold all_forms; cbn [In]; tauto | exact H]).
Qed.
Print Assumptions C100_unknown.
(** Full statement: options can be given in any order.  False: --new-visitor= has to come
    before --output= if the parser is wanted as well. *)
Definition a_grammar : grammar_read := Grammar_read true true [chars "start"] (chars "Lexer") (0, 0).
Definition finds (x : text) : bool := is x "a.g".
Theorem C100_order_refuted : exists opens reads x y z r r', main opens reads [x; y; z] = Ran r /\ main opens reads [y; x; z] = Ran r' /\ exit r = Success /\ exit r' = Success /\
  List.length (generated r) = 2 /\ List.length (generated r') = 13.
Proof. exists finds, (fun _ _ => Reads a_grammar), (chars "--output=x"), (chars "--new-visitor=V"), (chars "a.g"). eexists _, _. split; [vm_compute; reflexivity |]. split; [vm_compute; reflexivity |]. repeat split; reflexivity. Qed.
Print Assumptions C100_order_refuted.
Example C100_case : arguments finds (map chars ["--strict-conflicts"; "typo"; "a.g"; "--no-ast"; "--output=my"; "b.g"; "--permissive-conflicts"; "--with-ast"]) no_options =
  Some (Options (chars "my") [] true true false false false Permissive FullLineNumbers false true false true false [] false false false false false (chars "a.g")).
Proof. vm_compute. reflexivity. Qed.

(** ** C101: the exit status, and what is written
    [a_run o g r]: the arguments give [o], the grammar file can be read as [g], and the
    outcome is [r]. *)
Definition a_run (o : options) (g : grammar_read) (r : result) : Prop :=
  exists opens reads args, arguments opens args no_options = Some o /\ file o <> [] /\ reads (file o) (ast o) = Reads g /\ main opens reads args = Ran r.
Lemma run_finish o g r : a_run o g r -> finish o g = Ran r.
Proof. intros (opens & reads & args & A & F & R & M). unfold main in M. rewrite A in M. destruct (file o); [congruence |]. rewrite R in M. exact M. Qed.
(** What is wanted. *)
Definition parser_wanted (o : options) (g : grammar_read) : Prop := parser_word o = Some true \/ parser_word o = None /\ has_rules g = true.
Definition lexer_wanted (o : options) (g : grammar_read) : Prop := lexer_word o = Some true \/ lexer_word o = None /\ has_lexer g = true.
(** Reasons to fail. *)
Inductive problem (o : options) (g : grammar_read) : Prop :=
| no_rules : parser_wanted o g -> has_rules g = false -> problem o g
| bad_grammar : parser_wanted o g -> has_rules g = true -> 0 < fst (checks g) -> problem o g
| conflicting : parser_wanted o g -> has_rules g = true -> conflicts o = Strict -> 0 < snd (checks g) -> problem o g
| no_lexer : lexer_wanted o g -> has_lexer g = false -> problem o g
| no_start : lexer_wanted o g -> has_lexer g = true -> ~ In (chars "start") (states g) -> problem o g
| no_name : lexer_wanted o g -> has_lexer g = true -> identifier (stream_name g) = false -> problem o g
| no_prefix : output o = true -> language o = [] -> dump_terminals o = false -> dump_symbols o = false -> dump_rules o = false -> problem o g.
Lemma does_parser_spec o g : does_parser o g = true <-> parser_wanted o g.
Proof. unfold does_parser, parser_wanted, parser_word. destruct (parser_said o); [destruct (parser o); intuition congruence | intuition congruence]. Qed.
Lemma does_lexer_spec o g : does_lexer o g = true <-> lexer_wanted o g /\ has_lexer g = true.
Proof. unfold does_lexer, lexer_wanted, lexer_word. destruct (lexer_said o), (lexer o), (has_lexer g); cbn [andb]; intuition congruence. Qed.
Lemma lexer_missing_spec o g : lexer_missing o g = true <-> lexer_wanted o g /\ has_lexer g = false.
Proof. unfold lexer_missing, lexer_wanted, lexer_word. destruct (lexer_said o), (lexer o), (has_lexer g); cbn [andb negb]; intuition congruence. Qed.
Lemma states_spec g : existsb (fun x => is x "start") (states g) = true <-> In (chars "start") (states g).
Proof.
  rewrite existsb_exists. split; [intros (x & I & E); apply is_spec in E; congruence | intros I; exists (chars "start"); split; [exact I | apply is_spec; reflexivity]].
Qed.
Lemma errors_spec o g : errors o g <> 0 <->
  (parser_wanted o g /\ has_rules g = false \/ parser_wanted o g /\ has_rules g = true /\ 0 < fst (checks g) \/ lexer_wanted o g /\ has_lexer g = false \/
   lexer_wanted o g /\ has_lexer g = true /\ ~ In (chars "start") (states g) \/ lexer_wanted o g /\ has_lexer g = true /\ identifier (stream_name g) = false).
Proof.
  unfold errors, parser_errors, lexer_errors. pose proof (does_parser_spec o g) as P. pose proof (does_lexer_spec o g) as L. pose proof (lexer_missing_spec o g) as M. pose proof (states_spec g) as St.
  destruct (does_parser o g), (does_lexer o g), (lexer_missing o g), (existsb (fun x => is x "start") (states g)), (identifier (stream_name g)), (has_rules g), (has_lexer g), (fst (checks g)); cbn [Nat.add];
    intuition (try congruence; try lia).
Qed.
Definition failed (r : result) : Prop := exit r = Failure.
Theorem C101_status : forall o g r, a_run o g r -> (failed r <-> problem o g).
Proof.
  intros o g r R. apply run_finish in R. unfold finish in R. destruct (dump_automata o && negb (does_lexer o g) && _); [discriminate |].
  pose proof (errors_spec o g) as ES. pose proof (does_parser_spec o g) as P.
  assert (CS : (match conflicts o with Strict => negb (Nat.eqb (conflict_count o g) 0) | _ => false end) = true <-> conflicts o = Strict /\ parser_wanted o g /\ has_rules g = true /\ 0 < snd (checks g)).
  { unfold conflict_count. destruct (conflicts o); [intuition congruence | | intuition congruence]. rewrite negb_true_iff, Nat.eqb_neq. destruct (does_parser o g), (has_rules g); cbn [andb]; intuition (try congruence; try lia). }
  assert (US : (negb (dump_terminals o || dump_symbols o || dump_rules o) && output o && match language o with [] => true | _ => false end) = true <->
    output o = true /\ language o = [] /\ dump_terminals o = false /\ dump_symbols o = false /\ dump_rules o = false).
  { destruct (dump_terminals o), (dump_symbols o), (dump_rules o), (output o), (language o); cbn; intuition congruence. }
  destruct (Nat.eqb_spec (errors o g) 0) as [Z | NZ]; cbn [negb] in R.
  - destruct (match conflicts o with Strict => negb (Nat.eqb (conflict_count o g) 0) | _ => false end).
    + injection R as <-. split; [intros _ | reflexivity]. destruct (proj1 CS eq_refl) as (A & B & C & D). apply conflicting; auto.
    + destruct (negb (dump_terminals o || dump_symbols o || dump_rules o) && output o && match language o with [] => true | _ => false end).
      * injection R as <-. split; [intros _ | reflexivity]. destruct (proj1 US eq_refl) as (A & B & C & D & E). apply no_prefix; auto.
      * injection R as <-. split; [discriminate |]. intros H. exfalso.
        assert (NE : ~ errors o g <> 0) by lia. rewrite ES in NE. destruct H.
        -- tauto.
        -- tauto.
        -- discriminate (proj2 CS ltac:(auto)).
        -- tauto.
        -- tauto.
        -- tauto.
        -- discriminate (proj2 US ltac:(auto)).
  - injection R as <-. split; [intros _ | reflexivity]. apply ES in NZ. destruct NZ as [(A & B) | [(A & B & C) | [(A & B) | [(A & B & C) | (A & B & C)]]]]; [apply no_rules | apply bad_grammar | apply no_lexer | apply no_start | apply no_name]; auto.
Qed.
Print Assumptions C101_status.
(** A failed run leaves no generated files. *)
Theorem C101_all_or_nothing : forall opens reads args r, main opens reads args = Ran r -> failed r -> generated r = [].
Proof.
  intros opens reads args r M F. unfold main in M. destruct (arguments opens args no_options) as [o|]; [| injection M as <-; discriminate F].
  destruct (file o) as [| a x]; [injection M as <-; reflexivity |]. destruct (reads (a :: x) (ast o)) as [| g]; [injection M as <-; reflexivity |].
  unfold finish in M. repeat match type of M with (if ?b then _ else _) = _ => destruct b end; try discriminate M; injection M as <-; first [reflexivity | discriminate F].
Qed.
Print Assumptions C101_all_or_nothing.
(** Without --new-visitor, this is what a successful run leaves. *)
Inductive belongs (o : options) (g : grammar_read) : string -> Prop :=
| b_parser s : In s ["tokentype.h"; "parser.h"; "parser.cpp"] -> parser_wanted o g -> belongs o g s
| b_ast s : In s ["ast.h"; "ast-fwd.h"; "visitor.h"; "visitor.cpp"; "defaultvisitor.h"; "defaultvisitor.cpp"] -> parser_wanted o g -> ast o = true -> belongs o g s
| b_serialize : parser_wanted o g -> serialize o = true -> belongs o g "serializevisitor.h"
| b_debug : parser_wanted o g -> debug o = true -> belongs o g "debugvisitor.h"
| b_text : parser_wanted o g -> token_text o = true \/ debug o = true -> belongs o g "tokentext.h"
| b_lexer s : In s ["lexer.h"; "lexer.cpp"] -> lexer_wanted o g -> belongs o g s.
Lemma chars_inj : forall a b, chars a = chars b -> a = b.
Proof. induction a as [| x a IH]; intros [| y b] E; cbn [chars] in E; try discriminate; [reflexivity |]. injection E as -> E. f_equal. auto. Qed.
Lemma success_finish o g r : a_run o g r -> exit r = Success -> errors o g = 0 /\
  generated r = if_ (output o && does_parser o g) (map (named_file o) (parser_files o (has_lexer g))) ++ if_ (output o && does_lexer o g) (map (named_file o) lexer_files) ++ match new_visitor o with [] => [] | _ => visitor_files o end.
Proof.
  intros R E. apply run_finish in R. unfold finish in R. destruct (dump_automata o && _ && _); [discriminate |]. destruct (Nat.eqb_spec (errors o g) 0) as [Z | NZ]; cbn [negb] in R; [| injection R as <-; discriminate E].
  repeat match type of R with (if ?b then _ else _) = _ => destruct b end; injection R as <-; try discriminate E. auto.
Qed.
Lemma lexer_there o g r : a_run o g r -> exit r = Success -> lexer_wanted o g -> has_lexer g = true.
Proof. intros R E L. destruct (success_finish o g r R E) as [Z _]. pose proof (errors_spec o g) as H. destruct (has_lexer g); [reflexivity |]. assert (errors o g <> 0) by (apply H; auto 6). lia. Qed.
Theorem C101_files : forall o g r s, a_run o g r -> exit r = Success -> new_visitor o = [] ->
  (In (language o ++ chars s) (map fst (generated r)) <-> output o = true /\ belongs o g s).
Proof.
  intros o g r s R E NV. destruct (success_finish o g r R E) as [_ ->]. rewrite NV, app_nil_r. pose proof (does_parser_spec o g) as P. pose proof (does_lexer_spec o g) as L. pose proof (lexer_there o g r R E) as LT.
  assert (N : forall (l : list out_file), In (language o ++ chars s) (map fst (map (named_file o) l)) <-> In s (map fst l)).
  { intros l. rewrite map_map. split.
    - intros I. apply in_map_iff in I. destruct I as (f & Q & I). cbn [named_file fst] in Q. apply app_inv_head in Q. apply chars_inj in Q. subst s. apply in_map. exact I.
    - intros I. apply in_map_iff in I. destruct I as (f & <- & I). apply in_map_iff. exists f. split; [reflexivity | exact I]. }
  rewrite map_app, in_app_iff. destruct (output o); cbn [andb if_ map In].
  - assert (A : In (language o ++ chars s) (map fst (if_ (does_parser o g) (map (named_file o) (parser_files o (has_lexer g))))) <-> parser_wanted o g /\ In s (map fst (parser_files o (has_lexer g)))).
    { rewrite <- P. destruct (does_parser o g); cbn [if_]; [rewrite N; tauto | cbn; intuition congruence]. }
    assert (B : In (language o ++ chars s) (map fst (if_ (does_lexer o g) (map (named_file o) lexer_files))) <-> lexer_wanted o g /\ In s ["lexer.h"; "lexer.cpp"]).
    { destruct (does_lexer o g); cbn [if_]; [rewrite N; cbn [lexer_files map fst]; tauto |]. cbn. split; [tauto |]. intros (W & _). specialize (LT W). assert (false = true) by tauto. discriminate. }
    rewrite A, B. unfold parser_files. split.
    + intros [(W & I) | (W & I)]; (split; [reflexivity |]).
      * rewrite !map_app, !in_app_iff in I.
        destruct I as [I | [I | [I | [I | [I | [I | [I | I]]]]]]].
        -- destruct (ast o) eqn:Q; [| destruct I]. apply b_ast; auto. cbn in *. tauto.
        -- apply b_parser; auto. cbn in *. tauto.
        -- destruct (ast o) eqn:Q; [| destruct I]. apply b_ast; auto. cbn in *. tauto.
        -- destruct (serialize o) eqn:Q; [| destruct I]. destruct I as [<- | []]. apply b_serialize; auto.
        -- destruct (debug o) eqn:Q; [| destruct I]. destruct I as [<- | []]. apply b_debug; auto.
        -- destruct (token_text o || debug o) eqn:Q; [| destruct I]. destruct I as [<- | []]. apply b_text; auto. apply orb_true_iff. exact Q.
        -- apply b_parser; auto. cbn in *. tauto.
        -- destruct (ast o) eqn:Q; [| destruct I]. apply b_ast; auto. cbn in *. tauto.
      * apply b_lexer; auto.
    + intros (_ & H). destruct H as [s I W | s I W Q | W Q | W Q | W Q | s I W].
      * left. split; [exact W |]. rewrite !map_app, !in_app_iff. cbn in *. tauto.
      * left. split; [exact W |]. rewrite !map_app, !in_app_iff, Q. cbn in *. tauto.
      * left. split; [exact W |]. rewrite !map_app, !in_app_iff, Q. cbn in *. tauto.
      * left. split; [exact W |]. rewrite !map_app, !in_app_iff, Q. cbn in *. tauto.
      * left. split; [exact W |]. rewrite !map_app, !in_app_iff, (proj2 (orb_true_iff _ _) Q). cbn in *. tauto.
      * right. auto.
  - intuition congruence.
Qed.
Print Assumptions C101_files.

(** ** C102: the generated files fit together
    Every header with the prefix that one of the files includes is among the files.  For runs
    without --new-visitor, this is just when: *)
Definition fits_together (r : result) : Prop := forall f h, In f (generated r) -> In h (snd f) -> In h (map fst (generated r)).
Ltac each I := repeat match type of I with _ \/ _ => destruct I as [I | I] end; try contradiction; try subst.
Theorem C102_includes : forall o g r, a_run o g r -> exit r = Success -> new_visitor o = [] -> output o = true ->
  (fits_together r <->
    (parser_wanted o g -> ast o = false -> serialize o = false /\ debug o = false) /\
    (parser_wanted o g -> has_lexer g = true -> lexer_wanted o g) /\ (lexer_wanted o g -> parser_wanted o g)).
Proof.
  intros o g r R E NV Ou. pose proof (fun s => C101_files o g r s R E NV) as F. pose proof (lexer_there o g r R E) as LT. destruct (success_finish o g r R E) as [_ G]. rewrite NV, Ou, app_nil_r in G. cbn [andb] in G.
  assert (H : fits_together r <-> forall f h, In f (if_ (does_parser o g) (parser_files o (has_lexer g)) ++ if_ (does_lexer o g) lexer_files) -> In h (snd f) -> belongs o g h).
  { assert (GG : generated r = map (named_file o) (if_ (does_parser o g) (parser_files o (has_lexer g)) ++ if_ (does_lexer o g) lexer_files)) by (rewrite G, map_app; destruct (does_parser o g), (does_lexer o g); reflexivity).
    unfold fits_together. split.
    - intros H f h I J. apply (F h). apply (H (named_file o f)); [rewrite GG; apply in_map; exact I |]. cbn [named_file snd]. apply (in_map (fun x => language o ++ chars x)). exact J.
    - intros H f h I J. rewrite GG in I. apply in_map_iff in I. destruct I as (f' & <- & I). cbn [named_file snd] in J. apply in_map_iff in J. destruct J as (s & <- & J). apply F. split; [exact Ou | exact (H _ _ I J)]. }
  rewrite H. clear H F G. pose proof (does_parser_spec o g) as P. pose proof (does_lexer_spec o g) as L. split.
  - intros H. split; [| split].
    + intros W A. rewrite (proj2 P W) in H. unfold parser_files in H. rewrite A in H.
      assert (N : ~ belongs o g "defaultvisitor.h") by (intros B; inversion B; subst; cbn in *; intuition congruence).
      split; [destruct (serialize o) eqn:Q | destruct (debug o) eqn:Q]; try reflexivity; exfalso; apply N.
      * apply (H ("serializevisitor.h", ["defaultvisitor.h"]) "defaultvisitor.h"); [cbn; tauto | left; reflexivity].
      * apply (H ("debugvisitor.h", ["defaultvisitor.h"]) "defaultvisitor.h"); [| left; reflexivity]. destruct (serialize o); cbn; tauto.
    + intros W A. rewrite (proj2 P W) in H. rewrite A in H.
      assert (B : belongs o g "lexer.h").
      { apply (H ("parser.h", "tokentype.h" :: ["lexer.h"] ++ if_ (ast o) ["ast-fwd.h"]) "lexer.h"); [| cbn; tauto]. unfold parser_files. destruct (ast o); cbn; tauto. }
      inversion B; subst; cbn in *; try (intuition congruence); assumption.
    + intros W. rewrite (proj2 L (conj W (LT W))) in H.
      assert (B : belongs o g "tokentype.h") by (apply (H ("lexer.h", ["tokentype.h"]) "tokentype.h"); [apply in_or_app; right; cbn; tauto | left; reflexivity]).
      inversion B; subst; cbn in *; try (intuition congruence); assumption.
  - intros (C1 & C2 & C3) f h I J. apply in_app_or in I. destruct I as [I | I].
    + destruct (does_parser o g); [| destruct I]. assert (W : parser_wanted o g) by tauto. cbn [if_] in I. unfold parser_files in I. rewrite !in_app_iff in I. cbn [In] in I.
      assert (Bp : forall s, In s ["tokentype.h"; "parser.h"; "parser.cpp"] -> belongs o g s) by (intros s K; apply b_parser; assumption).
      assert (Ba : ast o = true -> forall s, In s ["ast.h"; "ast-fwd.h"; "visitor.h"; "visitor.cpp"; "defaultvisitor.h"; "defaultvisitor.cpp"] -> belongs o g s) by (intros Q s K; apply b_ast; assumption).
      destruct (ast o) eqn:Q.
      * specialize (Ba eq_refl).
        assert (Bl : has_lexer g = true -> belongs o g "lexer.h") by (intros Q'; apply b_lexer; [left; reflexivity | auto]).
        destruct (has_lexer g), (serialize o), (debug o), (token_text o); cbn in I; each I; cbn in J; each J; first [apply Bp; cbn; tauto | apply Ba; cbn; tauto | apply Bl; reflexivity].
      * destruct (C1 W eq_refl) as [Q1 Q2]. rewrite Q1, Q2 in I.
        assert (Bl : has_lexer g = true -> belongs o g "lexer.h") by (intros Q'; apply b_lexer; [left; reflexivity | auto]).
        destruct (has_lexer g), (token_text o); cbn in I; each I; cbn in J; each J; first [apply Bp; cbn; tauto | apply Bl; reflexivity].
    + destruct (does_lexer o g); [| destruct I]. assert (W : lexer_wanted o g) by tauto. cbn [if_ lexer_files In] in I. destruct I as [<- | [<- | []]]; cbn [snd In] in J; destruct J as [<- | []].
      * apply b_parser; [left; reflexivity | auto].
      * apply b_lexer; [left; reflexivity | exact W].
Qed.
Print Assumptions C102_includes.
(** Full statement: every successful run leaves files that fit together.  False: a grammar
    with a lexer and no rules, --no-ast with --debug-visitor, --no-lexer. *)
Definition lexer_only : grammar_read := Grammar_read false true [chars "start"] (chars "Lexer") (0, 0).
Definition runs (g : grammar_read) (l : list string) : outcome := main finds (fun _ _ => Reads g) (map chars ("a.g" :: "--output=x" :: l)).
Ltac broken f h := intros H; specialize (H f h ltac:(cbn; tauto) ltac:(cbn; tauto)); cbn in H; repeat (destruct H as [H | H]; [discriminate H |]); exact H.
Theorem C102_includes_refuted :
  (exists r, runs lexer_only [] = Ran r /\ exit r = Success /\ generated r <> [] /\ ~ fits_together r) /\
  (exists r, runs a_grammar ["--no-ast"; "--debug-visitor"] = Ran r /\ exit r = Success /\ ~ fits_together r) /\
  (exists r, runs a_grammar ["--no-lexer"] = Ran r /\ exit r = Success /\ ~ fits_together r).
Proof.
  split; [| split].
  - eexists. split; [vm_compute; reflexivity |]. split; [reflexivity |]. split; [discriminate |].
    broken (chars "xlexer.h", [chars "xtokentype.h"]) (chars "xtokentype.h").
  - eexists. split; [vm_compute; reflexivity |]. split; [reflexivity |]. broken (chars "xdebugvisitor.h", [chars "xdefaultvisitor.h"]) (chars "xdefaultvisitor.h").
  - eexists. split; [vm_compute; reflexivity |]. split; [reflexivity |]. broken (chars "xparser.h", [chars "xtokentype.h"; chars "xlexer.h"; chars "xast-fwd.h"]) (chars "xlexer.h").
Qed.
Print Assumptions C102_includes_refuted.
(** A new visitor: the .cpp file never includes the header that declares its class, unless
    that is called default. *)
Theorem C102_visitor : forall o g r, a_run o g r -> exit r = Success -> new_visitor o <> [] -> lower (new_visitor o) <> chars "defaultvisitor" ->
  exists cpp, In cpp (generated r) /\ fst cpp = language o ++ lower (new_visitor o) ++ chars ".cpp" /\ ~ In (language o ++ lower (new_visitor o) ++ chars ".h") (snd cpp) /\
    In (language o ++ lower (new_visitor o) ++ chars ".h") (map fst (generated r)).
Proof.
  intros o g r R E NV D. destruct (success_finish o g r R E) as [_ ->]. destruct (new_visitor o) as [| a v] eqn:V; [congruence |].
  exists (language o ++ lower (a :: v) ++ chars ".cpp", [language o ++ chars "defaultvisitor.h"]).
  split; [rewrite !in_app_iff; right; right; right; left; rewrite V; reflexivity |]. split; [reflexivity |]. split.
  - intros [H | []]. apply app_inv_head in H. change (chars "defaultvisitor.h") with (chars "defaultvisitor" ++ chars ".h") in H. apply app_inv_tail in H. congruence.
  - rewrite !map_app, !in_app_iff. right. right. left. rewrite V. reflexivity.
Qed.
Print Assumptions C102_visitor.
(** Two cases of a successful run, and one of each kind of failure. *)
Example C101_case : exists o r, a_run o a_grammar r /\ exit r = Success /\ new_visitor o = [] /\ output o = true /\ List.length (generated r) = 11 /\ fits_together r.
Proof.
  eexists _, _. split; [exists finds, (fun _ _ => Reads a_grammar), (map chars ["--output=my"; "a.g"]); split; [vm_compute; reflexivity |]; split; [discriminate |]; split; [reflexivity | vm_compute; reflexivity] |].
  split; [reflexivity |]. split; [reflexivity |]. split; [reflexivity |]. split; [reflexivity |].
  intros f h I J. cbn in I. repeat (destruct I as [<- | I]; [cbn in J; repeat (destruct J as [<- | J]; [cbn; tauto |]); destruct J |]). destruct I.
Qed.
Example C101_failures : Forall (fun p => exists r, main finds (fun _ _ => Reads (fst p)) (map chars (snd p)) = Ran r /\ failed r)
  [(lexer_only, ["a.g"; "--with-parser"; "--output=x"]); (Grammar_read true false [] [] (1, 0), ["a.g"; "--output=x"]); (Grammar_read true false [] [] (0, 1), ["a.g"; "--strict-conflicts"; "--output=x"]);
   (Grammar_read true false [] [] (0, 0), ["a.g"; "--with-lexer"; "--output=x"]); (Grammar_read true true [chars "other"] (chars "L") (0, 0), ["a.g"; "--output=x"]);
   (Grammar_read true true [chars "start"] (chars "KDevPG::TokenStream") (0, 0), ["a.g"; "--output=x"]); (a_grammar, ["a.g"])].
Proof. repeat constructor; eexists; (split; [vm_compute; reflexivity | reflexivity]). Qed.
Example C102_visitor_case : exists o r, a_run o a_grammar r /\ exit r = Success /\ new_visitor o <> [] /\ lower (new_visitor o) <> chars "defaultvisitor" /\ List.length (generated r) = 2.
Proof.
  eexists _, _. split; [exists finds, (fun _ _ => Reads a_grammar), (map chars ["--output=my"; "a.g"; "--new-visitor=Printer"]); split; [vm_compute; reflexivity |]; split; [discriminate |]; split; [reflexivity | vm_compute; reflexivity] |].
  repeat split; discriminate.
Qed.
