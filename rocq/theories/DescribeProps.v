(** C126: descriptions of tokens. *)
From Coq Require Import List NArith Ascii String.
From Verif Require ScanModel ScanProps.
From Verif Require Import FlexModel DescribeModel DescribeSpec DescribeProofs.
Import ListNotations.
Open Scope string_scope.
Open Scope list_scope.

(** For a file with the declarations ds, tokenText of the number of a token has the value that
    the first declaration of the token says (with EOF declared behind all others), every
    declared token has a number, and other numbers give "unknown token".  Descriptions in
    files are on one line (String of kdev-pg-lexer.ll 95). *)
Theorem C126_token_text : forall ds,
  (forall n d, In (n, d) ds -> one_line d) ->
  (forall n, (exists k, In (n, k) (numbers (all_terminals ds))) <-> In n (map fst ds) \/ n = chars "EOF") /\
  (forall n k, In (n, k) (numbers (all_terminals ds)) ->
     exists d, first_declared (ds ++ [(chars "EOF", chars "end of file")]) n d /\
       forall y, literal (token_text (all_terminals ds) k) y <-> y = d) /\
  (forall k, ~ In k (map snd (numbers (all_terminals ds))) ->
     forall y, literal (token_text (all_terminals ds) k) y <-> y = chars "unknown token").
Proof.
  intros ds O. split; [apply numbers_names|]. split.
  - intros n k I. destruct (token_text_right ds n k I) as (d & F & ->). exists d. split; [exact F|].
    apply escaped_literal. destruct F as (l & r & E & _).
    assert (X : In (n, d) (ds ++ [(chars "EOF", chars "end of file")])) by (rewrite E; apply in_app_iff; right; left; reflexivity).
    apply in_app_iff in X as [X | [X | []]]; [exact (O _ _ X)|]. injection X as _ <-.
    split; vm_compute; intuition discriminate.
  - intros k H. unfold token_text. rewrite find_none by exact H.
    apply plain_literal; [split| |]; vm_compute; intuition discriminate.
Qed.
Print Assumptions C126_token_text.

Example C126_token_text_case :
  let ts := all_terminals [(chars "STR", chars "a ""string"""); (chars "BACK", chars "\"); (chars "STR", chars "again")] in
  numbers ts = [(chars "BACK", 1001%N); (chars "EOF", 1000%N); (chars "STR", 1002%N)] /\
  token_text ts 1002 = chars "a \""string\""" /\ token_text ts 1001 = chars "\\" /\ token_text ts 1003 = chars "unknown token".
Proof. repeat split; reflexivity. Qed.

(** The description handed to expectedToken is the same if it has no backslash and no quote.
    Full statement: for every description; false (below). *)
Theorem C126_expected_partial : forall d, one_line d -> ~ In "\"%char d -> ~ In """"%char d ->
  forall y, literal (expected_text d) y <-> y = d.
Proof. exact plain_literal. Qed.
Print Assumptions C126_expected_partial.

Example C126_expected_case : literal (expected_text (chars "end of line")) (chars "end of line").
Proof. apply C126_expected_partial; [split| | |reflexivity]; vm_compute; intuition discriminate. Qed.

(** The description is not escaped in the call of expectedToken.  So the two differ for a
    description with an escaped quote, and for one with a backslash at its end the call is no
    C++, since the literal does not end. *)
Theorem C126_expected_refuted :
  (exists d y, one_line d /\ literal (expected_text d) y /\ ~ literal (escaped d) y) /\
  (exists d, one_line d /\ literal (escaped d) d /\ forall y, ~ literal (expected_text d) y).
Proof.
  split.
  - exists (chars "\"""), (chars """"). split; [split; vm_compute; intuition discriminate|]. split.
    + apply lit_escape; [right; left; reflexivity | constructor].
    + rewrite escaped_literal by (split; vm_compute; intuition discriminate). discriminate.
  - exists (chars "a\"). assert (O : one_line (chars "a\")) by (split; vm_compute; intuition discriminate).
    split; [exact O|]. split; [apply escaped_literal; [exact O | reflexivity]|].
    intros y H. unfold expected_text in H. cbn [chars] in H.
    inversion H as [|c x z C L|]; subst. inversion L as [|c x z' C' L'|]; subst. apply C'. left. reflexivity.
Qed.
Print Assumptions C126_expected_refuted.

(** Both descriptions of C126_expected_refuted can stand in a file. *)
Example C126_scanned : exists ls st,
  ScanModel.scan_file ScanProps.plain_cfg (chars "%token A (""\"""")," ++ ["010"%char] ++ chars "B (""a\"") ;;") = ScanModel.Scanned ls st /\
  map ScanModel.lval (filter (fun l => match ScanModel.ltok l with ScanModel.Tok "T_STRING" => true | _ => false end) ls) = [chars "\"""; chars "a\"].
Proof. do 2 eexists. split; [vm_compute; reflexivity | reflexivity]. Qed.
