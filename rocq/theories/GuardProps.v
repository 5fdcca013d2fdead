(** C125: include guards. *)
From Coq Require Import List Ascii String.
From Verif Require Import FlexModel GuardModel GuardSpec GuardProofs.
Import ListNotations.
Open Scope string_scope.
Open Scope list_scope.

(** Exactly when a guard is one identifier: the language does not begin with a digit, and for
    the lexer and for the visitor of --new-visitor the name that is not cleaned consists of
    letters, digits and underscores already. *)
Theorem C125_identifier_partial : forall language h,
  identifier (guard language h) <->
  (forall a y, language = a :: y -> ~ In a digits) /\
  (h = Lexer -> part language) /\ (forall n, h = New n -> part n).
Proof. exact guard_identifier. Qed.
Print Assumptions C125_identifier_partial.

Example C125_identifier_case :
  guard (chars "my-lang") Ast = chars "MY_LANG_AST_H_INCLUDED" /\ identifier (guard (chars "my-lang") Ast) /\
  guard (chars "cpp") (New (chars "Dump")) = chars "CPP_DUMP_H" /\ identifier (guard (chars "cpp") (New (chars "Dump"))).
Proof. split; [reflexivity|]. split; [apply identb_ok; reflexivity|]. split; [reflexivity|]. apply identb_ok. reflexivity. Qed.

(** The headers of one run have different guards; the names of two new visitors that share a
    guard differ in case only. *)
Theorem C125_distinct : forall language h k, guard language h = guard language k ->
  h = k \/ exists n m, h = New n /\ k = New m /\ same_but_case n m.
Proof. exact guard_distinct. Qed.
Print Assumptions C125_distinct.

Example C125_distinct_case : guard (chars "c") Visitor <> guard (chars "c") DefaultVisitor.
Proof. vm_compute. discriminate. Qed.

(** A language all of whose other headers are guarded well, but not the lexer: the guard is
    MY-LANG_LEXER_H_INCLUDED.  A language with a digit in front spoils all guards. *)
Theorem C125_identifier_refuted :
  (exists language, identifier (guard language Parser) /\ identifier (guard language Ast) /\ ~ identifier (guard language Lexer)) /\
  (exists language, part language /\ forall h, ~ identifier (guard language h)).
Proof.
  split.
  - exists (chars "my-lang"). rewrite !identb_ok. split; [reflexivity|]. split; [reflexivity|]. vm_compute. discriminate.
  - exists (chars "3d"). split; [apply part_forallb; reflexivity|]. intros h H. apply guard_identifier in H as (F & _).
    apply (F "3"%char (chars "d") eq_refl). apply inb_in. reflexivity.
Qed.
Print Assumptions C125_identifier_refuted.

(** Headers of two languages with the same guard, so that the second one included is empty:
    languages that differ in cleaned characters only, and a language that is called like
    another one's visitor. *)
Theorem C125_languages_refuted :
  (exists a b, a <> b /\ forall h, h <> Lexer -> guard a h = guard b h) /\
  (exists a b, part a /\ part b /\ ~ same_but_case a b /\ guard a Visitor = guard b Parser).
Proof.
  split.
  - exists (chars "a-b"), (chars "a_b"). split; [discriminate|]. intros h H. destruct h; (reflexivity || congruence).
  - exists (chars "foo"), (chars "foo_visitor"). split; [apply part_forallb; reflexivity|]. split; [apply part_forallb; reflexivity|].
    split; [|reflexivity]. intro H. unfold same_but_case in H. cbn [chars] in H.
    do 4 (inversion H as [|? ? ? ? _ H0]; subst; clear H; rename H0 into H).
Qed.
Print Assumptions C125_languages_refuted.
