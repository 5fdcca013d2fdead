(** The command line as the user sees it (the help text, /repo/src/kdev-pg-main.cpp 40-87):
    switches, the last of several about the same thing counts.  Independent of the model. *)
From Coq Require Import List Ascii String Bool.
From Verif Require Import FlexModel DriverModel.
Import ListNotations.
Open Scope string_scope.
Open Scope list_scope.

(** An option is a word, or a word with a value behind it. *)
Inductive form := Word (w : string) | With (w : string).
Definition fits (f : form) (x : text) : Prop := match f with Word w => x = chars w | With w => exists v, x = chars w ++ v end.
(** [x] says [v]. *)
Definition table (A : Type) := text -> A -> Prop.
Definition switch {A} (l : list (form * A)) : table A := fun x v => exists f, In (f, v) l /\ fits f x.
Definition value (w : string) : table text := fun x v => x = chars w ++ v.
(** What a command line says: the last one counts, and [d] if there is none. *)
Definition decided {A} (t : table A) (d : A) (args : list text) (v : A) : Prop :=
  (exists l x r, args = l ++ x :: r /\ t x v /\ forall y u, In y r -> ~ t y u) \/ ((forall y u, In y args -> ~ t y u) /\ v = d).

Definition output_switch := switch [(With "--output=", true); (Word "--no-output", false); (With "--new-visitor=", false)].
Definition conflict_switch := switch [(Word "--ignore-conflicts", Ignore); (Word "--strict-conflicts", Strict); (Word "--permissive-conflicts", Permissive); (With "--new-visitor=", Ignore)].
Definition ast_switch := switch [(Word "--no-ast", false); (Word "--with-ast", true)].
Definition parser_switch := switch [(Word "--no-parser", Some false); (Word "--with-parser", Some true)].
Definition lexer_switch := switch [(Word "--no-lexer", Some false); (Word "--with-lexer", Some true)].
Definition line_switch := switch [(Word "--beautiful-code", BeautifulCode); (Word "--error-aware-code", FullLineNumbers); (Word "--compatible-error-aware-code", CompatibilityLineNumbers)].
Definition table_switch := switch [(Word "--visitor-table", true); (Word "--visitor-switch", false)].
Definition inherit_switch := switch [(Word "--inherit-default-visitor", true); (Word "--inherit-abstract-visitor", false)].
Definition on (w : string) := switch [(Word w, true)].

(** Words that end the run. *)
Definition information (x : text) : Prop := x = chars "--help" \/ x = chars "--version" \/ x = chars "--author" \/ x = chars "--usage".
Definition all_forms : list form :=
  [With "--output="; With "--namespace="; Word "--no-output"; Word "--no-ast"; Word "--with-ast"; Word "--serialize-visitor"; Word "--ignore-conflicts";
   Word "--strict-conflicts"; Word "--permissive-conflicts"; Word "--debug-visitor"; Word "--token-text"; Word "--no-parser"; Word "--with-parser";
   Word "--no-lexer"; Word "--with-lexer"; Word "--beautiful-code"; Word "--error-aware-code"; Word "--compatible-error-aware-code"; Word "--visitor-table";
   Word "--visitor-switch"; With "--new-visitor="; Word "--inherit-default-visitor"; Word "--inherit-abstract-visitor"; Word "--help"; Word "--version";
   Word "--author"; Word "--usage"; Word "--terminals"; Word "--symbols"; Word "--rules"; Word "--automata"].
Definition option_word (x : text) : Prop := exists f, In f all_forms /\ fits f x.
(** The grammar file: the first argument that is no option and can be opened. *)
Definition names_file (opens : text -> bool) (x : text) : Prop := ~ option_word x /\ x <> [] /\ opens x = true.
Definition chosen_file (opens : text -> bool) (args : list text) (x : text) : Prop :=
  (exists l r, args = l ++ x :: r /\ names_file opens x /\ forall y, In y l -> ~ names_file opens y) \/
  (x = [] /\ forall y, In y args -> ~ names_file opens y).
