(** Grammar files as their authors see them: what is written, the tokens that write it, and
    what the generator has to know afterwards.  Independent of the parser. *)
From Coq Require Import List NArith Ascii String Bool PeanoNat.
From Verif Require Import FlexModel ScanModel DeclModel GramModel.
Import ListNotations.
Open Scope string_scope.
Open Scope list_scope.

Definition tokens_ := list (token * text).
Definition c (x : ascii) : tokens_ := [(Chr x, [])].
Definition k (x : string) : tokens_ := [(Tok x, [])].
Definition t (x : string) (v : text) : tokens_ := [(Tok x, v)].
Definition code (v : text) : tokens_ := t "T_CODE" v.
Definition opt {A} (f : A -> tokens_) (o : option A) : tokens_ := match o with Some x => f x | None => [] end.
Definition or_empty (o : option text) : text := match o with Some x => x | None => [] end.

(** ** Regular expressions
    The operators from loose to tight: |, &, ^ (to the right), ~ and ? in front, one after
    the other, @, * and +.  In brackets one after the other means the same as |, words stand
    for their characters, and further brackets take the place of parentheses. *)
Inductive rsrc :=
| SString (x : text)             (* with quotes *)
| SWord (x : text)               (* without *)
| SName (x : text)
| SAny
| SNothing                       (* () *)
| SPar (x : rsrc)
| SBrackets (a : asrc)
| SOr (x y : rsrc) | SOrNothing (x : rsrc) | SNothingOr (x : rsrc)
| SAnd (x y : rsrc) | SBut (x y : rsrc) | SNot (x : rsrc) | SMaybe (x : rsrc)
| SThen (x y : rsrc) | SSep (x y : rsrc) | SStar (x : rsrc) | SPlus (x : rsrc)
with asrc :=
| AString (x : text)
| ARange (x : text)
| AWord (x : text)
| AName (x : text)
| AAny
| ANothing
| APar (x : rsrc)
| ABrackets (a : asrc)
| AOr (x y : asrc) | AAnd (x y : asrc) | ABut (x y : asrc) | ANot (x : asrc) | AMaybe (x : asrc)
| AThen (x y : asrc) | ASep (x y : asrc) | AStar (x : asrc) | APlus (x : asrc).

Definition rlevel (x : rsrc) : nat :=
  match x with
  | SOr _ _ | SOrNothing _ | SNothingOr _ => 0 | SAnd _ _ => 1 | SBut _ _ => 2 | SNot _ | SMaybe _ => 3
  | SThen _ _ => 4 | SSep _ _ => 5 | SStar _ | SPlus _ => 6 | _ => 7
  end.
Definition alevel (x : asrc) : nat :=
  match x with
  | AOr _ _ => 0 | AAnd _ _ => 1 | ABut _ _ => 2 | ANot _ | AMaybe _ => 3
  | AThen _ _ => 4 | ASep _ _ => 5 | AStar _ | APlus _ => 6 | _ => 7
  end.
(** What binds looser than the place allows is put into parentheses. *)
Definition inside (l r : ascii) (n m : nat) (x : tokens_) : tokens_ := if Nat.ltb m n then c l ++ x ++ c r else x.
Fixpoint rshow (x : rsrc) : tokens_ :=
  let at_ n y := inside "(" ")" n (rlevel y) (rshow y) in
  match x with
  | SString v => t "T_STRING" v
  | SWord v => t "T_UNQUOTED_STRING" v
  | SName v => t "T_NAMED_REGEXP" v
  | SAny => c "."
  | SNothing => c "(" ++ c ")"
  | SPar y => c "(" ++ rshow y ++ c ")"
  | SBrackets a => c "[" ++ ashow a ++ c "]"
  | SOr y z => at_ 0 y ++ c "|" ++ at_ 1 z
  | SOrNothing y => at_ 0 y ++ c "|"
  | SNothingOr y => c "|" ++ at_ 1 y
  | SAnd y z => at_ 1 y ++ c "&" ++ at_ 2 z
  | SBut y z => at_ 3 y ++ c "^" ++ at_ 2 z
  | SNot y => c "~" ++ at_ 3 y
  | SMaybe y => c "?" ++ at_ 3 y
  | SThen y z => at_ 4 y ++ at_ 5 z
  | SSep y z => at_ 5 y ++ c "@" ++ at_ 6 z
  | SStar y => at_ 6 y ++ c "*"
  | SPlus y => at_ 6 y ++ c "+"
  end
with ashow (x : asrc) : tokens_ :=
  let at_ n y := inside "[" "]" n (alevel y) (ashow y) in
  match x with
  | AString v => t "T_STRING" v
  | ARange v => t "T_RANGE" v
  | AWord v => t "T_UNQUOTED_STRING" v
  | AName v => t "T_NAMED_REGEXP" v
  | AAny => c "."
  | ANothing => c "(" ++ c ")"
  | APar y => c "(" ++ rshow y ++ c ")"
  | ABrackets a => c "[" ++ ashow a ++ c "]"
  | AOr y z => at_ 0 y ++ c "|" ++ at_ 1 z
  | AAnd y z => at_ 1 y ++ c "&" ++ at_ 2 z
  | ABut y z => at_ 3 y ++ c "^" ++ at_ 2 z
  | ANot y => c "~" ++ at_ 3 y
  | AMaybe y => c "?" ++ at_ 3 y
  | AThen y z => at_ 4 y ++ at_ 5 z
  | ASep y z => at_ 5 y ++ c "@" ++ at_ 6 z
  | AStar y => at_ 6 y ++ c "*"
  | APlus y => at_ 6 y ++ c "+"
  end.
(** What is meant; [names]: the named ones.  [None]: a name is not known. *)
Section N.
Variable names : text -> option rex.
Definition lift1 (f : rex -> rex) (x : option rex) : option rex := option_map f x.
Definition lift2 (f : rex -> rex -> rex) (x y : option rex) : option rex :=
  match x, y with Some x, Some y => Some (f x y) | _, _ => None end.
Fixpoint rmeans (x : rsrc) : option rex :=
  match x with
  | SString v | SWord v => Some (XString v)
  | SName v => lift1 XNamed (names v)
  | SAny => Some XAny
  | SNothing => Some XEps
  | SPar y => rmeans y
  | SBrackets a => ameans a
  | SOr y z => lift2 XOr (rmeans y) (rmeans z)
  | SOrNothing y => lift1 (fun y => XOr y XEps) (rmeans y)
  | SNothingOr y => lift1 (XOr XEps) (rmeans y)
  | SAnd y z => lift2 XAnd (rmeans y) (rmeans z)
  | SBut y z => lift2 XBut (rmeans y) (rmeans z)
  | SNot y => lift1 XNot (rmeans y)
  | SMaybe y => lift1 XOpt (rmeans y)
  | SThen y z => lift2 XCat (rmeans y) (rmeans z)
  | SSep y z => lift2 XSep (rmeans y) (rmeans z)
  | SStar y => lift1 XStar (rmeans y)
  | SPlus y => lift1 XPlus (rmeans y)
  end
with ameans (x : asrc) : option rex :=
  match x with
  | AString v => Some (XString v)
  | ARange v => Some (XRange v)
  | AWord v => Some (XChars v)
  | AName v => lift1 XNamed (names v)
  | AAny => Some XAny
  | ANothing => Some XEps
  | APar y => rmeans y
  | ABrackets a => ameans a
  | AOr y z | AThen y z => lift2 XOr (ameans y) (ameans z)
  | AAnd y z => lift2 XAnd (ameans y) (ameans z)
  | ABut y z => lift2 XBut (ameans y) (ameans z)
  | ANot y => lift1 XNot (ameans y)
  | AMaybe y => lift1 XOpt (ameans y)
  | ASep y z => lift2 XSep (ameans y) (ameans z)
  | AStar y => lift1 XStar (ameans y)
  | APlus y => lift1 XPlus (ameans y)
  end.
End N.

(** ** Right sides of rules
    From loose to tight: |, a condition in front of a sequence, one after the other, code
    behind and @, then +, * and ? in front. *)
Inductive atom := ATok (x : text) | ASym (x : text) (args : option text).
Inductive isrc :=
| IEmpty                                     (* 0 *)
| IAtom (a : atom)
| IInlined (x : text)                        (* .= x *)
| IBind (seq member : bool) (x : text) (a : atom)
| IPar (i : isrc)
| IRecover (i : isrc)
| IRollback (i j : isrc)
| IMany (i : isrc)                           (* + *)
| IAnyMany (i : isrc)                        (* * *)
| IMaybe (i : isrc)                          (* ? *)
| IListOf (i j : isrc)                       (* @ *)
| IWithCode (i : isrc) (x : text)
| IOnlyCode (x : text)
| IThen (i j : isrc)
| IWhen (x : text) (i : isrc)
| IOr (i j : isrc).
Definition ilevel (i : isrc) : nat :=
  match i with
  | IOr _ _ => 0 | IWhen _ _ => 1 | IThen _ _ => 2 | IListOf _ _ | IWithCode _ _ | IOnlyCode _ => 3
  | IMany _ | IAnyMany _ | IMaybe _ => 4 | _ => 5
  end.
(** Whether the tokens begin with code; code behind something belongs to it. *)
Fixpoint code_first (i : isrc) : bool :=
  match i with
  | IOnlyCode _ => true
  | IListOf j _ | IWithCode j _ => Nat.leb 3 (ilevel j) && code_first j
  | _ => false
  end.
Definition ashow_atom (a : atom) : tokens_ :=
  match a with ATok x => t "T_TERMINAL" x | ASym x args => t "T_IDENTIFIER" x ++ opt (t "T_RULE_ARGUMENTS") args end.
Fixpoint ishow (i : isrc) : tokens_ :=
  let at_ n j := inside "(" ")" n (ilevel j) (ishow j) in
  match i with
  | IEmpty => c "0"
  | IAtom a => ashow_atom a
  | IInlined x => k "T_INLINE" ++ t "T_IDENTIFIER" x
  | IBind seq m x a => (if seq then c "#" else []) ++ t "T_IDENTIFIER" x ++ c (if m then "=" else ":") ++ ashow_atom a
  | IPar j => c "(" ++ ishow j ++ c ")"
  | IRecover j => k "T_TRY_RECOVER" ++ c "(" ++ ishow j ++ c ")"
  | IRollback j l => k "T_TRY_ROLLBACK" ++ c "(" ++ ishow j ++ c ")" ++ k "T_CATCH" ++ c "(" ++ ishow l ++ c ")"
  | IMany j => at_ 5 j ++ c "+"
  | IAnyMany j => at_ 5 j ++ c "*"
  | IMaybe j => c "?" ++ at_ 5 j
  | IListOf j l => at_ 3 j ++ c "@" ++ at_ 5 l
  | IWithCode j x => at_ 3 j ++ code x
  | IOnlyCode x => code x
  | IThen j l => at_ 2 j ++ (if code_first l then c "(" ++ ishow l ++ c ")" else at_ 3 l)
  | IWhen x j => c "?" ++ code x ++ at_ 2 j
  | IOr j l => at_ 0 j ++ c "|" ++ at_ 1 l
  end.

Section T.
(** The description of a token. *)
Variable describe : text -> text.
Definition atom_means (a : atom) : item :=
  match a with ATok x => ITerminal x (describe x) | ASym x args => INonTerminal x (or_empty args) end.
Fixpoint imeans (i : isrc) : item :=
  match i with
  | IEmpty => IZero
  | IAtom a => atom_means a
  | IInlined x => IInline x
  | IBind seq m x a => IAnnotation x seq m (atom_means a)
  | IPar j => imeans j
  | IRecover j => ITryRecover (imeans j)
  | IRollback j l => ITryRollback (imeans j) (imeans l)
  | IMany j => GramModel.IPlus (imeans j)
  | IAnyMany j => GramModel.IStar (imeans j)
  | IMaybe j => IAlternative (imeans j) IZero
  | IListOf j l => ICons (imeans j) (GramModel.IStar (ICons (imeans l) (imeans j)))
  | IWithCode j x => IAction (imeans j) x
  | IOnlyCode x => ICode x
  | IThen j l => ICons (imeans j) (imeans l)
  | IWhen x j => ICondition x (imeans j)
  | IOr j l => IAlternative (imeans j) (imeans l)
  end.
End T.
Definition atom_symbols (a : atom) : list text := match a with ATok _ => [] | ASym x _ => [x] end.
(** The symbols, in the order of the text. *)
Fixpoint symbols_of (i : isrc) : list text :=
  match i with
  | IEmpty | IOnlyCode _ => []
  | IAtom a | IBind _ _ _ a => atom_symbols a
  | IInlined x => [x]
  | IPar j | IRecover j | IMany j | IAnyMany j | IMaybe j | IWithCode j _ | IWhen _ j => symbols_of j
  | IRollback j l | IListOf j l | IThen j l | IOr j l => symbols_of j ++ symbols_of l
  end.
Fixpoint has_try (i : isrc) : bool :=
  match i with
  | IEmpty | IOnlyCode _ | IAtom _ | IBind _ _ _ _ | IInlined _ => false
  | IRecover _ | IRollback _ _ => true
  | IPar j | IMany j | IAnyMany j | IMaybe j | IWithCode j _ | IWhen _ j => has_try j
  | IListOf j l | IThen j l | IOr j l => has_try j || has_try l
  end.
(** Operands of @ are copied; conditions and code without an item get lost or worse (C57). *)
Fixpoint plain (i : isrc) : bool :=
  match i with
  | IEmpty | IAtom _ | IBind _ _ _ _ | IInlined _ => true
  | IOnlyCode _ | IWhen _ _ => false
  | IPar j | IRecover j | IMany j | IAnyMany j | IMaybe j | IWithCode j _ => plain j
  | IRollback j l | IListOf j l | IThen j l | IOr j l => plain j && plain l
  end.
Fixpoint lists_plain (i : isrc) : bool :=
  match i with
  | IEmpty | IAtom _ | IBind _ _ _ _ | IInlined _ | IOnlyCode _ => true
  | IWhen _ j | IPar j | IRecover j | IMany j | IAnyMany j | IMaybe j | IWithCode j _ => lists_plain j
  | IListOf j l => plain j && plain l && lists_plain j && lists_plain l
  | IRollback j l | IThen j l | IOr j l => lists_plain j && lists_plain l
  end.

(** ** Rules *)
Record vsrc := Var { varg : bool; vmem : bool; vseq : bool; vname : text; vtyp : option (bool * text) }.
(** vtyp: [None] a token; otherwise whether it is a node (not a variable), and the type. *)
Definition vshow (d : vsrc) : tokens_ :=
  (if varg d then k "T_ARGUMENT" else []) ++ k (if vmem d then "T_MEMBER" else "T_TEMPORARY") ++
  k (match vtyp d with None => "T_TOKEN" | Some (true, _) => "T_NODE" | Some (false, _) => "T_VARIABLE" end) ++
  (if vseq d then c "#" else []) ++ t "T_IDENTIFIER" (vname d) ++
  match vtyp d with None => c ";" | Some (_, x) => c ":" ++ t "T_IDENTIFIER" x end.
Definition vmeans (d : vsrc) : declaration :=
  Declaration (varg d) (vmem d) (match vtyp d with None => TypeToken | Some (true, _) => TypeNode | Some (false, _) => TypeVariable end)
    (vseq d) (vname d) (match vtyp d with None => [] | Some (_, x) => x end).

(** What stands behind the arrow: the variables (at least one if any) and the code, in one
    order or the other. *)
Inductive foot := FootCode (x : option text) | VarsCode (d : vsrc) (l : list vsrc) (x : option text) | CodeVars (x : text) (d : vsrc) (l : list vsrc).
Definition vars_show (d : vsrc) (l : list vsrc) : tokens_ := c "[" ++ flat_map vshow (d :: l) ++ c "]".
Definition foot_show (f : foot) : tokens_ :=
  match f with
  | FootCode x => opt code x
  | VarsCode d l x => vars_show d l ++ opt code x
  | CodeVars x d l => code x ++ vars_show d l
  end.
Definition foot_vars (f : foot) : list declaration :=
  match f with FootCode _ => [] | VarsCode d l _ | CodeVars _ d l => map vmeans (d :: l) end.
Definition foot_code (f : foot) : text :=
  match f with FootCode x | VarsCode _ _ x => or_empty x | CodeVars x _ _ => x end.

Record osrc := Op { ocond : option text; otok : text; ocode : option text }.
Definition oshow (o : osrc) : tokens_ := opt (fun x => c "?" ++ code x) (ocond o) ++ t "T_TERMINAL" (otok o) ++ opt code (ocode o).
Inductive priority := PZero | PNumber (x : text) | PCode (x : text).
Inductive assoc := Left | Right | IsLeft (x : text) | IsRight (x : text).
Definition pshow (p : priority) : tokens_ :=
  match p with PZero => c "0" | PNumber x => t "T_NUMBER" x | PCode x => k "T_PRIORITY" ++ code x end.
Definition pmeans (p : priority) : text := match p with PZero => chars "0" | PNumber x | PCode x => x end.
Definition sshow (a : assoc) : tokens_ :=
  match a with Left => k "T_LEFT_ASSOC" | Right => k "T_RIGHT_ASSOC" | IsLeft x => k "T_IS_LEFT_ASSOC" ++ code x | IsRight x => k "T_IS_RIGHT_ASSOC" ++ code x end.
(** The code that tells whether the operator is left associative. *)
Definition smeans (a : assoc) : text :=
  match a with
  | Left => chars "1" | Right => chars "0"
  | IsLeft x => chars "(" ++ x ++ chars "?1:0)" | IsRight x => chars "(" ++ x ++ chars "?0:1)"
  end.
Inductive ops_src :=
| OBin (o : osrc) (p : priority) (a : assoc)
| OTern (o q : osrc) (p : priority) (a : assoc)
| OPre (o : osrc) (p : priority)
| OPost (o : osrc) (p : priority) (a : option assoc)
| OParen (o q : osrc).
Definition ops_show (o : ops_src) : tokens_ :=
  match o with
  | OBin o p a => k "T_BIN" ++ oshow o ++ pshow p ++ sshow a
  | OTern o q p a => k "T_TERN" ++ oshow o ++ oshow q ++ pshow p ++ sshow a
  | OPre o p => k "T_PRE" ++ oshow o ++ pshow p
  | OPost o p a => k "T_POST" ++ oshow o ++ pshow p ++ opt sshow a
  | OParen o q => k "T_PAREN" ++ oshow o ++ oshow q
  end.
Section O.
Variable describe : text -> text.
Definition omeans (o : osrc) : operator := Operator (ITerminal (otok o) (describe (otok o))) (or_empty (ocond o)) (or_empty (ocode o)).
Definition ops_means (o : ops_src) : operators :=
  match o with
  | OBin o p a => Bin (omeans o) (smeans a) (pmeans p)
  | OTern o q p a => Tern (omeans o) (omeans q) (smeans a) (pmeans p)
  | OPre o p => Pre (omeans o) (pmeans p)
  | OPost o p a => Post (omeans o) (match a with Some a => smeans a | None => chars "0" end) (pmeans p)
  | OParen o q => Paren (omeans o) (omeans q)
  end.
End O.
(** The literal 0 as the priority of %post without associativity is freed (C94). *)
Definition ops_ok (o : ops_src) : bool := match o with OPost _ PZero None => false | _ => true end.

Inductive rule_src :=
| RRule (i : isrc) (x : text) (f : foot)
| ROperators (base : text) (args : option text) (l : list ops_src) (x : text) (f : foot).
Definition rule_show (r : rule_src) : tokens_ :=
  match r with
  | RRule i x f => ishow i ++ k "T_ARROW" ++ t "T_IDENTIFIER" x ++ foot_show f ++ c ";"
  | ROperators b args l x f =>
    k "T_LOPR" ++ ashow_atom (ASym b args) ++ flat_map ops_show l ++ k "T_ROPR" ++ t "T_IDENTIFIER" x ++ foot_show f ++ c ";"
  end.
Definition rule_means (describe : text -> text) (r : rule_src) : item :=
  match r with
  | RRule i x f => IEvolve (imeans describe i) x (foot_vars f) (foot_code f)
  | ROperators b _ l x f => IEvolve (IOperator x b (map (ops_means describe) l)) x (foot_vars f) (foot_code f)
  end.
Definition rule_symbols (r : rule_src) : list text :=
  match r with RRule i x _ => symbols_of i ++ [x] | ROperators b _ _ x _ => [b; x] end.
Definition rule_ok (ast : bool) (r : rule_src) : bool :=
  match r with RRule i _ _ => lists_plain i | ROperators _ _ l _ _ => forallb ops_ok l && ast end.
Definition rule_try (r : rule_src) : bool := match r with RRule i _ _ => has_try i | _ => false end.
Definition rule_operators (r : rule_src) : bool := match r with ROperators _ _ _ _ _ => true | _ => false end.

(** ** Lexer rules *)
Inductive laction := Return (x : text) | Continue | Skip.
Definition lashow (a : laction) : tokens_ := match a with Return x => t "T_TERMINAL" x | Continue => k "T_CONTINUE" | Skip => [] end.
Definition lameans (a : laction) : text :=
  match a with
  | Return x => [LF] ++ chars "lxRETURN(" ++ x ++ chars ")" ++ [LF]
  | Continue => [LF] ++ chars "lxCONTINUE;" ++ [LF]
  | Skip => [LF] ++ chars "lxSKIP" ++ [LF]
  end.
Inductive lsrc :=
| LDefine (x : rsrc) (name : text)
| LRule (x : rsrc) (code : option text) (a : laction)
| LLook (x y : rsrc) (code : option text) (a : laction)
| LBar (x y : rsrc) (code : option text) (a : laction)
| LFail (code : text)
| LEnter (code : text)
| LLeave (code : text).
Definition lshow (l : lsrc) : tokens_ :=
  match l with
  | LDefine x n => rshow x ++ k "T_ARROW" ++ t "T_IDENTIFIER" n ++ c ";"
  | LRule x o a => rshow x ++ opt code o ++ lashow a ++ c ";"
  | LLook x y o a => rshow x ++ k "T_LOOKAHEAD" ++ c "(" ++ rshow y ++ c ")" ++ opt code o ++ lashow a ++ c ";"
  | LBar x y o a => rshow x ++ k "T_BARRIER" ++ c "(" ++ rshow y ++ c ")" ++ opt code o ++ lashow a ++ c ";"
  | LFail v => k "T_FAIL" ++ code v
  | LEnter v => k "T_ENTER_RULE_SET" ++ code v
  | LLeave v => k "T_LEAVE_RULE_SET" ++ code v
  end.
Definition names_ := list (text * rex).
(** The last definition counts. *)
Definition named (l : names_) (x : text) : option rex :=
  match find (fun e => if list_eq_dec ascii_dec (fst e) x then true else false) (rev l) with Some e => Some (snd e) | None => None end.
(** What a lexer rule of rule set [e] leads to, and the named expressions after it. *)
Definition lmeans (e : text) (l : names_) (s : lsrc) : option (list event * names_) :=
  match s with
  | LDefine x n => option_map (fun x => ([], l ++ [(n, x)])) (rmeans (named l) x)
  | LRule x o a => option_map (fun x => ([LexerRule e (Plain x) (or_empty o ++ lameans a)], l)) (rmeans (named l) x)
  | LLook x y o a =>
    match rmeans (named l) x, rmeans (named l) y with
    | Some x, Some y => Some ([LexerRule e (Lookahead x y) (or_empty o ++ lameans a)], l) | _, _ => None end
  | LBar x y o a =>
    match rmeans (named l) x, rmeans (named l) y with
    | Some x, Some y => Some ([LexerRule e (Barrier x y) (or_empty o ++ lameans a)], l) | _, _ => None end
  | LFail v => Some ([FailCode e v], l)
  | LEnter v => Some ([EnterCode e v], l)
  | LLeave v => Some ([LeaveCode e v], l)
  end.
Fixpoint lmeans_all (e : text) (l : names_) (s : list lsrc) : option (list event * names_) :=
  match s with
  | [] => Some ([], l)
  | x :: s =>
    match lmeans e l x with
    | Some (a, l) => match lmeans_all e l s with Some (b, l) => Some (a ++ b, l) | None => None end
    | None => None
    end
  end.

(** ** Declarations
    Those that only store a text: the token, whether a list is added to, and the member. *)
Inductive setting := ExportMacro | ExportMacroHeader | InputStream | ParserBase | LexerBase
| ParserDeclarationHeader | ParserBitsHeader | AstHeader | LexerDeclarationHeader | LexerBitsHeader.
Definition set_show (s : setting) : string :=
  match s with
  | ExportMacro => "T_EXPORT_MACRO" | ExportMacroHeader => "T_EXPORT_MACRO_HEADER" | InputStream => "T_INPUT_STREAM"
  | ParserBase => "T_PARSER_BASE" | LexerBase => "T_LEXER_BASE"
  | ParserDeclarationHeader => "T_PARSER_DECLARATION_HEADER" | ParserBitsHeader => "T_PARSER_BITS_HEADER"
  | AstHeader => "T_AST_HEADER" | LexerDeclarationHeader => "T_LEXER_DECLARATION_HEADER" | LexerBitsHeader => "T_LEXER_BITS_HEADER"
  end.
Definition set_means (s : setting) (v : text) : event :=
  match s with
  | ExportMacro => Set_ "exportMacro" v | ExportMacroHeader => Set_ "exportMacroHeader" v | InputStream => Set_ "inputStream" v
  | ParserBase => Set_ "parserBaseClass" v | LexerBase => Set_ "lexerBaseClass" v
  | ParserDeclarationHeader => Add "parserDeclarationHeaders" v | ParserBitsHeader => Add "parserBitsHeaders" v
  | AstHeader => Add "astHeaders" v | LexerDeclarationHeader => Add "lexerDeclarationHeaders" v
  | LexerBitsHeader => Add "lexerBitsHeaders" v
  end.
Inductive dsrc :=
| DMember (lexer : bool) (m : member_kind) (code : text)
| DBits (lexer : bool) (code : text)
| DTokens (x : text * option text) (l : list (text * option text))
| DType (d : option bool) (* %table_lexer: Some true, %sequence_lexer: Some false *) (enc : text)
| DStream (x : text)
| DSet (s : setting) (v : text)
| DNamespace (code : text)
| DAst (code : text)
| DBase (x v : text)
| DLexer (env : option text) (l : list lsrc).
Definition member_show (m : member_kind) : tokens_ :=
  match m with
  | PublicDeclaration => k "T_PUBLIC" ++ k "T_DECLARATION"
  | ProtectedDeclaration => k "T_PROTECTED" ++ k "T_DECLARATION"
  | PrivateDeclaration => k "T_PRIVATE" ++ k "T_DECLARATION"
  | ConstructorCode => k "T_CONSTRUCTOR"
  | DestructorCode => k "T_DESTRUCTOR"
  end.
Definition class_show (lexer : bool) : tokens_ := k (if lexer then "T_LEXERCLASS_DECLARATION" else "T_PARSERCLASS_DECLARATION").
Definition token_show (x : text * option text) : tokens_ :=
  t "T_TERMINAL" (fst x) ++ opt (fun d => c "(" ++ t "T_STRING" d ++ c ")") (snd x).
Definition dshow (d : dsrc) : tokens_ :=
  match d with
  | DMember l m v => class_show l ++ c "(" ++ member_show m ++ c ")" ++ code v
  | DBits l v => class_show l ++ c "(" ++ k "T_BITS" ++ c ")" ++ code v
  | DTokens x l => k "T_TOKEN_DECLARATION" ++ token_show x ++ flat_map (fun y => c "," ++ token_show y) l ++ c ";"
  | DType (Some true) _ => k "T_TABLE_LEXER"
  | DType (Some false) _ => k "T_SEQUENCE_LEXER"
  | DType None v => k "T_INPUT_ENCODING" ++ t "T_STRING" v
  | DStream x => k "T_TOKEN_STREAM_DECLARATION" ++ t "T_IDENTIFIER" x ++ c ";"
  | DSet s v => k (set_show s) ++ t "T_STRING" v
  | DNamespace v => k "T_NAMESPACE_DECLARATION" ++ code v
  | DAst v => k "T_AST_DECLARATION" ++ code v
  | DBase x v => k "T_AST_BASE" ++ t "T_IDENTIFIER" x ++ t "T_STRING" v
  | DLexer e l => k "T_LEXER" ++ opt (t "T_STRING") e ++ k "T_ARROW" ++ flat_map lshow l ++ c ";"
  end.
Definition start_name : text := chars "start".
(** The events of a declaration, and the named expressions after it. *)
Definition dmeans (l : names_) (d : dsrc) : option (list event * names_) :=
  match d with
  | DMember x m v => Some ([Member (if x then "lexerclass" else "parserclass") m v], l)
  | DBits x v => Some ([Add (if x then "lexerBits" else "bits") v], l)
  | DTokens _ _ | DType _ _ | DBase _ _ => Some ([], l)
  | DStream x => Some ([Set_ "tokenStream" x], l)
  | DSet s v => Some ([set_means s v], l)
  | DNamespace v => Some ([Set_ "namespaceCode" v], l)
  | DAst v => Some ([Set_ "astCode" v], l)
  | DLexer e s =>
    let e := match e with Some e => e | None => start_name end in
    match lmeans_all e l s with Some (a, l) => Some (EnterLexer e :: a, l) | None => None end
  end.
Fixpoint dmeans_all (l : names_) (ds : list dsrc) : option (list event * names_) :=
  match ds with
  | [] => Some ([], l)
  | d :: ds =>
    match dmeans l d with
    | Some (a, l) => match dmeans_all l ds with Some (b, l) => Some (a ++ b, l) | None => None end
    | None => None
    end
  end.
(** The declared tokens with their descriptions, the kind of lexer, the base classes. *)
Definition token_means (x : text * option text) : text * text := (fst x, match snd x with Some d => d | None => fst x end).
Definition dtokens (d : dsrc) : list (text * text) := match d with DTokens x l => map token_means (x :: l) | _ => [] end.
Definition dtype (d : dsrc) : list lexer_decl :=
  match d with
  | DType (Some true) _ => [TableLexer] | DType (Some false) _ => [SequenceLexer]
  | DType None v => [InputEncoding (map N_of_ascii v)] | _ => []
  end.
Definition is_lexer (d : dsrc) : bool := match d with DLexer _ _ => true | _ => false end.
Definition is_type (d : dsrc) : bool := match d with DType _ _ => true | _ => false end.
(** The kind of lexer is declared before all lexer rules. *)
Fixpoint types_first (ds : list dsrc) : bool :=
  match ds with
  | [] => true
  | d :: ds => if is_lexer d then forallb (fun d => negb (is_type d)) ds && types_first ds else types_first ds
  end.
Definition dbase (d : dsrc) : list (text * text) := match d with DBase x v => [(x, v)] | _ => [] end.

(** ** Files *)
Record file := File { head_ : option text; first_decl : dsrc; decls_ : list dsrc; rules_ : list rule_src; tail_ : option text }.
Definition all_decls (f : file) : list dsrc := first_decl f :: decls_ f.
Definition file_show (f : file) : tokens_ :=
  opt code (head_ f) ++ flat_map dshow (all_decls f) ++ flat_map rule_show (rules_ f) ++ opt code (tail_ f).
Definition first_of (l : list (text * text)) (x : text) : option text :=
  match find (fun e => if list_eq_dec ascii_dec (fst e) x then true else false) l with Some e => Some (snd e) | None => None end.
Definition file_tokens (f : file) : list (text * text) := flat_map dtokens (all_decls f).
Definition describe (f : file) (x : text) : text := match first_of (file_tokens f) x with Some d => d | None => x end.
Definition rule_events (describe : text -> text) (r : rule_src) : list event :=
  map PushSymbol (rule_symbols r) ++ [PushRule (rule_means describe r)].
(** What is done with the file, in order. *)
Definition file_events (f : file) : option (list event) :=
  option_map (fun a => [Set_ "decl" (or_empty (head_ f))] ++ fst a ++ flat_map (rule_events (describe f)) (rules_ f) ++ [Add "bits" (or_empty (tail_ f))])
    (dmeans_all [] (all_decls f)).
(** The base class of an AST class: as declared last, otherwise by the first operator rule. *)
Definition operator_base (r : rule_src) : list (text * text) :=
  match r with ROperators b _ _ x _ => [(b, capitalized x ++ chars "Ast")] | _ => [] end.
Definition file_base (f : file) (x : text) : option text :=
  match first_of (rev (flat_map dbase (all_decls f))) x with
  | Some b => Some b
  | None => first_of (flat_map operator_base (rules_ f)) x
  end.
(** Files that can be read. *)
Definition readable (ast : bool) (f : file) : Prop :=
  (exists a, dmeans_all [] (all_decls f) = Some a) /\
  types_first (all_decls f) = true /\
  (exists n, declare_all initial_type (flat_map dtype (all_decls f)) = Some n) /\
  forallb (rule_ok ast) (rules_ f) = true.
