(** Which grammar files can be written down: names, codes and texts that the language has a
    way to write.  Independent of the scanner. *)
From Coq Require Import List Ascii String Bool PeanoNat.
From Verif Require Import FlexModel ScanModel ScanSpec GramModel GramSpec WriteSpec.
Import ListNotations.

Definition clean (w : text) : Prop := ~ In NUL w /\ ~ In "255"%char w.
Definition identifier (x : text) : Prop := is_word x /\ ~ all_in UPPER x /\ x <> chars "catch".
Definition terminal (x : text) : Prop := x <> [] /\ all_in UPPER x.
Definition code_text (x : text) : Prop := code_body x /\ clean x.
Definition string_text (x : text) : Prop := string_body x /\ clean x.
Definition argument_text (x : text) : Prop := plain_arguments x /\ (forall u, x <> COLON :: u) /\ clean x.
(** The type of a variable has two characters at least (C84). *)
Definition type_text (x : text) : Prop := ~ In ";"%char x /\ 2 <= List.length x /\ over blanks x /\ clean x.
Definition variable_name (x : text) : Prop := x <> [] /\ all_in WORD x /\ forall k n, In (k, n) header_words -> x <> chars k.
Definition if_any {A} (P : A -> Prop) (o : option A) : Prop := match o with Some x => P x | None => True end.

(** ** Regular expressions *)
Fixpoint r_legible (x : rsrc) : Prop :=
  match x with
  | SString v => string_text v
  | SWord v => v <> [] /\ spelling v
  | SName v => is_word v
  | SAny | SNothing => True
  | SBrackets a => a_legible a
  | SPar y | SOrNothing y | SNothingOr y | SNot y | SMaybe y | SStar y | SPlus y => r_legible y
  | SOr y z | SAnd y z | SBut y z | SThen y z | SSep y z => r_legible y /\ r_legible z
  end
with a_legible (x : asrc) : Prop :=
  match x with
  | AString v => string_text v
  | ARange v => exists a b, single a /\ single b /\ v = a ++ "-"%char :: b
  | AWord v => v <> [] /\ spelling v
  | AName v => is_word v
  | AAny | ANothing => True
  | APar y => r_legible y
  | ABrackets y | ANot y | AMaybe y | AStar y | APlus y => a_legible y
  | AOr y z | AAnd y z | ABut y z | AThen y z | ASep y z => a_legible y /\ a_legible z
  end.
(** In front of a semicolon a word would be taken for a name. *)
Definition bare_end (x : rsrc) : Prop := exists l v, rshow x = l ++ t "T_UNQUOTED_STRING" v /\ all_in WORD v.

Definition action_legible (a : laction) : Prop := match a with Return x => terminal x | _ => True end.
Definition l_legible (l : lsrc) : Prop :=
  match l with
  | LDefine x n => r_legible x /\ n <> [] /\ all_in WORD n /\ ~ all_in UPPER n
  | LRule x o a => r_legible x /\ if_any code_text o /\ action_legible a /\ (o = None -> a = Skip -> ~ bare_end x)
  | LLook x y o a | LBar x y o a => r_legible x /\ r_legible y /\ if_any code_text o /\ action_legible a
  | LFail v | LEnter v | LLeave v => code_text v
  end.
(** Two semicolons end the lexer rules; the first one has to belong to a rule. *)
Definition has_semicolon (l : lsrc) : Prop :=
  match l with LDefine _ _ | LRule _ _ _ | LLook _ _ _ _ | LBar _ _ _ _ => True | LFail _ | LEnter _ | LLeave _ => False end.

(** ** Rules *)
Definition atom_legible (a : atom) : Prop :=
  match a with ATok x => terminal x | ASym x args => identifier x /\ if_any argument_text args end.
Fixpoint i_legible (i : isrc) : Prop :=
  match i with
  | IEmpty => True
  | IAtom a => atom_legible a
  | IInlined x => identifier x
  | IBind _ _ x a => identifier x /\ atom_legible a
  | IPar j | IRecover j | IMany j | IAnyMany j | IMaybe j => i_legible j
  | IRollback j l | IListOf j l | IThen j l | IOr j l => i_legible j /\ i_legible l
  | IWithCode j x | IWhen x j => i_legible j /\ code_text x
  | IOnlyCode x => code_text x
  end.
Definition v_legible (d : vsrc) : Prop := variable_name (vname d) /\ if_any (fun x => type_text (snd x)) (vtyp d).
Definition foot_legible (f : foot) : Prop :=
  match f with
  | FootCode x => if_any code_text x
  | VarsCode d l x => Forall v_legible (d :: l) /\ if_any code_text x
  | CodeVars x d l => Forall v_legible (d :: l) /\ code_text x
  end.
Definition o_legible (o : osrc) : Prop := if_any code_text (ocond o) /\ terminal (otok o) /\ if_any code_text (ocode o).
Definition p_legible (p : priority) : Prop := match p with PZero => True | PNumber x => is_number x /\ x <> chars "0" | PCode x => code_text x end.
Definition s_legible (a : assoc) : Prop := match a with Left | Right => True | IsLeft x | IsRight x => code_text x end.
Definition ops_legible (o : ops_src) : Prop :=
  match o with
  | OBin o p a => o_legible o /\ p_legible p /\ s_legible a
  | OTern o q p a => o_legible o /\ o_legible q /\ p_legible p /\ s_legible a
  | OPre o p => o_legible o /\ p_legible p
  | OPost o p a => o_legible o /\ p_legible p /\ if_any s_legible a
  | OParen o q => o_legible o /\ o_legible q
  end.
Definition rule_legible (r : rule_src) : Prop :=
  match r with
  | RRule i x f => i_legible i /\ identifier x /\ foot_legible f
  | ROperators b args l x f => identifier b /\ if_any argument_text args /\ Forall ops_legible l /\ identifier x /\ foot_legible f
  end.

(** ** Declarations, files *)
Definition token_legible (x : text * option text) : Prop := terminal (fst x) /\ if_any string_text (snd x).
Definition d_legible (d : dsrc) : Prop :=
  match d with
  | DMember _ _ v | DBits _ v | DNamespace v | DAst v => code_text v
  | DTokens x l => Forall token_legible (x :: l)
  | DType (Some _) _ => True
  | DType None v | DSet _ v => string_text v
  | DStream x => identifier x
  | DBase x v => identifier x /\ string_text v
  | DLexer e l => if_any string_text e /\ Forall l_legible l /\ exists l' x, l = l' ++ [x] /\ has_semicolon x
  end.
Definition legible (f : file) : Prop :=
  if_any code_text (head_ f) /\ Forall d_legible (all_decls f) /\ Forall rule_legible (rules_ f) /\ if_any code_text (tail_ f).

(** ** The same file with other code
    [K x y]: code [x] in one file is code [y] in the other. *)
Section K.
Variable K : text -> text -> Prop.
Definition both {A} (R : A -> A -> Prop) (x y : option A) : Prop :=
  match x, y with Some x, Some y => R x y | None, None => True | _, _ => False end.
Definition atom_with (a b : atom) : Prop :=
  match a, b with ATok x, ATok y => x = y | ASym x u, ASym y v => x = y /\ both K u v | _, _ => False end.
Inductive i_with : isrc -> isrc -> Prop :=
| iw_empty : i_with IEmpty IEmpty
| iw_atom a b : atom_with a b -> i_with (IAtom a) (IAtom b)
| iw_inlined x : i_with (IInlined x) (IInlined x)
| iw_bind s m x a b : atom_with a b -> i_with (IBind s m x a) (IBind s m x b)
| iw_par i j : i_with i j -> i_with (IPar i) (IPar j)
| iw_recover i j : i_with i j -> i_with (IRecover i) (IRecover j)
| iw_rollback i j i' j' : i_with i j -> i_with i' j' -> i_with (IRollback i i') (IRollback j j')
| iw_many i j : i_with i j -> i_with (IMany i) (IMany j)
| iw_any i j : i_with i j -> i_with (IAnyMany i) (IAnyMany j)
| iw_maybe i j : i_with i j -> i_with (IMaybe i) (IMaybe j)
| iw_list i j i' j' : i_with i j -> i_with i' j' -> i_with (IListOf i i') (IListOf j j')
| iw_code i j x y : i_with i j -> K x y -> i_with (IWithCode i x) (IWithCode j y)
| iw_only x y : K x y -> i_with (IOnlyCode x) (IOnlyCode y)
| iw_then i j i' j' : i_with i j -> i_with i' j' -> i_with (IThen i i') (IThen j j')
| iw_when x y i j : K x y -> i_with i j -> i_with (IWhen x i) (IWhen y j)
| iw_or i j i' j' : i_with i j -> i_with i' j' -> i_with (IOr i i') (IOr j j').
Definition foot_with (f g : foot) : Prop :=
  match f, g with
  | FootCode x, FootCode y => both K x y
  | VarsCode d l x, VarsCode d' l' y => d = d' /\ l = l' /\ both K x y
  | CodeVars x d l, CodeVars y d' l' => K x y /\ d = d' /\ l = l'
  | _, _ => False
  end.
Definition o_with (o p : osrc) : Prop := both K (ocond o) (ocond p) /\ otok o = otok p /\ both K (ocode o) (ocode p).
Definition p_with (p q : priority) : Prop :=
  match p, q with PZero, PZero => True | PNumber x, PNumber y => x = y | PCode x, PCode y => K x y | _, _ => False end.
Definition s_with (a b : assoc) : Prop :=
  match a, b with Left, Left | Right, Right => True | IsLeft x, IsLeft y | IsRight x, IsRight y => K x y | _, _ => False end.
Definition ops_with (x y : ops_src) : Prop :=
  match x, y with
  | OBin o p a, OBin o' p' a' => o_with o o' /\ p_with p p' /\ s_with a a'
  | OTern o q p a, OTern o' q' p' a' => o_with o o' /\ o_with q q' /\ p_with p p' /\ s_with a a'
  | OPre o p, OPre o' p' => o_with o o' /\ p_with p p'
  | OPost o p a, OPost o' p' a' => o_with o o' /\ p_with p p' /\ both s_with a a'
  | OParen o q, OParen o' q' => o_with o o' /\ o_with q q'
  | _, _ => False
  end.
Definition rule_with (r r' : rule_src) : Prop :=
  match r, r' with
  | RRule i x f, RRule j y g => i_with i j /\ x = y /\ foot_with f g
  | ROperators b u l x f, ROperators b' u' l' y g => b = b' /\ both K u u' /\ Forall2 ops_with l l' /\ x = y /\ foot_with f g
  | _, _ => False
  end.
Definition l_with (s s' : lsrc) : Prop :=
  match s, s' with
  | LDefine x n, LDefine x' n' => x = x' /\ n = n'
  | LRule x o a, LRule x' o' a' => x = x' /\ both K o o' /\ a = a'
  | LLook x y o a, LLook x' y' o' a' | LBar x y o a, LBar x' y' o' a' => x = x' /\ y = y' /\ both K o o' /\ a = a'
  | LFail v, LFail v' | LEnter v, LEnter v' | LLeave v, LLeave v' => K v v'
  | _, _ => False
  end.
Definition d_with (d d' : dsrc) : Prop :=
  match d, d' with
  | DMember l m v, DMember l' m' v' => l = l' /\ m = m' /\ K v v'
  | DBits l v, DBits l' v' => l = l' /\ K v v'
  | DNamespace v, DNamespace v' | DAst v, DAst v' => K v v'
  | DLexer e l, DLexer e' l' => e = e' /\ Forall2 l_with l l'
  | DTokens _ _, DTokens _ _ | DType _ _, DType _ _ | DStream _, DStream _ | DSet _ _, DSet _ _ | DBase _ _, DBase _ _ => d = d'
  | _, _ => False
  end.
Definition file_with (f g : file) : Prop :=
  both K (head_ f) (head_ g) /\ Forall2 d_with (all_decls f) (all_decls g) /\ Forall2 rule_with (rules_ f) (rules_ g) /\ both K (tail_ f) (tail_ g).
End K.
