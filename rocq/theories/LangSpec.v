(** The language that a grammar file describes, in terms of what its author writes
    (GramSpec).  Independent of nodes, sets and parsers. *)
From Coq Require Import List Ascii String Bool Relations.
From Verif Require Import FlexModel GramModel GramSpec.
Import ListNotations.
Open Scope list_scope.

Section F.
Variable f : file.

(** [says i w]: what is written as [i] describes the tokens [w].  Conditions, bindings and
    code do not restrict them. *)
Inductive says : isrc -> list text -> Prop :=
| y_empty : says IEmpty []
| y_tok x : says (IAtom (ATok x)) [x]
| y_sym x args w : sentence x w -> says (IAtom (ASym x args)) w
| y_inlined x w : sentence x w -> says (IInlined x) w
| y_bind s m x a w : says (IAtom a) w -> says (IBind s m x a) w
| y_par i w : says i w -> says (IPar i) w
| y_recover i w : says i w -> says (IRecover i) w
| y_try i j w : says i w -> says (IRollback i j) w
| y_catch i j w : says j w -> says (IRollback i j) w
| y_many1 i w : says i w -> says (IMany i) w
| y_many i u w : says i u -> says (IMany i) w -> says (IMany i) (u ++ w)
| y_any0 i : says (IAnyMany i) []
| y_any i u w : says i u -> says (IAnyMany i) w -> says (IAnyMany i) (u ++ w)
| y_maybe0 i : says (IMaybe i) []
| y_maybe i w : says i w -> says (IMaybe i) w
| y_list1 i j w : says i w -> says (IListOf i j) w
| y_list i j u v w : says i u -> says j v -> says (IListOf i j) w -> says (IListOf i j) (u ++ v ++ w)
| y_with i x w : says i w -> says (IWithCode i x) w
| y_only x : says (IOnlyCode x) []
| y_then i j u w : says i u -> says j w -> says (IThen i j) (u ++ w)
| y_when x i w : says i w -> says (IWhen x i) w
| y_left i j w : says i w -> says (IOr i j) w
| y_right i j w : says j w -> says (IOr i j) w
(** A symbol: any of its rules. *)
with sentence : text -> list text -> Prop :=
| y_rule i x ft w : In (RRule i x ft) (rules_ f) -> says i w -> sentence x w
| y_expr b args l x ft w : In (ROperators b args l x ft) (rules_ f) -> expression b l w -> sentence x w
(** Operators [l] over [b]. *)
with expression : text -> list ops_src -> list text -> Prop :=
| y_base b l w : sentence b w -> expression b l w
| y_pre b l o p w : In (OPre o p) l -> expression b l w -> expression b l (otok o :: w)
| y_post b l o p a w : In (OPost o p a) l -> expression b l w -> expression b l (w ++ [otok o])
| y_bin b l o p a u w : In (OBin o p a) l -> expression b l u -> expression b l w -> expression b l (u ++ otok o :: w)
| y_tern b l o q p a u v w : In (OTern o q p a) l -> expression b l u -> expression b l v -> expression b l w ->
    expression b l (u ++ otok o :: v ++ otok q :: w)
| y_paren b l o q w : In (OParen o q) l -> expression b l w -> expression b l (otok o :: w ++ [otok q]).

(** ** What a file has to respect *)
Definition atom_tokens (a : atom) : list text := match a with ATok x => [x] | ASym _ _ => [] end.
Fixpoint tokens_of (i : isrc) : list text :=
  match i with
  | IEmpty | IOnlyCode _ | IInlined _ => []
  | IAtom a | IBind _ _ _ a => atom_tokens a
  | IPar j | IRecover j | IMany j | IAnyMany j | IMaybe j | IWithCode j _ | IWhen _ j => tokens_of j
  | IRollback j l | IListOf j l | IThen j l | IOr j l => tokens_of j ++ tokens_of l
  end.
Definition operator_tokens (o : ops_src) : list text :=
  match o with
  | OBin o _ _ | OPre o _ | OPost o _ _ => [otok o]
  | OTern o q _ _ | OParen o q => [otok o; otok q]
  end.
Definition rule_tokens (r : rule_src) : list text :=
  match r with RRule i _ _ => tokens_of i | ROperators _ _ l _ _ => flat_map operator_tokens l end.
(** Every token used in a rule is declared. *)
Definition tokens_declared : Prop := forall r x, In r (rules_ f) -> In x (rule_tokens r) -> In x (map fst (file_tokens f)).

(** An item and the items written inside. *)
Fixpoint parts (i : isrc) : list isrc :=
  i :: match i with
       | IPar j | IRecover j | IMany j | IAnyMany j | IMaybe j | IWithCode j _ | IWhen _ j => parts j
       | IRollback j l | IListOf j l | IThen j l | IOr j l => parts j ++ parts l
       | _ => []
       end.
Definition in_file (j : isrc) : Prop := exists i x ft, In (RRule i x ft) (rules_ f) /\ In j (parts i).
Definition rule_name (r : rule_src) : text := match r with RRule _ x _ | ROperators _ _ _ x _ => x end.

(** No try/recover. *)
Definition nothing_recovers : Prop := forall j, ~ in_file (IRecover j).
(** What is inlined can be empty, and is not a rule with operators. *)
Definition inlined_optional : Prop := forall x, in_file (IInlined x) -> sentence x [].
Definition operators_not_inlined : Prop := forall b args l x ft, In (ROperators b args l x ft) (rules_ f) -> ~ in_file (IInlined x).
(** A rule with operators is the only one of its symbol. *)
Definition operators_only : Prop := forall r b args l x ft, In (ROperators b args l x ft) (rules_ f) -> In r (rules_ f) -> rule_name r = x -> r = ROperators b args l x ft.
(** The token for the end of the text is not used for anything else. *)
Definition end_kept : Prop := ~ In (chars "EOF") (map fst (file_tokens f)).
(** Nothing but code. *)
Fixpoint only_code (i : isrc) : bool :=
  match i with
  | IOnlyCode _ => true
  | IPar j | IWithCode j _ | IMany j | IWhen _ j | IRecover j => only_code j
  | IThen j l => only_code j && only_code l
  | _ => false
  end.
Definition code_accompanied : Prop :=
  (forall i x ft, In (RRule i x ft) (rules_ f) -> only_code i = false) /\
  (forall i j, in_file (IOr i j) \/ in_file (IRollback i j) -> only_code i = false /\ only_code j = false) /\
  (forall i, in_file (IMaybe i) -> only_code i = false).
(** Where to begin: a symbol with a rule, mentioned nowhere else. *)
Definition begins (x : text) : Prop := count_occ (list_eq_dec ascii_dec) (flat_map rule_symbols (rules_ f)) x = 1 /\ exists r, In r (rules_ f) /\ rule_name r = x.

(** ** Left recursion
    [skippable i]: it is possible to get through [i] with nothing read: it can be empty, or
    it is inlined (and left out), or errors in it are recovered from. *)
Inductive skippable : isrc -> Prop :=
| k_empty : skippable IEmpty
| k_sym x args : sym_skippable x -> skippable (IAtom (ASym x args))
| k_inlined x : skippable (IInlined x)
| k_bind s m x a : skippable (IAtom a) -> skippable (IBind s m x a)
| k_par i : skippable i -> skippable (IPar i)
| k_recover i : skippable (IRecover i)
| k_try i j : skippable i -> skippable (IRollback i j)
| k_catch i j : skippable j -> skippable (IRollback i j)
| k_many i : skippable i -> skippable (IMany i)
| k_any i : skippable (IAnyMany i)
| k_maybe i : skippable (IMaybe i)
| k_list i j : skippable i -> skippable (IListOf i j)
| k_with i x : skippable i -> skippable (IWithCode i x)
| k_only x : skippable (IOnlyCode x)
| k_then i j : skippable i -> skippable j -> skippable (IThen i j)
| k_when x i : skippable i -> skippable (IWhen x i)
| k_left i j : skippable i -> skippable (IOr i j)
| k_right i j : skippable j -> skippable (IOr i j)
with sym_skippable : text -> Prop :=
| k_rule i x ft : In (RRule i x ft) (rules_ f) -> skippable i -> sym_skippable x
| k_expr b args l x ft : In (ROperators b args l x ft) (rules_ f) -> sym_skippable b -> sym_skippable x.
(** [leads i y]: symbol [y] is looked at in [i] with nothing read before. *)
Inductive leads : isrc -> text -> Prop :=
| l_sym x args : leads (IAtom (ASym x args)) x
| l_inlined x : leads (IInlined x) x
| l_bind s m x a y : leads (IAtom a) y -> leads (IBind s m x a) y
| l_par i y : leads i y -> leads (IPar i) y
| l_recover i y : leads i y -> leads (IRecover i) y
| l_try i j y : leads i y -> leads (IRollback i j) y
| l_catch i j y : leads j y -> leads (IRollback i j) y
| l_many i y : leads i y -> leads (IMany i) y
| l_any i y : leads i y -> leads (IAnyMany i) y
| l_maybe i y : leads i y -> leads (IMaybe i) y
| l_list1 i j y : leads i y -> leads (IListOf i j) y
| l_list2 i j y : skippable i -> leads j y -> leads (IListOf i j) y
| l_with i x y : leads i y -> leads (IWithCode i x) y
| l_then1 i j y : leads i y -> leads (IThen i j) y
| l_then2 i j y : skippable i -> leads j y -> leads (IThen i j) y
| l_when x i y : leads i y -> leads (IWhen x i) y
| l_left i j y : leads i y -> leads (IOr i j) y
| l_right i j y : leads j y -> leads (IOr i j) y.
Inductive left_symbol : text -> text -> Prop :=
| ls_rule i x ft y : In (RRule i x ft) (rules_ f) -> leads i y -> left_symbol x y
| ls_expr b args l x ft : In (ROperators b args l x ft) (rules_ f) -> left_symbol x b.
(** No symbol leads to itself, and what is repeated reads something. *)
Definition not_left_recursive : Prop :=
  (forall x, ~ clos_trans text left_symbol x x) /\
  (forall i, in_file (IMany i) \/ in_file (IAnyMany i) -> ~ skippable i) /\
  (forall i j, in_file (IListOf i j) -> ~ (skippable i /\ skippable j)).
End F.
