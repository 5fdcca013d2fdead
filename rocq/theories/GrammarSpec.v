(** What a grammar means, independently of how the generator looks at it. *)
From Coq Require Import List Bool PeanoNat.
From Verif Require Import GrammarModel.
Import ListNotations.

Section S.
Variable g : grammar.
Notation kind := (kind g).

(** [derives n w]: node [n] describes the word [w] of terminals.  Conditions,
    annotations and code do not restrict the words; both branches of
    try/rollback count. *)
Inductive derives : id -> list id -> Prop :=
| d_zero n : kind n = NZero -> derives n []
| d_term n : kind n = NTerm -> derives n [n]
| d_sym s e i w : kind s = NSym -> In e (grules g) -> kind e = NEvolve i s -> derives i w -> derives s w
| d_evolve e i s w : kind e = NEvolve i s -> derives i w -> derives e w
| d_non n s w : kind n = NNon s -> derives s w -> derives n w
| d_inl n s w : kind n = NInl s -> derives s w -> derives n w
| d_plus1 n i c a w : kind n = NPlus i c a -> derives i w -> derives n w
| d_plus n i c a u w : kind n = NPlus i c a -> derives i u -> derives n w -> derives n (u ++ w)
| d_star0 n i c a : kind n = NStar i c a -> derives n []
| d_star n i c a u w : kind n = NStar i c a -> derives i u -> derives n w -> derives n (u ++ w)
| d_act0 n : kind n = NAct None -> derives n []
| d_act n i w : kind n = NAct (Some i) -> derives i w -> derives n w
| d_altl n l r w : kind n = NAlt l r -> derives l w -> derives n w
| d_altr n l r w : kind n = NAlt l r -> derives r w -> derives n w
| d_cons n l r u w : kind n = NCons l r -> derives l u -> derives r w -> derives n (u ++ w)
| d_try n t c w : kind n = NTry t c -> derives t w -> derives n w
| d_catch n t c w : kind n = NTry t (Some c) -> derives c w -> derives n w
| d_ann n i w : kind n = NAnn i -> derives i w -> derives n w
| d_cond n i w : kind n = NCond i -> derives i w -> derives n w
| d_base n b ops x w : kind n = NOper b ops x -> derives b w -> derives n w
| d_pre n b ops x t w : kind n = NOper b ops x -> In (OPre t) ops -> derives n w -> derives n (t :: w)
| d_post n b ops x t w : kind n = NOper b ops x -> In (OPost t) ops -> derives n w -> derives n (w ++ [t])
| d_bin n b ops x t u w : kind n = NOper b ops x -> In (OBin t) ops -> derives n u -> derives n w -> derives n (u ++ t :: w)
| d_tern n b ops x s t u v w : kind n = NOper b ops x -> In (OTern s t) ops ->
    derives n u -> derives n v -> derives n w -> derives n (u ++ s :: v ++ t :: w)
| d_paren n b ops x s t w : kind n = NOper b ops x -> In (OParen s t) ops -> derives n w -> derives n (s :: w ++ [t]).

(** [occurs n w]: in some derivation from a start symbol, [n] is met and [w]
    is what comes after its part of the input.  (An operator is met again
    through the nodes of its grammar.) *)
Inductive occurs : id -> list id -> Prop :=
| o_start e i s : In e (grules g) -> kind e = NEvolve i s -> In s (gstart g) -> occurs s []
| o_rule s e i w : occurs s w -> kind s = NSym -> In e (grules g) -> kind e = NEvolve i s -> occurs e w
| o_evolve e i s w : occurs e w -> kind e = NEvolve i s -> occurs i w
| o_non n s w : occurs n w -> kind n = NNon s -> occurs s w
| o_inl n s w : occurs n w -> kind n = NInl s -> occurs s w
| o_plus n i c a w : occurs n w -> kind n = NPlus i c a -> occurs i w
| o_plus2 n i c a u w : occurs n w -> kind n = NPlus i c a -> derives n u -> occurs i (u ++ w)
| o_star n i c a u w : occurs n w -> kind n = NStar i c a -> derives n u -> occurs i (u ++ w)
| o_act n i w : occurs n w -> kind n = NAct (Some i) -> occurs i w
| o_altl n l r w : occurs n w -> kind n = NAlt l r -> occurs l w
| o_altr n l r w : occurs n w -> kind n = NAlt l r -> occurs r w
| o_consl n l r u w : occurs n w -> kind n = NCons l r -> derives r u -> occurs l (u ++ w)
| o_consr n l r w : occurs n w -> kind n = NCons l r -> occurs r w
| o_try n t c w : occurs n w -> kind n = NTry t c -> occurs t w
| o_catch n t c w : occurs n w -> kind n = NTry t (Some c) -> occurs c w
| o_ann n i w : occurs n w -> kind n = NAnn i -> occurs i w
| o_cond n i w : occurs n w -> kind n = NCond i -> occurs i w
| o_base n b ops x w : kind n = NOper b ops x -> occurs_op n b ops w -> occurs b w
(** An operand of operator [n] inside the operator: followed by [w]. *)
with occurs_op : id -> id -> list op -> list id -> Prop :=
| oo_top n b ops x w : occurs n w -> kind n = NOper b ops x -> occurs_op n b ops w
| oo_post n b ops t w : occurs_op n b ops w -> In (OPost t) ops -> occurs_op n b ops (t :: w)
| oo_bin n b ops t u w : occurs_op n b ops w -> In (OBin t) ops -> derives n u -> occurs_op n b ops (t :: u ++ w)
| oo_tern1 n b ops s t u v w : occurs_op n b ops w -> In (OTern s t) ops -> derives n u -> derives n v ->
    occurs_op n b ops (s :: u ++ t :: v ++ w)
| oo_tern2 n b ops s t u w : occurs_op n b ops w -> In (OTern s t) ops -> derives n u -> occurs_op n b ops (t :: u ++ w)
| oo_paren n b ops s t w : occurs_op n b ops w -> In (OParen s t) ops -> occurs_op n b ops (t :: w).

(** [written n]: [n] is a rule or one of the items written in it. *)
Definition child (n m : id) : Prop :=
  match kind n with
  | NPlus i _ _ | NStar i _ _ | NAct (Some i) | NAnn i | NCond i | NEvolve i _ | NTry i None | NOper i _ _ => m = i
  | NAlt l r | NCons l r | NTry l (Some r) => m = l \/ m = r
  | _ => False
  end.
Inductive written : id -> Prop :=
| w_rule e : In e (grules g) -> written e
| w_child n m : written n -> child n m -> written m.
(** An item: anything but a rule as a whole. *)
Definition item (n : id) : Prop := (kind n = NSym \/ written n) /\ forall i s, kind n <> NEvolve i s.
(** What can come next, or the end of the input. *)
Definition next (w : list id) : id := match w with [] => geof g | x :: _ => x end.

(** ** The shape of the grammar in memory: what the parser and BnfVisitor build *)
Definition inside (n : id) : bool := Nat.ltb n (gregular g).
Definition outside (n : id) : bool := Nat.leb (gregular g) n && Nat.ltb n (size g).
Definition is_sym (n : id) : bool := inside n && match kind n with NSym => true | _ => false end.
Definition is_tok (n : id) : bool := inside n && is_term g n.
Definition is_cons (n l r : id) : bool := match kind n with NCons l' r' => Nat.eqb l l' && Nat.eqb r r' | _ => false end.
Definition is_alt (n l r : id) : bool := match kind n with NAlt l' r' => Nat.eqb l l' && Nat.eqb r r' | _ => false end.
Definition after (n m : id) : bool := Nat.ltb n m && outside m.
(** [n] spells operator [o] with operands [top] (bnf-visitor.cpp 156-230).
    The numbers of these nodes rise along the way, which is only a choice of
    names and says that no node is used twice. *)
Definition spells (top n : id) (o : op) : bool :=
  match o with
  | OPre t => is_tok t && is_cons n t top
  | OPost t => is_tok t && is_cons n top t
  | OBin t => is_tok t && match kind n with NCons l r => Nat.eqb l top && after n r && is_cons r t top | _ => false end
  | OTern s t => is_tok s && is_tok t &&
    match kind n with
    | NCons l r => Nat.eqb l top && after n r &&
      match kind r with
      | NCons l r => Nat.eqb l s && outside r &&
        match kind r with
        | NCons l r => Nat.eqb l top && outside r && is_cons r t top
        | _ => false end
      | _ => false end
    | _ => false end
  | OParen s t => is_tok s && is_tok t &&
    match kind n with NCons l r => Nat.eqb l s && after n r && is_cons r top t | _ => false end
  end.
Definition right_of (n : id) : id := match kind n with NCons _ r => r | _ => n end.
Fixpoint chain (top n b : id) (ops : list op) : bool :=
  match ops with
  | [] => Nat.eqb n b
  | o :: ops => outside n &&
    match kind n with
    | NAlt l r => after n l && (inside r || (Nat.ltb l r && Nat.ltb (right_of l) r)) && spells top l o && chain top r b ops
    | _ => false end
  end.
(** What can stand in a rule: not a rule or a symbol (NonTerminalItems refer to
    those), and declared tokens only. *)
Definition is_item (n : id) : bool :=
  match kind n with NEvolve _ _ | NSym | NOther => false | NTerm => mem n (gterms g) | _ => true end.
Definition below (m n : id) : bool := Nat.ltb m n && is_item m.
Definition shape (n : id) : bool :=
  if inside n then
    match kind n with
    | NZero => Nat.eqb n (gzero g)
    | NTerm => mem n (gterms g)
    | NSym | NOther => true
    | NNon s | NInl s => is_sym s
    | NPlus i c a | NStar i c a => below i n && outside c && outside a && is_cons c i a && is_alt a (gzero g) c
    | NAct None => true
    | NAct (Some i) | NAnn i | NCond i | NTry i None => below i n
    | NAlt l r | NCons l r | NTry l (Some r) => below l n && below r n
    | NEvolve i s => below i n && is_sym s
    | NOper b ops x => below b n && chain x x b ops
    end
  else
    match kind n with
    | NAlt l r | NCons l r => below l (size g) && below r (size g)
    | NTerm => Nat.eqb n (geof g)
    | _ => false
    end.
(** Rule bodies are trees (the numbering of the nodes is any that puts children
    before their parents), symbols are shared, tokens are declared. *)
Definition well_formed : bool :=
  Nat.leb (gregular g) (size g) &&
  inside (gzero g) && is_zero g (gzero g) &&
  Nat.ltb (geof g) (size g) && is_term g (geof g) &&
  forallb (fun t => Nat.ltb t (size g) && is_term g t) (gterms g) &&
  forallb (fun e => inside e && match kind e with NEvolve _ _ => true | _ => false end) (grules g) &&
  forallb shape (seq 0 (size g)).

(** ** Conditions under which the sets are right *)
(** [bare n]: nothing but code blocks. *)
Inductive bare : id -> Prop :=
| b_act0 n : kind n = NAct None -> bare n
| b_act n i : kind n = NAct (Some i) -> bare i -> bare n
| b_cons n l r : kind n = NCons l r -> bare l -> bare r -> bare n
| b_plus n i c a : kind n = NPlus i c a -> bare i -> bare n
| b_ann n i : kind n = NAnn i -> bare i -> bare n
| b_cond n i : kind n = NCond i -> bare i -> bare n
| b_try n t : kind n = NTry t None -> bare t -> bare n.
(** No rule and no branch consists of code blocks only. *)
Definition code_has_company : Prop :=
  (forall e i s, In e (grules g) -> kind e = NEvolve i s -> ~ bare i) /\
  (forall n l r, kind n = NAlt l r \/ kind n = NTry l (Some r) -> inside n = true -> ~ bare l /\ ~ bare r).
(** The operand of an operator expression is not empty. *)
Definition operands_not_empty : Prop := forall n b ops x, kind n = NOper b ops x -> ~ derives b [].

(** [heads n x]: [x] can be the first thing looked at in [n]. *)
Inductive heads : id -> id -> Prop :=
| h_self n : heads n n
| h_non n s x : kind n = NNon s \/ kind n = NInl s -> heads s x -> heads n x
| h_plus n i c a x : kind n = NPlus i c a -> heads i x -> heads n x
| h_act n i x : kind n = NAct (Some i) -> heads i x -> heads n x
| h_altl n l r x : kind n = NAlt l r -> heads l x -> heads n x
| h_altr n l r x : kind n = NAlt l r -> heads r x -> heads n x
| h_consl n l r x : kind n = NCons l r -> heads l x -> heads n x
| h_consr n l r x : kind n = NCons l r -> derives l [] -> heads r x -> heads n x
| h_try n t c x : kind n = NTry t c -> heads t x -> heads n x
| h_catch n t c x : kind n = NTry t (Some c) -> heads c x -> heads n x
| h_ann n i x : kind n = NAnn i -> heads i x -> heads n x
| h_cond n i x : kind n = NCond i -> heads i x -> heads n x.
Definition op_head (o : op) : id := match o with OPre t | OPost t | OBin t | OTern t _ | OParen t _ => t end.
(** Two branches never begin with the same thing unless it can be empty, nor do
    the two parts of a sequence whose first part can be empty; and the
    operators of an expression use different tokens. *)
Definition heads_apart : Prop :=
  (forall n l r x, inside n = true -> kind n = NAlt l r \/ kind n = NTry l (Some r) -> heads l x -> heads r x -> derives x []) /\
  (forall n l r x, inside n = true -> kind n = NCons l r -> derives l [] -> heads l x -> heads r x -> derives x []) /\
  (forall n b ops x, kind n = NOper b ops x -> NoDup (map op_head ops) /\ (forall t, In t (map op_head ops) -> ~ heads b t)).
(** Everything describes some word. *)
Definition productive : Prop := forall n, n < size g -> kind n <> NOther -> exists w, derives n w.
End S.
