(** What the right side of a rule says apart from its code, and when it can be shown without
    it.  Independent of nodes and of printing. *)
From Coq Require Import List Ascii String Bool.
From Verif Require Import FlexModel GramModel GramSpec.
Import ListNotations.

(** On the way through a right side: tokens and symbols, with the variable they are stored in
    if there is one; and where attempts begin and end. *)
Inductive mark :=
| Met (stored_in : option (bool * bool * text)) (token : bool) (x : text)
| Recovering | Trying | Catching | Done.
Definition met (v : option (bool * bool * text)) (a : GramSpec.atom) : mark :=
  match a with ATok x => Met v true x | ASym x _ => Met v false x end.
(** [walks i p]: [p] is a way through [i]. *)
Inductive walks : isrc -> list mark -> Prop :=
| wk_empty : walks IEmpty []
| wk_atom a : walks (IAtom a) [met None a]
| wk_inlined x : walks (IInlined x) [Met None false x]
| wk_bind s m x a : walks (IBind s m x a) [met (Some (s, m, x)) a]
| wk_par i p : walks i p -> walks (IPar i) p
| wk_recover i p : walks i p -> walks (IRecover i) (Recovering :: p ++ [Done])
| wk_try i j p : walks i p -> walks (IRollback i j) (Trying :: p ++ [Done])
| wk_catch i j p : walks j p -> walks (IRollback i j) (Catching :: p ++ [Done])
| wk_many1 i p : walks i p -> walks (IMany i) p
| wk_many i p q : walks i p -> walks (IMany i) q -> walks (IMany i) (p ++ q)
| wk_any0 i : walks (IAnyMany i) []
| wk_any i p q : walks i p -> walks (IAnyMany i) q -> walks (IAnyMany i) (p ++ q)
| wk_maybe0 i : walks (IMaybe i) []
| wk_maybe i p : walks i p -> walks (IMaybe i) p
| wk_list1 i j p : walks i p -> walks (IListOf i j) p
| wk_list i j p q r : walks i p -> walks j q -> walks (IListOf i j) r -> walks (IListOf i j) (p ++ q ++ r)
| wk_with i x p : walks i p -> walks (IWithCode i x) p
| wk_only x : walks (IOnlyCode x) []
| wk_then i j p q : walks i p -> walks j q -> walks (IThen i j) (p ++ q)
| wk_when x i p : walks i p -> walks (IWhen x i) p
| wk_left i j p : walks i p -> walks (IOr i j) p
| wk_right i j p : walks j p -> walks (IOr i j) p.
Definition same_walks (i j : isrc) : Prop := forall p, walks i p <-> walks j p.

(** Nothing is left when the code is taken away. *)
Fixpoint silent (i : isrc) : bool :=
  match i with
  | IOnlyCode _ => true
  | IPar j | IWithCode j _ | IWhen _ j => silent j
  | IThen j l => silent j && silent l
  | _ => false
  end.
(** Where something has to be written there is something besides code. *)
Fixpoint spoken (i : isrc) : bool :=
  match i with
  | IEmpty | IAtom _ | IInlined _ | IBind _ _ _ _ | IOnlyCode _ => true
  | IPar j | IWithCode j _ | IWhen _ j => spoken j
  | IMany j | IAnyMany j | IMaybe j | IRecover j => negb (silent j) && spoken j
  | IRollback j l | IOr j l => negb (silent j) && spoken j && (negb (silent l) && spoken l)
  | IThen j l => spoken j && spoken l
  | IListOf j l => negb (silent j && silent l) && spoken j && spoken l
  end.
Definition spoken_rule (r : rule_src) : Prop :=
  match r with RRule i _ _ => silent i = false /\ spoken i = true | ROperators _ _ _ _ _ => False end.
