(** What items mean and when they are copies of each other. *)
From Coq Require Import List PeanoNat Bool.
From Verif Require Import CloneModel.
Import ListNotations.

(** The words of an item, given those of symbols and of operator items. *)
Inductive star (P : list nat -> Prop) : list nat -> Prop :=
| star_nil : star P []
| star_app a b : P a -> star P b -> star P (a ++ b).
Section W.
Variable sym oper : nat -> list nat -> Prop.
Fixpoint words (i : item) : list nat -> Prop :=
  match i with
  | IZero _ => fun w => w = []
  | ISym a => sym a
  | ITerm a => fun w => w = [a]
  | INon _ s _ | IInl _ s => sym s
  | IPlus _ j => fun w => exists a b, w = a ++ b /\ words j a /\ star (words j) b
  | IStar _ j => star (words j)
  | IAct _ None _ => fun w => w = []
  | IAct _ (Some j) _ => words j
  | IAlt _ l r => fun w => words l w \/ words r w
  | ICons _ l r => fun w => exists a b, w = a ++ b /\ words l a /\ words r b
  | IEvolve _ j _ _ _ => words j
  | ITry _ t None => words t
  | ITry _ t (Some c) => fun w => words t w \/ words c w
  | IAnn _ j _ => words j
  | ICond _ j _ => words j
  | IOper a => oper a
  end.
End W.
(** The addresses of the nodes that belong to one place of one rule: all but the
    shared tokens, symbols, the zero item and operator items. *)
Fixpoint own (i : item) : list nat :=
  match i with
  | IZero _ | ISym _ | ITerm _ | IOper _ => []
  | INon a _ _ | IInl a _ => [a]
  | IPlus a j | IStar a j | IEvolve a j _ _ _ | IAnn a j _ | ICond a j _ => a :: own j
  | IAct a None _ => [a]
  | IAct a (Some j) _ => a :: own j
  | IAlt a l r | ICons a l r => a :: own l ++ own r
  | ITry a t None => a :: own t
  | ITry a t (Some c) => a :: own t ++ own c
  end.
(** No code without an item. *)
Fixpoint no_bare_code (i : item) : bool :=
  match i with
  | IZero _ | ISym _ | ITerm _ | IOper _ | INon _ _ _ | IInl _ _ => true
  | IPlus _ j | IStar _ j | IEvolve _ j _ _ _ | IAnn _ j _ | ICond _ j _ => no_bare_code j
  | IAct _ None _ => false
  | IAct _ (Some j) _ => no_bare_code j
  | IAlt _ l r | ICons _ l r => no_bare_code l && no_bare_code r
  | ITry _ t None => no_bare_code t
  | ITry _ t (Some c) => no_bare_code t && no_bare_code c
  end.
(** Equal but for the addresses of own nodes. *)
Inductive copy : item -> item -> Prop :=
| cp_zero a : copy (IZero a) (IZero a)
| cp_sym a : copy (ISym a) (ISym a)
| cp_term a : copy (ITerm a) (ITerm a)
| cp_non a b s args : copy (INon a s args) (INon b s args)
| cp_inl a b s : copy (IInl a s) (IInl b s)
| cp_plus a b i j : copy i j -> copy (IPlus a i) (IPlus b j)
| cp_star a b i j : copy i j -> copy (IStar a i) (IStar b j)
| cp_act0 a b code : copy (IAct a None code) (IAct b None code)
| cp_act a b i j code : copy i j -> copy (IAct a (Some i) code) (IAct b (Some j) code)
| cp_alt a b l l' r r' : copy l l' -> copy r r' -> copy (IAlt a l r) (IAlt b l' r')
| cp_cons a b l l' r r' : copy l l' -> copy r r' -> copy (ICons a l r) (ICons b l' r')
| cp_evolve a b i j s decls code : copy i j -> copy (IEvolve a i s decls code) (IEvolve b j s decls code)
| cp_try0 a b t t' : copy t t' -> copy (ITry a t None) (ITry b t' None)
| cp_try a b t t' c c' : copy t t' -> copy c c' -> copy (ITry a t (Some c)) (ITry b t' (Some c'))
| cp_ann a b i j decl : copy i j -> copy (IAnn a i decl) (IAnn b j decl)
| cp_cond a b i j code : copy i j -> copy (ICond a i code) (ICond b j code)
| cp_oper a : copy (IOper a) (IOper a).
Fixpoint no_condition (i : item) : bool :=
  match i with
  | IZero _ | ISym _ | ITerm _ | IOper _ | INon _ _ _ | IInl _ _ | IAct _ None _ => true
  | IPlus _ j | IStar _ j | IEvolve _ j _ _ _ | IAnn _ j _ | IAct _ (Some j) _ | ITry _ j None => no_condition j
  | ICond _ _ _ => false
  | IAlt _ l r | ICons _ l r | ITry _ l (Some r) => no_condition l && no_condition r
  end.
