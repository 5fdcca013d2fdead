(** Cyclic inlining. *)
From Coq Require Import List NArith Relations.
From Verif Require Import ItemModel.
Import ListNotations.

(** The inlined non-terminals in an item. *)
Inductive inlined : nat -> item -> Prop :=
| in_here n : inlined n (IInl n)
| in_plus n i : inlined n i -> inlined n (IPlus i)
| in_star n i : inlined n i -> inlined n (IStar i)
| in_act n i : inlined n i -> inlined n (IAct i)
| in_cond n i : inlined n i -> inlined n (ICond i)
| in_try n i : inlined n i -> inlined n (ITry i)
| in_alt_l n l r : inlined n l -> inlined n (IAlt l r)
| in_alt_r n l r : inlined n r -> inlined n (IAlt l r)
| in_cons_l n l r : inlined n l -> inlined n (ICons l r)
| in_cons_r n l r : inlined n r -> inlined n (ICons l r)
| in_roll_l n l r : inlined n l -> inlined n (IRollback l r)
| in_roll_r n l r : inlined n r -> inlined n (IRollback l r).

(** The rule of a symbol: the first one in the list. *)
Inductive first_rule (s : text) : list rule -> rule -> Prop :=
| fr_here r l : rsym r = s -> first_rule s (r :: l) r
| fr_there q l r : rsym q <> s -> first_rule s l r -> first_rule s (q :: l) r.

(** Symbol s inlines symbol t. *)
Definition inlines (g : grammar) (s t : text) : Prop :=
  exists r n, first_rule s (rules g) r /\ inlined n (ritem r) /\ target g n = Some t.
Definition cyclic (g : grammar) : Prop := exists s, clos_trans text (inlines g) s s.
(** Some rule inlines a symbol defined by an operator rule. *)
Definition inlines_operator (g : grammar) : Prop :=
  exists q n s r b, In q (rules g) /\ inlined n (ritem q) /\ target g n = Some s /\ first_rule s (rules g) r /\ ritem r = IOper b.
