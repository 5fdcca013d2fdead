(** What is asked of a grammar file so that the text written from it is C++. *)
From Coq Require Import List Ascii Bool.
From Verif Require Import FlexModel GramModel GramSpec LangSpec.
Import ListNotations.

Section F.
Variable f : file.
(** Every symbol that is mentioned has a rule. *)
Definition symbols_defined : Prop := forall x, In x (flat_map rule_symbols (rules_ f)) -> exists r, In r (rules_ f) /\ rule_name r = x.
(** Every rule with operators has one that comes after an operand, and there are no ternary
    ones. *)
Definition comes_after (o : ops_src) : Prop := match o with OBin _ _ _ | OPost _ _ _ => True | _ => False end.
Definition ternary (o : ops_src) : Prop := match o with OTern _ _ _ _ => True | _ => False end.
Definition operators_infix : Prop := forall b args l x ft, In (ROperators b args l x ft) (rules_ f) -> (exists o, In o l /\ comes_after o) /\ forall o, In o l -> ~ ternary o.
(** No symbol is inlined in itself, directly or through others. *)
Definition inlined_in (y x : text) : Prop := exists i ft, In (RRule i x ft) (rules_ f) /\ In (IInlined y) (parts i).
Definition inlining_ends : Prop := well_founded inlined_in.
End F.
