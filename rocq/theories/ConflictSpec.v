(** Conflicts as facts about derivations. *)
From Coq Require Import List.
From Verif Require Import GrammarModel GrammarSpec.
Import ListNotations.

Section S.
Variable g : grammar.
(** [part e n]: [n] is a part of rule [e]; the operands of an operator
    expression are named by symbols and have their own rules. *)
Inductive part (e : id) : id -> Prop :=
| p_self : part e e
| p_child n m : part e n -> child g n m -> (forall b ops x, kind g n <> NOper b ops x) -> part e m.
(** Both can begin with the same token. *)
Definition same_begin (a b : id) : Prop := exists x u v, derives g a (x :: u) /\ derives g b (x :: v).
(** A token that can begin [n] can also come after it ([next] is the end of
    the input where nothing comes). *)
Definition begin_after (n : id) : Prop := exists x u w, derives g n (x :: u) /\ occurs g n w /\ next g w = x.
(** Nothing, whatever it is wrapped in. *)
Inductive nothing : id -> Prop :=
| no_zero n : kind g n = NZero -> nothing n
| no_act n i : kind g n = NAct (Some i) -> nothing i -> nothing n
| no_cond n i : kind g n = NCond i -> nothing i -> nothing n
| no_ann n i : kind g n = NAnn i -> nothing i -> nothing n
| no_plus n i c a : kind g n = NPlus i c a -> nothing i -> nothing n
| no_star n i c a : kind g n = NStar i c a -> nothing i -> nothing n.
(** Where a FIRST/FOLLOW conflict is looked for. *)
Definition looked_at (n : id) : Prop :=
  match kind g n with
  | NStar _ _ _ => True
  | NPlus _ _ _ | NCons _ _ => derives g n []
  | NAlt _ r => derives g n [] /\ ~ nothing r
  | _ => False
  end.
(** Code and nothing else, whatever it is wrapped in. *)
Inductive only_code : id -> Prop :=
| oc_code n : kind g n = NAct None -> only_code n
| oc_act n i : kind g n = NAct (Some i) -> only_code i -> only_code n
| oc_cond n i : kind g n = NCond i -> only_code i -> only_code n
| oc_ann n i : kind g n = NAnn i -> only_code i -> only_code n
| oc_plus n i c a : kind g n = NPlus i c a -> only_code i -> only_code n
| oc_star n i c a : kind g n = NStar i c a -> only_code i -> only_code n.
End S.
