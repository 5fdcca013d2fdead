(** What a linker wants of a class: for C124. *)
From Coq Require Import List NArith.
From Verif Require Import AstModel.
Import ListNotations.

(** Everything declared is defined once, and nothing else is defined. *)
Definition complete_class (decls defs : list (text * text)) : Prop :=
  NoDup decls /\ NoDup defs /\ forall f, In f decls <-> In f defs.
(** Different symbols have different class names; and no class is called like
    one of the four that belong to an operator symbol. *)
Definition names_apart (l : list symbol) : Prop :=
  NoDup (map (fun s => capitalized (sname s)) l) /\
  forall s o, In s l -> In o l -> soper o = true ->
    ~ In (capitalized (sname s)) (map (fun p => p ++ capitalized (sname o)) [t_prefix; t_postfix; t_binary; t_ternary]).
