(** The alphabetical order of names. *)
From Coq Require Import List NArith Ascii.
From Verif Require Import FlexModel.
Import ListNotations.

Inductive before : text -> text -> Prop :=
| before_end a x : before [] (a :: x)
| before_head a b x y : (N_of_ascii a < N_of_ascii b)%N -> before (a :: x) (b :: y)
| before_tail a x y : before x y -> before (a :: x) (a :: y).

(** [l] lists the elements of P, each once. *)
Definition lists (l : list text) (P : text -> Prop) : Prop :=
  NoDup l /\ forall m, In m l <-> P m.
