(** Lines of a text, and what a user of a line iterator expects: for C121. *)
From Coq Require Import List.
From Verif Require Import Base LookModel.
Import ListNotations.

(** The lines of a text that ends its lines with line feeds, or with carriage
    returns and line feeds; the end of the last one may be missing. *)
Inductive lines : list nat -> list (list nat) -> Prop :=
| lines_none : lines [] []
| lines_last l : l <> [] -> ~ In 10 l -> lines l [l]
| lines_lf l t ls : ~ In 10 l -> (forall m, l <> m ++ [13]) -> lines t ls -> lines (l ++ 10 :: t) (l :: ls)
| lines_crlf l t ls : ~ In 10 l -> lines t ls -> lines (l ++ 13 :: 10 :: t) (l :: ls).

(** Lines yet to come; [ahead] of them have been looked at since the last
    reset.  A line is asked for only when nothing is looked at. *)
Definition line_at (ls : list (list nat)) (k : nat) : list nat := nth k ls [].
Inductive expected (ls : list (list nat)) : nat -> nat -> list call -> list answer -> Prop :=
| ex_end k ahead : expected ls k ahead [] []
| ex_next k cs a : expected ls (S k) 0 cs a -> expected ls k 0 (Next :: cs) (Line (line_at ls k) :: a)
| ex_peek k ahead cs a : expected ls k (S ahead) cs a -> expected ls k ahead (Peek :: cs) (Peeked (line_at ls (k + ahead)) :: a)
| ex_reset k ahead cs a : expected ls k 0 cs a -> expected ls k ahead (Unpeek :: cs) (Gone :: a)
| ex_more k ahead cs a b : (b = true <-> k + ahead < length ls) -> expected ls k ahead cs a -> expected ls k ahead (More :: cs) (Has b :: a).
(** The calls keep to that. *)
Fixpoint polite (looking : bool) (cs : list call) : Prop :=
  match cs with
  | [] => True
  | Next :: cs => looking = false /\ polite false cs
  | Peek :: cs => polite true cs
  | Unpeek :: cs => polite false cs
  | More :: cs => polite looking cs
  end.
