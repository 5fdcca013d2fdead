(** What a character set means: a predicate on characters. *)
From Coq Require Import List NArith Bool Sorting.Sorted.
Import ListNotations.
Local Open Scope N_scope.

(** x lies in one of the half-open ranges. *)
Definition inside (d : list (N * N)) (x : N) : Prop :=
  exists a b, In (a, b) d /\ a <= x < b.

(** Canonical lists: each range non-empty, consecutive ranges separated by at
    least one character, nothing above [sz]. *)
Fixpoint canonical_from (k sz : N) (d : list (N * N)) : Prop :=
  match d with
  | [] => True
  | (a, b) :: r => k <= a /\ a < b /\ b <= sz /\ canonical_from (b + 1) sz r
  end.
Definition canonical (sz : N) (d : list (N * N)) : Prop := canonical_from 0 sz d.

(** Set expressions over one codec and their meaning. *)
Inductive sexp :=
| SRange (b e : N) | SFull | SEmpty
| SUnion (x y : sexp) | SInter (x y : sexp) | SDiff (x y : sexp) | SNeg (x : sexp).
Fixpoint ranges_ok (sz : N) (e : sexp) : Prop :=
  match e with
  | SRange b e => e <= sz
  | SFull | SEmpty => True
  | SUnion x y | SInter x y | SDiff x y => ranges_ok sz x /\ ranges_ok sz y
  | SNeg x => ranges_ok sz x
  end.
Fixpoint denote (e : sexp) (c : N) : bool :=
  match e with
  | SRange b e => (b <=? c) && (c <? e)
  | SFull => true
  | SEmpty => false
  | SUnion x y => denote x c || denote y c
  | SInter x y => denote x c && denote y c
  | SDiff x y => denote x c && negb (denote y c)
  | SNeg x => negb (denote x c)
  end.
