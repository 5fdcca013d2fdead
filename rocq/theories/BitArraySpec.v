(** A bit array is a function from indices to booleans. *)
From Coq Require Import List NArith Bool.
Import ListNotations.
Local Open Scope N_scope.

(** Content after a list of writes, the last write wins, default false. *)
Fixpoint content (l : list (N * bool)) (x : N) (d : bool) : bool :=
  match l with
  | [] => d
  | (y, v) :: r => content r x (if x =? y then v else d)
  end.
