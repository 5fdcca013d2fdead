(** What a user expects of a line table, in terms of the newline offsets
    only (no buffer, no cache, no search). *)
From Coq Require Import List ZArith Bool.
From Verif Require Import LocationTableModel.
Import ListNotations.
Local Open Scope Z_scope.

(** Newlines strictly before offset [x]. *)
Definition before (nls : list Z) (x : Z) : list Z := filter (fun o => o <? x) nls.

(** Line = how many newlines precede; column = distance from the character
    after the last preceding newline. *)
Definition spec_position (nls : list Z) (x : Z) : Z * Z :=
  if x <? 0 then (-1, -1)
  else (Z.of_nat (length (before nls x)),
        x - fold_right Z.max 0 (map (fun o => o + 1) (before nls x))).

(** Answers to the queries of a client program; [nls] = newlines so far. *)
Fixpoint spec_answers (nls : list Z) (ops : list op) : list (Z * Z) :=
  match ops with
  | [] => []
  | Newline o :: r => spec_answers (nls ++ [o]) r
  | Query x :: r => spec_position nls x :: spec_answers nls r
  | Resize _ :: r => spec_answers nls r
  end.

(** Client obligations: newline offsets non-negative, increasing and below
    the largest qint64; explicit resizes keep room for the recorded lines.
    [last] = last newline (or -1), [n] = number of recorded line starts. *)
Fixpoint legal (last : Z) (n : nat) (ops : list op) : Prop :=
  match ops with
  | [] => True
  | Newline o :: r => last < o /\ o < 9223372036854775807 /\ legal o (S n) r
  | Query _ :: r => legal last n r
  | Resize k :: r => (n <= k)%nat /\ legal last n r
  end.

Fixpoint newlines (ops : list op) : list Z :=
  match ops with
  | [] => []
  | Newline o :: r => o :: newlines r
  | _ :: r => newlines r
  end.
