(** What literals mean, stated without the code: a text spells a sequence of
    characters. *)
From Coq Require Import List NArith Bool.
From Verif Require Import UtfSpec.
Import ListNotations.
Local Open Scope N_scope.

(** The letters: \x \X \u \U hexadecimal, \d \D decimal, \o \O octal, \y \Y binary. *)
Definition radix : list (N * N) := [(120, 16); (88, 16); (117, 16); (85, 16); (100, 10); (68, 10); (111, 8); (79, 8); (121, 2); (89, 2)].
(** \n \t \f \v \r \0 \b \a. *)
Definition short : list (N * N) := [(110, 10); (116, 9); (102, 12); (118, 11); (114, 13); (48, 0); (98, 8); (97, 7)].
(** [c] is a digit of value [d]. *)
Inductive numeral : N -> N -> Prop :=
| num_09 d : d < 10 -> numeral (48 + d) d
| num_af d : d < 6 -> numeral (97 + d) (10 + d)
| num_AF d : d < 6 -> numeral (65 + d) (10 + d).
Definition is_digit (base c : N) : Prop := exists d, numeral c d /\ d < base.
(** [digits base ds v]: [ds] is [v] in base [base], with any number of zeros in front. *)
Inductive digits (base : N) : list N -> N -> Prop :=
| ds_one c d : numeral c d -> d < base -> digits base [c] d
| ds_more ds v c d : digits base ds v -> numeral c d -> d < base -> digits base (ds ++ [c]) (v * base + d).
Definition ends_number (base : N) (s : list N) : Prop := match s with [] => True | c :: _ => ~ is_digit base c end.

Inductive spells : list N -> list N -> Prop :=
| sp_nil : spells [] []
| sp_plain c s cs : c < 256 -> c <> 92 -> spells s cs -> spells (c :: s) (c :: cs)
| sp_short l c s cs : In (l, c) short -> spells s cs -> spells (92 :: l :: s) (c :: cs)
| sp_number l base ds c s cs : In (l, base) radix -> digits base ds c -> code_point c -> ends_number base s -> spells s cs ->
    spells (92 :: l :: ds ++ s) (c :: cs)
| sp_other c s cs : c < 256 -> ~ In c (map fst radix) -> ~ In c (map fst short) -> spells s cs -> spells (92 :: c :: s) (c :: cs).
