(** What a regular expression matches. *)
From Coq Require Import List Ascii.
From Verif Require Import FlexModel.
Import ListNotations.

Inductive lang : re -> text -> Prop :=
| l_eps : lang REps []
| l_cls f c : f c = true -> lang (RCls f) [c]
| l_altl a b w : lang a w -> lang (RAlt a b) w
| l_altr a b w : lang b w -> lang (RAlt a b) w
| l_seq a b v w : lang a v -> lang b w -> lang (RSeq a b) (v ++ w)
| l_nil a : lang (RStar a) []
| l_star a v w : lang a v -> lang (RStar a) w -> lang (RStar a) (v ++ w).

(** [n] is the length of the longest prefix of [s] in [r]. *)
Definition is_longest (r : re) (s : text) (n : nat) : Prop :=
  n <= length s /\ lang r (firstn n s) /\
  forall m, m <= length s -> lang r (firstn m s) -> m <= n.
